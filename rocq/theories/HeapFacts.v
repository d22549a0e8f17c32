(** Structures in one heap do not interfere. *)
From Coq Require Import Arith.
From Verif Require Import Num PyDict Coo ModelBase ModelGraph ModelDiGraph ModelBiGraph ModelHeap.
Set Implicit Arguments.
Local Open Scope nat_scope.

Lemma NoDup_app_l {A} (l r : list A) : NoDup (l ++ r) -> NoDup l.
Proof.
  induction l as [|a l IH]; cbn; intros N; [constructor|]. inversion N; subst. constructor; auto.
  intros I. apply H1, in_or_app; auto.
Qed.
Lemma NoDup_app_r {A} (l r : list A) : NoDup (l ++ r) -> NoDup r.
Proof. induction l as [|a l IH]; cbn; intros N; auto. inversion N; auto. Qed.

Section Heap.
  Variable C : hclass.
  (** the class behaves: states are determined by their parts, slots are fixed in number, and
      nothing is shared on copying *)
  Definition hclass_ok : Prop :=
    (forall s, h_pack C (h_imm C s) (h_cells C s) = s) /\
    (exists n, forall s, length (h_cells C s) = n) /\
    (forall d k, h_share C d k = false) /\ (forall k, h_from_share C k = false).
  Hypothesis OK : hclass_ok.

  Definition addrs (W : world C) : list nat := flat_map (fun x => snd x) (w_objs W).
  (** every address belongs to one slot of one structure, is allocated and filled *)
  Definition separated (W : world C) : Prop :=
    NoDup (addrs W) /\
    (forall a, In a (addrs W) -> a < w_next W /\ w_heap W a <> None) /\
    (forall x, In x (w_objs W) -> exists s, length (snd x) = length (h_cells C s)).

  Lemma read_length h l : (forall a, In a l -> h a <> None) -> length (@read C h l) = length l.
  Proof.
    induction l as [|a l IH]; cbn; intros F; auto. destruct (h a) eqn:E; [cbn; rewrite IH; auto|].
    exfalso. apply (F a); auto.
  Qed.
  Lemma read_ext h h' l : (forall a, In a l -> h a = h' a) -> @read C h l = @read C h' l.
  Proof.
    induction l as [|a l IH]; cbn; intros F; auto. rewrite (F a) by auto. destruct (h' a); [f_equal|]; apply IH; auto.
  Qed.
  (** what [store] does *)
  Lemma store_facts keep vs : forall k old h n, NoDup old -> (forall a, In a old -> a < n) ->
    (length vs = length old \/ (forall j, keep j = false)) ->
    let '(l, h', n') := @store C keep k old vs h n in
    length l = length vs /\ NoDup l /\ n <= n' /\
    (forall a, In a l -> (In a old \/ n <= a) /\ a < n') /\
    (forall a, ~ In a old -> a < n -> h' a = h a) /\
    (forall a, ~ In a l -> h' a = h a) /\
    read C h' l = vs /\ (forall a, In a l -> h' a <> None).
  Proof.
    induction vs as [|v vs IH]; intros k old h n ND LT LEN; cbn [store].
    { repeat split; auto; try (intros; cbn in *; tauto). constructor. }
    set (a := if keep k then match old with b :: _ => b | [] => n end else n).
    set (n1 := if Nat.eqb a n then S n else n).
    assert (LEN' : length vs = length (tl old) \/ (forall j, keep j = false)).
    { destruct LEN as [L|L]; auto. left. destruct old; cbn in *; lia. }
    assert (ND' : NoDup (tl old)) by (destruct old; cbn; auto; inversion ND; auto).
    assert (INC : forall x, In x (tl old) -> In x old) by (destruct old; cbn; auto).
    assert (A : (In a old /\ ~ In a (tl old) /\ a < n /\ n1 = n) \/ (a = n /\ n1 = S n)).
    { unfold n1, a. destruct (keep k) eqn:K.
      - destruct old as [|b old]; cbn in *.
        + destruct LEN as [L|L]; [lia|]. rewrite L in K; discriminate.
        + left. split; auto. inversion ND; subst. split; auto. assert (b < n) by (apply LT; auto). split; auto.
          destruct (Nat.eqb_spec b n); lia.
      - right. rewrite Nat.eqb_refl; auto. }
    assert (N1 : n <= n1) by lia.
    specialize (IH (S k) (tl old) (put C h a v) n1 ND').
    assert (LT' : forall x, In x (tl old) -> x < n1) by (intros x I; apply INC, LT in I; lia).
    specialize (IH LT' LEN'). fold a. fold n1.
    destruct (store C keep (S k) (tl old) vs (put C h a v) n1) as [[l h'] n'] eqn:E.
    destruct IH as (L1 & D1 & N' & R1 & P1 & P2 & RD & FI).
    assert (AL : ~ In a l).
    { intros I. apply R1 in I as [[I|I] _]; destruct A as [(A1 & A2 & A3 & A4)|(A1 & A2)]; try tauto; try lia.
      apply INC, LT in I. lia. }
    assert (HA : h' a = Some v).
    { rewrite P2 by auto. unfold put. rewrite Nat.eqb_refl; auto. }
    split; [cbn; lia|]. split; [constructor; auto|]. split; [lia|]. split.
    { intros x [<-|I].
      - destruct A as [(A1 & A2 & A3 & A4)|(A1 & A2)]; split; auto; lia.
      - apply R1 in I as [[I|I] I2]; split; auto; lia. }
    split.
    { intros x NI LX. rewrite P1.
      - unfold put. destruct (Nat.eqb_spec a x); auto. subst x. destruct A as [(A1 & _)|(A1 & _)]; [tauto|lia].
      - auto.
      - lia. }
    split.
    { intros x NI. rewrite P2 by (cbn in NI; tauto). unfold put. destruct (Nat.eqb_spec a x); auto. subst; cbn in NI; tauto. }
    split.
    { cbn. rewrite HA, RD. reflexivity. }
    { intros x [<-|I]; [congruence|apply FI; auto]. }
  Qed.

  Lemma deref_ext (W W' : world C) x : (forall a, In a (snd x) -> w_heap W a = w_heap W' a) -> deref W x = deref W' x.
  Proof. intros E. unfold deref. rewrite (read_ext _ _ _ E). reflexivity. Qed.

  Lemma nth_split_objs (W : world C) i x : nth_error (w_objs W) i = Some x ->
    exists l1 l2, w_objs W = l1 ++ x :: l2 /\ length l1 = i.
  Proof. apply nth_error_split. Qed.
  Lemma upd_app {A} (l1 l2 : list A) x y : upd (l1 ++ x :: l2) (length l1) y = l1 ++ y :: l2.
  Proof. induction l1; cbn; congruence. Qed.
  Lemma nth_upd_same {A} (l : list A) i x y : nth_error l i = Some x -> nth_error (upd l i y) i = Some y.
  Proof. revert i; induction l as [|a l IH]; intros [|i]; cbn; try discriminate; auto. Qed.
  Lemma nth_upd_other {A} (l : list A) i j y : i <> j -> nth_error (upd l i y) j = nth_error l j.
  Proof. revert i j; induction l as [|a l IH]; intros [|i] [|j] N; cbn; auto; try lia. Qed.
  Lemma in_addrs (W : world C) x a : In x (w_objs W) -> In a (snd x) -> In a (addrs W).
  Proof. intros X I. unfold addrs. apply in_flat_map. eauto. Qed.

  (** adding a structure *)
  Lemma add_obj_facts (W : world C) share old s : separated W -> (forall k, share k = false) ->
    separated (add_obj W share old s) /\
    (forall i x, nth_error (w_objs W) i = Some x ->
       nth_error (w_objs (add_obj W share old s)) i = Some x /\ deref (add_obj W share old s) x = deref W x) /\
    length (w_objs (add_obj W share old s)) = S (length (w_objs W)) /\
    look (add_obj W share old s) (length (w_objs W)) = Some s.
  Proof.
    intros (ND & AL & LN) SH. unfold add_obj.
    (* with nothing shared the old addresses are irrelevant *)
    assert (ST : forall vs k h n old, @store C share k old vs h n = @store C share k [] vs h n).
    { clear -SH. induction vs as [|v vs IH]; intros k h n old; cbn [store]; auto. rewrite (SH k). rewrite (IH _ _ _ (tl old)). reflexivity. }
    rewrite ST.
    pose proof (@store_facts share (h_cells C s) 0 [] (w_heap W) (w_next W) (NoDup_nil _)) as F.
    assert (F1 : forall a, In a (@nil nat) -> a < w_next W) by (cbn; tauto). specialize (F F1 (or_intror SH)). clear F1.
    destruct (store C share 0 [] (h_cells C s) (w_heap W) (w_next W)) as [[l h] n]. destruct F as (L & D & N & R & P1 & P2 & RD & FI).
    set (W' := mkW C (w_objs W ++ [(h_imm C s, l)]) (w_hands W) h n).
    assert (OLD : forall a, In a (addrs W) -> h a = w_heap W a) by (intros a I; apply P1; [cbn; tauto|apply AL; auto]).
    assert (AD : addrs W' = addrs W ++ l) by (unfold addrs, W'; cbn; rewrite flat_map_app; cbn; rewrite app_nil_r; auto).
    split; [|split; [|split]].
    - split; [|split].
      + rewrite AD. clear -ND D R AL. revert ND AL. generalize (addrs W). induction l0 as [|a l0 IH]; cbn; intros ND AL; auto.
        inversion ND; subst. constructor; [|apply IH; auto]. intros I. apply in_app_or in I as [I|I]; [tauto|].
        destruct (AL a) as [LT _]; auto. apply R in I as [[[]|I] _]. lia.
      + intros a. rewrite AD, in_app_iff. cbn. intros [I|I].
        * destruct (AL a I) as [L1 L2]. split; [lia|]. rewrite OLD; auto.
        * split; [apply R; auto|apply FI; auto].
      + intros x I. cbn in I. apply in_app_or in I as [I|[<-|[]]]; [apply LN; auto|]. exists s; cbn; auto.
    - intros i x E. split.
      + cbn. rewrite nth_error_app1; auto. apply nth_error_Some; congruence.
      + apply deref_ext. intros a I. cbn. apply OLD. eapply in_addrs; eauto. eapply nth_error_In; eauto.
    - cbn. rewrite app_length; cbn. lia.
    - unfold look. cbn. rewrite nth_error_app2, Nat.sub_diag by lia. cbn. f_equal. unfold deref; cbn. rewrite RD. apply OK.
  Qed.

  (** a method call *)
  Lemma call_facts (W : world C) i x p : separated W -> nth_error (w_objs W) i = Some x ->
    let W' := fst (w_step W (WCall C i p)) in
    separated W' /\ length (w_objs W') = length (w_objs W) /\
    look W' i = Some (fst (h_call C p (deref W x))) /\
    snd (w_step W (WCall C i p)) = Some (snd (h_call C p (deref W x))) /\
    (forall j, j <> i -> look W' j = look W j).
  Proof.
    intros (ND & AL & LN) E. cbn [w_step]. rewrite E.
    destruct (h_call C p (deref W x)) as [s' out] eqn:HC.
    destruct (nth_split_objs W i E) as (l1 & l2 & OE & LE).
    assert (XI : In x (w_objs W)) by (eapply nth_error_In; eauto).
    assert (ADW : addrs W = flat_map (fun x => snd x) l1 ++ snd x ++ flat_map (fun x => snd x) l2).
    { unfold addrs. rewrite OE, flat_map_app. reflexivity. }
    assert (NX : NoDup (snd x)).
    { rewrite ADW in ND. apply NoDup_app_r, NoDup_app_l in ND. auto. }
    assert (LX : forall a, In a (snd x) -> a < w_next W).
    { intros a I. apply AL. eapply in_addrs; eauto. }
    assert (LL : length (h_cells C s') = length (snd x)).
    { destruct OK as (_ & (n & CN) & _). destruct (LN x XI) as (s0 & ->). rewrite !CN; auto. }
    pose proof (@store_facts (fun k => negb (h_rebind C p k)) (h_cells C s') 0 (snd x) (w_heap W) (w_next W) NX LX (or_introl LL)) as F.
    destruct (store C _ 0 (snd x) (h_cells C s') (w_heap W) (w_next W)) as [[l h] n]. destruct F as (L & D & N & R & P1 & P2 & RD & FI).
    cbn [fst snd]. set (W' := mkW C (upd (w_objs W) i (h_imm C s', l)) (w_hands W) h n).
    assert (OE' : w_objs W' = l1 ++ (h_imm C s', l) :: l2) by (cbn; rewrite OE, <- LE; apply upd_app).
    assert (AD' : addrs W' = flat_map (fun x => snd x) l1 ++ l ++ flat_map (fun x => snd x) l2).
    { unfold addrs. rewrite OE', flat_map_app. reflexivity. }
    set (A1 := flat_map (fun x => snd x) l1) in *. set (A2 := flat_map (fun x => snd x) l2) in *.
    assert (DIS : forall a, In a A1 \/ In a A2 -> ~ In a (snd x) /\ a < w_next W /\ w_heap W a <> None).
    { intros a I. split.
      - intros J. rewrite ADW in ND. destruct I as [I|I].
        + assert (ND2 : NoDup ((A1 ++ snd x) ++ A2)) by (rewrite <- app_assoc; exact ND).
          apply NoDup_app_l in ND2. clear -ND2 I J. induction A1 as [|b A1 IH]; [destruct I|].
          cbn in ND2. inversion ND2; subst. destruct I as [->|I]; auto. apply H1, in_or_app; auto.
        + apply NoDup_app_r in ND. clear -ND I J. induction (snd x) as [|b l IH]; [destruct J|].
          cbn in ND. inversion ND; subst. destruct J as [->|J]; auto. apply H1, in_or_app; auto.
      - apply AL. rewrite ADW, !in_app_iff. tauto. }
    assert (NL : forall a, In a A1 \/ In a A2 -> ~ In a l).
    { intros a I J. apply DIS in I as (I1 & I2 & _). apply R in J as [[J|J] _]; [tauto|lia]. }
    split; [split; [|split]|split; [|split; [|split]]].
    - rewrite AD'. rewrite ADW in ND.
      assert (ND12 : NoDup (A1 ++ A2)).
      { clear -ND. induction (snd x) as [|b l IH]; auto. apply NoDup_remove_1 in ND. auto. }
      clear -ND12 D NL. induction l as [|b l IH]; auto. cbn.
      apply NoDup_Add with (a := b) (l := A1 ++ l ++ A2); [apply Add_app|].
      inversion D; subst. split; [apply IH; auto; intros a I J; apply (NL a I); cbn; auto|].
      rewrite !in_app_iff. intros [I|[I|I]]; auto; apply (NL b); cbn; auto.
    - intros a. rewrite AD', !in_app_iff. cbn [w_next w_heap W']. intros I.
      assert (J : (In a A1 \/ In a A2) \/ In a l) by tauto. destruct J as [J|J].
      + destruct (DIS a J) as (J1 & J2 & J3). split; [lia|]. rewrite P1; auto.
      + split; [apply R; auto|apply FI; auto].
    - intros y I. rewrite OE' in I. apply in_app_or in I as [I|[<-|I]].
      + apply LN. rewrite OE. apply in_or_app; auto.
      + exists s'; cbn; auto.
      + apply LN. rewrite OE. apply in_or_app; cbn; auto.
    - rewrite OE', OE. rewrite !app_length. reflexivity.
    - unfold look. rewrite OE', <- LE, nth_error_app2, Nat.sub_diag by lia. cbn [nth_error]. f_equal. unfold deref; cbn. rewrite RD. apply OK.
    - reflexivity.
    - intros j NJ. unfold look. cbn [w_objs W']. rewrite nth_upd_other by auto.
      destruct (nth_error (w_objs W) j) as [y|] eqn:EJ; auto. f_equal. apply deref_ext. intros a I. cbn. apply P1.
      + apply (DIS a). rewrite OE in EJ. destruct (Nat.lt_ge_cases j (length l1)) as [G|G].
        * rewrite nth_error_app1 in EJ by auto. left. apply in_flat_map. exists y; split; auto. eapply nth_error_In; eauto.
        * rewrite nth_error_app2 in EJ by auto. destruct (j - length l1) eqn:Q; [lia|]. cbn in EJ.
          right. apply in_flat_map. exists y; split; auto. eapply nth_error_In; eauto.
      + apply (DIS a). rewrite OE in EJ. destruct (Nat.lt_ge_cases j (length l1)) as [G|G].
        * rewrite nth_error_app1 in EJ by auto. left. apply in_flat_map. exists y; split; auto. eapply nth_error_In; eauto.
        * rewrite nth_error_app2 in EJ by auto. destruct (j - length l1) eqn:Q; [lia|]. cbn in EJ.
          right. apply in_flat_map. exists y; split; auto. eapply nth_error_In; eauto.
  Qed.

  Lemma sep_empty : separated (@w_empty C).
  Proof. split; [constructor|]. split; cbn; tauto. Qed.
  Lemma look_old (W : world C) share old s i : separated W -> (forall k, share k = false) -> i < length (w_objs W) ->
    look (add_obj W share old s) i = look W i.
  Proof.
    intros SP SH LI. destruct (@add_obj_facts W share old s SP SH) as (_ & K & _). unfold look.
    destruct (nth_error (w_objs W) i) as [x|] eqn:E; [|apply nth_error_None in E; lia].
    destruct (K i x E) as [-> ->]. reflexivity.
  Qed.
  (** one step: separation is kept and only the called structure changes *)
  Lemma step_facts (W : world C) o : separated W ->
    let W' := fst (w_step W o) in
    separated W' /\ length (w_objs W) <= length (w_objs W') /\
    (forall i, i < length (w_objs W) -> (forall p, o <> WCall C i p) -> look W' i = look W i).
  Proof.
    intros SP. destruct OK as (_ & _ & SH & FS). destruct o as [s|i d|i|k|i p]; cbn [w_step].
    - cbn [fst]. destruct (@add_obj_facts W (fun _ => false) [] s SP (fun _ => eq_refl)) as (A & _ & B & _).
      split; auto. split; [lia|]. intros; apply look_old; auto.
    - destruct (nth_error (w_objs W) i) as [x|]; [destruct (h_derive C d (deref W x)) as [s|]|]; cbn [fst]; auto.
      destruct (@add_obj_facts W (h_share C d) (snd x) s SP (SH d)) as (A & _ & B & _).
      split; auto. split; [lia|]. intros; apply look_old; auto.
    - destruct (nth_error (w_objs W) i) as [x|]; cbn [fst]; auto.
    - destruct (nth_error (w_hands W) k) as [x|]; [destruct (h_from C (deref W x)) as [s|]|]; cbn [fst]; auto.
      destruct (@add_obj_facts W (h_from_share C) (snd x) s SP FS) as (A & _ & B & _).
      split; auto. split; [lia|]. intros; apply look_old; auto.
    - destruct (nth_error (w_objs W) i) as [x|] eqn:E.
      + pose proof (@call_facts W i x p SP E) as F. cbv zeta in F. cbn [w_step] in F. rewrite E in F.
        destruct F as (A & B & _ & _ & D). split; auto. split; [lia|]. intros j LJ NJ. apply D. intros ->. apply (NJ p); auto.
      + cbn. auto.
  Qed.

  (** the calls made on structure [i], and the answers they got *)
  Fixpoint own (i : nat) (ops : list (wop C)) : list (hP C) :=
    match ops with
    | [] => []
    | WCall _ j p :: r => if Nat.eqb i j then p :: own i r else own i r
    | _ :: r => own i r
    end.
  Fixpoint own_out (i : nat) (ops : list (wop C)) (outs : list (option (hO C))) : list (option (hO C)) :=
    match ops, outs with
    | WCall _ j p :: r, x :: xs => if Nat.eqb i j then x :: own_out i r xs else own_out i r xs
    | _ :: r, _ :: xs => own_out i r xs
    | _, _ => []
    end.
  Fixpoint alone (ps : list (hP C)) (s : hS C) : hS C * list (option (hO C)) :=
    match ps with
    | [] => (s, [])
    | p :: r => let (s1, x) := h_call C p s in let (s2, xs) := alone r s1 in (s2, Some x :: xs)
    end.

  Lemma run_sep (W : world C) ops : separated W -> separated (fst (w_run W ops)) /\ length (w_objs W) <= length (w_objs (fst (w_run W ops))).
  Proof.
    revert W; induction ops as [|o ops IH]; intros W SP; cbn [w_run]; auto.
    pose proof (step_facts o SP) as (A & B & _). destruct (w_step W o) as [W1 x]; cbn [fst] in *.
    specialize (IH W1 A). destruct (w_run W1 ops) as [W2 xs]; cbn [fst] in *. destruct IH; split; auto; lia.
  Qed.
  Lemma run_own (W : world C) ops i s : separated W -> look W i = Some s ->
    look (fst (w_run W ops)) i = Some (fst (alone (own i ops) s)) /\
    own_out i ops (snd (w_run W ops)) = snd (alone (own i ops) s).
  Proof.
    revert W s; induction ops as [|o ops IH]; intros W s SP LK; cbn [w_run]; [auto|].
    assert (LI : i < length (w_objs W)).
    { unfold look in LK. apply nth_error_Some. destruct (nth_error (w_objs W) i); congruence. }
    pose proof (step_facts o SP) as (A & B & D).
    destruct (w_step W o) as [W1 x] eqn:ST; cbn [fst] in *.
    destruct (w_run W1 ops) as [W2 xs] eqn:RU; cbn [fst snd].
    assert (NC : (forall p, o <> WCall C i p) -> look W1 i = Some s) by (intros NC; rewrite D; auto).
    destruct o as [s0|j d|j|k|j p]; cbn [own own_out].
    1-4: specialize (IH W1 s A (NC ltac:(discriminate))); rewrite RU in IH; exact IH.
    destruct (Nat.eqb_spec i j) as [<-|NE].
    - unfold look in LK. destruct (nth_error (w_objs W) i) as [y|] eqn:E; [|discriminate]. injection LK as <-.
      pose proof (@call_facts W i y p SP E) as F. cbv zeta in F. rewrite ST in F. cbn [fst snd] in F.
      destruct F as (_ & _ & L & -> & _). cbn [alone]. destruct (h_call C p (deref W y)) as [s1 ou]; cbn [fst snd] in *.
      specialize (IH W1 s1 A L). rewrite RU in IH. cbn [fst snd] in IH. destruct (alone (own i ops) s1); cbn [fst snd] in *.
      destruct IH as [-> ->]; auto.
    - specialize (IH W1 s A). rewrite RU in IH. apply IH. apply NC. intros q Q. injection Q as -> _. tauto.
  Qed.
  (** a new structure holds what was copied, at the moment of copying *)
  Lemma derive_facts (W : world C) i d s s' : separated W -> look W i = Some s -> h_derive C d s = Some s' ->
    look (fst (w_step W (WDerive C i d))) (length (w_objs W)) = Some s'.
  Proof.
    intros SP LK DE. unfold look in LK. cbn [w_step]. destruct (nth_error (w_objs W) i) as [x|]; [|discriminate].
    injection LK as ->. rewrite DE. cbn [fst]. apply add_obj_facts; auto. apply OK.
  Qed.
  Lemma from_facts (W : world C) i s s' : separated W -> look W i = Some s -> h_from C s = Some s' ->
    let W1 := fst (w_step W (WState C i)) in
    look (fst (w_step W1 (WFrom C (length (w_hands W))))) (length (w_objs W)) = Some s'.
  Proof.
    intros SP LK FR. unfold look in LK. cbn [w_step]. destruct (nth_error (w_objs W) i) as [x|] eqn:E; [|discriminate].
    injection LK as LK. cbv zeta. cbn [fst]. set (W1 := mkW C (w_objs W) (w_hands W ++ [x]) (w_heap W) (w_next W)).
    cbn [w_hands W1]. rewrite nth_error_app2, Nat.sub_diag by lia. cbn [nth_error].
    change (deref W1 x) with (deref W x). rewrite LK, FR. cbn [fst].
    change (length (w_objs W)) with (length (w_objs W1)).
    apply (@add_obj_facts W1); [exact SP|]. apply OK.
  Qed.
End Heap.

Section Classes.
  Context {T : Type} `{Num T}.
  Lemma graph_ok : hclass_ok graph_class.
  Proof.
    split; [|split; [|split]]; try reflexivity.
    - intros [[] c]; reflexivity.
    - exists 3; reflexivity.
  Qed.
  Lemma digraph_ok : hclass_ok digraph_class.
  Proof.
    split; [|split; [|split]]; try reflexivity.
    - intros [[] c]; reflexivity.
    - exists 3; reflexivity.
  Qed.
  Lemma bigraph_ok : hclass_ok bigraph_class.
  Proof.
    split; [|split; [|split]]; try reflexivity.
    - intros [[] c]; reflexivity.
    - exists 2; reflexivity.
  Qed.
  Lemma hypergraph_ok : hclass_ok (@hypergraph_class T H).
  Proof.
    split; [|split; [|split]]; try reflexivity.
    - intros [[] c]; reflexivity.
    - exists 3; reflexivity.
  Qed.
End Classes.
