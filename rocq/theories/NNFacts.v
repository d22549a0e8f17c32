(** Facts about linear maps and columns, used for the layers. *)
From Coq Require Import Ring.
From Verif Require Import Num Coo CooFacts ModelBase ModelGraph ModelHyper ModelConv ModelUtils ModelNN SpecNN MatFacts GraphMatrix.
Set Implicit Arguments.
Open Scope Z_scope.

Section NNFacts.
  Context {T : Type} {N : Num T}.

  Lemma combine_nth2 {A B} (l : list A) (l' : list B) n d d' : (n < length l)%nat -> (n < length l')%nat ->
    nth n (combine l l') (d, d') = (nth n l d, nth n l' d').
  Proof.
    revert l' n. induction l as [|a l IH]; intros [|b l'] [|n] A1 A2; cbn in *; try lia; auto. apply IH; lia.
  Qed.
  Lemma sumf_combine_nth (r : list T) (X : list (Z -> T)) v : length r = length X ->
    sumf (combine r X) (fun wx => nmul (snd wx v) (fst wx)) = sumf (seq 0 (length X)) (fun k => nmul (chan X k v) (nth k r nz)).
  Proof.
    intros L. unfold chan.
    assert (G : forall (X : list (Z -> T)) r p, length r = length X -> forall X0 r0, length X0 = p -> length r0 = p ->
      sumf (combine r X) (fun wx => nmul (snd wx v) (fst wx)) =
      sumf (seq p (length X)) (fun k => nmul (nth k (X0 ++ X) (fun _ => nz) v) (nth k (r0 ++ r) nz))).
    { clear. induction X as [|x X IH]; intros [|a r] p L X0 r0 L1 L2; cbn in *; try discriminate; auto.
      rewrite !app_nth2, L1, L2 by lia. rewrite !Nat.sub_diag. cbn. f_equal.
      rewrite (IH r (S p) ltac:(lia) (X0 ++ [x]) (r0 ++ [a])) by (rewrite app_length; cbn; lia).
      apply sumf_ext. intros k. rewrite <- !app_assoc. reflexivity. }
    exact (G X r 0%nat L [] [] eq_refl eq_refl).
  Qed.

  Lemma linear_spec (L : lin (T := T)) X c : fits L (length X) c -> exists H, linear L X = Ok H /\ length H = c /\
    forall j v, (j < c)%nat -> chan H j v = affine L (length X) (fun k => chan X k v) j.
  Proof.
    intros (LC & FR & LB). unfold linear.
    replace (forallb _ _) with true.
    2:{ symmetry. apply forallb_forall. intros r I. apply Nat.eqb_eq. rewrite Forall_forall in FR. auto. }
    set (bs := match l_b L with Some b => b | None => map (fun _ => nz) (l_w L) end).
    assert (LBS : length bs = c). { unfold bs. destruct (l_b L) eqn:E; auto. rewrite map_length. auto. }
    eexists; split; [reflexivity|]. split; [rewrite map_length, combine_length; lia|].
    intros j v J. unfold chan at 1.
    set (F := fun (rb : list T * T) v => _).
    rewrite (nth_indep _ (fun _ => nz) (F ([], nz))) by (rewrite map_length, combine_length; lia).
    rewrite map_nth, combine_nth2 by lia. unfold F; cbn [fst snd]. unfold affine. f_equal.
    - rewrite sumf_combine_nth; auto. rewrite Forall_forall in FR. apply FR. apply nth_In. lia.
    - unfold bias, bs. destruct (l_b L); auto.
      clear. generalize (l_w L). intros l. revert j. induction l as [|a l IH]; intros [|j]; cbn; auto.
  Qed.
  Lemma linear_bad (L : lin (T := T)) X r : In r (l_w L) -> length r <> length X -> linear L X = Err RuntimeError.
  Proof.
    intros I NE. unfold linear. replace (forallb _ _) with false; auto. symmetry. apply Bool.not_true_is_false. intros E.
    rewrite forallb_forall in E. apply NE, Nat.eqb_eq, E, I.
  Qed.

  Lemma map_combine_self {A B C} (f : A * B -> C) (g : A -> B) l : map f (combine l (map g l)) = map (fun a => f (a, g a)) l.
  Proof. induction l as [|a l IH]; cbn; auto. rewrite IH. reflexivity. Qed.
  Lemma map_res_ok {A B} (f : A -> res B) (g : A -> B) l : (forall a, In a l -> f a = Ok (g a)) -> map_res f l = Ok (map g l).
  Proof.
    induction l as [|a l IH]; intros E; cbn; auto. rewrite E by (left; auto). cbn. rewrite IH by (intros; apply E; right; auto). reflexivity.
  Qed.

  (** a matrix whose columns are [f 0], [f 1], ... *)
  Definition mat (c : nat) (rows : Z) (F : nat -> Z -> T) : list (list T) := map (fun j => map (F j) (range rows)) (seq 0 c).
  Lemma mat_shaped c n F : shaped (mat c n F) c n.
  Proof.
    unfold mat, shaped. rewrite map_length, seq_length. split; auto. rewrite Forall_forall. intros x I. apply in_map_iff in I as (j & <- & _).
    unfold range. rewrite !map_length, seq_length. reflexivity.
  Qed.
  Lemma range_nth n i d : 0 <= i < n -> nth (Z.to_nat i) (range n) d = i.
  Proof.
    intros I. unfold range. rewrite (nth_indep _ d (Z.of_nat 0)) by (rewrite map_length, seq_length; lia).
    rewrite map_nth, seq_nth by lia. lia.
  Qed.
  Lemma range_length n : length (range n) = Z.to_nat n.
  Proof. unfold range. rewrite map_length, seq_length. reflexivity. Qed.
  Lemma nth_map_range (f : Z -> T) n i : 0 <= i < n -> nth (Z.to_nat i) (map f (range n)) nz = f i.
  Proof.
    intros I. rewrite (nth_indep _ nz (f 0)) by (rewrite map_length, range_length; lia). rewrite map_nth, range_nth; auto.
  Qed.
  Lemma vec_map (f : Z -> T) n i : 0 <= i < n -> vec (map f (range n)) i = f i.
  Proof. apply nth_map_range. Qed.
  Lemma nth_map_seq {A} (f : nat -> A) c j d : (j < c)%nat -> nth j (map f (seq 0 c)) d = f j.
  Proof. intros J. rewrite (nth_indep _ d (f 0%nat)) by (rewrite map_length, seq_length; lia). rewrite map_nth, seq_nth; auto. Qed.
  Lemma mat_entry c n F j i : (j < c)%nat -> 0 <= i < n -> entry (mat c n F) j i = F j i.
  Proof. intros J I. unfold entry, mat. rewrite nth_map_seq by auto. apply nth_map_range; auto. Qed.

  (** one question per column *)
  Lemma columns (Q : (Z -> T) -> res (list T)) (F : (Z -> T) -> Z -> T) n (H : list (Z -> T)) :
    (forall h, Q h = Ok (map (F h) (range n))) -> map_res Q H = Ok (mat (length H) n (fun j => F (chan H j))).
  Proof.
    intros E. rewrite (@map_res_ok _ _ Q (fun h => map (F h) (range n)) H) by auto. f_equal. unfold mat. clear E.
    assert (G : forall (H H0 : list (Z -> T)), map (fun h => map (F h) (range n)) H =
      map (fun j => map (F (nth j (H0 ++ H) (fun _ => nz))) (range n)) (seq (length H0) (length H))).
    { clear. induction H as [|h H IH]; intros H0; cbn; auto. rewrite app_nth2, Nat.sub_diag by lia. cbn. f_equal.
      rewrite (IH (H0 ++ [h])), app_length. cbn. rewrite Nat.add_1_r. apply map_ext. intros j. rewrite <- app_assoc. reflexivity. }
    unfold chan. exact (G H []).
  Qed.
  Lemma map_range_mat n (H : list (Z -> T)) : map (fun h => map h (range n)) H = mat (length H) n (chan H).
  Proof.
    assert (E := @columns (fun h => Ok (map h (range n))) (fun h => h) n H (fun h => eq_refl)).
    rewrite (@map_res_ok _ _ _ (fun h => map h (range n)) H) in E by auto. injection E as E. exact E.
  Qed.
  Lemma mat_ext c n F G : (forall j i, (j < c)%nat -> 0 <= i < n -> F j i = G j i) -> mat c n F = mat c n G.
  Proof.
    intros E. unfold mat. apply map_ext_in. intros j J. apply in_seq in J. apply map_ext_in. intros i I.
    unfold range in I. apply in_map_iff in I as (k & <- & I). apply in_seq in I. apply E; lia.
  Qed.
  Lemma columns_vec (Q : (Z -> T) -> res (list T)) (F : (Z -> T) -> Z -> T) n c G m :
    (forall h, Q h = Ok (map (F h) (range n))) ->
    (forall h h', (forall i, 0 <= i < m -> h i = h' i) -> forall v, 0 <= v < n -> F h v = F h' v) ->
    map_res (fun y => Q (vec y)) (mat c m G) = Ok (mat c n (fun j => F (G j))).
  Proof.
    intros E X. rewrite (@map_res_ok _ _ (fun y => Q (vec y)) (fun y => map (F (vec y)) (range n)) (mat c m G)) by auto. f_equal.
    unfold mat. rewrite map_map. apply map_ext_in. intros j _. apply map_ext_in. intros v I. unfold range in I. apply in_map_iff in I as (k & <- & I).
    apply in_seq in I. apply X; [|lia]. intros i I2. apply vec_map; auto.
  Qed.
  Lemma chan_vec c n F j i : (j < c)%nat -> 0 <= i < n -> chan (map vec (mat c n F)) j i = F j i.
  Proof.
    intros J I. unfold chan, mat. rewrite map_map, nth_map_seq by auto. apply vec_map; auto.
  Qed.
  Lemma add_cols_mat n (X : list (Z -> T)) F : add_cols (range n) X (mat (length X) n F) =
    Ok (mat (length X) n (fun j i => nadd (F j i) (chan X j i))).
  Proof.
    unfold mat, chan.
    assert (G : forall (X X0 : list (Z -> T)), add_cols (range n) X (map (fun j => map (F j) (range n)) (seq (length X0) (length X))) =
      Ok (map (fun j => map (fun i => nadd (F j i) (nth j (X0 ++ X) (fun _ => nz) i)) (range n)) (seq (length X0) (length X)))).
    { clear. induction X as [|x X IH]; intros X0; cbn; auto.
      specialize (IH (X0 ++ [x])). rewrite app_length in IH. cbn in IH. rewrite Nat.add_1_r in IH. rewrite IH. cbn. f_equal. f_equal.
      - rewrite app_nth2, Nat.sub_diag by lia. cbn. generalize (range n). intros l. induction l as [|a l IHl]; cbn; auto. rewrite IHl. reflexivity.
      - apply map_ext. intros j. rewrite <- app_assoc. reflexivity. }
    exact (G X []).
  Qed.
  Lemma map_map_mat c n (f : T -> T) F : map (map f) (mat c n F) = mat c n (fun j i => f (F j i)).
  Proof. unfold mat. rewrite map_map. apply map_ext. intros j. rewrite map_map. reflexivity. Qed.

  Lemma gives_tail (layer : tcfg -> res (list (list T))) act c rows F G :
    (forall t, t_act t = act -> layer t = Ok (tail t (mat c rows G))) ->
    (forall j i, (j < c)%nat -> 0 <= i < rows -> G j i = F j i) -> gives true layer act c rows F.
  Proof.
    intros E X. exists (mat c rows G). split; [apply mat_shaped|]. split; [intros; rewrite mat_entry; auto|].
    intros drop d. split; [|split]; intros; rewrite E by reflexivity; reflexivity.
  Qed.
  Lemma gives_tail_nodrop (layer : tcfg -> res (list (list T))) act c rows F G :
    (forall t, t_act t = act -> layer t = Ok (tail_nodrop t (mat c rows G))) ->
    (forall j i, (j < c)%nat -> 0 <= i < rows -> G j i = F j i) -> gives false layer act c rows F.
  Proof.
    intros E X. exists (mat c rows G). split; [apply mat_shaped|]. split; [intros; rewrite mat_entry; auto|].
    intros drop d. split; [|split]; intros; rewrite E by reflexivity; reflexivity.
  Qed.
End NNFacts.
Arguments columns {T N Q F n} H _.
Arguments columns_vec {T N Q F n} c G {m} _ _.
