(** Networks built from layers that look one step far. *)
From Coq Require Import Ring Reals Lra Lia.
From Verif Require Import Num PyDict Coo CooFacts MatFacts RealFacts ModelBase ModelGraph ModelHyper ModelConv ModelUtils UtilFacts ModelNN ModelModels SpecNN NNFacts SpecLocal SoftmaxFacts.
Set Implicit Arguments.
Open Scope Z_scope.
Open Scope list_scope.

Lemma within_mono nb k v u : within nb k v u -> within nb (S k) v u.
Proof. intros W. cbn. exists u. auto. Qed.
Lemma within_step nb k v u x : within nb k v x -> u = x \/ nb x u -> within nb (S k) v u.
Proof. intros. cbn. eauto. Qed.

Section Local.
  Context {T : Type} {N : Num T}.
  Lemma row_chan (X : list (list T)) k u : chan (map vec X) k u = nth k (row X u) nz.
  Proof.
    unfold chan, row. revert k. induction X as [|x X IH]; intros [|k]; cbn; auto.
  Qed.
  Lemma chan_row (X X' : list (list T)) u : row X u = row X' u -> forall k, chan (map vec X) k u = chan (map vec X') k u.
  Proof. intros E k. rewrite !row_chan, E. reflexivity. Qed.
  Lemma row_nth (Y : list (list T)) j v : nth j (row Y v) nz = entry Y j v.
  Proof.
    unfold entry, row. revert j. induction Y as [|x Y IH]; intros [|j]; cbn; auto; destruct (Z.to_nat v); reflexivity.
  Qed.
  Lemma row_entries (Y Y' : list (list T)) c nv v : shaped Y c nv -> shaped Y' c nv -> (forall j, (j < c)%nat -> entry Y j v = entry Y' j v) -> row Y v = row Y' v.
  Proof.
    intros [L _] [L' _] E. apply nth_ext with (d := nz) (d' := nz); unfold row; rewrite !map_length; [congruence|].
    intros j J. rewrite L in J. fold (row Y v) (row Y' v). rewrite !row_nth. apply E; auto.
  Qed.
  Lemma shaped_map_act (f : T -> T) Y c nv : shaped Y c nv -> shaped (map (map f) Y) c nv.
  Proof.
    intros [L F]. split; [rewrite map_length; auto|]. apply Forall_forall. intros x I. apply in_map_iff in I as (y & <- & I). rewrite map_length.
    rewrite Forall_forall in F. auto.
  Qed.
  Lemma row_map_act (f : T -> T) Y c nv v : shaped Y c nv -> 0 <= v < nv -> row (map (map f) Y) v = map f (row Y v).
  Proof.
    intros [_ F] V. unfold row. rewrite !map_map. apply map_ext_in. intros x I. rewrite Forall_forall in F. specialize (F x I).
    rewrite (nth_indep _ nz (f nz)) by (rewrite map_length; lia). apply map_nth.
  Qed.
  Lemma rowwise_id c nv : rowwise c nv (fun Y : list (list T) => Y).
  Proof. intros Y S. split; auto. Qed.
  Lemma tail_facts t c nv : quiet c nv t -> forall Y, shaped Y c nv -> shaped (tail t Y) c nv /\
    forall Y' v, shaped Y' c nv -> 0 <= v < nv -> row Y v = row Y' v -> row (tail t Y) v = row (tail t Y') v.
  Proof.
    intros [D B] Y S. unfold tail. destruct (t_last t); [auto|].
    assert (BN : rowwise c nv (match t_bn t with Some f => f | None => fun Y => Y end)) by (destruct (t_bn t); [auto|apply rowwise_id]).
    pose proof (shaped_map_act (t_act t) S) as SA. destruct (BN _ SA) as [S1 R1]. destruct (D _ S1) as [S2 R2]. split; auto.
    intros Y' v S' V E. pose proof (shaped_map_act (t_act t) S') as SA'. destruct (BN _ SA') as [S1' _].
    apply R2; auto. apply R1; auto. erewrite !row_map_act by eauto. rewrite E. reflexivity.
  Qed.
  Lemma quiet_nodrop t c nv : quiet c nv t -> quiet c nv (mktcfg (t_last t) (t_act t) (t_bn t) (fun Y => Y)).
  Proof. intros [_ B]. split; [apply rowwise_id|exact B]. Qed.

  (** one layer with a formula *)
  Lemma gives_sees d (layer : list (Z -> T) -> tcfg -> res (list (list T))) t n c nv nb :
    (forall X X', shaped X n nv -> shaped X' n nv -> exists F F',
       gives d (layer (map vec X)) (t_act t) c nv F /\ gives d (layer (map vec X')) (t_act t) c nv F' /\
       forall v, 0 <= v < nv -> (forall u, 0 <= u < nv -> u = v \/ nb v u -> row X u = row X' u) -> forall j, (j < c)%nat -> F j v = F' j v) ->
    quiet c nv t -> sees (fun X => layer (map vec X) t) n c nv nb 1.
  Proof.
    intros G Q X X' S S'. destruct (G X X' S S') as (F & F' & (Y & SY & EY & LY) & (Y' & SY' & EY' & LY') & FF).
    set (t' := if d then t else mktcfg (t_last t) (t_act t) (t_bn t) (fun Y => Y)).
    assert (Q' : quiet c nv t') by (unfold t'; destruct d; [exact Q|apply quiet_nodrop; exact Q]).
    assert (E : forall layer Y, (forall drop : list (list T) -> list (list T), let dd := if d then drop else fun Y => Y in
        (forall bn, layer (mktcfg true (t_act t) bn drop) = Ok Y) /\
        layer (mktcfg false (t_act t) None drop) = Ok (dd (map (map (t_act t)) Y)) /\
        forall b, layer (mktcfg false (t_act t) (Some b) drop) = Ok (dd (b (map (map (t_act t)) Y)))) -> layer t = Ok (tail t' Y)).
    { clear. intros layer Y H. specialize (H (t_drop t)). cbv zeta in H. destruct H as (A & B & C). unfold t', tail. destruct t as [l a [b|] dr], l; cbn in *; destruct d; cbn; auto. }
    exists (tail t' Y), (tail t' Y'). rewrite (E _ _ LY), (E _ _ LY'). destruct (tail_facts Q' SY) as [S1 R1]. destruct (tail_facts Q' SY') as [S1' _].
    repeat (split; auto). intros v V A. apply R1; auto. apply row_entries with (c := c) (nv := nv); auto. intros j J. rewrite EY, EY' by auto. apply FF; auto.
    intros u U [->|NB]; apply A; auto; cbn; eauto.
  Qed.

  Lemma sees_zero n nv nb : sees (fun X => Ok X) n n nv nb 0.
  Proof. intros X X' S S'. exists X, X'. repeat (split; auto). intros v V A. apply A; auto. reflexivity. Qed.
  Lemma sees_step (f g : list (list T) -> res (list (list T))) n h c nv nb k :
    sees f n h nv nb 1 -> sees g h c nv nb k -> sees (fun X => rbind (f X) g) n c nv nb (S k).
  Proof.
    intros SF SG X X' S S'. destruct (SF X X' S S') as (Y & Y' & -> & -> & SY & SY' & A). cbn [rbind].
    destruct (SG Y Y' SY SY') as (Z & Z' & -> & -> & SZ & SZ' & B). exists Z, Z'. repeat (split; auto).
    intros v V D. apply B; auto. intros x Xr W. apply A; auto. intros u U (y & EY & WU). apply D; auto. cbn in EY. subst y. eapply within_step; eauto.
  Qed.
  Lemma sees_pre (f : list (list T) -> list (list T)) g n c nv nb k : rowwise n nv f -> sees g n c nv nb k -> sees (fun X => g (f X)) n c nv nb k.
  Proof.
    intros RW SG X X' S S'. destruct (RW X S) as [S1 R]. destruct (RW X' S') as [S1' _]. destruct (SG _ _ S1 S1') as (Y & Y' & E & E' & SY & SY' & A).
    exists Y, Y'. repeat (split; auto).
  Qed.
  (** a network of layers of the same kind *)
  Lemma chain_sees {A} (layer : A -> list (Z -> T) -> res (list (list T))) (ok : nat -> A -> nat -> Prop) nv nb (ls : list A) :
    (forall a n h, ok n a h -> sees (fun X => layer a (map vec X)) n h nv nb 1) ->
    forall n c, (fix st n ls := match ls with [] => n = c | a :: r => exists h, ok n a h /\ st h r end) n ls ->
    sees (chain (map layer ls)) n c nv nb (length ls).
  Proof.
    intros L. induction ls as [|a ls IH]; intros n c ST; cbn [chain map length].
    - subst. apply sees_zero.
    - destruct ST as (h & O & ST). apply (@sees_step (fun X => layer a (map vec X)) (chain (map layer ls)) n h c); auto.
  Qed.
End Local.

(** the weights of a row are determined by its scores *)
Lemma softmax_unique m (E : Z -> Z -> Prop) (w w' c c' : Z -> Z -> R) i :
  (forall j, E i j -> 0 <= j < m) -> (forall j, E i j \/ ~ E i j) -> (forall j, E i j -> w i j = w' i j) ->
  is_softmax m E w c -> is_softmax m E w' c' -> forall j, c i j = c' i j.
Proof.
  intros IN DEC EQ (P & Z0 & PR & SU) (P' & Z0' & PR' & SU') j. destruct (DEC j) as [EJ|NE]; [|rewrite Z0, Z0'; auto].
  assert (X : forall k, (c i k * c' i j = c' i k * c i j)%R).
  { intros k. destruct (DEC k) as [EK|NK]; [|rewrite (Z0 i k), (Z0' i k) by auto; ring].
    pose proof (PR i k j EK EJ) as A. pose proof (PR' i k j EK EJ) as B. rewrite <- !EQ in B by auto.
    pose proof (exp_pos (w i j)) as EP. apply Rmult_eq_reg_r with (exp (w i j)); [|lra].
    transitivity (c i j * exp (w i k) * c' i j)%R; [rewrite <- A; ring|]. transitivity (c' i j * exp (w i k) * c i j)%R; [ring|]. rewrite <- B. ring. }
  assert (SS : (sumf (range m) (fun k => c i k) * c' i j = sumf (range m) (fun k => c' i k) * c i j)%R).
  { generalize (range m). intros l. induction l as [|k l IH]; cbn; [change (@nz R _) with 0%R; ring|]. change (@nadd R _) with Rplus in *. rewrite !Rmult_plus_distr_r. rewrite IH, X. ring. }
  rewrite SU, SU' in SS by eauto. lra.
Qed.
