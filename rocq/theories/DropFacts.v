(** What dropping connections does to a matrix and to products with it. *)
From Coq Require Import Ring Reals Lra.
From Verif Require Import Num PyDict PyDictFacts Coo CooFacts MatFacts RealFacts ModelBase SoftmaxFacts.
Set Implicit Arguments.
Local Open Scope Z_scope.

(** [run X None] is a product of a fixed n x k matrix M with X, and [run X (Some keep)] is the same product with some
    entries of M replaced by 0: the draw number [pos i j] decides about the entry (i, j), every non-zero entry has a
    draw of its own, and the entries that are kept are not rescaled. *)
Definition drops {T} `{N : Num T} (n k : Z) (run : (Z -> T) -> option (nat -> bool) -> res (out T)) : Prop :=
  exists (M : Z -> Z -> T) (pos : Z -> Z -> nat),
    (forall X, run X None = Ok (OVals (map (fun i => sumf (range k) (fun j => nmul (M i j) (X j))) (range n)))) /\
    (forall X keep, run X (Some keep) =
       Ok (OVals (map (fun i => sumf (range k) (fun j => nmul (if keep (pos i j) then M i j else nz) (X j))) (range n)))) /\
    (forall i j i' j', M i j <> nz -> M i' j' <> nz -> pos i j = pos i' j' -> i = i' /\ j = j').

(** the same for softmax aggregation over the pairs [E] with scores [W]: a dropped pair takes part with score 0 *)
Definition softmax_drops (n k : Z) (E : Z -> Z -> Prop) (W : Z -> Z -> R) (run : (Z -> R) -> option (nat -> bool) -> res (out R)) : Prop :=
  exists pos : Z -> Z -> nat,
    (forall i j i' j', E i j -> E i' j' -> pos i j = pos i' j' -> i = i' /\ j = j') /\
    forall keep : nat -> bool, exists c, is_softmax k E (fun i j => if keep (pos i j) then W i j else 0%R) c /\
      forall X, run X (Some keep) = Ok (OVals (map (fun i => sumf (range k) (fun j => c i j * X j)%R) (range n))).

(** the position of a key *)
Fixpoint kpos (k : Z * Z) (l : list (Z * Z)) : nat :=
  match l with [] => O | x :: r => if eqb k x then O else S (kpos k r) end.
Lemma kpos_inj l a b : In a l -> In b l -> kpos a l = kpos b l -> a = b.
Proof.
  induction l as [|x l IH]; cbn [kpos In]; [tauto|]. intros A B.
  destruct (eqb_spec a x) as [->|NA], (eqb_spec b x) as [->|NB]; try discriminate; auto.
  intros E. injection E as E. apply IH; auto; [destruct A as [->|A]|destruct B as [->|B]]; auto; congruence.
Qed.

Section Ring.
  Context {T : Type} `{N : Num T}.
  Context (RT : ring_theory (@nz T N) n1 nadd nmul nsub nopp eq).
  Add Ring TRing23 : RT.

  Lemma nz_mul (x : T) : nmul nz x = nz.
  Proof. ring. Qed.
  Lemma cdrop_from_keys i0 keep fill (m : coo T) : map fst (cdrop_from i0 keep fill m) = map fst m.
  Proof. revert i0; induction m as [|[k v] m IH]; intros i0; cbn; [|rewrite IH]; reflexivity. Qed.
  Lemma mget_cdrop_from i0 keep (m : coo T) i j : NoDup (map fst m) ->
    mget (cdrop_from i0 keep nz m) i j = if keep (i0 + kpos (i, j) (map fst m))%nat then mget m i j else nz.
  Proof.
    revert i0; induction m as [|[k v] m IH]; intros i0 ND.
    - cbn. unfold mget; cbn. destruct keep; reflexivity.
    - cbn [map fst] in ND. inversion ND as [|? ? NI ND']; subst. cbn [cdrop_from map fst kpos].
      unfold mget. cbn [sumf fst snd]. fold (mget m i j). fold (mget (cdrop_from (S i0) keep nz m) i j).
      rewrite (IH (S i0) ND'). destruct (eqb_spec (i, j) k) as [<-|NE].
      + rewrite (mget_absent RT) by exact NI. rewrite Nat.add_0_r. unfold b2n.
        destruct (keep i0); cbn [negb]; destruct (keep (S i0 + _)%nat); ring.
      + replace (S i0 + kpos (i, j) (map fst m))%nat with (i0 + S (kpos (i, j) (map fst m)))%nat by lia.
        destruct (keep _); ring.
  Qed.
  Definition dpos (m : coo T) (i j : Z) : nat := kpos (i, j) (map fst (coalesce m)).
  Lemma mget_cdrop keep (m : coo T) i j : mget (cdrop keep nz m) i j = if keep (dpos m i j) then mget m i j else nz.
  Proof. unfold cdrop. rewrite mget_cdrop_from by apply coalesce_nodup. rewrite (mget_coalesce RT). reflexivity. Qed.
  Lemma cdrop_keys keep (m : coo T) x : In x (map fst (cdrop keep nz m)) <-> In x (map fst m).
  Proof. unfold cdrop. rewrite cdrop_from_keys. apply coalesce_keys. Qed.
  Lemma cdrop_nodup keep (m : coo T) : NoDup (map fst (cdrop keep nz m)).
  Proof. unfold cdrop. rewrite cdrop_from_keys. apply coalesce_nodup. Qed.
  Lemma boxed_cdrop n k keep (m : coo T) : boxed n k m -> boxed n k (cdrop keep nz m).
  Proof. intros B i j I. apply B. apply cdrop_keys in I. exact I. Qed.
  Lemma dpos_inj (m : coo T) i j i' j' : In (i, j) (map fst m) -> In (i', j') (map fst m) -> dpos m i j = dpos m i' j' -> i = i' /\ j = j'.
  Proof.
    intros A B E. apply kpos_inj in E; [injection E; auto| |]; apply coalesce_keys; assumption.
  Qed.
  Lemma mget_stored (m : coo T) i j : mget m i j <> nz -> In (i, j) (map fst m).
  Proof.
    intros NZ. destruct (in_dec (fun x y : Z * Z => ltac:(decide equality; apply Z.eq_dec)) (i, j) (map fst m)) as [I|NI]; auto.
    exfalso. apply NZ, (mget_absent RT), NI.
  Qed.

  Lemma drops_intro n k (m : coo T) (d : Z -> T) run : boxed n k m ->
    (forall X keep, exists f, run X keep = Ok (OVals (map f (range n))) /\ forall i, 0 <= i < n -> f i = nmul (d i) (spmv (cdrop_opt keep m) X i)) ->
    drops n k run.
  Proof.
    intros B Q. exists (fun i j => nmul (d i) (mget m i j)), (dpos m). split; [|split].
    - intros X. destruct (Q X None) as (f & -> & F). do 2 f_equal. apply map_ext_in. intros i I. apply range_In in I. rewrite F by auto.
      cbn [cdrop_opt]. rewrite (@spmv_dense T N RT (range k)) by (apply range_nodup || (eapply boxed_cols; exact B)).
      rewrite <- (sumf_mul_l RT). apply sumf_ext. intros j. ring.
    - intros X keep. destruct (Q X (Some keep)) as (f & -> & F). do 2 f_equal. apply map_ext_in. intros i I. apply range_In in I. rewrite F by auto.
      cbn [cdrop_opt]. rewrite (@spmv_dense T N RT (range k)) by (apply range_nodup || (eapply boxed_cols; apply boxed_cdrop; exact B)).
      rewrite <- (sumf_mul_l RT). apply sumf_ext. intros j. rewrite mget_cdrop. destruct (keep _); ring.
    - intros i j i' j' A A'. apply dpos_inj; apply mget_stored; intros E; [apply A|apply A']; rewrite E; ring.
  Qed.
  Lemma drops_sum n k (m : coo T) run : boxed n k m ->
    (forall X keep, run X keep = Ok (OVals (map (spmv (cdrop_opt keep m) X) (range n)))) -> drops n k run.
  Proof.
    intros B Q. apply drops_intro with m (fun _ => n1); auto. intros X keep. eexists. split; [apply Q|]. intros i _. cbv beta. ring.
  Qed.
  Lemma drops_mean n k (m : coo T) (d : Z -> T) run : boxed n k m ->
    (forall X keep, run X keep = Ok (OVals (map (spmv (diag n d) (spmv (cdrop_opt keep m) X)) (range n)))) -> drops n k run.
  Proof.
    intros B Q. apply drops_intro with m d; auto. intros X keep. eexists. split; [apply Q|]. intros i I. apply (spmv_diag RT). exact I.
  Qed.

  (** the form x -> x^T L x *)
  Variables (n : Z) (L : coo T).
  Definition qf (x y : Z -> T) : T := sumf (range n) (fun i => sumf (range n) (fun j => nmul (nmul (x i) (mget L i j)) (y j))).
  Lemma qf_spmv x y : boxed n n L -> qf x y = sumf (range n) (fun i => nmul (x i) (spmv L y i)).
  Proof.
    intros B. apply sumf_ext. intros i. rewrite (@spmv_dense T N RT (range n)) by (apply range_nodup || (eapply boxed_cols; exact B)).
    rewrite <- (sumf_mul_l RT). apply sumf_ext. intros j. ring.
  Qed.
  Lemma qf_sym x y : (forall i j, 0 <= i < n -> 0 <= j < n -> mget L i j = mget L j i) -> qf x y = qf y x.
  Proof.
    intros S. unfold qf. rewrite (sumf_swap RT). apply sumf_ext_in. intros j J. apply sumf_ext_in. intros i I.
    apply range_In in I. apply range_In in J. rewrite (S i j I J). ring.
  Qed.
  Lemma qf_lin x y c : (forall i j, 0 <= i < n -> 0 <= j < n -> mget L i j = mget L j i) ->
    let z i := nadd (x i) (nmul c (y i)) in
    qf z z = nadd (qf x x) (nadd (nmul (nadd c c) (qf y x)) (nmul (nmul c c) (qf y y))).
  Proof.
    intros S z. assert (E : qf z z = nadd (nadd (qf x x) (nmul c (qf x y))) (nadd (nmul c (qf y x)) (nmul (nmul c c) (qf y y)))).
    { unfold qf. rewrite <- !(sumf_mul_l RT), <- !(sumf_add RT). apply sumf_ext. intros i.
      rewrite <- !(sumf_mul_l RT), <- !(sumf_add RT). apply sumf_ext. intros j. unfold z. ring. }
    rewrite E, (qf_sym x y S). ring.
  Qed.
End Ring.

Lemma softmax_drops_intro n k (m : coo R) E W run : boxed n k m -> (forall i j, In (i, j) (map fst m) <-> E i j) ->
  (forall i j, E i j -> mget m i j = W i j) ->
  (forall X keep, run X (Some keep) = Ok (OVals (map (spmv (csoftmax (cdrop keep nz m)) X) (range n)))) -> softmax_drops n k E W run.
Proof.
  intros B K V Q. exists (dpos m). split.
  - intros i j i' j' I J. apply dpos_inj; apply K; assumption.
  - intros keep. destruct (@softmax_dense n k (cdrop keep nz m)) as ((A1 & A2 & A3 & A4) & SV).
    + apply boxed_cdrop, B.
    + apply cdrop_nodup.
    + exists (fun i j => mget (csoftmax (cdrop keep nz m)) i j). split; [|intros X; rewrite Q; do 2 f_equal; apply map_ext; intros i; apply SV].
      assert (KK : forall i j, In (i, j) (map fst (cdrop keep nz m)) <-> E i j) by (intros i j; rewrite cdrop_keys; apply K).
      assert (VV : forall i j, E i j -> mget (cdrop keep nz m) i j = (if keep (dpos m i j) then W i j else 0%R))
        by (intros i j I; rewrite (mget_cdrop RT), (V i j I); reflexivity).
      split; [|split; [|split]].
      * intros i j I. apply A1, KK, I.
      * intros i j I. apply A2. rewrite KK. exact I.
      * intros i j l I J. rewrite <- (VV i l J), <- (VV i j I). apply A3; apply KK; assumption.
      * intros i (j & I). apply A4. exists j. apply KK, I.
Qed.
