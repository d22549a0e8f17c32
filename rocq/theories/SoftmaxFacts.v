(** Row-wise softmax of a sparse matrix, seen as a dense matrix of coefficients. *)
From Coq Require Import Ring Permutation Sorted Reals Lra.
From Verif Require Import Num PyDict PyDictFacts Coo CooFacts MatFacts RealFacts GraphMatrix GraphReach.
Set Implicit Arguments.
Local Open Scope R_scope.

(** [c] is the softmax of the weights [w] over the edges [E]: zero off the edges, positive on
    them, in the ratio of the exponentials, summing to one over every non-empty row *)
Definition is_softmax (m : Z) (E : Z -> Z -> Prop) (w c : Z -> Z -> R) : Prop :=
  (forall i j, E i j -> 0 < c i j) /\ (forall i j, ~ E i j -> c i j = 0) /\
  (forall i j k, E i j -> E i k -> c i j * exp (w i k) = c i k * exp (w i j)) /\
  (forall i, (exists j, E i j) -> sumf (range m) (fun j => c i j) = 1).

Lemma softmax_dense n m (P : coo R) : boxed n m P -> NoDup (map fst P) ->
  let c := fun i j => mget (csoftmax P) i j in
  is_softmax m (fun i j => In (i, j) (map fst P)) (mget P) c /\
  forall X i, spmv (csoftmax P) X i = sumf (range m) (fun j => c i j * X j).
Proof.
  intros B ND c.
  assert (BS : boxed n m (csoftmax P)) by (intros i j; rewrite softmax_keys; apply B).
  assert (NS : NoDup (map fst (csoftmax P))) by (rewrite softmax_keys; auto).
  assert (V : forall i j, In (i, j) (map fst P) ->
    c i j = exp (mget P i j) * Rinv0 (sumf P (fun kv' => if eqb i (fst (fst kv')) then nexp (snd kv') else nz))).
  { intros i j I. apply map_fst_In in I as (w & I). rewrite (mget_present RT P i j w ND I).
    unfold c. apply (mget_present RT); auto. unfold csoftmax. apply in_map_iff. exists ((i, j), w). split; auto. }
  split; [split; [|split; [|split]]|].
  - intros i j I. rewrite V by auto.
    assert (I2 : In i (map (fun kv => fst (fst kv)) P)) by (rewrite <- (map_map fst fst); apply (in_map fst _ _ I)).
    pose proof (softmax_den_pos P i I2) as D2.
    rewrite Rinv0_ne by (apply Rgt_not_eq; exact D2). apply Rmult_lt_0_compat; [apply exp_pos|apply Rinv_0_lt_compat; exact D2].
  - intros i j I. unfold c. apply (mget_absent RT). rewrite softmax_keys; auto.
  - intros i j k I J. rewrite !V by auto. lra.
  - intros i (j & I).
    assert (I2 : In i (map (fun kv => fst (fst kv)) P)) by (rewrite <- (map_map fst fst); apply (in_map fst _ _ I)).
    rewrite <- (softmax_sum P i I2). symmetry. unfold c.
    apply (@rowsum_dense _ _ RT (range m)); [apply range_nodup | eapply boxed_cols; exact BS].
  - intros X i. unfold c. apply (@spmv_dense _ _ RT (range m)); [apply range_nodup | eapply boxed_cols; exact BS].
Qed.
