(** Facts about real sums. *)
From Coq Require Import Reals Lra Ring RealField Permutation.
From Verif Require Import Num PyDict PyDictFacts Coo CooFacts.
Set Implicit Arguments.
Local Open Scope R_scope.

Definition RT : ring_theory (@nz R _) n1 nadd nmul nsub nopp eq := RTheory.

Lemma Rsum_nonneg {A} (l : list A) (f : A -> R) : (forall a, In a l -> 0 <= f a) -> 0 <= sumf l f.
Proof.
  induction l as [|a l IH]; cbn; intros P; [lra|].
  assert (0 <= f a) by (apply P; auto). assert (0 <= sumf l f) by (apply IH; intros; apply P; auto). lra.
Qed.
Lemma Rsum_le {A} (l : list A) (f g : A -> R) : (forall a, In a l -> f a <= g a) -> sumf l f <= sumf l g.
Proof.
  induction l as [|a l IH]; cbn; intros P; [lra|].
  assert (f a <= g a) by (apply P; auto). assert (sumf l f <= sumf l g) by (apply IH; intros; apply P; auto). lra.
Qed.
Lemma Rsum_pos {A} (l : list A) (f : A -> R) x : (forall a, In a l -> 0 <= f a) -> In x l -> 0 < f x -> 0 < sumf l f.
Proof.
  induction l as [|a l IH]; cbn; intros P I F; [tauto|].
  assert (0 <= f a) by (apply P; auto). assert (0 <= sumf l f) by (apply Rsum_nonneg; intros; apply P; auto).
  destruct I as [->|I]; [lra|]. assert (0 < sumf l f) by (apply IH; auto). lra.
Qed.
Lemma Rsum_zero_all {A} (l : list A) (f : A -> R) : (forall a, In a l -> 0 <= f a) -> sumf l f = 0 ->
  forall a, In a l -> f a = 0.
Proof.
  intros P S a I. destruct (Rle_lt_or_eq_dec 0 (f a) (P a I)) as [L|E]; auto.
  pose proof (Rsum_pos l f a P I L). lra.
Qed.
Lemma Rsum_abs {A} (l : list A) (f : A -> R) : Rabs (sumf l f) <= sumf l (fun a => Rabs (f a)).
Proof.
  induction l as [|a l IH]; cbn.
  - rewrite Rabs_R0; lra.
  - pose proof (Rabs_triang (f a) (sumf l f)). lra.
Qed.

Lemma Rinv0_0 : Rinv0 0 = 0.
Proof. unfold Rinv0. destruct (Req_EM_T 0 0); [auto|lra]. Qed.
Lemma Rinv0_ne x : x <> 0 -> Rinv0 x = / x.
Proof. unfold Rinv0. destruct (Req_EM_T x 0); [tauto|auto]. Qed.
Lemma Rinv0_mul x : x <> 0 -> Rinv0 x * x = 1.
Proof. intros N. rewrite Rinv0_ne by auto. field; auto. Qed.
Lemma Risq_0 : Risq 0 = 0.
Proof. unfold Risq. destruct (Req_EM_T 0 0); [auto|lra]. Qed.
Lemma Risq_sq x : 0 < x -> Risq x * Risq x * x = 1.
Proof.
  intros P. unfold Risq. destruct (Req_EM_T x 0); [lra|].
  assert (0 < sqrt x) by (apply sqrt_lt_R0; auto).
  replace x with (sqrt x * sqrt x) at 3 by (apply sqrt_sqrt; lra). field. lra.
Qed.
Lemma Risq_sq_le x : 0 <= x -> Risq x * Risq x * x <= 1.
Proof.
  intros P. destruct (Rle_lt_or_eq_dec _ _ P) as [L|<-].
  - rewrite Risq_sq; lra.
  - rewrite Risq_0; lra.
Qed.

(** the normalised quadratic form of a symmetric non-negative matrix is bounded by [x'x] *)
Lemma normalised_form_bound {I} (l : list I) (a : I -> I -> R) (x : I -> R) :
  (forall i j, In i l -> In j l -> 0 <= a i j) ->
  (forall i j, In i l -> In j l -> a i j = a j i) ->
  let d i := sumf l (fun j => a i j) in
  Rabs (sumf l (fun i => sumf l (fun j => x i * (Risq (d i) * a i j * Risq (d j)) * x j)))
  <= sumf l (fun i => x i * x i).
Proof.
  intros NN SY d.
  eapply Rle_trans; [apply Rsum_abs|].
  apply Rle_trans with (sumf l (fun i => sumf l (fun j =>
     / 2 * (a i j * (Risq (d i) * x i * (Risq (d i) * x i))) + / 2 * (a i j * (Risq (d j) * x j * (Risq (d j) * x j)))))).
  { apply Rsum_le. intros i Ii. eapply Rle_trans; [apply Rsum_abs|]. apply Rsum_le. intros j Ij.
    set (u := Risq (d i) * x i). set (v := Risq (d j) * x j).
    replace (x i * (Risq (d i) * a i j * Risq (d j)) * x j) with (a i j * (u * v)) by (unfold u, v; ring).
    rewrite Rabs_mult, (Rabs_right (a i j)) by (apply Rle_ge, NN; auto).
    assert (Rabs (u * v) <= / 2 * (u * u) + / 2 * (v * v)).
    { apply Rabs_le. assert (0 <= (u - v) * (u - v)) by apply Rle_0_sqr.
      assert (0 <= (u + v) * (u + v)) by apply Rle_0_sqr. lra. }
    specialize (NN i j Ii Ij).
    apply Rle_trans with (a i j * (/ 2 * (u * u) + / 2 * (v * v))); [apply Rmult_le_compat_l; auto | lra]. }
  assert (E : sumf l (fun i => sumf l (fun j =>
     / 2 * (a i j * (Risq (d i) * x i * (Risq (d i) * x i))) + / 2 * (a i j * (Risq (d j) * x j * (Risq (d j) * x j)))))
     = sumf l (fun i => Risq (d i) * Risq (d i) * d i * (x i * x i))).
  { transitivity (/ 2 * sumf l (fun i => sumf l (fun j => a i j * (Risq (d i) * x i * (Risq (d i) * x i)))) +
                  / 2 * sumf l (fun i => sumf l (fun j => a i j * (Risq (d j) * x j * (Risq (d j) * x j))))).
    - change Rplus with (@nadd R _). change Rmult with (@nmul R _).
      rewrite <- !(sumf_mul_l RT), <- (sumf_add RT). apply sumf_ext. intros i.
      rewrite <- !(sumf_mul_l RT), <- (sumf_add RT). reflexivity.
    - assert (E1 : sumf l (fun i => sumf l (fun j => a i j * (Risq (d i) * x i * (Risq (d i) * x i)))) =
                   sumf l (fun i => Risq (d i) * Risq (d i) * d i * (x i * x i))).
      { apply sumf_ext. intros i. transitivity (sumf l (fun j => a i j) * (Risq (d i) * x i * (Risq (d i) * x i))).
        - apply (sumf_mul_r RT).
        - change (sumf l (fun j => a i j)) with (d i). ring. }
      assert (E2 : sumf l (fun i => sumf l (fun j => a i j * (Risq (d j) * x j * (Risq (d j) * x j)))) =
                   sumf l (fun i => sumf l (fun j => a i j * (Risq (d i) * x i * (Risq (d i) * x i))))).
      { rewrite (sumf_swap RT). apply sumf_ext_in. intros i Ii. apply sumf_ext_in. intros j Ij.
        rewrite SY; auto. }
      rewrite E2, E1. lra. }
  rewrite E. apply Rsum_le. intros i Ii.
  assert (0 <= d i) by (apply Rsum_nonneg; intros; apply NN; auto).
  pose proof (Risq_sq_le H). assert (0 <= x i * x i) by apply Rle_0_sqr.
  apply Rle_trans with (1 * (x i * x i)); [|lra]. apply Rmult_le_compat_r; auto.
Qed.

(** a weighted mean lies between the extreme values that carry weight *)
Lemma Rmean_between {I} (l : list I) (a X : I -> R) lo hi :
  (forall j, In j l -> 0 <= a j) -> (exists j, In j l /\ 0 < a j) ->
  (forall j, In j l -> 0 < a j -> lo <= X j <= hi) ->
  lo <= Rinv0 (sumf l a) * sumf l (fun j => a j * X j) <= hi.
Proof.
  intros NN (j0 & I0 & P0) B.
  assert (DP : 0 < sumf l a) by (apply Rsum_pos with j0; auto).
  assert (EB : forall j, In j l -> lo * a j <= a j * X j <= a j * hi).
  { intros j J. destruct (Rle_lt_or_eq_dec 0 (a j) (NN j J)) as [L|E].
    - specialize (B j J L). split; [rewrite Rmult_comm|]; apply Rmult_le_compat_l; lra.
    - rewrite <- E; lra. }
  set (S := sumf l (fun j => a j * X j)).
  assert (lo * sumf l a <= S) by (unfold S; rewrite <- (sumf_mul_l RT); apply Rsum_le; intros j J; apply EB; auto).
  assert (S <= sumf l a * hi) by (unfold S; rewrite <- (sumf_mul_r RT); apply Rsum_le; intros j J; apply EB; auto).
  rewrite Rinv0_ne by lra. assert (0 < / sumf l a) by (apply Rinv_0_lt_compat; auto).
  split; apply Rmult_le_reg_l with (sumf l a); auto; rewrite <- Rmult_assoc, Rinv_r by lra; lra.
Qed.
Lemma Rmean_none {I} (l : list I) (a X : I -> R) : (forall j, In j l -> a j = 0) ->
  Rinv0 (sumf l a) * sumf l (fun j => a j * X j) = 0.
Proof.
  intros Z. replace (sumf l a) with 0; [rewrite Rinv0_0; ring|].
  symmetry. transitivity (sumf l (fun _ : I => @nz R _)); [apply sumf_ext_in; auto|apply (sumf_zero RT)].
Qed.
