(** Properties C57 (batches) and C48 (rounding), in exact real arithmetic. *)
From Coq Require Import Reals Lra Permutation Sorted String.
From Verif Require Import Num PyDict PyDictFacts ModelBase ModelConv ModelUtils UtilFacts RealFacts ModelMetrics SpecMetrics MetricFacts RankFacts PropMetrics.
Set Implicit Arguments.
Local Open Scope string_scope.
Local Open Scope R_scope.

(** * C57: the curves of a batch *)
Lemma avg_const {A} (l : list A) x : l <> [] -> avg (map (fun _ => x) l) = x.
Proof.
  intros NE. unfold avg. rewrite map_length.
  assert (E : fold_right Rplus 0 (map (fun _ => x) l) = INR (length l) * x).
  { clear NE. induction l as [|a l IH]; [cbn; lra|]. cbn [map fold_right length]. rewrite IH, S_INR. lra. }
  rewrite E. field. destruct l; [tauto|]. apply not_0_INR. cbn; lia.
Qed.
Lemma col_mean_rows {A} (v : A -> nat -> R) n (l : list A) : l <> [] ->
  col_mean (map (fun s => map (fun i => Fin (v s i)) (seq 0 n)) l) = map (fun i => Fin (avg (map (fun s => v s i) l))) (seq 0 n).
Proof.
  intros NE. transitivity (map (fun j => fmean (map (fun row => nth j row NaN) (map (fun s => map (fun i => Fin (v s i)) (seq 0 n)) l))) (seq 0 n)).
  - unfold col_mean. destruct l as [|a l]; [tauto|]. cbn [map]. rewrite map_length, seq_length. reflexivity.
  - apply map_ext_in. intros i I. apply in_seq in I. rewrite <- (fmean_map (fun s => v s i) NE), map_map. f_equal. apply map_ext. intros s.
    rewrite nth_indep with (d' := (fun i => Fin (v s i)) 0%nat) by (rewrite map_length, seq_length; lia).
    rewrite (map_nth (fun i => Fin (v s i))), seq_nth by lia. reflexivity.
Qed.
(** the curve of each sample on its own, or their mean point by point; the recall coordinates are those of one sample *)
Theorem C57_batch : forall (argsort : list R -> list nat) c (rows : list (list R * list R)) k (ratio : option R) kk method n,
  sorts_desc argsort -> samples c rows -> rows <> [] -> (forall r, In r rows -> binary (fst r) /\ In 1 (fst r)) -> depth c k ratio kk ->
  method = "legacy" \/ method = "pascal_voc" ->
  exists (v : list R * list R -> nat -> R) (x : nat -> R),
    (forall s, In s rows -> pr_curve1 argsort (V1 (fst s)) (V1 (snd s)) k ratio method (Z.of_nat n) =
      Ok (map (fun i => Fin (v s i)) (seq 0 n), map (fun i => Fin (x i)) (seq 0 n))) /\
    pr_curve argsort (V2 c (map fst rows)) (V2 c (map snd rows)) k ratio method (Z.of_nat n) true =
      Ok (MCurves (map (fun s => map (fun i => Fin (v s i)) (seq 0 n)) rows) (map (fun _ => map (fun i => Fin (x i)) (seq 0 n)) rows)) /\
    pr_curve argsort (V2 c (map fst rows)) (V2 c (map snd rows)) k ratio method (Z.of_nat n) false =
      Ok (MCurve (map (fun i => Fin (avg (map (fun s => v s i) rows))) (seq 0 n)) (map (fun i => Fin (x i)) (seq 0 n))).
Proof.
  intros argsort c rows k ratio kk method n AS SM NE H D M.
  set (ps := fun s : list R * list R => let pl := map (prec_rank (argsort (snd s)) (fst s)) (ranks 1 (map (fun i => nth i (fst s) 0) (argsort (snd s)))) in
    if String.eqb method "pascal_voc" then sufmax pl else pl).
  assert (A : forall k ratio s, In s rows -> pr_curve1 argsort (V1 (fst s)) (V1 (snd s)) k ratio method (Z.of_nat n) =
    Ok (map (fun i => Fin (nth (Z.to_nat (pick n (relevant (fst s)) i)) (ps s) 0)) (seq 0 n), map (fun i => Fin (coord n i)) (seq 0 n))).
  { intros k' r' s I. destruct (SM _ I), (H _ I). eapply curve_value; eauto; [lia|apply relevant_ranks_exists|].
    unfold ps. destruct M as [->| ->]; [left|right]; auto. }
  exists (fun s i => nth (Z.to_nat (pick n (relevant (fst s)) i)) (ps s) 0), (coord n).
  split; [auto|]. unfold pr_curve.
  assert (MO : method_ok method = true) by (destruct M as [->| ->]; reflexivity). rewrite MO. cbn [negb].
  rewrite (samples_format _ _ _ SM D). cbn [rbind].
  rewrite (map_res_fn _ _ rows (A (Some (Z.of_nat kk)) None)). cbn [rbind]. rewrite !map_map. cbn [fst snd].
  split; [reflexivity|]. rewrite (col_mean_rows _ n NE).
  rewrite (col_mean_rows (fun _ => coord n) n NE). do 2 f_equal. apply map_ext. intros i. rewrite avg_const by auto. reflexivity.
Qed.
Example C57_batch_case : let rows := [([1; 0; 1], [3; 2; 1]); ([0; 1; 0], [1; 2; 3])] in
  samples 3 rows /\ (forall r, In r rows -> binary (fst r) /\ In 1 (fst r)) /\ depth 3 None (Some (1 / 2)) 2.
Proof.
  cbn zeta. split; [|split].
  - intros r [<-|[<-|[]]]; auto.
  - unfold binary. intros r [<-|[<-|[]]]; cbn; split; intuition.
  - cbn. lra.
Qed.

(** * C48: rounding *)
(** a number closer than 1/2 to an integer is rounded to that integer: errors below 1/2 in the logarithms and the exponential do
    not change the binomial coefficient *)
Theorem C48_rounding : forall x z, Rabs (x - IZR z) < 1 / 2 -> py_round x = z.
Proof.
  intros x z H. apply Rabs_def2 in H as [H1 H2]. unfold py_round. destruct (base_Int_part x) as [B1 B2].
  set (k := Int_part x) in *.
  assert (K : (k = z \/ k = z - 1)%Z).
  { assert (IZR k < IZR (z + 1)) by (rewrite plus_IZR; lra). apply lt_IZR in H.
    assert (IZR (z - 2) < IZR k) by (rewrite minus_IZR; lra). apply lt_IZR in H0. lia. }
  destruct K as [-> | ->].
  - destruct (Rlt_dec _ _) as [|N]; auto. exfalso. apply N. lra.
  - rewrite minus_IZR in *. destruct (Rlt_dec _ (/ 2)) as [L|_]; [lra|]. destruct (Rlt_dec (/ 2) _) as [_|N]; [lia|]. exfalso. apply N. lra.
Qed.
Example C48_rounding_case : py_round (9.7) = 10%Z /\ py_round (- (1 / 4)) = 0%Z.
Proof. split; apply C48_rounding; apply Rabs_def1; lra. Qed.
