(** Facts about [C_py] and [subsets]. *)
From Coq Require Import Reals Lra Lia.
From Verif Require Import Num ModelUtils SpecUtils UtilFacts.
Set Implicit Arguments.
Local Open Scope R_scope.

Lemma py_round_IZR z : py_round (IZR z) = z.
Proof.
  unfold py_round.
  assert (E : Int_part (IZR z) = z).
  { unfold Int_part. rewrite <- (up_tech (IZR z) z); [lia|lra|]. rewrite plus_IZR. lra. }
  rewrite E. destruct (Rlt_dec (IZR z - IZR z) (/ 2)) as [_|N]; auto. exfalso. apply N. lra.
Qed.
Lemma C_log_C (b j : nat) : exp (fold_left (fun a i => a + ln (IZR (Z.of_nat b + (i + 1))) - ln (IZR (i + 1))) (range (Z.of_nat j)) 0)
  = C (b + j) j.
Proof.
  induction j as [|j IH].
  - cbn. rewrite exp_0. unfold C. rewrite Nat.add_0_r, Nat.sub_0_r. cbn. pose proof (INR_fact_neq_0 b). field. auto.
  - unfold range. rewrite Nat2Z.id, seq_S, map_app, fold_left_app. cbn [map fold_left Nat.add].
    unfold range in IH. rewrite Nat2Z.id in IH.
    match goal with |- exp (?s + _ - _) = _ => set (s0 := s) end. fold s0 in IH.
    unfold Rminus. rewrite !exp_plus, exp_Ropp. rewrite IH.
    assert (P1 : 0 < IZR (Z.of_nat b + (Z.of_nat j + 1))) by (apply IZR_lt; lia).
    assert (P2 : 0 < IZR (Z.of_nat j + 1)) by (apply IZR_lt; lia).
    rewrite !exp_ln by auto. unfold C. replace (b + S j - S j)%nat with b by lia. replace (b + j - j)%nat with b by lia.
    replace (b + S j)%nat with (S (b + j)) by lia. rewrite !fact_simpl, !mult_INR.
    replace (IZR (Z.of_nat b + (Z.of_nat j + 1))) with (INR (S (b + j))) by (rewrite INR_IZR_INZ; f_equal; lia).
    replace (IZR (Z.of_nat j + 1)) with (INR (S j)) by (rewrite INR_IZR_INZ; f_equal; lia).
    pose proof (INR_fact_neq_0 b). pose proof (INR_fact_neq_0 j). assert (INR (S j) <> 0) by (apply not_0_INR; lia).
    field. auto.
Qed.
Lemma subsets_C {A} (l : list A) m : (m <= length l)%nat -> INR (length (subsets m l)) = C (length l) m.
Proof.
  revert m. induction l as [|x l IH]; intros [|m] L; cbn [length] in L.
  - cbn. unfold C. cbn. lra.
  - lia.
  - unfold C. rewrite Nat.sub_0_r. pose proof (INR_fact_neq_0 (length (x :: l))).
    change (INR (length (subsets 0 (x :: l)))) with 1. change (INR (fact 0)) with 1. field. auto.
  - cbn [subsets length]. rewrite app_length, map_length, plus_INR. rewrite IH by lia.
    destruct (Nat.eq_dec m (length l)) as [->|N].
    + assert (E : forall k (l : list A), (length l < k)%nat -> length (subsets k l) = 0%nat).
      { clear. induction k as [|k IHk]; intros l L; [lia|]. induction l as [|y l IHl]; auto. cbn [length] in L.
        cbn [subsets]. rewrite app_length, map_length, IHk, IHl by lia. reflexivity. }
      rewrite E by lia. unfold C. rewrite !Nat.sub_diag. pose proof (INR_fact_neq_0 (length l)). pose proof (INR_fact_neq_0 (S (length l))).
      change (INR (fact 0)) with 1. change (INR 0) with 0. field. split; auto.
    + rewrite IH by lia. apply pascal. lia.
Qed.
Lemma subsets_none {A} m (l : list A) : (length l < m)%nat -> subsets m l = [].
Proof.
  revert l; induction m as [|k IHk]; intros l L; [lia|]. induction l as [|y l IHl]; auto. cbn [length] in L.
  cbn [subsets]. rewrite IHk, IHl by lia. reflexivity.
Qed.
Lemma C_py_value n m : (0 <= m <= n)%Z -> C_py n m = Z.of_nat (length (subsets (Z.to_nat m) (range n))).
Proof.
  intros I. unfold C_py.
  assert (E : exp (C_log n (Z.min m (n - m))) = C (Z.to_nat n) (Z.to_nat m)).
  { unfold C_log. set (k := Z.min m (n - m)).
    pose proof (C_log_C (Z.to_nat (n - k)) (Z.to_nat k)) as Q. rewrite Z2Nat.id in Q by lia. rewrite Z2Nat.id in Q by lia.
    replace (Z.to_nat (n - k) + Z.to_nat k)%nat with (Z.to_nat n) in Q by lia. rewrite Q.
    unfold k. destruct (Z.min_spec m (n - m)) as [[_ ->]|[_ ->]]; auto.
    rewrite pascal_step1 by lia. f_equal. lia. }
  rewrite E. rewrite <- (@py_round_IZR (Z.of_nat _)). f_equal. rewrite <- INR_IZR_INZ.
  assert (L : length (range n) = Z.to_nat n) by apply range_length.
  rewrite subsets_C by lia. rewrite L. reflexivity.
Qed.
Lemma C_py_out n m : (m < 0 \/ n < m)%Z -> C_py n m = 1%Z.
Proof.
  intros I. unfold C_py, C_log. replace (range (Z.min m (n - m))) with (@nil Z).
  - cbn. rewrite exp_0. apply py_round_IZR.
  - unfold range. replace (Z.to_nat (Z.min m (n - m))) with 0%nat by lia. reflexivity.
Qed.
