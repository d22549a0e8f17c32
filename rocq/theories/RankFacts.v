(** Discounted gain, average precision, reciprocal ranks: facts in exact real arithmetic. *)
From Coq Require Import Reals Lra Permutation Sorted String.
From Verif Require Import Num PyDict PyDictFacts ModelBase ModelConv ModelUtils RealFacts ModelMetrics SpecMetrics MetricFacts.
Set Implicit Arguments.
Local Open Scope R_scope.

(** * Sorting *)
Definition geR (a b : R) : Prop := b <= a.
Lemma insert_perm x (l : list R) : Permutation (insert_desc x l) (x :: l).
Proof.
  induction l as [|y l IH]; cbn [insert_desc]; auto. destruct (nleb y x); auto.
  rewrite IH. constructor.
Qed.
Lemma sort_perm (l : list R) : Permutation (sort_desc l) l.
Proof. induction l as [|x l IH]; cbn [sort_desc]; auto. rewrite insert_perm. auto. Qed.
Lemma insert_sorted x (l : list R) : StronglySorted geR l -> StronglySorted geR (insert_desc x l).
Proof.
  induction 1 as [|y l S IH F]; cbn [insert_desc].
  - constructor; constructor.
  - destruct (nleb y x) eqn:E.
    + apply nleb_true in E. constructor; [constructor; auto|]. constructor; [exact E|].
      eapply Forall_impl; [|exact F]. unfold geR. intros; lra.
    + apply nleb_false in E. constructor; auto. rewrite Forall_forall in *. intros z I.
      apply (Permutation_in _ (insert_perm x l)) in I. destruct I as [<-|I]; unfold geR; [lra|apply F; auto].
Qed.
Lemma sort_sorted (l : list R) : StronglySorted geR (sort_desc l).
Proof. induction l; cbn [sort_desc]; [constructor|apply insert_sorted; auto]. Qed.
Lemma sorted_is_sort (l m : list R) : Permutation l m -> StronglySorted geR l -> l = sort_desc m.
Proof.
  intros P S. apply sorted_perm_eq with geR; auto.
  - unfold geR. intros; lra.
  - rewrite P. symmetry. apply sort_perm.
  - apply sort_sorted.
Qed.

(** * Rearrangement *)
Definition tot (l : list R) : R := fold_right Rplus 0 l.
Lemma tot_perm l m : Permutation l m -> tot l = tot m.
Proof. unfold tot. induction 1; cbn; lra. Qed.
Lemma tot_app l m : tot (l ++ m) = tot l + tot m.
Proof. unfold tot. induction l; cbn in *; lra. Qed.
Lemma sorted_shift a s n : StronglySorted geR (a :: s) -> (0 < n)%nat -> tot (firstn n s) <= a + tot (firstn (n - 1) s) \/ (length s < n)%nat.
Proof.
  intros S P. destruct n as [|n]; [lia|]. replace (Datatypes.S n - 1)%nat with n by lia. clear P.
  inversion S as [|? ? S' F]; subst. clear S.
  revert n; induction s as [|b s IH]; intros n; cbn; [right; lia|].
  inversion S' as [|? ? S'' F']; subst. inversion F as [|? ? Fb Fs]; subst.
  destruct n as [|n]; cbn.
  - left. unfold geR in Fb. lra.
  - destruct (IH S'' Fs n) as [L|L]; [left|right; lia]. cbn in L. unfold tot in *. cbn. lra.
Qed.
Lemma top_sum s : StronglySorted geR s -> forall l m, Permutation (l ++ m) s -> tot l <= tot (firstn (length l) s).
Proof.
  induction 1 as [|a s S IH F]; intros l m P.
  - symmetry in P. apply Permutation_nil, app_eq_nil in P as [-> ->]. cbn. lra.
  - destruct l as [|x l]; [cbn; lra|].
    assert (I : In a ((x :: l) ++ m)) by (eapply Permutation_in; [symmetry; exact P|left; auto]).
    apply in_app_or in I as [I|I].
    + apply in_split in I as (l1 & l2 & E). rewrite E in *.
      assert (P' : Permutation ((l1 ++ l2) ++ m) s).
      { apply Permutation_cons_inv with a. rewrite <- P. rewrite <- !app_assoc. cbn. apply Permutation_middle. }
      specialize (IH _ _ P'). rewrite tot_app, app_length in *. cbn [length]. rewrite Nat.add_succ_r. cbn [firstn].
      unfold tot in *. cbn. lra.
    + apply in_split in I as (m1 & m2 & ->).
      assert (P' : Permutation ((x :: l) ++ (m1 ++ m2)) s).
      { apply Permutation_cons_inv with a. rewrite <- P.
        rewrite (app_assoc (x :: l) m1 m2), (app_assoc (x :: l) m1 (a :: m2)). apply Permutation_middle. }
      pose proof (IH _ _ P') as L. 
      destruct (@sorted_shift a s (length (x :: l))) as [L'|L'].
      * constructor; auto.
      * cbn; lia.
      * cbn [length] in *. replace (Datatypes.S (length l) - 1)%nat with (length l) in L' by lia. cbn [firstn] in *. unfold tot in *. cbn in *. lra.
      * apply Permutation_length in P'. rewrite app_length in P'. lia.
Qed.
Lemma prefix_top y o n : Permutation o y -> tot (firstn n o) <= tot (firstn n (sort_desc y)).
Proof.
  intros P. destruct (le_lt_dec n (length o)) as [L|L].
  - pose proof (@top_sum (sort_desc y) (sort_sorted y) (firstn n o) (skipn n o)) as H.
    rewrite firstn_length_le in H by auto. apply H. rewrite firstn_skipn, P. symmetry. apply sort_perm.
  - rewrite !firstn_all2; [|rewrite (Permutation_length (sort_perm y)), <- (Permutation_length P); lia|lia].
    right. apply tot_perm. rewrite P. symmetry. apply sort_perm.
Qed.

Definition wt (r : nat) : R := / (ln (INR r + 1) / ln 2).
Lemma ln2_pos : 0 < ln 2.
Proof. rewrite <- ln_1. apply ln_increasing; lra. Qed.
Lemma log_pos r : (1 <= r)%nat -> 0 < ln (INR r + 1) / ln 2.
Proof.
  intros P. apply Rdiv_lt_0_compat; [|apply ln2_pos]. rewrite <- ln_1. apply ln_increasing; [lra|].
  assert (1 <= INR r) by (change 1 with (INR 1); apply le_INR; auto). lra.
Qed.
Lemma wt_pos r : (1 <= r)%nat -> 0 < wt r.
Proof. intros. apply Rinv_0_lt_compat, log_pos; auto. Qed.
Lemma wt_dec r : (1 <= r)%nat -> wt (S r) <= wt r.
Proof.
  intros P. unfold wt. apply Rinv_le_contravar; [apply log_pos; auto|]. unfold Rdiv. apply Rmult_le_compat_r.
  - left. apply Rinv_0_lt_compat, ln2_pos.
  - left. apply ln_increasing; [|rewrite S_INR; lra]. pose proof (pos_INR r). lra.
Qed.
Lemma gain_cons r x l : gain_from r (x :: l) = wt r * x + gain_from (S r) l.
Proof. cbn [gain_from]. unfold wt, Rdiv at 1. rewrite (Rmult_comm x). reflexivity. Qed.

Lemma gain_dominated l : forall s r c, (1 <= r)%nat -> length l = length s -> 0 <= c ->
  (forall j, tot (firstn j l) <= c + tot (firstn j s)) -> gain_from r l <= wt r * c + gain_from r s.
Proof.
  induction l as [|x l IH]; intros [|y s] r c P L C D; try discriminate L.
  - cbn [gain_from]. assert (0 <= wt r * c) by (apply Rmult_le_pos; [left; apply wt_pos; auto|auto]). lra.
  - rewrite !gain_cons. injection L as L.
    assert (C' : 0 <= c + y - x) by (specialize (D 1%nat); cbn in D; unfold tot in D; cbn in D; lra).
    assert (H : gain_from (S r) l <= wt (S r) * (c + y - x) + gain_from (S r) s).
    { apply IH; auto. intros j. specialize (D (S j)). cbn [firstn] in D. unfold tot in *. cbn in D. lra. }
    assert (wt (S r) * (c + y - x) <= wt r * (c + y - x)) by (apply Rmult_le_compat_r; [auto|apply wt_dec; auto]). lra.
Qed.
Lemma gain_best k y o : Permutation o y -> gain (firstn k o) <= gain (firstn k (sort_desc y)).
Proof.
  intros P. unfold gain. pose proof (@gain_dominated (firstn k o) (firstn k (sort_desc y)) 1 0) as H.
  rewrite Rmult_0_r, Rplus_0_l in H. apply H; auto.
  - rewrite !firstn_length, (Permutation_length P), (Permutation_length (sort_perm y)). auto.
  - lra.
  - intros j. rewrite !firstn_firstn, Rplus_0_l. apply prefix_top; auto.
Qed.
Lemma gain_nonneg r l : (1 <= r)%nat -> (forall x, In x l -> 0 <= x) -> 0 <= gain_from r l.
Proof.
  revert r; induction l as [|x l IH]; intros r P N; [cbn; lra|]. rewrite gain_cons.
  assert (0 <= wt r * x) by (apply Rmult_le_pos; [left; apply wt_pos; auto|apply N; left; auto]).
  assert (0 <= gain_from (S r) l) by (apply IH; auto; intros; apply N; right; auto). lra.
Qed.
Lemma best_is_sort k y : best_gain k y (gain (firstn k (sort_desc y))).
Proof. split; [exists (sort_desc y); split; auto; apply sort_perm|]. intros; apply gain_best; auto. Qed.
Lemma best_gain_unique k y g h : best_gain k y g -> best_gain k y h -> g = h.
Proof. intros [(o & P & ->) A] [(o' & P' & ->) B]. pose proof (A _ P'). pose proof (B _ P). lra. Qed.

Lemma dcg_gain (l : list R) : dcg l = gain l.
Proof.
  unfold dcg, gain, range. rewrite Nat2Z.id.
  assert (H : forall s, sumf (combine l (map Z.of_nat (seq s (length l)))) (fun '(x, i) => nmul x (ninv (nlog2 (nadd (nofZ i) (nofZ 2))))) = gain_from (S s) l).
  { induction l as [|x l IH]; intros s; [reflexivity|]. cbn [length seq map combine sumf]. rewrite IH, gain_cons.
    cbn [nmul nadd Num_R nofZ Ext_R ninv nlog2]. rewrite <- INR_IZR_INZ, Rinv0_ne.
    - rewrite Rmult_comm. unfold wt. rewrite S_INR. replace (INR s + 2) with (INR s + 1 + 1) by lra. reflexivity.
    - pose proof (@log_pos (S s) ltac:(lia)) as P. rewrite S_INR in P. replace (INR s + 2) with (INR s + 1 + 1) by lra. lra. }
  apply (H 0%nat).
Qed.

(** * Positions of the relevant items *)
Fixpoint ranks (i : nat) (l : list R) : list nat :=
  match l with [] => [] | x :: t => if is_one x then i :: ranks (S i) t else ranks (S i) t end.
Lemma ranks_length i l : length (ranks i l) = relevant l.
Proof. revert i; induction l as [|x l IH]; intros i; cbn; auto. unfold relevant in *. cbn. destruct (is_one x); cbn; auto. Qed.
Lemma ranks_In l : forall i r, In r (ranks i l) <-> (i <= r < i + length l)%nat /\ nth (r - i) l 0 = 1.
Proof.
  induction l as [|x l IH]; intros i r; cbn [ranks length].
  - cbn. split; [tauto|]. intros [L _]. lia.
  - assert (H : In r (ranks (S i) l) <-> (S i <= r < i + S (length l))%nat /\ nth (r - i) (x :: l) 0 = 1).
    { rewrite IH. split; intros [A B]; (split; [lia|]).
      - replace (r - i)%nat with (S (r - S i)) by lia. exact B.
      - replace (r - i)%nat with (S (r - S i)) in B by lia. exact B. }
    destruct (is_one x) eqn:E.
    + apply is_one_true in E. cbn [In]. rewrite H. split.
      * intros [<-|[A B]]; (split; [lia|]); auto. rewrite Nat.sub_diag. exact E.
      * intros [A B]. destruct (Nat.eq_dec i r); [left; auto|right; split; [lia|auto]].
    + apply is_one_false in E. rewrite H. split; intros [A B]; (split; [|auto]); [lia|].
      destruct (Nat.eq_dec i r) as [->|]; [|lia]. rewrite Nat.sub_diag in B. cbn in B. tauto.
Qed.
Lemma ranks_sorted l : forall i, StronglySorted lt (ranks i l).
Proof.
  induction l as [|x l IH]; intros i; cbn [ranks]; [constructor|]. destruct (is_one x); auto.
  constructor; auto. rewrite Forall_forall. intros r I. apply ranks_In in I. lia.
Qed.
Lemma sorted_lt_unique l m : StronglySorted lt l -> StronglySorted lt m -> (forall r, In r l <-> In r m) -> l = m.
Proof.
  intros S1. revert m. induction S1 as [|a l S1 IH F1]; intros m S2 E.
  - destruct m as [|b m]; auto. destruct (E b) as [_ H]. destruct H; left; auto.
  - destruct S2 as [|b m S2 F2]; [destruct (E a) as [H _]; destruct H; left; auto|].
    rewrite Forall_forall in F1, F2. assert (a = b).
    { assert (I : In a (b :: m)) by (apply E; left; auto). assert (J : In b (a :: l)) by (apply E; left; auto).
      destruct I as [|I]; auto. destruct J as [|J]; auto. specialize (F1 _ J). specialize (F2 _ I). lia. }
    subst b. f_equal. apply IH; auto. intros r. split; intros I.
    + assert (J : In r (a :: m)) by (apply E; right; auto). destruct J as [<-|J]; auto. specialize (F1 _ I). lia.
    + assert (J : In r (a :: l)) by (apply E; right; auto). destruct J as [<-|J]; auto. specialize (F2 _ I). lia.
Qed.
Lemma relevant_ranks_is ord y rs : relevant_ranks ord y rs -> rs = ranks 1 (map (fun i => nth i y 0) ord).
Proof.
  intros [S E]. apply sorted_lt_unique; auto; [apply ranks_sorted|]. intros r. rewrite E, ranks_In, map_length.
  split; intros [A B]; (split; [lia|]).
  - rewrite nth_indep with (d' := nth 0%nat y 0) by (rewrite map_length; lia). rewrite (map_nth (fun i => nth i y 0)). exact B.
  - rewrite nth_indep with (d' := nth 0%nat y 0) in B by (rewrite map_length; lia). rewrite (map_nth (fun i => nth i y 0)) in B. exact B.
Qed.
Lemma relevant_ranks_exists ord y : relevant_ranks ord y (ranks 1 (map (fun i => nth i y 0) ord)).
Proof.
  split; [apply ranks_sorted|]. intros r. rewrite ranks_In, map_length.
  split; intros [A B]; (split; [lia|]).
  - rewrite nth_indep with (d' := nth 0%nat y 0) in B by (rewrite map_length; lia). rewrite (map_nth (fun i => nth i y 0)) in B. exact B.
  - rewrite nth_indep with (d' := nth 0%nat y 0) by (rewrite map_length; lia). rewrite (map_nth (fun i => nth i y 0)). exact B.
Qed.

(** the model's lists *)
Lemma positives_ranks l : binary l -> forall i, positives (Z.of_nat i) l = map Z.of_nat (ranks i l).
Proof.
  induction l as [|x l IH]; intros B i; [reflexivity|]. cbn [positives ranks].
  replace (Z.of_nat i + 1)%Z with (Z.of_nat (S i)) by lia. rewrite IH by (intros z I; apply B; right; auto).
  destruct (B x (or_introl eq_refl)) as [->| ->].
  - replace (nltb nz 0) with false by (symmetry; apply nltb_false; cbn; lra).
    replace (is_one 0) with false by (symmetry; apply is_one_false; lra). reflexivity.
  - replace (nltb nz 1) with true by (symmetry; apply nltb_true; cbn; lra).
    replace (is_one 1) with true by (symmetry; apply is_one_true; lra). reflexivity.
Qed.
Lemma nonzeros_ranks l : binary l -> forall i, nonzeros (Z.of_nat i) l = map Z.of_nat (ranks i l).
Proof.
  induction l as [|x l IH]; intros B i; [reflexivity|]. cbn [nonzeros ranks].
  replace (Z.of_nat i + 1)%Z with (Z.of_nat (S i)) by lia. rewrite IH by (intros z I; apply B; right; auto).
  destruct (B x (or_introl eq_refl)) as [->| ->].
  - replace (neqb 0 nz) with true by (symmetry; apply neqb_true; cbn; lra).
    replace (is_one 0) with false by (symmetry; apply is_one_false; lra). reflexivity.
  - replace (neqb 1 nz) with false by (symmetry; apply neqb_false; cbn; lra).
    replace (is_one 1) with true by (symmetry; apply is_one_true; lra). reflexivity.
Qed.
(** j-th relevant item: j / rank = precision at this rank *)
Lemma prec_at_ranks l : forall i j, (1 <= i)%nat ->
  prec_at (T := R) (Z.of_nat j + 1) (map Z.of_nat (ranks i l)) =
  map (fun r => INR (j + relevant (firstn (S r - i) l)) / INR r) (ranks i l).
Proof.
  induction l as [|x l IH]; intros i j P; [reflexivity|]. cbn [ranks].
  destruct (is_one x) eqn:E.
  - cbn [map prec_at]. f_equal.
    + replace (S i - i)%nat with 1%nat by lia. unfold relevant. cbn [firstn filter]. rewrite E. cbn [length].
      cbn [nmul Num_R nofZ Ext_R ninv]. rewrite <- INR_IZR_INZ, Rinv0_ne by (apply not_0_INR; lia).
      replace (Z.of_nat j + 1)%Z with (Z.of_nat (j + 1)) by lia. rewrite <- INR_IZR_INZ. reflexivity.
    + replace (Z.of_nat j + 1 + 1)%Z with (Z.of_nat (S j) + 1)%Z by lia. rewrite IH by lia.
      apply map_ext_in. intros r I. apply ranks_In in I. replace (S r - i)%nat with (S (S r - S i)) by lia.
      cbn [firstn]. unfold relevant. cbn [filter]. rewrite E. cbn [length]. f_equal. f_equal. lia.
  - rewrite IH by lia. apply map_ext_in. intros r I. apply ranks_In in I. replace (S r - i)%nat with (S (S r - S i)) by lia.
    cbn [firstn]. unfold relevant. cbn [filter]. rewrite E. reflexivity.
Qed.

(** suffix maxima *)
Fixpoint sufmax (l : list R) : list R :=
  match l with
  | [] => []
  | x :: t => match sufmax t with [] => [x] | (m :: _) as s => Rmax x m :: s end
  end.
Definition lastmax (l : list R) : R := match l with [] => 0 | x :: t => fold_left Rmax t x end.
Lemma cummax_snoc l x : cummax (l ++ [x]) = cummax l ++ [match l with [] => x | _ => Rmax (lastmax l) x end].
Proof.
  destruct l as [|a l]; [reflexivity|]. cbn [app cummax lastmax]. f_equal.
  revert a; induction l as [|b l IH]; intros a; [reflexivity|]. cbn [app cummax_from fold_left]. f_equal. apply IH.
Qed.
Lemma fold_rmax_acc l a b : fold_left Rmax l (Rmax a b) = Rmax a (fold_left Rmax l b).
Proof.
  revert a b; induction l as [|x l IH]; intros a b; cbn; auto. rewrite <- Rmax_assoc. apply IH.
Qed.
Lemma lastmax_snoc l x : l <> [] -> lastmax (l ++ [x]) = Rmax (lastmax l) x.
Proof.
  destruct l as [|a l]; [tauto|]. intros _. cbn [app lastmax]. rewrite fold_left_app. reflexivity.
Qed.
Lemma sufmax_hd l : l <> [] -> exists s, sufmax l = lastmax (rev l) :: s.
Proof.
  induction l as [|x l IH]; intros N; [tauto|]. cbn [sufmax rev]. destruct l as [|y l].
  - cbn. eauto.
  - destruct IH as (s & E); [discriminate|]. rewrite E. eexists. f_equal.
    rewrite lastmax_snoc; [apply Rmax_comm|]. cbn. destruct (rev l); discriminate.
Qed.
Lemma rev_cummax l : rev (cummax (rev l)) = sufmax l.
Proof.
  induction l as [|x l IH]; [reflexivity|]. cbn [rev sufmax]. rewrite cummax_snoc, rev_app_distr, IH. cbn [rev app].
  destruct l as [|y l]; [reflexivity|]. destruct (@sufmax_hd (y :: l)) as (s & ->); [discriminate|].
  f_equal. destruct (rev (y :: l)) eqn:E; [|apply Rmax_comm].
  exfalso. cbn in E. destruct (rev l); discriminate.
Qed.
Lemma sufmax_length l : length (sufmax l) = length l.
Proof. induction l as [|x l IH]; cbn; auto. destruct (sufmax l); cbn in *; auto. Qed.
Lemma sufmax_spec l i : (i < length l)%nat ->
  (exists j, (i <= j < length l)%nat /\ nth i (sufmax l) 0 = nth j l 0) /\
  (forall j, (i <= j < length l)%nat -> nth j l 0 <= nth i (sufmax l) 0).
Proof.
  revert i; induction l as [|x l IH]; intros i L; [cbn in L; lia|]. cbn [sufmax].
  destruct l as [|y l'] eqn:El.
  - cbn in *. assert (i = 0%nat) by lia; subst. split; [exists 0%nat; split; auto; lia|].
    intros j B. assert (j = 0%nat) by lia; subst. lra.
  - rewrite <- El in *. assert (N : (0 < length l)%nat) by (rewrite El; cbn; lia).
    destruct (sufmax l) as [|m s] eqn:E; [pose proof (sufmax_length l) as Q; rewrite E in Q; cbn in Q; lia|].
    destruct i as [|i].
    + destruct (IH 0%nat N) as [(j & B & J) A]. cbn in J, A. cbn [nth]. split.
      * unfold Rmax. destruct (Rle_dec x m); [exists (S j); split; [cbn; lia|exact J] | exists 0%nat; split; [cbn; lia|auto]].
      * intros [|k] K; cbn [nth].
        -- apply Rmax_l.
        -- apply Rle_trans with m; [apply A; cbn in K; lia|apply Rmax_r].
    + destruct (IH i) as [(j & B & J) A]; [cbn in L; lia|]. cbn [nth]. split.
      * exists (S j). split; [cbn; lia|exact J].
      * intros [|k] K; [lia|]. cbn [nth]. apply A. cbn in K. lia.
Qed.
Lemma avg_rev l : avg (rev l) = avg l.
Proof. unfold avg. rewrite rev_length. f_equal. apply (tot_perm (Permutation_sym (Permutation_rev l))). Qed.
