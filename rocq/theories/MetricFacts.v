(** Facts about the metrics, in exact real arithmetic. *)
From Coq Require Import Reals Lra Permutation Sorted String.
From Verif Require Import Num PyDict PyDictFacts ModelBase ModelConv ModelUtils RealFacts ModelMetrics SpecMetrics.
Set Implicit Arguments.
Local Open Scope R_scope.

(** * Comparisons *)
Lemma nleb_true (a b : R) : nleb a b = true <-> a <= b.
Proof. cbn. destruct (Rle_dec a b); split; intros; auto; try discriminate; contradiction. Qed.
Lemma nleb_false (a b : R) : nleb a b = false <-> b < a.
Proof. cbn. destruct (Rle_dec a b); split; intros; auto; try discriminate; lra. Qed.
Lemma nltb_true (a b : R) : nltb a b = true <-> a < b.
Proof. unfold nltb. rewrite negb_true_iff. apply nleb_false. Qed.
Lemma nltb_false (a b : R) : nltb a b = false <-> b <= a.
Proof. unfold nltb. rewrite negb_false_iff. apply nleb_true. Qed.
Lemma neqb_true (a b : R) : neqb a b = true <-> a = b.
Proof. unfold neqb. rewrite andb_true_iff, !nleb_true. split; [intros; lra | intros ->; lra]. Qed.
Lemma neqb_false (a b : R) : neqb a b = false <-> a <> b.
Proof. rewrite <- neqb_true. destruct (neqb a b); split; intros; auto; try discriminate; tauto. Qed.

Lemma fdiv_ne (a b : R) : b <> 0 -> fdiv a b = Fin (a / b).
Proof.
  intros N. unfold fdiv. replace (neqb b nz) with false by (symmetry; apply neqb_false; auto).
  cbn. rewrite Rinv0_ne by auto. reflexivity.
Qed.
Lemma fdiv_00 : fdiv 0 0 = NaN.
Proof.
  unfold fdiv. replace (neqb 0 nz) with true by (symmetry; apply neqb_true; auto).
  replace (nltb nz 0) with false by (symmetry; apply nltb_false; cbn; lra).
  replace (nltb 0 nz) with false by (symmetry; apply nltb_false; cbn; lra). reflexivity.
Qed.

(** * Means *)
Lemma fsum_fin (l : list R) : fold_right fadd (Fin nz) (map Fin l) = Fin (fold_right Rplus 0 l).
Proof. induction l as [|x l IH]; cbn [map fold_right]; [reflexivity|]. rewrite IH. reflexivity. Qed.
Lemma fmean_fin (l : list R) : l <> [] -> fmean (map Fin l) = Fin (avg l).
Proof.
  intros N. unfold fmean, avg. rewrite fsum_fin, map_length. cbn [nofZ Ext_R]. rewrite <- INR_IZR_INZ.
  apply fdiv_ne. destruct l; [tauto|]. cbn [length]. apply not_0_INR. discriminate.
Qed.
Lemma fmean_nil : fmean (@nil (fl R)) = NaN.
Proof. unfold fmean. cbn [fold_right length]. apply fdiv_00. Qed.
Lemma fmean_nan (l : list (fl R)) : In NaN l -> fmean l = NaN.
Proof.
  intros I. unfold fmean. replace (fold_right fadd (Fin nz) l) with (@NaN R); [reflexivity|].
  induction l as [|x l IH]; cbn in *; [tauto|]. destruct I as [->|I]; [reflexivity|].
  rewrite <- IH by auto. destruct x; reflexivity.
Qed.
Lemma fmean_map {A} (f : A -> R) (l : list A) : l <> [] -> fmean (map (fun x => Fin (f x)) l) = Fin (avg (map f l)).
Proof. intros N. rewrite <- (map_map f Fin). apply fmean_fin. destruct l; [tauto|discriminate]. Qed.

Lemma fold_plus_bound (l : list R) a b : (forall x, In x l -> a <= x <= b) ->
  a * INR (length l) <= fold_right Rplus 0 l <= b * INR (length l).
Proof.
  induction l as [|x l IH]; intros B.
  - cbn. lra.
  - cbn [fold_right length]. rewrite S_INR. assert (a <= x <= b) by (apply B; left; auto).
    assert (a * INR (length l) <= fold_right Rplus 0 l <= b * INR (length l)) by (apply IH; intros; apply B; right; auto). lra.
Qed.
Lemma avg_bound (l : list R) a b : l <> [] -> (forall x, In x l -> a <= x <= b) -> a <= avg l <= b.
Proof.
  intros N B. pose proof (fold_plus_bound l B) as [L U]. unfold avg.
  assert (P : 0 < INR (length l)) by (apply lt_0_INR; destruct l; [tauto|cbn; lia]).
  split.
  - apply Rmult_le_reg_r with (INR (length l)); auto. unfold Rdiv. rewrite Rmult_assoc, Rinv_l by lra. lra.
  - apply Rmult_le_reg_r with (INR (length l)); auto. unfold Rdiv. rewrite Rmult_assoc, Rinv_l by lra. lra.
Qed.
Lemma Forall2_len {A B} (P : A -> B -> Prop) l m : Forall2 P l m -> length l = length m.
Proof. induction 1; cbn; auto. Qed.
Lemma avg_le (l m : list R) : Forall2 Rle l m -> avg l <= avg m.
Proof.
  intros F. unfold avg. rewrite <- (Forall2_len F). unfold Rdiv. apply Rmult_le_compat_r.
  - destruct l; [cbn; rewrite Rinv_0; lra|]. left. apply Rinv_0_lt_compat, lt_0_INR. cbn; lia.
  - induction F; cbn; lra.
Qed.
(** an average of values of at most 1 is 1 only if all are *)
Lemma avg_one (l : list R) : l <> [] -> (forall x, In x l -> x <= 1) -> avg l = 1 -> forall x, In x l -> x = 1.
Proof.
  intros N B E. unfold avg in E.
  assert (P : 0 < INR (length l)) by (apply lt_0_INR; destruct l; [tauto|cbn; lia]).
  assert (S : fold_right Rplus 0 l = INR (length l)).
  { apply Rmult_eq_reg_r with (/ INR (length l)); [|apply Rinv_neq_0_compat; lra]. rewrite Rinv_r by lra. exact E. }
  clear E P N. induction l as [|y l IH]; intros x I; [destruct I|].
  cbn [fold_right length] in S. rewrite S_INR in S.
  assert (B1 : y <= 1) by (apply B; left; auto).
  assert (B2 : fold_right Rplus 0 l <= INR (length l)).
  { clear - B. induction l as [|z l IH]; [cbn; lra|]. cbn [fold_right length]. rewrite S_INR.
    assert (z <= 1) by (apply B; right; left; auto).
    assert (fold_right Rplus 0 l <= INR (length l)) by (apply IH; intros u [->|I]; apply B; [left|right; right]; auto). lra. }
  destruct I as [->|I]; [lra|]. apply IH; auto; [|lra]. intros; apply B; right; auto.
Qed.

(** * Rankings *)
Section Rank.
  Variable argsort : list R -> list nat.
  Hypothesis AS : sorts_desc argsort.
  Lemma ranked_nth (y p : list R) : ranked argsort (y, p) = map (fun i => nth i y 0) (argsort p).
  Proof. reflexivity. Qed.
  Lemma argsort_length p : length (argsort p) = length p.
  Proof. destruct (AS p) as [P _]. apply Permutation_length in P. rewrite seq_length in P. auto. Qed.
  Lemma map_nth_seq (y : list R) : map (fun i => nth i y 0) (seq 0 (length y)) = y.
  Proof.
    apply nth_ext with 0 0; [rewrite map_length, seq_length; auto|]. intros i L. rewrite map_length, seq_length in L.
    rewrite (nth_indep _ 0 (nth 0%nat y 0)) by (rewrite map_length, seq_length; auto).
    rewrite (map_nth (fun i => nth i y 0)), seq_nth by auto. reflexivity.
  Qed.
  Lemma ranked_perm (y p : list R) : length y = length p -> Permutation (ranked argsort (y, p)) y.
  Proof.
    intros L. rewrite ranked_nth. destruct (AS p) as [P _]. rewrite <- L in P.
    rewrite (Permutation_map _ P), map_nth_seq. auto.
  Qed.
  Lemma ranked_length (y p : list R) : length (ranked argsort (y, p)) = length p.
  Proof. rewrite ranked_nth, map_length. apply argsort_length. Qed.
End Rank.

(** the order of the items is fixed by distinct scores *)
Lemma sorted_perm_eq {A} (le : A -> A -> Prop) (l m : list A) :
  (forall a b, In a l -> In b l -> le a b -> le b a -> a = b) -> Permutation l m -> StronglySorted le l -> StronglySorted le m -> l = m.
Proof.
  revert m; induction l as [|a l IH]; intros m AN P S1 S2.
  - apply Permutation_nil in P; auto.
  - destruct m as [|b m]; [symmetry in P; apply Permutation_nil in P; discriminate|].
    inversion S1 as [|? ? S1' F1]; subst. inversion S2 as [|? ? S2' F2]; subst.
    assert (E : a = b).
    { assert (I : In b (a :: l)) by (eapply Permutation_in; [symmetry; exact P|left; auto]).
      assert (J : In a (b :: m)) by (eapply Permutation_in; [exact P|left; auto]).
      destruct I as [->|I]; auto. destruct J as [->|J]; auto.
      rewrite Forall_forall in F1, F2. apply AN; [left|right| |]; auto. }
    subst b. f_equal. apply IH; auto.
    + intros x y I J. apply AN; right; auto.
    + eapply Permutation_cons_inv; exact P.
Qed.
Lemma same_order_ranking p q o1 o2 : same_order p q -> ranking_of p o1 -> ranking_of q o2 -> o1 = o2.
Proof.
  intros (L & D & M) [P1 S1] [P2 S2].
  apply sorted_perm_eq with (fun i j => nth j p 0 <= nth i p 0).
  - intros a b Ia Ib L1 L2. apply (Permutation_in _ P1), in_seq in Ia. apply (Permutation_in _ P1), in_seq in Ib.
    destruct (Nat.eq_dec a b) as [|N]; auto. exfalso. apply (D a b); try lia; auto. lra.
  - rewrite P1, P2, L. auto.
  - exact S1.
  - assert (I : forall x, In x o2 -> (x < length p)%nat).
    { intros x I. apply (Permutation_in _ P2), in_seq in I. lia. }
    clear P2. induction S2 as [|a l S2 IH F]; constructor.
    + apply IH. intros; apply I; right; auto.
    + rewrite Forall_forall in *. intros x Ix. specialize (F x Ix).
      destruct (Rle_lt_dec (nth x p 0) (nth a p 0)) as [|LT]; auto. exfalso.
      apply M in LT; [lra| |]; apply I; [left|right]; auto.
Qed.

(** * Binary labels *)
Lemma is_one_true x : is_one x = true <-> x = 1.
Proof. unfold is_one. destruct (Req_EM_T x 1); split; intros; auto; try discriminate; tauto. Qed.
Lemma is_one_false x : is_one x = false <-> x <> 1.
Proof. unfold is_one. destruct (Req_EM_T x 1); split; intros; auto; try discriminate; tauto. Qed.
Lemma binary_sum (y : list R) : binary y -> nsum y = INR (relevant y).
Proof.
  induction y as [|x y IH]; intros B; [reflexivity|].
  unfold nsum, relevant in *. cbn [sumf filter]. rewrite IH by (intros z I; apply B; right; auto).
  destruct (B x (or_introl eq_refl)) as [->| ->].
  - replace (is_one 0) with false by (symmetry; apply is_one_false; lra). cbn [nadd Num_R]. lra.
  - replace (is_one 1) with true by (symmetry; apply is_one_true; auto). cbn [nadd Num_R length]. rewrite S_INR. lra.
Qed.
Lemma relevant_perm l m : Permutation l m -> relevant l = relevant m.
Proof.
  unfold relevant. induction 1; cbn; auto; try congruence.
  - destruct (is_one x); cbn; auto.
  - destruct (is_one x), (is_one y); cbn; auto.
Qed.
Lemma hits_relevant k ord y : hits k ord y = relevant (firstn k (map (fun i => nth i y 0) ord)).
Proof.
  unfold hits, relevant. rewrite firstn_map. induction (firstn k ord) as [|i l IH]; cbn; auto.
  destruct (is_one (nth i y 0)); cbn; auto.
Qed.
Lemma relevant_le l : (relevant l <= length l)%nat.
Proof. unfold relevant. induction l as [|x l IH]; cbn; auto. destruct (is_one x); cbn; lia. Qed.
Lemma relevant_app l m : relevant (l ++ m) = (relevant l + relevant m)%nat.
Proof. unfold relevant. rewrite filter_app, app_length. auto. Qed.
Lemma relevant_firstn_mono l i j : (i <= j)%nat -> (relevant (firstn i l) <= relevant (firstn j l))%nat.
Proof.
  intros L. replace (firstn j l) with (firstn i l ++ firstn (j - i) (skipn i l)).
  - rewrite relevant_app. lia.
  - revert i j L; induction l as [|x l IH]; intros [|i] [|j] L; cbn; auto; try lia.
    + rewrite firstn_nil. auto.
    + f_equal. apply IH. lia.
Qed.
Lemma relevant_firstn_le l i : (relevant (firstn i l) <= relevant l)%nat.
Proof. rewrite <- (firstn_skipn i l) at 2. rewrite relevant_app. lia. Qed.
Lemma binary_perm l m : Permutation l m -> binary m -> binary l.
Proof. intros P B x I. apply B. eapply Permutation_in; eauto. Qed.
Lemma binary_firstn k l : binary l -> binary (firstn k l).
Proof. intros B x I. apply B. rewrite <- (firstn_skipn k l). apply in_or_app; auto. Qed.
Lemma relevant_0 y : relevant y = 0%nat <-> ~ In 1 y.
Proof.
  unfold relevant. induction y as [|x y IH]; cbn; [tauto|].
  destruct (is_one x) eqn:E.
  - apply is_one_true in E. cbn. split; [discriminate|]. intros N. exfalso. apply N. left; auto.
  - apply is_one_false in E. rewrite IH. split; [intros N [->|I]; auto | tauto].
Qed.

Lemma fold_max_ge (l : list R) x : x <= fold_left Rmax l x /\ (forall z, In z l -> z <= fold_left Rmax l x).
Proof.
  revert x; induction l as [|y l IH]; intros x; cbn; [split; [lra|tauto]|].
  destruct (IH (Rmax x y)) as [A B]. pose proof (Rmax_l x y). pose proof (Rmax_r x y).
  split; [lra|]. intros z [->|I]; [lra|auto].
Qed.
Lemma fold_max_in (l : list R) x : fold_left Rmax l x = x \/ In (fold_left Rmax l x) l.
Proof.
  revert x; induction l as [|y l IH]; intros x; cbn; auto.
  destruct (IH (Rmax x y)) as [E|I]; auto. rewrite E. unfold Rmax. destruct (Rle_dec x y); auto.
Qed.
Lemma check_binary_spec (l : list R) :
  match check_binary l with
  | Ok _ => In 1 l /\ forall x, In x l -> x <= 1
  | Err AssertionError => l <> [] /\ ~ (In 1 l /\ forall x, In x l -> x <= 1)
  | Err RuntimeError => l = []
  | Err _ => False
  end.
Proof.
  destruct l as [|x l]; cbn [check_binary]; auto. change nmax with Rmax. change n1 with 1.
  pose proof (fold_max_ge l x) as [A B]. pose proof (fold_max_in l x) as C.
  destruct (neqb (fold_left Rmax l x) 1) eqn:E.
  - apply neqb_true in E. rewrite E in *. split.
    + destruct C as [<-|I]; [left|right]; auto.
    + intros z [->|I]; auto.
  - apply neqb_false in E. split; [discriminate|]. intros [I U]. apply E.
    assert (fold_left Rmax l x <= 1) by (apply U; destruct C as [->|I']; [left|right]; auto).
    assert (1 <= fold_left Rmax l x) by (destruct I as [->|I]; auto). lra.
Qed.
Lemma check_binary_ok (l : list R) : (forall x, In x l -> x <= 1) -> In 1 l -> check_binary l = Ok tt.
Proof.
  intros U I. pose proof (check_binary_spec l) as S. destruct (check_binary l) as [[]|[]]; auto; try tauto.
  subst; destruct I.
Qed.

(** * Depth *)
Lemma pref_nat {A} k (l : list A) : pref (Z.of_nat k) l = firstn k l.
Proof. unfold pref. replace (0 <=? Z.of_nat k)%Z with true by (symmetry; apply Z.leb_le; lia). rewrite Nat2Z.id. auto. Qed.
Lemma floor_spec x z : Int_part x = z <-> IZR z <= x < IZR z + 1.
Proof.
  split.
  - intros <-. pose proof (base_Int_part x). lra.
  - intros [A B]. pose proof (base_Int_part x) as [C D]. 
    assert (z <= Int_part x)%Z by (apply Z.lt_succ_r, lt_IZR; rewrite succ_IZR; lra).
    assert (Int_part x <= z)%Z by (apply Z.lt_succ_r, lt_IZR; rewrite succ_IZR; lra). lia.
Qed.
Lemma nceil_spec x z : nceil x = z <-> IZR z - 1 < x <= IZR z.
Proof.
  unfold nceil. cbn [nfloor Ext_R nopp Num_R]. split.
  - intros E. assert (F : Int_part (- x) = (- z)%Z) by lia. apply floor_spec in F. rewrite opp_IZR in F. lra.
  - intros B. assert (F : Int_part (- x) = (- z)%Z) by (apply floor_spec; rewrite opp_IZR; lra). rewrite F. lia.
Qed.
Lemma depth_top_k c k ratio kk : depth c k ratio kk -> ratio_ok ratio = true /\ top_k (Z.of_nat c) k ratio = Z.of_nat kk.
Proof.
  unfold depth, ratio_ok, top_k. destruct ratio as [r|].
  - intros [B C]. split.
    + rewrite andb_true_iff, nltb_true, nleb_true. cbn. lra.
    + apply nceil_spec. cbn [nmul Num_R nofZ Ext_R]. rewrite <- !INR_IZR_INZ. lra.
  - destruct k; [intros ->; auto | intros ->; auto].
Qed.
Lemma depth_le c k ratio kk : depth c k ratio kk -> (kk <= c)%nat.
Proof.
  unfold depth. destruct ratio as [r|]; [|destruct k; intros; lia].
  intros [B [C _]]. apply Nat.lt_succ_r, INR_lt. rewrite S_INR.
  assert (INR c * r <= INR c * 1) by (apply Rmult_le_compat_l; [apply pos_INR|lra]). lra.
Qed.

(** * Tensors of samples *)
Lemma samples_format {P} c (rows : list (list R * list P)) k ratio kk : samples c rows -> depth c k ratio kk ->
  format_inputs (V2 c (map fst rows)) (V2 c (map snd rows)) k ratio = Ok (rows, Z.of_nat kk).
Proof.
  intros S D. apply depth_top_k in D as [R K]. unfold format_inputs. cbn [shape dim12 rows_of cols_of negb].
  rewrite !map_length. replace (eqb [length rows; c] [length rows; c]) with true by (symmetry; apply eqb_eq; auto).
  rewrite R, K. cbn [negb]. f_equal. f_equal. induction rows as [|[a b] rows IH]; cbn; auto. f_equal. apply IH.
  intros r I. apply S; right; auto.
Qed.
Lemma samples_format_rc {P} c (rows : list (list R * list P)) k kk : samples c rows -> depth c k None kk ->
  format_inputs_rc (V2 c (map fst rows)) (V2 c (map snd rows)) k None = Ok (rows, Z.of_nat kk).
Proof.
  intros S D. pose proof (@samples_format P c rows k None kk S D) as E. unfold format_inputs, format_inputs_rc in *.
  destruct (eqb _ _); auto.
Qed.

(** * A sorting function: positions by insertion, highest score first *)
Section Ins.
  Context {T : Type} {NT : Num T} {ET : Ext T}.
  Fixpoint ins_idx (p : list T) (i : nat) (l : list nat) : list nat :=
    match l with [] => [i] | j :: r => if nleb (nth j p nz) (nth i p nz) then i :: l else j :: ins_idx p i r end.
  Definition ins_argsort (p : list T) : list nat := fold_right (ins_idx p) [] (seq 0 (length p)).
End Ins.
Lemma ins_idx_perm (p : list R) i l : Permutation (ins_idx p i l) (i :: l).
Proof.
  induction l as [|j l IH]; cbn [ins_idx]; auto. destruct (nleb _ _); auto. rewrite IH. constructor.
Qed.
Lemma ins_argsort_sorts : sorts_desc ins_argsort.
Proof.
  intros p. unfold ins_argsort. split.
  - induction (seq 0 (length p)) as [|i l IH]; cbn [fold_right]; auto. rewrite ins_idx_perm. auto.
  - induction (seq 0 (length p)) as [|i l IH]; cbn [fold_right]; [constructor|].
    revert IH. generalize (fold_right (ins_idx p) [] l). clear l. intros l S.
    induction S as [|j l S IH F]; cbn [ins_idx]; [constructor; constructor|].
    destruct (nleb (nth j p nz) (nth i p nz)) eqn:E.
    + apply nleb_true in E. constructor; [constructor; auto|]. constructor; [exact E|].
      eapply Forall_impl; [|exact F]. cbn. intros a H. cbn [nz Num_R] in E. lra.
    + apply nleb_false in E. constructor; auto. rewrite Forall_forall in *. intros z I.
      apply (Permutation_in _ (ins_idx_perm p i l)) in I. destruct I as [<-|I]; [cbn [nz Num_R] in E; lra|apply F; auto].
Qed.
Lemma map_res_fn {A B} (f : A -> res B) (g : A -> B) l : (forall a, In a l -> f a = Ok (g a)) -> map_res f l = Ok (map g l).
Proof.
  induction l as [|a l IH]; intros H; cbn [map_res map]; auto. rewrite H by (left; auto). cbn [rbind].
  rewrite IH by (intros; apply H; right; auto). reflexivity.
Qed.
