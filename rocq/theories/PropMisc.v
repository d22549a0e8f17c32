(** Properties C145 - C149: F1 score, random features, seeds, copying standard output. *)
From Coq Require Import String Ascii Reals Lra Permutation Sorted QArith Qcanon.
From Verif Require Import Num PyDict PyDictFacts Coo CooFacts ModelBase ModelConv ModelUtils UtilFacts RealFacts ModelMetrics ModelEval.
From Verif Require Import SpecMetrics SpecEval MetricFacts PropMarkers ModelMisc.
Set Implicit Arguments.
Local Open Scope string_scope.
Local Open Scope list_scope.
Local Open Scope Z_scope.

(** * C145: F1 score *)
Section Score.
  (** F1 of class [a]: 2 hits / (samples of the class + predictions of the class) *)
  Definition class_f1 (y p : list Z) (a : Z) : R :=
    (2 * INR (count a a y p) / INR (count_occ Z.eq_dec y a + count_occ Z.eq_dec p a))%R.

  Lemma tally_fst (y : list Z) : forall (p : list Z) a, length y = length p -> tally (fun q => fst q =? a) (combine y p) = Z.of_nat (count_occ Z.eq_dec y a).
  Proof.
    induction y as [|b y IH]; intros [|c p] a; cbn [length]; try discriminate; auto. intros [= L]. specialize (IH p a L). unfold tally in *. cbn [combine filter fst count_occ].
    destruct (Z.eqb_spec b a), (Z.eq_dec b a); try contradiction; cbn [length]; lia.
  Qed.
  Lemma tally_snd (y : list Z) : forall (p : list Z) a, length y = length p -> tally (fun q => snd q =? a) (combine y p) = Z.of_nat (count_occ Z.eq_dec p a).
  Proof.
    induction y as [|b y IH]; intros [|c p] a; cbn [length]; try discriminate; auto. intros [= L]. specialize (IH p a L). unfold tally in *. cbn [combine filter snd count_occ].
    destruct (Z.eqb_spec c a), (Z.eq_dec c a); try contradiction; cbn [length]; lia.
  Qed.
  Lemma count_le y : forall p a, length y = length p -> (count a a y p <= count_occ Z.eq_dec y a)%nat /\ (count a a y p <= count_occ Z.eq_dec p a)%nat.
  Proof.
    induction y as [|b y IH]; intros [|c p] a; cbn [length]; try discriminate; [cbn; lia|]. intros [= L]. destruct (IH p a L) as [I1 I2]. unfold count in *. cbn [combine filter fst snd count_occ].
    destruct (Z.eqb_spec b a), (Z.eqb_spec c a), (Z.eq_dec b a), (Z.eq_dec c a); try contradiction; cbn [andb length]; lia.
  Qed.
  Lemma count_all y : forall p, length y = length p -> (forall a, In a y -> count a a y p = count_occ Z.eq_dec y a) -> y = p.
  Proof.
    induction y as [|b y IH]; intros [|c p]; cbn [length]; try discriminate; auto. intros [= L] H.
    assert (BC : b = c).
    { specialize (H b (or_introl eq_refl)). unfold count in H. cbn [combine filter fst snd count_occ] in H. rewrite Z.eqb_refl in H.
      destruct (Z.eq_dec b b) as [_|N]; [|contradiction]. destruct (Z.eqb_spec c b); auto. cbn [andb] in H. pose proof (proj1 (@count_le y p b L)) as B. unfold count in B. lia. }
    subst c. f_equal. apply IH; auto. intros a I. specialize (H a (or_intror I)). unfold count in *. cbn [combine filter fst snd count_occ] in H.
    destruct (Z.eqb_spec b a), (Z.eq_dec b a); try contradiction; cbn [andb length] in H; lia.
  Qed.
  Lemma count_same y a : count a a y y = count_occ Z.eq_dec y a.
  Proof.
    induction y as [|b y IH]; auto. unfold count in *. cbn [combine filter fst snd count_occ].
    destruct (Z.eqb_spec b a), (Z.eq_dec b a); try contradiction; cbn [andb length]; lia.
  Qed.
  Lemma matches_le (y p : list Z) : (matches y p <= length y)%nat.
  Proof. unfold matches. etransitivity; [apply filter_len|]. rewrite combine_length. lia. Qed.
  Lemma matches_all y : forall p, length y = length p -> matches y p = length y <-> y = p.
  Proof.
    induction y as [|b y IH]; intros [|c p]; cbn [length]; try discriminate; [split; auto|]. intros [= L]. specialize (IH p L). unfold matches in *. cbn [combine filter fst snd].
    pose proof (matches_le y p) as M. unfold matches in M. destruct (Z.eqb_spec b c) as [->|N]; cbn [length].
    - split; [intros [= E]; f_equal; apply IH; auto|intros [= E]; f_equal; apply IH; auto].
    - split; [lia|intros [= E _]; contradiction].
  Qed.
  Lemma occ_pos (l : list Z) a : In a l -> (0 < count_occ Z.eq_dec l a)%nat.
  Proof. intros I. apply (count_occ_In Z.eq_dec) in I. lia. Qed.
  Lemma f1_range y p a : length y = length p -> In a y \/ In a p -> (0 <= class_f1 y p a <= 1)%R.
  Proof.
    intros L I. destruct (@count_le y p a L) as [A B]. unfold class_f1. set (k := count a a y p) in *. set (u := count_occ Z.eq_dec y a) in *. set (v := count_occ Z.eq_dec p a) in *.
    assert (0 < u + v)%nat by (destruct I as [I|I]; apply occ_pos in I; unfold u, v; lia). apply lt_0_INR in H.
    assert (K : (2 * INR k <= INR (u + v))%R) by (rewrite plus_INR; apply le_INR in A, B; lra). pose proof (pos_INR k). split.
    - apply Rmult_le_pos; [lra|]. left. apply Rinv_0_lt_compat. auto.
    - apply (Rmult_le_reg_r (INR (u + v))); auto. unfold Rdiv. rewrite Rmult_assoc, Rinv_l by lra. lra.
  Qed.
  Lemma f1_one y p a : length y = length p -> In a y \/ In a p -> class_f1 y p a = 1%R <-> count a a y p = count_occ Z.eq_dec y a /\ count a a y p = count_occ Z.eq_dec p a.
  Proof.
    intros L I. destruct (@count_le y p a L) as [A B]. unfold class_f1. set (k := count a a y p) in *. set (u := count_occ Z.eq_dec y a) in *. set (v := count_occ Z.eq_dec p a) in *.
    assert (0 < u + v)%nat by (destruct I as [I|I]; apply occ_pos in I; unfold u, v; lia). apply lt_0_INR in H. split.
    - intros E. assert (K : (2 * INR k = INR (u + v))%R).
      { apply (f_equal (fun x => (x * INR (u + v))%R)) in E. unfold Rdiv in E. rewrite Rmult_assoc, Rinv_l, Rmult_1_r, Rmult_1_l in E by lra. exact E. }
      replace 2%R with (INR 2) in K by (cbn; lra). rewrite <- mult_INR in K. apply INR_eq in K. lia.
    - intros [E F]. rewrite <- E, <- F, plus_INR in *. field. lra.
  Qed.

  Lemma label_total ls (y : list Z) : NoDup ls -> (forall a, In a y -> In a ls) -> total (map (fun a => Z.of_nat (count_occ Z.eq_dec y a)) ls) = Z.of_nat (length y).
  Proof.
    intros ND. induction y as [|b y IH]; intros I; [cbn [count_occ length]; apply total_zero|].
    rewrite (total_ext _ (fun a => (if b =? a then 1 else 0) + Z.of_nat (count_occ Z.eq_dec y a))).
    - rewrite total_map_add, total_ind, IH; auto; [cbn [length]; lia|intros; apply I; right; auto|apply I; left; auto].
    - intros a _. cbn [count_occ]. destruct (Z.eqb_spec b a), (Z.eq_dec b a); try contradiction; lia.
  Qed.
  Lemma sum_ind (F : Z -> R) b ls : NoDup ls -> In b ls -> sumf ls (fun a => if b =? a then F a else 0%R) = F b.
  Proof.
    assert (Z0 : forall l, ~ In b l -> sumf l (fun a => if b =? a then F a else 0%R) = 0%R).
    { induction l as [|a l IH]; cbn [sumf In]; intros N; auto. rewrite IH by tauto. destruct (Z.eqb_spec b a); [subst; tauto|]. cbn. lra. }
    induction ls as [|a l IH]; intros ND I; [destruct I|]. inversion ND; subst. cbn [sumf]. destruct (Z.eqb_spec b a).
    - subst. rewrite Z0 by auto. cbn. lra.
    - rewrite IH; auto; [cbn; lra|]. destruct I; [subst; contradiction|auto].
  Qed.
  Lemma sum_by_label (F : Z -> R) ls (y : list Z) : NoDup ls -> (forall a, In a y -> In a ls) ->
    sumf ls (fun a => (IZR (Z.of_nat (count_occ Z.eq_dec y a)) * F a)%R) = fold_right Rplus 0%R (map F y).
  Proof.
    intros ND. induction y as [|b y IH]; intros I.
    - cbn [count_occ map fold_right]. clear. induction ls as [|a l IH]; [reflexivity|]. cbn [sumf]. rewrite IH. cbn. lra.
    - cbn [map fold_right]. rewrite <- IH by (intros; apply I; right; auto). rewrite <- (@sum_ind F b ls ND (I b (or_introl eq_refl))). clear.
      induction ls as [|a l IH]; cbn [sumf]; [cbn; lra|]. rewrite IH. cbn [count_occ]. destruct (Z.eqb_spec b a), (Z.eq_dec b a); try contradiction; cbn [nadd Num_R].
      + rewrite Nat2Z.inj_succ, succ_IZR. lra.
      + lra.
  Qed.
  Lemma avg_bounds (l : list R) : l <> [] -> (forall x, In x l -> 0 <= x <= 1)%R -> (0 <= avg l <= 1)%R /\ (avg l = 1%R <-> forall x, In x l -> x = 1%R).
  Proof.
    intros NE B. unfold avg. assert (P : (0 < INR (length l))%R) by (apply lt_0_INR; destruct l; [contradiction|cbn; lia]).
    assert (S : (0 <= fold_right Rplus 0 l <= INR (length l))%R /\ (fold_right Rplus 0 l = INR (length l) <-> forall x, In x l -> x = 1)%R).
    { clear NE P. induction l as [|a l IH].
      - cbn. split; [lra|]. split; [intros _ x []|reflexivity].
      - destruct IH as [[I1 I2] I3]; [intros; apply B; right; auto|]. specialize (B a (or_introl eq_refl)). cbn [fold_right length]. rewrite S_INR.
        split; [lra|]. split.
        + intros E x [<-|I]; [lra|]. apply I3; auto. lra.
        + intros A. rewrite (A a) by (left; auto). rewrite (proj2 I3) by (intros; apply A; right; auto). lra. }
    destruct S as [[S1 S2] S3]. split; [split|].
    - apply Rmult_le_pos; [lra|]. left. apply Rinv_0_lt_compat. auto.
    - apply (Rmult_le_reg_r (INR (length l))); auto. unfold Rdiv. rewrite Rmult_assoc, Rinv_l by lra. lra.
    - rewrite <- S3. split; intros E.
      + apply (f_equal (fun x => (x * INR (length l))%R)) in E. unfold Rdiv in E. rewrite Rmult_assoc, Rinv_l, Rmult_1_r, Rmult_1_l in E by lra. exact E.
      + rewrite E. field. lra.
  Qed.

  (** the three documented averages, in closed form *)
  Definition macro_f1 (y p ls : list Z) : R := avg (map (class_f1 y p) ls).
  Definition weighted_f1 (y p : list Z) : R := avg (map (class_f1 y p) y).

  Lemma ratio_class y p a : length y = length p -> In a y \/ In a p ->
    f1_ratio (tally (fun q => (fst q =? a) && (snd q =? a)) (combine y p)) (tally (fun q => fst q =? a) (combine y p)) (tally (fun q => snd q =? a) (combine y p)) = class_f1 y p a.
  Proof.
    intros L I. rewrite tally_fst, tally_snd by auto. unfold f1_ratio, class_f1.
    assert (0 < count_occ Z.eq_dec y a + count_occ Z.eq_dec p a)%nat by (destruct I as [I|I]; apply occ_pos in I; lia).
    destruct (Z.eqb_spec (Z.of_nat (count_occ Z.eq_dec y a) + Z.of_nat (count_occ Z.eq_dec p a)) 0); [lia|].
    cbn [nmul ninv nofZ Num_R Ext_R]. rewrite <- Nat2Z.inj_add, <- INR_IZR_INZ. rewrite Rinv0_ne by (apply not_0_INR; lia).
    rewrite mult_IZR. unfold tally, count. rewrite <- INR_IZR_INZ. unfold Rdiv. lra.
  Qed.

  Lemma labels_cover (y p : list Z) a : length y = length p -> In a (labels_of y p) -> In a y \/ In a p.
  Proof. intros _ I. apply (proj2 (labels_of_spec y p)) in I. exact I. Qed.
  Lemma f1_values argmax other y (yp : preds (T := R)) : let p := pred_labels argmax yp in length y = length p -> y <> [] ->
    f1_score argmax other y yp "macro" = Ok (Fin (macro_f1 y p (labels_of y p))) /\
    f1_score argmax other y yp "micro" = Ok (Fin (INR (matches y p) / INR (length y))%R) /\
    f1_score argmax other y yp "weighted" = Ok (Fin (weighted_f1 y p)).
  Proof.
    intros p L NE. unfold f1_score. rewrite format_classes_eq. fold p. rewrite L, Nat.eqb_refl. cbn [rbind]. unfold sk_f1.
    destruct (labels_of_spec y p) as [S I]. pose proof (sorted_nodup S) as ND. set (ls := labels_of y p) in *.
    assert (LN : ls <> []).
    { destruct y as [|a y']; [contradiction|]. intros E. assert (In a ls) by (apply I; left; left; auto). rewrite E in *. contradiction. }
    assert (TT : total (map (fun a => tally (fun q => fst q =? a) (combine y p)) ls) = Z.of_nat (length y)).
    { rewrite (total_ext _ (fun a => Z.of_nat (count_occ Z.eq_dec y a))) by (intros; apply tally_fst; auto). apply label_total; auto. intros a A. apply I. auto. }
    assert (TP : total (map (fun a => tally (fun q => snd q =? a) (combine y p)) ls) = Z.of_nat (length p)).
    { rewrite (total_ext _ (fun a => Z.of_nat (count_occ Z.eq_dec p a))) by (intros; apply tally_snd; auto). apply label_total; auto. intros a A. apply I. auto. }
    assert (TM : total (map (fun a => tally (fun q => (fst q =? a) && (snd q =? a)) (combine y p)) ls) = Z.of_nat (matches y p)).
    { unfold tally. rewrite (@conf_trace ls ND); auto. intros [a b] H. pose proof (in_combine_l _ _ _ _ H). pose proof (in_combine_r _ _ _ _ H). split; apply I; auto. }
    assert (P : (0 < INR (length y))%R) by (apply lt_0_INR; destruct y; [contradiction|cbn; lia]).
    destruct y as [|y0 y']; [contradiction|]. set (y := y0 :: y') in *. cbn [String.eqb Ascii.eqb Bool.eqb]. split; [|split].
    - f_equal. rewrite (map_ext_in _ (fun a => Fin (class_f1 y p a))).
      + rewrite (fmean_map (class_f1 y p)) by auto. reflexivity.
      + intros a A. f_equal. apply ratio_class; auto. apply I; auto.
    - unfold total in TT, TP, TM. rewrite TT, TP, TM. f_equal. f_equal. unfold f1_ratio.
      destruct (Z.eqb_spec (Z.of_nat (length y) + Z.of_nat (length p)) 0); [unfold y in *; cbn [length] in *; lia|].
      cbn [nmul ninv nofZ Num_R Ext_R]. rewrite <- L, mult_IZR, plus_IZR, <- !INR_IZR_INZ. rewrite Rinv0_ne by lra. field. lra.
    - unfold total in TT. rewrite TT. f_equal. unfold fdiv, neqb. cbn [nleb nofZ Ext_R nz Num_R]. rewrite <- INR_IZR_INZ.
      destruct (Rle_dec (INR (length y)) 0); [lra|]. cbn [andb]. f_equal. cbn [nmul ninv Num_R]. rewrite Rinv0_ne by lra.
      unfold weighted_f1, avg. rewrite map_length. unfold Rdiv. f_equal. rewrite <- (@sum_by_label (class_f1 y p) ls y) by (auto; intros; apply I; auto).
      apply sumf_ext_in. intros a A. rewrite tally_fst by auto. f_equal. transitivity (class_f1 y p a); [|reflexivity]. rewrite <- ratio_class by (auto; apply I; auto).
      rewrite tally_fst by auto. reflexivity.
  Qed.
End Score.

(** macro: the mean, over the labels that occur, of the classes' F1; micro: the accuracy; weighted: the mean over the samples of the F1 of
    their true class.  All lie between 0 and 1, and each is 1 exactly for a perfect prediction. *)
Theorem C145_f1 : forall argmax other y (yp : preds (T := R)), let p := pred_labels argmax yp in
  (length y <> length p -> forall av, f1_score argmax other y yp av = Err AssertionError) /\
  (length y = length p -> y <> [] -> exists ma mi we : R,
    f1_score argmax other y yp "macro" = Ok (Fin ma) /\ f1_score argmax other y yp "micro" = Ok (Fin mi) /\ f1_score argmax other y yp "weighted" = Ok (Fin we) /\
    (forall ls, NoDup ls -> (forall a, In a ls <-> In a y \/ In a p) -> ma = avg (map (class_f1 y p) ls)) /\
    accuracy argmax y yp = Ok (Fin mi) /\ we = avg (map (class_f1 y p) y) /\
    (0 <= ma <= 1 /\ 0 <= mi <= 1 /\ 0 <= we <= 1)%R /\
    (ma = 1%R <-> y = p) /\ (mi = 1%R <-> y = p) /\ (we = 1%R <-> y = p)).
Proof.
  intros argmax other y yp p. split.
  - intros NL av. unfold f1_score. rewrite format_classes_eq. fold p. apply Nat.eqb_neq in NL. rewrite NL. reflexivity.
  - intros L NE. destruct (@f1_values argmax other y yp L NE) as (E1 & E2 & E3). fold p in E1, E2, E3. do 3 eexists. split; [exact E1|]. split; [exact E2|]. split; [exact E3|].
    destruct (labels_of_spec y p) as [S I]. pose proof (sorted_nodup S) as ND.
    assert (LN : labels_of y p <> []).
    { destruct y as [|a y']; [contradiction|]. intros E. assert (In a (labels_of (a :: y') p)) by (apply I; left; left; auto). rewrite E in *. contradiction. }
    assert (P : (0 < INR (length y))%R) by (apply lt_0_INR; destruct y; [contradiction|cbn; lia]).
    destruct (C60_accuracy argmax y yp) as [_ A]. destruct (A L NE) as [A1 A2]. fold p in A1, A2.
    destruct (@avg_bounds (map (class_f1 y p) (labels_of y p))) as [B1 B2]; [intros E; apply LN; apply map_eq_nil in E; auto| |].
    { intros x X. apply in_map_iff in X as (a & <- & X). apply f1_range; auto. apply I; auto. }
    destruct (@avg_bounds (map (class_f1 y p) y)) as [C1 C2]; [intros E; apply NE; apply map_eq_nil in E; auto| |].
    { intros x X. apply in_map_iff in X as (a & <- & X). apply f1_range; auto. }
    assert (ALL : forall ks, (forall a, In a y -> In a ks) -> (forall a, In a ks -> In a y \/ In a p) -> (forall x, In x (map (class_f1 y p) ks) -> x = 1%R) <-> y = p).
    { intros ks K1 K2. split.
      - intros H. apply count_all; auto. intros a J. apply f1_one; auto. apply H. apply in_map. auto.
      - intros E x X. apply in_map_iff in X as (a & <- & X). apply f1_one; auto. rewrite <- E. split; apply count_same. }
    split; [|split; [exact A1|]; split; [reflexivity|]; split; [split; [exact B1|]; split; [exact A2|exact C1]|]; split; [|split]].
    + intros ls NL IL. assert (PM : Permutation (labels_of y p) ls) by (apply NoDup_Permutation; auto; intros a; rewrite I, IL; reflexivity).
      unfold macro_f1, avg. rewrite !map_length, (Permutation_length PM). f_equal. clear - PM. induction PM; cbn [map fold_right]; try lra; congruence.
    + rewrite <- (ALL (labels_of y p)); [exact B2|intros; apply I; auto|intros a X; apply I; auto].
    + rewrite <- (@matches_all y p L). split; intros E; [|rewrite E; field; lra]. apply INR_eq.
      apply (f_equal (fun x => (x * INR (length y))%R)) in E. unfold Rdiv in E. rewrite Rmult_assoc, Rinv_l, Rmult_1_r, Rmult_1_l in E by lra. exact E.
    + rewrite <- (ALL y); [exact C2|auto|auto].
Qed.

Lemma combine_split (y : list Z) : forall p : list Z, length y = length p -> map fst (combine y p) = y /\ map snd (combine y p) = p.
Proof. induction y as [|a y IH]; intros [|b p]; cbn; try discriminate; auto. intros [= L]. destruct (IH p L) as [-> ->]. auto. Qed.
Lemma occ_perm (l m : list Z) a : Permutation l m -> count_occ Z.eq_dec l a = count_occ Z.eq_dec m a.
Proof. intros P. apply (Permutation_count_occ Z.eq_dec). auto. Qed.
Lemma class_f1_perm y p y' p' a : length y = length p -> length y' = length p' -> Permutation (combine y p) (combine y' p') -> class_f1 y p a = class_f1 y' p' a.
Proof.
  intros L L' P. destruct (@combine_split y p L) as [Y1 P1]. destruct (@combine_split y' p' L') as [Y2 P2]. unfold class_f1, count.
  rewrite (filter_perm _ P). assert (PY : Permutation y y') by (rewrite <- Y1, <- Y2; apply Permutation_map; auto).
  assert (PP : Permutation p p') by (rewrite <- P1, <- P2; apply Permutation_map; auto). rewrite (@occ_perm _ _ a PY), (@occ_perm _ _ a PP). reflexivity.
Qed.
Lemma avg_perm l m : Permutation l m -> avg l = avg m.
Proof. intros P. unfold avg. rewrite (Permutation_length P). f_equal. induction P; cbn [fold_right]; try lra; congruence. Qed.
Definition three := ["macro"; "micro"; "weighted"].
(** the order of the samples does not matter; nor do the names of the classes; true and predicted labels may be exchanged in macro and micro *)
Theorem C145_reorder : forall argmax other y (yp : preds (T := R)) argmax' other' y' (yp' : preds (T := R)),
  let p := pred_labels argmax yp in let p' := pred_labels argmax' yp' in
  y <> [] -> length y = length p -> length y' = length p' -> Permutation (combine y p) (combine y' p') ->
  forall av, In av three -> f1_score argmax other y yp av = f1_score argmax' other' y' yp' av.
Proof.
  intros argmax other y yp argmax' other' y' yp' p p' NE L L' P av AV.
  assert (LY : length y = length y') by (apply Permutation_length in P; rewrite !combine_length in P; lia).
  assert (NE' : y' <> []) by (destruct y, y'; try contradiction; discriminate).
  destruct (@combine_split y p L) as [Y1 P1]. destruct (@combine_split y' p' L') as [Y2 P2].
  assert (PY : Permutation y y') by (rewrite <- Y1, <- Y2; apply Permutation_map; auto).
  assert (PP : Permutation p p') by (rewrite <- P1, <- P2; apply Permutation_map; auto).
  destruct (@f1_values argmax other y yp L NE) as (E1 & E2 & E3). destruct (@f1_values argmax' other' y' yp' L' NE') as (F1 & F2 & F3). fold p p' in E1, E2, E3, F1, F2, F3.
  assert (LS : labels_of y p = labels_of y' p').
  { destruct (labels_of_spec y p) as [S1 I1]. destruct (labels_of_spec y' p') as [S2 I2]. apply sorted_unique; auto.
    intros x. rewrite I1, I2. split; (intros [H|H]; [left; revert H|right; revert H]; apply Permutation_in; auto using Permutation_sym). }
  destruct AV as [<-|[<-|[<-|[]]]].
  - rewrite E1, F1, LS. do 2 f_equal. unfold macro_f1. f_equal. apply map_ext. intros a. apply class_f1_perm; auto.
  - rewrite E2, F2, LY. unfold matches. rewrite (filter_perm _ P). reflexivity.
  - rewrite E3, F3. do 2 f_equal. unfold weighted_f1. rewrite (map_ext _ _ (fun a => @class_f1_perm y p y' p' a L L' P)). apply avg_perm, Permutation_map. auto.
Qed.
Lemma count_inj (f : Z -> Z) y : forall p a b, (forall u v, f u = f v -> u = v) -> count (f a) (f b) (map f y) (map f p) = count a b y p.
Proof.
  induction y as [|u y IH]; intros [|v p] a b J; auto. specialize (IH p a b J). unfold count in *. cbn [map combine filter fst snd].
  assert (E : forall u a, (f u =? f a) = (u =? a)) by (intros; destruct (Z.eqb_spec u0 a0); [subst; apply Z.eqb_refl|]; apply Z.eqb_neq; auto). rewrite !E.
  destruct ((u =? a) && (v =? b)); cbn [length]; lia.
Qed.
Lemma occ_inj (f : Z -> Z) y a : (forall u v, f u = f v -> u = v) -> count_occ Z.eq_dec (map f y) (f a) = count_occ Z.eq_dec y a.
Proof. intros J. symmetry. apply count_occ_map. auto. Qed.
Lemma matches_inj (f : Z -> Z) y : forall p, (forall u v, f u = f v -> u = v) -> matches (map f y) (map f p) = matches y p.
Proof.
  induction y as [|u y IH]; intros [|v p] J; auto. specialize (IH p J). unfold matches in *. cbn [map combine filter fst snd].
  assert (E : (f u =? f v) = (u =? v)) by (destruct (Z.eqb_spec u v); [subst; apply Z.eqb_refl|]; apply Z.eqb_neq; auto). rewrite E.
  destruct (u =? v); cbn [length]; lia.
Qed.
Theorem C145_rename : forall argmax other (f : Z -> Z) y p, (forall u v, f u = f v -> u = v) -> y <> [] -> length y = length p ->
  forall av, In av three -> f1_score (T := R) argmax other (map f y) (PLabels (map f p)) av = f1_score (T := R) argmax other y (PLabels p) av.
Proof.
  intros argmax other f y p J NE L av AV.
  assert (L' : length (map f y) = length (map f p)) by (rewrite !map_length; auto). assert (NE' : map f y <> []) by (intros E; apply map_eq_nil in E; auto).
  destruct (@f1_values argmax other y (PLabels p) L NE) as (E1 & E2 & E3). destruct (@f1_values argmax other (map f y) (PLabels (map f p)) L' NE') as (F1 & F2 & F3).
  cbn [pred_labels] in *.
  assert (CF : forall a, class_f1 (map f y) (map f p) (f a) = class_f1 y p a) by (intros a; unfold class_f1; rewrite count_inj, !occ_inj by auto; reflexivity).
  destruct AV as [<-|[<-|[<-|[]]]].
  - rewrite E1, F1. do 2 f_equal. unfold macro_f1.
    transitivity (avg (map (class_f1 (map f y) (map f p)) (map f (labels_of y p)))).
    + apply avg_perm, Permutation_map. destruct (labels_of_spec (map f y) (map f p)) as [S1 I1]. destruct (labels_of_spec y p) as [S2 I2].
      apply NoDup_Permutation; [apply sorted_nodup; auto|apply FinFun.Injective_map_NoDup; [exact J|apply sorted_nodup; auto]|].
      intros x. rewrite I1, !in_map_iff. split.
      * intros [(a & <- & A)|(a & <- & A)]; exists a; (split; [reflexivity|]; apply I2; auto).
      * intros (a & <- & A). apply I2 in A as [A|A]; [left|right]; exists a; auto.
    + rewrite map_map. f_equal. apply map_ext. auto.
  - rewrite E2, F2, matches_inj, map_length by auto. reflexivity.
  - rewrite E3, F3. do 2 f_equal. unfold weighted_f1. rewrite map_map. f_equal. apply map_ext. auto.
Qed.
Lemma count_swap y : forall p a, count a a y p = count a a p y.
Proof.
  induction y as [|u y IH]; intros [|v p] a; auto. specialize (IH p a). unfold count in *. cbn [combine filter fst snd].
  destruct (u =? a), (v =? a); cbn [andb length]; lia.
Qed.
Lemma matches_swap y : forall p, matches y p = matches p y.
Proof.
  induction y as [|u y IH]; intros [|v p]; auto. specialize (IH p). unfold matches in *. cbn [combine filter fst snd].
  rewrite (Z.eqb_sym v u). destruct (u =? v); cbn [length]; lia.
Qed.
Theorem C145_exchange : forall argmax other y p, y <> [] -> length y = length p ->
  f1_score (T := R) argmax other p (PLabels y) "macro" = f1_score (T := R) argmax other y (PLabels p) "macro" /\
  f1_score (T := R) argmax other p (PLabels y) "micro" = f1_score (T := R) argmax other y (PLabels p) "micro".
Proof.
  intros argmax other y p NE L. assert (NE' : p <> []) by (destruct y, p; try contradiction; discriminate).
  destruct (@f1_values argmax other y (PLabels p) L NE) as (E1 & E2 & _). destruct (@f1_values argmax other p (PLabels y) (eq_sym L) NE') as (F1 & F2 & _).
  cbn [pred_labels] in *. rewrite E1, E2, F1, F2. split.
  - do 2 f_equal. unfold macro_f1. assert (LS : labels_of y p = labels_of p y).
    { destruct (labels_of_spec y p) as [S1 I1]. destruct (labels_of_spec p y) as [S2 I2]. apply sorted_unique; auto.
      intros x. rewrite I1, I2. split; intros [H|H]; auto. }
    rewrite LS. f_equal. apply map_ext. intros a. unfold class_f1. rewrite count_swap, Nat.add_comm. reflexivity.
  - rewrite matches_swap, L. reflexivity.
Qed.
(** cl:80-93: the docstring (with its scores replaced by the labels of the largest scores); weighted is not symmetric *)
Definition fq (r : res (fl Qc)) : option Q := match r with Ok (Fin x) => Some (this x) | _ => None end.
Definition f1q (y p : list Z) (av : string) : option Q := fq (f1_score (T := Qc) (fun _ => 0) (fun _ _ _ => Err ValueError) y (PLabels p) av).
Example run_f1 : f1q [3; 2; 4; 0] [2; 0; 4; 0] "macro" = Some (5 # 12)%Q /\ f1q [3; 2; 4; 0] [2; 0; 4; 0] "micro" = Some (1 # 2)%Q /\
  f1q [3; 2; 4; 0] [2; 0; 4; 0] "weighted" = Some (5 # 12)%Q /\
  f1q [0; 0; 0; 1] [0; 1; 1; 1] "weighted" = Some (1 # 2)%Q /\ f1q [0; 1; 1; 1] [0; 0; 0; 1] "weighted" = Some (1 # 2)%Q /\
  f1q [0; 0; 1; 2] [0; 0; 0; 2] "weighted" = Some (13 # 20)%Q /\ f1q [0; 0; 0; 2] [0; 0; 1; 2] "weighted" = Some (17 # 20)%Q.
Proof. vm_compute. repeat split. Qed.

(** * C146: random features *)
(** row i is the one-hot vector of its label's rank among the distinct labels, plus noise times a draw *)
Theorem C146_features : forall (T : Type) (NT : Num T) (ET : Ext T) (draw : nat -> nat -> T) l noise,
  l <> [] -> nleb nz noise = true ->
  exists X, normal_features draw (FList l) noise = Ok X /\ normal_features draw (FArray [length l] l) noise = Ok X /\ length X = length l /\
    forall ls, StronglySorted Z.lt ls -> (forall a, In a ls <-> In a l) ->
      forall i, (i < length l)%nat -> length (nth i X []) = length ls /\
        forall c, (c < length ls)%nat -> nth c (nth i X []) nz = nadd (if nth i l 0 =? nth c ls 0 then n1 else nz) (nmul noise (draw i c)).
Proof.
  intros T NT ET draw l noise NE NN. eexists. split; [|split].
  - unfold normal_features. rewrite NN. cbn [negb]. destruct l; [contradiction|]. reflexivity.
  - unfold normal_features. rewrite NN. cbn [negb]. destruct l; [contradiction|]. reflexivity.
  - split; [rewrite map_length, seq_length; auto|]. intros ls S I i IL.
    assert (E : labels_of l [] = ls).
    { destruct (labels_of_spec l []) as [S' I']. apply sorted_unique; auto. intros x. rewrite I', I. cbn [In]. split; [intros [H|[]]; auto|auto]. }
    rewrite E. assert (NTH : forall A B (f : A -> B) k n d e, (n < length k)%nat -> nth n (map f k) e = f (nth n k d)).
    { intros A B f k n d e H. rewrite (nth_indep _ e (f d)) by (rewrite map_length; auto). apply map_nth. }
    rewrite (NTH _ _ _ _ _ O) by (rewrite seq_length; auto). rewrite seq_nth by auto. cbn [Nat.add]. split; [rewrite map_length, seq_length; auto|].
    intros c CL. rewrite (NTH _ _ _ _ _ O) by (rewrite seq_length; auto). rewrite seq_nth by auto. cbn [Nat.add]. f_equal.
    assert (IX : Nat.eqb (index_of (nth i l 0) ls) c = (nth i l 0 =? nth c ls 0)).
    { assert (IN : In (nth i l 0) ls) by (apply I, nth_In; auto). pose proof (sorted_nodup S) as ND. revert c CL. generalize (nth i l 0) IN. clear - ND.
      induction ls as [|b ls IH]; intros x IN c CL; [destruct IN|]. inversion ND; subst. cbn [index_of]. destruct (Z.eqb_spec x b).
      - subst. destruct c as [|c]; cbn [Nat.eqb nth]; [symmetry; apply Z.eqb_refl|]. symmetry. apply Z.eqb_neq. intros ->. cbn [length] in CL. apply H1, nth_In. lia.
      - destruct c as [|c]; cbn [Nat.eqb nth]; [symmetry; apply Z.eqb_neq; auto|]. cbn [length] in CL. apply IH; auto; [|lia]. destruct IN; [subst; contradiction|auto]. }
    rewrite IX. reflexivity.
Qed.
(** what is refused: other types, arrays that are not one-dimensional, negative noise, and no labels at all *)
Theorem C146_refused : forall (T : Type) (NT : Num T) (ET : Ext T) (draw : nat -> nat -> T) noise,
  normal_features draw FBad noise = Err TypeError /\
  (forall shape l, length shape <> 1%nat -> normal_features draw (FArray shape l) noise = Err AssertionError) /\
  (forall l, l <> [] -> nleb nz noise = false -> normal_features draw (FList l) noise = Err ValueError) /\
  normal_features draw (FList []) noise = Err IndexError.
Proof.
  intros T NT ET draw noise. split; [reflexivity|]. split; [|split; [|reflexivity]].
  - intros [|a [|b s]] l H; cbn in *; try reflexivity; contradiction.
  - intros l NE NN. unfold normal_features. rewrite NN. destruct l; [contradiction|reflexivity].
Qed.
(** without noise equal rows are those of equal labels, whatever was drawn *)
Theorem C146_noiseless : forall (draw : nat -> nat -> R) l, l <> [] ->
  exists X, normal_features draw (FList l) 0%R = Ok X /\
    forall i j, (i < length l)%nat -> (j < length l)%nat -> nth i X [] = nth j X [] <-> nth i l 0 = nth j l 0.
Proof.
  intros draw l NE. destruct (@C146_features R _ _ draw l 0%R NE) as (X & E & _ & LX & H).
  { cbn. destruct (Rle_dec 0 0); [reflexivity|lra]. }
  exists X. split; [exact E|]. destruct (labels_of_spec l []) as [S I]. set (ls := labels_of l []) in *.
  assert (I' : forall a, In a ls <-> In a l) by (intros a; rewrite I; cbn [In]; split; [intros [K|[]]; auto|auto]).
  specialize (H ls S I'). intros i j IL JL. destruct (H i IL) as [L1 H1]. destruct (H j JL) as [L2 H2]. split.
  - intros EQ. destruct (In_nth ls (nth i l 0) 0) as (c & CL & CE); [apply I', nth_In; auto|].
    pose proof (H1 c CL) as A. pose proof (H2 c CL) as B. rewrite EQ in A. rewrite A in B. rewrite CE, Z.eqb_refl in B.
    destruct (Z.eqb_spec (nth j l 0) (nth i l 0)) as [e|n]; auto. cbn in B. exfalso. lra.
  - intros EQ. apply (nth_ext _ _ 0%R 0%R); [lia|]. intros c CL. rewrite L1 in CL. pose proof (H1 c CL) as A. pose proof (H2 c CL) as B. cbn in A, B.
    rewrite A, B, EQ. destruct (nth j l 0 =? nth c ls 0); lra.
Qed.
Example run_features : normal_features (T := Qc) (fun _ _ => Q2Qc 7) (FList [1; 3; 5; 2; 1]) (Q2Qc 0) =
  Ok (map (map (fun z => Q2Qc (inject_Z z))) [[1; 0; 0; 0]; [0; 0; 1; 0]; [0; 0; 0; 1]; [0; 1; 0; 0]; [1; 0; 0; 0]]).
Proof. vm_compute. reflexivity. Qed.

(** * C147: seeds *)
Section SeedProps.
  Variables (G1 G2 G3 V : Type) (init1 : Z -> G1) (init2 : Z -> G2) (init3 : Z -> G3).
  Variables (next1 : G1 -> V * G1) (next2 : G2 -> V * G2) (next3 : G3 -> V * G3).
  Notation srun := (srun init1 init2 init3 next1 next2 next3).
  Notation seeds := (seeds G1 G2 G3).
  (** the same program at other times of day *)
  Inductive same_but_time : list sop -> list sop -> Prop :=
  | sbt_nil : same_but_time [] []
  | sbt_ask t t' l l' : same_but_time l l' -> same_but_time (SAsk t :: l) (SAsk t' :: l')
  | sbt_cons o l l' : same_but_time l l' -> same_but_time (o :: l) (o :: l').
  Lemma seeded_run : forall os os', same_but_time os os' -> forall (st : seeds), manual st <> None -> srun st os = srun st os'.
  Proof using.
    induction 1 as [|t t' l l' S IH|o l l' S IH]; intros st M; [reflexivity| |].
    - cbn [ModelMisc.srun sstep]. rewrite (IH st M). unfold seed. destruct (manual st); [reflexivity|contradiction].
    - cbn [ModelMisc.srun]. assert (K : manual (fst (sstep init1 init2 init3 next1 next2 next3 st o)) <> None).
      { destruct o as [s|t| | |]; cbn [sstep]; auto.
        - unfold set_seed. destruct ((0 <=? s) && (s <? 2 ^ 32)); discriminate.
        - destruct (next1 (gen1 st)). auto.
        - destruct (next2 (gen2 st)). auto.
        - destruct (next3 (gen3 st)). auto. }
      destruct (sstep _ _ _ _ _ _ st o) as [st1 x]. cbn [fst] in K. rewrite (IH st1 K). reflexivity.
  Qed.
End SeedProps.
(** after set_seed everything random, and the seed itself, is a function of the seed: neither what happened before nor the clock matters *)
Theorem C147_reproducible : forall (G1 G2 G3 V : Type) (init1 : Z -> G1) (init2 : Z -> G2) (init3 : Z -> G3)
  (next1 : G1 -> V * G1) (next2 : G2 -> V * G2) (next3 : G3 -> V * G3) st st' before before' s os os',
  0 <= s < 2 ^ 32 -> same_but_time os os' ->
  let run := srun init1 init2 init3 next1 next2 next3 in
  let after st b p := snd (run (fst (run st b)) (SSet s :: p)) in
  after st before os = after st' before' os' /\ nth_error (after st before os) 0 = Some (SDone V (Ok tt)).
Proof.
  intros G1 G2 G3 V i1 i2 i3 n1 n2 n3 st st' b b' s os os' SR SB run after. subst run after. cbv beta. cbn [srun sstep]. unfold set_seed.
  assert (E : (0 <=? s) && (s <? 2 ^ 32) = true) by (apply andb_true_iff; split; [apply Z.leb_le|apply Z.ltb_lt]; lia). rewrite E.
  rewrite (@seeded_run _ _ _ V i1 i2 i3 n1 n2 n3 os os' SB) by discriminate.
  destruct (srun i1 i2 i3 n1 n2 n3 _ os') as [st2 xs]. cbn [snd]. split; reflexivity.
Qed.
(** the seed: the time until set_seed is called, afterwards what was last passed to it *)
Definition last_set (os : list sop) : option Z := fold_left (fun a o => match o with SSet s => Some s | _ => a end) os None.
Theorem C147_seed : forall (G1 G2 G3 V : Type) (init1 : Z -> G1) (init2 : Z -> G2) (init3 : Z -> G3)
  (next1 : G1 -> V * G1) (next2 : G2 -> V * G2) (next3 : G3 -> V * G3) st os now, manual st = None ->
  seed (fst (srun init1 init2 init3 next1 next2 next3 st os)) now = match last_set os with Some s => s | None => now end.
Proof.
  intros G1 G2 G3 V i1 i2 i3 n1 n2 n3 st os now M. unfold seed, last_set. rewrite <- M. clear M.
  assert (E : manual (fst (srun i1 i2 i3 n1 n2 n3 st os)) = fold_left (fun a o => match o with SSet s => Some s | _ => a end) os (manual st)).
  { revert st. induction os as [|o os IH]; intros st; [reflexivity|]. cbn [srun fold_left].
    assert (K : manual (fst (sstep i1 i2 i3 n1 n2 n3 st o)) = match o with SSet s => Some s | _ => manual st end).
    { destruct o as [s|t| | |]; cbn [sstep]; auto.
      - unfold set_seed. destruct ((0 <=? s) && (s <? 2 ^ 32)); reflexivity.
      - destruct (n1 (gen1 st)). reflexivity.
      - destruct (n2 (gen2 st)). reflexivity.
      - destruct (n3 (gen3 st)). reflexivity. }
    destruct (sstep _ _ _ _ _ _ st o) as [st1 x]. cbn [fst] in K. rewrite <- K, <- IH. destruct (srun _ _ _ _ _ _ st1 os). reflexivity. }
  rewrite E. reflexivity.
Qed.
(** * C148: a seed that numpy refuses *)
(** the call fails, but the refused seed is kept and python's generator is seeded; numpy and torch go on as before *)
Theorem C148_half_set_actual : forall (G1 G2 G3 : Type) (init1 : Z -> G1) (init2 : Z -> G2) (init3 : Z -> G3) st s now, ~ 0 <= s < 2 ^ 32 ->
  exists st', set_seed init1 init2 init3 st s = (st', Err ValueError) /\ seed st' now = s /\ gen1 st' = init1 s /\ gen2 st' = gen2 st /\ gen3 st' = gen3 st.
Proof.
  intros G1 G2 G3 i1 i2 i3 st s now N. eexists. unfold set_seed.
  assert (E : (0 <=? s) && (s <? 2 ^ 32) = false).
  { apply andb_false_iff. destruct (Z.leb_spec 0 s); auto. destruct (Z.ltb_spec s (2 ^ 32)); auto. exfalso. apply N. lia. }
  rewrite E. split; [reflexivity|]. repeat split.
Qed.
Example run_seeds :
  let next g := (g, g + 1) in
  snd (srun (fun s => s) (fun s => 2 * s) (fun s => 3 * s) next next next (mkSeeds None 100 200 300)
    [SAsk 9; SDraw1; SSet 5; SDraw1; SDraw2; SAsk 10; SSet (-1); SDraw3; SAsk 11]) =
  [SSeed Z 9; SVal 100; SDone Z (Ok tt); SVal 5; SVal 10; SSeed Z 5; SDone Z (Err ValueError); SVal 15; SSeed Z (-1)].
Proof. reflexivity. Qed.

(** * C149: copying standard output *)
(** what a program prints *)
Fixpoint printed (os : list cop) : string := match os with [] => "" | CPrint m :: r => String.append m (printed r) | CLog _ :: r => printed r end.
(** how often file [p] is logged to *)
Fixpoint times_in (p : string) (o : stdout) : nat := match o with Terminal => O | Logger q i => ((if String.eqb q p then 1 else 0) + times_in p i)%nat end.
(** [m] written [n] times *)
Fixpoint times (n : nat) (m : string) : string := match n with O => "" | S k => String.append m (times k m) end.
(** what a program leaves in file [p], [n] loggers being on it at the start ([ok]: its directory exists) *)
Fixpoint copied (ok : bool) (p : string) (n : nat) (os : list cop) : string :=
  match os with
  | [] => ""
  | CPrint m :: r => String.append (times n m) (copied ok p n r)
  | CLog q :: r => copied ok p (if String.eqb q p && ok then S n else n) r
  end.
Lemma app_assoc_s a b c : String.append (String.append a b) c = String.append a (String.append b c).
Proof. induction a as [|x a IH]; cbn [String.append]; [reflexivity|rewrite IH; reflexivity]. Qed.
Lemma app_nil_s a : String.append a "" = a.
Proof. induction a as [|x a IH]; cbn [String.append]; [reflexivity|rewrite IH; reflexivity]. Qed.
Lemma times_app n m : String.append (times n m) m = String.append m (times n m).
Proof. induction n as [|n IH]; cbn [times]; [cbn [String.append]; rewrite app_nil_s; reflexivity|]. rewrite app_assoc_s, IH. reflexivity. Qed.
Lemma put_spec o m : forall f s, snd (put o m (f, s)) = String.append s m /\
  forall p, fst (put o m (f, s)) p = if Nat.eqb (times_in p o) 0 then f p else Some (String.append (text (f p)) (times (times_in p o) m)).
Proof.
  induction o as [|q o IH]; intros f s; [split; reflexivity|]. destruct (IH f s) as [I1 I2]. cbn [put fst snd]. split; [exact I1|].
  intros p. unfold fset. cbn [times_in]. rewrite (String.eqb_sym p q). destruct (String.eqb_spec q p) as [->|N]; [|cbn [Nat.add]; apply I2].
  cbn [Nat.add Nat.eqb times]. f_equal. rewrite I2. destruct (times_in p o) as [|k]; cbn [Nat.eqb].
  - cbn [times]. rewrite app_nil_s. reflexivity.
  - cbn [text]. rewrite app_assoc_s, times_app. reflexivity.
Qed.
(** The terminal shows what is printed, once; file [p] receives every message once per logger installed on it before, after what it already
    held; a file that nobody logs to is left alone; a logger whose directory does not exist is not installed. *)
Theorem C149_copied : forall c os, let c' := crun c os in
  screen c' = String.append (screen c) (printed os) /\
  forall p, text (files c' p) = String.append (text (files c p)) (copied (dir_ok c p) p (times_in p (out c)) os) /\
    ((forall q, In (CLog q) os -> q <> p) -> times_in p (out c) = O -> files c' p = files c p).
Proof.
  intros c os. cbv zeta. revert c. induction os as [|o os IH]; intros c.
  - cbn [crun fold_left printed copied]. rewrite app_nil_s. split; [reflexivity|]. intros p. rewrite app_nil_s. split; reflexivity.
  - change (crun c (o :: os)) with (crun (fst (cstep c o)) os). destruct (IH (fst (cstep c o))) as [I1 I2]. destruct o as [m|q]; cbn [cstep fst] in *.
    + unfold print in *. destruct (put_spec (out c) m (files c) (screen c)) as [P1 P2]. destruct (put (out c) m (files c, screen c)) as [f s] eqn:PE. cbn [fst snd screen files out dir_ok] in *. subst s.
      cbn [printed copied]. split; [rewrite I1, app_assoc_s; reflexivity|]. intros p. destruct (I2 p) as [J1 J2]. rewrite P2 in *. split.
      * rewrite J1. destruct (times_in p (out c)) as [|k] eqn:TK; cbn [Nat.eqb]; [cbn [times String.append]; reflexivity|]. cbn [text]. rewrite app_assoc_s. reflexivity.
      * intros NI T0. rewrite J2; [|intros q I; apply NI; right; auto|exact T0]. rewrite T0. reflexivity.
    + unfold stdout2file in *. cbn [printed copied]. destruct (dir_ok c q) eqn:DQ; cbn [fst screen files out dir_ok times_in] in *.
      * split; [exact I1|]. intros p. destruct (I2 p) as [J1 J2]. unfold fset in *. rewrite (String.eqb_sym p q) in *. destruct (String.eqb_spec q p) as [->|N].
        -- rewrite DQ in *. cbn [andb text Nat.add] in *. split; [exact J1|]. intros NI. exfalso. apply (NI p); [left; reflexivity|reflexivity].
        -- cbn [andb Nat.add] in *. split; [exact J1|]. intros NI T0. apply J2; auto. intros r I. apply NI. right. auto.
      * split; [exact I1|]. intros p. destruct (I2 p) as [J1 J2]. split.
        -- rewrite J1. destruct (String.eqb_spec q p) as [->|N]; [rewrite DQ|]; reflexivity.
        -- intros NI. apply J2. intros r I. apply NI. right. auto.
Qed.
(** installing: refused without a directory (nothing changes); otherwise the file exists from now on and what it held is kept *)
Theorem C149_install : forall c p,
  (dir_ok c p = false -> stdout2file c p = (c, Err AssertionError)) /\
  (dir_ok c p = true -> exists c', stdout2file c p = (c', Ok tt) /\ files c' p = Some (text (files c p)) /\ screen c' = screen c /\
    forall m, screen (print c' m) = String.append (screen c) m /\
      (times_in p (out c) = O -> files (print c' m) p = Some (String.append (text (files c p)) m))).
Proof.
  intros c p. unfold stdout2file. split; intros D; rewrite D; [reflexivity|]. eexists. split; [reflexivity|]. cbn [files screen].
  unfold fset. rewrite String.eqb_refl. split; [reflexivity|]. split; [reflexivity|]. intros m. unfold print. cbn [out files screen dir_ok].
  pose proof (put_spec (Logger p (out c)) m (fun q => if String.eqb q p then Some (text (files c p)) else files c q) (screen c)) as [P1 P2].
  destruct (put _ m _) as [f s]. cbn [fst snd screen files] in *. split; [exact P1|]. intros T0. rewrite P2. cbn [times_in]. rewrite String.eqb_refl, T0.
  cbn [Nat.add Nat.eqb text times]. rewrite app_nil_s. reflexivity.
Qed.
Example run_console : let c := mkCons (fun p => if String.eqb p "/d/old" then Some "x" else None) (fun p => negb (String.eqb p "/none/f")) "" Terminal in
  let c' := crun c [CPrint "a"; CLog "/d/old"; CPrint "b"; CLog "/none/f"; CLog "/d/new"; CPrint "c"; CLog "/d/new"; CPrint "d"] in
  screen c' = "abcd" /\ files c' "/d/old" = Some "xbcd" /\ files c' "/d/new" = Some "cdd" /\ files c' "/none/f" = None.
Proof. vm_compute. repeat split. Qed.
