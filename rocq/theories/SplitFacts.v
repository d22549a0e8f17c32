(** Facts about the dataset splits of ModelUtils. *)
From Coq Require Import String Permutation.
From Verif Require Import Num PyDict PyDictFacts Coo CooFacts ModelBase ModelBiGraph ModelConv ModelUtils SpecUtils UtilFacts.
Set Implicit Arguments.
Local Open Scope list_scope.
Local Open Scope Z_scope.

Lemma range_In n i : In i (range n) <-> 0 <= i < n.
Proof.
  unfold range. rewrite in_map_iff. split.
  - intros (k & <- & I). apply in_seq in I. lia.
  - intros I. exists (Z.to_nat i). split; [lia|]. apply in_seq. lia.
Qed.
Lemma range_NoDup n : NoDup (range n).
Proof. unfold range. apply FinFun.Injective_map_NoDup; [|apply seq_NoDup]. intros a b. lia. Qed.
Lemma range_nth n k : (k < Z.to_nat n)%nat -> nth k (range n) 0 = Z.of_nat k.
Proof. intros L. unfold range. change 0 with (Z.of_nat 0). rewrite map_nth, seq_nth; auto. Qed.

Lemma skipn_add {A} a b (l : list A) : skipn (a + b) l = skipn b (skipn a l).
Proof. revert l; induction a as [|a IH]; intros l; cbn; auto. destruct l; auto. symmetry. apply skipn_nil. Qed.
(** slices *)
Lemma slice_to {A} (l : list A) t : 0 <= t -> py_slice None (Some t) l = firstn (Z.to_nat t) l.
Proof.
  intros P. unfold py_slice, slice_bound. replace (t <? 0) with false by (symmetry; apply Z.ltb_ge; lia). cbn [skipn Z.to_nat].
  rewrite Z.sub_0_r. destruct (Z.le_gt_cases t (Z.of_nat (length l))).
  - rewrite Z.min_l by lia. reflexivity.
  - rewrite Z.min_r by lia. rewrite Nat2Z.id, firstn_all. symmetry. apply firstn_all2. lia.
Qed.
Lemma slice_mid {A} (l : list A) t v : 0 <= t -> 0 <= v -> py_slice (Some t) (Some (t + v)) l = firstn (Z.to_nat v) (skipn (Z.to_nat t) l).
Proof.
  intros P Q. unfold py_slice, slice_bound.
  replace (t <? 0) with false by (symmetry; apply Z.ltb_ge; lia). replace (t + v <? 0) with false by (symmetry; apply Z.ltb_ge; lia).
  destruct (Z.le_gt_cases t (Z.of_nat (length l))).
  - rewrite (Z.min_l t) by lia. destruct (Z.le_gt_cases (t + v) (Z.of_nat (length l))).
    + rewrite Z.min_l by lia. do 2 f_equal; lia.
    + rewrite Z.min_r by lia. rewrite !firstn_all2; auto; rewrite skipn_length; lia.
  - rewrite (Z.min_r t) by lia. rewrite Nat2Z.id, skipn_all, (skipn_all2 l) by lia. rewrite !firstn_nil. reflexivity.
Qed.
Lemma slice_from {A} (l : list A) t : 0 <= t -> py_slice (Some t) None l = skipn (Z.to_nat t) l.
Proof.
  intros P. unfold py_slice, slice_bound. replace (t <? 0) with false by (symmetry; apply Z.ltb_ge; lia).
  destruct (Z.le_gt_cases t (Z.of_nat (length l))).
  - rewrite Z.min_l by lia. apply firstn_all2. rewrite skipn_length. lia.
  - rewrite Z.min_r by lia. rewrite Nat2Z.id, skipn_all, (skipn_all2 l) by lia. apply firstn_nil.
Qed.

Lemma zcount_filter p l : zcount p l = Z.of_nat (length (filter p l)).
Proof. induction l as [|x l IH]; cbn [zcount filter]; auto. rewrite IH. destruct (p x); cbn [length]; lia. Qed.
Lemma zcount_list p l L : NoDup l -> NoDup L -> (forall i, In i L <-> In i l /\ p i = true) -> zcount p l = Z.of_nat (length L).
Proof.
  intros N1 N2 E. rewrite zcount_filter. f_equal. apply Permutation_length. apply NoDup_Permutation; auto.
  - apply NoDup_filter; auto.
  - intros i. rewrite filter_In, E. tauto.
Qed.

Section Split.
  Variable l : list Z.
  Variable sh : Z -> list Z -> list Z.
  Hypothesis SH : forall c x, Permutation (sh c x) x.
  Variables tn vn : Z -> Z.
  Variable sn : option (Z -> Z).
  Hypothesis TN : forall z, 0 <= z -> 0 <= tn z.
  Hypothesis VN : forall z, 0 <= z -> 0 <= vn z.
  Hypothesis SN : forall f z, sn = Some f -> 0 <= z -> 0 <= f z.

  Definition cls (c : Z) : list Z := sh c (class_idx l c).
  Definition csz (c : Z) : Z := Z.of_nat (length (cls c)).
  Lemma class_idx_In c i : In i (class_idx l c) <-> 0 <= i < Z.of_nat (length l) /\ label l i = c.
  Proof. unfold class_idx. rewrite filter_In, range_In, Z.eqb_eq. reflexivity. Qed.
  Lemma cls_In c i : In i (cls c) <-> 0 <= i < Z.of_nat (length l) /\ label l i = c.
  Proof.
    rewrite <- class_idx_In. unfold cls. split; apply Permutation_in; [|symmetry]; apply SH.
  Qed.
  Lemma cls_NoDup c : NoDup (cls c).
  Proof.
    unfold cls. eapply Permutation_NoDup; [symmetry; apply SH|]. apply NoDup_filter, range_NoDup.
  Qed.
  Lemma csz_size c : csz c = class_size l c.
  Proof.
    symmetry. unfold class_size, csz. apply zcount_list; [apply range_NoDup|apply cls_NoDup|].
    intros i. rewrite cls_In, range_In, Z.eqb_eq. reflexivity.
  Qed.
  Definition p_tr (c : Z) : list Z := firstn (Z.to_nat (tn (csz c))) (cls c).
  Definition p_va (c : Z) : list Z := firstn (Z.to_nat (vn (csz c))) (skipn (Z.to_nat (tn (csz c))) (cls c)).
  Definition p_te (c : Z) : list Z :=
    let r := skipn (Z.to_nat (tn (csz c) + vn (csz c))) (cls c) in
    match sn with Some f => firstn (Z.to_nat (f (csz c))) r | None => r end.
  Lemma split_loop_eq : split_loop l sh tn vn sn =
    (flat_map p_tr (range (num_classes l)), flat_map p_va (range (num_classes l)), flat_map p_te (range (num_classes l))).
  Proof.
    unfold split_loop. generalize (range (num_classes l)) as cs.
    assert (G : forall cs a b d, fold_left (fun acc c =>
        let '(tr, va, te) := acc in
        let x := sh c (class_idx l c) in
        let n := Z.of_nat (length x) in
        (tr ++ py_slice None (Some (tn n)) x, va ++ py_slice (Some (tn n)) (Some (tn n + vn n)) x,
         te ++ py_slice (Some (tn n + vn n)) (match sn with Some f => Some (tn n + vn n + f n) | None => None end) x)) cs (a, b, d)
      = (a ++ flat_map p_tr cs, b ++ flat_map p_va cs, d ++ flat_map p_te cs)).
    { induction cs as [|c cs IH]; intros a b d; cbn [fold_left flat_map]; [rewrite !app_nil_r; reflexivity|].
      rewrite IH. fold (cls c). fold (csz c). assert (Z0 : 0 <= csz c) by (unfold csz; lia).
      rewrite slice_to by auto. rewrite slice_mid by auto. rewrite <- !app_assoc. f_equal. unfold p_te. f_equal.
      destruct sn as [f|] eqn:E; f_equal; f_equal.
      - rewrite slice_mid; auto. specialize (TN Z0). specialize (VN Z0). lia.
      - rewrite slice_from; auto. specialize (TN Z0). specialize (VN Z0). lia. }
    intros cs. rewrite G. reflexivity.
  Qed.
  Lemma three c : exists rest, cls c = p_tr c ++ p_va c ++ p_te c ++ rest /\ (sn = None -> rest = []).
  Proof.
    unfold p_te. assert (Z0 : 0 <= csz c) by (unfold csz; lia).
    assert (E : cls c = p_tr c ++ p_va c ++ skipn (Z.to_nat (tn (csz c) + vn (csz c))) (cls c)).
    { unfold p_tr, p_va. rewrite Z2Nat.inj_add by auto. rewrite skipn_add. rewrite !firstn_skipn. reflexivity. }
    destruct sn as [f|].
    - exists (skipn (Z.to_nat (f (csz c))) (skipn (Z.to_nat (tn (csz c) + vn (csz c))) (cls c))). split; [|discriminate].
      rewrite firstn_skipn. exact E.
    - exists []. rewrite app_nil_r. auto.
  Qed.
  Definition k := num_classes l.
  Lemma part_In (p : Z -> list Z) : (forall c i, In i (p c) -> In i (cls c)) ->
    forall i, In i (flat_map p (range k)) <-> 0 <= i < Z.of_nat (length l) /\ 0 <= label l i < k /\ In i (p (label l i)).
  Proof.
    intros S i. rewrite in_flat_map. split.
    - intros (c & I & J). apply range_In in I. pose proof (S _ _ J) as K. apply cls_In in K as [K <-]. auto.
    - intros (I & J & K). exists (label l i). split; auto. apply range_In; auto.
  Qed.
  Lemma sub_tr c i : In i (p_tr c) -> In i (cls c).
  Proof. destruct (three c) as (r & E & _). rewrite E, in_app_iff. auto. Qed.
  Lemma sub_va c i : In i (p_va c) -> In i (cls c).
  Proof. destruct (three c) as (r & E & _). rewrite E, !in_app_iff. auto. Qed.
  Lemma sub_te c i : In i (p_te c) -> In i (cls c).
  Proof. destruct (three c) as (r & E & _). rewrite E, !in_app_iff. auto. Qed.
  Lemma NoDup_app2 {A} (a b : list A) : NoDup (a ++ b) -> NoDup a /\ NoDup b /\ (forall x, In x a -> ~ In x b).
  Proof.
    induction a as [|x a IH]; cbn; intros N; [split; [constructor|auto]|]. apply NoDup_cons_iff in N as [X N]. destruct (IH N) as (P & Q & R).
    split; [constructor; auto; intros I; apply X, in_app_iff; auto|]. split; auto. intros y [<-|I]; auto. intros J. apply X, in_app_iff; auto.
  Qed.
  Lemma parts_disjoint c : NoDup (p_tr c) /\ NoDup (p_va c) /\ NoDup (p_te c) /\
    (forall i, In i (p_tr c) -> ~ In i (p_va c) /\ ~ In i (p_te c)) /\ (forall i, In i (p_va c) -> ~ In i (p_te c)).
  Proof.
    destruct (three c) as (r & E & _). pose proof (cls_NoDup c) as N. rewrite E in N.
    apply NoDup_app2 in N as (N1 & N & D1). apply NoDup_app2 in N as (N2 & N & D2). apply NoDup_app2 in N as (N3 & _ & _).
    repeat (split; [assumption|]). split.
    - intros i I. specialize (D1 _ I). rewrite !in_app_iff in D1. tauto.
    - intros i I. specialize (D2 _ I). rewrite !in_app_iff in D2. tauto.
  Qed.

  (** masks *)
  Variable n : Z.
  Hypothesis LN : Z.of_nat (length l) <= n.
  Definition mask_of (idx : list Z) : list bool := map (fun i => existsb (Z.eqb i) idx) (range n).
  Lemma msel_mask idx i : 0 <= i < n -> (msel (mask_of idx) i = true <-> In i idx).
  Proof.
    intros I. unfold msel, mask_of. assert (L : (Z.to_nat i < length (range n))%nat) by (rewrite range_length; lia).
    rewrite (nth_indep _ false (existsb (Z.eqb 0) idx)) by (rewrite map_length; auto).
    rewrite (map_nth (fun i => existsb (Z.eqb i) idx)), range_nth, Z2Nat.id by lia. rewrite existsb_exists. split.
    - intros (x & J & E). apply Z.eqb_eq in E. subst. auto.
    - intros J. exists i. split; auto. apply Z.eqb_refl.
  Qed.
  Lemma idx_mask_ok idx : (forall i, In i idx -> 0 <= i < n) -> idx_mask n idx = Ok (mask_of idx).
  Proof.
    intros B. unfold idx_mask. replace (n <? 0) with false by (symmetry; apply Z.ltb_ge; lia).
    replace (forallb (fun i => i <? n) idx) with true; auto. symmetry. apply forallb_forall. intros i I. apply B in I. apply Z.ltb_lt. lia.
  Qed.
  Lemma mask_length idx : Z.of_nat (length (mask_of idx)) = n.
  Proof. unfold mask_of. rewrite map_length, range_length. lia. Qed.
  Lemma part_selected (p : Z -> list Z) c : (forall c i, In i (p c) -> In i (cls c)) -> NoDup (p c) -> 0 <= c < k ->
    selected l (mask_of (flat_map p (range k))) c = Z.of_nat (length (p c)).
  Proof.
    intros S N C. unfold selected. apply zcount_list; [apply range_NoDup|auto|]. intros i.
    rewrite range_In, andb_true_iff, Z.eqb_eq. split.
    - intros I. pose proof (S _ _ I) as J. apply cls_In in J as [J E]. split; auto. split; auto. apply msel_mask; [lia|].
      apply part_In; auto. rewrite E. auto.
    - intros (I & J & <-). apply msel_mask in J; [|lia]. apply part_In in J; tauto.
  Qed.
  Lemma split_masks_ok (hv : bool) : (hv = false -> forall z, vn z = 0) ->
    exists tr vo te, split_masks n l sh hv tn vn sn = Ok (tr, vo, te) /\ (vo = None <-> hv = false) /\
      split_spec n l 0 k tn vn sn tr vo te.
  Proof.
    intros HV. unfold split_masks. rewrite split_loop_eq. fold k. unfold idx2mask.
    assert (B : forall p, (forall c i, In i (p c) -> In i (cls c)) -> forall i, In i (flat_map p (range k)) -> 0 <= i < n).
    { intros p S i I. apply part_In in I; auto. lia. }
    rewrite (idx_mask_ok _ (B _ sub_tr)), (idx_mask_ok _ (B _ sub_te)). cbn [rbind].
    set (TR := mask_of (flat_map p_tr (range k))). set (VA := mask_of (flat_map p_va (range k))). set (TE := mask_of (flat_map p_te (range k))).
    set (VO := if hv then Some VA else None).
    exists TR, VO, TE. split; [unfold VO; destruct hv; [rewrite (idx_mask_ok _ (B _ sub_va)); reflexivity|reflexivity]|].
    split; [unfold VO; destruct hv; split; congruence|].
    assert (VS : forall i, 0 <= i < n -> vsel VO i = msel VA i).
    { intros i I. unfold VO. destruct hv; auto. cbn. symmetry. apply not_true_iff_false. intros M. apply msel_mask in M; auto.
      apply part_In in M as (_ & _ & M); [|apply sub_va]. unfold p_va in M. rewrite HV in M by auto. destruct M. }
    assert (VC : forall c, 0 <= c < k -> vselected l VO c = selected l VA c).
    { intros c I. unfold VO. destruct hv; auto. cbn. symmetry. unfold VA. rewrite part_selected; [|apply sub_va|apply parts_disjoint|auto].
      unfold p_va. rewrite HV by auto. reflexivity. }
    assert (INM : forall p i, (forall c i, In i (p c) -> In i (cls c)) -> 0 <= i < n ->
      (msel (mask_of (flat_map p (range k))) i = true <-> i < Z.of_nat (length l) /\ 0 <= label l i < k /\ In i (p (label l i)))).
    { intros p i S I. rewrite msel_mask, part_In by auto. intuition lia. }
    split; [apply mask_length|]. split; [apply mask_length|]. split.
    { unfold VO. destruct hv; [|discriminate]. intros va E. injection E as <-. apply mask_length. }
    split; [|split; [|split]].
    - intros i I. rewrite (VS _ I). destruct (parts_disjoint (label l i)) as (_ & _ & _ & D1 & D2).
      rewrite <- !not_true_iff_false, !andb_true_iff. unfold TR, VA, TE. rewrite !INM by (auto using sub_tr, sub_va, sub_te).
      split; [|split]; intros [(_ & _ & X) (_ & _ & Y)].
      + apply D1 in X. tauto.
      + apply D1 in X. tauto.
      + apply D2 in X. tauto.
    - intros c C. cbn zeta. rewrite VC by lia. unfold TR, VA, TE. destruct (parts_disjoint c) as (N1 & N2 & N3 & _).
      rewrite !part_selected by (auto using sub_tr, sub_va, sub_te; lia). rewrite <- csz_size.
      assert (Z0 : 0 <= csz c) by (unfold csz; lia). pose proof (TN Z0). pose proof (VN Z0).
      unfold p_tr, p_va, p_te. split; [|split].
      + rewrite firstn_length. unfold csz in *. lia.
      + rewrite firstn_length, skipn_length. unfold csz in *. lia.
      + destruct sn as [f|] eqn:E.
        * pose proof (SN eq_refl Z0). rewrite firstn_length, skipn_length. unfold csz in *. lia.
        * rewrite skipn_length. unfold csz in *. lia.
    - intros SNN i I L. rewrite VS by lia. rewrite !orb_true_iff. unfold TR, VA, TE. rewrite !INM by (auto using sub_tr, sub_va, sub_te; lia).
      assert (C : In i (cls (label l i))) by (apply cls_In; auto). destruct (three (label l i)) as (r & E & R). rewrite (R SNN) in E.
      rewrite E, !in_app_iff in C. cbn [In] in C. rewrite Z.add_0_l in L. intuition lia.
    - intros i I NL. rewrite VS by auto. rewrite <- not_true_iff_false, !orb_true_iff. unfold TR, VA, TE.
      rewrite !INM by (auto using sub_tr, sub_va, sub_te). rewrite Z.add_0_l in NL. intuition.
  Qed.
End Split.

(** * Labels *)
Lemma lmin_lowest x r lo : lowest (x :: r) lo -> lmin x r = lo.
Proof.
  unfold lmin. intros [I L]. assert (G : forall r x, In (fold_left Z.min r x) (x :: r) /\ (forall c, In c (x :: r) -> fold_left Z.min r x <= c)).
  { clear. induction r as [|y r IH]; intros x; cbn [fold_left].
    - split; [left; auto|]. intros c [<-|[]]. lia.
    - destruct (IH (Z.min x y)) as [I L]. split.
      + destruct I as [<-|I]; [|right; right; auto]. destruct (Z.min_spec x y) as [[_ ->]|[_ ->]]; [left|right; left]; auto.
      + intros c [<-|[<-|J]].
        * etransitivity; [apply L; left; reflexivity|]. lia.
        * etransitivity; [apply L; left; reflexivity|]. lia.
        * apply L. right; auto. }
  destruct (G r x) as [I2 L2]. apply Z.le_antisymm; [apply L2; auto|apply L; auto].
Qed.
Definition shift_of (lo : Z) : Z := if lo =? 1 then 1 else 0.
Lemma norm_labels_eq lbl lo : (2 <= length lbl)%nat -> lowest lbl lo -> norm_labels lbl = Ok (map (fun y => y - shift_of lo) lbl).
Proof.
  intros L LO. destruct lbl as [|x [|y r]]; cbn [length] in L; try lia. unfold norm_labels. rewrite (lmin_lowest LO). unfold shift_of.
  destruct (lo =? 1); auto. rewrite <- (map_id (x :: y :: r)) at 1. f_equal. apply map_ext. intros; lia.
Qed.
Lemma label_shift lbl s i : 0 <= i < Z.of_nat (length lbl) -> label (map (fun y => y - s) lbl) i = label lbl i - s.
Proof.
  intros I. unfold label. rewrite (nth_indep _ 0 (0 - s)) by (rewrite map_length; lia). apply (map_nth (fun y => y - s)).
Qed.
Lemma zcount_ext p q l : (forall i, In i l -> p i = q i) -> zcount p l = zcount q l.
Proof. induction l as [|x l IH]; cbn; intros E; auto. rewrite E, IH; auto. Qed.
Lemma selected_shift lbl s mk c : selected (map (fun y => y - s) lbl) mk (c - s) = selected lbl mk c.
Proof.
  unfold selected. rewrite map_length. apply zcount_ext. intros i I. apply range_In in I. rewrite label_shift by auto. f_equal.
  apply eq_true_iff_eq. rewrite !Z.eqb_eq. lia.
Qed.
Lemma size_shift lbl s c : class_size (map (fun y => y - s) lbl) (c - s) = class_size lbl c.
Proof.
  unfold class_size. rewrite map_length. apply zcount_ext. intros i I. apply range_In in I. rewrite label_shift by auto.
  apply eq_true_iff_eq. rewrite !Z.eqb_eq. lia.
Qed.
Lemma split_spec_shift n lbl s k t v sn tr vo te : Z.of_nat (length lbl) <= n ->
  split_spec n (map (fun y => y - s) lbl) 0 k t v sn tr vo te -> split_spec n lbl s k t v sn tr vo te.
Proof.
  intros LN (A & B & C & D & E & F & G). rewrite map_length in *. repeat (split; [assumption|]). split; [|split].
  - intros c I. specialize (E (c - s) ltac:(lia)). cbn zeta in E. rewrite size_shift, !selected_shift in E.
    replace (vselected (map (fun y => y - s) lbl) vo (c - s)) with (vselected lbl vo c) in E; [exact E|].
    destruct vo as [va|]; auto. cbn. rewrite selected_shift. reflexivity.
  - intros N i I J. apply F; auto. rewrite label_shift by auto. lia.
  - intros i I J. apply G; auto. intros [X Y]. rewrite label_shift in Y by lia. apply J. lia.
Qed.
Lemma znodup_In' l x : In x (znodup l) <-> In x l.
Proof.
  induction l as [|y l IH]; cbn; [tauto|]. destruct (existsb (Z.eqb y) l) eqn:E; cbn; rewrite IH; [|tauto].
  apply existsb_exists in E as (z & I & E). apply Z.eqb_eq in E. subst z. intuition congruence.
Qed.
Lemma znodup_NoDup' l : NoDup (znodup l).
Proof.
  induction l as [|y l IH]; cbn; [constructor|]. destruct (existsb (Z.eqb y) l) eqn:E; auto. constructor; auto.
  rewrite znodup_In'. intros I. rewrite <- not_true_iff_false, existsb_exists in E. apply E. exists y. split; auto. apply Z.eqb_refl.
Qed.
Lemma distinct_classes lbl s k : distinct lbl k -> num_classes (map (fun y => y - s) lbl) = k.
Proof.
  intros (ds & N & I & ->). unfold num_classes. f_equal. rewrite <- (map_length (fun y => y - s) ds). apply Permutation_length, NoDup_Permutation.
  - apply znodup_NoDup'.
  - apply FinFun.Injective_map_NoDup; auto. intros a b. lia.
  - intros x. rewrite znodup_In', !in_map_iff. split; intros (y & <- & J); exists y; split; auto; apply I; auto.
Qed.
Lemma contiguous_facts lbl lo k : contiguous lbl lo k -> (1 <= length lbl)%nat -> lowest lbl lo /\ distinct lbl k.
Proof.
  unfold contiguous. intros C L. destruct lbl as [|x r]; cbn in L; [lia|]. assert (X : lo <= x < lo + k) by (apply C; left; auto). split.
  - split; [apply C; lia|]. intros c I. apply C in I. lia.
  - exists (map (fun i => lo + i) (range k)). split; [|split].
    + apply FinFun.Injective_map_NoDup; [intros a b; lia|apply range_NoDup].
    + intros c. rewrite in_map_iff, C. split.
      * intros (i & <- & I). apply range_In in I. lia.
      * intros I. exists (c - lo). split; [lia|]. apply range_In. lia.
    + rewrite map_length, range_length. lia.
Qed.

Definition opt0 (o : option Z) : Z := match o with Some v => v | None => 0 end.
Definition const_of (o : option Z) : option (Z -> Z) := match o with Some t => Some (fun _ => t) | None => None end.
Lemma split_num_ok n lbl lo k sh train val test : (2 <= length lbl)%nat -> Z.of_nat (length lbl) <= n -> lowest lbl lo -> distinct lbl k ->
  (forall c x, Permutation (sh c x) x) -> 0 <= train -> 0 <= opt0 val -> 0 <= opt0 test ->
  exists tr vo te, split_by_num n lbl sh train val test = Ok (tr, vo, te) /\ (vo = None <-> opt0 val = 0) /\
    split_spec n lbl (shift_of lo) k (fun _ => train) (fun _ => opt0 val) (const_of test) tr vo te.
Proof.
  intros L LN LO D SH P1 P2 P3. unfold split_by_num. rewrite (norm_labels_eq L LO). cbn [rbind]. fold (opt0 val) (const_of test).
  destruct (@split_masks_ok (map (fun y => y - shift_of lo) lbl) sh SH (fun _ => train) (fun _ => opt0 val) (const_of test)
    ltac:(auto) ltac:(auto)) with (n := n) (hv := negb (opt0 val =? 0)) as (tr & vo & te & E & V & S).
  - intros f z Q _. destruct test as [t|]; [|discriminate]. injection Q as <-. exact P3.
  - rewrite map_length. auto.
  - intros X z. apply negb_false_iff, Z.eqb_eq in X. auto.
  - exists tr, vo, te. split; auto. split.
    + rewrite V, negb_false_iff, Z.eqb_eq. reflexivity.
    + unfold SplitFacts.k in S. rewrite (distinct_classes _ D) in S. apply split_spec_shift; auto.
Qed.
Section RatioSplit.
  Context {F : Type} `{Ratio F}.
  Definition optr (o : option F) : F := match o with Some v => v | None => r_zero end.
  Definition cut_of (o : option F) : option (Z -> Z) := match o with Some t => Some (r_cut t) | None => None end.
  Definition ratio_fits (train : F) (val test : option F) : bool :=
    match test with Some t => r_le1 (r_add (r_add train (optr val)) t) | None => r_lt1 (r_add train (optr val)) end.
  Lemma split_ratio_ok n lbl lo k sh train val test : (2 <= length lbl)%nat -> Z.of_nat (length lbl) <= n -> lowest lbl lo -> distinct lbl k ->
    (forall c x, Permutation (sh c x) x) -> ratio_fits train val test = true ->
    (forall z, 0 <= z -> 0 <= r_cut train z /\ 0 <= r_cut (optr val) z /\ (forall t, test = Some t -> 0 <= r_cut t z)) ->
    (r_is0 (optr val) = true -> forall z, r_cut (optr val) z = 0) ->
    exists tr vo te, split_by_ratio n lbl sh train val test = Ok (tr, vo, te) /\ (vo = None <-> r_is0 (optr val) = true) /\
      split_spec n lbl (shift_of lo) k (r_cut train) (r_cut (optr val)) (cut_of test) tr vo te.
  Proof.
    intros L LN LO D SH FT P Z0. unfold split_by_ratio. rewrite (norm_labels_eq L LO). cbn [rbind].
    fold (optr val). fold (ratio_fits train val test). rewrite FT. fold (cut_of test).
    destruct (@split_masks_ok (map (fun y => y - shift_of lo) lbl) sh SH (r_cut train) (r_cut (optr val)) (cut_of test))
      with (n := n) (hv := negb (r_is0 (optr val))) as (tr & vo & te & E & V & S).
    - intros z I. exact (proj1 (P z I)).
    - intros z I. exact (proj1 (proj2 (P z I))).
    - intros f z Q I. destruct test as [t|]; [|discriminate]. injection Q as <-. apply (P z I). reflexivity.
    - rewrite map_length. auto.
    - intros X. apply negb_false_iff in X. auto.
    - exists tr, vo, te. split; auto. split.
      + rewrite V, negb_false_iff. reflexivity.
      + unfold SplitFacts.k in S. rewrite (distinct_classes _ D) in S. apply split_spec_shift; auto.
  Qed.
  Lemma split_ratio_reject n lbl lo sh train val test : (2 <= length lbl)%nat -> lowest lbl lo -> ratio_fits train val test = false ->
    split_by_ratio n lbl sh train val test = Err AssertionError.
  Proof.
    intros L LO FT. unfold split_by_ratio. rewrite (norm_labels_eq L LO). cbn [rbind]. fold (optr val). fold (ratio_fits train val test). rewrite FT. reflexivity.
  Qed.
End RatioSplit.

(** * User-item splits *)
Section UIFacts.
  Context {T : Type} `{Num T}.
  Variable g : bigraph T.
  Variable sh : Z -> list Z -> list Z.
  Hypothesis SH : forall c x, Permutation (sh c x) x.
  Variable nb : Z -> list Z.

  Lemma items_cons u line al : items u (line :: al) = (match line with h :: t => if h =? u then t else [] | [] => [] end) ++ items u al.
  Proof. reflexivity. Qed.
  Lemma items_none u al : (forall t, ~ In (u :: t) al) -> items u al = [].
  Proof.
    induction al as [|line al IH]; intros N; auto. rewrite items_cons, IH by (intros t I; apply (N t); right; auto).
    destruct line as [|h t]; auto. destruct (Z.eqb_spec h u) as [->|]; auto. destruct (N t). left; auto.
  Qed.
  (** every user [u] of [us] with items gets a line in each list its part is non-empty in *)
  Definition ui_ok (us : list Z) (cut : Z -> Z) (tr te : list (list Z)) : Prop :=
    (forall u, In u us -> items u tr = firstn (Z.to_nat (cut (Z.of_nat (length (nb u))))) (sh u (nb u)) /\
                          items u te = skipn (Z.to_nat (cut (Z.of_nat (length (nb u))))) (sh u (nb u))) /\
    (forall u t, In (u :: t) tr \/ In (u :: t) te -> In u us /\ nb u <> []).
  Lemma sh_len u x : length (sh u x) = length x.
  Proof. apply Permutation_length, SH. Qed.
  Lemma sh_nil u x : sh u x = [] <-> x = [].
  Proof.
    split; intros E.
    - apply Permutation_nil. rewrite <- E. apply SH.
    - subst. apply Permutation_nil. symmetry. apply SH.
  Qed.

  Lemma ui_num_ok train us : NoDup us -> (forall u, In u us -> nbr_v g u = Ok (nb u)) -> 0 <= train ->
    exists tr te, ui_num g sh train us = Ok (tr, te) /\ ui_ok us (fun _ => train) tr te /\
      NoDup (map (hd 0) tr) /\ NoDup (map (hd 0) te) /\ Forall (fun x => (2 <= length x)%nat) te /\ ~ In [] tr /\ ~ In [] te.
  Proof.
    intros ND NB P. induction us as [|u us IH]; cbn [ui_num].
    - exists [], []. split; auto. repeat split; try constructor; cbn; try (intros; contradiction); try tauto.
    - apply NoDup_cons_iff in ND as [NI ND]. destruct IH as (tr & te & E & (O1 & O2) & N1 & N2 & L2 & Z1 & Z2); [auto|intros; apply NB; right; auto|].
      rewrite NB by (left; auto). cbn [rbind]. rewrite E. cbn [rbind fst snd].
      assert (NT : forall t, ~ In (u :: t) tr /\ ~ In (u :: t) te) by (intros t; split; intros I; apply NI; apply (O2 u t); auto).
      assert (NT1 : items u tr = []) by (apply items_none; intros; apply NT).
      assert (NT2 : items u te = []) by (apply items_none; intros; apply NT).
      assert (HN : forall al, (forall t, ~ In (u :: t) al) -> ~ In [] al -> ~ In u (map (hd 0) al)).
      { intros al N Z I. apply in_map_iff in I as ([|h t] & X & I); [contradiction|]. cbn in X. subst h. apply (N t); auto. }
      assert (OT : forall u', In u' us -> u =? u' = false) by (intros u' I; apply Z.eqb_neq; intros ->; contradiction).
      destruct (sh u (nb u)) as [|x r] eqn:S.
      + exists tr, te. split; auto. split; [|repeat split; auto]. split.
        * intros u' [<-|I]; [|apply O1; auto]. rewrite S, NT1, NT2, firstn_nil, skipn_nil. auto.
        * intros u' t I. destruct (O2 u' t I). split; auto. right; auto.
      + assert (LE : Z.of_nat (length (x :: r)) = Z.of_nat (length (nb u))) by (rewrite <- S, sh_len; auto).
        assert (NN : nb u <> []) by (intros X; rewrite X in S; rewrite (proj2 (sh_nil u []) eq_refl) in S; discriminate).
        rewrite LE. destruct (Z.leb_spec (Z.of_nat (length (nb u))) train) as [LT|LT].
        * exists ((u :: x :: r) :: tr), te. split; auto. split.
          { split.
            - intros u' [<-|I]; rewrite items_cons.
              + rewrite Z.eqb_refl, NT1, NT2, app_nil_r, S. rewrite firstn_all2, skipn_all2 by lia. auto.
              + rewrite OT by auto. apply O1; auto.
            - intros u' t [[I|I]|I].
              + injection I as <- <-. split; auto. left; auto.
              + destruct (O2 u' t); auto. split; auto. right; auto.
              + destruct (O2 u' t); auto. split; auto. right; auto. }
          split; [cbn; constructor; auto; apply HN; auto; intros; apply NT|]. split; auto. split; auto.
          split; auto. intros [X|X]; [discriminate|auto].
        * rewrite slice_to, slice_from by auto. eexists _, _. split; [reflexivity|]. split.
          { split.
            - intros u' [<-|I]; rewrite !items_cons.
              + rewrite Z.eqb_refl, NT1, NT2, !app_nil_r, S. auto.
              + rewrite OT by auto. apply O1; auto.
            - intros u' t [[I|I]|[I|I]].
              + injection I as <- <-. split; auto. left; auto.
              + destruct (O2 u' t); auto. split; auto. right; auto.
              + injection I as <- <-. split; auto. left; auto.
              + destruct (O2 u' t); auto. split; auto. right; auto. }
          split; [cbn; constructor; auto; apply HN; auto; intros; apply NT|].
          split; [cbn; constructor; auto; apply HN; auto; intros; apply NT|].
          split. { constructor; auto. cbn [length]. rewrite skipn_length. lia. }
          split; intros [X|X]; try discriminate; auto.
  Qed.
  Lemma ui_ratio_ok {F} {RF : Ratio F} (ratio : F) us : NoDup us -> (forall u, In u us -> nbr_v g u = Ok (nb u)) -> (forall z, 0 <= z -> 0 <= r_cut ratio z) ->
    exists tr te, ui_ratio g sh ratio us = Ok (tr, te) /\ ui_ok us (r_cut ratio) tr te /\
      NoDup (map (hd 0) tr) /\ NoDup (map (hd 0) te) /\ ~ In [] tr /\ ~ In [] te /\ map (hd 0) tr = map (hd 0) te.
  Proof.
    intros ND NB P. induction us as [|u us IH]; cbn [ui_ratio].
    - exists [], []. split; auto. repeat split; try constructor; cbn; try (intros; contradiction); try tauto.
    - apply NoDup_cons_iff in ND as [NI ND]. destruct IH as (tr & te & E & (O1 & O2) & N1 & N2 & Z1 & Z2 & HH); [auto|intros; apply NB; right; auto|].
      rewrite NB by (left; auto). cbn [rbind]. rewrite E. cbn [rbind fst snd].
      assert (NT : forall t, ~ In (u :: t) tr /\ ~ In (u :: t) te) by (intros t; split; intros I; apply NI; apply (O2 u t); auto).
      assert (NT1 : items u tr = []) by (apply items_none; intros; apply NT).
      assert (NT2 : items u te = []) by (apply items_none; intros; apply NT).
      assert (HN : forall al, (forall t, ~ In (u :: t) al) -> ~ In [] al -> ~ In u (map (hd 0) al)).
      { intros al N Z I. apply in_map_iff in I as ([|h t] & X & I); [contradiction|]. cbn in X. subst h. apply (N t); auto. }
      assert (OT : forall u', In u' us -> u =? u' = false) by (intros u' I; apply Z.eqb_neq; intros ->; contradiction).
      destruct (sh u (nb u)) as [|x r] eqn:S.
      + exists tr, te. split; auto. split; [|repeat split; auto]. split.
        * intros u' [<-|I]; [|apply O1; auto]. rewrite S, NT1, NT2, firstn_nil, skipn_nil. auto.
        * intros u' t I. destruct (O2 u' t I). split; auto. right; auto.
      + assert (LE : Z.of_nat (length (x :: r)) = Z.of_nat (length (nb u))) by (rewrite <- S, sh_len; auto).
        assert (NN : nb u <> []) by (intros X; rewrite X in S; rewrite (proj2 (sh_nil u []) eq_refl) in S; discriminate).
        rewrite LE. cbn zeta. rewrite slice_to, slice_from by (apply P; lia). eexists _, _. split; [reflexivity|]. split.
        { split.
          - intros u' [<-|I]; rewrite !items_cons.
            + rewrite Z.eqb_refl, NT1, NT2, !app_nil_r, S. auto.
            + rewrite OT by auto. apply O1; auto.
          - intros u' t [[I|I]|[I|I]].
            + injection I as <- <-. split; auto. left; auto.
            + destruct (O2 u' t); auto. split; auto. right; auto.
            + injection I as <- <-. split; auto. left; auto.
            + destruct (O2 u' t); auto. split; auto. right; auto. }
        split; [cbn; constructor; auto; apply HN; auto; intros; apply NT|].
        split; [cbn; constructor; auto; apply HN; auto; intros; apply NT|].
        split; [intros [X|X]; try discriminate; auto|]. split; [intros [X|X]; try discriminate; auto|]. cbn. rewrite HH. reflexivity.
  Qed.
End UIFacts.
