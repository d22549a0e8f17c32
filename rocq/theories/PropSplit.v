(** Property C178: split_by_num and split_by_ratio when the number of vertices is not the number of labels; C48: ties of round. *)
From Coq Require Import Permutation Reals Lra QArith.
From Verif Require Import Num ModelConv ModelUtils SpecUtils SplitFacts PropUtils.
Set Implicit Arguments.
Local Open Scope list_scope.
Local Open Scope Z_scope.

Lemma idx_mask_short n idx : 0 <= n ->
  ((exists i, In i idx /\ n <= i) -> idx_mask n idx = Err IndexError) /\
  (idx_mask n idx = Err IndexError \/ exists b, idx_mask n idx = Ok b).
Proof.
  intros P. unfold idx_mask. replace (n <? 0) with false by (symmetry; apply Z.ltb_ge; lia). destruct (forallb (fun i => i <? n) idx) eqn:E.
  - split; [|right; eauto]. intros (i & I & L). rewrite forallb_forall in E. apply E, Z.ltb_lt in I. lia.
  - split; auto.
Qed.
Lemma idx2mask_short n tr te va : 0 <= n -> (exists i, n <= i /\ (In i tr \/ In i te \/ exists v, va = Some v /\ In i v)) ->
  idx2mask n tr te va = Err IndexError.
Proof.
  intros P (i & L & I). unfold idx2mask. destruct (idx_mask_short tr P) as [A A']. destruct (idx_mask_short te P) as [B B'].
  destruct A' as [A'|[a A']]; rewrite A'; [reflexivity|]. cbn [rbind]. destruct B' as [B'|[b B']]; rewrite B'; [reflexivity|]. cbn [rbind].
  destruct I as [I|[I|(v & -> & I)]].
  - rewrite A in A' by eauto. discriminate.
  - rewrite B in B' by eauto. discriminate.
  - rewrite (proj1 (idx_mask_short v P)) by eauto. reflexivity.
Qed.
Lemma split_masks_short l sh tn vn n hv : (forall c x, Permutation (sh c x) x) -> (forall z, 0 <= z -> 0 <= tn z) -> (forall z, 0 <= z -> 0 <= vn z) ->
  (hv = false -> forall z, vn z = 0) -> 0 <= n -> (exists i, n <= i < Z.of_nat (length l) /\ 0 <= label l i < num_classes l) ->
  split_masks n l sh hv tn vn None = Err IndexError.
Proof.
  intros SH TN VN HV P (i & I & C). assert (SN : forall f z, @None (Z -> Z) = Some f -> 0 <= z -> 0 <= f z) by discriminate.
  unfold split_masks. rewrite (split_loop_eq l sh tn vn TN VN SN). apply idx2mask_short; auto. exists i. split; [lia|].
  assert (J : In i (cls l sh (label l i))) by (apply cls_In; auto; lia).
  destruct (three l sh tn vn TN VN SN (label l i)) as (r & E & R). rewrite (R eq_refl), app_nil_r in E. rewrite E, !in_app_iff in J.
  assert (G : forall p : Z -> list Z, In i (p (label l i)) -> In i (flat_map p (range (num_classes l)))).
  { intros p X. apply in_flat_map. exists (label l i). split; auto. apply range_In. auto. }
  destruct J as [J|[J|J]]; [left; apply G; auto| |right; left; apply G; auto].
  destruct hv; [right; right; eexists; split; [reflexivity|apply G; auto]|]. unfold p_va in J. rewrite HV in J by auto. destruct J.
Qed.
(** fewer vertices than labels: IndexError when all remaining vertices are for testing *)
Theorem C178_too_few : forall n lbl lo k sh train val (F : Type) (RF : Ratio F) (rtrain : F) rval,
  (2 <= length lbl)%nat -> lo = 0 \/ lo = 1 -> contiguous lbl lo k -> (forall c x, Permutation (sh c x) x) -> 0 <= n < Z.of_nat (length lbl) ->
  (0 <= train -> 0 <= opt0 val -> split_by_num n lbl sh train val None = Err IndexError) /\
  (ratio_fits rtrain rval None = true -> (forall z, 0 <= z -> 0 <= r_cut rtrain z /\ 0 <= r_cut (optr rval) z) ->
   (r_is0 (optr rval) = true -> forall z, r_cut (optr rval) z = 0) -> split_by_ratio n lbl sh rtrain rval None = Err IndexError).
Proof.
  intros n lbl lo k sh train val F RF rtrain rval L LO C SH P. destruct (@contiguous_facts lbl lo k C ltac:(lia)) as [LW D].
  assert (X : exists i, n <= i < Z.of_nat (length (map (fun y => y - shift_of lo) lbl)) /\
    0 <= label (map (fun y => y - shift_of lo) lbl) i < num_classes (map (fun y => y - shift_of lo) lbl)).
  { exists n. rewrite map_length. split; [lia|]. rewrite label_shift by lia. rewrite (distinct_classes _ D).
    replace (shift_of lo) with lo by (destruct LO; subst; reflexivity).
    assert (I : In (label lbl n) lbl) by (unfold label; apply nth_In; lia). apply C in I. lia. }
  split.
  - intros P1 P2. unfold split_by_num. rewrite (norm_labels_eq L LW). cbn [rbind]. fold (opt0 val).
    apply split_masks_short; auto; [|lia]. intros Y z. apply negb_false_iff, Z.eqb_eq in Y. auto.
  - intros FT Q Z0. unfold split_by_ratio. rewrite (norm_labels_eq L LW). cbn [rbind]. fold (optr rval). unfold ratio_fits in FT. rewrite FT.
    apply split_masks_short; auto; try (intros; apply Q; auto); [|lia]. intros Y. apply negb_false_iff in Y. auto.
Qed.
(** more vertices than labels: the vertices without a label are in none of the masks, which have one entry per vertex *)
Theorem C178_too_many_actual : forall n lbl lo k sh train val test,
  (2 <= length lbl)%nat -> lo = 0 \/ lo = 1 -> contiguous lbl lo k -> (forall c x, Permutation (sh c x) x) -> Z.of_nat (length lbl) <= n ->
  0 <= train -> 0 <= opt0 val -> 0 <= opt0 test ->
  exists tr vo te, split_by_num n lbl sh train val test = Ok (tr, vo, te) /\
    Z.of_nat (length tr) = n /\ Z.of_nat (length te) = n /\ (forall va, vo = Some va -> Z.of_nat (length va) = n) /\
    (forall i, Z.of_nat (length lbl) <= i < n -> msel tr i = false /\ vsel vo i = false /\ msel te i = false) /\
    (test = None -> forall i, 0 <= i < Z.of_nat (length lbl) -> msel tr i || vsel vo i || msel te i = true).
Proof.
  intros n lbl lo k sh train val test L LO C SH LN P1 P2 P3. destruct (@contiguous_facts lbl lo k C ltac:(lia)) as [LW D].
  destruct (@split_num_ok n lbl lo k sh train val test L LN LW D SH P1 P2 P3) as (tr & vo & te & E & V & S).
  replace (shift_of lo) with lo in S by (destruct LO; subst; reflexivity).
  exists tr, vo, te. split; auto. destruct S as (A & B & CC & _ & _ & S & NL). split; [exact A|]. split; [exact B|]. split; [exact CC|]. split.
  - intros i I. assert (X : msel tr i || vsel vo i || msel te i = false) by (apply NL; lia). apply orb_false_iff in X as [X Y]. apply orb_false_iff in X. tauto.
  - intros -> i I. apply S; auto. apply C. unfold label. apply nth_In. lia.
Qed.
Example C178_case : contiguous [1; 2; 2; 1; 2] 1 2 /\ 0 <= 4 < Z.of_nat (length [1; 2; 2; 1; 2]) /\
  split_by_num 4 [1; 2; 2; 1; 2] (fun _ x => x) 1 None None = Err IndexError /\
  split_by_num 6 [1; 2; 2; 1; 2] (fun _ x => x) 1 None None =
    Ok ([true; true; false; false; false; false], None, [false; false; true; true; true; false]).
Proof. split; [apply C45_case|]. split; [cbn; lia|]. split; reflexivity. Qed.

(** * C48: exactly between two integers, round takes the even one *)
Local Open Scope R_scope.
Theorem C48_rounding_ties : forall z, py_round (IZR z + 1 / 2) = if Z.even z then z else (z + 1)%Z.
Proof.
  intros z. unfold py_round. assert (E : Int_part (IZR z + 1 / 2) = z).
  { destruct (base_Int_part (IZR z + 1 / 2)) as [B1 B2]. set (k := Int_part (IZR z + 1 / 2)) in *.
    assert (IZR k < IZR (z + 1)) by (rewrite plus_IZR; lra). apply lt_IZR in H.
    assert (IZR (z - 1) < IZR k) by (rewrite minus_IZR; lra). apply lt_IZR in H0. lia. }
  rewrite E. replace (IZR z + 1 / 2 - IZR z) with (/ 2) by lra.
  destruct (Rlt_dec (/ 2) (/ 2)); [lra|reflexivity].
Qed.
Example C48_rounding_ties_case : py_round (5 / 2) = 2%Z /\ py_round (7 / 2) = 4%Z.
Proof.
  split; [replace (5 / 2) with (IZR 2 + 1 / 2) by lra|replace (7 / 2) with (IZR 3 + 1 / 2) by lra]; apply C48_rounding_ties.
Qed.
