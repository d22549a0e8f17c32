(** Property C200: negative numbers of training items. *)
From Coq Require Import Permutation QArith Qcanon.
From Verif Require Import Num ModelBase ModelConv ModelUtils ModelBiGraph SpecGraph SpecGraphOps SpecBiGraph BiGraphFacts PropBiGraph SpecUtils SplitFacts PropUtils.
Set Implicit Arguments.
Local Open Scope Z_scope.

(** ** C200: a negative number of training items counts from the end *)
(** a slice bound below zero counts from the end of the list *)
Definition from_end (cut : Z -> Z) (n : Z) : Z := if cut n <? 0 then Z.max 0 (n + cut n) else cut n.
Lemma slice_to_any {A} (l : list A) t : py_slice None (Some t) l = firstn (Z.to_nat (from_end (fun _ => t) (Z.of_nat (length l)))) l.
Proof.
  unfold from_end. destruct (Z.ltb_spec t 0) as [L|L]; [|apply slice_to; auto].
  unfold py_slice, slice_bound. destruct (Z.ltb_spec t 0); [|lia]. cbn [skipn Z.to_nat]. f_equal. lia.
Qed.
Lemma slice_from_any {A} (l : list A) t : py_slice (Some t) None l = skipn (Z.to_nat (from_end (fun _ => t) (Z.of_nat (length l)))) l.
Proof.
  unfold from_end. destruct (Z.ltb_spec t 0) as [L|L]; [|apply slice_from; auto].
  unfold py_slice, slice_bound. destruct (Z.ltb_spec t 0); [|lia]. rewrite firstn_all2; [f_equal; lia|]. rewrite skipn_length. lia.
Qed.
(** any function as a way to cut *)
Definition cutter {F} {RF : Ratio F} (cut : Z -> Z) : Ratio F := Build_Ratio r_zero r_add r_le1 r_lt1 r_is0 (fun _ => cut).
Lemma ui_ratio_cut {T} {N : Num T} (g : bigraph T) sh (f : Z -> Z) us : (forall u x, Permutation (sh u x) x) ->
  (forall (train : Z), (forall n, f n = train) -> train < 0 -> ui_num g sh train us = @ui_ratio T N Q (cutter (from_end f)) g sh 0%Q us) /\
  (forall F (RF : Ratio F) (ratio : F), (forall n, f n = r_cut ratio n) -> ui_ratio g sh ratio us = @ui_ratio T N Q (cutter (from_end f)) g sh 0%Q us).
Proof.
  intros SH. split.
  - intros train EF L. induction us as [|u us IH]; cbn [ui_num ui_ratio]; auto. destruct (nbr_v g u) as [l|]; auto. cbn [rbind]. rewrite IH.
    destruct (ui_ratio _ _ _ _) as [tt|]; auto. cbn [rbind]. destruct (sh u l) as [|x r]; auto.
    destruct (Z.leb_spec (Z.of_nat (length (x :: r))) train); [lia|]. cbn [r_cut cutter].
    rewrite (slice_to_any _ train), (slice_from_any _ train).
    assert (C : 0 <= from_end f (Z.of_nat (length (x :: r)))) by (unfold from_end; rewrite EF; destruct (Z.ltb_spec train 0); lia).
    rewrite slice_to, slice_from by auto. unfold from_end. rewrite EF. reflexivity.
  - intros F RF ratio EF. induction us as [|u us IH]; cbn [ui_ratio]; auto. destruct (nbr_v g u) as [l|]; auto. cbn [rbind]. rewrite IH.
    destruct (@ui_ratio _ _ Q _ _ _ _ _) as [tt|]; auto. cbn [rbind]. destruct (sh u l) as [|x r]; auto. cbn [r_cut cutter]. cbv zeta.
    rewrite (slice_to_any _ (r_cut ratio _)), (slice_from_any _ (r_cut ratio _)).
    assert (C : 0 <= from_end f (Z.of_nat (length (x :: r)))) by (unfold from_end; destruct (Z.ltb_spec (f (Z.of_nat (length (x :: r)))) 0); lia).
    rewrite slice_to, slice_from by auto. unfold from_end. rewrite EF. reflexivity.
Qed.
(** [t] and [t'] hold the items of user [u], each once; [k n] of the [n] items are in [t] *)
Definition user_parts {T} (g : wmap T) (u : Z) (k : Z -> Z) (t t' : list Z) : Prop :=
  NoDup (t ++ t') /\ (forall v, In v (t ++ t') <-> g u v <> None) /\
  let n := Z.of_nat (length (t ++ t')) in Z.of_nat (length t) = k n /\ Z.of_nat (length t') = n - k n.
Lemma parts_of {T} (g : wmap T) u cut t t' k : (forall n, 0 <= n -> Z.min (cut n) n = k n) -> user_split g u cut t t' -> user_parts g u k t t'.
Proof.
  intros E (A & B & C). cbv zeta in C. split; auto. split; auto. cbv zeta. rewrite E in C by lia. split; auto. rewrite <- C, app_length. lia.
Qed.
(** Nothing checks the sign.  With train_num = -j the last j items of every user are for testing (all of them if there are fewer). *)
Theorem C200_num_actual : forall (T : Type) (N : Num T) nu nv e w m ops (s : bigraph T) sh train,
  b_reach nu nv e w m ops s -> nonneg_new e -> Forall nonneg_bop ops -> (forall u x, Permutation (sh u x) x) -> train < 0 ->
  let g := b_spec nu nv e w m ops in
  exists tr te, split_by_num_UI s sh train = Ok (tr, te) /\
    (forall u, 0 <= u < nu -> user_parts g u (fun n => Z.max 0 (n + train)) (items u tr) (items u te)) /\
    map (hd 0) tr = map (hd 0) te /\ NoDup (map (hd 0) tr).
Proof.
  intros T N nu nv e w m ops s sh train H NE NO SH L g.
  pose proof (fun P => @C46_by_ratio T N Q (cutter (from_end (fun _ => train))) nu nv e w m ops s sh 0%Q H NE NO SH P) as R.
  destruct R as (tr & te & E & U & HD & ND & _).
  { intros z Z0. cbn [r_cut cutter]. unfold from_end. destruct (Z.ltb_spec train 0); lia. }
  exists tr, te. split; [|split; [|auto]].
  - rewrite <- E. unfold split_by_num_UI, split_by_ratio_UI. apply (@ui_ratio_cut T N s sh (fun _ => train) _ SH); auto.
  - intros u B. eapply parts_of; [|exact (U u B)]. intros n P. cbn [r_cut cutter]. unfold from_end. destruct (Z.ltb_spec train 0); lia.
Qed.
(** The same with a ratio: whatever int(n * ratio) is, every user's items are parted, and a negative product counts from the end. *)
Theorem C200_ratio_actual : forall (T : Type) (N : Num T) (F : Type) (RF : Ratio F) nu nv e w m ops (s : bigraph T) sh (ratio : F),
  b_reach nu nv e w m ops s -> nonneg_new e -> Forall nonneg_bop ops -> (forall u x, Permutation (sh u x) x) ->
  let g := b_spec nu nv e w m ops in
  exists tr te, split_by_ratio_UI s sh ratio = Ok (tr, te) /\
    (forall u, 0 <= u < nu -> user_parts g u (fun n => if r_cut ratio n <? 0 then Z.max 0 (n + r_cut ratio n) else Z.min (r_cut ratio n) n) (items u tr) (items u te)) /\
    map (hd 0) tr = map (hd 0) te /\ NoDup (map (hd 0) tr).
Proof.
  intros T N F RF nu nv e w m ops s sh ratio H NE NO SH g.
  pose proof (fun P => @C46_by_ratio T N Q (cutter (from_end (r_cut ratio))) nu nv e w m ops s sh 0%Q H NE NO SH P) as R.
  destruct R as (tr & te & E & U & HD & ND & _).
  { intros z Z0. cbn [r_cut cutter]. unfold from_end. destruct (Z.ltb_spec (r_cut ratio z) 0); lia. }
  exists tr, te. split; [|split; [|auto]].
  - rewrite <- E. unfold split_by_ratio_UI. apply (@ui_ratio_cut T N s sh (r_cut ratio) _ SH); auto.
  - intros u B. eapply parts_of; [|exact (U u B)]. intros n P. cbn [r_cut cutter]. unfold from_end. destruct (Z.ltb_spec (r_cut ratio n) 0); lia.
Qed.
Example C200_ex : exists s : bigraph Qc, b_reach 3 4 (Some (EMany [(0, 1); (0, 2); (0, 3); (2, 0)])) WNone MSum [] s /\
  split_by_num_UI s (fun _ x => x) (-2) = Ok ([[0; 1]; [2]], [[0; 2; 3]; [2; 0]]) /\
  split_by_ratio_UI s (fun _ x => x) (- (1 # 2))%Q = Ok ([[0; 1; 2]; [2]], [[0; 3]; [2; 0]]) .
Proof. eexists. split; [eexists; split; reflexivity|]. split; vm_compute; reflexivity. Qed.
