(** Properties C152-C155: numbers outside the range, negative numbers, vertices that do not exist, repeated vertices. *)
From Coq Require Import String Permutation Ring QArith Qcanon.
From Verif Require Import Num PyDict PyDictFacts Coo CooFacts MatFacts ModelBase CacheFacts ModelGraph SpecGraph SpecGraphOps StoreFacts GraphFacts GraphStore GraphMatrix GraphLaplace GraphReach PropGraph
  ModelDiGraph DiGraphFacts DiGraphReach SpecDiGraph PropDiGraph ModelBiGraph SpecBiGraph BiGraphFacts BiGraphMatrix PropBiGraph
  ModelHyper HyperFacts SpecHyper HyperStore HyperView HyperMatrix HyperReach HyperOps PropHyper.
Set Implicit Arguments.
Local Open Scope string_scope.
Local Open Scope list_scope.
Local Open Scope Z_scope.
Local Notation q z := (Q2Qc (inject_Z z)).

Lemma py_index_neg n v : - n <= v < 0 -> py_index n v = py_index n (v + n).
Proof.
  intros B. rewrite (@py_index_in n (v + n)) by lia. unfold py_index.
  replace (0 <=? v) with false by (symmetry; apply Z.leb_gt; lia). replace (- n <=? v) with true by (symmetry; apply Z.leb_le; lia).
  replace (v <? 0) with true by (symmetry; apply Z.ltb_lt; lia). reflexivity.
Qed.
Lemma py_index_out n v : 0 <= n -> v < - n \/ n <= v -> py_index n v = Err IndexError.
Proof.
  intros P B. unfold py_index. destruct (Z.leb_spec 0 v), (Z.ltb_spec v n), (Z.leb_spec (- n) v), (Z.ltb_spec v 0); cbn; auto; lia.
Qed.

(** * C152: which vertex numbers the neighbour queries take *)
Theorem C152_graph : forall (T : Type) (N : Num T) nv e w ex m ops (s : graph T),
  g_reach nv e w ex m ops s -> nonneg_new e -> Forall nonneg_op ops -> forall v hop,
  (hop < 1 -> snd (g_query (QN v hop) s) = Err AssertionError) /\
  (1 <= hop -> v < - nv \/ nv <= v -> snd (g_query (QN v hop) s) = Err IndexError) /\
  (- nv <= v < 0 -> snd (g_query (QN v hop) s) = snd (g_query (QN (v + nv) hop) s)).
Proof.
  intros T N nv e w ex m ops s H NE NO v hop. apply reach_rel in H as (R & C & NV & P). pose proof (spec_in_range nv e w ex m NE NO) as IR.
  rewrite (good_answer (good_query (QN v hop)) C), (good_answer (good_query (QN (v + nv) hop)) C). cbn [p_query]. unfold p_N. rewrite NV.
  split; [|split].
  - intros L. destruct (Z.leb_spec 1 hop); [lia|reflexivity].
  - intros L B. destruct (Z.leb_spec 1 hop); [|lia]. rewrite py_index_out by lia. unfold p_Apow. rewrite (p_A_eq R NV P IR). destruct (hop =? 1); reflexivity.
  - intros B. rewrite py_index_neg by lia. reflexivity.
Qed.
Theorem C152_digraph : forall (T : Type) (N : Num T) nv e w ex m ops (s : digraph T),
  d_reach nv e w ex m ops s -> reverse_safe nv true ops = true -> nonneg_new e -> Forall nonneg_dop ops -> forall v,
  (v < - nv \/ nv <= v -> snd (d_query (dqNin v) s) = Err IndexError /\ snd (d_query (dqNout v) s) = Err IndexError) /\
  (- nv <= v < 0 -> snd (d_query (dqNin v) s) = snd (d_query (dqNin (v + nv)) s) /\ snd (d_query (dqNout v) s) = snd (d_query (dqNout (v + nv)) s)).
Proof.
  intros T N nv e w ex m ops s H SF NE NO v. destruct (dreach_rel H SF) as (R & C & NV & P). pose proof (dspec_in_range nv e w ex m NE NO) as IR.
  rewrite !(fun q => good_answer (dgood_query q) C). cbn [dp_query]. unfold q_N. rewrite NV.
  split; intros B.
  - rewrite py_index_out by lia. rewrite (q_A_eq _ R NV P IR), (q_AT_eq _ R NV P IR). split; reflexivity.
  - rewrite py_index_neg by lia. split; reflexivity.
Qed.
Theorem C152_bigraph : forall (T : Type) (N : Num T) nu nv e w m ops (s : bigraph T),
  b_reach nu nv e w m ops s -> nonneg_new e -> Forall nonneg_bop ops -> 0 <= nu -> forall v,
  (v < - nu \/ nu <= v -> snd (b_query (bqNv v) s) = Err IndexError) /\ (v < - nv \/ nv <= v -> snd (b_query (bqNu v) s) = Err IndexError) /\
  (- nu <= v < 0 -> snd (b_query (bqNv v) s) = snd (b_query (bqNv (v + nu)) s)) /\ (- nv <= v < 0 -> snd (b_query (bqNu v) s) = snd (b_query (bqNu (v + nv)) s)).
Proof.
  intros T N nu nv e w m ops s H NE NO U v. destruct (breach_rel H) as (C & R & NU & NV & P). pose proof (bspec_range nu nv e w m NE NO) as IR.
  rewrite !(fun q => good_answer (bgood_query q) C). cbn [bp_query]. unfold bp_Nv, bp_Nu. rewrite NU, NV.
  split; [|split; [|split]]; intros B.
  - rewrite py_index_out by lia. rewrite (bp_B_eq _ R NU NV IR). reflexivity.
  - rewrite py_index_out by lia. rewrite (bp_BT_eq _ R NU NV IR). reflexivity.
  - rewrite py_index_neg by lia. reflexivity.
  - rewrite py_index_neg by lia. reflexivity.
Qed.

Section Pure.
  Context {T : Type} {N : Num T}.
  Implicit Types (r : hraw T) (g : string).
  Lemma rmapM_ext {A B} (f f' : A -> res B) l : (forall a, In a l -> f a = f' a) -> rmapM f l = rmapM f' l.
  Proof. induction l as [|a l IH]; cbn; intros E; auto. rewrite E by auto. destruct (f' a); cbn; auto. rewrite IH by auto. reflexivity. Qed.
  Lemma Ne_g_neg r g v : - h_nv r <= v < 0 -> hp_Ne_g v g r = hp_Ne_g (v + h_nv r) g r.
  Proof.
    intros B. unfold hp_Ne_g, p_group. destruct (dget g (h_gr r)); auto.
    replace (v <? h_nv r) with true by (symmetry; apply Z.ltb_lt; lia). replace (v + h_nv r <? h_nv r) with true by (symmetry; apply Z.ltb_lt; lia).
    rewrite py_index_neg by lia. reflexivity.
  Qed.
  Lemma Ne_neg r sc v : - h_nv r <= v < 0 -> hp_Ne sc v r = hp_Ne sc (v + h_nv r) r.
  Proof.
    intros B. destruct sc as [g|]; cbn [hp_Ne].
    { apply Ne_g_neg; auto. }
    replace (v <? h_nv r) with true by (symmetry; apply Z.ltb_lt; lia). replace (v + h_nv r <? h_nv r) with true by (symmetry; apply Z.ltb_lt; lia).
    unfold p_groups. rewrite (rmapM_ext (fun g => hp_Ne_g v g r) (fun g => hp_Ne_g (v + h_nv r) g r)) by (intros; apply Ne_g_neg; auto). reflexivity.
  Qed.
  Lemma Ne_g_out r g d v : hclean r -> 0 <= h_nv r -> v < - h_nv r -> dget g (h_gr r) = Some d -> hp_Ne_g v g r = Err IndexError.
  Proof.
    intros K P B E. unfold hp_Ne_g, hp_H_g, p_group. rewrite E. replace (v <? h_nv r) with true by (symmetry; apply Z.ltb_lt; lia).
    rewrite fetch_H_ok by (eapply K; eauto). cbn [res_bind]. rewrite py_index_out by lia. reflexivity.
  Qed.
  Lemma Ne_out r sc es ws v : hwf r -> hclean r -> 0 <= h_nv r -> v < - h_nv r -> scope sc r = Some (es, ws) -> hp_Ne sc v r = Err IndexError.
  Proof.
    intros W K P B S. destruct sc as [g|]; cbn [hp_Ne scope] in *.
    - destruct (dget g (h_gr r)) as [d|] eqn:E; [|discriminate]. eapply Ne_g_out; eauto.
    - replace (v <? h_nv r) with true by (symmetry; apply Z.ltb_lt; lia). destruct (h_gr r) as [|[g d] l] eqn:E; [discriminate|].
      unfold p_groups. rewrite E. unfold dkeys. cbn [map fst rmapM]. rewrite (@Ne_g_out r g d v K P B); [reflexivity|]. apply In_dget; [apply W|]. rewrite E. left. auto.
  Qed.
  Lemma Nv_g_neg r g d i : dget g (h_gr r) = Some d -> - Z.of_nat (length d) <= i < 0 -> hp_Nv_g i g r = hp_Nv_g (i + Z.of_nat (length d)) g r.
  Proof.
    intros E B. unfold hp_Nv_g, p_group. rewrite E.
    replace (i <? Z.of_nat (length d)) with true by (symmetry; apply Z.ltb_lt; lia).
    replace (i + Z.of_nat (length d) <? Z.of_nat (length d)) with true by (symmetry; apply Z.ltb_lt; lia). rewrite py_index_neg by lia. reflexivity.
  Qed.
  Lemma Nv_g_out r g d i : hclean r -> dget g (h_gr r) = Some d -> i < - Z.of_nat (length d) -> hp_Nv_g i g r = Err IndexError.
  Proof.
    intros K E B. pose proof (hview_group g K E) as V. unfold hp_Nv_g, p_group. rewrite E.
    replace (i <? Z.of_nat (length d)) with true by (symmetry; apply Z.ltb_lt; lia). rewrite (V_HT V). cbn [res_bind]. rewrite py_index_out by lia. reflexivity.
  Qed.
End Pure.

(** vertices of a hypergraph: negative numbers count from the end; hyperedges of one group likewise *)
Theorem C152_hypergraph : forall (T : Type) (N : Num T) nv e w vw m ops (s : hypergraph T) sc es ws,
  h_clean_reach nv e w vw m ops s -> h_reports s sc es ws -> forall x,
  (x < - nv -> snd (h_query (hqNe sc x) s) = Err IndexError) /\
  (- nv <= x < 0 -> snd (h_query (hqNe sc x) s) = snd (h_query (hqNe sc (x + nv)) s)) /\
  (sc <> None -> let k := Z.of_nat (length es) in
     (x < - k -> snd (h_query (hqNv sc x) s) = Err IndexError) /\
     (- k <= x < 0 -> snd (h_query (hqNv sc x) s) = snd (h_query (hqNv sc (x + k)) s))).
Proof.
  intros T N nv e w vw m ops s sc es ws H R x. pose proof H as (H0 & _). assert (PN : 0 < nv).
  { destruct H0 as (s0 & E & _). unfold h_new in E. destruct (Z.ltb_spec 0 nv); [auto|discriminate]. }
  destruct (clean_state H R) as (C & W & K & NV & S). rewrite <- NV in PN |- *.
  rewrite !(@hans T N s None C) by reflexivity. cbn [hp_query]. split; [|split].
  - intros B. rewrite (@Ne_out T N (st_raw s) sc es ws x) by (auto; lia). reflexivity.
  - intros B. rewrite Ne_neg by auto. reflexivity.
  - intros NN. cbv zeta. destruct sc as [g|]; [|contradiction]. cbn [hp_Nv scope] in *.
    destruct (dget g (h_gr (st_raw s))) as [d|] eqn:E; [|discriminate]. injection S as <- <-. rewrite dklen. split; intros B.
    + rewrite (@Nv_g_out T N (st_raw s) g d x) by auto. reflexivity.
    + rewrite (@Nv_g_neg T N (st_raw s) g d x) by auto. rewrite !(@hans T N s None C) by reflexivity. reflexivity.
Qed.
Example C152_case : exists (g : graph Rdefinitions.R) (s : hypergraph Qc),
  g_reach 5 exR_e exR_w false MSum exR_ops g /\ nonneg_new exR_e /\ Forall nonneg_op exR_ops /\
  snd (g_query (QN (-5) 2) g) = Ok (OIdx [0; 3]) /\ snd (g_query (QN 5 1) g) = Err IndexError /\ snd (g_query (QN (-6) 1) g) = Err IndexError /\
  ex_reached s /\ snd (h_query (hqNe None (-4)) s) = Ok (OIdx [0; 2; 3]) /\ snd (h_query (hqNe None (-5)) s) = Err IndexError.
Proof.
  destruct (ex_hyper Num_Qc) as (s & X & _). eexists. exists s. split; [eexists; split; reflexivity|].
  split; [repeat (constructor; cbn; try lia)|]. split; [unfold exR_ops; repeat (constructor; cbn; try lia)|].
  split; [vm_compute; reflexivity|]. split; [vm_compute; reflexivity|]. split; [vm_compute; reflexivity|]. split; [exact X|].
  destruct X as ((s0 & E0 & ->) & _). injection E0 as <-. split; vm_compute; reflexivity.
Qed.

(** * C153 (defect): in the whole hypergraph a negative hyperedge number counts from the end of the first group, not of the list of
    all hyperedges *)
Theorem C153_negative_hyperedge_actual : forall (T : Type) (N : Num T) nv e w vw m ops (s : hypergraph T) g es1 ws1 rest i,
  h_clean_reach nv e w vw m ops s -> h_parts s ((g, (es1, ws1)) :: rest) ->
  (- Z.of_nat (length es1) <= i < 0 -> snd (h_query (hqNv None i) s) = snd (h_query (hqNv None (i + Z.of_nat (length es1))) s)) /\
  (i < - Z.of_nat (length es1) -> snd (h_query (hqNv None i) s) = Err IndexError).
Proof.
  intros T N nv e w vw m ops s g es1 ws1 rest i (H & M & D & CN & CO) P.
  destruct (h_reach_inv H M D) as (((W & _ & _ & _) & C & NV) & PN & K). specialize (K CN CO).
  pose proof (parts_eq C W P) as PE. unfold parts in PE. destruct (h_gr (st_raw s)) as [|[g' d] l] eqn:E; [discriminate|]. cbn [map fst snd] in PE. injection PE as -> -> -> ->.
  assert (DG : dget g' (h_gr (st_raw s)) = Some d) by (apply In_dget; [apply W|rewrite E; left; auto]).
  rewrite dklen. set (k := Z.of_nat (length d)) in *. assert (LK : k <= raw_ne (st_raw s)).
  { unfold raw_ne. rewrite E. cbn [fold_right snd]. fold k. assert (0 <= fold_right (fun nd a => Z.of_nat (length (snd nd)) + a) 0 l); [|lia]. clear. induction l; cbn; lia. }
  assert (Q : forall j, j < k -> hp_Nv None j (st_raw s) = hp_Nv_g j g' (st_raw s)).
  { intros j J. cbn [hp_Nv]. replace (j <? raw_ne (st_raw s)) with true by (symmetry; apply Z.ltb_lt; lia). unfold raw_sizes, dkeys. rewrite E. cbn [map combine p_walk fst snd].
    fold k. replace (j <? k) with true by (symmetry; apply Z.ltb_lt; lia). reflexivity. }
  rewrite !(@hans T N s None C) by reflexivity. cbn [hp_query]. split; intros B; rewrite !Q by lia.
  - rewrite (@Nv_g_neg T N (st_raw s) g' d i) by auto. reflexivity.
  - rewrite (@Nv_g_out T N (st_raw s) g' d i) by auto. reflexivity.
Qed.
(** the last of four hyperedges is (0,1,2), number -1 is (1,2) and number -3 is refused *)
Theorem C153_negative_hyperedge_refuted : exists s : hypergraph Qc, ex_reached s /\
  snd (h_query (hqE None) s) = Ok (OHE [[0; 2]; [1; 2]; [0; 3]; [0; 1; 2]] [q 1; q 2; q 2; q 2]) /\
  snd (h_query (hqNv None (-1)) s) = Ok (OIdx [1; 2]) /\ snd (h_query (hqNv None (-3)) s) = Err IndexError.
Proof.
  destruct (ex_hyper Num_Qc) as (s & X & _). exists s. split; [exact X|]. destruct X as ((s0 & E0 & ->) & _). injection E0 as <-.
  split; [vm_compute; qceq|]. split; vm_compute; reflexivity.
Qed.

(** * C154 (defect): hyperedges with vertices that do not exist are accepted and make the hypergraph unusable *)
(** the questions that are answered from the incidence matrix of the scope *)
Definition uses_H {T} (nv : Z) (sc : option string) (q0 : hquery T) : Prop :=
  match q0 with
  | hqH s | hqHT s | hqHdir _ s | hqDv s | hqDv1 s | hqDv12 s | hqDe s | hqDe1 s | hqDegV s | hqDegE s | hqLsym s | hqLrw s | hqLhgnn s
  | hqV2eSrc s | hqV2eDst s | hqV2eW s | hqE2vSrc s | hqE2vDst s | hqE2vW s | hqHgnn s _ _ => s = sc
  | hqNe s v => s = sc /\ - nv <= v < nv
  | hqV2eAgg s _ a _ _ | hqV2e s _ a _ _ _ | hqE2v s _ a _ _ => s = sc /\ a <> AggrOther
  | hqV2v s _ a _ a1 _ _ _ _ _ _ _ _ => s = sc /\ match a1 with Some a' => a' | None => a end <> AggrOther
  | _ => False
  end.
Section Bad.
  Context {T : Type} {N : Num T}.
  Variables (r : hraw T) (g0 : string) (d0 : dict (list Z) T) (e0 : list Z) (v0 : Z).
  Hypothesis W : hwf r.
  Hypothesis D0 : dget g0 (h_gr r) = Some d0.
  Hypothesis E0 : In e0 (dkeys d0).
  Hypothesis I0 : In v0 e0.
  Hypothesis B0 : v0 < 0 \/ h_nv r <= v0.
  Lemma fetch_two d : (exists m, fetch_H (h_nv r) d = Ok m) \/ fetch_H (h_nv r) d = Err RuntimeError.
  Proof. unfold fetch_H, mk_sparse. destruct (forallb _ _); eauto. Qed.
  Lemma fetch_bad : fetch_H (h_nv r) d0 = Err RuntimeError.
  Proof.
    unfold fetch_H, mk_sparse. destruct (forallb _ _) eqn:F; auto. exfalso. rewrite forallb_forall in F.
    destruct (In_nth _ _ [] E0) as (k & L & X).
    specialize (F (v0, Z.of_nat k)). assert (I : In (v0, Z.of_nat k) (inc_from 0 (dkeys d0))).
    { apply inc_from_In. split; [lia|]. unfold nthe. rewrite Z.sub_0_r, Nat2Z.id, X. exact I0. }
    specialize (F I). unfold in_box in F. cbn in F. rewrite !andb_true_iff, !Z.leb_le, !Z.ltb_lt in F. lia.
  Qed.
  Lemma rmapM_err {A B} (f : A -> res B) l x : (forall a, In a l -> (exists b, f a = Ok b) \/ f a = Err x) -> (exists a, In a l /\ f a = Err x) -> rmapM f l = Err x.
  Proof.
    induction l as [|a l IH]; intros F (b & I & E); [destruct I|]. cbn [rmapM]. destruct (F a (or_introl eq_refl)) as [[y Y]|Y]; rewrite Y; cbn [res_bind]; auto.
    rewrite IH; auto; [intros; apply F; right; auto|]. destruct I as [->|I]; [congruence|]. eauto.
  Qed.
  Lemma groups_err {B C} (f : string -> res B) (k : list B -> res C) :
    (forall g d, dget g (h_gr r) = Some d -> (exists b, f g = Ok b) \/ f g = Err RuntimeError) -> f g0 = Err RuntimeError -> p_groups r f k = Err RuntimeError.
  Proof.
    intros F E. unfold p_groups. rewrite (@rmapM_err _ _ f _ RuntimeError); auto.
    - intros a I. unfold dkeys in I. apply in_map_iff in I as ([g d] & <- & I). cbn. apply (F g d). apply In_dget; auto. apply W.
    - exists g0. split; auto. apply dget_In in D0. apply (in_map fst) in D0. exact D0.
  Qed.
  Variable sc : option string.
  Hypothesis SC : sc = None \/ sc = Some g0.
  Lemma bad_H_g : hp_H_g g0 r = Err RuntimeError.
  Proof. unfold hp_H_g, p_group. rewrite D0. apply fetch_bad. Qed.
  Lemma two_H_g g d : dget g (h_gr r) = Some d -> (exists m, hp_H_g g r = Ok m) \/ hp_H_g g r = Err RuntimeError.
  Proof. intros E. unfold hp_H_g, p_group. rewrite E. apply fetch_two. Qed.
  Lemma bad_H : hp_H sc r = Err RuntimeError.
  Proof. destruct SC as [-> | ->]; cbn [hp_H]; [|apply bad_H_g]. apply groups_err; [apply two_H_g|apply bad_H_g]. Qed.
  Lemma bad_HT : hp_HT sc r = Err RuntimeError.
  Proof. unfold hp_HT. rewrite bad_H. reflexivity. Qed.
  Lemma bad_Dv : hp_Dv sc r = Err RuntimeError.
  Proof.
    assert (X : hp_Dv_g g0 r = Err RuntimeError) by (unfold hp_Dv_g; rewrite bad_H_g; reflexivity).
    destruct SC as [-> | ->]; cbn [hp_Dv]; [|exact X]. apply groups_err; [|exact X].
    intros g d E. unfold hp_Dv_g. destruct (two_H_g g E) as [[m ->]| ->]; cbn [res_bind]; auto. left. unfold hp_We_g, p_group. rewrite E. cbn. eauto.
  Qed.
  Lemma bad_De : hp_De sc r = Err RuntimeError.
  Proof.
    assert (X : hp_De_g g0 r = Err RuntimeError) by (unfold hp_De_g, p_group; rewrite D0; unfold hp_HT; cbn [hp_H]; rewrite bad_H_g; reflexivity).
    destruct SC as [-> | ->]; cbn [hp_De]; [|exact X]. apply groups_err; [|exact X].
    intros g d E. unfold hp_De_g. unfold p_group. rewrite E. unfold hp_HT. cbn [hp_H]. destruct (two_H_g g E) as [[m ->]| ->]; cbn; eauto.
  Qed.
  Lemma bad_psc {A} (x : res A) : p_sc r sc x = x.
  Proof. destruct SC as [-> | ->]; cbn [p_sc]; auto. unfold p_group. rewrite D0. auto. Qed.
  Lemma bad_agg D1 n X a w keep : a <> AggrOther -> p_aggregate (Err RuntimeError) D1 n X a w keep = Err RuntimeError.
  Proof. intros A. unfold p_aggregate. destruct a; try contradiction; destruct w; reflexivity. Qed.
  Lemma bad_Ne v : - h_nv r <= v < h_nv r -> hp_Ne sc v r = Err RuntimeError.
  Proof.
    intros V. assert (LT : (v <? h_nv r) = true) by (apply Z.ltb_lt; lia).
    assert (X : hp_Ne_g v g0 r = Err RuntimeError).
    { unfold hp_Ne_g, p_group. rewrite D0, LT, bad_H_g. reflexivity. }
    destruct SC as [-> | ->]; cbn [hp_Ne]; [|exact X]. rewrite LT. apply groups_err; [|exact X].
    intros g d E. unfold hp_Ne_g, p_group. rewrite E, LT. destruct (two_H_g g E) as [[m ->]| ->]; cbn [res_bind]; auto. left.
    destruct (Z.ltb_spec v 0) as [L|L]; [rewrite py_index_neg by lia|]; rewrite py_index_in by lia; cbn; eauto.
  Qed.
  Lemma bad_query q0 : uses_H (h_nv r) sc q0 -> hp_query q0 r = Err RuntimeError.
  Proof.
    intros U. destruct q0; cbn [uses_H] in U; try contradiction; try (match type of U with _ /\ _ => destruct U as [U A] end); try rewrite U in *;
      cbn [hp_query]; unfold hp_Dv1, hp_Dv12, hp_De1, hp_Lsym, hp_Lrw, hp_hgnn, hp_Lhgnn, hp_v2v, hp_e2v, hp_v2e, hp_v2e_agg, hp_e2v_agg, hp_Dv12, hp_Dv1, hp_De1;
      rewrite ?bad_H, ?bad_HT, ?bad_Dv, ?bad_De, ?bad_psc; cbn [rmap res_bind]; try reflexivity.
    - rewrite bad_Ne by auto. reflexivity.
    - rewrite bad_agg by auto. reflexivity.
    - rewrite bad_agg by auto. reflexivity.
    - rewrite bad_agg by auto. reflexivity.
    - rewrite bad_agg by (destruct a1; exact A). reflexivity.
  Qed.
End Bad.
(** once a group lists a hyperedge with a vertex outside the hypergraph, nothing that depends on its incidence matrix can be computed *)
Theorem C154_unknown_vertex_actual : forall (T : Type) (N : Num T) nv e w vw m ops (s : hypergraph T) g es ws e0 v0,
  h_reach nv e w vw m ops s -> m <> MOther -> Forall doc_op ops -> h_reports s (Some g) es ws -> In e0 es -> In v0 e0 -> v0 < 0 \/ nv <= v0 ->
  forall sc q0, sc = None \/ sc = Some g -> uses_H nv sc q0 -> snd (h_query q0 s) = Err RuntimeError.
Proof.
  intros T N nv e w vw m ops s g es ws e0 v0 H M D R I0 I1 B sc q0 SC U.
  destruct (h_reach_inv H M D) as (((W & _ & _ & _) & C & NV) & PN & _).
  pose proof (reports_scope C W R) as S. cbn [scope] in S. destruct (dget g (h_gr (st_raw s))) as [d|] eqn:E; [|discriminate]. injection S as <- <-.
  rewrite (@hans T N s None C) by (destruct q0; cbn in U; try contradiction; reflexivity).
  rewrite <- NV in *. eapply bad_query; eauto.
Qed.
(** adding such a hyperedge is accepted: every list of vertices is, whatever numbers it contains *)
Theorem C154_unknown_vertex_accepted : forall (T : Type) (N : Num T) nv e w vw m ops (s : hypergraph T) g x c,
  h_reach nv e w vw m ops s -> m <> MOther -> Forall doc_op ops -> x <> [] ->
  snd (h_step (HAdd (HOne x) (WNum c) MMean g) s) = Ok OUnit /\
  exists es ws x', h_reports (fst (h_step (HAdd (HOne x) (WNum c) MMean g) s)) (Some g) es ws /\ Permutation x x' /\ In x' es.
Proof.
  intros T N nv e w vw m ops s g x c H M D X. set (o := HAdd (HOne x) (WNum c) MMean g).
  assert (H' : h_reach nv e w vw m (ops ++ [o]) (fst (h_step o s))).
  { destruct H as (s0 & E & ->). exists s0. split; auto. clear. revert s0. induction ops as [|p l IH]; intros s0; cbn [h_run app].
    - cbn [fst]. destruct (h_step o s0). reflexivity.
    - destruct (h_step p s0) as [s1 y]. specialize (IH s1). destruct (h_run l s1), (h_run (l ++ [o]) s1). cbn in *. exact IH. }
  assert (D' : Forall doc_op (ops ++ [o])) by (apply Forall_app; split; auto; constructor; [discriminate|constructor]).
  split.
  { unfold o, h_step, unit_out, bind, h_add. destruct x as [|a l]; [contradiction|]. cbn [hformat length hweights].
    match goal with |- context [hadds ?a ?b ?c ?d] => destruct (@hadds_known T N a b c d) as (r' & ->); [discriminate|] end. reflexivity. }
  set (A := fold_left ah_step ops (ah_new nv e w vw m)).
  assert (AD : h_spec nv e w vw m (ops ++ [o]) = ah_add1 MMean g (x, c) A).
  { unfold h_spec. rewrite fold_left_app. fold A. cbn [fold_left]. unfold o, ah_step, ah_add, hpairs_of, hedges_of. destruct x; [contradiction|reflexivity]. }
  pose proof (C27_store H' M D') as F. cbv zeta in F. rewrite AD in F. destruct F as (_ & _ & _ & F). destruct (F g) as [_ F2].
  destruct F2 as (es & ws & E & _ & _ & _ & _ & L).
  { cbn [ah_add1 ah_names]. destruct (has_name g (ah_names A)) eqn:HN; [|apply in_or_app; right; left; auto]. unfold has_name in HN. apply existsb_exists in HN as (y & I & Y). unfold same_name in Y. destruct (string_dec g y) as [->|]; [exact I|discriminate]. }
  specialize (L x). cbn [ah_add1 ah_w fst snd] in L. assert (SN : same_name g g = true) by (unfold same_name; destruct (string_dec g g); congruence). rewrite SN in L.
  assert (SE : same_edge x x = true) by (apply same_edge_perm; reflexivity). unfold o. cbv zeta in L. rewrite SE in L. cbn [andb] in L.
  destruct (proj1 (L _) eq_refl) as (x' & P & I). exists es, ws, x'. split; [split; [exact E|discriminate]|]. split; [apply same_edge_perm; exact P|].
  apply in_combine_l in I. exact I.
Qed.
Theorem C154_unknown_vertex_refuted : exists s : hypergraph Qc,
  h_reach 3 (Some (HMany [[0; 1]; [1; 5]])) WNone None MMean [] s /\ snd (h_query (hqNumE None) s) = Ok (OZ 2) /\ snd (h_query (hqDegV None) s) = Err RuntimeError /\
  snd (h_query (hqH (Some "main")) s) = Err RuntimeError.
Proof. eexists. split; [eexists; split; reflexivity|]. repeat split; vm_compute; reflexivity. Qed.

(** * C155 (defect): a vertex written twice in a hyperedge counts twice *)
Section Twice.
  Context {T : Type} {N : Num T}.
  Hypothesis RT : ring_theory (@nz T N) n1 nadd nmul nsub nopp eq.
  Add Ring TRing22 : RT.
  Lemma inc_pick (es : list (list Z)) i (F : Z -> T) : 0 <= i < Z.of_nat (length es) ->
    sumf (inc_from 0 es) (fun k => if i =? snd k then F (fst k) else nz) = sumf (nthe es i) F.
  Proof.
    intros I. rewrite (sumf_inc RT).
    rewrite (sumf_ext _ _ (fun j => if eqb i j then sumf (nthe es j) F else nz)).
    - rewrite (@sumf_single _ _ RT _ EqB_Z _ i (fun j => sumf (nthe es j) F)); [reflexivity|apply range_nodup|apply range_In; lia].
    - intros j. cbn [fst snd]. rewrite Z.add_0_l. change (eqb i j) with (i =? j). destruct (i =? j); [reflexivity|]. apply (sumf_zero RT).
  Qed.
  Lemma gH_count (d : dict (list Z) T) v i : 0 <= i < Z.of_nat (length (dkeys d)) ->
    mget (gH d) v i = sumf (nthe (dkeys d) i) (fun x => if x =? v then n1 else nz).
  Proof.
    intros I. unfold gH. rewrite (mget_coalesce RT). unfold mget, ones_at. rewrite sumf_map. cbn [fst snd].
    rewrite <- (inc_pick (dkeys d) (fun x => if x =? v then n1 else nz) I). apply sumf_ext. intros [x j]. cbn [fst snd].
    destruct (eqb_spec (v, i) (x, j)) as [E|NE].
    - injection E as -> ->. rewrite !Z.eqb_refl. reflexivity.
    - destruct (Z.eqb_spec i j), (Z.eqb_spec x v); auto; congruence.
  Qed.
  Lemma gH_sizes (d : dict (list Z) T) i : 0 <= i < Z.of_nat (length (dkeys d)) -> rowsum (ctrans (gH d)) i = hcard (nthe (dkeys d) i).
  Proof.
    intros I. transitivity (colsum (gH d) i). { unfold rowsum, colsum, ctrans. rewrite sumf_map. reflexivity. }
    unfold gH. rewrite (colsum_coalesce RT). unfold colsum, ones_at, hcard. rewrite sumf_map. cbn [fst snd].
    rewrite <- (inc_pick (dkeys d) (fun _ => n1) I). reflexivity.
  Qed.
End Twice.
Theorem C155_repeated_vertex_actual : forall (T : Type) (N : Num T), ring_theory (@nz T N) n1 nadd nmul nsub nopp eq ->
  forall nv e w vw m ops (s : hypergraph T) g es ws,
  h_reach nv e w vw m ops s -> m <> MOther -> Forall doc_op ops -> h_reports s (Some g) es ws -> Forall (Forall (fun v => 0 <= v < nv)) es ->
  (exists Hm, snd (h_query (hqH (Some g)) s) = Ok (OM Hm) /\
     forall v i, 0 <= i < Z.of_nat (length es) -> mget Hm v i = sumf (nthe es i) (fun x => if x =? v then n1 else nz)) /\
  snd (h_query (hqDegE (Some g)) s) = Ok (OVals (map (fun x => sumf x (fun _ => n1)) es)).
Proof.
  intros T N RT nv e w vw m ops s g es ws H M D R F.
  destruct (h_reach_inv H M D) as (((W & _ & _ & _) & C & NV) & PN & _).
  pose proof (reports_scope C W R) as S. cbn [scope] in S. destruct (dget g (h_gr (st_raw s))) as [d|] eqn:E; [|discriminate]. injection S as <- <-.
  assert (FH : hp_H_g g (st_raw s) = Ok (gH d)).
  { unfold hp_H_g, p_group. rewrite E. unfold fetch_H. rewrite mk_sparse_ok; [rewrite combine_ones; reflexivity|].
    intros v i I. apply inc_from_In in I as [Ri I]. rewrite Z.sub_0_r in I. rewrite NV. rewrite Forall_forall in F.
    assert (IE : In (nthe (dkeys d) i) (dkeys d)) by (apply nthe_In; lia). specialize (F _ IE). rewrite Forall_forall in F. specialize (F _ I).
    unfold dkeys in Ri. rewrite map_length in Ri. split; [exact F|lia]. }
  rewrite !(@hans T N s None C) by reflexivity. cbn [hp_query hp_H hp_De]. split.
  - exists (gH d). rewrite FH. split; [reflexivity|]. intros v i I. apply gH_count; auto.
  - unfold hp_De_g, p_group. rewrite E. unfold hp_HT. cbn [hp_H]. rewrite FH. cbn [rmap res_bind]. rewrite diag_rowsum_eq, vals_diag. do 2 f_equal.
    rewrite <- dklen. transitivity (map (fun i => hcard (nthe (dkeys d) i)) (range (Z.of_nat (length (dkeys d))))).
    + apply map_ext_in. intros i I. apply range_In in I. apply (gH_sizes RT). exact I.
    + unfold nthe. apply (range_map_nth hcard).
Qed.
(** (0,0,1) is kept beside (0,1) as a hyperedge of size three, in which vertex 0 occurs with entry 2 *)
Theorem C155_repeated_vertex_refuted : exists s : hypergraph Qc,
  h_reach 2 (Some (HMany [[0; 1]; [0; 0; 1]])) WNone None MMean [] s /\
  snd (h_query (hqE (Some "main")) s) = Ok (OHE [[0; 1]; [0; 0; 1]] [q 1; q 1]) /\
  snd (h_query (hqDegE (Some "main")) s) = Ok (OVals [q 2; q 3]) /\ snd (h_query (hqDegV (Some "main")) s) = Ok (OVals [q 3; q 2]) /\
  exists Hm, snd (h_query (hqH (Some "main")) s) = Ok (OM Hm) /\ mget Hm 0 1 = q 2.
Proof.
  eexists. split; [eexists; split; reflexivity|]. split; [vm_compute; qceq|]. split; [vm_compute; qceq|]. split; [vm_compute; qceq|].
  eexists. split; [vm_compute; reflexivity|vm_compute; qceq].
Qed.
