(** Properties C164-C166: message passing with dropped connections, and Laplacian smoothing. *)
From Coq Require Import String Permutation Ring Reals Lra QArith Qcanon.
From Verif Require Import Num PyDict PyDictFacts Coo CooFacts MatFacts RealFacts ModelBase CacheFacts ModelGraph GraphFacts SpecGraph SpecGraphOps StoreFacts
  GraphStore RebuildFacts GraphMatrix GraphLaplace GraphReach SoftmaxFacts PropGraph ModelDiGraph SpecDiGraph DiGraphFacts DiGraphReach PropDiGraph
  ModelBiGraph SpecBiGraph BiGraphFacts BiGraphMatrix PropBiGraph ModelHyper HyperFacts SpecHyper HyperStore HyperView HyperMatrix HyperPass HyperReach
  HyperOps PropHyper DropFacts.
Set Implicit Arguments.
Local Open Scope string_scope.
Local Open Scope list_scope.
Local Open Scope Z_scope.
Local Notation q z := (Q2Qc (inject_Z z)).

(** * C164: every aggregation that is a matrix product loses exactly the dropped connections *)
Theorem C164_graph : forall (T : Type) (N : Num T), ring_theory (@nz T N) n1 nadd nmul nsub nopp eq ->
  forall nv e w ex m ops (s : graph T), g_reach nv e w ex m ops s -> nonneg_new e -> Forall nonneg_op ops ->
  drops nv nv (fun X keep => snd (g_query (QGcn X keep) s)) /\
  drops nv nv (fun X keep => snd (g_query (QV2v X AggrSum None keep) s)) /\
  drops nv nv (fun X keep => snd (g_query (QV2v X AggrMean None keep) s)) /\
  forall src cw, snd (g_query QEsrc s) = Ok (OIdx src) -> length cw = length src ->
    drops nv nv (fun X keep => snd (g_query (QV2v X AggrSum (Some cw) keep) s)).
Proof.
  intros T N RT nv e w ex m ops s H NE NO. apply reach_rel in H as (RR & C & NV & P).
  pose proof (spec_in_range nv e w ex m NE NO) as IR. split; [|split; [|split]].
  - destruct (query_Lgcn RT RR C NV P IR) as (L & _ & BX & QX & _). exact (drops_sum RT _ BX QX).
  - refine (drops_sum RT _ (A_boxed RR IR) _). intros X keep. rewrite (good_answer (good_query _) C). cbn [p_query]. unfold p_v2v; cbn [aggr_ok].
    rewrite (p_A_eq RR NV P IR). cbn [res_bind res_map]. rewrite NV. reflexivity.
  - refine (drops_mean RT (fun i => ninv (a_deg nv (g_spec nv e w ex m ops) i)) _ (A_boxed RR IR) _).
    intros X keep. rewrite (good_answer (good_query _) C). cbn [p_query]. unfold p_v2v; cbn [aggr_ok].
    rewrite (p_A_eq RR NV P IR). cbn [res_bind res_map]. rewrite (p_D1_deg RT RR NV P IR). cbn [res_map]. rewrite NV. reflexivity.
  - intros src cw. rewrite (good_answer (good_query QEsrc) C). cbn [p_query]. rewrite (p_A_eq RR NV P IR). cbn [res_map].
    set (A := coalesce (eb_coo (st_raw s) nv)). intros E LC. injection E as <-.
    assert (LA : length cw = length A) by (rewrite LC; unfold cols; apply map_length).
    assert (B : boxed nv nv (coalesce (with_vals A cw))).
    { intros i j I. rewrite coalesce_keys in I. rewrite with_vals_keys in I by exact LA. exact (A_boxed RR IR i j I). }
    refine (drops_sum RT _ B _). intros X keep. rewrite (good_answer (good_query _) C). cbn [p_query]. unfold p_v2v; cbn [aggr_ok].
    rewrite (p_A_eq RR NV P IR). fold A. cbn [res_bind]. rewrite LA, Nat.eqb_refl. cbn [res_map]. rewrite NV. reflexivity.
Qed.
Theorem C164_digraph : forall (T : Type) (N : Num T), ring_theory (@nz T N) n1 nadd nmul nsub nopp eq ->
  forall nv e w ex m ops (s : digraph T), d_reach nv e w ex m ops s -> reverse_safe nv true ops = true ->
  nonneg_new e -> Forall nonneg_dop ops -> forall dir : bool,
  drops nv nv (fun X keep => snd (d_query (dqV2v X AggrSum None (Some dir) keep) s)) /\
  drops nv nv (fun X keep => snd (d_query (dqV2v X AggrMean None (Some dir) keep) s)) /\
  forall src cw, snd (d_query dqSrc s) = Ok (OIdx src) -> length cw = length src ->
    drops nv nv (fun X keep => snd (d_query (dqV2v X AggrSum (Some cw) (Some dir) keep) s)).
Proof.
  intros T N RT nv e w ex m ops s H SF NE NO dir. destruct (dreach_rel H SF) as (RR & C & NV & P).
  pose proof (dspec_in_range nv e w ex m NE NO) as IR. split; [|split].
  - assert (B : boxed nv nv (if dir then dAT s else dA s)) by (destruct dir; [exact (dAT_boxed s RR NV IR)|exact (dA_boxed s RR NV IR)]).
    refine (drops_sum RT _ B _). intros X keep. rewrite (good_answer (dgood_query _) C). cbn [dp_query]. unfold q_v2v; cbn [aggr_ok].
    rewrite (q_A_eq s RR NV P IR), (q_AT_eq s RR NV P IR). destruct dir; cbn [res_bind res_map]; rewrite NV; reflexivity.
  - assert (B : boxed nv nv (if dir then dAT s else dA s)) by (destruct dir; [exact (dAT_boxed s RR NV IR)|exact (dA_boxed s RR NV IR)]).
    refine (drops_mean RT (fun i => ninv (if dir then in_deg (d_spec nv e w ex m ops) nv i else out_deg (d_spec nv e w ex m ops) nv i)) _ B _).
    intros X keep. rewrite (good_answer (dgood_query _) C). cbn [dp_query]. unfold q_v2v; cbn [aggr_ok].
    rewrite (q_A_eq s RR NV P IR), (q_AT_eq s RR NV P IR), (q_Din1_eq RT s RR NV P IR), (q_Dout1_eq RT s RR NV P IR).
    destruct dir; cbn [res_bind res_map]; rewrite NV; reflexivity.
  - intros src cw. rewrite (good_answer (dgood_query dqSrc) C). cbn [dp_query]. rewrite (q_A_eq s RR NV P IR). cbn [res_map].
    intros E LC. injection E as <-.
    assert (LA : length cw = length (dA s)) by (rewrite LC; unfold rows; apply map_length).
    assert (B : boxed nv nv (coalesce (if dir then ctrans (with_vals (dA s) cw) else with_vals (dA s) cw))).
    { intros i j I. rewrite coalesce_keys in I. destruct dir.
      - rewrite ctrans_keys in I. rewrite with_vals_keys in I by exact LA. apply (dA_boxed s RR NV IR) in I. tauto.
      - rewrite with_vals_keys in I by exact LA. exact (dA_boxed s RR NV IR i j I). }
    refine (drops_sum RT _ B _). intros X keep. rewrite (good_answer (dgood_query _) C). cbn [dp_query]. unfold q_v2v; cbn [aggr_ok].
    rewrite (q_A_eq s RR NV P IR). cbn [res_bind]. rewrite LA, Nat.eqb_refl. cbn [res_map]. rewrite NV. reflexivity.
Qed.
Theorem C164_bigraph : forall (T : Type) (N : Num T), ring_theory (@nz T N) n1 nadd nmul nsub nopp eq ->
  forall nu nv e w m ops (s : bigraph T), b_reach nu nv e w m ops s -> nonneg_new e -> Forall nonneg_bop ops ->
  (0 <= nu -> drops (nu + nv) (nu + nv) (fun X keep => snd (b_query (bqGcn X keep) s))) /\
  forall u2v : bool, let ni := if u2v then nv else nu in let nj := if u2v then nu else nv in
  drops ni nj (fun X keep => snd (b_query (bqPass u2v X AggrSum None keep) s)) /\
  drops ni nj (fun X keep => snd (b_query (bqPass u2v X AggrMean None keep) s)) /\
  forall eu cw, snd (b_query bqEu s) = Ok (OIdx eu) -> length cw = length eu ->
    drops ni nj (fun X keep => snd (b_query (bqPass u2v X AggrSum (Some cw) keep) s)).
Proof.
  intros T N RT nu nv e w m ops s H NE NO. destruct (breach_rel H) as (C & RR & NU & NV & P).
  pose proof (bspec_range nu nv e w m NE NO) as IR. split.
  { intros PU. destruct (bquery_L RT C RR NU NV IR PU ltac:(lia)) as (L & _ & BX & QX & _). exact (drops_sum RT _ BX QX). }
  intros u2v ni nj.
  assert (B : boxed ni nj (if u2v then bBT s else bB s)) by (unfold ni, nj; destruct u2v; [exact (bBT_boxed s RR IR)|exact (bB_boxed s RR IR)]).
  split; [|split].
  - refine (drops_sum RT _ B _). intros X keep. rewrite (good_answer (bgood_query _) C). cbn [bp_query]. unfold bp_pass; cbn [aggr_ok].
    rewrite (bp_B_eq s RR NU NV IR), (bp_BT_eq s RR NU NV IR). unfold ni. destruct u2v; cbn [res_bind res_map]; rewrite ?NU, ?NV; reflexivity.
  - refine (drops_mean RT (fun i => ninv (if u2v then deg_v (b_spec nu nv e w m ops) nu i else deg_u (b_spec nu nv e w m ops) nv i)) _ B _).
    intros X keep. rewrite (good_answer (bgood_query _) C). cbn [bp_query]. unfold bp_pass; cbn [aggr_ok].
    rewrite (bp_B_eq s RR NU NV IR), (bp_BT_eq s RR NU NV IR), (bp_Du1_eq RT s RR NU NV IR), (bp_Dv1_eq RT s RR NU NV IR).
    unfold ni. destruct u2v; cbn [res_bind res_map]; rewrite ?NU, ?NV; reflexivity.
  - intros eu cw. rewrite (good_answer (bgood_query bqEu) C). cbn [bp_query]. rewrite (bp_B_eq s RR NU NV IR). cbn [res_map].
    intros E LC. injection E as <-.
    assert (LA : length cw = length (bB s)) by (rewrite LC; unfold rows; apply map_length).
    assert (B' : boxed ni nj (coalesce (if u2v then ctrans (with_vals (bB s) cw) else with_vals (bB s) cw))).
    { intros i j I. rewrite coalesce_keys in I. unfold ni, nj. destruct u2v.
      - rewrite ctrans_keys in I. rewrite with_vals_keys in I by exact LA. apply (bB_boxed s RR IR) in I. tauto.
      - rewrite with_vals_keys in I by exact LA. exact (bB_boxed s RR IR i j I). }
    refine (drops_sum RT _ B' _). intros X keep. rewrite (good_answer (bgood_query _) C). cbn [bp_query]. unfold bp_pass; cbn [aggr_ok].
    rewrite (bp_B_eq s RR NU NV IR). cbn [res_bind]. rewrite LA, Nat.eqb_refl. unfold ni. cbn [res_map]. rewrite NU, NV. reflexivity.
Qed.
Theorem C164_hypergraph : forall (T : Type) (N : Num T), ring_theory (@nz T N) n1 nadd nmul nsub nopp eq ->
  forall nv e w vw m ops (s : hypergraph T) sc es ws, h_clean_reach nv e w vw m ops s -> h_reports s sc es ws ->
  let ne := Z.of_nat (length es) in
  drops nv nv (fun X keep => snd (h_query (hqHgnn sc X keep) s)) /\
  drops ne nv (fun X keep => snd (h_query (hqV2eAgg sc X AggrSum None keep) s)) /\
  drops ne nv (fun X keep => snd (h_query (hqV2eAgg sc X AggrMean None keep) s)) /\
  drops nv ne (fun X keep => snd (h_query (hqE2v sc X AggrSum None keep) s)) /\
  drops nv ne (fun X keep => snd (h_query (hqE2v sc X AggrMean None keep) s)) /\
  forall src cw, snd (h_query (hqV2eSrc sc) s) = Ok (OIdx src) -> length cw = length src ->
    drops ne nv (fun X keep => snd (h_query (hqV2eAgg sc X AggrSum (Some cw) keep) s)) /\
    drops nv ne (fun X keep => snd (h_query (hqE2v sc X AggrSum (Some cw) keep) s)).
Proof.
  intros T N RT nv e w vw m ops s sc es ws H RP ne. destruct (clean_state H RP) as (C & W & K & NV & S). subst nv.
  destruct (hview_scope sc W K S) as (Hm & V).
  assert (B : boxed (h_nv (st_raw s)) ne Hm) by exact (V_boxed V).
  assert (BT : boxed ne (h_nv (st_raw s)) (ctrans Hm)) by (intros i j I; rewrite ctrans_keys in I; apply B in I; tauto).
  split; [|split; [|split; [|split; [|split]]]].
  - destruct (hquery_L RT C W K sc S) as (L & _ & _ & _ & _ & _ & BX & _ & _ & QX & _). exact (drops_sum RT _ BX QX).
  - refine (drops_sum RT _ BT _). intros X keep. rewrite (hans C) by reflexivity. cbn [hp_query].
    unfold hp_v2e_agg. rewrite !(hv_psc V), (V_HT V), (hv_ne V). reflexivity.
  - refine (drops_mean RT (fun i => ninv (hcard (nthe es i))) _ BT _). intros X keep. rewrite (hans C) by reflexivity. cbn [hp_query].
    unfold hp_v2e_agg. rewrite !(hv_psc V), (V_HT V), (hp_De1_eq RT s W K sc S), (hv_ne V). reflexivity.
  - refine (drops_sum RT _ B _). intros X keep. rewrite (hans C) by reflexivity. cbn [hp_query].
    unfold hp_e2v, hp_e2v_agg. rewrite !(hv_psc V), (hv_H V). reflexivity.
  - refine (drops_mean RT (fun i => ninv (hdeg es ws i)) _ B _). intros X keep. rewrite (hans C) by reflexivity. cbn [hp_query].
    unfold hp_e2v, hp_e2v_agg. rewrite !(hv_psc V), (hv_H V), (hp_Dv1_eq RT s W K sc S). reflexivity.
  - intros src cw. rewrite (hans C) by reflexivity. cbn [hp_query]. rewrite (V_HT V). cbn [rmap]. intros E LC. injection E as <-.
    assert (LT : length cw = length (ctrans Hm)) by (rewrite LC; unfold cols; apply map_length).
    assert (LH : length cw = length Hm) by (rewrite LT; unfold ctrans; apply map_length).
    split.
    + assert (B' : boxed ne (h_nv (st_raw s)) (with_vals (ctrans Hm) cw)) by (intros i j I; rewrite with_vals_keys in I by exact LT; exact (BT i j I)).
      refine (drops_sum RT _ B' _). intros X keep. rewrite (hans C) by reflexivity. cbn [hp_query].
      unfold hp_v2e_agg. rewrite !(hv_psc V), (V_HT V), (hv_ne V). unfold p_aggregate; cbn [aggr_ok res_bind]. rewrite LT, Nat.eqb_refl. reflexivity.
    + assert (B' : boxed (h_nv (st_raw s)) ne (with_vals Hm cw)) by (intros i j I; rewrite with_vals_keys in I by exact LH; exact (B i j I)).
      refine (drops_sum RT _ B' _). intros X keep. rewrite (hans C) by reflexivity. cbn [hp_query].
      unfold hp_e2v, hp_e2v_agg. rewrite !(hv_psc V), (hv_H V). unfold p_aggregate; cbn [aggr_ok res_bind]. rewrite LH, Nat.eqb_refl. reflexivity.
Qed.

(** what one receiver gets depends on its own connections only: with everything dropped it gets 0, with nothing
    dropped it gets the result without dropping *)
Theorem C164_extremes : forall (T : Type) (N : Num T), ring_theory (@nz T N) n1 nadd nmul nsub nopp eq ->
  forall n k (run : (Z -> T) -> option (nat -> bool) -> res (out T)), drops n k run -> forall X,
  run X (Some (fun _ => true)) = run X None /\ run X (Some (fun _ => false)) = Ok (OVals (map (fun _ => nz) (range n))).
Proof.
  intros T N RT n k run (M & pos & E1 & E2 & _) X. rewrite E1, !E2. split; [reflexivity|]. do 2 f_equal. apply map_ext. intros i.
  apply (sumf_zero_in RT). intros j _. apply (nz_mul RT).
Qed.
Definition ex_keep (i : nat) : bool := negb (Nat.eqb i 1).
(** the triangle 0-1-2 with weights 1, 2, 3: the stored entries are (0,1), (0,2), (1,0), (1,2), (2,0), (2,1);
    dropping number 1 takes (0,2) out and leaves (2,0) *)
Example C164_case : exists s : graph Qc, g_reach 3 (Some (EMany [(0, 1); (0, 2); (1, 2)])) (WList [q 1; q 2; q 3]) false MMean [] s /\
  nonneg_new (Some (EMany [(0, 1); (0, 2); (1, 2)])) /\
  snd (g_query (QV2v (fun _ => q 1) AggrSum None None) s) = Ok (OVals [q 3; q 4; q 5]) /\
  snd (g_query (QV2v (fun _ => q 1) AggrSum None (Some ex_keep)) s) = Ok (OVals [q 1; q 4; q 5]).
Proof.
  eexists. split; [eexists; split; reflexivity|]. split; [repeat (constructor; cbn; try lia)|]. split; vm_compute; qceq.
Qed.

(** * C165: Laplacian smoothing *)
Lemma query_L_boxed (T : Type) (N : Num T) (RT : ring_theory (@nz T N) n1 nadd nmul nsub nopp eq)
    (s : graph T) g nv (RR : grel (st_raw s) g) (C : coh gspec s) (NV : r_nv (st_raw s) = nv) (P : 0 < nv) (IR : in_range nv g) L :
  snd (g_query QL s) = Ok (OM L) -> boxed nv nv L.
Proof.
  rewrite (good_answer (good_query QL) C). cbn [p_query]. unfold p_L.
  rewrite (p_D_deg RT (strip_rel RR) NV P (strip_in_range IR)).
  rewrite (p_A_eq (strip_rel RR) NV P (strip_in_range IR)). cbn [res_map res_bind]. intros E. injection E as <-.
  unfold csub. apply boxed_coalesce, boxed_app; [apply boxed_diag|apply boxed_cmap, (A_boxed (strip_rel RR) (strip_in_range IR))].
Qed.
Section Smooth.
  Context {T : Type} `{N : Num T}.
  Context (RT : ring_theory (@nz T N) n1 nadd nmul nsub nopp eq).
  Add Ring TRing24 : RT.
  (** the edges of the graph as a weight for every pair of different vertices *)
  Definition link (g : agraph T) (i j : Z) : T := if i =? j then nz else wt (aw g i j).
  Theorem C165_smoothing : forall nv e w ex m ops (s : graph T), g_reach nv e w ex m ops s -> nonneg_new e -> Forall nonneg_op ops ->
    let g := g_spec nv e w ex m ops in
    exists L, snd (g_query QL s) = Ok (OM L) /\
    (forall X lamb i, 0 <= i < nv ->
       smoothing X L lamb i = nadd (X i) (nmul lamb (sumf (range nv) (fun j => nmul (link g i j) (nsub (X i) (X j)))))) /\
    (forall X lamb, sumf (range nv) (smoothing X L lamb) = sumf (range nv) X) /\
    (forall c lamb i, 0 <= i < nv -> smoothing (fun _ => c) L lamb i = c) /\
    (forall X i, smoothing X L nz i = X i).
  Proof.
    intros nv e w ex m ops s H NE NO g. destruct (@C04_entries T N RT nv e w ex m ops s H NE NO) as (L & EL & EN).
    apply reach_rel in H as (RR & C & NV & P). pose proof (spec_in_range nv e w ex m NE NO) as IR. cbv zeta in EN. fold g in RR, EN, IR.
    pose proof (query_L_boxed RT RR C NV P IR EL) as B. exists L. split; [exact EL|].
    assert (SF : forall X lamb i, 0 <= i < nv ->
       smoothing X L lamb i = nadd (X i) (nmul lamb (sumf (range nv) (fun j => nmul (link g i j) (nsub (X i) (X j)))))).
    { intros X lamb i I. unfold smoothing. do 2 f_equal.
      rewrite (@spmv_dense T N RT (range nv)) by (apply range_nodup || (eapply boxed_cols; exact B)).
      set (D := sumf (range nv) (fun k => if i =? k then nz else wt (aw g i k))) in *.
      transitivity (nsub (sumf (range nv) (fun j => if i =? j then nmul D (X i) else nz)) (sumf (range nv) (fun j => nmul (link g i j) (X j)))).
      - rewrite <- (sumf_sub RT). apply sumf_ext_in. intros j J. apply range_In in J. rewrite (EN i j I J). fold D. unfold link.
        destruct (Z.eqb_spec i j) as [<-|NJ]; ring.
      - rewrite (@sumf_single _ _ RT _ EqB_Z _ i (fun _ => nmul D (X i))) by (apply range_nodup || (apply range_In; exact I)).
        unfold D. rewrite <- (sumf_mul_r RT), <- (sumf_sub RT). apply sumf_ext. intros j. unfold link. ring. }
    split; [exact SF|]. split; [|split].
    - intros X lamb.
      transitivity (nadd (sumf (range nv) X) (nmul lamb (sumf (range nv) (fun i => sumf (range nv) (fun j => nmul (link g i j) (nsub (X i) (X j))))))).
      + rewrite <- (sumf_mul_l RT), <- (sumf_add RT). apply sumf_ext_in. intros i I. apply range_In in I. apply SF, I.
      + assert (E0 : sumf (range nv) (fun i => sumf (range nv) (fun j => nmul (link g i j) (nsub (X i) (X j)))) = nz); [|rewrite E0; ring].
        transitivity (nsub (sumf (range nv) (fun i => sumf (range nv) (fun j => nmul (link g i j) (X i))))
                           (sumf (range nv) (fun i => sumf (range nv) (fun j => nmul (link g i j) (X j))))).
        { rewrite <- (sumf_sub RT). apply sumf_ext. intros i. rewrite <- (sumf_sub RT). apply sumf_ext. intros j. ring. }
        rewrite (sumf_swap RT).
        assert (ES : sumf (range nv) (fun b => sumf (range nv) (fun a => nmul (link g a b) (X a))) = sumf (range nv) (fun i => sumf (range nv) (fun j => nmul (link g i j) (X j)))); [|rewrite ES; ring].
        apply sumf_ext. intros i. apply sumf_ext. intros j. unfold link. rewrite (Z.eqb_sym j i), (@grel_sym T (st_raw s) g j i RR). reflexivity.
    - intros c lamb i I. rewrite SF by exact I. assert (E0 : sumf (range nv) (fun j => nmul (link g i j) (nsub c c)) = nz); [|rewrite E0; ring].
      apply (sumf_zero_in RT). intros j _. ring.
    - intros X i. unfold smoothing. ring.
  Qed.

  (** the sum over the edges of weight * (difference)^2 *)
  Definition roughness (es : list (Z * Z)) (ws : list T) (x : Z -> T) : T :=
    sumf (combine es ws) (fun kv => nmul (snd kv)
        (nmul (nsub (x (fst (fst kv))) (x (snd (fst kv)))) (nsub (x (fst (fst kv))) (x (snd (fst kv)))))).
  Lemma smoothing_roughness nv e w ex m ops (s : graph T) : g_reach nv e w ex m ops s -> nonneg_new e -> Forall nonneg_op ops ->
    exists L es ws, snd (g_query QL s) = Ok (OM L) /\ snd (g_query QE s) = Ok (OE es ws) /\
    forall X lamb, roughness es ws (smoothing X L lamb) =
      nadd (roughness es ws X) (nadd (nmul (nadd lamb lamb) (sumf (range nv) (fun i => nmul (spmv L X i) (spmv L X i))))
                                     (nmul (nmul lamb lamb) (roughness es ws (spmv L X)))).
  Proof.
    intros H NE NO. destruct (@C04_laplacian T N RT nv e w ex m ops s H NE NO) as (L & es & ws & EL & EE & _ & EN).
    destruct (@C04_entries T N RT nv e w ex m ops s H NE NO) as (L' & EL' & ENT). rewrite EL in EL'. injection EL' as <-. cbv zeta in ENT.
    apply reach_rel in H as (RR & C & NV & P). pose proof (spec_in_range nv e w ex m NE NO) as IR.
    pose proof (query_L_boxed RT RR C NV P IR EL) as B.
    assert (S : forall i j, 0 <= i < nv -> 0 <= j < nv -> mget L i j = mget L j i).
    { intros i j I J. rewrite (ENT i j I J), (ENT j i J I), (Z.eqb_sym j i), (@grel_sym T (st_raw s) _ i j RR). destruct (Z.eqb_spec i j) as [->|]; reflexivity. }
    exists L, es, ws. split; [exact EL|]. split; [exact EE|]. intros X lamb. unfold roughness. rewrite <- !EN.
    change (qf nv L (smoothing X L lamb) (smoothing X L lamb) = nadd (qf nv L X X)
      (nadd (nmul (nadd lamb lamb) (sumf (range nv) (fun i => nmul (spmv L X i) (spmv L X i)))) (nmul (nmul lamb lamb) (qf nv L (spmv L X) (spmv L X))))).
    rewrite <- (qf_spmv RT (spmv L X) X B). exact (qf_lin RT L X (spmv L X) lamb S).
  Qed.
End Smooth.

(** a non-negative strength makes the features of adjacent vertices differ at least as much as before, and strictly more
    whenever it changes anything *)
Theorem C167_smoothing_actual : forall nv e w ex m ops (s : graph R) es ws, g_reach nv e w ex m ops s -> nonneg_new e -> Forall nonneg_op ops ->
  snd (g_query QE s) = Ok (OE es ws) -> Forall (fun c => 0 <= c)%R ws ->
  exists L, snd (g_query QL s) = Ok (OM L) /\ forall X lamb, (0 <= lamb)%R ->
    (roughness es ws X <= roughness es ws (smoothing X L lamb))%R /\
    ((exists i, 0 <= i < nv /\ smoothing X L lamb i <> X i) -> (roughness es ws X < roughness es ws (smoothing X L lamb))%R).
Proof.
  intros nv e w ex m ops s es ws H NE NO EE NN. destruct (smoothing_roughness RT H NE NO) as (L & es' & ws' & EL & EE' & RO).
  rewrite EE in EE'. injection EE' as <- <-. exists L. split; [exact EL|]. intros X lamb LP. rewrite RO.
  assert (RN : forall x, (0 <= roughness es ws x)%R).
  { intros x. unfold roughness. apply Rsum_nonneg. intros [k c] I. cbn [fst snd]. apply in_combine_r in I. rewrite Forall_forall in NN. specialize (NN c I).
    change (0 <= c * ((x (fst k) - x (snd k)) * (x (fst k) - x (snd k))))%R. apply Rmult_le_pos; [exact NN|exact (Rle_0_sqr (x (fst k) - x (snd k)))]. }
  set (Q := sumf (range nv) (fun i => (spmv L X i * spmv L X i)%R)).
  assert (QN : (0 <= Q)%R) by (apply Rsum_nonneg; intros i _; change (0 <= spmv L X i * spmv L X i)%R; nra).
  pose proof (RN (spmv L X)) as R2. split.
  - change (roughness es ws X <= roughness es ws X + ((lamb + lamb) * Q + lamb * lamb * roughness es ws (spmv L X)))%R. nra.
  - intros (i & I & NE0).
    change (roughness es ws X < roughness es ws X + ((lamb + lamb) * Q + lamb * lamb * roughness es ws (spmv L X)))%R.
    change (X i + lamb * spmv L X i <> X i)%R in NE0.
    assert (LP' : (0 < lamb)%R) by (destruct LP as [|<-]; [assumption|exfalso; apply NE0; lra]).
    assert (Q' : (0 < Q)%R).
    { apply (Rsum_pos (range nv) (fun i => spmv L X i * spmv L X i)%R i); [intros; nra|apply range_In; exact I|].
      assert (spmv L X i <> 0)%R by (intros E; apply NE0; rewrite E; lra). nra. }
    assert (0 < (lamb + lamb) * Q)%R by nra. assert (0 <= lamb * lamb * roughness es ws (spmv L X))%R by (apply Rmult_le_pos; [nra|exact R2]). lra.
Qed.
(** two adjacent vertices with features 0 and 1: after smoothing with strength 1 they are 3 apart instead of 1 *)
Example C167_case : exists (s : graph R) L, g_reach 2 (Some (EOne 0 1)) WNone false MMean [] s /\ nonneg_new (Some (EOne 0 1)) /\
  snd (g_query QE s) = Ok (OE [(0, 1)] [1%R]) /\ snd (g_query QL s) = Ok (OM L) /\
  smoothing IZR L 1%R 0 = (-1)%R /\ smoothing IZR L 1%R 1 = 2%R.
Proof.
  eexists _, _. split; [eexists; split; reflexivity|]. split; [repeat (constructor; cbn; try lia)|].
  split; [reflexivity|]. split; [reflexivity|]. split; cbv -[Rplus Rmult Ropp Rminus IZR]; lra.
Qed.
Example C165_case : exists (s : graph Qc) L, g_reach 3 (Some (EMany [(0, 1); (0, 2); (1, 2)])) (WList [q 1; q 2; q 3]) false MMean [] s /\
  nonneg_new (Some (EMany [(0, 1); (0, 2); (1, 2)])) /\ snd (g_query QL s) = Ok (OM L) /\
  map (smoothing (fun i => q i) L (q 10)) (range 3) = [q (-50); q (-19); q 72].
Proof.
  eexists _, _. split; [eexists; split; reflexivity|]. split; [repeat (constructor; cbn; try lia)|]. split; [reflexivity|]. vm_compute. qceq.
Qed.

(** * C166: softmax aggregation with dropped connections *)
Lemma coalesce_cdrop (T : Type) (N : Num T) keep (m : coo T) : coalesce (cdrop keep nz m) = cdrop keep nz m.
Proof. apply coalesce_id. unfold sorted_keys, cdrop. rewrite cdrop_from_keys. apply coalesce_sorted. Qed.

Theorem C166_graph_actual : forall nv e w ex m ops (s : graph R) src dst cw,
  g_reach nv e w ex m ops s -> nonneg_new e -> Forall nonneg_op ops ->
  snd (g_query QEsrc s) = Ok (OIdx src) -> snd (g_query QEdst s) = Ok (OIdx dst) -> length cw = length src ->
  let g := g_spec nv e w ex m ops in
  softmax_drops nv nv (fun i j => a_edge g i j /\ 0 <= i < nv /\ 0 <= j < nv) (mget (combine (combine dst src) cw))
    (fun X keep => snd (g_query (QV2v X AggrSoftmax (Some cw) keep) s)).
Proof.
  intros nv e w ex m ops s src dst cw H NE NO E1 E2 L g. apply reach_rel in H as (RR & C & NV & P).
  pose proof (spec_in_range nv e w ex m NE NO) as IR. fold g in IR, RR. revert E1 E2.
  rewrite (good_answer (good_query QEsrc) C), (good_answer (good_query QEdst) C). cbn [p_query].
  rewrite (p_A_eq RR NV P IR). cbn [res_map]. set (A := coalesce (eb_coo (st_raw s) nv)).
  intros E1 E2. injection E1 as <-. injection E2 as <-.
  assert (LA : length cw = length A) by (rewrite L; unfold cols; apply map_length).
  assert (KA : forall i j, In (i, j) (map fst (coalesce (with_vals A cw))) <-> a_edge g i j /\ 0 <= i < nv /\ 0 <= j < nv).
  { intros i j. rewrite coalesce_keys, with_vals_keys by exact LA. exact (A_keys RR IR i j). }
  apply softmax_drops_intro with (m := coalesce (with_vals A cw)); auto.
  - intros i j I. apply KA in I. tauto.
  - intros i j I. rewrite (mget_coalesce RT). unfold with_vals. rewrite (keys_rows_cols A). reflexivity.
  - intros X keep. rewrite (good_answer (good_query _) C). cbn [p_query]. unfold p_v2v; cbn [aggr_ok].
    rewrite (p_A_eq RR NV P IR). fold A. cbn [res_bind]. rewrite LA, Nat.eqb_refl. cbn [res_map cdrop_opt]. rewrite NV. reflexivity.
Qed.
Theorem C166_digraph_actual : forall nv e w ex m ops (s : digraph R), d_reach nv e w ex m ops s -> reverse_safe nv true ops = true ->
  nonneg_new e -> Forall nonneg_dop ops ->
  let g := d_spec nv e w ex m ops in
  forall dir : bool, let E i j := (if dir then a_edge g j i else a_edge g i j) /\ 0 <= i < nv /\ 0 <= j < nv in
  softmax_drops nv nv E (fun i j => a_adj g (if dir then j else i) (if dir then i else j))
    (fun X keep => snd (d_query (dqV2v X AggrSoftmax None (Some dir) keep) s)) /\
  forall cw src dst, snd (d_query dqSrc s) = Ok (OIdx src) -> snd (d_query dqDst s) = Ok (OIdx dst) -> length cw = length src ->
    softmax_drops nv nv E (fun i j => mget (combine (combine src dst) cw) (if dir then j else i) (if dir then i else j))
      (fun X keep => snd (d_query (dqV2v X AggrSoftmax (Some cw) (Some dir) keep) s)).
Proof.
  intros nv e w ex m ops s H SF NE NO g dir E. destruct (dreach_rel H SF) as (RR & C & NV & P).
  pose proof (dspec_in_range nv e w ex m NE NO) as IR. fold g in IR, RR. split.
  - assert (K : forall i j, In (i, j) (map fst (if dir then dAT s else dA s)) <-> E i j)
      by (intros i j; unfold E; destruct dir; [apply (dAT_keys s RR NV IR)|apply (dA_keys s RR NV IR)]).
    apply softmax_drops_intro with (m := if dir then dAT s else dA s); auto.
    + intros i j I. apply K in I. unfold E in I. tauto.
    + intros i j I. unfold E in I. destruct dir; [apply (mget_dAT RT s RR NV)|apply (mget_dA RT s RR NV)]; tauto.
    + intros X keep. rewrite (good_answer (dgood_query _) C). cbn [dp_query]. unfold q_v2v; cbn [aggr_ok].
      rewrite (q_A_eq s RR NV P IR), (q_AT_eq s RR NV P IR). destruct dir; cbn [res_bind res_map cdrop_opt]; rewrite NV; reflexivity.
  - intros cw src dst E1 E2 L. revert E1 E2.
    rewrite (good_answer (dgood_query dqSrc) C), (good_answer (dgood_query dqDst) C). cbn [dp_query].
    rewrite (q_A_eq s RR NV P IR). cbn [res_map]. intros E1 E2. injection E1 as <-. injection E2 as <-.
    assert (LA : length cw = length (dA s)) by (rewrite L; unfold rows; apply map_length).
    set (Pm := coalesce (if dir then ctrans (with_vals (dA s) cw) else with_vals (dA s) cw)).
    assert (K : forall i j, In (i, j) (map fst Pm) <-> E i j).
    { intros i j. unfold Pm, E. rewrite coalesce_keys. destruct dir; [rewrite ctrans_keys|]; rewrite with_vals_keys by exact LA;
        rewrite (dA_keys s RR NV IR); tauto. }
    apply softmax_drops_intro with (m := Pm); auto.
    + intros i j I. apply K in I. unfold E in I. tauto.
    + intros i j _. unfold Pm. rewrite (mget_coalesce RT). unfold with_vals. rewrite (keys_rows_cols (dA s)).
      destruct dir; [rewrite mget_ctrans|]; reflexivity.
    + intros X keep. rewrite (good_answer (dgood_query _) C). cbn [dp_query]. unfold q_v2v; cbn [aggr_ok].
      rewrite (q_A_eq s RR NV P IR). cbn [res_bind]. rewrite LA, Nat.eqb_refl. cbn [res_map cdrop_opt]. rewrite NV. reflexivity.
Qed.
Theorem C166_bigraph_actual : forall nu nv e w m ops (s : bigraph R), b_reach nu nv e w m ops s -> nonneg_new e -> Forall nonneg_bop ops ->
  let g := b_spec nu nv e w m ops in
  forall u2v : bool, let ni := if u2v then nv else nu in let nj := if u2v then nu else nv in
  let E i j := (if u2v then g j i else g i j) <> None in
  softmax_drops ni nj E (fun i j => wt (if u2v then g j i else g i j)) (fun X keep => snd (b_query (bqPass u2v X AggrSoftmax None keep) s)) /\
  forall cw eu ev, snd (b_query bqEu s) = Ok (OIdx eu) -> snd (b_query bqEv s) = Ok (OIdx ev) -> length cw = length eu ->
    softmax_drops ni nj E (fun i j => mget (combine (combine eu ev) cw) (if u2v then j else i) (if u2v then i else j))
      (fun X keep => snd (b_query (bqPass u2v X AggrSoftmax (Some cw) keep) s)).
Proof.
  intros nu nv e w m ops s H NE NO g u2v ni nj E. destruct (breach_rel H) as (C & RR & NU & NV & P).
  pose proof (bspec_range nu nv e w m NE NO) as IR. fold g in IR, RR. split.
  - assert (K : forall i j, In (i, j) (map fst (if u2v then bBT s else bB s)) <-> E i j)
      by (intros i j; unfold E; destruct u2v; [apply (bBT_keys s RR)|apply (bB_keys s RR)]).
    apply softmax_drops_intro with (m := if u2v then bBT s else bB s); auto.
    + unfold ni, nj; destruct u2v; [exact (bBT_boxed s RR IR)|exact (bB_boxed s RR IR)].
    + intros i j _. destruct u2v; [apply (mget_bBT RT s RR)|apply (mget_bB RT s RR)].
    + intros X keep. rewrite (good_answer (bgood_query _) C). cbn [bp_query]. unfold bp_pass; cbn [aggr_ok].
      rewrite (bp_B_eq s RR NU NV IR), (bp_BT_eq s RR NU NV IR). unfold ni. destruct u2v; cbn [res_bind res_map cdrop_opt]; rewrite ?NU, ?NV; reflexivity.
  - intros cw eu ev E1 E2 L. revert E1 E2.
    rewrite (good_answer (bgood_query bqEu) C), (good_answer (bgood_query bqEv) C). cbn [bp_query].
    rewrite (bp_B_eq s RR NU NV IR). cbn [res_map]. intros E1 E2. injection E1 as <-. injection E2 as <-.
    assert (LA : length cw = length (bB s)) by (rewrite L; unfold rows; apply map_length).
    set (Pm := coalesce (if u2v then ctrans (with_vals (bB s) cw) else with_vals (bB s) cw)).
    assert (K : forall i j, In (i, j) (map fst Pm) <-> E i j).
    { intros i j. unfold Pm, E. rewrite coalesce_keys. destruct u2v; [rewrite ctrans_keys|]; rewrite with_vals_keys by exact LA;
        apply (bB_keys s RR). }
    apply softmax_drops_intro with (m := Pm); auto.
    + intros i j I. apply K in I. unfold E in I. unfold ni, nj. destruct u2v; apply IR in I; tauto.
    + intros i j _. unfold Pm. rewrite (mget_coalesce RT). unfold with_vals. rewrite (keys_rows_cols (bB s)).
      destruct u2v; [rewrite mget_ctrans|]; reflexivity.
    + intros X keep. rewrite (good_answer (bgood_query _) C). cbn [bp_query]. unfold bp_pass; cbn [aggr_ok].
      rewrite (bp_B_eq s RR NU NV IR). cbn [res_bind]. rewrite LA, Nat.eqb_refl. unfold ni. cbn [res_map cdrop_opt]. rewrite NU, NV. reflexivity.
Qed.
Theorem C166_hypergraph_actual : forall nv e w vw m ops (s : hypergraph R) sc es ws, h_clean_reach nv e w vw m ops s -> h_reports s sc es ws ->
  let ne := Z.of_nat (length es) in let E v i := 0 <= i < ne /\ In v (nthe es i) in
  softmax_drops ne nv (fun i v => E v i) (fun _ _ => 1%R) (fun X keep => snd (h_query (hqV2eAgg sc X AggrSoftmax None keep) s)) /\
  softmax_drops nv ne E (fun _ _ => 1%R) (fun X keep => snd (h_query (hqE2v sc X AggrSoftmax None keep) s)) /\
  forall src dst cw, snd (h_query (hqV2eSrc sc) s) = Ok (OIdx src) -> snd (h_query (hqV2eDst sc) s) = Ok (OIdx dst) -> length cw = length src ->
    softmax_drops ne nv (fun i v => E v i) (mget (combine (combine dst src) cw)) (fun X keep => snd (h_query (hqV2eAgg sc X AggrSoftmax (Some cw) keep) s)) /\
    softmax_drops nv ne E (mget (combine (combine src dst) cw)) (fun X keep => snd (h_query (hqE2v sc X AggrSoftmax (Some cw) keep) s)).
Proof.
  intros nv e w vw m ops s sc es ws H RP ne E. destruct (clean_state H RP) as (C & W & K & NV & S). subst nv.
  destruct (hview_scope sc W K S) as (Hm & V).
  assert (B : boxed (h_nv (st_raw s)) ne Hm) by exact (V_boxed V).
  assert (BT : boxed ne (h_nv (st_raw s)) (ctrans Hm)) by exact (V_boxedT V).
  assert (KH : forall v i, In (v, i) (map fst Hm) <-> E v i) by exact (V_keys V).
  assert (KT : forall i v, In (i, v) (map fst (ctrans Hm)) <-> E v i) by (intros i v; rewrite ctrans_keys; apply KH).
  assert (ONE : forall v i, E v i -> mget Hm v i = 1%R).
  { intros v i I. destruct I as [[I1 I2] IV]. rewrite (V_mget RT V). fold ne.
    replace (0 <=? i) with true by (symmetry; apply Z.leb_le; exact I1). replace (i <? ne) with true by (symmetry; apply Z.ltb_lt; exact I2).
    replace (zmem v (nthe es i)) with true by (symmetry; apply zmem_In; exact IV). reflexivity. }
  split; [|split].
  - apply softmax_drops_intro with (m := ctrans Hm); auto.
    + intros i v I. rewrite mget_ctrans. apply ONE, I.
    + intros X keep. rewrite (hans C) by reflexivity. cbn [hp_query].
      unfold hp_v2e_agg. rewrite !(hv_psc V), (V_HT V), (hv_ne V). unfold p_aggregate; cbn [aggr_ok res_bind cdrop_opt rmap]. rewrite coalesce_cdrop. reflexivity.
  - apply softmax_drops_intro with (m := Hm); auto.
    intros X keep. rewrite (hans C) by reflexivity. cbn [hp_query].
    unfold hp_e2v, hp_e2v_agg. rewrite !(hv_psc V), (hv_H V). unfold p_aggregate; cbn [aggr_ok res_bind cdrop_opt rmap]. rewrite coalesce_cdrop. reflexivity.
  - intros src dst cw. rewrite !(hans C) by reflexivity. cbn [hp_query]. rewrite (V_HT V). cbn [rmap]. intros E1 E2 LC. injection E1 as <-. injection E2 as <-.
    assert (LT : length cw = length (ctrans Hm)) by (rewrite LC; unfold cols; apply map_length).
    assert (LH : length cw = length Hm) by (rewrite LT; unfold ctrans; apply map_length).
    split.
    + apply softmax_drops_intro with (m := with_vals (ctrans Hm) cw).
      * intros i j I. rewrite with_vals_keys in I by exact LT. exact (BT i j I).
      * intros i j. rewrite with_vals_keys by exact LT. apply KT.
      * intros i j _. unfold with_vals. rewrite (keys_rows_cols (ctrans Hm)). reflexivity.
      * intros X keep. rewrite (hans C) by reflexivity. cbn [hp_query].
        unfold hp_v2e_agg. rewrite !(hv_psc V), (V_HT V), (hv_ne V). unfold p_aggregate; cbn [aggr_ok res_bind cdrop_opt rmap]. rewrite LT, Nat.eqb_refl.
        cbn [rmap]. rewrite coalesce_cdrop. reflexivity.
    + apply softmax_drops_intro with (m := with_vals Hm cw).
      * intros i j I. rewrite with_vals_keys in I by exact LH. exact (B i j I).
      * intros i j. rewrite with_vals_keys by exact LH. apply KH.
      * intros i j _. unfold with_vals. rewrite <- (keys_rows_cols Hm). unfold rows, cols, ctrans. rewrite !map_map. reflexivity.
      * intros X keep. rewrite (hans C) by reflexivity. cbn [hp_query].
        unfold hp_e2v, hp_e2v_agg. rewrite !(hv_psc V), (hv_H V). unfold p_aggregate; cbn [aggr_ok res_bind cdrop_opt rmap]. rewrite LH, Nat.eqb_refl.
        cbn [rmap]. rewrite coalesce_cdrop. reflexivity.
Qed.
(** so a receiver whose only connection is dropped still gets the full value of that one sender, and in general the
    coefficients of a receiver sum to 1 whatever is dropped *)
Theorem C166_single_actual : forall n k E W run, softmax_drops n k E W run ->
  forall i j, 0 <= i < n -> 0 <= j < k -> E i j -> (forall l, E i l -> l = j) -> forall keep X,
  exists f, run X (Some keep) = Ok (OVals (map f (range n))) /\ f i = X j.
Proof.
  intros n k E W run (pos & _ & D) i j I J EJ U keep X. destruct (D keep) as (c & (_ & C0 & _ & C1) & Q). eexists. split; [apply Q|]. cbv beta.
  assert (CZ : forall l, l <> j -> c i l = 0%R) by (intros l NL; apply C0; intros EL; apply NL, U, EL).
  assert (SX : forall x : Z -> R, sumf (range k) (fun l => c i l * x l)%R = (c i j * x j)%R).
  { intros x. rewrite <- (@sumf_single _ _ RT _ EqB_Z (range k) j (fun l => c i l * x l)%R) by (apply range_nodup || (apply range_In; exact J)).
    apply sumf_ext. intros l. change (@eqb Z _) with Z.eqb. destruct (Z.eqb_spec j l) as [->|NL]; [reflexivity|]. rewrite CZ by congruence.
    change (0 * x l = 0)%R. lra. }
  specialize (C1 i (ex_intro _ j EJ)). rewrite SX. specialize (SX (fun _ => 1%R)).
  assert (c i j = 1)%R; [|rewrite H; lra].
  rewrite <- C1. rewrite <- (Rmult_1_r (c i j)), <- SX. apply sumf_ext. intros l. lra.
Qed.
Theorem C166_refuted : exists s : digraph R, d_reach 2 (Some (EOne 0 1)) WNone false MMean [] s /\ nonneg_new (Some (EOne 0 1)) /\
  reverse_safe 2 true ([] : list (dop R)) = true /\
  exists f, snd (d_query (dqV2v (fun _ => 7%R) AggrSoftmax None (Some true) (Some (fun _ => false))) s) = Ok (OVals (map f (range 2))) /\ f 1 = 7%R.
Proof.
  eexists. split; [eexists; split; reflexivity|]. split; [repeat (constructor; cbn; try lia)|]. split; [reflexivity|].
  eexists. split; [reflexivity|]. cbv -[Rplus Rmult Rinv exp IZR Req_EM_T].
  pose proof (exp_pos (1 * 0 + 1 * 0)) as EP. destruct (Req_EM_T _ _) as [E|E]; [exfalso; lra|]. field. lra.
Qed.
