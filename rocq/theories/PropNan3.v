(** Property C179, Hypergraph part: HGNN smoothing when vertex degrees are negative. *)
From Coq Require Import String Ring Permutation Reals Lra.
From Verif Require Import Num PyDict PyDictFacts Coo CooFacts MatFacts RealFacts ModelBase CacheFacts ModelGraph GraphFacts SpecGraph StoreFacts
  ModelHyper HyperFacts SpecHyper HyperStore HyperView HyperMatrix HyperReach HyperOps PropHyper ModelUtils ModelConv ModelMetrics ModelNN ModelVis ModelMore PropNan PropNan2.
Set Implicit Arguments.
Local Open Scope list_scope.
Local Open Scope R_scope.
Local Open Scope Z_scope.

Lemma nthe_ex (es : list (list Z)) (P : list Z -> Prop) :
  (exists i, 0 <= i < Z.of_nat (length es) /\ P (nthe es i)) <-> exists e, In e es /\ P e.
Proof.
  unfold nthe. split.
  - intros (i & I & Q). exists (nth (Z.to_nat i) es []). split; [apply nth_In; lia|exact Q].
  - intros (e & I & Q). destruct (In_nth _ _ [] I) as (k & L & E). exists (Z.of_nat k). split; [lia|]. rewrite Nat2Z.id, E. exact Q.
Qed.
Lemma hdeg_neg_in (es : list (list Z)) (ws : list R) v : (hdeg es ws v < 0)%R -> exists e, In e es /\ In v e.
Proof.
  unfold hdeg. revert ws. induction es as [|e es IH]; intros [|w ws]; cbn [combine sumf]; try (cbn; intros; lra).
  cbn [fst snd]. destruct (zmem v e) eqn:M.
  - intros _. apply zmem_In in M. exists e. split; [left; reflexivity|exact M].
  - intros L. change (@nadd R Num_R) with Rplus in L. change (@nz R Num_R) with 0%R in L. rewrite Rplus_0_l in L.
    destruct (IH ws L) as (e' & I & J). exists e'. split; [right; exact I|exact J].
Qed.

(** For every scope of a hypergraph with real weights that reports the hyperedges [es] with weights [ws]: HGNN smoothing gives nan to every vertex
    that shares a hyperedge with a vertex of negative degree (itself included), and the published value to the others. *)
Theorem C179_hypergraph_actual : forall nv e w vw m ops (s : hypergraph R) sc es ws (X : Z -> R),
  h_clean_reach nv e w vw m ops s -> h_reports s sc es ws ->
  let together u v := exists f, In f es /\ In u f /\ In v f in
  exists Y, hgnn_fl sc s X = Ok (map Y (range nv)) /\ forall u, 0 <= u < nv ->
    ((hdeg es ws u < 0)%R -> together u u) /\
    ((exists v, together u v /\ (hdeg es ws v < 0)%R) -> Y u = NaN) /\
    ((forall v, together u v -> (0 <= hdeg es ws v)%R) ->
      Y u = Fin (sumf (range nv) (fun v => Risq (hdeg es ws u) * hshare es ws u v * Risq (hdeg es ws v) * X v)%R)).
Proof.
  intros nv e w vw m ops s sc es ws X H R0 together.
  destruct (C29_degrees RT H R0) as (QW & QD & _ & _ & _ & QE & _). destruct (clean_state H R0) as (C & W & K & NV & S). subst nv.
  destruct (hview_scope sc W K S) as (Hm & V).
  assert (QH : snd (h_query (hqH sc) s) = Ok (OM Hm)) by (rewrite (hans C) by reflexivity; cbn; rewrite (hv_H V); reflexivity).
  assert (QT : snd (h_query (hqHT sc) s) = Ok (OM (ctrans Hm))) by (rewrite (hans C) by reflexivity; cbn; rewrite (V_HT V); reflexivity).
  unfold hgnn_fl. rewrite QD, QH, QW, QE, QT. cbn [as_coo rbind]. set (k := Z.of_nat (length es)) in *. set (n := h_nv (st_raw s)) in *.
  set (M := spmm (spmm (spmm Hm _) _) _).
  assert (BH : boxed n k Hm) by apply (V_boxed V).
  assert (B2 : boxed n k (spmm Hm (diag k (nthw ws)))) by (eapply boxed_spmm; [exact BH|apply boxed_diag]).
  assert (B3 : boxed n k (spmm (spmm Hm (diag k (nthw ws))) (diag k (fun i => ninv (hcard (nthe es i)))))) by (eapply boxed_spmm; [exact B2|apply boxed_diag]).
  assert (BM : boxed n n M) by (eapply boxed_spmm; [exact B3|apply (V_boxedT V)]).
  assert (KM : forall u v, In (u, v) (map fst M) <-> together u v).
  { intros u v. unfold M, together. rewrite spmm_In. rewrite <- (nthe_ex es (fun f => In u f /\ In v f)). fold k. split.
    - intros (i & I & J). apply spmm_In in I as (i2 & I & D). apply diag_keys in D as [-> _]. apply spmm_In in I as (i3 & I & D). apply diag_keys in D as [-> _].
      apply (V_keys V) in I as [L I]. exists i. split; [exact L|]. split; [exact I|].
      unfold ctrans in J. rewrite map_map in J. apply in_map_iff in J as ([[a b] x] & Q & J). cbn in Q. injection Q as -> ->.
      apply (V_keys V v i). apply in_map_iff. exists ((v, i), x). split; [reflexivity|exact J].
    - intros (i & L & I & J). exists i. split.
      + apply spmm_In. exists i. split; [|apply diag_keys; auto]. apply spmm_In. exists i. split; [|apply diag_keys; auto]. apply (V_keys V). auto.
      + assert (J' : In (v, i) (map fst Hm)) by (apply (V_keys V); auto). apply in_map_iff in J' as ([[a b] x] & Q & J'). cbn in Q. injection Q as -> ->.
        unfold ctrans. rewrite map_map. apply in_map_iff. exists ((v, i), x). split; [reflexivity|exact J']. }
  assert (EM : forall u v, mget M u v = hshare es ws u v).
  { intros u v. unfold M. rewrite (mget_spmm_dense RT _ u v (range_nodup k) (boxed_cols B3)). rewrite (hshare_range V).
    apply sumf_ext_in. intros i I. apply range_In in I. rewrite (mget_diag_r RT) by auto. rewrite (mget_diag_r RT) by auto.
    rewrite mget_ctrans, !(V_mget RT V). fold k.
    replace (0 <=? i) with true by (symmetry; apply Z.leb_le; lia). replace (i <? k) with true by (symmetry; apply Z.ltb_lt; lia). cbn [andb].
    change (nthw ws i) with (zn ws i). cbn [nmul n1 nz ninv Num_R]. destruct (zmem u (nthe es i)), (zmem v (nthe es i)); cbn [andb]; ring. }
  assert (DV : forall v, 0 <= v < n -> ModelNN.vec (map snd (diag n (hdeg es ws))) v = hdeg es ws v).
  { intros v L. unfold ModelNN.vec, diag. rewrite map_map. cbn [snd]. apply (nth_map_rng (hdeg es ws) nz L). }
  eexists. split; [reflexivity|]. intros u U. cbn beta.
  split; [intros L; destruct (hdeg_neg_in es ws u L) as (f & F & G); exists f; auto|].
  destruct (@norm_row n (ModelNN.vec (map snd (diag n (hdeg es ws)))) M X u BM U) as [N1 N2]. cbn zeta in N1, N2. split.
  - intros (v & T0 & L). apply KM in T0. destruct (BM _ _ T0) as [_ Lv]. apply in_map_iff in T0 as ([kk x] & Q & T0). cbn [fst] in Q. subst kk.
    apply N1. exists v, x. split; [exact T0|]. right. rewrite DV by exact Lv. exact L.
  - intros P. rewrite N2.
    + f_equal. apply sumf_ext_in. intros v J. apply range_In in J. rewrite !DV by assumption. rewrite EM. reflexivity.
    + intros v x J. assert (T0 : In (u, v) (map fst M)) by (apply in_map_iff; exists ((u, v), x); auto).
      destruct (BM _ _ T0) as [_ Lv]. apply KM in T0. rewrite !DV by assumption. split; [|apply P; exact T0].
      destruct T0 as (f & F1 & F2 & _). apply P. exists f. auto.
Qed.
(** {0, 1} with weight -1 and {2}: vertices 0 and 1 get nan, vertex 2 its own value and vertex 3, in no hyperedge, 0 *)
Example C179_hypergraph_case : exists s, h_clean_reach 4 (Some (HMany [[0; 1]; [2]])) (WList [(-1)%R; 1%R]) None MMean [] s /\
  h_reports s None [[0; 1]; [2]] [(-1)%R; 1%R] /\ forall X, hgnn_fl None s X = Ok [NaN; NaN; Fin (X 2); Fin 0%R].
Proof.
  assert (H : exists s, h_clean_reach 4 (Some (HMany [[0; 1]; [2]])) (WList [(-1)%R; 1%R]) None MMean [] s /\ h_reports s None [[0; 1]; [2]] [(-1)%R; 1%R]).
  { eexists. split.
    - split; [eexists; split; reflexivity|]. split; [discriminate|]. split; [constructor|]. split; [|constructor].
      unfold clean_new, clean_harg, hedges_of; repeat (constructor; try (cbn; lia)); cbn; intuition congruence.
    - split; [reflexivity|]. intros _. cbn. discriminate. }
  destruct H as (s & H & R0). exists s. split; [exact H|]. split; [exact R0|]. intros X.
  destruct (C179_hypergraph_actual X H R0) as (Y & E & K). rewrite E. change (range 4) with [0; 1; 2; 3] in *. cbn [map].
  assert (Y0 : Y 0 = NaN). { apply (K 0); [lia|]. exists 0. split; [exists [0; 1]; cbn; auto|]. unfold hdeg. cbn. lra. }
  assert (Y1 : Y 1 = NaN). { apply (K 1); [lia|]. exists 0. split; [exists [0; 1]; cbn; auto|]. unfold hdeg. cbn. lra. }
  assert (Y2 : Y 2 = Fin (X 2)).
  { destruct (K 2) as (_ & _ & G); [lia|]. rewrite G.
    - f_equal. cbn [sumf]. unfold hdeg, hshare, hcard. cbn.
      replace (0 + (1 + 0))%R with 1%R by ring. replace (1 + 0)%R with 1%R by ring.
      assert (R1 : Risq 1 = 1%R) by (unfold Risq; destruct (Req_EM_T 1 0); [lra|rewrite sqrt_1; field]).
      assert (I1 : Rinv0 1 = 1%R) by (unfold Rinv0; destruct (Req_EM_T 1 0); [lra|field]). rewrite R1, I1. ring.
    - intros v (f & F1 & F2 & F3). destruct F1 as [<-|[<-|[]]]; cbn in F2, F3; [lia|]. destruct F3 as [<-|[]]. unfold hdeg. cbn. lra. }
  assert (Y3 : Y 3 = Fin 0%R).
  { destruct (K 3) as (_ & _ & G); [lia|]. rewrite G.
    - f_equal. cbn [sumf]. unfold hshare. cbn. ring.
    - intros v (f & F1 & F2 & F3). destruct F1 as [<-|[<-|[]]]; cbn in F2, F3; lia. }
  rewrite Y0, Y1, Y2, Y3. reflexivity.
Qed.
