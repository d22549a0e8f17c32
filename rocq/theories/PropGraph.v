(** Properties C01-C08: undirected graphs. *)
From Coq Require Import Reals Lra QArith Qcanon.
From Verif Require Import Num PyDict Coo CooFacts MatFacts RealFacts ModelBase CacheFacts ModelGraph GraphFacts SpecGraph SpecGraphOps
  StoreFacts GraphStore GraphMatrix GraphLaplace RebuildFacts GraphReach SoftmaxFacts.
Set Implicit Arguments.
Local Open Scope Z_scope.

(** In all statements [g_reach nv e w ex m ops s] reads: [s] is the state of the object
    built by Graph(nv, e, w, extra_selfloop=ex, merge_op=m) after the calls [ops] (each call may be a
    mutation or a query, and may raise); [g_spec nv e w ex m ops] is the
    abstract weighted edge map of the same history. *)

(** * C01 *)
Theorem C01_graph_store : forall (T : Type) (N : Num T) nv e w ex m ops (s : graph T),
  g_reach nv e w ex m ops s ->
  let g := g_spec nv e w ex m ops in
  exists es ws proper,
    snd (g_query QE s) = Ok (OE es ws) /\
    snd (g_query QNumE s) = Ok (OZ (Z.of_nat (length es))) /\
    length ws = length es /\
    combine es ws = proper ++ (if ax g then map (fun v => ((v, v), n1)) (range nv) else []) /\
    ForallOrdPairs (fun p q => same_undirected (fst p) (snd p) (fst q) (snd q) = false) (map fst proper) /\
    (forall a b w, (In ((a, b), w) proper \/ In ((b, a), w) proper) <-> aw g a b = Some w).
Proof. intros. apply reach_rel in H as (R & C & NV & P). exact (reported_edges R C NV P). Qed.

(** a running example: 4 vertices, edges given twice, both ways round, with
    self-loops, removals and interleaved queries *)
Local Notation q z := (Q2Qc (inject_Z z)).
Ltac qceq := repeat first [ match goal with |- @eq Qc _ _ => apply Qc_is_canon; vm_compute; reflexivity end | reflexivity | f_equal ].
Definition ex_e : option earg := Some (EMany [(0, 1); (2, 1); (2, 2)]).
Definition ex_w : warg Qc := WList [q 2; q 3; q 5].
Definition ex_ops : list (gop Qc) :=
  [Query QA; AddEdges (EOne 1 0) (WNum (q 4)) MMean; Query (QN 0 2); RemoveEdges (EOne 1 2);
   AddEdges (EMany [(3, 0); (0, 3); (1, 3)]) (WList [q 1; q 6; q 7]) MSum; Query QE; AddEdges (EOne 9 9) WNone MMax; AddExtra].
Example ex_reach : exists s, g_reach 4 ex_e ex_w false MMean ex_ops s /\
  snd (g_query QE s) = Ok (OE [(0, 1); (0, 3); (1, 3); (2, 2); (0, 0); (1, 1); (2, 2); (3, 3)]
                              [q 3; q 7; q 7; q 5; q 1; q 1; q 1; q 1]).
Proof. eexists; split; [eexists; split; reflexivity|]. vm_compute. qceq. Qed.
Example ex_spec : aw (g_spec 4 ex_e ex_w false MMean ex_ops) 3 0 = Some (q 7)
  /\ aw (g_spec 4 ex_e ex_w false MMean ex_ops) 2 1 = None.
Proof. split; vm_compute; qceq. Qed.

(** * C02 *)
(** Whatever happened before, every query answers what a graph built from scratch
    from the reported edges and weights answers, and what the same graph with an empty cache answers. *)
Theorem C02_graph_fresh : forall (T : Type) (N : Num T) nv e w ex m ops (s : graph T),
  g_reach nv e w ex m ops s ->
  (forall q, snd (g_query q s) = snd (g_query q (clear_cache s))) /\
  (exists es ws,
    snd (g_query QE (fst (g_step RemoveExtra s))) = Ok (OE es ws) /\
    forall m', m' <> MOther -> exists s',
      g_new nv (Some (EMany es)) (WList ws) (ax (g_spec nv e w ex m ops)) m' = Ok s' /\
      forall q, snd (g_query q s) = snd (g_query q s')).
Proof.
  intros. split; [|exact (reach_fresh H)]. intros q. apply reach_rel in H as (R & C & NV & P).
  rewrite (good_answer (good_query q) C). symmetry. apply (@good_answer _ _ _ _ _ _ (clear_cache s) (good_query q)).
  apply coh_empty.
Qed.

(** queries do not change the edges *)
Theorem C02_queries_pure : forall (T : Type) (N : Num T) nv e w ex m ops (s : graph T) q q',
  g_reach nv e w ex m ops s -> snd (g_query q' (fst (g_query q s))) = snd (g_query q' s).
Proof.
  intros. apply reach_rel in H as (R & C & NV & P).
  pose proof (good_coh (good_query q) C) as C1. pose proof (good_raw (good_query q) C) as R1.
  rewrite (good_answer (good_query q') C1), (good_answer (good_query q') C), R1. reflexivity.
Qed.

(** * C03 *)
(** [a_adj g i j]: weight of the pair, plus 1 on the diagonal with extra self-loops; [a_deg]: its row sums *)
Theorem C03_adjacency : forall (T : Type) (N : Num T),
  ring_theory (@nz T N) n1 nadd nmul nsub nopp eq ->
  forall nv e w ex m ops (s : graph T), g_reach nv e w ex m ops s -> nonneg_new e -> Forall nonneg_op ops ->
  let g := g_spec nv e w ex m ops in
  (exists A, snd (g_query QA s) = Ok (OM A) /\
     (forall i j, 0 <= i < nv -> 0 <= j < nv -> mget A i j = a_adj g i j) /\
     (forall i j, ~ (0 <= i < nv /\ 0 <= j < nv) -> mget A i j = nz) /\
     (forall i j, mget A i j = mget A j i)) /\
  snd (g_query QD s) = Ok (OM (diag nv (a_deg nv g))) /\
  snd (g_query QDeg s) = Ok (OVals (map (a_deg nv g) (range nv))) /\
  snd (g_query QD1 s) = Ok (OM (diag nv (fun i => ninv (a_deg nv g i)))).
Proof.
  intros T N RT nv e w ex m ops s H NE NO g. apply reach_rel in H as (R & C & NV & P).
  pose proof (spec_in_range nv e w ex m NE NO) as IR. split.
  - destruct (query_A RT R C NV P IR) as (A & E & D1 & D2). exists A; split; [exact E|]. split; [exact D1|]. split; [exact D2|].
    intros i j. destruct (Z_le_dec 0 i), (Z_lt_dec i nv), (Z_le_dec 0 j), (Z_lt_dec j nv);
      try (rewrite !D2 by lia; reflexivity).
    rewrite !D1 by lia. apply (adj_sym s R).
  - destruct (query_D RT R C NV P IR) as (A & B & D & _). auto.
Qed.

(** handshake: the degrees sum to twice the proper weights plus the self-loop weights *)
Theorem C03_handshake : forall (T : Type) (N : Num T),
  ring_theory (@nz T N) n1 nadd nmul nsub nopp eq ->
  forall nv e w ex m ops (s : graph T), g_reach nv e w ex m ops s -> nonneg_new e -> Forall nonneg_op ops ->
  exists ds es ws, snd (g_query QDeg s) = Ok (OVals ds) /\ snd (g_query QE s) = Ok (OE es ws) /\
  sumf ds (fun d => d) =
  sumf (combine es ws) (fun kv => if fst (fst kv) =? snd (fst kv) then snd kv else nadd (snd kv) (snd kv)).
Proof.
  intros T N RT nv e w ex m ops s H NE NO. apply reach_rel in H as (R & C & NV & P).
  pose proof (spec_in_range nv e w ex m NE NO) as IR.
  destruct (query_D RT R C NV P IR) as (_ & B & _ & _). destruct (handshake RT R C NV IR) as (es & ws & E & S).
  eexists _, es, ws. split; [exact B|]. split; [exact E|]. rewrite sumf_map. exact S.
Qed.

(** the reciprocal degree is 1/degree, and 0 when the degree is 0 (over the reals) *)
Theorem C03_inverse : forall nv e w ex m ops (s : graph R), g_reach nv e w ex m ops s -> nonneg_new e -> Forall nonneg_op ops ->
  let g := g_spec nv e w ex m ops in
  exists B, snd (g_query QD1 s) = Ok (OM B) /\ forall i, 0 <= i < nv ->
    (a_deg nv g i <> 0%R -> (mget B i i * a_deg nv g i = 1)%R) /\ (a_deg nv g i = 0%R -> mget B i i = 0%R).
Proof.
  intros nv e w ex m ops s H NE NO g. apply reach_rel in H as (R & C & NV & P).
  pose proof (spec_in_range nv e w ex m NE NO) as IR.
  destruct (query_D RT R C NV P IR) as (_ & _ & B & _). eexists; split; [exact B|]. intros i I.
  rewrite (mget_diag RT), (diag_if i _ I), Z.eqb_refl.
  split; intros D; [apply Rinv0_mul; auto | fold g; rewrite D; apply Rinv0_0].
Qed.

(** e_src / e_dst / e_weight enumerate the stored entries of A, which are the edges *)
Theorem C03_coordinates : forall (T : Type) (N : Num T) nv e w ex m ops (s : graph T),
  g_reach nv e w ex m ops s -> nonneg_new e -> Forall nonneg_op ops ->
  let g := g_spec nv e w ex m ops in
  exists src dst w,
    snd (g_query QEsrc s) = Ok (OIdx src) /\ snd (g_query QEdst s) = Ok (OIdx dst) /\
    snd (g_query QEweight s) = Ok (OVals w) /\
    length dst = length src /\ length w = length src /\
    snd (g_query QA s) = Ok (OM (combine (combine dst src) w)) /\
    NoDup (combine dst src) /\
    (forall i j, In (i, j) (combine dst src) <-> (a_edge g i j /\ 0 <= i < nv /\ 0 <= j < nv)).
Proof.
  intros T N nv e w ex m ops s H NE NO g. apply reach_rel in H as (R & C & NV & P).
  exact (query_src_dst R C NV P (spec_in_range nv e w ex m NE NO)).
Qed.
Example ex_nonneg : nonneg_new ex_e /\ Forall nonneg_op ex_ops.
Proof. split; [|unfold ex_ops]; repeat (constructor; cbn; try lia). Qed.

(** * C04 *)
Theorem C04_laplacian : forall (T : Type) (N : Num T),
  ring_theory (@nz T N) n1 nadd nmul nsub nopp eq ->
  forall nv e w ex m ops (s : graph T), g_reach nv e w ex m ops s -> nonneg_new e -> Forall nonneg_op ops ->
  exists L es ws, snd (g_query QL s) = Ok (OM L) /\ snd (g_query QE s) = Ok (OE es ws) /\
  (forall i, 0 <= i < nv -> sumf (range nv) (fun j => mget L i j) = nz) /\
  (forall x : Z -> T,
     sumf (range nv) (fun i => sumf (range nv) (fun j => nmul (nmul (x i) (mget L i j)) (x j))) =
     sumf (combine es ws) (fun kv => nmul (snd kv)
        (nmul (nsub (x (fst (fst kv))) (x (snd (fst kv)))) (nsub (x (fst (fst kv))) (x (snd (fst kv))))))).
Proof.
  intros T N RT nv e w ex m ops s H NE NO. apply reach_rel in H as (R & C & NV & P).
  pose proof (spec_in_range nv e w ex m NE NO) as IR.
  destruct (query_L RT R C NV P IR) as (L & E & _). destruct (reported_edges R C NV P) as (es & ws & _ & E2 & _).
  exists L, es, ws. split; [exact E|]. split; [exact E2|]. split.
  - exact (laplace_rows RT R C NV P IR E).
  - exact (laplace_energy RT R C NV P IR E E2).
Qed.
(** entries: off-diagonal minus the weight, diagonal the degree without self-loops *)
Theorem C04_entries : forall (T : Type) (N : Num T),
  ring_theory (@nz T N) n1 nadd nmul nsub nopp eq ->
  forall nv e w ex m ops (s : graph T), g_reach nv e w ex m ops s -> nonneg_new e -> Forall nonneg_op ops ->
  let g := g_spec nv e w ex m ops in
  exists L, snd (g_query QL s) = Ok (OM L) /\
  forall i j, 0 <= i < nv -> 0 <= j < nv -> mget L i j =
    if i =? j then sumf (range nv) (fun k => if i =? k then nz else wt (aw g i k)) else nopp (wt (aw g i j)).
Proof.
  intros T N RT nv e w ex m ops s H NE NO g. apply reach_rel in H as (R & C & NV & P).
  destruct (query_L RT R C NV P (spec_in_range nv e w ex m NE NO)) as (L & E & D). exists L; split; [exact E|].
  intros i j I J. rewrite D by auto. unfold a_off at 1. destruct (i =? j).
  - unfold off_deg, a_off. apply (nsub_zero_r RT).
  - rewrite (Rsub_def RT), (Radd_0_l RT). reflexivity.
Qed.
Theorem C04_laplacian_psd : forall nv e w ex m ops (s : graph R) es ws, g_reach nv e w ex m ops s -> nonneg_new e -> Forall nonneg_op ops ->
  snd (g_query QE s) = Ok (OE es ws) -> Forall (fun w => 0 <= w)%R ws ->
  exists L, snd (g_query QL s) = Ok (OM L) /\
  forall x, (0 <= sumf (range nv) (fun i => sumf (range nv) (fun j => x i * mget L i j * x j)))%R.
Proof.
  intros nv e w ex m ops s es ws H NE NO E NN. apply reach_rel in H as (R & C & NV & P).
  pose proof (spec_in_range nv e w ex m NE NO) as IR.
  destruct (query_L RT R C NV P IR) as (L & EL & _). exists L; split; [exact EL|].
  exact (laplace_psd R C NV P IR E NN EL).
Qed.

(** a graph over the reals that meets the hypotheses of the inequalities *)
Definition exR_e : option earg := Some (EMany [(0, 1); (2, 1); (2, 2); (1, 0)]).
Definition exR_w : warg R := WList [2; 3; 5; 4]%R.
Definition exR_ops : list (gop R) := [Query QA; AddEdges (EOne 3 1) (WNum 6%R) MSum; RemoveEdges (EOne 1 2); Query QE].
Example exR_reach : exists s es ws, g_reach 5 exR_e exR_w false MSum exR_ops s /\ nonneg_new exR_e /\ Forall nonneg_op exR_ops /\
  snd (g_query QE s) = Ok (OE es ws) /\ es = [(0, 1); (1, 3); (2, 2)] /\ Forall (fun w => 0 < w)%R ws.
Proof.
  eexists _, [(0, 1); (1, 3); (2, 2)], [2 + 4; 6; 5]%R.
  split; [eexists; split; reflexivity|]. split; [|split; [|split; [vm_compute; reflexivity|split; [reflexivity|]]]].
  - repeat (constructor; cbn; try lia).
  - unfold exR_ops. repeat (constructor; cbn; try lia).
  - repeat (constructor; [lra|]). constructor.
Qed.

(** * C05 *)
Theorem C05_normalised : forall (T : Type) (N : Num T),
  ring_theory (@nz T N) n1 nadd nmul nsub nopp eq ->
  forall nv e w ex m ops (s : graph T), g_reach nv e w ex m ops s -> nonneg_new e -> Forall nonneg_op ops ->
  let g := g_spec nv e w ex m ops in
  let off i j := if i =? j then nz else wt (aw g i j) in
  let hat i j := nadd (wt (aw g i j)) (if i =? j then n1 else nz) in
  let deg f i := sumf (range nv) (fun j => f i j) in
  exists Lsym Lrw Lgcn,
    snd (g_query QLsym s) = Ok (OM Lsym) /\ snd (g_query QLrw s) = Ok (OM Lrw) /\ snd (g_query QLgcn s) = Ok (OM Lgcn) /\
    forall i j, 0 <= i < nv -> 0 <= j < nv ->
      mget Lsym i j = nsub (if i =? j then n1 else nz) (nmul (nmul (nisq (deg off i)) (off i j)) (nisq (deg off j))) /\
      mget Lrw i j = nsub (if i =? j then n1 else nz) (nmul (ninv (deg off i)) (off i j)) /\
      (* exactly one extra self-loop, whether or not the graph already has them *)
      mget Lgcn i j = nmul (nmul (nisq (deg hat i)) (hat i j)) (nisq (deg hat j)) /\
      mget Lsym i j = mget Lsym j i /\ mget Lgcn i j = mget Lgcn j i.
Proof.
  intros T N RT nv e w ex m ops s H NE NO g off hat deg. apply reach_rel in H as (R & C & NV & P).
  pose proof (spec_in_range nv e w ex m NE NO) as IR.
  destruct (query_Lsym RT R C NV P IR) as (L1 & E1 & D1). destruct (query_Lrw RT R C NV P IR) as (L2 & E2 & D2).
  destruct (query_Lgcn RT R C NV P IR) as (L3 & E3 & _ & _ & D3).
  exists L1, L2, L3. split; [exact E1|]. split; [exact E2|]. split; [exact E3|]. intros i j I J.
  split; [exact (D1 i j I J)|]. split; [exact (D2 i j I J)|]. split; [exact (D3 i j I J)|].
  split; [exact (Lsym_sym RT R C NV P IR E1 I J) | exact (Lgcn_sym RT R C NV P IR E3 I J)].
Qed.
Theorem C05_rw_constants : forall nv e w ex m ops (s : graph R) es ws, g_reach nv e w ex m ops s -> nonneg_new e -> Forall nonneg_op ops ->
  snd (g_query QE s) = Ok (OE es ws) -> Forall (fun w => 0 <= w)%R ws ->
  exists L, snd (g_query QLrw s) = Ok (OM L) /\
  forall i, 0 <= i < nv -> (exists j v, j <> i /\ aw (g_spec nv e w ex m ops) i j = Some v /\ (0 < v)%R) ->
    sumf (range nv) (fun j => mget L i j) = 0%R.
Proof.
  intros nv e w ex m ops s es ws H NE NO E NN. apply reach_rel in H as (R & C & NV & P).
  pose proof (spec_in_range nv e w ex m NE NO) as IR.
  destruct (query_Lrw RT R C NV P IR) as (L & EL & _). exists L; split; [exact EL|].
  exact (Lrw_const R C NV P IR E NN EL).
Qed.
Theorem C05_gcn_energy : forall nv e w ex m ops (s : graph R) es ws, g_reach nv e w ex m ops s -> nonneg_new e -> Forall nonneg_op ops ->
  snd (g_query QE s) = Ok (OE es ws) -> Forall (fun w => 0 <= w)%R ws ->
  forall x : Z -> R, exists y : Z -> R,
    snd (g_query (QGcn x None) s) = Ok (OVals (map y (range nv))) /\
    (Rabs (sumf (range nv) (fun i => x i * y i)) <= sumf (range nv) (fun i => x i * x i))%R.
Proof.
  intros nv e w ex m ops s es ws H NE NO E NN x. apply reach_rel in H as (R & C & NV & P).
  pose proof (spec_in_range nv e w ex m NE NO) as IR.
  destruct (query_Lgcn RT R C NV P IR) as (L & EL & BX & Q & _). eexists; split; [apply Q|].
  pose proof (Lgcn_bound R C NV P IR E NN EL x) as B. cbn [cdrop_opt].
  rewrite (sumf_ext_in (range nv) (fun i => x i * spmv L x i)%R
    (fun i => sumf (range nv) (fun j => x i * mget L i j * x j)%R)); [exact B|].
  intros i I. rewrite (@spmv_dense _ _ RT (range nv)) by (apply range_nodup || (eapply boxed_cols; exact BX)).
  etransitivity; [symmetry; apply (sumf_mul_l RT)|]. apply sumf_ext. intros j. cbn. lra.
Qed.

(** * C06 *)
Theorem C06_v2v : forall (T : Type) (N : Num T),
  ring_theory (@nz T N) n1 nadd nmul nsub nopp eq ->
  forall nv e w ex m ops (s : graph T), g_reach nv e w ex m ops s -> nonneg_new e -> Forall nonneg_op ops ->
  let g := g_spec nv e w ex m ops in
  forall X, exists fs fm,
    snd (g_query (QV2v X AggrSum None None) s) = Ok (OVals (map fs (range nv))) /\
    snd (g_query (QV2v X AggrMean None None) s) = Ok (OVals (map fm (range nv))) /\
    forall i, 0 <= i < nv ->
      fs i = sumf (range nv) (fun j => nmul (a_adj g i j) (X j)) /\
      fm i = nmul (ninv (a_deg nv g i)) (sumf (range nv) (fun j => nmul (a_adj g i j) (X j))).
Proof.
  intros T N RT nv e w ex m ops s H NE NO g X. apply reach_rel in H as (R & C & NV & P).
  pose proof (spec_in_range nv e w ex m NE NO) as IR.
  destruct (query_v2v_sum RT R C NV P IR X) as (f1 & E1 & D1). destruct (query_v2v_mean RT R C NV P IR X) as (f2 & E2 & D2).
  exists f1, f2. split; [exact E1|]. split; [exact E2|]. intros i I. split; [exact (D1 i I)|exact (D2 i I)].
Qed.
Theorem C06_mean_between : forall nv e w ex m ops (s : graph R) es ws, g_reach nv e w ex m ops s -> nonneg_new e -> Forall nonneg_op ops ->
  snd (g_query QE s) = Ok (OE es ws) -> Forall (fun w => 0 < w)%R ws ->
  let g := g_spec nv e w ex m ops in
  forall X, exists f, snd (g_query (QV2v X AggrMean None None) s) = Ok (OVals (map f (range nv))) /\
    forall i, 0 <= i < nv ->
      (forall lo hi, (exists j, a_edge g i j) -> (forall j, a_edge g i j -> (lo <= X j <= hi)%R) -> (lo <= f i <= hi)%R) /\
      (forall c, (exists j, a_edge g i j) -> (forall j, X j = c) -> f i = c) /\
      ((forall j, ~ a_edge g i j) -> f i = 0%R).
Proof.
  intros nv e w ex m ops s es ws H NE NO E PP g X. apply reach_rel in H as (R & C & NV & P).
  pose proof (spec_in_range nv e w ex m NE NO) as IR.
  assert (NN : Forall (fun w => 0 <= w)%R ws) by (eapply Forall_impl; [|exact PP]; cbn; intros; lra).
  destruct (query_v2v_mean RT R C NV P IR X) as (f & Ef & _). exists f; split; [exact Ef|]. intros i I. split; [|split].
  - intros lo hi EX B. exact (proj1 (mean_between R C NV P IR E NN X f lo hi PP Ef I) EX B).
  - intros c EX CO. destruct (proj1 (mean_between R C NV P IR E NN X f c c PP Ef I) EX) as [A B]; [|lra].
    intros j _. rewrite CO; lra.
  - exact (proj2 (mean_between R C NV P IR E NN X f 0%R 0%R PP Ef I)).
Qed.

(** * C07 *)
(** [agg_vals dst src c X i] = sum of c[k] * X[src[k]] over the entries k with dst[k] = i *)
Theorem C07_sum : forall (T : Type) (N : Num T) nv e w ex m ops (s : graph T) src dst cw,
  g_reach nv e w ex m ops s -> nonneg_new e -> Forall nonneg_op ops ->
  snd (g_query QEsrc s) = Ok (OIdx src) -> snd (g_query QEdst s) = Ok (OIdx dst) -> length cw = length src ->
  forall X, exists f, snd (g_query (QV2v X AggrSum (Some cw) None) s) = Ok (OVals (map f (range nv))) /\
    forall i, f i = sumf (combine (combine dst src) cw) (fun x => if fst (fst x) =? i then nmul (snd x) (X (snd (fst x))) else nz).
Proof.
  intros T N nv e w ex m ops s src dst cw H NE NO E1 E2 L X. apply reach_rel in H as (R & C & NV & P).
  destruct (query_v2v_weighted R C NV P (spec_in_range nv e w ex m NE NO) cw E1 E2 L X) as (Pm & -> & A & _).
  eexists; split; [exact A|]. intros i. unfold spmv. apply sumf_ext. intros x. rewrite PyDictFacts.Zeqb_unf, Z.eqb_sym. reflexivity.
Qed.
Theorem C07_softmax : forall nv e w ex m ops (s : graph R) src dst cw,
  g_reach nv e w ex m ops s -> nonneg_new e -> Forall nonneg_op ops ->
  snd (g_query QEsrc s) = Ok (OIdx src) -> snd (g_query QEdst s) = Ok (OIdx dst) -> length cw = length src ->
  let g := g_spec nv e w ex m ops in
  exists c, is_softmax nv (fun i j => a_edge g i j /\ 0 <= i < nv /\ 0 <= j < nv) (mget (combine (combine dst src) cw)) c /\
    forall X, exists f, snd (g_query (QV2v X AggrSoftmax (Some cw) None) s) = Ok (OVals (map f (range nv))) /\
      forall i, f i = sumf (range nv) (fun j => c i j * X j)%R.
Proof.
  intros nv e w ex m ops s src dst cw H NE NO E1 E2 L g. apply reach_rel in H as (R & C & NV & P).
  pose proof (spec_in_range nv e w ex m NE NO) as IR.
  destruct (query_src_dst R C NV P IR) as (src' & dst' & _ & E1' & E2' & _ & LD & _ & _ & ND & K).
  rewrite E1 in E1'; injection E1' as <-. rewrite E2 in E2'; injection E2' as <-.
  assert (KF : map fst (combine (combine dst src) cw) = combine dst src)
    by (apply combine_keys; rewrite combine_length; lia).
  destruct (@softmax_dense nv nv (combine (combine dst src) cw)) as [SM V].
  { intros i j I. rewrite KF in I. apply K in I. tauto. }
  { rewrite KF. exact ND. }
  exists (fun i j => mget (csoftmax (combine (combine dst src) cw)) i j). split.
  - destruct SM as (S1 & S2 & S3 & S4). rewrite KF in S1, S2, S3, S4. repeat split.
    + intros i j I. apply S1, K, I.
    + intros i j I. apply S2. rewrite K. exact I.
    + intros i j k I J. apply S3; apply K; assumption.
    + intros i (j & I). apply S4. exists j. apply K, I.
  - intros X. destruct (query_v2v_weighted R C NV P IR cw E1 E2 L X) as (Pm & -> & _ & _ & A).
    eexists; split; [exact A|]. intros i. apply V.
Qed.

(** * C08 *)
Theorem C08_hops : forall (T : Type) (N : Num T) nv e w ex m ops (s : graph T),
  g_reach nv e w ex m ops s -> nonneg_new e -> Forall nonneg_op ops ->
  forall v hop, 0 <= v < nv -> 1 <= hop ->
    exists l, snd (g_query (QN v hop) s) = Ok (OIdx l) /\ NoDup l /\
      forall u, In u l <-> walk (a_edge (g_spec nv e w ex m ops)) (Z.to_nat hop) v u.
Proof.
  intros T N nv e w ex m ops s H NE NO v hop V Hh. apply reach_rel in H as (R & C & NV & P).
  exact (query_N R C NV P (spec_in_range nv e w ex m NE NO) V Hh).
Qed.

(** the walks are not vacuous: on the path 0-1, 1-3 with a self-loop at 2, two steps from 0 reach 0 and 3 *)
Example ex_hops : exists s, g_reach 5 exR_e exR_w false MSum exR_ops s /\
  snd (g_query (QN 0 2) s) = Ok (OIdx [0; 3]) /\ snd (g_query (QN 2 7) s) = Ok (OIdx [2]) /\ snd (g_query (QN 4 3) s) = Ok (OIdx []).
Proof. eexists. split; [eexists; split; reflexivity|]. vm_compute. auto. Qed.

(** * C75: the custom-weight mean *)
(** what the code computes: the weighted sum MULTIPLIED by the total custom weight *)
Theorem C75_weighted_mean_actual : forall (T : Type) (N : Num T) nv e w ex m ops (s : graph T) src dst cw,
  g_reach nv e w ex m ops s -> nonneg_new e -> Forall nonneg_op ops ->
  snd (g_query QEsrc s) = Ok (OIdx src) -> snd (g_query QEdst s) = Ok (OIdx dst) -> length cw = length src ->
  forall X, exists f, snd (g_query (QV2v X AggrMean (Some cw) None) s) = Ok (OVals (map f (range nv))) /\
    forall i, f i = nmul (sumf (combine (combine dst src) cw) (fun x => if fst (fst x) =? i then snd x else nz))
                         (sumf (combine (combine dst src) cw) (fun x => if fst (fst x) =? i then nmul (snd x) (X (snd (fst x))) else nz)).
Proof.
  intros T N nv e w ex m ops s src dst cw H NE NO E1 E2 L X. apply reach_rel in H as (R & C & NV & P).
  destruct (query_v2v_weighted R C NV P (spec_in_range nv e w ex m NE NO) cw E1 E2 L X) as (Pm & -> & _ & A & _).
  eexists; split; [exact A|]. intros i. unfold mean_weighted, spmv, rowsum.
  f_equal; apply sumf_ext; intros x; rewrite PyDictFacts.Zeqb_unf, Z.eqb_sym; reflexivity.
Qed.
(** so it is not a mean: on one edge with custom weight 2, constant features 1 become 4 *)
Theorem C75_weighted_mean_refuted : exists (s : graph Qc) cw,
  g_reach 2 (Some (EOne 0 1)) WNone false MMean [] s /\ Forall (fun w => (0 < w)%Qc) cw /\
  snd (g_query (QV2v (fun _ => q 1) AggrMean (Some cw) None) s) = Ok (OVals [q 4; q 4]).
Proof.
  eexists _, [q 2; q 2]. split; [eexists; split; reflexivity|]. split.
  - repeat constructor.
  - vm_compute. qceq.
Qed.

(** * C76: softmax without custom weights *)
(** graph.py:680 passes [dim] to torch.sparse.mm: the documented 'softmax_then_sum' raises TypeError on every graph *)
Theorem C76_softmax_default_refuted : forall (T : Type) (N : Num T) nv e w ex m ops (s : graph T),
  g_reach nv e w ex m ops s -> nonneg_new e -> Forall nonneg_op ops ->
  forall X keep, snd (g_query (QV2v X AggrSoftmax None keep) s) = Err TypeError.
Proof.
  intros T N nv e w ex m ops s H NE NO X keep. apply reach_rel in H as (R & C & NV & P).
  pose proof (spec_in_range nv e w ex m NE NO) as IR.
  rewrite (good_answer (good_query _) C). cbn [p_query]. unfold p_v2v; cbn [aggr_ok].
  rewrite (p_A_eq R NV P IR). reflexivity.
Qed.
