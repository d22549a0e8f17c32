(** Properties C14-C20, C77, C78: directed graphs. *)
From Coq Require Import Reals Lra QArith Qcanon.
From Verif Require Import Num PyDict Coo CooFacts MatFacts RealFacts ModelBase CacheFacts ModelGraph GraphFacts SpecGraph SpecGraphOps
  StoreFacts RebuildFacts GraphMatrix GraphReach SoftmaxFacts ModelDiGraph SpecDiGraph DiGraphFacts DiGraphReach.
Set Implicit Arguments.
Local Open Scope Z_scope.
Local Notation q z := (Q2Qc (inject_Z z)).
Local Ltac qceq := repeat first [ match goal with |- @eq Qc _ _ => apply Qc_is_canon; vm_compute; reflexivity end | reflexivity | f_equal ].

(** [d_reach nv e w ex m ops s]: [s] is the state of DiGraph(nv, e, w, extra_selfloop=ex,
    merge_op=m) after the calls [ops]; [d_spec ...] is the abstract map of the same history;
    [reverse_safe nv true ops]: reverse_direction is only called while nothing is cached. *)

(** * C14 *)
Theorem C14_digraph_store : forall (T : Type) (N : Num T) nv e w ex m ops (s : digraph T),
  d_reach nv e w ex m ops s -> reverse_safe nv true ops = true ->
  let g := d_spec nv e w ex m ops in
  exists es ws proper,
    snd (d_query dqE s) = Ok (OE es ws) /\
    snd (d_query dqNumE s) = Ok (OZ (Z.of_nat (length es))) /\
    length ws = length es /\
    combine es ws = proper ++ (if ax g then map (fun v => ((v, v), n1)) (range nv) else []) /\
    NoDup (map fst proper) /\
    (forall a b w, In ((a, b), w) proper <-> aw g a b = Some w).
Proof. intros. destruct (dreach_rel H H0) as (R & C & NV & P). exact (dreported R C NV P). Qed.
(** the saved state (state_dict, hence save/load and drop_edges) is right after EVERY history *)
Theorem C14_digraph_saved : forall (T : Type) (N : Num T) nv e w ex m ops (s : digraph T),
  d_reach nv e w ex m ops s ->
  let g := d_spec nv e w ex m ops in
  exists s' es ws proper,
    d_from_state_dict (d_state_dict s) = Ok s' /\
    snd (d_query dqE s') = Ok (OE es ws) /\
    length ws = length es /\
    combine es ws = proper ++ (if ax g then map (fun v => ((v, v), n1)) (range nv) else []) /\
    NoDup (map fst proper) /\
    (forall a b w, In ((a, b), w) proper <-> aw g a b = Some w).
Proof.
  intros. destruct (dreach_raw H) as (R & NV & P).
  assert (C : coh dspec (mkSt (st_raw s) [])) by apply coh_empty.
  destruct (@dreported _ _ (mkSt (st_raw s) []) _ _ R C NV P) as (es & ws & pr & A & _ & B). exists (mkSt (st_raw s) []), es, ws, pr.
  split; auto. unfold d_from_state_dict, d_state_dict. rewrite NV. apply Z.ltb_lt in P. rewrite P; reflexivity.
Qed.
Definition exd_e : option earg := Some (EMany [(0, 1); (1, 0); (2, 2); (0, 1)]).
Definition exd_w : warg Qc := WList [q 2; q 3; q 5; q 4].
Definition exd_ops : list (dop Qc) :=
  [dQuery dqA; dAdd (EMany [(1, 2); (3, 1)]) (WList [q 7; q 8]) MMean; dReverse; dQuery (dqNin 1); dRemove (EOne 2 1); dReverse; dAddExtra].
Example exd_reach : exists s, d_reach 4 exd_e exd_w false MSum exd_ops s /\ reverse_safe 4 true exd_ops = true /\
  snd (d_query dqE s) = Ok (OE [(0, 1); (1, 0); (3, 1); (2, 2); (0, 0); (1, 1); (2, 2); (3, 3)]
                              [q 6; q 3; q 8; q 5; q 1; q 1; q 1; q 1]).
Proof. eexists; split; [eexists; split; reflexivity|]. split; [reflexivity|]. vm_compute. qceq. Qed.
Example exd_spec : aw (d_spec 4 exd_e exd_w false MSum exd_ops) 0 1 = Some (q 6) /\ aw (d_spec 4 exd_e exd_w false MSum exd_ops) 1 0 = Some (q 3).
Proof. split; vm_compute; qceq. Qed.

(** * C15 *)
Theorem C15_digraph_fresh : forall (T : Type) (N : Num T) nv e w ex m ops (s : digraph T),
  d_reach nv e w ex m ops s -> reverse_safe nv true ops = true ->
  (forall q, snd (d_query q s) = snd (d_query q (clear_cache s))) /\
  (exists es ws,
    snd (d_query dqE (fst (d_step dRemoveExtra s))) = Ok (OE es ws) /\
    forall m', m' <> MOther -> exists s',
      d_new nv (Some (EMany es)) (WList ws) (ax (d_spec nv e w ex m ops)) m' = Ok s' /\
      forall q, snd (d_query q s) = snd (d_query q s')).
Proof.
  intros. destruct (dreach_rel H H0) as (R & C & NV & P).
  assert (C0 : coh dspec (mkSt (st_raw s) [])) by apply coh_empty. split.
  - intros q0. change (clear_cache s) with (mkSt (T := T) (st_raw s) []). rewrite (good_answer (dgood_query q0) C), (good_answer (dgood_query q0) C0). reflexivity.
  - exists (fst (plain_edges (st_raw s))), (snd (plain_edges (st_raw s))). split; [reflexivity|].
    intros m' K. exists (mkSt (st_raw s) []). split; [apply (drebuild H); auto|].
    intros q0. rewrite (good_answer (dgood_query q0) C), (good_answer (dgood_query q0) C0). reflexivity.
Qed.
Theorem C15_queries_pure : forall (T : Type) (N : Num T) nv e w ex m ops (s : digraph T) q0 q',
  d_reach nv e w ex m ops s -> reverse_safe nv true ops = true ->
  snd (d_query q' (fst (d_query q0 s))) = snd (d_query q' s).
Proof.
  intros. destruct (dreach_rel H H0) as (R & C & NV & P).
  pose proof (good_coh (dgood_query q0) C) as C1. pose proof (good_raw (dgood_query q0) C) as R1.
  rewrite (good_answer (dgood_query q') C1), (good_answer (dgood_query q') C), R1. reflexivity.
Qed.

(** * C77: queries after reverse_direction *)
(** On every graph, a matrix or edge list read before reverse_direction is still returned after it. *)
Theorem C77_reverse_stale_actual : forall (T : Type) (N : Num T) nv e w ex m ops (s : digraph T),
  d_reach nv e w ex m ops s -> reverse_safe nv true ops = true -> nonneg_new e -> Forall nonneg_dop ops ->
  forall q0 : dquery T, In q0 [dqE; dqA; dqAT; dqDin; dqDout; dqDin1; dqDout1] ->
  snd (d_query q0 (fst (d_reverse (fst (d_query q0 s))))) = snd (d_query q0 s).
Proof.
  intros T N nv e w ex m ops s H SF NE NO q0 I. destruct (dreach_rel H SF) as (R & C & NV & P).
  pose proof (dspec_in_range nv e w ex m NE NO) as IR.
  destruct (memo_answers R C NV P IR I) as (k & v & E & _ & HIT).
  apply HIT.
Qed.
(** so the promise "A is the adjacency of the current edges" is false after a reversal *)
Theorem C77_reverse_stale_refuted : exists (s : digraph Qc) ops,
  d_reach 2 (Some (EOne 0 1)) WNone false MMean ops s /\
  aw (d_spec 2 (Some (EOne 0 1)) (@WNone Qc) false MMean ops) 1 0 = Some n1 /\
  aw (d_spec 2 (Some (EOne 0 1)) (@WNone Qc) false MMean ops) 0 1 = None /\
  snd (d_query dqE s) = Ok (OE [(0, 1)] [q 1]) /\
  snd (d_query dqE (clear_cache s)) = Ok (OE [(1, 0)] [q 1]).
Proof.
  eexists _, [dQuery dqE; dReverse]. split; [eexists; split; reflexivity|]. split; [vm_compute; qceq|]. split; [reflexivity|].
  split; vm_compute; qceq.
Qed.

(** * C16 *)
Theorem C16_matrices : forall (T : Type) (N : Num T),
  ring_theory (@nz T N) n1 nadd nmul nsub nopp eq ->
  forall nv e w ex m ops (s : digraph T), d_reach nv e w ex m ops s -> reverse_safe nv true ops = true ->
  nonneg_new e -> Forall nonneg_dop ops ->
  let g := d_spec nv e w ex m ops in
  let dout i := sumf (range nv) (fun j => a_adj g i j) in
  let din i := sumf (range nv) (fun j => a_adj g j i) in
  (exists A AT, snd (d_query dqA s) = Ok (OM A) /\ snd (d_query dqAT s) = Ok (OM AT) /\
     (forall i j, 0 <= i < nv -> 0 <= j < nv -> mget A i j = a_adj g i j) /\
     (forall i j, mget AT i j = mget A j i) /\
     (forall i j, ~ (0 <= i < nv /\ 0 <= j < nv) -> mget A i j = nz)) /\
  snd (d_query dqDin s) = Ok (OM (diag nv din)) /\ snd (d_query dqDout s) = Ok (OM (diag nv dout)) /\
  snd (d_query dqDin1 s) = Ok (OM (diag nv (fun i => ninv (din i)))) /\
  snd (d_query dqDout1 s) = Ok (OM (diag nv (fun i => ninv (dout i)))) /\
  snd (d_query dqDegIn s) = Ok (OVals (map din (range nv))) /\
  snd (d_query dqDegOut s) = Ok (OVals (map dout (range nv))) /\
  exists es ws, snd (d_query dqE s) = Ok (OE es ws) /\
    sumf (range nv) dout = sumf ws (fun w => w) /\ sumf (range nv) din = sumf ws (fun w => w).
Proof.
  intros T N RT nv e w ex m ops s H SF NE NO g dout din. destruct (dreach_rel H SF) as (R & C & NV & P).
  pose proof (dspec_in_range nv e w ex m NE NO) as IR.
  split; [exact (dquery_A RT R C NV P IR)|].
  destruct (dquery_D RT R C NV P IR) as (A1 & A2 & A3 & A4 & A5 & A6).
  repeat (split; [assumption|]). exact (dhandshake RT R C NV IR).
Qed.
Theorem C16_coordinates : forall (T : Type) (N : Num T) nv e w ex m ops (s : digraph T),
  d_reach nv e w ex m ops s -> reverse_safe nv true ops = true -> nonneg_new e -> Forall nonneg_dop ops ->
  let g := d_spec nv e w ex m ops in
  exists src dst w,
    snd (d_query dqSrc s) = Ok (OIdx src) /\ snd (d_query dqDst s) = Ok (OIdx dst) /\
    snd (d_query dqW s) = Ok (OVals w) /\ length dst = length src /\ length w = length src /\
    snd (d_query dqA s) = Ok (OM (combine (combine src dst) w)) /\
    NoDup (combine src dst) /\
    (forall i j, In (i, j) (combine src dst) <-> (a_edge g i j /\ 0 <= i < nv /\ 0 <= j < nv)).
Proof.
  intros T N nv e w ex m ops s H SF NE NO g. destruct (dreach_rel H SF) as (R & C & NV & P).
  exact (dquery_coords R C NV P (dspec_in_range nv e w ex m NE NO)).
Qed.
Example exd_nonneg : nonneg_new exd_e /\ Forall nonneg_dop exd_ops.
Proof. split; [|unfold exd_ops]; repeat (constructor; cbn; try lia). Qed.

(** * C17 *)
Theorem C17_reverse : forall (T : Type) (N : Num T),
  ring_theory (@nz T N) n1 nadd nmul nsub nopp eq ->
  forall nv e w ex m ops (s : digraph T), d_reach nv e w ex m ops s -> reverse_safe nv true (ops ++ [dReverse]) = true ->
  nonneg_new e -> Forall nonneg_dop ops ->
  let s' := fst (d_reverse s) in
  (exists es ws es' ws', snd (d_query dqE s) = Ok (OE es ws) /\ snd (d_query dqE s') = Ok (OE es' ws') /\
    forall a b w, In ((a, b), w) (combine es ws) <-> In ((b, a), w) (combine es' ws')) /\
  snd (d_query dqDegIn s') = snd (d_query dqDegOut s) /\ snd (d_query dqDegOut s') = snd (d_query dqDegIn s) /\
  (forall v, 0 <= v < nv -> exists l1 l2 l1' l2',
     snd (d_query (dqNin v) s) = Ok (OIdx l1) /\ snd (d_query (dqNout v) s) = Ok (OIdx l2) /\
     snd (d_query (dqNin v) s') = Ok (OIdx l1') /\ snd (d_query (dqNout v) s') = Ok (OIdx l2') /\
     (forall u, In u l1 <-> In u l2') /\ (forall u, In u l2 <-> In u l1')) /\
  (forall q0, snd (d_query q0 (fst (d_reverse s'))) = snd (d_query q0 s)).
Proof.
  intros T N RT nv e w ex m ops s H SF NE NO s'.
  destruct (reverse_state H SF) as (R & C & R' & C' & RR & NV & P).
  pose proof (dspec_in_range nv e w ex m NE NO) as IR.
  assert (IR' : in_range nv (a_reverse (d_spec nv e w ex m ops))) by (intros a b E; apply IR in E; tauto).
  split; [|split; [|split; [|split]]].
  - destruct (dreported R C NV P) as (es & ws & pr & E1 & _ & _ & CE & _ & M).
    destruct (dreported R' C' NV P) as (es' & ws' & pr' & E1' & _ & _ & CE' & _ & M').
    exists es, ws, es', ws'. split; [exact E1|]. split; [exact E1'|]. intros a b w0. rewrite CE, CE', !in_app_iff, M, M'. cbn [a_reverse aw ax].
    assert (X : In ((a, b), w0) (if ax (d_spec nv e w ex m ops) then map (fun v => ((v, v), n1)) (range nv) else []) <->
      In ((b, a), w0) (if ax (d_spec nv e w ex m ops) then map (fun v => ((v, v), n1)) (range nv) else [])).
    { destruct (ax (d_spec nv e w ex m ops)); [|cbn; tauto]. rewrite !in_map_iff.
      split; intros (x & E & I); exists x; split; auto; congruence. }
    tauto.
  - destruct (dquery_D RT R C NV P IR) as (_ & _ & _ & _ & _ & A). destruct (dquery_D RT R' C' NV P IR') as (_ & _ & _ & _ & B & _).
    unfold s'. rewrite A, B. do 2 f_equal. apply map_ext. intros i. apply sumf_ext. intros j. apply adj_reverse.
  - destruct (dquery_D RT R C NV P IR) as (_ & _ & _ & _ & A & _). destruct (dquery_D RT R' C' NV P IR') as (_ & _ & _ & _ & _ & B).
    unfold s'. rewrite A, B. do 2 f_equal. apply map_ext. intros i. apply sumf_ext. intros j. apply adj_reverse.
  - intros v V. destruct (dquery_nbr R C NV P IR V) as (l1 & l2 & A1 & A2 & _ & _ & M1 & M2).
    destruct (dquery_nbr R' C' NV P IR' V) as (l1' & l2' & A1' & A2' & _ & _ & M1' & M2').
    exists l1, l2, l1', l2'. do 4 (split; [assumption|]).
    split; intros u; rewrite ?M1, ?M2, ?M1', ?M2'; symmetry; apply edge_reverse.
  - apply RR.
Qed.
Example exd_reverse_safe : exists s, d_reach 4 exd_e exd_w false MSum exd_ops s /\ reverse_safe 4 true (exd_ops ++ [dReverse]) = true /\
  snd (d_query (dqNin 0) (fst (d_reverse s))) = Ok (OIdx [0; 1]) /\ snd (d_query (dqNin 1) s) = Ok (OIdx [0; 1; 3]).
Proof. eexists; split; [eexists; split; reflexivity|]. split; [reflexivity|]. split; vm_compute; reflexivity. Qed.

(** * C18 *)
Theorem C18_neighbour_duality : forall (T : Type) (N : Num T) nv e w ex m ops (s : digraph T),
  d_reach nv e w ex m ops s -> reverse_safe nv true ops = true -> nonneg_new e -> Forall nonneg_dop ops ->
  forall u v, 0 <= u < nv -> 0 <= v < nv ->
  exists lin lout, snd (d_query (dqNin v) s) = Ok (OIdx lin) /\ snd (d_query (dqNout u) s) = Ok (OIdx lout) /\
    NoDup lin /\ NoDup lout /\
    (In u lin <-> In v lout) /\ (In u lin <-> a_edge (d_spec nv e w ex m ops) u v).
Proof.
  intros T N nv e w ex m ops s H SF NE NO u v U V. destruct (dreach_rel H SF) as (R & C & NV & P).
  pose proof (dspec_in_range nv e w ex m NE NO) as IR.
  destruct (dquery_nbr R C NV P IR V) as (l1 & _ & A1 & _ & N1 & _ & M1 & _).
  destruct (dquery_nbr R C NV P IR U) as (_ & l2 & _ & A2 & _ & N2 & _ & M2).
  exists l1, l2. do 4 (split; [assumption|]). rewrite M1, M2. tauto.
Qed.

(** * C19 *)
Theorem C19_v2v : forall (T : Type) (N : Num T),
  ring_theory (@nz T N) n1 nadd nmul nsub nopp eq ->
  forall nv e w ex m ops (s : digraph T), d_reach nv e w ex m ops s -> reverse_safe nv true ops = true ->
  nonneg_new e -> Forall nonneg_dop ops ->
  let g := d_spec nv e w ex m ops in
  forall X, exists s2d_sum s2d_mean d2s_sum d2s_mean,
    snd (d_query (dqV2v X AggrSum None (Some true) None) s) = Ok (OVals (map s2d_sum (range nv))) /\
    snd (d_query (dqV2v X AggrMean None (Some true) None) s) = Ok (OVals (map s2d_mean (range nv))) /\
    snd (d_query (dqV2v X AggrSum None (Some false) None) s) = Ok (OVals (map d2s_sum (range nv))) /\
    snd (d_query (dqV2v X AggrMean None (Some false) None) s) = Ok (OVals (map d2s_mean (range nv))) /\
    forall i, 0 <= i < nv ->
      s2d_sum i = sumf (range nv) (fun j => nmul (a_adj g j i) (X j)) /\
      s2d_mean i = nmul (ninv (sumf (range nv) (fun j => a_adj g j i))) (sumf (range nv) (fun j => nmul (a_adj g j i) (X j))) /\
      d2s_sum i = sumf (range nv) (fun j => nmul (a_adj g i j) (X j)) /\
      d2s_mean i = nmul (ninv (sumf (range nv) (fun j => a_adj g i j))) (sumf (range nv) (fun j => nmul (a_adj g i j) (X j))).
Proof.
  intros T N RT nv e w ex m ops s H SF NE NO g X. destruct (dreach_rel H SF) as (R & C & NV & P).
  exact (dquery_v2v RT R C NV P (dspec_in_range nv e w ex m NE NO) X).
Qed.
Theorem C19_reverse_exchanges : forall (T : Type) (N : Num T),
  ring_theory (@nz T N) n1 nadd nmul nsub nopp eq ->
  forall nv e w ex m ops (s : digraph T), d_reach nv e w ex m ops s -> reverse_safe nv true (ops ++ [dReverse]) = true ->
  nonneg_new e -> Forall nonneg_dop ops ->
  forall X (dir : bool) a, a = AggrSum \/ a = AggrMean ->
    snd (d_query (dqV2v X a None (Some dir) None) (fst (d_reverse s))) = snd (d_query (dqV2v X a None (Some (negb dir)) None) s).
Proof.
  intros T N RT nv e w ex m ops s H SF NE NO X dir a AA.
  destruct (reverse_state H SF) as (R & C & R' & C' & RR & NV & P).
  pose proof (dspec_in_range nv e w ex m NE NO) as IR.
  assert (IR' : in_range nv (a_reverse (d_spec nv e w ex m ops))) by (intros x y E; apply IR in E; tauto).
  exact (v2v_reverse RT R C R' C' NV P IR IR' X dir AA).
Qed.
(** softmax aggregation, with the stored weights or with custom ones listed in the order of e_src / e_dst *)
Theorem C19_softmax : forall nv e w ex m ops (s : digraph R), d_reach nv e w ex m ops s -> reverse_safe nv true ops = true ->
  nonneg_new e -> Forall nonneg_dop ops ->
  let g := d_spec nv e w ex m ops in
  forall dir : bool,
  (exists c, is_softmax nv (fun i j => (if dir then a_edge g j i else a_edge g i j) /\ 0 <= i < nv /\ 0 <= j < nv)
     (fun i j => a_adj g (if dir then j else i) (if dir then i else j)) c /\
    forall X, exists f, snd (d_query (dqV2v X AggrSoftmax None (Some dir) None) s) = Ok (OVals (map f (range nv))) /\
      forall i, f i = sumf (range nv) (fun j => c i j * X j)%R) /\
  (forall cw src dst,
    snd (d_query dqSrc s) = Ok (OIdx src) -> snd (d_query dqDst s) = Ok (OIdx dst) -> length cw = length src ->
    exists c, is_softmax nv (fun i j => (if dir then a_edge g j i else a_edge g i j) /\ 0 <= i < nv /\ 0 <= j < nv)
     (fun i j => mget (combine (combine src dst) cw) (if dir then j else i) (if dir then i else j)) c /\
    forall X, exists f, snd (d_query (dqV2v X AggrSoftmax (Some cw) (Some dir) None) s) = Ok (OVals (map f (range nv))) /\
      forall i, f i = sumf (range nv) (fun j => c i j * X j)%R).
Proof.
  intros nv e w ex m ops s H SF NE NO g dir. destruct (dreach_rel H SF) as (R & C & NV & P).
  pose proof (dspec_in_range nv e w ex m NE NO) as IR. split.
  - exact (dquery_softmax_plain R C NV P IR dir).
  - intros cw src dst E1 E2 L. exact (dquery_softmax R C NV P IR cw dir E1 E2 L).
Qed.
Theorem C19_custom_sum : forall (T : Type) (N : Num T),
  ring_theory (@nz T N) n1 nadd nmul nsub nopp eq ->
  forall nv e w ex m ops (s : digraph T) src dst cw, d_reach nv e w ex m ops s -> reverse_safe nv true ops = true ->
  nonneg_new e -> Forall nonneg_dop ops ->
  snd (d_query dqSrc s) = Ok (OIdx src) -> snd (d_query dqDst s) = Ok (OIdx dst) -> length cw = length src ->
  forall X, exists f h,
    snd (d_query (dqV2v X AggrSum (Some cw) (Some true) None) s) = Ok (OVals (map f (range nv))) /\
    snd (d_query (dqV2v X AggrSum (Some cw) (Some false) None) s) = Ok (OVals (map h (range nv))) /\
    forall i,
      f i = sumf (combine (combine src dst) cw) (fun x => if snd (fst x) =? i then nmul (snd x) (X (fst (fst x))) else nz) /\
      h i = sumf (combine (combine src dst) cw) (fun x => if fst (fst x) =? i then nmul (snd x) (X (snd (fst x))) else nz).
Proof.
  intros T N RT nv e w ex m ops s src dst cw H SF NE NO E1 E2 L X. destruct (dreach_rel H SF) as (R & C & NV & P).
  pose proof (dspec_in_range nv e w ex m NE NO) as IR.
  destruct (dquery_weighted R C NV P IR cw E1 E2 L true) as (A & _). destruct (dquery_weighted R C NV P IR cw E1 E2 L false) as (B & _).
  eexists _, _. split; [apply A|]. split; [apply B|]. intros i.
  split; [exact (spmv_dir RT (combine (combine src dst) cw) true X i) | exact (spmv_dir RT (combine (combine src dst) cw) false X i)].
Qed.
Example exd_custom : exists s src dst cw, d_reach 4 exd_e exd_w false MSum exd_ops s /\
  snd (d_query dqSrc s) = Ok (OIdx src) /\ snd (d_query dqDst s) = Ok (OIdx dst) /\ length cw = length src /\ src = [0; 0; 1; 1; 2; 3; 3] /\
  snd (d_query (dqV2v (fun _ => q 1) AggrSum (Some cw) (Some true) None) s) = Ok (OVals [q 4; q 13; q 5; q 7]).
Proof.
  eexists _, _, _, [q 1; q 3; q 3; q 4; q 5; q 6; q 7]. split; [eexists; split; reflexivity|].
  split; [vm_compute; reflexivity|]. split; [vm_compute; reflexivity|]. split; [reflexivity|]. split; [reflexivity|]. vm_compute. qceq.
Qed.

(** * C78: custom-weight mean of DiGraph.v2v *)
Theorem C78_weighted_mean_actual : forall (T : Type) (N : Num T),
  ring_theory (@nz T N) n1 nadd nmul nsub nopp eq ->
  forall nv e w ex m ops (s : digraph T) src dst cw, d_reach nv e w ex m ops s -> reverse_safe nv true ops = true ->
  nonneg_new e -> Forall nonneg_dop ops ->
  snd (d_query dqSrc s) = Ok (OIdx src) -> snd (d_query dqDst s) = Ok (OIdx dst) -> length cw = length src ->
  forall X, exists f,
    snd (d_query (dqV2v X AggrMean (Some cw) (Some true) None) s) = Ok (OVals (map f (range nv))) /\
    forall i,
      f i = nmul (sumf (combine (combine src dst) cw) (fun x => if snd (fst x) =? i then snd x else nz))
        (sumf (combine (combine src dst) cw) (fun x => if snd (fst x) =? i then nmul (snd x) (X (fst (fst x))) else nz)).
Proof.
  intros T N RT nv e w ex m ops s src dst cw H SF NE NO E1 E2 L X. destruct (dreach_rel H SF) as (R & C & NV & P).
  pose proof (dspec_in_range nv e w ex m NE NO) as IR.
  destruct (dquery_weighted R C NV P IR cw E1 E2 L true) as (A & _).
  eexists _. split; [apply A|]. intros i. unfold mean_weighted.
  f_equal; [exact (rowsum_dir RT (combine (combine src dst) cw) true i) | exact (spmv_dir RT (combine (combine src dst) cw) true X i)].
Qed.
Theorem C78_weighted_mean_refuted : exists (s : digraph Qc) cw,
  d_reach 2 (Some (EOne 0 1)) WNone false MMean [] s /\ Forall (fun w => (0 < w)%Qc) cw /\
  snd (d_query (dqV2v (fun _ => q 1) AggrMean (Some cw) (Some true) None) s) = Ok (OVals [q 0; q 4]).
Proof.
  eexists _, [q 2]. split; [eexists; split; reflexivity|]. split; [repeat constructor|]. vm_compute. qceq.
Qed.

(** * C20 *)
(** [knn_row]: the row the k-d tree returns holds the nearest points; the points are pairwise different.
    [tk]: how many points are requested (k including the vertex itself, or k+1). *)
Theorem C20_knn : forall nv k dist nbr (dw center as_src : bool),
  let tk := if center then k else k + 1 in
  2 <= tk -> k <= nv -> 0 < nv ->
  (forall v, 0 <= v < nv -> knn_row nv tk dist v (nbr v)) ->
  (forall v, 0 <= v < nv -> dist v v = 0%R) -> (forall u v, u <> v -> (0 < dist v u)%R) ->
  exists s A, d_knn nv k nbr dw center as_src = Ok s /\ snd (d_query dqA s) = Ok (OM A) /\
  forall v, 0 <= v < nv -> exists l,
    snd (d_query (if as_src then dqNout v else dqNin v) s) = Ok (OIdx l) /\ NoDup l /\ length l = Z.to_nat k /\
    (In v l <-> center = true) /\
    (forall u u', In u l -> 0 <= u' < nv -> ~ In u' l -> u' <> v -> (dist v u <= dist v u')%R) /\
    (forall u, In u l -> mget A (if as_src then v else u) (if as_src then u else v) =
       if u =? v then 1%R else if dw then exp (- dist v u) else 1%R).
Proof. intros. apply knn_main; auto. Qed.
Definition ex_dist (v u : Z) : R := Rabs (IZR v - IZR u).
Definition ex_nbr (v : Z) : list (Z * R) :=
  if v =? 0 then [(0, ex_dist 0 0); (1, ex_dist 0 1)] else if v =? 1 then [(1, ex_dist 1 1); (0, ex_dist 1 0)] else [(2, ex_dist 2 2); (1, ex_dist 2 1)].
Example ex_knn : (forall v, 0 <= v < 3 -> knn_row 3 (1 + 1) ex_dist v (ex_nbr v)) /\
  (forall v, 0 <= v < 3 -> ex_dist v v = 0%R) /\ (forall u v, u <> v -> (0 < ex_dist v u)%R).
Proof.
  split; [|split].
  - intros v V. assert (v = 0 \/ v = 1 \/ v = 2) as [ -> | [ -> | -> ] ] by lia;
      unfold knn_row, ex_nbr; cbn [Z.eqb Pos.eqb]; (split; [reflexivity|]); (split; [repeat constructor; cbn; lia|]);
      (split; [repeat constructor; cbn; lia|]); (split; [repeat constructor; cbn; unfold ex_dist, Rabs; repeat destruct Rcase_abs; lra|]);
      intros x u [<-|[<-|[]]] U NI; assert (u = 0 \/ u = 1 \/ u = 2) as [ -> | [ -> | -> ] ] by lia; cbn in NI; try (exfalso; lia);
      cbn; unfold ex_dist, Rabs; repeat destruct Rcase_abs; lra.
  - intros v _. unfold ex_dist. rewrite Rminus_diag_eq by auto. apply Rabs_R0.
  - intros u v D. unfold ex_dist. apply Rabs_pos_lt. intros E. apply D. apply eq_IZR. lra.
Qed.
