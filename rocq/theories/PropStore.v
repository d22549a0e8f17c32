(** Properties C09-C13, C74, C79, C81-C84: copying, saving, dropping, rejecting and merging, for Graph, DiGraph and BiGraph. *)
From Coq Require Import Permutation Reals Lra QArith Qcanon.
From Verif Require Import Num PyDict PyDictFacts Coo CooFacts MatFacts RealFacts ModelBase CacheFacts ModelGraph GraphFacts SpecGraph SpecGraphOps
  StoreFacts GraphStore GraphMatrix RebuildFacts GraphReach PropGraph ModelDiGraph SpecDiGraph DiGraphFacts DiGraphReach PropDiGraph
  ModelBiGraph SpecBiGraph BiGraphFacts PropBiGraph ModelHeap HeapFacts PersistFacts.
Set Implicit Arguments.
Local Open Scope Z_scope.
Local Notation q z := (Q2Qc (inject_Z z)).

(** * C09 *)
(** A clone and a reloaded copy give the same answers as the original, call by call, under every later
    history of queries and mutations; a file of another class is refused. *)
Theorem C09_graph : forall (T : Type) (N : Num T) nv e w ex m ops (s : graph T),
  g_reach nv e w ex m ops s ->
  (forall later, snd (g_run later (g_clone s)) = snd (g_run later s)) /\
  exists s', g_load (g_save s) = Ok s' /\ load_structure (g_save s) = Ok (SGraph s') /\
    (forall later, snd (g_run later s') = snd (g_run later s)) /\
    d_load (g_save s) = Err AssertionError /\ b_load (g_save s) = Err AssertionError.
Proof.
  intros T N nv e w ex m ops s H. pose proof (reach_rel H) as (R & C & NV & P).
  split; [intros; unfold g_clone; rewrite st_eta; reflexivity|].
  exists (mkSt (st_raw s) []). unfold load_structure, g_load, g_save, g_state_dict, g_from_state_dict. rewrite NV.
  replace (0 <? nv) with true by (symmetry; apply Z.ltb_lt; auto). repeat (split; [reflexivity|]). split; [|auto].
  intros later. apply g_run_det; auto. apply coh_empty.
Qed.
(** For DiGraph the reloaded copy agrees as long as reverse_direction is never called on a graph with
    cached results (the defect of C77); the clone copies the cache and always agrees. *)
Theorem C09_digraph : forall (T : Type) (N : Num T) nv e w ex m ops (s : digraph T),
  d_reach nv e w ex m ops s ->
  (forall later, snd (d_run later (d_clone s)) = snd (d_run later s)) /\
  exists s', d_load (d_save s) = Ok s' /\ load_structure (d_save s) = Ok (SDiGraph s') /\
    (forall later, reverse_safe nv true (ops ++ later) = true -> snd (d_run later s') = snd (d_run later s)) /\
    g_load (d_save s) = Err AssertionError /\ b_load (d_save s) = Err AssertionError.
Proof.
  intros T N nv e w ex m ops s H. pose proof (dreach_raw H) as (R & NV & P).
  split; [intros; unfold d_clone; rewrite st_eta; reflexivity|].
  exists (mkSt (st_raw s) []). unfold load_structure, d_load, d_save, d_state_dict, d_from_state_dict. rewrite NV.
  replace (0 <? nv) with true by (symmetry; apply Z.ltb_lt; auto). repeat (split; [reflexivity|]). split; [|auto].
  intros later SF. rewrite reverse_safe_app in SF. apply andb_true_iff in SF as [S1 S2].
  assert (CS : cstate (fold_left (clean_step nv) ops true) s).
  { destruct H as (s0 & E & ->). destruct (dnew_rel _ _ _ _ _ E) as (R0 & C0 & N0 & _). eapply drun_cstate; eauto. }
  symmetry. eapply (@d_run_det T N later nv _ true s (mkSt (st_raw s) [])); eauto.
  - split; [apply coh_empty|auto].
  - eapply safe_mono; [|exact S2]; auto.
Qed.
Theorem C09_bigraph : forall (T : Type) (N : Num T) nu nv e w m ops (s : bigraph T),
  b_reach nu nv e w m ops s ->
  (forall later, snd (b_run later (b_clone s)) = snd (b_run later s)) /\
  exists s', b_load (b_save s) = Ok s' /\ load_structure (b_save s) = Ok (SBiGraph s') /\
    (forall later, snd (b_run later s') = snd (b_run later s)) /\
    g_load (b_save s) = Err AssertionError /\ d_load (b_save s) = Err AssertionError.
Proof.
  intros T N nu nv e w m ops s H. pose proof (breach_rel H) as (C & R & U & V & P).
  split; [intros; unfold b_clone; rewrite st_eta; reflexivity|].
  exists (mkSt (st_raw s) []). unfold load_structure, b_load, b_save, b_state_dict, b_from_state_dict. rewrite V.
  replace (0 <? nv) with true by (symmetry; apply Z.ltb_lt; auto). repeat (split; [reflexivity|]). split; [|auto].
  intros later. apply b_run_det; auto. apply coh_empty.
Qed.
(** a state dict that was not made by state_dict(): from_state_dict refuses it exactly if its number of vertices is not positive; otherwise
    state_dict() of the new structure gives it back *)
Theorem C09_state_dict : forall (T : Type) (N : Num T),
  (forall r : raw T, (r_nv r <= 0 -> g_from_state_dict r = Err AssertionError) /\
     (0 < r_nv r -> exists s, g_from_state_dict r = Ok s /\ g_state_dict s = r)) /\
  (forall r : raw T, (r_nv r <= 0 -> d_from_state_dict r = Err AssertionError) /\
     (0 < r_nv r -> exists s, d_from_state_dict r = Ok s /\ d_state_dict s = r)) /\
  (forall r : braw T, (b_nv r <= 0 -> b_from_state_dict r = Err AssertionError) /\
     (0 < b_nv r -> exists s, b_from_state_dict r = Ok s /\ b_state_dict s = r)) /\
  (forall d : Z * dict String.string (dict (list Z) T), (fst d <= 0 -> ModelHyper.h_from_state_dict d = Err AssertionError) /\
     (0 < fst d -> exists s, ModelHyper.h_from_state_dict d = Ok s /\ ModelHyper.h_state_dict s = d)).
Proof.
  intros T N. unfold g_from_state_dict, d_from_state_dict, b_from_state_dict, ModelHyper.h_from_state_dict.
  split; [|split; [|split]]; intros r; (split; intros L; [rewrite (proj2 (Z.ltb_ge 0 _) L)|rewrite (proj2 (Z.ltb_lt 0 _) L)]);
    try reflexivity; eexists; (split; [reflexivity|]); destruct r; reflexivity.
Qed.
(** the file really holds the edges: a graph with edges, self-loops and a warm cache comes back with all of them *)
Example ex_reload : exists s s', g_reach 4 ex_e ex_w false MMean ex_ops s /\ g_load (g_save s) = Ok s' /\
  snd (g_query QE s') = Ok (OE [(0, 1); (0, 3); (1, 3); (2, 2); (0, 0); (1, 1); (2, 2); (3, 3)]
                              [q 3; q 7; q 7; q 5; q 1; q 1; q 1; q 1]).
Proof. eexists _, _; split; [eexists; split; reflexivity|]. split; [vm_compute; reflexivity|]. vm_compute. qceq. Qed.

(** * C10 *)
(** [w_run] executes calls on any number of structures whose dicts live in one heap.  Whatever else
    happens (constructors, clones, state dicts handed out, loads, calls on other structures), structure [i]
    is in the state, and has given the answers, that its own calls alone produce. *)
Section C10.
  Context (T : Type) (N : Num T).
  Lemma alone_graph ps (s : graph T) : alone graph_class ps s = (fst (g_run ps s), map Some (snd (g_run ps s))).
  Proof.
    revert s; induction ps as [|p ps IH]; intros s; cbn [alone g_run]; auto. cbn [h_call graph_class].
    destruct (g_step p s) as [s1 x]. rewrite IH. destruct (g_run ps s1); reflexivity.
  Qed.
  Lemma alone_digraph ps (s : digraph T) : alone digraph_class ps s = (fst (d_run ps s), map Some (snd (d_run ps s))).
  Proof.
    revert s; induction ps as [|p ps IH]; intros s; cbn [alone d_run]; auto. cbn [h_call digraph_class].
    destruct (d_step p s) as [s1 x]. rewrite IH. destruct (d_run ps s1); reflexivity.
  Qed.
  Lemma alone_bigraph ps (s : bigraph T) : alone bigraph_class ps s = (fst (b_run ps s), map Some (snd (b_run ps s))).
  Proof.
    revert s; induction ps as [|p ps IH]; intros s; cbn [alone b_run]; auto. cbn [h_call bigraph_class].
    destruct (b_step p s) as [s1 x]. rewrite IH. destruct (b_run ps s1); reflexivity.
  Qed.
End C10.
Theorem C10_graph : forall (T : Type) (N : Num T) before i (s : graph T) later,
  let W := fst (w_run (@w_empty graph_class) before) in
  look W i = Some s ->
  look (fst (w_run W later)) i = Some (fst (g_run (own i later) s)) /\
  own_out i later (snd (w_run W later)) = map Some (snd (g_run (own i later) s)).
Proof.
  intros T N before i s later W L.
  destruct (run_sep graph_ok before (sep_empty graph_class)) as [SP _].
  destruct (run_own graph_ok later i SP L) as [A B]. rewrite alone_graph in A, B. split; [exact A|exact B].
Qed.
Theorem C10_digraph : forall (T : Type) (N : Num T) before i (s : digraph T) later,
  let W := fst (w_run (@w_empty digraph_class) before) in
  look W i = Some s ->
  look (fst (w_run W later)) i = Some (fst (d_run (own i later) s)) /\
  own_out i later (snd (w_run W later)) = map Some (snd (d_run (own i later) s)).
Proof.
  intros T N before i s later W L.
  destruct (run_sep digraph_ok before (sep_empty digraph_class)) as [SP _].
  destruct (run_own digraph_ok later i SP L) as [A B]. rewrite alone_digraph in A, B. split; [exact A|exact B].
Qed.
Theorem C10_bigraph : forall (T : Type) (N : Num T) before i (s : bigraph T) later,
  let W := fst (w_run (@w_empty bigraph_class) before) in
  look W i = Some s ->
  look (fst (w_run W later)) i = Some (fst (b_run (own i later) s)) /\
  own_out i later (snd (w_run W later)) = map Some (snd (b_run (own i later) s)).
Proof.
  intros T N before i s later W L.
  destruct (run_sep bigraph_ok before (sep_empty bigraph_class)) as [SP _].
  destruct (run_own bigraph_ok later i SP L) as [A B]. rewrite alone_bigraph in A, B. split; [exact A|exact B].
Qed.
(** a clone starts with the state of its source, a structure made by from_state_dict with the contents of the
    state dict at that moment (here: taken just before) *)
Theorem C10_copies : forall (T : Type) (N : Num T) before i (s : graph T),
  let W := fst (w_run (@w_empty graph_class) before) in
  let new := length (w_objs W) in
  look W i = Some s -> 0 < r_nv (st_raw s) ->
  look (fst (w_run W [WDerive graph_class i GClone])) new = Some s /\
  look (fst (w_run W [WState graph_class i; WFrom graph_class (length (w_hands W))])) new = Some (mkSt (st_raw s) []).
Proof.
  intros T N before i s W new L P.
  destruct (run_sep graph_ok before (sep_empty graph_class)) as [SP _]. split.
  - unfold w_run. pose proof (@derive_facts graph_class graph_ok W i GClone s (g_clone s) SP L eq_refl) as D. fold W in D.
    destruct (w_step W (WDerive graph_class i GClone)); cbn [fst] in *. etransitivity; [exact D|]. destruct s; reflexivity.
  - pose proof (@from_facts graph_class graph_ok W i s (mkSt (st_raw s) []) SP L) as D. cbv zeta in D. unfold w_run.
    destruct (w_step W (WState graph_class i)) as [W1 x]; cbn [fst] in D. destruct (w_step W1 (WFrom graph_class (length (w_hands W)))); cbn [fst] in *. apply D.
    cbn. unfold g_state_dict, g_from_state_dict. replace (0 <? r_nv (st_raw s)) with true by (symmetry; apply Z.ltb_lt; auto). reflexivity.
Qed.
(** three structures, calls interleaved: the clone does not see the edge added to its source, and vice versa *)
Definition ex_g0 : graph Qc := mkSt (mkRaw 4 [((0, 1), q 2)] [(3, q 5)] false) [].
Definition ex_world : list (wop (@graph_class Qc _)) :=
  [WNew graph_class ex_g0; WCall graph_class 0 (Query QA); WDerive graph_class 0 GClone;
   WCall graph_class 0 (AddEdges (EOne 1 2) (WNum (q 7)) MSum); WCall graph_class 1 (RemoveEdges (EOne 1 0));
   WState graph_class 0; WFrom graph_class 0; WCall graph_class 0 RemoveLoops;
   WCall graph_class 0 (Query QE); WCall graph_class 1 (Query QE); WCall graph_class 2 (Query QE)].
Example ex_aliasing : skipn 8 (snd (w_run w_empty ex_world)) =
  [Some (Ok (OE [(0, 1); (1, 2)] [q 2; q 7])); Some (Ok (OE [(3, 3)] [q 5])); Some (Ok (OE [(0, 1); (1, 2); (3, 3)] [q 2; q 7; q 5]))].
Proof. vm_compute. qceq. Qed.

(** * C83: a state dict is a live view *)
(** [state_dict] returns the live dicts (graph.py:47-56): an edge added AFTER the state dict was taken is
    part of the structure later built from it *)
Theorem C83_state_dict_live_refuted : exists (ops : list (wop (@graph_class Qc _))) (s s2 : graph Qc),
  let W := fst (w_run w_empty [WNew graph_class ex_g0; WState graph_class 0]) in
  look W 0 = Some s /\
  ops = [WCall graph_class 0 (AddEdges (EOne 1 2) (WNum (q 7)) MSum); WFrom graph_class 0] /\
  look (fst (w_run W ops)) 1 = Some s2 /\
  snd (g_query QE s) = Ok (OE [(0, 1); (3, 3)] [q 2; q 5]) /\
  snd (g_query QE s2) = Ok (OE [(0, 1); (1, 2); (3, 3)] [q 2; q 7; q 5]).
Proof.
  eexists _, _, _. cbv zeta. split; [vm_compute; reflexivity|]. split; [reflexivity|]. split; [vm_compute; reflexivity|].
  split; vm_compute; qceq.
Qed.

(** * C11 *)
(** [draw i] is the i-th value of random.random(); the edge at position [i] of the stored list survives
    iff it exceeds [rate].  The result is the graph built from the survivors with their weights. *)
Definition exceeds (rate : R) (draw : nat -> R) (i : nat) : bool := if Rlt_dec rate (draw i) then true else false.
Theorem C11_graph : forall (T : Type) (N : Num T) nv e w ex m ops (s : graph T) rate draw,
  g_reach nv e w ex m ops s ->
  exists proper s', let kept := survivors (exceeds rate draw) proper in
    snd (g_query QE (fst (g_step RemoveExtra s))) = Ok (OE (map fst proper) (map snd proper)) /\
    g_drop_edges (exceeds rate draw) true s = Ok s' /\
    snd (g_query QE (fst (g_step RemoveExtra s'))) = Ok (OE (map fst kept) (map snd kept)) /\
    g_reach nv (Some (EMany (map fst kept))) (WList (map snd kept)) (ax (g_spec nv e w ex m ops)) MSum [] s'.
Proof.
  intros T N nv e w ex m ops s rate draw H. destruct (g_drop_main (exceeds rate draw) H) as (pr & s' & A & B & D & E).
  exists pr, s'. auto.
Qed.
Theorem C11_digraph : forall (T : Type) (N : Num T) nv e w ex m ops (s : digraph T) rate draw,
  d_reach nv e w ex m ops s ->
  exists proper s', let kept := survivors (exceeds rate draw) proper in
    snd (d_query dqE (fst (d_step dRemoveExtra s))) = Ok (OE (map fst proper) (map snd proper)) /\
    d_drop_edges (exceeds rate draw) true s = Ok s' /\
    snd (d_query dqE (fst (d_step dRemoveExtra s'))) = Ok (OE (map fst kept) (map snd kept)) /\
    d_reach nv (Some (EMany (map fst kept))) (WList (map snd kept)) (ax (d_spec nv e w ex m ops)) MSum [] s'.
Proof.
  intros T N nv e w ex m ops s rate draw H. destruct (d_drop_main (exceeds rate draw) H) as (pr & s' & A & B & D & E).
  exists pr, s'. auto.
Qed.
Theorem C11_bigraph : forall (T : Type) (N : Num T) nu nv e w m ops (s : bigraph T) rate draw,
  b_reach nu nv e w m ops s ->
  exists stored s', let kept := survivors (exceeds rate draw) stored in
    snd (b_query bqE s) = Ok (OE (map fst stored) (map snd stored)) /\
    b_drop_edges (exceeds rate draw) true s = Ok s' /\
    snd (b_query bqE s') = Ok (OE (map fst kept) (map snd kept)) /\
    b_reach nu nv (Some (EMany (map fst kept))) (WList (map snd kept)) MSum [] s'.
Proof.
  intros T N nu nv e w m ops s rate draw H. destruct (b_drop_main (exceeds rate draw) H) as (pr & s' & A & B & D & E).
  exists pr, s'. auto.
Qed.
(** the extreme rates *)
Theorem C11_extremes : forall (A : Type) (l : list A) rate draw,
  ((rate <= 0)%R -> (forall i, 0 < draw i)%R -> survivors (exceeds rate draw) l = l) /\
  ((1 <= rate)%R -> (forall i, draw i < 1)%R -> survivors (exceeds rate draw) l = []).
Proof.
  intros A l rate draw. split; intros RT D.
  - apply surv_all. intros i. unfold exceeds. destruct (Rlt_dec rate (draw i)) as [|Q]; auto. exfalso. apply Q. specialize (D i). lra.
  - apply surv_none. intros i. unfold exceeds. destruct (Rlt_dec rate (draw i)) as [Q|]; auto. exfalso. specialize (D i). lra.
Qed.
(** an unknown [ord] is refused *)
Theorem C11_bad_ord : forall (T : Type) (N : Num T) keep,
  (forall s : graph T, g_drop_edges keep false s = Err ValueError) /\ (forall s : digraph T, d_drop_edges keep false s = Err ValueError) /\
  (forall s : bigraph T, b_drop_edges keep false s = Err ValueError).
Proof. intros; repeat split. Qed.
(** positions count through the self-loops too: keeping only positions 0 and 3 of 4 stored edges *)
Example ex_drop : exists s s', g_reach 4 ex_e ex_w false MMean ex_ops s /\
  g_drop_edges (fun i => Nat.eqb i 0 || Nat.eqb i 3)%bool true s = Ok s' /\
  snd (g_query QE s') = Ok (OE [(0, 1); (2, 2); (0, 0); (1, 1); (2, 2); (3, 3)] [q 3; q 5; q 1; q 1; q 1; q 1]).
Proof. eexists _, _; split; [eexists; split; reflexivity|]. split; [vm_compute; reflexivity|]. vm_compute. qceq. Qed.

(** * C12 *)
Theorem C12_graph : forall (T : Type) (N : Num T) nv e w ex m ops (s : graph T),
  g_reach nv e w ex m ops s ->
  (* a call that raises changes nothing *)
  (forall e w m s' x, g_step (AddEdges e w m) s = (s', Err x) -> s' = s) /\
  (forall e s' x, g_step (RemoveEdges e) s = (s', Err x) -> s' = s) /\
  (* an endpoint >= num_v is rejected *)
  (forall e w m a b, In (a, b) (edges_of e) -> nv <= a \/ nv <= b ->
     snd (g_step (AddEdges e w m) s) = Err AssertionError /\ snd (g_step (RemoveEdges e) s) = Err AssertionError) /\
  (* an unknown merge_op is rejected *)
  (forall e w p ps, pairs_of e w = Some (p :: ps) -> endpoints_ok nv (edges_of e) = true ->
     snd (g_step (AddEdges e w MOther) s) = Err ValueError) /\
  (* everything else is accepted *)
  (forall e w m, snd (g_step (AddEdges e w m) s) = Ok OUnit <->
     edges_of e = [] \/ (endpoints_ok nv (edges_of e) = true /\ exists ps, pairs_of e w = Some ps /\ (known m = true \/ ps = []))).
Proof.
  intros T N nv e w ex m ops s H. pose proof (reach_rel H) as (R & C & NV & P). rewrite <- NV. split; [|split; [|split; [|split]]].
  - intros e1 w1 m1 s' x E. apply unit_out_err in E. apply add_edges_outcome in E as [(y & _ & -> & _)|[(Q & _)|(Q & _)]]; auto; discriminate.
  - intros e1 s' x E. apply unit_out_err in E. apply remove_edges_outcome in E as [(y & _ & -> & _)|(Q & _)]; auto; discriminate.
  - intros e1 w1 m1 a b I B. cbn [g_step]. rewrite !unit_out_snd. unfold g_add_edges, g_remove_edges.
    rewrite (add_bad norm_und e1 w1 m1 s I B), (remove_bad norm_und e1 s I B). auto.
  - intros e1 w1 p ps PE EO. cbn [g_step]. rewrite unit_out_snd. unfold g_add_edges. rewrite (add_bad_merge norm_und e1 w1 s PE EO). reflexivity.
  - intros e1 w1 m1. cbn [g_step]. rewrite unit_out_snd. unfold g_add_edges.
    assert (EM : edges_of e1 = [] <-> earg_empty e1 = true) by (destruct e1 as [|[|]]; cbn; split; congruence).
    rewrite EM, <- (add_ok_iff norm_und e1 w1 m1 s). destruct (snd (add_edges norm_und e1 w1 m1 s)) as [[]|]; split; congruence.
Qed.
Theorem C12_digraph : forall (T : Type) (N : Num T) nv e w ex m ops (s : digraph T),
  d_reach nv e w ex m ops s ->
  (forall e w m s' x, d_step (dAdd e w m) s = (s', Err x) -> s' = s) /\
  (forall e s' x, d_step (dRemove e) s = (s', Err x) -> s' = s) /\
  (forall e w m a b, In (a, b) (edges_of e) -> nv <= a \/ nv <= b ->
     snd (d_step (dAdd e w m) s) = Err AssertionError /\ snd (d_step (dRemove e) s) = Err AssertionError) /\
  (forall e w p ps, pairs_of e w = Some (p :: ps) -> endpoints_ok nv (edges_of e) = true ->
     snd (d_step (dAdd e w MOther) s) = Err ValueError) /\
  (forall e w m, snd (d_step (dAdd e w m) s) = Ok OUnit <->
     edges_of e = [] \/ (endpoints_ok nv (edges_of e) = true /\ exists ps, pairs_of e w = Some ps /\ (known m = true \/ ps = []))).
Proof.
  intros T N nv e w ex m ops s H. pose proof (dreach_raw H) as (R & NV & P). rewrite <- NV. split; [|split; [|split; [|split]]].
  - intros e1 w1 m1 s' x E. apply unit_out_err in E. apply add_edges_outcome in E as [(y & _ & -> & _)|[(Q & _)|(Q & _)]]; auto; discriminate.
  - intros e1 s' x E. apply unit_out_err in E. apply remove_edges_outcome in E as [(y & _ & -> & _)|(Q & _)]; auto; discriminate.
  - intros e1 w1 m1 a b I B. cbn [d_step]. rewrite !unit_out_snd. unfold d_add_edges, d_remove_edges.
    rewrite (add_bad norm_dir e1 w1 m1 s I B), (remove_bad norm_dir e1 s I B). auto.
  - intros e1 w1 p ps PE EO. cbn [d_step]. rewrite unit_out_snd. unfold d_add_edges. rewrite (add_bad_merge norm_dir e1 w1 s PE EO). reflexivity.
  - intros e1 w1 m1. cbn [d_step]. rewrite unit_out_snd. unfold d_add_edges.
    assert (EM : edges_of e1 = [] <-> earg_empty e1 = true) by (destruct e1 as [|[|]]; cbn; split; congruence).
    rewrite EM, <- (add_ok_iff norm_dir e1 w1 m1 s). destruct (snd (add_edges norm_dir e1 w1 m1 s)) as [[]|]; split; congruence.
Qed.
Theorem C12_bigraph : forall (T : Type) (N : Num T) nu nv e w m ops (s : bigraph T),
  b_reach nu nv e w m ops s ->
  (forall e w m s' x, b_step (bAdd e w m) s = (s', Err x) -> s' = s) /\
  (forall e s' x, b_step (bRemove e) s = (s', Err x) -> s' = s) /\
  (forall e w m a b, In (a, b) (edges_of e) -> nu <= a \/ nv <= b ->
     snd (b_step (bAdd e w m) s) = Err AssertionError /\ snd (b_step (bRemove e) s) = Err AssertionError) /\
  (forall e w p ps, pairs_of e w = Some (p :: ps) -> ends_ok nu nv (edges_of e) = true ->
     snd (b_step (bAdd e w MOther) s) = Err ValueError) /\
  (forall e w m, snd (b_step (bAdd e w m) s) = Ok OUnit <->
     edges_of e = [] \/ (ends_ok nu nv (edges_of e) = true /\ exists ps, pairs_of e w = Some ps /\ (known m = true \/ ps = []))).
Proof.
  intros T N nu nv e w m ops s H. pose proof (breach_rel H) as (C & R & U & V & P). rewrite <- U, <- V. split; [|split; [|split; [|split]]].
  - intros e1 w1 m1 s' x E. apply unit_out_err in E. apply badd_outcome in E as [(y & _ & -> & _)|[(Q & _)|(Q & _)]]; auto; discriminate.
  - intros e1 s' x E. apply unit_out_err in E. apply bremove_outcome in E as [(y & _ & -> & _)|(Q & _)]; auto; discriminate.
  - intros e1 w1 m1 a b I B. cbn [b_step]. rewrite !unit_out_snd.
    rewrite (badd_bad e1 w1 m1 s I B), (bremove_bad e1 s I B). auto.
  - intros e1 w1 p ps PE EO. cbn [b_step]. rewrite unit_out_snd. rewrite (badd_bad_merge e1 w1 s PE EO). reflexivity.
  - intros e1 w1 m1. cbn [b_step]. rewrite unit_out_snd.
    assert (EM : edges_of e1 = [] <-> earg_empty e1 = true) by (destruct e1 as [|[|]]; cbn; split; congruence).
    rewrite EM, <- (badd_ok_iff e1 w1 m1 s). destruct (snd (b_add_edges e1 w1 m1 s)) as [[]|]; split; congruence.
Qed.
(** no graph without vertices, and no graph from rejected edges *)
Theorem C12_constructor : forall (T : Type) (N : Num T) nv e w ex m,
  (nv <= 0 -> @g_new T N nv e w ex m = Err AssertionError /\ @d_new T N nv e w ex m = Err AssertionError /\
     forall nu, @b_new T N nu nv e w m = Err AssertionError) /\
  (forall ea a b, e = Some ea -> In (a, b) (edges_of ea) -> 0 < nv -> nv <= a \/ nv <= b ->
     @g_new T N nv e w ex m = Err AssertionError /\ @d_new T N nv e w ex m = Err AssertionError).
Proof.
  intros T N nv e w ex m. split.
  - intros P. unfold g_new, d_new, b_new. replace (0 <? nv) with false by (symmetry; apply Z.ltb_ge; auto). auto.
  - intros ea a b -> I P B. unfold g_new, d_new. replace (0 <? nv) with true by (symmetry; apply Z.ltb_lt; auto).
    pose proof (@add_bad T N norm_und ea w m (mkSt (mkRaw nv [] [] ex) []) a b I B) as A1.
    pose proof (@add_bad T N norm_dir ea w m (mkSt (mkRaw nv [] [] ex) []) a b I B) as A2.
    unfold g_add_edges, d_add_edges.
    destruct (add_edges norm_und ea w m (mkSt (mkRaw nv [] [] ex) [])) as [s1 r1], (add_edges norm_dir ea w m (mkSt (mkRaw nv [] [] ex) [])) as [s2 r2].
    cbn [snd] in *. subst. auto.
Qed.
(** rejections of both kinds do happen on a reachable graph, after which it still works *)
Example ex_reject : exists s, g_reach 4 ex_e ex_w false MMean ex_ops s /\
  snd (g_run [AddEdges (EMany [(0, 1); (1, 4)]) WNone MSum; AddEdges (EMany [(0, 1); (1, 2)]) WNone MOther; RemoveEdges (EOne 4 0); Query QNumE] s) =
  [Err AssertionError; Err ValueError; Err AssertionError; Ok (OZ 8)].
Proof. eexists; split; [eexists; split; reflexivity|]. vm_compute. reflexivity. Qed.

(** * C79: negative vertices *)
(** Negative vertex numbers pass the bounds check: the call succeeds, the edge is reported, and from then
    on the adjacency matrix (hence every matrix and message passing query) raises RuntimeError. *)
Theorem C79_negative_accepted_actual : forall (T : Type) (N : Num T) nv e w ex m ops (s : graph T) a b x,
  g_reach nv e w ex m ops s -> a < nv -> b < nv -> a < 0 \/ b < 0 ->
  let s' := fst (g_step (AddEdges (EOne a b) (WNum x) MSum) s) in
  snd (g_step (AddEdges (EOne a b) (WNum x) MSum) s) = Ok OUnit /\
  (exists es ws y, snd (g_query QE s') = Ok (OE es ws) /\ (In ((a, b), y) (combine es ws) \/ In ((b, a), y) (combine es ws))) /\
  snd (g_query QA s') = Err RuntimeError /\ snd (g_query QD s') = Err RuntimeError /\
  (forall X, snd (g_query (QV2v X AggrSum None None) s') = Err RuntimeError).
Proof.
  intros T N nv e w ex m ops s a b x H A B NG s'.
  assert (OKA : snd (g_step (AddEdges (EOne a b) (WNum x) MSum) s) = Ok OUnit).
  { pose proof (C12_graph H) as (_ & _ & _ & _ & I). apply I. right. split.
    - cbn. apply Z.ltb_lt in A, B. rewrite A, B; reflexivity.
    - eexists; split; [reflexivity|]. auto. }
  split; auto.
  assert (H' : g_reach nv e w ex m (ops ++ [AddEdges (EOne a b) (WNum x) MSum]) s').
  { destruct H as (s0 & E & ->). exists s0. split; auto. rewrite g_run_snoc. reflexivity. }
  pose proof (reach_rel H') as (R & C & NV & P).
  assert (AW : exists y, aw (g_spec nv e w ex m (ops ++ [AddEdges (EOne a b) (WNum x) MSum])) a b = Some y).
  { unfold g_spec. rewrite fold_left_app. cbn [fold_left g_spec_step]. unfold a_add_edges; cbn [pairs_of edges_of endpoints_ok forallb fst snd].
    apply Z.ltb_lt in A, B. rewrite A, B. cbn. unfold a_add; cbn. unfold same_undirected. rewrite !Z.eqb_refl; cbn. eauto. }
  destruct AW as [y AW]. split; [|].
  - destruct (reported_edges R C NV P) as (es & ws & pr & E1 & _ & _ & E2 & _ & E3). exists es, ws, y. split; auto. rewrite E2.
    apply E3 in AW as [I|I]; [left|right]; apply in_or_app; auto.
  - assert (NB : in_box nv nv (a, b) = false).
    { unfold in_box; cbn. destruct NG as [G|G]; apply Z.leb_gt in G; rewrite G; cbn; rewrite ?andb_false_r; auto. }
    destruct (reported_edges R C NV P) as (es & ws & pr & E1 & _ & _ & E2 & _ & E3).
    assert (I : In (a, b) es \/ In (b, a) es).
    { apply E3 in AW as [I|I]; [left|right]; (assert (J : In _ (combine es ws)) by (rewrite E2; apply in_or_app; left; exact I));
        eapply in_combine_l; exact J. }
    rewrite (good_answer (good_query QE) C) in E1. cbn [p_query] in E1. injection E1 as E1 _.
    assert (PA : p_A (st_raw s') = Err RuntimeError).
    { destruct I as [I|I]; rewrite <- E1 in I; (eapply pA_negative; [lia|exact I|]); rewrite NV; unfold in_box; cbn;
        destruct NG as [G|G]; apply Z.leb_gt in G; rewrite G; cbn; rewrite ?andb_false_r; auto. }
    split; [|split; [|intros X]]; rewrite (good_answer (good_query _) C); cbn [p_query]; unfold p_D, p_v2v; cbn [aggr_ok]; rewrite PA; reflexivity.
Qed.
Example ex_negative : exists s, g_reach 4 ex_e ex_w false MMean ex_ops s /\ snd (g_run [AddEdges (EOne (-1) 2) (WNum (q 1)) MSum; Query QNumE; Query QA] s) = [Ok OUnit; Ok (OZ 9); Err RuntimeError].
Proof. eexists; split; [eexists; split; reflexivity|]. vm_compute. reflexivity. Qed.

(** * C13 *)
(** calls add_edges(edges, weights, merge_op=m), one per batch *)
Definition g_calls {T} (m : mop) (bs : list (list ((Z * Z) * T))) : list (gop T) := map (fun b => AddEdges (fst (args b)) (snd (args b)) m) bs.
Definition d_calls {T} (m : mop) (bs : list (list ((Z * Z) * T))) : list (dop T) := map (fun b => dAdd (fst (args b)) (snd (args b)) m) bs.
Definition b_calls {T} (m : mop) (bs : list (list ((Z * Z) * T))) : list (bop T) := map (fun b => bAdd (fst (args b)) (snd (args b)) m) bs.
(** two structures report the same weighted edges (up to orientation when [und]) *)
Definition same_report {T} (r1 r2 : res (out T)) (und : bool) : Prop :=
  exists es1 ws1 es2 ws2, r1 = Ok (OE es1 ws1) /\ r2 = Ok (OE es2 ws2) /\ forall a b w,
    (In ((a, b), w) (combine es1 ws1) \/ (und = true /\ In ((b, a), w) (combine es1 ws1))) <->
    (In ((a, b), w) (combine es2 ws2) \/ (und = true /\ In ((b, a), w) (combine es2 ws2))).
(** order and grouping do not matter: sums over any commutative ring, maxima over the reals *)
Definition order_free {T} (N : Num T) (m : mop) : Prop :=
  (forall x y z : T, merged m (merged m x y) z = merged m (merged m x z) y) /\ (forall x y : T, merged m x y = merged m y x).
Theorem C13_order_free : (forall (T : Type) (N : Num T), ring_theory (@nz T N) n1 nadd nmul nsub nopp eq -> order_free N MSum) /\ order_free Num_R MMax.
Proof.
  split.
  - intros T N RT. split; cbn; intros.
    + rewrite <- !(Radd_assoc RT). f_equal. apply (Radd_comm RT).
    + apply (Radd_comm RT).
  - split; cbn; intros.
    + rewrite !Rmax_assoc || idtac. unfold Rmax. repeat destruct (Rle_dec _ _); lra.
    + apply Rmax_comm.
Qed.
Theorem C13_graph : forall (T : Type) (N : Num T) nv e w ex m0 ops (s : graph T) m bs1 bs2,
  g_reach nv e w ex m0 ops s -> order_free N m -> known m = true ->
  Permutation (concat bs1) (concat bs2) -> endpoints_ok nv (map fst (concat bs1)) = true ->
  same_report (snd (g_query QE (fst (g_run (g_calls m bs1) s)))) (snd (g_query QE (fst (g_run (g_calls m bs2) s)))) true.
Proof.
  intros T N nv e w ex m0 ops s m bs1 bs2 H [AC CM] K PM EO. apply reach_rel in H as (R & C & NV & P).
  assert (EO2 : endpoints_ok nv (map fst (concat bs2)) = true).
  { rewrite <- EO. symmetry. apply perm_forallb. apply Permutation_map; auto. }
  destruct (run_rel (g_calls m bs1) R C NV) as (R1 & C1 & N1). destruct (run_rel (g_calls m bs2) R C NV) as (R2 & C2 & N2).
  unfold g_calls in R1, R2. rewrite g_batches in R1, R2 by auto.
  destruct (reported_edges R1 C1 N1 P) as (es1 & ws1 & p1 & E1 & _ & _ & Q1 & _ & V1).
  destruct (reported_edges R2 C2 N2 P) as (es2 & ws2 & p2 & E2 & _ & _ & Q2 & _ & V2).
  exists es1, ws1, es2, ws2. split; auto. split; auto. intros a b x. rewrite Q1, Q2, !in_app_iff. cbn [aw ax] in *.
  pose proof (@fold_add_perm T N same_undirected m AC CM _ _ PM (aw (g_spec nv e w ex m0 ops)) _ (fun _ _ => eq_refl) a b) as EQ.
  specialize (V1 a b x). specialize (V2 a b x). rewrite EQ in V1. tauto.
Qed.
Theorem C13_digraph : forall (T : Type) (N : Num T) nv e w ex m0 ops (s : digraph T) m bs1 bs2,
  d_reach nv e w ex m0 ops s -> reverse_safe nv true ops = true -> order_free N m -> known m = true ->
  Permutation (concat bs1) (concat bs2) -> endpoints_ok nv (map fst (concat bs1)) = true ->
  same_report (snd (d_query dqE (fst (d_run (d_calls m bs1) s)))) (snd (d_query dqE (fst (d_run (d_calls m bs2) s)))) false.
Proof.
  intros T N nv e w ex m0 ops s m bs1 bs2 H SF [AC CM] K PM EO. apply dreach_rel in H as (R & C & NV & P); auto.
  assert (EO2 : endpoints_ok nv (map fst (concat bs2)) = true).
  { rewrite <- EO. symmetry. apply perm_forallb. apply Permutation_map; auto. }
  assert (SF' : forall bs c, reverse_safe nv c (d_calls m bs) = true).
  { induction bs as [|b bs IH]; intros c; cbn; auto. }
  destruct (drun_rel (d_calls m bs1) s R NV) as (R1 & N1). destruct (drun_rel (d_calls m bs2) s R NV) as (R2 & N2).
  assert (CS : cstate false s) by (split; [auto|discriminate]).
  pose proof (drun_clean (d_calls m bs1) R NV CS (SF' _ _)) as C1. pose proof (drun_clean (d_calls m bs2) R NV CS (SF' _ _)) as C2.
  unfold d_calls in R1, R2. rewrite d_batches in R1, R2 by auto.
  destruct (dreported R1 C1 N1 P) as (es1 & ws1 & p1 & E1 & _ & _ & Q1 & _ & V1).
  destruct (dreported R2 C2 N2 P) as (es2 & ws2 & p2 & E2 & _ & _ & Q2 & _ & V2).
  exists es1, ws1, es2, ws2. split; auto. split; auto. intros a b x. rewrite Q1, Q2, !in_app_iff. cbn [aw ax] in *.
  pose proof (@fold_add_perm T N same_directed m AC CM _ _ PM (aw (d_spec nv e w ex m0 ops)) _ (fun _ _ => eq_refl) a b) as EQ.
  specialize (V1 a b x). specialize (V2 a b x). rewrite EQ in V1. intuition discriminate.
Qed.
Theorem C13_bigraph : forall (T : Type) (N : Num T) nu nv e w m0 ops (s : bigraph T) m bs1 bs2,
  b_reach nu nv e w m0 ops s -> order_free N m -> known m = true ->
  Permutation (concat bs1) (concat bs2) -> ends_ok nu nv (map fst (concat bs1)) = true ->
  same_report (snd (b_query bqE (fst (b_run (b_calls m bs1) s)))) (snd (b_query bqE (fst (b_run (b_calls m bs2) s)))) false.
Proof.
  intros T N nu nv e w m0 ops s m bs1 bs2 H [AC CM] K PM EO. apply breach_rel in H as (C & R & U & V & P).
  assert (EO2 : ends_ok nu nv (map fst (concat bs2)) = true).
  { rewrite <- EO. symmetry. apply perm_forallb. apply Permutation_map; auto. }
  destruct (brun_rel (b_calls m bs1) C R U V) as (C1 & R1 & _). destruct (brun_rel (b_calls m bs2) C R U V) as (C2 & R2 & _).
  unfold b_calls in R1, R2. rewrite b_batches in R1, R2 by auto.
  destruct (breported C1 R1) as (es1 & ws1 & E1 & _ & _ & _ & V1). destruct (breported C2 R2) as (es2 & ws2 & E2 & _ & _ & _ & V2).
  exists es1, ws1, es2, ws2. split; auto. split; auto. intros a b x.
  pose proof (@fold_add_perm T N same_directed m AC CM _ _ PM (b_spec nu nv e w m0 ops) _ (fun _ _ => eq_refl) a b) as EQ.
  specialize (V1 a b x). specialize (V2 a b x). rewrite EQ in V1. intuition discriminate.
Qed.
(** and the merged weight is the sum: old weight plus everything given for that pair *)
Theorem C13_sum_value : forall (T : Type) (N : Num T), ring_theory (@nz T N) n1 nadd nmul nsub nopp eq ->
  forall nv e w ex m0 ops (s : graph T) bs a b,
  g_reach nv e w ex m0 ops s -> endpoints_ok nv (map fst (concat bs)) = true ->
  let given := map snd (filter (fun x => same_undirected (fst (fst x)) (snd (fst x)) a b) (concat bs)) in
  given <> [] ->
  aw (g_spec nv e w ex m0 (ops ++ g_calls MSum bs)) a b =
  Some (nadd (wt (aw (g_spec nv e w ex m0 ops) a b)) (sumf given (fun x => x))).
Proof.
  intros T N RT nv e w ex m0 ops s bs a b H EO given NE. unfold g_spec. rewrite fold_left_app. unfold g_calls. rewrite g_batches by auto.
  cbn [aw]. rewrite fold_add_value, (merge_sum RT). fold given. destruct given; [congruence|].
  fold (g_spec nv e w ex m0 ops). destruct (aw (g_spec nv e w ex m0 ops) a b); reflexivity.
Qed.
(** three copies of one edge in two different splits and orders *)
Example ex_order :
  let bs1 := [[((0, 1), q 2); ((1, 0), q 3)]; [((2, 2), q 4); ((0, 1), q 5)]] in
  let bs2 := [[((0, 1), q 5)]; []; [((1, 0), q 3); ((0, 1), q 2); ((2, 2), q 4)]] in
  Permutation (concat bs1) (concat bs2) /\ endpoints_ok 4 (map fst (concat bs1)) = true /\
  exists s, g_reach 4 ex_e ex_w false MMean ex_ops s /\
    snd (g_query QE (fst (g_run (g_calls MSum bs1) s))) = Ok (OE [(0, 1); (0, 3); (1, 3); (2, 2); (0, 0); (1, 1); (2, 2); (3, 3)]
      [q 13; q 7; q 7; q 9; q 1; q 1; q 1; q 1]).
Proof.
  cbv zeta. split; [|split; [reflexivity|]].
  - cbn [concat app]. apply Permutation_sym.
    eapply Permutation_trans; [apply Permutation_cons_append|]. cbn [app].
    eapply Permutation_trans; [apply perm_swap|]. repeat apply perm_skip. apply Permutation_refl.
  - eexists; split; [eexists; split; reflexivity|]. vm_compute. qceq.
Qed.

(** * C82: merge_op = 'mean' *)
(** what is stored is the running value (old + new) / 2, not the mean of the weights given: for three weights on a new
    pair it is ((x + y) / 2 + z) / 2 *)
Theorem C82_mean_actual : forall (T : Type) (N : Num T) nv e w ex m0 ops (s : graph T) a b x y z,
  g_reach nv e w ex m0 ops s -> a < nv -> b < nv -> aw (g_spec nv e w ex m0 ops) a b = None ->
  aw (g_spec nv e w ex m0 (ops ++ [AddEdges (EMany [(a, b); (a, b)]) (WList [x; y]) MMean])) a b = Some (nhalf (nadd x y)) /\
  aw (g_spec nv e w ex m0 (ops ++ [AddEdges (EMany [(a, b); (a, b); (a, b)]) (WList [x; y; z]) MMean])) a b = Some (nhalf (nadd (nhalf (nadd x y)) z)).
Proof.
  intros T N nv e w ex m0 ops s a b x y z H A B E. unfold g_spec. rewrite !fold_left_app. cbn [fold_left g_spec_step].
  fold (g_spec nv e w ex m0 ops). unfold a_add_edges. cbn [pairs_of edges_of endpoints_ok forallb fst snd combine known].
  apply Z.ltb_lt in A, B. rewrite A, B. cbn [andb orb aw]. rewrite !fold_add_value. cbn [filter fst snd].
  assert (SS : same_undirected a b a b = true) by (unfold same_undirected; rewrite !Z.eqb_refl; reflexivity).
  rewrite !SS. cbn [map snd merge_all]. rewrite E. auto.
Qed.
Theorem C82_mean_refuted : exists s1 s2 : graph Qc,
  g_reach 2 (Some (EMany [(0, 1); (0, 1); (0, 1)])) (WList [q 4; q 0; q 0]) false MMean [] s1 /\
  g_reach 2 (Some (EMany [(0, 1); (0, 1); (0, 1)])) (WList [q 0; q 0; q 4]) false MMean [] s2 /\
  snd (g_query QE s1) = Ok (OE [(0, 1)] [q 1]) /\ snd (g_query QE s2) = Ok (OE [(0, 1)] [q 2]).
Proof. eexists _, _. split; [eexists; split; reflexivity|]. split; [eexists; split; reflexivity|]. split; vm_compute; qceq. Qed.

(** * C81: too few weights *)
(** a weight list shorter than the edge list is accepted; the surplus edges are silently not added *)
Theorem C81_short_weights_actual : forall (T : Type) (N : Num T) nv e w ex m0 ops (s : graph T) l ws m,
  g_reach nv e w ex m0 ops s -> endpoints_ok nv l = true -> known m = true -> (length ws < length l)%nat ->
  let s' := fst (g_step (AddEdges (EMany l) (WList ws) m) s) in
  snd (g_step (AddEdges (EMany l) (WList ws) m) s) = Ok OUnit /\
  s' = fst (g_step (AddEdges (EMany (firstn (length ws) l)) (WList ws) m) (clear_cache s)) /\
  (forall a b, (forall p, In p (firstn (length ws) l) -> same_undirected (fst p) (snd p) a b = false) ->
    aw (g_spec nv e w ex m0 (ops ++ [AddEdges (EMany l) (WList ws) m])) a b = aw (g_spec nv e w ex m0 ops) a b).
Proof.
  intros T N nv e w ex m0 ops s l ws m H EO K LT s'. pose proof (reach_rel H) as (R & C & NV & P).
  assert (CB : combine l ws = combine (firstn (length ws) l) ws).
  { clear. revert ws; induction l as [|p l IH]; intros [|x ws]; cbn; auto. rewrite IH; reflexivity. }
  assert (OKA : snd (g_step (AddEdges (EMany l) (WList ws) m) s) = Ok OUnit).
  { pose proof (C12_graph H) as (_ & _ & _ & _ & I). apply I. right. split; [exact EO|]. eexists; split; [reflexivity|]. auto. }
  split; auto. split.
  - unfold s'. cbn [g_step]. rewrite !unit_out_fst. unfold g_add_edges.
    destruct (add_edges norm_und (EMany l) (WList ws) m s) as [s1 o1] eqn:E1.
    destruct (add_edges norm_und (EMany (firstn (length ws) l)) (WList ws) m (clear_cache s)) as [s2 o2] eqn:E2. cbn [fst].
    cbn [g_step] in OKA. rewrite unit_out_snd in OKA. unfold g_add_edges in OKA. rewrite E1 in OKA. cbn [snd] in OKA.
    apply add_edges_outcome in E1 as [(x & -> & _)|[(-> & EE & ->)|(-> & _ & ps & PE & _ & _ & C1 & R1)]]; [discriminate| |].
    { destruct l; [cbn in LT; lia|discriminate]. }
    cbn [pairs_of] in PE. injection PE as <-. rewrite CB in R1.
    assert (EO2 : endpoints_ok nv (firstn (length ws) l) = true).
    { unfold endpoints_ok in *. rewrite forallb_forall in *. intros p I. apply EO. rewrite <- (firstn_skipn (length ws) l). apply in_or_app; auto. }
    apply add_edges_outcome in E2 as [(x & -> & -> & EE & D)|[(-> & EE & ->)|(-> & _ & ps & PE & _ & _ & C2 & R2)]].
    + exfalso. cbn [pairs_of edges_of clear_cache st_raw] in D. rewrite NV in D. destruct D as [D|[D|(D & _)]]; congruence.
    + destruct ws; [|destruct l; [cbn in LT; lia|discriminate]]. cbn [firstn combine fold_left] in R1.
      destruct s1 as [r1 c1]; cbn in *. subst. destruct (merge_fun m); reflexivity.
    + cbn [pairs_of] in PE. injection PE as <-. cbn [clear_cache st_raw] in R2.
      destruct s1, s2; cbn in *. congruence.
  - intros a b NI. unfold g_spec. rewrite fold_left_app. cbn [fold_left g_spec_step]. fold (g_spec nv e w ex m0 ops).
    unfold a_add_edges; cbn [pairs_of edges_of]. rewrite EO, K. cbn [andb orb aw]. rewrite CB, fold_add_value.
    assert (F : filter (fun x => same_undirected (fst (fst x)) (snd (fst x)) a b) (combine (firstn (length ws) l) ws) = []).
    { revert NI. generalize (firstn (length ws) l) as l0. clear. revert ws. induction ws as [|x ws IH]; intros [|p l0] NI; cbn [combine filter]; auto.
      cbn [fst snd]. rewrite (NI p) by (cbn; auto). apply IH. intros r I. apply NI; cbn; auto. }
    rewrite F. reflexivity.
Qed.
Example ex_short : exists s : graph Qc, g_reach 4 (Some (EMany [(0, 1); (1, 2); (2, 3)])) (WList [q 5]) false MMean [] s /\
  snd (g_query QE s) = Ok (OE [(0, 1)] [q 5]).
Proof. eexists. split; [eexists; split; reflexivity|]. vm_compute. qceq. Qed.

(** * C74 *)
(** [named adj a b]: some line of the list starts with [a] and mentions [b] further on *)
Theorem C74_graph : forall (T : Type) (N : Num T), @nhalf T N (nadd n1 n1) = n1 -> forall nv adj ex,
  0 < nv -> (forall a b, named adj a b -> a < nv /\ b < nv) ->
  exists s es ws, g_from_adj_list nv adj ex = Ok s /\
    snd (g_query QE (fst (g_step RemoveExtra s))) = Ok (OE es ws) /\
    ForallOrdPairs (fun p r => same_undirected (fst p) (snd p) (fst r) (snd r) = false) es /\
    Forall (fun w => w = n1) ws /\ length ws = length es /\
    (forall a b, (In (a, b) es \/ In (b, a) es) <-> (named adj a b \/ named adj b a)) /\
    (exists k, snd (g_query QNumE s) = Ok (OZ k) /\ k = Z.of_nat (length es) + (if ex then nv else 0)).
Proof.
  intros T N HF nv adj ex P B.
  assert (EO : endpoints_ok nv (adj_to_edges adj) = true).
  { unfold endpoints_ok. apply forallb_forall. intros [a b] I. apply adj_In in I. destruct (B _ _ I) as [B1 B2]. apply Z.ltb_lt in B1, B2. cbn. rewrite B1, B2; auto. }
  assert (NEW : exists s, g_from_adj_list nv adj ex = Ok s).
  { unfold g_from_adj_list, g_new. replace (0 <? nv) with true by (symmetry; apply Z.ltb_lt; auto). unfold g_add_edges.
    pose proof (add_ok_iff norm_und (EMany (adj_to_edges adj)) WNone MMean (mkSt (mkRaw nv [] [] ex) [])) as [_ A].
    destruct (add_edges norm_und _ _ _ _) as [s1 [[]|x]]; [eauto|]. cbn [snd] in A. specialize (A (or_intror (conj EO (ex_intro _ _ (conj eq_refl (or_introl eq_refl)))))). discriminate. }
  destruct NEW as [s NW]. pose proof NW as NW'. unfold g_from_adj_list in NW'.
  assert (RE : g_reach nv (Some (EMany (adj_to_edges adj))) WNone ex MMean [RemoveExtra] (fst (g_step RemoveExtra s))).
  { exists s. split; [exact NW'|]. reflexivity. }
  pose proof (reach_rel RE) as (R & C & NV & _). destruct (reported_edges R C NV P) as (es & ws & pr & E1 & E4 & LN & E2 & FO & V).
  cbn [ax g_spec g_spec_step fold_left] in E2. rewrite app_nil_r in E2.
  assert (ES : es = map fst pr) by (rewrite <- E2; clear -LN; revert ws LN; induction es as [|x es IH]; intros [|y ws] LN; cbn in *; try discriminate; auto; f_equal; apply IH; lia).
  assert (WS : ws = map snd pr) by (rewrite <- E2; clear -LN; revert ws LN; induction es as [|x es IH]; intros [|y ws] LN; cbn in *; try discriminate; auto; f_equal; apply IH; lia).
  assert (MP : forall a b, aw (g_spec nv (Some (EMany (adj_to_edges adj))) WNone ex MMean [RemoveExtra]) a b =
    if existsb (fun p => same_undirected (fst p) (snd p) a b) (adj_to_edges adj) then Some n1 else None).
  { intros a b. cbn [g_spec fold_left g_spec_step g_spec_new aw]. unfold a_add_edges; cbn [pairs_of edges_of]. rewrite EO. cbn [known andb orb aw].
    apply adj_map; auto. }
  assert (NM : forall a b, existsb (fun p => same_undirected (fst p) (snd p) a b) (adj_to_edges adj) = true <-> named adj a b \/ named adj b a).
  { intros a b. rewrite existsb_exists. split.
    - intros ([c d] & I & S). apply adj_In in I. unfold same_undirected in S; cbn in S. apply orb_true_iff in S as [S|S]; apply andb_true_iff in S as [S1 S2];
        apply Z.eqb_eq in S1, S2; subst; auto.
    - intros [I|I]; apply adj_In in I; eexists; (split; [exact I|]); unfold same_undirected; cbn; rewrite !Z.eqb_refl; cbn; rewrite ?orb_true_r; auto. }
  exists s, es, ws. split; auto. split; auto. split; [rewrite ES; auto|]. split; [|split; [auto|split]].
  - rewrite WS. apply Forall_forall. intros x I. apply in_map_iff in I as ([[a b] y] & <- & I).
    assert (Q : aw (g_spec nv (Some (EMany (adj_to_edges adj))) WNone ex MMean [RemoveExtra]) a b = Some y) by (apply V; auto).
    rewrite MP in Q. destruct (existsb _ _); [injection Q as <-; auto|discriminate].
  - intros a b. rewrite <- NM, ES. split.
    + intros I. assert (exists y, In ((a, b), y) pr \/ In ((b, a), y) pr) as (y & J).
      { destruct I as [I|I]; apply map_fst_In in I as (y & I); eauto. }
      apply V in J. rewrite MP in J. destruct (existsb _ _); [auto|discriminate].
    + intros Q. specialize (MP a b). rewrite Q in MP. apply V in MP as [I|I]; apply (in_map fst) in I; auto.
  - eexists; split; [reflexivity|]. unfold g_query in E4. cbn in E4. injection E4 as E4.
    destruct (raw_edges_length (st_raw s)) as [_ _]. unfold raw_num_e in *. cbn [r_e r_loop r_extra r_nv] in E4.
    pose proof (new_rel _ _ _ _ _ NW') as ((_ & _ & X0) & _ & NV0 & _). cbn in X0.
    assert (X : r_extra (st_raw s) = ex).
    { rewrite X0. unfold a_add_edges. cbn [pairs_of edges_of]. match goal with |- context [if ?c then _ else _] => destruct c end; reflexivity. }
    rewrite X, NV0. lia.
Qed.
Theorem C74_rejects : forall (T : Type) (N : Num T) nv adj ex a b,
  0 < nv -> named adj a b -> nv <= a \/ nv <= b -> @g_from_adj_list T N nv adj ex = Err AssertionError /\ @d_from_adj_list T N nv adj ex = Err AssertionError.
Proof.
  intros T N nv adj ex a b P I B. unfold g_from_adj_list, d_from_adj_list. apply adj_In in I.
  exact (proj2 (C12_constructor N nv (Some (EMany (adj_to_edges adj))) WNone ex MMean) _ a b eq_refl I P B).
Qed.
Theorem C74_digraph : forall (T : Type) (N : Num T), @nhalf T N (nadd n1 n1) = n1 -> forall nv adj ex,
  0 < nv -> (forall a b, named adj a b -> a < nv /\ b < nv) ->
  exists s es ws, d_from_adj_list nv adj ex = Ok s /\
    snd (d_query dqE (fst (d_step dRemoveExtra s))) = Ok (OE es ws) /\
    NoDup es /\ Forall (fun w => w = n1) ws /\ length ws = length es /\ (forall a b, In (a, b) es <-> named adj a b) /\
    (exists k, snd (d_query dqNumE s) = Ok (OZ k) /\ k = Z.of_nat (length es) + (if ex then nv else 0)).
Proof.
  intros T N HF nv adj ex P B.
  assert (EO : endpoints_ok nv (adj_to_edges adj) = true).
  { unfold endpoints_ok. apply forallb_forall. intros [a b] I. apply adj_In in I. destruct (B _ _ I) as [B1 B2]. apply Z.ltb_lt in B1, B2. cbn. rewrite B1, B2; auto. }
  assert (NEW : exists s, d_from_adj_list nv adj ex = Ok s).
  { unfold d_from_adj_list, d_new. replace (0 <? nv) with true by (symmetry; apply Z.ltb_lt; auto). unfold d_add_edges.
    pose proof (add_ok_iff norm_dir (EMany (adj_to_edges adj)) WNone MMean (mkSt (mkRaw nv [] [] ex) [])) as [_ A].
    destruct (add_edges norm_dir _ _ _ _) as [s1 [[]|x]]; [eauto|]. cbn [snd] in A. specialize (A (or_intror (conj EO (ex_intro _ _ (conj eq_refl (or_introl eq_refl)))))). discriminate. }
  destruct NEW as [s NW]. pose proof NW as NW'. unfold d_from_adj_list in NW'.
  assert (RE : d_reach nv (Some (EMany (adj_to_edges adj))) WNone ex MMean [dRemoveExtra] (fst (d_step dRemoveExtra s))).
  { exists s. split; [exact NW'|]. reflexivity. }
  apply dreach_rel in RE as (R & C & NV & _); [|reflexivity].
  destruct (dreported R C NV P) as (es & ws & pr & E1 & E4 & LN & E2 & ND & V).
  cbn [ax d_spec d_spec_step fold_left] in E2. rewrite app_nil_r in E2. subst pr.
  assert (MP : forall a b, aw (d_spec nv (Some (EMany (adj_to_edges adj))) WNone ex MMean [dRemoveExtra]) a b =
    if existsb (fun p => same_directed (fst p) (snd p) a b) (adj_to_edges adj) then Some n1 else None).
  { intros a b. cbn [d_spec fold_left d_spec_step d_spec_new aw]. unfold a_add_edges; cbn [pairs_of edges_of]. rewrite EO. cbn [known andb orb aw].
    apply adj_map; auto. }
  destruct (@ones_listing T N es ws _ _ LN V MP) as [F1 I1].
  exists s, es, ws. split; auto. split; auto. split; [destruct (combine_maps es ws LN) as [Q _]; rewrite Q; exact ND|]. split; auto. split; auto. split.
  - intros a b. rewrite I1, existsb_exists, <- adj_In. split.
    + intros ([c d] & I & S). unfold same_directed in S; cbn in S. apply andb_true_iff in S as [S1 S2]; apply Z.eqb_eq in S1, S2; subst; auto.
    + intros I. eexists; split; [exact I|]. unfold same_directed; cbn; rewrite !Z.eqb_refl; auto.
  - eexists; split; [reflexivity|]. cbn in E4. injection E4 as E4. unfold raw_num_e in *. cbn [r_e r_loop r_extra r_nv] in E4.
    pose proof (dnew_rel _ _ _ _ _ NW') as ((_ & _ & X0) & _ & NV0 & _). cbn in X0.
    assert (X : r_extra (st_raw s) = ex).
    { rewrite X0. unfold a_add_edges. cbn [pairs_of edges_of]. match goal with |- context [if ?c then _ else _] => destruct c end; reflexivity. }
    rewrite X, NV0. lia.
Qed.
Theorem C74_bigraph : forall (T : Type) (N : Num T), @nhalf T N (nadd n1 n1) = n1 -> forall nu nv adj,
  0 < nv -> (forall a b, named adj a b -> a < nu /\ b < nv) ->
  exists s es ws, b_from_adj_list nu nv adj = Ok s /\ snd (b_query bqE s) = Ok (OE es ws) /\
    NoDup es /\ Forall (fun w => w = n1) ws /\ length ws = length es /\ (forall a b, In (a, b) es <-> named adj a b).
Proof.
  intros T N HF nu nv adj P B.
  assert (EO : ends_ok nu nv (adj_to_edges adj) = true).
  { unfold ends_ok. apply forallb_forall. intros [a b] I. apply adj_In in I. destruct (B _ _ I) as [B1 B2]. apply Z.ltb_lt in B1, B2. cbn. rewrite B1, B2; auto. }
  assert (NEW : exists s, b_from_adj_list nu nv adj = Ok s).
  { unfold b_from_adj_list, b_new. replace (0 <? nv) with true by (symmetry; apply Z.ltb_lt; auto).
    pose proof (badd_ok_iff (EMany (adj_to_edges adj)) WNone MMean (mkSt (mkBRaw nu nv []) [])) as [_ A].
    destruct (b_add_edges _ _ _ _) as [s1 [[]|x]]; [eauto|]. cbn [snd] in A. specialize (A (or_intror (conj EO (ex_intro _ _ (conj eq_refl (or_introl eq_refl)))))). discriminate. }
  destruct NEW as [s NW]. pose proof NW as NW'. unfold b_from_adj_list in NW'.
  assert (RE : b_reach nu nv (Some (EMany (adj_to_edges adj))) WNone MMean [] s) by (exists s; split; [exact NW'|reflexivity]).
  apply breach_rel in RE as (C & R & _).
  destruct (breported C R) as (es & ws & E1 & _ & LN & ND & V).
  assert (MP : forall a b, b_spec nu nv (Some (EMany (adj_to_edges adj))) WNone MMean [] a b =
    if existsb (fun p => same_directed (fst p) (snd p) a b) (adj_to_edges adj) then Some n1 else None).
  { intros a b. cbn [b_spec fold_left b_spec_new]. unfold bs_add; cbn [pairs_of edges_of]. rewrite EO. cbn [known andb orb].
    apply adj_map; auto. }
  destruct (@ones_listing T N es ws _ _ LN V MP) as [F1 I1].
  exists s, es, ws. split; auto. split; auto. split; auto. split; auto. split; auto.
  intros a b. rewrite I1, existsb_exists, <- adj_In. split.
  - intros ([c d] & I & S). unfold same_directed in S; cbn in S. apply andb_true_iff in S as [S1 S2]; apply Z.eqb_eq in S1, S2; subst; auto.
  - intros I. eexists; split; [exact I|]. unfold same_directed; cbn; rewrite !Z.eqb_refl; auto.
Qed.
(** a list with an empty line, a line without neighbours, a repeated pair and a pair in both directions *)
Example ex_adj : let adj := [[0; 1; 2]; []; [3]; [1; 0; 3; 3]] in
  (forall a b, named adj a b -> a < 4 /\ b < 4) /\ named adj 1 3 /\
  exists s : graph Qc, g_from_adj_list 4 adj false = Ok s /\ snd (g_query QE s) = Ok (OE [(0, 1); (0, 2); (1, 3)] [q 1; q 1; q 1]).
Proof.
  cbv zeta. split; [|split].
  - intros a b (ds & I & J). cbn in I. destruct I as [I | [I | [I | [I | []]]]]; try discriminate; injection I as <- <-; cbn in J; intuition lia.
  - exists [0; 3; 3]. cbn; split; auto 6.
  - eexists; split; [reflexivity|]. vm_compute. qceq.
Qed.
Example ex_half : @nhalf Qc _ (nadd n1 n1) = n1 /\ @nhalf R _ (nadd n1 n1) = n1.
Proof. split; [vm_compute; qceq|cbn; lra]. Qed.
