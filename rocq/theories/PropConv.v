(** Properties C38-C42 and C90-C93: conversions between structures. *)
From Coq Require Import String Permutation Sorted Reals Lra QArith Qcanon.
From Verif Require Import Num PyDict PyDictFacts Coo CooFacts MatFacts RealFacts ModelBase CacheFacts ModelGraph GraphFacts SpecGraph SpecGraphOps StoreFacts
  GraphStore GraphMatrix GraphReach GraphLaplace PropGraph ModelDiGraph ModelBiGraph SpecBiGraph BiGraphFacts BiGraphMatrix PropBiGraph
  ModelHyper HyperFacts SpecHyper HyperStore HyperView HyperMatrix HyperReach HyperOps PropHyper ModelConv SpecConv ConvFacts HgcnFacts.
Set Implicit Arguments.
Local Open Scope string_scope.
Local Open Scope list_scope.
Local Open Scope Z_scope.
Local Notation q z := (Q2Qc (inject_Z z)).

(** the mean of 1 and 1 is 1 (true in the reals and the rationals) *)
Definition half_ok (T : Type) (N : Num T) : Prop := nhalf (nadd n1 n1) = @n1 T N.
Example half_Qc : half_ok Num_Qc.
Proof. vm_compute. qceq. Qed.
Example half_R : half_ok Num_R.
Proof. unfold half_ok; cbn. lra. Qed.

(** * C38 *)
Lemma graph_pairs {T} {N : Num T} nv e w ex m ops (s : graph T) es ws : g_reach nv e w ex m ops s -> snd (g_query QE s) = Ok (OE es ws) ->
  asks get_e s = Ok (es, ws) /\ r_nv (st_raw s) = nv /\ 0 < nv /\ length ws = length es /\ Forall (fun p => fst p <= snd p) es /\
  (ax (g_spec nv e w ex m ops) = false -> NoDup es).
Proof.
  intros H E. apply reach_rel in H as (R & C & NV & P).
  assert (A : asks get_e s = Ok (es, ws)). { cbn [g_query] in E. unfold bind in E. unfold asks. destruct (get_e s) as [s1 [[a b]|x]]; cbn in *; congruence. }
  pose proof (good_answer (good_query QE) C) as E2. rewrite E in E2. cbn [p_query] in E2. injection E2 as E2 E3.
  destruct R as (W & _ & X). split; auto. split; auto. split; auto. split; [|split].
  - rewrite E2, E3. unfold dkeys, dvals. destruct (r_extra (st_raw s)); rewrite !app_length, !map_length; auto.
  - rewrite E2. apply Forall_forall. intros [a b] I. rewrite !in_app_iff in I. destruct I as [I|[I|I]].
    + destruct (wf_k W _ I) as [Q _]. unfold norm_und in Q; cbn in *. destruct (Z.ltb_spec b a); [injection Q; lia|auto].
    + apply in_map_iff in I as (v & Q & _). injection Q as <- <-. cbn. lia.
    + destruct (r_extra (st_raw s)); [|destruct I]. apply in_map_iff in I as (v & Q & _). injection Q as <- <-. cbn. lia.
  - intros AX. rewrite X, AX in E2. rewrite app_nil_r in E2. subst es. apply NoDup_app_intro.
    + apply (wf_e W).
    + apply FinFun.Injective_map_NoDup; [|apply (wf_l W)]. intros a b Q. congruence.
    + intros p I J. apply in_map_iff in J as (v & <- & _). apply (wf_k W) in I as [_ I]. cbn in I. congruence.
Qed.
(** from_graph: one hyperedge per reported edge, in the same order, with the same weight *)
Theorem C38_from_graph : forall (T : Type) (N : Num T) nv e w ex m ops (s : graph T) es ws,
  g_reach nv e w ex m ops s -> snd (g_query QE s) = Ok (OE es ws) -> ax (g_spec nv e w ex m ops) = false \/ NoDup es ->
  exists h, h_from_graph s = Ok h /\ h_reach nv (Some (HMany (map (fun p => [fst p; snd p]) es))) (WList ws) None MMean [] h /\
    snd (h_query (hqE None) h) = Ok (OHE (map (fun p => [fst p; snd p]) es) ws).
Proof.
  intros T N nv e w ex m ops s es ws H E D. destruct (graph_pairs H E) as (A & NV & P & L & F & ND). 
  assert (ND' : NoDup es) by (destruct D; auto). clear D ND.
  assert (Z1 : map zsort (map pair2 es) = map pair2 es).
  { rewrite map_map. apply map_ext_in. intros [a b] I. rewrite Forall_forall in F. apply F in I. cbn in I. apply zsort_id. repeat constructor; auto. }
  destruct (@h_new_nodup T N nv (map pair2 es) ws P) as (h & E1 & R1 & Q1 & _).
  - rewrite Z1. apply FinFun.Injective_map_NoDup; auto. intros [a b] [c d] Q. unfold pair2 in Q; cbn in Q. congruence.
  - rewrite map_length; auto.
  - exists h. unfold h_from_graph. rewrite A. cbn [rbind fst snd]. rewrite NV. rewrite Z1 in Q1. auto.
Qed.
(** from_feature_kNN: every hyperedge is a k-element nearest set of some vertex, every vertex has one, and it contains
    the vertex itself when no other vertex is at distance as small as its own *)
Theorem C38_kNN : forall (T : Type) (N : Num T), half_ok N -> forall dist n k topk, 0 < n -> 0 <= k <= n ->
  (forall v, 0 <= v < n -> nearest dist n k v (topk v)) ->
  exists h es, h_from_knn n k topk = Ok h /\ h_reports h None es (map (fun _ => @n1 T N) es) /\ NoDup es /\
    (forall e, In e es -> StronglySorted Z.lt e /\ exists v, 0 <= v < n /\ nearest dist n k v e) /\
    (forall v, 0 <= v < n -> exists e, In e es /\ nearest dist n k v e /\
       (1 <= k -> (forall u, 0 <= u < n -> u <> v -> (dist v v < dist v u)%R) -> In v e)).
Proof.
  intros T N Hh dist n k topk P K F.
  assert (SRT : forall v, 0 <= v < n -> nearest dist n k v (zsort (topk v))).
  { intros v V. destruct (F v V) as (L & ND & RG & NR). pose proof (zsort_perm (topk v)) as PM. split; [rewrite (Permutation_length PM); auto|]. split; [eapply Permutation_NoDup; [symmetry|]; eauto|].
    split; [intros a I; apply RG; eapply Permutation_in; eauto|]. intros a b I B J. apply NR; auto; [eapply Permutation_in; eauto|]. intros X; apply J. eapply Permutation_in; [symmetry|]; eauto. }
  destruct (h_new_ones Hh (map topk (range n)) P) as (h & es & E1 & R1 & ND & M & NE & Q). exists h, es. split; [|split; [|split; [exact ND|split]]].
  - unfold h_from_knn, knn_edges. replace (k <=? n) with true by (symmetry; apply Z.leb_le; lia). replace (0 <=? k) with true by (symmetry; apply Z.leb_le; lia). exact E1.
  - split; [exact Q|]. intros _. assert (X : map topk (range n) <> []).
    { intros X. apply map_eq_nil in X. assert (I : In 0 (range n)) by (apply range_In; lia). rewrite X in I. destruct I. }
    apply NE in X. cbn. intros Y. injection Y as Y. apply map_eq_nil in Y. auto.
  - intros e I. apply M in I. rewrite map_map in I. apply in_map_iff in I as (v & <- & I). apply range_In in I. split; [|exists v; auto].
    apply zsort_lists. apply F; auto.
  - intros v V. exists (zsort (topk v)). split; [|split; [auto|]].
    + apply M. rewrite map_map. apply in_map_iff. exists v. split; auto. apply range_In; auto.
    + intros K1 SEP. destruct (SRT v V) as (L & NDv & RG & NR). destruct (in_dec Z.eq_dec v (zsort (topk v))) as [|NI]; auto. exfalso.
      destruct (zsort (topk v)) as [|a l] eqn:EZ; [cbn in L; lia|].
      assert (A : In a (a :: l)) by (left; auto). specialize (NR a v A V NI). assert (a <> v) by (intros ->; apply NI; left; auto). specialize (SEP a (RG a A) H). lra.
Qed.
Theorem C38_kNN_reject : forall (T : Type) (N : Num T) n k topk,
  (n < k -> @h_from_knn T N n k topk = Err AssertionError) /\ (k <= n -> k < 0 -> @h_from_knn T N n k topk = Err RuntimeError) /\
  forall (h : hypergraph T) g, n <> h_nv (st_raw h) -> h_add_from_knn n k topk g h = (h, Err AssertionError).
Proof.
  intros T N n k topk. unfold h_from_knn, h_add_from_knn, knn_edges. split; [|split].
  - intros L. replace (k <=? n) with false by (symmetry; apply Z.leb_gt; lia). reflexivity.
  - intros L K. replace (k <=? n) with true by (symmetry; apply Z.leb_le; lia). replace (0 <=? k) with false by (symmetry; apply Z.leb_gt; lia). reflexivity.
  - intros h g D. replace (n =? h_nv (st_raw h)) with false by (symmetry; apply Z.eqb_neq; auto). reflexivity.
Qed.
(** the methods that add to an existing hypergraph make exactly the same hyperedges *)
Theorem C38_add_from : forall (T : Type) (N : Num T) nv e w ex m ops (s : graph T) es ws (h : hypergraph T) g,
  g_reach nv e w ex m ops s -> snd (g_query QE s) = Ok (OE es ws) ->
  (h_nv (st_raw h) = nv -> h_add_from_graph s g h = h_add (HMany (map (fun p => [fst p; snd p]) es)) (WList ws) MMean g h) /\
  (h_nv (st_raw h) <> nv -> h_add_from_graph s g h = (h, Err AssertionError)).
Proof.
  intros T N nv e w ex m ops s es ws h g H E. destruct (graph_pairs H E) as (A & NV & P & L & F & ND). unfold h_add_from_graph. rewrite NV, A. split.
  - intros ->. rewrite Z.eqb_refl. reflexivity.
  - intros D. replace (h_nv (st_raw h) =? nv) with false by (symmetry; apply Z.eqb_neq; auto). reflexivity.
Qed.
(** cases: a graph with a self-loop; three points on a line with k = 2 *)
Example C38_case : exists s h, g_reach 3 (Some (EMany [(2, 0); (1, 1)])) (WList [q 5; q 7]) false MMean [] s /\
  h_from_graph s = Ok h /\ snd (h_query (hqE None) h) = Ok (OHE [[0; 2]; [1; 1]] [q 5; q 7]).
Proof. eexists _, _. split; [eexists; split; reflexivity|]. split; [reflexivity|]. vm_compute. reflexivity. Qed.
Definition line_dist (a b : Z) : R := Rabs (IZR (a * a) - IZR (b * b)).
Definition line_topk (v : Z) : list Z := if v =? 2 then [2; 1] else [v; 1 - v].
Lemma line_nearest : forall v, 0 <= v < 3 -> nearest line_dist 3 2 v (line_topk v).
Proof.
  intros v V. assert (v = 0 \/ v = 1 \/ v = 2) as [ -> | [ -> | -> ] ] by lia; unfold line_topk; cbn [Z.eqb Pos.eqb Z.sub Z.add Z.opp Z.pos_sub Pos.pred_double];
    (split; [reflexivity|split; [repeat constructor; cbn; lia|split; [cbn; lia|]]]); intros a b A B NB; unfold line_dist.
  - assert (b = 2) by (cbn in NB; lia). subst b. cbn in A. destruct A as [<-|[<-|[]]]; cbn; unfold Rabs; repeat destruct (Rcase_abs _); lra.
  - assert (b = 2) by (cbn in NB; lia). subst b. cbn in A. destruct A as [<-|[<-|[]]]; cbn; unfold Rabs; repeat destruct (Rcase_abs _); lra.
  - assert (b = 0) by (cbn in NB; lia). subst b. cbn in A. destruct A as [<-|[<-|[]]]; cbn; unfold Rabs; repeat destruct (Rcase_abs _); lra.
Qed.

(** * C90: vertices with the same neighbourhood share one hyperedge *)
Lemma fewer {A} (dec : forall a b : A, {a = b} + {a <> b}) (f : Z -> A) (l : list Z) es a b : NoDup es -> (forall e, In e es -> In e (map f l)) -> NoDup l -> In a l -> In b l -> a <> b -> f a = f b ->
  (length es < length l)%nat.
Proof.
  intros ND S NL A1 B1 D E. apply in_split in B1 as (l1 & l2 & ->).
  assert (I : incl es (map f (l1 ++ l2))).
  { intros x I. apply S in I. apply in_map_iff in I as (y & <- & J). apply in_app_iff in J as [J|[<-|J]].
    - apply in_map. apply in_app_iff; auto.
    - rewrite <- E. apply in_map. apply in_app_iff in A1 as [X|[X|X]]; [apply in_app_iff; auto|congruence|apply in_app_iff; auto].
    - apply in_map. apply in_app_iff; auto. }
  apply NoDup_incl_length in I; auto. rewrite map_length in I. rewrite app_length in *. cbn. lia.
Qed.
Lemma range_length n : 0 <= n -> Z.of_nat (length (range n)) = n.
Proof. intros. unfold range. rewrite map_length, seq_length. lia. Qed.
Theorem C90_knn_merges_actual : forall (T : Type) (N : Num T), half_ok N -> forall n k topk v v', 0 < n -> 0 <= k <= n ->
  0 <= v < n -> 0 <= v' < n -> v <> v' -> Permutation (topk v) (topk v') ->
  exists h es, h_from_knn n k topk = Ok h /\ snd (h_query (hqE None) h) = Ok (OHE es (map (fun _ => @n1 T N) es)) /\ Z.of_nat (length es) < n.
Proof.
  intros T N Hh n k topk v v' P K V V' D PM. destruct (h_new_ones Hh (map topk (range n)) P) as (h & es & E1 & R1 & ND & M & NE & Q). exists h, es.
  split; [|split; [exact Q|]].
  - unfold h_from_knn, knn_edges. replace (k <=? n) with true by (symmetry; apply Z.leb_le; lia). replace (0 <=? k) with true by (symmetry; apply Z.leb_le; lia). exact E1.
  - assert (LR : (length es < length (range n))%nat); [|pose proof (@range_length n); lia].
    apply (@fewer _ (list_eq_dec Z.eq_dec) (fun v => zsort (topk v)) _ es v v'); auto using range_nodup; try (apply range_In; auto; fail).
    + intros e I. apply M in I. rewrite map_map in I. exact I.
    + apply zsort_eq_perm; auto.
Qed.
(** three points on a line: vertices 0 and 1 are each other's nearest, so two hyperedges are left of three *)
Theorem C90_knn_merges_refuted : exists h, (forall v, 0 <= v < 3 -> nearest line_dist 3 2 v (line_topk v)) /\
  h_from_knn 3 2 line_topk = Ok h /\ snd (h_query (hqE None) h) = Ok (OHE [[0; 1]; [1; 2]] [q 1; q 1]).
Proof. eexists. split; [exact line_nearest|]. split; [reflexivity|]. vm_compute. qceq. Qed.

(** * C39 *)
Theorem C39_kHop : forall (T : Type) (N : Num T), half_ok N -> forall nv e w ex m ops (s : graph T) k only,
  g_reach nv e w ex m ops s -> nonneg_new e -> Forall nonneg_op ops -> 1 <= k ->
  let g := g_spec nv e w ex m ops in
  let reached v u := u = v \/ exists j, (if only : bool then Z.of_nat j = k else 1 <= Z.of_nat j <= k) /\ walk (a_edge g) j v u in
  exists h es, h_from_khop k only s = Ok h /\ h_reports h None es (map (fun _ => n1) es) /\ NoDup es /\
    (forall v, 0 <= v < nv -> exists e, In e es /\ lists_set e (reached v)) /\
    (forall e, In e es -> exists v, 0 <= v < nv /\ lists_set e (reached v)).
Proof.
  intros T N Hh nv e w ex m ops s k only H NE NO K g reached. apply reach_rel in H as (R & C & NV & P).
  destruct (khop_ok R C NV P (spec_in_range nv e w ex m NE NO) only K) as (f & E & F). 
  destruct (h_new_ones Hh (map f (range nv)) P) as (h & es & E1 & R1 & ND & M & NG & Q). exists h, es.
  assert (LS : forall v, 0 <= v < nv -> lists_set (zsort (f v)) (reached v)).
  { intros v V. destruct (F v V) as [N1 IV]. eapply lists_ext; [|apply zsort_lists; exact N1]. exact IV. }
  split; [|split; [|split; [exact ND|split]]].
  - unfold h_from_khop. rewrite E. cbn [rbind]. rewrite NV. exact E1.
  - split; [exact Q|]. intros _. assert (X : map f (range nv) <> []).
    { intros X. apply map_eq_nil in X. assert (I : In 0 (range nv)) by (apply range_In; lia). rewrite X in I. destruct I. }
    apply NG in X. cbn. intros Y. injection Y as Y. apply map_eq_nil in Y. auto.
  - intros v V. exists (zsort (f v)). split; auto. apply M. rewrite map_map. apply in_map_iff. exists v. split; auto. apply range_In; auto.
  - intros x I. apply M in I. rewrite map_map in I. apply in_map_iff in I as (v & <- & I). apply range_In in I. exists v; auto.
Qed.
Theorem C39_reject : forall (T : Type) (N : Num T) (s : graph T) k only, k < 1 -> h_from_khop k only s = Err AssertionError /\
  forall g (h : hypergraph T), h_add_from_khop k only s g h = (h, Err AssertionError).
Proof.
  intros T N s k only K. unfold h_from_khop, h_add_from_khop, khop_edges. replace (1 <=? k) with false by (symmetry; apply Z.leb_gt; lia).
  split; [reflexivity|]. intros g h. destruct (_ =? _); reflexivity.
Qed.
(** the path 0-1-2-3: neighbourhoods within two steps, and at exactly two steps *)
Example C39_case : exists s h h', g_reach 4 (Some (EMany [(0, 1); (1, 2); (2, 3)])) (WNone (T := Qc)) false MMean [] s /\
  h_from_khop 2 false s = Ok h /\ snd (h_query (hqE None) h) = Ok (OHE [[0; 1; 2]; [0; 1; 2; 3]; [1; 2; 3]] [q 1; q 1; q 1]) /\
  h_from_khop 2 true s = Ok h' /\ snd (h_query (hqE None) h') = Ok (OHE [[0; 2]; [1; 3]] [q 1; q 1]).
Proof. eexists _, _, _. split; [eexists; split; reflexivity|]. split; [reflexivity|]. split; [vm_compute; qceq|]. split; [reflexivity|]. vm_compute; qceq. Qed.

(** * C40 *)
(** position of vertex [v] and hyperedge [i] in the bipartite graph *)
Definition joined (vertex_as_u : bool) (v i : Z) : Z * Z := if vertex_as_u then (v, i) else (i, v).
Section Bi.
  Context {T : Type} {N : Num T}.
  Variables (s : hypergraph T) (nv : Z) (es : list (list Z)) (ws : list T) (vu wd : bool).
  Hypothesis C : coh (hspec None) s.
  Hypothesis W : hwf (st_raw s).
  Hypothesis NV : h_nv (st_raw s) = nv.
  Hypothesis QE : snd (h_query (hqE None) s) = Ok (OHE es ws).
  Hypothesis CL : hclean (st_raw s).
  Hypothesis POS : 0 < nv.
  Hypothesis NE : vu = true -> es <> [].
  Let ne := Z.of_nat (length es).
  Let nu' := if vu then nv else ne.
  Let nv' := if vu then ne else nv.
  Lemma bi_view : exists b (g : wmap T) l, b_from_hypergraph vu wd s = Ok b /\
    coh bspec b /\ brel (st_raw b) g /\ b_nu (st_raw b) = nu' /\ b_nv (st_raw b) = nv' /\ b_in (fun a => 0 <= a < nu') (fun b => 0 <= b < nv') g /\
    (forall v i, g (fst (joined vu v i)) (snd (joined vu v i)) =
       if (0 <=? i) && (i <? ne) && zmem v (nthe es i) then Some (if wd then nthw ws i else n1) else None) /\
    snd (b_query bqE b) = Ok (OE (map fst l) (map snd l)) /\ NoDup (map fst l) /\
    (forall v i w, In (joined vu v i, w) l <-> 0 <= i < ne /\ In v (nthe es i) /\ w = (if wd then nthw ws i else n1)).
  Proof.
    assert (PE : vu = true -> 0 < Z.of_nat (length es)) by (intros V; apply NE in V; destruct es; [congruence|cbn; lia]).
    destruct (b_of_hyper C W NV QE CL wd POS PE) as (b & l & E & B & RB & NN & ND & M). exists b.
    destruct (breach_rel RB) as (CB & R & NU1 & NV1 & P1). eexists _, l. split; [exact E|]. split; [exact CB|]. split; [exact R|].
    split; [exact NU1|]. split; [exact NV1|]. split; [apply (@bspec_range T N); [exact NN|constructor]|]. split; [|split; [|split; [exact ND|exact M]]].
    - intros v i. destruct R as [OK LK]. rewrite <- LK. rewrite B. cbn [st_raw b_e]. replace (fst (joined vu v i), snd (joined vu v i)) with (joined vu v i) by (unfold joined; destruct vu; reflexivity).
      destruct ((0 <=? i) && (i <? ne) && zmem v (nthe es i)) eqn:Q.
      + apply In_dget; [exact ND|]. apply M. apply andb_true_iff in Q as [Q Z]. apply andb_true_iff in Q as [Q1 Q2]. apply Z.leb_le in Q1. apply Z.ltb_lt in Q2. apply zmem_In in Z. unfold ne in Q2; auto.
      + destruct (dget (joined vu v i) l) as [w|] eqn:G; auto. apply dget_In in G. apply M in G as (I & J & _). apply zmem_In in J. rewrite J in Q.
        replace (0 <=? i) with true in Q by (symmetry; apply Z.leb_le; lia). replace (i <? ne) with true in Q by (symmetry; apply Z.ltb_lt; unfold ne; lia). discriminate.
    - rewrite (good_answer (bgood_query bqE) CB). rewrite B. reflexivity.
  Qed.
End Bi.
(** BiGraph.from_hypergraph: vertex v and node i are joined exactly when v is in hyperedge i, with the hyperedge's weight or 1 *)
Theorem C40_to_bigraph : forall (T : Type) (N : Num T) nv e w vw m ops (s : hypergraph T) es ws vu wd,
  h_clean_reach nv e w vw m ops s -> snd (h_query (hqE None) s) = Ok (OHE es ws) -> (vu = true -> es <> []) ->
  exists b bes bws, b_from_hypergraph vu wd s = Ok b /\ snd (b_query bqE b) = Ok (OE bes bws) /\ NoDup bes /\ length bws = length bes /\
    b_nu (st_raw b) = (if vu then nv else Z.of_nat (length es)) /\ b_nv (st_raw b) = (if vu then Z.of_nat (length es) else nv) /\
    forall v i x, In (joined vu v i, x) (combine bes bws) <->
      0 <= i < Z.of_nat (length es) /\ In v (nthe es i) /\ x = (if wd then nthw ws i else n1).
Proof.
  intros T N nv e w vw m ops s es ws vu wd (H & M & D & CN & CO) QE NE. destruct (h_reach_inv H M D) as (((W & _ & _ & _) & C & NV) & P & K).
  destruct (bi_view wd C W NV QE (K CN CO) P NE) as (b & g & l & E & _ & _ & NU1 & NV1 & _ & _ & Q & ND & MM).
  exists b, (map fst l), (map snd l). split; auto. split; auto. split; auto. split; [rewrite !map_length; auto|]. split; auto. split; auto.
  replace (combine (map fst l) (map snd l)) with l by (clear; induction l as [|[a b] l IH]; cbn; congruence). exact MM.
Qed.
(** and the degrees on both sides are those of the hypergraph *)
Theorem C40_degrees : forall (T : Type) (N : Num T), ring_theory (@nz T N) n1 nadd nmul nsub nopp eq ->
  forall nv e w vw m ops (s : hypergraph T) es ws vu, h_clean_reach nv e w vw m ops s -> h_reports s None es ws -> (vu = true -> es <> []) ->
  exists bw bc dv de, b_from_hypergraph vu true s = Ok bw /\ b_from_hypergraph vu false s = Ok bc /\
    snd (h_query (hqDegV None) s) = Ok (OVals dv) /\ snd (h_query (hqDegE None) s) = Ok (OVals de) /\
    snd (b_query (if vu then bqDegU else bqDegV) bw) = Ok (OVals dv) /\ snd (b_query (if vu then bqDegV else bqDegU) bc) = Ok (OVals de).
Proof.
  intros T N RT nv e w vw m ops s es ws vu H R NE. destruct (C29_degrees RT H R) as (_ & _ & _ & _ & _ & _ & DV & DE & _).
  destruct R as [QE _]. destruct H as (H & M & D & CN & CO). destruct (h_reach_inv H M D) as (((W & _ & _ & _) & C & NV) & P & K).
  pose proof (all_clean C W NV QE (K CN CO)) as CE. pose proof (all_len C W QE) as LN.
  destruct (bi_view true C W NV QE (K CN CO) P NE) as (b & g & l & E & C1 & R1 & NU1 & NV1 & IR1 & G & _).
  destruct (bi_view false C W NV QE (K CN CO) P NE) as (b' & g' & l' & E' & C1' & R1' & NU1' & NV1' & IR1' & G' & _).
  destruct (bquery_D RT C1 R1 NU1 NV1 IR1) as (_ & _ & _ & _ & U & V). destruct (bquery_D RT C1' R1' NU1' NV1' IR1') as (_ & _ & _ & _ & U' & V').
  exists b, b', (map (hdeg es ws) (range nv)), (map hcard es). split; auto. split; auto. split; auto. split; auto. split.
  - assert (X : forall v, sumf (range (Z.of_nat (length es))) (fun i => wt (g (fst (joined vu v i)) (snd (joined vu v i)))) = hdeg es ws v).
    { intros v. unfold hdeg. rewrite (@combine_nthe T N (st_raw s) es _ ws _ nz LN). apply sumf_ext_in. intros i I. apply range_In in I. rewrite G. cbn [fst snd].
      replace (0 <=? i) with true by (symmetry; apply Z.leb_le; lia). replace (i <? Z.of_nat (length es)) with true by (symmetry; apply Z.ltb_lt; lia). cbn [andb].
      unfold nthe. destruct (zmem v _); reflexivity. }
    destruct vu; [rewrite U|rewrite V]; do 2 f_equal; apply map_ext; intros v; exact (X v).
  - assert (X : forall i, 0 <= i < Z.of_nat (length es) -> sumf (range nv) (fun v => wt (g' (fst (joined vu v i)) (snd (joined vu v i)))) = hcard (nthe es i)).
    { intros i I. unfold hcard. transitivity (sumf (range nv) (fun v => if zmem v (nthe es i) then n1 else nz)).
      - apply sumf_ext. intros v. rewrite G'.
        replace (0 <=? i) with true by (symmetry; apply Z.leb_le; lia). replace (i <? Z.of_nat (length es)) with true by (symmetry; apply Z.ltb_lt; lia). cbn [andb].
        destruct (zmem v _); reflexivity.
      - rewrite Forall_forall in CE. destruct (CE _ (nthe_In es I)) as [NDE RE]. rewrite Forall_forall in RE.
        rewrite (sumf_ext (range nv) (fun v => if zmem v (nthe es i) then n1 else nz) (fun v => sumf (nthe es i) (fun x => if v =? x then n1 else nz))) by (intros v; rewrite (sumf_member RT) by auto; reflexivity).
        rewrite (sumf_swap RT). apply sumf_ext_in. intros x J. 
        rewrite (sumf_ext (range nv) (fun v => if v =? x then n1 else nz) (fun v => if x =? v then n1 else nz)) by (intros v; rewrite Z.eqb_sym; reflexivity).
        rewrite (sumf_member RT) by apply range_nodup. replace (zmem x (range nv)) with true; auto. symmetry. apply zmem_In, range_In. auto. }
    assert (Y : map hcard es = map (fun i => hcard (nthe es i)) (range (Z.of_nat (length es)))) by (symmetry; apply (range_map_nth hcard es [])).
    rewrite Y. destruct vu; [rewrite V'|rewrite U']; do 2 f_equal; apply map_ext_in; intros i I; apply range_In in I; exact (X i I).
Qed.
Theorem C40_reject : forall (T : Type) (N : Num T) nv e w vw m ops (s : hypergraph T) ws wd,
  h_clean_reach nv e w vw m ops s -> snd (h_query (hqE None) s) = Ok (OHE [] ws) -> b_from_hypergraph true wd s = Err AssertionError.
Proof.
  intros T N nv e w vw m ops s ws wd (H & M & D & CN & CO) QE. destruct (h_reach_inv H M D) as (((W & _ & _ & _) & C & NV) & P & K).
  unfold b_from_hypergraph. rewrite (asks_e s QE). cbn [rbind fst snd]. rewrite (all_ne C W QE). cbn. reflexivity.
Qed.
Lemma from_bi {T} {N : Num T} (Hh : half_ok N) (s : bigraph T) g nu nv (uv : bool) : coh bspec s -> brel (st_raw s) g -> b_nu (st_raw s) = nu -> b_nv (st_raw s) = nv ->
  b_in (fun a => 0 <= a < nu) (fun b => 0 <= b < nv) g -> 0 < (if uv then nu else nv) ->
  let adj x y := (if uv : bool then g x y else g y x) <> None in
  exists h es f, h_from_bigraph uv s = Ok h /\ snd (h_query (hqE None) h) = Ok (OHE es (map (fun _ => n1) es)) /\ NoDup es /\
    (forall y, 0 <= y < (if uv then nv else nu) -> lists_set (f y) (fun x => adj x y)) /\
    (forall e, In e es <-> exists y, 0 <= y < (if uv then nv else nu) /\ e = f y /\ e <> []).
Proof.
  intros C R NU NV IR P adj. destruct (bi_edges_ok C R NU NV IR uv) as (f & E & F).
  destruct (h_new_ones Hh (filter nonempty (map f (range (if uv then nv else nu)))) P) as (h & es & E1 & R1 & ND & M & NG & Q).
  exists h, es, (fun y => zsort (f y)). split; [|split; [exact Q|split; [exact ND|split]]].
  - unfold h_from_bigraph. rewrite E. cbn [rbind]. rewrite NU, NV. exact E1.
  - intros y Y. destruct (F y Y) as [N1 I1]. eapply lists_ext; [|apply zsort_lists; exact N1]. exact I1.
  - intros e. rewrite M, in_map_iff. split.
    + intros (l & <- & I). apply filter_In in I as [I NEM]. apply in_map_iff in I as (y & <- & I). apply range_In in I. exists y. split; auto. split; auto.
      intros X. pose proof (zsort_perm (f y)) as PM. rewrite X in PM. apply Permutation_nil in PM. rewrite PM in NEM. discriminate.
    + intros (y & Y & -> & X). exists (f y). split; auto. apply filter_In. split; [apply in_map, range_In; auto|]. destruct (f y); [cbn in X; congruence|reflexivity].
Qed.
(** Hypergraph.from_bigraph: the hyperedges are the non-empty neighbourhoods of the other side, all of weight 1 *)
Theorem C40_from_bigraph : forall (T : Type) (N : Num T), half_ok N -> forall nu nv e w m ops (s : bigraph T) (uv : bool),
  b_reach nu nv e w m ops s -> nonneg_new e -> Forall nonneg_bop ops -> 0 < (if uv then nu else nv) ->
  let g := b_spec nu nv e w m ops in
  let adj x y := (if uv then g x y else g y x) <> None in
  exists h es, h_from_bigraph uv s = Ok h /\ snd (h_query (hqE None) h) = Ok (OHE es (map (fun _ => n1) es)) /\ NoDup es /\
    (forall y x, adj x y -> exists e, In e es /\ In x e /\ lists_set e (fun x => adj x y)) /\
    (forall e, In e es -> e <> [] /\ exists y, 0 <= y < (if uv then nv else nu) /\ lists_set e (fun x => adj x y)).
Proof.
  intros T N Hh nu nv e w m ops s uv H NE NO P g adj. destruct (breach_rel H) as (C & R & NU & NV & _). pose proof (bspec_range nu nv e w m NE NO) as IR.
  destruct (from_bi Hh uv C R NU NV IR P) as (h & es & f & E & Q & ND & F & M). exists h, es. split; auto. split; auto. split; auto. split.
  - intros y x A. assert (Y : 0 <= y < (if uv then nv else nu)). { unfold adj in A. destruct uv; apply IR in A; tauto. }
    assert (I : In x (f y)) by (apply (F y Y); exact A). exists (f y). split; [|split; [exact I|exact (F y Y)]]. apply M. exists y. split; auto. split; auto. intros X; rewrite X in I; destruct I.
  - intros x I. apply M in I as (y & Y & -> & X). split; auto. exists y. split; [exact Y|exact (F y Y)].
Qed.
(** hypergraph -> bipartite graph -> hypergraph: the same hyperedges, apart from empty ones *)
Theorem C40_round_trip : forall (T : Type) (N : Num T), half_ok N -> forall nv e w vw m ops (s : hypergraph T) es ws vu wd,
  h_clean_reach nv e w vw m ops s -> snd (h_query (hqE None) s) = Ok (OHE es ws) -> (vu = true -> es <> []) ->
  exists b h es', b_from_hypergraph vu wd s = Ok b /\ h_from_bigraph vu b = Ok h /\
    snd (h_query (hqE None) h) = Ok (OHE es' (map (fun _ => n1) es')) /\ NoDup es' /\ (forall x, In x es' <-> In x es /\ x <> []).
Proof.
  intros T N Hh nv e w vw m ops s es ws vu wd (H & M & D & CN & CO) QE NE. destruct (h_reach_inv H M D) as (((W & _ & _ & _) & C & NV) & P & K).
  destruct (bi_view wd C W NV QE (K CN CO) P NE) as (b & g & l & E & C1 & R1 & NU1 & NV1 & IR1 & G & _).
  assert (P1 : 0 < (if vu then (if vu then nv else Z.of_nat (length es)) else (if vu then Z.of_nat (length es) else nv))) by (destruct vu; auto).
  destruct (from_bi Hh vu C1 R1 NU1 NV1 IR1 P1) as (h & es' & f & E2 & Q & ND & F & MM). exists b, h, es'. split; auto. split; auto. split; auto. split; auto.
  assert (CE := all_clean C W NV QE (K CN CO)). assert (SE := all_sorted C W QE).
  assert (X : forall i, 0 <= i < Z.of_nat (length es) -> f i = nthe es i).
  { intros i I. assert (I' : 0 <= i < (if vu then (if vu then Z.of_nat (length es) else nv) else (if vu then nv else Z.of_nat (length es)))) by (destruct vu; auto).
    eapply lists_unique; [exact (F i I')|]. split.
    - rewrite Forall_forall in CE, SE. apply SS_le_lt; [apply SE|apply CE]; apply nthe_In; auto.
    - intros v. specialize (G v i). unfold joined in G. 
      replace (0 <=? i) with true in G by (symmetry; apply Z.leb_le; lia). replace (i <? Z.of_nat (length es)) with true in G by (symmetry; apply Z.ltb_lt; lia). cbn [andb] in G.
      rewrite <- zmem_In. destruct vu; cbn [fst snd] in G; rewrite G; destruct (zmem v (nthe es i)); intuition congruence. }
  intros x. rewrite MM. split.
  - intros (i & I & -> & NX). assert (I' : 0 <= i < Z.of_nat (length es)) by (destruct vu; auto). split; auto. rewrite X by auto. apply nthe_In; auto.
  - intros (I & NX). apply In_nth with (d := []) in I as (i & L & <-). exists (Z.of_nat i). split; [destruct vu; lia|]. split; auto. rewrite X by lia. unfold nthe. rewrite Nat2Z.id. reflexivity.
Qed.
Example C40_case : exists (s : hypergraph Qc), ex_reached s /\
  match b_from_hypergraph true true s with
  | Ok b => snd (b_query bqE b) = Ok (OE [(0, 0); (2, 0); (1, 1); (2, 1); (0, 2); (3, 2); (0, 3); (1, 3); (2, 3)] [q 1; q 1; q 2; q 2; q 2; q 2; q 2; q 2; q 2]) /\
      match h_from_bigraph true b with
      | Ok h => snd (h_query (hqE None) h) = Ok (OHE [[0; 2]; [1; 2]; [0; 3]; [0; 1; 2]] [q 1; q 1; q 1; q 1])
      | _ => False
      end
  | _ => False
  end.
Proof.
  destruct (ex_hyper Num_Qc) as (s & X & _). exists s. split; [exact X|]. destruct X as ((s0 & E0 & ->) & _). injection E0 as <-.
  vm_compute. split; qceq.
Qed.

(** * C91: vertices with the same neighbours become one hyperedge *)
Theorem C91_bigraph_merges_actual : forall (T : Type) (N : Num T), half_ok N -> forall nu nv e w m ops (s : bigraph T) (uv : bool) y1 y2 x ys,
  b_reach nu nv e w m ops s -> nonneg_new e -> Forall nonneg_bop ops -> 0 < (if uv then nu else nv) ->
  let g := b_spec nu nv e w m ops in
  let adj x y := (if uv then g x y else g y x) <> None in
  y1 <> y2 -> adj x y1 -> (forall x, adj x y1 <-> adj x y2) -> NoDup ys -> (forall y, In y ys <-> exists x, adj x y) ->
  exists h es, h_from_bigraph uv s = Ok h /\ snd (h_query (hqE None) h) = Ok (OHE es (map (fun _ => n1) es)) /\ (length es < length ys)%nat.
Proof.
  intros T N Hh nu nv e w m ops s uv y1 y2 x ys H NE NO P g adj D A SAME NY IY. destruct (breach_rel H) as (C & R & NU & NV & _). pose proof (bspec_range nu nv e w m NE NO) as IR.
  destruct (from_bi Hh uv C R NU NV IR P) as (h & es & f & E & Q & ND & F & M). exists h, es. split; auto. split; auto.
  assert (RG : forall x y, adj x y -> 0 <= y < (if uv then nv else nu)). { intros a y B. unfold adj in B. destruct uv; apply IR in B; tauto. }
  apply (@fewer _ (list_eq_dec Z.eq_dec) f ys es y1 y2); auto.
  - intros z I. apply M in I as (y & Y & -> & X). apply in_map. apply IY. destruct (f y) as [|a l] eqn:FY; [congruence|]. exists a. apply (F y Y). rewrite FY. left; auto.
  - apply IY. exists x; auto.
  - apply IY. exists x. apply SAME; auto.
  - eapply lists_unique; [apply F; eauto|]. eapply lists_ext; [|apply F; apply SAME in A; eauto]. intros u. symmetry. apply SAME.
Qed.
Theorem C91_bigraph_merges_refuted : exists s h, b_reach 2 2 (Some (EMany [(0, 0); (1, 0); (0, 1); (1, 1)])) (WNone (T := Qc)) MMean [] s /\
  h_from_bigraph true s = Ok h /\ snd (h_query (hqE None) h) = Ok (OHE [[0; 1]] [q 1]).
Proof. eexists _, _. split; [eexists; split; reflexivity|]. split; [reflexivity|]. vm_compute. qceq. Qed.

(** * C41 *)
Theorem C41_star : forall (T : Type) (N : Num T) nv e w vw m ops (s : hypergraph T) es ws wd mo,
  h_clean_reach nv e w vw m ops s -> h_reports s None es ws -> mo <> MOther ->
  exists g ges mask, g_star wd mo s = Ok (g, mask) /\ r_nv (st_raw g) = nv + Z.of_nat (length es) /\
    length mask = Z.to_nat (nv + Z.of_nat (length es)) /\ (forall v, 0 <= v < nv + Z.of_nat (length es) -> nth (Z.to_nat v) mask false = (v <? nv)) /\
    snd (g_query QE g) = Ok (OE ges (map (fun _ => n1) ges)) /\ NoDup ges /\
    forall a b, In (a, b) ges <-> exists i, b = nv + i /\ 0 <= i < Z.of_nat (length es) /\ In a (nthe es i).
Proof.
  intros T N nv e w vw m ops s es ws wd mo H R K. destruct (clean_state H R) as (C & W & CL & NV & S).
  destruct H as (H & M & D & CN & CO). destruct (h_reach_inv H M D) as (_ & P & _).
  destruct (star_ok C W NV CL S P wd K) as (g & ges & E & RG & Q & ND & I). eexists g, ges, _. split; [exact E|].
  destruct (reach_rel RG) as (_ & _ & NG & _). split; [exact NG|].
  assert (L1 : length (map (fun _ : Z => true) (range nv)) = Z.to_nat nv) by (rewrite map_length; unfold range; rewrite map_length, seq_length; auto).
  assert (L2 : length (map (fun _ : Z => false) (range (Z.of_nat (length es)))) = length es) by (rewrite map_length; unfold range; rewrite map_length, seq_length; lia).
  split; [rewrite app_length, L1, L2; lia|]. split; [|auto].
  intros v V. destruct (Z.ltb_spec v nv).
  - rewrite app_nth1 by (rewrite L1; lia). rewrite nth_indep with (d' := true) by (rewrite L1; lia). apply (map_nth (fun _ : Z => true) (range nv) 0).
  - rewrite app_nth2 by (rewrite L1; lia). apply (map_nth (fun _ : Z => false) (range (Z.of_nat (length es))) 0).
Qed.
(** how many of the hyperedges contain both *)
Definition shared {T} {N : Num T} (es : list (list Z)) (u v : Z) : T := sumf es (fun e => if zmem u e && zmem v e then n1 else nz).
Theorem C41_clique : forall (T : Type) (N : Num T), ring_theory (@nz T N) n1 nadd nmul nsub nopp eq ->
  forall nv e w vw m ops (s : hypergraph T) es ws wd miu, h_clean_reach nv e w vw m ops s -> h_reports s None es ws ->
  exists g ges gws, g_clique wd miu s = Ok g /\ r_nv (st_raw g) = nv /\ snd (g_query QE g) = Ok (OE ges gws) /\ length gws = length ges /\ NoDup ges /\
    forall a b x, In ((a, b), x) (combine ges gws) <->
      a < b /\ (exists e, In e es /\ In a e /\ In b e) /\ x = (if wd then shared es a b else n1).
Proof.
  intros T N RT nv e w vw m ops s es ws wd miu H R. destruct (clean_state H R) as (C & W & CL & NV & S).
  destruct H as (H & M & D & CN & CO). destruct (h_reach_inv H M D) as (_ & P & _).
  destruct (clique_ok C W NV CL S P RT wd miu) as (g & ges & gws & E & RG & Q & L & ND & I). exists g, ges, gws. split; auto.
  destruct (reach_rel RG) as (_ & _ & NG & _). auto 10.
Qed.
Example C41_case : exists (s : hypergraph Qc), ex_reached s /\
  match g_star true MMean s, g_clique true (q 3) s with
  | Ok (g, mask), Ok g' => mask = [true; true; true; true; false; false; false; false] /\ snd (g_query QNumE g) = Ok (OZ 9) /\
      snd (g_query QE g') = Ok (OE [(0, 1); (0, 2); (0, 3); (1, 2)] [q 1; q 2; q 1; q 2])
  | _, _ => False
  end.
Proof.
  destruct (ex_hyper Num_Qc) as (s & X & _). exists s. split; [exact X|]. destruct X as ((s0 & E0 & ->) & _). injection E0 as <-.
  vm_compute. split; [reflexivity|]. split; [reflexivity|]. qceq.
Qed.

(** * C92: the documented factor miu has no effect *)
Lemma shared_pos es a b : (exists e, In e es /\ In a e /\ In b e) -> (0 < @shared R Num_R es a b)%R.
Proof.
  intros (e & I & A & B). unfold shared. induction es as [|x l IH]; [destruct I|]. cbn [sumf]. 
  assert (GE : forall l0, (0 <= sumf l0 (fun e0 => if zmem a e0 && zmem b e0 then 1 else 0))%R).
  { induction l0 as [|y l0 IH0]; cbn [sumf]; cbn in *; [lra|]. destruct (zmem a y && zmem b y); lra. }
  specialize (GE l). cbn in *. destruct I as [->|I].
  - apply zmem_In in A, B. rewrite A, B. cbn. lra.
  - specialize (IH I). destruct (zmem a x && zmem b x); lra.
Qed.
Theorem C92_miu_actual : forall nv e w vw m ops (s : hypergraph R) es ws miu, h_clean_reach nv e w vw m ops s -> h_reports s None es ws -> miu <> 1%R ->
  exists g ges gws, g_clique true miu s = Ok g /\ snd (g_query QE g) = Ok (OE ges gws) /\
    forall a b x, In ((a, b), x) (combine ges gws) -> x = shared es a b /\ x <> (miu * shared es a b)%R.
Proof.
  intros nv e w vw m ops s es ws miu H R MU. destruct (C41_clique RT true miu H R) as (g & ges & gws & E & _ & Q & _ & _ & I). exists g, ges, gws. split; auto. split; auto.
  intros a b x J. apply I in J as (L & X & ->). split; auto. apply shared_pos in X. intros F. apply MU. 
  assert (S : (shared es a b * (miu - 1) = 0)%R) by (rewrite Rmult_minus_distr_l; lra). apply Rmult_integral in S as [S|S]; lra.
Qed.

(** * C42 *)
(** [amax e] and [amin e] are the positions of the largest and smallest projected feature of the members of [e] *)
Definition arg_oracle (p : Z -> R) (amax amin : list Z -> nat) (es : list (list Z)) : Prop :=
  Forall (fun e => holds_max (map p e) (amax e) /\ holds_min (map p e) (amin e)) es.
Theorem C42_hypergcn : forall nv e w vw m ops (s : hypergraph R) es ws p amax amin (med rm : bool),
  h_clean_reach nv e w vw m ops s -> snd (h_query (hqE None) s) = Ok (OHE es ws) ->
  Forall (fun e => (2 <= length e)%nat) es -> arg_oracle p amax amin es ->
  (rm = true -> if med then exists e, In e es /\ (3 <= length e)%nat else es <> []) ->
  exists g ends, g_hypergcn nv med rm amax amin s = Ok g /\ r_nv (st_raw g) = nv /\
    Forall2 (extremes p) es ends /\
    let made := flat_map (fun ee => if med then hgcn_mediated (fst ee) (snd ee) else hgcn_plain (negb rm) (fst ee) (snd ee)) (combine es ends) in
    (forall a b x, In ((a, b), x) made -> exists e, In e es /\ In a e /\ In b e) /\
    exists A, snd (g_query QA g) = Ok (OM A) /\
      (forall u v, mget A u v = mget A v u) /\
      forall u v, mget A u v = if (0 <=? u) && (u <? nv) && (0 <=? v) && (v <? nv)
        then sumf made (fun x => if same_undirected (fst (fst x)) (snd (fst x)) u v then snd x else 0%R) else 0%R.
Proof.
  intros nv e w vw m ops s es ws p amax amin med rm (H & M & D & CN & CO) QE L2 PK NE. destruct (h_reach_inv H M D) as (((W & _ & _ & _) & C & NV) & P & K).
  destruct (hgcn_ok C W NV QE (K CN CO) P med L2 PK NE) as (g & E & G & IN). set (l := flat_map _ es) in *.
  exists g, (map (pick amax amin) es). split; [exact E|].
  assert (RG : g_reach nv (Some (EMany (map fst l))) (WList (map snd l)) false MSum [] g) by (exists g; split; [exact G|reflexivity]).
  destruct (reach_rel RG) as (_ & _ & NG & _). split; [exact NG|]. split.
  { unfold arg_oracle in PK. clear -PK. induction es as [|x r IH]; cbn; constructor; inversion PK; subst; auto. apply pick_extremes; auto. }
  assert (EL : flat_map (fun ee => if med then hgcn_mediated (fst ee) (snd ee) else hgcn_plain (negb rm) (fst ee) (snd ee)) (combine es (map (pick amax amin) es)) = l).
  { unfold l, made. clear. induction es as [|x r IH]; cbn; auto. rewrite IH. reflexivity. }
  rewrite EL. cbv zeta. split.
  - intros a b x I. unfold l in I. apply in_flat_map in I as (y & I & J). unfold arg_oracle in PK. rewrite Forall_forall in PK. destruct (pick_extremes (PK y I)) as (X & Y & _).
    apply made_inside in J as [J1 J2]; auto. exists y; auto.
  - assert (NN : nonneg_new (Some (EMany (map fst l)))) by (cbn; unfold nonneg_earg; cbn [edges_of]; eapply Forall_impl; [|exact IN]; intros a; cbn; lia).
    destruct (C03_adjacency RT RG NN (Forall_nil _)) as ((A & QA1 & AD & AO & AS) & _). exists A. split; [exact QA1|]. split; [exact AS|]. intros u v.
    destruct ((0 <=? u) && (u <? nv) && (0 <=? v) && (v <? nv)) eqn:B.
    + repeat (apply andb_true_iff in B as [B ?]). apply Z.leb_le in B, H1. apply Z.ltb_lt in H0, H2. rewrite AD by lia. unfold a_adj. rewrite (spec_msum RT).
      * replace (ax _) with false; [rewrite andb_false_r; cbn; lra|]. unfold g_spec. cbn [fold_left g_spec_new]. unfold a_add_edges. cbn [pairs_of].
        destruct (_ && _); reflexivity.
      * eapply Forall_impl; [|exact IN]. intros a; cbn; lia.
    + apply AO. intros [U V]. rewrite (proj2 (Z.leb_le 0 u)), (proj2 (Z.ltb_lt u nv)), (proj2 (Z.leb_le 0 v)), (proj2 (Z.ltb_lt v nv)) in B by lia. discriminate.
Qed.
Theorem C42_reject : forall nv e w vw m ops (s : hypergraph R) es ws nf med rm amax amin,
  h_clean_reach nv e w vw m ops s -> snd (h_query (hqE None) s) = Ok (OHE es ws) ->
  nf <> nv \/ Exists (fun e => (length e < 2)%nat) es -> g_hypergcn nf med rm amax amin s = Err AssertionError.
Proof.
  intros nv e w vw m ops s es ws nf med rm amax amin (H & M & D & CN & CO) QE X. destruct (h_reach_inv H M D) as (((W & _ & _ & _) & C & NV) & P & K).
  unfold g_hypergcn. rewrite NV. destruct (Z.eqb_spec nv nf) as [EQ|]; auto. destruct X as [X|X]; [congruence|]. rewrite (asks_e s QE). cbn [rbind fst].
  replace (forallb _ es) with false; auto. symmetry. apply Bool.not_true_iff_false. intros F. rewrite forallb_forall in F. apply Exists_exists in X as (x & I & L). apply F in I. apply Nat.leb_le in I. lia.
Qed.
(** vertices 0..3 projected to 0, -1, 2, 5: positions of the largest and smallest in [0;2], [1;2], [0;3] and [0;1;2] *)
Definition ex_p (v : Z) : R := if v =? 0 then 0 else if v =? 1 then (-1) else if v =? 2 then 2 else 5.
Definition ex_amax (e : list Z) : nat := match e with [_; _; _] => 2 | _ => 1 end.
Definition ex_amin (e : list Z) : nat := match e with [_; _; _] => 1 | _ => 0 end.
Example C42_case : exists s : hypergraph R, ex_reached s /\ exists es ws, snd (h_query (hqE None) s) = Ok (OHE es ws) /\
  Forall (fun e => (2 <= length e)%nat) es /\ arg_oracle ex_p ex_amax ex_amin es /\ (exists e, In e es /\ (3 <= length e)%nat).
Proof.
  destruct (ex_hyper Num_R) as (s & X & _ & _ & [E _]). exists s. split; [exact X|]. eexists _, _. split; [exact E|].
  split; [repeat constructor|]. split.
  - unfold arg_oracle. repeat (constructor; [split; (split; [cbn; lia|cbn; intros x I; intuition lra])|]). constructor.
  - exists [0; 1; 2]. split; [cbn; auto|]. cbn. lia.
Qed.

(** * C93: with mediators the two extreme vertices themselves are never joined *)
Lemma med_sum e ab : NoDup e -> In (fst ab) e -> In (snd ab) e -> fst ab <> snd ab ->
  sumf (hgcn_mediated e ab) (fun x => snd x) = ((2 * INR (length e) - 4) / (2 * INR (length e) - 3))%R.
Proof.
  intros ND A B D. unfold hgcn_mediated. rewrite (sumf_flat_map RT). cbn [sumf snd].
  assert (L : Z.of_nat (length (filter (other_than ab) e)) = Z.of_nat (length e) - 2).
  { apply in_split in A as (l1 & l2 & ->). pose proof (NoDup_remove_2 _ _ _ ND) as NA. assert (B' : In (snd ab) (l1 ++ l2)) by (apply in_app_iff in B as [B|[B|B]]; [apply in_app_iff; auto|congruence|apply in_app_iff; auto]).
    pose proof (NoDup_remove_1 _ _ _ ND) as ND1. assert (F : filter (other_than ab) (l1 ++ fst ab :: l2) = filter (other_than ab) (l1 ++ l2)).
    { rewrite !filter_app. f_equal. cbn. unfold other_than at 1. rewrite Z.eqb_refl. reflexivity. }
    rewrite F. replace (Z.of_nat (length (l1 ++ fst ab :: l2))) with (Z.of_nat (length (l1 ++ l2)) + 1) by (rewrite !app_length; cbn; lia).
    clear ND F B. revert NA B' ND1. generalize (l1 ++ l2) as l. clear l1 l2. intros l NA B ND. apply in_split in B as (l1 & l2 & ->). pose proof (NoDup_remove_2 _ _ _ ND) as NB.
    assert (F : filter (other_than ab) (l1 ++ snd ab :: l2) = l1 ++ l2).
    { rewrite filter_app. cbn. unfold other_than at 2. rewrite Z.eqb_refl, orb_true_r. cbn [negb]. rewrite <- filter_app. apply filter_all. intros x I. unfold other_than.
      apply negb_true_iff, orb_false_iff. rewrite !Z.eqb_neq. split; intros ->; [|auto]. apply NA. apply in_app_iff in I as [I|I]; apply in_app_iff; cbn; auto. }
    rewrite F. rewrite !app_length. cbn. lia. }
  set (c := (/ (2 * INR (length e) - 3))%R).
  assert (S : sumf (filter (other_than ab) e) (fun _ => (c + (c + 0))%R) = (INR (length (filter (other_than ab) e)) * (2 * c))%R).
  { clear. induction (filter (other_than ab) e) as [|x l IH]; [cbn; lra|]. cbn [sumf length]. rewrite IH, S_INR. cbn. lra. }
  transitivity (INR (length (filter (other_than ab) e)) * (2 * c))%R; [exact S|].
  replace (INR (length (filter (other_than ab) e))) with (INR (length e) - 2)%R by (rewrite !INR_IZR_INZ, L, minus_IZR; lra).
  unfold c, Rdiv. ring.
Qed.
Theorem C93_mediator_actual : forall p e ab, NoDup e -> extremes p e ab -> fst ab <> snd ab ->
  (forall x, ~ In (ab, x) (hgcn_mediated e ab)) /\ (forall x, ~ In ((snd ab, fst ab), x) (hgcn_mediated e ab)) /\
  sumf (hgcn_mediated e ab) (fun x => snd x) = ((2 * INR (length e) - 4) / (2 * INR (length e) - 3))%R /\
  (length e = 2%nat -> hgcn_mediated e ab = []).
Proof.
  intros p e ab ND (A & B & _) D. split; [|split; [|split]].
  - intros x I. apply med_In in I as (c & _ & O1 & O2 & [Q1|Q1]); apply (f_equal (fun z => fst z)) in Q1; destruct ab; cbn in *; congruence.
  - intros x I. apply med_In in I as (c & _ & O1 & O2 & [Q1|Q1]); apply (f_equal (fun z => fst z)) in Q1; destruct ab; cbn in *; congruence.
  - apply med_sum; auto.
  - intros L. destruct (hgcn_mediated e ab) as [|x l] eqn:E; auto. exfalso. assert (I : In x (hgcn_mediated e ab)) by (rewrite E; left; auto).
    apply med_In in I as (c & I & O1 & O2 & _). assert (NoDup [fst ab; snd ab; c]) by (repeat constructor; cbn; intuition).
    apply (@NoDup_incl_length _ _ e) in H; [cbn in H; lia|]. intros y [<-|[<-|[<-|[]]]]; auto.
Qed.
(** so on a hypergraph of 2-element hyperedges nothing is generated: IndexError by default, an empty graph with remove_selfloop=False *)
Theorem C93_pairs_lost_actual : forall nv e w vw m ops (s : hypergraph R) es ws p amax amin,
  h_clean_reach nv e w vw m ops s -> snd (h_query (hqE None) s) = Ok (OHE es ws) ->
  Forall (fun e => length e = 2%nat) es -> arg_oracle p amax amin es -> Forall (fun e => amax e <> amin e) es ->
  g_hypergcn nv true true amax amin s = Err IndexError /\
  exists g, g_hypergcn nv true false amax amin s = Ok g /\ snd (g_query QE g) = Ok (OE [] []).
Proof.
  intros nv e w vw m ops s es ws p amax amin (H & M & D & CN & CO) QE L2 PK NEQ. destruct (h_reach_inv H M D) as (((W & _ & _ & _) & C & NV) & P & K).
  pose proof (all_clean C W NV QE (K CN CO)) as CE. unfold g_hypergcn. rewrite NV, Z.eqb_refl, (asks_e s QE). cbn [rbind fst].
  replace (forallb _ es) with true by (symmetry; apply forallb_forall; intros x I; rewrite Forall_forall in L2; rewrite (L2 x I); reflexivity).
  assert (X : flat_map (@hgcn_edges R Num_R true amax amin) es = []).
  { clear QE. induction es as [|x l IH]; cbn [flat_map]; auto. apply Forall_cons_iff in L2 as [L2 L2']. apply Forall_cons_iff in PK as [PK PK']. apply Forall_cons_iff in NEQ as [NEQ NEQ']. apply Forall_cons_iff in CE as [CE CE'].
    rewrite IH by auto. rewrite app_nil_r. destruct PK as [[A1 _] [A2 _]]. rewrite map_length in A1, A2. unfold hgcn_edges. rewrite L2 in *. cbn [seq flat_map].
    destruct (amax x) as [|[|]], (amin x) as [|[|]]; try lia; reflexivity. }
  rewrite X. split; [reflexivity|]. cbn [map]. unfold g_new. replace (0 <? nv) with true by (symmetry; apply Z.ltb_lt; auto). cbn. eexists; split; reflexivity.
Qed.
Example C93_case : exists s : hypergraph R, h_clean_reach 3 (Some (HMany [[0; 1]; [1; 2]])) WNone None MMean [] s /\
  snd (h_query (hqE None) s) = Ok (OHE [[0; 1]; [1; 2]] [1%R; 1%R]) /\ 
  let p v := IZR v in arg_oracle p (fun _ => 1%nat) (fun _ => 0%nat) [[0; 1]; [1; 2]].
Proof.
  eexists. split; [split; [eexists; split; reflexivity|]; split; [discriminate|]; split; [constructor|]; split; [|constructor]|].
  - repeat constructor; cbn; try lia; intuition lia.
  - split; [reflexivity|]. cbv zeta. unfold arg_oracle. repeat (constructor; [split; (split; [cbn; lia|cbn; intros x I; intuition lra])|]). constructor.
Qed.
