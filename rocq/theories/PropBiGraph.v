(** Properties C21-C26, C80: bipartite graphs. *)
From Coq Require Import Reals Lra QArith Qcanon.
From Verif Require Import Num PyDict PyDictFacts Coo CooFacts MatFacts RealFacts ModelBase CacheFacts ModelGraph GraphFacts SpecGraph SpecGraphOps
  StoreFacts GraphMatrix GraphReach SoftmaxFacts ModelDiGraph DiGraphFacts DiGraphReach ModelBiGraph SpecBiGraph BiGraphFacts BiGraphMatrix.
Set Implicit Arguments.
Local Open Scope Z_scope.
Local Notation q z := (Q2Qc (inject_Z z)).
Local Ltac qceq := repeat first [ match goal with |- @eq Qc _ _ => apply Qc_is_canon; vm_compute; reflexivity end | reflexivity | f_equal ].

(** [b_reach nu nv e w m ops s]: [s] is the state of BiGraph(nu, nv, e, w, merge_op=m) after the calls [ops]
    (queries included); [b_spec ...] is the abstract map of the same history. *)

(** * C21 *)
Theorem C21_bigraph_store : forall (T : Type) (N : Num T) nu nv e w m ops (s : bigraph T),
  b_reach nu nv e w m ops s ->
  exists es ws,
    snd (b_query bqE s) = Ok (OE es ws) /\
    snd (b_query bqNumE s) = Ok (OZ (Z.of_nat (length es))) /\
    length ws = length es /\ NoDup es /\
    (forall a b w', In ((a, b), w') (combine es ws) <-> b_spec nu nv e w m ops a b = Some w').
Proof. intros. destruct (breach_rel H) as (C & R & _). exact (breported C R). Qed.
Definition exb_e : option earg := Some (EMany [(0, 1); (1, 0); (1, 1); (0, 1)]).
Definition exb_w : warg Qc := WList [q 2; q 3; q 5; q 4].
Definition exb_ops : list (bop Qc) :=
  [bQuery bqA; bAdd (EMany [(1, 2); (0, 1)]) (WList [q 7; q 8]) MSum; bQuery (bqNv 1); bRemove (EOne 1 0); bAdd (EOne 2 0) WNone MSum].
Example exb_reach : exists s, b_reach 2 3 exb_e exb_w MSum exb_ops s /\
  snd (b_query bqE s) = Ok (OE [(0, 1); (1, 1); (1, 2)] [q 14; q 5; q 7]).
Proof. eexists; split; [eexists; split; reflexivity|]. vm_compute. qceq. Qed.
Example exb_spec : b_spec 2 3 exb_e exb_w MSum exb_ops 1 1 = Some (q 5) /\ b_spec 2 3 exb_e exb_w MSum exb_ops 1 0 = None.
Proof. split; vm_compute; qceq. Qed.

(** * C22 *)
Theorem C22_bigraph_fresh : forall (T : Type) (N : Num T) nu nv e w m ops (s : bigraph T),
  b_reach nu nv e w m ops s ->
  (forall q0, snd (b_query q0 s) = snd (b_query q0 (clear_cache s))) /\
  (exists es ws,
    snd (b_query bqE s) = Ok (OE es ws) /\
    forall m', m' <> MOther -> exists s',
      b_new nu nv (Some (EMany es)) (WList ws) m' = Ok s' /\
      forall q0, snd (b_query q0 s) = snd (b_query q0 s')).
Proof.
  intros. destruct (breach_rel H) as (C & R & NU & NV & P).
  assert (C0 : coh bspec (mkSt (st_raw s) [])) by apply coh_empty. split.
  - intros q0. change (clear_cache s) with (mkSt (T := T) (st_raw s) []). rewrite (good_answer (bgood_query q0) C), (good_answer (bgood_query q0) C0). reflexivity.
  - exists (fst (braw_edges (st_raw s))), (snd (braw_edges (st_raw s))). split.
    { rewrite (good_answer (bgood_query bqE) C). reflexivity. }
    intros m' K. exists (mkSt (st_raw s) []). split.
    + unfold braw_edges; cbn [fst snd]. unfold dkeys, dvals. rewrite bnew_nodup; auto.
      * destruct (st_raw s); cbn in *; subst; reflexivity.
      * apply R.
      * eapply brel_ends; [exact R|]. apply bspec_below.
    + intros q0. rewrite (good_answer (bgood_query q0) C), (good_answer (bgood_query q0) C0). reflexivity.
Qed.
Theorem C22_queries_pure : forall (T : Type) (N : Num T) nu nv e w m ops (s : bigraph T) q0 q',
  b_reach nu nv e w m ops s -> snd (b_query q' (fst (b_query q0 s))) = snd (b_query q' s).
Proof.
  intros. destruct (breach_rel H) as (C & R & _).
  pose proof (good_coh (bgood_query q0) C) as C1. pose proof (good_raw (bgood_query q0) C) as R1.
  rewrite (good_answer (bgood_query q') C1), (good_answer (bgood_query q') C), R1. reflexivity.
Qed.

(** * C23 *)
Theorem C23_matrices : forall (T : Type) (N : Num T),
  ring_theory (@nz T N) n1 nadd nmul nsub nopp eq ->
  forall nu nv e w m ops (s : bigraph T), b_reach nu nv e w m ops s -> nonneg_new e -> Forall nonneg_bop ops ->
  let g := b_spec nu nv e w m ops in
  let du i := sumf (range nv) (fun j => wt (g i j)) in
  let dv j := sumf (range nu) (fun i => wt (g i j)) in
  (exists B BT A, snd (b_query bqB s) = Ok (OM B) /\ snd (b_query bqBT s) = Ok (OM BT) /\ snd (b_query bqA s) = Ok (OM A) /\
     (forall i j, mget B i j = wt (g i j)) /\
     (forall i j, mget BT i j = mget B j i) /\
     (forall i j, mget A i j = block nu g i j)) /\
  snd (b_query bqDu s) = Ok (OM (diag nu du)) /\ snd (b_query bqDv s) = Ok (OM (diag nv dv)) /\
  snd (b_query bqDu1 s) = Ok (OM (diag nu (fun i => ninv (du i)))) /\
  snd (b_query bqDv1 s) = Ok (OM (diag nv (fun i => ninv (dv i)))) /\
  snd (b_query bqDegU s) = Ok (OVals (map du (range nu))) /\
  snd (b_query bqDegV s) = Ok (OVals (map dv (range nv))) /\
  exists es ws, snd (b_query bqE s) = Ok (OE es ws) /\
    sumf (range nu) du = sumf ws (fun w => w) /\ sumf (range nv) dv = sumf ws (fun w => w).
Proof.
  intros T N RT nu nv e w m ops s H NE NO g du dv. destruct (breach_rel H) as (C & R & NU & NV & P).
  pose proof (bspec_range nu nv e w m NE NO) as IR.
  split; [exact (bquery_B RT C R NU NV IR)|].
  destruct (bquery_D RT C R NU NV IR) as (A1 & A2 & A3 & A4 & A5 & A6).
  repeat (split; [assumption|]). exact (bhandshake RT C R IR).
Qed.
Theorem C23_neighbours : forall (T : Type) (N : Num T) nu nv e w m ops (s : bigraph T),
  b_reach nu nv e w m ops s -> nonneg_new e -> Forall nonneg_bop ops ->
  let g := b_spec nu nv e w m ops in
  forall u v, 0 <= u < nu -> 0 <= v < nv ->
  exists lv lu, snd (b_query (bqNv u) s) = Ok (OIdx lv) /\ snd (b_query (bqNu v) s) = Ok (OIdx lu) /\
    NoDup lv /\ NoDup lu /\ (In v lv <-> In u lu) /\
    (forall x, In x lv <-> g u x <> None) /\ (forall x, In x lu <-> g x v <> None).
Proof.
  intros T N nu nv e w m ops s H NE NO g u v U V. destruct (breach_rel H) as (C & R & NU & NV & P).
  destruct (bquery_nbr C R NU NV (bspec_range nu nv e w m NE NO) U V) as (lv & lu & A1 & A2 & N1 & N2 & M1 & M2).
  exists lv, lu. do 4 (split; [assumption|]). rewrite M1, M2. tauto.
Qed.
Theorem C23_coordinates : forall (T : Type) (N : Num T) nu nv e w m ops (s : bigraph T),
  b_reach nu nv e w m ops s -> nonneg_new e -> Forall nonneg_bop ops ->
  exists eu ev ww,
    snd (b_query bqEu s) = Ok (OIdx eu) /\ snd (b_query bqEv s) = Ok (OIdx ev) /\ snd (b_query bqW s) = Ok (OVals ww) /\
    length ev = length eu /\ length ww = length eu /\
    snd (b_query bqB s) = Ok (OM (combine (combine eu ev) ww)) /\
    NoDup (combine eu ev) /\
    (forall i j, In (i, j) (combine eu ev) <-> b_spec nu nv e w m ops i j <> None).
Proof.
  intros T N nu nv e w m ops s H NE NO. destruct (breach_rel H) as (C & R & NU & NV & P).
  exact (bquery_coords C R NU NV (bspec_range nu nv e w m NE NO)).
Qed.
Example exb_nonneg : nonneg_new exb_e /\ Forall nonneg_bop exb_ops.
Proof. split; [|unfold exb_ops]; repeat (constructor; cbn; try lia). Qed.

(** * C24: [b_switch s] is the returned graph; the argument [s] itself is not written to *)
Theorem C24_switch : forall (T : Type) (N : Num T) nu nv e w m ops (s : bigraph T),
  b_reach nu nv e w m ops s ->
  let s' := b_switch s in
  b_nu (st_raw s') = nv /\ b_nv (st_raw s') = nu /\
  (exists es ws es' ws', snd (b_query bqE s) = Ok (OE es ws) /\ snd (b_query bqE s') = Ok (OE es' ws') /\
    NoDup es' /\ length ws' = length es' /\
    forall a b w, In ((a, b), w) (combine es ws) <-> In ((b, a), w) (combine es' ws')) /\
  (forall q0, snd (b_query q0 (b_switch s')) = snd (b_query q0 s)).
Proof.
  intros T N nu nv e w m ops s H s'. destruct (breach_rel H) as (C & R & NU & NV & P).
  destruct (bswitch_raw s R) as (E & R'). fold s' in E, R'.
  assert (C' : coh bspec s') by (rewrite E; apply coh_empty).
  split; [rewrite E; auto|]. split; [rewrite E; auto|]. split.
  - destruct (breported C R) as (es & ws & E1 & _ & _ & _ & M).
    destruct (breported C' R') as (es' & ws' & E1' & _ & L' & ND' & M').
    exists es, ws, es', ws'. do 4 (split; [assumption|]). intros a b w'. rewrite M, M'. reflexivity.
  - intros q0. destruct (bswitch_raw s' R') as (E2 & R2).
    assert (C2 : coh bspec (b_switch s')) by (rewrite E2; apply coh_empty).
    rewrite (good_answer (bgood_query q0) C2), (good_answer (bgood_query q0) C). f_equal. rewrite E2. rewrite E. cbn.
    rewrite map_map. destruct (st_raw s) as [x y z]; cbn. f_equal. rewrite <- (map_id z) at 2. apply map_ext. intros [[? ?] ?]; reflexivity.
Qed.
Example exb_switch : exists s, b_reach 2 3 exb_e exb_w MSum exb_ops s /\
  snd (b_query bqE (b_switch s)) = Ok (OE [(1, 0); (1, 1); (2, 1)] [q 14; q 5; q 7]).
Proof. eexists; split; [eexists; split; reflexivity|]. vm_compute. qceq. Qed.

(** * C25 *)
Theorem C25_pass : forall (T : Type) (N : Num T),
  ring_theory (@nz T N) n1 nadd nmul nsub nopp eq ->
  forall nu nv e w m ops (s : bigraph T), b_reach nu nv e w m ops s -> nonneg_new e -> Forall nonneg_bop ops ->
  let g := b_spec nu nv e w m ops in
  forall X, exists v_sum v_mean u_sum u_mean,
    snd (b_query (bqPass true X AggrSum None None) s) = Ok (OVals (map v_sum (range nv))) /\
    snd (b_query (bqPass true X AggrMean None None) s) = Ok (OVals (map v_mean (range nv))) /\
    snd (b_query (bqPass false X AggrSum None None) s) = Ok (OVals (map u_sum (range nu))) /\
    snd (b_query (bqPass false X AggrMean None None) s) = Ok (OVals (map u_mean (range nu))) /\
    (forall j, 0 <= j < nv ->
      v_sum j = sumf (range nu) (fun i => nmul (wt (g i j)) (X i)) /\
      v_mean j = nmul (ninv (sumf (range nu) (fun i => wt (g i j)))) (sumf (range nu) (fun i => nmul (wt (g i j)) (X i)))) /\
    (forall i, 0 <= i < nu ->
      u_sum i = sumf (range nv) (fun j => nmul (wt (g i j)) (X j)) /\
      u_mean i = nmul (ninv (sumf (range nv) (fun j => wt (g i j)))) (sumf (range nv) (fun j => nmul (wt (g i j)) (X j)))).
Proof.
  intros T N RT nu nv e w m ops s H NE NO g X. destruct (breach_rel H) as (C & R & NU & NV & P).
  exact (bquery_pass RT C R NU NV (bspec_range nu nv e w m NE NO) X).
Qed.
(** with positive weights the mean lies between the neighbours' values, preserves constants, and is 0 at isolated vertices *)
Theorem C25_mean_between : forall nu nv e w m ops (s : bigraph R) es ws, b_reach nu nv e w m ops s -> nonneg_new e -> Forall nonneg_bop ops ->
  snd (b_query bqE s) = Ok (OE es ws) -> Forall (fun w => 0 < w)%R ws ->
  let g := b_spec nu nv e w m ops in
  forall (X : Z -> R) (u2v : bool), exists f, snd (b_query (bqPass u2v X AggrMean None None) s) = Ok (OVals (map f (range (if u2v then nv else nu)))) /\
    let edge i j := (if u2v then g j i else g i j) <> None in
    forall i, 0 <= i < (if u2v then nv else nu) ->
      (forall lo hi, (exists j, edge i j) -> (forall j, edge i j -> (lo <= X j <= hi)%R) -> (lo <= f i <= hi)%R) /\
      (forall c, (exists j, edge i j) -> (forall j, X j = c) -> f i = c) /\
      ((forall j, ~ edge i j) -> f i = 0%R).
Proof.
  intros nu nv e w m ops s es ws H NE NO E PP g X u2v. destruct (breach_rel H) as (C & R & NU & NV & P).
  pose proof (bspec_range nu nv e w m NE NO) as IR. exact (bmean_between C R NU NV IR E PP X u2v).
Qed.
Theorem C25_switch_exchanges : forall (T : Type) (N : Num T),
  ring_theory (@nz T N) n1 nadd nmul nsub nopp eq ->
  forall nu nv e w m ops (s : bigraph T), b_reach nu nv e w m ops s -> nonneg_new e -> Forall nonneg_bop ops ->
  forall X (u2v : bool) a, a = AggrSum \/ a = AggrMean ->
    snd (b_query (bqPass u2v X a None None) (b_switch s)) = snd (b_query (bqPass (negb u2v) X a None None) s).
Proof.
  intros T N RT nu nv e w m ops s H NE NO X u2v a AA. destruct (breach_rel H) as (C & R & NU & NV & P).
  exact (bpass_switch RT C R NU NV (bspec_range nu nv e w m NE NO) X u2v AA).
Qed.
(** softmax aggregation, with the stored weights or with custom ones listed in the order of e_u / e_v *)
Theorem C25_softmax : forall nu nv e w m ops (s : bigraph R), b_reach nu nv e w m ops s -> nonneg_new e -> Forall nonneg_bop ops ->
  let g := b_spec nu nv e w m ops in
  forall u2v : bool, let ni := if u2v then nv else nu in let nj := if u2v then nu else nv in
  (exists c, is_softmax nj (fun i j => (if u2v then g j i else g i j) <> None) (fun i j => wt (if u2v then g j i else g i j)) c /\
    forall X, exists f, snd (b_query (bqPass u2v X AggrSoftmax None None) s) = Ok (OVals (map f (range ni))) /\
      forall i, f i = sumf (range nj) (fun j => c i j * X j)%R) /\
  (forall cw eu ev,
    snd (b_query bqEu s) = Ok (OIdx eu) -> snd (b_query bqEv s) = Ok (OIdx ev) -> length cw = length eu ->
    exists c, is_softmax nj (fun i j => (if u2v then g j i else g i j) <> None)
     (fun i j => mget (combine (combine eu ev) cw) (if u2v then j else i) (if u2v then i else j)) c /\
    forall X, exists f, snd (b_query (bqPass u2v X AggrSoftmax (Some cw) None) s) = Ok (OVals (map f (range ni))) /\
      forall i, f i = sumf (range nj) (fun j => c i j * X j)%R).
Proof.
  intros nu nv e w m ops s H NE NO g u2v ni nj. destruct (breach_rel H) as (C & R & NU & NV & P).
  pose proof (bspec_range nu nv e w m NE NO) as IR. split.
  - exact (bquery_softmax_plain C R NU NV IR u2v).
  - intros cw eu ev E1 E2 L. exact (bquery_softmax C R NU NV IR cw u2v E1 E2 L).
Qed.
Theorem C25_custom_sum : forall (T : Type) (N : Num T),
  ring_theory (@nz T N) n1 nadd nmul nsub nopp eq ->
  forall nu nv e w m ops (s : bigraph T) eu ev cw, b_reach nu nv e w m ops s -> nonneg_new e -> Forall nonneg_bop ops ->
  snd (b_query bqEu s) = Ok (OIdx eu) -> snd (b_query bqEv s) = Ok (OIdx ev) -> length cw = length eu ->
  forall X, exists f h,
    snd (b_query (bqPass true X AggrSum (Some cw) None) s) = Ok (OVals (map f (range nv))) /\
    snd (b_query (bqPass false X AggrSum (Some cw) None) s) = Ok (OVals (map h (range nu))) /\
    forall i,
      f i = sumf (combine (combine eu ev) cw) (fun x => if snd (fst x) =? i then nmul (snd x) (X (fst (fst x))) else nz) /\
      h i = sumf (combine (combine eu ev) cw) (fun x => if fst (fst x) =? i then nmul (snd x) (X (snd (fst x))) else nz).
Proof.
  intros T N RT nu nv e w m ops s eu ev cw H NE NO E1 E2 L X. destruct (breach_rel H) as (C & R & NU & NV & P).
  pose proof (bspec_range nu nv e w m NE NO) as IR.
  destruct (bquery_weighted C R NU NV IR cw E1 E2 L true) as (A & _). destruct (bquery_weighted C R NU NV IR cw E1 E2 L false) as (B & _).
  eexists _, _. split; [apply A|]. split; [apply B|]. intros i.
  split; [exact (spmv_dir RT (combine (combine eu ev) cw) true X i) | exact (spmv_dir RT (combine (combine eu ev) cw) false X i)].
Qed.
Example exb_custom : exists s eu ev cw, b_reach 2 3 exb_e exb_w MSum exb_ops s /\
  snd (b_query bqEu s) = Ok (OIdx eu) /\ snd (b_query bqEv s) = Ok (OIdx ev) /\ length cw = length eu /\ eu = [0; 1; 1] /\
  snd (b_query (bqPass true (fun _ => q 1) AggrSum (Some cw) None) s) = Ok (OVals [q 0; q 3; q 3]) /\
  snd (b_query (bqPass true (fun _ => q 1) AggrMean None None) s) = Ok (OVals [q 0; q 1; q 1]).
Proof.
  eexists _, _, _, [q 1; q 2; q 3]. split; [eexists; split; reflexivity|].
  split; [vm_compute; reflexivity|]. split; [vm_compute; reflexivity|]. split; [reflexivity|]. split; [reflexivity|].
  split; vm_compute; qceq.
Qed.
Example exb_real : exists (s : bigraph R) es ws, b_reach 2 2 (Some (EMany [(0, 1); (1, 1)])) WNone MSum [bQuery bqA; bRemove (EOne 0 1)] s /\
  snd (b_query bqE s) = Ok (OE es ws) /\ Forall (fun w => 0 < w)%R ws /\ es = [(1, 1)] /\
  nonneg_new (Some (EMany [(0, 1); (1, 1)])).
Proof.
  eexists _, _, _. split; [eexists; split; reflexivity|]. split; [reflexivity|]. split; [repeat constructor; cbn; lra|].
  split; [reflexivity|]. repeat constructor; cbn; lia.
Qed.

(** * C80: custom-weight mean of BiGraph.u2v / v2u *)
Theorem C80_weighted_mean_actual : forall (T : Type) (N : Num T),
  ring_theory (@nz T N) n1 nadd nmul nsub nopp eq ->
  forall nu nv e w m ops (s : bigraph T) eu ev cw, b_reach nu nv e w m ops s -> nonneg_new e -> Forall nonneg_bop ops ->
  snd (b_query bqEu s) = Ok (OIdx eu) -> snd (b_query bqEv s) = Ok (OIdx ev) -> length cw = length eu ->
  forall X, exists f h,
    snd (b_query (bqPass true X AggrMean (Some cw) None) s) = Ok (OVals (map f (range nv))) /\
    snd (b_query (bqPass false X AggrMean (Some cw) None) s) = Ok (OVals (map h (range nu))) /\
    forall i,
      f i = nmul (sumf (combine (combine eu ev) cw) (fun x => if snd (fst x) =? i then snd x else nz))
        (sumf (combine (combine eu ev) cw) (fun x => if snd (fst x) =? i then nmul (snd x) (X (fst (fst x))) else nz)) /\
      h i = nmul (sumf (combine (combine eu ev) cw) (fun x => if fst (fst x) =? i then snd x else nz))
        (sumf (combine (combine eu ev) cw) (fun x => if fst (fst x) =? i then nmul (snd x) (X (snd (fst x))) else nz)).
Proof.
  intros T N RT nu nv e w m ops s eu ev cw H NE NO E1 E2 L X. destruct (breach_rel H) as (C & R & NU & NV & P).
  pose proof (bspec_range nu nv e w m NE NO) as IR.
  destruct (bquery_weighted C R NU NV IR cw E1 E2 L true) as (A & _). destruct (bquery_weighted C R NU NV IR cw E1 E2 L false) as (B & _).
  eexists _, _. split; [apply A|]. split; [apply B|]. intros i. unfold mean_weighted.
  split; f_equal;
   [ exact (rowsum_dir RT (combine (combine eu ev) cw) true i) | exact (spmv_dir RT (combine (combine eu ev) cw) true X i)
   | exact (rowsum_dir RT (combine (combine eu ev) cw) false i) | exact (spmv_dir RT (combine (combine eu ev) cw) false X i) ].
Qed.
Theorem C80_weighted_mean_refuted : exists (s : bigraph Qc) cw,
  b_reach 1 1 (Some (EOne 0 0)) WNone MMean [] s /\ Forall (fun w => (0 < w)%Qc) cw /\
  snd (b_query (bqPass true (fun _ => q 1) AggrMean (Some cw) None) s) = Ok (OVals [q 4]).
Proof.
  eexists _, [q 2]. split; [eexists; split; reflexivity|]. split; [repeat constructor|]. vm_compute. qceq.
Qed.

(** * C26 *)
Theorem C26_gcn_matrix : forall (T : Type) (N : Num T),
  ring_theory (@nz T N) n1 nadd nmul nsub nopp eq ->
  forall nu nv e w m ops (s : bigraph T), 0 <= nu -> b_reach nu nv e w m ops s -> nonneg_new e -> Forall nonneg_bop ops ->
  let g := b_spec nu nv e w m ops in
  let n := nu + nv in
  let hat a b := nadd (block nu g a b) (if a =? b then n1 else nz) in
  let deg a := sumf (range n) (fun b => hat a b) in
  exists L, snd (b_query bqLgcn s) = Ok (OM L) /\
    (forall i j, 0 <= i < n -> 0 <= j < n ->
      mget L i j = nmul (nmul (nisq (deg i)) (hat i j)) (nisq (deg j)) /\ mget L i j = mget L j i /\
      (* two different vertices of the same side never mix *)
      (i <> j -> ((i < nu /\ j < nu) \/ (nu <= i /\ nu <= j)) -> mget L i j = nz)) /\
    (forall X, exists y, snd (b_query (bqGcn X None) s) = Ok (OVals (map y (range n))) /\
      forall i, y i = sumf (range n) (fun j => nmul (mget L i j) (X j))).
Proof.
  intros T N RT nu nv e w m ops s PU H NE NO g n hat deg. destruct (breach_rel H) as (C & R & NU & NV & P).
  exact (bgcn_facts RT C R NU NV (bspec_range nu nv e w m NE NO) PU (Z.lt_le_incl _ _ P)).
Qed.
Theorem C26_gcn_energy : forall nu nv e w m ops (s : bigraph R) es ws, 0 <= nu -> b_reach nu nv e w m ops s -> nonneg_new e -> Forall nonneg_bop ops ->
  snd (b_query bqE s) = Ok (OE es ws) -> Forall (fun w => 0 <= w)%R ws ->
  forall x : Z -> R, exists y : Z -> R,
    snd (b_query (bqGcn x None) s) = Ok (OVals (map y (range (nu + nv)))) /\
    (Rabs (sumf (range (nu + nv)) (fun i => x i * y i)) <= sumf (range (nu + nv)) (fun i => x i * x i))%R.
Proof.
  intros nu nv e w m ops s es ws PU H NE NO E NN x. destruct (breach_rel H) as (C & R & NU & NV & P).
  exact (bgcn_energy C R NU NV (bspec_range nu nv e w m NE NO) E NN PU (Z.lt_le_incl _ _ P) x).
Qed.
