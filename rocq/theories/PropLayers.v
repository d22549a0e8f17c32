(** Properties C69, C122, C125, C126: the convolution layers of dhg/nn/convs compute the published formulas. *)
From Coq Require Import String Ring Permutation Reals Lra QArith Qcanon.
From Verif Require Import Num PyDict PyDictFacts Coo CooFacts MatFacts RealFacts ModelBase CacheFacts ModelGraph GraphFacts SpecGraph SpecGraphOps StoreFacts
  GraphStore GraphMatrix GraphLaplace GraphReach SoftmaxFacts PropGraph ModelHyper HyperFacts SpecHyper HyperStore HyperView HyperMatrix HyperPass HyperReach HyperOps PropHyper
  ModelConv ModelUtils ModelNN SpecNN NNFacts.
Set Implicit Arguments.
Local Open Scope list_scope.
Local Open Scope Z_scope.

Lemma as_vals_range {T} (r : res (out T)) n F : (exists f, r = Ok (OVals (map f (range n))) /\ forall i, 0 <= i < n -> f i = F i) ->
  as_vals r = Ok (map F (range n)).
Proof.
  intros (f & -> & E). cbn. f_equal. apply map_ext_in. intros i I. unfold range in I. apply in_map_iff in I as (k & <- & I). apply in_seq in I.
  apply E. lia.
Qed.

(** ** what the structures answer, for every column *)
Section Ask.
  Context {T : Type} {N : Num T} (RT : ring_theory (@nz T N) n1 nadd nmul nsub nopp eq).
  Lemma ask_gcn nv e w ex m ops (s : graph T) : g_reach nv e w ex m ops s -> nonneg_new e -> Forall nonneg_op ops ->
    forall h, as_vals (snd (g_query (QGcn h None) s)) =
      Ok (map (fun i => sumf (range nv) (fun u => nmul (gcn_coeff nv (g_spec nv e w ex m ops) i u) (h u))) (range nv)).
  Proof using RT.
    intros H NE NO h. apply reach_rel in H as (R & C & NV & P). pose proof (spec_in_range nv e w ex m NE NO) as IR.
    destruct (query_Lgcn RT R C NV P IR) as (L & _ & BX & A & D). apply as_vals_range. eexists. split; [apply A|]. intros i I. cbn [cdrop_opt].
    rewrite (@spmv_dense T N RT (range nv)) by (apply range_nodup || (eapply boxed_cols; exact BX)).
    apply sumf_ext_in. intros u U. apply range_In in U. rewrite D by auto. reflexivity.
  Qed.
  Lemma ask_v2v nv e w ex m ops (s : graph T) : g_reach nv e w ex m ops s -> nonneg_new e -> Forall nonneg_op ops ->
    let g := g_spec nv e w ex m ops in forall h,
    as_vals (snd (g_query (QV2v h AggrSum None None) s)) = Ok (map (fun i => sumf (range nv) (fun j => nmul (a_adj g i j) (h j))) (range nv)) /\
    as_vals (snd (g_query (QV2v h AggrMean None None) s)) =
      Ok (map (fun i => nmul (ninv (a_deg nv g i)) (sumf (range nv) (fun j => nmul (a_adj g i j) (h j)))) (range nv)).
  Proof using RT.
    intros H NE NO g h. destruct (C06_v2v RT H NE NO h) as (fs & fm & A & B & D).
    split; apply as_vals_range; eexists; (split; [eassumption|]); intros i I; apply (D i I).
  Qed.
  Lemma graph_rows nv e w ex m ops (s : graph T) : g_reach nv e w ex m ops s -> grows s = range nv.
  Proof using. intros H. apply reach_rel in H as (_ & _ & NV & _). unfold grows. rewrite NV. reflexivity. Qed.

  Section Hyper.
  Variables (nv : Z) (e : option harg) (w : warg T) (vw : option (list T)) (m : mop) (ops : list (hop T)) (s : hypergraph T).
  Variables (es : list (list Z)) (ws : list T).
  Hypotheses (H : h_clean_reach nv e w vw m ops s) (R : h_reports s None es ws).
  Lemma hyper_rows : hrows s = range nv.
  Proof using H R. destruct (clean_state H R) as (_ & _ & _ & NV & _). unfold hrows. rewrite NV. reflexivity. Qed.
  Lemma ask_hgnn h : as_vals (snd (h_query (hqHgnn None h None) s)) =
    Ok (map (fun u => sumf (range nv) (fun v => nmul (hgnn_coeff es ws u v) (h v))) (range nv)).
  Proof using RT H R.
    destruct (clean_state H R) as (C & W & K & NV & SC). subst nv. destruct (hquery_L RT C W K None SC) as (L & Ls & Lr & _ & _ & _ & BX & _ & _ & A & D).
    apply as_vals_range. eexists. split; [apply A|]. intros i I. cbn [cdrop_opt].
    rewrite (@spmv_dense T N RT (range (h_nv (st_raw s)))) by (apply range_nodup || (eapply boxed_cols; exact BX)).
    apply sumf_ext_in. intros u U. apply range_In in U. destruct (D i u I U) as [-> _]. reflexivity.
  Qed.
  Lemma ask_v2v_mean h : hv2v_mean s h = Ok (map (fun u => nmul (ninv (hdeg es ws u)) (sumf (range nv) (fun v => nmul (hshare es ws u v) (h v)))) (range nv)).
  Proof using RT H R.
    destruct (C35_v2v_plain RT h H R) as (ys & ym & Lr & _ & A & _ & D). apply as_vals_range. eexists. split; [apply A|]. intros i I. apply (D i I).
  Qed.
  Lemma ask_v2e h : v2e_mean s h = Ok (map (edge_mean es ws h) (range (Z.of_nat (length es)))).
  Proof using RT H R.
    destruct (C35_v2e RT h H R) as (ys & ym & _ & A & D & U & _ & E). unfold v2e_mean. apply as_vals_range. rewrite E, A, U. eexists. split; [reflexivity|].
    intros i I. unfold edge_mean. f_equal. unfold nthw. rewrite nth_map_range by auto. apply (D i I).
  Qed.
  Lemma ask_e2v y : e2v_with AggrSum s y = Ok (map (inc_sum es y) (range nv)) /\
    e2v_with AggrMean s y = Ok (map (fun v => nmul (ninv (hdeg es ws v)) (inc_sum es y v)) (range nv)).
  Proof using RT H R.
    destruct (C35_e2v RT y H R) as (ys & ym & A & B & D). split; apply as_vals_range; eexists; (split; [eassumption|]); intros i I; apply (D i I).
  Qed.
  Lemma inside v i : 0 <= i < Z.of_nat (length es) -> In v (nthe es i) -> 0 <= v < nv.
  Proof using H R.
    intros I J. destruct (clean_state H R) as (C & W & K & NV & SC). subst nv. destruct (hview_scope None W K SC) as (Hm & VW).
    eapply clean_In; [apply (hv_clean VW)|exact I|exact J].
  Qed.
  End Hyper.
  Lemma edge_mean_ext es ws f f' i : (forall v, In v (nthe es i) -> f v = f' v) -> edge_mean es ws f i = edge_mean es ws f' i.
  Proof using. intros E. unfold edge_mean. f_equal. f_equal. apply sumf_ext_in. exact E. Qed.
  Lemma inc_sum_ext es (y y' : Z -> T) v : (forall i, 0 <= i < Z.of_nat (length es) -> In v (nthe es i) -> y i = y' i) -> inc_sum es y v = inc_sum es y' v.
  Proof using.
    intros E. unfold inc_sum. apply sumf_ext_in. intros i I. apply range_In in I. destruct (zmem v (nthe es i)) eqn:Q; auto. apply E; auto. apply zmem_In; auto.
  Qed.
End Ask.

(** * C69 *)
Theorem C69_gcn : forall (T : Type) (N : Num T), ring_theory (@nz T N) n1 nadd nmul nsub nopp eq ->
  forall nv e w ex m ops (s : graph T) th X c act, g_reach nv e w ex m ops s -> nonneg_new e -> Forall nonneg_op ops -> fits th (length X) c ->
  gives true (fun t => gcn_conv th t s X) act c nv (fun j i =>
    sumf (range nv) (fun u => nmul (gcn_coeff nv (g_spec nv e w ex m ops) i u) (affine th (length X) (fun k => chan X k u) j))).
Proof.
  intros T N RT nv e w ex m ops s th X c act H NE NO F. destruct (linear_spec _ F) as (Y & E & L & D).
  eapply gives_tail.
  - intros t _. unfold gcn_conv. rewrite E. cbn [rbind]. rewrite (columns _ (ask_gcn RT H NE NO)). cbn [rbind]. rewrite L. reflexivity.
  - intros j i J I. cbv beta. apply sumf_ext. intros u. rewrite D by auto. reflexivity.
Qed.
Theorem C69_gin : forall (T : Type) (N : Num T), ring_theory (@nz T N) n1 nadd nmul nsub nopp eq ->
  forall nv e w ex m ops (s : graph T) eps X, g_reach nv e w ex m ops s -> nonneg_new e -> Forall nonneg_op ops ->
  exists Y, shaped Y (length X) nv /\ (forall mlp, gin_conv eps mlp s X = mlp Y) /\
    forall j i, (j < length X)%nat -> 0 <= i < nv -> entry Y j i =
      nadd (nmul (nadd n1 eps) (chan X j i)) (sumf (range nv) (fun u => nmul (a_adj (g_spec nv e w ex m ops) i u) (chan X j u))).
Proof.
  intros T N RT nv e w ex m ops s eps X H NE NO.
  set (F := fun (x : Z -> T) i => nadd (nmul (nadd n1 eps) (x i)) (sumf (range nv) (fun u => nmul (a_adj (g_spec nv e w ex m ops) i u) (x u)))).
  exists (mat (length X) nv (fun j => F (chan X j))). split; [apply mat_shaped|]. split.
  - intros mlp. unfold gin_conv. rewrite (@columns _ _ _ F nv X); [reflexivity|]. intros h.
    destruct (ask_v2v RT H NE NO h) as [-> _]. cbn [rbind]. rewrite (graph_rows H), map_combine_self. reflexivity.
  - intros j i J I. rewrite mat_entry by auto. reflexivity.
Qed.
Theorem C69_graphsage : forall (T : Type) (N : Num T), ring_theory (@nz T N) n1 nadd nmul nsub nopp eq ->
  forall nv e w ex m ops (s : graph T) th X c act, g_reach nv e w ex m ops s -> nonneg_new e -> Forall nonneg_op ops ->
  fits th (length X + length X) c ->
  let g := g_spec nv e w ex m ops in
  let nbr k i := nmul (ninv (a_deg nv g i)) (sumf (range nv) (fun u => nmul (a_adj g i u) (chan X k u))) in
  gives true (fun t => graphsage_conv th t s X) act c nv (fun j i =>
    affine th (length X + length X) (fun k => if Nat.ltb k (length X) then chan X k i else nbr (k - length X)%nat i) j).
Proof.
  intros T N RT nv e w ex m ops s th X c act H NE NO F g nbr.
  assert (A : forall h, as_vals (snd (g_query (QV2v h AggrMean None None) s)) =
      Ok (map (fun i => nmul (ninv (a_deg nv g i)) (sumf (range nv) (fun j => nmul (a_adj g i j) (h j)))) (range nv)))
    by (intros h; apply (ask_v2v RT H NE NO h)).
  set (X2 := X ++ map vec (mat (length X) nv nbr)).
  assert (L2 : length X2 = (length X + length X)%nat) by (unfold X2, mat; rewrite app_length, !map_length, seq_length; reflexivity).
  rewrite <- L2 in F. destruct (linear_spec _ F) as (Y & E & L & D). rewrite L2 in D.
  apply gives_tail with (G := chan Y).
  - intros t _. unfold graphsage_conv. rewrite (columns _ A). cbn [rbind]. fold nbr. change (fun j : nat => nbr j) with nbr. fold X2. rewrite E. cbn [rbind].
    rewrite (graph_rows H), map_range_mat, L. reflexivity.
  - intros j i J I. rewrite D by auto. unfold affine. f_equal. apply sumf_ext_in. intros k K. apply in_seq in K. f_equal.
    unfold chan at 1, X2. destruct (Nat.ltb_spec k (length X)) as [KL|KL]; [rewrite app_nth1 by auto; reflexivity|].
    rewrite app_nth2 by auto. apply chan_vec; auto. lia.
Qed.

Theorem C69_hgnn : forall (T : Type) (N : Num T), ring_theory (@nz T N) n1 nadd nmul nsub nopp eq ->
  forall nv e w vw m ops (s : hypergraph T) es ws th X c act, h_clean_reach nv e w vw m ops s -> h_reports s None es ws -> fits th (length X) c ->
  let X1 j v := affine th (length X) (fun k => chan X k v) j in
  gives true (fun t => hgnn_conv th t s X) act c nv (fun j u => sumf (range nv) (fun v => nmul (hgnn_coeff es ws u v) (X1 j v))) /\
  gives true (fun t => hgnnp_conv th t s X) act c nv (fun j u =>
    nmul (ninv (hdeg es ws u)) (sumf (range nv) (fun v => nmul (hshare es ws u v) (X1 j v)))).
Proof.
  intros T N RT nv e w vw m ops s es ws th X c act H R F X1. destruct (linear_spec _ F) as (Y & E & L & D). split.
  - eapply gives_tail.
    + intros t _. unfold hgnn_conv. rewrite E. cbn [rbind]. rewrite (columns _ (ask_hgnn RT H R)). cbn [rbind]. rewrite L. reflexivity.
    + intros j i J I. cbv beta. apply sumf_ext. intros u. rewrite D by auto. reflexivity.
  - eapply gives_tail.
    + intros t _. unfold hgnnp_conv. rewrite E. cbn [rbind]. rewrite (columns _ (ask_v2v_mean RT H R)). cbn [rbind]. rewrite L. reflexivity.
    + intros j i J I. cbv beta. f_equal. apply sumf_ext. intros u. rewrite D by auto. reflexivity.
Qed.
(** the residual of DHCF is the input, not the transformed input *)
Theorem C69_dhcf : forall (T : Type) (N : Num T), ring_theory (@nz T N) n1 nadd nmul nsub nopp eq ->
  forall nv e w vw m ops (s : hypergraph T) es ws th X act, h_clean_reach nv e w vw m ops s -> h_reports s None es ws -> fits th (length X) (length X) ->
  let X1 j v := affine th (length X) (fun k => chan X k v) j in
  gives true (fun t => dhcf_conv th t s X) act (length X) nv (fun j u =>
    nadd (sumf (range nv) (fun v => nmul (hgnn_coeff es ws u v) (X1 j v))) (chan X j u)).
Proof.
  intros T N RT nv e w vw m ops s es ws th X act H R F X1. destruct (linear_spec _ F) as (Y & E & L & D).
  eapply gives_tail.
  - intros t _. unfold dhcf_conv. rewrite E. cbn [rbind]. rewrite (columns _ (ask_hgnn RT H R)). cbn [rbind]. rewrite L, (hyper_rows H R), add_cols_mat.
    reflexivity.
  - intros j i J I. cbv beta. f_equal. apply sumf_ext. intros u. rewrite D by auto. reflexivity.
Qed.
Theorem C69_hnhn : forall (T : Type) (N : Num T), ring_theory (@nz T N) n1 nadd nmul nsub nopp eq ->
  forall nv e w vw m ops (s : hypergraph T) es ws th1 th2 X c1 c2 act, h_clean_reach nv e w vw m ops s -> h_reports s None es ws ->
  fits th1 (length X) c1 -> fits th2 c1 c2 ->
  let X1 j v := affine th1 (length X) (fun k => chan X k v) j in
  let Y1 j i := act (edge_mean es ws (X1 j) i) in
  let Y2 j i := affine th2 c1 (fun k => Y1 k i) j in
  gives true (fun t => hnhn_conv th1 th2 t s X) act c2 nv (fun j v => nmul (ninv (hdeg es ws v)) (inc_sum es (Y2 j) v)).
Proof.
  intros T N RT nv e w vw m ops s es ws th1 th2 X c1 c2 act H R F1 F2 X1 Y1 Y2. destruct (linear_spec _ F1) as (Y & E & L & D).
  set (ne := Z.of_nat (length es)).
  set (B := mat c1 ne (fun j i => act (edge_mean es ws (chan Y j) i))).
  assert (LB : length (map vec B) = c1) by (unfold B, mat; rewrite !map_length, seq_length; auto).
  rewrite <- LB in F2. destruct (linear_spec _ F2) as (Z & E2 & L2 & D2). rewrite LB in D2.
  eapply gives_tail.
  - intros t TA. unfold hnhn_conv. rewrite E. cbn [rbind]. rewrite (columns _ (ask_v2e RT H R)). cbn [rbind]. rewrite L, TA, map_map_mat. fold ne. fold B.
    rewrite E2. cbn [rbind]. rewrite (columns _ (fun y => proj2 (ask_e2v RT H R y))). cbn [rbind]. rewrite L2. reflexivity.
  - intros j v J I. cbv beta. f_equal. apply inc_sum_ext. intros i II IV. rewrite D2 by auto. unfold Y2, affine. f_equal. apply sumf_ext_in.
    intros k K. apply in_seq in K. f_equal. unfold B. rewrite chan_vec by (auto; lia). unfold Y1. f_equal. apply edge_mean_ext. intros u _. apply D. lia.
Qed.
(** UniSAGE; UniGIN as documented would be [(1 + eps) x_v + sum_e y_e]: see C122 *)
Theorem C69_unisage : forall (T : Type) (N : Num T), ring_theory (@nz T N) n1 nadd nmul nsub nopp eq ->
  forall nv e w vw m ops (s : hypergraph T) es ws th X c act, h_clean_reach nv e w vw m ops s -> h_reports s None es ws -> fits th (length X) c ->
  let X1 j v := affine th (length X) (fun k => chan X k v) j in
  gives true (fun t => unisage_conv th t s X) act c nv (fun j v => nadd (inc_sum es (edge_mean es ws (X1 j)) v) (X1 j v)).
Proof.
  intros T N RT nv e w vw m ops s es ws th X c act H R F X1. destruct (linear_spec _ F) as (Y & E & L & D).
  eapply gives_tail.
  - intros t _. unfold unisage_conv. rewrite E. cbn [rbind]. rewrite (columns _ (ask_v2e RT H R)). cbn [rbind].
    rewrite (columns_vec (F := fun y => inc_sum es y) _ _ (fun y => proj1 (ask_e2v RT H R y))).
    2:{ intros h h' EH v _. apply inc_sum_ext. auto. }
    cbn [rbind]. rewrite (hyper_rows H R), add_cols_mat, L. reflexivity.
  - intros j v J I. cbv beta. rewrite D by auto. f_equal. apply inc_sum_ext. intros i _ _. apply edge_mean_ext. intros u _. rewrite D by auto. reflexivity.
Qed.

(** * C122: UniGIN *)
Theorem C122_unigin_actual : forall (T : Type) (N : Num T), ring_theory (@nz T N) n1 nadd nmul nsub nopp eq ->
  forall nv e w vw m ops (s : hypergraph T) es ws eps th X c act, h_clean_reach nv e w vw m ops s -> h_reports s None es ws -> fits th (length X) c ->
  let X1 j v := affine th (length X) (fun k => chan X k v) j in
  gives true (fun t => unigin_conv eps th t s X) act c nv (fun j v =>
    nadd (nmul (nadd n1 eps) (inc_sum es (edge_mean es ws (X1 j)) v)) (X1 j v)).
Proof.
  intros T N RT nv e w vw m ops s es ws eps th X c act H R F X1. destruct (linear_spec _ F) as (Y & E & L & D).
  eapply gives_tail.
  - intros t _. unfold unigin_conv. rewrite E. cbn [rbind]. rewrite (columns _ (ask_v2e RT H R)). cbn [rbind].
    rewrite (columns_vec (F := fun y => inc_sum es y) _ _ (fun y => proj1 (ask_e2v RT H R y))).
    2:{ intros h h' EH v _. apply inc_sum_ext. auto. }
    cbn [rbind]. rewrite (hyper_rows H R), map_map_mat, add_cols_mat, L. reflexivity.
  - intros j v J I. cbv beta. rewrite D by auto. f_equal. f_equal. apply inc_sum_ext. intros i _ _. apply edge_mean_ext. intros u _. rewrite D by auto. reflexivity.
Qed.

(** ** attention *)
Lemma is_softmax_ext n (E : Z -> Z -> Prop) w w' c : (forall i j, E i j -> w i j = w' i j) -> is_softmax n E w c -> is_softmax n E w' c.
Proof.
  intros X (A & B & C & D). split; auto. split; auto. split; auto. intros i j k I J. rewrite <- !X by auto. auto.
Qed.
Lemma score_coo (f : Z -> Z -> R) src dst : 
  combine (combine dst src) (map (fun sd => f (fst sd) (snd sd)) (combine src dst)) = map (fun ds => (ds, f (snd ds) (fst ds))) (combine dst src).
Proof. revert dst. induction src as [|a l IH]; intros [|b d]; cbn; auto. rewrite IH. reflexivity. Qed.
Lemma score_get (f : Z -> Z -> R) src dst i j : NoDup (combine dst src) -> In (i, j) (combine dst src) ->
  mget (combine (combine dst src) (map (fun sd => f (fst sd) (snd sd)) (combine src dst))) i j = f j i.
Proof.
  intros ND I. rewrite score_coo. apply (mget_present RT); [rewrite map_map; cbn; rewrite map_id; auto|].
  apply in_map_iff. exists (i, j). auto.
Qed.
Lemma gat_scores_map slope (f : Z * Z -> R) l : gat_scores slope (fun l => l) (map f l) = map (fun x => clamp (1/1000) 5 (leaky slope (f x))) l.
Proof. unfold gat_scores. rewrite !map_map. reflexivity. Qed.

Theorem C69_gat : forall nv e w ex m ops (s : graph R) th asrc adst slope X c act src,
  g_reach nv e w ex m ops s -> nonneg_new e -> Forall nonneg_op ops ->
  fits th (length X) c -> fits asrc c 1 -> fits adst c 1 -> snd (g_query QEsrc s) = Ok (OIdx src) -> length src <> 1%nat ->
  let g := g_spec nv e w ex m ops in
  let X1 j v := affine th (length X) (fun k => chan X k v) j in
  let score i u := clamp (1/1000) 5 (leaky slope (affine asrc c (fun k => X1 k u) 0 + affine adst c (fun k => X1 k i) 0)) in
  exists att, is_softmax nv (fun i u => a_edge g i u /\ 0 <= i < nv /\ 0 <= u < nv) score att /\
    gives false (fun t => gat_conv th asrc adst slope (fun l => l) t s X) act c nv (fun j i => sumf (range nv) (fun u => att i u * X1 j u)%R).
Proof.
  intros nv e w ex m ops s th asrc adst slope X c act src H NE NO F FA FB ES LS g X1 score.
  destruct (linear_spec _ F) as (Y & E & L & D). rewrite <- L in FA, FB.
  destruct (linear_spec _ FA) as (As & EA & _ & DA). destruct (linear_spec _ FB) as (Bs & EB & _ & DB). rewrite L in DA, DB.
  pose proof H as H'. apply reach_rel in H' as (R & C & NV & P). pose proof (spec_in_range nv e w ex m NE NO) as IR.
  destruct (query_src_dst R C NV P IR) as (src' & dst & _ & E1 & E2 & _ & LD & _ & _ & ND & K).
  rewrite ES in E1; injection E1 as <-.
  set (cw := gat_scores slope (fun l => l) (map (fun sd => (chan As 0 (fst sd) + chan Bs 0 (snd sd))%R) (combine src dst))).
  assert (LW : length cw = length src) by (unfold cw; rewrite gat_scores_map, map_length, combine_length; lia).
  destruct (C07_softmax cw H NE NO ES E2 LW) as (att & SM & A). exists att. split.
  - eapply is_softmax_ext; [|exact SM]. intros i j I. unfold cw. rewrite gat_scores_map.
    rewrite (score_get (fun u i => clamp (1/1000) 5 (leaky slope (chan As 0 u + chan Bs 0 i)))) by (auto; apply K; auto).
    unfold score. rewrite DA, DB by lia. do 3 f_equal; unfold affine; f_equal; apply sumf_ext_in; intros k KI; apply in_seq in KI; (rewrite D by lia); reflexivity.
  - eapply gives_tail_nodrop.
    + intros t _. unfold gat_conv. rewrite E. cbn [rbind]. rewrite EA, EB. cbn [rbind]. rewrite ES, E2. cbn [rbind as_idx].
      rewrite map_length, combine_length. replace (Nat.eqb _ _) with false by (symmetry; apply Nat.eqb_neq; lia).
      fold (chan As 0) (chan Bs 0). fold cw.
      rewrite (@columns _ _ _ (fun h i => sumf (range nv) (fun u => att i u * h u)%R) nv Y).
      2:{ intros h. apply as_vals_range. destruct (A h) as (f & EF & DF). exists f. split; auto. }
      cbn [rbind]. rewrite L. reflexivity.
    + intros j i J I. cbv beta. apply sumf_ext. intros u. rewrite D by auto. reflexivity.
Qed.

(** * C125: the attention of UniGAT only looks at the hyperedge *)
Theorem C125_vertex_ignored_actual : forall nv e w vw m ops (s : hypergraph R) es ws th ae slope X c act src,
  h_clean_reach nv e w vw m ops s -> h_reports s None es ws -> fits th (length X) c -> fits ae c 1 ->
  snd (h_query (hqE2vSrc None) s) = Ok (OIdx src) -> length src <> 1%nat ->
  let X1 j v := affine th (length X) (fun k => chan X k v) j in
  let Y1 j := edge_mean es ws (X1 j) in
  let score i := clamp (1/1000) 5 (leaky slope (affine ae c (fun k => Y1 k i) 0)) in
  exists att, is_softmax (Z.of_nat (length es)) (fun v i => 0 <= i < Z.of_nat (length es) /\ In v (nthe es i)) (fun _ i => score i) att /\
    gives false (fun t => unigat_conv th ae slope (fun l => l) t s X) act c nv (fun j v => sumf (range (Z.of_nat (length es))) (fun i => att v i * Y1 j i)%R).
Proof.
  intros nv e w vw m ops s es ws th ae slope X c act dst H R F FA ES LS X1 Y1 score.
  set (ne := Z.of_nat (length es)) in *.
  destruct (linear_spec _ F) as (Y & E & L & D).
  set (B := mat c ne (fun j => edge_mean es ws (chan Y j))).
  assert (LB : length (map vec B) = c) by (unfold B, mat; rewrite !map_length, seq_length; auto).
  rewrite <- LB in FA. destruct (linear_spec _ FA) as (Ae & EA & _ & DA). rewrite LB in DA.
  destruct (C29_coordinates H R) as (src & dst' & on & A1 & A2 & _ & A4 & A5 & _ & LL & _ & ND & _ & K).
  rewrite ES in A4. injection A4 as <-.
  set (cw := gat_scores slope (fun l => l) (map (fun i => chan Ae 0 i) dst)).
  assert (CW : cw = map (fun sd => clamp (1/1000) 5 (leaky slope (chan Ae 0 (fst sd)))) (combine dst src)).
  { unfold cw, gat_scores. rewrite !map_map. clear -LL. revert src LL. induction dst as [|a d IH]; intros [|b src] LL; cbn in *; try discriminate; auto.
    rewrite (IH src) by lia. reflexivity. }
  assert (LW : length cw = length src) by (unfold cw, gat_scores; rewrite !map_length; auto).
  destruct (C36_softmax cw H R A1 A2 LW) as (_ & att & SM & A). exists att. split.
  - eapply is_softmax_ext; [|exact SM]. intros v i (I & IV). rewrite CW.
    rewrite (score_get (fun i _ => clamp (1/1000) 5 (leaky slope (chan Ae 0 i))) dst src); [|exact ND|apply K; auto].
    unfold score. rewrite DA by lia. do 2 f_equal. unfold affine. f_equal. apply sumf_ext_in. intros k KI. apply in_seq in KI.
    unfold B. rewrite chan_vec by (auto; lia). f_equal. apply edge_mean_ext. intros u _. apply D. lia.
  - eapply gives_tail_nodrop.
    + intros t _. unfold unigat_conv. rewrite E. cbn [rbind]. rewrite (columns _ (ask_v2e RT H R)). cbn [rbind]. rewrite L. fold ne. fold B.
      rewrite EA. cbn [rbind]. rewrite ES. cbn [rbind as_idx]. rewrite map_length. replace (Nat.eqb _ _) with false by (symmetry; apply Nat.eqb_neq; auto).
      change (fun i : Z => nth 0 Ae (fun _ : Z => 0%R) i) with (fun i => chan Ae 0 i). fold cw. unfold B.
      rewrite (columns_vec (Q := fun y => as_vals (snd (h_query (hqE2v None y AggrSoftmax (Some cw) None) s)))
        (F := fun h v => sumf (range ne) (fun i => att v i * h i)%R) (n := nv)).
      2:{ intros h. apply as_vals_range. destruct (A h) as (f & EF & DF). exists f. split; auto. }
      2:{ intros h h' EH v _. apply sumf_ext_in. intros i I. apply range_In in I. rewrite EH by auto. reflexivity. }
      cbn [rbind]. reflexivity.
    + intros j v J I. cbv beta. apply sumf_ext. intros i. f_equal. apply edge_mean_ext. intros u _. apply D. auto.
Qed.

(** * C126: exactly one entry *)
Theorem C126_one_edge_actual :
  (forall nv e w ex m ops (s : graph R) th asrc adst slope adrop X c t v,
    g_reach nv e w ex m ops s -> nonneg_new e -> Forall nonneg_op ops -> fits th (length X) c -> fits asrc c 1 -> fits adst c 1 ->
    snd (g_query QEsrc s) = Ok (OIdx [v]) -> gat_conv th asrc adst slope adrop t s X = Err IndexError) /\
  (forall nv e w vw m ops (s : hypergraph R) es ws th ae slope adrop X c t i,
    h_clean_reach nv e w vw m ops s -> h_reports s None es ws -> fits th (length X) c -> fits ae c 1 ->
    snd (h_query (hqE2vSrc None) s) = Ok (OIdx [i]) -> unigat_conv th ae slope adrop t s X = Err IndexError).
Proof.
  split.
  - intros nv e w ex m ops s th asrc adst slope adrop X c t v H NE NO F FA FB ES.
    destruct (linear_spec _ F) as (Y & E & L & D). rewrite <- L in FA, FB.
    destruct (linear_spec _ FA) as (As & EA & _ & DA). destruct (linear_spec _ FB) as (Bs & EB & _ & DB).
    apply reach_rel in H as (R & C & NV & P). pose proof (spec_in_range nv e w ex m NE NO) as IR.
    destruct (query_src_dst R C NV P IR) as (src' & dst & _ & E1 & E2 & _ & LD & _). rewrite ES in E1; injection E1 as <-.
    unfold gat_conv. rewrite E. cbn [rbind]. rewrite EA, EB. cbn [rbind]. rewrite ES, E2. cbn [rbind as_idx].
    destruct dst as [|d [|]]; try discriminate LD. reflexivity.
  - intros nv e w vw m ops s es ws th ae slope adrop X c t i H R F FA ES.
    destruct (linear_spec _ F) as (Y & E & L & D).
    unfold unigat_conv. rewrite E. cbn [rbind]. rewrite (columns _ (ask_v2e RT H R)). cbn [rbind].
    set (B := mat _ _ _). assert (LB : length (map vec B) = c) by (unfold B, mat; rewrite !map_length, seq_length; auto).
    rewrite <- LB in FA. destruct (linear_spec _ FA) as (Ae & EA & _). rewrite EA. cbn [rbind]. rewrite ES. reflexivity.
Qed.

(** ** UniGCN *)
Lemma inc_pairs nv e w vw m ops (s : hypergraph R) es ws src dst :
  h_clean_reach nv e w vw m ops s -> h_reports s None es ws ->
  snd (h_query (hqV2eSrc None) s) = Ok (OIdx src) -> snd (h_query (hqV2eDst None) s) = Ok (OIdx dst) ->
  forall i f, 0 <= i < Z.of_nat (length es) -> sumf (combine src dst) (fun vd => if snd vd =? i then f (fst vd) else 0%R) = sumf (nthe es i) f.
Proof.
  intros H R E1 E2 i f I. destruct (C29_coordinates H R) as (src' & dst' & on & A1 & A2 & _ & _ & _ & _ & LL & _ & ND & _ & K).
  rewrite E1 in A1. rewrite E2 in A2. injection A1 as <-. injection A2 as <-.
  destruct (clean_state H R) as (C & W & KL & NV & SC). subst nv. destruct (hview_scope None W KL SC) as (Hm & VW).
  assert (NDI : NoDup (nthe es i)) by (eapply nthe_nodup; [apply (hv_clean VW)|]; auto).
  etransitivity; [symmetry; exact (sumf_filter RT (combine src dst) (fun vd => snd vd =? i) (fun vd => f (fst vd)))|].
  transitivity (sumf (map (fun v => (v, i)) (nthe es i)) (fun vd => f (fst vd))); [|rewrite sumf_map; reflexivity].
  apply (sumf_perm RT). apply NoDup_Permutation.
  - apply NoDup_filter; auto.
  - apply FinFun.Injective_map_NoDup; auto. intros a b X. injection X; auto.
  - intros [v j]. rewrite filter_In, in_map_iff. cbn. rewrite K. split.
    + intros ((J & IV) & Q). apply Z.eqb_eq in Q as ->. exists v; auto.
    + intros (v' & Q & IV). injection Q as -> ->. split; auto. apply Z.eqb_refl.
Qed.

Lemma hdeg_pos nv e w vw m ops (s : hypergraph R) es ws :
  h_clean_reach nv e w vw m ops s -> h_reports s None es ws -> Forall (fun x => 0 < x)%R ws ->
  forall v i, 0 <= i < Z.of_nat (length es) -> In v (nthe es i) -> (0 < hdeg es ws v)%R.
Proof.
  intros H R PW v i I IV. destruct (clean_state H R) as (C & W & KL & NV & SC). destruct (hview_scope None W KL SC) as (Hm & VW).
  pose proof (hv_len VW) as LW. rewrite Forall_forall in PW.
  assert (IC : In (nthe es i, nthw ws i) (combine es ws)).
  { unfold nthe, nthw. rewrite <- combine_nth by (symmetry; exact LW). apply nth_In. rewrite combine_length. lia. }
  apply Rsum_pos with (nthe es i, nthw ws i); auto.
  - intros [e' w'] J. cbn [fst snd]. destruct (zmem v e'); [|apply Rle_refl]. left. apply PW. apply in_combine_r in J. exact J.
  - cbn [fst snd]. replace (zmem v (nthe es i)) with true by (symmetry; apply zmem_In; auto). apply PW. apply in_combine_r in IC. exact IC.
Qed.
(** with positive weights UniGCN computes [1/sqrt(d_v) * sum_e 1/sqrt(d_e) * y_e], [d_e] the average degree of the vertices of [e] *)
Theorem C69_unigcn : forall nv e w vw m ops (s : hypergraph R) es ws th X c act,
  h_clean_reach nv e w vw m ops s -> h_reports s None es ws -> Forall (fun x => 0 < x)%R ws -> fits th (length X) c ->
  let X1 j v := affine th (length X) (fun k => chan X k v) j in
  let d_e i := (sumf (nthe es i) (hdeg es ws) / INR (length (nthe es i)))%R in
  gives true (fun t => unigcn_conv th t s X) act c nv (fun j v =>
    ((if Req_EM_T (hdeg es ws v) 0 then 0 else / sqrt (hdeg es ws v)) * inc_sum es (fun i => / sqrt (d_e i) * edge_mean es ws (X1 j) i) v)%R).
Proof.
  intros nv e w vw m ops s es ws th X c act H R PW F X1 d_e. destruct (linear_spec _ F) as (Y & E & L & D).
  destruct (C29_degrees RT H R) as (_ & EDv & _ & EDv12 & _).
  destruct (C29_coordinates H R) as (src & dst & on & A1 & A2 & _).
  set (ne := Z.of_nat (length es)).
  set (ue := uni_de (map (hdeg es ws) (range nv)) src dst).
  eapply gives_tail.
  - intros t _. unfold unigcn_conv. rewrite E. cbn [rbind]. rewrite (columns _ (ask_v2e RT H R)). cbn [rbind]. rewrite EDv, A1, A2. cbn [rbind as_coo as_idx].
    assert (VD : map snd (diag nv (hdeg es ws)) = map (hdeg es ws) (range nv)) by (unfold diag; rewrite map_map; reflexivity).
    rewrite VD. fold ue. fold ne.
    rewrite (columns_vec (Q := fun y => e2v_with AggrSum s (fun e => ue e * y e)%R) (F := fun y => inc_sum es (fun i => ue i * y i)%R) (n := nv)).
    2:{ intros y. apply (ask_e2v RT H R). }
    2:{ intros h h' EH v _. apply inc_sum_ext. intros i I _. rewrite EH by auto. reflexivity. }
    cbn [rbind]. rewrite EDv12. cbn [rbind as_coo]. rewrite (hyper_rows H R). unfold mat at 1. rewrite map_map.
    rewrite (map_ext_in _ (fun j => map (fun v => nmul (nisq (hdeg es ws v)) (inc_sum es (fun i => ue i * edge_mean es ws (chan Y j) i)%R v)) (range nv))).
    2:{ intros j _. apply map_ext_in. intros v I. apply range_In in I. rewrite (spmv_diag RT) by auto. rewrite vec_map by auto. reflexivity. }
    rewrite L. reflexivity.
  - intros j v J I. cbv beta.
    change (nmul (nisq (hdeg es ws v)) ?x) with (Risq (hdeg es ws v) * x)%R. f_equal.
    apply inc_sum_ext. intros i II IV. f_equal; [|apply edge_mean_ext; intros u _; apply D; auto].
    assert (POS : forall u, In u (nthe es i) -> (0 < hdeg es ws u)%R) by (intros u U; eapply hdeg_pos; eauto).
    assert (LP : (0 < INR (length (nthe es i)))%R) by (apply lt_0_INR; destruct (nthe es i); [destruct IV|cbn; lia]).
    assert (SP : (0 < sumf (nthe es i) (hdeg es ws))%R) by (apply Rsum_pos with v; auto; intros a A; left; auto).
    unfold ue, uni_de. cbv zeta.
    rewrite (@inc_pairs _ _ _ _ _ _ _ _ _ _ _ H R A1 A2 i (fun u => vec (map (hdeg es ws) (range nv)) u) II).
    rewrite (@inc_pairs _ _ _ _ _ _ _ _ _ _ _ H R A1 A2 i (fun u => if Req_EM_T (vec (map (hdeg es ws) (range nv)) u) 0 then 0 else 1)%R II).
    rewrite (sumf_ext_in (nthe es i) _ (hdeg es ws)) by (intros u U; apply vec_map; exact (inside H R u II U)).
    rewrite (sumf_ext_in (nthe es i) (fun u => if Req_EM_T _ 0 then _ else _) (fun _ => 1%R)).
    2:{ intros u U. rewrite vec_map by (exact (inside H R u II U)). specialize (POS u U). destruct (Req_EM_T (hdeg es ws u) 0); lra. }
    change (sumf (nthe es i) (fun _ => 1%R)) with (@hcard _ Num_R (nthe es i)). rewrite hcard_len.
    change (@ninv _ Num_R) with Rinv0. rewrite Rinv0_ne by lra. fold (d_e i).
    assert (DP : (0 < sumf (nthe es i) (hdeg es ws) * / INR (length (nthe es i)))%R) by (apply Rmult_lt_0_compat; auto; apply Rinv_0_lt_compat; auto).
    destruct (Req_EM_T _ 0) as [Q|Q]; [lra|]. change (@nisq _ Num_R) with Risq. unfold Risq.
    fold (Rdiv (sumf (nthe es i) (hdeg es ws)) (INR (length (nthe es i)))) in *. fold (d_e i) in *. destruct (Req_EM_T (d_e i) 0); [lra|reflexivity].
Qed.

(** ** concrete cases *)
Local Notation q z := (Q2Qc (inject_Z z)).
Definition k4 : option earg := Some (EMany [(0, 1); (0, 2); (0, 3); (1, 2); (1, 3); (2, 3)]).
Definition one_to_one {T} {N : Num T} (a b : T) : lin (T := T) := mklin [[a]] (Some [b]).
Lemma fits_one {T} {N : Num T} (a b : T) : fits (one_to_one a b) 1 1.
Proof. split; [reflexivity|]. split; [repeat constructor|]. intros c E. injection E as <-. reflexivity. Qed.
Definition plain {T} (last : bool) : tcfg (T := T) := mktcfg last (fun x => x) None (fun Y => Y).
(** the complete graph on four vertices: every vertex gets the average of the transformed features (GCN); GIN and GraphSAGE on the same graph *)
Example C69_graph_case : exists s : graph Qc, g_reach 4 k4 WNone false MMean [] s /\ fits (one_to_one (q 2) (q 1)) 1 1 /\
  gcn_conv (one_to_one (q 2) (q 1)) (plain true) s [fun v => q v] = Ok [[q 4; q 4; q 4; q 4]] /\
  gcn_conv (one_to_one (q 2) (q 1)) (mktcfg false Qcopp (Some (fun Y => Y ++ Y)) (fun Y => Y)) s [fun v => q v] =
    Ok [[q (-4); q (-4); q (-4); q (-4)]; [q (-4); q (-4); q (-4); q (-4)]] /\
  gin_conv (q 1) (fun Y => Ok Y) s [fun v => q v] = Ok [[q 6; q 7; q 8; q 9]] /\
  graphsage_conv (mklin [[q 1; q 3]] None) (plain true) s [fun v => q v] = Ok [[q 6; q 6; q 6; q 6]] /\
  gcn_conv (one_to_one (q 2) (q 1)) (plain true) s [] = Err RuntimeError.
Proof.
  eexists. split; [eexists; split; [reflexivity|reflexivity]|]. split.
  { apply fits_one. }
  repeat split; vm_compute; qceq.
Qed.
Example C69_gat_case : exists (s : graph R) src, g_reach 4 k4 WNone false MMean [] s /\ fits (one_to_one 2 1)%R 1 1 /\
  snd (g_query QEsrc s) = Ok (OIdx src) /\ length src = 12%nat.
Proof.
  eexists. eexists. split; [eexists; split; [reflexivity|reflexivity]|]. split.
  { apply fits_one. }
  split; [vm_compute; reflexivity|reflexivity].
Qed.
Example C69_hyper_case : exists s : hypergraph Qc, ex_reached s /\ exists es ws, h_reports s None es ws /\ length es = 4%nat /\
  hgnnp_conv (one_to_one (q 1) (q 0)) (plain true) s [fun _ => q 7] = Ok [[q 7; q 7; q 7; q 7]] /\
  unisage_conv (one_to_one (q 2) (q 0)) (plain true) s [fun v => q v] = Ok [[q 12; q 12; q 16; q 12]] /\
  hnhn_conv (one_to_one (q 2) (q 0)) (one_to_one (q 1) (q 1)) (plain true) s [fun _ => q 0] <> Err RuntimeError /\
  dhcf_conv (mklin [[q 1]; [q 1]] None) (plain true) s [fun v => q v] = Err RuntimeError.
Proof.
  destruct (ex_hyper Num_Qc) as (s & X & _ & _ & E). exists s. split; [exact X|]. eexists; eexists. split; [exact E|]. split; [reflexivity|].
  destruct X as ((s0 & E0 & ->) & _). injection E0 as <-. split; [vm_compute; qceq|]. split; [vm_compute; qceq|].
  split; [vm_compute; discriminate|vm_compute; reflexivity].
Qed.
(** documented for vertex 0: (1 + 1) * 0 + 12 = 12 *)
Theorem C122_unigin_refuted : exists (s : hypergraph Qc) es ws, ex_reached s /\ h_reports s None es ws /\
  exists Y, unigin_conv (q 1) (one_to_one (q 2) (q 0)) (plain true) s [fun v => q v] = Ok Y /\
  let X1 j v := affine (one_to_one (q 2) (q 0)) 1 (fun k => chan [fun v => q v] k v) j in
  entry Y 0 0 = q 24 /\ nadd (nmul (nadd n1 (q 1)) (X1 0%nat 0)) (inc_sum es (edge_mean es ws (X1 0%nat)) 0) = q 12.
Proof.
  destruct (ex_hyper Num_Qc) as (s & X & _ & _ & E). exists s. eexists; eexists. split; [exact X|]. split; [exact E|].
  destruct X as ((s0 & E0 & ->) & _). injection E0 as <-. eexists. split; [vm_compute; reflexivity|]. split; vm_compute; qceq.
Qed.
Example C122_case : fits (one_to_one 2 0)%R 1 1.
Proof. apply fits_one. Qed.
Example C125_case : exists (s : hypergraph R) src es ws, ex_reached s /\ h_reports s None es ws /\ fits (one_to_one 2 0)%R 1 1 /\
  snd (h_query (hqE2vSrc None) s) = Ok (OIdx src) /\ length src = 9%nat.
Proof.
  destruct (ex_hyper Num_R) as (s & X & _ & _ & E). exists s. do 3 eexists. split; [exact X|]. split; [exact E|]. split; [apply fits_one|].
  destruct X as ((s0 & E0 & ->) & _). injection E0 as <-. split; [vm_compute; reflexivity|reflexivity].
Qed.
Example C126_case :
  (exists s : graph R, g_reach 3 (Some (EMany [(1, 1)])) WNone false MMean [] s /\ snd (g_query QEsrc s) = Ok (OIdx [1])) /\
  (exists s : hypergraph R, h_clean_reach 3 (Some (HMany [[1]])) WNone None MMean [] s /\ h_reports s None [[1]] [1%R] /\
    snd (h_query (hqE2vSrc None) s) = Ok (OIdx [0])).
Proof.
  split.
  - eexists. split; [eexists; split; [reflexivity|reflexivity]|]. vm_compute. reflexivity.
  - eexists. split; [split; [eexists; split; [reflexivity|reflexivity]|]|].
    + split; [discriminate|]. split; [constructor|]. split; [|constructor]. unfold clean_new, clean_harg. repeat (constructor; try (cbn; lia)).
    + split; [split; [reflexivity|]|vm_compute; reflexivity]. intros _. discriminate.
Qed.
