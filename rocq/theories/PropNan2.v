(** Property C179: normalised matrices of a Graph when degrees are negative. *)
From Coq Require Import String Ring Permutation Reals Lra.
From Verif Require Import Num PyDict PyDictFacts Coo CooFacts MatFacts RealFacts ModelBase CacheFacts ModelGraph GraphFacts SpecGraph SpecGraphOps StoreFacts
  GraphStore GraphMatrix GraphReach GraphLaplace PropGraph DiGraphReach ModelMetrics ModelVis ModelMore PropNan.
Set Implicit Arguments.
Local Open Scope list_scope.
Local Open Scope R_scope.
Local Open Scope Z_scope.

Lemma fisq_nan x : (x < 0)%R -> fisq x = NaN.
Proof. intros L. unfold fisq. destruct (Req_EM_T x 0); [lra|]. destruct (Rlt_dec 0 x); [lra|reflexivity]. Qed.
Lemma fisq_fin x : (0 <= x)%R -> fisq x = Fin (Risq x).
Proof. intros L. unfold fisq, Risq. destruct (Req_EM_T x 0); [reflexivity|]. destruct (Rlt_dec 0 x); [reflexivity|lra]. Qed.
Lemma fmul_nan_l x : fmul NaN x = NaN. Proof. destruct x; reflexivity. Qed.
Lemma fmul_nan_r x : fmul x NaN = NaN. Proof. destruct x; reflexivity. Qed.

(** entries of the normalised matrix *)
Lemma norm_entry d A i j (a : R) : In ((i, j), a) A ->
  let v := fmul (fmul (fisq (d i)) (Fin a)) (fisq (d j)) in
  In ((i, j), v) (norm_fl d A) /\
  ((d i < 0)%R \/ (d j < 0)%R -> v = NaN) /\
  ((0 <= d i)%R -> (0 <= d j)%R -> v = Fin (Risq (d i) * a * Risq (d j))%R).
Proof.
  intros I v. split; [apply in_map_iff; exists ((i, j), a); auto|]. unfold v. split.
  - intros [L|L]; rewrite (fisq_nan L); [rewrite !fmul_nan_l; reflexivity|apply fmul_nan_r].
  - intros L1 L2. rewrite (fisq_fin L1), (fisq_fin L2). reflexivity.
Qed.
Definition coef (d : Z -> R) (A : coo R) : coo R := map (fun a => (fst a, (Risq (d (fst (fst a))) * snd a * Risq (d (snd (fst a))))%R)) A.
Lemma mget_map (f : Z * Z -> R) (A : coo R) i j : mget (map (fun a => (fst a, (f (fst a) * snd a)%R)) A) i j = (f (i, j) * mget A i j)%R.
Proof.
  induction A as [|[k v] A IH]; unfold mget in *; cbn [map sumf fst snd]; [cbn; ring|]. rewrite IH. destruct (eqb (i, j) k) eqn:E.
  - apply eqb_eq in E. subst k. cbn. ring.
  - cbn. ring.
Qed.
Lemma mget_coef d A i j : mget (coef d A) i j = (Risq (d i) * mget A i j * Risq (d j))%R.
Proof.
  assert (E : coef d A = map (fun a => (fst a, ((Risq (d (fst (fst a))) * Risq (d (snd (fst a)))) * snd a)%R)) A).
  { apply map_ext. intros a. f_equal. ring. }
  rewrite E, (mget_map (fun k => Risq (d (fst k)) * Risq (d (snd k)))%R). cbn [fst snd]. ring.
Qed.
Lemma norm_row nv d A X i : boxed nv nv A -> 0 <= i < nv ->
  let y := mm_fl (norm_fl d A) X i in
  ((exists j v, In ((i, j), v) A /\ ((d i < 0)%R \/ (d j < 0)%R)) -> y = NaN) /\
  ((forall j v, In ((i, j), v) A -> (0 <= d i)%R /\ (0 <= d j)%R) ->
   y = Fin (sumf (range nv) (fun j => Risq (d i) * mget A i j * Risq (d j) * X j)%R)).
Proof.
  intros B I y. split.
  - intros (j & v & J & D). destruct (norm_entry d A _ _ _ J) as (K & NN & _). apply fsum_nan. apply in_map_iff. eexists. split; [|apply filter_In; split; [exact K|cbn; apply Z.eqb_refl]].
    cbn [fst snd]. rewrite NN by auto. apply fmul_nan_l.
  - intros P. unfold y.
    assert (E : forall l, (forall x, In x l -> In x A) -> map (fun a => fmul (snd a) (Fin (X (snd (fst a))))) (filter (fun a => fst (fst a) =? i) (map (fun a => (fst a, fmul (fmul (fisq (d (fst (fst a)))) (Fin (snd a))) (fisq (d (snd (fst a)))))) l))
      = map (fun a => Fin (snd a * X (snd (fst a)))%R) (filter (fun a => fst (fst a) =? i) (map (fun a => (fst a, (Risq (d (fst (fst a))) * snd a * Risq (d (snd (fst a))))%R)) l))).
    { induction l as [|[[a b] v] l IH]; intros S; [reflexivity|]. cbn [map filter fst snd]. specialize (IH (fun x J => S x (or_intror J))).
      destruct (Z.eqb_spec a i) as [->|NE]; [|exact IH]. cbn [map fst snd]. rewrite IH. f_equal. destruct (P b v (S _ (or_introl eq_refl))) as [P1 P2].
      rewrite (fisq_fin P1), (fisq_fin P2). reflexivity. }
    unfold mm_fl, norm_fl. rewrite E by auto. fold (coef d A).
    rewrite (fsum_fin _ (fun a => (snd a * X (snd (fst a)))%R)) by (intros; reflexivity). f_equal.
    assert (SP : sumf (filter (fun a => fst (fst a) =? i) (coef d A)) (fun a => (snd a * X (snd (fst a)))%R) = spmv (coef d A) X i).
    { unfold spmv. etransitivity; [exact (sumf_filter RT (coef d A) (fun a => fst (fst a) =? i) (fun a => (snd a * X (snd (fst a)))%R))|]. apply sumf_ext. intros [[a b] v]. cbn [fst snd].
      change (eqb i a) with (i =? a). rewrite Z.eqb_sym. reflexivity. }
    rewrite SP. rewrite (@spmv_dense _ _ RT (range nv)).
    + apply sumf_ext. intros j. rewrite mget_coef. reflexivity.
    + apply range_nodup.
    + eapply boxed_cols. intros a b J. apply B. unfold coef in J. rewrite map_map in J. exact J.
Qed.

Lemma gclone_run nv e w ex m ops (s : graph R) o : g_reach nv e w ex m ops s -> g_reach nv e w ex m (ops ++ [o]) (fst (g_step o s)).
Proof.
  intros (s0 & E & ->). exists s0. split; [exact E|]. clear E. revert s0. induction ops as [|x ops IH]; intros s0; cbn [app g_run].
  - cbn. destruct (g_step o s0); reflexivity.
  - destruct (g_step x s0) as [s1 y]. specialize (IH s1). destruct (g_run ops s1), (g_run (ops ++ [o]) s1). exact IH.
Qed.
Lemma a_in nv e w ex m ops (s : graph R) : g_reach nv e w ex m ops s -> nonneg_new e -> Forall nonneg_op ops ->
  let g := g_spec nv e w ex m ops in
  exists A, snd (get_A s) = Ok A /\ boxed nv nv A /\ NoDup (map fst A) /\
    (forall i j, In (i, j) (map fst A) <-> a_edge g i j /\ 0 <= i < nv /\ 0 <= j < nv) /\
    (forall i, 0 <= i < nv -> rowsum A i = a_deg nv g i) /\ (forall i j, 0 <= i < nv -> 0 <= j < nv -> mget A i j = a_adj g i j).
Proof.
  intros H NE NO g. destruct (C03_coordinates H NE NO) as (src & dst & ws & _ & _ & _ & L1 & L2 & QA & ND & K).
  destruct (C03_adjacency RT H NE NO) as ((A & QA' & D & _) & _). rewrite QA in QA'. injection QA' as <-.
  set (A := combine (combine dst src) ws) in *. fold g in K, D.
  assert (F : map fst A = combine dst src). { unfold A. apply combine_keys. rewrite combine_length. lia. }
  assert (B : boxed nv nv A). { intros i j I. rewrite F in I. apply K in I. tauto. }
  exists A. split.
  { revert QA. unfold g_query, oM, bind. destruct (get_A s) as [s1 [m1|]]; cbn; [|discriminate]. intros Q. injection Q as ->. reflexivity. }
  split; [exact B|]. split; [rewrite F; exact ND|]. split; [intros i j; rewrite F; apply K|]. split; [|exact D].
  intros i I. rewrite (@rowsum_dense R _ RT (range nv)) by (apply range_nodup || (eapply boxed_cols; exact B)).
  apply sumf_ext_in. intros j J. apply range_In in J. apply D; auto.
Qed.

(** For every graph with real weights, [deg] the degrees (with one extra self-loop for L_GCN, without self-loops for L_sym): D_v_neg_1_2 is nan
    at the vertices of negative degree; an entry of L_GCN or L_sym at an edge is nan exactly if one of its ends has negative degree, and the
    published value otherwise; GCN smoothing gives nan to every vertex that has, or is linked to a vertex that has, negative degree, and the
    published value to the others. *)
Theorem C179_negative_degree_actual : forall nv e w ex m ops (s : graph R) (X : Z -> R),
  g_reach nv e w ex m ops s -> nonneg_new e -> Forall nonneg_op ops ->
  let g := g_spec nv e w ex m ops in
  let hat i j := (wt (aw g i j) + (if i =? j then 1 else 0))%R in
  let off i j := if i =? j then 0%R else wt (aw g i j) in
  let deg (f : Z -> Z -> R) i := sumf (range nv) (fun j => f i j) in
  let linked i j := i = j \/ aw g i j <> None in
  (exists D, d12_fl s = Ok D /\ length D = Z.to_nat nv /\
     forall i, 0 <= i < nv -> nth (Z.to_nat i) D (Fin 0%R) = if Rlt_dec (a_deg nv g i) 0 then NaN else Fin (Risq (a_deg nv g i))) /\
  (exists L, lgcn_fl s = Ok L /\ NoDup (map fst L) /\ (forall i j, In (i, j) (map fst L) <-> linked i j /\ 0 <= i < nv /\ 0 <= j < nv) /\
     forall i j v, In ((i, j), v) L ->
       ((deg hat i < 0)%R \/ (deg hat j < 0)%R -> v = NaN) /\
       ((0 <= deg hat i)%R -> (0 <= deg hat j)%R -> v = Fin (Risq (deg hat i) * hat i j * Risq (deg hat j))%R)) /\
  (exists L, lsym_fl s = Ok L /\ NoDup (map fst L) /\ (forall i j, In (i, j) (map fst L) <-> linked i j /\ 0 <= i < nv /\ 0 <= j < nv) /\
     (forall i, 0 <= i < nv -> In ((i, i), Fin 1%R) L) /\
     forall i j v, In ((i, j), v) L -> i <> j ->
       ((deg off i < 0)%R \/ (deg off j < 0)%R -> v = NaN) /\
       ((0 <= deg off i)%R -> (0 <= deg off j)%R -> v = Fin (- (Risq (deg off i) * off i j * Risq (deg off j)))%R)) /\
  (exists Y, gcn_fl s X = Ok (map Y (range nv)) /\ forall i, 0 <= i < nv ->
     ((exists j, 0 <= j < nv /\ linked i j /\ (deg hat j < 0)%R) -> Y i = NaN) /\
     ((forall j, 0 <= j < nv -> linked i j -> (0 <= deg hat j)%R) ->
       Y i = Fin (sumf (range nv) (fun j => Risq (deg hat i) * hat i j * Risq (deg hat j) * X j)%R))).
Proof.
  intros nv e w ex m ops s X H NE NO g hat off deg linked.
  assert (NVs : r_nv (st_raw s) = nv) by (apply reach_rel in H as (_ & _ & NV & _); exact NV).
  assert (GX : forall o, g_spec nv e w ex m (ops ++ [o]) = g_spec_step nv g o) by (intros o; unfold g_spec, g; rewrite fold_left_app; reflexivity).
  assert (NO1 : forall o, nonneg_op o -> Forall nonneg_op (ops ++ [o])) by (intros o O; apply Forall_app; split; [exact NO|repeat constructor; exact O]).
  destruct (@a_in _ _ _ _ _ _ _ (gclone_run AddExtra H) NE (NO1 AddExtra I)) as (A & EA & BA & NDA & KA & RA & DA).
  destruct (@a_in _ _ _ _ _ _ _ (gclone_run RemoveLoops H) NE (NO1 RemoveLoops I)) as (B & EB & BB & NDB & KB & RB & DB).
  rewrite GX in KA, RA, DA, KB, RB, DB. cbn [g_spec_step] in KA, RA, DA, KB, RB, DB.
  assert (DA' : forall i j, a_adj (mkA (aw g) true) i j = hat i j).
  { intros i j. unfold a_adj, hat. cbn [aw ax]. rewrite andb_true_r. reflexivity. }
  assert (RA' : forall i, 0 <= i < nv -> rowsum A i = deg hat i).
  { intros i I0. rewrite RA by exact I0. unfold a_deg, deg. apply sumf_ext. intros j. apply DA'. }
  assert (DB' : forall i j, a_adj (a_remove_loops g) i j = off i j).
  { intros i j. unfold a_adj, off, a_remove_loops. cbn [aw ax]. rewrite andb_false_r. destruct (i =? j); cbn; ring. }
  assert (RB' : forall i, 0 <= i < nv -> rowsum B i = deg off i).
  { intros i I0. rewrite RB by exact I0. unfold a_deg, deg. apply sumf_ext. intros j. apply DB'. }
  assert (SA : snd (get_A (fst (set_extra true (g_clone s)))) = Ok A) by exact EA.
  assert (SB : snd (get_A (fst (remove_selfloop (g_clone s)))) = Ok B) by exact EB.
  assert (KA' : forall i j, In (i, j) (map fst A) <-> linked i j /\ 0 <= i < nv /\ 0 <= j < nv).
  { intros i j. rewrite KA. unfold a_edge, linked. cbn [aw ax]. tauto. }
  assert (KB' : forall i j, In (i, j) (map fst B) <-> (i <> j /\ aw g i j <> None) /\ 0 <= i < nv /\ 0 <= j < nv).
  { intros i j. rewrite KB. unfold a_edge, a_remove_loops. cbn [aw ax]. destruct (Z.eqb_spec i j); intuition congruence. }
  assert (NF : forall M0, map fst (norm_fl (rowsum M0) M0) = map fst M0) by (intros M0; unfold norm_fl; rewrite map_map; reflexivity).
  split; [|split; [|split]].
  - destruct (C03_adjacency RT H NE NO) as (_ & QD & _). fold g in QD.
    assert (ED : snd (get_D s) = Ok (diag nv (a_deg nv g))).
    { revert QD. unfold g_query, oM, bind. destruct (get_D s) as [s1 [m1|]]; cbn; [|discriminate]. intros Q. injection Q as ->. reflexivity. }
    unfold d12_fl. rewrite ED. eexists. split; [reflexivity|]. unfold diag. rewrite map_map. cbn [snd]. split; [rewrite map_length, range_length; reflexivity|].
    intros i I0. rewrite nth_map_rng by exact I0. destruct (Rlt_dec _ 0) as [L|L]; [apply fisq_nan; exact L|apply fisq_fin; lra].
  - unfold lgcn_fl. rewrite SA. exists (norm_fl (rowsum A) A). split; [reflexivity|]. rewrite NF. split; [exact NDA|]. split; [exact KA'|].
    intros i j v J. unfold norm_fl in J. apply in_map_iff in J as ([[a b] x] & Q & J). injection Q as <- <- <-. cbn [fst snd] in *.
    assert (K : In (a, b) (map fst A)) by (apply in_map_iff; exists ((a, b), x); auto). apply KA' in K as (_ & I0 & J0).
    destruct (norm_entry (rowsum A) A _ _ _ J) as (_ & N1 & N2). rewrite !RA' in * by assumption. split; [exact N1|]. intros P1 P2. rewrite (N2 P1 P2).
    rewrite <- DA', <- (DA a b I0 J0). rewrite (@mget_present R _ RT A a b x NDA J). reflexivity.
  - unfold lsym_fl. rewrite SB, NVs. eexists. split; [reflexivity|]. rewrite map_app, !map_map. cbn [fst].
    assert (KI : forall i j, In (i, j) (map (fun i => (i, i)) (range nv)) <-> i = j /\ 0 <= i < nv).
    { intros i j. rewrite in_map_iff. split; [intros (x & Q & I0); injection Q as <- <-; apply range_In in I0; auto|]. intros [<- I0]. exists i. split; auto. apply range_In; auto. }
    assert (FE : map (fun x : Z * Z * fl R => fst x) (norm_fl (rowsum B) B) = map fst B) by apply NF. rewrite FE.
    split; [|split; [|split]].
    + apply NoDup_app_intro; [|exact NDB|].
      * apply FinFun.Injective_map_NoDup; [intros x y Q; injection Q; auto|apply range_nodup].
      * intros [i j] P Q. apply KI in P as [<- _]. apply KB' in Q. tauto.
    + intros i j. rewrite in_app_iff, KI, KB'. unfold linked. destruct (Z.eq_dec i j); intuition lia.
    + intros i I0. apply in_app_iff. left. apply in_map_iff. exists i. split; [reflexivity|apply range_In; exact I0].
    + intros i j v J D. apply in_app_iff in J as [J|J].
      { apply in_map_iff in J as (x & Q & _). injection Q as <- <- _. congruence. }
      apply in_map_iff in J as ([k y] & Q & J). injection Q as -> <-. cbn [snd] in *.
      unfold norm_fl in J. apply in_map_iff in J as ([[a b] x] & Q & J). injection Q as <- <- <-. cbn [fst snd] in *.
      assert (K : In (a, b) (map fst B)) by (apply in_map_iff; exists ((a, b), x); auto). apply KB' in K as (_ & I0 & J0).
      destruct (norm_entry (rowsum B) B _ _ _ J) as (_ & N1 & N2). rewrite !RB' in * by assumption. split; [intros P; rewrite (N1 P); reflexivity|]. intros P1 P2. rewrite (N2 P1 P2).
      rewrite <- DB', <- (DB a b I0 J0). rewrite (@mget_present R _ RT B a b x NDB J). cbn [fmul]. f_equal. ring.
  - unfold gcn_fl, lgcn_fl. rewrite SA, NVs. eexists. split; [reflexivity|]. intros i I0. cbn beta.
    destruct (@norm_row nv (rowsum A) A X i BA I0) as [N1 N2]. cbn zeta in N1, N2. split.
    + intros (j & J0 & LK & DN). apply N1. assert (K : In (i, j) (map fst A)) by (apply KA'; auto).
      apply in_map_iff in K as ([k v] & Q & K). cbn [fst] in Q. subst k. exists j, v. split; [exact K|]. right. rewrite RA' by exact J0. exact DN.
    + intros P. rewrite N2.
      * f_equal. apply sumf_ext_in. intros j J. apply range_In in J. rewrite !RA' by assumption. rewrite DA, DA' by assumption. reflexivity.
      * intros j v J. assert (K : In (i, j) (map fst A)) by (apply in_map_iff; exists ((i, j), v); auto). apply KA' in K as (LK & _ & J0).
        rewrite !RA' by assumption. split; apply P; auto. left; reflexivity.
Qed.
(** one edge of weight -2: the degrees with the extra self-loop are -1 *)
Example C179_case : exists s, g_reach 2 (Some (EOne 0 1)) (WNum (-2)%R) false MMean [] s /\ nonneg_new (Some (EOne 0 1)) /\
  forall X, gcn_fl s X = Ok [NaN; NaN].
Proof.
  eexists. split; [eexists; split; reflexivity|]. split; [repeat constructor; cbn; lia|]. intros X.
  match goal with |- gcn_fl ?s X = _ => set (st0 := s) end.
  assert (H : g_reach 2 (Some (EOne 0 1)) (WNum (-2)%R) false MMean [] st0) by (eexists; split; reflexivity).
  destruct (@C179_negative_degree_actual 2 _ _ _ _ _ st0 X H) as (_ & _ & _ & Y & E & K); [repeat constructor; cbn; lia|constructor|].
  rewrite E. change (range 2) with [0; 1]. cbn [map]. f_equal. f_equal; [|f_equal]; apply K; try lia.
  - exists 0. split; [lia|]. split; [left; reflexivity|]. change (range 2) with [0; 1]. cbn [sumf]. unfold g_spec, g_spec_new, a_add_edges, a_add. cbn. unfold same_undirected. cbn. lra.
  - exists 1. split; [lia|]. split; [left; reflexivity|]. change (range 2) with [0; 1]. cbn [sumf]. unfold g_spec, g_spec_new, a_add_edges, a_add. cbn. unfold same_undirected. cbn. lra.
Qed.
