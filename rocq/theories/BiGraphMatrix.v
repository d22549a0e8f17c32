(** Matrices and message passing of a BiGraph. *)
From Coq Require Import Ring Permutation Sorted Reals Lra.
From Verif Require Import Num PyDict PyDictFacts Coo CooFacts MatFacts RealFacts ModelBase CacheFacts ModelGraph
  SpecGraph SpecGraphOps StoreFacts GraphMatrix GraphLaplace GraphReach SoftmaxFacts GraphFacts ModelDiGraph DiGraphFacts DiGraphReach
  ModelBiGraph SpecBiGraph BiGraphFacts.
Set Implicit Arguments.
Local Open Scope Z_scope.

Section Structure.
  Context {T : Type} `{Num T}.
  Variables (s : bigraph T) (g : wmap T) (nu nv : Z).
  Hypothesis C : coh bspec s.
  Hypothesis R : brel (st_raw s) g.
  Hypothesis NU : b_nu (st_raw s) = nu.
  Hypothesis NV : b_nv (st_raw s) = nv.
  Hypothesis IR : b_in (fun a => 0 <= a < nu) (fun b => 0 <= b < nv) g.

  Definition bB : coo T := coalesce (b_e (st_raw s)).
  Definition bBT : coo T := coalesce (ctrans bB).
  Lemma be_keys i j : In (i, j) (map fst (b_e (st_raw s))) <-> g i j <> None.
  Proof.
    destruct R as [D L]. rewrite <- L. split.
    - intros I. apply map_fst_In in I as (w & I). apply In_dget in I; auto. congruence.
    - intros E. destruct (dget (i, j) (b_e (st_raw s))) as [w|] eqn:Q; [|congruence]. apply dget_In in Q.
      apply map_fst_In; eauto.
  Qed.
  Lemma bB_keys i j : In (i, j) (map fst bB) <-> g i j <> None.
  Proof. unfold bB. rewrite coalesce_keys. apply be_keys. Qed.
  Lemma bBT_keys i j : In (i, j) (map fst bBT) <-> g j i <> None.
  Proof. unfold bBT. rewrite coalesce_keys, ctrans_keys. apply bB_keys. Qed.
  Lemma bB_boxed : boxed nu nv bB.
  Proof. intros i j I. apply IR, bB_keys; auto. Qed.
  Lemma bBT_boxed : boxed nv nu bBT.
  Proof. intros i j I. apply bBT_keys in I. apply IR in I. tauto. Qed.
  Lemma bp_B_eq : bp_B (st_raw s) = Ok bB.
  Proof.
    unfold bp_B, bB. unfold braw_num_e. destruct (Z.eqb_spec (Z.of_nat (length (b_e (st_raw s)))) 0) as [E|E].
    - destruct (b_e (st_raw s)); [reflexivity|cbn [length] in E; exfalso; lia].
    - unfold braw_edges; cbn [fst snd]. rewrite mk_sparse_ok.
      + rewrite combine_keys_vals. reflexivity.
      + rewrite NU, NV. intros i j I. apply IR, be_keys. exact I.
  Qed.
  Lemma bp_BT_eq : bp_BT (st_raw s) = Ok bBT.
  Proof. unfold bp_BT. rewrite bp_B_eq. reflexivity. Qed.
  Definition bA : coo T := coalesce (shift 0 nu bB ++ shift nu 0 bBT).
  Lemma bp_A_eq : bp_A (st_raw s) = Ok bA.
  Proof. unfold bp_A. rewrite bp_B_eq, bp_BT_eq, NU. reflexivity. Qed.
  Lemma shift_keys di dj (m : coo T) i j : In (i, j) (map fst (shift di dj m)) <-> In (i - di, j - dj) (map fst m).
  Proof.
    unfold shift. rewrite map_map. cbn. rewrite !in_map_iff. split.
    - intros ([[a b] v] & E & I). cbn in E. injection E as <- <-. exists ((a, b), v); split; auto. cbn. f_equal; lia.
    - intros ([[a b] v] & E & I). cbn in E. injection E as -> ->. eexists; split; [|exact I]. cbn. f_equal; lia.
  Qed.
  Lemma bA_keys i j : In (i, j) (map fst bA) <-> g i (j - nu) <> None \/ g j (i - nu) <> None.
  Proof.
    unfold bA. rewrite coalesce_keys, map_app, in_app_iff, !shift_keys, bB_keys, bBT_keys.
    rewrite !Z.sub_0_r. reflexivity.
  Qed.
  Lemma bA_boxed : 0 <= nu -> 0 <= nv -> boxed (nu + nv) (nu + nv) bA.
  Proof.
    intros P Q i j I. apply bA_keys in I as [I|I]; apply IR in I; lia.
  Qed.
  Lemma bquery_nbr u v : 0 <= u < nu -> 0 <= v < nv ->
    exists lv lu, snd (b_query (bqNv u) s) = Ok (OIdx lv) /\ snd (b_query (bqNu v) s) = Ok (OIdx lu) /\
      NoDup lv /\ NoDup lu /\
      (forall x, In x lv <-> g u x <> None) /\ (forall x, In x lu <-> g x v <> None).
  Proof.
    intros U V. rewrite (good_answer (bgood_query (bqNv u)) C), (good_answer (bgood_query (bqNu v)) C). cbn [bp_query].
    assert (PI : forall n i, 0 <= i < n -> py_index n i = Ok i).
    { intros n i I. unfold py_index. replace (0 <=? i) with true by (symmetry; apply Z.leb_le; lia).
      replace (i <? n) with true by (symmetry; apply Z.ltb_lt; lia). reflexivity. }
    unfold bp_Nv, bp_Nu. rewrite bp_B_eq, bp_BT_eq, NU, NV, !PI by auto. cbn [res_bind res_map].
    do 2 eexists; split; [reflexivity|]. split; [reflexivity|].
    split; [apply row_idx_nodup, coalesce_nodup|]. split; [apply row_idx_nodup, coalesce_nodup|].
    split; intros x; rewrite row_idx_In, ?bB_keys, ?bBT_keys; reflexivity.
  Qed.
  Lemma bquery_coords :
    exists eu ev w,
      snd (b_query bqEu s) = Ok (OIdx eu) /\ snd (b_query bqEv s) = Ok (OIdx ev) /\
      snd (b_query bqW s) = Ok (OVals w) /\
      length ev = length eu /\ length w = length eu /\
      snd (b_query bqB s) = Ok (OM (combine (combine eu ev) w)) /\
      NoDup (combine eu ev) /\
      (forall i j, In (i, j) (combine eu ev) <-> g i j <> None).
  Proof.
    exists (rows bB), (cols bB), (vals bB).
    rewrite (good_answer (bgood_query bqEu) C), (good_answer (bgood_query bqEv) C),
      (good_answer (bgood_query bqW) C), (good_answer (bgood_query bqB) C).
    cbn [bp_query]. rewrite bp_B_eq. cbn [res_map]. rewrite combine_rows_cols, keys_rows_cols.
    do 3 (split; [reflexivity|]).
    split; [unfold rows, cols; rewrite !map_length; auto|]. split; [unfold rows, vals; rewrite !map_length; auto|].
    split; [reflexivity|]. split; [apply coalesce_nodup|]. intros i j. apply bB_keys.
  Qed.
  Lemma bquery_weighted (w : list T) eu ev :
    snd (b_query bqEu s) = Ok (OIdx eu) -> snd (b_query bqEv s) = Ok (OIdx ev) -> length w = length eu ->
    forall (u2v : bool), let P := coalesce (if u2v then ctrans (combine (combine eu ev) w) else combine (combine eu ev) w) in
      let n := if u2v then nv else nu in
      (forall X, snd (b_query (bqPass u2v X AggrSum (Some w) None) s) = Ok (OVals (map (spmv P X) (range n))) /\
      snd (b_query (bqPass u2v X AggrMean (Some w) None) s) = Ok (OVals (map (mean_weighted P X) (range n))) /\
      snd (b_query (bqPass u2v X AggrSoftmax (Some w) None) s) = Ok (OVals (map (spmv (csoftmax P) X) (range n)))) /\
      (forall i j, In (i, j) (combine eu ev) <-> g i j <> None) /\
      map fst (combine (combine eu ev) w) = combine eu ev.
  Proof.
    rewrite (good_answer (bgood_query bqEu) C), (good_answer (bgood_query bqEv) C). cbn [bp_query].
    rewrite bp_B_eq. cbn [res_map].
    intros E1 E2 L u2v. cbv zeta. injection E1 as <-. injection E2 as <-.
    assert (LA : length w = length bB) by (rewrite L; unfold rows; apply map_length).
    assert (K := keys_rows_cols bB). split; [intros X|split].
    - rewrite !(good_answer (bgood_query _) C). cbn [bp_query]. unfold bp_pass; cbn [aggr_ok].
      rewrite bp_B_eq. cbn [res_bind]. rewrite LA, Nat.eqb_refl.
      cbn [cdrop_opt]. rewrite NU, NV. unfold with_vals. rewrite <- K. auto.
    - intros i j. rewrite K. apply bB_keys.
    - apply combine_keys. rewrite K, map_length; exact LA.
  Qed.
End Structure.

Section Ring.
  Context {T : Type} `{N : Num T}.
  Context (RT : ring_theory (@nz T N) n1 nadd nmul nsub nopp eq).
  Add Ring TRing7 : RT.
  Lemma mget_shift di dj (m : coo T) i j : mget (shift di dj m) i j = mget m (i - di) (j - dj).
  Proof.
    unfold mget, shift. rewrite sumf_map. apply sumf_ext. intros [[a b] v]; cbn [fst snd].
    rewrite !pair_eqb. change (@eqb Z _) with Z.eqb.
    replace (i =? a + di) with (i - di =? a) by (destruct (Z.eqb_spec (i - di) a), (Z.eqb_spec i (a + di)); auto; exfalso; lia).
    replace (j =? b + dj) with (j - dj =? b) by (destruct (Z.eqb_spec (j - dj) b), (Z.eqb_spec j (b + dj)); auto; exfalso; lia).
    reflexivity.
  Qed.
  (** the GCN matrix of any square sparse matrix *)
  Lemma mget_gcn n (A : coo T) i j : boxed n n A -> 0 <= i < n -> 0 <= j < n ->
    let hat a b := nadd (mget A a b) (if a =? b then n1 else nz) in
    let deg a := sumf (range n) (fun b => hat a b) in
    mget (gcn_of n A) i j = nmul (nmul (nisq (deg i)) (hat i j)) (nisq (deg j)).
  Proof.
    intros B I J hat deg. unfold gcn_of.
    assert (B1 : boxed n n (coalesce (A ++ ident n))) by (apply boxed_coalesce, boxed_app; [auto|apply boxed_diag]).
    assert (H1 : forall a b, 0 <= a < n -> mget (coalesce (A ++ ident n)) a b = hat a b).
    { intros a b Ha. rewrite (mget_coalesce RT), (mget_app RT). unfold ident. rewrite (mget_diag RT), diag_if by auto. reflexivity. }
    assert (D1 : forall a, 0 <= a < n -> rowsum (coalesce (A ++ ident n)) a = deg a).
    { intros a Ha. rewrite (@rowsum_dense T N RT (range n)) by (apply range_nodup || (eapply boxed_cols; exact B1)).
      apply sumf_ext. intros b. apply H1; auto. }
    rewrite (mget_coalesce RT). rewrite (coalesce_id (diag_sorted _ _)).
    rewrite (mget_diag_r RT), (mget_diag_l RT) by auto. rewrite H1, !D1 by auto. reflexivity.
  Qed.
  Lemma boxed_gcn n (A : coo T) : boxed n n A -> boxed n n (gcn_of n A).
  Proof.
    intros B. unfold gcn_of. apply boxed_coalesce. eapply boxed_spmm; [eapply boxed_spmm|].
    - apply boxed_coalesce, boxed_diag.
    - apply boxed_coalesce, boxed_app; [exact B|apply boxed_diag].
    - apply boxed_coalesce, boxed_diag.
  Qed.

  Variables (s : bigraph T) (g : wmap T) (nu nv : Z).
  Hypothesis C : coh bspec s.
  Hypothesis R : brel (st_raw s) g.
  Hypothesis NU : b_nu (st_raw s) = nu.
  Hypothesis NV : b_nv (st_raw s) = nv.
  Hypothesis IR : b_in (fun a => 0 <= a < nu) (fun b => 0 <= b < nv) g.

  Lemma mget_bB i j : mget (bB s) i j = wt (g i j).
  Proof.
    destruct R as [D L]. unfold bB. rewrite (mget_coalesce RT), (mget_nodup RT) by exact D. rewrite L. reflexivity.
  Qed.
  Lemma mget_bBT i j : mget (bBT s) i j = wt (g j i).
  Proof. unfold bBT. rewrite (mget_coalesce RT), mget_ctrans. apply mget_bB. Qed.
  Definition deg_u i : T := sumf (range nv) (fun j => wt (g i j)).
  Definition deg_v j : T := sumf (range nu) (fun i => wt (g i j)).
  Lemma rowsum_bB i : rowsum (bB s) i = deg_u i.
  Proof.
    rewrite (@rowsum_dense T N RT (range nv)) by (apply range_nodup || (eapply boxed_cols, (bB_boxed s R IR))).
    apply sumf_ext. intros j. apply mget_bB.
  Qed.
  Lemma rowsum_bBT i : rowsum (bBT s) i = deg_v i.
  Proof.
    rewrite (@rowsum_dense T N RT (range nu)) by (apply range_nodup || (eapply boxed_cols, (bBT_boxed s R IR))).
    apply sumf_ext. intros j. apply mget_bBT.
  Qed.
  Lemma block_None i j : ~ (0 <= i < nu /\ 0 <= j < nv) -> g i j = None.
  Proof. intros O. destruct (g i j) eqn:E; auto. exfalso. apply O, IR. congruence. Qed.
  Lemma mget_bA i j : mget (bA s nu) i j = block nu g i j.
  Proof.
    unfold bA. rewrite (mget_coalesce RT), (mget_app RT), !mget_shift, mget_bB, mget_bBT, !Z.sub_0_r. unfold block.
    destruct (Z.ltb_spec i nu), (Z.leb_spec nu j), (Z.leb_spec nu i), (Z.ltb_spec j nu); cbn [andb];
      try rewrite (@block_None i (j - nu)) by lia; try rewrite (@block_None j (i - nu)) by lia; cbn [wt]; try ring; lia.
  Qed.
  Lemma bquery_B : exists B BT A,
    snd (b_query bqB s) = Ok (OM B) /\ snd (b_query bqBT s) = Ok (OM BT) /\ snd (b_query bqA s) = Ok (OM A) /\
    (forall i j, mget B i j = wt (g i j)) /\ (forall i j, mget BT i j = mget B j i) /\
    (forall i j, mget A i j = block nu g i j).
  Proof.
    rewrite !(good_answer (bgood_query _) C). cbn [bp_query].
    rewrite (bp_B_eq s R NU NV IR), (bp_BT_eq s R NU NV IR), (bp_A_eq s R NU NV IR). cbn [res_map].
    do 3 eexists. do 3 (split; [reflexivity|]). split; [apply mget_bB|]. split; [|apply mget_bA].
    intros i j. rewrite mget_bBT, mget_bB; reflexivity.
  Qed.
  Lemma bp_Du_eq : bp_Du (st_raw s) = Ok (diag nu deg_u).
  Proof.
    unfold bp_Du. rewrite (bp_B_eq s R NU NV IR). cbn. rewrite NU, diag_rowsum_eq. f_equal. apply diag_ext. intros; apply rowsum_bB; auto.
  Qed.
  Lemma bp_Dv_eq : bp_Dv (st_raw s) = Ok (diag nv deg_v).
  Proof.
    unfold bp_Dv. rewrite (bp_BT_eq s R NU NV IR). cbn. rewrite NV, diag_rowsum_eq. f_equal. apply diag_ext. intros; apply rowsum_bBT; auto.
  Qed.
  Lemma bp_Du1_eq : bp_Du1 (st_raw s) = Ok (diag nu (fun i => ninv (deg_u i))).
  Proof. unfold bp_Du1. rewrite bp_Du_eq. cbn. rewrite inv_vals_diag; reflexivity. Qed.
  Lemma bp_Dv1_eq : bp_Dv1 (st_raw s) = Ok (diag nv (fun i => ninv (deg_v i))).
  Proof. unfold bp_Dv1. rewrite bp_Dv_eq. cbn. rewrite inv_vals_diag; reflexivity. Qed.
  Lemma bquery_D :
    snd (b_query bqDu s) = Ok (OM (diag nu deg_u)) /\ snd (b_query bqDv s) = Ok (OM (diag nv deg_v)) /\
    snd (b_query bqDu1 s) = Ok (OM (diag nu (fun i => ninv (deg_u i)))) /\
    snd (b_query bqDv1 s) = Ok (OM (diag nv (fun i => ninv (deg_v i)))) /\
    snd (b_query bqDegU s) = Ok (OVals (map deg_u (range nu))) /\
    snd (b_query bqDegV s) = Ok (OVals (map deg_v (range nv))).
  Proof.
    rewrite !(good_answer (bgood_query _) C). cbn [bp_query].
    rewrite bp_Du_eq, bp_Dv_eq, bp_Du1_eq, bp_Dv1_eq. cbn [res_map]. rewrite !vals_diag. auto 10.
  Qed.
  Lemma bhandshake : exists es ws, snd (b_query bqE s) = Ok (OE es ws) /\
    sumf (range nu) deg_u = sumf ws (fun w => w) /\ sumf (range nv) deg_v = sumf ws (fun w => w).
  Proof.
    rewrite (good_answer (bgood_query bqE) C). cbn [bp_query]. do 2 eexists; split; [reflexivity|].
    assert (S : sumf (range nu) deg_u = sumf (snd (braw_edges (st_raw s))) (fun w => w)).
    { transitivity (sumf (range nu) (fun i => sumf (range nv) (fun j => nmul (mget (b_e (st_raw s)) i j) n1))).
      { apply sumf_ext. intros i. apply sumf_ext. intros j. rewrite <- mget_bB. unfold bB. rewrite (mget_coalesce RT). ring. }
      rewrite (double_sum RT) by (intros i j I; apply IR, (be_keys s R); auto).
      cbn [braw_edges snd]. unfold dvals. rewrite sumf_map. apply sumf_ext. intros x. ring. }
    split; auto. rewrite <- S. unfold deg_u, deg_v. apply (sumf_swap RT).
  Qed.
  Lemma spmv_bB X i : spmv (bB s) X i = sumf (range nv) (fun j => nmul (wt (g i j)) (X j)).
  Proof.
    rewrite (@spmv_dense T N RT (range nv)) by (apply range_nodup || (eapply boxed_cols, (bB_boxed s R IR))).
    apply sumf_ext. intros j. rewrite mget_bB; auto.
  Qed.
  Lemma spmv_bBT X i : spmv (bBT s) X i = sumf (range nu) (fun j => nmul (wt (g j i)) (X j)).
  Proof.
    rewrite (@spmv_dense T N RT (range nu)) by (apply range_nodup || (eapply boxed_cols, (bBT_boxed s R IR))).
    apply sumf_ext. intros j. rewrite mget_bBT; auto.
  Qed.
  Lemma bquery_pass X : exists vs vm us um,
    snd (b_query (bqPass true X AggrSum None None) s) = Ok (OVals (map vs (range nv))) /\
    snd (b_query (bqPass true X AggrMean None None) s) = Ok (OVals (map vm (range nv))) /\
    snd (b_query (bqPass false X AggrSum None None) s) = Ok (OVals (map us (range nu))) /\
    snd (b_query (bqPass false X AggrMean None None) s) = Ok (OVals (map um (range nu))) /\
    (forall j, 0 <= j < nv ->
      vs j = sumf (range nu) (fun i => nmul (wt (g i j)) (X i)) /\
      vm j = nmul (ninv (deg_v j)) (sumf (range nu) (fun i => nmul (wt (g i j)) (X i)))) /\
    (forall i, 0 <= i < nu ->
      us i = sumf (range nv) (fun j => nmul (wt (g i j)) (X j)) /\
      um i = nmul (ninv (deg_u i)) (sumf (range nv) (fun j => nmul (wt (g i j)) (X j)))).
  Proof.
    rewrite !(good_answer (bgood_query _) C). cbn [bp_query]. unfold bp_pass; cbn [aggr_ok].
    rewrite (bp_B_eq s R NU NV IR), (bp_BT_eq s R NU NV IR), bp_Du1_eq, bp_Dv1_eq. cbn [res_bind res_map cdrop_opt]. rewrite NU, NV.
    do 4 eexists. do 4 (split; [reflexivity|]). split; intros i I; rewrite (spmv_diag RT) by auto.
    - rewrite spmv_bBT. auto.
    - rewrite spmv_bB. auto.
  Qed.
  Lemma bquery_L : 0 <= nu -> 0 <= nv -> exists L, snd (b_query bqLgcn s) = Ok (OM L) /\ boxed (nu + nv) (nu + nv) L /\
    (forall X keep, snd (b_query (bqGcn X keep) s) = Ok (OVals (map (spmv (cdrop_opt keep L) X) (range (nu + nv))))) /\
    let hat a b := nadd (block nu g a b) (if a =? b then n1 else nz) in
    let deg a := sumf (range (nu + nv)) (fun b => hat a b) in
    forall i j, 0 <= i < nu + nv -> 0 <= j < nu + nv ->
      mget L i j = nmul (nmul (nisq (deg i)) (hat i j)) (nisq (deg j)).
  Proof.
    intros P Q. rewrite !(good_answer (bgood_query _) C). cbn [bp_query].
    unfold bp_gcn, bp_L. rewrite (bp_A_eq s R NU NV IR). cbn [res_map]. rewrite NU, NV.
    eexists; split; [reflexivity|]. split; [apply boxed_gcn, (bA_boxed s R IR); auto|]. split.
    { intros X keep. rewrite (good_answer (bgood_query _) C). cbn [bp_query]. unfold bp_gcn, bp_L. rewrite (bp_A_eq s R NU NV IR). cbn [res_map].
      rewrite NU, NV. reflexivity. }
    intros i j I J. rewrite mget_gcn by (auto; apply (bA_boxed s R IR); auto). cbv zeta.
    rewrite mget_bA. f_equal; [f_equal|]; f_equal; apply sumf_ext; intros; rewrite mget_bA; reflexivity.
  Qed.
  Lemma block_sym i j : block nu g i j = block nu g j i.
  Proof.
    unfold block. destruct (Z.ltb_spec i nu), (Z.leb_spec nu j), (Z.leb_spec nu i), (Z.ltb_spec j nu); cbn [andb]; auto; lia.
  Qed.
  Lemma bgcn_facts : 0 <= nu -> 0 <= nv ->
    let hat a b := nadd (block nu g a b) (if a =? b then n1 else nz) in
    let deg a := sumf (range (nu + nv)) (fun b => hat a b) in
    exists L, snd (b_query bqLgcn s) = Ok (OM L) /\
    (forall i j, 0 <= i < nu + nv -> 0 <= j < nu + nv ->
      mget L i j = nmul (nmul (nisq (deg i)) (hat i j)) (nisq (deg j)) /\ mget L i j = mget L j i /\
      (i <> j -> ((i < nu /\ j < nu) \/ (nu <= i /\ nu <= j)) -> mget L i j = nz)) /\
    (forall X, exists y, snd (b_query (bqGcn X None) s) = Ok (OVals (map y (range (nu + nv)))) /\
      forall i, y i = sumf (range (nu + nv)) (fun j => nmul (mget L i j) (X j))).
  Proof.
    intros P Q hat deg. destruct (bquery_L P Q) as (L & E & BX & QX & D). cbv zeta in D.
    exists L. split; [exact E|]. split.
    - intros i j I J. assert (DI : mget L i j = nmul (nmul (nisq (deg i)) (hat i j)) (nisq (deg j))) by (apply D; auto).
      split; [exact DI|]. split.
      + rewrite DI. assert (DJ : mget L j i = nmul (nmul (nisq (deg j)) (hat j i)) (nisq (deg i))) by (apply D; auto).
        rewrite DJ. assert (HS : hat i j = hat j i) by (unfold hat; rewrite (block_sym i j), (Z.eqb_sym i j); reflexivity).
        rewrite HS. ring.
      + intros NE S. rewrite DI. replace (hat i j) with (@nz T N); [ring|].
        unfold hat, block. replace (i =? j) with false by (symmetry; apply Z.eqb_neq; auto).
        destruct (Z.ltb_spec i nu), (Z.leb_spec nu j), (Z.leb_spec nu i), (Z.ltb_spec j nu); cbn [andb]; try ring; lia.
    - intros X. eexists; split; [apply QX|]. intros i. cbn [cdrop_opt].
      apply (@spmv_dense T N RT (range (nu + nv))); [apply range_nodup | eapply boxed_cols; exact BX].
  Qed.
End Ring.

Section Real.
  Variables (s : bigraph R) (g : wmap R) (nu nv : Z).
  Hypothesis C : coh bspec s.
  Hypothesis RR : brel (st_raw s) g.
  Hypothesis NU : b_nu (st_raw s) = nu.
  Hypothesis NV : b_nv (st_raw s) = nv.
  Hypothesis IR : b_in (fun a => 0 <= a < nu) (fun b => 0 <= b < nv) g.

  Lemma bquery_softmax (w : list R) eu ev (u2v : bool) :
    snd (b_query bqEu s) = Ok (OIdx eu) -> snd (b_query bqEv s) = Ok (OIdx ev) -> length w = length eu ->
    exists c, is_softmax (if u2v then nu else nv) (fun i j => (if u2v then g j i else g i j) <> None)
       (fun i j => mget (combine (combine eu ev) w) (if u2v then j else i) (if u2v then i else j)) c /\
      forall X, exists f, snd (b_query (bqPass u2v X AggrSoftmax (Some w) None) s) = Ok (OVals (map f (range (if u2v then nv else nu)))) /\
        forall i, f i = sumf (range (if u2v then nu else nv)) (fun j => c i j * X j)%R.
  Proof.
    intros E1 E2 L. destruct (bquery_weighted C RR NU NV IR w E1 E2 L u2v) as (Q & KE & KF). cbv zeta in *.
    set (B := combine (combine eu ev) w) in *.
    set (P := coalesce (if u2v then ctrans B else B)) in *.
    assert (PK : forall i j, In (i, j) (map fst P) <-> (if u2v then g j i else g i j) <> None).
    { intros i j. unfold P. rewrite coalesce_keys. destruct u2v.
      - rewrite ctrans_keys, KF, KE. tauto.
      - rewrite KF, KE. tauto. }
    destruct (@softmax_dense (if u2v then nv else nu) (if u2v then nu else nv) P) as (SM & SV).
    - intros i j I. apply PK in I. destruct u2v; apply IR in I; tauto.
    - apply coalesce_nodup.
    - exists (fun i j => mget (csoftmax P) i j). split.
      + eapply is_softmax_iff; [exact PK| |exact SM]. intros i j. unfold P. rewrite (mget_coalesce RT). destruct u2v; [rewrite mget_ctrans|]; reflexivity.
      + intros X. destruct (Q X) as (_ & _ & A). eexists; split; [exact A|]. intros i. apply SV.
  Qed.
  Lemma bquery_softmax_plain (u2v : bool) :
    exists c, is_softmax (if u2v then nu else nv) (fun i j => (if u2v then g j i else g i j) <> None)
       (fun i j => wt (if u2v then g j i else g i j)) c /\
      forall X, exists f, snd (b_query (bqPass u2v X AggrSoftmax None None) s) = Ok (OVals (map f (range (if u2v then nv else nu)))) /\
        forall i, f i = sumf (range (if u2v then nu else nv)) (fun j => c i j * X j)%R.
  Proof.
    set (P := if u2v then bBT s else bB s).
    assert (PK : forall i j, In (i, j) (map fst P) <-> (if u2v then g j i else g i j) <> None).
    { intros i j. unfold P. destruct u2v; [apply (bBT_keys s RR)|apply (bB_keys s RR)]. }
    destruct (@softmax_dense (if u2v then nv else nu) (if u2v then nu else nv) P) as (SM & SV).
    - intros i j I. apply PK in I. destruct u2v; apply IR in I; tauto.
    - unfold P; destruct u2v; apply coalesce_nodup.
    - exists (fun i j => mget (csoftmax P) i j). split.
      + eapply is_softmax_iff; [exact PK| |exact SM]. intros i j. unfold P.
        destruct u2v; [apply (mget_bBT RT s RR) | apply (mget_bB RT s RR)].
      + intros X. eexists. split; [|intros i; apply SV].
        rewrite (good_answer (bgood_query _) C). cbn [bp_query]. unfold bp_pass; cbn [aggr_ok].
        rewrite (bp_B_eq s RR NU NV IR), (bp_BT_eq s RR NU NV IR). unfold P. destruct u2v; cbn [res_bind res_map cdrop_opt]; rewrite ?NU, ?NV; reflexivity.
  Qed.

  Variables (es : list (Z * Z)) (ws : list R).
  Hypothesis QEe : snd (b_query bqE s) = Ok (OE es ws).
  Lemma breported_weight a b w : g a b = Some w -> In w ws.
  Proof.
    intros A. destruct (breported C RR) as (es' & ws' & E' & _ & _ & _ & M). rewrite E' in QEe. injection QEe as -> ->.
    apply M in A. apply in_combine_r in A; auto.
  Qed.
  Local Open Scope R_scope.
  Lemma bwt_nonneg i j : Forall (fun w => 0 <= w) ws -> 0 <= wt (g i j).
  Proof.
    intros NN. destruct (g i j) as [w|] eqn:E; cbn; [|lra]. rewrite Forall_forall in NN. apply NN. eapply breported_weight; eauto.
  Qed.
  Lemma bmean_between : Forall (fun w => 0 < w) ws -> forall (X : Z -> R) (u2v : bool),
    exists f, snd (b_query (bqPass u2v X AggrMean None None) s) = Ok (OVals (map f (range (if u2v then nv else nu)))) /\
    let edge i j := (if u2v then g j i else g i j) <> None in
    forall i, (0 <= i < (if u2v then nv else nu))%Z ->
      (forall lo hi, (exists j, edge i j) -> (forall j, edge i j -> lo <= X j <= hi) -> lo <= f i <= hi) /\
      (forall c, (exists j, edge i j) -> (forall j, X j = c) -> f i = c) /\
      ((forall j, ~ edge i j) -> f i = 0).
  Proof.
    intros PP X u2v. assert (NN : Forall (fun w => 0 <= w) ws) by (eapply Forall_impl; [|exact PP]; cbn; intros; lra).
    destruct (bquery_pass RT C RR NU NV IR X) as (vs & vm & us & um & _ & E1 & _ & E2 & F1 & F2).
    exists (if u2v then vm else um). split; [destruct u2v; auto|].
    set (a := fun i j => wt (if u2v then g j i else g i j)). set (nj := if u2v then nu else nv).
    assert (FE : forall i, (0 <= i < (if u2v then nv else nu))%Z ->
      (if u2v then vm else um) i = Rinv0 (sumf (range nj) (a i)) * sumf (range nj) (fun j => a i j * X j)).
    { intros i I. unfold a, nj. destruct u2v; [destruct (F1 i I) as [_ ->]|destruct (F2 i I) as [_ ->]]; reflexivity. }
    intros edge i I. rewrite (FE i I).
    assert (A0 : forall j, 0 <= a i j) by (intros j; unfold a; destruct u2v; apply bwt_nonneg; auto).
    assert (AE : forall j, edge i j -> In j (range nj) /\ 0 < a i j).
    { intros j Ej. unfold edge, a, nj in *. rewrite range_In. destruct u2v.
      - split; [apply (IR Ej)|]. destruct (g j i) as [w|] eqn:Q; [|congruence]. cbn. rewrite Forall_forall in PP. apply PP. eapply breported_weight; eauto.
      - split; [apply (IR Ej)|]. destruct (g i j) as [w|] eqn:Q; [|congruence]. cbn. rewrite Forall_forall in PP. apply PP. eapply breported_weight; eauto. }
    assert (AN : forall j, 0 < a i j -> edge i j).
    { intros j Pj Q. unfold a in Pj. rewrite Q in Pj. cbn in Pj. lra. }
    assert (MB : forall lo hi, (exists j, edge i j) -> (forall j, edge i j -> lo <= X j <= hi) ->
      lo <= Rinv0 (sumf (range nj) (a i)) * sumf (range nj) (fun j => a i j * X j) <= hi).
    { intros lo hi (j0 & E0) B. apply Rmean_between; auto. exists j0; auto. }
    split; [exact MB|]. split.
    - intros c EX CO. destruct (MB c c EX) as [A B]; [|lra]. intros j _. rewrite CO; lra.
    - intros NEdge. apply Rmean_none. intros j _. specialize (A0 j). specialize (AN j). destruct (Rle_lt_or_eq_dec _ _ A0) as [L|L]; auto.
      exfalso. eapply NEdge; eauto.
  Qed.
  Lemma bgcn_energy : Forall (fun w => 0 <= w) ws -> (0 <= nu)%Z -> (0 <= nv)%Z -> forall x : Z -> R, exists y : Z -> R,
    snd (b_query (bqGcn x None) s) = Ok (OVals (map y (range (nu + nv)))) /\
    Rabs (sumf (range (nu + nv)) (fun i => x i * y i)) <= sumf (range (nu + nv)) (fun i => x i * x i).
  Proof.
    intros NN PU PV x. destruct (bgcn_facts RT C RR NU NV IR PU PV) as (L & EL & D & Y). destruct (Y x) as (y & Ey & Dy).
    exists y; split; [exact Ey|]. set (n := (nu + nv)%Z) in *.
    set (hat := fun a b => block nu g a b + (if (a =? b)%Z then 1 else 0)).
    pose proof (normalised_form_bound (range n) hat x) as B. cbv zeta in B.
    rewrite (sumf_ext_in (range n) (fun i => x i * y i) (fun i => sumf (range n) (fun j =>
        x i * (Risq (sumf (range n) (fun j0 => hat i j0)) * hat i j * Risq (sumf (range n) (fun j0 => hat j j0))) * x j))).
    - apply B; intros i j _ _.
      + unfold hat, block. assert (0 <= (if (i =? j)%Z then 1 else 0)) by (destruct (i =? j)%Z; lra).
        destruct ((i <? nu)%Z && (nu <=? j)%Z); [|destruct ((nu <=? i)%Z && (j <? nu)%Z)];
          [pose proof (bwt_nonneg i (j - nu) NN)|pose proof (bwt_nonneg j (i - nu) NN)|cbn]; lra.
      + unfold hat. rewrite (block_sym g nu i j), (Z.eqb_sym i j). reflexivity.
    - intros i I. apply range_In in I. rewrite Dy. etransitivity; [symmetry; apply (sumf_mul_l RT)|].
      apply sumf_ext_in. intros j J. apply range_In in J. destruct (D i j I J) as (-> & _). unfold hat. cbn. ring.
  Qed.
End Real.

Section Switch.
  Context {T : Type} `{N : Num T}.
  Context (RT : ring_theory (@nz T N) n1 nadd nmul nsub nopp eq).
  Lemma bpass_switch (s : bigraph T) g nu nv : coh bspec s -> brel (st_raw s) g -> b_nu (st_raw s) = nu -> b_nv (st_raw s) = nv ->
    b_in (fun a => 0 <= a < nu) (fun b => 0 <= b < nv) g ->
    forall X (u2v : bool) a, a = AggrSum \/ a = AggrMean ->
    snd (b_query (bqPass u2v X a None None) (b_switch s)) = snd (b_query (bqPass (negb u2v) X a None None) s).
  Proof.
    intros C R NU NV IR X u2v a AA. destruct (bswitch_raw s R) as (E & R').
    assert (C' : coh bspec (b_switch s)) by (rewrite E; apply coh_empty).
    assert (NU' : b_nu (st_raw (b_switch s)) = nv) by (rewrite E; auto).
    assert (NV' : b_nv (st_raw (b_switch s)) = nu) by (rewrite E; auto).
    assert (IR' : b_in (fun a => 0 <= a < nv) (fun b => 0 <= b < nu) (swap_map g)) by (intros x y K; apply IR in K; tauto).
    destruct (bquery_pass RT C R NU NV IR X) as (f1 & f2 & f3 & f4 & E1 & E2 & E3 & E4 & F & F').
    destruct (bquery_pass RT C' R' NU' NV' IR' X) as (h1 & h2 & h3 & h4 & G1 & G2 & G3 & G4 & G & G').
    destruct AA as [-> | ->], u2v; cbn [negb]; rewrite ?E1, ?E2, ?E3, ?E4, ?G1, ?G2, ?G3, ?G4; do 2 f_equal;
      apply map_ext_in; intros i I; apply range_In in I;
      [destruct (F' i I) as [-> _]; destruct (G i I) as [-> _] | destruct (F i I) as [-> _]; destruct (G' i I) as [-> _]
      |destruct (F' i I) as [_ ->]; destruct (G i I) as [_ ->] | destruct (F i I) as [_ ->]; destruct (G' i I) as [_ ->]];
      reflexivity.
  Qed.
End Switch.
