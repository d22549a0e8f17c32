(** Laplacians, neighbours and message passing of a Graph. *)
From Coq Require Import Ring Permutation Sorted.
From Verif Require Import Num PyDict PyDictFacts Coo CooFacts MatFacts ModelBase CacheFacts ModelGraph GraphFacts
  SpecGraph SpecGraphOps StoreFacts GraphStore GraphMatrix.
Set Implicit Arguments.

(** walks in a relation *)
Inductive walk {V : Type} (E : V -> V -> Prop) : nat -> V -> V -> Prop :=
| walk_nil v : walk E 0 v v
| walk_snoc n u v x : walk E n u v -> E v x -> walk E (S n) u x.

Section Structure.
  Context {T : Type} `{Num T}.

  Lemma strip_rel (r : raw T) g : grel r g -> grel (strip r) (a_remove_loops g).
  Proof. intros R. exact (proj1 (@remove_loops_rel T norm_und (mkSt r []) g R)). Qed.
  Lemma extra_rel (r : raw T) g : grel r g -> grel (extra r) (mkA (aw g) true).
  Proof. intros R. exact (proj1 (@set_extra_rel T norm_und true (mkSt r []) g R)). Qed.
  Lemma strip_in_range nv (g : agraph T) : in_range nv g -> in_range nv (a_remove_loops g).
  Proof. intros G a b; cbn. destruct (a =? b); [congruence|apply G]. Qed.
  Lemma extra_in_range nv (g : agraph T) b : in_range nv g -> in_range nv (mkA (aw g) b).
  Proof. intros G x y; cbn. apply G. Qed.

  (** powers of A: structural non-zeros are walks *)
  Lemma spow_keys (A Ak : coo T) k m i j :
    (forall a b, In (a, b) (map fst Ak) <-> walk (fun x y => In (x, y) (map fst A)) (S m) a b) ->
    (In (i, j) (map fst (spow A Ak k)) <-> walk (fun x y => In (x, y) (map fst A)) (S m + k) i j).
  Proof.
    revert Ak m i j; induction k as [|k IH]; intros Ak m i j E; cbn [spow].
    - rewrite Nat.add_0_r. apply E.
    - rewrite (IH (spmm Ak A) (S m) i j).
      + replace (S (S m) + k)%nat with (S m + S k)%nat by lia. reflexivity.
      + intros a b. rewrite spmm_In. split.
        * intros (c & I1 & I2). apply E in I1. econstructor; eauto.
        * intros W. inversion W as [|? ? c ? W' I]; subst. exists c; split; auto. apply E; auto.
  Qed.
  Lemma spow_nodup (A Ak : coo T) k : NoDup (map fst Ak) -> NoDup (map fst (spow A Ak k)).
  Proof.
    revert Ak; induction k as [|k IH]; intros Ak ND; cbn; auto.
    apply IH. apply coalesce_nodup.
  Qed.
  Lemma walk_one {V} (E : V -> V -> Prop) a b : walk E 1 a b <-> E a b.
  Proof.
    split.
    - intros W. inversion W as [|? ? c ? W' I]; subst. inversion W'; subst; auto.
    - intros I. econstructor; [constructor|exact I].
  Qed.
  Lemma walk_iff {V} (E F : V -> V -> Prop) n a b : (forall x y, E x y <-> F x y) -> walk E n a b <-> walk F n a b.
  Proof.
    intros EF. split; induction 1; try constructor; econstructor; eauto; apply EF; auto.
  Qed.
  Lemma walk_iff_on {V} (P : V -> Prop) (E F : V -> V -> Prop) n a b :
    (forall x y, P x -> E x y <-> (F x y /\ P y)) -> (forall x y, P x -> F x y -> P y) -> P a ->
    (walk E n a b <-> walk F n a b).
  Proof.
    intros EF CL Pa. split; intros W.
    - enough (walk F n a b /\ P b) by tauto. induction W as [|n u v x W IH I]; [split; [constructor|auto]|].
      destruct IH as [W' Pv]; auto. apply EF in I as [I Px]; auto. split; auto. econstructor; eauto.
    - enough (walk E n a b /\ P b) by tauto. induction W as [|n u v x W IH I]; [split; [constructor|auto]|].
      destruct IH as [W' Pv]; auto. assert (P x) by eauto. split; auto. econstructor; eauto. apply EF; auto.
  Qed.

  Variables (s : graph T) (g : agraph T) (nv : Z).
  Hypothesis R : grel (st_raw s) g.
  Hypothesis C : coh gspec s.
  Hypothesis NV : r_nv (st_raw s) = nv.
  Hypothesis POS : 0 < nv.
  Hypothesis IR : in_range nv g.
  Let A := coalesce (eb_coo (st_raw s) nv).

  Lemma query_N v hop : 0 <= v < nv -> 1 <= hop ->
    exists l, snd (g_query (QN v hop) s) = Ok (OIdx l) /\ NoDup l /\
      forall u, In u l <-> walk (a_edge g) (Z.to_nat hop) v u.
  Proof.
    intros V Hh. rewrite (good_answer (good_query (QN v hop)) C). cbn [p_query].
    unfold p_N. destruct (Z.leb_spec 1 hop) as [_|]; [|lia].
    assert (PI : py_index (r_nv (st_raw s)) v = Ok v).
    { unfold py_index. rewrite NV. replace (0 <=? v) with true by (symmetry; apply Z.leb_le; lia).
      replace (v <? nv) with true by (symmetry; apply Z.ltb_lt; lia). reflexivity. }
    rewrite PI.
    assert (G : (if hop =? 1 then p_A (st_raw s) else p_Apow hop (st_raw s)) = Ok (spow A A (Z.to_nat (hop - 1)))).
    { unfold p_Apow. rewrite (p_A_eq R NV POS IR). destruct (Z.eqb_spec hop 1) as [->|]; reflexivity. }
    rewrite G. cbn. eexists; split; [reflexivity|]. split.
    - apply row_idx_nodup, spow_nodup, coalesce_nodup.
    - intros u. rewrite row_idx_In. rewrite (@spow_keys A A _ 0).
      + replace (1 + Z.to_nat (hop - 1))%nat with (Z.to_nat hop) by lia.
        apply (@walk_iff_on Z (fun x => 0 <= x < nv)); auto.
        * intros x y Px. unfold A. rewrite (A_keys R IR). tauto.
        * intros x y Px [E|[<- E]]; auto. apply IR in E; tauto.
      + intros a b. rewrite walk_one. reflexivity.
  Qed.

  Lemma keys_rows_cols (m : coo T) : combine (rows m) (cols m) = map fst m.
  Proof. unfold rows, cols. induction m as [|[[i j] v] m IH]; cbn; congruence. Qed.
  (** e_src, e_dst, e_weight *)
  Lemma query_src_dst :
    exists src dst w,
      snd (g_query QEsrc s) = Ok (OIdx src) /\ snd (g_query QEdst s) = Ok (OIdx dst) /\
      snd (g_query QEweight s) = Ok (OVals w) /\
      length dst = length src /\ length w = length src /\
      snd (g_query QA s) = Ok (OM (combine (combine dst src) w)) /\
      NoDup (combine dst src) /\
      (forall i j, In (i, j) (combine dst src) <-> (a_edge g i j /\ 0 <= i < nv /\ 0 <= j < nv)).
  Proof.
    exists (cols A), (rows A), (vals A).
    rewrite (good_answer (good_query QEsrc) C), (good_answer (good_query QEdst) C),
      (good_answer (good_query QEweight) C), (good_answer (good_query QA) C).
    cbn [p_query]. rewrite (p_A_eq R NV POS IR). cbn [res_map]. rewrite combine_rows_cols.
    assert (K := keys_rows_cols A).
    rewrite K. repeat split; auto; try (unfold rows, cols, vals; rewrite !map_length; auto; fail).
    - apply coalesce_nodup.
    - apply (A_keys R IR) in H0; tauto.
    - apply (A_keys R IR) in H0; lia.
    - apply (A_keys R IR) in H0; lia.
    - apply (A_keys R IR) in H0; lia.
    - apply (A_keys R IR) in H0; lia.
    - intros I. apply (A_keys R IR); auto.
  Qed.
End Structure.

Section Ring.
  Context {T : Type} `{N : Num T}.
  Context (RT : ring_theory (@nz T N) n1 nadd nmul nsub nopp eq).
  Add Ring TRing4 : RT.

  Lemma mget_map_opp (m : coo T) i j : mget (cmap nopp m) i j = nopp (mget m i j).
  Proof. apply (mget_cmap_opp RT). Qed.

  Lemma diag_if nv i j (x : T) : 0 <= i < nv -> (if (0 <=? i) && (i <? nv) && (i =? j) then x else nz) = if i =? j then x else nz.
  Proof.
    intros I. replace (0 <=? i) with true by (symmetry; apply Z.leb_le; lia).
    replace (i <? nv) with true by (symmetry; apply Z.ltb_lt; lia). reflexivity.
  Qed.

  Variables (s : graph T) (g : agraph T) (nv : Z).
  Hypothesis R : grel (st_raw s) g.
  Hypothesis C : coh gspec s.
  Hypothesis NV : r_nv (st_raw s) = nv.
  Hypothesis POS : 0 < nv.
  Hypothesis IR : in_range nv g.

  Lemma query_A : exists m, snd (g_query QA s) = Ok (OM m) /\
    (forall i j, 0 <= i < nv -> 0 <= j < nv -> mget m i j = a_adj g i j) /\
    (forall i j, ~ (0 <= i < nv /\ 0 <= j < nv) -> mget m i j = nz).
  Proof.
    rewrite (good_answer (good_query QA) C). cbn [p_query]. rewrite (p_A_eq R NV POS IR). cbn [res_map res_bind].
    eexists; split; [reflexivity|]. split.
    - intros i j I J. apply (mget_A RT R); auto.
    - intros i j O. apply (mget_absent RT). rewrite (A_keys R IR); tauto.
  Qed.
  Lemma query_D : snd (g_query QD s) = Ok (OM (diag nv (a_deg nv g))) /\
    snd (g_query QDeg s) = Ok (OVals (map (a_deg nv g) (range nv))) /\
    snd (g_query QD1 s) = Ok (OM (diag nv (fun i => ninv (a_deg nv g i)))) /\
    snd (g_query QD12 s) = Ok (OM (diag nv (fun i => nisq (a_deg nv g i)))).
  Proof.
    rewrite (good_answer (good_query QD) C), (good_answer (good_query QDeg) C),
      (good_answer (good_query QD1) C), (good_answer (good_query QD12) C). cbn [p_query].
    rewrite (p_D_deg RT R NV POS IR), (p_D1_deg RT R NV POS IR), (p_D12_deg RT R NV POS IR). cbn [res_map].
    rewrite vals_diag. auto.
  Qed.

  (** sum of degrees *)
  Lemma handshake : exists es ws, snd (g_query QE s) = Ok (OE es ws) /\
    sumf (range nv) (a_deg nv g) =
    sumf (combine es ws) (fun kv => if fst (fst kv) =? snd (fst kv) then snd kv else nadd (snd kv) (snd kv)).
  Proof.
    rewrite (good_answer (good_query QE) C). cbn [p_query]. do 2 eexists; split; [reflexivity|].
    transitivity (sumf (range nv) (fun i => sumf (range nv) (fun j => nmul (a_adj g i j) n1))).
    { apply sumf_ext. intros i. apply sumf_ext. intros j. ring. }
    rewrite (adj_double_sum RT R NV IR (fun _ _ => n1)). apply sumf_ext. intros [[a b] w]; cbn.
    destruct (a =? b); ring.
  Qed.

  (** adjacency without self-loops *)
  Definition a_off (i j : Z) : T := if i =? j then nz else wt (aw g i j).
  Lemma adj_strip i j : a_adj (a_remove_loops g) i j = a_off i j.
  Proof.
    unfold a_adj, a_off; cbn. rewrite andb_false_r. destruct (i =? j); cbn; ring.
  Qed.
  Definition off_deg (i : Z) : T := sumf (range nv) (fun j => a_off i j).
  Lemma deg_strip i : a_deg nv (a_remove_loops g) i = off_deg i.
  Proof. unfold a_deg, off_deg. apply sumf_ext. intros; apply adj_strip. Qed.

  Lemma query_L : exists m, snd (g_query QL s) = Ok (OM m) /\
    forall i j, 0 <= i < nv -> 0 <= j < nv ->
      mget m i j = nsub (if i =? j then off_deg i else nz) (a_off i j).
  Proof.
    rewrite (good_answer (good_query QL) C). cbn [p_query]. unfold p_L.
    rewrite (p_D_deg RT (strip_rel R) NV POS (strip_in_range IR)).
    rewrite (p_A_eq (strip_rel R) NV POS (strip_in_range IR)). cbn [res_map res_bind].
    eexists; split; [reflexivity|]. intros i j I J.
    rewrite (mget_csub RT), (mget_diag RT), diag_if by auto.
    rewrite (mget_A RT (strip_rel R)), adj_strip, deg_strip by auto. reflexivity.
  Qed.

  Lemma query_Lrw : exists m, snd (g_query QLrw s) = Ok (OM m) /\
    forall i j, 0 <= i < nv -> 0 <= j < nv ->
      mget m i j = nsub (if i =? j then n1 else nz) (nmul (ninv (off_deg i)) (a_off i j)).
  Proof.
    rewrite (good_answer (good_query QLrw) C). cbn [p_query]. unfold p_Lrw.
    rewrite (p_D1_deg RT (strip_rel R) NV POS (strip_in_range IR)).
    rewrite (p_A_eq (strip_rel R) NV POS (strip_in_range IR)). cbn [res_map res_bind].
    eexists; split; [reflexivity|]. intros i j I J.
    rewrite (mget_coalesce RT), (mget_app RT), NV. unfold ident.
    rewrite (mget_diag RT), diag_if, mget_map_opp, (mget_diag_l RT) by auto.
    rewrite (mget_A RT (strip_rel R)), adj_strip, deg_strip by auto. destruct (i =? j); ring.
  Qed.

  Lemma query_Lsym : exists m, snd (g_query QLsym s) = Ok (OM m) /\
    forall i j, 0 <= i < nv -> 0 <= j < nv ->
      mget m i j = nsub (if i =? j then n1 else nz) (nmul (nmul (nisq (off_deg i)) (a_off i j)) (nisq (off_deg j))).
  Proof.
    rewrite (good_answer (good_query QLsym) C). cbn [p_query]. unfold p_Lsym.
    rewrite (p_D12_deg RT (strip_rel R) NV POS (strip_in_range IR)).
    rewrite (p_A_eq (strip_rel R) NV POS (strip_in_range IR)). cbn [res_map res_bind].
    eexists; split; [reflexivity|]. intros i j I J.
    rewrite (mget_coalesce RT), (mget_app RT), NV. unfold ident.
    rewrite (mget_diag RT), diag_if, mget_map_opp, (mget_diag_r RT), (mget_diag_l RT) by auto.
    rewrite (mget_A RT (strip_rel R)), adj_strip, !deg_strip by auto. destruct (i =? j); ring.
  Qed.

  (** adjacency with one extra self-loop everywhere *)
  Definition a_hat (i j : Z) : T := nadd (wt (aw g i j)) (if i =? j then n1 else nz).
  Definition hat_deg (i : Z) : T := sumf (range nv) (fun j => a_hat i j).
  Lemma adj_hat i j : a_adj (mkA (aw g) true) i j = a_hat i j.
  Proof. unfold a_adj, a_hat; cbn. rewrite andb_true_r; reflexivity. Qed.
  Lemma deg_hat i : a_deg nv (mkA (aw g) true) i = hat_deg i.
  Proof. unfold a_deg, hat_deg. apply sumf_ext. intros; apply adj_hat. Qed.

  Lemma query_Lgcn : exists m, snd (g_query QLgcn s) = Ok (OM m) /\ boxed nv nv m /\
    (forall X keep, snd (g_query (QGcn X keep) s) = Ok (OVals (map (spmv (cdrop_opt keep m) X) (range nv)))) /\
    forall i j, 0 <= i < nv -> 0 <= j < nv ->
      mget m i j = nmul (nmul (nisq (hat_deg i)) (a_hat i j)) (nisq (hat_deg j)).
  Proof.
    rewrite (good_answer (good_query QLgcn) C). cbn [p_query]. unfold p_Lgcn.
    rewrite (p_D12_deg RT (extra_rel R) NV POS (extra_in_range true IR)).
    rewrite (p_A_eq (extra_rel R) NV POS (extra_in_range true IR)). cbn [res_map res_bind].
    eexists; split; [reflexivity|]. split; [|split].
    - apply boxed_coalesce. apply boxed_spmm with nv; [|apply boxed_diag].
      apply boxed_spmm with nv; [apply boxed_diag|]. apply (A_boxed (extra_rel R) (extra_in_range true IR)).
    - intros X keep. rewrite (good_answer (good_query (QGcn X keep)) C). cbn [p_query]. unfold p_gcn, p_Lgcn.
      rewrite (p_D12_deg RT (extra_rel R) NV POS (extra_in_range true IR)).
      rewrite (p_A_eq (extra_rel R) NV POS (extra_in_range true IR)). cbn. rewrite NV. reflexivity.
    - intros i j I J.
      rewrite (mget_coalesce RT), (mget_diag_r RT), (mget_diag_l RT) by auto.
      rewrite (mget_A RT (extra_rel R)), adj_hat, !deg_hat by auto. reflexivity.
  Qed.

  (** message passing *)
  Lemma spmv_A X i : 0 <= i < nv ->
    spmv (coalesce (eb_coo (st_raw s) nv)) X i = sumf (range nv) (fun j => nmul (a_adj g i j) (X j)).
  Proof.
    intros I. rewrite (@spmv_dense T N RT (range nv)) by (apply range_nodup || (eapply boxed_cols, (A_boxed R IR))).
    apply sumf_ext. intros j. rewrite (mget_A RT R); auto.
  Qed.
  Lemma query_v2v_sum X : exists f,
    snd (g_query (QV2v X AggrSum None None) s) = Ok (OVals (map f (range nv))) /\
    forall i, 0 <= i < nv -> f i = sumf (range nv) (fun j => nmul (a_adj g i j) (X j)).
  Proof.
    rewrite (good_answer (good_query _) C). cbn [p_query]. unfold p_v2v; cbn [aggr_ok].
    rewrite (p_A_eq R NV POS IR). cbn [res_map res_bind]. rewrite NV.
    eexists; split; [reflexivity|]. intros; apply spmv_A; auto.
  Qed.
  Lemma query_v2v_mean X : exists f,
    snd (g_query (QV2v X AggrMean None None) s) = Ok (OVals (map f (range nv))) /\
    forall i, 0 <= i < nv -> f i = nmul (ninv (a_deg nv g i)) (sumf (range nv) (fun j => nmul (a_adj g i j) (X j))).
  Proof.
    rewrite (good_answer (good_query _) C). cbn [p_query]. unfold p_v2v; cbn [aggr_ok].
    rewrite (p_A_eq R NV POS IR). cbn [res_map res_bind]. rewrite (p_D1_deg RT R NV POS IR). cbn. rewrite NV.
    eexists; split; [reflexivity|]. intros i I. cbn. rewrite (spmv_diag RT) by auto. rewrite spmv_A; auto.
  Qed.

  (** custom weights *)
  Lemma with_vals_keys (m : coo T) w : length w = length m -> map fst (with_vals m w) = map fst m.
  Proof. intros E. unfold with_vals. apply combine_keys. rewrite map_length; auto. Qed.
  Lemma with_vals_coalesce (m : coo T) w : sorted_keys m -> length w = length m -> coalesce (with_vals m w) = with_vals m w.
  Proof.
    intros S E. apply coalesce_id. unfold sorted_keys. rewrite with_vals_keys by auto. exact S.
  Qed.
  Definition agg_vals (dst src : list Z) (w : list T) (X : Z -> T) (i : Z) : T :=
    sumf (combine (combine dst src) w) (fun x => if fst (fst x) =? i then nmul (snd x) (X (snd (fst x))) else nz).

  Lemma query_v2v_weighted (w : list T) src dst :
    snd (g_query QEsrc s) = Ok (OIdx src) -> snd (g_query QEdst s) = Ok (OIdx dst) -> length w = length src ->
    forall X, exists P,
      P = combine (combine dst src) w /\
      snd (g_query (QV2v X AggrSum (Some w) None) s) = Ok (OVals (map (spmv P X) (range nv))) /\
      snd (g_query (QV2v X AggrMean (Some w) None) s) = Ok (OVals (map (mean_weighted P X) (range nv))) /\
      snd (g_query (QV2v X AggrSoftmax (Some w) None) s) = Ok (OVals (map (spmv (csoftmax P) X) (range nv))).
  Proof.
    rewrite (good_answer (good_query QEsrc) C), (good_answer (good_query QEdst) C). cbn [p_query].
    rewrite (p_A_eq R NV POS IR). cbn [res_map]. set (A := coalesce (eb_coo (st_raw s) nv)).
    intros E1 E2 L X. injection E1 as <-. injection E2 as <-.
    assert (LA : length w = length A) by (rewrite L; unfold cols; apply map_length).
    assert (K := keys_rows_cols A).
    exists (with_vals A w). split; [unfold with_vals; rewrite K; reflexivity|].
    rewrite !(good_answer (good_query _) C). cbn [p_query]. unfold p_v2v; cbn [aggr_ok].
    rewrite (p_A_eq R NV POS IR). fold A. cbn [res_bind]. rewrite LA, Nat.eqb_refl.
    cbn [cdrop_opt]. rewrite with_vals_coalesce by (apply coalesce_sorted || exact LA). rewrite NV. auto.
  Qed.
End Ring.
