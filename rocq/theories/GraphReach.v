(** Facts about reachable Graphs, in the form used by the property theorems. *)
From Coq Require Import Ring Permutation Sorted Reals Lra.
From Verif Require Import Num PyDict PyDictFacts Coo CooFacts MatFacts RealFacts ModelBase CacheFacts ModelGraph GraphFacts
  SpecGraph SpecGraphOps StoreFacts GraphStore GraphMatrix GraphLaplace RebuildFacts.
Set Implicit Arguments.
Local Open Scope Z_scope.

Section Rebuild.
  Context {T : Type} `{Num T}.

  (** endpoints of stored edges are below the vertex count, whatever the history *)
  Definition below_range (nv : Z) (g : agraph T) : Prop := forall a b, aw g a b <> None -> a < nv /\ b < nv.
  Lemma below_add nv same m ps g :
    (forall a b x y, same a b x y = true -> (x = a \/ x = b) /\ (y = a \/ y = b)) ->
    Forall (fun p => fst (fst p) < nv /\ snd (fst p) < nv) ps ->
    (forall a b, g a b <> None -> a < nv /\ b < nv) ->
    forall a b, fold_left (fun (g : wmap T) x => a_add same m x g) ps g a b <> None -> a < nv /\ b < nv.
  Proof.
    intros S. revert g; induction ps as [|[[c d] w] ps IH]; intros g F G a b; cbn [fold_left]; auto.
    inversion F as [|? ? [F1 F2] F']; subst. cbn in *.
    apply IH; auto. intros a' b'. unfold a_add; cbn.
    destruct (same c d a' b') eqn:E; auto. intros _. apply S in E. lia.
  Qed.
  Lemma below_del nv same l (g : wmap T) :
    (forall a b, g a b <> None -> a < nv /\ b < nv) ->
    forall a b, fold_left (fun g x => a_del same x g) l g a b <> None -> a < nv /\ b < nv.
  Proof.
    revert g; induction l as [|x l IH]; intros g G a b; cbn [fold_left]; auto.
    apply IH. intros a' b'. unfold a_del. destruct (same (fst x) (snd x) a' b'); [congruence|auto].
  Qed.
  Lemma below_add_edges nv same e w m g :
    (forall a b x y, same a b x y = true -> (x = a \/ x = b) /\ (y = a \/ y = b)) ->
    below_range nv g -> below_range nv (a_add_edges same nv e w m g).
  Proof.
    intros S G. unfold a_add_edges. destruct (pairs_of e w) as [ps|] eqn:P; auto.
    destruct (endpoints_ok nv (edges_of e)) eqn:B; cbn; auto.
    destruct (known m || match ps with [] => true | _ => false end); auto.
    intros a b; cbn. apply below_add; auto.
    apply Forall_forall. intros p I. pose proof (pairs_edges _ _ P p I) as I'.
    unfold endpoints_ok in B. rewrite forallb_forall in B. specialize (B _ I').
    apply andb_true_iff in B as [B1 B2]. apply Z.ltb_lt in B1, B2. lia.
  Qed.
  Lemma below_step nv g o : below_range nv g -> below_range nv (g_spec_step nv g o).
  Proof.
    intros G. destruct o; cbn in *; auto.
    - apply below_add_edges; auto. apply same_und_ends.
    - unfold a_remove_edges. destruct (endpoints_ok nv (edges_of e)); auto.
      intros a b; cbn. apply below_del; auto.
    - intros a b; cbn. destruct (a =? b); [congruence|]. apply G.
    - intros a b; cbn. unfold empty_map; congruence.
  Qed.
  Lemma spec_below nv e w ex m ops : below_range nv (g_spec nv e w ex m ops).
  Proof.
    unfold g_spec.
    assert (G : below_range nv (g_spec_new nv e w ex m)).
    { destruct e as [ea|]; cbn.
      - apply below_add_edges; [apply same_und_ends|]. intros a b; cbn; unfold empty_map; congruence.
      - intros a b; cbn; unfold empty_map; congruence. }
    revert G. generalize (g_spec_new nv e w ex m). induction ops as [|o ops IH]; intros g G; cbn; auto.
    apply IH. apply below_step; auto.
  Qed.

  (** adding a duplicate-free list of new normalised edges stores it as it is *)
  Lemma dset_new {K V} `{EqB K} (k : K) (v : V) d : dget k d = None -> dset k v d = d ++ [(k, v)].
  Proof.
    induction d as [|[k' v'] d IH]; cbn; auto. destruct (eqb k k'); [discriminate|]. intros E. rewrite IH; auto.
  Qed.
  Lemma dmerge_new {K} `{EqB K} f (k : K) (v : T) d : dget k d = None -> dmerge f k v d = d ++ [(k, v)].
  Proof. intros E. unfold dmerge. rewrite E. apply dset_new; auto. Qed.
End Rebuild.

Section Fresh.
  Context {T : Type} `{Num T}.

  (** a reachable graph answers like a graph built from the edges it reports *)
  Lemma reach_fresh nv e w ex m ops (s : graph T) : g_reach nv e w ex m ops s ->
    exists es ws,
      snd (g_query QE (fst (g_step RemoveExtra s))) = Ok (OE es ws) /\
      forall m', m' <> MOther -> exists s',
        g_new nv (Some (EMany es)) (WList ws) (ax (g_spec nv e w ex m ops)) m' = Ok s' /\
        forall q, snd (g_query q s) = snd (g_query q s').
  Proof.
    intros R. pose proof (reach_rel R) as (RR & C & NV & POS). destruct RR as (W & L & X).
    exists (fst (plain_edges (st_raw s))), (snd (plain_edges (st_raw s))). split; [reflexivity|].
    intros m' K. exists (mkSt (st_raw s) []). split.
    - unfold g_new. replace (0 <? nv) with true by (symmetry; apply Z.ltb_lt; auto).
      unfold g_add_edges. rewrite <- NV at 1. rewrite <- X.
      rewrite (rebuild_add und_diag (m := m') W K); auto.
      intros k I. apply in_map_iff in I as ([[a b] x] & <- & I).
      apply (core_In und_diag) in I as [_ I]; auto. rewrite L in I.
      unfold below; cbn. rewrite NV.
      destruct (@spec_below T _ nv e w ex m ops a b) as [B1 B2]; [congruence|].
      apply Z.ltb_lt in B1, B2. rewrite B1, B2; reflexivity.
    - intros q. rewrite (good_answer (good_query q) C).
      assert (C0 : coh gspec (mkSt (st_raw s) [])) by apply coh_empty.
      rewrite (good_answer (good_query q) C0). reflexivity.
  Qed.
End Fresh.

Section RingForms.
  Context {T : Type} `{N : Num T}.
  Context (RT : ring_theory (@nz T N) n1 nadd nmul nsub nopp eq).
  Add Ring TRing5 : RT.

  Variables (s : graph T) (g : agraph T) (nv : Z).
  Hypothesis R : grel (st_raw s) g.
  Hypothesis C : coh gspec s.
  Hypothesis NV : r_nv (st_raw s) = nv.
  Hypothesis POS : 0 < nv.
  Hypothesis IR : in_range nv g.

  Lemma sum_ind i (f : Z -> T) : 0 <= i < nv -> sumf (range nv) (fun j => if i =? j then f j else nz) = f i.
  Proof.
    intros I. exact (@sumf_single T N RT Z _ (range nv) i f (range_nodup nv) (proj2 (range_In nv i) I)).
  Qed.

  Lemma laplace_rows m : snd (g_query QL s) = Ok (OM m) ->
    forall i, 0 <= i < nv -> sumf (range nv) (fun j => mget m i j) = nz.
  Proof.
    intros E i I. destruct (query_L RT R C NV POS IR) as (m' & E' & D). rewrite E' in E; injection E as ->.
    rewrite (sumf_ext_in (range nv) _ (fun j => nadd (if i =? j then off_deg g nv i else nz) (nopp (a_off g i j)))).
    - rewrite (sumf_add RT), (sumf_opp RT), (sum_ind (fun _ => off_deg g nv i)) by auto. change (sumf (range nv) (a_off g i)) with (off_deg g nv i). ring.
    - intros j J. apply range_In in J. rewrite D by auto. ring.
  Qed.

  Lemma laplace_energy m es ws : snd (g_query QL s) = Ok (OM m) -> snd (g_query QE s) = Ok (OE es ws) ->
    forall x, sumf (range nv) (fun i => sumf (range nv) (fun j => nmul (nmul (x i) (mget m i j)) (x j))) =
      sumf (combine es ws) (fun kv => nmul (snd kv)
        (nmul (nsub (x (fst (fst kv))) (x (snd (fst kv)))) (nsub (x (fst (fst kv))) (x (snd (fst kv)))))).
  Proof.
    intros E E2 x. destruct (query_L RT R C NV POS IR) as (m' & E' & D). rewrite E' in E; injection E as ->.
    rewrite (good_answer (good_query QE) C) in E2. cbn [p_query] in E2. injection E2 as <- <-.
    transitivity (sumf (range nv) (fun i => sumf (range nv) (fun j =>
      nmul (a_adj g i j) (nsub (nmul (x i) (x i)) (nmul (x i) (x j)))))).
    - apply sumf_ext_in. intros i I. apply range_In in I.
      rewrite (sumf_ext_in (range nv) (fun j => nmul (nmul (x i) (mget m i j)) (x j))
        (fun j => nadd (if i =? j then nmul (nmul (x i) (off_deg g nv i)) (x j) else nz) (nopp (nmul (nmul (x i) (a_off g i j)) (x j))))).
      2: { intros j J. apply range_In in J. rewrite D by auto. destruct (i =? j); ring. }
      rewrite (sumf_add RT), (sum_ind (fun j => nmul (nmul (x i) (off_deg g nv i)) (x j))) by auto.
      transitivity (nadd (sumf (range nv) (fun j => nmul (a_off g i j) (nmul (x i) (x i))))
                         (sumf (range nv) (fun j => nopp (nmul (nmul (x i) (a_off g i j)) (x j))))).
      { f_equal. transitivity (nmul (off_deg g nv i) (nmul (x i) (x i))); [ring|]. symmetry. apply (sumf_mul_r RT). }
      rewrite <- (sumf_add RT). apply sumf_ext. intros j.
      unfold a_adj, a_off. destruct (Z.eqb_spec i j) as [->|]; cbn; ring.
    - rewrite (adj_double_sum RT R NV IR). apply sumf_ext. intros [[a b] v]; cbn.
      destruct (Z.eqb_spec a b) as [->|]; ring.
  Qed.

  Lemma adj_sym i j : a_adj g i j = a_adj g j i.
  Proof. unfold a_adj. rewrite (grel_sym i j R), (Z.eqb_sym j i). reflexivity. Qed.
  Lemma off_sym i j : a_off g i j = a_off g j i.
  Proof. unfold a_off. rewrite (grel_sym i j R), (Z.eqb_sym j i). reflexivity. Qed.
  Lemma hat_sym i j : a_hat g i j = a_hat g j i.
  Proof. unfold a_hat. rewrite (grel_sym i j R), (Z.eqb_sym j i). reflexivity. Qed.
  Lemma Lsym_sym m : snd (g_query QLsym s) = Ok (OM m) ->
    forall i j, 0 <= i < nv -> 0 <= j < nv -> mget m i j = mget m j i.
  Proof.
    intros E i j I J. destruct (query_Lsym RT R C NV POS IR) as (m' & E' & D). rewrite E' in E; injection E as ->.
    rewrite !D by auto. rewrite (off_sym i j), (Z.eqb_sym j i). ring.
  Qed.
  Lemma Lgcn_sym m : snd (g_query QLgcn s) = Ok (OM m) ->
    forall i j, 0 <= i < nv -> 0 <= j < nv -> mget m i j = mget m j i.
  Proof.
    intros E i j I J. destruct (query_Lgcn RT R C NV POS IR) as (m' & E' & _ & _ & D). rewrite E' in E; injection E as ->.
    rewrite !D by auto. rewrite (hat_sym i j). ring.
  Qed.
End RingForms.

Section RealForms.
  Local Open Scope R_scope.
  Variables (s : graph R) (g : agraph R) (nv : Z).
  Hypothesis RR : grel (st_raw s) g.
  Hypothesis C : coh gspec s.
  Hypothesis NV : r_nv (st_raw s) = nv.
  Hypothesis POS : (0 < nv)%Z.
  Hypothesis IR : in_range nv g.

  (** bounds on reported weights carry over to the abstract map *)
  Lemma reported_weight es ws a b w : snd (g_query QE s) = Ok (OE es ws) -> aw g a b = Some w -> In w ws.
  Proof.
    intros E A. destruct (reported_edges RR C NV POS) as (es' & ws' & pr & E' & _ & LE & CE & _ & P).
    rewrite E' in E; injection E as -> ->. apply P in A.
    assert (I : exists k, In (k, w) (combine es ws)).
    { rewrite CE. destruct A as [A|A]; eexists; apply in_or_app; left; exact A. }
    destruct I as [k I]. apply in_combine_r in I; auto.
  Qed.

  Variables (es : list (Z * Z)) (ws : list R).
  Hypothesis QEe : snd (g_query QE s) = Ok (OE es ws).
  Hypothesis NN : Forall (fun w => 0 <= w) ws.

  Lemma wt_nonneg i j : 0 <= wt (aw g i j).
  Proof.
    destruct (aw g i j) as [w|] eqn:E; cbn; [|lra]. rewrite Forall_forall in NN.
    apply NN. eapply reported_weight; eauto.
  Qed.
  Lemma adj_nonneg i j : 0 <= a_adj g i j.
  Proof.
    unfold a_adj. pose proof (wt_nonneg i j). cbn. destruct ((i =? j)%Z && ax g); cbn; lra.
  Qed.
  Lemma off_nonneg i j : 0 <= a_off g i j.
  Proof. unfold a_off. pose proof (wt_nonneg i j). destruct (i =? j)%Z; cbn; lra. Qed.
  Lemma hat_nonneg i j : 0 <= a_hat g i j.
  Proof. unfold a_hat. pose proof (wt_nonneg i j). cbn. destruct (i =? j)%Z; cbn; lra. Qed.

  Lemma laplace_psd m : snd (g_query QL s) = Ok (OM m) ->
    forall x, 0 <= sumf (range nv) (fun i => sumf (range nv) (fun j => x i * mget m i j * x j)).
  Proof.
    intros E x.
    pose proof (laplace_energy RT RR C NV POS IR E QEe x) as H. cbn in H. rewrite H. clear H.
    apply Rsum_nonneg. intros [[a b] w] I. apply in_combine_r in I. cbn.
    rewrite Forall_forall in NN. apply NN in I. apply Rmult_le_pos; auto. apply Rle_0_sqr.
  Qed.

  Lemma Lrw_const m : snd (g_query QLrw s) = Ok (OM m) ->
    forall i, (0 <= i < nv)%Z -> (exists j w, j <> i /\ aw g i j = Some w /\ 0 < w) ->
    sumf (range nv) (fun j => mget m i j) = 0.
  Proof.
    intros E i I (j0 & w & D0 & A0 & P0).
    destruct (query_Lrw RT RR C NV POS IR) as (m' & E' & D). rewrite E' in E; injection E as ->.
    assert (DP : 0 < off_deg g nv i).
    { unfold off_deg. apply Rsum_pos with j0; [intros; apply off_nonneg| |].
      - apply range_In. apply (IR i j0). congruence.
      - unfold a_off. replace (i =? j0)%Z with false by (symmetry; apply Z.eqb_neq; auto). rewrite A0; auto. }
    rewrite (sumf_ext_in (range nv) _ (fun j => nadd (if (i =? j)%Z then 1 else nz) (nopp (nmul (Rinv0 (off_deg g nv i)) (a_off g i j))))).
    - rewrite (sumf_add RT), (sumf_opp RT), (sumf_mul_l RT), (sum_ind RT (fun _ => 1)) by auto.
      change (sumf (range nv) (a_off g i)) with (off_deg g nv i). cbn. rewrite Rinv0_mul by lra. lra.
    - intros j J. apply range_In in J. rewrite D by auto. cbn. destruct (i =? j)%Z; cbn; lra.
  Qed.
  Lemma Lgcn_bound m : snd (g_query QLgcn s) = Ok (OM m) ->
    forall x, Rabs (sumf (range nv) (fun i => sumf (range nv) (fun j => x i * mget m i j * x j)))
      <= sumf (range nv) (fun i => x i * x i).
  Proof.
    intros E x. destruct (query_Lgcn RT RR C NV POS IR) as (m' & E' & _ & _ & D). rewrite E' in E; injection E as ->.
    pose proof (normalised_form_bound (range nv) (fun i j => a_hat g i j) x) as B. cbv zeta in B.
    rewrite (sumf_ext_in (range nv) (fun i => sumf (range nv) (fun j => x i * mget m i j * x j))
      (fun i => sumf (range nv) (fun j =>
        x i * (Risq (sumf (range nv) (fun j0 => a_hat g i j0)) * a_hat g i j * Risq (sumf (range nv) (fun j0 => a_hat g j j0))) * x j))).
    - apply B; intros; [apply hat_nonneg|apply (hat_sym s RR)].
    - intros i I. apply range_In in I. apply sumf_ext_in. intros j J. apply range_In in J. rewrite D by auto. reflexivity.
  Qed.

  Lemma mean_between X f lo hi : Forall (fun w => 0 < w) ws ->
    snd (g_query (QV2v X AggrMean None None) s) = Ok (OVals (map f (range nv))) ->
    forall i, (0 <= i < nv)%Z ->
    ((exists j, a_edge g i j) -> (forall j, a_edge g i j -> lo <= X j <= hi) -> lo <= f i <= hi) /\
    ((forall j, ~ a_edge g i j) -> f i = 0).
  Proof.
    intros PW E i I. destruct (query_v2v_mean RT RR C NV POS IR X) as (f' & E' & D).
    rewrite E' in E. injection E as E.
    assert (EF : f i = f' i).
    { assert (Ii : In i (range nv)) by (apply range_In; auto). revert E Ii. generalize (range nv).
      induction l as [|a l IH]; cbn; intros E Ii; [tauto|]. injection E as E1 E2. destruct Ii as [->|Ii]; auto. }
    rewrite EF, D by auto. clear EF E E' D f f'. cbn [nmul ninv Num_R].
    assert (AP : forall j, a_edge g i j -> 0 < a_adj g i j).
    { intros j [Ej|[<- Ej]].
      - unfold a_adj. destruct (aw g i j) as [w|] eqn:A; [|congruence]. cbn.
        assert (0 < w) by (rewrite Forall_forall in PW; apply PW; eapply reported_weight; eauto).
        destruct ((i =? j)%Z && ax g); lra.
      - unfold a_adj. pose proof (wt_nonneg i i). rewrite Z.eqb_refl, Ej. cbn. lra. }
    assert (AZ : forall j, ~ a_edge g i j -> a_adj g i j = 0).
    { intros j Ej. unfold a_adj, a_edge in *. destruct (aw g i j) as [w|]; [exfalso; apply Ej; left; congruence|].
      cbn. destruct ((i =? j)%Z && ax g) eqn:B; cbn; [|lra].
      apply andb_true_iff in B as [B1 B2]. apply Z.eqb_eq in B1. exfalso; auto. }
    split.
    - intros [j0 E0] B.
      assert (J0 : (0 <= j0 < nv)%Z) by (destruct E0 as [E0|[<- _]]; auto; apply (IR i j0 E0)).
      assert (DP : 0 < a_deg nv g i).
      { unfold a_deg. apply Rsum_pos with j0; [intros; apply adj_nonneg|apply range_In; auto|apply AP; auto]. }
      assert (EB : forall j, In j (range nv) -> lo * a_adj g i j <= a_adj g i j * X j <= a_adj g i j * hi).
      { intros j _. assert (DE : a_edge g i j \/ ~ a_edge g i j).
        { unfold a_edge. destruct (aw g i j); [left; left; congruence|].
          destruct (Z.eq_dec i j), (ax g); try (right; intros [?|[? ?]]; congruence). left; auto. }
        destruct DE as [DE|DE].
        - specialize (B j DE). specialize (AP j DE). split; [rewrite Rmult_comm|]; apply Rmult_le_compat_l; lra.
        - rewrite (AZ j DE). lra. }
      set (S := sumf (range nv) (fun j => a_adj g i j * X j)).
      assert (lo * a_deg nv g i <= S).
      { unfold a_deg, S. rewrite <- (sumf_mul_l RT). apply Rsum_le. intros j J. apply EB; auto. }
      assert (S <= a_deg nv g i * hi).
      { unfold a_deg, S. rewrite <- (sumf_mul_r RT). apply Rsum_le. intros j J. apply EB; auto. }
      rewrite Rinv0_ne by lra. change (sumf (range nv) (fun j => a_adj g i j * X j)) with S.
      assert (0 < / a_deg nv g i) by (apply Rinv_0_lt_compat; auto).
      split.
      + apply Rmult_le_reg_l with (a_deg nv g i); auto. rewrite <- Rmult_assoc, Rinv_r by lra. lra.
      + apply Rmult_le_reg_l with (a_deg nv g i); auto. rewrite <- Rmult_assoc, Rinv_r by lra. lra.
    - intros NE. replace (a_deg nv g i) with 0.
      + rewrite Rinv0_0. ring.
      + unfold a_deg. symmetry. transitivity (sumf (range nv) (fun _ : Z => @nz R _)).
        * apply sumf_ext. intros j; apply AZ; auto.
        * apply (sumf_zero RT).
  Qed.
End RealForms.

(** softmax coefficients *)
Section Softmax.
  Local Open Scope R_scope.
  Definition softmax_coeffs (P : coo R) : list R := map snd (csoftmax P).
  Lemma softmax_keys (P : coo R) : map fst (csoftmax P) = map fst P.
  Proof. unfold csoftmax. rewrite map_map. reflexivity. Qed.
  Lemma combine_fst_snd {A B} (l : list (A * B)) : combine (map fst l) (map snd l) = l.
  Proof. induction l as [|[a b] l IH]; cbn; congruence. Qed.
  Lemma softmax_combine (P : coo R) : csoftmax P = combine (map fst P) (softmax_coeffs P).
  Proof. unfold softmax_coeffs. rewrite <- softmax_keys. symmetry. apply combine_fst_snd. Qed.
  Lemma softmax_den_pos (P : coo R) i : In i (map (fun kv => fst (fst kv)) P) ->
    0 < sumf P (fun kv' => if eqb i (fst (fst kv')) then nexp (snd kv') else nz).
  Proof.
    intros I. apply in_map_iff in I as (kv & E & I). apply Rsum_pos with kv; auto.
    - intros a _. destruct (eqb i (fst (fst a))); cbn; [left; apply exp_pos|lra].
    - rewrite E, eqb_refl. cbn. apply exp_pos.
  Qed.
  Lemma softmax_pos (P : coo R) : Forall (fun c => 0 < c) (softmax_coeffs P).
  Proof.
    unfold softmax_coeffs, csoftmax. rewrite map_map. apply Forall_forall. intros c I.
    apply in_map_iff in I as (kv & <- & I). cbn [snd nmul nexp ninv Num_R].
    assert (D := softmax_den_pos P (fst (fst kv)) (in_map (fun kv => fst (fst kv)) _ _ I)).
    rewrite Rinv0_ne by (apply Rgt_not_eq; exact D). apply Rmult_lt_0_compat; [apply exp_pos|apply Rinv_0_lt_compat; exact D].
  Qed.
  Lemma softmax_sum (P : coo R) i : In i (map (fun kv => fst (fst kv)) P) ->
    sumf (csoftmax P) (fun kv => if eqb i (fst (fst kv)) then snd kv else nz) = 1.
  Proof.
    intros I. pose proof (softmax_den_pos P i I) as D. unfold csoftmax. rewrite sumf_map. cbn [fst snd].
    set (Z0 := sumf P (fun kv' => if eqb i (fst (fst kv')) then nexp (snd kv') else nz)) in *.
    rewrite (sumf_ext _ _ (fun kv => nmul (Rinv0 Z0) (if eqb i (fst (fst kv)) then nexp (snd kv) else nz))).
    - rewrite (sumf_mul_l RT). fold Z0. cbn. apply Rinv0_mul. lra.
    - intros kv. destruct (eqb_spec i (fst (fst kv))) as [E|]; [|cbn; lra]. rewrite <- E. fold Z0. cbn. lra.
  Qed.
  Lemma spmv_agg (dst src : list Z) (c : list R) X i :
    spmv (combine (combine dst src) c) X i = agg_vals dst src c X i.
  Proof. unfold spmv, agg_vals. apply sumf_ext. intros x. rewrite Zeqb_unf, Z.eqb_sym. reflexivity. Qed.

  (** one row of a softmax aggregation *)
  Lemma softmax_rows (dst src : list Z) (w : list R) : length dst = length src -> length w = length src ->
    exists c, length c = length src /\ Forall (fun x => 0 < x) c /\
      (forall i, In i dst -> agg_vals dst src c (fun _ => 1) i = 1) /\
      forall X i, spmv (csoftmax (combine (combine dst src) w)) X i = agg_vals dst src c X i.
  Proof.
    intros L1 L2. set (P := combine (combine dst src) w).
    assert (LC : length (combine dst src) = length w) by (rewrite combine_length; lia).
    assert (K : map fst P = combine dst src) by (apply combine_keys; auto).
    exists (softmax_coeffs P). split; [|split; [|split]].
    - unfold softmax_coeffs, csoftmax. rewrite !map_length. unfold P. rewrite combine_length. lia.
    - apply softmax_pos.
    - intros i I. rewrite <- spmv_agg, <- K, <- softmax_combine.
      transitivity (sumf (csoftmax P) (fun kv => if eqb i (fst (fst kv)) then snd kv else nz)).
      + apply sumf_ext. intros kv. destruct (eqb i (fst (fst kv))); cbn; lra.
      + apply softmax_sum. rewrite <- (map_map fst fst), K.
        replace (map fst (combine dst src)) with dst; auto. clear -L1.
        revert src L1; induction dst as [|a d IH]; intros [|b src] L; cbn in *; try discriminate; auto. f_equal; auto.
    - intros X i. rewrite <- spmv_agg, <- K, <- softmax_combine. reflexivity.
  Qed.
End Softmax.
