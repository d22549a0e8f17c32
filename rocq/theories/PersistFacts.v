(** Copying, saving, dropping, rejecting and merging: facts for C09-C13, C74. *)
From Coq Require Import Permutation.
From Verif Require Import Num PyDict PyDictFacts Coo CooFacts ModelBase CacheFacts ModelGraph GraphFacts SpecGraph SpecGraphOps StoreFacts
  GraphStore GraphMatrix RebuildFacts GraphReach ModelDiGraph SpecDiGraph DiGraphFacts DiGraphReach ModelBiGraph SpecBiGraph BiGraphFacts
  ModelHeap.
Set Implicit Arguments.

(** * methods that look only at the raw part *)
Section Rdet.
  Context {T : Type} {R : Type}.
  Definition rdet {A} (m : M T R A) : Prop := forall s1 s2, st_raw s1 = st_raw s2 ->
    snd (m s1) = snd (m s2) /\ st_raw (fst (m s1)) = st_raw (fst (m s2)).
  Lemma rdet_bind {A B} (m : M T R A) (h : A -> M T R B) : rdet m -> (forall a, rdet (h a)) -> rdet (bind m h).
  Proof.
    intros Q K s1 s2 E. unfold bind. destruct (Q s1 s2 E) as [E1 E2].
    destruct (m s1) as [t1 [a1|x1]], (m s2) as [t2 [a2|x2]]; cbn in *; try discriminate; auto.
    - injection E1 as ->. apply K; auto.
    - split; auto. congruence.
  Qed.
  Lemma rdet_ret {A} (a : A) : rdet (ret a). Proof. intros s1 s2 E; auto. Qed.
  Lemma rdet_lift {A} (a : res A) : rdet (lift a). Proof. intros s1 s2 E; auto. Qed.
  Lemma rdet_wipe : rdet (@wipe_cache T R). Proof. intros s1 s2 E; auto. Qed.
  Lemma rdet_for {A} (f : A -> M T R unit) l : (forall a, rdet (f a)) -> rdet (for_each f l).
  Proof. intros F. induction l; cbn; [apply rdet_ret|apply rdet_bind; auto]. Qed.
  Lemma rdet_good {N : Num T} {A} spec (m : M T R A) f : good spec m f -> forall s1 s2, coh spec s1 -> coh spec s2 -> st_raw s1 = st_raw s2 ->
    snd (m s1) = snd (m s2) /\ st_raw (fst (m s1)) = st_raw (fst (m s2)).
  Proof.
    intros G s1 s2 C1 C2 E. rewrite (good_answer G C1), (good_answer G C2), (good_raw G C1), (good_raw G C2), E. auto.
  Qed.
End Rdet.

Section Det.
  Context {T : Type} `{Num T}.
  Lemma rdet_unit {R} (m : M T R unit) : rdet m -> rdet (unit_out m).
  Proof. intros Q. apply rdet_bind; auto. intros; apply rdet_ret. Qed.
  Lemma rdet_add norm e w m : rdet (@add_edges T _ norm e w m).
  Proof.
    unfold add_edges. destruct (earg_empty e); [intros s1 s2 E; auto|].
    intros s1 s2 E. rewrite E. refine (@rdet_bind _ _ _ _ (lift _) _ (rdet_lift _) _ _ _ _); auto. intros ew.
    apply rdet_bind; [|intros; apply rdet_wipe]. apply rdet_for. intros x t1 t2 Et. unfold add_edge.
    destruct (merge_fun m); cbn; rewrite ?Et; auto.
  Qed.
  Lemma rdet_remove norm e : rdet (@remove_edges T _ norm e).
  Proof.
    unfold remove_edges. intros s1 s2 E. rewrite E. refine (@rdet_bind _ _ _ _ (lift _) _ (rdet_lift _) _ _ _ _); auto. intros ew.
    apply rdet_bind; [|intros; apply rdet_wipe]. apply rdet_for. intros x t1 t2 Et. unfold remove_edge; cbn. rewrite Et; auto.
  Qed.
  Lemma rdet_extra b : rdet (@set_extra T b). Proof. intros s1 s2 E. unfold set_extra; cbn. rewrite E; auto. Qed.
  Lemma rdet_noloop : rdet (@remove_selfloop T). Proof. intros s1 s2 E. unfold remove_selfloop; cbn. rewrite E; auto. Qed.
  Lemma rdet_clear : rdet (@clear T). Proof. intros s1 s2 E. unfold clear; cbn. rewrite E; auto. Qed.
  Lemma rdet_reverse : rdet (@d_reverse T). Proof. intros s1 s2 E. unfold d_reverse; cbn. rewrite E; auto. Qed.

  Lemma g_step_det o (s1 s2 : graph T) : coh gspec s1 -> coh gspec s2 -> st_raw s1 = st_raw s2 ->
    snd (g_step o s1) = snd (g_step o s2) /\ st_raw (fst (g_step o s1)) = st_raw (fst (g_step o s2)).
  Proof.
    intros C1 C2 E. destruct o; cbn [g_step].
    - apply rdet_unit; auto. apply rdet_add.
    - apply rdet_unit; auto. apply rdet_remove.
    - apply rdet_unit; auto. apply rdet_extra.
    - apply rdet_unit; auto. apply rdet_extra.
    - apply rdet_unit; auto. apply rdet_noloop.
    - apply rdet_unit; auto. apply rdet_clear.
    - apply (rdet_good (good_query q)); auto.
  Qed.
  Lemma g_run_det ops : forall s1 s2 : graph T, coh gspec s1 -> coh gspec s2 -> st_raw s1 = st_raw s2 ->
    snd (g_run ops s1) = snd (g_run ops s2).
  Proof.
    induction ops as [|o ops IH]; intros s1 s2 C1 C2 E; cbn [g_run]; auto.
    destruct (g_step_det o C1 C2 E) as [E1 E2]. pose proof (keeps_step o C1) as K1. pose proof (keeps_step o C2) as K2.
    destruct (g_step o s1) as [t1 x1], (g_step o s2) as [t2 x2]; cbn in *. subst x2.
    specialize (IH t1 t2 K1 K2 E2). destruct (g_run ops t1), (g_run ops t2); cbn in *. congruence.
  Qed.
  Lemma b_step_det o (s1 s2 : bigraph T) : coh bspec s1 -> coh bspec s2 -> st_raw s1 = st_raw s2 ->
    snd (b_step o s1) = snd (b_step o s2) /\ st_raw (fst (b_step o s1)) = st_raw (fst (b_step o s2)).
  Proof.
    intros C1 C2 E. destruct o; cbn [b_step].
    - apply rdet_unit; auto. unfold b_add_edges. destruct (earg_empty e); [intros t1 t2 Et; auto|].
      intros t1 t2 Et. rewrite Et. refine (@rdet_bind _ _ _ _ (lift _) _ (rdet_lift _) _ _ _ _); auto. intros ew.
      apply rdet_bind; [|intros; apply rdet_wipe]. apply rdet_for. intros x u1 u2 Eu. unfold badd_edge.
      destruct (merge_fun m); cbn; rewrite ?Eu; auto.
    - apply rdet_unit; auto. unfold b_remove_edges. intros t1 t2 Et. rewrite Et. refine (@rdet_bind _ _ _ _ (lift _) _ (rdet_lift _) _ _ _ _); auto. intros ew.
      apply rdet_bind; [|intros; apply rdet_wipe]. apply rdet_for. intros x u1 u2 Eu. unfold bremove_edge; cbn. rewrite Eu; auto.
    - apply rdet_unit; auto. intros t1 t2 Et. unfold b_clear; cbn. rewrite Et; auto.
    - apply (rdet_good (bgood_query q)); auto.
  Qed.
  Lemma b_run_det ops : forall s1 s2 : bigraph T, coh bspec s1 -> coh bspec s2 -> st_raw s1 = st_raw s2 ->
    snd (b_run ops s1) = snd (b_run ops s2).
  Proof.
    induction ops as [|o ops IH]; intros s1 s2 C1 C2 E; cbn [b_run]; auto.
    destruct (b_step_det o C1 C2 E) as [E1 E2]. pose proof (bkeeps_step o C1) as K1. pose proof (bkeeps_step o C2) as K2.
    destruct (b_step o s1) as [t1 x1], (b_step o s2) as [t2 x2]; cbn in *. subst x2.
    specialize (IH t1 t2 K1 K2 E2). destruct (b_run ops t1), (b_run ops t2); cbn in *. congruence.
  Qed.
  Lemma d_step_det o (s1 s2 : digraph T) : coh dspec s1 -> coh dspec s2 -> st_raw s1 = st_raw s2 ->
    snd (d_step o s1) = snd (d_step o s2) /\ st_raw (fst (d_step o s1)) = st_raw (fst (d_step o s2)).
  Proof.
    intros C1 C2 E. destruct o; cbn [d_step].
    - apply rdet_unit; auto. apply rdet_add.
    - apply rdet_unit; auto. apply rdet_remove.
    - apply rdet_unit; auto. apply rdet_extra.
    - apply rdet_unit; auto. apply rdet_extra.
    - apply rdet_unit; auto. apply rdet_noloop.
    - apply rdet_unit; auto. apply rdet_clear.
    - apply rdet_unit; auto. apply rdet_reverse.
    - apply (rdet_good (dgood_query q)); auto.
  Qed.
  Lemma clean_mono nv c c' (o : dop T) : (c = true -> c' = true) -> clean_step nv c o = true -> clean_step nv c' o = true.
  Proof. intros I. destruct o; cbn; auto; intros Q; apply orb_true_iff in Q; apply orb_true_iff; tauto. Qed.
  Lemma safe_mono nv ops : forall c c', (c = true -> c' = true) -> reverse_safe (T := T) nv c ops = true -> reverse_safe nv c' ops = true.
  Proof.
    induction ops as [|o ops IH]; intros c c' I; cbn; auto. intros Q. apply andb_true_iff in Q as [Q1 Q2]. apply andb_true_iff. split.
    - destruct o; auto.
    - eapply IH; [|exact Q2]. apply clean_mono; auto.
  Qed.
  Lemma d_run_det ops nv : forall c1 c2 (s1 s2 : digraph T) g, drel (st_raw s1) g -> r_nv (st_raw s1) = nv -> cstate c1 s1 -> cstate c2 s2 ->
    st_raw s1 = st_raw s2 -> reverse_safe nv c1 ops = true -> reverse_safe nv c2 ops = true ->
    snd (d_run ops s1) = snd (d_run ops s2).
  Proof.
    induction ops as [|o ops IH]; intros c1 c2 s1 s2 g R NV C1 C2 E S1 S2; cbn [d_run]; auto.
    cbn in S1, S2. apply andb_true_iff in S1 as [S1 S1'], S2 as [S2 S2'].
    destruct (d_step_det o (proj1 C1) (proj1 C2) E) as [E1 E2].
    assert (K1 : cstate (clean_step nv c1 o) (fst (d_step o s1))) by (apply clean_step_state; auto; intros ->; auto).
    assert (K2 : cstate (clean_step nv c2 o) (fst (d_step o s2))) by (apply clean_step_state; auto; [congruence|intros ->; auto]).
    pose proof (dstep_rel o s1 R) as [R1 N1]. rewrite NV in N1.
    destruct (d_step o s1) as [t1 x1], (d_step o s2) as [t2 x2]; cbn [fst snd] in *. subst x2.
    specialize (IH _ _ t1 t2 _ R1 N1 K1 K2 E2 S1' S2'). destruct (d_run ops t1), (d_run ops t2); cbn in *. congruence.
  Qed.
End Det.

(** * dropping *)
Section Drop.
  Context {T : Type} `{Num T}.
  (** the elements of [l] whose position is kept *)
  Definition survivors {A} (keep : nat -> bool) (l : list A) : list A :=
    map snd (filter (fun p => keep (fst p)) (combine (seq 0 (length l)) l)).
  Lemma keep_from_filter {A} keep (l : list A) : forall k,
    keep_from k keep l = map snd (filter (fun p => keep (fst p)) (combine (seq k (length l)) l)).
  Proof.
    induction l as [|a l IH]; intros k; cbn; auto. destruct (keep k); cbn; rewrite IH; auto.
  Qed.
  Lemma keep_from_app {A} keep (l r : list A) k : keep_from k keep (l ++ r) = keep_from k keep l ++ keep_from (k + length l)%nat keep r.
  Proof.
    revert k; induction l as [|a l IH]; intros k; cbn.
    - f_equal; lia.
    - rewrite IH. replace (S k + length l)%nat with (k + S (length l))%nat by lia. destruct (keep k); reflexivity.
  Qed.
  Lemma keep_from_map {A B} (f : A -> B) keep (l : list A) : forall k, keep_from k keep (map f l) = map f (keep_from k keep l).
  Proof. induction l as [|a l IH]; intros k; cbn; auto. destruct (keep k); cbn; rewrite IH; auto. Qed.
  Lemma keep_from_In {A} keep (l : list A) x : forall k, In x (keep_from k keep l) -> In x l.
  Proof. induction l as [|a l IH]; intros k; cbn; auto. destruct (keep k); cbn; intros I; intuition eauto. Qed.
  Lemma keep_from_nodup {A B} (f : A -> B) keep (l : list A) : forall k, NoDup (map f l) -> NoDup (map f (keep_from k keep l)).
  Proof.
    induction l as [|a l IH]; intros k ND; cbn; auto. inversion ND as [|? ? NI ND']; subst. destruct (keep k); cbn; auto.
    constructor; auto. intros I. apply NI. apply in_map_iff in I as (x & <- & I). apply in_map. eapply keep_from_In; eauto.
  Qed.
  Lemma drop_wf norm keep (r : raw T) : wf norm r -> wf norm (raw_drop keep r).
  Proof.
    intros [A B D]. unfold raw_drop. constructor; cbn.
    - apply keep_from_nodup, A.
    - apply keep_from_nodup, B.
    - intros k I. apply in_map_iff in I as (x & <- & I). apply D. apply in_map. eapply keep_from_In; eauto.
  Qed.
  Lemma drop_core keep (r : raw T) : core (raw_drop keep r) = survivors keep (core r).
  Proof.
    unfold survivors. rewrite <- keep_from_filter. unfold core, raw_drop; cbn. rewrite keep_from_app, keep_from_map. reflexivity.
  Qed.
  Lemma surv_all {A} keep (l : list A) : (forall i, keep i = true) -> survivors keep l = l.
  Proof.
    intros K. unfold survivors. rewrite <- keep_from_filter. generalize 0%nat. induction l as [|a l IH]; intros k; cbn; auto. rewrite K, IH; auto.
  Qed.
  Lemma surv_none {A} keep (l : list A) : (forall i, keep i = false) -> survivors keep l = [].
  Proof.
    intros K. unfold survivors. rewrite <- keep_from_filter. generalize 0%nat. induction l as [|a l IH]; intros k; cbn; auto. rewrite K, IH; auto.
  Qed.
  (** building from the stored list *)
  Lemma plain_split (r : raw T) : fst (plain_edges r) = map fst (core r) /\ snd (plain_edges r) = map snd (core r).
  Proof.
    split; [apply plain_keys|]. rewrite <- plain_combine. destruct (raw_edges_length (mkRaw (r_nv r) (r_e r) (r_loop r) false)) as [E _].
    unfold plain_edges. revert E. generalize (fst (raw_edges (mkRaw (r_nv r) (r_e r) (r_loop r) false))) as a.
    generalize (snd (raw_edges (mkRaw (r_nv r) (r_e r) (r_loop r) false))) as b.
    intros b a; revert b; induction a as [|x a IH]; intros [|y b]; cbn; intros E; try discriminate; auto. f_equal. apply IH; lia.
  Qed.
  Lemma und_rebuild (r : raw T) m : wf norm_und r -> 0 < r_nv r -> m <> MOther ->
    (forall k, In k (map fst (core r)) -> below (r_nv r) k = true) ->
    g_new (r_nv r) (Some (EMany (map fst (core r)))) (WList (map snd (core r))) (r_extra r) m = Ok (mkSt r []).
  Proof.
    intros W P K B. unfold g_new. replace (0 <? r_nv r) with true by (symmetry; apply Z.ltb_lt; auto).
    destruct (plain_split r) as [<- <-]. unfold g_add_edges. rewrite (rebuild_add und_diag (m := m) W K); auto.
  Qed.
  Lemma dir_rebuild (r : raw T) m : wf norm_dir r -> 0 < r_nv r -> m <> MOther ->
    (forall k, In k (map fst (core r)) -> below (r_nv r) k = true) ->
    d_new (r_nv r) (Some (EMany (map fst (core r)))) (WList (map snd (core r))) (r_extra r) m = Ok (mkSt r []).
  Proof.
    intros W P K B. unfold d_new. replace (0 <? r_nv r) with true by (symmetry; apply Z.ltb_lt; auto).
    destruct (plain_split r) as [<- <-]. unfold d_add_edges. rewrite (rebuild_add dir_diag (m := m) W K); auto.
  Qed.
  Lemma surv_In {A} keep (l : list A) x : In x (survivors keep l) -> In x l.
  Proof. unfold survivors. rewrite <- keep_from_filter. apply keep_from_In. Qed.

  Lemma g_drop_main nv e w ex m ops (s : graph T) keep : g_reach nv e w ex m ops s ->
    exists proper s',
      snd (g_query QE (fst (g_step RemoveExtra s))) = Ok (OE (map fst proper) (map snd proper)) /\
      g_drop_edges keep true s = Ok s' /\
      g_reach nv (Some (EMany (map fst (survivors keep proper)))) (WList (map snd (survivors keep proper)))
        (ax (g_spec nv e w ex m ops)) MSum [] s' /\
      snd (g_query QE (fst (g_step RemoveExtra s'))) = Ok (OE (map fst (survivors keep proper)) (map snd (survivors keep proper))).
  Proof.
    intros RE. pose proof (reach_rel RE) as ((W & L & X) & C & NV & P).
    exists (core (st_raw s)), (mkSt (raw_drop keep (st_raw s)) []).
    assert (RP : forall t : graph T, snd (g_query QE (fst (g_step RemoveExtra t))) = Ok (OE (map fst (core (st_raw t))) (map snd (core (st_raw t))))).
    { intros t. destruct (plain_split (st_raw t)) as [<- <-]. reflexivity. }
    split; [apply RP|]. split; [|split].
    - unfold g_drop_edges, g_from_state_dict, raw_drop. cbn [r_nv]. rewrite NV. replace (0 <? nv) with true by (symmetry; apply Z.ltb_lt; auto). reflexivity.
    - exists (mkSt (raw_drop keep (st_raw s)) []). split; [|reflexivity].
      rewrite <- drop_core, <- X, <- NV.
      change (r_nv (st_raw s)) with (r_nv (raw_drop keep (st_raw s))).
      change (r_extra (st_raw s)) with (r_extra (raw_drop keep (st_raw s))).
      apply und_rebuild; [apply drop_wf; auto|cbn; lia|discriminate|].
      intros k I. rewrite drop_core in I. apply in_map_iff in I as ([[a b] x] & <- & I). apply surv_In in I.
      apply (core_In und_diag) in I as [_ I]; auto. rewrite L in I. unfold below; cbn. rewrite NV.
      destruct (@spec_below T _ nv e w ex m ops a b) as [B1 B2]; [congruence|].
      apply Z.ltb_lt in B1, B2. rewrite B1, B2; reflexivity.
    - rewrite RP. cbn [st_raw]. rewrite drop_core. reflexivity.
  Qed.
  Lemma d_drop_main nv e w ex m ops (s : digraph T) keep : d_reach nv e w ex m ops s ->
    exists proper s',
      snd (d_query dqE (fst (d_step dRemoveExtra s))) = Ok (OE (map fst proper) (map snd proper)) /\
      d_drop_edges keep true s = Ok s' /\
      d_reach nv (Some (EMany (map fst (survivors keep proper)))) (WList (map snd (survivors keep proper)))
        (ax (d_spec nv e w ex m ops)) MSum [] s' /\
      snd (d_query dqE (fst (d_step dRemoveExtra s'))) = Ok (OE (map fst (survivors keep proper)) (map snd (survivors keep proper))).
  Proof.
    intros RE. pose proof (dreach_raw RE) as ((W & L & X) & NV & P).
    exists (core (st_raw s)), (mkSt (raw_drop keep (st_raw s)) []).
    assert (RP : forall t : digraph T, snd (d_query dqE (fst (d_step dRemoveExtra t))) = Ok (OE (map fst (core (st_raw t))) (map snd (core (st_raw t))))).
    { intros t. destruct (plain_split (st_raw t)) as [<- <-]. reflexivity. }
    split; [apply RP|]. split; [|split].
    - unfold d_drop_edges, d_from_state_dict, raw_drop. cbn [r_nv]. rewrite NV. replace (0 <? nv) with true by (symmetry; apply Z.ltb_lt; auto). reflexivity.
    - exists (mkSt (raw_drop keep (st_raw s)) []). split; [|reflexivity].
      rewrite <- drop_core, <- X, <- NV.
      change (r_nv (st_raw s)) with (r_nv (raw_drop keep (st_raw s))).
      change (r_extra (st_raw s)) with (r_extra (raw_drop keep (st_raw s))).
      apply dir_rebuild; [apply drop_wf; auto|cbn; lia|discriminate|].
      intros k I. rewrite drop_core in I. apply in_map_iff in I as ([[a b] x] & <- & I). apply surv_In in I.
      apply (core_In dir_diag) in I as [_ I]; auto. rewrite L in I. unfold below; cbn. rewrite NV.
      destruct (@dspec_below T _ nv e w ex m ops a b) as [B1 B2]; [congruence|].
      apply Z.ltb_lt in B1, B2. rewrite B1, B2; reflexivity.
    - rewrite RP. cbn [st_raw]. rewrite drop_core. reflexivity.
  Qed.
  Lemma b_drop_main nu nv e w m ops (s : bigraph T) keep : b_reach nu nv e w m ops s ->
    exists stored s',
      snd (b_query bqE s) = Ok (OE (map fst stored) (map snd stored)) /\
      b_drop_edges keep true s = Ok s' /\
      b_reach nu nv (Some (EMany (map fst (survivors keep stored)))) (WList (map snd (survivors keep stored))) MSum [] s' /\
      snd (b_query bqE s') = Ok (OE (map fst (survivors keep stored)) (map snd (survivors keep stored))).
  Proof.
    intros RE. pose proof (breach_rel RE) as (C & R & U & V & P). pose proof (brel_ends R (bspec_below nu nv e w m ops)) as EO.
    exists (b_e (st_raw s)), (mkSt (mkBRaw nu nv (keep_from 0 keep (b_e (st_raw s)))) []).
    split; [rewrite (good_answer (bgood_query bqE) C); reflexivity|]. split; [|split].
    - unfold b_drop_edges, b_from_state_dict. cbn [b_nv]. rewrite U, V. replace (0 <? nv) with true by (symmetry; apply Z.ltb_lt; auto). reflexivity.
    - eexists; split; [|reflexivity]. unfold survivors. rewrite <- keep_from_filter. apply bnew_nodup; auto; try discriminate.
      + apply keep_from_nodup. apply R.
      + apply forallb_forall. intros k I. apply in_map_iff in I as (x & <- & I). apply keep_from_In in I.
        unfold ends_ok in EO. rewrite forallb_forall in EO. apply EO. apply in_map; auto.
    - unfold survivors. rewrite <- keep_from_filter. reflexivity.
  Qed.
End Drop.

(** * order of merging *)
Section Order.
  Context {T : Type} `{Num T}.
  Variable same : Z -> Z -> Z -> Z -> bool.
  Lemma a_add_ext m x (g h : wmap T) : (forall a b, g a b = h a b) -> forall a b, a_add same m x g a b = a_add same m x h a b.
  Proof. intros E a b. unfold a_add. rewrite E; reflexivity. Qed.
  Lemma fold_add_ext m ps : forall g h : wmap T, (forall a b, g a b = h a b) ->
    forall a b, fold_left (fun g x => a_add same m x g) ps g a b = fold_left (fun g x => a_add same m x g) ps h a b.
  Proof. induction ps as [|p ps IH]; intros g h E a b; cbn [fold_left]; auto. apply IH. apply a_add_ext; auto. Qed.
  Lemma fold_add_perm m : (forall x y z : T, merged m (merged m x y) z = merged m (merged m x z) y) ->
    (forall x y : T, merged m x y = merged m y x) ->
    forall ps qs, Permutation ps qs -> forall (g h : wmap T), (forall a b, g a b = h a b) -> forall a b,
      fold_left (fun g x => a_add same m x g) ps g a b = fold_left (fun g x => a_add same m x g) qs h a b.
  Proof.
    intros AC CM ps qs P. induction P; intros g h E a b; cbn [fold_left]; auto.
    - apply IHP. apply a_add_ext; auto.
    - apply fold_add_ext. intros c d. unfold a_add. rewrite E.
      destruct (same (fst (fst y)) (snd (fst y)) c d), (same (fst (fst x)) (snd (fst x)) c d); auto.
      destruct (h c d); f_equal; auto.
    - etransitivity; [apply (IHP1 g h E)|apply IHP2; auto].
  Qed.
  Lemma fold_add_concat m (bs : list (list ((Z * Z) * T))) (g : wmap T) :
    fold_left (fun g b => fold_left (fun g x => a_add same m x g) b g) bs g = fold_left (fun g x => a_add same m x g) (concat bs) g.
  Proof. revert g; induction bs as [|b bs IH]; intros g; cbn [fold_left concat]; auto. rewrite fold_left_app. apply IH. Qed.
  (** the merged weight of a pair *)
  Fixpoint merge_all (m : mop) (acc : option T) (l : list T) : option T :=
    match l with
    | [] => acc
    | w :: r => merge_all m (Some (match acc with Some o => merged m o w | None => w end)) r
    end.
  Lemma fold_add_value m ps : forall (g : wmap T) a b,
    fold_left (fun g x => a_add same m x g) ps g a b =
    merge_all m (g a b) (map snd (filter (fun x => same (fst (fst x)) (snd (fst x)) a b) ps)).
  Proof.
    induction ps as [|[[c d] w] ps IH]; intros g a b; cbn [fold_left filter fst snd]; auto. rewrite IH.
    unfold a_add at 1; cbn [fst snd]. destruct (same c d a b); cbn [map snd merge_all]; auto.
  Qed.
End Order.

(** * accepted and rejected calls *)
Section Reject.
  Context {T : Type} `{Num T}.
  Lemma unit_out_err {R} (g : M T R unit) s s' x : unit_out g s = (s', Err x) -> g s = (s', Err x).
  Proof. unfold unit_out, bind, ret. destruct (g s) as [t [[]|y]]; intros E; injection E; intros; subst; auto; discriminate. Qed.
  Lemma unit_out_snd {R} (g : M T R unit) s : snd (unit_out g s) = match snd (g s) with Ok _ => Ok OUnit | Err x => Err x end.
  Proof. unfold unit_out, bind, ret. destruct (g s) as [t [[]|y]]; reflexivity. Qed.
  Lemma not_ok_exists nv (l : list (Z * Z)) : endpoints_ok nv l = false <-> exists a b, In (a, b) l /\ (nv <= a \/ nv <= b).
  Proof.
    unfold endpoints_ok. induction l as [|[a b] l IH]; cbn; [split; [discriminate|intros (? & ? & [] & _)]|].
    destruct (Z.ltb_spec a nv), (Z.ltb_spec b nv); cbn.
    - rewrite IH. split; intros (c & d & I & Q); exists c, d; split; auto. destruct I as [I|I]; auto. injection I as -> ->. lia.
    - split; auto. intros _. exists a, b; split; auto.
    - split; auto. intros _. exists a, b; split; auto.
    - split; auto. intros _. exists a, b; split; auto.
  Qed.
  Lemma ends_not_ok nu nv (l : list (Z * Z)) : ends_ok nu nv l = false <-> exists a b, In (a, b) l /\ (nu <= a \/ nv <= b).
  Proof.
    unfold ends_ok. induction l as [|[a b] l IH]; cbn; [split; [discriminate|intros (? & ? & [] & _)]|].
    destruct (Z.ltb_spec a nu), (Z.ltb_spec b nv); cbn.
    - rewrite IH. split; intros (c & d & I & Q); exists c, d; split; auto. destruct I as [I|I]; auto. injection I as -> ->. lia.
    - split; auto. intros _. exists a, b; split; auto.
    - split; auto. intros _. exists a, b; split; auto.
    - split; auto. intros _. exists a, b; split; auto.
  Qed.
  Lemma nonempty_of (e : earg) a b : In (a, b) (edges_of e) -> earg_empty e = false.
  Proof. destruct e as [|[|]]; cbn; auto; tauto. Qed.
  Lemma format_bad ok e (w : warg T) : earg_empty e = false -> forallb ok (edges_of e) = false -> format_edges ok e w = Err AssertionError.
  Proof.
    destruct e as [a b|[|p l]]; cbn -[forallb]; try discriminate; intros _.
    - cbn. rewrite andb_true_r. intros ->; reflexivity.
    - intros ->; reflexivity.
  Qed.
  Lemma format_good ok e (w : warg T) ps : earg_empty e = false -> forallb ok (edges_of e) = true -> pairs_of e w = Some ps ->
    exists es ws, format_edges ok e w = Ok (es, ws) /\ combine es ws = ps.
  Proof.
    destruct e as [a b|[|p l]]; cbn -[forallb]; try discriminate; intros _.
    - cbn. rewrite andb_true_r. intros ->. destruct w; intros Q; inversion Q; subst; do 2 eexists; split; reflexivity.
    - intros ->. destruct w; intros Q; inversion Q; subst; do 2 eexists; split; try reflexivity. exact (combine_map_const (p :: l) (@n1 T _)).
  Qed.

  Lemma add_bad norm e (w : warg T) m s a b : In (a, b) (edges_of e) -> r_nv (st_raw s) <= a \/ r_nv (st_raw s) <= b ->
    snd (add_edges norm e w m s) = Err AssertionError.
  Proof.
    intros I B. unfold add_edges. rewrite (nonempty_of _ _ _ I). unfold bind, lift. rewrite format_bad; auto.
    - apply (nonempty_of _ _ _ I).
    - rewrite below_endpoints. apply not_ok_exists. eauto.
  Qed.
  Lemma remove_bad norm e s a b : In (a, b) (edges_of e) -> r_nv (st_raw s) <= a \/ r_nv (st_raw s) <= b ->
    snd (@remove_edges T _ norm e s) = Err AssertionError.
  Proof.
    intros I B. unfold remove_edges, bind, lift. rewrite format_bad; auto.
    - apply (nonempty_of _ _ _ I).
    - rewrite below_endpoints. apply not_ok_exists. eauto.
  Qed.
  Lemma add_bad_merge norm e (w : warg T) s p ps : pairs_of e w = Some (p :: ps) -> endpoints_ok (r_nv (st_raw s)) (edges_of e) = true ->
    snd (add_edges norm e w MOther s) = Err ValueError.
  Proof.
    intros P E. unfold add_edges. assert (EE : earg_empty e = false) by (destruct e as [|[|]]; auto; destruct w; discriminate).
    rewrite EE. unfold bind, lift. rewrite <- below_endpoints in E. destruct (format_good _ e w EE E P) as (es & ws & -> & Q). cbn [fst snd].
    rewrite Q. reflexivity.
  Qed.
  Lemma add_ok_iff norm e (w : warg T) m s : snd (add_edges norm e w m s) = Ok tt <->
    earg_empty e = true \/
    (endpoints_ok (r_nv (st_raw s)) (edges_of e) = true /\ exists ps, pairs_of e w = Some ps /\ (known m = true \/ ps = [])).
  Proof.
    destruct (add_edges norm e w m s) as [s' o] eqn:E. cbn [snd].
    apply add_edges_outcome in E as [(x & -> & -> & EE & D)|[(-> & EE & ->)|(-> & EE & ps & P & B & KM & _)]].
    - split; [discriminate|]. intros [Q|(Q & ps & P & K)]; [congruence|].
      destruct D as [D|[D|(D & p & qs & P')]]; try congruence. rewrite P in P'. injection P' as ->. destruct K; congruence.
    - split; auto.
    - split; auto. intros _. right. eauto.
  Qed.
  Lemma badd_bad e (w : warg T) m (s : bigraph T) a b : In (a, b) (edges_of e) -> b_nu (st_raw s) <= a \/ b_nv (st_raw s) <= b ->
    snd (b_add_edges e w m s) = Err AssertionError.
  Proof.
    intros I B. unfold b_add_edges. rewrite (nonempty_of _ _ _ I). unfold bind, lift. rewrite format_bad; auto.
    - apply (nonempty_of _ _ _ I).
    - apply ends_not_ok. eauto.
  Qed.
  Lemma bremove_bad e (s : bigraph T) a b : In (a, b) (edges_of e) -> b_nu (st_raw s) <= a \/ b_nv (st_raw s) <= b ->
    snd (b_remove_edges e s) = Err AssertionError.
  Proof.
    intros I B. unfold b_remove_edges, bind, lift. rewrite format_bad; auto.
    - apply (nonempty_of _ _ _ I).
    - apply ends_not_ok. eauto.
  Qed.
  Lemma badd_bad_merge e (w : warg T) (s : bigraph T) p ps : pairs_of e w = Some (p :: ps) -> ends_ok (b_nu (st_raw s)) (b_nv (st_raw s)) (edges_of e) = true ->
    snd (b_add_edges e w MOther s) = Err ValueError.
  Proof.
    intros P E. unfold b_add_edges. assert (EE : earg_empty e = false) by (destruct e as [|[|]]; auto; destruct w; discriminate).
    rewrite EE. unfold bind, lift.
    destruct (format_good (below2 (b_nu (st_raw s)) (b_nv (st_raw s))) e w EE E P) as (es & ws & -> & Q). cbn [fst snd].
    rewrite Q. reflexivity.
  Qed.
  Lemma badd_ok_iff e (w : warg T) m (s : bigraph T) : snd (b_add_edges e w m s) = Ok tt <->
    earg_empty e = true \/
    (ends_ok (b_nu (st_raw s)) (b_nv (st_raw s)) (edges_of e) = true /\ exists ps, pairs_of e w = Some ps /\ (known m = true \/ ps = [])).
  Proof.
    destruct (b_add_edges e w m s) as [s' o] eqn:E. cbn [snd].
    apply badd_outcome in E as [(x & -> & -> & EE & D)|[(-> & EE & ->)|(-> & EE & ps & P & B & KM & _)]].
    - split; [discriminate|]. intros [Q|(Q & ps & P & K)]; [congruence|].
      destruct D as [D|[D|(D & p & qs & P')]]; try congruence. rewrite P in P'. injection P' as ->. destruct K; congruence.
    - split; auto.
    - split; auto. intros _. right. eauto.
  Qed.
End Reject.

(** * batches *)
Section Batches.
  Context {T : Type} `{Num T}.
  Definition args (b : list ((Z * Z) * T)) : earg * warg T := (EMany (map fst b), WList (map snd b)).
  Lemma combine_split' {A B} (l : list (A * B)) : combine (map fst l) (map snd l) = l.
  Proof. induction l as [|[] l IH]; cbn; congruence. Qed.
  Lemma endpoints_app nv l1 l2 : endpoints_ok nv (l1 ++ l2) = endpoints_ok nv l1 && endpoints_ok nv l2.
  Proof. unfold endpoints_ok. apply forallb_app. Qed.
  Lemma a_add_batch same nv m b (g : agraph T) : known m = true -> endpoints_ok nv (map fst b) = true ->
    a_add_edges same nv (fst (args b)) (snd (args b)) m g = mkA (fold_left (fun g x => a_add same m x g) b (aw g)) (ax g).
  Proof. intros K E. unfold a_add_edges, args; cbn [fst snd edges_of pairs_of]. rewrite E, K, combine_split'. reflexivity. Qed.
  Lemma g_batches nv m bs : forall g : agraph T, known m = true -> endpoints_ok nv (map fst (concat bs)) = true ->
    fold_left (g_spec_step nv) (map (fun b => AddEdges (fst (args b)) (snd (args b)) m) bs) g =
    mkA (fold_left (fun g x => a_add same_undirected m x g) (concat bs) (aw g)) (ax g).
  Proof.
    induction bs as [|b bs IH]; intros g K E; cbn [map fold_left concat g_spec_step].
    - destruct g; reflexivity.
    - cbn [concat] in E. rewrite map_app, endpoints_app in E. apply andb_true_iff in E as [E1 E2].
      rewrite (a_add_batch same_undirected nv m b g K E1), IH by auto. cbn [aw ax]. rewrite fold_left_app. reflexivity.
  Qed.
  Lemma d_batches nv m bs : forall g : agraph T, known m = true -> endpoints_ok nv (map fst (concat bs)) = true ->
    fold_left (d_spec_step nv) (map (fun b => dAdd (fst (args b)) (snd (args b)) m) bs) g =
    mkA (fold_left (fun g x => a_add same_directed m x g) (concat bs) (aw g)) (ax g).
  Proof.
    induction bs as [|b bs IH]; intros g K E; cbn [map fold_left concat d_spec_step].
    - destruct g; reflexivity.
    - cbn [concat] in E. rewrite map_app, endpoints_app in E. apply andb_true_iff in E as [E1 E2].
      rewrite (a_add_batch same_directed nv m b g K E1), IH by auto. cbn [aw ax]. rewrite fold_left_app. reflexivity.
  Qed.
  Lemma b_batches nu nv m bs : forall g : wmap T, known m = true -> ends_ok nu nv (map fst (concat bs)) = true ->
    fold_left (b_spec_step nu nv) (map (fun b => bAdd (fst (args b)) (snd (args b)) m) bs) g =
    fold_left (fun g x => a_add same_directed m x g) (concat bs) g.
  Proof.
    induction bs as [|b bs IH]; intros g K E; cbn [map fold_left concat b_spec_step]; auto.
    cbn [concat] in E. rewrite map_app in E. unfold ends_ok in E. rewrite forallb_app in E. apply andb_true_iff in E as [E1 E2].
    rewrite IH by auto. rewrite fold_left_app. f_equal. unfold bs_add, args; cbn [fst snd edges_of pairs_of]. unfold ends_ok. rewrite E1, K, combine_split'. reflexivity.
  Qed.
  Lemma perm_forallb {A} (p : A -> bool) l l' : Permutation l l' -> forallb p l = forallb p l'.
  Proof. induction 1; cbn; try congruence. rewrite !andb_assoc, (andb_comm (p y)); auto. Qed.

  (** values of the merged weights *)
  Lemma merge_sum (RT : ring_theory (@nz T _) n1 nadd nmul nsub nopp eq) acc l :
    merge_all MSum acc l = match acc, l with None, [] => None | _, _ => Some (nadd (wt acc) (sumf l (fun w => w))) end.
  Proof.
    revert acc; induction l as [|w l IH]; intros acc; cbn [merge_all sumf].
    - destruct acc; auto. cbn. f_equal. rewrite (Radd_comm RT), (Radd_0_l RT). reflexivity.
    - rewrite IH. destruct acc as [o|]; cbn [wt merged].
      + change (sumf (w :: l) (fun w => w)) with (nadd w (sumf l (fun w => w))). rewrite (Radd_assoc RT). reflexivity.
      + change (sumf (w :: l) (fun w => w)) with (nadd w (sumf l (fun w => w))). rewrite (Radd_0_l RT). reflexivity.
  Qed.
  Lemma merge_ones l acc : @nhalf T _ (nadd n1 n1) = n1 -> (acc = None \/ acc = Some n1) -> Forall (fun w => w = n1) l ->
    merge_all MMean acc l = match l with [] => acc | _ => Some n1 end.
  Proof.
    intros HF. revert acc; induction l as [|w l IH]; intros acc A F; cbn [merge_all]; auto.
    inversion F; subst. rewrite IH; auto.
    - destruct l; auto. destruct A as [->| ->]; auto. cbn. rewrite HF; reflexivity.
    - right. destruct A as [->| ->]; auto. cbn. rewrite HF; reflexivity.
  Qed.

  (** adjacency lists *)
  Definition named (adj : list (list Z)) (a b : Z) : Prop := exists dsts, In (a :: dsts) adj /\ In b dsts.
  Lemma adj_In adj a b : In (a, b) (adj_to_edges adj) <-> named adj a b.
  Proof.
    unfold adj_to_edges, named. rewrite in_flat_map. split.
    - intros (line & I & J). destruct line as [|src dsts]; [destruct J|]. apply in_map_iff in J as (d & E & J). injection E as -> ->. eauto.
    - intros (dsts & I & J). eexists; split; [exact I|]. apply in_map_iff. eauto.
  Qed.
  Lemma adj_map same adj (a b : Z) : @nhalf T _ (nadd n1 n1) = n1 ->
    fold_left (fun g x => a_add same MMean x g) (map (fun p => (p, n1)) (adj_to_edges adj)) empty_map a b =
    if existsb (fun p => same (fst p) (snd p) a b) (adj_to_edges adj) then Some (@n1 T _) else None.
  Proof.
    intros HF. rewrite fold_add_value, merge_ones; auto.
    - unfold empty_map. induction (adj_to_edges adj) as [|p l IH]; cbn [map filter existsb fst snd]; auto.
      destruct (same (fst p) (snd p) a b); cbn; auto.
    - apply Forall_forall. intros x I. apply in_map_iff in I as (y & <- & I). apply filter_In in I as [I _].
      apply in_map_iff in I as (z & <- & _). reflexivity.
  Qed.
End Batches.

(** * negative vertices *)
Section Negative.
  Context {T : Type} `{Num T}.
  Lemma pA_negative (r : raw T) k : 0 <= r_nv r -> In k (fst (raw_edges r)) -> in_box (r_nv r) (r_nv r) k = false -> p_A r = Err RuntimeError.
  Proof.
    intros P I B. unfold p_A. destruct (raw_edges_length r) as [_ LN]. specialize (LN P).
    destruct (Z.eqb_spec (raw_num_e r) 0) as [E|_].
    { destruct (fst (raw_edges r)); [destruct I|]. cbn in LN. lia. }
    unfold mk_sparse. destruct (forallb (in_box (r_nv r) (r_nv r)) (fst (p_eb r))) eqn:F; auto.
    rewrite forallb_forall in F. rewrite (F k) in B; [discriminate|]. unfold p_eb; cbn. apply in_or_app; auto.
  Qed.
End Negative.
Lemma g_run_snoc {T} `{Num T} ops (o : gop T) (s : graph T) : fst (g_run (ops ++ [o]) s) = fst (g_step o (fst (g_run ops s))).
Proof.
  revert s; induction ops as [|p ops IH]; intros s; cbn [app g_run].
  - destruct (g_step o s) eqn:E; cbn [fst]. rewrite E. reflexivity.
  - destruct (g_step p s) as [s1 y]. specialize (IH s1). destruct (g_run ops s1), (g_run (ops ++ [o]) s1); cbn [fst] in *; auto.
Qed.
Lemma combine_maps {A B} (es : list A) (ws : list B) : length ws = length es -> es = map fst (combine es ws) /\ ws = map snd (combine es ws).
Proof.
  revert ws; induction es as [|x es IH]; intros [|y ws] LN; cbn in *; try discriminate; auto.
  destruct (IH ws) as [A1 A2]; [lia|]. rewrite <- A1, <- A2. auto.
Qed.
(** a map whose entries are all 1, at the pairs satisfying [P]: its listing *)
Lemma ones_listing {T} `{Num T} (es : list (Z * Z)) ws (g : wmap T) (ok : Z -> Z -> bool) :
  length ws = length es -> (forall a b w, In ((a, b), w) (combine es ws) <-> g a b = Some w) ->
  (forall a b, g a b = if ok a b then Some n1 else None) ->
  Forall (fun w => w = n1) ws /\ forall a b, In (a, b) es <-> ok a b = true.
Proof.
  intros LN V G. destruct (combine_maps es ws LN) as [ES WS]. split.
  - rewrite WS. apply Forall_forall. intros x I. apply in_map_iff in I as ([[a b] y] & <- & I). apply V in I. rewrite G in I.
    cbn. destruct (ok a b); congruence.
  - intros a b. rewrite ES. split.
    + intros I. apply in_map_iff in I as ([[c d] y] & E & I). cbn in E. injection E as -> ->. apply V in I. rewrite G in I. destruct (ok a b); congruence.
    + intros O. specialize (G a b). rewrite O in G. apply V in G. apply (in_map fst) in G. exact G.
Qed.
