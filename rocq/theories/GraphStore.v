From Verif Require Import Num PyDict PyDictFacts Coo CooFacts ModelBase CacheFacts ModelGraph GraphFacts
  SpecGraph SpecGraphOps StoreFacts.
Set Implicit Arguments.

Section GraphStore.
  Context {T : Type} `{Num T}.

  Lemma und_idem p : norm_und (norm_und p) = norm_und p.
  Proof.
    destruct p as [a b]; unfold norm_und; cbn. destruct (Z.ltb_spec b a); cbn.
    - destruct (Z.ltb_spec a b); auto; lia.
    - destruct (Z.ltb_spec b a); auto; lia.
  Qed.
  Lemma und_diag a : norm_und (a, a) = (a, a).
  Proof. unfold norm_und; cbn. rewrite Z.ltb_irrefl; auto. Qed.
  Lemma und_off a b : a <> b -> fst (norm_und (a, b)) <> snd (norm_und (a, b)).
  Proof. intros N; unfold norm_und; cbn. destruct (b <? a); cbn; auto. Qed.
  Lemma und_same a b x y : same_undirected a b x y = true <-> norm_und (a, b) = norm_und (x, y).
  Proof.
    unfold same_undirected, norm_und; cbn.
    rewrite orb_true_iff, !andb_true_iff, !Z.eqb_eq.
    destruct (Z.ltb_spec b a), (Z.ltb_spec y x); split; intros X;
      try (injection X; intros; subst; lia); try (destruct X as [[-> ->]|[-> ->]]); auto; try (exfalso; lia);
      f_equal; lia.
  Qed.

  Definition grel := rel norm_und (T := T).

  Lemma step_rel o s g : grel (st_raw s) g -> coh gspec s ->
    grel (st_raw (fst (g_step o s))) (g_spec_step (r_nv (st_raw s)) g o)
    /\ r_nv (st_raw (fst (g_step o s))) = r_nv (st_raw s).
  Proof.
    intros R C. destruct o; cbn [g_step g_spec_step].
    - unfold unit_out, bind, g_add_edges.
      pose proof (@add_edges_rel T H norm_und same_undirected und_idem und_diag und_off und_same e w m s g R) as [A B].
      destruct (add_edges norm_und e w m s) as [s1 [u|x]]; cbn in *; auto.
    - unfold unit_out, bind, g_remove_edges.
      pose proof (@remove_edges_rel T H norm_und same_undirected und_diag und_off und_same e s g R) as [A B].
      destruct (remove_edges norm_und e s) as [s1 [u|x]]; cbn in *; auto.
    - apply set_extra_rel; exact R.
    - apply set_extra_rel; exact R.
    - apply remove_loops_rel; exact R.
    - apply clear_rel.
    - rewrite (good_raw (good_query q) C). auto.
  Qed.

  Lemma run_rel ops s g nv : grel (st_raw s) g -> coh gspec s -> r_nv (st_raw s) = nv ->
    let s' := fst (g_run ops s) in
    grel (st_raw s') (fold_left (g_spec_step nv) ops g) /\ coh gspec s' /\ r_nv (st_raw s') = nv.
  Proof.
    revert s g; induction ops as [|o ops IH]; intros s g R C N; cbn [g_run fold_left]; auto.
    pose proof (step_rel o R C) as [R1 N1]. pose proof (keeps_step o C) as C1. rewrite N in R1, N1.
    destruct (g_step o s) as [s1 x]; cbn [fst] in *.
    specialize (IH s1 _ R1 C1 N1). destruct (g_run ops s1); exact IH.
  Qed.

  Lemma new_rel nv e w ex m s : g_new nv e w ex m = Ok s ->
    grel (st_raw s) (g_spec_new nv e w ex m) /\ coh gspec s /\ r_nv (st_raw s) = nv /\ 0 < nv.
  Proof.
    intros E. pose proof (coh_new _ _ _ _ _ E) as C. revert E. unfold g_new.
    destruct (Z.ltb_spec 0 nv) as [P|P]; [|discriminate].
    pose proof (rel_empty (T := T) norm_und nv ex) as R0.
    destruct e as [ea|]; intros E.
    - destruct (@add_edges_rel T H norm_und same_undirected und_idem und_diag und_off und_same ea w m
        (mkSt (mkRaw nv [] [] ex) []) _ R0) as [A B]. unfold g_add_edges in E.
      destruct (add_edges norm_und ea w m (mkSt (mkRaw nv [] [] ex) [])) as [s1 [u|x]]; [|discriminate].
      injection E as <-. cbn in *. auto.
    - injection E as <-. auto.
  Qed.

  Lemma reach_rel nv e w ex m ops s : g_reach nv e w ex m ops s ->
    grel (st_raw s) (g_spec nv e w ex m ops) /\ coh gspec s /\ r_nv (st_raw s) = nv /\ 0 < nv.
  Proof.
    intros (s0 & E & ->). apply new_rel in E as (R & C & N & P).
    destruct (run_rel ops R C N) as (R' & C' & N'). auto.
  Qed.

  Lemma lookup_sym (r : raw T) a b : lookup norm_und r a b = lookup norm_und r b a.
  Proof.
    unfold lookup. rewrite (Z.eqb_sym b a). destruct (Z.eqb_spec a b) as [->|N]; auto.
    f_equal. apply und_same. unfold same_undirected. rewrite !Z.eqb_refl, !orb_true_r; auto.
  Qed.
  Lemma grel_sym r g a b : grel r g -> aw g a b = aw g b a.
  Proof. intros (W & L & X). rewrite <- !L. apply lookup_sym. Qed.

  Lemma und_or a b : norm_und (a, b) = (a, b) \/ norm_und (b, a) = (b, a).
  Proof.
    unfold norm_und; cbn. destruct (Z.ltb_spec b a); auto.
    destruct (Z.ltb_spec a b); auto; lia.
  Qed.

  (** C01 in terms of the abstract graph *)
  Lemma reported_edges (s : graph T) g nv : grel (st_raw s) g -> coh gspec s -> r_nv (st_raw s) = nv -> 0 < nv ->
    exists es ws proper,
      snd (g_query QE s) = Ok (OE es ws) /\
      snd (g_query QNumE s) = Ok (OZ (Z.of_nat (length es))) /\
      length ws = length es /\
      combine es ws = proper ++ (if ax g then map (fun v => ((v, v), n1)) (range nv) else []) /\
      ForallOrdPairs (fun p q => same_undirected (fst p) (snd p) (fst q) (snd q) = false) (map fst proper) /\
      (forall a b w, (In ((a, b), w) proper \/ In ((b, a), w) proper) <-> aw g a b = Some w).
  Proof.
    intros R C N P. set (r := st_raw s) in *.
    exists (fst (raw_edges r)), (snd (raw_edges r)), (core r).
    destruct R as (W & L & X).
    rewrite (good_answer (good_query QE) C), (good_answer (good_query QNumE) C). fold r. cbn [p_query].
    destruct (raw_edges_length r) as [E1 E2]. rewrite <- E2 by lia.
    split; auto. split; auto. split; auto. split.
    { rewrite raw_edges_combine, <- X, N. reflexivity. }
    split.
    - pose proof (core_keys_nodup W) as ND.
      pose proof (fun k => @core_keys_norm T norm_und und_diag r k W) as KN.
      revert ND KN. generalize (map fst (core r)). intros l. induction l as [|k l IH]; intros ND KN.
      + constructor.
      + inversion ND as [|? ? NI ND']; subst. constructor.
        * apply Forall_forall. intros q I.
          destruct (same_undirected (fst k) (snd k) (fst q) (snd q)) eqn:E; auto.
          apply und_same in E. rewrite <- !surjective_pairing in E.
          rewrite (KN k), (KN q) in E by (cbn; auto). subst. contradiction.
        * apply IH; auto. intros q I. apply KN; cbn; auto.
    - intros a b w. rewrite !(core_In und_diag) by auto. rewrite <- L, (lookup_sym r b a).
      destruct (und_or a b); tauto.
  Qed.
End GraphStore.
