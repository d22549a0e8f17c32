(** Matrices of a Graph in terms of the abstract edge map. *)
From Coq Require Import Ring Permutation Sorted.
From Verif Require Import Num PyDict PyDictFacts Coo CooFacts MatFacts ModelBase CacheFacts ModelGraph GraphFacts
  SpecGraph SpecGraphOps StoreFacts GraphStore.
Set Implicit Arguments.

Section Support.
  Context {T : Type} `{Num T}.

  Definition in_range (nv : Z) (g : agraph T) : Prop :=
    forall a b, aw g a b <> None -> 0 <= a < nv /\ 0 <= b < nv.

  Lemma add_in_range nv same m ps g :
    (forall a b x y, same a b x y = true -> (x = a \/ x = b) /\ (y = a \/ y = b)) ->
    Forall (fun p => (0 <= fst (fst p) < nv) /\ (0 <= snd (fst p) < nv)) ps ->
    (forall a b, g a b <> None -> 0 <= a < nv /\ 0 <= b < nv) ->
    forall a b, fold_left (fun (g : wmap T) x => a_add same m x g) ps g a b <> None -> 0 <= a < nv /\ 0 <= b < nv.
  Proof.
    intros S. revert g; induction ps as [|[[c d] w] ps IH]; intros g F G a b; cbn [fold_left]; auto.
    inversion F as [|? ? [F1 F2] F']; subst. cbn in *.
    apply IH; auto. intros a' b'. unfold a_add; cbn.
    destruct (same c d a' b') eqn:E; auto. intros _. apply S in E. lia.
  Qed.
  Lemma del_in_range nv same l (g : wmap T) :
    (forall a b, g a b <> None -> 0 <= a < nv /\ 0 <= b < nv) ->
    forall a b, fold_left (fun g x => a_del same x g) l g a b <> None -> 0 <= a < nv /\ 0 <= b < nv.
  Proof.
    revert g; induction l as [|x l IH]; intros g G a b; cbn [fold_left]; auto.
    apply IH. intros a' b'. unfold a_del. destruct (same (fst x) (snd x) a' b'); [congruence|auto].
  Qed.
  Lemma pairs_edges e (w : warg T) ps : pairs_of e w = Some ps ->
    forall p, In p ps -> In (fst p) (edges_of e).
  Proof.
    destruct e, w; cbn; intros E p I; try discriminate; injection E as <-.
    - destruct I as [<-|[]]; auto.
    - destruct I as [<-|[]]; auto.
    - apply in_map_iff in I as (x & <- & I); auto.
    - destruct p. apply in_combine_l in I; auto.
  Qed.
  Lemma add_edges_in_range nv same e w m g :
    (forall a b x y, same a b x y = true -> (x = a \/ x = b) /\ (y = a \/ y = b)) ->
    nonneg_earg e -> in_range nv g -> in_range nv (a_add_edges same nv e w m g).
  Proof.
    intros S NN G. unfold a_add_edges. destruct (pairs_of e w) as [ps|] eqn:P; auto.
    destruct (endpoints_ok nv (edges_of e)) eqn:B; cbn; auto.
    destruct (known m || match ps with [] => true | _ => false end); auto.
    intros a b; cbn. apply add_in_range; auto.
    apply Forall_forall. intros p I. pose proof (pairs_edges _ _ P p I) as I'.
    unfold nonneg_earg in NN. rewrite Forall_forall in NN. specialize (NN _ I').
    unfold endpoints_ok in B. rewrite forallb_forall in B. specialize (B _ I').
    apply andb_true_iff in B as [B1 B2]. apply Z.ltb_lt in B1, B2. lia.
  Qed.
  Lemma same_und_ends a b x y : same_undirected a b x y = true -> (x = a \/ x = b) /\ (y = a \/ y = b).
  Proof.
    unfold same_undirected. rewrite orb_true_iff, !andb_true_iff, !Z.eqb_eq. lia.
  Qed.
  Lemma step_in_range nv g o : nonneg_op o -> in_range nv g -> in_range nv (g_spec_step nv g o).
  Proof.
    intros NN G. destruct o; cbn in *; auto.
    - apply add_edges_in_range; auto. apply same_und_ends.
    - unfold a_remove_edges. destruct (endpoints_ok nv (edges_of e)); auto.
      intros a b; cbn. apply del_in_range; auto.
    - intros a b; cbn. destruct (a =? b); [congruence|]. apply G.
    - intros a b; cbn. unfold empty_map; congruence.
  Qed.
  Lemma spec_in_range nv e w ex m ops : nonneg_new e -> Forall nonneg_op ops ->
    in_range nv (g_spec nv e w ex m ops).
  Proof.
    intros NE NO. unfold g_spec.
    assert (G : in_range nv (g_spec_new nv e w ex m)).
    { destruct e as [ea|]; cbn.
      - apply add_edges_in_range; auto; [apply same_und_ends|]. intros a b; cbn; unfold empty_map; congruence.
      - intros a b; cbn; unfold empty_map; congruence. }
    revert G. generalize (g_spec_new nv e w ex m). induction NO as [|o ops NO1 NO IH]; intros g G; cbn; auto.
    apply IH. apply step_in_range; auto.
  Qed.

  (** the abstract adjacency stays inside the box *)
  Lemma edge_in_range nv g i j : in_range nv g -> a_edge g i j -> (i = j -> 0 <= i < nv) -> 0 <= i < nv /\ 0 <= j < nv.
  Proof. intros G [E|[-> E]] D; [apply G; auto|]. lia. Qed.
End Support.

Section Structure.
  Context {T : Type} `{Num T}.
  Variables (r : raw T) (g : agraph T) (nv : Z).
  Hypothesis R : grel r g.
  Hypothesis NV : r_nv r = nv.
  Hypothesis POS : 0 < nv.
  Hypothesis IR : in_range nv g.

  (** all stored pairs, as a raw COO list *)
  Definition eb_coo : coo T :=
    core r ++ (if r_extra r then map (fun v => ((v, v), n1)) (range nv) else []) ++ ctrans (r_e r).

  Lemma ctrans_combine (d : dict (Z * Z) T) : combine (map swap_pair (dkeys d)) (dvals d) = ctrans d.
  Proof. unfold dkeys, dvals, ctrans, swap_pair. induction d as [|[[a b] w] d IH]; cbn in *; congruence. Qed.
  Lemma eb_combine : combine (fst (p_eb r)) (snd (p_eb r)) = eb_coo.
  Proof.
    unfold p_eb; cbn [fst snd]. destruct (raw_edges_length r) as [E1 _].
    rewrite combine_app by auto. rewrite raw_edges_combine, ctrans_combine, NV, <- app_assoc. reflexivity.
  Qed.
  Lemma eb_length : length (snd (p_eb r)) = length (fst (p_eb r)).
  Proof.
    unfold p_eb; cbn [fst snd]. destruct (raw_edges_length r) as [E1 _].
    rewrite !app_length, E1. unfold dkeys, dvals. rewrite !map_length; auto.
  Qed.
  Lemma extra_keys i j :
    In (i, j) (map fst (if r_extra r then map (fun v => ((v, v), @n1 T _)) (range nv) else [])) <->
    r_extra r = true /\ i = j /\ 0 <= i < nv.
  Proof.
    destruct (r_extra r).
    - rewrite map_map; cbn. rewrite in_map_iff. split.
      + intros (x & E & I). injection E as <- <-. apply range_In in I; auto.
      + intros (_ & -> & I). exists j. rewrite range_In; auto.
    - cbn. intuition congruence.
  Qed.
  Lemma map_fst_In {A B} (l : list (A * B)) a : In a (map fst l) <-> exists b, In (a, b) l.
  Proof.
    rewrite in_map_iff. split.
    - intros ([x y] & <- & I); eauto.
    - intros (b & I). exists (a, b); auto.
  Qed.
  Lemma re_keys i j : In (i, j) (map fst (r_e r)) <-> i < j /\ aw g i j <> None.
  Proof.
    destruct R as (W & L & X). rewrite <- L. unfold lookup. split.
    - intros I. destruct (wf_k W (i, j) I) as [E D]. cbn in D.
      unfold norm_und in E; cbn in E. destruct (Z.ltb_spec j i); [injection E; lia|].
      split; [lia|]. destruct (Z.eqb_spec i j); [lia|].
      unfold norm_und; cbn. destruct (Z.ltb_spec j i); [lia|].
      apply map_fst_In in I as (w & I). rewrite (In_dget _ _ (wf_e W) I). congruence.
    - intros [Lt E]. destruct (Z.eqb_spec i j); [lia|].
      unfold norm_und in E; cbn in E. destruct (Z.ltb_spec j i); [lia|].
      destruct (dget (i, j) (r_e r)) as [w|] eqn:D; [|congruence].
      apply map_fst_In. exists w. apply dget_In; auto.
  Qed.
  Lemma core_keys i j : In (i, j) (map fst (core r)) <-> i <= j /\ aw g i j <> None.
  Proof.
    destruct R as (W & L & X). rewrite map_fst_In. setoid_rewrite (core_In und_diag); auto. rewrite <- L.
    assert (NI : norm_und (i, j) = (i, j) <-> i <= j).
    { unfold norm_und; cbn. destruct (Z.ltb_spec j i); split; auto; try lia.
      intros E; injection E; lia. }
    rewrite <- NI. destruct (lookup norm_und r i j) as [w|]; split.
    - intros (b & [A B]). split; auto. congruence.
    - intros [A B]. exists w; auto.
    - intros (b & [A B]). congruence.
    - intros [A B]; congruence.
  Qed.
  Lemma eb_keys i j : In (i, j) (map fst eb_coo) <->
    a_edge g i j /\ 0 <= i < nv /\ 0 <= j < nv.
  Proof.
    unfold eb_coo. rewrite !map_app, !in_app_iff.
    assert (TR : In (i, j) (map fst (ctrans (r_e r))) <-> In (j, i) (map fst (r_e r))).
    { unfold ctrans. rewrite map_map. cbn. rewrite !in_map_iff. split.
      - intros ([[a b] v] & E & I). cbn in E. injection E as <- <-. exists ((a, b), v); auto.
      - intros ([[a b] v] & E & I). cbn in E. injection E as -> ->. exists ((j, i), v); auto. }
    rewrite TR, re_keys, core_keys, extra_keys.
    destruct R as (W & L & X). rewrite X.
    assert (S : aw g j i = aw g i j) by (apply (@grel_sym T r g); exact R). rewrite S.
    unfold a_edge. split.
    - intros [[A B]|[(A & -> & B)|[A B]]]; auto.
    - intros [[A|[-> A]] [I J]]; auto.
      destruct (Z.le_gt_cases i j); auto.
  Qed.

  Lemma p_A_eq : p_A r = Ok (coalesce eb_coo).
  Proof.
    unfold p_A. destruct (Z.eqb_spec (raw_num_e r) 0) as [E|E].
    - unfold raw_num_e in E. rewrite NV in E. unfold eb_coo, core.
      destruct (r_extra r); [exfalso; lia|].
      destruct (r_e r); [|cbn [length] in E; exfalso; lia]. destruct (r_loop r); [|cbn [length] in E; exfalso; lia]. reflexivity.
    - rewrite NV. rewrite mk_sparse_ok.
      + rewrite eb_combine; reflexivity.
      + intros i j I. rewrite <- (@combine_keys _ _ (fst (p_eb r)) (snd (p_eb r)) eb_length), eb_combine in I.
        apply eb_keys in I; tauto.
  Qed.
  Lemma A_keys i j : In (i, j) (map fst (coalesce eb_coo)) <-> a_edge g i j /\ 0 <= i < nv /\ 0 <= j < nv.
  Proof. rewrite coalesce_keys. apply eb_keys. Qed.
  Lemma A_boxed : boxed nv nv (coalesce eb_coo).
  Proof. intros i j I. apply A_keys in I; tauto. Qed.
  Lemma eb_boxed : boxed nv nv eb_coo.
  Proof. intros i j I. apply eb_keys in I; tauto. Qed.
End Structure.

Section Ring.
  Context {T : Type} `{N : Num T}.
  Context (RT : ring_theory (@nz T N) n1 nadd nmul nsub nopp eq).
  Add Ring TRing3 : RT.

  Lemma mget_nodup (m : coo T) i j : NoDup (map fst m) -> mget m i j = wt (dget (i, j) m).
  Proof.
    intros ND. destruct (dget (i, j) m) as [w|] eqn:D; cbn.
    - apply (mget_present RT); auto. apply dget_In; auto.
    - apply (mget_absent RT). apply dget_None in D. exact D.
  Qed.

  Variables (r : raw T) (g : agraph T) (nv : Z).
  Hypothesis R : grel r g.
  Hypothesis NV : r_nv r = nv.
  Hypothesis POS : 0 < nv.
  Hypothesis IR : in_range nv g.

  Lemma mget_core i j : mget (core r) i j = if i <=? j then wt (aw g i j) else nz.
  Proof.
    destruct R as (W & L & X). rewrite mget_nodup by (apply (core_keys_nodup W)).
    destruct (dget (i, j) (core r)) as [w|] eqn:D.
    - apply dget_In in D. apply (core_In und_diag) in D as [NI Lk]; auto. rewrite <- L, Lk.
      unfold norm_und in NI; cbn in NI. destruct (Z.ltb_spec j i); [injection NI; lia|].
      destruct (Z.leb_spec i j); [reflexivity|lia].
    - apply dget_None in D. unfold dkeys in D. rewrite (core_keys R) in D.
      destruct (Z.leb_spec i j); auto. destruct (aw g i j); auto. exfalso; apply D; split; auto; congruence.
  Qed.
  Lemma mget_re i j : mget (r_e r) i j = if i <? j then wt (aw g i j) else nz.
  Proof.
    destruct R as (W & L & X). rewrite mget_nodup by (apply (wf_e W)).
    destruct (dget (i, j) (r_e r)) as [w|] eqn:D.
    - apply dget_In in D. assert (I : In ((i, j), w) (core r)) by (unfold core; apply in_app_iff; auto).
      apply (core_In und_diag) in I as [NI Lk]; auto. rewrite <- L, Lk.
      assert (I2 : In (i, j) (map fst (r_e r))) by (apply map_fst_In; eauto).
      apply (re_keys R) in I2 as [I2 _]. destruct (Z.ltb_spec i j); [reflexivity|lia].
    - apply dget_None in D. unfold dkeys in D. rewrite (re_keys R) in D.
      destruct (Z.ltb_spec i j); auto. destruct (aw g i j); auto. exfalso; apply D; split; auto; congruence.
  Qed.
  Lemma mget_extra i j : 0 <= i < nv ->
    mget (if r_extra r then map (fun v => ((v, v), n1)) (range nv) else []) i j =
    if (i =? j) && ax g then n1 else nz.
  Proof.
    intros I. destruct R as (W & L & X). rewrite <- X. destruct (r_extra r).
    - change (map (fun v => ((v, v), n1)) (range nv)) with (diag nv (fun _ => @n1 T N)).
      rewrite (mget_diag RT). rewrite andb_true_r.
      replace (0 <=? i) with true by (symmetry; apply Z.leb_le; lia).
      replace (i <? nv) with true by (symmetry; apply Z.ltb_lt; lia). reflexivity.
    - rewrite andb_false_r. reflexivity.
  Qed.
  Lemma mget_eb i j : 0 <= i < nv -> mget (eb_coo r nv) i j = a_adj g i j.
  Proof.
    intros I. unfold eb_coo. rewrite !(mget_app RT), mget_core, mget_extra by auto.
    rewrite mget_ctrans, mget_re. unfold a_adj.
    rewrite (@grel_sym T r g j i R).
    destruct (Z.leb_spec i j), (Z.ltb_spec j i); try lia; ring.
  Qed.
  Lemma mget_A i j : 0 <= i < nv -> mget (coalesce (eb_coo r nv)) i j = a_adj g i j.
  Proof. rewrite (mget_coalesce RT). apply mget_eb. Qed.
  Lemma rowsum_A i : 0 <= i < nv -> rowsum (coalesce (eb_coo r nv)) i = a_deg nv g i.
  Proof.
    intros I. rewrite (@rowsum_dense T N RT (range nv)) by (apply range_nodup || (eapply boxed_cols, (A_boxed R IR))).
    apply sumf_ext. intros j. apply mget_A; auto.
  Qed.
  Lemma p_D_eq : p_D r = Ok (diag nv (rowsum (coalesce (eb_coo r nv)))).
  Proof. unfold p_D. rewrite (p_A_eq R NV POS IR). cbn. rewrite NV, diag_rowsum_eq; reflexivity. Qed.
  Lemma diag_ext n (f h : Z -> T) : (forall i, 0 <= i < n -> f i = h i) -> diag n f = diag n h.
  Proof.
    intros E. unfold diag. apply map_ext_in. intros i I. apply range_In in I. rewrite E; auto.
  Qed.
  Lemma p_D_deg : p_D r = Ok (diag nv (a_deg nv g)).
  Proof. rewrite p_D_eq. f_equal. apply diag_ext. intros; apply rowsum_A; auto. Qed.
  Lemma p_D1_deg : p_D1 r = Ok (diag nv (fun i => ninv (a_deg nv g i))).
  Proof. unfold p_D1. rewrite p_D_deg. cbn. rewrite inv_vals_diag; reflexivity. Qed.
  Lemma p_D12_deg : p_D12 r = Ok (diag nv (fun i => nisq (a_deg nv g i))).
  Proof. unfold p_D12. rewrite p_D_deg. cbn. rewrite isq_vals_diag; reflexivity. Qed.

  Lemma a_adj_sym i j : a_adj g i j = a_adj g j i.
  Proof. unfold a_adj. rewrite (@grel_sym T r g i j R), (Z.eqb_sym j i). reflexivity. Qed.

  (** sum over all pairs of [f] weighted by the adjacency = sum over reported edges *)
  Lemma adj_double_sum (f : Z -> Z -> T) :
    sumf (range nv) (fun i => sumf (range nv) (fun j => nmul (a_adj g i j) (f i j))) =
    sumf (combine (fst (raw_edges r)) (snd (raw_edges r))) (fun kv =>
      if fst (fst kv) =? snd (fst kv) then nmul (snd kv) (f (fst (fst kv)) (snd (fst kv)))
      else nadd (nmul (snd kv) (f (fst (fst kv)) (snd (fst kv)))) (nmul (snd kv) (f (snd (fst kv)) (fst (fst kv))))).
  Proof.
    transitivity (sumf (range nv) (fun i => sumf (range nv) (fun j => nmul (mget (eb_coo r nv) i j) (f i j)))).
    { apply sumf_ext_in. intros i I. apply range_In in I. apply sumf_ext. intros j. rewrite mget_eb; auto. }
    rewrite (double_sum RT) by (apply (eb_boxed R IR)).
    rewrite raw_edges_combine, NV. unfold eb_coo, core.
    set (X := if r_extra r then _ else _). rewrite <- !app_assoc. rewrite !(sumf_app RT).
    set (F := fun kv : Z * Z * T => if fst (fst kv) =? snd (fst kv) then _ else _).
    assert (EL : sumf (map (fun kv : Z * T => (fst kv, fst kv, snd kv)) (r_loop r)) (fun kv => nmul (snd kv) (f (fst (fst kv)) (snd (fst kv))))
       = sumf (map (fun kv : Z * T => (fst kv, fst kv, snd kv)) (r_loop r)) F).
    { rewrite !sumf_map. apply sumf_ext. intros [k w]. unfold F; cbn. rewrite Z.eqb_refl. reflexivity. }
    assert (EX : sumf X (fun kv => nmul (snd kv) (f (fst (fst kv)) (snd (fst kv)))) = sumf X F).
    { unfold X. destruct (r_extra r); auto. rewrite !sumf_map. apply sumf_ext. intros k. unfold F; cbn.
      rewrite Z.eqb_refl. reflexivity. }
    assert (EE : sumf (r_e r) F = nadd (sumf (r_e r) (fun kv => nmul (snd kv) (f (fst (fst kv)) (snd (fst kv)))))
       (sumf (ctrans (r_e r)) (fun kv => nmul (snd kv) (f (fst (fst kv)) (snd (fst kv)))))).
    { unfold ctrans. rewrite sumf_map, <- (sumf_add RT). apply sumf_ext_in. intros [[a b] w] I. unfold F; cbn.
      assert (I2 : In (a, b) (map fst (r_e r))) by (apply map_fst_In; eauto).
      apply (re_keys R) in I2 as [I2 _]. destruct (Z.eqb_spec a b); [lia|reflexivity]. }
    rewrite EL, EX, EE. ring.
  Qed.
End Ring.
