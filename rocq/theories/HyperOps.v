(** Objects derived from a Hypergraph: clone, save/load, drop, subgraph. *)
From Coq Require Import String Permutation Sorted Ring.
From Verif Require Import Num PyDict PyDictFacts Coo CooFacts ModelBase CacheFacts ModelGraph SpecGraph StoreFacts RebuildFacts PersistFacts HeapFacts
  ModelHyper HyperFacts SpecHyper HyperStore HyperView HyperMatrix HyperReach.
Set Implicit Arguments.
Local Open Scope Z_scope.

(** * cutting a hyperedge down *)
Lemma zindex_Some l : forall v i, zindex v l = Some i -> 0 <= i < Z.of_nat (length l) /\ nth (Z.to_nat i) l 0 = v.
Proof.
  induction l as [|y l IH]; intros v i; cbn [zindex]; [discriminate|].
  destruct (Z.eqb_spec v y) as [->|N]; [intros E; injection E as <-; cbn [length]; split; [lia|reflexivity]|].
  destruct (zindex v l) as [j|] eqn:E; [|discriminate]. intros X; injection X as <-. destruct (IH _ _ E) as [R M].
  cbn [length]. split; [lia|]. replace (Z.to_nat (j + 1)) with (S (Z.to_nat j)) by lia. exact M.
Qed.
Lemma zindex_None l v : zindex v l = None <-> ~ In v l.
Proof.
  induction l as [|y l IH]; cbn [zindex In]; [tauto|]. destruct (Z.eqb_spec v y) as [->|N]; [split; [discriminate|tauto]|].
  destruct (zindex v l) as [j|]; [split; [discriminate|]|].
  - intros X. exfalso. apply X. right. destruct IH as [_ IH]. destruct (in_dec Z.eq_dec v l); auto. discriminate (IH n).
  - destruct IH as [IH _]. specialize (IH eq_refl). split; [intros _ [->|]; tauto|auto].
Qed.
Lemma zindex_nth l : NoDup l -> forall i, 0 <= i < Z.of_nat (length l) -> zindex (nth (Z.to_nat i) l 0) l = Some i.
Proof.
  intros ND i R. destruct (zindex (nth (Z.to_nat i) l 0) l) as [j|] eqn:E.
  - apply zindex_Some in E as [Rj M]. f_equal. apply Z2Nat.inj; try lia. eapply (NoDup_nth l 0); eauto; lia.
  - apply zindex_None in E. exfalso. apply E, nth_In. lia.
Qed.
Definition zidx (vl : list Z) (v : Z) : list Z := match zindex v vl with Some i => [i] | None => [] end.
Lemma zidx_map vl e : map (fun i => nth (Z.to_nat i) vl 0) (flat_map (zidx vl) e) = filter (fun v => zmem v vl) e.
Proof.
  induction e as [|v e IH]; cbn [flat_map filter]; auto. rewrite map_app, IH. unfold zidx. destruct (zindex v vl) as [i|] eqn:E.
  - apply zindex_Some in E as [R M]. cbn [map]. rewrite M. replace (zmem v vl) with true; [reflexivity|]. symmetry. apply zmem_In. rewrite <- M. apply nth_In; lia.
  - apply zindex_None in E. replace (zmem v vl) with false; [reflexivity|]. symmetry. destruct (zmem v vl) eqn:ZM; auto. apply zmem_In in ZM; tauto.
Qed.
Lemma zidx_range vl e : Forall (fun i => 0 <= i < Z.of_nat (length vl)) (flat_map (zidx vl) e).
Proof.
  apply Forall_flat_map, Forall_forall. intros v _. unfold zidx. destruct (zindex v vl) as [i|] eqn:E; constructor; auto.
  apply zindex_Some in E; apply E.
Qed.
Lemma zidx_filter vl e : flat_map (zidx vl) (filter (fun v => zmem v vl) e) = flat_map (zidx vl) e.
Proof.
  induction e as [|v e IH]; cbn [flat_map filter]; auto. destruct (zmem v vl) eqn:ZM; cbn [flat_map]; rewrite IH; auto.
  unfold zidx at 2. replace (zindex v vl) with (@None Z); auto. symmetry. apply zindex_None. intros I. apply zmem_In in I. congruence.
Qed.
Lemma zidx_inv vl e : NoDup vl -> Forall (fun i => 0 <= i < Z.of_nat (length vl)) e ->
  flat_map (zidx vl) (map (fun i => nth (Z.to_nat i) vl 0) e) = e.
Proof.
  intros ND F. induction F as [|i e R F IH]; cbn [map flat_map]; auto. rewrite IH. unfold zidx. rewrite zindex_nth; auto.
Qed.
Lemma filter_zindex vl e : filter (fun v => if zindex v vl then true else false) e = filter (fun v => zmem v vl) e.
Proof.
  apply filter_ext. intros v. destruct (zmem v vl) eqn:ZM.
  - apply zmem_In in ZM. destruct (zindex v vl) eqn:E; auto. apply zindex_None in E; tauto.
  - destruct (zindex v vl) as [i|] eqn:E; auto. exfalso. apply zindex_Some in E as [R <-].
    assert (zmem (nth (Z.to_nat i) vl 0) vl = true) by (apply zmem_In, nth_In; lia). congruence.
Qed.
Lemma sub_edge_cut vl keep1 e e' : NoDup vl -> sub_edge vl keep1 e = Some e' <-> cut_to vl (if keep1 then 1%nat else 2%nat) e e'.
Proof.
  intros ND. unfold sub_edge, cut_to. rewrite filter_zindex. set (rest := filter (fun v => zmem v vl) e).
  change (flat_map (fun v => match zindex v vl with Some i => [i] | None => [] end) e) with (flat_map (zidx vl) e).
  assert (KE : (if keep1 then 1 else 2) = Z.of_nat (if keep1 then 1%nat else 2%nat)) by (destruct keep1; reflexivity).
  rewrite KE. set (k := if keep1 then 1%nat else 2%nat). split.
  - destruct (Z.ltb_spec (Z.of_nat (length (znodup rest))) (Z.of_nat k)) as [L|L]; [discriminate|]. intros E; injection E as <-.
    split; [apply zsort_sorted|]. split; [|split].
    + rewrite (Permutation_map _ (zsort_perm (flat_map (zidx vl) e))). rewrite zidx_map. reflexivity.
    + eapply Permutation_Forall; [symmetry; apply zsort_perm|apply zidx_range].
    + exists (firstn k (znodup rest)). split; [|split].
      * assert (NN : NoDup (znodup rest)) by apply NoDup_nodup. rewrite <- (firstn_skipn k) in NN. eapply NoDup_app_l; eauto.
      * rewrite firstn_length. lia.
      * intros u I. apply (nodup_In Z.eq_dec). rewrite <- (firstn_skipn k). apply in_or_app; auto.
  - intros (SO & P & R & us & NU & LU & SU).
    destruct (Z.ltb_spec (Z.of_nat (length (znodup rest))) (Z.of_nat k)) as [L|L].
    + exfalso. assert (length us <= length (znodup rest))%nat; [|lia]. apply NoDup_incl_length; auto. intros u I. apply nodup_In. auto.
    + f_equal. apply sorted_perm_eq; auto; [apply zsort_sorted|]. rewrite zsort_perm.
      rewrite <- (zidx_inv ND R). rewrite <- zidx_filter. apply Permutation_flat_map. symmetry. exact P.
Qed.
Lemma sorted_lt_nodup l : StronglySorted Z.lt l -> NoDup l.
Proof.
  induction 1 as [|a l S IH F]; constructor; auto. rewrite Forall_forall in F. intros I. specialize (F _ I). lia.
Qed.
Lemma sorted_le_lt l : NoDup l -> StronglySorted Z.le l -> StronglySorted Z.lt l.
Proof.
  intros ND S. induction S as [|a l S IH F]; constructor; inversion ND; subst; auto.
  rewrite Forall_forall in *. intros x I. specialize (F _ I). assert (x <> a) by (intros ->; auto). lia.
Qed.
Lemma sorted_lt_le l : StronglySorted Z.lt l -> StronglySorted Z.le l.
Proof. induction 1 as [|a l S IH F]; constructor; auto. eapply Forall_impl; [|exact F]. cbn; intros; lia. Qed.
(** the selection is the unique increasing list with the same members *)
Lemma selection vs vl : StronglySorted Z.lt vl -> (forall v, In v vl <-> In v vs) -> zsort (znodup vs) = vl.
Proof.
  intros S M. apply sorted_perm_eq; [apply zsort_sorted|apply sorted_lt_le; auto|]. rewrite zsort_perm.
  apply NoDup_Permutation; [apply NoDup_nodup|apply sorted_lt_nodup; auto|]. intros x. rewrite M. apply nodup_In.
Qed.
Lemma last_max l : StronglySorted Z.le l -> l <> [] -> In (last l 0) l /\ forall x, In x l -> x <= last l 0.
Proof.
  induction 1 as [|a l S IH F]; [congruence|]. intros _. destruct l as [|b l]; [cbn; split; auto; intros x [->|[]]; lia|].
  destruct IH as [I M]; [discriminate|]. change (last (a :: b :: l) 0) with (last (b :: l) 0). split; [right; auto|].
  intros x [<-|J]; [|auto]. rewrite Forall_forall in F. apply F; auto.
Qed.

Section Ops.
  Context {T : Type} `{N : Num T}.
  Implicit Types (r : hraw T) (s : hypergraph T) (d : dict (list Z) T).

  (** * what an object reports *)
  Lemma parts_report fz s : coh (hspec fz) s -> hwf (st_raw s) -> h_parts s (parts (st_raw s)).
  Proof.
    intros C [O W]. split.
    - rewrite (good_answer (hgood_query (fz := fz) hqNames (or_intror eq_refl)) C). cbn. unfold parts. rewrite map_map. reflexivity.
    - apply Forall_forall. intros x I. unfold parts in I. apply in_map_iff in I as ([g d] & <- & I). cbn [fst snd].
      rewrite (good_answer (hgood_query (fz := fz) (hqE (Some g)) (or_intror eq_refl)) C). cbn [hp_query hp_e].
      unfold hp_e_g, p_group. erewrite In_dget by eauto. reflexivity.
  Qed.
  Lemma parts_unique s gs gs' : h_parts s gs -> h_parts s gs' -> gs = gs'.
  Proof.
    intros [A B] [A' B']. rewrite A in A'. injection A' as E. clear A.
    revert gs' E B'; induction B as [|[g [es ws]] gs X B IH]; intros [|[g' [es' ws']] gs'] E B'; cbn in E; try discriminate; auto.
    injection E as <- E. inversion B' as [|? ? X' B'']; subst. cbn [fst snd] in *. rewrite X in X'. injection X' as <- <-. f_equal. auto.
  Qed.
  Lemma parts_eq fz s gs : coh (hspec fz) s -> hwf (st_raw s) -> h_parts s gs -> gs = parts (st_raw s).
  Proof. intros C W P. eapply parts_unique; eauto. eapply parts_report; eauto. Qed.
  Lemma ah_add_vw m g (ps : list (list Z * T)) : forall A, ah_vw (fold_left (fun A x => ah_add1 m g x A) ps A) = ah_vw A.
  Proof. induction ps as [|x ps IH]; intros A; cbn; auto. rewrite IH. reflexivity. Qed.
  Lemma ah_step_vw A (o : hop T) : ah_vw (ah_step A o) = ah_vw A \/ ah_vw (ah_step A o) = None.
  Proof.
    destruct o as [e w m g|e g|g| |q]; cbn; auto.
    - unfold ah_add. destruct (hpairs_of e w); auto. left. apply ah_add_vw.
    - unfold ah_remove. match goal with |- context [if ?c then _ else _] => destruct c end; auto.
  Qed.
  Lemma ah_run_vw (ops : list (hop T)) : forall A, ah_vw (fold_left ah_step ops A) = ah_vw A \/ ah_vw (fold_left ah_step ops A) = None.
  Proof.
    induction ops as [|o ops IH]; intros A; cbn; auto. destruct (IH (ah_step A o)) as [E|E]; auto. rewrite E. apply ah_step_vw.
  Qed.
  Lemma h_reach_vw nv e w vw m ops s : h_reach nv e w vw m ops s -> m <> MOther -> Forall doc_op ops ->
    forall l, h_vw (st_raw s) = Some l -> length l = Z.to_nat nv.
  Proof.
    intros H M D l E. destruct (h_reach_inv H M D) as (((_ & _ & V & _) & _ & _) & _ & _).
    rewrite E in V. unfold h_spec in V. destruct (ah_run_vw ops (ah_new nv e w vw m)) as [X|X]; rewrite X in V; [|discriminate].
    destruct H as (s0 & E0 & _). destruct (h_new_inv _ _ _ _ M E0) as (_ & _ & _ & L).
    assert (Y : ah_vw (ah_new nv e w vw m) = Some (match vw with Some l => l | None => repeat n1 (Z.to_nat nv) end)).
    { unfold ah_new. destruct e as [ea|]; auto. unfold ah_add. destruct (hpairs_of ea w); auto. rewrite ah_add_vw. reflexivity. }
    rewrite Y in V. injection V as ->. destruct vw; auto. apply repeat_length.
  Qed.

  (** everything the later theorems need to know about a reached object *)
  Record hst nv (s : hypergraph T) : Prop := {
    hst_coh : coh (hspec None) s;
    hst_wf : hwf (st_raw s);
    hst_nv : h_nv (st_raw s) = nv;
    hst_pos : 0 < nv;
    hst_vw : forall l, h_vw (st_raw s) = Some l -> length l = Z.to_nat nv }.
  Lemma reach_hst nv e w vw m ops s : h_reach nv e w vw m ops s -> m <> MOther -> Forall doc_op ops -> hst nv s.
  Proof.
    intros H M D. pose proof (h_reach_vw H M D) as V. destruct (h_reach_inv H M D) as (((W & _ & _ & _) & C & NV) & P & _).
    constructor; auto.
  Qed.
  Lemma hst_rebuild nv s : hst nv s ->
    h_reach nv None WNone (h_vw (st_raw s)) MMean (rebuild (h_vw (st_raw s)) (parts (st_raw s))) (mkSt (st_raw s) []).
  Proof. intros [C W NV P V]. subst nv. apply rebuild_reach; auto. Qed.

  (** * clone and save/load *)
  Lemma ones_len n : length (@ones T N n) = Z.to_nat n.
  Proof. apply repeat_length. Qed.
  Lemma hspec_vw fz k r r' : k <> KH None HKWv -> h_nv r = h_nv r' -> h_gr r = h_gr r' -> hspec None k r = hspec fz k r'.
  Proof.
    destruct r as [nv vw gr], r' as [nv' vw' gr']. cbn [h_nv h_gr]. intros K <- <-.
    destruct k; try reflexivity. destruct k; try reflexivity. destruct g as [g|]; [reflexivity|congruence].
  Qed.
  Lemma clone_coh s : coh (hspec None) s -> exists fz, coh (hspec fz) (h_clone s) /\ (dget (KH None HKWv) (st_cache s) = None -> fz = None).
  Proof.
    intros C. exists (dget (KH None HKWv) (st_cache s)). split; [|auto]. intros k v E. cbn [h_clone st_raw st_cache] in *.
    destruct (eqb_spec k (KH None HKWv)) as [->|NE].
    - rewrite E. reflexivity.
    - rewrite <- (C _ _ E). symmetry. apply hspec_vw; auto.
  Qed.
  Lemma fsd_hst nv s gr : hst nv s -> hwf (mkHRaw nv None gr) ->
    exists s', h_from_state_dict (nv, gr) = Ok s' /\ hst nv s' /\ st_raw s' = mkHRaw nv (Some (ones nv)) gr /\ st_cache s' = [].
  Proof.
    intros [C W NV P V] [O G]. unfold h_from_state_dict. cbn [fst snd]. replace (0 <? nv) with true by (symmetry; apply Z.ltb_lt; auto).
    eexists; split; [reflexivity|]. split; [|auto]. constructor; auto.
    - apply coh_empty.
    - split; auto.
    - cbn. intros l E; injection E as <-. apply ones_len.
  Qed.

  (** * dropping *)
  Lemma drop_dget sel keep g gr i : sel g = false -> dget g (drop_groups sel i keep gr) = @dget string (dict (list Z) T) _ g gr.
  Proof.
    intros S. revert i; induction gr as [|[n d] gr IH]; intros i; cbn [drop_groups]; auto.
    destruct (sel n) eqn:E; cbn [dget]; rewrite IH; auto. destruct (eqb_spec g n) as [->|]; [congruence|auto].
  Qed.
  Lemma drop_keys sel keep gr i : map fst (drop_groups sel i keep gr) = map fst (gr : dict string (dict (list Z) T)).
  Proof. revert i; induction gr as [|[n d] gr IH]; intros i; cbn [drop_groups]; auto. destruct (sel n); cbn; rewrite IH; auto. Qed.
  Lemma drop_In sel keep gr i n d : In (n, d) (drop_groups sel i keep gr) -> exists d0 j, In (n, d0) gr /\ (d = d0 \/ d = keep_from j keep d0).
  Proof.
    revert i; induction gr as [|[n' d'] gr IH]; intros i; cbn [drop_groups]; [intros []|].
    destruct (sel n'); intros [E|I].
    - injection E as -> <-. exists d', i. split; [left; auto|auto].
    - destruct (IH _ I) as (d0 & j & I0 & X). exists d0, j. split; [right; auto|auto].
    - injection E as -> <-. exists d', i. split; [left; auto|auto].
    - destruct (IH _ I) as (d0 & j & I0 & X). exists d0, j. split; [right; auto|auto].
  Qed.
  Lemma gwf_keep j keep d : gwf d -> gwf (keep_from j keep d).
  Proof.
    intros [O S]. split.
    - apply keep_from_nodup; auto.
    - rewrite Forall_forall in *. intros k I. apply S. unfold dkeys in *. apply in_map_iff in I as (x & <- & I). apply in_map. eapply keep_from_In; eauto.
  Qed.
  Lemma hwf_drop sel keep i nv (vw : option (list T)) gr : hwf (mkHRaw nv vw gr) -> hwf (mkHRaw nv None (drop_groups sel i keep gr)).
  Proof.
    intros [O W]. cbn [h_gr] in *. assert (O' : dict_ok (drop_groups sel i keep gr)).
    { unfold dict_ok, dkeys in *. rewrite drop_keys. exact O. }
    split; [exact O'|]. cbn [h_gr]. intros g d E. apply dget_In in E.
    apply drop_In in E as (d0 & j & I0 & X). assert (G0 : gwf d0) by (eapply W; apply In_dget; eauto). destruct X as [->| ->]; auto. apply gwf_keep; auto.
  Qed.
  Definition gparts (gr : dict string (dict (list Z) T)) : list (string * (list (list Z) * list T)) :=
    map (fun nd => (fst nd, (dkeys (snd nd), dvals (snd nd)))) gr.
  Lemma drop_flat keep gr i : flat (gparts (drop_groups (fun _ => true) i keep gr)) = keep_from i keep (flat (gparts gr)).
  Proof.
    revert i; induction gr as [|[n d] gr IH]; intros i; cbn [drop_groups gparts map flat flat_map fst snd]; auto.
    rewrite !combine_keys_vals, keep_from_app, keep_from_map. f_equal. rewrite map_length. apply IH.
  Qed.
  Lemma drop_one keep g (gr : dict string (dict (list Z) T)) : dict_ok gr -> forall d, dget g gr = Some d ->
    dget g (drop_groups (fun n => String.eqb n g) 0 keep gr) = Some (keep_from 0 keep d).
  Proof.
    intros O d E. revert O d E; induction gr as [|[n d0] gr IH]; intros O d E; cbn [drop_groups dget] in *; [discriminate|].
    rewrite String_eqb_eqb. destruct (eqb_spec g n) as [<-|NE].
    - injection E as <-. rewrite eqb_refl. cbn [dget]. rewrite eqb_refl. reflexivity.
    - destruct (eqb_spec n g) as [->|_]; [congruence|]. cbn [dget]. destruct (eqb_spec g n) as [->|_]; [congruence|]. apply IH; auto. unfold dict_ok in *; cbn in O. inversion O; auto.
  Qed.
  Lemma drop_absent keep g gr i : ~ In g (map fst (gr : dict string (dict (list Z) T))) -> drop_groups (fun n => String.eqb n g) i keep gr = gr.
  Proof.
    induction gr as [|[n d] gr IH]; cbn [drop_groups map fst In]; intros NI; auto.
    destruct (String.eqb_spec n g) as [->|]; [tauto|]. rewrite IH; auto.
  Qed.

  (** * subgraph *)
  Lemma sub_fold vl keep1 e' w d : forall acc,
    dget e' (fold_left (fun acc kv => match sub_edge vl keep1 (fst kv) with Some e => dset e (snd kv) acc | None => acc end) d acc) = Some w <->
    (exists pre e post, d = pre ++ (e, w) :: post /\ sub_edge vl keep1 e = Some e' /\ forall x, In x post -> sub_edge vl keep1 (fst x) <> Some e') \/
    ((forall x, In x d -> sub_edge vl keep1 (fst x) <> Some e') /\ dget e' acc = Some w).
  Proof.
    induction d as [|[e0 w0] d IH]; intros acc; cbn [fold_left fst snd].
    - split; [intros E; right; split; auto; intros x []|]. intros [(pre & e & post & E & _)|[_ E]]; auto. destruct pre; discriminate.
    - rewrite IH. split.
      + intros [(pre & e & post & -> & E & L)|[L E]].
        * left. exists ((e0, w0) :: pre), e, post. auto.
        * destruct (sub_edge vl keep1 e0) as [e1|] eqn:S.
          -- destruct (eqb_spec e' e1) as [<-|NE].
             ++ rewrite dget_dset_same in E. injection E as ->. left. exists [], e0, d. auto.
             ++ rewrite dget_dset_other in E by auto. right. split; auto. intros x [<-|I]; [cbn; congruence|auto].
          -- right. split; auto. intros x [<-|I]; [cbn; congruence|auto].
      + intros [(pre & e & post & E & S & L)|[L E]].
        * destruct pre as [|p pre]; cbn in E.
          -- injection E as -> -> ->. right. split; auto. rewrite S. apply dget_dset_same.
          -- injection E as <- ->. left. exists pre, e, post. auto.
        * right. split; [intros x I; apply L; right; auto|].
          specialize (L (e0, w0) (or_introl eq_refl)). cbn in L. destruct (sub_edge vl keep1 e0) as [e1|]; auto.
          rewrite dget_dset_other; auto. congruence.
  Qed.
  Lemma sub_gwf vl keep1 d : gwf (sub_group vl keep1 d).
  Proof.
    unfold sub_group. assert (X : gwf (@nil (list Z * T))) by (split; constructor). revert X. generalize (@nil (list Z * T)) as acc.
    induction d as [|[e w] d IH]; intros acc X; cbn [fold_left fst snd]; auto. apply IH.
    unfold sub_edge. match goal with |- context [if ?c then _ else _] => destruct c end; auto. apply gwf_set; auto.
  Qed.
  Lemma subgraph_ok nv s vs vl keep1 : hst nv s -> StronglySorted Z.lt vl -> (forall v, In v vl <-> In v vs) -> vl <> [] ->
    Forall (fun v => 0 <= v < nv) vl ->
    exists s', h_subgraph vs keep1 s = Ok s' /\ hst (Z.of_nat (length vl)) s' /\ st_cache s' = [] /\
      h_vw (st_raw s') = Some (match h_vw (st_raw s) with Some w => map (fun v => nth (Z.to_nat v) w nz) vl | None => ones (Z.of_nat (length vl)) end) /\
      h_gr (st_raw s') = map (fun nd => (fst nd, sub_group vl keep1 (snd nd))) (h_gr (st_raw s)).
  Proof.
    intros I S M NE R. destruct I as [C [O W] NV P V]. subst nv. unfold h_subgraph. rewrite (selection vs S M).
    destruct vl as [|v0 vl]; [congruence|]. set (l := v0 :: vl) in *.
    assert (R0 : (0 <=? v0) && (last l 0 <? h_nv (st_raw s)) = true).
    { rewrite Forall_forall in R. apply andb_true_iff. split.
      - apply Z.leb_le. apply R. left; auto.
      - apply Z.ltb_lt. apply R. apply last_max; [apply sorted_lt_le; auto|auto]. }
    rewrite R0. unfold h_from_state_dict. cbn [fst snd]. assert (LP : 0 < Z.of_nat (length l)) by (cbn; lia).
    replace (0 <? Z.of_nat (length l)) with true by (symmetry; apply Z.ltb_lt; auto). cbn [st_raw h_nv h_gr].
    assert (WF : forall vw, hwf (mkHRaw (Z.of_nat (length l)) vw (map (fun nd => (fst nd, sub_group l keep1 (snd nd))) (h_gr (st_raw s))))).
    { intros vw. split; cbn [h_gr].
      - unfold dict_ok, dkeys in *. rewrite map_map. exact O.
      - intros g d E. apply dget_In in E. apply in_map_iff in E as ([g0 d0] & E & _). injection E as <- <-. apply sub_gwf. }
    destruct (h_vw (st_raw s)) as [w|]; eexists; (split; [reflexivity|]); (split; [|split; [reflexivity|split; reflexivity]]);
      (constructor; [apply coh_empty|apply WF|reflexivity|exact LP|]); cbn [st_raw h_vw]; intros l0 E; injection E as <-.
    - change (length (map (zn w) l) = Z.to_nat (Z.of_nat (length l))). rewrite map_length. lia.
    - apply ones_len.
  Qed.

  (** * reached objects and what they report *)
  Lemma h_e_all fz s : coh (hspec fz) s -> hwf (st_raw s) ->
    snd (h_query (hqE None) s) = Ok (OHE (all_e (st_raw s)) (all_w (st_raw s))).
  Proof.
    intros C [O W]. rewrite (good_answer (hgood_query (fz := fz) (hqE None) (or_intror eq_refl)) C). cbn [hp_query hp_e]. unfold p_groups.
    rewrite (@rmapM_groups _ _ _ (fun d => (dkeys d, dvals d))); auto.
    - cbn. rewrite !map_map. reflexivity.
    - intros g d E. unfold hp_e_g, p_group. rewrite E. reflexivity.
  Qed.
  Lemma reports_scope fz s sc es ws : coh (hspec fz) s -> hwf (st_raw s) -> h_reports s sc es ws -> scope sc (st_raw s) = Some (es, ws).
  Proof.
    intros C W [E NE]. destruct sc as [g|]; cbn [scope].
    - rewrite (good_answer (hgood_query (fz := fz) (hqE (Some g)) (or_intror eq_refl)) C) in E. cbn [hp_query hp_e] in E. unfold hp_e_g, p_group in E.
      destruct (dget g (h_gr (st_raw s))); [|discriminate]. cbn in E. injection E as <- <-. reflexivity.
    - rewrite (h_e_all C W) in E. injection E as <- <-. specialize (NE eq_refl).
      rewrite (good_answer (hgood_query (fz := fz) hqNames (or_intror eq_refl)) C) in NE. cbn [hp_query] in NE.
      destruct (h_gr (st_raw s)); [exfalso; apply NE; reflexivity|reflexivity].
  Qed.
  Lemma clean_state nv e w vw m ops s sc es ws : h_clean_reach nv e w vw m ops s -> h_reports s sc es ws ->
    coh (hspec None) s /\ hwf (st_raw s) /\ hclean (st_raw s) /\ h_nv (st_raw s) = nv /\ scope sc (st_raw s) = Some (es, ws).
  Proof.
    intros (H & M & D & CN & CO) R. destruct (h_reach_inv H M D) as (((W & _ & _ & _) & C & NV) & P & K).
    split; auto. split; auto. split; auto. split; auto. eapply reports_scope; eauto.
  Qed.
  Lemma dget_parts r g d : dict_ok (h_gr r) -> dget g (h_gr r) = Some d -> In (g, (dkeys d, dvals d)) (parts r).
  Proof. intros O E. apply dget_In in E. unfold parts. apply in_map_iff. exists (g, d). auto. Qed.
  Lemma parts_dget r g es ws : dict_ok (h_gr r) -> In (g, (es, ws)) (parts r) -> exists d, dget g (h_gr r) = Some d /\ es = dkeys d /\ ws = dvals d.
  Proof.
    intros O I. unfold parts in I. apply in_map_iff in I as ([g0 d] & E & I). cbn in E. injection E as -> <- <-. exists d. split; auto. apply In_dget; auto.
  Qed.
  (** an object built by from_state_dict is one built by calls *)
  Lemma fsd_reach nv s gr : hst nv s -> st_raw s = mkHRaw nv (Some (ones nv)) gr -> st_cache s = [] ->
    h_reach nv None WNone None MMean (flat_map rebuild_group (parts (st_raw s))) s.
  Proof.
    intros I R CE. pose proof (hst_rebuild I) as (s0 & E0 & E1). rewrite R in E0, E1. cbn [h_vw] in *. rewrite R.
    exists s0. split; [|destruct s as [r' c']; cbn in *; subst; exact E1].
    rewrite <- E0. unfold h_new. destruct (0 <? nv); auto. rewrite ones_len, Nat.eqb_refl. reflexivity.
  Qed.
  Lemma hst_parts nv s : hst nv s -> h_parts s (parts (st_raw s)).
  Proof. intros [C W _ _ _]. eapply parts_report; eauto. Qed.
  Lemma parts_names r : map fst (parts r) = map fst (h_gr r).
  Proof. unfold parts. rewrite map_map. reflexivity. Qed.
  (** dropping, whole hypergraph or one group *)
  Lemma h_drop_main nv s gs g keep : hst nv s -> h_parts s gs ->
    exists s' gs', h_drop g keep true s = Ok s' /\ hst nv s' /\ h_parts s' gs' /\ map fst gs' = map fst gs /\
      h_reach nv None WNone None MMean (flat_map rebuild_group gs') s' /\
      h_gr (st_raw s') = drop_groups (fun n => match g with None => true | Some g' => String.eqb n g' end) 0 keep (h_gr (st_raw s)) /\
      gs = gparts (h_gr (st_raw s)) /\ gs' = gparts (h_gr (st_raw s')).
  Proof.
    intros I P. pose proof I as [C W NV PN V].
    set (sel := fun n => match g with None => true | Some g' => String.eqb n g' end).
    assert (W0 : hwf (mkHRaw nv None (drop_groups sel 0 keep (h_gr (st_raw s))))).
    { eapply hwf_drop with (vw := h_vw (st_raw s)). destruct (st_raw s) as [n0 v0 g0]. exact W. }
    destruct (fsd_hst I W0) as (s' & E & I' & R' & CE). exists s', (parts (st_raw s')).
    unfold h_drop. fold sel. rewrite NV. split; [exact E|]. split; auto. split; [eapply hst_parts; eauto|].
    assert (GE : gs = parts (st_raw s)) by (eapply parts_eq; eauto). split; [|split; [|split; [|split]]].
    - rewrite GE, !parts_names, R'. cbn [h_gr]. apply drop_keys.
    - eapply fsd_reach; eauto.
    - rewrite R'. reflexivity.
    - exact GE.
    - reflexivity.
  Qed.
  Lemma last_cut (P : list Z * T -> Prop) (l : list (list Z * T)) : (forall x, P x \/ ~ P x) -> (exists x, In x l /\ P x) ->
    exists pre x post, l = pre ++ x :: post /\ P x /\ forall y, In y post -> ~ P y.
  Proof.
    intros D. induction l as [|a l IH]; intros (x & I & Px); [destruct I|].
    assert (DE : (exists x, In x l /\ P x) \/ ~ (exists x, In x l /\ P x)).
    { clear IH I. induction l as [|b l [E|NE]]; [right; intros (y & [] & _)|left; destruct E as (y & Iy & Py); exists y; split; [right|]; auto|].
      destruct (D b) as [Pb|Pb]; [left; exists b; split; [left|]; auto|right]. intros (y & [->|Iy] & Py); [auto|apply NE; eauto]. }
    destruct DE as [E|NE].
    - destruct (IH E) as (pre & y & post & -> & A & B). exists (a :: pre), y, post. auto.
    - destruct I as [->|I]; [|exfalso; apply NE; eauto]. exists [], x, l. split; auto. split; auto. intros y Iy Py. apply NE; eauto.
  Qed.
  (** subgraph: per group, an entry of the result is the last entry of the original cut down to it *)
  Lemma h_sub_main nv s gs vs vl (keep1 : bool) : hst nv s -> h_parts s gs -> StronglySorted Z.lt vl -> (forall v, In v vl <-> In v vs) -> vl <> [] ->
    Forall (fun v => 0 <= v < nv) vl ->
    exists s' gs', h_subgraph vs keep1 s = Ok s' /\ h_parts s' gs' /\ map fst gs' = map fst gs /\
      (let vw' := match h_vw (st_raw s) with Some w => map (nthw w) vl | None => ones (Z.of_nat (length vl)) end in
       h_reach (Z.of_nat (length vl)) None WNone (Some vw') MMean (flat_map rebuild_group gs') s' /\ snd (h_query hqVw s') = Ok (OVals vw')) /\
      forall g es ws es' ws', In (g, (es, ws)) gs -> In (g, (es', ws')) gs' -> NoDup es /\ NoDup es' /\
        forall e' c, In (e', c) (combine es' ws') <-> exists pre e post, combine es ws = pre ++ (e, c) :: post /\
          cut_to vl (if keep1 then 1 else 2) e e' /\ forall x, In x post -> ~ cut_to vl (if keep1 then 1 else 2) (fst x) e'.
  Proof.
    intros I P S M NE RG. destruct (subgraph_ok vs keep1 I S M NE RG) as (s' & E & I' & CE & VE & GE).
    exists s', (parts (st_raw s')). split; [exact E|]. split; [eapply hst_parts; eauto|].
    pose proof I as [C [O W] NV PN V]. assert (GS : gs = parts (st_raw s)) by (eapply parts_eq; eauto; split; auto).
    split; [rewrite GS, !parts_names, GE, map_map; reflexivity|]. split.
    - cbv zeta. split.
      + pose proof (hst_rebuild I') as RB. rewrite VE in RB. destruct s' as [r' c']. cbn in CE, VE. subst c'. exact RB.
      + change (Ok (match h_vw (st_raw s') with Some l => OVals l | None => OUnit end) =
          Ok (OVals (match h_vw (st_raw s) with Some w => map (nthw w) vl | None => ones (Z.of_nat (length vl)) end))).
        rewrite VE. reflexivity.
    - intros g es ws es' ws' I1 I2. rewrite GS in I1. apply parts_dget in I1 as (d & D1 & -> & ->); auto.
      destruct I' as [_ [O' W'] _ _ _]. apply parts_dget in I2 as (d' & D2 & -> & ->); auto.
      assert (DE : d' = sub_group vl keep1 d).
      { rewrite GE in D2. clear -D1 D2. revert D1 D2. induction (h_gr (st_raw s)) as [|[n d0] l IH]; cbn [dget map fst snd]; [discriminate|].
        destruct (eqb_spec g n) as [_|_]; auto. congruence. }
      subst d'. split; [apply (W _ _ D1)|]. split; [apply (W' _ _ D2)|].
      intros e' c. rewrite !combine_keys_vals. rewrite <- dget_In_iff by (apply (W' _ _ D2)). unfold sub_group. rewrite sub_fold.
      assert (CI : forall e, sub_edge vl keep1 e = Some e' <-> cut_to vl (if keep1 then 1 else 2) e e') by (intros e; apply sub_edge_cut; apply sorted_lt_nodup; auto).
      split.
      + intros [(pre & e & post & -> & A & B)|[_ B]]; [|discriminate]. exists pre, e, post. rewrite <- CI. split; auto. split; auto.
        intros x Ix. rewrite <- CI. auto.
      + intros (pre & e & post & -> & A & B). left. exists pre, e, post. rewrite CI. split; auto. split; auto.
        intros x Ix. rewrite CI. auto.
  Qed.
  Lemma sub_reject s vs keep1 : vs = [] \/ Exists (fun v => v < 0 \/ h_nv (st_raw s) <= v) vs -> h_subgraph vs keep1 s = Err AssertionError.
  Proof.
    intros [->|X]; [reflexivity|]. unfold h_subgraph. apply Exists_exists in X as (v & I & B).
    assert (J : In v (zsort (znodup vs))).
    { eapply Permutation_in; [symmetry; apply zsort_perm|]. apply nodup_In. exact I. }
    pose proof (zsort_sorted (znodup vs)) as SO. destruct (zsort (znodup vs)) as [|v0 l] eqn:ZE; [destruct J|].
    destruct (last_max SO) as [_ LM]; [discriminate|]. specialize (LM _ J).
    replace ((0 <=? v0) && (last (v0 :: l) 0 <? h_nv (st_raw s))) with false; [reflexivity|].
    symmetry. apply andb_false_iff. destruct B as [B|B]; [left|right; apply Z.ltb_ge; lia].
    apply Z.leb_gt. destruct J as [->|J]; auto. inversion SO; subst. rewrite Forall_forall in *. match goal with H : forall x, In x l -> _ |- _ => specialize (H _ J) end. lia.
  Qed.
End Ops.

(** every reported group lists as many weights as hyperedges *)
Lemma parts_len : forall (T : Type) (N : Num T) nv e w vw m ops (s : hypergraph T) gs g es ws,
  h_reach nv e w vw m ops s -> m <> MOther -> Forall doc_op ops -> h_parts s gs -> In (g, (es, ws)) gs -> length es = length ws /\ NoDup es.
Proof.
  intros T N nv e w vw m ops s gs g es ws H M D P I. destruct (reach_hst H M D) as [C [O W] NV PN V].
  rewrite (parts_eq C (conj O W) P) in I. apply parts_dget in I as (d & D1 & -> & ->); auto. split; [unfold dkeys, dvals; rewrite !map_length; auto|apply (W _ _ D1)].
Qed.
Lemma in_combine_ex : forall A B (l : list A) (l' : list B) a, length l = length l' -> In a l -> exists b, In (a, b) (combine l l').
Proof.
  induction l as [|x l IH]; intros [|y l'] a L I; cbn in *; try discriminate; [destruct I|]. injection L as L.
  destruct I as [->|I]; [exists y; auto|]. destruct (IH l' a L I) as (b & J). exists b; auto.
Qed.
Lemma nodup_combine_fun : forall A B (l : list A) (l' : list B) a b b', NoDup l -> In (a, b) (combine l l') -> In (a, b') (combine l l') -> b = b'.
Proof.
  induction l as [|x l IH]; intros [|y l'] a b b' ND I J; cbn in *; try (destruct I; fail). inversion ND; subst.
  destruct I as [I|I], J as [J|J]; try (injection I as -> ->); try (injection J as -> ->); auto.
  - injection J as ->. auto.
  - exfalso. apply in_combine_l in J. auto.
  - exfalso. apply in_combine_l in I. auto.
  - eapply IH; eauto.
Qed.

(** X - L X for a matrix row L = I - d S *)
Section Smooth.
  Context {T : Type} `{N : Num T}.
  Context (RT : ring_theory (@nz T N) n1 nadd nmul nsub nopp eq).
  Add Ring TRing11 : RT.
  Lemma rw_smooth n u (X L S : Z -> T) d : 0 <= u < n -> (forall v, 0 <= v < n -> L v = nsub (if u =? v then n1 else nz) (nmul d (S v))) ->
    nsub (X u) (sumf (range n) (fun v => nmul (L v) (X v))) = nmul d (sumf (range n) (fun v => nmul (S v) (X v))).
  Proof.
    intros U E.
    rewrite (sumf_ext_in (range n) (fun v => nmul (L v) (X v)) (fun v => nsub (if eqb u v then X v else nz) (nmul d (nmul (S v) (X v))))).
    - rewrite (sumf_sub RT). rewrite (@sumf_single _ _ RT _ EqB_Z (range n) u X (range_nodup _)) by (apply range_In; auto).
      rewrite (sumf_mul_l RT). ring.
    - intros v I. apply range_In in I. rewrite E by auto. change (eqb u v) with (u =? v). destruct (u =? v); ring.
  Qed.
End Smooth.
