(** Properties C180 (BiGraph) and C181: weights that are Python integers. *)
From Coq Require Import Permutation Reals Lra String.
From Verif Require Import Num PyDict PyDictFacts Coo CooFacts RealFacts ModelBase CacheFacts ModelGraph SpecGraph StoreFacts
  GraphStore ModelBiGraph BiGraphFacts ModelHyper HyperStore ModelMore PropInt.
Set Implicit Arguments.
Local Open Scope list_scope.
Local Open Scope R_scope.
Local Open Scope Z_scope.

Section Fold.
  Context {K : Type} {EK : EqB K}.
  Definition fold_dm {T} (f : T -> T -> T) (ps : list (K * T)) (d : dict K T) : dict K T :=
    fold_left (fun d x => dmerge f (fst x) (snd x) d) ps d.
  Lemma py_fold_dm (f : pynum -> pynum -> pynum) f' ps d : (forall x y, snd (f x y) = f' (snd x) (snd y)) ->
    py_dict (fold_dm f ps d) = fold_dm f' (map (fun p : K * pynum => (fst p, snd (snd p))) ps) (py_dict d).
  Proof.
    intros E. unfold fold_dm. revert d. induction ps as [|[k w] ps IH]; intros d; cbn [fold_left map fst snd]; auto.
    rewrite IH. f_equal. apply py_dmerge. exact E.
  Qed.
  Let tags (d : dict K pynum) : Prop := forall k v, dget k d = Some v -> fst v = true.
  Lemma tags_vals (d : dict K pynum) : dict_ok d -> (forallb fst (dvals d) = true <-> tags d).
  Proof.
    intros OK. rewrite forallb_forall. split.
    - intros Q k v E. apply Q. apply dget_In in E. unfold dvals. apply in_map_iff. exists (k, v). auto.
    - intros G v I. unfold dvals in I. apply in_map_iff in I as ([k x] & <- & I). apply (G k). apply In_dget; auto.
  Qed.
  Lemma fold_dm_ok {T} {N : Num T} (f : T -> T -> T) ps d : dict_ok d -> dict_ok (fold_dm f ps d).
  Proof. unfold fold_dm. revert d. induction ps as [|p ps IH]; intros d OK; cbn [fold_left]; auto. apply IH. apply dmerge_ok. exact OK. Qed.
  Lemma fold_keep_dm m (f : pynum -> pynum -> pynum) ps d : merge_fun m = Some f -> m <> MMean -> Forall (fun p => fst (snd p) = true) ps -> tags d -> tags (fold_dm f ps d).
  Proof.
    intros MF NM F. unfold fold_dm. revert d. induction F as [|[k w] ps W F IH]; intros d G; cbn [fold_left fst snd]; auto.
    apply IH. intros k' v. rewrite dget_dmerge. destruct (eqb_spec k k') as [<-|D]; [|apply G]. cbn [snd] in W.
    destruct (dget k d) as [old|] eqn:E; intros Q; injection Q as <-; auto.
    specialize (G _ _ E). destruct m; cbn in MF; try congruence; injection MF as <-; cbn.
    - destruct (Rlt_dec (snd old) (snd w)); auto.
    - rewrite G, W. reflexivity.
  Qed.
  Lemma fold_mean_dm (f : pynum -> pynum -> pynum) ps d : merge_fun MMean = Some f -> Forall (fun p => fst (snd p) = true) ps ->
    (tags (fold_dm f ps d) <-> tags d /\ NoDup (map fst ps) /\ Forall (fun k => dget k d = None) (map fst ps)).
  Proof.
    intros MF F. cbn in MF. injection MF as <-. unfold fold_dm. revert d. induction F as [|[k w] ps W F IH]; intros d; cbn [fold_left map fst snd].
    { split; [intros G; repeat split; [exact G|constructor|constructor]|tauto]. }
    rewrite IH. clear IH. cbn [snd] in W. set (f := fun x y : pynum => _) in *.
    assert (FM : forall x y, fst (f x y) = false) by reflexivity.
    assert (A : tags (dmerge f k w d) <-> tags d /\ dget k d = None).
    { split.
      - intros G. assert (N0 : dget k d = None).
        { destruct (dget k d) as [old|] eqn:E; auto. specialize (G k (f old w)). rewrite dget_dmerge, eqb_refl, E in G.
          specialize (G eq_refl). rewrite FM in G. discriminate. }
        split; auto. intros k' v E. apply (G k'). rewrite dget_dmerge. destruct (eqb_spec k k') as [<-|D]; auto. congruence.
      - intros [G N0] k' v. rewrite dget_dmerge. destruct (eqb_spec k k') as [<-|D]; [|apply G]. rewrite N0. intros Q. injection Q as <-. exact W. }
    assert (B : Forall (fun k' => dget k' (dmerge f k w d) = None) (map fst ps) <->
                ~ In k (map fst ps) /\ Forall (fun k' => dget k' d = None) (map fst ps)).
    { rewrite !Forall_forall. split.
      - intros Q. split.
        + intros I. specialize (Q k I). rewrite dget_dmerge, eqb_refl in Q. discriminate.
        + intros k' I. specialize (Q k' I). rewrite dget_dmerge in Q. destruct (eqb_spec k k'); [discriminate|exact Q].
      - intros [Q1 Q2] k' I. rewrite dget_dmerge. destruct (eqb_spec k k') as [<-|D]; [contradiction|]. apply Q2. exact I. }
    rewrite A, B. split.
    - intros ((G & N0) & ND & NI & FA). repeat split; auto; constructor; auto.
    - intros (G & ND & FA). inversion ND; subst. inversion FA; subst. repeat split; auto.
  Qed.
  Lemma fold_int m (f : pynum -> pynum -> pynum) (ps : list (K * pynum)) : merge_fun m = Some f -> Forall (fun p => fst (snd p) = true) ps ->
    (forallb fst (dvals (fold_dm f ps [])) = true <-> (m = MMean -> NoDup (map fst ps))).
  Proof.
    intros MF F. rewrite tags_vals by (apply fold_dm_ok; constructor).
    assert (TE : tags []) by (intros k v Q; discriminate).
    destruct m; try discriminate; [|split; [intros _ Q; discriminate|intros _; eapply fold_keep_dm; eauto; discriminate] ..].
    rewrite (fold_mean_dm _ MF F). split; [intros (_ & Q & _) _; exact Q|]. intros Q. repeat split; auto. rewrite Forall_forall. reflexivity.
  Qed.
  Lemma fold_dm_ne {T} {N : Num T} (f : T -> T -> T) ps d : ps <> [] -> fold_dm f ps d <> [].
  Proof.
    destruct ps as [|p ps]; [congruence|]. intros _. unfold fold_dm. revert p d. induction ps as [|q ps IH]; intros p d; cbn [fold_left]; [apply dmerge_ne|].
    apply (IH q).
  Qed.
End Fold.

Lemma nodup_pairs (l : list (Z * Z)) : NoDup l <-> ForallOrdPairs (fun p q => p <> q) l.
Proof.
  split; intros Q; induction Q as [|x l A0 F IH]; constructor; auto.
  - apply Forall_forall. intros y I E. subst. auto.
  - intros I. rewrite Forall_forall in A0. apply (A0 x I). reflexivity.
Qed.

(** BiGraph(nu, nv, l, w, m) with Python integers as weights: the degrees are those of the graph with the weights written as floats; their
    reciprocals, u2v and v2u raise RuntimeError exactly if no pair is written twice or the weights are not merged by "mean" *)
Theorem C180_bigraph_actual : forall nu nv ps m, 0 < nv -> m <> MOther -> ps <> [] ->
  let l := map fst ps in Forall (fun p => fst p < nu /\ snd p < nv) l ->
  exists (s : bigraph pynum) (sf : bigraph R),
    b_new nu nv (Some (EMany l)) (WList (ints ps)) m = Ok s /\ b_new nu nv (Some (EMany l)) (WList (floats ps)) m = Ok sf /\
    let r := st_raw s in let P := all_int (fun p q => p <> q) m l in
    (forall u : bool, py_bD u r = snd ((if u then bget_Du else bget_Dv) sf)) /\
    (forall u : bool, (P -> py_bD1 u r = Err RuntimeError) /\ (~ P -> py_bD1 u r = snd ((if u then bget_Du1 else bget_Dv1) sf))) /\
    (forall u2v X mean, (P -> py_bpass u2v X mean r = Err RuntimeError) /\
       (~ P -> py_bpass u2v X mean r = snd (b_pass u2v X (if mean then AggrMean else AggrSum) None None sf))).
Proof.
  intros nu nv ps m NV NM NE l B.
  assert (NL : l <> []) by (unfold l; destruct ps; [congruence|discriminate]).
  assert (BL : forallb (below2 nu nv) l = true).
  { apply forallb_forall. intros p I. rewrite Forall_forall in B. destruct (B p I). unfold below2. rewrite andb_true_iff, !Z.ltb_lt. auto. }
  assert (MF : exists f, @merge_fun pynum _ m = Some f) by (destruct m; try congruence; eexists; reflexivity). destruct MF as [f MF].
  assert (MF' : exists f, @merge_fun R _ m = Some f) by (destruct m; try congruence; eexists; reflexivity). destruct MF' as [f' MF'].
  pose proof (@merge_snd m f f' MF MF') as MS.
  set (pi := combine l (ints ps)). assert (MP : map fst pi = l) by (unfold pi, l, ints; rewrite combine_map2, map_map; reflexivity).
  assert (FI : Forall (fun p : Z * Z * pynum => fst (snd p) = true) pi).
  { unfold pi, l, ints. rewrite combine_map2. apply Forall_forall. intros x I. apply in_map_iff in I as (y & <- & _). reflexivity. }
  assert (TF : map (fun p : Z * Z * pynum => (fst p, snd (snd p))) pi = combine l (floats ps)) by (unfold pi, l, ints, floats; rewrite !combine_map2, map_map; reflexivity).
  assert (NEW : forall T (N : Num T) (g : T -> T -> T) ws, merge_fun m = Some g ->
    b_new nu nv (Some (EMany l)) (WList ws) m = Ok (mkSt (mkBRaw nu nv (fold_dm g (combine l ws) [])) [])).
  { intros T N g ws MG. unfold b_new. replace (0 <? nv) with true by (symmetry; apply Z.ltb_lt; exact NV). unfold b_add_edges.
    destruct l as [|p l0]; [congruence|]. cbn [earg_empty]. unfold bind at 1, lift, format_edges. cbn [st_raw b_nu b_nv]. rewrite BL. cbn [fst snd].
    destruct (@bfor_add T N m g (combine (p :: l0) ws) (mkSt (mkBRaw nu nv []) []) MG) as [c F]. unfold bind. rewrite F. cbn [wipe_cache]. unfold wipe_cache.
    cbn [st_raw]. do 2 f_equal.
    assert (G : forall qs d, fold_left (fun r x => badd g x r) qs (mkBRaw nu nv d) = mkBRaw nu nv (fold_dm g qs d)).
    { induction qs as [|q qs IH]; intros d; cbn [fold_left]; [reflexivity|]. unfold badd at 2. cbn [b_nu b_nv b_e]. rewrite IH. reflexivity. }
    unfold clear_cache. cbn [st_raw]. rewrite G. reflexivity. }
  set (r := mkBRaw nu nv (fold_dm f pi [])). exists (mkSt r []), (py_bfloat r). split; [|split].
  - apply NEW. exact MF.
  - rewrite (NEW _ _ f' (floats ps) MF'). unfold py_bfloat, r. cbn [b_nu b_nv b_e]. rewrite (py_fold_dm f f' pi [] MS), TF. reflexivity.
  - cbn zeta. cbn [st_raw].
    assert (IB : int_B r = true <-> all_int (fun p q => p <> q) m l).
    { unfold int_B, r, braw_num_e. cbn [b_e]. rewrite andb_true_iff, (fold_int _ MF FI), MP, nodup_pairs. unfold all_int.
      assert (Z0 : negb (Z.of_nat (length (fold_dm f pi [])) =? 0) = true).
      { apply negb_true_iff, Z.eqb_neq. pose proof (@fold_dm_ne _ _ _ _ f pi []) as Q.
        destruct (fold_dm f pi []); [|cbn [length]; lia]. exfalso. apply Q; [|reflexivity]. intros E. rewrite E in MP. apply NL. symmetry. exact MP. }
      tauto. }
    split; [reflexivity|]. split; [intros u; apply no_int_iff; [exact IB|reflexivity]|intros u2v X mean; apply no_int_iff; [exact IB|reflexivity]].
Qed.

(** * Hypergraph *)
Definition hints (ps : list (list Z * Z)) : list pynum := map (fun p => (true, IZR (snd p))) ps.
Definition hfloats (ps : list (list Z * Z)) : list R := map (fun p => IZR (snd p)) ps.
(** no hyperedge is written twice, in whatever order of its vertices *)
Definition no_twice (l : list (list Z)) : Prop := ForallOrdPairs (fun e e' => ~ Permutation e e') l.
Lemma nodup_sorted l : NoDup (map zsort l) <-> no_twice l.
Proof.
  unfold no_twice. induction l as [|e l IH]; cbn [map]; [split; constructor|]. split; intros Q; inversion Q; subst; constructor; try apply IH; auto.
  - apply Forall_forall. intros e' I P. apply H1. apply zsort_eq_perm in P. rewrite P. apply in_map. exact I.
  - intros I. apply in_map_iff in I as (e' & E & I). rewrite Forall_forall in H1. apply (H1 e' I). apply zsort_eq_perm. congruence.
Qed.
Lemma hadds_fold {T} {N : Num T} m (f : T -> T -> T) ps nv vw : merge_fun m = Some f -> ps <> [] ->
  hadds m "main" ps (mkHRaw nv vw []) = (mkHRaw nv vw [("main"%string, fold_dm f ps [])], Ok tt).
Proof.
  intros MF NE. assert (G : forall qs d, hadds m "main" qs (mkHRaw nv vw [("main"%string, d)]) = (mkHRaw nv vw [("main"%string, fold_dm f qs d)], Ok tt)).
  { induction qs as [|[e w] qs IH]; intros d; cbn [hadds]; [reflexivity|]. unfold hadd1. cbn [h_gr dget]. rewrite eqb_refl.
    unfold fold_dm. cbn [fold_left fst snd]. unfold dmerge at 2. destruct (dget e d) as [x|].
    - rewrite MF. unfold set_gr. cbn [h_nv h_vw dset]. rewrite eqb_refl. apply IH.
    - unfold set_gr. cbn [h_nv h_vw dset]. rewrite eqb_refl. apply IH. }
  destruct ps as [|[e w] ps]; [congruence|]. cbn [hadds]. unfold hadd1. cbn [h_gr dget]. unfold set_gr. cbn [h_nv h_vw dset]. rewrite G. reflexivity.
Qed.

(** Hypergraph(nv, l, w, merge_op = m) with Python integers as hyperedge weights, against the same hypergraph with the weights written as floats,
    for the whole hypergraph and its group "main": every matrix of degrees is the same, but L_HGNN, L_sym, L_rw, smoothing_with_HGNN, v2e_update,
    v2e and v2v raise RuntimeError exactly if no hyperedge is written twice or the weights are not merged by "mean" *)
Theorem C181_hypergraph_actual : forall nv ps vw m sc, 0 < nv -> m <> MOther -> ps <> [] -> (sc = None \/ sc = Some "main"%string) ->
  match vw with Some w => length w = Z.to_nat nv | None => True end ->
  let l := map fst ps in
  exists (s : hypergraph pynum) (sf : hypergraph R),
    h_new nv (Some (HMany l)) (WList (hints ps)) vw m = Ok s /\
    h_new nv (Some (HMany l)) (WList (hfloats ps)) (option_map (map snd) vw) m = Ok sf /\
    let r := st_raw s in
    (forall q, In q [hqDv sc; hqDv1 sc; hqDv12 sc; hqDe sc; hqDe1 sc] -> py_hq q r = snd (h_query q sf)) /\
    let P : Prop := m = MMean -> no_twice l in
    (P -> py_hLhgnn sc r = Err RuntimeError /\ py_hLsym sc r = Err RuntimeError /\ py_hLrw sc r = Err RuntimeError /\
      forall X mean, py_hSmooth sc X r = Err RuntimeError /\ py_hUpd sc X r = Err RuntimeError /\ py_hV2e sc X mean r = Err RuntimeError /\
        py_hV2v sc X mean r = Err RuntimeError) /\
    (~ P -> py_hLhgnn sc r = snd (h_query (hqLhgnn sc) sf) /\ py_hLsym sc r = snd (h_query (hqLsym sc) sf) /\ py_hLrw sc r = snd (h_query (hqLrw sc) sf) /\
      forall X (mean : bool), let a := if mean then AggrMean else AggrSum in
        py_hSmooth sc X r = snd (h_query (hqHgnn sc X None) sf) /\ py_hUpd sc X r = snd (h_query (hqV2eUpd sc X None) sf) /\
        py_hV2e sc X mean r = snd (h_query (hqV2e sc X a None None None) sf) /\
        py_hV2v sc X mean r = snd (h_query (hqV2v sc X a false None None None None None None None (fun _ => true) (fun _ => true)) sf)).
Proof.
  intros nv ps vw m sc NV NM NE SC VW l.
  assert (NL : l <> []) by (unfold l; destruct ps; [congruence|discriminate]).
  assert (MF : exists f, @merge_fun pynum _ m = Some f) by (destruct m; try congruence; eexists; reflexivity). destruct MF as [f MF].
  assert (MF' : exists f, @merge_fun R _ m = Some f) by (destruct m; try congruence; eexists; reflexivity). destruct MF' as [f' MF'].
  pose proof (@merge_snd m f f' MF MF') as MS.
  set (pi := combine (map zsort l) (hints ps)).
  assert (MP : map fst pi = map zsort l) by (unfold pi, l, hints; rewrite map_map, combine_map2, map_map; reflexivity).
  assert (FI : Forall (fun p : list Z * pynum => fst (snd p) = true) pi).
  { unfold pi, l, hints. rewrite map_map, combine_map2. apply Forall_forall. intros x I. apply in_map_iff in I as (y & <- & _). reflexivity. }
  assert (TF : map (fun p : list Z * pynum => (fst p, snd (snd p))) pi = combine (map zsort l) (hfloats ps)).
  { unfold pi, l, hints, hfloats. rewrite !map_map, !combine_map2, map_map. reflexivity. }
  assert (NP : pi <> []) by (intros E; rewrite E in MP; destruct l; [congruence|discriminate]).
  assert (NEW : forall T (N : Num T) (g : T -> T -> T) ws (v : option (list T)), merge_fun m = Some g -> length ws = length ps ->
    match v with Some w => length w = Z.to_nat nv | None => True end ->
    h_new nv (Some (HMany l)) (WList ws) v m =
    Ok (mkSt (mkHRaw nv (Some (match v with Some w => w | None => repeat n1 (Z.to_nat nv) end)) [("main"%string, fold_dm g (combine (map zsort l) ws) [])]) [])).
  { intros T N g ws v MG LW LV. unfold h_new. replace (0 <? nv) with true by (symmetry; apply Z.ltb_lt; exact NV).
    assert (A : forall vv, h_add (HMany l) (WList ws) m "main" (mkSt (mkHRaw nv vv []) []) =
      (mkSt (mkHRaw nv vv [("main"%string, fold_dm g (combine (map zsort l) ws) [])]) [], Ok tt)).
    { intros vv. unfold h_add. cbn [hformat hweights st_raw st_cache]. rewrite map_length. unfold l at 1. rewrite map_length, LW, Nat.eqb_refl.
      rewrite (@hadds_fold T N m g _ nv vv MG).
      - reflexivity.
      - unfold l. destruct ps; [congruence|]. destruct ws; [discriminate|]. cbn. discriminate. }
    destruct v as [w|]; [rewrite LV, Nat.eqb_refl|]; rewrite A; reflexivity. }
  set (vwl := match vw with Some w => w | None => repeat n1 (Z.to_nat nv) end).
  set (r := mkHRaw nv (Some vwl) [("main"%string, fold_dm f pi [])]). exists (mkSt r []), (py_hfloat r). split; [|split].
  - apply NEW; auto. unfold hints. apply map_length.
  - rewrite (NEW _ _ f' (hfloats ps) (option_map (map snd) vw) MF').
    + unfold py_hfloat, r. cbn [h_nv h_vw h_gr map fst snd option_map]. rewrite (py_fold_dm f f' pi [] MS), TF. do 3 f_equal.
      unfold vwl. destruct vw; cbn [option_map]; [reflexivity|]. f_equal. clear. induction (Z.to_nat nv) as [|n IH]; [reflexivity|]. exact (f_equal (cons (n1 : R)) IH).
    + unfold hfloats. apply map_length.
    + destruct vw as [w|]; cbn [option_map]; [rewrite map_length; exact VW|exact I].
  - cbn zeta. cbn [st_raw].
    assert (IW : int_We sc r = true <-> (m = MMean -> no_twice l)).
    { assert (IG : int_group (fold_dm f pi []) = true <-> (m = MMean -> no_twice l)).
      { unfold int_group. rewrite andb_true_iff, (fold_int _ MF FI), MP, nodup_sorted.
        assert (Z0 : negb (Nat.eqb (length (fold_dm f pi [])) 0) = true).
        { apply negb_true_iff, Nat.eqb_neq. pose proof (@fold_dm_ne _ _ _ _ f pi [] NP) as Q. destruct (fold_dm f pi []); [congruence|discriminate]. }
        tauto. }
      destruct SC as [-> | ->]; unfold int_We, r; cbn [h_gr length Nat.eqb negb forallb snd dget andb].
      - rewrite andb_true_r. exact IG.
      - rewrite eqb_refl. exact IG. }
    split; [reflexivity|].
    unfold py_hLhgnn, py_hLsym, py_hLrw, py_hSmooth, py_hUpd, py_hV2e, py_hV2v, py_hW, no_int.
    destruct (int_We sc r); split; intros Q; try (exfalso; tauto); try (apply IW in Q; discriminate); repeat split.
Qed.
(** Hypergraph(3, [[0, 1], [1, 2]], [1, 2]) raises; with [1, 0] written again and the weights averaged it does not *)
Example C181_case : no_twice [[0; 1]; [1; 2]] /\ ~ (MMean = MMean -> no_twice [[0; 1]; [1; 2]; [1; 0]]).
Proof.
  split.
  - constructor; [|constructor; constructor]. constructor; [|constructor]. intros P.
    assert (I : In 0 [1; 2]) by (apply (Permutation_in 0 P); left; reflexivity). cbn in I. lia.
  - intros Q. specialize (Q eq_refl). inversion Q as [|? ? F]; subst. rewrite Forall_forall in F. apply (F [1; 0]); [right; left; reflexivity|apply perm_swap].
Qed.
(** BiGraph(2, 2, [(0, 1), (1, 1)], [2, 3]) *)
Example C180_bigraph_case : all_int (fun p q : Z * Z => p <> q) MMean [(0, 1); (1, 1)] /\ ~ all_int (fun p q : Z * Z => p <> q) MMean [(0, 1); (0, 1)].
Proof.
  split; [split; [discriminate|]; intros _; repeat constructor; discriminate|]. intros [_ Q]. specialize (Q eq_refl).
  inversion Q as [|? ? F]; subst. inversion F; subst. congruence.
Qed.
