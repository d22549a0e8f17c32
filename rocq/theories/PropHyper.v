(** Properties C27-C37 and C84-C89: Hypergraph. *)
From Coq Require Import String Permutation Sorted Reals Lra QArith Qcanon.
From Verif Require Import Num PyDict PyDictFacts Coo CooFacts MatFacts RealFacts ModelBase CacheFacts ModelGraph SpecGraph SpecGraphOps StoreFacts
  SoftmaxFacts GraphReach PropGraph HeapFacts PersistFacts PropStore ModelHyper HyperFacts SpecHyper HyperStore HyperView HyperMatrix HyperPass HyperReach HyperOps.
Set Implicit Arguments.
Local Open Scope string_scope.
Local Open Scope list_scope.
Local Open Scope Z_scope.
Local Notation q z := (Q2Qc (inject_Z z)).

(** A hypergraph with two groups, duplicates written in different vertex orders and a removal, used as the
    non-trivial case beside the theorems. *)
Definition ex_ops {T} `{Num T} : list (hop T) :=
  [HAdd (HMany [[3; 0]; [0; 2; 1]]) (WNum (nadd n1 n1)) MSum "other"; HQuery (hqE None); HAdd (HOne [1; 0; 2]) WNone MMax "other";
   HAdd (HOne [3]) WNone MMean "main"; HRemove (HOne [3]) (Some "main"); HAdd (HOne [0; 1]) (WList [n1; n1]) MSum "main"].
Definition ex_new : option harg := Some (HMany [[2; 0]; [1; 2]]).
Definition ex_reached {T} `{Num T} (s : hypergraph T) : Prop := h_clean_reach 4 ex_new (WList [n1; nadd n1 n1]) None MMean ex_ops s.
Local Ltac clean := unfold clean_new, ex_new, clean_op, clean_harg, hedges_of; repeat (constructor; try (cbn; lia)); cbn; intuition congruence.
Example ex_hyper : forall (T : Type) (N : Num T), exists s : hypergraph T,
  ex_reached s /\ h_reports s (Some "main") [[0; 2]; [1; 2]] [n1; nadd n1 n1] /\
  h_reports s (Some "other") [[0; 3]; [0; 1; 2]] [nadd n1 n1; nmax (nadd n1 n1) n1] /\
  h_reports s None [[0; 2]; [1; 2]; [0; 3]; [0; 1; 2]] [n1; nadd n1 n1; nadd n1 n1; nmax (nadd n1 n1) n1].
Proof.
  intros T N. assert (X : exists s0, h_new 4 ex_new (WList [n1; nadd n1 n1]) None MMean = Ok s0) by (eexists; reflexivity).
  destruct X as (s0 & E). exists (fst (h_run ex_ops s0)). injection E as <-. split; [|split; [|split]].
  - split; [eexists; split; reflexivity|]. split; [discriminate|]. split; [repeat constructor; discriminate|]. split; clean.
  - split; [reflexivity|discriminate].
  - split; [reflexivity|discriminate].
  - split; [reflexivity|]. intros _. cbn. discriminate.
Qed.

(** * C27 *)
(** two written hyperedges are the same exactly when one is a reordering of the other *)
Theorem C27_same_edge : forall e e', same_edge e e' = true <-> Permutation e e'.
Proof. exact same_edge_perm. Qed.
Theorem C27_store : forall (T : Type) (N : Num T) nv e w vw m ops (s : hypergraph T),
  h_reach nv e w vw m ops s -> m <> MOther -> Forall doc_op ops ->
  let A := h_spec nv e w vw m ops in
  snd (h_query hqNames s) = Ok (ONames (ah_names A)) /\ NoDup (ah_names A) /\
  snd (h_query hqVw s) = Ok (match ah_vw A with Some l => OVals l | None => OUnit end) /\
  forall g,
    (~ In g (ah_names A) -> snd (h_query (hqE (Some g)) s) = Err AssertionError /\ snd (h_query (hqNumE (Some g)) s) = Err AssertionError) /\
    (In g (ah_names A) -> exists es ws,
      snd (h_query (hqE (Some g)) s) = Ok (OHE es ws) /\ snd (h_query (hqNumE (Some g)) s) = Ok (OZ (Z.of_nat (length es))) /\
      length ws = length es /\ Forall (StronglySorted Z.le) es /\ ForallOrdPairs (fun a b => same_edge a b = false) es /\
      forall x c, ah_w A g x = Some c <-> exists x', same_edge x x' = true /\ In (x', c) (combine es ws)).
Proof.
  intros T N nv e w vw m ops s H M D A. destruct (h_reach_inv H M D) as (((W & NM & V & L) & C & NV) & P & _). fold A in NM, V, L.
  pose proof W as [O G].
  assert (AN : forall q0, is_Wv q0 = false -> snd (h_query q0 s) = hp_query q0 (st_raw s)) by (intros q0 Q; apply (good_answer (hgood_query (fz := None) q0 (or_intror Q)) C)).
  rewrite !AN by reflexivity. cbn [hp_query]. rewrite NM, V. split; [reflexivity|]. split; [rewrite <- NM; exact O|]. split; [reflexivity|].
  intros g. rewrite !AN by reflexivity. cbn [hp_query hp_e hp_ne]. unfold hp_e_g, p_group. split; intros I.
  - assert (E : dget g (h_gr (st_raw s)) = None) by (apply dget_None; rewrite NM; exact I). rewrite E. split; reflexivity.
  - destruct (dget g (h_gr (st_raw s))) as [d|] eqn:E.
    + exists (dkeys d), (dvals d). destruct (G _ _ E) as [OD SD]. split; [reflexivity|]. split; [cbn; rewrite dklen; reflexivity|].
      split; [unfold dkeys, dvals; rewrite !map_length; reflexivity|].
      assert (SS : forall x, In x (dkeys d) -> zsort x = x) by (rewrite Forall_forall in SD; exact SD).
      split; [apply Forall_forall; intros x Ix; rewrite <- (SS x Ix); apply zsort_sorted|]. split.
      * unfold dict_ok in OD. clear E SD. revert OD SS. generalize (dkeys d) as l. induction l as [|x l IH]; intros OD SS; constructor; inversion OD; subst.
        -- apply Forall_forall. intros y Iy. destruct (same_edge x y) eqn:SE; auto. rewrite same_edge_sort, (SS x), (SS y) in SE by (cbn; auto).
           destruct (eqb_spec x y) as [->|]; [tauto|discriminate].
        -- apply IH; auto. intros y Iy; apply SS; right; auto.
      * intros x c. rewrite <- L. unfold hlookup. rewrite E, combine_keys_vals. split.
        -- intros X. exists (zsort x). split; [apply same_edge_perm; symmetry; apply zsort_perm|apply dget_In; auto].
        -- intros (x' & SE & I'). apply In_dget; auto. assert (K' : In x' (dkeys d)) by (unfold dkeys; apply in_map_iff; exists (x', c); auto).
           rewrite <- (SS x' K') in I'. apply same_edge_perm, zsort_eq_perm in SE. rewrite SE. exact I'.
    + exfalso. apply dget_None in E. apply E. rewrite NM. exact I.
Qed.
(** the whole hypergraph reports the groups one after the other, in order of creation *)
Theorem C27_global : forall (T : Type) (N : Num T) nv e w vw m ops (s : hypergraph T) gs,
  h_reach nv e w vw m ops s -> m <> MOther -> Forall doc_op ops -> h_parts s gs ->
  snd (h_query (hqE None) s) = Ok (OHE (concat (map (fun x => fst (snd x)) gs)) (concat (map (fun x => snd (snd x)) gs))) /\
  snd (h_query (hqNumE None) s) = Ok (OZ (Z.of_nat (length (concat (map (fun x => fst (snd x)) gs))))).
Proof.
  intros T N nv e w vw m ops s gs H M D P. destruct (reach_hst H M D) as [C W NV PN V]. rewrite (parts_eq C W P).
  rewrite (h_e_all C W). rewrite (good_answer (hgood_query (fz := None) (hqNumE None) (or_intror eq_refl)) C). cbn [hp_query hp_ne rmap].
  rewrite raw_ne_eq. unfold parts. rewrite !map_map. split; reflexivity.
Qed.
(** rejected calls change nothing *)
Theorem C27_reject : forall (T : Type) (N : Num T) (s : hypergraph T),
  (forall e ws m g, length ws <> length (hedges_of e) -> h_step (HAdd e (WList ws) m g) s = (s, Err AssertionError)) /\
  (forall e g, (forall l, snd (h_query hqNames s) = Ok (ONames l) -> ~ In g l) -> h_step (HRemove e (Some g)) s = (s, Err AssertionError)).
Proof.
  intros T N s. split.
  - intros e ws m g NE. cbn [h_step]. unfold unit_out, bind, h_add. rewrite hformat_edges, map_length. unfold hweights.
    destruct (Nat.eqb_spec (length ws) (length (hedges_of e))); [tauto|reflexivity].
  - intros e g NI. cbn [h_step]. unfold unit_out, bind, h_remove, dhas. specialize (NI _ eq_refl).
    assert (E : dget g (h_gr (st_raw s)) = None) by (apply dget_None; exact NI). rewrite E. reflexivity.
Qed.
Example C27_case : forall (T : Type) (N : Num T), exists s : hypergraph T, ex_reached s /\
  h_parts s [("main", ([[0; 2]; [1; 2]], [n1; nadd n1 n1])); ("other", ([[0; 3]; [0; 1; 2]], [nadd n1 n1; nmax (nadd n1 n1) n1]))] /\
  (let A := h_spec 4 ex_new (WList [n1; nadd n1 n1]) None MMean ex_ops in
   ah_names A = ["main"; "other"] /\ ah_w A "other" [2; 1; 0] = Some (nmax (nadd n1 n1) (@n1 T N)) /\ ah_w A "main" [3] = None).
Proof.
  intros T N. destruct (ex_hyper N) as (s & X & E1 & E2 & E3). exists s. split; auto. destruct X as ((s0 & E0 & ->) & _). injection E0 as <-.
  split; [split; [reflexivity|repeat constructor]|]. split; [reflexivity|]. split; reflexivity.
Qed.

(** * C28 *)
(** Whatever happened before, from now on the object answers every call like one freshly built from what it reports. *)
Theorem C28_fresh : forall (T : Type) (N : Num T) nv e w vw m ops (s : hypergraph T) gs,
  h_reach nv e w vw m ops s -> m <> MOther -> Forall doc_op ops -> h_parts s gs ->
  exists vw0 s0, snd (h_query hqVw s) = Ok (match vw0 with Some l => OVals l | None => OUnit end) /\
    h_reach nv None WNone vw0 MMean (rebuild vw0 gs) s0 /\
    forall later, Forall doc_op later -> snd (h_run later s) = snd (h_run later s0).
Proof.
  intros T N nv e w vw m ops s gs H M D P. pose proof (reach_hst H M D) as I. destruct I as [C W NV PN V].
  rewrite (parts_eq C W P). exists (h_vw (st_raw s)), (mkSt (st_raw s) []). split; [reflexivity|].
  split; [apply hst_rebuild; constructor; auto|]. intros later DL.
  apply (@h_run_agree _ _ true None None); auto; [apply Forall_forall; intros; exact I|apply coh_empty|split; auto].
Qed.
(** asking a question never changes any later answer *)
Theorem C28_queries_pure : forall (T : Type) (N : Num T) nv e w vw m ops (s : hypergraph T) q0 later,
  h_reach nv e w vw m ops s -> m <> MOther -> Forall doc_op ops -> Forall doc_op later ->
  snd (h_run (HQuery q0 :: later) s) = snd (h_query q0 s) :: snd (h_run later s).
Proof.
  intros T N nv e w vw m ops s q0 later H M D DL. destruct (reach_hst H M D) as [C W NV PN V]. cbn [h_run h_step].
  pose proof (hgood_query (fz := None) q0 (or_introl eq_refl)) as G. pose proof (good_raw G C) as RW. pose proof (good_coh G C) as CC.
  destruct (h_query q0 s) as [s1 x]. cbn [fst snd] in *.
  assert (E : snd (h_run later s1) = snd (h_run later s)).
  { apply (@h_run_agree _ _ true None None); auto; [apply Forall_forall; intros; exact I|rewrite RW; split; auto]. }
  destruct (h_run later s1), (h_run later s). cbn in *. congruence.
Qed.
Example C28_case : exists s : hypergraph Qc, ex_reached s /\ Forall doc_op [HQuery (hqDv None); HRemoveGroup "main"; @HQuery Qc (hqLrw None)].
Proof. destruct (ex_hyper Num_Qc) as (s & X & _). exists s. split; [exact X|repeat constructor]. Qed.

(** * C84 *)
(** The exception to C28: a rejected add_hyperedges (unknown merge operation met half way) has already stored
    the hyperedges before the duplicate but keeps the caches, so [e] and [num_e] contradict each other. *)
Theorem C84_stale_after_failed_add_actual : forall (T : Type) (N : Num T) nv e w vw m ops (s : hypergraph T) g es ws x y,
  h_reach nv e w vw m ops s -> m <> MOther -> Forall doc_op ops -> snd (h_query (hqE (Some g)) s) = Ok (OHE es ws) ->
  (forall e', In e' es -> same_edge x e' = false) -> (exists e', In e' es /\ same_edge y e' = true) ->
  let s1 := fst (h_query (hqE (Some g)) s) in
  let s2 := fst (h_step (HAdd (HMany [x; y]) WNone MOther g) s1) in
  snd (h_step (HAdd (HMany [x; y]) WNone MOther g) s1) = Err AssertionError /\
  snd (h_query (hqNumE (Some g)) s2) = Ok (OZ (Z.of_nat (length es) + 1)) /\
  snd (h_query (hqE (Some g)) s2) = Ok (OHE es ws).
Proof.
  intros T N nv e w vw m ops s g es ws x y H M D E NX (e' & IY & SY) s1 s2. destruct (reach_hst H M D) as [C W NV PN V]. pose proof W as [O G].
  pose proof (hgood_query (fz := None) (hqE (Some g)) (or_introl eq_refl)) as GQ.
  pose proof (good_raw GQ C) as RW. pose proof (good_coh GQ C) as CC. 
  assert (HR : h_reports s (Some g) es ws) by (split; [exact E|discriminate]). pose proof (reports_scope C W HR) as SC.
  (* the cached entry *)
  fold s1 in RW, CC. cbn [scope] in SC. destruct (dget g (h_gr (st_raw s))) as [d|] eqn:DG; [|discriminate]. injection SC as <- <-.
  destruct (G _ _ DG) as [OD SD]. assert (SS : forall z, In z (dkeys d) -> zsort z = z) by (rewrite Forall_forall in SD; exact SD).
  assert (DX : dget (zsort x) d = None).
  { destruct (dget (zsort x) d) eqn:DX; auto. apply dget_In in DX. assert (K : In (zsort x) (dkeys d)) by (unfold dkeys; apply in_map_iff; eexists; split; [|exact DX]; reflexivity).
    specialize (NX _ K). rewrite same_edge_sort, zsort_idem, eqb_refl in NX. discriminate. }
  assert (DY : exists v, dget (zsort y) (dset (zsort x) n1 d) = Some v).
  { rewrite dset_new by exact DX. assert (K : In (zsort y) (dkeys d)). { rewrite same_edge_sort, (SS _ IY) in SY. destruct (eqb_spec (zsort y) e') as [->|]; [auto|discriminate]. }
    unfold dkeys in K. apply in_map_iff in K as ([k v] & <- & K). exists v. apply In_dget; [|apply in_or_app; left; exact K].
    rewrite <- (dset_new _ _ _ DX). apply dset_ok; auto. }
  destruct DY as (v & DY).
  assert (ST : h_add (HMany [x; y]) WNone MOther g s1 = (mkSt (set_gr (st_raw s) (dset g (dset (zsort x) n1 d) (h_gr (st_raw s)))) (st_cache s1), Err AssertionError)).
  { unfold h_add. cbn [hformat map length hweights repeat combine hadds]. rewrite RW. unfold hadd1 at 1. rewrite DG, DX.
    unfold hadd1, set_gr. cbn [h_gr]. rewrite dget_dset_same, DY. reflexivity. }
  subst s2. cbn [h_step]. rewrite unit_out_fst. unfold unit_out, bind. rewrite ST. cbn [fst snd]. split; [reflexivity|]. split.
  - unfold h_query, bind, get_ne, with_group, bind, ask. cbn [st_raw set_gr h_gr]. rewrite dget_dset_same. cbn. rewrite dset_new by exact DX.
    rewrite app_length, dklen. cbn. do 2 f_equal. lia.
  - (* the cache still holds the old list *)
    assert (CE : dget (KH (Some g) HKe) (st_cache s1) = Some (injHE (dkeys d, dvals d))).
    { clear - DG C. subst s1. unfold h_query, bind, get_he, get_he_g, memoHE, with_group, bind, ask. rewrite DG.
      unfold memo. destruct (dget (KH (Some g) HKe) (st_cache s)) as [v0|] eqn:CE.
      - pose proof (C _ _ CE) as X. cbn [hspec] in X. unfold hp_e, hp_e_g, p_group in X. rewrite DG in X. cbn in X. injection X as <-. cbn. exact CE.
      - cbn. apply dget_dset_same. }
    unfold h_query, bind, get_he, get_he_g, memoHE, with_group, bind, ask. cbn [st_raw set_gr h_gr]. rewrite dget_dset_same.
    unfold memo. cbn [st_cache]. rewrite CE. reflexivity.
Qed.
Theorem C84_stale_after_failed_add_refuted : exists (s : hypergraph Qc),
  let ops := [HQuery (hqE (Some "main")); HAdd (HMany [[0; 2]; [0; 1]]) WNone MOther "main"; HQuery (hqNumE (Some "main")); HQuery (hqE (Some "main"))] in
  h_reach 3 (Some (HOne [0; 1])) WNone None MMean [] s /\
  snd (h_run ops s) = [Ok (OHE [[0; 1]] [q 1]); Err AssertionError; Ok (OZ 2); Ok (OHE [[0; 1]] [q 1])].
Proof. eexists. split; [eexists; split; reflexivity|]. vm_compute. qceq. Qed.

(** * C29 *)
Theorem C29_incidence : forall (T : Type) (N : Num T), ring_theory (@nz T N) n1 nadd nmul nsub nopp eq ->
  forall nv e w vw m ops (s : hypergraph T) sc es ws, h_clean_reach nv e w vw m ops s -> h_reports s sc es ws ->
  exists Hm, snd (h_query (hqH sc) s) = Ok (OM Hm) /\ snd (h_query (hqHT sc) s) = Ok (OM (ctrans Hm)) /\
    (forall v2e, snd (h_query (hqHdir v2e sc) s) = Ok (OM Hm)) /\
    (forall v i, mget (ctrans Hm) i v = mget Hm v i) /\
    (forall v i, 0 <= i < Z.of_nat (length es) -> (In v (nthe es i) -> mget Hm v i = n1) /\ (~ In v (nthe es i) -> mget Hm v i = nz)) /\
    (forall v i, ~ 0 <= i < Z.of_nat (length es) -> mget Hm v i = nz).
Proof.
  intros T N RT nv e w vw m ops s sc es ws H R. destruct (clean_state H R) as (C & W & K & NV & S).
  destruct (hquery_H RT C W K sc S) as (Hm & A & B & E & F). exists Hm. split; auto. split; auto. split.
  { intros b. rewrite (hans C) in A by reflexivity. rewrite (hans C) by reflexivity. exact A. }
  split; [intros; apply mget_ctrans|]. split; auto. intros v i I. rewrite E by auto. split; intros J; [apply zmem_In in J; rewrite J; auto|].
  destruct (zmem v (nthe es i)) eqn:Q; auto. apply zmem_In in Q; tauto.
Qed.
Theorem C29_degrees : forall (T : Type) (N : Num T), ring_theory (@nz T N) n1 nadd nmul nsub nopp eq ->
  forall nv e w vw m ops (s : hypergraph T) sc es ws, h_clean_reach nv e w vw m ops s -> h_reports s sc es ws ->
  let k := Z.of_nat (length es) in
  snd (h_query (hqWe sc) s) = Ok (OM (diag k (nthw ws))) /\
  snd (h_query (hqDv sc) s) = Ok (OM (diag nv (hdeg es ws))) /\
  snd (h_query (hqDv1 sc) s) = Ok (OM (diag nv (fun v => ninv (hdeg es ws v)))) /\
  snd (h_query (hqDv12 sc) s) = Ok (OM (diag nv (fun v => nisq (hdeg es ws v)))) /\
  snd (h_query (hqDe sc) s) = Ok (OM (diag k (fun i => hcard (nthe es i)))) /\
  snd (h_query (hqDe1 sc) s) = Ok (OM (diag k (fun i => ninv (hcard (nthe es i))))) /\
  snd (h_query (hqDegV sc) s) = Ok (OVals (map (hdeg es ws) (range nv))) /\
  snd (h_query (hqDegE sc) s) = Ok (OVals (map hcard es)) /\
  sumf (range nv) (hdeg es ws) = sumf (combine es ws) (fun ew => nmul (snd ew) (hcard (fst ew))).
Proof.
  intros T N RT nv e w vw m ops s sc es ws H R. destruct (clean_state H R) as (C & W & K & NV & S). subst nv. exact (hquery_D RT C W K sc S).
Qed.
Theorem C29_vertex_weights : forall (T : Type) (N : Num T) nv e w vw m ops (s : hypergraph T) l,
  h_reach nv e w vw m ops s -> m <> MOther -> Forall doc_op ops -> snd (h_query hqVw s) = Ok (OVals l) ->
  length l = Z.to_nat nv /\ snd (h_query hqWv s) = Ok (OM (diag nv (nthw l))).
Proof.
  intros T N nv e w vw m ops s l H M D E. destruct (reach_hst H M D) as [C W NV PN V].
  rewrite (good_answer (hgood_query (fz := None) hqWv (or_introl eq_refl)) C).
  rewrite (good_answer (hgood_query (fz := None) hqVw (or_introl eq_refl)) C) in E. cbn [hp_query] in *. unfold hp_Wv.
  destruct (h_vw (st_raw s)) as [l0|]; [|discriminate]. injection E as ->. specialize (V l eq_refl). split; [exact V|].
  cbn [rmap]. rewrite diag_of_eq, V. rewrite Z2Nat.id by lia. reflexivity.
Qed.
(** the coordinate lists are exactly the incidences, each once, and describe H *)
Theorem C29_coordinates : forall (T : Type) (N : Num T) nv e w vw m ops (s : hypergraph T) sc es ws,
  h_clean_reach nv e w vw m ops s -> h_reports s sc es ws -> exists src dst ones,
  snd (h_query (hqV2eSrc sc) s) = Ok (OIdx src) /\ snd (h_query (hqV2eDst sc) s) = Ok (OIdx dst) /\ snd (h_query (hqV2eW sc) s) = Ok (OVals ones) /\
  snd (h_query (hqE2vSrc sc) s) = Ok (OIdx dst) /\ snd (h_query (hqE2vDst sc) s) = Ok (OIdx src) /\ snd (h_query (hqE2vW sc) s) = Ok (OVals ones) /\
  length src = length dst /\ ones = map (fun _ => n1) src /\ NoDup (combine src dst) /\
  snd (h_query (hqH sc) s) = Ok (OM (combine (combine src dst) ones)) /\
  forall v i, In (v, i) (combine src dst) <-> 0 <= i < Z.of_nat (length es) /\ In v (nthe es i).
Proof.
  intros T N nv e w vw m ops s sc es ws H R. destruct (clean_state H R) as (C & W & K & NV & S). exact (hquery_coords C W K sc S).
Qed.
Example C29_case : exists (s : hypergraph Qc) es ws, ex_reached s /\ h_reports s None es ws /\ length es = 4%nat /\
  snd (h_query (hqDegV None) s) = Ok (OVals [q 5; q 4; q 5; q 2]) /\ snd (h_query (hqDegE None) s) = Ok (OVals [q 2; q 2; q 2; q 3]).
Proof.
  destruct (ex_hyper Num_Qc) as (s & X & _ & _ & E). eexists s, _, _. split; [exact X|]. split; [exact E|]. split; [reflexivity|].
  clear E. destruct X as ((s0 & E0 & ->) & _). injection E0 as <-. split; vm_compute; qceq.
Qed.

(** * C85 *)
(** a hypergraph without any group answers [e] and [num_e] but every global matrix query raises *)
Theorem C85_no_groups_actual : forall (T : Type) (N : Num T) nv e w vw m ops (s : hypergraph T),
  h_reach nv e w vw m ops s -> m <> MOther -> Forall doc_op ops -> snd (h_query hqNames s) = Ok (ONames []) ->
  snd (h_query (hqE None) s) = Ok (OHE [] []) /\ snd (h_query (hqNumE None) s) = Ok (OZ 0) /\
  Forall (fun q0 => snd (h_query q0 s) = Err RuntimeError)
    [hqH None; hqHT None; hqHdir true None; hqHdir false None; hqWe None; hqDv None; hqDv1 None; hqDv12 None; hqDe None; hqDe1 None; hqDegV None; hqDegE None;
     hqLsym None; hqLrw None; hqLhgnn None; hqV2eSrc None; hqE2vSrc None] /\
  forall X a keep, a <> AggrOther -> Forall (fun q0 => snd (h_query q0 s) = Err RuntimeError)
    [hqHgnn None X keep; hqV2e None X a None None keep; hqE2v None X a None keep;
     hqV2v None X a false None None None None None None None (fun _ => true) (fun _ => true)].
Proof.
  intros T N nv e w vw m ops s H M D E. destruct (reach_hst H M D) as [C W NV PN V].
  assert (AN : forall q0, snd (h_query q0 s) = hp_query q0 (st_raw s)) by (intros q0; apply (good_answer (hgood_query (fz := None) q0 (or_introl eq_refl)) C)).
  rewrite AN in E. cbn [hp_query] in E. injection E as E. apply map_eq_nil in E. destruct (st_raw s) as [n v gr]. cbn [h_gr] in E. subst gr.
  rewrite !AN. split; [reflexivity|]. split; [reflexivity|]. split; [repeat constructor; rewrite AN; reflexivity|].
  intros X a keep NA. repeat constructor; rewrite AN; try reflexivity; destruct a; try reflexivity; congruence.
Qed.
Theorem C85_no_groups_refuted : exists s : hypergraph Qc, h_reach 3 None WNone None MMean [] s /\
  snd (h_query (hqDegV None) s) = Err RuntimeError.
Proof. eexists. split; [eexists; split; reflexivity|]. reflexivity. Qed.

(** * C30 *)
Theorem C30_neighbours : forall (T : Type) (N : Num T) nv e w vw m ops (s : hypergraph T) sc es ws v i,
  h_clean_reach nv e w vw m ops s -> h_reports s sc es ws -> 0 <= v < nv -> 0 <= i < Z.of_nat (length es) ->
  exists le lv, snd (h_query (hqNe sc v) s) = Ok (OIdx le) /\ snd (h_query (hqNv sc i) s) = Ok (OIdx lv) /\
    NoDup le /\ NoDup lv /\ (In i le <-> In v (nthe es i)) /\ (In v lv <-> In v (nthe es i)) /\
    (forall j, In j le -> 0 <= j < Z.of_nat (length es)) /\ (forall u, In u lv -> 0 <= u < nv).
Proof.
  intros T N nv e w vw m ops s sc es ws v i H R IV II. destruct (clean_state H R) as (C & W & K & NV & S). subst nv.
  destruct (hquery_Ne C W K sc S IV) as (le & A & B & D). destruct (hquery_Nv C W K sc S II) as (lv & A' & B' & D').
  exists le, lv. split; auto. split; auto. split; auto. split; auto. split; [rewrite D; tauto|]. split; [apply D'|]. split; [intros j J; apply D in J; tauto|].
  intros u J. apply D' in J. destruct (hview_scope sc W K S) as (Hm & VW). eapply clean_In; [|exact II|exact J]. apply (hv_clean VW).
Qed.
Theorem C30_out_of_range : forall (T : Type) (N : Num T) nv e w vw m ops (s : hypergraph T) sc es ws x,
  h_clean_reach nv e w vw m ops s -> h_reports s sc es ws ->
  (nv <= x -> snd (h_query (hqNe sc x) s) = Err AssertionError) /\
  (Z.of_nat (length es) <= x -> snd (h_query (hqNv sc x) s) = Err AssertionError).
Proof.
  intros T N nv e w vw m ops s sc es ws x H R. destruct (clean_state H R) as (C & W & K & NV & S). subst nv. exact (hquery_N_out C sc S x).
Qed.
Example C30_case : exists s : hypergraph Qc, ex_reached s /\
  snd (h_query (hqNe None 0) s) = Ok (OIdx [0; 2; 3]) /\ snd (h_query (hqNv None 2) s) = Ok (OIdx [0; 3]).
Proof.
  destruct (ex_hyper Num_Qc) as (s & X & _). exists s. split; [exact X|]. destruct X as ((s0 & E0 & ->) & _). injection E0 as <-. split; vm_compute; reflexivity.
Qed.

(** * C31 *)
Theorem C31_isolated : forall (T : Type) (N : Num T) nv e w vw m ops (s : hypergraph T) o g g' q0,
  h_reach nv e w vw m ops s -> m <> MOther -> Forall doc_op ops -> doc_op o -> op_group o = Some g -> g' <> g ->
  q_scope q0 = Some (Some g') -> snd (h_query q0 (fst (h_step o s))) = snd (h_query q0 s).
Proof.
  intros T N nv e w vw m ops s o g g' q0 H M D DO OG NE QS.
  destruct (h_reach_inv H M D) as (I & P & _). destruct (h_step_inv o DO I) as ((_ & C1 & N1) & _). destruct I as (_ & C & NV).
  rewrite (good_answer (hgood_query (fz := None) q0 (or_introl eq_refl)) C), (good_answer (hgood_query (fz := None) q0 (or_introl eq_refl)) C1).
  destruct (h_step_local o s OG NE) as [A B]. eapply hp_query_local; eauto.
Qed.
(** the incidence matrix and the weights of the whole hypergraph are those of the groups side by side *)
Theorem C31_side_by_side : forall (T : Type) (N : Num T), ring_theory (@nz T N) n1 nadd nmul nsub nopp eq ->
  forall nv e w vw m ops (s : hypergraph T) pre g es ws post,
  h_clean_reach nv e w vw m ops s -> h_parts s (pre ++ (g, (es, ws)) :: post) ->
  let off := Z.of_nat (length (concat (map (fun x => fst (snd x)) pre))) in
  exists Hall Hg Wall Wg, snd (h_query (hqH None) s) = Ok (OM Hall) /\ snd (h_query (hqH (Some g)) s) = Ok (OM Hg) /\
    snd (h_query (hqWe None) s) = Ok (OM Wall) /\ snd (h_query (hqWe (Some g)) s) = Ok (OM Wg) /\
    forall i, 0 <= i < Z.of_nat (length es) -> (forall v, mget Hall v (off + i) = mget Hg v i) /\ mget Wall (off + i) (off + i) = mget Wg i i.
Proof.
  intros T N RT nv e w vw m ops s pre g es ws post H P off. destruct H as (H & M & D & CN & CO).
  pose proof (C27_global H M D P) as [E _]. rewrite !map_app, !concat_app in E. cbn [map concat fst snd] in E.
  set (e0 := concat (map (fun x => fst (snd x)) pre)) in *. set (w0 := concat (map (fun x => snd (snd x)) pre)) in *.
  set (e1 := concat (map (fun x => fst (snd x)) post)) in *. set (w1 := concat (map (fun x => snd (snd x)) post)) in *.
  assert (RA : h_reports s None (e0 ++ es ++ e1) (w0 ++ ws ++ w1)).
  { split; [exact E|]. intros _. destruct P as [P _]. rewrite P. rewrite map_app. destruct pre; discriminate. }
  assert (RG : h_reports s (Some g) es ws).
  { split; [|discriminate]. destruct P as [_ P]. rewrite Forall_forall in P. apply (P (g, (es, ws))). apply in_or_app. right; left; auto. }
  assert (HC : h_clean_reach nv e w vw m ops s) by (repeat split; auto).
  destruct (clean_state HC RA) as (C & W & K & NV & SA). destruct (clean_state HC RG) as (_ & _ & _ & _ & SG).
  destruct (hquery_H RT C W K None SA) as (Ha & A1 & _ & A3 & _). destruct (hquery_H RT C W K (Some g) SG) as (Hg & B1 & _ & B3 & _).
  destruct (hquery_D RT C W K None SA) as (A4 & _). destruct (hquery_D RT C W K (Some g) SG) as (B4 & _).
  eexists Ha, Hg, _, _. split; [exact A1|]. split; [exact B1|]. split; [exact A4|]. split; [exact B4|].
  assert (LW : length w0 = length e0).
  { destruct (reach_hst H M D) as [_ W' _ _ _]. clear - P C W'. pose proof (parts_eq C W' P) as Q. unfold parts in Q.
    subst e0 w0. assert (X : forall x, In x pre -> length (snd (snd x)) = length (fst (snd x))).
    { intros x I. assert (J : In x (pre ++ (g, (es, ws)) :: post)) by (apply in_or_app; auto). rewrite Q in J. apply in_map_iff in J as ([g0 d] & <- & _).
      cbn. unfold dkeys, dvals. rewrite !map_length. reflexivity. }
    clear - X. induction pre as [|x pre IH]; cbn; auto.
    rewrite !app_length, (X x) by (left; reflexivity). rewrite IH; [reflexivity|]. intros y I; apply X; right; exact I. }
  assert (LG : length ws = length es) by apply (hquery_e C W K (Some g) SG).
  assert (OFF : off = Z.of_nat (length e0)) by reflexivity.
  intros i I. assert (R1 : 0 <= off + i < Z.of_nat (length (e0 ++ es ++ e1))) by (rewrite !app_length; lia).
  split.
  - intros v. rewrite A3 by auto. rewrite B3 by auto. replace (nthe (e0 ++ es ++ e1) (off + i)) with (nthe es i); [reflexivity|].
    rewrite nthe_app by lia. destruct (Z.ltb_spec (off + i) (Z.of_nat (length e0))); [lia|].
    rewrite nthe_app by lia. replace (off + i - Z.of_nat (length e0)) with i by lia. destruct (Z.ltb_spec i (Z.of_nat (length es))); [reflexivity|lia].
  - rewrite !(mget_diag RT). rewrite !Z.eqb_refl.
    replace ((0 <=? off + i) && (off + i <? Z.of_nat (length (e0 ++ es ++ e1)))) with true by (symmetry; apply andb_true_iff; split; [apply Z.leb_le|apply Z.ltb_lt]; lia).
    replace ((0 <=? i) && (i <? Z.of_nat (length es))) with true by (symmetry; apply andb_true_iff; split; [apply Z.leb_le|apply Z.ltb_lt]; lia).
    cbn. unfold nthw. rewrite app_nth2 by lia. rewrite app_nth1 by lia. f_equal. lia.
Qed.
Example C31_case : exists s : hypergraph Qc, ex_reached s /\
  op_group (HAdd (HOne [0; 2]) (WNum (q 5)) MSum "main") = Some "main" /\ "other" <> "main" /\
  snd (h_query (hqE (Some "main")) (fst (h_step (HAdd (HOne [0; 2]) (WNum (q 5)) MSum "main") s))) = Ok (OHE [[0; 2]; [1; 2]] [q 6; q 2]).
Proof.
  destruct (ex_hyper Num_Qc) as (s & X & _). exists s. split; [exact X|]. split; [reflexivity|]. split; [discriminate|].
  destruct X as ((s0 & E0 & ->) & _). injection E0 as <-. vm_compute. qceq.
Qed.

(** * C34 *)
Theorem C34_formulas : forall (T : Type) (N : Num T), ring_theory (@nz T N) n1 nadd nmul nsub nopp eq ->
  forall nv e w vw m ops (s : hypergraph T) sc es ws, h_clean_reach nv e w vw m ops s -> h_reports s sc es ws ->
  exists L Ls Lr,
    snd (h_query (hqLhgnn sc) s) = Ok (OM L) /\ snd (h_query (hqLsym sc) s) = Ok (OM Ls) /\ snd (h_query (hqLrw sc) s) = Ok (OM Lr) /\
    (forall X keep, snd (h_query (hqHgnn sc X keep) s) = Ok (OVals (map (spmv (cdrop_opt keep L) X) (range nv)))) /\
    forall u v, 0 <= u < nv -> 0 <= v < nv ->
      mget L u v = nmul (nmul (nisq (hdeg es ws u)) (hshare es ws u v)) (nisq (hdeg es ws v)) /\ mget L u v = mget L v u /\
      mget Ls u v = nsub (if u =? v then n1 else nz) (mget L u v) /\
      mget Lr u v = nsub (if u =? v then n1 else nz) (nmul (ninv (hdeg es ws u)) (hshare es ws u v)).
Proof.
  intros T N RT nv e w vw m ops s sc es ws H R. destruct (clean_state H R) as (C & W & K & NV & S). subst nv.
  destruct (hquery_L RT C W K sc S) as (L & Ls & Lr & A & B & D & _ & _ & _ & X & F). exists L, Ls, Lr.
  split; auto. split; auto. split; auto. split; auto. intros u v U V. destruct (F u v U V) as (F1 & F2 & F3). destruct (F v u V U) as (G1 & _ & _).
  split; auto. split; [|auto]. rewrite F1, G1. rewrite (hshare_sym es ws u v).
  rewrite (Rmul_comm RT (nmul _ _) (nisq (hdeg es ws v))), (Rmul_comm RT (nisq (hdeg es ws u))), (Rmul_assoc RT). reflexivity.
Qed.
(** with non-negative weights: smoothing with L_HGNN never increases the energy, L_sym is positive semidefinite
    (and at most 2), L_rw annihilates constants on every vertex of non-zero degree *)
Theorem C34_energy : forall nv e w vw m ops (s : hypergraph R) sc es ws,
  h_clean_reach nv e w vw m ops s -> h_reports s sc es ws -> Forall (fun c => (0 <= c)%R) ws -> forall x : Z -> R,
  exists y Ls, snd (h_query (hqHgnn sc x None) s) = Ok (OVals (map y (range nv))) /\ snd (h_query (hqLsym sc) s) = Ok (OM Ls) /\
    (Rabs (sumf (range nv) (fun i => x i * y i)) <= sumf (range nv) (fun i => x i * x i))%R /\
    (0 <= sumf (range nv) (fun i => x i * sumf (range nv) (fun j => mget Ls i j * x j)) <= 2 * sumf (range nv) (fun i => x i * x i))%R.
Proof.
  intros nv e w vw m ops s sc es ws H R P x. destruct (clean_state H R) as (C & W & K & NV & S). subst nv.
  destruct (henergy C W K sc S P x) as (y & A & B & D). destruct (hquery_L RT C W K sc S) as (_ & Ls & _ & _ & E & _).
  exists y, Ls. split; auto.
Qed.
Theorem C34_constants : forall nv e w vw m ops (s : hypergraph R) sc es ws c v,
  h_clean_reach nv e w vw m ops s -> h_reports s sc es ws -> 0 <= v < nv ->
  exists Lr, snd (h_query (hqLrw sc) s) = Ok (OM Lr) /\
    (hdeg es ws v <> 0%R -> spmv Lr (fun _ => c) v = 0%R) /\ (hdeg es ws v = 0%R -> spmv Lr (fun _ => c) v = c).
Proof.
  intros nv e w vw m ops s sc es ws c v H R V. destruct (clean_state H R) as (C & W & K & NV & S). subst nv.
  destruct (hquery_L RT C W K sc S) as (_ & _ & Lr & _ & _ & E & _). exists Lr. split; auto.
  pose proof (hrw_constants C W K sc S c E V) as X. destruct (Req_EM_T (hdeg es ws v) 0); split; intros; tauto.
Qed.
Example C34_case : exists (s : hypergraph R) es ws, ex_reached s /\ h_reports s None es ws /\ Forall (fun c => (0 <= c)%R) ws /\ length es = 4%nat.
Proof.
  destruct (ex_hyper Num_R) as (s & X & _ & _ & E). eexists s, _, _. split; [exact X|]. split; [exact E|]. split; [|reflexivity].
  assert (P : (0 <= Rmax (1 + 1) 1)%R) by (apply Rle_trans with (1 + 1)%R; [lra|apply Rmax_l]).
  constructor; [cbn; lra|]. constructor; [cbn; lra|]. constructor; [cbn; lra|]. constructor; [exact P|constructor].
Qed.

(** * C35 *)
(** v2e and e2v: sums and averages; v2v is e2v after v2e; the hyperedge update multiplies by the weight *)
Theorem C35_v2e : forall (T : Type) (N : Num T), ring_theory (@nz T N) n1 nadd nmul nsub nopp eq ->
  forall nv e w vw m ops (s : hypergraph T) sc es ws X, h_clean_reach nv e w vw m ops s -> h_reports s sc es ws ->
  let k := Z.of_nat (length es) in exists ys ym,
    snd (h_query (hqV2eAgg sc X AggrSum None None) s) = Ok (OVals (map ys (range k))) /\
    snd (h_query (hqV2eAgg sc X AggrMean None None) s) = Ok (OVals (map ym (range k))) /\
    (forall i, 0 <= i < k -> ys i = sumf (nthe es i) X /\ ym i = nmul (ninv (hcard (nthe es i))) (sumf (nthe es i) X)) /\
    (forall Y, snd (h_query (hqV2eUpd sc Y None) s) = Ok (OVals (map (fun i => nmul (nthw ws i) (Y i)) (range k)))) /\
    (forall Y ew, length ew = length es -> snd (h_query (hqV2eUpd sc Y (Some ew)) s) = Ok (OVals (map (fun i => nmul (nthw ew i) (Y i)) (range k)))) /\
    (forall a wt ew keep, snd (h_query (hqV2e sc X a wt ew keep) s) =
      match snd (h_query (hqV2eAgg sc X a wt keep) s) with
      | Ok (OVals y) => snd (h_query (hqV2eUpd sc (nthw y) ew) s)
      | Ok _ => Err TypeError
      | Err x => Err x
      end).
Proof.
  intros T N RT nv e w vw m ops s sc es ws X H R. destruct (clean_state H R) as (C & W & K & NV & S). subst nv.
  destruct (hquery_v2e_agg RT C W K sc S X) as (ys & ym & A & B & D). exists ys, ym. split; auto. split; auto. split; auto.
  split; [intros Y; apply (hquery_v2e_upd RT C W K sc S Y)|]. split; [intros Y; apply (hquery_v2e_upd RT C W K sc S Y)|].
  intros. apply (hquery_v2e C W K sc S).
Qed.
Theorem C35_e2v : forall (T : Type) (N : Num T), ring_theory (@nz T N) n1 nadd nmul nsub nopp eq ->
  forall nv e w vw m ops (s : hypergraph T) sc es ws Y, h_clean_reach nv e w vw m ops s -> h_reports s sc es ws -> exists ys ym,
    snd (h_query (hqE2v sc Y AggrSum None None) s) = Ok (OVals (map ys (range nv))) /\
    snd (h_query (hqE2v sc Y AggrMean None None) s) = Ok (OVals (map ym (range nv))) /\
    forall v, 0 <= v < nv -> let inc := sumf (range (Z.of_nat (length es))) (fun i => if zmem v (nthe es i) then Y i else nz) in
      ys v = inc /\ ym v = nmul (ninv (hdeg es ws v)) inc.
Proof.
  intros T N RT nv e w vw m ops s sc es ws Y H R. destruct (clean_state H R) as (C & W & K & NV & S). subst nv. exact (hquery_e2v RT C W K sc S Y).
Qed.
(** every parameter of one stage only affects that stage *)
Theorem C35_v2v_stages : forall (T : Type) (N : Num T) nv e w vw m ops (s : hypergraph T) sc es ws,
  h_clean_reach nv e w vw m ops s -> h_reports s sc es ws -> forall X a dr a1 w1 dr1 ew a2 w2 dr2 k1 k2,
  snd (h_query (hqV2v sc X a dr a1 w1 dr1 ew a2 w2 dr2 k1 k2) s) =
  match snd (h_query (hqV2e sc X (match a1 with Some b => b | None => a end) w1 ew
               (if match dr1 with Some b => b | None => dr end then Some k1 else None)) s) with
  | Ok (OVals y) => snd (h_query (hqE2v sc (nthw y) (match a2 with Some b => b | None => a end) w2
               (if match dr2 with Some b => b | None => dr end then Some k2 else None)) s)
  | Ok _ => Err TypeError
  | Err x => Err x
  end.
Proof.
  intros T N nv e w vw m ops s sc es ws H R. destruct (clean_state H R) as (C & W & K & NV & S). exact (hquery_v2v C W K sc S).
Qed.
Theorem C35_v2v_plain : forall (T : Type) (N : Num T), ring_theory (@nz T N) n1 nadd nmul nsub nopp eq ->
  forall nv e w vw m ops (s : hypergraph T) sc es ws X, h_clean_reach nv e w vw m ops s -> h_reports s sc es ws -> exists ys ym Lr,
    let v2v a := hqV2v sc X a false None None None None None None None (fun _ => true) (fun _ => true) in
    snd (h_query (v2v AggrSum) s) = Ok (OVals (map ys (range nv))) /\ snd (h_query (v2v AggrMean) s) = Ok (OVals (map ym (range nv))) /\
    snd (h_query (hqLrw sc) s) = Ok (OM Lr) /\
    forall u, 0 <= u < nv ->
      ys u = sumf (range (Z.of_nat (length es))) (fun i => if zmem u (nthe es i) then nmul (nthw ws i) (sumf (nthe es i) X) else nz) /\
      ym u = nmul (ninv (hdeg es ws u)) (sumf (range nv) (fun v => nmul (hshare es ws u v) (X v))) /\
      ym u = nsub (X u) (sumf (range nv) (fun v => nmul (mget Lr u v) (X v))).
Proof.
  intros T N RT nv e w vw m ops s sc es ws X H R. destruct (clean_state H R) as (C & W & K & NV & S). subst nv.
  destruct (hquery_v2v_plain RT C W K sc S X) as (ys & ym & A & B & D). destruct (hquery_L RT C W K sc S) as (L0 & Ls0 & Lr & _ & _ & E & _ & _ & _ & _ & F).
  exists ys, ym, Lr. split; auto. split; auto. split; auto. intros u U. destruct (D u U) as [D1 D2]. split; auto. split; auto. rewrite D2.
  symmetry. apply (rw_smooth RT); auto. intros v V. apply (F u v U V).
Qed.
(** over the reals: averages stay between the smallest and largest incoming feature, so constants are preserved *)
Theorem C35_bounds : forall nv e w vw m ops (s : hypergraph R) sc es ws X,
  h_clean_reach nv e w vw m ops s -> h_reports s sc es ws ->
  (exists y, snd (h_query (hqV2eAgg sc X AggrMean None None) s) = Ok (OVals (map y (range (Z.of_nat (length es))))) /\
    forall i lo hi, 0 <= i < Z.of_nat (length es) -> nthe es i <> [] -> (forall v, In v (nthe es i) -> (lo <= X v <= hi)%R) -> (lo <= y i <= hi)%R) /\
  (Forall (fun c => (0 < c)%R) ws -> exists y,
    snd (h_query (hqV2v sc X AggrMean false None None None None None None None (fun _ => true) (fun _ => true)) s) = Ok (OVals (map y (range nv))) /\
    forall u, 0 <= u < nv -> let near v := exists e, In e es /\ In u e /\ In v e in
      (forall lo hi, (exists v, near v) -> (forall v, near v -> (lo <= X v <= hi)%R) -> (lo <= y u <= hi)%R) /\
      ((forall v, ~ near v) -> y u = 0%R)).
Proof.
  intros nv e w vw m ops s sc es ws X H R. destruct (clean_state H R) as (C & W & K & NV & S). subst nv. split.
  - destruct (hv2e_between C W K sc S X) as (y & A & B). exists y. split; auto.
  - intros P. exact (hv2v_between C W K sc S X P).
Qed.
Theorem C35_bad_aggregation : forall (T : Type) (N : Num T) nv e w vw m ops (s : hypergraph T) sc es ws X wt,
  h_clean_reach nv e w vw m ops s -> h_reports s sc es ws ->
  snd (h_query (hqV2eAgg sc X AggrOther wt None) s) = Err AssertionError /\ snd (h_query (hqE2v sc X AggrOther wt None) s) = Err AssertionError.
Proof.
  intros T N nv e w vw m ops s sc es ws X wt H R. destruct (clean_state H R) as (C & W & K & NV & S).
  split; [apply (hquery_bad_aggr C W K sc S true)|apply (hquery_bad_aggr C W K sc S false)].
Qed.
Example C35_case : exists s : hypergraph Qc, ex_reached s /\
  snd (h_query (hqV2e None (fun v => q v) AggrMean None None None) s) = Ok (OVals [q 1; q 3; q 3; q 2]) /\
  snd (h_query (hqV2v None (fun _ => q 7) AggrMean false None None None None None None None (fun _ => true) (fun _ => true)) s) = Ok (OVals [q 7; q 7; q 7; q 7]).
Proof.
  destruct (ex_hyper Num_Qc) as (s & X & _). exists s. split; [exact X|]. destruct X as ((s0 & E0 & ->) & _). injection E0 as <-. split; vm_compute; qceq.
Qed.

(** * C36 *)
(** custom weights: a sum is the weighted sum over the listed incidences, and a wrong number of weights is rejected *)
Theorem C36_weighted_sum : forall (T : Type) (N : Num T), ring_theory (@nz T N) n1 nadd nmul nsub nopp eq ->
  forall nv e w vw m ops (s : hypergraph T) sc es ws src dst cw, h_clean_reach nv e w vw m ops s -> h_reports s sc es ws ->
  snd (h_query (hqV2eSrc sc) s) = Ok (OIdx src) -> snd (h_query (hqV2eDst sc) s) = Ok (OIdx dst) ->
  let inc := combine (combine dst src) cw in
  (length cw <> length src -> forall X a, snd (h_query (hqV2eAgg sc X a (Some cw) None) s) = Err AssertionError) /\
  (length cw = length src -> forall X, exists f,
    snd (h_query (hqV2eAgg sc X AggrSum (Some cw) None) s) = Ok (OVals (map f (range (Z.of_nat (length es))))) /\
    forall i, f i = sumf inc (fun x => if fst (fst x) =? i then nmul (snd x) (X (snd (fst x))) else nz)).
Proof.
  intros T N RT nv e w vw m ops s sc es ws src dst cw H R E1 E2 inc. destruct (clean_state H R) as (C & W & K & NV & S). subst nv.
  destruct (hquery_weighted C W K sc S true cw E1 E2) as [A B]. split; [exact A|]. intros L X. destruct (B L) as (D & _). destruct (D X) as (D1 & _).
  eexists. split; [exact D1|]. intros i. apply spmv_lists.
Qed.
Theorem C36_weighted_sum_back : forall (T : Type) (N : Num T), ring_theory (@nz T N) n1 nadd nmul nsub nopp eq ->
  forall nv e w vw m ops (s : hypergraph T) sc es ws src dst cw, h_clean_reach nv e w vw m ops s -> h_reports s sc es ws ->
  snd (h_query (hqE2vSrc sc) s) = Ok (OIdx src) -> snd (h_query (hqE2vDst sc) s) = Ok (OIdx dst) ->
  let inc := combine (combine dst src) cw in
  (length cw <> length src -> forall X a, snd (h_query (hqE2v sc X a (Some cw) None) s) = Err AssertionError) /\
  (length cw = length src -> forall X, exists f,
    snd (h_query (hqE2v sc X AggrSum (Some cw) None) s) = Ok (OVals (map f (range nv))) /\
    forall i, f i = sumf inc (fun x => if fst (fst x) =? i then nmul (snd x) (X (snd (fst x))) else nz)).
Proof.
  intros T N RT nv e w vw m ops s sc es ws src dst cw H R E1 E2 inc. destruct (clean_state H R) as (C & W & K & NV & S). subst nv.
  destruct (hquery_weighted C W K sc S false cw E1 E2) as [A B]. split; [exact A|]. intros L X. destruct (B L) as (D & _). destruct (D X) as (D1 & _).
  eexists. split; [exact D1|]. intros i. apply spmv_lists.
Qed.
(** softmax: the coefficients are those of a softmax over the incidences of each receiver *)
Theorem C36_softmax : forall nv e w vw m ops (s : hypergraph R) sc es ws src dst cw,
  h_clean_reach nv e w vw m ops s -> h_reports s sc es ws ->
  snd (h_query (hqV2eSrc sc) s) = Ok (OIdx src) -> snd (h_query (hqV2eDst sc) s) = Ok (OIdx dst) -> length cw = length src ->
  (exists c, is_softmax nv (fun i v => 0 <= i < Z.of_nat (length es) /\ In v (nthe es i)) (mget (combine (combine dst src) cw)) c /\
    forall X, exists f, snd (h_query (hqV2eAgg sc X AggrSoftmax (Some cw) None) s) = Ok (OVals (map f (range (Z.of_nat (length es))))) /\
      forall i, f i = sumf (range nv) (fun v => (c i v * X v)%R)) /\
  (exists c, is_softmax (Z.of_nat (length es)) (fun v i => 0 <= i < Z.of_nat (length es) /\ In v (nthe es i)) (mget (combine (combine src dst) cw)) c /\
    forall Y, exists f, snd (h_query (hqE2v sc Y AggrSoftmax (Some cw) None) s) = Ok (OVals (map f (range nv))) /\
      forall v, f v = sumf (range (Z.of_nat (length es))) (fun i => (c v i * Y i)%R)).
Proof.
  intros nv e w vw m ops s sc es ws src dst cw H R E1 E2 L. destruct (clean_state H R) as (C & W & K & NV & S). subst nv.
  destruct (C29_coordinates H R) as (s1 & d1 & on & A1 & A2 & _ & A4 & A5 & _ & LL & _). rewrite E1 in A1. rewrite E2 in A2. injection A1 as <-. injection A2 as <-.
  split; [exact (hquery_softmax C W K sc S true cw E1 E2 L)|].
  refine (hquery_softmax C W K sc S false cw A4 A5 _). congruence.
Qed.
(** 'mean' multiplies by the total weight instead of dividing by it *)
Theorem C36_weighted_mean_actual : forall (T : Type) (N : Num T), ring_theory (@nz T N) n1 nadd nmul nsub nopp eq ->
  forall nv e w vw m ops (s : hypergraph T) sc es ws src dst cw, h_clean_reach nv e w vw m ops s -> h_reports s sc es ws ->
  snd (h_query (hqV2eSrc sc) s) = Ok (OIdx src) -> snd (h_query (hqV2eDst sc) s) = Ok (OIdx dst) -> length cw = length src ->
  forall X, exists f h,
    snd (h_query (hqV2eAgg sc X AggrMean (Some cw) None) s) = Ok (OVals (map f (range (Z.of_nat (length es))))) /\
    snd (h_query (hqE2v sc X AggrMean (Some cw) None) s) = Ok (OVals (map h (range nv))) /\
    forall i,
      f i = nmul (sumf (combine (combine dst src) cw) (fun x => if fst (fst x) =? i then snd x else nz))
                 (sumf (combine (combine dst src) cw) (fun x => if fst (fst x) =? i then nmul (snd x) (X (snd (fst x))) else nz)) /\
      h i = nmul (sumf (combine (combine src dst) cw) (fun x => if fst (fst x) =? i then snd x else nz))
                 (sumf (combine (combine src dst) cw) (fun x => if fst (fst x) =? i then nmul (snd x) (X (snd (fst x))) else nz)).
Proof.
  intros T N RT nv e w vw m ops s sc es ws src dst cw H R E1 E2 L X. destruct (clean_state H R) as (C & W & K & NV & S). subst nv.
  destruct (C29_coordinates H R) as (s1 & d1 & on & A1 & A2 & _ & A4 & A5 & _ & LL & _). rewrite E1 in A1. rewrite E2 in A2. injection A1 as <-. injection A2 as <-.
  destruct (hquery_weighted C W K sc S true cw E1 E2) as [_ B]. destruct (B L) as (D & _). destruct (D X) as (_ & D1 & _).
  destruct (hquery_weighted C W K sc S false cw A4 A5) as [_ B']. destruct (B' ltac:(congruence)) as (D' & _). destruct (D' X) as (_ & D1' & _).
  eexists _, _. split; [exact D1|]. split; [exact D1'|]. intros i. unfold mean_weighted. rewrite !spmv_lists, !rowsum_lists. split; reflexivity.
Qed.
Theorem C36_weighted_mean_refuted : exists (s : hypergraph Qc) cw,
  h_clean_reach 1 (Some (HOne [0])) WNone None MMean [] s /\ Forall (fun c => (0 < c)%Qc) cw /\
  snd (h_query (hqV2eAgg None (fun _ => q 1) AggrMean (Some cw) None) s) = Ok (OVals [q 4]).
Proof.
  eexists _, [q 2]. split.
  - split; [eexists; split; reflexivity|]. split; [discriminate|]. split; [constructor|]. split; [|constructor].
    repeat constructor; cbn; intuition lia.
  - split; [repeat constructor|]. vm_compute; qceq.
Qed.
Example C36_case : exists s : hypergraph Qc, ex_reached s /\
  snd (h_query (hqV2eSrc (Some "main")) s) = Ok (OIdx [0; 1; 2; 2]) /\ snd (h_query (hqV2eDst (Some "main")) s) = Ok (OIdx [0; 1; 0; 1]) /\
  snd (h_query (hqV2eAgg (Some "main") (fun v => q v) AggrSum (Some [q 1; q 2; q 3; q 4]) None) s) = Ok (OVals [q 6; q 10]).
Proof.
  destruct (ex_hyper Num_Qc) as (s & X & _). exists s. split; [exact X|]. destruct X as ((s0 & E0 & ->) & _). injection E0 as <-.
  split; [vm_compute; reflexivity|]. split; [vm_compute; reflexivity|]. vm_compute; qceq.
Qed.

(** * C37 *)
(** Apart from the vertex weights a clone and a reloaded copy behave like the original under every later
    history; the reloaded copy is a fresh hypergraph with the same groups and default vertex weights. *)
Theorem C37_clone : forall (T : Type) (N : Num T) nv e w vw m ops (s : hypergraph T) later,
  h_reach nv e w vw m ops s -> m <> MOther -> Forall doc_op ops -> Forall doc_op later -> Forall no_vw later ->
  snd (h_run later (h_clone s)) = snd (h_run later s).
Proof.
  intros T N nv e w vw m ops s later H M D DL NL. destruct (reach_hst H M D) as [C W NV PN V].
  destruct (clone_coh C) as (fz & CC & _). apply (@h_run_agree _ _ false fz None); auto; [discriminate|].
  repeat split; auto. discriminate.
Qed.
Theorem C37_reload : forall (T : Type) (N : Num T) nv e w vw m ops (s : hypergraph T) gs,
  h_reach nv e w vw m ops s -> m <> MOther -> Forall doc_op ops -> h_parts s gs ->
  exists s', h_from_state_dict (h_state_dict s) = Ok s' /\ h_parts s' gs /\
    h_reach nv None WNone None MMean (flat_map rebuild_group gs) s' /\
    forall later, Forall doc_op later -> Forall no_vw later -> snd (h_run later s') = snd (h_run later s).
Proof.
  intros T N nv e w vw m ops s gs H M D P. pose proof (reach_hst H M D) as I. pose proof I as [C W NV PN V].
  assert (W0 : hwf (mkHRaw nv None (h_gr (st_raw s)))) by exact W.
  destruct (fsd_hst I W0) as (s' & E & I' & R' & CE). unfold h_state_dict. rewrite NV. exists s'. split; [exact E|].
  destruct I' as [C' W' NV' _ V']. assert (PE : parts (st_raw s') = gs) by (rewrite R', (parts_eq C W P); reflexivity).
  split; [rewrite <- PE; eapply parts_report; eauto|]. split.
  - pose proof (hst_rebuild (Build_hst C' W' NV' PN V')) as (s0 & E0 & E1). rewrite PE, R' in E1. rewrite R' in E0. cbn [h_vw] in *.
    exists s0. split; [|destruct s' as [r' c']; cbn in *; subst; exact E1].
    rewrite <- E0. unfold h_new. destruct (0 <? nv); auto. rewrite ones_len, Nat.eqb_refl. reflexivity.
  - intros later DL NL. apply (@h_run_agree _ _ false None None); auto. rewrite R'. repeat split; auto. discriminate.
Qed.
Example C37_case : exists s : hypergraph Qc, ex_reached s /\ Forall no_vw [HQuery (hqDv None); HAdd (HOne [1; 3]) WNone MSum "new"; @HQuery Qc (hqLrw None)].
Proof. destruct (ex_hyper Num_Qc) as (s & X & _). exists s. split; [exact X|repeat constructor]. Qed.

(** * C86, C87, C89: the vertex weights *)
(** clone, save/load and dropping reset every vertex weight to 1 *)
Theorem C86_vertex_weights_lost_actual : forall (T : Type) (N : Num T) nv e w vw m ops (s : hypergraph T) g keep,
  h_reach nv e w vw m ops s -> m <> MOther -> Forall doc_op ops ->
  snd (h_query hqVw (h_clone s)) = Ok (OVals (repeat n1 (Z.to_nat nv))) /\
  (exists s', h_from_state_dict (h_state_dict s) = Ok s' /\ snd (h_query hqVw s') = Ok (OVals (repeat n1 (Z.to_nat nv)))) /\
  (exists s', h_drop g keep true s = Ok s' /\ snd (h_query hqVw s') = Ok (OVals (repeat n1 (Z.to_nat nv)))).
Proof.
  intros T N nv e w vw m ops s g keep H M D. destruct (reach_hst H M D) as [C W NV PN V].
  unfold h_drop, h_state_dict, h_from_state_dict, h_clone. cbn [fst snd]. rewrite NV. replace (0 <? nv) with true by (symmetry; apply Z.ltb_lt; auto).
  split; [reflexivity|]. split; eexists; split; reflexivity.
Qed.
Theorem C86_vertex_weights_lost_refuted : exists s s' : hypergraph Qc,
  h_reach 2 None WNone (Some [q 2; q 3]) MMean [] s /\ h_from_state_dict (h_state_dict s) = Ok s' /\
  snd (h_query hqVw s) = Ok (OVals [q 2; q 3]) /\ snd (h_query hqVw s') = Ok (OVals [q 1; q 1]) /\ snd (h_query hqVw (h_clone s)) = Ok (OVals [q 1; q 1]).
Proof. eexists _, _. split; [eexists; split; reflexivity|]. split; [reflexivity|]. split; [vm_compute; qceq|]. split; vm_compute; qceq. Qed.
(** after clear() there are no vertex weights and W_v raises *)
Theorem C87_clear_loses_weights_actual : forall (T : Type) (N : Num T) nv e w vw m ops (s : hypergraph T),
  h_reach nv e w vw m ops s ->
  let s' := fst (h_step HClear s) in
  snd (h_query hqVw s') = Ok OUnit /\ snd (h_query hqWv s') = Err TypeError /\ snd (h_query hqNames s') = Ok (ONames []).
Proof. intros. repeat split. Qed.
Theorem C87_clear_loses_weights_refuted : exists s : hypergraph Qc,
  h_reach 2 (Some (HOne [0; 1])) WNone None MMean [HQuery hqWv] s /\
  snd (h_query hqWv s) = Ok (OM [((0, 0), q 1); ((1, 1), q 1)]) /\ snd (h_query hqWv (fst (h_step HClear s))) = Err TypeError.
Proof. eexists. split; [eexists; split; reflexivity|]. split; vm_compute; qceq. Qed.
(** a clone made after W_v was asked for answers the original W_v, contradicting its own v_weight *)
Theorem C89_clone_stale_Wv_actual : forall (T : Type) (N : Num T) nv e w vw m ops (s : hypergraph T) l,
  h_reach nv e w vw m ops s -> m <> MOther -> Forall doc_op ops -> snd (h_query hqVw s) = Ok (OVals l) ->
  let c := h_clone (fst (h_query hqWv s)) in
  snd (h_query hqVw c) = Ok (OVals (repeat n1 (Z.to_nat nv))) /\ snd (h_query hqWv c) = Ok (OM (diag nv (nthw l))).
Proof.
  intros T N nv e w vw m ops s l H M D E c. pose proof (C29_vertex_weights H M D E) as [_ A]. destruct (reach_hst H M D) as [C W NV PN V].
  pose proof (good_raw (hgood_query (fz := None) hqWv (or_introl eq_refl)) C) as RW. split.
  - change (Ok (OVals (repeat n1 (Z.to_nat (h_nv (st_raw (fst (h_query hqWv s))))))) = Ok (OVals (repeat n1 (Z.to_nat nv)) : out T)). rewrite RW, NV. reflexivity.
  - assert (X : exists mt, dget (KH None HKWv) (st_cache (fst (h_query hqWv s))) = Some (VM mt) /\ snd (h_query hqWv s) = Ok (OM mt)).
    { clear RW c. cbn [h_query] in *. unfold oM, get_Wv, memoM, memo, bind, ret, ask in *.
      destruct (dget (KH None HKWv) (st_cache s)) as [v0|] eqn:CE.
      - pose proof (C _ _ CE) as X. cbn [hspec] in X. destruct (hp_Wv (st_raw s)); [|discriminate]. cbn in X. injection X as <-. cbn. eexists; split; [exact CE|reflexivity].
      - destruct (h_vw (st_raw s)) as [l0|]; [|discriminate A]. cbn. eexists; split; [apply dget_dset_same|reflexivity]. }
    destruct X as (mt & X1 & X2). rewrite A in X2. injection X2 as <-. unfold c. revert X1. generalize (fst (h_query hqWv s)) as t. intros t X1.
    cbn [h_query]. unfold oM, get_Wv, memoM, memo, bind, ret. cbn [h_clone st_cache]. rewrite X1. reflexivity.
Qed.
Theorem C89_clone_stale_Wv_refuted : exists s : hypergraph Qc,
  h_reach 1 None WNone (Some [q 5]) MMean [HQuery hqWv] s /\
  snd (h_query hqVw (h_clone s)) = Ok (OVals [q 1]) /\ snd (h_query hqWv (h_clone s)) = Ok (OM [((0, 0), q 5)]).
Proof. eexists. split; [eexists; split; reflexivity|]. split; vm_compute; qceq. Qed.

(** * C11 (hypergraph part) and C32 *)
(** [draw i] is the i-th value of random.random(), drawn group by group in iteration order *)
Theorem C11_hypergraph : forall (T : Type) (N : Num T) nv e w vw m ops (s : hypergraph T) gs rate draw,
  h_reach nv e w vw m ops s -> m <> MOther -> Forall doc_op ops -> h_parts s gs ->
  exists s' gs', h_drop None (exceeds rate draw) true s = Ok s' /\ h_parts s' gs' /\ map fst gs' = map fst gs /\
    flat gs' = survivors (exceeds rate draw) (flat gs) /\
    h_reach nv None WNone None MMean (flat_map rebuild_group gs') s'.
Proof.
  intros T N nv e w vw m ops s gs rate draw H M D P. destruct (h_drop_main None (exceeds rate draw) (reach_hst H M D) P) as (s' & gs' & A & _ & B & C & E & F & G1 & G2).
  exists s', gs'. split; auto. split; auto. split; auto. split; auto. rewrite G1, G2, F. unfold survivors. rewrite drop_flat. apply keep_from_filter.
Qed.
Theorem C32_one_group : forall (T : Type) (N : Num T) nv e w vw m ops (s : hypergraph T) gs g rate draw,
  h_reach nv e w vw m ops s -> m <> MOther -> Forall doc_op ops -> h_parts s gs ->
  exists s' gs', h_drop (Some g) (exceeds rate draw) true s = Ok s' /\ h_parts s' gs' /\ map fst gs' = map fst gs /\
    h_reach nv None WNone None MMean (flat_map rebuild_group gs') s' /\
    (forall es ws, In (g, (es, ws)) gs -> exists es' ws', In (g, (es', ws')) gs' /\ length es' = length ws' /\
      combine es' ws' = survivors (exceeds rate draw) (combine es ws)) /\
    (forall g' x, g' <> g -> In (g', x) gs <-> In (g', x) gs') /\
    (forall g' q0, g' <> g -> q_scope q0 = Some (Some g') -> snd (h_query q0 s') = snd (h_query q0 s)) /\
    (~ In g (map fst gs) -> gs' = gs).
Proof.
  intros T N nv e w vw m ops s gs g rate draw H M D P. pose proof (reach_hst H M D) as I.
  destruct (h_drop_main (Some g) (exceeds rate draw) I P) as (s' & gs' & A & I' & B & C & E & F & G1 & G2). cbv beta iota in F.
  exists s', gs'. split; auto. split; auto. split; auto. split; auto. destruct I as [CO [O W] NV PN V], I' as [CO' [O' W'] NV' _ _].
  assert (DG : forall g', g' <> g -> dget g' (h_gr (st_raw s')) = dget g' (h_gr (st_raw s))).
  { intros g' NE. rewrite F. apply drop_dget. destruct (String.eqb_spec g' g); congruence. }
  split; [|split; [|split]].
  - intros es ws X. rewrite G1 in X. apply parts_dget in X as (d & D1 & -> & ->); auto.
    exists (dkeys (keep_from 0 (exceeds rate draw) d)), (dvals (keep_from 0 (exceeds rate draw) d)). split; [|split].
    + rewrite G2. apply dget_parts; auto. rewrite F. apply drop_one; auto.
    + unfold dkeys, dvals. rewrite !map_length. reflexivity.
    + rewrite !combine_keys_vals. apply keep_from_filter.
  - intros g' [es ws] NE. rewrite G1, G2. split; intros X; apply parts_dget in X as (d & D1 & -> & ->); auto; apply dget_parts; auto; [rewrite DG|rewrite <- DG]; auto.
  - intros g' q0 NE Q. assert (NW : is_Wv q0 = false) by (destruct q0; try reflexivity; discriminate Q).
    rewrite (good_answer (hgood_query (fz := None) q0 (or_intror NW)) CO), (good_answer (hgood_query (fz := None) q0 (or_intror NW)) CO').
    eapply hp_query_local; eauto. congruence.
  - intros NI. rewrite G2, G1, F, drop_absent; auto. rewrite <- parts_names. rewrite G1 in NI. exact NI.
Qed.
Theorem C32_bad_ord : forall (T : Type) (N : Num T) g keep (s : hypergraph T), h_drop g keep false s = Err ValueError.
Proof. reflexivity. Qed.
Example C32_case : exists s s' : hypergraph Qc, ex_reached s /\ h_drop (Some "other") (Nat.eqb 1) true s = Ok s' /\
  h_parts s [("main", ([[0; 2]; [1; 2]], [q 1; q 2])); ("other", ([[0; 3]; [0; 1; 2]], [q 2; q 2]))] /\
  h_parts s' [("main", ([[0; 2]; [1; 2]], [q 1; q 2])); ("other", ([[0; 1; 2]], [q 2]))].
Proof.
  destruct (ex_hyper Num_Qc) as (s & X & _). exists s, (match h_drop (Some "other") (Nat.eqb 1) true s with Ok t => t | Err _ => s end).
  split; [exact X|]. destruct X as ((s0 & E0 & ->) & _). injection E0 as <-. split; [reflexivity|].
  split; (split; [reflexivity|]); repeat (constructor; [vm_compute; qceq|]); constructor.
Qed.

(** * C33 *)
(** [vl] lists the requested vertices in increasing order; [cut_to vl k e e']: hyperedge [e] cut down to
    [vl] and renumbered is [e'], with at least [k] different vertices left *)
Theorem C33_subgraph : forall (T : Type) (N : Num T) nv e w vw m ops (s : hypergraph T) gs vs vl (keep1 : bool),
  h_reach nv e w vw m ops s -> m <> MOther -> Forall doc_op ops -> h_parts s gs ->
  StronglySorted Z.lt vl -> (forall v, In v vl <-> In v vs) -> vs <> [] -> Forall (fun v => 0 <= v < nv) vs ->
  let k := if keep1 then 1%nat else 2%nat in
  exists s' gs' vw', h_subgraph vs keep1 s = Ok s' /\ h_parts s' gs' /\ map fst gs' = map fst gs /\
    h_reach (Z.of_nat (length vl)) None WNone (Some vw') MMean (flat_map rebuild_group gs') s' /\
    snd (h_query hqVw s') = Ok (OVals vw') /\
    (forall l, snd (h_query hqVw s) = Ok (OVals l) -> vw' = map (nthw l) vl) /\
    (snd (h_query hqVw s) = Ok OUnit -> vw' = repeat n1 (length vl)) /\
    forall g es ws es' ws', In (g, (es, ws)) gs -> In (g, (es', ws')) gs' -> NoDup es' /\
      (forall e', In e' es' <-> exists e, In e es /\ cut_to vl k e e') /\
      (forall e e' c, In (e, c) (combine es ws) -> cut_to vl k e e' -> (forall e2, In e2 es -> cut_to vl k e2 e' -> e2 = e) ->
        In (e', c) (combine es' ws')).
Proof.
  intros T N nv e w vw m ops s gs vs vl keep1 H M D P SO ME NE RG k. pose proof (reach_hst H M D) as I.
  assert (NL : vl <> []) by (intros ->; destruct vs as [|v vs]; [congruence|apply (proj2 (ME v)); left; auto]).
  assert (RL : Forall (fun v => 0 <= v < nv) vl) by (rewrite Forall_forall in *; intros v J; apply RG, ME; auto).
  destruct (h_sub_main vs keep1 I P SO ME NL RL) as (s' & gs' & A & B & C & [V1 V2] & E). cbv zeta in V1, V2.
  exists s', gs'. eexists. split; [exact A|]. split; [exact B|]. split; [exact C|]. split; [exact V1|]. split; [exact V2|].
  assert (VQ : snd (h_query hqVw s) = Ok (match h_vw (st_raw s) with Some l => OVals l | None => OUnit end)) by reflexivity. rewrite VQ.
  split; [|split].
  - intros l X. destruct (h_vw (st_raw s)); [injection X as <-; reflexivity|discriminate].
  - intros X. destruct (h_vw (st_raw s)); [discriminate|]. unfold ones. rewrite Nat2Z.id. reflexivity.
  - intros g es ws es' ws' I1 I2. destruct (E _ _ _ _ _ I1 I2) as (N1 & N2 & L). fold k in L.
    destruct (parts_len g es ws H M D P I1) as [LE _].
    assert (LE' : length es' = length ws').
    { assert (NT : Forall doc_op (flat_map rebuild_group gs')) by (exact (rebuild_doc (Some []) gs')). eapply parts_len; [exact V1|discriminate|exact NT|exact B|exact I2]. }
    assert (EX : forall e0, In e0 es -> exists c, In (e0, c) (combine es ws)) by (intros e0 J; apply in_combine_ex; auto).
    assert (EX' : forall e0, In e0 es' -> exists c, In (e0, c) (combine es' ws')) by (intros e0 J; apply in_combine_ex; auto).
    assert (DEC : forall e' (x : list Z * T), cut_to vl k (fst x) e' \/ ~ cut_to vl k (fst x) e').
    { intros e' x. unfold k. rewrite <- (sub_edge_cut keep1 (fst x) e' (sorted_lt_nodup SO)).
      destruct (sub_edge vl keep1 (fst x)) as [y|]; [destruct (list_eq_dec Z.eq_dec y e') as [->|]; [left; auto|right; congruence]|right; discriminate]. }
    split; [exact N2|]. split.
    + intros e'. split.
      * intros J. destruct (EX' _ J) as (c & Jc). apply L in Jc as (pre & e0 & post & F & G & _). exists e0. split; auto.
        apply in_combine_l with (y := c) (l' := ws). rewrite F. apply in_or_app; right; left; auto.
      * intros (e0 & J & G). destruct (EX _ J) as (c0 & Jc).
        destruct (last_cut _ (combine es ws) (DEC e')) as (pre & [e1 c1] & post & F & G1 & G2); [exists (e0, c0); auto|].
        apply in_combine_l with (y := c1) (l' := ws'). apply L. exists pre, e1, post. auto.
    + intros e0 e' c J G U. destruct (last_cut _ (combine es ws) (DEC e')) as (pre & [e1 c1] & post & F & G1 & G2); [exists (e0, c); auto|].
      assert (J1 : In (e1, c1) (combine es ws)) by (rewrite F; apply in_or_app; right; left; auto).
      assert (e1 = e0) as -> by (apply U; auto; eapply in_combine_l; eauto).
      assert (c1 = c) as -> by (exact (nodup_combine_fun _ _ _ _ N1 J1 J)). apply L. exists pre, e0, post. auto.
Qed.
Theorem C33_reject : forall (T : Type) (N : Num T) nv e w vw m ops (s : hypergraph T) vs keep1,
  h_reach nv e w vw m ops s -> m <> MOther -> Forall doc_op ops ->
  vs = [] \/ Exists (fun v => v < 0 \/ nv <= v) vs -> h_subgraph vs keep1 s = Err AssertionError.
Proof. intros T N nv e w vw m ops s vs keep1 H M D X. destruct (reach_hst H M D) as [_ _ <- _ _]. apply sub_reject; auto. Qed.
Example C33_case : exists s s' : hypergraph Qc, ex_reached s /\ h_subgraph [3; 0; 3; 1] false s = Ok s' /\
  StronglySorted Z.lt [0; 1; 3] /\ (forall v, In v [0; 1; 3] <-> In v [3; 0; 3; 1]) /\
  h_parts s' [("main", ([], [])); ("other", ([[0; 2]; [0; 1]], [q 2; q 2]))].
Proof.
  destruct (ex_hyper Num_Qc) as (s & X & _). exists s, (match h_subgraph [3; 0; 3; 1] false s with Ok t => t | Err _ => s end).
  split; [exact X|]. destruct X as ((s0 & E0 & ->) & _). injection E0 as <-. split; [vm_compute; reflexivity|].
  split; [repeat (constructor; try (repeat constructor; lia))|]. split; [cbn; intuition lia|].
  split; [reflexivity|]; repeat (constructor; [vm_compute; qceq|]); constructor.
Qed.

(** * C88 *)
(** when several hyperedges of a group are cut down to the same one, only the last one's weight is kept *)
Theorem C88_collision_last_wins_actual : forall (T : Type) (N : Num T) nv e w vw m ops (s : hypergraph T) gs vs vl (keep1 : bool),
  h_reach nv e w vw m ops s -> m <> MOther -> Forall doc_op ops -> h_parts s gs ->
  StronglySorted Z.lt vl -> (forall v, In v vl <-> In v vs) -> vs <> [] -> Forall (fun v => 0 <= v < nv) vs ->
  let k := if keep1 then 1%nat else 2%nat in
  exists s' gs', h_subgraph vs keep1 s = Ok s' /\ h_parts s' gs' /\
    forall g es ws es' ws', In (g, (es, ws)) gs -> In (g, (es', ws')) gs' -> forall e' c,
      In (e', c) (combine es' ws') <->
      exists pre e post, combine es ws = pre ++ (e, c) :: post /\ cut_to vl k e e' /\ forall x, In x post -> ~ cut_to vl k (fst x) e'.
Proof.
  intros T N nv e w vw m ops s gs vs vl keep1 H M D P SO ME NE RG k. pose proof (reach_hst H M D) as I.
  assert (NL : vl <> []) by (intros ->; destruct vs as [|v vs]; [congruence|apply (proj2 (ME v)); left; auto]).
  assert (RL : Forall (fun v => 0 <= v < nv) vl) by (rewrite Forall_forall in *; intros v J; apply RG, ME; auto).
  destruct (h_sub_main vs keep1 I P SO ME NL RL) as (s' & gs' & A & B & C & _ & E).
  exists s', gs'. split; auto. split; auto. intros g es ws es' ws' I1 I2. apply (E _ _ _ _ _ I1 I2).
Qed.
Theorem C88_collision_last_wins_refuted : exists s s' : hypergraph Qc,
  h_reach 3 (Some (HMany [[0; 1]; [0; 2]])) (WList [q 5; q 7]) None MMean [] s /\ h_subgraph [0] true s = Ok s' /\
  snd (h_query (hqE None) s') = Ok (OHE [[0]] [q 7]).
Proof. eexists _, _. split; [eexists; split; reflexivity|]. split; [vm_compute; reflexivity|]. vm_compute; qceq. Qed.
