(** Properties C10, C37, C137, C138 for hypergraphs: object identity, files and argument lists. *)
From Coq Require Import String Permutation Sorted QArith Qcanon.
From Verif Require Import Num PyDict PyDictFacts Coo ModelBase ModelGraph ModelDiGraph ModelBiGraph PropGraph ModelHyper SpecHyper
  HyperStore HyperReach HyperOps ModelHeap HeapFacts PropHyper.
Set Implicit Arguments.
Local Open Scope string_scope.
Local Open Scope list_scope.
Local Open Scope Z_scope.
Local Notation q z := (Q2Qc (inject_Z z)).

(** * C10 *)
(** As [PropStore.C10_graph]: whatever else happens in the heap, hypergraph [i] is in the state, and has given
    the answers, that its own calls alone produce. *)
Section C10.
  Context (T : Type) (N : Num T).
  Lemma alone_hypergraph ps (s : hypergraph T) : alone hypergraph_class ps s = (fst (h_run ps s), map Some (snd (h_run ps s))).
  Proof.
    revert s; induction ps as [|p ps IH]; intros s; cbn [alone h_run]; auto. cbn [h_call hypergraph_class].
    destruct (h_step p s) as [s1 x]. rewrite IH. destruct (h_run ps s1); reflexivity.
  Qed.
End C10.
Theorem C10_hypergraph : forall (T : Type) (N : Num T) before i (s : hypergraph T) later,
  let W := fst (w_run (@w_empty hypergraph_class) before) in
  look W i = Some s ->
  look (fst (w_run W later)) i = Some (fst (h_run (own i later) s)) /\
  own_out i later (snd (w_run W later)) = map Some (snd (h_run (own i later) s)).
Proof.
  intros T N before i s later W L.
  destruct (run_sep hypergraph_ok before (sep_empty hypergraph_class)) as [SP _].
  destruct (run_own hypergraph_ok later i SP L) as [A B]. rewrite alone_hypergraph in A, B. split; [exact A|exact B].
Qed.
(** the new structure holds what clone(), drop_hyperedges(), subgraph() and from_state_dict() copied *)
Theorem C10_hyper_copies : forall (T : Type) (N : Num T) before i (s s' : hypergraph T),
  let W := fst (w_run (@w_empty hypergraph_class) before) in
  let new := length (w_objs W) in
  look W i = Some s ->
  look (fst (w_run W [WDerive hypergraph_class i HClone])) new = Some (h_clone s) /\
  (forall g keep ord, h_drop g keep ord s = Ok s' -> look (fst (w_run W [WDerive hypergraph_class i (HDrop g keep ord)])) new = Some s') /\
  (forall vs k1, h_subgraph vs k1 s = Ok s' -> look (fst (w_run W [WDerive hypergraph_class i (HSub vs k1)])) new = Some s') /\
  (h_from_state_dict (h_state_dict s) = Ok s' ->
   look (fst (w_run W [WState hypergraph_class i; WFrom hypergraph_class (length (w_hands W))])) new = Some s').
Proof.
  intros T N before i s s' W new L.
  destruct (run_sep hypergraph_ok before (sep_empty hypergraph_class)) as [SP _].
  assert (DV : forall d t, h_derive hypergraph_class d s = Some t -> look (fst (w_run W [WDerive hypergraph_class i d])) new = Some t).
  { intros d' t E. unfold w_run. pose proof (@derive_facts hypergraph_class hypergraph_ok W i d' s t SP L E) as D.
    destruct (w_step W (WDerive hypergraph_class i d')); exact D. }
  split; [apply DV; reflexivity|]. split.
  - intros g keep o E. apply DV. cbn [h_derive hypergraph_class]. rewrite E. reflexivity.
  - split; [intros vs k1 E; apply DV; cbn [h_derive hypergraph_class]; rewrite E; reflexivity|].
    intros E. pose proof (@from_facts hypergraph_class hypergraph_ok W i s s' SP L) as D. cbv zeta in D. unfold w_run.
    destruct (w_step W (WState hypergraph_class i)) as [W1 x]; cbn [fst] in D.
    destruct (w_step W1 (WFrom hypergraph_class (length (w_hands W)))); cbn [fst] in *. apply D. cbn [h_from hypergraph_class]. rewrite E. reflexivity.
Qed.
(** three hypergraphs, calls interleaved *)
Definition ex_h0 : hypergraph Qc := mkSt (mkHRaw 4 (Some [q 1; q 1; q 1; q 2]) [("main", [([0; 1], q 2)]); ("other", [([1; 2; 3], q 5)])]) [].
Definition ex_hworld : list (wop (@hypergraph_class Qc _)) :=
  [WNew hypergraph_class ex_h0; WCall hypergraph_class 0 (HQuery (hqH None)); WDerive hypergraph_class 0 (HDrop (Some "main") (fun _ => true) true);
   WCall hypergraph_class 0 (HAdd (HOne [3; 2]) (WNum (q 7)) MSum "other"); WCall hypergraph_class 1 (HRemove (HOne [1; 0]) None);
   WState hypergraph_class 0; WFrom hypergraph_class 0; WCall hypergraph_class 0 (HRemoveGroup "main");
   WCall hypergraph_class 0 (HQuery (hqE None)); WCall hypergraph_class 1 (HQuery (hqE None)); WCall hypergraph_class 2 (HQuery (hqE None))].
Example ex_hyper_aliasing : skipn 8 (snd (w_run w_empty ex_hworld)) =
  [Some (Ok (OHE [[1; 2; 3]; [2; 3]] [q 5; q 7])); Some (Ok (OHE [[1; 2; 3]] [q 5]));
   Some (Ok (OHE [[0; 1]; [1; 2; 3]; [2; 3]] [q 2; q 5; q 7]))].
Proof. vm_compute. qceq. Qed.

(** * C83: the state dict of a hypergraph is a live view too (hypergraph.py:56-59) *)
Theorem C83_hyper_state_dict_live_refuted : exists s s2 : hypergraph Qc,
  let W := fst (w_run (@w_empty hypergraph_class) [WNew hypergraph_class ex_h0; WState hypergraph_class 0]) in
  look W 0 = Some s /\
  look (fst (w_run W [WCall hypergraph_class 0 (HAdd (HOne [3; 2]) (WNum (q 7)) MSum "main"); WFrom hypergraph_class 0])) 1 = Some s2 /\
  snd (h_query (hqE (Some "main")) s) = Ok (OHE [[0; 1]] [q 2]) /\
  snd (h_query (hqE (Some "main")) s2) = Ok (OHE [[0; 1]; [2; 3]] [q 2; q 7]).
Proof. eexists _, _. cbv zeta. split; [vm_compute; reflexivity|]. split; [vm_compute; reflexivity|]. split; vm_compute; qceq. Qed.

(** * C37: files *)
(** load(save()) of a hypergraph and load_structure give the hypergraph of [C37_reload]; each class refuses
    the files of the others, load_structure returns a structure of the class that was saved. *)
Theorem C37_files : forall (T : Type) (N : Num T) nv e w vw m ops (s : hypergraph T),
  h_reach nv e w vw m ops s -> m <> MOther -> Forall doc_op ops ->
  (exists s', h_load (h_save s) = Ok s' /\ load_structure (h_save s) = Ok (SHyper s') /\
     forall later, Forall doc_op later -> Forall no_vw later -> snd (h_run later s') = snd (h_run later s)) /\
  g_load (h_save s) = Err AssertionError /\ d_load (h_save s) = Err AssertionError /\ b_load (h_save s) = Err AssertionError /\
  (forall g : graph T, h_load (g_save g) = Err AssertionError) /\ (forall g : digraph T, h_load (d_save g) = Err AssertionError) /\
  (forall g : bigraph T, h_load (b_save g) = Err AssertionError).
Proof.
  intros T N nv e w vw m ops s H M D. split; [|repeat split; reflexivity].
  pose proof (reach_hst H M D) as I. destruct I as [C W NV PN V].
  destruct (C37_reload H M D (parts_report C W)) as (s' & E & _ & _ & L).
  exists s'. unfold h_load, load_structure, h_save. rewrite E. split; [reflexivity|]. split; [reflexivity|exact L].
Qed.
Example C37_files_case : exists (s s' : hypergraph Qc), ex_reached s /\ h_load (h_save s) = Ok s' /\
  snd (h_query (hqE (Some "main")) s') = Ok (OHE [[0; 2]; [1; 2]] [q 1; q 2]).
Proof.
  destruct (ex_hyper Num_Qc) as (s & X & _). exists s, (mkSt (mkHRaw 4 (Some (ones 4)) (h_gr (st_raw s))) []). split; [exact X|].
  destruct X as ((s0 & E0 & ->) & _). injection E0 as <-. split; [reflexivity|]. vm_compute; qceq.
Qed.

(** * C137: the caller's list of vertex weights is kept, not copied *)
(** Hypergraph 1 was built with the weight list of hypergraph 0; "hg1.v_weight[k] = x" then changes the weights
    of hypergraph 0. *)
Theorem C137_shared_weights_actual : forall (T : Type) (N : Num T) nv e w vw m ops (s : hypergraph T) e2 w2 m2 s2 l k x,
  h_reach nv e w vw m ops s -> snd (h_query hqVw s) = Ok (OVals l) -> h_new nv e2 w2 (Some l) m2 = Ok s2 -> (k < length l)%nat ->
  let W := fst (w_run (@w_empty vweight_class) [WNew vweight_class s; WDerive vweight_class 0 (VBuild nv e2 w2 m2)]) in
  look W 0 = Some s /\ look W 1 = Some s2 /\
  snd (w_run W [WCall vweight_class 0 (VOp (HQuery hqVw)); WCall vweight_class 1 (VWrite k x); WCall vweight_class 0 (VOp (HQuery hqVw))]) =
    [Some (Ok (OVals l)); Some (Ok OUnit); Some (Ok (OVals (upd l k x)))].
Proof.
  intros T N nv e w vw m ops s e2 w2 m2 s2 l k x H VW H2 K. destruct s as [[n v g] c]. cbn in VW.
  destruct v as [l'|]; [|discriminate]. injection VW as ->.
  assert (V2 : h_vw (st_raw s2) = Some l).
  { revert H2. unfold h_new. destruct (0 <? nv); [|discriminate]. destruct (Nat.eqb _ _); [|discriminate]. destruct e2 as [ea|].
    - destruct (h_add ea w2 m2 "main" _) as [t [y|]] eqn:E; [|discriminate]. intros Q; injection Q as <-.
      pose proof (f_equal (fun z => h_vw (st_raw (fst z))) E) as F. cbn [fst] in F. rewrite <- F. clear.
      unfold h_add. destruct (hweights _ _) as [ws|]; [|reflexivity].
      assert (G : forall L r, h_vw (fst (hadds m2 "main" L r)) = h_vw r).
      { induction L as [|[e0 w0] L IH]; intros r; cbn [hadds]; auto. destruct (hadd1 m2 "main" e0 w0 r) as [r1|] eqn:E; auto.
        rewrite IH. revert E. unfold hadd1. destruct (dget _ _) as [d|]; [destruct (dget _ d); [destruct (merge_fun m2)|]|];
          intros Q; try discriminate; injection Q as <-; reflexivity. }
      match goal with |- context [hadds _ _ ?L ?r] => specialize (G L r); destruct (hadds m2 "main" L r) as [r1 [?|?]] end; exact G.
    - intros Q; injection Q as <-. reflexivity. }
  destruct s2 as [[n2 v2 g2] c2]. cbn [st_raw h_vw] in V2. subst v2.
  cbv zeta. cbn [w_run w_step fst]. unfold add_obj at 1. cbn -[Nat.ltb]. rewrite H2. cbn -[Nat.ltb].
  split; [reflexivity|]. split; [reflexivity|].
  assert (KL : Nat.ltb k (length l) = true) by (apply Nat.ltb_lt; exact K).
  cbn -[Nat.ltb]. rewrite KL. reflexivity.
Qed.
(** An in-place change of the weights does not reach a W_v computed before it: the two answers disagree. *)
Theorem C137_stale_W_v_actual : forall (T : Type) (N : Num T) nv e w vw m ops (s : hypergraph T) l k x s1 s2,
  h_reach nv e w vw m ops s -> snd (h_query hqVw s) = Ok (OVals l) -> (k < length l)%nat ->
  s1 = fst (v_step (VOp (HQuery hqWv)) s) -> s2 = fst (v_step (VWrite k x) s1) ->
  snd (h_query hqVw s2) = Ok (OVals (upd l k x)) /\ snd (h_query hqWv s2) = snd (h_query hqWv s).
Proof.
  intros T N nv e w vw m ops s l k x s1 s2 H VW K -> ->. destruct s as [[n v g] c]. cbn in VW.
  destruct v as [l'|]; [|discriminate]. injection VW as ->.
  assert (KL : Nat.ltb k (length l) = true) by (apply Nat.ltb_lt; exact K).
  assert (V : forall c', v_step (VWrite k x) (mkSt (mkHRaw n (Some l) g) c') = (mkSt (mkHRaw n (Some (upd l k x)) g) c', Ok OUnit)).
  { intros c'. unfold v_step. cbn [st_raw h_vw]. rewrite KL. reflexivity. }
  set (s := mkSt (mkHRaw n (Some l) g) c) in *.
  assert (Q : exists c', fst (v_step (VOp (HQuery hqWv)) s) = mkSt (mkHRaw n (Some l) g) c' /\
                         forall r, snd (h_query hqWv (mkSt r c')) = snd (h_query hqWv s)).
  { unfold s. cbn [v_step h_step h_query]. unfold oM, get_Wv, memoM, memo, bind, ret, ask. cbn [st_cache st_raw].
    destruct (dget (KH None HKWv) c) as [cv|] eqn:E.
    - exists c. destruct (prjM cv) eqn:P; (split; [reflexivity|]); intros r; rewrite E, P; reflexivity.
    - cbn [fst snd st_raw st_cache h_vw]. eexists. split; [reflexivity|]. intros r. rewrite dget_dset_same. reflexivity. }
  destruct Q as (c' & -> & Q). rewrite V. cbn [fst]. split; [reflexivity|apply Q].
Qed.
Example C137_case : exists s s2 : hypergraph Qc,
  h_reach 3 (Some (HMany [[0; 1]])) WNone (Some [q 2; q 3; q 4]) MMean [] s /\
  h_new 3 (Some (HMany [[1; 2]])) WNone (Some [q 2; q 3; q 4]) MMean = Ok s2 /\
  snd (h_query hqVw s) = Ok (OVals [q 2; q 3; q 4]) /\ upd [q 2; q 3; q 4] 1 (q 9) <> [q 2; q 3; q 4] /\
  snd (h_query hqWv (fst (v_step (VWrite 1 (q 9)) (fst (v_step (VOp (HQuery hqWv)) s))))) <>
  snd (h_query hqWv (fst (v_step (VWrite 1 (q 9)) s))).
Proof.
  eexists _, _. split; [eexists; split; reflexivity|]. split; [reflexivity|]. split; [reflexivity|]. split.
  - intros E. injection E as E. discriminate.
  - intros E. apply (f_equal (fun r => match r with Ok (OM c) => map (fun v => Qnum (this v)) (vals c) | _ => [] end)) in E.
    vm_compute in E. discriminate.
Qed.

(** * C138: the caller's list of hyperedges is rewritten *)
(** add_hyperedges, remove_hyperedges and the constructor sort the hyperedges inside the list they are given
    ([arg_after] is what the caller's list holds afterwards): same length, the same hyperedges up to the order of
    their vertices, and unchanged only if every hyperedge was written in ascending order. *)
Theorem C138_caller_list_actual : forall l, exists l',
  arg_after false (HMany l) = HMany l' /\ Forall2 (@Permutation Z) l l' /\ Forall (StronglySorted Z.le) l' /\
  (l' = l <-> Forall (StronglySorted Z.le) l) /\ arg_after true (HMany l) = HMany l.
Proof.
  intros l. exists (map zsort l). split; [reflexivity|]. split; [|split; [|split; [|reflexivity]]].
  - induction l; constructor; auto. symmetry. apply zsort_perm.
  - apply Forall_forall. intros x I. apply in_map_iff in I as (y & <- & _). apply zsort_sorted.
  - split.
    + intros E. rewrite <- E. apply Forall_forall. intros x I. apply in_map_iff in I as (y & <- & _). apply zsort_sorted.
    + intros F. induction F as [|x l S F IH]; cbn; [reflexivity|]. rewrite IH, (zsort_id S). reflexivity.
Qed.
Theorem C138_caller_list_refuted : arg_after false (HMany [[3; 0]; [1; 2]]) <> HMany [[3; 0]; [1; 2]].
Proof. discriminate. Qed.
(** Passing the rewritten list again has the effect of the original one, in every history. *)
Section C138.
  Context {T : Type} `{Num T}.
  (** the call with the caller's list in the state an earlier call left it in; [t]: which calls got a tuple *)
  Definition reused (t : bool) (o : hop T) : hop T :=
    match o with
    | HAdd e w m g => HAdd (arg_after t e) w m g
    | HRemove e g => HRemove (arg_after t e) g
    | o => o
    end.
End C138.
Theorem C138_reuse : forall (T : Type) (N : Num T) nv e w vw m (ops : list (hop T)) t,
  h_new nv (option_map (arg_after t) e) w vw m = h_new nv e w vw m /\
  forall s, h_run (map (reused t) ops) s = h_run ops s.
Proof.
  intros T N nv e w vw m ops t.
  assert (F : forall e, hformat (arg_after t e) = hformat e).
  { intros [l|l]; [reflexivity|]. destruct t; [reflexivity|]. cbn. rewrite map_map. apply map_ext, zsort_idem. }
  assert (A : forall ea w m g, h_add (arg_after t ea) w m g = h_add (T := T) ea w m g) by (intros; unfold h_add; rewrite F; reflexivity).
  split.
  - unfold h_new. destruct e as [ea|]; [|reflexivity]. cbn [option_map]. rewrite !A. reflexivity.
  - induction ops as [|o ops IH]; intros s; [reflexivity|]. cbn [map h_run].
    assert (E : h_step (reused t o) s = h_step o s).
    { destruct o; cbn [reused h_step]; auto; [rewrite A; reflexivity|]. unfold h_remove. rewrite F. reflexivity. }
    rewrite E. destruct (h_step o s) as [s1 x]. rewrite IH. reflexivity.
Qed.
Example C138_case : reused false (@HAdd Qc (HMany [[3; 0]; [2; 1]]) WNone MSum "main") = HAdd (HMany [[0; 3]; [1; 2]]) WNone MSum "main".
Proof. reflexivity. Qed.
