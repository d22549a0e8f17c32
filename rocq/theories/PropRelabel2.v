(** Property C175: renaming the vertices of a directed or bipartite graph permutes every result and changes nothing else. *)
From Coq Require Import String Ring Permutation Reals QArith Qcanon.
From Verif Require Import Num PyDict PyDictFacts Coo CooFacts MatFacts RealFacts ModelBase CacheFacts ModelGraph GraphFacts SpecGraph SpecGraphOps StoreFacts
  GraphMatrix GraphReach ModelDiGraph SpecDiGraph DiGraphFacts DiGraphReach PropDiGraph ModelBiGraph SpecBiGraph BiGraphFacts BiGraphMatrix PropBiGraph
  ModelNN SpecNN NNFacts PropRelabel.
Set Implicit Arguments.
Local Open Scope list_scope.
Local Open Scope Z_scope.
Local Notation q z := (Q2Qc (inject_Z z)).

(** * Directed graphs *)
Theorem C175_digraph : forall (T : Type) (N : Num T), ring_theory (@nz T N) n1 nadd nmul nsub nopp eq ->
  forall nv p r e w ex m ops (s : digraph T) e' w' ex' m' ops' (s' : digraph T),
  d_reach nv e w ex m ops s -> reverse_safe nv true ops = true -> nonneg_new e -> Forall nonneg_dop ops ->
  d_reach nv e' w' ex' m' ops' s' -> reverse_safe nv true ops' = true -> nonneg_new e' -> Forall nonneg_dop ops' ->
  renaming nv p r -> relabelled nv p (d_spec nv e w ex m ops) (d_spec nv e' w' ex' m' ops') ->
  (forall q, In q [dqA; dqAT] -> moved2 nv p (snd (d_query q s)) (snd (d_query q s'))) /\
  (forall q, In q [dqDegIn; dqDegOut] -> moved nv p (snd (d_query q s)) (snd (d_query q s'))) /\
  forall X, let X' v := X (r v) in
  forall a s2d, In a [AggrSum; AggrMean] ->
    moved nv p (snd (d_query (dqV2v X a None (Some s2d) None) s)) (snd (d_query (dqV2v X' a None (Some s2d) None) s')).
Proof.
  intros T N RT nv p r e w ex m ops s e' w' ex' m' ops' s' H SF NE NO H' SF' NE' NO' RN (RX & RW).
  set (g := d_spec nv e w ex m ops) in *. set (g' := d_spec nv e' w' ex' m' ops') in *.
  assert (IN : forall v, 0 <= v < nv -> 0 <= p v < nv) by (intros v V; apply (ren_in RN); auto).
  assert (ADJ : forall u v, 0 <= u < nv -> 0 <= v < nv -> a_adj g' (p u) (p v) = a_adj g u v).
  { intros u v U V. unfold a_adj. rewrite RW, RX, (ren_eqb RN) by auto. auto. }
  assert (DOUT : forall u, 0 <= u < nv -> sumf (range nv) (fun j => a_adj g' (p u) j) = sumf (range nv) (fun j => a_adj g u j)).
  { intros u U. apply (ren_sumf RN RT). auto. }
  assert (DIN : forall u, 0 <= u < nv -> sumf (range nv) (fun j => a_adj g' j (p u)) = sumf (range nv) (fun j => a_adj g j u)).
  { intros u U. apply (ren_sumf RN RT). auto. }
  destruct (C16_matrices RT H SF NE NO) as ((A & AT & EA & EAT & DA & DAT & _) & _ & _ & _ & _ & EI & EO & _).
  destruct (C16_matrices RT H' SF' NE' NO') as ((A' & AT' & EA' & EAT' & DA' & DAT' & _) & _ & _ & _ & _ & EI' & EO' & _).
  fold g in DA, EI, EO. fold g' in DA', EI', EO'.
  split; [|split].
  - intros q0 [<-|[<-|[]]]; eexists _, _; (split; [eassumption|]); (split; [eassumption|]); intros u v U V.
    + rewrite DA, DA' by auto. auto.
    + rewrite DAT, DAT', DA, DA' by auto. auto.
  - intros q0 [<-|[<-|[]]].
    + rewrite EI, EI'. (eapply moved_map; [exact RN|reflexivity|reflexivity|]); auto.
    + rewrite EO, EO'. (eapply moved_map; [exact RN|reflexivity|reflexivity|]); auto.
  - intros X X' a s2d IA. assert (XX : forall v, X' (p v) = X v) by (intros v; unfold X'; destruct RN as (RP & _); rewrite RP; auto).
    assert (SI : forall u, 0 <= u < nv -> sumf (range nv) (fun j => nmul (a_adj g' j (p u)) (X' j)) = sumf (range nv) (fun j => nmul (a_adj g j u) (X j))).
    { intros u U. apply (ren_sumf RN RT). intros v V. rewrite XX, ADJ; auto. }
    assert (SO : forall u, 0 <= u < nv -> sumf (range nv) (fun j => nmul (a_adj g' (p u) j) (X' j)) = sumf (range nv) (fun j => nmul (a_adj g u j) (X j))).
    { intros u U. apply (ren_sumf RN RT). intros v V. rewrite XX, ADJ; auto. }
    destruct (C19_v2v RT H SF NE NO X) as (f1 & f2 & f3 & f4 & E1 & E2 & E3 & E4 & F).
    destruct (C19_v2v RT H' SF' NE' NO' X') as (f1' & f2' & f3' & f4' & E1' & E2' & E3' & E4' & F'). fold g in F. fold g' in F'.
    destruct IA as [<-|[<-|[]]], s2d; rewrite ?E1, ?E2, ?E3, ?E4, ?E1', ?E2', ?E3', ?E4';
      (eapply moved_map; [exact RN|reflexivity|reflexivity|]); intros u U; destruct (F u U) as (G1 & G2 & G3 & G4); destruct (F' (p u) (IN u U)) as (G1' & G2' & G3' & G4').
    + rewrite G1, G1'. auto.
    + rewrite G3, G3'. auto.
    + rewrite G2, G2', DIN, SI; auto.
    + rewrite G4, G4', DOUT, SO; auto.
Qed.

Definition ren_dop {T} (p : Z -> Z) (o : dop T) : dop T :=
  match o with dAdd e w m => dAdd (ren_earg p e) w m | dRemove e => dRemove (ren_earg p e) | _ => o end.
Lemma ren_empty p e : earg_empty (ren_earg p e) = earg_empty e.
Proof. destruct e as [|[|? ?]]; auto. Qed.
Section DiHistories.
  Context {T : Type} {N : Num T}.
  Variables (nv : Z) (p r : Z -> Z).
  Hypothesis RN : renaming nv p r.
  Lemma dren_same a b x y : same_directed (p a) (p b) (p x) (p y) = same_directed a b x y.
  Proof using RN. unfold same_directed. rewrite !(ren_eqb RN). auto. Qed.
  Lemma dren_add e w m (g g' : agraph T) : alike p g g' -> alike p (a_add_edges same_directed nv e w m g) (a_add_edges same_directed nv (ren_earg p e) w m g').
  Proof using RN.
    intros (A & B). unfold a_add_edges. rewrite ren_pairs, (ren_endpoints RN). destruct (pairs_of e w) as [ps|]; cbn [option_map]; [|split; auto].
    replace (match map _ ps with [] => true | _ :: _ => false end) with (match ps with [] => true | _ :: _ => false end) by (destruct ps; auto).
    destruct (endpoints_ok _ _ && _)%bool; [|split; auto]. split; auto. cbn [aw]. clear A. revert B. generalize (aw g), (aw g').
    induction ps as [|x ps IH]; cbn [fold_left map]; intros f f' B; auto. apply IH. intros u v. unfold a_add. cbn [fst snd ren_pair]. rewrite dren_same, B. auto.
  Qed.
  Lemma dren_remove e (g g' : agraph T) : alike p g g' -> alike p (a_remove_edges same_directed nv e g) (a_remove_edges same_directed nv (ren_earg p e) g').
  Proof using RN.
    intros (A & B). unfold a_remove_edges. rewrite (ren_endpoints RN). destruct (endpoints_ok _ _); [|split; auto]. split; auto. cbn [aw]. rewrite ren_edges. clear A.
    revert B. generalize (aw g), (aw g'). induction (edges_of e) as [|x l IH]; cbn [fold_left map]; intros f f' B; auto. apply IH. intros u v. unfold a_del.
    cbn [fst snd ren_pair]. rewrite dren_same, B. auto.
  Qed.
  Lemma dren_spec e (w : warg T) ex m ops : alike p (d_spec nv e w ex m ops) (d_spec nv (option_map (ren_earg p) e) w ex m (map (ren_dop p) ops)).
  Proof using RN.
    unfold d_spec. assert (A : alike p (d_spec_new nv e w ex m) (d_spec_new nv (option_map (ren_earg p) e) w ex m)).
    { destruct e as [e|]; cbn [option_map d_spec_new]; [apply dren_add|]; split; auto. }
    revert A. generalize (d_spec_new nv e w ex m), (d_spec_new nv (option_map (ren_earg p) e) w ex m).
    induction ops as [|o ops IH]; cbn [fold_left map]; intros g g' A; auto. apply IH. clear IH.
    destruct o; cbn [ren_dop d_spec_step]; [apply dren_add; auto|apply dren_remove; auto|..]; destruct A as (A & B); (split; [auto|]); cbn [aw a_reverse]; auto.
    intros u v. cbn. rewrite (ren_eqb RN), B. auto.
  Qed.
  Lemma dren_new e (w : warg T) ex m s : d_new nv e w ex m = Ok s -> exists s', d_new nv (option_map (ren_earg p) e) w ex m = Ok s'.
  Proof using RN.
    unfold d_new. destruct (0 <? nv); [|discriminate]. destruct e as [e|]; cbn [option_map]; [|eauto].
    destruct (d_add_edges e w m _) as [s1 o1] eqn:E1. destruct (d_add_edges (ren_earg p e) w m _) as [s2 o2] eqn:E2. unfold d_add_edges in E1, E2.
    apply add_edges_outcome in E1. apply add_edges_outcome in E2. cbn [st_raw r_nv] in *. rewrite ren_empty, ren_pairs, (ren_endpoints RN) in E2.
    destruct E2 as [(x & -> & _ & EE & D)|[(-> & _)|(-> & _)]]; [|eauto..].
    destruct E1 as [(y & -> & _)|[(_ & EE' & _)|(_ & _ & ps & P & B & KM & _)]]; [discriminate|congruence|].
    rewrite P, B in D. cbn [option_map] in D. destruct D as [D|[D|(KF & q & qs & D)]]; [discriminate|discriminate|]. destruct KM as [KM| ->]; [congruence|discriminate].
  Qed.
  Lemma dren_safe c (ops : list (dop T)) : reverse_safe nv c (map (ren_dop p) ops) = reverse_safe nv c ops.
  Proof using RN.
    revert c. induction ops as [|o ops IH]; intros c; cbn [map reverse_safe]; auto. rewrite IH.
    assert (E : clean_step nv c (ren_dop p o) = clean_step nv c o).
    { destruct o; cbn [ren_dop clean_step]; auto.
      - unfold add_accepted. rewrite ren_empty, ren_pairs, (ren_endpoints RN). destruct (pairs_of e w) as [[|? ?]|]; auto.
      - rewrite ren_empty, (ren_endpoints RN). auto. }
    rewrite E. destruct o; auto.
  Qed.
End DiHistories.
Theorem C175_digraph_histories : forall (T : Type) (N : Num T) nv p r e w ex m ops (s : digraph T),
  d_reach nv e w ex m ops s -> reverse_safe nv true ops = true -> nonneg_new e -> Forall nonneg_dop ops -> renaming nv p r ->
  exists s', d_reach nv (option_map (ren_earg p) e) w ex m (map (ren_dop p) ops) s' /\
    reverse_safe nv true (map (ren_dop p) ops) = true /\
    nonneg_new (option_map (ren_earg p) e) /\ Forall nonneg_dop (map (ren_dop p) ops) /\
    relabelled nv p (d_spec nv e w ex m ops) (d_spec nv (option_map (ren_earg p) e) w ex m (map (ren_dop p) ops)).
Proof.
  intros T N nv p r e w ex m ops s (s0 & E & _) SF NE NO RN. destruct (dren_new RN _ _ _ _ E) as (s0' & E'). exists (fst (d_run (map (ren_dop p) ops) s0')).
  split; [exists s0'; auto|]. split; [rewrite (dren_safe RN); auto|]. split; [destruct e as [e|]; cbn; auto; apply (ren_nonneg RN); auto|]. split.
  - rewrite Forall_forall in *. intros o O. apply in_map_iff in O as (o' & <- & O). specialize (NO o' O). destruct o'; cbn in *; auto. apply (ren_nonneg RN); auto.
  - destruct (dren_spec RN e w ex m ops) as (A & B). split; auto.
Qed.
Example C175_digraph_case : exists s s' : digraph Qc,
  d_reach 4 (Some (EMany [(0, 1); (1, 2)])) (WList [q 2; q 3]) false MMean [dReverse] s /\
  d_reach 4 (option_map (ren_earg turn) (Some (EMany [(0, 1); (1, 2)]))) (WList [q 2; q 3]) false MMean (map (ren_dop turn) [dReverse]) s' /\
  reverse_safe (T := Qc) 4 true [dReverse] = true /\ renaming 4 turn turn_back /\
  snd (d_query (dqV2v (fun v => q v) AggrSum None (Some true) None) s) = Ok (OVals [q 2; q 6; q 0; q 0]) /\
  snd (d_query (dqV2v (fun v => q (turn_back v)) AggrSum None (Some true) None) s') = Ok (OVals [q 0; q 2; q 6; q 0]).
Proof.
  eexists _, _. split; [eexists; split; reflexivity|]. split; [eexists; split; reflexivity|]. split; [reflexivity|]. split; [exact turn_renaming|]. split; vm_compute; reflexivity.
Qed.

(** * Bipartite graphs: the two sides are renamed independently *)
Definition both (nu : Z) (pu pv : Z -> Z) (i : Z) : Z := if i <? nu then pu i else nu + pv (i - nu).
Lemma both_renaming nu nv pu ru pv rv : 0 <= nu -> 0 <= nv -> renaming nu pu ru -> renaming nv pv rv -> renaming (nu + nv) (both nu pu pv) (both nu ru rv).
Proof.
  intros PU PV RU RV.
  assert (KV : forall x, 0 <= x -> 0 <= pv x) by (intros x X; destruct RV as (_ & _ & C & D); destruct (Z_lt_dec x nv); [apply C; lia|rewrite D; lia]).
  assert (RRV : forall x, 0 <= x -> 0 <= rv x).
  { intros x X. destruct (Z_le_dec 0 (rv x)); auto. destruct RV as (_ & B & _ & D). specialize (D (rv x)). rewrite B in D. lia. }
  assert (RRU : forall x, (ru x <? nu) = (x <? nu)) by (intros x; rewrite <- (ren_lt RU (ru x)); destruct RU as (_ & B & _); rewrite B; auto).
  unfold both. split; [|split; [|split]]; intros v.
  - destruct (Z.ltb_spec v nu) as [L|L].
    + rewrite (ren_lt RU). destruct (Z.ltb_spec v nu); [|lia]. destruct RU as (A & _). auto.
    + specialize (KV (v - nu)). destruct (Z.ltb_spec (nu + pv (v - nu)) nu); [lia|]. destruct RV as (A & _). replace (nu + pv (v - nu) - nu) with (pv (v - nu)) by lia. rewrite A. lia.
  - destruct (Z.ltb_spec v nu) as [L|L].
    + rewrite RRU. destruct (Z.ltb_spec v nu); [|lia]. destruct RU as (_ & B & _). auto.
    + specialize (RRV (v - nu)). destruct (Z.ltb_spec (nu + rv (v - nu)) nu); [lia|]. destruct RV as (_ & B & _). replace (nu + rv (v - nu) - nu) with (rv (v - nu)) by lia. rewrite B. lia.
  - intros I. destruct (Z.ltb_spec v nu) as [L|L].
    + destruct RU as (_ & _ & C & _). specialize (C v). lia.
    + destruct RV as (_ & _ & C & _). specialize (C (v - nu)). lia.
  - intros I. destruct (Z.ltb_spec v nu) as [L|L].
    + destruct RU as (_ & _ & _ & D). apply D. lia.
    + destruct RV as (_ & _ & _ & D). rewrite D; lia.
Qed.
(** the same edges with the same weights up to the renamings *)
Definition brelabelled {T} (nu nv : Z) (pu pv : Z -> Z) (g g' : wmap T) : Prop :=
  forall u v, 0 <= u < nu -> 0 <= v < nv -> g' (pu u) (pv v) = g u v.
Theorem C175_bigraph : forall (T : Type) (N : Num T), ring_theory (@nz T N) n1 nadd nmul nsub nopp eq ->
  forall nu nv pu ru pv rv e w m ops (s : bigraph T) e' w' m' ops' (s' : bigraph T), 0 <= nu ->
  b_reach nu nv e w m ops s -> nonneg_new e -> Forall nonneg_bop ops ->
  b_reach nu nv e' w' m' ops' s' -> nonneg_new e' -> Forall nonneg_bop ops' ->
  renaming nu pu ru -> renaming nv pv rv -> brelabelled nu nv pu pv (b_spec nu nv e w m ops) (b_spec nu nv e' w' m' ops') ->
  (exists B B', snd (b_query bqB s) = Ok (OM B) /\ snd (b_query bqB s') = Ok (OM B') /\
     forall u v, 0 <= u < nu -> 0 <= v < nv -> mget B' (pu u) (pv v) = mget B u v) /\
  (forall q, In q [bqA; bqLgcn] -> moved2 (nu + nv) (both nu pu pv) (snd (b_query q s)) (snd (b_query q s'))) /\
  moved nu pu (snd (b_query bqDegU s)) (snd (b_query bqDegU s')) /\
  moved nv pv (snd (b_query bqDegV s)) (snd (b_query bqDegV s')) /\
  (forall X a, In a [AggrSum; AggrMean] ->
    moved nv pv (snd (b_query (bqPass true X a None None) s)) (snd (b_query (bqPass true (fun u => X (ru u)) a None None) s')) /\
    moved nu pu (snd (b_query (bqPass false X a None None) s)) (snd (b_query (bqPass false (fun v => X (rv v)) a None None) s'))) /\
  forall X, moved (nu + nv) (both nu pu pv) (snd (b_query (bqGcn X None) s)) (snd (b_query (bqGcn (fun i => X (both nu ru rv i)) None) s')).
Proof.
  intros T N RT nu nv pu ru pv rv e w m ops s e' w' m' ops' s' PU H NE NO H' NE' NO' RU RV RW.
  set (g := b_spec nu nv e w m ops) in *. set (g' := b_spec nu nv e' w' m' ops') in *.
  assert (PV : 0 <= nv) by (destruct (breach_rel H) as (_ & _ & _ & _ & P); lia).
  pose proof (both_renaming PU PV RU RV) as RB. set (pb := both nu pu pv) in *. set (rb := both nu ru rv) in *.
  assert (INU : forall v, 0 <= v < nu -> 0 <= pu v < nu) by (intros v V; apply (ren_in RU); auto).
  assert (INV : forall v, 0 <= v < nv -> 0 <= pv v < nv) by (intros v V; apply (ren_in RV); auto).
  assert (INB : forall v, 0 <= v < nu + nv -> 0 <= pb v < nu + nv) by (intros v V; apply (ren_in RB); auto).
  assert (DU : forall u, 0 <= u < nu -> sumf (range nv) (fun j => wt (g' (pu u) j)) = sumf (range nv) (fun j => wt (g u j))).
  { intros u U. apply (ren_sumf RV RT). intros v V. rewrite RW; auto. }
  assert (DV : forall v, 0 <= v < nv -> sumf (range nu) (fun i => wt (g' i (pv v))) = sumf (range nu) (fun i => wt (g i v))).
  { intros v V. apply (ren_sumf RU RT). intros u U. rewrite RW; auto. }
  assert (BL : forall i j, 0 <= i < nu + nv -> 0 <= j < nu + nv -> block nu g' (pb i) (pb j) = block nu g i j).
  { assert (LT : forall i, 0 <= i < nu + nv -> (pb i <? nu) = (i <? nu) /\ (nu <=? pb i) = (nu <=? i) /\ (i < nu -> pb i = pu i) /\ (nu <= i -> pb i - nu = pv (i - nu))).
    { intros i I. unfold pb, both. destruct (Z.ltb_spec i nu) as [L|L].
      - pose proof (INU i ltac:(lia)). destruct (Z.ltb_spec (pu i) nu), (Z.leb_spec nu (pu i)), (Z.leb_spec nu i); repeat split; auto; lia.
      - pose proof (INV (i - nu) ltac:(lia)). destruct (Z.ltb_spec (nu + pv (i - nu)) nu), (Z.leb_spec nu (nu + pv (i - nu))), (Z.leb_spec nu i); repeat split; auto; lia. }
    intros i j I J. destruct (LT i I) as (I1 & I2 & I3 & I4). destruct (LT j J) as (J1 & J2 & J3 & J4). unfold block. rewrite I1, I2, J1, J2.
    destruct (Z.ltb_spec i nu), (Z.leb_spec nu j), (Z.leb_spec nu i), (Z.ltb_spec j nu); cbn [andb]; auto; try lia.
    - rewrite I3, J4, RW by lia. auto.
    - rewrite J3, I4, RW by lia. auto. }
  destruct (C23_matrices RT H NE NO) as ((B & BT & A & EB & _ & EA & DB & _ & DA) & _ & _ & _ & _ & EU & EV & _).
  destruct (C23_matrices RT H' NE' NO') as ((B' & BT' & A' & EB' & _ & EA' & DB' & _ & DA') & _ & _ & _ & _ & EU' & EV' & _).
  destruct (C26_gcn_matrix RT PU H NE NO) as (L & EL & DL & GL). destruct (C26_gcn_matrix RT PU H' NE' NO') as (L' & EL' & DL' & GL').
  fold g in DB, DA, EU, EV, DL. fold g' in DB', DA', EU', EV', DL'.
  assert (LL : forall i j, 0 <= i < nu + nv -> 0 <= j < nu + nv -> mget L' (pb i) (pb j) = mget L i j).
  { intros i j I J. destruct (DL i j I J) as (-> & _). destruct (DL' (pb i) (pb j) (INB i I) (INB j J)) as (-> & _). rewrite BL, (ren_eqb RB) by auto.
    assert (HD : forall x, 0 <= x < nu + nv -> sumf (range (nu + nv)) (fun b => nadd (block nu g' (pb x) b) (if pb x =? b then n1 else nz)) =
      sumf (range (nu + nv)) (fun b => nadd (block nu g x b) (if x =? b then n1 else nz))).
    { intros x X. apply (ren_sumf RB RT). intros v V. rewrite BL, (ren_eqb RB); auto. }
    rewrite !HD by auto. auto. }
  split; [|split; [|split; [|split; [|split]]]].
  - exists B, B'. split; auto. split; auto. intros u v U V. rewrite DB, DB', RW; auto.
  - intros q0 [<-|[<-|[]]]; eexists _, _; (split; [eassumption|]); (split; [eassumption|]); intros i j I J; auto. rewrite DA, DA'. auto.
  - rewrite EU, EU'. (eapply moved_map; [exact RU|reflexivity|reflexivity|]); auto.
  - rewrite EV, EV'. (eapply moved_map; [exact RV|reflexivity|reflexivity|]); auto.
  - intros X a IA. destruct (C25_pass RT H NE NO X) as (f1 & f2 & f3 & f4 & E1 & E2 & E3 & E4 & F & G).
    destruct (C25_pass RT H' NE' NO' (fun u => X (ru u))) as (f1' & f2' & _ & _ & E1' & E2' & _ & _ & F' & _).
    destruct (C25_pass RT H' NE' NO' (fun u => X (rv u))) as (_ & _ & f3' & f4' & _ & _ & E3' & E4' & _ & G'). fold g in F, G. fold g' in F', G'.
    assert (SV : forall v, 0 <= v < nv -> sumf (range nu) (fun i => nmul (wt (g' i (pv v))) (X (ru i))) = sumf (range nu) (fun i => nmul (wt (g i v)) (X i))).
    { intros v V. apply (ren_sumf RU RT). intros u U. rewrite RW by auto. destruct RU as (RP & _). rewrite RP. auto. }
    assert (SU : forall u, 0 <= u < nu -> sumf (range nv) (fun j => nmul (wt (g' (pu u) j)) (X (rv j))) = sumf (range nv) (fun j => nmul (wt (g u j)) (X j))).
    { intros u U. apply (ren_sumf RV RT). intros v V. rewrite RW by auto. destruct RV as (RP & _). rewrite RP. auto. }
    destruct IA as [<-|[<-|[]]]; rewrite ?E1, ?E2, ?E3, ?E4, ?E1', ?E2', ?E3', ?E4'; split; (eapply moved_map; [eassumption|reflexivity|reflexivity|]); intros x IX.
    + destruct (F x IX) as (-> & _). destruct (F' (pv x) (INV x IX)) as (-> & _). auto.
    + destruct (G x IX) as (-> & _). destruct (G' (pu x) (INU x IX)) as (-> & _). auto.
    + destruct (F x IX) as (_ & ->). destruct (F' (pv x) (INV x IX)) as (_ & ->). rewrite DV, SV; auto.
    + destruct (G x IX) as (_ & ->). destruct (G' (pu x) (INU x IX)) as (_ & ->). rewrite DU, SU; auto.
  - intros X. destruct (GL X) as (y & EY & FY). destruct (GL' (fun i => X (rb i))) as (y' & EY' & FY'). rewrite EY, EY'.
    eapply moved_map; [exact RB|reflexivity|reflexivity|]. intros i I. rewrite FY, FY'. apply (ren_sumf RB RT). intros j J. cbv beta. rewrite LL by auto.
    destruct RB as (RP & _). rewrite RP. auto.
Qed.

Definition bren_pair (pu pv : Z -> Z) (x : Z * Z) : Z * Z := (pu (fst x), pv (snd x)).
Definition bren_earg (pu pv : Z -> Z) (e : earg) : earg := match e with EOne a b => EOne (pu a) (pv b) | EMany l => EMany (map (bren_pair pu pv) l) end.
Definition ren_bop {T} (pu pv : Z -> Z) (o : bop T) : bop T :=
  match o with bAdd e w m => bAdd (bren_earg pu pv e) w m | bRemove e => bRemove (bren_earg pu pv e) | _ => o end.
Section BiHistories.
  Context {T : Type} {N : Num T}.
  Variables (nu nv : Z) (pu ru pv rv : Z -> Z).
  Hypothesis RU : renaming nu pu ru.
  Hypothesis RV : renaming nv pv rv.
  Lemma bren_edges e : edges_of (bren_earg pu pv e) = map (bren_pair pu pv) (edges_of e).
  Proof. destruct e; reflexivity. Qed.
  Lemma bren_empty e : earg_empty (bren_earg pu pv e) = earg_empty e.
  Proof. destruct e as [|[|? ?]]; auto. Qed.
  Lemma bren_ends e : ends_ok nu nv (edges_of (bren_earg pu pv e)) = ends_ok nu nv (edges_of e).
  Proof using RU RV. rewrite bren_edges. unfold ends_ok. induction (edges_of e) as [|x l IH]; cbn; auto. rewrite IH, (ren_lt RU), (ren_lt RV). auto. Qed.
  Lemma bren_pairs e (w : warg T) : pairs_of (bren_earg pu pv e) w = option_map (map (fun x => (bren_pair pu pv (fst x), snd x))) (pairs_of e w).
  Proof.
    destruct e as [a b|l], w as [|c|ws]; cbn; auto; f_equal.
    - rewrite !map_map. auto.
    - revert ws. induction l as [|x l IH]; intros [|c ws]; cbn; auto. rewrite IH. auto.
  Qed.
  Lemma bren_same a b x y : same_directed (pu a) (pv b) (pu x) (pv y) = same_directed a b x y.
  Proof using RU RV. unfold same_directed. rewrite (ren_eqb RU), (ren_eqb RV). auto. Qed.
  Definition balike (g g' : wmap T) : Prop := forall u v, g' (pu u) (pv v) = g u v.
  Lemma bren_add e w m g g' : balike g g' -> balike (bs_add nu nv e w m g) (bs_add nu nv (bren_earg pu pv e) w m g').
  Proof using RU RV.
    intros B. unfold bs_add. rewrite bren_pairs, bren_ends. destruct (pairs_of e w) as [ps|]; cbn [option_map]; auto.
    replace (match map _ ps with [] => true | _ :: _ => false end) with (match ps with [] => true | _ :: _ => false end) by (destruct ps; auto).
    destruct (ends_ok _ _ _ && _)%bool; auto. revert g g' B.
    induction ps as [|x ps IH]; cbn [fold_left map]; intros f f' B; auto. apply IH. intros u v. unfold a_add. cbn [fst snd bren_pair]. rewrite bren_same, B. auto.
  Qed.
  Lemma bren_remove e g g' : balike g g' -> balike (bs_remove nu nv e g) (bs_remove nu nv (bren_earg pu pv e) g').
  Proof using RU RV.
    intros B. unfold bs_remove. rewrite bren_ends. destruct (ends_ok _ _ _); auto. rewrite bren_edges.
    revert g g' B. induction (edges_of e) as [|x l IH]; cbn [fold_left map]; intros f f' B; auto. apply IH. intros u v. unfold a_del.
    cbn [fst snd bren_pair]. rewrite bren_same, B. auto.
  Qed.
  Lemma bren_spec e (w : warg T) m ops : balike (b_spec nu nv e w m ops) (b_spec nu nv (option_map (bren_earg pu pv) e) w m (map (ren_bop pu pv) ops)).
  Proof using RU RV.
    unfold b_spec. assert (A : balike (b_spec_new nu nv e w m) (b_spec_new nu nv (option_map (bren_earg pu pv) e) w m)).
    { destruct e as [e|]; cbn [option_map b_spec_new]; [apply bren_add|]; intros u v; auto. }
    revert A. generalize (b_spec_new nu nv e w m), (b_spec_new nu nv (option_map (bren_earg pu pv) e) w m).
    induction ops as [|o ops IH]; cbn [fold_left map]; intros g g' A; auto. apply IH. clear IH.
    destruct o; cbn [ren_bop b_spec_step]; [apply bren_add; auto|apply bren_remove; auto|intros u v; auto|auto].
  Qed.
  Lemma bren_new e (w : warg T) m s : b_new nu nv e w m = Ok s -> exists s', b_new nu nv (option_map (bren_earg pu pv) e) w m = Ok s'.
  Proof using RU RV.
    unfold b_new. destruct (0 <? nv); [|discriminate]. destruct e as [e|]; cbn [option_map]; [|eauto].
    destruct (b_add_edges e w m _) as [s1 o1] eqn:E1. destruct (b_add_edges (bren_earg pu pv e) w m _) as [s2 o2] eqn:E2.
    apply badd_outcome in E1. apply badd_outcome in E2. cbn [st_raw b_nu b_nv] in *. rewrite bren_empty, bren_pairs, bren_ends in E2.
    destruct E2 as [(x & -> & _ & EE & D)|[(-> & _)|(-> & _)]]; [|eauto..].
    destruct E1 as [(y & -> & _)|[(_ & EE' & _)|(_ & _ & ps & P & B & KM & _)]]; [discriminate|congruence|].
    rewrite P, B in D. cbn [option_map] in D. destruct D as [D|[D|(KF & q & qs & D)]]; [discriminate|discriminate|]. destruct KM as [KM| ->]; [congruence|discriminate].
  Qed.
  Lemma bren_nonneg e : nonneg_earg e -> nonneg_earg (bren_earg pu pv e).
  Proof using RU RV.
    unfold nonneg_earg. rewrite bren_edges. intros F. rewrite Forall_forall in *. intros x I. apply in_map_iff in I as (y & <- & I). specialize (F y I). cbn.
    assert (G : forall n p r v, renaming n p r -> 0 <= v -> 0 <= p v).
    { intros n p r v (_ & _ & C & D) V. destruct (Z_lt_dec v n); [apply C; lia|rewrite D; lia]. }
    split; [apply (G nu pu ru); auto|apply (G nv pv rv); auto]; apply F.
  Qed.
End BiHistories.
Theorem C175_bigraph_histories : forall (T : Type) (N : Num T) nu nv pu ru pv rv e w m ops (s : bigraph T),
  b_reach nu nv e w m ops s -> nonneg_new e -> Forall nonneg_bop ops -> renaming nu pu ru -> renaming nv pv rv ->
  exists s', b_reach nu nv (option_map (bren_earg pu pv) e) w m (map (ren_bop pu pv) ops) s' /\
    nonneg_new (option_map (bren_earg pu pv) e) /\ Forall nonneg_bop (map (ren_bop pu pv) ops) /\
    brelabelled nu nv pu pv (b_spec nu nv e w m ops) (b_spec nu nv (option_map (bren_earg pu pv) e) w m (map (ren_bop pu pv) ops)).
Proof.
  intros T N nu nv pu ru pv rv e w m ops s (s0 & E & _) NE NO RU RV. destruct (bren_new RU RV _ _ _ E) as (s0' & E'). exists (fst (b_run (map (ren_bop pu pv) ops) s0')).
  split; [exists s0'; auto|]. split; [destruct e as [e|]; cbn; auto; apply (bren_nonneg RU RV); auto|]. split.
  - rewrite Forall_forall in *. intros o O. apply in_map_iff in O as (o' & <- & O). specialize (NO o' O). destruct o'; cbn in *; auto. apply (bren_nonneg RU RV); auto.
  - intros u v _ _. apply (bren_spec RU RV e w m ops).
Qed.
Example C175_bigraph_case : exists s s' : bigraph Qc,
  b_reach 4 4 (Some (EMany [(0, 1); (1, 2)])) (WList [q 2; q 3]) MMean [bAdd (EOne 3 0) WNone MSum] s /\
  b_reach 4 4 (option_map (bren_earg turn turn_back) (Some (EMany [(0, 1); (1, 2)]))) (WList [q 2; q 3]) MMean (map (ren_bop turn turn_back) [bAdd (EOne 3 0) WNone MSum]) s' /\
  renaming 4 turn turn_back /\ renaming 4 turn_back turn /\
  snd (b_query (bqPass true (fun v => q v) AggrSum None None) s) = Ok (OVals [q 3; q 0; q 3; q 0]) /\
  snd (b_query (bqPass true (fun v => q (turn_back v)) AggrSum None None) s') = Ok (OVals [q 0; q 3; q 3; q 0]).
Proof.
  eexists _, _. split; [eexists; split; reflexivity|]. split; [eexists; split; reflexivity|]. split; [exact turn_renaming|]. split.
  - destruct turn_renaming as (A & B & C & D). split; [exact B|]. split; [exact A|].
    assert (OUT : forall v, ~ 0 <= v < 4 -> turn_back v = v) by (intros v V; rewrite <- (D v V) at 1; auto).
    split; auto. intros v V. destruct (Z_le_dec 0 (turn_back v)), (Z_lt_dec (turn_back v) 4); auto; pose proof (D (turn_back v)) as Y; rewrite B in Y; lia.
  - split; vm_compute; reflexivity.
Qed.
