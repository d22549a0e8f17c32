(** Property C67: renaming the vertices permutes every result and changes nothing else. *)
From Coq Require Import String Ring Permutation Reals QArith Qcanon.
From Verif Require Import Num PyDict PyDictFacts Coo CooFacts MatFacts RealFacts ModelBase CacheFacts ModelGraph GraphFacts SpecGraph SpecGraphOps StoreFacts
  GraphStore GraphMatrix GraphLaplace GraphReach PropGraph ModelHyper SpecHyper HyperStore HyperView HyperMatrix HyperReach HyperOps PropHyper ModelNN SpecNN NNFacts PropLayers.
Set Implicit Arguments.
Local Open Scope string_scope.
Local Open Scope list_scope.
Local Open Scope Z_scope.

(** [p] permutes the vertices [0 .. nv-1] and leaves other numbers alone; [r] is its inverse *)
Definition renaming (nv : Z) (p r : Z -> Z) : Prop :=
  (forall v, r (p v) = v) /\ (forall v, p (r v) = v) /\ (forall v, 0 <= v < nv -> 0 <= p v < nv) /\ (forall v, ~ 0 <= v < nv -> p v = v).

Section Renaming.
  Variables (nv : Z) (p r : Z -> Z).
  Hypothesis RN : renaming nv p r.
  Lemma ren_eqb u v : (p u =? p v) = (u =? v).
  Proof using RN.
    destruct RN as (A & _). destruct (Z.eqb_spec u v) as [->|D]; [apply Z.eqb_refl|]. apply Z.eqb_neq. intros E. apply D. rewrite <- (A u), <- (A v). congruence.
  Qed.
  Lemma ren_in v : 0 <= p v < nv <-> 0 <= v < nv.
  Proof using RN.
    destruct RN as (_ & _ & C & D). split; auto. intros I. destruct (Z_le_dec 0 v), (Z_lt_dec v nv); auto; rewrite D in I by lia; lia.
  Qed.
  Lemma ren_lt v : (p v <? nv) = (v <? nv).
  Proof using RN.
    destruct RN as (_ & _ & C & D). destruct (Z_le_dec 0 v), (Z_lt_dec v nv); [|rewrite D by lia; auto..].
    pose proof (C v). destruct (Z.ltb_spec (p v) nv), (Z.ltb_spec v nv); auto; lia.
  Qed.
  Lemma ren_range : Permutation (map p (range nv)) (range nv).
  Proof using RN.
    assert (RN' := RN). destruct RN' as (A & B & C & D). apply NoDup_Permutation.
    - apply FinFun.Injective_map_NoDup; [|apply range_nodup]. intros u v E. rewrite <- (A u), <- (A v). congruence.
    - apply range_nodup.
    - intros v. rewrite range_In, in_map_iff. split.
      + intros (u & <- & U). apply range_In in U. auto.
      + intros I. exists (r v). split; auto. apply range_In. apply ren_in. rewrite B. auto.
  Qed.
  Lemma ren_sumf {T : Type} {N : Num T} (RT : ring_theory (@nz T N) n1 nadd nmul nsub nopp eq) (f g : Z -> T) :
    (forall v, 0 <= v < nv -> f (p v) = g v) -> sumf (range nv) f = sumf (range nv) g.
  Proof using RN.
    intros E. rewrite <- (@sumf_perm T N RT _ _ _ f ren_range), sumf_map. apply sumf_ext_in. intros v V. apply range_In in V. auto.
  Qed.
End Renaming.

(** the results of two questions agree up to the renaming *)
Definition moved {T} `{Num T} (nv : Z) (p : Z -> Z) (a a' : res (out T)) : Prop :=
  exists y y', a = Ok (OVals y) /\ a' = Ok (OVals y') /\ length y = Z.to_nat nv /\ length y' = Z.to_nat nv /\
  forall v, 0 <= v < nv -> nthw y' (p v) = nthw y v.
Definition moved2 {T} `{Num T} (nv : Z) (p : Z -> Z) (a a' : res (out T)) : Prop :=
  exists L L', a = Ok (OM L) /\ a' = Ok (OM L') /\ forall u v, 0 <= u < nv -> 0 <= v < nv -> mget L' (p u) (p v) = mget L u v.

Lemma moved_map {T} {N : Num T} nv p r (RN : renaming nv p r) (f f' : Z -> T) a a' : as_vals a = Ok (map f (range nv)) -> as_vals a' = Ok (map f' (range nv)) ->
  (forall v, 0 <= v < nv -> f' (p v) = f v) -> moved nv p a a'.
Proof.
  intros A A' E. destruct a as [[]|]; try discriminate. destruct a' as [[]|]; try discriminate. injection A as ->. injection A' as ->.
  eexists _, _. split; [reflexivity|]. split; [reflexivity|]. rewrite !map_length, !range_length. split; auto. split; auto.
  intros v V. unfold nthw. destruct RN as (_ & _ & C & _). rewrite !nth_map_range by auto. auto.
Qed.

(** * Graphs *)
Definition relabelled {T} (nv : Z) (p : Z -> Z) (g g' : agraph T) : Prop :=
  ax g' = ax g /\ forall u v, 0 <= u < nv -> 0 <= v < nv -> aw g' (p u) (p v) = aw g u v.
Theorem C67_graph : forall (T : Type) (N : Num T), ring_theory (@nz T N) n1 nadd nmul nsub nopp eq ->
  forall nv p r e w ex m ops (s : graph T) e' w' ex' m' ops' (s' : graph T),
  g_reach nv e w ex m ops s -> nonneg_new e -> Forall nonneg_op ops ->
  g_reach nv e' w' ex' m' ops' s' -> nonneg_new e' -> Forall nonneg_op ops' ->
  renaming nv p r -> relabelled nv p (g_spec nv e w ex m ops) (g_spec nv e' w' ex' m' ops') ->
  (forall q, In q [QA; QL; QLsym; QLrw; QLgcn] -> moved2 nv p (snd (g_query q s)) (snd (g_query q s'))) /\
  moved nv p (snd (g_query QDeg s)) (snd (g_query QDeg s')) /\
  forall X, let X' v := X (r v) in
    moved nv p (snd (g_query (QGcn X None) s)) (snd (g_query (QGcn X' None) s')) /\
    moved nv p (snd (g_query (QV2v X AggrSum None None) s)) (snd (g_query (QV2v X' AggrSum None None) s')) /\
    moved nv p (snd (g_query (QV2v X AggrMean None None) s)) (snd (g_query (QV2v X' AggrMean None None) s')).
Proof.
  intros T N RT nv p r e w ex m ops s e' w' ex' m' ops' s' H NE NO H' NE' NO' RN (RX & RW).
  set (g := g_spec nv e w ex m ops) in *. set (g' := g_spec nv e' w' ex' m' ops') in *.
  assert (IN : forall v, 0 <= v < nv -> 0 <= p v < nv) by (intros v V; apply (ren_in RN); auto).
  assert (ADJ : forall u v, 0 <= u < nv -> 0 <= v < nv -> a_adj g' (p u) (p v) = a_adj g u v).
  { intros u v U V. unfold a_adj. rewrite RW, RX, (ren_eqb RN) by auto. auto. }
  assert (DEG : forall u, 0 <= u < nv -> a_deg nv g' (p u) = a_deg nv g u).
  { intros u U. unfold a_deg. apply (ren_sumf RN RT). auto. }
  assert (HAT : forall u v, 0 <= u < nv -> 0 <= v < nv -> ghat g' (p u) (p v) = ghat g u v).
  { intros u v U V. unfold ghat. rewrite RW, (ren_eqb RN) by auto. auto. }
  assert (GCN : forall u v, 0 <= u < nv -> 0 <= v < nv -> gcn_coeff nv g' (p u) (p v) = gcn_coeff nv g u v).
  { intros u v U V. unfold gcn_coeff. rewrite HAT by auto. assert (HD : forall x, 0 <= x < nv -> sumf (range nv) (fun j => ghat g' (p x) j) = sumf (range nv) (fun j => ghat g x j)) by (intros x X; apply (ren_sumf RN RT); auto).
    rewrite !HD by auto. auto. }
  assert (OFF : forall u v, 0 <= u < nv -> 0 <= v < nv -> (if p u =? p v then nz else wt (aw g' (p u) (p v))) = if u =? v then nz else wt (aw g u v)).
  { intros u v U V. rewrite RW, (ren_eqb RN) by auto. auto. }
  assert (ODEG : forall u, 0 <= u < nv -> sumf (range nv) (fun v => if p u =? v then nz else wt (aw g' (p u) v)) = sumf (range nv) (fun v => if u =? v then nz else wt (aw g u v))).
  { intros u U. apply (ren_sumf RN RT). auto. }
  split; [|split].
  - destruct (C03_adjacency RT H NE NO) as ((A & EA & DA & _) & _). destruct (C03_adjacency RT H' NE' NO') as ((A' & EA' & DA' & _) & _).
    destruct (C04_entries RT H NE NO) as (L & EL & DL). destruct (C04_entries RT H' NE' NO') as (L' & EL' & DL').
    destruct (C05_normalised RT H NE NO) as (S1 & S2 & S3 & E1 & E2 & E3 & D). destruct (C05_normalised RT H' NE' NO') as (S1' & S2' & S3' & E1' & E2' & E3' & D').
    fold g in DA, DL, D. fold g' in DA', DL', D'.
    intros q [<-|[<-|[<-|[<-|[<-|[]]]]]]; eexists _, _; (split; [eassumption|]); (split; [eassumption|]); intros u v U V.
    + rewrite DA, DA' by auto. auto.
    + rewrite DL, DL', (ren_eqb RN) by auto. rewrite ODEG, RW by auto. auto.
    + destruct (D u v U V) as (-> & _). destruct (D' (p u) (p v) (IN u U) (IN v V)) as (-> & _). rewrite OFF, (ren_eqb RN), !ODEG by auto. auto.
    + destruct (D u v U V) as (_ & -> & _). destruct (D' (p u) (p v) (IN u U) (IN v V)) as (_ & -> & _). rewrite OFF, (ren_eqb RN), !ODEG by auto. auto.
    + destruct (D u v U V) as (_ & _ & -> & _). destruct (D' (p u) (p v) (IN u U) (IN v V)) as (_ & _ & -> & _). apply GCN; auto.
  - destruct (C03_adjacency RT H NE NO) as (_ & _ & E & _). destruct (C03_adjacency RT H' NE' NO') as (_ & _ & E' & _).
    rewrite E, E'. eapply moved_map; eauto; reflexivity.
  - intros X X'. assert (XX : forall v, X' (p v) = X v) by (intros v; unfold X'; destruct RN as (RP & _); rewrite RP; auto). split; [|split].
    + eapply moved_map; [exact RN|apply (ask_gcn RT H NE NO)|apply (ask_gcn RT H' NE' NO')|]. intros u U. apply (ren_sumf RN RT). intros v V. cbv beta. rewrite XX. f_equal. apply GCN; auto.
    + eapply moved_map; [exact RN|apply (ask_v2v RT H NE NO)|apply (ask_v2v RT H' NE' NO')|]. intros u U. apply (ren_sumf RN RT). intros v V. cbv beta. rewrite XX. f_equal. apply ADJ; auto.
    + eapply moved_map; [exact RN|apply (ask_v2v RT H NE NO)|apply (ask_v2v RT H' NE' NO')|]. intros u U. cbv beta. fold g g'. rewrite DEG by auto. f_equal.
      apply (ren_sumf RN RT). intros v V. cbv beta. rewrite XX. f_equal. apply ADJ; auto.
Qed.

(** renaming the vertices in the constructor call and all later calls gives such a graph *)
Definition ren_pair (p : Z -> Z) (x : Z * Z) : Z * Z := (p (fst x), p (snd x)).
Definition ren_earg (p : Z -> Z) (e : earg) : earg := match e with EOne a b => EOne (p a) (p b) | EMany l => EMany (map (ren_pair p) l) end.
Definition ren_op {T} (p : Z -> Z) (o : gop T) : gop T :=
  match o with AddEdges e w m => AddEdges (ren_earg p e) w m | RemoveEdges e => RemoveEdges (ren_earg p e) | _ => o end.
Section GraphHistories.
  Context {T : Type} {N : Num T}.
  Variables (nv : Z) (p r : Z -> Z).
  Hypothesis RN : renaming nv p r.
  Lemma ren_edges e : edges_of (ren_earg p e) = map (ren_pair p) (edges_of e).
  Proof. destruct e; reflexivity. Qed.
  Lemma ren_endpoints e : endpoints_ok nv (edges_of (ren_earg p e)) = endpoints_ok nv (edges_of e).
  Proof using RN. rewrite ren_edges. unfold endpoints_ok. induction (edges_of e) as [|x l IH]; cbn; auto. rewrite IH, !(ren_lt RN). auto. Qed.
  Lemma ren_pairs e (w : warg T) : pairs_of (ren_earg p e) w = option_map (map (fun x => (ren_pair p (fst x), snd x))) (pairs_of e w).
  Proof.
    destruct e as [a b|l], w as [|c|ws]; cbn; auto; f_equal.
    - rewrite !map_map. auto.
    - revert ws. induction l as [|x l IH]; intros [|c ws]; cbn; auto. rewrite IH. auto.
  Qed.
  Lemma ren_same a b x y : same_undirected (p a) (p b) (p x) (p y) = same_undirected a b x y.
  Proof using RN. unfold same_undirected. rewrite !(ren_eqb RN). auto. Qed.
  Definition alike (g g' : agraph T) : Prop := ax g' = ax g /\ forall u v, aw g' (p u) (p v) = aw g u v.
  Lemma ren_add e w m g g' : alike g g' -> alike (a_add_edges same_undirected nv e w m g) (a_add_edges same_undirected nv (ren_earg p e) w m g').
  Proof using RN.
    intros (A & B). unfold a_add_edges. rewrite ren_pairs, ren_endpoints. destruct (pairs_of e w) as [ps|]; cbn [option_map]; [|split; auto].
    replace (match map _ ps with [] => true | _ :: _ => false end) with (match ps with [] => true | _ :: _ => false end) by (destruct ps; auto).
    destruct (endpoints_ok _ _ && _)%bool; [|split; auto]. split; auto. cbn [aw]. clear A. revert B. generalize (aw g), (aw g').
    induction ps as [|x ps IH]; cbn [fold_left map]; intros f f' B; auto. apply IH. intros u v. unfold a_add. cbn [fst snd ren_pair]. rewrite ren_same, B. auto.
  Qed.
  Lemma ren_remove e g g' : alike g g' -> alike (a_remove_edges same_undirected nv e g) (a_remove_edges same_undirected nv (ren_earg p e) g').
  Proof using RN.
    intros (A & B). unfold a_remove_edges. rewrite ren_endpoints. destruct (endpoints_ok _ _); [|split; auto]. split; auto. cbn [aw]. rewrite ren_edges. clear A.
    revert B. generalize (aw g), (aw g'). induction (edges_of e) as [|x l IH]; cbn [fold_left map]; intros f f' B; auto. apply IH. intros u v. unfold a_del.
    cbn [fst snd ren_pair]. rewrite ren_same, B. auto.
  Qed.
  Lemma ren_spec e (w : warg T) ex m ops : alike (g_spec nv e w ex m ops) (g_spec nv (option_map (ren_earg p) e) w ex m (map (ren_op p) ops)).
  Proof using RN.
    unfold g_spec. assert (A : alike (g_spec_new nv e w ex m) (g_spec_new nv (option_map (ren_earg p) e) w ex m)).
    { destruct e as [e|]; cbn [option_map g_spec_new]; [apply ren_add|]; split; auto. }
    revert A. generalize (g_spec_new nv e w ex m), (g_spec_new nv (option_map (ren_earg p) e) w ex m).
    induction ops as [|o ops IH]; cbn [fold_left map]; intros g g' A; auto. apply IH. clear IH.
    destruct o; cbn [ren_op g_spec_step]; [apply ren_add; auto|apply ren_remove; auto|..]; destruct A as (A & B); (split; [auto|]); cbn [aw]; auto.
    intros u v. cbn. rewrite (ren_eqb RN), B. auto.
  Qed.
  Lemma ren_new e (w : warg T) ex m s : g_new nv e w ex m = Ok s -> exists s', g_new nv (option_map (ren_earg p) e) w ex m = Ok s'.
  Proof using RN.
    unfold g_new. destruct (0 <? nv); [|discriminate]. destruct e as [e|]; cbn [option_map]; [|eauto].
    destruct (g_add_edges e w m _) as [s1 o1] eqn:E1. destruct (g_add_edges (ren_earg p e) w m _) as [s2 o2] eqn:E2. unfold g_add_edges in E1, E2.
    apply add_edges_outcome in E1. apply add_edges_outcome in E2. cbn [st_raw r_nv] in *.
    assert (EM : earg_empty (ren_earg p e) = earg_empty e) by (destruct e as [|[|? ?]]; auto). rewrite EM, ren_pairs, ren_endpoints in E2.
    destruct E2 as [(x & -> & _ & EE & D)|[(-> & _)|(-> & _)]]; [|eauto..].
    destruct E1 as [(y & -> & _)|[(_ & EE' & _)|(_ & _ & ps & P & B & KM & _)]]; [discriminate|congruence|].
    rewrite P, B in D. cbn [option_map] in D. destruct D as [D|[D|(KF & q & qs & D)]]; [discriminate|discriminate|]. destruct KM as [KM| ->]; [congruence|discriminate].
  Qed.
  Lemma ren_nonneg e : nonneg_earg e -> nonneg_earg (ren_earg p e).
  Proof using RN.
    unfold nonneg_earg. rewrite ren_edges. intros F. rewrite Forall_forall in *. intros x I. apply in_map_iff in I as (y & <- & I). specialize (F y I). cbn.
    assert (G : forall v, 0 <= v -> 0 <= p v).
    { intros v V. destruct RN as (_ & _ & C & D). destruct (Z_lt_dec v nv); [apply C; lia|rewrite D; lia]. }
    split; apply G; apply F.
  Qed.
End GraphHistories.
Theorem C67_graph_histories : forall (T : Type) (N : Num T) nv p r e w ex m ops (s : graph T),
  g_reach nv e w ex m ops s -> nonneg_new e -> Forall nonneg_op ops -> renaming nv p r ->
  exists s', g_reach nv (option_map (ren_earg p) e) w ex m (map (ren_op p) ops) s' /\
    nonneg_new (option_map (ren_earg p) e) /\ Forall nonneg_op (map (ren_op p) ops) /\
    relabelled nv p (g_spec nv e w ex m ops) (g_spec nv (option_map (ren_earg p) e) w ex m (map (ren_op p) ops)).
Proof.
  intros T N nv p r e w ex m ops s (s0 & E & _) NE NO RN. destruct (ren_new RN _ _ _ _ E) as (s0' & E'). exists (fst (g_run (map (ren_op p) ops) s0')).
  split; [exists s0'; auto|]. split; [destruct e as [e|]; cbn; auto; apply (ren_nonneg RN); auto|]. split.
  - rewrite Forall_forall in *. intros o O. apply in_map_iff in O as (o' & <- & O). specialize (NO o' O). destruct o'; cbn in *; auto. apply (ren_nonneg RN); auto.
  - destruct (ren_spec RN e w ex m ops) as (A & B). split; auto.
Qed.
Local Notation q z := (Q2Qc (inject_Z z)).
(** 0 -> 1 -> 2 -> 0 *)
Definition turn (v : Z) : Z := if (0 <=? v) && (v <? 3) then (v + 1) mod 3 else v.
Definition turn_back (v : Z) : Z := if (0 <=? v) && (v <? 3) then (v + 2) mod 3 else v.
Lemma turn_renaming : renaming 4 turn turn_back.
Proof.
  assert (C : forall v, v < 0 \/ v = 0 \/ v = 1 \/ v = 2 \/ 3 <= v) by lia.
  assert (OUT : forall v, v < 0 \/ 3 <= v -> turn v = v /\ turn_back v = v).
  { intros v V. unfold turn, turn_back. destruct (Z.leb_spec 0 v), (Z.ltb_spec v 3); cbn [andb]; auto; lia. }
  split; [|split; [|split]]; intros v.
  - destruct (C v) as [V|[->|[->|[->|V]]]]; try reflexivity; destruct (OUT v) as (A & B); auto; rewrite A, B; auto.
  - destruct (C v) as [V|[->|[->|[->|V]]]]; try reflexivity; destruct (OUT v) as (A & B); auto; rewrite B, A; auto.
  - destruct (C v) as [V|[->|[->|[->|V]]]]; try (cbn; lia); destruct (OUT v) as (A & B); auto; rewrite A; auto.
  - intros NI. destruct (OUT v) as (A & _); auto. destruct (C v) as [V|[->|[->|[->|V]]]]; lia.
Qed.
Example C67_graph_case : exists s s' : graph Qc,
  g_reach 4 (Some (EMany [(0, 1); (1, 2)])) (WList [q 2; q 3]) false MMean [RemoveEdges (EOne 5 5)] s /\
  g_reach 4 (option_map (ren_earg turn) (Some (EMany [(0, 1); (1, 2)]))) (WList [q 2; q 3]) false MMean (map (ren_op turn) [RemoveEdges (EOne 5 5)]) s' /\
  snd (g_query (QV2v (fun v => q v) AggrSum None None) s) = Ok (OVals [q 2; q 6; q 3; q 0]) /\
  snd (g_query (QV2v (fun v => q (turn_back v)) AggrSum None None) s') = Ok (OVals [q 3; q 2; q 6; q 0]).
Proof.
  eexists _, _. split; [eexists; split; reflexivity|]. split; [eexists; split; reflexivity|]. split; vm_compute; reflexivity.
Qed.

(** * Hypergraphs *)
(** the same hyperedges with the same weights up to the renaming, in any order *)
Definition hrelabelled {T} (p : Z -> Z) (es : list (list Z)) (ws : list T) (es' : list (list Z)) (ws' : list T) : Prop :=
  exists L, Permutation L (combine es' ws') /\
  Forall2 (fun x y => Permutation (map p (fst x)) (fst y) /\ snd x = snd y) (combine es ws) L.
Section HyperSums.
  Context {T : Type} {N : Num T}.
  Hypothesis RT : ring_theory (@nz T N) n1 nadd nmul nsub nopp eq.
  Variables (nv : Z) (p r : Z -> Z).
  Hypothesis RN : renaming nv p r.
  Lemma ren_zmem v x y : Permutation (map p x) y -> zmem (p v) y = zmem v x.
  Proof using RN.
    intros P. assert (E : zmem (p v) y = zmem (p v) (map p x)).
    { unfold zmem. destruct (existsb _ (map p x)) eqn:E1.
      - apply existsb_exists in E1 as (z & I & E). apply existsb_exists. exists z. split; auto. eapply Permutation_in; eauto.
      - destruct (existsb _ y) eqn:E2; auto. apply existsb_exists in E2 as (z & I & E). assert (X : existsb (Z.eqb (p v)) (map p x) = true); [|congruence].
        apply existsb_exists. exists z. split; auto. eapply Permutation_in; [symmetry|]; eauto. }
    rewrite E. clear -RN. unfold zmem. induction x as [|a x IH]; cbn; auto. rewrite IH, (ren_eqb RN). auto.
  Qed.
  Lemma ren_card x y : Permutation (map p x) y -> hcard y = hcard x.
  Proof using RT. intros P. unfold hcard. rewrite <- (@sumf_perm T N RT _ _ _ _ P), sumf_map. auto. Qed.
  Lemma ren_edge_sum x y (X : Z -> T) : Permutation (map p x) y -> sumf y (fun v => X (r v)) = sumf x X.
  Proof using RT RN. intros P. rewrite <- (@sumf_perm T N RT _ _ _ _ P), sumf_map. apply sumf_ext. intros v. destruct RN as (A & _). rewrite A. auto. Qed.
  Variables (es es' : list (list Z)) (ws ws' : list T).
  Hypothesis HR : hrelabelled p es ws es' ws'.
  Lemma ren_hsum (F F' : list Z * T -> T) : (forall x y, Permutation (map p (fst x)) (fst y) -> snd x = snd y -> F' y = F x) ->
    sumf (combine es' ws') F' = sumf (combine es ws) F.
  Proof using RT HR.
    intros E. destruct HR as (L & P & A). rewrite <- (@sumf_perm T N RT _ _ _ F' P). clear -A E. induction A as [|x y l l' (A1 & A2) _ IH]; cbn [sumf]; auto.
    rewrite IH. f_equal. auto.
  Qed.
  Lemma ren_hdeg v : hdeg es' ws' (p v) = hdeg es ws v.
  Proof using RT RN HR. apply ren_hsum. intros x y P W. rewrite (ren_zmem v _ P), W. auto. Qed.
  Lemma ren_hshare u v : hshare es' ws' (p u) (p v) = hshare es ws u v.
  Proof using RT RN HR. apply ren_hsum. intros x y P W. rewrite (ren_zmem u _ P), (ren_zmem v _ P), W, (ren_card _ P). auto. Qed.
End HyperSums.
Theorem C67_hypergraph : forall (T : Type) (N : Num T), ring_theory (@nz T N) n1 nadd nmul nsub nopp eq ->
  forall nv p r e w vw m ops (s : hypergraph T) e' w' vw' m' ops' (s' : hypergraph T) sc es ws es' ws',
  h_clean_reach nv e w vw m ops s -> h_reports s sc es ws -> h_clean_reach nv e' w' vw' m' ops' s' -> h_reports s' sc es' ws' ->
  renaming nv p r -> hrelabelled p es ws es' ws' ->
  (forall q, In q [hqLhgnn sc; hqLsym sc; hqLrw sc] -> moved2 nv p (snd (h_query q s)) (snd (h_query q s'))) /\
  moved nv p (snd (h_query (hqDegV sc) s)) (snd (h_query (hqDegV sc) s')) /\
  forall X, let X' v := X (r v) in
    let v2v X a := hqV2v sc X a false None None None None None None None (fun _ => true) (fun _ => true) in
    moved nv p (snd (h_query (hqHgnn sc X None) s)) (snd (h_query (hqHgnn sc X' None) s')) /\
    moved nv p (snd (h_query (v2v X AggrSum) s)) (snd (h_query (v2v X' AggrSum) s')) /\
    moved nv p (snd (h_query (v2v X AggrMean) s)) (snd (h_query (v2v X' AggrMean) s')) /\
    forall a, In a [AggrSum; AggrMean] -> exists y y', snd (h_query (hqV2eAgg sc X a None None) s) = Ok (OVals y) /\
      snd (h_query (hqV2eAgg sc X' a None None) s') = Ok (OVals y') /\
      forall i i', 0 <= i < Z.of_nat (length es) -> 0 <= i' < Z.of_nat (length es') -> Permutation (map p (nthe es i)) (nthe es' i') -> nthw y' i' = nthw y i.
Proof.
  intros T N RT nv p r e w vw m ops s e' w' vw' m' ops' s' sc es ws es' ws' H R H' R' RN HR.
  assert (IN : forall v, 0 <= v < nv -> 0 <= p v < nv) by (intros v V; apply (ren_in RN); auto).
  pose proof (ren_hdeg RT RN HR) as DEG. pose proof (ren_hshare RT RN HR) as SH.
  destruct (C34_formulas RT H R) as (L & Ls & Lr & EL & ES & ER & A & D). destruct (C34_formulas RT H' R') as (L' & Ls' & Lr' & EL' & ES' & ER' & A' & D').
  assert (ML : forall u v, 0 <= u < nv -> 0 <= v < nv -> mget L' (p u) (p v) = mget L u v).
  { intros u v U V. destruct (D u v U V) as (-> & _). destruct (D' (p u) (p v) (IN u U) (IN v V)) as (-> & _). rewrite !DEG, SH. auto. }
  split; [|split].
  - intros q [<-|[<-|[<-|[]]]]; eexists _, _; (split; [eassumption|]); (split; [eassumption|]); intros u v U V; auto.
    + destruct (D u v U V) as (_ & _ & -> & _). destruct (D' (p u) (p v) (IN u U) (IN v V)) as (_ & _ & -> & _). rewrite ML, (ren_eqb RN) by auto. auto.
    + destruct (D u v U V) as (_ & _ & _ & ->). destruct (D' (p u) (p v) (IN u U) (IN v V)) as (_ & _ & _ & ->). rewrite DEG, SH, (ren_eqb RN). auto.
  - destruct (C29_degrees RT H R) as (_ & _ & _ & _ & _ & _ & E & _). destruct (C29_degrees RT H' R') as (_ & _ & _ & _ & _ & _ & E' & _).
    rewrite E, E'. eapply moved_map; eauto; reflexivity.
  - intros X X' v2v. assert (XX : forall v, X' (p v) = X v) by (intros v; unfold X'; destruct RN as (RP & _); rewrite RP; auto).
    destruct (clean_state H R) as (C & W & K & NV & SC). destruct (clean_state H' R') as (C' & W' & K' & NV' & SC').
    assert (LEN : length ws = length es) by (destruct (hview_scope sc W K SC) as (Hm & VW); apply (hv_len VW)).
    assert (LEN' : length ws' = length es') by (destruct (hview_scope sc W' K' SC') as (Hm & VW); apply (hv_len VW)).
    split; [|split; [|split]].
    + assert (DN : forall t L0 X0, boxed nv nv L0 -> snd (h_query (hqHgnn sc X0 None) t) = Ok (OVals (map (spmv (cdrop_opt None L0) X0) (range nv))) ->
        as_vals (snd (h_query (hqHgnn sc X0 None) t)) = Ok (map (fun u => sumf (range nv) (fun v => nmul (mget L0 u v) (X0 v))) (range nv))).
      { intros t L0 X0 BX E. apply as_vals_range. eexists. split; [exact E|]. intros i I. cbn [cdrop_opt].
        rewrite (@spmv_dense T N RT (range nv)) by (apply range_nodup || (eapply boxed_cols; exact BX)). reflexivity. }
      destruct (hquery_L RT C W K sc SC) as (L0 & ? & ? & EL0 & _ & _ & BX & _). destruct (hquery_L RT C' W' K' sc SC') as (L0' & ? & ? & EL0' & _ & _ & BX' & _).
      rewrite EL in EL0. injection EL0 as <-. rewrite EL' in EL0'. injection EL0' as <-. rewrite NV in BX. rewrite NV' in BX'.
      eapply moved_map; [exact RN|apply (DN _ L); auto|apply (DN _ L'); auto|]. intros u U. apply (ren_sumf RN RT). intros v V. cbv beta. rewrite XX, ML; auto.
    + destruct (C35_v2v_plain RT X H R) as (ys & ym & ? & E1 & _ & _ & F). destruct (C35_v2v_plain RT X' H' R') as (ys' & ym' & ? & E1' & _ & _ & F').
      eapply moved_map with (f := ys) (f' := ys'); [exact RN|unfold v2v; rewrite E1; auto|unfold v2v; rewrite E1'; auto|]. intros u U.
      destruct (F u U) as (-> & _). destruct (F' (p u) (IN u U)) as (-> & _).
      assert (CN : forall (fs : list (list Z)) us Y v, length us = length fs ->
        sumf (range (Z.of_nat (length fs))) (fun i => if zmem v (nthe fs i) then nmul (nthw us i) (sumf (nthe fs i) Y) else nz) =
        sumf (combine fs us) (fun ew => if zmem v (fst ew) then nmul (snd ew) (sumf (fst ew) Y) else nz))
        by (intros fs us Y v LF; rewrite (@combine_nthe T N (st_raw s) fs _ us _ nz LF); reflexivity).
      rewrite !CN by auto. apply (ren_hsum RT HR). intros a b P E. rewrite (ren_zmem RN u _ P), <- E; unfold X'; rewrite (ren_edge_sum RT RN _ X P). auto.
    + destruct (C35_v2v_plain RT X H R) as (ys & ym & ? & _ & E1 & _ & F). destruct (C35_v2v_plain RT X' H' R') as (ys' & ym' & ? & _ & E1' & _ & F').
      eapply moved_map with (f := ym) (f' := ym'); [exact RN|unfold v2v; rewrite E1; auto|unfold v2v; rewrite E1'; auto|]. intros u U.
      destruct (F u U) as (_ & -> & _). destruct (F' (p u) (IN u U)) as (_ & -> & _). rewrite DEG. f_equal.
      apply (ren_sumf RN RT). intros v V. rewrite XX, SH. auto.
    + destruct (C35_v2e RT X H R) as (ys & ym & E1 & E2 & F & _). destruct (C35_v2e RT X' H' R') as (ys' & ym' & E1' & E2' & F' & _).
      intros a [<-|[<-|[]]]; eexists _, _; (split; [eassumption|]); (split; [eassumption|]); intros i i' I I' P; unfold nthw; rewrite !nth_map_range by auto.
      * destruct (F i I) as (-> & _). destruct (F' i' I') as (-> & _). apply (ren_edge_sum RT RN _ X P).
      * destruct (F i I) as (_ & ->). destruct (F' i' I') as (_ & ->). rewrite (ren_card RT p _ P). f_equal. apply (ren_edge_sum RT RN _ X P).
Qed.

(** renaming the vertices in the constructor call and all later calls gives such a hypergraph *)
Definition ren_harg (p : Z -> Z) (e : harg) : harg := match e with HOne l => HOne (map p l) | HMany l => HMany (map (map p) l) end.
Definition ren_hop {T} (p : Z -> Z) (o : hop T) : hop T :=
  match o with HAdd e w m g => HAdd (ren_harg p e) w m g | HRemove e g => HRemove (ren_harg p e) g | _ => o end.
(** two lists paired by a relation that matches every element with exactly one *)
Lemma match_lists {A B} (E : A -> B -> Prop) (l : list A) : forall l' : list B,
  (forall x, In x l -> exists y, In y l' /\ E x y) -> (forall y, In y l' -> exists x, In x l /\ E x y) ->
  ForallOrdPairs (fun x x' => forall y, E x y -> ~ E x' y) l -> ForallOrdPairs (fun y y' => forall x, E x y -> ~ E x y') l' ->
  exists L, Permutation L l' /\ Forall2 E l L.
Proof.
  induction l as [|x l IH]; intros l' A1 A2 O1 O2.
  - destruct l' as [|y l']; [exists []; auto|]. destruct (A2 y (or_introl eq_refl)) as (? & [] & _).
  - destruct (A1 x (or_introl eq_refl)) as (y & Y & EY). apply in_split in Y as (l1 & l2 & ->). inversion O1 as [|? ? X1 X2]; subst.
    rewrite Forall_forall in X1.
    assert (Q : forall y', In y' (l1 ++ l2) -> ~ E x y').
    { intros y' I EY'. clear - O2 I EY EY'. induction l1 as [|z l1 IH]; cbn in *.
      - inversion O2 as [|? ? F _]; subst. rewrite Forall_forall in F. exact (F y' I x EY EY').
      - inversion O2 as [|? ? F G]; subst. rewrite Forall_forall in F. destruct I as [<-|I]; [|auto]. apply (F y) with (x := x); auto. apply in_or_app. right. left. auto. }
    assert (O2' : ForallOrdPairs (fun y y' => forall x, E x y -> ~ E x y') (l1 ++ l2)).
    { clear - O2. induction l1 as [|z l1 IH]; cbn in *; inversion O2 as [|? ? F G]; subst; auto. constructor; auto. rewrite Forall_forall in *. intros y' I. apply F.
      apply in_app_or in I. apply in_or_app. cbn. tauto. }
    destruct (IH (l1 ++ l2)) as (L & P & F2); auto.
    + intros x' I. destruct (A1 x' (or_intror I)) as (y' & Y' & EY'). exists y'. split; auto. apply in_app_or in Y'. apply in_or_app. cbn in Y'.
      destruct Y' as [Y'|[<-|Y']]; auto. exfalso. exact (X1 x' I y EY EY').
    + intros y' I. destruct (A2 y') as (x' & [<-|I'] & EX); [apply in_app_or in I; apply in_or_app; cbn; tauto|exfalso; exact (Q y' I EX)|eauto].
    + exists (y :: L). split; [|constructor; auto]. apply Permutation_cons_app. auto.
Qed.
Section HyperHistories.
  Context {T : Type} {N : Num T}.
  Variables (nv : Z) (p r : Z -> Z).
  Hypothesis RN : renaming nv p r.
  Lemma ren_same_edge x y : same_edge (map p x) (map p y) = same_edge x y.
  Proof using RN.
    destruct (same_edge x y) eqn:E.
    - apply same_edge_perm. apply same_edge_perm in E. apply Permutation_map. auto.
    - destruct (same_edge (map p x) (map p y)) eqn:E2; auto. exfalso. apply same_edge_perm in E2. apply (Permutation_map r) in E2. rewrite !map_map in E2.
      destruct RN as (RP & _). rewrite !(map_ext (fun v => r (p v)) (fun v => v) RP), !map_id in E2. apply same_edge_perm in E2. congruence.
  Qed.
  Lemma ren_hedges e : hedges_of (ren_harg p e) = map (map p) (hedges_of e).
  Proof. destruct e as [[|a l]|l]; reflexivity. Qed.
  Lemma ren_hpairs e (w : warg T) : hpairs_of (ren_harg p e) w = option_map (map (fun x => (map p (fst x), snd x))) (hpairs_of e w).
  Proof.
    unfold hpairs_of. rewrite ren_hedges, map_length. destruct w as [|c|ws]; cbn [option_map]; [rewrite !map_map; auto..|].
    destruct (Nat.eqb _ _); cbn [option_map]; auto. f_equal. generalize (hedges_of e). intros l. revert ws. induction l as [|x l IH]; intros [|c ws]; cbn; auto. rewrite IH. auto.
  Qed.
  Definition halike (A A' : ahyper T) : Prop := ah_names A' = ah_names A /\ ah_vw A' = ah_vw A /\ forall g x, ah_w A' g (map p x) = ah_w A g x.
  Lemma ren_hadd e w m g A A' : halike A A' -> halike (ah_add e w m g A) (ah_add (ren_harg p e) w m g A').
  Proof using RN.
    unfold ah_add. rewrite ren_hpairs. destruct (hpairs_of e w) as [ps|]; cbn [option_map]; auto. revert A A'.
    induction ps as [|x ps IH]; cbn [fold_left map]; intros A A' HA; auto. apply IH. destruct HA as (HN & HV & HW).
    unfold ah_add1. split; [|split]; cbn [ah_names ah_vw ah_w fst snd]; [rewrite HN; auto|auto|]. intros g' y. rewrite ren_same_edge, HW. auto.
  Qed.
  Lemma ren_hremove e g A A' : halike A A' -> halike (ah_remove e g A) (ah_remove (ren_harg p e) g A').
  Proof using RN.
    intros HA. pose proof HA as (HN & HV & HW). unfold ah_remove. rewrite HN. destruct (match g with None => true | Some n => has_name n (ah_names A) end); auto.
    split; [|split]; cbn [ah_names ah_vw ah_w]; auto. intros g' y. rewrite ren_hedges, HW.
    replace (existsb _ (map (map p) (hedges_of e))) with (existsb (fun x => same_edge x y) (hedges_of e)); auto.
    induction (hedges_of e) as [|x l IH]; cbn; auto. rewrite ren_same_edge, IH. auto.
  Qed.
  Lemma ren_hspec e (w : warg T) vw m ops : halike (h_spec nv e w vw m ops) (h_spec nv (option_map (ren_harg p) e) w vw m (map (ren_hop p) ops)).
  Proof using RN.
    unfold h_spec. assert (HA : halike (ah_new nv e w vw m) (ah_new nv (option_map (ren_harg p) e) w vw m)).
    { unfold ah_new. destruct e as [e|]; cbn [option_map]; [apply ren_hadd|]; split; auto. }
    revert HA. generalize (ah_new nv e w vw m), (ah_new nv (option_map (ren_harg p) e) w vw m).
    induction ops as [|o ops IH]; cbn [fold_left map]; intros A A' HA; auto. apply IH. clear IH. destruct o; cbn [ren_hop ah_step]; [apply ren_hadd; auto|apply ren_hremove; auto|..].
    - destruct HA as (HN & HV & HW). unfold ah_remove_group. split; [|split]; cbn [ah_names ah_vw ah_w]; [rewrite HN; auto|auto|]. intros g' y. rewrite HW. auto.
    - split; auto.
    - auto.
  Qed.
  Lemma ren_hnew e (w : warg T) vw m s : m <> MOther -> h_new nv e w vw m = Ok s -> exists s', h_new nv (option_map (ren_harg p) e) w vw m = Ok s'.
  Proof.
    intros M. unfold h_new. destruct (0 <? nv); [|discriminate].
    assert (X : forall vl (s0 := mkSt (mkHRaw nv (Some vl) []) []),
      match e with None => Ok s0 | Some ea => match h_add ea w m "main" s0 with (s1, Ok _) => Ok s1 | (_, Err x) => Err x end end = Ok s ->
      exists s', match option_map (ren_harg p) e with None => Ok s0 | Some ea => match h_add ea w m "main" s0 with (s1, Ok _) => Ok s1 | (_, Err x) => Err x end end = Ok s').
    { intros vl s0. destruct e as [e|]; cbn [option_map]; [|eauto]. unfold h_add.
      replace (length (hformat (ren_harg p e))) with (length (hformat e)) by (destruct e as [[|? ?]|l]; cbn; rewrite ?map_length; auto).
      destruct (hweights (length (hformat e)) w) as [ws|x]; [|discriminate]. intros _.
      destruct (hadds_known "main" (combine (hformat (ren_harg p e)) ws) (st_raw s0) M) as (r' & ->). eauto. }
    destruct vw as [l|]; [destruct (Nat.eqb _ _); [|discriminate]|]; apply X.
  Qed.
  Lemma ren_clean e : clean_harg nv e -> clean_harg nv (ren_harg p e).
  Proof using RN.
    unfold clean_harg. rewrite ren_hedges. intros F. rewrite Forall_forall in *. intros x I. apply in_map_iff in I as (y & <- & I). destruct (F y I) as (ND & RG). split.
    - apply FinFun.Injective_map_NoDup; auto. intros u v E. destruct RN as (RP & _). rewrite <- (RP u), <- (RP v). congruence.
    - rewrite Forall_forall in *. intros v V. apply in_map_iff in V as (u & <- & U). apply (ren_in RN). auto.
  Qed.
  Lemma ren_group g (A A' : ahyper T) es ws es' ws' : halike A A' -> length ws = length es -> length ws' = length es' ->
    ForallOrdPairs (fun a b => same_edge a b = false) es -> ForallOrdPairs (fun a b => same_edge a b = false) es' ->
    (forall x c, ah_w A g x = Some c <-> exists x', same_edge x x' = true /\ In (x', c) (combine es ws)) ->
    (forall x c, ah_w A' g x = Some c <-> exists x', same_edge x x' = true /\ In (x', c) (combine es' ws')) ->
    hrelabelled p es ws es' ws'.
  Proof using RN.
    intros (_ & _ & HW) L L' O O' S S'. assert (REF : forall x, same_edge x x = true) by (intros x; apply same_edge_perm; auto).
    assert (MAPR : forall y, map p (map r y) = y).
    { intros y. rewrite map_map. destruct RN as (_ & RP & _). rewrite (map_ext (fun v => p (r v)) (fun v => v) RP). apply map_id. }
    apply match_lists.
    - intros [x c] I. cbn [fst snd]. assert (E : ah_w A' g (map p x) = Some c) by (rewrite HW; apply S; eauto). apply S' in E as (y & P & J).
      exists (y, c). split; auto. split; auto. cbn. apply same_edge_perm. auto.
    - intros [y c] I. assert (E : ah_w A g (map r y) = Some c) by (rewrite <- HW, MAPR; apply S'; eauto). apply S in E as (x & P & J).
      exists (x, c). split; auto. split; auto. cbn. apply same_edge_perm in P. apply (Permutation_map p) in P. rewrite MAPR in P. symmetry. auto.
    - clear -O RN. revert ws. induction O as [|x es F O IH]; intros [|c ws]; cbn; try constructor; auto. rewrite Forall_forall in *. intros [x' c'] I. intros [y d] (P1 & _) (P2 & _).
      cbn in *. assert (D : same_edge x x' = false) by (apply F; eapply in_combine_l; eauto). rewrite <- ren_same_edge in D.
      assert (D' : same_edge (map p x) (map p x') = true) by (apply same_edge_perm; rewrite P1; symmetry; auto). congruence.
    - clear -O'. revert ws'. induction O' as [|y es F O IH]; intros [|c ws]; cbn; try constructor; auto. rewrite Forall_forall in *. intros [y' c'] I. intros [x d] (P1 & _) (P2 & _).
      cbn in *. assert (D : same_edge y y' = false) by (apply F; eapply in_combine_l; eauto).
      assert (D' : same_edge y y' = true) by (apply same_edge_perm; rewrite <- P1; auto). congruence.
  Qed.
  Lemma hrel_app es ws es' ws' fs us fs' us' : length ws = length es -> length ws' = length es' ->
    hrelabelled (T := T) p es ws es' ws' -> hrelabelled p fs us fs' us' -> hrelabelled p (es ++ fs) (ws ++ us) (es' ++ fs') (ws' ++ us').
  Proof.
    intros L L' (M1 & P1 & F1) (M2 & P2 & F2). exists (M1 ++ M2).
    assert (CA : forall {A B} (a : list A) (b : list B) a2 b2, length b = length a -> combine (a ++ a2) (b ++ b2) = combine a b ++ combine a2 b2).
    { clear. intros A B a. induction a as [|x a IH]; intros [|y b] a2 b2 E; try discriminate; cbn; auto. rewrite IH; auto. }
    rewrite !CA by auto. split; [apply Permutation_app; auto|apply Forall2_app; auto].
  Qed.
End HyperHistories.
Theorem C67_hypergraph_histories : forall (T : Type) (N : Num T) nv p r e w vw m ops (s : hypergraph T) sc es ws,
  h_clean_reach nv e w vw m ops s -> h_reports s sc es ws -> renaming nv p r ->
  exists s' es' ws', h_clean_reach nv (option_map (ren_harg p) e) w vw m (map (ren_hop p) ops) s' /\ h_reports s' sc es' ws' /\ hrelabelled p es ws es' ws'.
Proof.
  intros T N nv p r e w vw m ops s sc es ws H R RN. pose proof H as ((s0 & E0 & ES) & M & D & CN & CO).
  destruct (@ren_hnew T N nv p _ _ _ _ _ M E0) as (s0' & E0'). set (s' := fst (h_run (map (ren_hop p) ops) s0')).
  assert (H1 : h_reach nv (option_map (ren_harg p) e) w vw m (map (ren_hop p) ops) s') by (exists s0'; auto).
  assert (D' : Forall doc_op (map (ren_hop p) ops)).
  { rewrite Forall_forall in *. intros o O. apply in_map_iff in O as (o' & <- & O). specialize (D o' O). destruct o'; auto. }
  assert (H' : h_clean_reach nv (option_map (ren_harg p) e) w vw m (map (ren_hop p) ops) s').
  { split; auto. split; auto. split; auto. split; [destruct e; cbn; auto; apply (ren_clean RN); auto|].
    rewrite Forall_forall in *. intros o O. apply in_map_iff in O as (o' & <- & O). specialize (CO o' O). destruct o'; cbn; auto. apply (ren_clean RN); auto. }
  assert (H0 : h_reach nv e w vw m ops s) by (exists s0; auto).
  pose proof (ren_hspec RN e w vw m ops) as HA. destruct (C27_store H0 M D) as (NM & ND & _ & G). destruct (C27_store H1 M D') as (NM' & _ & _ & G').
  set (A := h_spec nv e w vw m ops) in *. set (A' := h_spec nv (option_map (ren_harg p) e) w vw m (map (ren_hop p) ops)) in *.
  assert (EN : ah_names A' = ah_names A) by apply HA.
  assert (GR : forall g, In g (ah_names A) -> exists gs ds gs' ds', snd (h_query (hqE (Some g)) s) = Ok (OHE gs ds) /\ snd (h_query (hqE (Some g)) s') = Ok (OHE gs' ds') /\
    length ds = length gs /\ length ds' = length gs' /\ hrelabelled p gs ds gs' ds').
  { intros g I. destruct (G g) as (_ & G1). destruct (G' g) as (_ & G1'). destruct (G1 I) as (gs & ds & X1 & _ & X3 & _ & X5 & X6).
    destruct (G1' ltac:(rewrite EN; auto)) as (gs' & ds' & X1' & _ & X3' & _ & X5' & X6'). exists gs, ds, gs', ds'. split; auto. split; auto. split; auto. split; auto.
    eapply (ren_group RN); eauto. }
  exists s'. destruct sc as [g|].
  - destruct R as (R & _). destruct (in_dec string_dec g (ah_names A)) as [I|NI].
    + destruct (GR g I) as (gs & ds & gs' & ds' & X1 & X2 & X3 & X4 & X5). rewrite R in X1. injection X1 as -> ->. exists gs', ds'. split; auto. split; auto. split; auto. discriminate.
    + destruct (G g) as (G1 & _). destruct (G1 NI) as (X & _). congruence.
  - assert (PT : exists gl gl', h_parts s gl /\ h_parts s' gl' /\
      hrelabelled p (concat (map (fun x => fst (snd x)) gl)) (concat (map (fun x => snd (snd x)) gl)) (concat (map (fun x => fst (snd x)) gl')) (concat (map (fun x => snd (snd x)) gl'))).
    { assert (X : forall names, incl names (ah_names A) -> exists gl gl', map fst gl = names /\ map fst gl' = names /\
        Forall (fun x => snd (h_query (hqE (Some (fst x))) s) = Ok (OHE (fst (snd x)) (snd (snd x)))) gl /\
        Forall (fun x => snd (h_query (hqE (Some (fst x))) s') = Ok (OHE (fst (snd x)) (snd (snd x)))) gl' /\
        hrelabelled p (concat (map (fun x => fst (snd x)) gl)) (concat (map (fun x => snd (snd x)) gl)) (concat (map (fun x => fst (snd x)) gl')) (concat (map (fun x => snd (snd x)) gl'))).
      { induction names as [|g names IH]; intros IC; [exists [], []; repeat split; auto; exists []; split; constructor|].
        destruct IH as (gl & gl' & Y1 & Y2 & Y3 & Y4 & Y5); [intros z Z0; apply IC; right; auto|].
        destruct (GR g (IC g (or_introl eq_refl))) as (gs & ds & gs' & ds' & X1 & X2 & X3 & X4 & X5).
        exists ((g, (gs, ds)) :: gl), ((g, (gs', ds')) :: gl'). cbn [map fst snd concat]. rewrite Y1, Y2. split; auto. split; auto. split; [constructor; auto|]. split; [constructor; auto|].
        apply hrel_app; auto. }
      destruct (X (ah_names A) (incl_refl _)) as (gl & gl' & Y1 & Y2 & Y3 & Y4 & Y5). exists gl, gl'. split; [split; auto; rewrite Y1; auto|]. split; [split; auto; rewrite Y2, <- EN; auto|auto]. }
    destruct PT as (gl & gl' & P1 & P2 & P3). destruct (C27_global H0 M D P1) as (Q1 & _). destruct (C27_global H1 M D' P2) as (Q2 & _).
    destruct R as (R & RN0). rewrite Q1 in R. injection R as <- <-. eexists _, _. split; [exact H'|]. split; [|exact P3]. split; [exact Q2|]. intros _. rewrite NM', EN, <- NM. auto.
Qed.
Example C67_hypergraph_case : exists (s : hypergraph Qc) es ws, ex_reached s /\ h_reports s None es ws /\ renaming 4 turn turn_back /\ length es = 4%nat /\
  hrelabelled turn [[0; 1]; [0; 3]] [q 2; q 5] [[1; 3]; [1; 2]] [q 5; q 2].
Proof.
  destruct (ex_hyper Num_Qc) as (s & X & _ & _ & E). eexists s, _, _. split; [exact X|]. split; [exact E|]. split; [exact turn_renaming|]. split; [reflexivity|].
  exists [([1; 2], q 2); ([1; 3], q 5)]. split; [apply perm_swap|]. repeat constructor.
Qed.
