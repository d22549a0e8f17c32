(** Property C150: adding the hyperedges of another structure to an existing hypergraph. *)
From Coq Require Import String Permutation Sorted QArith Qcanon.
From Verif Require Import Num PyDict PyDictFacts Coo CooFacts MatFacts ModelBase CacheFacts ModelGraph GraphFacts SpecGraph SpecGraphOps StoreFacts
  GraphStore GraphMatrix GraphReach PropGraph ModelDiGraph ModelBiGraph SpecBiGraph BiGraphFacts
  ModelHyper HyperFacts SpecHyper HyperStore HyperView HyperMatrix HyperReach HyperOps PropHyper ModelConv SpecConv ConvFacts PropConv.
Set Implicit Arguments.
Local Open Scope string_scope.
Local Open Scope list_scope.
Local Open Scope Z_scope.
Local Notation q z := (Q2Qc (inject_Z z)).

Section Sources.
  Context {T : Type} {N : Num T}.
  (** what hyperedges can be taken from *)
  Inductive hsrc :=
  | SrcGraph (s : graph T)
  | SrcKnn (n k : Z) (topk : Z -> list Z)
  | SrcKhop (k : Z) (only : bool) (s : graph T)
  | SrcBi (u_as_vertex : bool) (s : bigraph T).
  (** a new hypergraph: from_graph, from_feature_kNN, from_graph_kHop, from_bigraph *)
  Definition src_new (x : hsrc) : res (hypergraph T) :=
    match x with
    | SrcGraph s => h_from_graph s
    | SrcKnn n k topk => h_from_knn n k topk
    | SrcKhop k only s => h_from_khop k only s
    | SrcBi uv s => h_from_bigraph uv s
    end.
  (** the methods add_hyperedges_from_... *)
  Definition src_add (x : hsrc) (g : string) (h : hypergraph T) : hypergraph T * res unit :=
    match x with
    | SrcGraph s => h_add_from_graph s g h
    | SrcKnn n k topk => h_add_from_knn n k topk g h
    | SrcKhop k only s => h_add_from_khop k only s g h
    | SrcBi uv s => h_add_from_bigraph uv s g h
    end.
  (** the number of vertices of the source *)
  Definition src_nv (x : hsrc) : Z :=
    match x with
    | SrcGraph s => r_nv (st_raw s)
    | SrcKnn n _ _ => n
    | SrcKhop _ _ s => r_nv (st_raw s)
    | SrcBi uv s => if uv then b_nu (st_raw s) else b_nv (st_raw s)
    end.
  (** group [g] of the hypergraph reports hyperedge [x] with weight [c] *)
  Definition weight_in (s : hypergraph T) (g : string) (x : list Z) (c : T) : Prop :=
    exists es ws x', snd (h_query (hqE (Some g)) s) = Ok (OHE es ws) /\ Permutation x x' /\ In (x', c) (combine es ws).

  (** proof *)
  Definition src_args (x : hsrc) : res (list (list Z) * warg T) :=
    match x with
    | SrcGraph s => rbind (asks get_e s) (fun ew => Ok (map pair2 (fst ew), WList (snd ew)))
    | SrcKnn n k topk => rbind (knn_edges n k topk) (fun es => Ok (es, WNone))
    | SrcKhop k only s => rbind (khop_edges k only s) (fun es => Ok (es, WNone))
    | SrcBi uv s => rbind (bi_edges uv s) (fun es => Ok (es, WNone))
    end.
  Lemma src_new_eq x : src_new x = rbind (src_args x) (fun a => h_new (src_nv x) (Some (HMany (fst a))) (snd a) None MMean).
  Proof using.
    destruct x; cbn [src_new src_args src_nv].
    - unfold h_from_graph. destruct (asks get_e s); reflexivity.
    - unfold h_from_knn. destruct (knn_edges n k topk); reflexivity.
    - unfold h_from_khop. destruct (khop_edges k only s); reflexivity.
    - unfold h_from_bigraph. destruct (bi_edges u_as_vertex s); reflexivity.
  Qed.
  Lemma src_add_eq x g h : src_add x g h =
    if h_nv (st_raw h) =? src_nv x then match src_args x with Ok a => h_add (HMany (fst a)) (snd a) MMean g h | Err ex => (h, Err ex) end else (h, Err AssertionError).
  Proof using.
    destruct x; cbn [src_add src_args src_nv].
    - unfold h_add_from_graph. destruct (_ =? _); [|reflexivity]. destruct (asks get_e s); reflexivity.
    - unfold h_add_from_knn. rewrite (Z.eqb_sym n). destruct (_ =? _); [|reflexivity]. destruct (knn_edges n k topk); reflexivity.
    - unfold h_add_from_khop. destruct (_ =? _); [|reflexivity]. destruct (khop_edges k only s); reflexivity.
    - unfold h_add_from_bigraph. destruct (_ =? _); [|reflexivity]. destruct (bi_edges u_as_vertex s); reflexivity.
  Qed.

  (** what a group becomes *)
  Fixpoint dadds (m : mop) (l : list (list Z * T)) (o : option (dict (list Z) T)) : option (dict (list Z) T) :=
    match l with
    | [] => o
    | (e, w) :: r =>
        dadds m r (Some (match o with
          | None => [(e, w)]
          | Some d => match dget e d with Some x => dset e (merged m x w) d | None => dset e w d end
          end))
    end.
  Lemma hadds_group m g l : m <> MOther -> forall r, exists r', hadds m g l r = (r', Ok tt) /\ h_nv r' = h_nv r /\ h_vw r' = h_vw r /\
    dget g (h_gr r') = dadds m l (dget g (h_gr r)) /\ forall g', g' <> g -> dget g' (h_gr r') = dget g' (h_gr r).
  Proof using.
    intros M. induction l as [|[e w] l IH]; intros r; [exists r; cbn; repeat split; auto|]. cbn [hadds dadds].
    assert (ST : exists r1, hadd1 m g e w r = Ok r1 /\ h_nv r1 = h_nv r /\ h_vw r1 = h_vw r /\
      dget g (h_gr r1) = Some (match dget g (h_gr r) with None => [(e, w)] | Some d => match dget e d with Some x => dset e (merged m x w) d | None => dset e w d end end) /\
      forall g', g' <> g -> dget g' (h_gr r1) = dget g' (h_gr r)).
    { unfold hadd1. destruct (dget g (h_gr r)) as [d|]; [destruct (dget e d) as [x|]|].
      - destruct m; cbn [merge_fun merged]; try contradiction; (eexists; split; [reflexivity|]; cbn [set_gr h_nv h_vw h_gr]; repeat split; [apply dget_dset_same|intros; apply dget_dset_other; auto]).
      - eexists; split; [reflexivity|]; cbn [set_gr h_nv h_vw h_gr]; repeat split; [apply dget_dset_same|intros; apply dget_dset_other; auto].
      - eexists; split; [reflexivity|]; cbn [set_gr h_nv h_vw h_gr]; repeat split; [apply dget_dset_same|intros; apply dget_dset_other; auto]. }
    destruct ST as (r1 & E1 & A1 & B1 & C1 & D1). rewrite E1. destruct (IH r1) as (r' & E2 & A2 & B2 & C2 & D2). exists r'. split; auto.
    split; [congruence|]. split; [congruence|]. split; [rewrite C2, C1; reflexivity|]. intros g' NG. rewrite D2, D1 by auto. reflexivity.
  Qed.
  Lemma merged_fold_None (ps : list (list Z * T)) m (g : string) e : forall A, (forall x, In x ps -> same_edge (fst x) e = false) ->
    ah_w (fold_left (fun A x => ah_add1 m g x A) ps A) g e = ah_w A g e.
  Proof using.
    induction ps as [|x ps IH]; intros A F; [reflexivity|]. cbn [fold_left]. rewrite IH by (intros; apply F; right; auto). cbn [ah_add1 ah_w].
    rewrite (F x) by (left; auto). rewrite andb_false_r. reflexivity.
  Qed.
  Lemma same_refl (g : string) : same_name g g = true.
  Proof using. unfold same_name. destruct (string_dec g g); [reflexivity|contradiction]. Qed.
  Lemma merged_fold_some (ps : list (list Z * T)) m (g : string) e : forall A, ah_w A g e <> None \/ (exists x, In x ps /\ same_edge (fst x) e = true) ->
    ah_w (fold_left (fun A x => ah_add1 m g x A) ps A) g e <> None.
  Proof using.
    induction ps as [|x ps IH]; intros A [K|(y & I & S)]; cbn [fold_left].
    - exact K.
    - destruct I.
    - apply IH. left. cbn [ah_add1 ah_w]. destruct (same_name g g && same_edge (fst x) e); [discriminate|exact K].
    - destruct I as [->|I].
      + apply IH. left. cbn [ah_add1 ah_w]. rewrite same_refl, S. discriminate.
      + apply IH. right. exists y. auto.
  Qed.
  (** a fold over one edge only looks at the previous weight of that edge *)
  Lemma merged_fold_same (ps : list (list Z * T)) m (g g' : string) e : forall A A', ah_w A g e = ah_w A' g' e ->
    ah_w (fold_left (fun A x => ah_add1 m g x A) ps A) g e = ah_w (fold_left (fun A x => ah_add1 m g' x A) ps A') g' e.
  Proof using.
    induction ps as [|x ps IH]; intros A A' E; [exact E|]. cbn [fold_left]. apply IH. cbn [ah_add1 ah_w]. rewrite !same_refl, E. reflexivity.
  Qed.
  Lemma weight_ah nv e w vw m ops (s : hypergraph T) g x c : h_reach nv e w vw m ops s -> m <> MOther -> Forall doc_op ops ->
    weight_in s g x c <-> ah_w (h_spec nv e w vw m ops) g x = Some c.
  Proof using.
    intros H M D. destruct (C27_store H M D) as (_ & _ & _ & G). specialize (G g). set (A := h_spec nv e w vw m ops) in *.
    destruct (in_dec string_dec g (ah_names A)) as [I|I].
    - destruct (proj2 G I) as (es & ws & E & _ & _ & _ & _ & L). rewrite L. split.
      + intros (es' & ws' & x' & E' & P & J). rewrite E in E'. injection E' as <- <-. exists x'. split; [apply C27_same_edge; auto|auto].
      + intros (x' & P & J). exists es, ws, x'. split; auto. split; [apply C27_same_edge; auto|auto].
    - destruct (proj1 G I) as [E _]. destruct (h_reach_inv H M D) as (((W & NM & V & L) & C & NV) & P & _). fold A in NM, L. split.
      + intros (es & ws & x' & E' & _). rewrite E in E'. discriminate.
      + rewrite <- L. unfold hlookup. assert (K : dget g (h_gr (st_raw s)) = None) by (apply dget_None; rewrite NM; exact I). rewrite K. discriminate.
  Qed.
End Sources.
Arguments hsrc T : clear implicits.

(** If the source has as many vertices as the hypergraph and can be turned into a hypergraph [f] of its own, its hyperedges are added to group
    [g]: a new group becomes what [f] reports, with order and weights; in an existing group hyperedges that [f] does not have keep their weight
    and hyperedges it did not have come with the weight of [f]; nothing is lost; other groups and the vertex weights are untouched.  Otherwise
    the hypergraph is left as it was. *)
Theorem C150_add_source : forall (T : Type) (N : Num T) nv e w vw m ops (h : hypergraph T) (x : hsrc T) g,
  h_reach nv e w vw m ops h -> m <> MOther -> Forall doc_op ops ->
  (forall f, src_new x = Ok f -> src_nv x = nv -> exists h', src_add x g h = (h', Ok tt) /\
     (forall names, snd (h_query hqNames h) = Ok (ONames names) -> ~ In g names ->
        snd (h_query (hqE (Some g)) h') = snd (h_query (hqE (Some "main")) f)) /\
     (forall g', g' <> g -> snd (h_query (hqE (Some g')) h') = snd (h_query (hqE (Some g')) h)) /\
     snd (h_query hqVw h') = snd (h_query hqVw h) /\
     (forall y, (forall c, ~ weight_in f "main" y c) -> forall c, weight_in h' g y c <-> weight_in h g y c) /\
     (forall y, (forall c, ~ weight_in h g y c) -> forall c, weight_in h' g y c <-> weight_in f "main" y c) /\
     (forall y c, weight_in h g y c \/ weight_in f "main" y c -> exists c', weight_in h' g y c')) /\
  (src_nv x <> nv -> src_add x g h = (h, Err AssertionError)) /\
  (forall ex, src_new x = Err ex -> src_nv x = nv -> src_add x g h = (h, Err ex)).
Proof.
  intros T N nv e w vw m ops h x g H M D. pose proof (h_reach_inv H M D) as (((W & NM & V & L) & C & NV) & P & _).
  rewrite src_new_eq, src_add_eq, NV. split; [|split].
  - intros f F SN. rewrite SN, Z.eqb_refl. rewrite SN in F. destruct (src_args x) as [[es ws]|]; cbn [rbind fst snd] in *; [|discriminate].
    assert (HF : h_reach nv (Some (HMany es)) ws None MMean [] f) by (exists f; split; [exact F|reflexivity]).
    assert (HW : exists w', hweights (length (hformat (HMany es))) ws = Ok w').
    { unfold h_new in F. rewrite (proj2 (Z.ltb_lt 0 nv) P) in F. unfold h_add in F. destruct (hweights _ ws) as [w'|]; [eauto|discriminate]. }
    destruct HW as [w' HW].
    assert (MM : MMean <> MOther) by discriminate.
    destruct (@hadds_group T N MMean g (combine (hformat (HMany es)) w') MM (st_raw h)) as (r' & E1 & A1 & B1 & C1 & D1).
    assert (FR : dget "main" (h_gr (st_raw f)) = dadds MMean (combine (hformat (HMany es)) w') None).
    { unfold h_new in F. rewrite (proj2 (Z.ltb_lt 0 nv) P) in F. unfold h_add in F. rewrite HW in F.
      destruct (@hadds_group T N MMean "main" (combine (hformat (HMany es)) w') MM (mkHRaw nv (Some (repeat n1 (Z.to_nat nv))) [])) as (r2 & E2 & _ & _ & C2 & _).
      cbn [st_raw] in F. rewrite E2 in F. injection F as <-. exact C2. }
    set (h' := hclear_cache (Some g) (mkSt r' (st_cache h))). exists h'.
    assert (HA : h_add (HMany es) ws MMean g h = (h', Ok tt)) by (unfold h_add; rewrite HW, E1; reflexivity).
    split; [exact HA|].
    assert (H' : h_reach nv e w vw m (ops ++ [HAdd (HMany es) ws MMean g]) h').
    { destruct H as (s0 & E0 & ->). exists s0. split; auto. rewrite h_run_app. cbn [h_run h_step]. unfold unit_out, bind. rewrite HA. reflexivity. }
    assert (D' : Forall doc_op (ops ++ [HAdd (HMany es) ws MMean g])) by (apply Forall_app; split; [exact D|repeat constructor; discriminate]).
    pose proof (h_reach_inv H' M D') as (((W' & NM' & V' & L') & C' & NV') & _ & _).
    pose proof (h_reach_inv HF MM (Forall_nil _)) as (((Wf & NMf & Vf & Lf) & Cf & NVf) & _ & _).
    assert (AN : forall s0 : hypergraph T, coh (hspec None) s0 -> forall q0, is_Wv q0 = false -> snd (h_query q0 s0) = hp_query q0 (st_raw s0)).
    { intros s0 C0 q0 Q. apply (good_answer (hgood_query (fz := None) q0 (or_intror Q)) C0). }
    assert (RW : st_raw h' = r') by reflexivity.
    assert (SP : h_spec nv e w vw m (ops ++ [HAdd (HMany es) ws MMean g]) = ah_add (HMany es) ws MMean g (h_spec nv e w vw m ops)).
    { unfold h_spec. rewrite fold_left_app. reflexivity. }
    assert (HP : exists ps, hpairs_of (HMany es) ws = Some ps).
    { unfold hpairs_of. destruct ws as [|c|l]; eauto. cbn [hformat hweights hedges_of] in *. rewrite map_length in HW. destruct (Nat.eqb (length l) (length es)); [eauto|discriminate]. }
    destruct HP as [ps HP].
    assert (SF : h_spec nv (Some (HMany es)) ws None MMean [] = fold_left (fun A x => ah_add1 MMean "main" x A) ps (mkAH [] (fun _ _ => None) (Some (repeat n1 (Z.to_nat nv))))).
    { unfold h_spec, ah_new, ah_add. cbn [fold_left]. rewrite HP. reflexivity. }
    assert (SA : h_spec nv e w vw m (ops ++ [HAdd (HMany es) ws MMean g]) = fold_left (fun A x => ah_add1 MMean g x A) ps (h_spec nv e w vw m ops)).
    { rewrite SP. unfold ah_add. rewrite HP. reflexivity. }
    split; [|split; [|split; [|split; [|split]]]].
    + intros names Q NI. rewrite (AN h' C'), (AN f Cf) by reflexivity. cbn [hp_query hp_e]. unfold hp_e_g, p_group. rewrite RW, C1, FR.
      rewrite (AN h C) in Q by reflexivity. cbn [hp_query] in Q. injection Q as <-.
      assert (K : dget g (h_gr (st_raw h)) = None) by (apply dget_None; exact NI). rewrite K. reflexivity.
    + intros g' NG. rewrite (AN h' C'), (AN h C) by reflexivity. cbn [hp_query hp_e]. unfold hp_e_g, p_group. rewrite RW, D1 by auto. reflexivity.
    + rewrite (AN h' C'), (AN h C) by reflexivity. cbn [hp_query]. rewrite RW, B1. reflexivity.
    + intros y NF c. rewrite (weight_ah g y c H' M D'), (weight_ah g y c H M D), SA.
      rewrite merged_fold_None; [reflexivity|]. intros [a b] I. destruct (same_edge (fst (a, b)) y) eqn:S; auto. exfalso.
      assert (K : ah_w (h_spec nv (Some (HMany es)) ws None MMean []) "main" y <> None) by (rewrite SF; apply merged_fold_some; right; exists (a, b); auto).
      destruct (ah_w (h_spec nv (Some (HMany es)) ws None MMean []) "main" y) as [c0|] eqn:E0; [|contradiction]. apply (NF c0). apply (weight_ah "main" y c0 HF MM (Forall_nil _)). exact E0.
    + intros y NF c. rewrite (weight_ah g y c H' M D'), (weight_ah "main" y c HF MM (Forall_nil _)), SA, SF.
      rewrite (merged_fold_same ps MMean g "main" y _ (mkAH [] (fun _ _ => None) (Some (repeat n1 (Z.to_nat nv))))); [reflexivity|].
      cbn [ah_w]. destruct (ah_w (h_spec nv e w vw m ops) g y) as [c0|] eqn:E0; auto. exfalso. apply (NF c0). apply (weight_ah g y c0 H M D). exact E0.
    + intros y c K. assert (K' : ah_w (h_spec nv e w vw m (ops ++ [HAdd (HMany es) ws MMean g])) g y <> None).
      { rewrite SA. destruct K as [K|K].
        - apply (weight_ah g y c H M D) in K. apply merged_fold_some. left. rewrite K. discriminate.
        - apply (weight_ah "main" y c HF MM (Forall_nil _)) in K. rewrite SF in K. apply merged_fold_some. right.
          destruct (existsb (fun x => same_edge (fst x) y) ps) eqn:EX.
          + apply existsb_exists in EX. exact EX.
          + rewrite merged_fold_None in K; [discriminate|]. intros z I. destruct (same_edge (fst z) y) eqn:S; auto.
            assert (existsb (fun x => same_edge (fst x) y) ps = true) by (apply existsb_exists; exists z; auto). congruence. }
      destruct (ah_w _ g y) as [c'|] eqn:E0; [|contradiction]. exists c'. apply (weight_ah g y c' H' M D'). exact E0.
  - intros NE. destruct (Z.eqb_spec nv (src_nv x)); [congruence|reflexivity].
  - intros ex F SN. rewrite SN in *. rewrite Z.eqb_refl. destruct (src_args x) as [[es ws]|ey]; cbn [rbind fst snd] in *; [|congruence].
    unfold h_new in F. rewrite (proj2 (Z.ltb_lt 0 nv) P) in F. unfold h_add in *. cbn [st_raw] in F.
    destruct (hweights (length (hformat (HMany es))) ws) as [w'|ey]; [|injection F as <-; reflexivity].
    destruct (@hadds_group T N MMean "main" (combine (hformat (HMany es)) w') ltac:(discriminate) (mkHRaw nv (Some (repeat n1 (Z.to_nat nv))) [])) as (r2 & E2 & _).
    rewrite E2 in F. discriminate.
Qed.
(** a case: a bipartite graph's items added to a hypergraph of three vertices *)
Example C150_case : exists (h : hypergraph Qc) s f,
  h_reach 3 (Some (HMany [[0; 1]])) (WList [q 5]) None MMean [] h /\ b_reach 3 2 (Some (EMany [(0, 0); (1, 0); (1, 1); (2, 1)])) WNone MMean [] s /\
  src_new (SrcBi true s) = Ok f /\ src_nv (SrcBi true s) = 3 /\
  snd (h_query (hqE (Some "new")) (fst (src_add (SrcBi true s) "new" h))) = Ok (OHE [[0; 1]; [1; 2]] [q 1; q 1]) /\
  snd (h_query (hqE (Some "main")) (fst (src_add (SrcBi true s) "main" h))) = Ok (OHE [[0; 1]; [1; 2]] [q 3; q 1]).
Proof.
  eexists _, _, _. split; [eexists; split; reflexivity|]. split; [eexists; split; reflexivity|]. split; [reflexivity|]. split; [reflexivity|].
  split; vm_compute; [reflexivity|]. qceq.
Qed.
