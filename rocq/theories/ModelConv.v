(** Model of the conversions between structures: dhg/structure/hypergraphs/hypergraph.py ("hg"),
    dhg/structure/graphs/graph.py ("g") and dhg/structure/graphs/bipartite_graph.py ("bg").  The source object is only
    read; the cache entries this leaves in it are dropped here (asking questions changes no later answer, C02, C28). *)
From Coq Require Import String.
From Verif Require Import Num PyDict Coo ModelBase ModelGraph ModelDiGraph ModelBiGraph ModelHyper.
Set Implicit Arguments.

(** [set(l)] as a list without repetitions (the order does not matter, the callers sort) *)
Fixpoint znodup (l : list Z) : list Z :=
  match l with
  | [] => []
  | x :: r => if existsb (Z.eqb x) r then znodup r else x :: znodup r
  end.

Section Conv.
  Context {T : Type} `{Num T}.

  Definition rbind {A B} (r : res A) (f : A -> res B) : res B := match r with Ok a => f a | Err x => Err x end.
  (** ask the source object *)
  Definition asks {R A} (g : M T R A) (s : st T R) : res A := snd (g s).
  Definition pair2 (e : Z * Z) : list Z := [fst e; snd e].

  (** hg:211-223 [from_graph] *)
  Definition h_from_graph (s : graph T) : res (hypergraph T) :=
    rbind (asks get_e s) (fun ew => h_new (r_nv (st_raw s)) (Some (HMany (map pair2 (fst ew)))) (WList (snd ew)) None MMean).
  (** hg:366-375 [add_hyperedges_from_graph] *)
  Definition h_add_from_graph (s : graph T) (g : string) : M T (hraw T) unit := fun h =>
    if h_nv (st_raw h) =? r_nv (st_raw s) then
      match asks get_e s with
      | Ok ew => h_add (HMany (map pair2 (fst ew))) (WList (snd ew)) MMean g h
      | Err x => (h, Err x)
      end
    else (h, Err AssertionError).

  (** hg:178-191 [_e_list_from_feature_kNN] for [n] feature rows; [topk v] is the v-th row torch.topk returns on
      the distance matrix (torch.topk rejects a negative k) *)
  Definition knn_edges (n k : Z) (topk : Z -> list Z) : res (list (list Z)) :=
    if k <=? n then if 0 <=? k then Ok (map topk (range n)) else Err RuntimeError else Err AssertionError.
  (** hg:195-208 [from_feature_kNN] *)
  Definition h_from_knn (n k : Z) (topk : Z -> list Z) : res (hypergraph T) :=
    rbind (knn_edges n k topk) (fun es => h_new n (Some (HMany es)) WNone None MMean).
  (** hg:352-364 [add_hyperedges_from_feature_kNN] *)
  Definition h_add_from_knn (n k : Z) (topk : Z -> list Z) (g : string) : M T (hraw T) unit := fun h =>
    if n =? h_nv (st_raw h) then
      match knn_edges n k topk with Ok es => h_add (HMany es) WNone MMean g h | Err x => (h, Err x) end
    else (h, Err AssertionError).

  (** hg:238-244 the powers A^2, ..., A^k the loop collects *)
  Fixpoint apowers (A Ak : coo T) (k : nat) : list (coo T) :=
    match k with O => [] | S k' => let B := spmm Ak A in B :: apowers A B k' end.
  (** hg:226-251 [_e_list_from_graph_kHop]; A + A' puts the entries side by side (hg:247), torch
      coalesces when a row is selected *)
  Definition khop_edges (k : Z) (only : bool) (s : graph T) : res (list (list Z)) :=
    if 1 <=? k then
      rbind (asks get_A s) (fun A =>
        let Ak := if only then spow A A (Z.to_nat (k - 1)) else fold_left (fun B C => coalesce (B ++ C)) (apowers A A (Z.to_nat (k - 1))) A in
        Ok (map (fun v => znodup (v :: row_idx Ak v)) (range (r_nv (st_raw s)))))
    else Err AssertionError.
  (** hg:254-270 [from_graph_kHop] *)
  Definition h_from_khop (k : Z) (only : bool) (s : graph T) : res (hypergraph T) :=
    rbind (khop_edges k only s) (fun es => h_new (r_nv (st_raw s)) (Some (HMany es)) WNone None MMean).
  (** hg:377-393 [add_hyperedges_from_graph_kHop] *)
  Definition h_add_from_khop (k : Z) (only : bool) (s : graph T) (g : string) : M T (hraw T) unit := fun h =>
    if h_nv (st_raw h) =? r_nv (st_raw s) then
      match khop_edges k only s with Ok es => h_add (HMany es) WNone MMean g h | Err x => (h, Err x) end
    else (h, Err AssertionError).

  (** hg:272-295 [_e_list_from_bigraph] *)
  Definition nonempty (l : list Z) : bool := match l with [] => false | _ => true end.
  Definition bi_edges (u_as_vertex : bool) (s : bigraph T) : res (list (list Z)) :=
    let r := st_raw s in
    rbind (asks (mapM (if u_as_vertex then bget_Nu else bget_Nv) (range (if u_as_vertex then b_nv r else b_nu r))) s)
          (fun ls => Ok (filter nonempty ls)).
  (** hg:297-315 [from_bigraph] *)
  Definition h_from_bigraph (u_as_vertex : bool) (s : bigraph T) : res (hypergraph T) :=
    let r := st_raw s in
    rbind (bi_edges u_as_vertex s) (fun es => h_new (if u_as_vertex then b_nu r else b_nv r) (Some (HMany es)) WNone None MMean).
  (** hg:395-415 [add_hyperedges_from_bigraph] *)
  Definition h_add_from_bigraph (u_as_vertex : bool) (s : bigraph T) (g : string) : M T (hraw T) unit := fun h =>
    let r := st_raw s in
    if h_nv (st_raw h) =? (if u_as_vertex then b_nu r else b_nv r) then
      match bi_edges u_as_vertex s with Ok es => h_add (HMany es) WNone MMean g h | Err x => (h, Err x) end
    else (h, Err AssertionError).

  (** bg:245-277 [from_hypergraph] *)
  Definition inc_weights (es : list (list Z)) (ws : list T) : list T :=
    flat_map (fun ew => map (fun _ => snd ew) (fst ew)) (combine es ws).
  Definition b_from_hypergraph (vertex_as_u weighted : bool) (s : hypergraph T) : res (bigraph T) :=
    rbind (asks (get_he None) s) (fun ew =>
      let nv := h_nv (st_raw s) in let ne := raw_ne (st_raw s) in
      let w := if weighted then WList (inc_weights (fst ew) (snd ew)) else WNone in
      if vertex_as_u then b_new nv ne (Some (EMany (inc_from 0 (fst ew)))) w MMean
      else b_new ne nv (Some (EMany (map swap_pair (inc_from 0 (fst ew))))) w MMean).

  (** g:206-231 [from_hypergraph_star]; the mask *)
  Definition g_star (weighted : bool) (m : mop) (s : hypergraph T) : res (graph T * list bool) :=
    rbind (asks (get_H None) s) (fun Hm =>
      let nv := h_nv (st_raw s) in let ne := raw_ne (st_raw s) in
      rbind (g_new (nv + ne) (Some (EMany (map (fun kv => (fst (fst kv), snd (fst kv) + nv)) Hm)))
                   (if weighted then WList (vals Hm) else WNone) false m)
            (fun g => Ok (g, map (fun _ => true) (range nv) ++ map (fun _ => false) (range ne)))).
  (** g:233-256 [from_hypergraph_clique]; the argument [miu] is overwritten by 1.0 (g:244) *)
  Definition g_clique (weighted : bool) (miu : T) (s : hypergraph T) : res (graph T) :=
    rbind (asks (get_H None) s) (fun Hm => rbind (asks (bind (get_H None) (fun _ => get_HT None)) s) (fun HT =>
      let adj := cmap (nmul n1) (coalesce (spmm Hm HT)) in
      let up := filter (fun kv => fst (fst kv) <? snd (fst kv)) adj in
      g_new (h_nv (st_raw s)) (Some (EMany (map fst up))) (if weighted then WList (vals up) else WNone) false
            (if weighted then MSum else MMean))).

  (** g:258-303 [from_hypergraph_hypergcn].  [amax e], [amin e]: the positions torch.argmax and torch.argmin return
      on the projected features of hyperedge [e]; the number 1.0 / n *)
  Definition n_of_nat (n : nat) : T := sumf (seq 0 n) (fun _ => n1).
  Definition one_over (n : nat) : T := ninv (n_of_nat n).
  Definition nth_v (e : list Z) (i : nat) : Z := nth i e 0.
  Definition hgcn_edges (mediator : bool) (amax amin : list Z -> nat) (e : list Z) : list ((Z * Z) * T) :=
    if mediator then
      flat_map (fun i => if Nat.eqb i (amax e) || Nat.eqb i (amin e) then [] else
        [((nth_v e (amax e), nth_v e i), one_over (2 * length e - 3)); ((nth_v e (amin e), nth_v e i), one_over (2 * length e - 3))])
        (seq 0 (length e))
    else [((nth_v e (amax e), nth_v e (amin e)), one_over (length e))].
  Definition g_hypergcn (nf : Z) (mediator rm_loops : bool) (amax amin : list Z -> nat) (s : hypergraph T) : res (graph T) :=
    let nv := h_nv (st_raw s) in
    if nv =? nf then
      rbind (asks (get_he None) s) (fun ew =>
        if forallb (fun e => Nat.leb 2 (length e)) (fst ew) then
          let l := flat_map (hgcn_edges mediator amax amin) (fst ew) in
          if rm_loops then
            (* torch.tensor([]) has one dimension, so [:, 0] raises IndexError *)
            match l with
            | [] => Err IndexError
            | _ => let l' := filter (fun x => negb (fst (fst x) =? snd (fst x))) l in
                   g_new nv (Some (EMany (map fst l'))) (WList (map snd l')) false MSum
            end
          else g_new nv (Some (EMany (map fst l))) (WList (map snd l)) false MSum
        else Err AssertionError)
    else Err AssertionError.
End Conv.
