(** Model of further members of the structure classes: the matrices R of dhg/structure/base.py ("base") and the methods that BiGraph
    inherits from BaseGraph; UniGCN with nan. *)
From Coq Require Import String Reals.
From Verif Require Import Num PyDict Coo RealFacts ModelBase ModelGraph ModelDiGraph ModelBiGraph ModelHyper ModelUtils ModelConv ModelMetrics ModelNN ModelVis.
Set Implicit Arguments.
Local Open Scope string_scope.
Local Open Scope list_scope.
Local Open Scope Z_scope.

(** * [R_v2e], [R_e2v] *)
Section RMatrix.
  Context {T : Type} {N : Num T}.
  (** the content stored for a hyperedge: [{"w_e": w}] (hg:348: the only key that Hypergraph ever writes) *)
  Definition content (w : T) : dict string T := [("w_e", w)].
  (** base:568-591 [_fetch_R_of_group].  The loop reads [content["w_v2e"]] or [content["w_e2v"]]; [torch.vstack] of two Python lists
      raises TypeError. *)
  Definition fetch_R (v2e : bool) (d : dict (list Z) T) : res (coo T) :=
    match map_res (fun ew => match dget (if v2e then "w_v2e" else "w_e2v") (content (snd ew)) with Some x => Ok x | None => Err KeyError end) d with
    | Err x => Err x
    | Ok _ => Err TypeError
    end.
  (** base:967-977, 987-997 [R_v2e_of_group], [R_e2v_of_group]; base:958-965, 979-985 [R_v2e], [R_e2v]: torch.cat of an empty list raises
      RuntimeError.  The lines that put the result in the cache are left out: no call gets there. *)
  Definition get_R (v2e : bool) (sc : option string) : M T (hraw T) (coo T) :=
    match sc with
    | Some g => bind ask (fun r => match dget g (h_gr r) with None => raise AssertionError | Some d => lift (fetch_R v2e d) end)
    | None => bind ask (fun r => lift (match map_res (fun nd => fetch_R v2e (snd nd)) (h_gr r) with
                                       | Err x => Err x
                                       | Ok [] => Err RuntimeError
                                       | Ok l => Ok (hcat 0 (combine (raw_sizes r) l))
                                       end))
    end.
End RMatrix.

(** * BiGraph with the self-loop methods of BaseGraph *)
Section Loops.
  Context {T : Type} {N : Num T}.
  (** the raw part and [_has_extra_selfloop] (base:52); [_raw_selfloop_dict] stays empty, [BiGraph._add_edge] does not write to it *)
  Definition lraw : Type := (braw T * bool)%type.
  Definition lgraph := st T lraw.
  (** a BiGraph on which none of these methods was called *)
  Definition l_of (s : bigraph T) : lgraph := mkSt (st_raw s, false) (st_cache s).
  (** base:242-246 [add_extra_selfloop], 248-252 [remove_extra_selfloop], 254-259 [remove_selfloop] *)
  Definition l_add_extra : M T lraw unit := fun s => (mkSt (fst (st_raw s), true) [], Ok tt).
  Definition l_remove_extra : M T lraw unit := fun s => (mkSt (fst (st_raw s), false) [], Ok tt).
  Definition l_remove_selfloop : M T lraw unit := fun s => (mkSt (fst (st_raw s), false) [], Ok tt).
  (** base:279-291 [e] *)
  Definition l_edges (r : lraw) : list (Z * Z) * list T :=
    let loops := if snd r then range (b_nv (fst r)) else [] in
    (dkeys (b_e (fst r)) ++ map (fun v => (v, v)) loops, dvals (b_e (fst r)) ++ map (fun _ => n1) loops).
  Definition l_e : M T lraw (list (Z * Z) * list T) := memoE Ke (bind ask (fun r => ret (l_edges r))).
  (** base:300-308 [num_e] *)
  Definition l_num_e (r : lraw) : Z := Z.of_nat (length (b_e (fst r))) + (if snd r then b_nv (fst r) else 0).
  (** bipartite_graph.py:481-495 [B] *)
  Definition l_B : M T lraw (coo T) :=
    memoM KB (bind ask (fun r =>
      if l_num_e r =? 0 then ret []
      else bind l_e (fun ew => lift (mk_sparse (b_nu (fst r)) (b_nv (fst r)) (fst ew) (snd ew))))).
  (** bipartite_graph.py:162-169 [clone]: the flag is not copied, the cache is *)
  Definition l_clone (s : lgraph) : lgraph := mkSt (fst (st_raw s), false) (st_cache s).
End Loops.
Arguments lraw T : clear implicits.
Arguments lgraph T : clear implicits.

(** * UniGCN with nan *)
Section UniNan.
  Open Scope R_scope.
  (** [torch.sparse.mm] with a dense matrix that may hold nan: the entries of the row, in order *)
  Definition fspmv (A : coo R) (x : Z -> fl R) (i : Z) : fl R :=
    fsum (map (fun a => fmul (Fin (snd a)) (x (snd (fst a)))) (filter (fun a => (fst (fst a) =? i)%Z) A)).
  (** unignn_conv.py:64-71: the degree of a hyperedge to the power -1/2, infinity replaced by 1; a negative number to that power is nan *)
  Definition uni_de_fl (dv : list R) (src dst : list Z) (e : Z) : fl R :=
    let at_e f := sumf (combine src dst) (fun vd => if (snd vd =? e)%Z then f (vec dv (fst vd)) else 0) in
    match fdiv (at_e (fun x => x)) (at_e (fun x => if Req_EM_T x 0 then 0 else 1)) with
    | Fin d => if Req_EM_T d 0 then Fin 1 else if Rlt_dec 0 d then Fin (/ sqrt d) else NaN
    | PInf | NInf => Fin 0
    | NaN => NaN
    end.
  (** unignn_conv.py:52-75 up to the activation (all of the layer if [is_last]); [ModelNN.unigcn_conv] without its simplification *)
  Definition unigcn_fl (th : lin (T := R)) (s : hypergraph R) (X : fmat (T := R)) : res (list (list (fl R))) :=
    rbind (linear th X) (fun H => rbind (map_res (v2e_mean s) H) (fun Y =>
    rbind (as_coo (snd (h_query (hqDv None) s))) (fun Dv => rbind (as_idx (snd (h_query (hqV2eSrc None) s))) (fun src =>
    rbind (as_idx (snd (h_query (hqV2eDst None) s))) (fun dst =>
    rbind (as_coo (snd (h_query (hqH None) s))) (fun Hm =>
    rbind (as_coo (snd (h_query (hqDv12 None) s))) (fun D12 =>
      let de := uni_de_fl (map snd Dv) src dst in
      Ok (map (fun y => map (fspmv D12 (fspmv Hm (fun e => fmul (de e) (Fin (vec y e))))) (hrows s)) Y)))))))).
End UniNan.

(** hg:296-315, 396-415: the default of U_as_vertex is True in Hypergraph.from_bigraph and False in add_hyperedges_from_bigraph (whose
    documentation says True).  [None]: the argument is left out. *)
Definition h_from_bigraph_opt {T} {N : Num T} (o : option bool) (s : bigraph T) : res (hypergraph T) :=
  h_from_bigraph (match o with Some b => b | None => true end) s.
Definition h_add_from_bigraph_opt {T} {N : Num T} (o : option bool) (s : bigraph T) (g : string) : M T (hraw T) unit :=
  h_add_from_bigraph (match o with Some b => b | None => false end) s g.

(** * Square roots of negative degrees *)
Section SqrtNan.
  Open Scope R_scope.
  (** graph.py:518-519, 521: [_val ** -0.5] with inf replaced by 0; a negative number to that power is nan *)
  Definition fisq (x : R) : fl R := if Req_EM_T x 0 then Fin 0 else if Rlt_dec 0 x then Fin (/ sqrt x) else NaN.
  (** graph.py:513-523 [D_v_neg_1_2], the diagonal *)
  Definition d12_fl (s : graph R) : res (list (fl R)) :=
    match snd (get_D s) with Ok D => Ok (map (fun a => fisq (snd a)) D) | Err x => Err x end.
  (** D^-1/2 A D^-1/2 for the degrees [d]: one entry per stored entry of A *)
  Definition norm_fl (d : Z -> R) (A : coo R) : list ((Z * Z) * fl R) :=
    map (fun a => (fst a, fmul (fmul (fisq (d (fst (fst a)))) (Fin (snd a))) (fisq (d (snd (fst a)))))) A.
  (** the product of such a matrix and one feature column, row [i] *)
  Definition mm_fl (L : list ((Z * Z) * fl R)) (X : Z -> R) (i : Z) : fl R :=
    fsum (map (fun a => fmul (snd a) (Fin (X (snd (fst a))))) (filter (fun a => (fst (fst a) =? i)%Z) L)).
  (** graph.py:623-634 [L_GCN], not cached *)
  Definition lgcn_fl (s : graph R) : res (list ((Z * Z) * fl R)) :=
    match snd (get_A (fst (set_extra true (g_clone s)))) with Ok A => Ok (norm_fl (rowsum A) A) | Err x => Err x end.
  (** graph.py:584-600 [L_sym], not cached; without self-loops no two entries have the same position, so that coalesce only sorts them (the
      order is left out) *)
  Definition lsym_fl (s : graph R) : res (list ((Z * Z) * fl R)) :=
    match snd (get_A (fst (remove_selfloop (g_clone s)))) with
    | Ok A => Ok (map (fun i => ((i, i), Fin 1)) (range (r_nv (st_raw s))) ++ map (fun a => (fst a, fmul (Fin (- 1)) (snd a))) (norm_fl (rowsum A) A))
    | Err x => Err x
    end.
  (** graph.py:636-649 [smoothing_with_GCN] with drop_rate 0, one feature column *)
  Definition gcn_fl (s : graph R) (X : Z -> R) : res (list (fl R)) :=
    match lgcn_fl s with
    | Ok L => Ok (map (mm_fl L X) (range (r_nv (st_raw s))))
    | Err x => Err x
    end.
  (** hg:1172-1231 [L_HGNN] and [smoothing_with_HGNN] with drop_rate 0 (and the versions for a group), not cached, one feature column.  The
      two multiplications by D_v^-1/2 come last: the products are the same numbers, nan included. *)
  Definition hgnn_fl (sc : option string) (s : hypergraph R) (X : Z -> R) : res (list (fl R)) :=
    rbind (as_coo (snd (h_query (hqDv sc) s))) (fun Dv => rbind (as_coo (snd (h_query (hqH sc) s))) (fun Hm =>
    rbind (as_coo (snd (h_query (hqWe sc) s))) (fun W => rbind (as_coo (snd (h_query (hqDe1 sc) s))) (fun E =>
    rbind (as_coo (snd (h_query (hqHT sc) s))) (fun HT =>
      let L := norm_fl (vec (map snd Dv)) (spmm (spmm (spmm Hm W) E) HT) in
      Ok (map (mm_fl L X) (range (h_nv (st_raw s))))))))).
End SqrtNan.

(** * Weights that are Python integers *)
Section IntWeights.
  Open Scope R_scope.
  (** a Python number: is it an [int]? and its value.  [int + int] is an int, [(x + y) / 2] a float, [max] returns one of its arguments (the first
      one if they are equal); the literal [1.0] of the default weights and of the extra self-loops is a float.  The remaining operations are not
      used by the store of edges; they give floats here. *)
  Definition pynum : Type := bool * R.
  #[global] Instance Num_py : Num pynum := {|
    nz := (true, 0); n1 := (false, 1); nadd := fun x y => (fst x && fst y, snd x + snd y)%bool; nmul := fun x y => (false, snd x * snd y);
    nsub := fun x y => (false, snd x - snd y); nopp := fun x => (false, - snd x); ninv := fun x => (false, Rinv0 (snd x));
    nisq := fun x => (false, Risq (snd x)); nhalf := fun x => (false, snd x / 2);
    nmax := fun x y => if Rlt_dec (snd x) (snd y) then y else x; nexp := fun x => (false, exp (snd x)) |}.
  Definition py_dict {K} (d : dict K pynum) : dict K R := map (fun kv => (fst kv, snd (snd kv))) d.
  (** the same object with every weight turned into a float, nothing cached *)
  Definition py_float (r : raw pynum) : st R (raw R) := mkSt (mkRaw (r_nv r) (py_dict (r_e r)) (py_dict (r_loop r)) (r_extra r)) [].
  (** graph.py:474-482 [A]: [torch.tensor(e_weight)] has the dtype int64 if all weights are ints; without edges the empty matrix is float *)
  Definition int_A (r : raw pynum) : bool :=
    (negb (raw_num_e r =? 0)%Z && forallb fst (snd (raw_edges r) ++ dvals (r_e r)))%bool.
  (** directed_graph.py:420-428 [A] *)
  Definition int_dA (r : raw pynum) : bool := (negb (raw_num_e r =? 0)%Z && forallb fst (snd (raw_edges r)))%bool.
  (** torch: int64 ** -1 raises RuntimeError, and so does the product of an int64 matrix with a float matrix; int64 ** -0.5 is a float.
      The getters are not cached here. *)
  Definition no_int {A} (b : bool) (x : res A) : res A := if b then Err RuntimeError else x.
  (** graph.py:486-523 [D_v], [D_v_neg_1], [D_v_neg_1_2]: the values *)
  Definition py_D (r : raw pynum) : res (coo R) := snd (get_D (py_float r)).
  Definition py_D1 (r : raw pynum) : res (coo R) := no_int (int_A r) (snd (get_D1 (py_float r))).
  Definition py_D12 (r : raw pynum) : res (coo R) := snd (get_D12 (py_float r)).
  (** graph.py:571-634 [L], [L_sym], [L_rw], [L_GCN] *)
  Definition py_L (r : raw pynum) : res (coo R) := snd (get_L (py_float r)).
  Definition py_Lsym (r : raw pynum) : res (coo R) := no_int (int_A (st_raw (fst (remove_selfloop (mkSt r []))))) (snd (get_Lsym (py_float r))).
  Definition py_Lrw (r : raw pynum) : res (coo R) := no_int (int_A (st_raw (fst (remove_selfloop (mkSt r []))))) (snd (get_Lrw (py_float r))).
  Definition py_Lgcn (r : raw pynum) : res (coo R) := no_int (int_A (st_raw (fst (set_extra true (mkSt r []))))) (snd (get_Lgcn (py_float r))).
  (** graph.py:654-705 [v2v] with aggr "mean" or "sum", float features and no e_weight *)
  Definition py_v2v (X : Z -> R) (mean : bool) (r : raw pynum) : res (list R) :=
    no_int (int_A r) (snd (g_v2v X (if mean then AggrMean else AggrSum) None None (py_float r))).
  (** directed_graph.py:468-491 the reciprocals of the degrees, 538-639 [v2v] with aggr "mean" or "sum" and no e_weight *)
  Definition py_dD1 (into : bool) (r : raw pynum) : res (coo R) :=
    no_int (int_dA r) (snd ((if into then dget_Din1 else dget_Dout1) (py_float r))).
  Definition py_dv2v (X : Z -> R) (mean s2d : bool) (r : raw pynum) : res (list R) :=
    no_int (int_dA r) (snd (d_v2v X (if mean then AggrMean else AggrSum) None (Some s2d) None (py_float r))).
  (** BiGraph: bipartite_graph.py:481-495 [B] is int64 if all weights are ints and there is an edge; 506-557 the degrees and their reciprocals,
      643-747 [u2v] and [v2u] with aggr "mean" or "sum", float features and no e_weight *)
  Definition py_bfloat (r : braw pynum) : bigraph R := mkSt (mkBRaw (b_nu r) (b_nv r) (py_dict (b_e r))) [].
  Definition int_B (r : braw pynum) : bool := (negb (braw_num_e r =? 0)%Z && forallb fst (dvals (b_e r)))%bool.
  Definition py_bD (u : bool) (r : braw pynum) : res (coo R) := snd ((if u then bget_Du else bget_Dv) (py_bfloat r)).
  Definition py_bD1 (u : bool) (r : braw pynum) : res (coo R) := no_int (int_B r) (snd ((if u then bget_Du1 else bget_Dv1) (py_bfloat r))).
  Definition py_bpass (u2v : bool) (X : Z -> R) (mean : bool) (r : braw pynum) : res (list R) :=
    no_int (int_B r) (snd (b_pass u2v X (if mean then AggrMean else AggrSum) None None (py_bfloat r))).
  (** Hypergraph: base.py:593-602 [_fetch_W_of_group] is int64 if all weights of the group are ints and there is one (torch.tensor([]) is float),
      hypergraph.py:824-838 [W_e] concatenates the groups, and one float tensor makes the result float *)
  Definition py_hfloat (r : hraw pynum) : hypergraph R :=
    mkSt (mkHRaw (h_nv r) (option_map (map snd) (h_vw r)) (map (fun nd => (fst nd, py_dict (snd nd))) (h_gr r))) [].
  Definition int_group (d : dict (list Z) pynum) : bool := (negb (Nat.eqb (length d) 0) && forallb fst (dvals d))%bool.
  Definition int_We (sc : option string) (r : hraw pynum) : bool :=
    match sc with
    | Some g => match dget g (h_gr r) with Some d => int_group d | None => false end
    | None => (negb (Nat.eqb (length (h_gr r)) 0) && forallb (fun nd => int_group (snd nd)) (h_gr r))%bool
    end.
  (** hypergraph.py:858-892 [D_v], 895-950 [D_v_neg_1], [D_v_neg_1_2]: the product of W_e with the float values of H is a float *)
  Definition py_hq (q : hquery R) (r : hraw pynum) : res (out R) := snd (h_query q (py_hfloat r)).
  (** hypergraph.py:1083-1203 [L_sym], [L_rw], [L_HGNN], 1205-1241 [smoothing_with_HGNN], 1362-1398 [v2e_update], 1400-1443 [v2e] and
      1620-1699 [v2v] multiply W_e with float matrices *)
  Definition py_hW (sc : option string) (q : hquery R) (r : hraw pynum) : res (out R) := no_int (int_We sc r) (py_hq q r).
  Definition py_hLsym (sc : option string) := py_hW sc (hqLsym sc).
  Definition py_hLrw (sc : option string) := py_hW sc (hqLrw sc).
  Definition py_hLhgnn (sc : option string) := py_hW sc (hqLhgnn sc).
  Definition py_hSmooth (sc : option string) (X : Z -> R) := py_hW sc (hqHgnn sc X None).
  Definition py_hUpd (sc : option string) (X : Z -> R) := py_hW sc (hqV2eUpd sc X None).
  Definition py_hV2e (sc : option string) (X : Z -> R) (mean : bool) := py_hW sc (hqV2e sc X (if mean then AggrMean else AggrSum) None None None).
  Definition py_hV2v (sc : option string) (X : Z -> R) (mean : bool) :=
    py_hW sc (hqV2v sc X (if mean then AggrMean else AggrSum) false None None None None None None None (fun _ => true) (fun _ => true)).
End IntWeights.
