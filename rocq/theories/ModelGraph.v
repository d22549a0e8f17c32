(** Model of dhg/structure/graphs/graph.py [Graph] (undirected simple graph). *)
From Verif Require Import Num PyDict Coo ModelBase.
Set Implicit Arguments.

Section Graph.
  Context {T : Type} `{Num T}.

  Definition graph := st T (raw T).

  (** graph.py:324 [e = sorted(list(e))], graph.py:336-337 [if src > dst: swap] *)
  Definition norm_und (e : Z * Z) : Z * Z := if snd e <? fst e then (snd e, fst e) else e.

  (** graph.py:307-326, 328-339 *)
  Definition g_add_edges (e : earg) (w : warg T) (m : mop) : M T (raw T) unit := add_edges norm_und e w m.
  Definition g_remove_edges (e : earg) : M T (raw T) unit := remove_edges norm_und e.

  (** graph.py:29-40 [__init__] with base.py:40-52; [e = None]: no e_list given *)
  Definition g_new (nv : Z) (e : option earg) (w : warg T) (extra : bool) (m : mop) : res graph :=
    if 0 <? nv then
      let s0 := mkSt (mkRaw nv [] [] extra) [] in
      match e with
      | None => Ok s0
      | Some ea => match g_add_edges ea w m s0 with (s1, Ok _) => Ok s1 | (_, Err x) => Err x end
      end
    else Err AssertionError.

  (** graph.py:145-154 [clone]: deep copies of the dicts and of the cache *)
  Definition g_clone (s : graph) : graph := mkSt (st_raw s) (st_cache s).

  (** graph.py:396-404 [e_both_side] *)
  Definition swap_pair (e : Z * Z) : Z * Z := (snd e, fst e).
  Definition get_e_both : M T (raw T) (list (Z * Z) * list T) :=
    memoE Keboth
      (bind get_e (fun ew => bind ask (fun r =>
       ret (fst ew ++ map swap_pair (dkeys (r_e r)), snd ew ++ dvals (r_e r))))).

  (** graph.py:469-483 [A] *)
  Definition get_A : M T (raw T) (coo T) :=
    memoM KA (bind ask (fun r =>
      if raw_num_e r =? 0 then ret []
      else bind get_e_both (fun ew => lift (mk_sparse (r_nv r) (r_nv r) (fst ew) (snd ew))))).

  (** graph.py:486-497 [D_v], 500-510 [D_v_neg_1], 513-523 [D_v_neg_1_2] *)
  Definition get_D : M T (raw T) (coo T) :=
    memoM KD (bind get_A (fun A => bind ask (fun r => ret (diag_rowsum (r_nv r) A)))).
  Definition get_D1 : M T (raw T) (coo T) := memoM KD1 (bind get_D (fun D => ret (inv_vals D))).
  Definition get_D12 : M T (raw T) (coo T) := memoM KD12 (bind get_D (fun D => ret (isq_vals D))).

  (** graph.py:537-539: the loop [for _ in range(hop - 1): A_k = A_k @ A_1] *)
  Fixpoint spow (A Ak : coo T) (k : nat) : coo T :=
    match k with O => Ak | S k' => spow A (spmm Ak A) k' end.
  (** graph.py:525-544 [N_v] *)
  Definition get_N (v hop : Z) : M T (raw T) (list Z) :=
    if 1 <=? hop then
      bind (if hop =? 1 then get_A
            else memoM (KApow hop) (bind get_A (fun A => ret (spow A A (Z.to_nat (hop - 1))))))
        (fun Ak => bind ask (fun r => bind (lift (py_index (r_nv r) v)) (fun i => ret (row_idx Ak i))))
    else raise AssertionError.

  (** run a method on a scratch object and return only its answer *)
  Definition on_tmp {A} (prep : M T (raw T) unit) (g : M T (raw T) A) : M T (raw T) A := fun s =>
    let '(tmp, _) := prep (g_clone s) in (s, snd (g tmp)).

  Definition ident (n : Z) : coo T := diag n (fun _ => n1).

  (** graph.py:571-581 [L] *)
  Definition get_L : M T (raw T) (coo T) :=
    memoM KL (on_tmp remove_selfloop (bind get_D (fun D => bind get_A (fun A => ret (csub D A))))).
  (** graph.py:584-600 [L_sym] *)
  Definition get_Lsym : M T (raw T) (coo T) :=
    memoM KLsym (bind (on_tmp remove_selfloop
       (bind get_D12 (fun D => bind get_A (fun A => ret (spmm (spmm D A) D)))))
       (fun L => bind ask (fun r => ret (coalesce (ident (r_nv r) ++ cmap nopp L))))).
  (** graph.py:603-619 [L_rw] *)
  Definition get_Lrw : M T (raw T) (coo T) :=
    memoM KLrw (bind (on_tmp remove_selfloop
       (bind get_D1 (fun D => bind get_A (fun A => ret (spmm D A)))))
       (fun L => bind ask (fun r => ret (coalesce (ident (r_nv r) ++ cmap nopp L))))).
  (** graph.py:623-634 [L_GCN] *)
  Definition get_Lgcn : M T (raw T) (coo T) :=
    memoM KLgcn (on_tmp (set_extra true)
       (bind get_D12 (fun D => bind get_A (fun A => ret (coalesce (spmm (spmm D A) D)))))).

  (** graph.py:636-649 [smoothing_with_GCN], one feature column.  [keep = None]: drop_rate = 0 *)
  Definition gcn_smooth (X : Z -> T) (keep : option (nat -> bool)) : M T (raw T) (list T) :=
    bind get_Lgcn (fun L => bind ask (fun r => ret (map (spmv (cdrop_opt keep L) X) (range (r_nv r))))).

  (** graph.py:654-705 [v2v], one feature column; [ew = None]: no e_weight given.
      graph.py:680 calls [torch.sparse.mm(P, dim=1)], which raises TypeError. *)
  Definition g_v2v (X : Z -> T) (a : aggr) (ew : option (list T)) (keep : option (nat -> bool))
    : M T (raw T) (list T) :=
    if aggr_ok a then
      match ew with
      | None =>
          bind get_A (fun A => let P := cdrop_opt keep A in bind ask (fun r =>
          match a with
          | AggrMean => bind get_D1 (fun D1 => ret (map (spmv D1 (spmv P X)) (range (r_nv r))))
          | AggrSum => ret (map (spmv P X) (range (r_nv r)))
          | _ => raise TypeError
          end))
      | Some w =>
          bind get_A (fun A =>
          if Nat.eqb (length w) (length A) then
            let P := cdrop_opt keep (coalesce (with_vals A w)) in bind ask (fun r =>
            match a with
            | AggrMean => ret (map (mean_weighted P X) (range (r_nv r)))
            | AggrSum => ret (map (spmv P X) (range (r_nv r)))
            | _ => ret (map (spmv (csoftmax P) X) (range (r_nv r)))
            end)
          else raise AssertionError)
      end
    else raise AssertionError.

  (** graph.py:356-376 [drop_edges]; the [i]-th stored edge (edges first, then
      self-loops) survives iff [keep i], i.e. random() > drop_rate; [ord_ok]: ord = "uniform" *)
  Fixpoint keep_from {A} (i : nat) (keep : nat -> bool) (l : list A) : list A :=
    match l with
    | [] => []
    | a :: r => if keep i then a :: keep_from (S i) keep r else keep_from (S i) keep r
    end.
  Definition raw_drop (keep : nat -> bool) (r : raw T) : raw T :=
    mkRaw (r_nv r) (keep_from 0 keep (r_e r)) (keep_from (length (r_e r)) keep (r_loop r)) (r_extra r).
  (** graph.py:168-177 [from_state_dict] (the dicts are copied, the cache is fresh) *)
  Definition g_from_state_dict (r : raw T) : res graph :=
    if 0 <? r_nv r then Ok (mkSt r []) else Err AssertionError.
  Definition g_drop_edges (keep : nat -> bool) (ord_ok : bool) (s : graph) : res graph :=
    if ord_ok then g_from_state_dict (raw_drop keep (st_raw s)) else Err ValueError.

  (** graph.py:48-56 [state_dict] *)
  Definition g_state_dict (s : graph) : raw T := st_raw s.

  (** graph.py:180-204 [from_adj_list] *)
  Definition adj_to_edges (adj : list (list Z)) : list (Z * Z) :=
    flat_map (fun line => match line with
                          | [] => []
                          | src :: dsts => map (fun d => (src, d)) dsts
                          end) adj.
  Definition g_from_adj_list (nv : Z) (adj : list (list Z)) (extra : bool) : res graph :=
    g_new nv (Some (EMany (adj_to_edges adj))) WNone extra MMean.

  (** queries and operations of the public API *)
  Inductive gquery :=
  | QE | QEboth | QNumE | QA | QD | QD1 | QD12 | QN (v hop : Z) | QL | QLsym | QLrw | QLgcn
  | QDeg | QEsrc | QEdst | QEweight
  | QGcn (X : Z -> T) (keep : option (nat -> bool))
  | QV2v (X : Z -> T) (a : aggr) (ew : option (list T)) (keep : option (nat -> bool)).

  Definition oM {R} (g : M T R (coo T)) : M T R (out T) := bind g (fun m => ret (OM m)).
  Definition g_query (q : gquery) : M T (raw T) (out T) :=
    match q with
    | QE => bind get_e (fun x => ret (OE (fst x) (snd x)))
    | QEboth => bind get_e_both (fun x => ret (OE (fst x) (snd x)))
    | QNumE => bind ask (fun r => ret (OZ (raw_num_e r)))
    | QA => oM get_A | QD => oM get_D | QD1 => oM get_D1 | QD12 => oM get_D12
    | QN v h => bind (get_N v h) (fun l => ret (OIdx l))
    | QL => oM get_L | QLsym => oM get_Lsym | QLrw => oM get_Lrw | QLgcn => oM get_Lgcn
    | QDeg => bind get_D (fun m => ret (OVals (vals m)))       (* graph.py:419-422 *)
    | QEsrc => bind get_A (fun m => ret (OIdx (cols m)))       (* graph.py:547-550 *)
    | QEdst => bind get_A (fun m => ret (OIdx (rows m)))       (* graph.py:553-556 *)
    | QEweight => bind get_A (fun m => ret (OVals (vals m)))   (* graph.py:559-562 *)
    | QGcn X keep => bind (gcn_smooth X keep) (fun l => ret (OVals l))
    | QV2v X a ew keep => bind (g_v2v X a ew keep) (fun l => ret (OVals l))
    end.

  Inductive gop :=
  | AddEdges (e : earg) (w : warg T) (m : mop)
  | RemoveEdges (e : earg)
  | AddExtra | RemoveExtra | RemoveLoops | Clear
  | Query (q : gquery).

  Definition unit_out {R} (g : M T R unit) : M T R (out T) := bind g (fun _ => ret OUnit).
  Definition g_step (o : gop) : M T (raw T) (out T) :=
    match o with
    | AddEdges e w m => unit_out (g_add_edges e w m)
    | RemoveEdges e => unit_out (g_remove_edges e)
    | AddExtra => unit_out (set_extra true)
    | RemoveExtra => unit_out (set_extra false)
    | RemoveLoops => unit_out remove_selfloop
    | Clear => unit_out clear
    | Query q => g_query q
    end.

  (** a history of calls on one object; a call that raises leaves the object in
      whatever state it was in at that point, and the history goes on *)
  Fixpoint g_run (ops : list gop) (s : graph) : graph * list (res (out T)) :=
    match ops with
    | [] => (s, [])
    | o :: r =>
        let (s1, x) := g_step o s in
        let (s2, xs) := g_run r s1 in (s2, x :: xs)
    end.
End Graph.
Arguments graph T : clear implicits.
Arguments gquery T : clear implicits.
Arguments gop T : clear implicits.
