(** Model of dhg/structure/graphs/bipartite_graph.py [BiGraph]. *)
From Verif Require Import Num PyDict Coo ModelBase ModelGraph ModelDiGraph.
Set Implicit Arguments.

Section BiGraph.
  Context {T : Type} `{Num T}.

  (** bipartite_graph.py:28-40, base.py:40-52: the raw part.  BiGraph never stores self-loops; the
      self-loop methods it inherits from BaseGraph (base.py:242-260) are in ModelMore.v. *)
  Record braw := mkBRaw { b_nu : Z; b_nv : Z; b_e : dict (Z * Z) T }.
  Definition bigraph := st T braw.

  (** bipartite_graph.py:199-201: only upper bounds are checked *)
  Definition below2 (nu nv : Z) (e : Z * Z) : bool := (fst e <? nu) && (snd e <? nv).

  (** bipartite_graph.py:301-323 [_add_edge]: pairs are kept as written, also when u = v *)
  Definition badd_edge (m : mop) (x : (Z * Z) * T) : M T braw unit := fun s =>
    match merge_fun m with
    | None => (s, Err ValueError)
    | Some f => let r := st_raw s in (mkSt (mkBRaw (b_nu r) (b_nv r) (dmerge f (fst x) (snd x) (b_e r))) [], Ok tt)
    end.
  (** bipartite_graph.py:281-299 [add_edges]; 180-205 [_format_edges] *)
  Definition b_add_edges (e : earg) (w : warg T) (m : mop) : M T braw unit := fun s =>
    if earg_empty e then (s, Ok tt) else
    bind (lift (format_edges (below2 (b_nu (st_raw s)) (b_nv (st_raw s))) e w)) (fun ew =>
    bind (for_each (badd_edge m) (combine (fst ew) (snd ew))) (fun _ => wipe_cache)) s.
  (** base.py:229-240 [_remove_edge] with no self-loops stored *)
  Definition bremove_edge (x : Z * Z) : M T braw unit := fun s =>
    let r := st_raw s in
    (mkSt (if dhas x (b_e r) then mkBRaw (b_nu r) (b_nv r) (ddel x (b_e r)) else r) [], Ok tt).
  (** bipartite_graph.py:325-334 [remove_edges] *)
  Definition b_remove_edges (e : earg) : M T braw unit := fun s =>
    bind (lift (format_edges (below2 (b_nu (st_raw s)) (b_nv (st_raw s))) e WNone)) (fun ew =>
    bind (for_each bremove_edge (fst ew)) (fun _ => wipe_cache)) s.
  (** base.py:86-92 [clear] *)
  Definition b_clear : M T braw unit := fun s =>
    (mkSt (mkBRaw (b_nu (st_raw s)) (b_nv (st_raw s)) []) [], Ok tt).

  (** bipartite_graph.py:28-40 [__init__]; only num_v is checked (base.py:48) *)
  Definition b_new (nu nv : Z) (e : option earg) (w : warg T) (m : mop) : res bigraph :=
    if 0 <? nv then
      let s0 := mkSt (mkBRaw nu nv []) [] in
      match e with
      | None => Ok s0
      | Some ea => match b_add_edges ea w m s0 with (s1, Ok _) => Ok s1 | (_, Err x) => Err x end
      end
    else Err AssertionError.

  (** bipartite_graph.py:162-169 [clone], 48-55 [state_dict], 210-219 [from_state_dict] *)
  Definition b_clone (s : bigraph) : bigraph := mkSt (st_raw s) (st_cache s).
  Definition b_state_dict (s : bigraph) : braw := st_raw s.
  Definition b_from_state_dict (r : braw) : res bigraph :=
    if 0 <? b_nv r then Ok (mkSt r []) else Err AssertionError.
  (** bipartite_graph.py:336-343 [switch_uv] *)
  Definition b_switch (s : bigraph) : bigraph :=
    let r := st_raw s in
    clear_cache (mkSt (mkBRaw (b_nv r) (b_nu r) (dict_of (map (fun kv => (swap_pair (fst kv), snd kv)) (b_e r))))
                      (st_cache (b_clone s))).
  (** bipartite_graph.py:345-363 [drop_edges]; [keep i]: random() > drop_rate for the i-th stored edge *)
  Definition b_drop_edges (keep : nat -> bool) (ord_ok : bool) (s : bigraph) : res bigraph :=
    let r := st_raw s in
    if ord_ok then b_from_state_dict (mkBRaw (b_nu r) (b_nv r) (keep_from 0 keep (b_e r))) else Err ValueError.
  (** bipartite_graph.py:221-242 [from_adj_list] *)
  Definition b_from_adj_list (nu nv : Z) (adj : list (list Z)) : res bigraph :=
    b_new nu nv (Some (EMany (adj_to_edges adj))) WNone MMean.

  (** base.py:279-291 [e], 300-308 [num_e], without self-loops *)
  Definition braw_edges (r : braw) : list (Z * Z) * list T := (dkeys (b_e r), dvals (b_e r)).
  Definition bget_e : M T braw (list (Z * Z) * list T) := memoE Ke (bind ask (fun r => ret (braw_edges r))).
  Definition braw_num_e (r : braw) : Z := Z.of_nat (length (b_e r)).

  (** bipartite_graph.py:481-495 [B], 498-503 [B_T] *)
  Definition bget_B : M T braw (coo T) :=
    memoM KB (bind ask (fun r =>
      if braw_num_e r =? 0 then ret []
      else bind bget_e (fun ew => lift (mk_sparse (b_nu r) (b_nv r) (fst ew) (snd ew))))).
  Definition bget_BT : M T braw (coo T) := memoM KBT (bind bget_B (fun B => ret (coalesce (ctrans B)))).
  (** bipartite_graph.py:469-478 [A]: hstack/vstack shift the indices of the blocks *)
  Definition shift (di dj : Z) (m : coo T) : coo T :=
    map (fun kv => ((fst (fst kv) + di, snd (fst kv) + dj), snd kv)) m.
  Definition bget_A : M T braw (coo T) :=
    memoM KA (bind bget_B (fun B => bind bget_BT (fun BT => bind ask (fun r =>
      ret (coalesce (shift 0 (b_nu r) B ++ shift (b_nu r) 0 BT)))))).
  (** bipartite_graph.py:506-517 [D_u], 520-531 [D_v], 534-557 the reciprocals *)
  Definition bget_Du : M T braw (coo T) :=
    memoM KDu (bind bget_B (fun B => bind ask (fun r => ret (diag_rowsum (b_nu r) B)))).
  Definition bget_Dv : M T braw (coo T) :=
    memoM KDv (bind bget_BT (fun B => bind ask (fun r => ret (diag_rowsum (b_nv r) B)))).
  Definition bget_Du1 : M T braw (coo T) := memoM KDu1 (bind bget_Du (fun D => ret (inv_vals D))).
  Definition bget_Dv1 : M T braw (coo T) := memoM KDv1 (bind bget_Dv (fun D => ret (inv_vals D))).
  (** bipartite_graph.py:559-575 [N_v] = row of B, [N_u] = row of B_T *)
  Definition bget_Nv (u : Z) : M T braw (list Z) :=
    bind bget_B (fun B => bind ask (fun r => bind (lift (py_index (b_nu r) u)) (fun i => ret (row_idx B i)))).
  Definition bget_Nu (v : Z) : M T braw (list Z) :=
    bind bget_BT (fun B => bind ask (fun r => bind (lift (py_index (b_nv r) v)) (fun i => ret (row_idx B i)))).
  (** bipartite_graph.py:602-623 [L_GCN] *)
  Definition gcn_of (n : Z) (A : coo T) : coo T :=
    let A1 := coalesce (A ++ ident n) in
    let D := coalesce (diag n (fun i => nisq (rowsum A1 i))) in
    coalesce (spmm (spmm D A1) D).
  Definition bget_Lgcn : M T braw (coo T) :=
    memoM KLgcn (bind bget_A (fun A => bind ask (fun r => ret (gcn_of (b_nu r + b_nv r) A)))).
  (** bipartite_graph.py:625-638 [smoothing_with_GCN] *)
  Definition bgcn_smooth (X : Z -> T) (keep : option (nat -> bool)) : M T braw (list T) :=
    bind bget_Lgcn (fun L => bind ask (fun r => ret (map (spmv (cdrop_opt keep L) X) (range (b_nu r + b_nv r))))).

  (** bipartite_graph.py:643-694 [u2v] ([u2v = true]) and 696-747 [v2u] ([u2v = false]): the two bodies are the
      same text with B_T, D_v_neg_1 exchanged for B, D_u_neg_1 *)
  Definition b_pass (u2v : bool) (X : Z -> T) (a : aggr) (ew : option (list T)) (keep : option (nat -> bool))
    : M T braw (list T) :=
    if aggr_ok a then
      match ew with
      | None =>
          bind (if u2v then bget_BT else bget_B) (fun B => let P := cdrop_opt keep B in bind ask (fun r =>
          let n := if u2v then b_nv r else b_nu r in
          match a with
          | AggrMean => bind (if u2v then bget_Dv1 else bget_Du1) (fun D1 => ret (map (spmv D1 (spmv P X)) (range n)))
          | AggrSum => ret (map (spmv P X) (range n))
          | _ => ret (map (spmv (csoftmax P) X) (range n))
          end))
      | Some w =>
          bind bget_B (fun B =>
          if Nat.eqb (length w) (length B) then
            let C := with_vals B w in
            let P := cdrop_opt keep (coalesce (if u2v then ctrans C else C)) in bind ask (fun r =>
            let n := if u2v then b_nv r else b_nu r in
            match a with
            | AggrMean => ret (map (mean_weighted P X) (range n))
            | AggrSum => ret (map (spmv P X) (range n))
            | _ => ret (map (spmv (csoftmax P) X) (range n))
            end)
          else raise AssertionError)
      end
    else raise AssertionError.

  Inductive bquery :=
  | bqE | bqNumE | bqA | bqB | bqBT | bqDu | bqDv | bqDu1 | bqDv1 | bqDegU | bqDegV
  | bqNv (u : Z) | bqNu (v : Z) | bqEu | bqEv | bqW | bqLgcn
  | bqGcn (X : Z -> T) (keep : option (nat -> bool))
  | bqPass (u2v : bool) (X : Z -> T) (a : aggr) (ew : option (list T)) (keep : option (nat -> bool)).
  Definition b_query (q : bquery) : M T braw (out T) :=
    match q with
    | bqE => bind bget_e (fun x => ret (OE (fst x) (snd x)))
    | bqNumE => bind ask (fun r => ret (OZ (braw_num_e r)))
    | bqA => oM bget_A | bqB => oM bget_B | bqBT => oM bget_BT | bqDu => oM bget_Du | bqDv => oM bget_Dv
    | bqDu1 => oM bget_Du1 | bqDv1 => oM bget_Dv1
    | bqDegU => bind bget_Du (fun m => ret (OVals (vals m)))  (* bipartite_graph.py:407-410 *)
    | bqDegV => bind bget_Dv (fun m => ret (OVals (vals m)))  (* bipartite_graph.py:413-416 *)
    | bqNv u => bind (bget_Nv u) (fun l => ret (OIdx l))
    | bqNu v => bind (bget_Nu v) (fun l => ret (OIdx l))
    | bqEu => bind bget_B (fun m => ret (OIdx (rows m)))      (* bipartite_graph.py:578-581 *)
    | bqEv => bind bget_B (fun m => ret (OIdx (cols m)))      (* bipartite_graph.py:584-587 *)
    | bqW => bind bget_B (fun m => ret (OVals (vals m)))      (* bipartite_graph.py:590-593 *)
    | bqLgcn => oM bget_Lgcn
    | bqGcn X keep => bind (bgcn_smooth X keep) (fun l => ret (OVals l))
    | bqPass d X a ew keep => bind (b_pass d X a ew keep) (fun l => ret (OVals l))
    end.

  Inductive bop :=
  | bAdd (e : earg) (w : warg T) (m : mop)
  | bRemove (e : earg)
  | bClear
  | bQuery (q : bquery).
  Definition b_step (o : bop) : M T braw (out T) :=
    match o with
    | bAdd e w m => unit_out (b_add_edges e w m)
    | bRemove e => unit_out (b_remove_edges e)
    | bClear => unit_out b_clear
    | bQuery q => b_query q
    end.
  Fixpoint b_run (ops : list bop) (s : bigraph) : bigraph * list (res (out T)) :=
    match ops with
    | [] => (s, [])
    | o :: r =>
        let (s1, x) := b_step o s in
        let (s2, xs) := b_run r s1 in (s2, x :: xs)
    end.
End BiGraph.
Arguments braw T : clear implicits.
Arguments bigraph T : clear implicits.
Arguments bquery T : clear implicits.
Arguments bop T : clear implicits.
