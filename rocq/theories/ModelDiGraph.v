(** Model of dhg/structure/graphs/directed_graph.py [DiGraph]. *)
From Verif Require Import Num PyDict Coo ModelBase ModelGraph.
Set Implicit Arguments.

Section DiGraph.
  Context {T : Type} `{Num T}.

  Definition digraph := st T (raw T).
  Definition norm_dir (e : Z * Z) : Z * Z := e.

  (** directed_graph.py:252-269 [add_edges], 271-280 [remove_edges]: pairs are kept as written *)
  Definition d_add_edges (e : earg) (w : warg T) (m : mop) : M T (raw T) unit := add_edges norm_dir e w m.
  Definition d_remove_edges (e : earg) : M T (raw T) unit := remove_edges norm_dir e.

  (** directed_graph.py:28-39 [__init__] *)
  Definition d_new (nv : Z) (e : option earg) (w : warg T) (extra : bool) (m : mop) : res digraph :=
    if 0 <? nv then
      let s0 := mkSt (mkRaw nv [] [] extra) [] in
      match e with
      | None => Ok s0
      | Some ea => match d_add_edges ea w m s0 with (s1, Ok _) => Ok s1 | (_, Err x) => Err x end
      end
    else Err AssertionError.

  (** directed_graph.py:138-147 [clone], 48-56 [state_dict], 160-169 [from_state_dict] *)
  Definition d_clone (s : digraph) : digraph := mkSt (st_raw s) (st_cache s).
  Definition d_state_dict (s : digraph) : raw T := st_raw s.
  Definition d_from_state_dict (r : raw T) : res digraph :=
    if 0 <? r_nv r then Ok (mkSt r []) else Err AssertionError.

  (** a dict comprehension over (key, value) pairs: later pairs overwrite earlier ones *)
  Definition dict_of {K V} `{EqB K} (l : list (K * V)) : dict K V := fold_left (fun d kv => dset (fst kv) (snd kv) d) l [].
  (** directed_graph.py:297-300 [reverse_direction]; the cache is NOT cleared *)
  Definition reverse_raw (r : raw T) : raw T :=
    mkRaw (r_nv r) (dict_of (map (fun kv => (swap_pair (fst kv), snd kv)) (r_e r))) (r_loop r) (r_extra r).
  Definition d_reverse : M T (raw T) unit := fun s => (mkSt (reverse_raw (st_raw s)) (st_cache s), Ok tt).

  (** directed_graph.py:302-322 [drop_edges] *)
  Definition d_drop_edges (keep : nat -> bool) (ord_ok : bool) (s : digraph) : res digraph :=
    if ord_ok then d_from_state_dict (raw_drop keep (st_raw s)) else Err ValueError.

  (** directed_graph.py:415-429 [A], 432-437 [A_T] *)
  Definition dget_A : M T (raw T) (coo T) :=
    memoM KA (bind ask (fun r =>
      if raw_num_e r =? 0 then ret []
      else bind get_e (fun ew => lift (mk_sparse (r_nv r) (r_nv r) (fst ew) (snd ew))))).
  Definition dget_AT : M T (raw T) (coo T) := memoM KAT (bind dget_A (fun A => ret (coalesce (ctrans A)))).
  (** directed_graph.py:440-451 [D_v_in], 454-465 [D_v_out], 468-491 the reciprocals *)
  Definition dget_Din : M T (raw T) (coo T) :=
    memoM KDin (bind dget_AT (fun A => bind ask (fun r => ret (diag_rowsum (r_nv r) A)))).
  Definition dget_Dout : M T (raw T) (coo T) :=
    memoM KDout (bind dget_A (fun A => bind ask (fun r => ret (diag_rowsum (r_nv r) A)))).
  Definition dget_Din1 : M T (raw T) (coo T) := memoM KDin1 (bind dget_Din (fun D => ret (inv_vals D))).
  Definition dget_Dout1 : M T (raw T) (coo T) := memoM KDout1 (bind dget_Dout (fun D => ret (inv_vals D))).
  (** directed_graph.py:493-509 [N_v_in], [N_v_out] *)
  Definition dget_N (M1 : M T (raw T) (coo T)) (v : Z) : M T (raw T) (list Z) :=
    bind M1 (fun A => bind ask (fun r => bind (lift (py_index (r_nv r) v)) (fun i => ret (row_idx A i)))).

  (** directed_graph.py:538-639 [v2v].  [dir]: None = an unknown direction string,
      Some true = "src2dst", Some false = "dst2src" *)
  Definition d_v2v (X : Z -> T) (a : aggr) (ew : option (list T)) (dir : option bool) (keep : option (nat -> bool))
    : M T (raw T) (list T) :=
    if aggr_ok a then
      match dir with
      | None => raise AssertionError
      | Some s2d =>
          match ew with
          | None =>
              bind (if s2d then dget_AT else dget_A) (fun A => let P := cdrop_opt keep A in bind ask (fun r =>
              match a with
              | AggrMean => bind (if s2d then dget_Din1 else dget_Dout1) (fun D1 => ret (map (spmv D1 (spmv P X)) (range (r_nv r))))
              | AggrSum => ret (map (spmv P X) (range (r_nv r)))
              | _ => ret (map (spmv (csoftmax P) X) (range (r_nv r)))
              end))
          | Some w =>
              bind dget_A (fun A =>
              if Nat.eqb (length w) (length A) then
                let B := with_vals A w in
                let P := cdrop_opt keep (coalesce (if s2d then ctrans B else B)) in bind ask (fun r =>
                match a with
                | AggrMean => ret (map (mean_weighted P X) (range (r_nv r)))
                | AggrSum => ret (map (spmv P X) (range (r_nv r)))
                | _ => ret (map (spmv (csoftmax P) X) (range (r_nv r)))
                end)
              else raise AssertionError)
          end
      end
    else raise AssertionError.

  (** directed_graph.py:172-196 [from_adj_list] *)
  Definition d_from_adj_list (nv : Z) (adj : list (list Z)) (extra : bool) : res digraph :=
    d_new nv (Some (EMany (adj_to_edges adj))) WNone extra MMean.

  (** directed_graph.py:199-248 [from_feature_kNN].  [nbr v] is the row the k-d tree
      returns for vertex v: the [find_tk] nearest points (index, distance), nearest
      first; the first one is dropped.  A row of length 1 would be returned by scipy as a
      one-dimensional array, on which [[:, 1:]] raises IndexError.  With fewer than [find_tk] points scipy
      pads with the index [num_v], which [add_edges] rejects; here the oracle supplies the row. *)
  Definition d_knn (nv k : Z) (nbr : Z -> list (Z * T)) (dist2w : bool) (center : bool) (as_src : bool) : res digraph :=
    if k <=? nv then
      let find_tk := if center then k else k + 1 in
      if find_tk =? 1 then Err IndexError else
      let rows := flat_map (fun v => map (fun x => (v, x)) (tl (nbr v))) (range nv) in
      let es := map (fun p => if as_src then (fst p, fst (snd p)) else (fst (snd p), fst p)) rows in
      let ws := map (fun p => if dist2w then nexp (nopp (snd (snd p))) else n1) rows in
      match d_new nv (Some (EMany es)) (WList ws) false MMean with
      | Ok s => Ok (if center then fst (set_extra true s) else s)
      | Err x => Err x
      end
    else Err AssertionError.

  Inductive dquery :=
  | dqE | dqNumE | dqA | dqAT | dqDin | dqDout | dqDin1 | dqDout1 | dqDegIn | dqDegOut
  | dqNin (v : Z) | dqNout (v : Z) | dqSrc | dqDst | dqW
  | dqV2v (X : Z -> T) (a : aggr) (ew : option (list T)) (dir : option bool) (keep : option (nat -> bool)).
  Definition d_query (q : dquery) : M T (raw T) (out T) :=
    match q with
    | dqE => bind get_e (fun x => ret (OE (fst x) (snd x)))
    | dqNumE => bind ask (fun r => ret (OZ (raw_num_e r)))
    | dqA => oM dget_A | dqAT => oM dget_AT | dqDin => oM dget_Din | dqDout => oM dget_Dout
    | dqDin1 => oM dget_Din1 | dqDout1 => oM dget_Dout1
    | dqDegIn => bind dget_Din (fun m => ret (OVals (vals m)))    (* directed_graph.py:354-357 *)
    | dqDegOut => bind dget_Dout (fun m => ret (OVals (vals m)))  (* directed_graph.py:360-363 *)
    | dqNin v => bind (dget_N dget_AT v) (fun l => ret (OIdx l))
    | dqNout v => bind (dget_N dget_A v) (fun l => ret (OIdx l))
    | dqSrc => bind dget_A (fun m => ret (OIdx (rows m)))         (* directed_graph.py:512-515 *)
    | dqDst => bind dget_A (fun m => ret (OIdx (cols m)))         (* directed_graph.py:518-521 *)
    | dqW => bind dget_A (fun m => ret (OVals (vals m)))          (* directed_graph.py:524-527 *)
    | dqV2v X a ew dir keep => bind (d_v2v X a ew dir keep) (fun l => ret (OVals l))
    end.

  Inductive dop :=
  | dAdd (e : earg) (w : warg T) (m : mop)
  | dRemove (e : earg)
  | dAddExtra | dRemoveExtra | dRemoveLoops | dClear | dReverse
  | dQuery (q : dquery).
  Definition d_step (o : dop) : M T (raw T) (out T) :=
    match o with
    | dAdd e w m => unit_out (d_add_edges e w m)
    | dRemove e => unit_out (d_remove_edges e)
    | dAddExtra => unit_out (set_extra true)
    | dRemoveExtra => unit_out (set_extra false)
    | dRemoveLoops => unit_out remove_selfloop
    | dClear => unit_out clear
    | dReverse => unit_out d_reverse
    | dQuery q => d_query q
    end.
  Fixpoint d_run (ops : list dop) (s : digraph) : digraph * list (res (out T)) :=
    match ops with
    | [] => (s, [])
    | o :: r =>
        let (s1, x) := d_step o s in
        let (s2, xs) := d_run r s1 in (s2, x :: xs)
    end.
End DiGraph.
Arguments digraph T : clear implicits.
Arguments dquery T : clear implicits.
Arguments dop T : clear implicits.
