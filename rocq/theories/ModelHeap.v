(** Object identity: several structures whose dicts live in one heap, so that aliasing is
    visible.  Generic in the structure class; the classes are plugged in below. *)
From Coq Require Import Arith String.
From Verif Require Import Num PyDict Coo ModelBase ModelGraph ModelDiGraph ModelBiGraph ModelHyper.
Local Open Scope list_scope.
Local Open Scope Z_scope.
Set Implicit Arguments.

(** A class for this purpose: object state [S] split into immediate values [S0] and dict-valued
    attributes ("slots") with contents [V]. *)
Record hclass := mkHClass {
  hS : Type; hS0 : Type; hV : Type; hP : Type; hO : Type; hD : Type;
  h_imm : hS -> hS0;
  h_cells : hS -> list hV;
  h_pack : hS0 -> list hV -> hS;
  h_call : hP -> hS -> hS * hO;          (* a method call on one object *)
  h_rebind : hP -> nat -> bool;          (* the call assigns a NEW dict to this slot instead of writing into it *)
  h_derive : hD -> hS -> option hS;      (* methods returning a new structure: clone, drop_edges, switch_uv *)
  h_share : hD -> nat -> bool;           (* the new structure keeps a reference to the SAME dict in this slot *)
  h_from : hS -> option hS;              (* from_state_dict *)
  h_from_share : nat -> bool             (* from_state_dict keeps the reference found in the state dict *)
}.

Section Heap.
  Variable C : hclass.

  (** [w_objs]: the structures, [w_hands]: the state dicts handed out (graph.py:47-56 returns the live
      dicts themselves), each as immediate values plus addresses; [w_heap]: contents; [w_next]: first free address *)
  Record world := mkW {
    w_objs : list (hS0 C * list nat);
    w_hands : list (hS0 C * list nat);
    w_heap : nat -> option (hV C);
    w_next : nat
  }.
  Definition w_empty : world := mkW [] [] (fun _ => None) 0.

  Fixpoint read (h : nat -> option (hV C)) (l : list nat) : list (hV C) :=
    match l with
    | [] => []
    | a :: r => match h a with Some v => v :: read h r | None => read h r end
    end.
  Definition deref (W : world) (o : hS0 C * list nat) : hS C := h_pack C (fst o) (read (w_heap W) (snd o)).
  Definition put (h : nat -> option (hV C)) (a : nat) (v : hV C) : nat -> option (hV C) :=
    fun b => if Nat.eqb a b then Some v else h b.

  (** store the contents [vs] in the slots starting with number [k]: slot [j] keeps the address
      [old j] when [keep j], otherwise it gets a fresh one *)
  Fixpoint store (keep : nat -> bool) (k : nat) (old : list nat) (vs : list (hV C)) (h : nat -> option (hV C)) (n : nat)
    : list nat * (nat -> option (hV C)) * nat :=
    match vs with
    | [] => ([], h, n)
    | v :: vr =>
        let a := if keep k then match old with b :: _ => b | [] => n end else n in
        let n1 := if Nat.eqb a n then S n else n in
        let '(l, h2, n2) := store keep (S k) (tl old) vr (put h a v) n1 in (a :: l, h2, n2)
    end.
  Fixpoint upd {A} (l : list A) (i : nat) (x : A) : list A :=
    match l, i with
    | [], _ => []
    | _ :: r, O => x :: r
    | a :: r, S j => a :: upd r j x
    end.

  Inductive wop :=
  | WNew (s : hS C)            (* a constructor call that produced the state [s] in fresh dicts *)
  | WDerive (i : nat) (d : hD C)
  | WState (i : nat)           (* objs[i].state_dict *)
  | WFrom (k : nat)            (* from_state_dict(hands[k]) *)
  | WCall (i : nat) (p : hP C).

  Definition add_obj (W : world) (share : nat -> bool) (old : list nat) (s : hS C) : world :=
    let '(l, h, n) := store share 0 old (h_cells C s) (w_heap W) (w_next W) in
    mkW (w_objs W ++ [(h_imm C s, l)]) (w_hands W) h n.
  Definition w_step (W : world) (o : wop) : world * option (hO C) :=
    match o with
    | WNew s => (add_obj W (fun _ => false) [] s, None)
    | WDerive i d =>
        match nth_error (w_objs W) i with
        | Some x => match h_derive C d (deref W x) with
                    | Some s => (add_obj W (h_share C d) (snd x) s, None)
                    | None => (W, None)
                    end
        | None => (W, None)
        end
    | WState i =>
        match nth_error (w_objs W) i with
        | Some x => (mkW (w_objs W) (w_hands W ++ [x]) (w_heap W) (w_next W), None)
        | None => (W, None)
        end
    | WFrom k =>
        match nth_error (w_hands W) k with
        | Some x => match h_from C (deref W x) with
                    | Some s => (add_obj W (h_from_share C) (snd x) s, None)
                    | None => (W, None)
                    end
        | None => (W, None)
        end
    | WCall i p =>
        match nth_error (w_objs W) i with
        | Some x =>
            let (s', out) := h_call C p (deref W x) in
            let '(l, h, n) := store (fun k => negb (h_rebind C p k)) 0 (snd x) (h_cells C s') (w_heap W) (w_next W) in
            (mkW (upd (w_objs W) i (h_imm C s', l)) (w_hands W) h n, Some out)
        | None => (W, None)
        end
    end.
  Fixpoint w_run (W : world) (ops : list wop) : world * list (option (hO C)) :=
    match ops with
    | [] => (W, [])
    | o :: r => let (W1, x) := w_step W o in let (W2, xs) := w_run W1 r in (W2, x :: xs)
    end.
  (** the state of structure [i] as its own methods see it *)
  Definition look (W : world) (i : nat) : option (hS C) :=
    match nth_error (w_objs W) i with Some x => Some (deref W x) | None => None end.
End Heap.
Arguments w_empty {C}.

Section Classes.
  Context {T : Type} `{Num T}.

  (** Dict-valued attributes *)
  Inductive gcell := CEdges (d : dict (Z * Z) T) | CLoops (d : dict Z T) | CCache (c : list (ckey * cval T)).

  Definition raw_cells (s : st T (raw T)) : list gcell :=
    [CEdges (r_e (st_raw s)); CLoops (r_loop (st_raw s)); CCache (st_cache s)].
  Definition raw_pack (i : Z * bool) (l : list gcell) : st T (raw T) :=
    match l with
    | [CEdges d; CLoops e; CCache c] => mkSt (mkRaw (fst i) d e (snd i)) c
    | _ => mkSt (mkRaw (fst i) [] [] (snd i)) []
    end.

  (** Graph.  [_add_edge]/[_remove_edge] write into the dicts (base.py:208-218,236-239),
      [remove_selfloop] empties the self-loop dict in place (base.py:257), [clear] assigns new dicts
      (base.py:89-90), [_clear_cache] assigns a new cache dict (base.py:97), queries write into the cache. *)
  Inductive gderive := GClone | GDrop (keep : nat -> bool) (ord_ok : bool).
  Definition ok_opt {A} (r : res A) : option A := match r with Ok a => Some a | Err _ => None end.
  Definition graph_class : hclass := {|
    hS := graph T; hS0 := Z * bool; hV := gcell; hP := gop T; hO := res (out T); hD := gderive;
    h_imm := fun s => (r_nv (st_raw s), r_extra (st_raw s));
    h_cells := raw_cells; h_pack := raw_pack;
    h_call := fun p s => g_step p s;
    h_rebind := fun p k => match p, k with
                           | Clear, _ => true
                           | Query _, _ => false
                           | _, 2%nat => true
                           | _, _ => false
                           end;
    (* graph.py:145-154 [clone], 356-376 [drop_edges] *)
    h_derive := fun d s => match d with GClone => Some (g_clone s) | GDrop keep o => ok_opt (g_drop_edges keep o s) end;
    h_share := fun _ _ => false;            (* deepcopy, graph.py:150-153; new dicts, graph.py:364-365 *)
    h_from := fun s => ok_opt (g_from_state_dict (g_state_dict s));
    h_from_share := fun _ => false          (* deepcopy, graph.py:175-176 *)
  |}.

  (** DiGraph: as Graph; [reverse_direction] assigns a new edge dict (directed_graph.py:300) *)
  Definition digraph_class : hclass := {|
    hS := digraph T; hS0 := Z * bool; hV := gcell; hP := dop T; hO := res (out T); hD := gderive;
    h_imm := fun s => (r_nv (st_raw s), r_extra (st_raw s));
    h_cells := raw_cells; h_pack := raw_pack;
    h_call := fun p s => d_step p s;
    h_rebind := fun p k => match p, k with
                           | dClear, _ => true
                           | dReverse, 0%nat => true
                           | dReverse, _ => false
                           | dQuery _, _ => false
                           | _, 2%nat => true
                           | _, _ => false
                           end;
    (* directed_graph.py:138-147 [clone], 302-322 [drop_edges] *)
    h_derive := fun d s => match d with GClone => Some (d_clone s) | GDrop keep o => ok_opt (d_drop_edges keep o s) end;
    h_share := fun _ _ => false;            (* deepcopy, directed_graph.py:142-146 *)
    h_from := fun s => ok_opt (d_from_state_dict (d_state_dict s));
    h_from_share := fun _ => false          (* deepcopy, directed_graph.py:167-168 *)
  |}.

  (** BiGraph: one edge dict and the cache *)
  Inductive bderive := BClone | BDrop (keep : nat -> bool) (ord_ok : bool) | BSwitch.
  Definition bigraph_class : hclass := {|
    hS := bigraph T; hS0 := Z * Z; hV := gcell; hP := bop T; hO := res (out T); hD := bderive;
    h_imm := fun s => (b_nu (st_raw s), b_nv (st_raw s));
    h_cells := fun s => [CEdges (b_e (st_raw s)); CCache (st_cache s)];
    h_pack := fun i l => match l with
                         | [CEdges d; CCache c] => mkSt (mkBRaw (fst i) (snd i) d) c
                         | _ => mkSt (mkBRaw (fst i) (snd i) []) []
                         end;
    h_call := fun p s => b_step p s;
    h_rebind := fun p k => match p, k with
                           | bClear, _ => true
                           | bQuery _, _ => false
                           | _, 1%nat => true
                           | _, _ => false
                           end;
    (* bipartite_graph.py:162-169 [clone], 345-363 [drop_edges], 336-343 [switch_uv] *)
    h_derive := fun d s => match d with
                           | BClone => Some (b_clone s)
                           | BDrop keep o => ok_opt (b_drop_edges keep o s)
                           | BSwitch => Some (b_switch s)
                           end;
    h_share := fun _ _ => false;            (* deepcopy, bipartite_graph.py:166-168; new dict, 341 *)
    h_from := fun s => ok_opt (b_from_state_dict (b_state_dict s));
    h_from_share := fun _ => false          (* deepcopy, bipartite_graph.py:217 *)
  |}.

  (** Hypergraph: the list of vertex weights, the dict of groups and the caches.  The group dict holds one
      dict per group, and the two cache attributes (base.py:377-380) hold dicts too; each of the two is taken as
      one mutable cell, because no method hands out a part of them.  [_add_hyperedge] and the removals write
      into the groups (base.py:644-664, hypergraph.py:417-449), [clear] assigns new dicts (base.py:423-427),
      [_clear_cache] assigns new caches (base.py:433-438), queries write into the caches. *)
  Inductive hcell := CVW (w : option (list T)) | CGroups (d : dict string (dict (list Z) T)) | CHCache (c : list (ckey * cval T)).
  Inductive hderive :=
  | HClone | HDrop (g : option string) (keep : nat -> bool) (ord_ok : bool) | HSub (vs : list Z) (keep1 : bool).
  Definition hyper_cells (s : hypergraph T) : list hcell :=
    [CVW (h_vw (st_raw s)); CGroups (h_gr (st_raw s)); CHCache (st_cache s)].
  Definition hyper_pack (nv : Z) (l : list hcell) : hypergraph T :=
    match l with
    | [CVW w; CGroups d; CHCache c] => mkSt (mkHRaw nv w d) c
    | _ => mkSt (mkHRaw nv None []) []
    end.
  Definition hyper_rebind (p : hop T) (k : nat) : bool :=
    match p, k with
    | HClear, _ => true
    | HQuery _, _ => false
    | _, 2%nat => true
    | _, _ => false
    end.
  Definition hypergraph_class : hclass := {|
    hS := hypergraph T; hS0 := Z; hV := hcell; hP := hop T; hO := res (out T); hD := hderive;
    h_imm := fun s => h_nv (st_raw s);
    h_cells := hyper_cells; h_pack := hyper_pack;
    h_call := fun p s => h_step p s;
    h_rebind := hyper_rebind;
    (* hypergraph.py:148-155 [clone], 451-497 [drop_hyperedges(_of_group)], base.py:736-772 [subgraph] *)
    h_derive := fun d s => match d with
                           | HClone => Some (h_clone s)
                           | HDrop g keep o => ok_opt (h_drop g keep o s)
                           | HSub vs k1 => ok_opt (h_subgraph vs k1 s)
                           end;
    (* deepcopy, hypergraph.py:152-154; [drop_hyperedges_of_group] passes live group dicts (hypergraph.py:488)
       to from_state_dict, which copies them, hypergraph.py:175; new weight list, base.py:770 *)
    h_share := fun _ _ => false;
    h_from := fun s => ok_opt (h_from_state_dict (h_state_dict s));
    h_from_share := fun _ => false          (* deepcopy, hypergraph.py:175 *)
  |}.

  (** The same class for callers that pass a list of vertex weights of their own: [__init__] keeps the list itself
      (hypergraph.py:41-45) and [v_weight] returns it (hypergraph.py:508-512).  [VBuild]: a second hypergraph
      built by Hypergraph(num_v, e, w, v_weight=self.v_weight, merge_op=m), whose weight slot is the SAME list;
      [VWrite i x]: the statement "hg.v_weight[i] = x" (non-negative [i]). *)
  Inductive vop := VOp (o : hop T) | VWrite (i : nat) (x : T).
  Inductive vderive := VDerive (d : hderive) | VBuild (nv : Z) (e : option harg) (w : warg T) (m : mop).
  Definition v_step (p : vop) (s : hypergraph T) : hypergraph T * res (out T) :=
    match p with
    | VOp o => h_step o s
    | VWrite i x =>
        match h_vw (st_raw s) with
        | Some l => if Nat.ltb i (List.length l)
                    then (mkSt (mkHRaw (h_nv (st_raw s)) (Some (upd l i x)) (h_gr (st_raw s))) (st_cache s), Ok OUnit)
                    else (s, Err IndexError)
        | None => (s, Err TypeError)
        end
    end.
  Definition vweight_class : hclass := {|
    hS := hypergraph T; hS0 := Z; hV := hcell; hP := vop; hO := res (out T); hD := vderive;
    h_imm := fun s => h_nv (st_raw s);
    h_cells := hyper_cells; h_pack := hyper_pack;
    h_call := v_step;
    h_rebind := fun p k => match p with VOp o => hyper_rebind o k | VWrite _ _ => false end;
    h_derive := fun d s => match d with
                           | VDerive d => h_derive hypergraph_class d s
                           | VBuild nv e w m => match h_vw (st_raw s) with
                                                | Some l => ok_opt (h_new nv e w (Some l) m)
                                                | None => ok_opt (h_new nv e w None m)
                                                end
                           end;
    h_share := fun d k => match d, k with VBuild _ _ _ _, 0%nat => true | _, _ => false end;
    h_from := h_from hypergraph_class;
    h_from_share := h_from_share hypergraph_class
  |}.

  (** base.py:502-504: [_format_e_list] sorts the hyperedges in place in the list it was given: what the
      caller's own [e_list] holds after the call.  A single hyperedge is left alone (base.py:494-495), a tuple of
      hyperedges is copied first (base.py:496-497). *)
  Definition arg_after (is_tuple : bool) (e : harg) : harg :=
    match e with
    | HOne l => HOne l
    | HMany l => if is_tuple then HMany l else HMany (map zsort l)
    end.

  (** Files written by [save] (graph.py:58-71, directed_graph.py:57-67, bipartite_graph.py:57-70,
      hypergraph.py:61-75): the class
      name and the pickled state dict.  Pickling is taken to preserve dicts and numbers. *)
  Inductive sfile := FGraph (r : raw T) | FDiGraph (r : raw T) | FBiGraph (r : braw T)
  | FHyper (r : Z * dict string (dict (list Z) T)).
  Definition g_save (s : graph T) : sfile := FGraph (g_state_dict s).
  Definition d_save (s : digraph T) : sfile := FDiGraph (d_state_dict s).
  Definition b_save (s : bigraph T) : sfile := FBiGraph (b_state_dict s).
  Definition h_save (s : hypergraph T) : sfile := FHyper (h_state_dict s).
  (** graph.py:74-86, directed_graph.py:70-81, bipartite_graph.py:73-84,
      hypergraph.py:77-89 [load]: the class name is checked *)
  Definition g_load (f : sfile) : res (graph T) := match f with FGraph r => g_from_state_dict r | _ => Err AssertionError end.
  Definition d_load (f : sfile) : res (digraph T) := match f with FDiGraph r => d_from_state_dict r | _ => Err AssertionError end.
  Definition b_load (f : sfile) : res (bigraph T) := match f with FBiGraph r => b_from_state_dict r | _ => Err AssertionError end.
  Definition h_load (f : sfile) : res (hypergraph T) := match f with FHyper r => h_from_state_dict r | _ => Err AssertionError end.
  (** base.py:10-26 [load_structure]: dispatches on the class name *)
  Inductive structure := SGraph (s : graph T) | SDiGraph (s : digraph T) | SBiGraph (s : bigraph T) | SHyper (s : hypergraph T).
  Definition res_map_s {A} (f : A -> structure) (r : res A) : res structure := match r with Ok a => Ok (f a) | Err x => Err x end.
  Definition load_structure (f : sfile) : res structure :=
    match f with
    | FGraph r => res_map_s SGraph (g_from_state_dict r)
    | FDiGraph r => res_map_s SDiGraph (d_from_state_dict r)
    | FBiGraph r => res_map_s SBiGraph (b_from_state_dict r)
    | FHyper r => res_map_s SHyper (h_from_state_dict r)
    end.
End Classes.
Arguments hcell T : clear implicits.
Arguments vop T : clear implicits.
Arguments vderive T : clear implicits.
Arguments gcell T : clear implicits.
Arguments sfile T : clear implicits.
Arguments structure T : clear implicits.
