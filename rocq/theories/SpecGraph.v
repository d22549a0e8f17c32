(** Independent specification of the edge stores: a graph is a function from vertex
    pairs to optional weights, plus the "extra self-loops" switch.  Nothing here
    refers to dicts, caches or normalised keys. *)
From Verif Require Import Num ModelBase.
Set Implicit Arguments.

Section Spec.
  Context {T : Type} `{Num T}.

  Definition wmap := Z -> Z -> option T.
  Definition empty_map : wmap := fun _ _ => None.
  (** an abstract graph: weights and "has extra self-loops" *)
  Record agraph := mkA { aw : wmap; ax : bool }.

  (** when do two written pairs denote the same edge? *)
  Definition same_undirected (a b x y : Z) : bool := ((a =? x) && (b =? y)) || ((a =? y) && (b =? x)).
  Definition same_directed (a b x y : Z) : bool := (a =? x) && (b =? y).

  Definition known (m : mop) : bool := match m with MOther => false | _ => true end.
  Definition merged (m : mop) (old new : T) : T :=
    match m with
    | MMean => nhalf (nadd old new)
    | MMax => nmax old new
    | MSum => nadd old new
    | MOther => old
    end.

  Variable same : Z -> Z -> Z -> Z -> bool.

  Definition a_add (m : mop) (x : (Z * Z) * T) (g : wmap) : wmap := fun c d =>
    if same (fst (fst x)) (snd (fst x)) c d
    then Some (match g c d with Some old => merged m old (snd x) | None => snd x end)
    else g c d.
  Definition a_del (x : Z * Z) (g : wmap) : wmap := fun c d =>
    if same (fst x) (snd x) c d then None else g c d.

  (** what a call's arguments mean *)
  Definition edges_of (e : earg) : list (Z * Z) :=
    match e with EOne a b => [(a, b)] | EMany l => l end.
  Definition pairs_of (e : earg) (w : warg T) : option (list ((Z * Z) * T)) :=
    match e, w with
    | EOne a b, WNone => Some [((a, b), n1)]
    | EOne a b, WNum x => Some [((a, b), x)]
    | EMany l, WNone => Some (map (fun p => (p, n1)) l)
    | EMany l, WList ws => Some (combine l ws)
    | _, _ => None
    end.
  (** every endpoint is below the number of vertices (negative numbers pass, as in the code) *)
  Definition endpoints_ok (nv : Z) (l : list (Z * Z)) : bool :=
    forallb (fun p => (fst p <? nv) && (snd p <? nv)) l.

  Definition a_add_edges (nv : Z) (e : earg) (w : warg T) (m : mop) (g : agraph) : agraph :=
    match pairs_of e w with
    | Some ps =>
        if endpoints_ok nv (edges_of e) && (known m || match ps with [] => true | _ => false end)
        then mkA (fold_left (fun g x => a_add m x g) ps (aw g)) (ax g)
        else g
    | None => g
    end.
  Definition a_remove_edges (nv : Z) (e : earg) (g : agraph) : agraph :=
    if endpoints_ok nv (edges_of e)
    then mkA (fold_left (fun g x => a_del x g) (edges_of e) (aw g)) (ax g)
    else g.
  Definition a_remove_loops (g : agraph) : agraph :=
    mkA (fun c d => if c =? d then None else aw g c d) false.
  Definition a_clear (g : agraph) : agraph := mkA empty_map false.
End Spec.
Arguments wmap T : clear implicits.
Arguments agraph T : clear implicits.
