(** The abstract meaning of a history of calls on a Graph. *)
From Verif Require Import Num ModelBase SpecGraph ModelGraph.
Set Implicit Arguments.

Section Ops.
  Context {T : Type} `{Num T}.

  Definition g_spec_step (nv : Z) (g : agraph T) (o : gop T) : agraph T :=
    match o with
    | AddEdges e w m => a_add_edges same_undirected nv e w m g
    | RemoveEdges e => a_remove_edges same_undirected nv e g
    | AddExtra => mkA (aw g) true
    | RemoveExtra => mkA (aw g) false
    | RemoveLoops => a_remove_loops g
    | Clear => a_clear g
    | Query _ => g
    end.
  Definition g_spec_new (nv : Z) (e : option earg) (w : warg T) (ex : bool) (m : mop) : agraph T :=
    match e with
    | None => mkA empty_map ex
    | Some ea => a_add_edges same_undirected nv ea w m (mkA empty_map ex)
    end.
  Definition g_spec (nv : Z) (e : option earg) (w : warg T) (ex : bool) (m : mop) (ops : list (gop T)) : agraph T :=
    fold_left (g_spec_step nv) ops (g_spec_new nv e w ex m).

  (** histories that never name a negative vertex *)
  Definition nonneg_earg (e : earg) : Prop := Forall (fun p => 0 <= fst p /\ 0 <= snd p) (edges_of e).
  Definition nonneg_op (o : gop T) : Prop :=
    match o with AddEdges e _ _ => nonneg_earg e | _ => True end.
  Definition nonneg_new (e : option earg) : Prop :=
    match e with None => True | Some ea => nonneg_earg ea end.

  (** weight of a pair, 0 when there is no edge; adjacency including extra self-loops *)
  Definition wt (o : option T) : T := match o with Some w => w | None => nz end.
  Definition a_adj (g : agraph T) (i j : Z) : T :=
    nadd (wt (aw g i j)) (if (i =? j) && ax g then n1 else nz).
  (** the pair is an edge *)
  Definition a_edge (g : agraph T) (i j : Z) : Prop := aw g i j <> None \/ (i = j /\ ax g = true).
  (** degree: sum of the adjacency row *)
  Definition a_deg (nv : Z) (g : agraph T) (i : Z) : T := sumf (range nv) (fun j => a_adj g i j).

  (** reachable by the history and the constructor *)
  Definition g_reach (nv : Z) (e : option earg) (w : warg T) (ex : bool) (m : mop) (ops : list (gop T)) (s : graph T) : Prop :=
    exists s0, g_new nv e w ex m = Ok s0 /\ s = fst (g_run ops s0).
End Ops.
