(** The abstract meaning of a history of calls on a DiGraph. *)
From Verif Require Import Num ModelBase SpecGraph SpecGraphOps ModelDiGraph.
Set Implicit Arguments.

Section Ops.
  Context {T : Type} `{Num T}.

  Definition a_reverse (g : agraph T) : agraph T := mkA (fun a b => aw g b a) (ax g).
  Definition d_spec_step (nv : Z) (g : agraph T) (o : dop T) : agraph T :=
    match o with
    | dAdd e w m => a_add_edges same_directed nv e w m g
    | dRemove e => a_remove_edges same_directed nv e g
    | dAddExtra => mkA (aw g) true
    | dRemoveExtra => mkA (aw g) false
    | dRemoveLoops => a_remove_loops g
    | dClear => a_clear g
    | dReverse => a_reverse g
    | dQuery _ => g
    end.
  Definition d_spec_new (nv : Z) (e : option earg) (w : warg T) (ex : bool) (m : mop) : agraph T :=
    match e with
    | None => mkA empty_map ex
    | Some ea => a_add_edges same_directed nv ea w m (mkA empty_map ex)
    end.
  Definition d_spec (nv : Z) (e : option earg) (w : warg T) (ex : bool) (m : mop) (ops : list (dop T)) : agraph T :=
    fold_left (d_spec_step nv) ops (d_spec_new nv e w ex m).

  Definition nonneg_dop (o : dop T) : Prop :=
    match o with dAdd e _ _ => nonneg_earg e | _ => True end.

  Definition d_reach (nv : Z) (e : option earg) (w : warg T) (ex : bool) (m : mop) (ops : list (dop T)) (s : digraph T) : Prop :=
    exists s0, d_new nv e w ex m = Ok s0 /\ s = fst (d_run ops s0).

  (** Histories in which reverse_direction is only called while nothing is cached:
      no query has been made since the last call that really changed the graph.
      [c] says that nothing is cached. *)
  Definition add_accepted (nv : Z) (e : earg) (w : warg T) (m : mop) : bool :=
    negb (earg_empty e) && endpoints_ok nv (edges_of e) &&
    match pairs_of e w with Some ps => known m || match ps with [] => true | _ => false end | None => false end.
  Definition clean_step (nv : Z) (c : bool) (o : dop T) : bool :=
    match o with
    | dAdd e w m => c || add_accepted nv e w m
    | dRemove e => c || (negb (earg_empty e) && endpoints_ok nv (edges_of e))
    | dAddExtra | dRemoveExtra | dRemoveLoops | dClear => true
    | dReverse => c
    | dQuery _ => false
    end.
  Fixpoint reverse_safe (nv : Z) (c : bool) (ops : list (dop T)) : bool :=
    match ops with
    | [] => true
    | o :: r => match o with dReverse => c | _ => true end && reverse_safe nv (clean_step nv c o) r
    end.
End Ops.
