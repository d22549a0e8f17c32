(** The abstract meaning of a history of calls on a BiGraph: a function from (u, v) to optional weights. *)
From Verif Require Import Num ModelBase SpecGraph SpecGraphOps ModelBiGraph.
Set Implicit Arguments.

Section Ops.
  Context {T : Type} `{Num T}.

  Definition ends_ok (nu nv : Z) (l : list (Z * Z)) : bool := forallb (fun p => (fst p <? nu) && (snd p <? nv)) l.
  Definition bs_add (nu nv : Z) (e : earg) (w : warg T) (m : mop) (g : wmap T) : wmap T :=
    match pairs_of e w with
    | Some ps =>
        if ends_ok nu nv (edges_of e) && (known m || match ps with [] => true | _ => false end)
        then fold_left (fun g x => a_add same_directed m x g) ps g else g
    | None => g
    end.
  Definition bs_remove (nu nv : Z) (e : earg) (g : wmap T) : wmap T :=
    if ends_ok nu nv (edges_of e) then fold_left (fun g x => a_del same_directed x g) (edges_of e) g else g.
  Definition b_spec_step (nu nv : Z) (g : wmap T) (o : bop T) : wmap T :=
    match o with
    | bAdd e w m => bs_add nu nv e w m g
    | bRemove e => bs_remove nu nv e g
    | bClear => empty_map
    | bQuery _ => g
    end.
  Definition b_spec_new (nu nv : Z) (e : option earg) (w : warg T) (m : mop) : wmap T :=
    match e with None => empty_map | Some ea => bs_add nu nv ea w m empty_map end.
  Definition b_spec (nu nv : Z) (e : option earg) (w : warg T) (m : mop) (ops : list (bop T)) : wmap T :=
    fold_left (b_spec_step nu nv) ops (b_spec_new nu nv e w m).

  Definition nonneg_bop (o : bop T) : Prop :=
    match o with bAdd e _ _ => nonneg_earg e | _ => True end.
  Definition b_reach (nu nv : Z) (e : option earg) (w : warg T) (m : mop) (ops : list (bop T)) (s : bigraph T) : Prop :=
    exists s0, b_new nu nv e w m = Ok s0 /\ s = fst (b_run ops s0).

  (** the symmetric block matrix [[0, B], [B^T, 0]] of a map, as a function of row and column *)
  Definition block (nu : Z) (g : wmap T) (i j : Z) : T :=
    if (i <? nu) && (nu <=? j) then wt (g i (j - nu))
    else if (nu <=? i) && (j <? nu) then wt (g j (i - nu)) else nz.
End Ops.
