(** Small specification of "the output at a vertex is determined by the features within k steps". *)
From Verif Require Import Num Coo ModelBase ModelNN SpecNN.
Set Implicit Arguments.
Open Scope Z_scope.

(** reachable from [v] by at most [k] steps along [nb] *)
Fixpoint within (nb : Z -> Z -> Prop) (k : nat) (v u : Z) : Prop :=
  match k with
  | O => u = v
  | S k' => exists x, within nb k' v x /\ (u = x \/ nb x u)
  end.
(** two vertices of one hyperedge *)
Definition share (es : list (list Z)) (v u : Z) : Prop := exists e, In e es /\ In v e /\ In u e.

Section SpecLocal.
  Context {T : Type} {N : Num T}.
  (** row [v] of a matrix given by columns *)
  Definition row (Y : list (list T)) (v : Z) : list T := map (fun c => nth (Z.to_nat v) c nz) Y.
  (** a function of matrices that treats every row by itself, as batch normalisation and dropout do in evaluation mode *)
  Definition rowwise (c : nat) (nv : Z) (f : list (list T) -> list (list T)) : Prop :=
    forall Y, shaped Y c nv -> shaped (f Y) c nv /\
      forall Y' v, shaped Y' c nv -> row Y v = row Y' v -> row (f Y) v = row (f Y') v.
  Definition quiet (c : nat) (nv : Z) (t : tcfg (T := T)) : Prop :=
    rowwise c nv (t_drop t) /\ forall f, t_bn t = Some f -> rowwise c nv f.
  (** the network gives an answer for every matrix of [n] channels, and equal answers at [v] for matrices that agree within [k]
      steps of [v] *)
  Definition sees (net : list (list T) -> res (list (list T))) (n c : nat) (nv : Z) (nb : Z -> Z -> Prop) (k : nat) : Prop :=
    forall X X', shaped X n nv -> shaped X' n nv -> exists Y Y',
      net X = Ok Y /\ net X' = Ok Y' /\ shaped Y c nv /\ shaped Y' c nv /\
      forall v, 0 <= v < nv -> (forall u, 0 <= u < nv -> within nb k v u -> row X u = row X' u) -> row Y v = row Y' v.
  (** parameters that fit together, in evaluation mode *)
  Fixpoint stacked (n : nat) (ls : list (lin (T := T) * tcfg (T := T))) (dup : bool) (nv : Z) (c : nat) : Prop :=
    match ls with
    | [] => n = c
    | (th, t) :: r => exists h, fits th (if dup then n + n else n)%nat h /\ quiet h nv t /\ stacked h r dup nv c
    end.
End SpecLocal.
