(** Small specifications for the layers: matrices read by position, affine maps, and what "the layer computes F" means. *)
From Verif Require Import Num Coo ModelBase SpecGraph SpecGraphOps SpecHyper ModelNN.
Set Implicit Arguments.
Open Scope Z_scope.

Section SpecNN.
  Context {T : Type} {N : Num T}.
  (** number in channel [j], row [i] *)
  Definition entry (Y : list (list T)) (j : nat) (i : Z) : T := nth (Z.to_nat i) (nth j Y []) nz.
  Definition shaped (Y : list (list T)) (channels : nat) (rows : Z) : Prop :=
    length Y = channels /\ Forall (fun c => length c = Z.to_nat rows) Y.
  (** parameters for [n] input and [c] output channels *)
  Definition fits (L : lin (T := T)) (n c : nat) : Prop :=
    length (l_w L) = c /\ Forall (fun r => length r = n) (l_w L) /\ (forall b, l_b L = Some b -> length b = c).
  Definition bias (L : lin (T := T)) (j : nat) : T := match l_b L with Some b => nth j b nz | None => nz end.
  Definition weight (L : lin (T := T)) (j k : nat) : T := nth k (nth j (l_w L) []) nz.
  (** [sum_k x_k W_jk + b_j], for the [n] channels [x_0, x_1, ...] *)
  Definition affine (L : lin (T := T)) (n : nat) (x : nat -> T) (j : nat) : T :=
    nadd (sumf (seq 0 n) (fun k => nmul (x k) (weight L j k))) (bias L j).
  (** input channel [k] *)
  Definition chan (X : list (Z -> T)) (k : nat) (v : Z) : T := nth k X (fun _ => nz) v.

  (** the layer computes the matrix [F]: alone when it is the last one, and otherwise followed by the activation, the batch
      normalisation if there is one, and (if the layer has one) the dropout *)
  Definition gives (dropping : bool) (layer : tcfg -> res (list (list T))) (act : T -> T) (c : nat) (rows : Z) (F : nat -> Z -> T) : Prop :=
    exists Y, shaped Y c rows /\ (forall j i, (j < c)%nat -> 0 <= i < rows -> entry Y j i = F j i) /\
      forall drop : list (list T) -> list (list T), let d := if dropping then drop else fun Y => Y in
        (forall bn, layer (mktcfg true act bn drop) = Ok Y) /\
        layer (mktcfg false act None drop) = Ok (d (map (map act) Y)) /\
        forall b, layer (mktcfg false act (Some b) drop) = Ok (d (b (map (map act) Y))).

  (** adjacency with one extra self-loop per vertex, normalised on both sides by its row sums *)
  Definition ghat (g : agraph T) (i j : Z) : T := nadd (wt (aw g i j)) (if i =? j then n1 else nz).
  Definition gcn_coeff (nv : Z) (g : agraph T) (i j : Z) : T :=
    let deg i := sumf (range nv) (fun j => ghat g i j) in nmul (nmul (nisq (deg i)) (ghat g i j)) (nisq (deg j)).
  (** [D_v^-1/2 H W_e D_e^-1 H^T D_v^-1/2] *)
  Definition hgnn_coeff (es : list (list Z)) (ws : list T) (u v : Z) : T :=
    nmul (nmul (nisq (hdeg es ws u)) (hshare es ws u v)) (nisq (hdeg es ws v)).
  (** weight of hyperedge [i] times the average of [f] over its vertices *)
  Definition edge_mean (es : list (list Z)) (ws : list T) (f : Z -> T) (i : Z) : T :=
    nmul (nthw ws i) (nmul (ninv (hcard (nthe es i))) (sumf (nthe es i) f)).
  (** sum over the hyperedges that contain [v] *)
  Definition inc_sum (es : list (list Z)) (y : Z -> T) (v : Z) : T :=
    sumf (range (Z.of_nat (length es))) (fun i => if zmem v (nthe es i) then y i else nz).
End SpecNN.
