(** Small specifications for the metrics. *)
From Coq Require Import Reals Permutation Sorted.
From Verif Require Import Num.
Set Implicit Arguments.
Local Open Scope R_scope.

(** [ord] lists all positions of [p], from the highest to the lowest score *)
Definition ranking_of (p : list R) (ord : list nat) : Prop :=
  Permutation ord (seq 0 (length p)) /\ StronglySorted (fun i j => nth j p 0 <= nth i p 0) ord.
(** a possible [torch.argsort(descending=True)]; nothing is said about equal scores *)
Definition sorts_desc (argsort : list R -> list nat) : Prop := forall p, ranking_of p (argsort p).

Definition binary (y : list R) : Prop := forall x, In x y -> x = 0 \/ x = 1.
Definition is_one (x : R) : bool := if Req_EM_T x 1 then true else false.
(** how many items are relevant; how many of the first [k] of the ranking are *)
Definition relevant (y : list R) : nat := length (filter is_one y).
Definition hits (k : nat) (ord : list nat) (y : list R) : nat := length (filter (fun i => is_one (nth i y 0)) (firstn k ord)).

(** samples: pairs of a label vector and a score vector, all of length [c] *)
Definition samples {P} (c : nat) (rows : list (list R * list P)) : Prop :=
  forall r, In r rows -> length (fst r) = c /\ length (snd r) = c.
(** the depth meant by the arguments k and ratio for [c] items *)
Definition depth (c : nat) (k : option Z) (ratio : option R) (kk : nat) : Prop :=
  match ratio with
  | Some r => 0 < r <= 1 /\ INR kk - 1 < INR c * r <= INR kk
  | None => match k with Some k => Z.of_nat kk = Z.min k (Z.of_nat c) | None => kk = c end
  end.

Definition avg (l : list R) : R := fold_right Rplus 0 l / INR (length l).

(** two score vectors rank all items the same way, without ties *)
Definition same_order (p q : list R) : Prop :=
  length p = length q /\
  (forall i j, (i < length p)%nat -> (j < length p)%nat -> i <> j -> nth i p 0 <> nth j p 0) /\
  (forall i j, (i < length p)%nat -> (j < length p)%nat -> (nth i p 0 < nth j p 0 <-> nth i q 0 < nth j q 0)).

(** discounted gain of a list of relevances, the first one at rank [r] (from 1): sum of x / log2 (rank + 1) *)
Fixpoint gain_from (r : nat) (l : list R) : R :=
  match l with [] => 0 | x :: t => x / (ln (INR r + 1) / ln 2) + gain_from (S r) t end.
Definition gain (l : list R) : R := gain_from 1 l.
(** the largest gain of the first [k] items over all orders *)
Definition best_gain (k : nat) (y : list R) (g : R) : Prop :=
  (exists o, Permutation o y /\ g = gain (firstn k o)) /\ forall o, Permutation o y -> gain (firstn k o) <= g.

(** relevant items first *)
Definition relevant_first (ord : list nat) (y : list R) : Prop :=
  forall i j, (i < j < length ord)%nat -> nth (nth j ord 0%nat) y 0 = 1 -> nth (nth i ord 0%nat) y 0 = 1.

(** ranks (from 1) of the relevant items of the ranking [ord], in ascending order *)
Definition relevant_ranks (ord : list nat) (y : list R) (rs : list nat) : Prop :=
  StronglySorted lt rs /\
  forall r, In r rs <-> (1 <= r <= length ord)%nat /\ nth (nth (r - 1) ord 0%nat) y 0 = 1.
