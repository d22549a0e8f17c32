(** Small specifications for the random generators. *)
From Coq Require Import Reals Permutation.
From Verif Require Import Num.
Set Implicit Arguments.
Local Open Scope Z_scope.

(** every drawn vertex is one of 0 .. n-1 *)
Definition draws_below (n : Z) (ch : nat -> Z) : Prop := forall i, 0 <= ch i < n.
(** [list(set)] lists the elements of the set in some order *)
Definition any_order {A} (ord : list A -> list A) : Prop := forall l, Permutation (ord l) l.
(** a possible outcome of [random.sample(range(n), k)] *)
Definition sample_of (n k : Z) (l : list Z) : Prop := NoDup l /\ Z.of_nat (length l) = k /\ forall x, In x l -> 0 <= x < n.

(** [k] is how many items a draw [r] in [0,1) skips when every item is taken with probability [p]: the integer part of
    log(1 - r) / log(1 - p) *)
Definition skip_of (p r : R) (k : Z) : Prop := (IZR k <= ln (1 - r) / ln (1 - p) < IZR k + 1)%R.
(** the item that is taken by draw [t] of those starting with draw [i]: the items skipped so far plus those taken *)
Fixpoint place (sk : nat -> Z) (i t : nat) : Z :=
  match t with O => sk i | S t' => place sk i t' + 1 + sk (i + t)%nat end.
(** number of unordered pairs of [n] vertices; the pair a < b has the number [pairs_below b + a] *)
Definition pairs_below (n : Z) : Z := n * (n - 1) / 2.
