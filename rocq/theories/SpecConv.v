(** Independent vocabulary for the conversions between structures. *)
From Coq Require Import Sorted Reals.
From Verif Require Import Num ModelBase.
Set Implicit Arguments.
Local Open Scope Z_scope.

(** [e] lists the members of the set [P] in increasing order, each once *)
Definition lists_set (e : list Z) (P : Z -> Prop) : Prop := StronglySorted Z.lt e /\ forall u, In u e <-> P u.

(** [l]: [k] different vertices of [0, n), none of the others nearer to [v] than any of them *)
Definition nearest (dist : Z -> Z -> R) (n k v : Z) (l : list Z) : Prop :=
  Z.of_nat (length l) = k /\ NoDup l /\ (forall a, In a l -> 0 <= a < n) /\
  forall a b, In a l -> 0 <= b < n -> ~ In b l -> (dist v a <= dist v b)%R.

(** vertices of [e] where the projection [p] is largest and smallest *)
Definition extremes (p : Z -> R) (e : list Z) (ab : Z * Z) : Prop :=
  In (fst ab) e /\ In (snd ab) e /\ forall c, In c e -> (p (snd ab) <= p c <= p (fst ab))%R.

Definition other_than (ab : Z * Z) (c : Z) : bool := negb ((c =? fst ab) || (c =? snd ab)).
(** the edges HyperGCN makes of hyperedge [e] with extreme vertices [ab] *)
Definition hgcn_plain (keep_loops : bool) (e : list Z) (ab : Z * Z) : list ((Z * Z) * R) :=
  if negb keep_loops && (fst ab =? snd ab) then [] else [(ab, (/ INR (length e))%R)].
Definition hgcn_mediated (e : list Z) (ab : Z * Z) : list ((Z * Z) * R) :=
  flat_map (fun c => [((fst ab, c), (/ (2 * INR (length e) - 3))%R); ((snd ab, c), (/ (2 * INR (length e) - 3))%R)]) (filter (other_than ab) e).
(** position [i] of a list of numbers holds the largest (smallest) *)
Definition holds_max (l : list R) (i : nat) : Prop := (i < length l)%nat /\ forall x, In x l -> (x <= nth i l 0)%R.
Definition holds_min (l : list R) (i : nat) : Prop := (i < length l)%nat /\ forall x, In x l -> (nth i l 0 <= x)%R.
