(** Small independent specifications for dhg/utils. *)
From Coq Require Import String.
From Verif Require Import Num PyDict ModelBase.
Set Implicit Arguments.
Local Open Scope Z_scope.

(** the distinct elements of a list in the order of their first occurrence *)
Fixpoint firsts {A} `{EqB A} (l : list A) : list A :=
  match l with
  | [] => []
  | x :: r => x :: filter (fun y => negb (eqb x y)) (firsts r)
  end.

(** [m] numbers the markers [ms] 0, 1, ..., n-1 in ascending string order *)
Definition numbers (ms : list string) (m : dict string Z) : Prop :=
  dict_ok m /\ (forall k, In k (dkeys m) <-> In k ms) /\ dvals m = range (Z.of_nat (length m)) /\
  (forall a b i j, dget a m = Some i -> dget b m = Some j -> (i < j <-> String.compare a b = Lt)).
(** [e'] is [e] with every marker replaced by its number *)
Definition renamed {A} (str : A -> string) (m : dict string Z) (e : list A) (e' : list Z) : Prop :=
  Forall2 (fun v i => dget (str v) m = Some i) e e'.
(** the same for a line [u; v1; v2; ...] whose first marker is numbered by [um] and the others by [vm] *)
Definition renamed2 {A} (str : A -> string) (um vm : dict string Z) (e : list A) (e' : list Z) : Prop :=
  exists u vs i js, e = u :: vs /\ e' = i :: js /\ dget (str u) um = Some i /\ renamed str vm vs js.

(** the number of vertices of class [c] that a mask selects *)
Fixpoint zcount (p : Z -> bool) (l : list Z) : Z :=
  match l with [] => 0 | x :: r => (if p x then 1 else 0) + zcount p r end.
Definition label (lbl : list Z) (i : Z) : Z := nth (Z.to_nat i) lbl 0.
Definition msel (mk : list bool) (i : Z) : bool := nth (Z.to_nat i) mk false.
Definition selected (lbl : list Z) (mk : list bool) (c : Z) : Z :=
  zcount (fun i => msel mk i && (label lbl i =? c)) (range (Z.of_nat (length lbl))).
Definition class_size (lbl : list Z) (c : Z) : Z :=
  zcount (fun i => label lbl i =? c) (range (Z.of_nat (length lbl))).
(** the labels are exactly lo, lo+1, ..., lo+k-1 *)
Definition contiguous (lbl : list Z) (lo k : Z) : Prop := forall c, In c lbl <-> lo <= c < lo + k.

(** the items of user [u] in an adjacency list, over all its lines *)
Definition items (u : Z) (al : list (list Z)) : list Z :=
  flat_map (fun line => match line with h :: t => if h =? u then t else [] | [] => [] end) al.

(** all ways to pick [m] elements of a list *)
Fixpoint subsets {A} (m : nat) (l : list A) : list (list A) :=
  match m, l with
  | O, _ => [[]]
  | S _, [] => []
  | S m', x :: r => map (cons x) (subsets m' r) ++ subsets m r
  end.

(** * Splits *)
(** a mask triple that is returned: training, validation (absent if no validation set is asked for), test *)
Definition vsel (vo : option (list bool)) (i : Z) : bool := match vo with Some v => msel v i | None => false end.
Definition vselected (lbl : list Z) (vo : option (list bool)) (c : Z) : Z :=
  match vo with Some v => selected lbl v c | None => 0 end.
(** For a class of [z] vertices [t z], [v z], [s z] vertices are asked for ([s = None]: all that remain).  The classes
    lo, ..., lo+k-1 are split accordingly, as far as their vertices suffice; no vertex is in two masks; a vertex of
    another class is in none. *)
Definition split_spec (n : Z) (lbl : list Z) (lo k : Z) (t v : Z -> Z) (s : option (Z -> Z))
  (tr : list bool) (vo : option (list bool)) (te : list bool) : Prop :=
  Z.of_nat (length tr) = n /\ Z.of_nat (length te) = n /\ (forall va, vo = Some va -> Z.of_nat (length va) = n) /\
  (forall i, 0 <= i < n -> msel tr i && vsel vo i = false /\ msel tr i && msel te i = false /\ vsel vo i && msel te i = false) /\
  (forall c, lo <= c < lo + k -> let z := class_size lbl c in
     selected lbl tr c = Z.min (t z) z /\
     vselected lbl vo c = Z.min (v z) (Z.max 0 (z - t z)) /\
     selected lbl te c = let rest := Z.max 0 (z - t z - v z) in match s with Some f => Z.min (f z) rest | None => rest end) /\
  (s = None -> forall i, 0 <= i < Z.of_nat (length lbl) -> lo <= label lbl i < lo + k ->
     msel tr i || vsel vo i || msel te i = true) /\
  (forall i, 0 <= i < n -> ~ (i < Z.of_nat (length lbl) /\ lo <= label lbl i < lo + k) ->
     msel tr i || vsel vo i || msel te i = false).
(** the number of distinct labels *)
Definition distinct (lbl : list Z) (k : Z) : Prop :=
  exists ds, NoDup ds /\ (forall c, In c ds <-> In c lbl) /\ k = Z.of_nat (length ds).
(** the lowest label is [lo] *)
Definition lowest (lbl : list Z) (lo : Z) : Prop := In lo lbl /\ forall c, In c lbl -> lo <= c.
