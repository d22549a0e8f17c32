(** Numbers.  The code stores Python floats / torch floats.  The structural
    models are generic in the number type [T] and in its operations, so that
    theorems that use no algebraic law hold for any arithmetic (including
    floating point); algebraic theorems assume [ring_theory] or take [T := R]. *)
From Coq Require Export List ZArith Lia Bool Arith.
From Coq Require Import Reals QArith Qcanon.
Export ListNotations.

Set Implicit Arguments.

Class Num (T : Type) := {
  nz : T;                  (* 0.0 *)
  n1 : T;                  (* 1.0 *)
  nadd : T -> T -> T;
  nmul : T -> T -> T;
  nsub : T -> T -> T;
  nopp : T -> T;
  ninv : T -> T;           (* x ** -1 followed by "inf -> 0" (e.g. graph.py:506-507) *)
  nisq : T -> T;           (* x ** -0.5 followed by "inf -> 0" (e.g. graph.py:518-519) *)
  nhalf : T -> T;          (* x / 2 *)
  nmax : T -> T -> T;      (* python max *)
  nexp : T -> T            (* exponential, used by torch.sparse.softmax *)
}.

(** Python exceptions that the modelled code can raise. *)
Inductive exn :=
| AssertionError | ValueError | IndexError | KeyError | TypeError
| NameError | AttributeError | RuntimeError | ZeroDivisionError | NotImplementedErr.

Inductive res (A : Type) :=
| Ok (a : A)
| Err (e : exn).
Arguments Ok {A} a.
Arguments Err {A} e.

Definition res_bind {A B} (r : res A) (f : A -> res B) : res B :=
  match r with Ok a => f a | Err e => Err e end.

Definition is_ok {A} (r : res A) : bool := match r with Ok _ => true | Err _ => false end.

(** Finite sums over a list. *)
Fixpoint sumf {A T} `{Num T} (l : list A) (f : A -> T) : T :=
  match l with
  | [] => nz
  | a :: r => nadd (f a) (sumf r f)
  end.

(** [range n] is Python's [list(range(n))] for [n : Z]. *)
Definition range (n : Z) : list Z := map Z.of_nat (seq 0 (Z.to_nat n)).

Open Scope Z_scope.

(** The two instances that are used: exact reals and exact rationals. *)
Definition Rinv0 (x : R) : R := if Req_EM_T x 0%R then 0%R else (/ x)%R.
Definition Risq (x : R) : R :=
  if Req_EM_T x 0%R then 0%R else (/ sqrt x)%R.

#[global] Instance Num_R : Num R := {|
  nz := 0%R; n1 := 1%R; nadd := Rplus; nmul := Rmult; nsub := Rminus; nopp := Ropp;
  ninv := Rinv0; nisq := Risq; nhalf := fun x => (x / 2)%R; nmax := Rmax; nexp := exp |}.

Definition Qcinv0 (x : Qc) : Qc := if Qc_eq_dec x (Q2Qc 0%Q) then Q2Qc 0%Q else Qcinv x.
(** [Qc] has no square roots: [nisq] is exact only on squares.  This instance is
    used for running examples and for properties in which [nisq] and [nexp] (for
    which a placeholder is given) play no role. *)
Definition Qcisq (x : Qc) : Qc :=
  if Qc_eq_dec x (Q2Qc 0%Q) then Q2Qc 0%Q
  else Qcinv (Q2Qc (Qmake (Z.sqrt (Qnum (this x))) (Pos.sqrt (Qden (this x))))).
Definition Qcmax (x y : Qc) : Qc :=
  if Qclt_le_dec x y then y else x.

#[global] Instance Num_Qc : Num Qc := {|
  nz := Q2Qc 0%Q; n1 := Q2Qc 1%Q; nadd := Qcplus; nmul := Qcmult; nsub := Qcminus; nopp := Qcopp;
  ninv := Qcinv0; nisq := Qcisq; nhalf := fun x => Qcdiv x (Q2Qc 2%Q); nmax := Qcmax; nexp := fun x => x |}.
