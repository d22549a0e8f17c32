(** Python dict: insertion-ordered association list with unique keys. *)
From Verif Require Import Num.
Set Implicit Arguments.

Class EqB (K : Type) := {
  eqb : K -> K -> bool;
  eqb_eq : forall a b, eqb a b = true <-> a = b
}.

Arguments eqb {K EqB} : simpl never.

#[global] Instance EqB_Z : EqB Z := {| eqb := Z.eqb; eqb_eq := Z.eqb_eq |}.
#[global] Instance EqB_nat : EqB nat := {| eqb := Nat.eqb; eqb_eq := Nat.eqb_eq |}.

Definition prod_eqb {A B} `{EqB A} `{EqB B} (x y : A * B) : bool :=
  eqb (fst x) (fst y) && eqb (snd x) (snd y).
Lemma prod_eqb_eq {A B} `{EqB A} `{EqB B} (x y : A * B) : prod_eqb x y = true <-> x = y.
Proof.
  destruct x as [a b], y as [c d]; unfold prod_eqb; cbn.
  rewrite andb_true_iff, !eqb_eq. split.
  - intros [H1 H2]; subst; reflexivity.
  - intros E; injection E; auto.
Qed.
#[global] Instance EqB_prod {A B} `{EqB A} `{EqB B} : EqB (A * B) :=
  {| eqb := prod_eqb; eqb_eq := prod_eqb_eq |}.

Fixpoint list_eqb {A} `{EqB A} (x y : list A) : bool :=
  match x, y with
  | [], [] => true
  | a :: x', b :: y' => eqb a b && list_eqb x' y'
  | _, _ => false
  end.
Lemma list_eqb_eq {A} `{EqB A} (x y : list A) : list_eqb x y = true <-> x = y.
Proof.
  revert y; induction x as [|a x IH]; intros [|b y]; cbn; split; intros E; try discriminate; auto.
  - apply andb_true_iff in E as [E1 E2]. apply eqb_eq in E1; apply IH in E2; subst; reflexivity.
  - injection E as -> ->. apply andb_true_iff; split; [apply eqb_eq | apply IH]; reflexivity.
Qed.
#[global] Instance EqB_list {A} `{EqB A} : EqB (list A) :=
  {| eqb := list_eqb; eqb_eq := list_eqb_eq |}.

Section Dict.
  Context {K V : Type} `{EqB K}.

  Definition dict := list (K * V).

  (** [d.get(k)] *)
  Fixpoint dget (k : K) (d : dict) : option V :=
    match d with
    | [] => None
    | (k', v) :: r => if eqb k k' then Some v else dget k r
    end.

  (** [k in d] *)
  Definition dhas (k : K) (d : dict) : bool :=
    match dget k d with Some _ => true | None => false end.

  (** [d[k] = v]: an existing key keeps its position, a new key goes to the end *)
  Fixpoint dset (k : K) (v : V) (d : dict) : dict :=
    match d with
    | [] => [(k, v)]
    | (k', v') :: r => if eqb k k' then (k', v) :: r else (k', v') :: dset k v r
    end.

  (** [del d[k]] / [d.pop(k, None)] *)
  Fixpoint ddel (k : K) (d : dict) : dict :=
    match d with
    | [] => []
    | (k', v') :: r => if eqb k k' then r else (k', v') :: ddel k r
    end.

  Definition dkeys (d : dict) : list K := map fst d.
  Definition dvals (d : dict) : list V := map snd d.

  (** a Python dict never holds a key twice *)
  Definition dict_ok (d : dict) : Prop := NoDup (dkeys d).
End Dict.
Arguments dict K V : clear implicits.
