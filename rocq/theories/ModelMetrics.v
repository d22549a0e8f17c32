(** Model of dhg/metrics: retrieval.py ("rt"), recommender.py ("rc"), classification.py ("cl"), base.py ("b").
    A finite float is a number of the type [T] and arithmetic is exact; infinities and nan are kept apart ([fl]).
    [torch.argsort(descending=True)] is an argument: which of two equal scores comes first is not fixed by torch. *)
From Coq Require Import String Reals QArith Qcanon Qround.
From Verif Require Import Num PyDict ModelBase ModelConv ModelUtils.
Set Implicit Arguments.
Local Open Scope list_scope.
Local Open Scope Z_scope.

(** comparisons, integers, rounding and logarithm of the number type *)
Class Ext (T : Type) := {
  nleb : T -> T -> bool;
  nofZ : Z -> T;
  nfloor : T -> Z;
  nlog2 : T -> T
}.
#[global] Instance Ext_R : Ext R := {|
  nleb := fun a b => if Rle_dec a b then true else false; nofZ := IZR; nfloor := Int_part;
  nlog2 := fun x => (ln x / ln 2)%R |}.
(** for running examples; [nlog2] is a placeholder *)
#[global] Instance Ext_Qc : Ext Qc := {|
  nleb := fun a b => Qle_bool (this a) (this b); nofZ := fun z => Q2Qc (inject_Z z); nfloor := fun x => Qfloor (this x);
  nlog2 := fun x => x |}.

(** a float: finite, infinite, or not a number *)
Inductive fl (T : Type) := Fin (x : T) | PInf | NInf | NaN.
Arguments Fin {T} x. Arguments PInf {T}. Arguments NInf {T}. Arguments NaN {T}.

(** what a metric returns: a number, a list of numbers (one per sample), one curve, one curve per sample,
    or a confusion matrix *)
Inductive mout (T : Type) :=
| MScal (x : fl T)
| MList (l : list (fl T))
| MCurve (p r : list (fl T))
| MCurves (p r : list (list (fl T)))
| MMat (m : list (list (fl T))).
Arguments MScal {T} x. Arguments MList {T} l. Arguments MCurve {T} p r. Arguments MCurves {T} p r. Arguments MMat {T} m.

(** a tensor of dimension 1 or 2 ([V2 c rows]: [c] columns); of any other tensor only the shape is kept *)
Inductive tensor (T : Type) :=
| V1 (l : list T)
| V2 (c : nat) (rows : list (list T))
| VN (shape : list nat).
Arguments V1 {T} l. Arguments V2 {T} c rows. Arguments VN {T} shape.

Section Metrics.
  (** numbers and, where only their order matters, scores *)
  Context {T P : Type} {NT : Num T} {ET : Ext T}.
  Definition neqb (a b : T) : bool := nleb a b && nleb b a.
  Definition nltb (a b : T) : bool := negb (nleb b a).

  (** float division: x / 0 is inf, -inf or nan *)
  Definition fdiv (a b : T) : fl T :=
    if neqb b nz then (if nltb nz a then PInf else if nltb a nz then NInf else NaN) else Fin (nmul a (ninv b)).
  Definition fadd (x y : fl T) : fl T :=
    match x, y with
    | NaN, _ | _, NaN | PInf, NInf | NInf, PInf => NaN
    | PInf, _ | _, PInf => PInf
    | NInf, _ | _, NInf => NInf
    | Fin a, Fin b => Fin (nadd a b)
    end.
  (** [x.mean()] / [np.mean(x)]; nan for no values *)
  Definition fmean (l : list (fl T)) : fl T :=
    match fold_right fadd (Fin nz) l with
    | Fin s => fdiv s (nofZ (Z.of_nat (length l)))
    | x => x
    end.
  (** [x[isinf(x)] = 0; x[isnan(x)] = 0] (rt:108-109, rt:256-257, rc:116-117, rc:173-174) *)
  Definition zero_bad (x : fl T) : fl T := match x with Fin a => Fin a | _ => Fin nz end.

  Definition shape {A} (t : tensor A) : list nat :=
    match t with V1 l => [length l] | V2 c rows => [length rows; c] | VN s => s end.
  (** the rows after [unsqueeze(0)] of a one-dimensional tensor *)
  Definition rows_of {A} (t : tensor A) : list (list A) := match t with V1 l => [l] | V2 _ rows => rows | VN _ => [] end.
  Definition cols_of {A} (t : tensor A) : Z := match t with V1 l => Z.of_nat (length l) | V2 c _ => Z.of_nat c | VN _ => 0 end.
  Definition dim12 {A} (t : tensor A) : bool := match t with VN _ => false | _ => true end.

  (** [int(np.ceil(x))] *)
  Definition nceil (x : T) : Z := - nfloor (nopp x).
  (** [int(x)]: rounds towards zero *)
  Definition ntrunc (x : T) : Z := if nleb nz x then nfloor x else nceil x.
  (** rt:37-41 = rt:146-150 = rt:287-291 = rt:367-371 *)
  Definition top_k (max_k : Z) (k : option Z) (ratio : option T) : Z :=
    match ratio with
    | Some r => nceil (nmul (nofZ max_k) r)
    | None => match k with Some k => Z.min k max_k | None => max_k end
    end.
  Definition ratio_ok (ratio : option T) : bool :=
    match ratio with None => true | Some r => nltb nz r && nleb r n1 end.

  (** rt:17-42.  The result is the list of pairs of rows, and k. *)
  Definition format_inputs (yt : tensor T) (yp : tensor P) (k : option Z) (ratio : option T) : res (list (list T * list P) * Z) :=
    if negb (eqb (shape yt) (shape yp)) then Err AssertionError
    else if negb (dim12 yt) then Err AssertionError
    else if negb (ratio_ok ratio) then Err AssertionError
    else Ok (combine (rows_of yt) (rows_of yp), top_k (cols_of yt) k ratio).
  (** rc:24-50: no check of the ratio, and [np] is not imported *)
  Definition format_inputs_rc (yt : tensor T) (yp : tensor P) (k : option Z) (ratio : option T) : res (list (list T * list P) * Z) :=
    if negb (eqb (shape yt) (shape yp)) then Err AssertionError
    else if negb (dim12 yt) then Err AssertionError
    else match ratio with
         | Some _ => Err NameError
         | None => Ok (combine (rows_of yt) (rows_of yp), top_k (cols_of yt) k None)
         end.

  (** [assert y_true.max() == 1]; the maximum of an empty tensor raises RuntimeError *)
  Definition check_binary (l : list T) : res unit :=
    match l with
    | [] => Err RuntimeError
    | x :: r => if neqb (fold_left nmax r x) n1 then Ok tt else Err AssertionError
    end.
  (** the slice [l[:k]] *)
  Definition pref {A} (k : Z) (l : list A) : list A :=
    if 0 <=? k then firstn (Z.to_nat k) l else firstn (Z.to_nat (Z.of_nat (length l) + k)) l.
  Definition nsum (l : list T) : T := sumf l (fun x => x).
  (** insertion sort, descending: the values of [torch.sort(descending=True)] *)
  Fixpoint insert_desc (x : T) (l : list T) : list T :=
    match l with [] => [x] | y :: r => if nleb y x then x :: l else y :: insert_desc x r end.
  Fixpoint sort_desc (l : list T) : list T := match l with [] => [] | x :: r => insert_desc x (sort_desc r) end.

  Section Ranked.
    Variable argsort : list P -> list nat.
    (** the labels in the order of the scores: [y_true.gather(1, argsort(y_pred))] *)
    Definition ranked (r : list T * list P) : list T := map (fun i => nth i (fst r) nz) (argsort (snd r)).
    Definition pack (ret_batch : bool) (l : list (fl T)) : mout T := if ret_batch then MList l else MScal (fmean l).

    Definition precision_of (f : res (list (list T * list P) * Z)) (ret_batch : bool) : res (mout T) :=
      rbind f (fun '(rows, k) =>
      rbind (check_binary (concat (map fst rows))) (fun _ =>
      Ok (pack ret_batch (map (fun r => fdiv (nsum (pref k (ranked r))) (nofZ k)) rows)))).
    (** rt:45-76 *)
    Definition precision (yt : tensor T) (yp : tensor P) (k : option Z) (ratio : option T) (ret_batch : bool) : res (mout T) :=
      precision_of (format_inputs yt yp k ratio) ret_batch.
    (** rc:53-84 *)
    Definition precision_rc (yt : tensor T) (yp : tensor P) (k : option Z) (ratio : option T) (ret_batch : bool) : res (mout T) :=
      precision_of (format_inputs_rc yt yp k ratio) ret_batch.

    Definition recall_of (f : res (list (list T * list P) * Z)) (ret_batch : bool) : res (mout T) :=
      rbind f (fun '(rows, k) =>
      rbind (check_binary (concat (map fst rows))) (fun _ =>
      Ok (pack ret_batch (map (fun r => zero_bad (fdiv (nsum (pref k (ranked r))) (nsum (fst r)))) rows)))).
    (** rt:79-113 *)
    Definition recall (yt : tensor T) (yp : tensor P) (k : option Z) (ratio : option T) (ret_batch : bool) : res (mout T) :=
      recall_of (format_inputs yt yp k ratio) ret_batch.
    (** rc:87-121 *)
    Definition recall_rc (yt : tensor T) (yp : tensor P) (k : option Z) (ratio : option T) (ret_batch : bool) : res (mout T) :=
      recall_of (format_inputs_rc yt yp k ratio) ret_batch.

    (** rt:209-218, rc:124-135: one row *)
    Definition dcg (l : list T) : T :=
      sumf (combine l (range (Z.of_nat (length l)))) (fun '(x, i) => nmul x (ninv (nlog2 (nadd (nofZ i) (nofZ 2))))).
    Definition ndcg_of (f : res (list (list T * list P) * Z)) (ret_batch : bool) : res (mout T) :=
      rbind f (fun '(rows, k) =>
      Ok (pack ret_batch (map (fun r => zero_bad (fdiv (dcg (pref k (ranked r))) (dcg (pref k (sort_desc (fst r)))))) rows))).
    (** rt:221-261 *)
    Definition ndcg (yt : tensor T) (yp : tensor P) (k : option Z) (ratio : option T) (ret_batch : bool) : res (mout T) :=
      ndcg_of (format_inputs yt yp k ratio) ret_batch.
    (** rc:138-178 *)
    Definition ndcg_rc (yt : tensor T) (yp : tensor P) (k : option Z) (ratio : option T) (ret_batch : bool) : res (mout T) :=
      ndcg_of (format_inputs_rc yt yp k ratio) ret_batch.

    (** rt:152-153 = rt:373-374: the 1-based positions with a positive label *)
    Fixpoint positives (i : Z) (l : list T) : list Z :=
      match l with [] => [] | x :: r => if nltb nz x then i :: positives (i + 1) r else positives (i + 1) r end.
    (** rt:154-155: j-th position: j / position *)
    Fixpoint prec_at (j : Z) (pos : list Z) : list T :=
      match pos with [] => [] | p :: r => nmul (nofZ j) (ninv (nofZ p)) :: prec_at (j + 1) r end.
    (** [torch.cummax] *)
    Fixpoint cummax_from (m : T) (l : list T) : list T :=
      match l with [] => [] | x :: r => let m' := nmax m x in m' :: cummax_from m' r end.
    Definition cummax (l : list T) : list T := match l with [] => [] | x :: r => x :: cummax_from x r end.

    (** the two names accepted for the argument [method]; any other string fails an assertion *)
    Definition method_ok (m : string) : bool := String.eqb m "legacy" || String.eqb m "pascal_voc".
    Definition is1 {A} (t : tensor A) : option (list A) := match t with V1 l => Some l | _ => None end.
    (** rt:116-159.  [k] is computed and never used. *)
    Definition ap (yt : tensor T) (yp : tensor P) (k : option Z) (ratio : option T) (method : string) : res (fl T) :=
      if negb (ratio_ok ratio) then Err AssertionError
      else if negb (method_ok method) then Err AssertionError
      else if negb (eqb (shape yt) (shape yp)) then Err AssertionError
      else match is1 yt, is1 yp with
           | Some y, Some p =>
               let k := top_k (Z.of_nat (length y)) k ratio in
               let r := prec_at 1 (positives 1 (ranked (y, p))) in
               let r := if String.eqb method "pascal_voc" then cummax (rev r) else r in
               Ok (fmean (map Fin r))
           | _, _ => Err AssertionError
           end.
    (** rt:162-206 *)
    Definition map_score (yt : tensor T) (yp : tensor P) (k : option Z) (ratio : option T) (method : string) (ret_batch : bool) : res (mout T) :=
      if negb (method_ok method) then Err AssertionError
      else rbind (format_inputs yt yp k ratio) (fun '(rows, k) =>
           rbind (map_res (fun r => ap (V1 (fst r)) (V1 (snd r)) (Some k) None method) rows) (fun l =>
           Ok (pack ret_batch l))).

    (** rt:264-296: the mean of 1/rank over all relevant items of the first k.  The ratio is not checked. *)
    Fixpoint nonzeros (i : Z) (l : list T) : list Z :=
      match l with [] => [] | x :: r => if neqb x nz then nonzeros (i + 1) r else i :: nonzeros (i + 1) r end.
    Definition rr (yt : tensor T) (yp : tensor P) (k : option Z) (ratio : option T) : res (fl T) :=
      if negb (eqb (shape yt) (shape yp)) then Err AssertionError
      else match is1 yt, is1 yp with
           | Some y, Some p =>
               let k := top_k (Z.of_nat (length y)) k ratio in
               let ix := nonzeros 0 (pref k (ranked (y, p))) in
               Ok (fmean (map (fun i => Fin (ninv (nofZ (i + 1)))) ix))
           | _, _ => Err AssertionError
           end.
    (** rt:299-330 *)
    Definition mrr (yt : tensor T) (yp : tensor P) (k : option Z) (ratio : option T) (ret_batch : bool) : res (mout T) :=
      rbind (format_inputs yt yp k ratio) (fun '(rows, k) =>
      rbind (map_res (fun r => rr (V1 (fst r)) (V1 (snd r)) (Some k) None) rows) (fun l => Ok (pack ret_batch l))).

    (** [np.linspace(0, 1, n)], exact; a negative number of points raises ValueError *)
    Definition linspace (n : Z) : res (list T) :=
      if n <? 0 then Err ValueError
      else Ok (map (fun i => nmul (nofZ i) (ninv (nofZ (n - 1)))) (range n)).
    (** numpy indexing with one integer: negative indices count from the end *)
    Definition np_index {A} (l : list A) (i : Z) : res A :=
      let j := if i <? 0 then i + Z.of_nat (length l) else i in
      if j <? 0 then Err IndexError
      else match nth_error l (Z.to_nat j) with Some x => Ok x | None => Err IndexError end.
    (** rt:333-385.  [k] is computed and never used; the ratio is not checked. *)
    Definition pr_curve1 (yt : tensor T) (yp : tensor P) (k : option Z) (ratio : option T) (method : string) (n_points : Z)
      : res (list (fl T) * list (fl T)) :=
      if negb (method_ok method) then Err AssertionError
      else if negb (eqb (shape yt) (shape yp)) then Err AssertionError
      else match is1 yt, is1 yp with
           | Some y, Some p =>
               let k := top_k (Z.of_nat (length y)) k ratio in
               let r := prec_at 1 (positives 1 (ranked (y, p))) in
               let r := if String.eqb method "pascal_voc" then rev (cummax (rev r)) else r in
               rbind (linspace n_points) (fun rec =>
               rbind (map_res (fun c => np_index r (ntrunc (nmul c (nsub (nsum y) n1)))) rec) (fun prec =>
               Ok (map Fin prec, map Fin rec)))
           | _, _ => Err AssertionError
           end.
    (** [np.mean(l, axis=0)] of a list of rows of equal length.  For no rows numpy gives nan, the model []. *)
    Definition col_mean (l : list (list (fl T))) : list (fl T) :=
      match l with
      | [] => []
      | r :: _ => map (fun j => fmean (map (fun row => nth j row NaN) l)) (seq 0 (length r))
      end.
    (** rt:388-448 *)
    Definition pr_curve (yt : tensor T) (yp : tensor P) (k : option Z) (ratio : option T) (method : string) (n_points : Z) (ret_batch : bool)
      : res (mout T) :=
      if negb (method_ok method) then Err AssertionError
      else rbind (format_inputs yt yp k ratio) (fun '(rows, k) =>
           rbind (map_res (fun r => pr_curve1 (V1 (fst r)) (V1 (snd r)) (Some k) None method n_points) rows) (fun l =>
           Ok (if ret_batch then MCurves (map fst l) (map snd l)
               else MCurve (col_mean (map fst l)) (col_mean (map snd l))))).
  End Ranked.

  (** * Classification *)
  Section Classes.
    Variable argmax : list T -> Z.
    (** predictions: class scores per sample (2-D) or labels (1-D) *)
    Inductive preds := PLabels (l : list Z) | PScores (rows : list (list T)).
    (** cl:25-39 (two-dimensional or higher labels are not modelled) *)
    Definition format_classes (yt : list Z) (yp : preds) : res (list Z * list Z) :=
      let p := match yp with PLabels l => l | PScores rows => map argmax rows end in
      if Nat.eqb (length yt) (length p) then Ok (yt, p) else Err AssertionError.
    (** cl:42-68 *)
    Definition accuracy (yt : list Z) (yp : preds) : res (fl T) :=
      rbind (format_classes yt yp) (fun '(y, p) =>
      Ok (fmean (map (fun '(a, b) => Fin (if a =? b then n1 else nz)) (combine y p)))).
    (** sorted list of the labels that occur in either vector ([sklearn.utils.multiclass.unique_labels]) *)
    Fixpoint insert_z (x : Z) (l : list Z) : list Z :=
      match l with [] => [x] | y :: r => if x =? y then l else if x <? y then x :: l else y :: insert_z x r end.
    Definition labels_of (y p : list Z) : list Z := fold_right insert_z [] (y ++ p).
    (** cl:100-124; the counting is sklearn's: row = true label, column = predicted label *)
    Definition confusion_matrix (yt : list Z) (yp : preds) : res (list (list Z)) :=
      rbind (format_classes yt yp) (fun '(y, p) =>
      let ls := labels_of y p in
      Ok (map (fun a => map (fun b => Z.of_nat (length (filter (fun q => (fst q =? a) && (snd q =? b)) (combine y p)))) ls) ls)).
  End Classes.
End Metrics.
