(** Model of dhg/visualization/feature: utils.py ("fu"), visualization.py ("fv").  Finite floats are real numbers with exact
    arithmetic.  The dimension reductions of scikit-learn (PCA, t-SNE) are arguments, plotting is not modelled. *)
From Coq Require Import Reals.
From Verif Require Import Num PyDict ModelBase ModelConv ModelUtils ModelMetrics ModelVis.
Set Implicit Arguments.
Local Open Scope R_scope.

(** fu:11-12 *)
Definition eps : R := 1 / 100000.
Definition min_norm : R := / 10 ^ 15.
(** [LA.norm(x, axis=-1)] of one row *)
Definition row_norm (x : list R) : R := sqrt (sumf x (fun a => a * a)).
(** [np.clip(LA.norm(x), a_min=min_norm, a_max=None)] *)
Definition clipped_norm (x : list R) : R := Rmax (row_norm x) min_norm.
(** fu:90-97 with clamp = 15 *)
Definition tanh15 (x : R) : R := tanh (Rmin (Rmax x (-15)) 15).
(** [np.arctanh], for arguments between -1 and 1 *)
Definition arctanh (x : R) : R := / 2 * ln ((1 + x) / (1 - x)).

(** fu:100-111, one row; c > 0 *)
Definition proj (c : R) (x : list R) : list R :=
  let nrm := clipped_norm x in
  let maxnorm := (1 - eps) / sqrt c in
  if Rlt_dec maxnorm nrm then map (fun a => a / nrm * maxnorm) x else x.
(** fu:114-123, one row *)
Definition expmap0 (c : R) (u : list R) : list R :=
  let k := sqrt c * clipped_norm u in map (fun a => tanh15 k * a / k) u.
(** fu:135-144, one row *)
Definition logmap0 (c : R) (p : list R) : list R :=
  let k := clipped_norm p in map (fun a => 1 / sqrt c * arctanh (sqrt c * k) / k * a) p.

(** fu:158-164: a row scaled to norm 1, with a leading 0, mapped to the ball and back.  A row of zeros gives 0/0 = nan,
    which PCA and t-SNE refuse with ValueError. *)
Definition tangent_row (x : list R) : res (list R) :=
  if Req_EM_T (row_norm x) 0 then Err ValueError
  else Ok (logmap0 2 (proj 2 (expmap0 2 (0 :: map (fun a => a / row_norm x) x)))).

Definition column (rows : list (list R)) (j : nat) : list R := map (fun r => nth j r 0) rows.
(** fu:173-177 with [MinMaxScaler(feature_range=(-2, 2))]: column j of the reduced rows.  None: the column is constant and
    0/0 = nan. *)
Definition scaled (rows : list (list R)) (j : nat) (x : R) : option R :=
  let col := column rows j in
  let norm1 a := (a - lmin col) / (lmax col - lmin col) in
  if Req_EM_T (lmax col) (lmin col) then None
  else let col' := map norm1 col in
       let scale := (2 - -2) / (lmax col' - lmin col') in
       Some (norm1 x * scale + (-2 - lmin col' * scale)).
Fixpoint all_some {A} (l : list (option A)) : option (list A) :=
  match l with
  | [] => Some []
  | x :: r => match x, all_some r with Some a, Some b => Some (a :: b) | _, _ => None end
  end.
(** fu:147-182 [project_to_poincare_ball]; None: a row of nan (the norm of a row with a nan is nan) *)
Definition project_to_poincare_ball (reduce : nat -> list (list R) -> list (list R)) (rows : list (list R)) (dim : nat)
    : res (list (option (list R))) :=
  if negb (Nat.eqb dim 2 || Nat.eqb dim 3) then Err AssertionError
  else rbind (map_res tangent_row rows) (fun tangent =>
       let low := reduce dim tangent in
       Ok (map (fun r => option_map (fun s => proj 2 (expmap0 2 s))
                           (all_some (map (fun j => scaled low j (nth j r 0)) (seq 0 dim)))) low)).

(** fu:85-86 [normalize], one entry of column [col]: nan for a constant column *)
Definition normalize (col : list R) (x : R) : fl R := into_box (map Fin col) (Fin x).
(** fv:15-34, fv:37-59: what [plot_2d_embedding] / [plot_3d_embedding] draw for the reduced rows [low] *)
Definition plotted (low : list (list R)) (dim : nat) : list (list (fl R)) :=
  map (fun r => map (fun j => normalize (column low j) (nth j r 0)) (seq 0 dim)) low.
