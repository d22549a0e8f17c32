(** Plane geometry used by the statements about the drawing functions. *)
From Coq Require Import Reals List ZArith.
Import ListNotations.
Local Open Scope R_scope.

Definition dot (a b : R * R) : R := fst a * fst b + snd a * snd b.
Definition cross (a b : R * R) : R := fst a * snd b - snd a * fst b.
Definition vec (a b : R * R) : R * R := (fst b - fst a, snd b - snd a).
Definition norm (a : R * R) : R := sqrt (dot a a).

(** [theta] is the polar angle of (x, y) *)
Definition polar_angle (x y theta : R) : Prop :=
  0 <= theta < 2 * PI /\ x = norm (x, y) * cos theta /\ y = norm (x, y) * sin theta.

(** the line through [s] with direction [d] touches the circle around [c] with radius [r] in [s] *)
Definition touches (c : R * R) (r : R) (s d : R * R) : Prop := norm (vec c s) = r /\ dot d (vec c s) = 0.

(** the segment from [s] to [t] is the outer tangent, on the right-hand side of the way from [p1] to [p2] *)
Definition outer_tangent (p1 : R * R) (r1 : R) (p2 : R * R) (r2 : R) (s t : R * R) : Prop :=
  touches p1 r1 s (vec s t) /\ touches p2 r2 t (vec s t) /\
  cross (vec p1 p2) (vec p1 s) <= 0 /\ cross (vec p1 p2) (vec p2 t) <= 0 /\
  exists u, vec p1 s = (r1 * fst u, r1 * snd u) /\ vec p2 t = (r2 * fst u, r2 * snd u) /\ dot u u = 1.

(** the point of the circle around [c] with radius [r] at the angle [deg], in degrees *)
Definition on_circle (c : R * R) (r deg : R) : R * R := (fst c + r * cos (deg * PI / 180), snd c + r * sin (deg * PI / 180)).

(** corner i and the next and previous one of a closed polygon *)
Definition cyc {A} (d : A) (l : list A) (i : nat) : A := nth (i mod length l) l d.

(** A closed outline made of lines and arcs: line i is the outer tangent from circle i to circle i+1, and arc i runs along
    circle i from the end of line i-1 to the start of line i. *)
Definition closed_outline (centers : list (R * R)) (radii : list R) (lines : list ((R * R) * (R * R)))
    (arcs : list ((R * R) * R * R * R)) : Prop :=
  let n := length centers in
  length radii = n /\ length lines = n /\ length arcs = n /\
  forall i, (i < n)%nat ->
    let '(s, t) := cyc ((0, 0), (0, 0)) lines i in
    let '(c, deg1, deg2, r) := cyc ((0, 0), 0, 0, 0) arcs i in
    outer_tangent (cyc (0, 0) centers i) (cyc 0 radii i) (cyc (0, 0) centers (i + 1)) (cyc 0 radii (i + 1)) s t /\
    c = cyc (0, 0) centers i /\ r = cyc 0 radii i /\
    on_circle c r deg1 = snd (cyc ((0, 0), (0, 0)) lines (i + n - 1)) /\ on_circle c r deg2 = s.
