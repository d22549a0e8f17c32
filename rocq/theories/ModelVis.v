(** Model of dhg/visualization/structure: geometry.py ("ge"), simulator.py ("si"), layout.py ("la"), utils.py ("ut"),
    defaults.py ("de"), draw.py ("dr").  Finite floats are real numbers and arithmetic on them is exact; infinities and
    nan are kept apart ([fl]).  Random numbers and the convex hull of scipy are arguments.  Matplotlib is not modelled: what
    is drawn is returned as data. *)
From Coq Require Import String Reals.
From Verif Require Import Num PyDict ModelBase ModelConv ModelUtils ModelMetrics.
Set Implicit Arguments.
Local Open Scope list_scope.
Local Open Scope Z_scope.
Local Open Scope R_scope.

Notation pt := (R * R)%type.

(** ** geometry.py *)
(** ge:6-19 *)
Definition radian_from_atan (x y : R) : R :=
  if Req_EM_T x 0 then (if Rlt_dec 0 y then PI / 2 else 3 * PI / 2)
  else if Req_EM_T y 0 then (if Rlt_dec 0 x then 0 else PI)
  else let r := atan (y / x) in
       if Rlt_dec 0 x then (if Rlt_dec 0 y then r else if Rlt_dec y 0 then r + 2 * PI else r + PI) else r + PI.
(** ge:22-23 *)
Definition vlen (v : pt) : R := sqrt (fst v ^ 2 + snd v ^ 2).
(** ge:26-29.  [math.acos] refuses an argument above 1.  For d = 0 numpy divides to inf, which acos refuses, or to nan,
    with which the code goes on; here both are refused. *)
Definition common_tangent_radian (r1 r2 d : R) : res R :=
  if Req_EM_T d 0 then Err ValueError
  else if Rlt_dec 1 (Rabs (r2 - r1) / d) then Err ValueError
  else let alpha := acos (Rabs (r2 - r1) / d) in Ok (if Rlt_dec r2 r1 then alpha else PI - alpha).
(** ge:32-35 *)
Definition polar_position (r theta : R) (start : pt) : pt := (r * cos theta + fst start, r * sin theta + snd start).
(** ge:37-38 *)
Definition rad_2_deg (rad : R) : R := rad * 180 / PI.

Definition psub (a b : pt) : pt := (fst a - fst b, snd a - snd b).
Definition padd (a b : pt) : pt := (fst a + fst b, snd a + snd b).
Definition pscale (k : R) (a : pt) : pt := (k * fst a, k * snd a).
Definition dist (a b : pt) : R := vlen (psub a b).

(** ** extended floats *)
Definition fmul (x y : fl R) : fl R :=
  let sign z := match z with
                | Fin a => if Rlt_dec 0 a then Some true else if Rlt_dec a 0 then Some false else None
                | PInf => Some true | NInf => Some false | NaN => None end in
  match x, y with
  | NaN, _ | _, NaN => NaN
  | Fin a, Fin b => Fin (a * b)
  | _, _ => match sign x, sign y with
            | Some a, Some b => if Bool.eqb a b then PInf else NInf
            | _, _ => NaN (* 0 * inf *)
            end
  end.
Definition fsum (l : list (fl R)) : fl R := fold_right fadd (Fin 0) l.
Definition is_nan (x : fl R) : bool := match x with NaN => true | _ => false end.
(** [np.clip(x, lo, hi)] *)
Definition fclip (lo hi : R) (x : fl R) : fl R :=
  match x with Fin a => Fin (Rmin (Rmax a lo) hi) | PInf => Fin hi | NInf => Fin lo | NaN => NaN end.
Definition fpt : Type := fl R * fl R.
Definition fpadd (a b : fpt) : fpt := (fadd (fst a) (fst b), fadd (snd a) (snd b)).
Definition fpmul (k : fl R) (a : fpt) : fpt := (fmul k (fst a), fmul k (snd a)).
Definition fpsum (l : list fpt) : fpt := (fsum (map fst l), fsum (map snd l)).
Definition lift_pt (p : pt) : fpt := (Fin (fst p), Fin (snd p)).
Definition fp_nan (p : fpt) : bool := is_nan (fst p) || is_nan (snd p).
Definition fin_of (x : fl R) : option R := match x with Fin a => Some a | _ => None end.
Definition fin_pt (p : fpt) : option pt :=
  match fin_of (fst p), fin_of (snd p) with Some a, Some b => Some (a, b) | _, _ => None end.

(** ** utils.py *)
(** the row that an index of a Python sequence of length [n] addresses *)
Definition row_of (n v : Z) : Z := (if v <? 0 then v + n else v)%Z.
Definition vis_index_ok (n v : Z) : bool := ((- n <=? v) && (v <? n))%Z.
(** ut:113-119: entry (v, e) of the matrix; a vertex outside -n .. n-1 raises IndexError *)
Definition incidence_matrix (n : Z) (e_list : list (list Z)) : res (Z -> nat -> R) :=
  if forallb (forallb (vis_index_ok n)) e_list
  then Ok (fun v e => if existsb (fun w => Z.eqb (row_of n w) v) (nth e e_list []) then 1 else 0)
  else Err IndexError.
(** ut:14-21 [safe_div], one row: [j] is the pair of normal draws used where the divisor is 0 *)
Definition safe_div (a : pt) (b : R) (j : pt) : pt :=
  if Req_EM_T b 0 then pscale (1 / 1000000) j else pscale (1 / b) a.
(** ut:24-25; [rnd] are the uniform draws from [0, 1) *)
Definition init_pos (rnd : Z -> pt) (center : pt) (scale : R) (v : Z) : pt :=
  padd (pscale scale (2 * fst (rnd v) - 1, 2 * snd (rnd v) - 1)) center.

(** ** simulator.py *)
(** The draws of [safe_div] in one step: vertex-edge (attraction), vertex-vertex and edge-edge (repulsion) and
    centre-vertex (gravity). *)
Record draws := mkDraws {
  j_ve : Z -> nat -> pt; j_vv : Z -> Z -> pt; j_ee : nat -> nat -> pt; j_cv : nat -> Z -> pt }.

(** si:16-32.  The strengths of [Simulator.__init__]: None leaves the force out.  [node_repulsion] and [center_gravity]
    hold one number per centre (si:27-30 repeats a single one); [s_cut] is [nums[0]]. *)
Record simulator := mkSim {
  s_attr : option R; s_rep : option (list R); s_erep : option R; s_grav : option (list R);
  s_centers : list pt; s_cut : Z }.

Section Step.
  Variables (sim : simulator) (n : Z) (m : nat) (H : Z -> nat -> R).
  Definition vs : list Z := range n.
  Definition es : list nat := seq 0 m.

  (** si:55: the centre of each edge; an edge without vertices gives 0/0 = nan, which [euclidean_distances] refuses *)
  Definition e_center (p : Z -> pt) (e : nat) : pt :=
    let d := sumf vs (fun v => H v e) in
    (sumf vs (fun v => H v e * fst (p v)) / d, sumf vs (fun v => H v e * snd (p v)) / d).
  Definition e_empty (e : nat) : bool := if Req_EM_T (sumf vs (fun v => H v e)) 0 then true else false.

  (** si:99-112 *)
  Definition node_attraction (j : draws) (p : Z -> pt) (ec : nat -> pt) (v : Z) : pt :=
    let part (e : nat) : pt :=
      let d := dist (p v) (ec e) * H v e in
      let x := if Rlt_dec 0 d then d - 1 / 10 else d in
      pscale x (safe_div (psub (ec e) (p v)) (vlen (psub (ec e) (p v))) (j_ve j v e)) in
    (sumf es (fun e => fst (part e)), sumf es (fun e => snd (part e))).
  (** si:114-131 and si:133-150 before the product with H: [pos] are the positions of the points [ids].
      Between distinct points at the same place the scale 1 / 0 is inf. *)
  Definition repulsion {I : Type} (eqI : I -> I -> bool) (ids : list I) (jj : I -> I -> pt) (pos : I -> pt) (i : I) : fpt :=
    fpsum (map (fun k => if eqI i k then (Fin 0, Fin 0)
                         else fpmul (fdiv 1 (dist (pos i) (pos k) ^ 2))
                                    (lift_pt (safe_div (psub (pos i) (pos k)) (vlen (psub (pos i) (pos k))) (jj i k)))) ids).
  Definition node_repulsion (j : draws) (p : Z -> pt) : Z -> fpt := repulsion Z.eqb vs (j_vv j) p.
  (** si:133-150 with [np.matmul(H, f)] *)
  Definition edge_repulsion (j : draws) (ec : nat -> pt) (v : Z) : fpt :=
    fpsum (map (fun e => fpmul (Fin (H v e)) (repulsion Nat.eqb es (j_ee j) ec e)) es).
  (** si:152-164; [c] is the number of the centre *)
  Definition center_gravity (j : draws) (p : Z -> pt) (c : nat) (ctr : pt) (v : Z) : pt :=
    pscale (dist (p v) ctr) (safe_div (psub ctr (p v)) (vlen (psub ctr (p v))) (j_cv j c v)).

  (** [force += f] after [assert np.isnan(f).sum() == 0] (si:64-65, 77-78, 81-82, 90-91) *)
  Definition add_force (f : Z -> fpt) (force : Z -> fpt) : res (Z -> fpt) :=
    if existsb (fun v => fp_nan (f v)) vs then Err AssertionError else Ok (fun v => fpadd (force v) (f v)).
  Definition when {A} (o : option A) (f : A -> (Z -> fpt) -> res (Z -> fpt)) (force : Z -> fpt) : res (Z -> fpt) :=
    match o with None => Ok force | Some a => f a force end.

  (** si:68-74: the factor of vertex [v] *)
  Definition rep_factor (l : list R) (v : Z) : R :=
    if Nat.eqb (length (s_centers sim)) 1 then nth 0 l 0 else nth (if (v <? s_cut sim)%Z then 0%nat else 1%nat) l 0.
  (** si:81-89: [masks] holds two masks, so that no more than two centres count *)
  Definition gravity_parts (l : list R) : list (nat * pt * R * (Z -> bool)) :=
    combine (combine (combine (seq 0 (length (s_centers sim))) (s_centers sim)) l)
            [fun v => (v <? s_cut sim)%Z; fun v => negb (v <? s_cut sim)%Z].

  Definition gravity_force (j : draws) (p : Z -> pt) (x : nat * pt * R * (Z -> bool)) (v : Z) : fpt :=
    let '(c, ctr, g, mask) := x in
    fpmul (Fin (if mask v then g else 0)) (lift_pt (center_gravity j p c ctr v)).

  (** si:50-97: the new positions, and whether to stop.  Positions that are not finite are refused by
      [euclidean_distances] (si:55), as are the centres of no edges (si:59). *)
  Definition step (j : draws) (damping : R) (pos : Z -> fpt) : res ((Z -> fpt) * bool) :=
    if negb (forallb (fun v => match fin_pt (pos v) with Some _ => true | None => false end) vs) then Err ValueError
    else if existsb e_empty es || Nat.eqb m 0 then Err ValueError
    else
      let p v := match fin_pt (pos v) with Some x => x | None => (0, 0) end in
      let ec := e_center p in
      rbind (when (s_attr sim) (fun (k : R) => add_force (fun v => fpmul (Fin k) (lift_pt (node_attraction j p ec v))))
                  (fun _ => (Fin 0, Fin 0))) (fun f1 =>
      rbind (when (s_rep sim) (fun (l : list R) => add_force (fun v => fpmul (Fin (rep_factor l v)) (node_repulsion j p v))) f1) (fun f2 =>
      rbind (when (s_erep sim) (fun (k : R) => add_force (fun v => fpmul (Fin k) (edge_repulsion j ec v))) f2) (fun f3 =>
      rbind (when (s_grav sim) (fun (l : list R) (force : Z -> fpt) =>
               fold_left (fun acc x => rbind acc (add_force (gravity_force j p x))) (gravity_parts l) (Ok force)) f3) (fun f4 =>
      let vel v := (fclip (-1 / 10) (1 / 10) (fmul (Fin damping) (fst (f4 v))), fclip (-1 / 10) (1 / 10) (fmul (Fin damping) (snd (f4 v)))) in
      let pos' v := fpadd (pos v) (fpmul (Fin 2) (vel v)) in
      (* si:166-170: the norm is nan if a velocity is *)
      let stop := if existsb (fun v => fp_nan (vel v)) vs then false
                  else match map (fun v => fin_pt (vel v)) vs with
                       | l => if Rlt_dec (sqrt (sumf l (fun o => match o with Some q => fst q ^ 2 + snd q ^ 2 | None => 0 end))) (1 / 1000)
                              then true else false
                       end in
      Ok (pos', stop))))).

  (** si:34-48; [k] iterations remain *)
  Fixpoint iterate (k : nat) (it : nat) (js : nat -> draws) (damping : R) (pos : Z -> fpt) : res (Z -> fpt) :=
    match k with
    | O => Ok pos
    | S k' => rbind (step (js it) damping pos) (fun '(pos', stop) =>
              if stop then Ok pos' else iterate k' (S it) js (damping * (999 / 1000)) pos')
    end.
  Definition simulate (js : nat -> draws) (init : Z -> pt) : res (Z -> fpt) := iterate 400 0 js 1 (fun v => lift_pt (init v)).
End Step.

(** ** layout.py *)
(** la:30-31 = la:62: [(x - x.min(0)) / (x.max(0) - x.min(0)) * 0.8 + 0.1] for one column.  The minimum of a column with a
    nan is nan, and so is then every entry. *)
Definition fins (l : list (fl R)) : option (list R) :=
  fold_right (fun x acc => match fin_of x, acc with Some a, Some r => Some (a :: r) | _, _ => None end) (Some []) l.
Definition lmin (l : list R) : R := match l with [] => 0 | x :: r => fold_left Rmin r x end.
Definition lmax (l : list R) : R := match l with [] => 0 | x :: r => fold_left Rmax r x end.
Definition into_box (col : list (fl R)) (x : fl R) : fl R :=
  match fins col, x with
  | Some l, Fin a => fadd (fmul (fdiv (a - lmin l) (lmax l - lmin l)) (Fin (8 / 10))) (Fin (1 / 10))
  | _, _ => NaN
  end.
Definition box (n : Z) (pos : Z -> fpt) (v : Z) : fpt :=
  (into_box (map (fun w => fst (pos w)) (range n)) (fst (pos v)), into_box (map (fun w => snd (pos w)) (range n)) (snd (pos v))).

(** la:9-32 *)
Definition force_layout (n : Z) (e_list : list (list Z)) (push_v : R) (push_e : option R) (pull_e pull_center : R)
    (rnd : Z -> pt) (js : nat -> draws) : res (Z -> fpt) :=
  let init := init_pos rnd (0, 0) 5 in
  if negb (forallb (fun v => if Rle_dec (fst (init v)) 5 then if Rle_dec (snd (init v)) 5 then
                             if Rle_dec (-5) (fst (init v)) then if Rle_dec (-5) (snd (init v)) then true
                             else false else false else false else false) (range n)) then Err AssertionError
  else
    let sim := mkSim (Some pull_e) (Some [push_v]) push_e (Some [pull_center]) [(0, 0)] n in
    rbind (incidence_matrix n e_list) (fun H =>
    rbind (simulate sim n (length e_list) H js init) (fun pos => Ok (box n pos))).

(** la:35-63; rows 0 .. num_u-1 of the result are the vertices of U, the others those of V *)
Definition bipartite_force_layout (nu nv : Z) (e_list : list (list Z)) (push_u push_v : R) (push_e : option R)
    (pull_e pull_u pull_v : R) (rnd_u rnd_v : Z -> pt) (js : nat -> draws) : res (Z -> fpt) :=
  let init v := if (v <? nu)%Z then init_pos rnd_u (5, 0) (45 / 10) v else init_pos rnd_v (-5, 0) (45 / 10) (v - nu)%Z in
  let sim := mkSim (Some pull_e) (Some [push_u; push_v]) push_e (Some [pull_u; pull_v]) [(5, 0); (-5, 0)] nu in
  rbind (incidence_matrix (nv + nu) e_list) (fun H =>
  rbind (simulate sim (nu + nv) (length e_list) H js init) (fun pos => Ok (box (nu + nv) pos))).

(** ** drawing *)
(** ut:28-63 [draw_line_edge], one edge: start and displacement of the arrow; None: the ends coincide and the direction is
    0/0 = nan *)
Definition line_edge (n : Z) (coor : Z -> pt) (size : Z -> R) (a b : Z) : option (pt * pt) :=
  let pa := coor (row_of n a) in let pb := coor (row_of n b) in
  let d := psub pb pa in
  if Req_EM_T (vlen d) 0 then None
  else let u := pscale (1 / vlen d) d in
       let s := padd pa (pscale (size (row_of n a)) u) in
       let t := psub pb (pscale (size (row_of n b)) u) in
       Some (s, psub t s).

(** one outline: the straight lines (start, end) and the arcs (centre, angles in degrees, radius) *)
Notation arc := (pt * R * R * R)%type.
Definition outline : Type := list (pt * pt) * list arc.

Section Hull.
  (** [scipy.spatial.ConvexHull(points).vertices]: positions in the list, counterclockwise; it raises for points on a line *)
  Variable hull : list pt -> res (list nat).
  Variables (n : Z) (pos : Z -> pt).

  (** ut:192-216: the tangents between consecutive corners [ix] (rows), with their angles *)
  Definition tangents (radius : Z -> R) (ix : list Z) : res (list (pt * pt * R)) :=
    map_res (fun '(i1, i2) =>
      let dp := psub (pos i2) (pos i1) in
      rbind (common_tangent_radian (radius i1) (radius i2) (vlen dp)) (fun alpha =>
      let theta := radian_from_atan (fst dp) (snd dp) - alpha in
      Ok (polar_position (radius i1) theta (pos i1), polar_position (radius i2) theta (pos i2), theta)))
      (combine ix (tl ix ++ firstn 1 ix)).
  (** ut:218-227: the arc at corner i goes from the angle of line i-1 (of the last line for i = 0) to that of line i *)
  Definition arcs (radius : Z -> R) (ix : list Z) (thetas : list R) : list arc :=
    map (fun '(i, (t1, t2)) => (pos i, rad_2_deg t1, rad_2_deg t2, radius i))
        (combine ix (combine (skipn (length thetas - 1) thetas ++ firstn (length thetas - 1) thetas) thetas)).

  (** ut:181-190: the corners of an edge, as rows *)
  Definition corners (edge : list Z) : res (list Z) :=
    if Nat.eqb (length edge) 2 then Ok (map (row_of n) edge)
    else rbind (hull (map (fun v => pos (row_of n v)) edge)) (fun ix => Ok (map (fun i => row_of n (nth i edge 0%Z)) ix)).
  (** ut:167-236, one edge *)
  Definition edge_outline (radius : Z -> R) (edge : list Z) : res outline :=
    match edge with
    | [v] => Ok ([], [(pos (row_of n v), 0, 360, radius (row_of n v))])
    | _ => rbind (corners edge) (fun ix =>
           rbind (tangents radius ix) (fun ls =>
           Ok (map fst ls, arcs radius ix (map snd ls))))
    end.
  (** ut:175 and ut:229: the circles of the vertices of a drawn edge grow *)
  Definition grow (inc radius : Z -> R) (edge : list Z) (v : Z) : R :=
    if existsb (fun w => Z.eqb (row_of n w) v) edge then radius v + inc v else radius v.
  Fixpoint hull_loop (inc radius : Z -> R) (edges : list (nat * list Z)) : res (list (nat * outline)) :=
    match edges with
    | [] => Ok []
    | (i, e) :: r => rbind (edge_outline radius e) (fun o =>
                     rbind (hull_loop inc (grow inc radius e) r) (fun l => Ok ((i, o) :: l)))
    end.
  (** ut:151-238; [order] is [np.argsort] of the sizes of the edges.  The result gives the outline of each edge under its
      number. *)
  Definition hull_layout (e_list : list (list Z)) (v_size : Z -> R) (order : list nat) : res (list (nat * outline)) :=
    let inc v := v_size v * (3 / 10) in
    hull_loop inc (fun v => v_size v + inc v) (map (fun i => (i, nth i e_list [])) order).
End Hull.

(** ** defaults.py *)
(** None, a number, or a list of numbers *)
Inductive scales := SNone | SNum (x : R) | SList (l : list R).
(** de:208-220 *)
Definition fill_sizes (custom : scales) (default : R) (n : nat) : res (list R) :=
  match custom with
  | SNone => Ok (repeat default n)
  | SList l => if Nat.eqb (length l) n then Ok (map (fun s => default * s) l) else Err AssertionError
  | SNum x => Ok (repeat (default * x) n)
  end.
(** de:222-225 *)
Definition fill_strength (custom : option R) (default : R) : R :=
  match custom with None => default | Some x => x * default end.
(** de:64-84 *)
Definition default_size (num_v : Z) (num_e : nat) (v_size v_lw e_lw : scales) (font : option R)
    : res (list R * list R * list R * R) :=
  let _font := 20 * exp (- IZR num_v / 100) in
  rbind (fill_sizes v_size (1 / sqrt (IZR num_v + 10) * (1 / 10)) (Z.to_nat num_v)) (fun a =>
  rbind (fill_sizes v_lw (exp (- IZR num_v / 50)) (Z.to_nat num_v)) (fun b =>
  rbind (fill_sizes e_lw (exp (- INR num_e / 120)) num_e) (fun c =>
  Ok (a, b, c, match font with None => _font | Some x => x * _font end)))).

(** ** draw.py *)
(** what is drawn: circles with their line widths, the arrows of the edges with their line widths (None: nan), and the
    labels with one font size *)
Record scene := mkScene {
  sc_circles : list (fpt * R * R); sc_lines : list (option (pt * pt) * R); sc_labels : list (fpt * string); sc_font : R }.

(** ut:122-148: the label of a vertex is put 1.3 radii below it; nothing is written for an empty label.  [zip] stops at the
    shortest list. *)
Definition draw_vertex (coor : list fpt) (labels : option (list string)) (size lw : list R) : list (fpt * R * R) * list (fpt * string) :=
  let lab := match labels with Some l => l | None => map (fun _ => ""%string) coor end in
  let z := combine (combine (combine coor lab) size) lw in
  (map (fun '(c, _, s, w) => (c, s, w)) z,
   flat_map (fun '(c, l, s, _) => if String.eqb l "" then [] else [((fst c, fadd (snd c) (Fin (- (13 / 10) * s))), l)]) z).

(** dr:23-89, dr:92-154 with [e_style = 'line'].  Colours and the font family are left out.  The font size is not passed to
    [default_size] (dr:66, dr:133) and the push strength of edges is replaced by None (dr:71, dr:138). *)
Definition draw_line_graph (num_v : Z) (e_list : list (Z * Z)) (v_label : option (list string)) (v_size v_lw e_lw : scales)
    (font_size push_v push_e pull_e pull_center : option R) (rnd : Z -> pt) (js : nat -> draws) : res scene :=
  match e_list with
  | [] => Err AssertionError
  | _ =>
    rbind (default_size num_v (length e_list) v_size v_lw e_lw (Some 1)) (fun '(sz, lw, elw, font) =>
    rbind (force_layout num_v (map (fun e => [fst e; snd e]) e_list) (fill_strength push_v (6 / 1000)) None
                        (fill_strength pull_e (45 / 1000)) (fill_strength pull_center (1 / 100)) rnd js) (fun coor =>
    let fin v := fin_pt (coor v) in
    let lines := map (fun '(e, w) =>
      (match fin (row_of num_v (fst e)), fin (row_of num_v (snd e)) with
       | Some a, Some b => line_edge num_v (fun v => match fin v with Some p => p | None => (0, 0) end)
                                     (fun v => nth (Z.to_nat v) sz 0) (fst e) (snd e)
       | _, _ => None end, w)) (combine e_list elw) in
    let (cs, ls) := draw_vertex (map coor (range num_v)) v_label sz lw in
    Ok (mkScene cs lines ls font)))
  end.

(** dr:247: the edges that [draw_bigraph] draws, as rows of the coordinates *)
Definition bigraph_drawn (nu : Z) (e_list : list (Z * Z)) : list (Z * Z) := map (fun '(u, v) => (u, (v + nu)%Z)) e_list.
(** dr:234-244: the edges that it passes to the layout *)
Definition bigraph_laid (e_list : list (Z * Z)) : list (list Z) := map (fun e => [fst e; snd e]) e_list.
