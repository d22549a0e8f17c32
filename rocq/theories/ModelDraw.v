(** Model of dhg/visualization/structure/draw.py ("dr") and the rest of defaults.py ("de") and utils.py ("ut"): the four drawing
    functions with colours.  What is drawn is returned as data; matplotlib, the font family and the limits of the axes are left
    out.  The types of numbers and labels are not checked here. *)
From Coq Require Import String Reals.
From Verif Require Import Num PyDict ModelBase ModelConv ModelUtils ModelMetrics ModelVis.
Set Implicit Arguments.
Local Open Scope string_scope.
Local Open Scope list_scope.
Local Open Scope Z_scope.
Local Open Scope R_scope.

(** one colour: a name, or a tuple or list of numbers *)
Inductive colour := CName (s : string) | CRgb (l : list R).
(** what the caller may give: None, a name, a list of colours, a non-empty list of numbers, something else *)
Inductive colours := KNone | KOne (s : string) | KList (l : list colour) | KNums (x : R) (l : list R) | KOther.
(** de:194-206: the length of a list is not checked.  (A list is classified by its first element, as in the code.) *)
Definition fill_color (custom : colours) (default : string) (n : nat) : res (list colour) :=
  match custom with
  | KNone => Ok (repeat (CName default) n)
  | KList [] => Err IndexError
  | KList l => Ok l
  | KNums x l => Ok (repeat (CRgb (x :: l)) n)
  | KOne s => Ok (repeat (CName s) n)
  | KOther => Err ValueError
  end.

(** a straight edge: start and displacement (None: nan), width of the arrow head, colour and line width *)
Record line := mkLine { li_arrow : option (pt * pt); li_head : R; li_color : colour; li_width : R }.
(** the outline of an edge with its line colour, fill colour and line width *)
Record shape := mkShape { sh_outline : outline; sh_color : colour; sh_fill : colour; sh_width : R }.
(** circles with centre and radius and the list of their colours, edges, labels with their place and one font size.  The line
    width of a vertex is written into an attribute that matplotlib does not know (ut:137) and left out. *)
Record drawing := mkDrawing {
  dr_circles : list (fpt * R); dr_faces : list colour; dr_lines : list line; dr_shapes : list shape;
  dr_labels : list (fpt * string); dr_font : R }.

(** [l[i]] of a Python list for i >= 0 *)
Definition at_index {A} (l : list A) (i : nat) : res A := match nth_error l i with Some x => Ok x | None => Err IndexError end.
Definition pos_of (coor : Z -> fpt) (v : Z) : pt := match fin_pt (coor v) with Some p => p | None => (0, 0) end.
Definition size_of (size : list R) (v : Z) : R := nth (Z.to_nat v) size 0.

(** ut:28-63; [size] and [coor] are indexed as Python sequences of length [n] *)
Definition draw_line_edge (n : Z) (coor : Z -> fpt) (size : list R) (e_list : list (Z * Z)) (arrow : bool)
    (color : list colour) (width : list R) : res (list line) :=
  map_res (fun '(i, e) =>
    let a := match fin_pt (coor (row_of n (fst e))), fin_pt (coor (row_of n (snd e))) with
             | Some _, Some _ => line_edge n (pos_of coor) (size_of size) (fst e) (snd e)
             | _, _ => None
             end in
    rbind (at_index width i) (fun w =>
    rbind (at_index color i) (fun c =>
    Ok (mkLine a (if arrow then 15 / 1000 * w else 0) c w))))
    (combine (seq 0 (length e_list)) e_list).

(** ut:64-110.  Simplified: positions that are not finite are refused, as scipy's ConvexHull does; the code goes on with nan if
    no edge has three vertices. *)
Definition draw_circle_edge (hull : list pt -> res (list nat)) (argsort : list nat -> list nat) (n : Z) (coor : Z -> fpt)
    (size : list R) (e_list : list (list Z)) (color fill : list colour) (width : list R) : res (list shape) :=
  if negb (forallb (fun v => match fin_pt (coor v) with Some _ => true | None => false end) (range n)) then Err ValueError
  else
    rbind (hull_layout hull n (pos_of coor) e_list (size_of size) (argsort (map (@length Z) e_list))) (fun out =>
    map_res (fun i =>
      rbind (match find (fun o => Nat.eqb (fst o) i) out with Some o => Ok (snd o) | None => Err TypeError end) (fun o =>
      rbind (at_index width i) (fun w =>
      rbind (at_index fill i) (fun f =>
      rbind (at_index color i) (fun c => Ok (mkShape o c f w))))))
      (seq 0 (length e_list))).

(** ut:122-148 without the line widths *)
Definition draw_circles (coor : list fpt) (labels : option (list string)) (size lw : list R) : list (fpt * R) * list (fpt * string) :=
  let (c, l) := draw_vertex coor labels size lw in (map fst c, l).

(** the settings shared by the drawing functions *)
Record look := mkLook {
  lk_style : string; lk_label : option (list string); lk_size : scales; lk_vcolor : colours; lk_lw : scales;
  lk_ecolor : colours; lk_fill : colours; lk_elw : scales; lk_font : R;
  lk_push_v : option R; lk_push_e : option R; lk_pull_e : option R; lk_pull_c : option R }.
Definition one_of (s : string) (l : list string) : bool := existsb (String.eqb s) l.

Section Draw.
  Variable hull : list pt -> res (list nat).
  Variable argsort : list nat -> list nat.
  Variables (rnd : Z -> pt) (js : nat -> draws).
  Definition pair_of (e : Z * Z) : list Z := [fst e; snd e].

  (** dr:59-89: [g] has vertices 0 .. n-1 and the edges [e_list]; the font size is not handed on (dr:66) *)
  Definition draw_graph (n : Z) (e_list : list (Z * Z)) (k : look) : res drawing :=
    if negb (one_of (lk_style k) ["line"; "circle"]) then Err AssertionError
    else if Nat.eqb (length e_list) 0 then Err AssertionError
    else
      rbind (fill_color (lk_vcolor k) "r" (Z.to_nat n)) (fun vc =>
      rbind (fill_color (lk_ecolor k) "gray" (length e_list)) (fun ec =>
      rbind (fill_color (lk_fill k) "whitesmoke" (length e_list)) (fun fc =>
      rbind (default_size n (length e_list) (lk_size k) (lk_lw k) (lk_elw k) (Some 1)) (fun '(sz, lw, elw, font) =>
      rbind (force_layout n (map pair_of e_list) (fill_strength (lk_push_v k) (6 / 1000)) None
                          (fill_strength (lk_pull_e k) (45 / 1000)) (fill_strength (lk_pull_c k) (1 / 100)) rnd js) (fun coor =>
      let (cs, ls) := draw_circles (map coor (range n)) (lk_label k) sz lw in
      if String.eqb (lk_style k) "line"
      then rbind (draw_line_edge n coor sz e_list false ec elw) (fun es => Ok (mkDrawing cs vc es [] ls font))
      else rbind (draw_circle_edge hull argsort n coor sz (map pair_of e_list) ec fc elw) (fun es => Ok (mkDrawing cs vc [] es ls font))))))).

  (** dr:126-154; there is no fill colour ([None] is passed, dr:132) *)
  Definition draw_digraph (n : Z) (e_list : list (Z * Z)) (k : look) : res drawing :=
    if negb (one_of (lk_style k) ["line"]) then Err AssertionError
    else if Nat.eqb (length e_list) 0 then Err AssertionError
    else
      rbind (fill_color (lk_vcolor k) "r" (Z.to_nat n)) (fun vc =>
      rbind (fill_color (lk_ecolor k) "gray" (length e_list)) (fun ec =>
      rbind (default_size n (length e_list) (lk_size k) (lk_lw k) (lk_elw k) (Some 1)) (fun '(sz, lw, elw, font) =>
      rbind (force_layout n (map pair_of e_list) (fill_strength (lk_push_v k) (6 / 1000)) None
                          (fill_strength (lk_pull_e k) (45 / 1000)) (fill_strength (lk_pull_c k) (1 / 100)) rnd js) (fun coor =>
      let (cs, ls) := draw_circles (map coor (range n)) (lk_label k) sz lw in
      rbind (draw_line_edge n coor sz e_list true ec elw) (fun es => Ok (mkDrawing cs vc es [] ls font)))))).

  (** dr:308-336 *)
  Definition draw_hypergraph (n : Z) (e_list : list (list Z)) (k : look) : res drawing :=
    if negb (one_of (lk_style k) ["circle"]) then Err AssertionError
    else if Nat.eqb (length e_list) 0 then Err AssertionError
    else
      rbind (fill_color (lk_vcolor k) "r" (Z.to_nat n)) (fun vc =>
      rbind (fill_color (lk_ecolor k) "gray" (length e_list)) (fun ec =>
      rbind (fill_color (lk_fill k) "whitesmoke" (length e_list)) (fun fc =>
      rbind (default_size n (length e_list) (lk_size k) (lk_lw k) (lk_elw k) (Some 1)) (fun '(sz, lw, elw, font) =>
      rbind (force_layout n e_list (fill_strength (lk_push_v k) (6 / 1000)) (Some (fill_strength (lk_push_e k) (8 / 1000)))
                          (fill_strength (lk_pull_e k) (7 / 1000)) (fill_strength (lk_pull_c k) (1 / 1000)) rnd js) (fun coor =>
      let (cs, ls) := draw_circles (map coor (range n)) (lk_label k) sz lw in
      rbind (draw_circle_edge hull argsort n coor sz e_list ec fc elw) (fun es => Ok (mkDrawing cs vc [] es ls font))))))).
End Draw.

(** the further settings of [draw_bigraph] *)
Record blook := mkBlook {
  bk_style : string; bk_ulabel : option (list string); bk_usize : scales; bk_ucolor : colours; bk_ulw : scales;
  bk_vlabel : option (list string); bk_vsize : scales; bk_vcolor : colours; bk_vlw : scales;
  bk_ecolor : colours; bk_elw : scales; bk_ufont : option R; bk_vfont : option R;
  bk_push_u : option R; bk_push_v : option R; bk_pull_e : option R; bk_pull_u : option R; bk_pull_v : option R }.
(** de:85-114: the default sizes of a bipartite graph and the two font sizes *)
Definition default_bipartite_size (nu nv : Z) (num_e : nat) (k : blook) : res (list R * list R * list R * list R * list R * R * R) :=
  let s x := 1 / sqrt (IZR x + 12) * (8 / 100) in
  let w x := exp (- IZR x / 50) in
  let f x y := 12 * exp (- (Rpower (IZR x / IZR y) (3 / 10)) * (IZR nu + IZR nv) / 100) in
  rbind (fill_sizes (bk_usize k) (s nu) (Z.to_nat nu)) (fun a =>
  rbind (fill_sizes (bk_ulw k) (w nu) (Z.to_nat nu)) (fun b =>
  rbind (fill_sizes (bk_vsize k) (s nv) (Z.to_nat nv)) (fun c =>
  rbind (fill_sizes (bk_vlw k) (w nv) (Z.to_nat nv)) (fun d =>
  rbind (fill_sizes (bk_elw k) (exp (- INR num_e / 50)) num_e) (fun e =>
  Ok (a, b, c, d, e, fill_strength (bk_ufont k) (f nu nv), fill_strength (bk_vfont k) (f nv nu))))))).
(** dr:205-269.  Both font sizes are added (dr:259) and the labels are dropped unless both lists are given (dr:258). *)
Definition draw_bigraph (rnd_u rnd_v : Z -> pt) (js : nat -> draws) (nu nv : Z) (e_list : list (Z * Z)) (k : blook) : res drawing :=
  if negb (one_of (bk_style k) ["line"]) then Err AssertionError
  else if Nat.eqb (length e_list) 0 then Err AssertionError
  else
    rbind (fill_color (bk_ucolor k) "m" (Z.to_nat nu)) (fun uc =>
    rbind (fill_color (bk_vcolor k) "r" (Z.to_nat nv)) (fun vc =>
    rbind (fill_color (bk_ecolor k) "gray" (length e_list)) (fun ec =>
    rbind (default_bipartite_size nu nv (length e_list) k) (fun '(us, ul, vs, vl, elw, uf, vf) =>
    rbind (bipartite_force_layout nu nv (map pair_of e_list) (fill_strength (bk_push_u k) (5 / 1000)) (fill_strength (bk_push_v k) (5 / 1000)) None
             (fill_strength (bk_pull_e k) (3 / 100)) (fill_strength (bk_pull_u k) (4 / 100)) (fill_strength (bk_pull_v k) (4 / 100)) rnd_u rnd_v js) (fun coor =>
    let lab := match bk_ulabel k, bk_vlabel k with Some a, Some b => Some (a ++ b) | _, _ => None end in
    let (cs, ls) := draw_circles (map coor (range (nu + nv))) lab (us ++ vs) (ul ++ vl) in
    rbind (draw_line_edge (nu + nv) coor (us ++ vs) (map (fun e => (fst e, (snd e + nu)%Z)) e_list) false ec elw) (fun es =>
    Ok (mkDrawing cs (uc ++ vc) es [] ls (uf + vf)))))))).
