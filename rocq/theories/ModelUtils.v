(** Model of dhg/utils/structure.py ("structure"), dhg/utils/dataset_split.py ("split"), dhg/utils/sparse.py and
    dhg/utils/math.py.  Random shuffles and Bernoulli draws are arguments. *)
From Coq Require Import String Reals QArith.
From Verif Require Import Num PyDict Coo ModelBase ModelBiGraph ModelConv.
Set Implicit Arguments.
Local Open Scope list_scope.
Local Open Scope Z_scope.

(** a list comprehension whose body may raise *)
Fixpoint map_res {A B} (f : A -> res B) (l : list A) : res (list B) :=
  match l with
  | [] => Ok []
  | x :: r => rbind (f x) (fun y => rbind (map_res f r) (fun ys => Ok (y :: ys)))
  end.

Section AdjLists.
  Context {A : Type} `{EqB A}.
  (** structure:21-33 [edge_list_to_adj_dict]; [adj_dict[s].append(d)] on a defaultdict(list) *)
  Definition adj_append (d : dict A (list A)) (e : A * A) : dict A (list A) :=
    dset (fst e) (match dget (fst e) d with Some x => x ++ [snd e] | None => [snd e] end) d.
  Definition edge_list_to_adj_dict (l : list (A * A)) : dict A (list A) := fold_left adj_append l [].
  (** structure:5-18 [edge_list_to_adj_list] *)
  Definition edge_list_to_adj_list (l : list (A * A)) : list (list A) :=
    map (fun kv => fst kv :: snd kv) (edge_list_to_adj_dict l).
  (** structure:36-52 [adj_list_to_edge_list] *)
  Definition adj_list_to_edge_list (l : list (list A)) : list (A * A) :=
    flat_map (fun line => match line with
                          | src :: ((_ :: _) as dsts) => map (fun d => (src, d)) dsts
                          | _ => []
                          end) l.
End AdjLists.

(** [sorted(set(...))] on strings: strictly ascending by code point, without repetitions.  (Strings are byte strings
    here.) *)
Fixpoint sset_ins (x : string) (l : list string) : list string :=
  match l with
  | [] => [x]
  | y :: r => match String.compare x y with
              | Lt => x :: l
              | Eq => l
              | Gt => y :: sset_ins x r
              end
  end.
Definition sorted_set (l : list string) : list string := fold_left (fun acc x => sset_ins x acc) l [].
(** [{raw: new for new, raw in enumerate(l)}] *)
Definition enum_map (l : list string) : dict string Z := combine l (range (Z.of_nat (length l))).
(** [m[k]] *)
Definition key_get (m : dict string Z) (k : string) : res Z := match dget k m with Some i => Ok i | None => Err KeyError end.
(** [u, v = e] *)
Definition unpack2 {A} (e : list A) : res (A * A) := match e with [u; v] => Ok (u, v) | _ => Err ValueError end.

Section Remap.
  Context {A : Type}.
  (** Python's [str] on the markers *)
  Variable str : A -> string.

  (** the maps that are returned with [ret_map = True]: [[v_map]], or [[u_map; v_map]] *)
  Definition maps := list (dict string Z).
  (** structure:55-95 [remap_edge_list]; tuples are lists here *)
  Definition remap_edge_list (bip : bool) (es : list (list A)) : res (list (list Z) * maps) :=
    let es := map (map str) es in
    if bip then
      rbind (map_res unpack2 es) (fun ps =>
      let um := enum_map (sorted_set (map fst ps)) in
      let vm := enum_map (sorted_set (map snd ps)) in
      rbind (map_res (fun p => rbind (key_get um (fst p)) (fun i => rbind (key_get vm (snd p)) (fun j => Ok [i; j]))) ps) (fun out =>
      Ok (out, [um; vm])))
    else
      let vm := enum_map (sorted_set (concat es)) in
      rbind (map_res (map_res (key_get vm)) es) (fun out => Ok (out, [vm])).
  (** structure:98-140 [remap_edge_lists] *)
  Definition remap_edge_lists (bip : bool) (ls : list (list (list A))) : res (list (list (list Z)) * maps) :=
    let ls := map (map (map str)) ls in
    if bip then
      rbind (map_res (map_res unpack2) ls) (fun ps =>
      let um := enum_map (sorted_set (map fst (concat ps))) in
      let vm := enum_map (sorted_set (map snd (concat ps))) in
      rbind (map_res (map_res (fun p => rbind (key_get um (fst p)) (fun i => rbind (key_get vm (snd p)) (fun j => Ok [i; j])))) ps) (fun out =>
      Ok (out, [um; vm])))
    else
      let vm := enum_map (sorted_set (concat (concat ls))) in
      rbind (map_res (map_res (map_res (key_get vm))) ls) (fun out => Ok (out, [vm])).

  (** [if len(line) <= 1: continue] *)
  Definition long {B} (line : list B) : bool := match line with _ :: _ :: _ => true | _ => false end.
  (** [[u_map[line[0]]] + [v_map[v] for v in line[1:]]] *)
  Definition remap_line (um vm : dict string Z) (line : list string) : res (list Z) :=
    match line with
    | [] => Err IndexError
    | u :: vs => rbind (key_get um u) (fun i => rbind (map_res (key_get vm) vs) (fun js => Ok (i :: js)))
    end.
  (** structure:143-190 [remap_adj_list]: the markers are collected from the long lines only *)
  Definition remap_adj_list (bip : bool) (al : list (list A)) : res (list (list Z) * maps) :=
    let al := map (map str) al in
    let lg := filter long al in
    if bip then
      let um := enum_map (sorted_set (flat_map (firstn 1) lg)) in
      let vm := enum_map (sorted_set (flat_map (@tl _) lg)) in
      rbind (map_res (remap_line um vm) al) (fun out => Ok (out, [um; vm]))
    else
      let vm := enum_map (sorted_set (concat lg)) in
      rbind (map_res (map_res (key_get vm)) al) (fun out => Ok (out, [vm])).
  (** structure:193-247 [remap_adj_lists] *)
  Definition remap_adj_lists (bip : bool) (ls : list (list (list A))) : res (list (list (list Z)) * maps) :=
    let ls := map (map (map str)) ls in
    let lg := flat_map (filter long) ls in
    if bip then
      let um := enum_map (sorted_set (flat_map (firstn 1) lg)) in
      let vm := enum_map (sorted_set (flat_map (@tl _) lg)) in
      rbind (map_res (map_res (remap_line um vm)) ls) (fun out => Ok (out, [um; vm]))
    else
      let vm := enum_map (sorted_set (concat lg)) in
      rbind (map_res (map_res (map_res (key_get vm))) ls) (fun out => Ok (out, [vm])).
End Remap.

(** Python slices [l[a:b]] (step 1): negative bounds count from the end, then bounds are clipped *)
Definition slice_bound (n i : Z) : Z := if i <? 0 then Z.max 0 (i + n) else Z.min i n.
Definition py_slice {A} (a b : option Z) (l : list A) : list A :=
  let n := Z.of_nat (length l) in
  let lo := match a with None => 0 | Some i => slice_bound n i end in
  let hi := match b with None => n | Some i => slice_bound n i end in
  firstn (Z.to_nat (hi - lo)) (skipn (Z.to_nat lo) l).

(** split:10-19 [_idx2mask]; assigning to an out-of-range position raises IndexError.  (The indices come from np.where,
    so they are never negative.) *)
Definition idx_mask (n : Z) (idx : list Z) : res (list bool) :=
  if n <? 0 then Err RuntimeError
  else if forallb (fun i => i <? n) idx then Ok (map (fun i => existsb (Z.eqb i) idx) (range n)) else Err IndexError.
(** train mask, optional validation mask, test mask *)
Definition masks := (list bool * option (list bool) * list bool)%type.
Definition idx2mask (n : Z) (tr te : list Z) (va : option (list Z)) : res masks :=
  rbind (idx_mask n tr) (fun a => rbind (idx_mask n te) (fun c =>
    match va with
    | Some v => rbind (idx_mask n v) (fun b => Ok (a, Some b, c))
    | None => Ok (a, None, c)
    end)).

(** split:51-59, 112-119: squeeze (a single label becomes 0-dimensional and fails the assertion), labels starting at 1
    are shifted *)
Definition lmin (x : Z) (r : list Z) : Z := fold_left Z.min r x.
Definition norm_labels (l : list Z) : res (list Z) :=
  match l with
  | [] => Err ValueError
  | [_] => Err AssertionError
  | x :: r => Ok (if lmin x r =? 1 then map (fun y => y - 1) l else l)
  end.
(** split:60 [np.unique(v_label).shape[0]] *)
Definition num_classes (l : list Z) : Z := Z.of_nat (length (znodup l)).
(** split:70 [np.where(v_label == c)[0]] *)
Definition class_idx (l : list Z) (c : Z) : list Z :=
  filter (fun i => nth (Z.to_nat i) l 0 =? c) (range (Z.of_nat (length l))).

(** split:69-78 and 134-148, the loop over the classes.  [tn n], [vn n], [sn n] are the numbers of training, validation
    and test vertices for a class of [n] vertices; [sh c] is what random.shuffle does to the indices of class [c] *)
Definition split_loop (l : list Z) (sh : Z -> list Z -> list Z) (tn vn : Z -> Z) (sn : option (Z -> Z))
  : list Z * list Z * list Z :=
  fold_left (fun acc c =>
    let '(tr, va, te) := acc in
    let x := sh c (class_idx l c) in
    let n := Z.of_nat (length x) in
    (tr ++ py_slice None (Some (tn n)) x,
     va ++ py_slice (Some (tn n)) (Some (tn n + vn n)) x,
     te ++ py_slice (Some (tn n + vn n)) (match sn with Some f => Some (tn n + vn n + f n) | None => None end) x))
    (range (num_classes l)) ([], [], []).
Definition split_masks (n : Z) (l : list Z) (sh : Z -> list Z -> list Z) (hasval : bool) (tn vn : Z -> Z) (sn : option (Z -> Z))
  : res masks :=
  let '(tr, va, te) := split_loop l sh tn vn sn in idx2mask n tr te (if hasval then Some va else None).
(** split:22-80 [split_by_num] *)
Definition split_by_num (n : Z) (lbl : list Z) (sh : Z -> list Z -> list Z) (train : Z) (val test : option Z) : res masks :=
  rbind (norm_labels lbl) (fun l =>
    let v := match val with Some v => v | None => 0 end in
    split_masks n l sh (negb (v =? 0)) (fun _ => train) (fun _ => v)
      (match test with Some t => Some (fun _ => t) | None => None end)).

(** the float operations split_by_ratio uses: addition, comparison with 1, comparison with 0, and [int(n * r)] *)
Class Ratio (F : Type) := {
  r_zero : F;
  r_add : F -> F -> F;
  r_le1 : F -> bool;
  r_lt1 : F -> bool;
  r_is0 : F -> bool;
  r_cut : F -> Z -> Z
}.
(** exact rationals *)
#[global] Instance Ratio_Q : Ratio Q := {|
  r_zero := 0%Q; r_add := Qplus; r_le1 := fun x => Qle_bool x 1; r_lt1 := fun x => negb (Qle_bool 1 x);
  r_is0 := fun x => Qeq_bool x 0; r_cut := fun r n => Z.quot (n * Qnum r) (Zpos (Qden r)) |}.
(** split:83-150 [split_by_ratio] *)
Definition split_by_ratio {F} `{Ratio F} (n : Z) (lbl : list Z) (sh : Z -> list Z -> list Z) (train : F) (val test : option F)
  : res masks :=
  rbind (norm_labels lbl) (fun l =>
    let v := match val with Some v => v | None => r_zero end in
    if match test with Some t => r_le1 (r_add (r_add train v) t) | None => r_lt1 (r_add train v) end then
      split_masks n l sh (negb (r_is0 v)) (r_cut train) (r_cut v)
        (match test with Some t => Some (r_cut t) | None => None end)
    else Err AssertionError).

Section UI.
  Context {T : Type} `{Num T}.
  (** bipartite_graph.py:418-424 [nbr_v] *)
  Definition nbr_v (g : bigraph T) (u : Z) : res (list Z) := asks (bget_Nv u) g.
  (** split:153-189 [split_by_num_for_UI_bigraph]; [sh u] is the shuffle of the items of user [u] *)
  Fixpoint ui_num (g : bigraph T) (sh : Z -> list Z -> list Z) (train : Z) (us : list Z) : res (list (list Z) * list (list Z)) :=
    match us with
    | [] => Ok ([], [])
    | u :: r =>
        rbind (nbr_v g u) (fun l0 => let l := sh u l0 in
        rbind (ui_num g sh train r) (fun tt =>
        Ok (match l with
            | [] => tt
            | _ => if Z.of_nat (length l) <=? train then ((u :: l) :: fst tt, snd tt)
                   else ((u :: py_slice None (Some train) l) :: fst tt, (u :: py_slice (Some train) None l) :: snd tt)
            end)))
    end.
  Definition split_by_num_UI (g : bigraph T) (sh : Z -> list Z -> list Z) (train : Z) :=
    ui_num g sh train (range (b_nu (st_raw g))).
  (** split:192-225 [split_by_ratio_for_UI_bigraph] *)
  Fixpoint ui_ratio {F} `{Ratio F} (g : bigraph T) (sh : Z -> list Z -> list Z) (ratio : F) (us : list Z) : res (list (list Z) * list (list Z)) :=
    match us with
    | [] => Ok ([], [])
    | u :: r =>
        rbind (nbr_v g u) (fun l0 => let l := sh u l0 in
        rbind (ui_ratio g sh ratio r) (fun tt =>
        Ok (match l with
            | [] => tt
            | _ => let k := r_cut ratio (Z.of_nat (length l)) in
                   ((u :: py_slice None (Some k) l) :: fst tt, (u :: py_slice (Some k) None l) :: snd tt)
            end)))
    end.
  Definition split_by_ratio_UI {F} `{Ratio F} (g : bigraph T) (sh : Z -> list Z -> list Z) (ratio : F) :=
    ui_ratio g sh ratio (range (b_nu (st_raw g))).

  (** sparse.py:4-27 [sparse_dropout]; [keep i] is the outcome of the i-th Bernoulli draw *)
  Definition sparse_dropout (p : Q) (keep : nat -> bool) (fill : T) (m : coo T) : res (coo T) :=
    if Qle_bool 0 p && Qle_bool p 1 then
      if Qeq_bool p 0 then Ok (coalesce m) else Ok (cdrop keep fill m)
    else Err AssertionError.
End UI.

(** Python's [round(x, 0)] followed by [int]: to the nearest integer, ties to even *)
Definition py_round (x : R) : Z :=
  let k := Int_part x in
  let f := (x - IZR k)%R in
  if Rlt_dec f (/ 2) then k else if Rlt_dec (/ 2) f then k + 1 else if Z.even k then k else k + 1.
(** math.py:4-14 [C]; the logarithms are exact here (floating-point rounding and overflow are not modelled).  When the
    loop runs, n - m + i > 0, so [log] does not fail. *)
Definition C_log (n m : Z) : R :=
  fold_left (fun a i => (a + ln (IZR (n - m + (i + 1))) - ln (IZR (i + 1)))%R) (range m) 0%R.
Definition C_py (n m : Z) : Z := py_round (exp (C_log n (Z.min m (n - m)))).
