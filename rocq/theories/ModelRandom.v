(** Model of dhg/random: graphs/graph.py ("g"), graphs/directed_graph.py ("d"), graphs/bipartite_graph.py ("b") and
    hypergraphs/hypergraph.py ("h").  The random source is an argument: [rnd i] is the i-th value of [random.random()],
    [ch i] the i-th value of [random.choice], [smp i] the i-th value of [random.sample].  The loops that have no bound
    in the code take [fuel]: [None] means that the loop is still running after [fuel] rounds. *)
From Coq Require Import String Reals QArith.
From Verif Require Import Num PyDict ModelBase ModelGraph ModelDiGraph ModelBiGraph ModelHyper ModelConv ModelUtils.
Set Implicit Arguments.
Local Open Scope list_scope.
Local Open Scope Z_scope.

(** * Filters that draw once per item *)
(** [itertools.permutations(range(n), 2)]: all ordered pairs of different numbers, in lexicographic order *)
Definition permutations2 (n : Z) : list (Z * Z) :=
  flat_map (fun a => flat_map (fun b => if a =? b then [] else [(a, b)]) (range n)) (range n).
(** [itertools.product(range(a), range(b))] *)
Definition product (a b : Z) : list (Z * Z) := flat_map (fun x => map (fun y => (x, y)) (range b)) (range a).
(** [itertools.combinations(l, k)]: all sublists of [k] items, in lexicographic order of positions *)
Fixpoint combinations {A} (k : nat) (l : list A) {struct l} : list (list A) :=
  match k with
  | O => [[]]
  | S k' => match l with
            | [] => []
            | x :: r => map (cons x) (combinations k' r) ++ combinations k r
            end
  end.
(** [[e for e in l if random.random() < prob and extra(e)]]: one draw for every [e], the next one for the next [e] *)
Fixpoint keep_below {A} (rnd : nat -> Q) (prob : Q) (extra : A -> bool) (i : nat) (l : list A) : list A :=
  match l with
  | [] => []
  | e :: r => if negb (Qle_bool prob (rnd i)) && extra e then e :: keep_below rnd prob extra (S i) r
              else keep_below rnd prob extra (S i) r
  end.
Definition prob_ok (p : Q) : bool := Qle_bool 0 p && Qle_bool p 1.

(** * Loops that draw until enough different items are found *)
Section Collect.
  Context {K : Type} `{EqB K}.
  (** [cand i] is the item of round [i], [None] if the round is skipped ([continue]); a set of items is a list *)
  Fixpoint collect (cand : nat -> option K) (m : Z) (fuel i : nat) (acc : list K) : option (list K) :=
    if Z.of_nat (length acc) <? m then
      match fuel with
      | O => None
      | S f => collect cand m f (S i)
                 (match cand i with
                  | Some k => if existsb (eqb k) acc then acc else acc ++ [k]
                  | None => acc
                  end)
      end
    else Some acc.
End Collect.
(** g:83-88: the pair of the i-th round is sorted and skipped if both ends are equal *)
Definition cand_und (ch : nat -> Z) (i : nat) : option (Z * Z) :=
  let v := ch (2 * i)%nat in let w := ch (2 * i + 1)%nat in
  let (v, w) := if w <? v then (w, v) else (v, w) in
  if v =? w then None else Some (v, w).
(** d:94-97 *)
Definition cand_dir (ch : nat -> Z) (i : nat) : option (Z * Z) :=
  let v := ch (2 * i)%nat in let w := ch (2 * i + 1)%nat in
  if v =? w then None else Some (v, w).
(** b:81-84 *)
Definition cand_bip (ch : nat -> Z) (i : nat) : option (Z * Z) := Some (ch (2 * i)%nat, ch (2 * i + 1)%nat).

(** * Skipping *)
(** g:53-55, d:53-55,58-60: [while w >= v and v < num_v: w -= v; v += 1].  The loop stops at [v = num_v], so
    [num_v - v] rounds are enough. *)
Fixpoint settle (nv : Z) (fuel : nat) (v w : Z) : Z * Z :=
  match fuel with
  | O => (v, w)
  | S f => if (v <=? w) && (v <? nv) then settle nv f (v + 1) (w - v) else (v, w)
  end.
(** g:50-57, d:50-57,55-62: the outer loop; [sk i] is the i-th [int(lr / lp)].  The result is the number of draws made
    so far and the pairs (v, w) in the order of finding. *)
Fixpoint skip_loop (nv : Z) (sk : nat -> Z) (fuel i : nat) (v w : Z) : option (nat * list (Z * Z)) :=
  if v <? nv then
    match fuel with
    | O => None
    | S f =>
        let (v2, w2) := settle nv (Z.to_nat (nv - v)) v (w + 1 + sk i) in
        match skip_loop nv sk f (S i) v2 w2 with
        | None => None
        | Some (j, l) => Some (j, if v2 <? nv then (v2, w2) :: l else l)
        end
    end
  else Some (i, []).
(** [int(x)]: towards zero *)
Definition py_int (x : R) : Z := if Rle_dec 0 x then Int_part x else - Int_part (- x).
(** g:51-52: [int(math.log(1.0 - random.random()) / lp)], in exact real arithmetic *)
Definition skips (p : R) (rnd : nat -> R) (i : nat) : Z := py_int (ln (1 - rnd i) / ln (1 - p)).
(** g:44-48, d:43-46: the checks; [math.log(0.0)] raises ValueError; for [prob = 0] the first division (the loop is
    entered because [num_v > 1]) is by [math.log(1.0) = 0.0] *)
Definition fast_checks (nv : Z) (p : R) : res unit :=
  if 1 <? nv then
    if Rle_dec 0 p then
      if Rle_dec p 1 then
        if Req_EM_T p 1 then Err ValueError
        else if Req_EM_T (ln (1 - p)) 0 then Err ZeroDivisionError
        else Ok tt
      else Err AssertionError
    else Err AssertionError
  else Err AssertionError.

Section Random.
  Context {T : Type} `{Num T}.

  (** g:8-27 [graph_Gnp] *)
  Definition graph_Gnp (nv : Z) (p : Q) (rnd : nat -> Q) : res (graph T) :=
    if (1 <? nv) && prob_ok p then
      g_new nv (Some (EMany (keep_below rnd p (fun e => fst e <? snd e) 0 (permutations2 nv)))) WNone false MMean
    else Err AssertionError.
  (** d:8-27 [digraph_Gnp] *)
  Definition digraph_Gnp (nv : Z) (p : Q) (rnd : nat -> Q) : res (digraph T) :=
    if (1 <? nv) && prob_ok p then
      d_new nv (Some (EMany (keep_below rnd p (fun _ => true) 0 (permutations2 nv)))) WNone false MMean
    else Err AssertionError.
  (** b:8-29 [bigraph_Gnp] *)
  Definition bigraph_Gnp (nu nv : Z) (p : Q) (rnd : nat -> Q) : res (bigraph T) :=
    if (1 <? nv) && (1 <? nu) && prob_ok p then
      b_new nu nv (Some (EMany (keep_below rnd p (fun _ => true) 0 (product nu nv)))) WNone MMean
    else Err AssertionError.
  (** h:9-32 [uniform_hypergraph_Gnp] *)
  Definition uniform_hypergraph_Gnp (k nv : Z) (p : Q) (rnd : nat -> Q) : res (hypergraph T) :=
    if (1 <? nv) && (1 <? k) && prob_ok p then
      h_new nv (Some (HMany (keep_below rnd p (fun _ => true) 0 (combinations (Z.to_nat k) (range nv))))) WNone None MMean
    else Err AssertionError.

  (** g:62-92 [graph_Gnm]; [ord] is the order in which Python lists the set *)
  Definition graph_Gnm (nv m : Z) (ch : nat -> Z) (ord : list (Z * Z) -> list (Z * Z)) (fuel : nat) : option (res (graph T)) :=
    if (1 <? nv) && (m <? nv * (nv - 1) / 2) then
      match collect (cand_und ch) m fuel 0 [] with
      | None => None
      | Some l => Some (g_new nv (Some (EMany (ord l))) WNone false MMean)
      end
    else Some (Err AssertionError).
  (** d:72-101 [digraph_Gnm] *)
  Definition digraph_Gnm (nv m : Z) (ch : nat -> Z) (ord : list (Z * Z) -> list (Z * Z)) (fuel : nat) : option (res (digraph T)) :=
    if (1 <? nv) && (m <? nv * (nv - 1)) then
      match collect (cand_dir ch) m fuel 0 [] with
      | None => None
      | Some l => Some (d_new nv (Some (EMany (ord l))) WNone false MMean)
      end
    else Some (Err AssertionError).
  (** b:57-88 [bigraph_Gnm]; [ch] gives in turn a vertex of U and one of V *)
  Definition bigraph_Gnm (nu nv m : Z) (ch : nat -> Z) (ord : list (Z * Z) -> list (Z * Z)) (fuel : nat) : option (res (bigraph T)) :=
    if (1 <? nu) && (1 <? nv) && (m <=? nv * nu) then
      match collect (cand_bip ch) m fuel 0 [] with
      | None => None
      | Some l => Some (b_new nu nv (Some (EMany (ord l))) WNone MMean)
      end
    else Some (Err AssertionError).

  (** g:30-59 [graph_Gnp_fast] *)
  Definition graph_Gnp_fast (nv : Z) (p : R) (rnd : nat -> R) (fuel : nat) : option (res (graph T)) :=
    match fast_checks nv p with
    | Err x => Some (Err x)
    | Ok _ => match skip_loop nv (skips p rnd) fuel 0 1 (-1) with
              | None => None
              | Some (_, l) => Some (g_new nv (Some (EMany l)) WNone false MMean)
              end
    end.
  (** d:30-69 [digraph_Gnp_fast]: one pass for w -> v, then a second one for v -> w *)
  Definition digraph_Gnp_fast (nv : Z) (p : R) (rnd : nat -> R) (fuel : nat) : option (res (digraph T)) :=
    match fast_checks nv p with
    | Err x => Some (Err x)
    | Ok _ => match skip_loop nv (skips p rnd) fuel 0 1 (-1) with
              | None => None
              | Some (i, l1) =>
                  match skip_loop nv (skips p rnd) fuel i 1 (-1) with
                  | None => None
                  | Some (_, l2) =>
                      Some (d_new nv (Some (EMany (map (fun e => (snd e, fst e)) l1 ++ l2))) WNone false MMean)
                  end
              end
    end.

  (** h:35-62 [uniform_hypergraph_Gnm]; [random.sample] raises ValueError when asked for more than there is *)
  Definition uniform_hypergraph_Gnm (k nv m : Z) (smp : nat -> list Z) (ord : list (list Z) -> list (list Z)) (fuel : nat)
    : option (res (hypergraph T)) :=
    if (1 <? k) && (1 <? nv) && (0 <? m) then
      if nv <? k then Some (Err ValueError) else
      match collect (fun i => Some (zsort (smp i))) m fuel 0 [] with
      | None => None
      | Some l => Some (h_new nv (Some (HMany (ord l))) WNone None MMean)
      end
    else Some (Err AssertionError).

  (** h:92 [deg_e_list] *)
  Definition deg_list (nv : Z) : list Z := map (fun i => i + 2) (range (nv - 1)).
  Definition rsum (l : list R) : R := fold_right Rplus 0%R l.
  (** [[x / sum(l) for x in l]]; dividing by a zero sum raises ZeroDivisionError *)
  Definition normalise (l : list R) : res (list R) :=
    if Req_EM_T (rsum l) 0 then Err ZeroDivisionError else Ok (map (fun x => (x / rsum l)%R) l).
  (** h:91-109: the weights of the degrees *)
  Definition powers3 (n : nat) : list R := map (fun k => (/ 3 ^ k)%R) (seq 0 n).
  Definition degree_weights (nv : Z) (method : string) (custom : option (list R)) : res (list R) :=
    if String.eqb method "uniform" then
      Ok (map (fun k => (IZR (C_py nv k) / (2 ^ Z.to_nat nv - 1))%R) (deg_list nv))
    else if String.eqb method "low_order_first" then normalise (powers3 (length (deg_list nv)))
    else if String.eqb method "high_order_first" then normalise (rev (powers3 (length (deg_list nv))))
    else if String.eqb method "custom" then
      match custom with
      | None => Err AssertionError
      | Some l => if Z.of_nat (length l) =? nv - 1 then normalise l else Err AssertionError
      end
    else Err AssertionError.
  (** h:65-119 [hypergraph_Gnm]; [kc i] is the degree that [random.choices] picks in round [i] from [deg_list] with the
      given weights *)
  Definition hypergraph_Gnm (nv m : Z) (method : string) (custom : option (list R)) (kc : nat -> Z) (smp : nat -> Z -> list Z)
      (ord : list (list Z) -> list (list Z)) (fuel : nat) : option (res (hypergraph T)) :=
    if (1 <? nv) && (0 <? m) then
      match degree_weights nv method custom with
      | Err x => Some (Err x)
      | Ok _ =>
          match collect (fun i => Some (zsort (smp i (kc i)))) m fuel 0 [] with
          | None => None
          | Some l => Some (h_new nv (Some (HMany (ord l))) WNone None MMean)
          end
      end
    else Some (Err AssertionError).
End Random.
