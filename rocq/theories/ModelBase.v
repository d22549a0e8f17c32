(** Model of dhg/structure/base.py [BaseGraph]: the part shared by Graph, DiGraph
    and BiGraph.  A structure object is a raw store plus a cache; every derived
    quantity is computed on first access and kept in the cache. *)
From Coq Require Import String.
From Verif Require Import Num PyDict Coo.
Set Implicit Arguments.

(** cache keys of a Hypergraph *)
Inductive hkey :=
| HKe | HKHv2e | HKHe2v | HKH | HKHT | HKWv | HKWe | HKDv | HKDv1 | HKDv12 | HKDe | HKDe1 | HKLsym | HKLrw | HKLhgnn.

(** Cache keys.  In the code they are the strings "e", "e_both_side", "A", ...;
    one constructor per string.  [KApow h] is the key f"A_{hop}" (graph.py:540).
    [KH None k] is the key [k] of a Hypergraph's [cache], [KH (Some g) k] the key [k] of its
    [group_cache[g]] (base.py:433-438). *)
Inductive ckey :=
| Ke | Keboth | KA | KD | KD1 | KD12 | KApow (h : Z) | KL | KLsym | KLrw | KLgcn
| KAT | KDin | KDout | KDin1 | KDout1
| KB | KBT | KDu | KDv | KDu1 | KDv1
| KH (g : option string) (k : hkey).

#[global] Instance EqB_string : EqB string := {| eqb := String.eqb; eqb_eq := String.eqb_eq |}.
Definition hkey_dec (a b : hkey) : {a = b} + {a <> b}.
Proof. decide equality. Defined.
Definition ckey_dec (a b : ckey) : {a = b} + {a <> b}.
Proof. decide equality; [apply Z.eq_dec | apply hkey_dec | decide equality; apply string_dec]. Defined.
Definition ckey_eqb (a b : ckey) : bool := if ckey_dec a b then true else false.
Lemma ckey_eqb_eq (a b : ckey) : ckey_eqb a b = true <-> a = b.
Proof. unfold ckey_eqb; destruct (ckey_dec a b); split; congruence. Qed.
#[global] Instance EqB_ckey : EqB ckey := {| eqb := ckey_eqb; eqb_eq := ckey_eqb_eq |}.

Section Base.
  Context {T : Type} `{Num T}.

  (** cached values: an (edge list, weight list) pair, a (hyperedge list, weight list) pair or a
      sparse matrix *)
  Inductive cval :=
  | VE (es : list (Z * Z)) (ws : list T)
  | VHE (es : list (list Z)) (ws : list T)
  | VM (m : coo T).

  (** an object with raw part [R]; [self.cache] is a dict (base.py:97) *)
  Record st (R : Type) := mkSt { st_raw : R; st_cache : dict ckey cval }.

  (** methods: may update the object and either return or raise *)
  Definition M (R A : Type) := st R -> st R * res A.
  Definition ret {R A} (a : A) : M R A := fun s => (s, Ok a).
  Definition raise {R A} (e : exn) : M R A := fun s => (s, Err e).
  Definition bind {R A B} (x : M R A) (f : A -> M R B) : M R B := fun s =>
    match x s with
    | (s1, Ok a) => f a s1
    | (s1, Err e) => (s1, Err e)
    end.
  Definition lift {R A} (r : res A) : M R A := fun s => (s, r).
  (** read the raw part *)
  Definition ask {R} : M R R := fun s => (s, Ok (st_raw s)).

  (** base.py:94-97 [_clear_cache] *)
  Definition clear_cache {R} (s : st R) : st R := mkSt (st_raw s) [].

  (** the memo idiom: [if self.cache.get(k) is None: self.cache[k] = ...; return self.cache[k]] *)
  Definition memo {R A} (inj : A -> cval) (prj : cval -> option A) (k : ckey) (f : M R A) : M R A := fun s =>
    match dget k (st_cache s) with
    | Some v => match prj v with Some a => (s, Ok a) | None => (s, Err TypeError) end
    | None =>
        match f s with
        | (s1, Ok a) => (mkSt (st_raw s1) (dset k (inj a) (st_cache s1)), Ok a)
        | (s1, Err e) => (s1, Err e)
        end
    end.
  Definition injE (x : list (Z * Z) * list T) : cval := VE (fst x) (snd x).
  Definition prjE (v : cval) : option (list (Z * Z) * list T) :=
    match v with VE a b => Some (a, b) | _ => None end.
  Definition prjM (v : cval) : option (coo T) := match v with VM m => Some m | _ => None end.
  Definition injHE (x : list (list Z) * list T) : cval := VHE (fst x) (snd x).
  Definition prjHE (v : cval) : option (list (list Z) * list T) :=
    match v with VHE a b => Some (a, b) | _ => None end.
  Definition memoE {R} := @memo R _ injE prjE.
  Definition memoHE {R} := @memo R _ injHE prjHE.
  Definition memoM {R} := @memo R _ VM prjM.

  (** edge merging, base.py:199-206 ([MOther]: any other string) *)
  Inductive mop := MMean | MMax | MSum | MOther.
  Definition merge_fun (m : mop) : option (T -> T -> T) :=
    match m with
    | MMean => Some (fun x y => nhalf (nadd x y))
    | MMax => Some nmax
    | MSum => Some nadd
    | MOther => None
    end.

  (** The edges argument: one edge [(a, b)] or a list of edges; the weight
      argument: absent, a number, or a list of numbers.  (A list given as the weight
      of a single edge is outside the documented argument types and not modelled.) *)
  Inductive earg := EOne (a b : Z) | EMany (l : list (Z * Z)).
  Inductive warg := WNone | WNum (w : T) | WList (l : list T).

  (** base.py:117-140 [_format_edges], for a bound check [ok].  Returns the edge
      list and the weight list.  [e_list[0]] of an empty list raises IndexError.  A number
      as the weight of a list of edges makes [zip] raise TypeError in the
      caller, before anything is stored; here it is raised at once. *)
  Definition format_edges (ok : Z * Z -> bool) (e : earg) (w : warg) : res (list (Z * Z) * list T) :=
    match e with
    | EOne a b =>
        if ok (a, b) then
          match w with
          | WNone => Ok ([(a, b)], [n1])
          | WNum x => Ok ([(a, b)], [x])
          | WList _ => Err TypeError
          end
        else Err AssertionError
    | EMany [] => Err IndexError
    | EMany l =>
        if forallb ok l then
          match w with
          | WNone => Ok (l, map (fun _ => n1) l)
          | WNum _ => Err TypeError
          | WList ws => Ok (l, ws)
          end
        else Err AssertionError
    end.
  Definition earg_empty (e : earg) : bool := match e with EMany [] => true | _ => false end.

  (** raw part of Graph and DiGraph, base.py:40-52,86-92 *)
  Record raw := mkRaw {
    r_nv : Z;                       (* _num_v *)
    r_e : dict (Z * Z) T;           (* _raw_e_dict *)
    r_loop : dict Z T;              (* _raw_selfloop_dict *)
    r_extra : bool                  (* _has_extra_selfloop *)
  }.

  (** base.py:136 [np.array(e_list).max() < self._num_v]; there is no lower bound check *)
  Definition below (n : Z) (e : Z * Z) : bool := (fst e <? n) && (snd e <? n).

  (** [d[k] = f(d[k], w) if k in d else w] *)
  Definition dmerge {K} `{EqB K} (f : T -> T -> T) (k : K) (w : T) (d : dict K T) : dict K T :=
    match dget k d with
    | Some x => dset k (f x w) d
    | None => dset k w d
    end.

  (** base.py:190-219 [_add_edge], on the raw part *)
  Definition add_edge_raw (f : T -> T -> T) (src dst : Z) (w : T) (r : raw) : raw :=
    if src =? dst
    then mkRaw (r_nv r) (r_e r) (dmerge f src w (r_loop r)) (r_extra r)
    else mkRaw (r_nv r) (dmerge f (src, dst) w (r_e r)) (r_loop r) (r_extra r).
  Definition add_edge (m : mop) (src dst : Z) (w : T) : M raw unit := fun s =>
    match merge_fun m with
    | None => (s, Err ValueError)
    | Some f => (mkSt (add_edge_raw f src dst w (st_raw s)) [], Ok tt)
    end.

  (** base.py:229-240 [_remove_edge] *)
  Definition remove_edge_raw (a b : Z) (r : raw) : raw :=
    if (a =? b) && dhas a (r_loop r)
    then mkRaw (r_nv r) (r_e r) (ddel a (r_loop r)) (r_extra r)
    else if dhas (a, b) (r_e r)
    then mkRaw (r_nv r) (ddel (a, b) (r_e r)) (r_loop r) (r_extra r)
    else r.
  Definition remove_edge (a b : Z) : M raw unit := fun s =>
    (mkSt (remove_edge_raw a b (st_raw s)) [], Ok tt).

  (** [for x in l: f x] *)
  Fixpoint for_each {R A} (f : A -> M R unit) (l : list A) : M R unit :=
    match l with
    | [] => ret tt
    | a :: r => bind (f a) (fun _ => for_each f r)
    end.
  Definition wipe_cache {R} : M R unit := fun s => (clear_cache s, Ok tt).

  (** [add_edges]; [norm] is how the class normalises the pair: Graph sorts it
      (graph.py:322-325), DiGraph keeps it (base.py:186-187). *)
  Definition add_edges (norm : Z * Z -> Z * Z) (e : earg) (w : warg) (m : mop) : M raw unit := fun s =>
    if earg_empty e then (s, Ok tt) else
    bind (lift (format_edges (below (r_nv (st_raw s))) e w)) (fun ew =>
    bind (for_each (fun x => add_edge m (fst (norm (fst x))) (snd (norm (fst x))) (snd x))
                   (combine (fst ew) (snd ew))) (fun _ =>
    wipe_cache)) s.

  (** [remove_edges], graph.py:328-339, directed_graph.py:271-280 *)
  Definition remove_edges (norm : Z * Z -> Z * Z) (e : earg) : M raw unit := fun s =>
    bind (lift (format_edges (below (r_nv (st_raw s))) e WNone)) (fun ew =>
    bind (for_each (fun x => remove_edge (fst (norm x)) (snd (norm x))) (fst ew)) (fun _ =>
    wipe_cache)) s.

  (** base.py:242-260 *)
  Definition set_extra (b : bool) : M raw unit := fun s =>
    let r := st_raw s in (mkSt (mkRaw (r_nv r) (r_e r) (r_loop r) b) [], Ok tt).
  Definition remove_selfloop : M raw unit := fun s =>
    let r := st_raw s in (mkSt (mkRaw (r_nv r) (r_e r) [] false) [], Ok tt).
  (** base.py:86-92 [clear] *)
  Definition clear : M raw unit := fun s =>
    (mkSt (mkRaw (r_nv (st_raw s)) [] [] false) [], Ok tt).

  (** base.py:279-291 [e] *)
  Definition raw_edges (r : raw) : list (Z * Z) * list T :=
    (dkeys (r_e r) ++ map (fun v => (v, v)) (dkeys (r_loop r)) ++
       (if r_extra r then map (fun v => (v, v)) (range (r_nv r)) else []),
     dvals (r_e r) ++ dvals (r_loop r) ++
       (if r_extra r then map (fun _ => n1) (range (r_nv r)) else [])).
  Definition get_e : M raw (list (Z * Z) * list T) :=
    memoE Ke (bind ask (fun r => ret (raw_edges r))).

  (** base.py:300-308 [num_e] *)
  Definition raw_num_e (r : raw) : Z :=
    Z.of_nat (length (r_e r)) + Z.of_nat (length (r_loop r)) + (if r_extra r then r_nv r else 0).

  (** base.py:324-335 [smoothing]: one feature column *)
  Definition smoothing (X : Z -> T) (L : coo T) (lamb : T) (i : Z) : T :=
    nadd (X i) (nmul lamb (spmv L X i)).

  (** aggregation argument of the message passing functions ([AggrOther]: any other string) *)
  Inductive aggr := AggrMean | AggrSum | AggrSoftmax | AggrOther.
  Definition aggr_ok (a : aggr) : bool := match a with AggrOther => false | _ => true end.

  (** results of queries *)
  Inductive out :=
  | OUnit | OE (es : list (Z * Z)) (ws : list T) | OM (m : coo T) | OZ (z : Z)
  | OIdx (l : list Z) | OVals (l : list T)
  | OHE (es : list (list Z)) (ws : list T) | ONames (l : list string).

  (** diagonal matrix of row sums, e.g. graph.py:489-497 *)
  Definition diag_rowsum (n : Z) (m : coo T) : coo T := coalesce (diag n (rowsum m)).
  (** [**-1] / [**-0.5] on the stored values, with inf -> 0, e.g. graph.py:503-510 *)
  Definition inv_vals (m : coo T) : coo T := coalesce (cmap ninv m).
  Definition isq_vals (m : coo T) : coo T := coalesce (cmap nisq m).

  (** weighted branch "mean": the result is MULTIPLIED by the row sum of P
      (graph.py:694-697, directed_graph.py:586-589,628-632, bipartite_graph.py:683-686,734-738) *)
  Definition mean_weighted (P : coo T) (X : Z -> T) (i : Z) : T := nmul (rowsum P i) (spmv P X i).
End Base.
Arguments cval T : clear implicits.
Arguments st T R : clear implicits.
Arguments M T R A : clear implicits.
Arguments warg T : clear implicits.
Arguments raw T : clear implicits.
Arguments out T : clear implicits.
