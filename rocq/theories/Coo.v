(** torch.sparse_coo_tensor: list of ((row, col), value).  [coalesce] sorts by
    (row, col) and adds up duplicates, as torch documents. *)
From Verif Require Import Num PyDict.
Set Implicit Arguments.

Section Coo.
  Context {T : Type} `{Num T}.

  Definition coo := list ((Z * Z) * T).

  Definition kcmp (a b : Z * Z) : comparison :=
    match fst a ?= fst b with
    | Eq => snd a ?= snd b
    | c => c
    end.

  Fixpoint cins (k : Z * Z) (v : T) (m : coo) : coo :=
    match m with
    | [] => [(k, v)]
    | (k', v') :: r =>
        match kcmp k k' with
        | Lt => (k, v) :: m
        | Eq => (k', nadd v' v) :: r
        | Gt => (k', v') :: cins k v r
        end
    end.

  (** [t.coalesce()] *)
  Definition coalesce (m : coo) : coo :=
    fold_left (fun acc kv => cins (fst kv) (snd kv) acc) m [].

  (** the dense entry (i, j) of the matrix: the sum of all stored values *)
  Definition mget (m : coo) (i j : Z) : T :=
    sumf m (fun kv => if eqb (i, j) (fst kv) then snd kv else nz).

  (** [t._indices()[0]], [t._indices()[1]], [t._values()] *)
  Definition rows (m : coo) : list Z := map (fun kv => fst (fst kv)) m.
  Definition cols (m : coo) : list Z := map (fun kv => snd (fst kv)) m.
  Definition vals (m : coo) : list T := map snd m.

  (** [t.t()] *)
  Definition ctrans (m : coo) : coo :=
    map (fun kv => ((snd (fst kv), fst (fst kv)), snd kv)) m.

  (** [torch.sparse.sum(t, dim=1).to_dense()], entry [i] (row sum) *)
  Definition rowsum (m : coo) (i : Z) : T :=
    sumf m (fun kv => if eqb i (fst (fst kv)) then snd kv else nz).
  (** [torch.sparse.sum(t, dim=0).to_dense()], entry [j] (column sum) *)
  Definition colsum (m : coo) (j : Z) : T :=
    sumf m (fun kv => if eqb j (snd (fst kv)) then snd kv else nz).

  (** sparse diagonal matrix over [range n] *)
  Definition diag (n : Z) (f : Z -> T) : coo := map (fun i => ((i, i), f i)) (range n).

  Definition cmap (f : T -> T) (m : coo) : coo := map (fun kv => (fst kv, f (snd kv))) m.

  (** sparse x sparse product, [torch.sparse.mm] / [.mm]; the structural
      non-zeros of the product are the pairs (i, j) with a common middle index *)
  Definition spmm_raw (a b : coo) : coo :=
    flat_map (fun x =>
      flat_map (fun y =>
        if eqb (snd (fst x)) (fst (fst y))
        then [((fst (fst x), snd (fst y)), nmul (snd x) (snd y))] else []) b) a.
  Definition spmm (a b : coo) : coo := coalesce (spmm_raw a b).

  (** sparse x dense column: [torch.sparse.mm(P, X)], one feature column,
      entry [i].  (Every feature column is treated independently by the code.) *)
  Definition spmv (m : coo) (x : Z -> T) (i : Z) : T :=
    sumf m (fun kv => if eqb i (fst (fst kv)) then nmul (snd kv) (x (snd (fst kv))) else nz).

  (** sparse subtraction [a - b] *)
  Definition csub (a b : coo) : coo := coalesce (a ++ cmap nopp b).

  (** column indices stored in row [i]: [t[i]._indices()[0]] *)
  Definition row_idx (m : coo) (i : Z) : list Z :=
    map (fun kv => snd (fst kv)) (filter (fun kv => eqb i (fst (fst kv))) m).

  (** [torch.sparse.softmax(t, dim=1)]: softmax over the stored entries of a row.
      (torch subtracts the row maximum first, which does not change the value.) *)
  Definition csoftmax (m : coo) : coo :=
    map (fun kv => (fst kv,
      nmul (nexp (snd kv))
           (ninv (sumf m (fun kv' => if eqb (fst (fst kv)) (fst (fst kv')) then nexp (snd kv') else nz))))) m.

  (** dhg/utils/sparse.py:4-27 [sparse_dropout], for 0 < p <= 1.  [keep i] is the
      outcome of the i-th Bernoulli draw; values become [v * keep + not keep * fill]. *)
  Definition b2n (b : bool) : T := if b then n1 else nz.
  Fixpoint cdrop_from (i : nat) (keep : nat -> bool) (fill : T) (m : coo) : coo :=
    match m with
    | [] => []
    | (k, v) :: r =>
        (k, nadd (nmul v (b2n (keep i))) (nmul (b2n (negb (keep i))) fill)) :: cdrop_from (S i) keep fill r
    end.
  Definition cdrop (keep : nat -> bool) (fill : T) (m : coo) : coo := cdrop_from 0 keep fill (coalesce m).
  (** the same when [drop_rate > 0.0] is tested by the caller first: [None] stands
      for drop_rate = 0 *)
  Definition cdrop_opt (keep : option (nat -> bool)) (m : coo) : coo :=
    match keep with None => m | Some k => cdrop k nz m end.

  (** [torch.sparse_coo_tensor(t._indices(), values, ...)] *)
  Definition with_vals (m : coo) (w : list T) : coo := combine (map fst m) w.

  (** [torch.sparse_coo_tensor(indices, values, size=(n, m)).coalesce()]: torch
      raises RuntimeError on negative or too large indices. *)
  Definition in_box (n m : Z) (k : Z * Z) : bool :=
    (0 <=? fst k) && (fst k <? n) && (0 <=? snd k) && (snd k <? m).
  Definition mk_sparse (n m : Z) (idx : list (Z * Z)) (w : list T) : res coo :=
    if forallb (in_box n m) idx then Ok (coalesce (combine idx w)) else Err RuntimeError.

  (** [t[i]] on a tensor with [n] rows: Python-style negative indices wrap. *)
  Definition py_index (n i : Z) : res Z :=
    if (0 <=? i) && (i <? n) then Ok i
    else if (- n <=? i) && (i <? 0) then Ok (i + n)
    else Err IndexError.
End Coo.
Arguments coo T : clear implicits.
