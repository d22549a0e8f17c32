(** Model of dhg/structure/base.py [BaseHypergraph] and dhg/structure/hypergraphs/hypergraph.py
    [Hypergraph].  Line numbers "base" refer to the first file, "hg" to the second. *)
From Coq Require Import String.
From Verif Require Import Num PyDict Coo ModelBase ModelGraph.
Set Implicit Arguments.

(** Python's [sorted] on a list of integers *)
Fixpoint zins (x : Z) (l : list Z) : list Z :=
  match l with
  | [] => [x]
  | y :: r => if x <=? y then x :: l else y :: zins x r
  end.
Definition zsort (l : list Z) : list Z := fold_right zins [] l.

(** The [e_list] argument: one hyperedge (a list of vertices) or a list of hyperedges *)
Inductive harg := HOne (l : list Z) | HMany (l : list (list Z)).

(** base:487-504 [_format_e_list]; an empty list is an empty list of hyperedges *)
Definition hformat (e : harg) : list (list Z) :=
  match e with
  | HOne [] => []
  | HOne l => [zsort l]
  | HMany l => map zsort l
  end.

Section Hyper.
  Context {T : Type} `{Num T}.

  (** base:367-381, 423-427: number of vertices, vertex weights ([None] after [clear]), groups.  A
      hyperedge code is the pair (vertices, vertices) of twice the same sorted tuple (base:461-468, hg:347-349);
      the key used here is that tuple.  The content is {"w_e": weight}. *)
  Record hraw := mkHRaw {
    h_nv : Z;
    h_vw : option (list T);
    h_gr : dict string (dict (list Z) T)
  }.
  Definition hypergraph := st T hraw.
  Definition set_gr (r : hraw) (g : dict string (dict (list Z) T)) : hraw := mkHRaw (h_nv r) (h_vw r) g.

  (** base:433-438 [_clear_cache]: always a new [cache]; all group caches, or the one of the group *)
  Definition hclear_cache (g : option string) (s : hypergraph) : hypergraph :=
    match g with
    | None => mkSt (st_raw s) []
    | Some n => mkSt (st_raw s)
        (filter (fun kv => match fst kv with
                           | KH None _ => false
                           | KH (Some n') _ => negb (String.eqb n n')
                           | _ => true
                           end) (st_cache s))
    end.

  (** base:644-664 [_add_hyperedge], base:470-485 [_merge_hyperedges] *)
  Definition hadd1 (m : mop) (g : string) (e : list Z) (w : T) (r : hraw) : res hraw :=
    match dget g (h_gr r) with
    | None => Ok (set_gr r (dset g [(e, w)] (h_gr r)))
    | Some d =>
        match dget e d with
        | None => Ok (set_gr r (dset g (dset e w d) (h_gr r)))
        | Some x =>
            match merge_fun m with
            | Some f => Ok (set_gr r (dset g (dset e (f x w) d) (h_gr r)))
            | None => Err AssertionError
            end
        end
    end.
  (** hg:346-349: the loop over the hyperedges; what was added before an exception stays *)
  Fixpoint hadds (m : mop) (g : string) (l : list (list Z * T)) (r : hraw) : hraw * res unit :=
    match l with
    | [] => (r, Ok tt)
    | (e, w) :: q => match hadd1 m g e w r with Ok r1 => hadds m g q r1 | Err x => (r, Err x) end
    end.
  (** hg:335-344: default weights and length check *)
  Definition hweights (n : nat) (w : warg T) : res (list T) :=
    match w with
    | WNone => Ok (repeat n1 n)
    | WNum x => Ok (repeat x n)
    | WList l => if Nat.eqb (length l) n then Ok l else Err AssertionError
    end.
  (** hg:319-350 [add_hyperedges]; the caches are cleared after the loop *)
  Definition h_add (e : harg) (w : warg T) (m : mop) (g : string) : M T hraw unit := fun s =>
    let es := hformat e in
    match hweights (length es) w with
    | Err x => (s, Err x)
    | Ok ws =>
        match hadds m g (combine es ws) (st_raw s) with
        | (r, Ok _) => (hclear_cache (Some g) (mkSt r (st_cache s)), Ok tt)
        | (r, Err x) => (mkSt r (st_cache s), Err x)
        end
    end.

  (** hg:417-440 [remove_hyperedges] *)
  Definition hdel (g : option string) (e : list Z) (r : hraw) : hraw :=
    set_gr r (map (fun nd => match g with
                             | None => (fst nd, ddel e (snd nd))
                             | Some n => if String.eqb n (fst nd) then (fst nd, ddel e (snd nd)) else nd
                             end) (h_gr r)).
  Definition h_remove (e : harg) (g : option string) : M T hraw unit := fun s =>
    if match g with None => true | Some n => dhas n (h_gr (st_raw s)) end
    then (hclear_cache g (mkSt (fold_left (fun r x => hdel g x r) (hformat e) (st_raw s)) (st_cache s)), Ok tt)
    else (s, Err AssertionError).
  (** hg:442-449 [remove_group] *)
  Definition h_remove_group (g : string) : M T hraw unit := fun s =>
    (hclear_cache (Some g) (mkSt (set_gr (st_raw s) (ddel g (h_gr (st_raw s)))) (st_cache s)), Ok tt).
  (** hg:143-146, base:423-427 [clear] *)
  Definition h_clear : M T hraw unit := fun s => (mkSt (mkHRaw (h_nv (st_raw s)) None []) [], Ok tt).

  (** hg:30-48 [__init__] *)
  Definition h_new (nv : Z) (e : option harg) (w : warg T) (vw : option (list T)) (m : mop) : res hypergraph :=
    if 0 <? nv then
      match vw with
      | Some l => if Nat.eqb (length l) (Z.to_nat nv) then
            let s0 := mkSt (mkHRaw nv (Some l) []) [] in
            match e with
            | None => Ok s0
            | Some ea => match h_add ea w m "main" s0 with (s1, Ok _) => Ok s1 | (_, Err x) => Err x end
            end
          else Err AssertionError
      | None =>
          let s0 := mkSt (mkHRaw nv (Some (repeat n1 (Z.to_nat nv))) []) [] in
          match e with
          | None => Ok s0
          | Some ea => match h_add ea w m "main" s0 with (s1, Ok _) => Ok s1 | (_, Err x) => Err x end
          end
      end
    else Err AssertionError.

  (** run a getter for every group and collect the answers *)
  Fixpoint mapM {R A B} (f : A -> M T R B) (l : list A) : M T R (list B) :=
    match l with
    | [] => ret []
    | a :: r => bind (f a) (fun b => bind (mapM f r) (fun bs => ret (b :: bs)))
    end.
  (** [assert group_name in self.group_names] *)
  Definition with_group {A} (g : string) (f : dict (list Z) T -> M T hraw A) : M T hraw A :=
    bind ask (fun r => match dget g (h_gr r) with Some d => f d | None => raise AssertionError end).
  Definition on_groups {A B} (f : string -> M T hraw A) (k : list A -> M T hraw B) : M T hraw B :=
    bind ask (fun r => bind (mapM f (dkeys (h_gr r))) k).

  (** base:839-855 [num_e], [num_e_of_group] *)
  Definition raw_ne (r : hraw) : Z := fold_right (fun nd a => Z.of_nat (length (snd nd)) + a) 0 (h_gr r).
  Definition get_ne (sc : option string) : M T hraw Z :=
    match sc with
    | None => bind ask (fun r => ret (raw_ne r))
    | Some g => with_group g (fun d => ret (Z.of_nat (length d)))
    end.

  (** hg:526-537 [e_of_group], 514-524 [e] *)
  Definition get_he_g (g : string) : M T hraw (list (list Z) * list T) :=
    with_group g (fun d => memoHE (KH (Some g) HKe) (ret (dkeys d, dvals d))).
  Definition get_he (sc : option string) : M T hraw (list (list Z) * list T) :=
    match sc with
    | Some g => get_he_g g
    | None => memoHE (KH None HKe) (on_groups get_he_g (fun l => ret (concat (map fst l), concat (map snd l))))
    end.

  (** base:541-566 [_fetch_H_of_group]: one entry 1.0 per (vertex, hyperedge number) *)
  Fixpoint inc_from (i : Z) (es : list (list Z)) : list (Z * Z) :=
    match es with
    | [] => []
    | e :: r => map (fun v => (v, i)) e ++ inc_from (i + 1) r
    end.
  Definition fetch_H (nv : Z) (d : dict (list Z) T) : res (coo T) :=
    let idx := inc_from 0 (dkeys d) in
    mk_sparse nv (Z.of_nat (length d)) idx (map (fun _ => n1) idx).
  (** base:927-937 [H_v2e_of_group], hg:778-787 [H_of_group], hg:797-806 [H_T_of_group] *)
  Definition get_Hv2e_g (g : string) : M T hraw (coo T) :=
    with_group g (fun d => memoM (KH (Some g) HKHv2e) (bind ask (fun r => lift (fetch_H (h_nv r) d)))).
  Definition get_H_g (g : string) : M T hraw (coo T) :=
    with_group g (fun _ => memoM (KH (Some g) HKH) (get_Hv2e_g g)).
  Definition get_HT_g (g : string) : M T hraw (coo T) :=
    with_group g (fun _ => memoM (KH (Some g) HKHT) (bind (get_H_g g) (fun m => ret (ctrans m)))).
  (** [torch.cat(l, dim=1)] of sparse matrices with the given numbers of columns *)
  Fixpoint hcat (off : Z) (l : list (Z * coo T)) : coo T :=
    match l with
    | [] => []
    | (w, m) :: r => map (fun kv => ((fst (fst kv), snd (fst kv) + off), snd kv)) m ++ hcat (off + w) r
    end.
  Definition raw_sizes (r : hraw) : list Z := map (fun nd => Z.of_nat (length (snd nd))) (h_gr r).
  (** base:919-925 [H_v2e]; torch.cat of an empty list raises RuntimeError.  hg:771-777 [H], hg:790-796 [H_T] *)
  Definition get_Hv2e : M T hraw (coo T) :=
    memoM (KH None HKHv2e) (on_groups get_Hv2e_g (fun l => bind ask (fun r =>
      match l with [] => raise RuntimeError | _ => ret (hcat 0 (combine (raw_sizes r) l)) end))).
  (** base:939-956 [H_e2v], [H_e2v_of_group]: the second half of the hyperedge code, which is the same tuple *)
  Definition get_He2v_g (g : string) : M T hraw (coo T) :=
    with_group g (fun d => memoM (KH (Some g) HKHe2v) (bind ask (fun r => lift (fetch_H (h_nv r) d)))).
  Definition get_He2v : M T hraw (coo T) :=
    memoM (KH None HKHe2v) (on_groups get_He2v_g (fun l => bind ask (fun r =>
      match l with [] => raise RuntimeError | _ => ret (hcat 0 (combine (raw_sizes r) l)) end))).
  Definition get_Hdir (v2e : bool) (sc : option string) : M T hraw (coo T) :=
    match sc with
    | Some g => if v2e then get_Hv2e_g g else get_He2v_g g
    | None => if v2e then get_Hv2e else get_He2v
    end.
  Definition get_H (sc : option string) : M T hraw (coo T) :=
    match sc with Some g => get_H_g g | None => memoM (KH None HKH) get_Hv2e end.
  Definition get_HT (sc : option string) : M T hraw (coo T) :=
    match sc with
    | Some g => get_HT_g g
    | None => memoM (KH None HKHT) (bind (get_H None) (fun m => ret (ctrans m)))
    end.

  (** entry [i] of a vector; a diagonal matrix from a vector *)
  Definition zn (l : list T) (i : Z) : T := nth (Z.to_nat i) l nz.
  Definition diag_of (l : list T) : coo T := coalesce (diag (Z.of_nat (length l)) (zn l)).

  (** hg:508-511 [v_weight], hg:809-821 [W_v]: torch.Tensor(None) raises TypeError *)
  Definition get_Wv : M T hraw (coo T) :=
    memoM (KH None HKWv) (bind ask (fun r =>
      match h_vw r with None => raise TypeError | Some l => ret (diag_of l) end)).
  (** hg:839-855 [W_e_of_group] with base:593-602, hg:824-838 [W_e] *)
  Definition get_We_g (g : string) : M T hraw (coo T) :=
    with_group g (fun d => memoM (KH (Some g) HKWe) (ret (diag_of (dvals d)))).
  Definition get_We (sc : option string) : M T hraw (coo T) :=
    match sc with
    | Some g => get_We_g g
    | None => memoM (KH None HKWe) (on_groups get_We_g (fun l =>
        match l with [] => raise RuntimeError | _ => ret (diag_of (concat (map (@vals T) l))) end))
    end.

  (** hg:872-892 [D_v_of_group], hg:858-870 [D_v]; torch.vstack of an empty list raises RuntimeError *)
  Definition weigh_cols (w : list T) (m : coo T) : coo T :=
    coalesce (map (fun kv => (fst kv, nmul (zn w (snd (fst kv))) (snd kv))) m).
  Definition get_Dv_g (g : string) : M T hraw (coo T) :=
    with_group g (fun _ => memoM (KH (Some g) HKDv)
      (bind (get_H_g g) (fun Hm => bind (get_We_g g) (fun W => bind ask (fun r =>
       ret (diag_rowsum (h_nv r) (weigh_cols (vals W) Hm))))))).
  Definition get_Dv (sc : option string) : M T hraw (coo T) :=
    match sc with
    | Some g => get_Dv_g g
    | None => memoM (KH None HKDv) (on_groups get_Dv_g (fun l => bind ask (fun r =>
        match l with
        | [] => raise RuntimeError
        | _ => ret (coalesce (diag (h_nv r) (fun i => sumf l (fun D => zn (vals D) i))))
        end)))
    end.
  (** the body of a cached attribute of the hypergraph ([None]) or of a group *)
  Definition memo_sc (sc : option string) (k : hkey) (f : M T hraw (coo T)) : M T hraw (coo T) :=
    match sc with
    | None => memoM (KH None k) f
    | Some g => with_group g (fun _ => memoM (KH (Some g) k) f)
    end.
  (** hg:895-921 [D_v_neg_1], hg:924-950 [D_v_neg_1_2] *)
  Definition get_Dv1 (sc : option string) : M T hraw (coo T) :=
    memo_sc sc HKDv1 (bind (get_Dv sc) (fun D => ret (inv_vals D))).
  Definition get_Dv12 (sc : option string) : M T hraw (coo T) :=
    memo_sc sc HKDv12 (bind (get_Dv sc) (fun D => ret (isq_vals D))).
  (** hg:968-984 [D_e_of_group], hg:953-966 [D_e], hg:987-1013 [D_e_neg_1] *)
  Definition get_De_g (g : string) : M T hraw (coo T) :=
    with_group g (fun d => memoM (KH (Some g) HKDe)
      (bind (get_HT_g g) (fun HT => ret (diag_rowsum (Z.of_nat (length d)) HT)))).
  Definition get_De (sc : option string) : M T hraw (coo T) :=
    match sc with
    | Some g => get_De_g g
    | None => memoM (KH None HKDe) (on_groups get_De_g (fun l =>
        match l with [] => raise RuntimeError | _ => ret (diag_of (concat (map (@vals T) l))) end))
    end.
  Definition get_De1 (sc : option string) : M T hraw (coo T) :=
    memo_sc sc HKDe1 (bind (get_De sc) (fun D => ret (inv_vals D))).

  (** hg:1031-1044 [N_e_of_group], hg:1015-1029 [N_e] *)
  Definition get_Ne_g (v : Z) (g : string) : M T hraw (list Z) :=
    with_group g (fun _ => bind ask (fun r =>
      if v <? h_nv r then
        bind (get_H_g g) (fun m => bind (lift (py_index (h_nv r) v)) (fun i => ret (row_idx m i)))
      else raise AssertionError)).
  Fixpoint shift_cat (off : Z) (l : list (Z * list Z)) : list Z :=
    match l with
    | [] => []
    | (w, x) :: r => map (fun i => i + off) x ++ shift_cat (off + w) r
    end.
  Definition get_Ne (sc : option string) (v : Z) : M T hraw (list Z) :=
    match sc with
    | Some g => get_Ne_g v g
    | None => bind ask (fun r => if v <? h_nv r then
        on_groups (get_Ne_g v) (fun l =>
          match l with [] => raise RuntimeError | _ => ret (shift_cat 0 (combine (raw_sizes r) l)) end)
        else raise AssertionError)
    end.
  (** hg:1062-1075 [N_v_of_group], hg:1046-1060 [N_v].  With no group at all and a negative index
      the code returns None (and nbr_v raises AttributeError); here AttributeError is raised. *)
  Definition get_Nv_g (e : Z) (g : string) : M T hraw (list Z) :=
    with_group g (fun d =>
      if e <? Z.of_nat (length d) then
        bind (get_HT_g g) (fun m => bind (lift (py_index (Z.of_nat (length d)) e)) (fun i => ret (row_idx m i)))
      else raise AssertionError).
  Fixpoint walk_Nv (e : Z) (l : list (string * Z)) : M T hraw (list Z) :=
    match l with
    | [] => raise AttributeError
    | (g, n) :: r => if e <? n then get_Nv_g e g else walk_Nv (e - n) r
    end.
  Definition get_Nv (sc : option string) (e : Z) : M T hraw (list Z) :=
    match sc with
    | Some g => get_Nv_g e g
    | None => bind ask (fun r => if e <? raw_ne r
        then walk_Nv e (combine (dkeys (h_gr r)) (raw_sizes r)) else raise AssertionError)
    end.

  (** hg:1172-1203 [L_HGNN], hg:1083-1117 [L_sym], hg:1120-1168 [L_rw] *)
  Definition get_Lhgnn (sc : option string) : M T hraw (coo T) :=
    memo_sc sc HKLhgnn (bind (get_Dv12 sc) (fun D => bind (get_H sc) (fun Hm => bind (get_We sc) (fun W =>
      bind (get_De1 sc) (fun E => bind (get_HT sc) (fun HT =>
      ret (coalesce (spmm (spmm (spmm (spmm (spmm D Hm) W) E) HT) D)))))))).
  Definition hsub_id (sc : option string) (m : coo T) : M T hraw (coo T) :=
    bind ask (fun r => ret (coalesce (ident (h_nv r) ++ cmap nopp m))).
  Definition get_hLsym (sc : option string) : M T hraw (coo T) :=
    memo_sc sc HKLsym (bind (get_Lhgnn sc) (hsub_id sc)).
  Definition get_hLrw (sc : option string) : M T hraw (coo T) :=
    memo_sc sc HKLrw (bind (bind (get_Dv1 sc) (fun D => bind (get_H sc) (fun Hm => bind (get_We sc) (fun W =>
      bind (get_De1 sc) (fun E => bind (get_HT sc) (fun HT =>
      ret (spmm (spmm (spmm (spmm D Hm) W) E) HT))))))) (hsub_id sc)).
  (** hg:1205-1241 [smoothing_with_HGNN], one feature column *)
  Definition hgnn_smooth (sc : option string) (X : Z -> T) (keep : option (nat -> bool)) : M T hraw (list T) :=
    bind (get_Lhgnn sc) (fun L => bind ask (fun r => ret (map (spmv (cdrop_opt keep L) X) (range (h_nv r))))).

  (** hg:1246-1360 [v2e_aggregation(_of_group)] and hg:1445-1559 [e2v_aggregation(_of_group)], one
      feature column; [P]: H_T or H, [D1]: D_e_neg_1 or D_v_neg_1, [n]: number of rows of the result.
      The weighted "mean" multiplies by the row sums (hg:1286-1289, 1350-1353, 1485-1488, 1549-1552).  torch
      coalesces P inside sparse_dropout, softmax and sum. *)
  Definition aggregate (P0 D1 : M T hraw (coo T)) (n : M T hraw Z) (X : Z -> T) (a : aggr)
      (w : option (list T)) (keep : option (nat -> bool)) : M T hraw (list T) :=
    if aggr_ok a then
      match w with
      | None =>
          bind P0 (fun A => let P := cdrop_opt keep A in bind n (fun k =>
          match a with
          | AggrMean => bind D1 (fun D => ret (map (spmv D (spmv P X)) (range k)))
          | AggrSum => ret (map (spmv P X) (range k))
          | _ => ret (map (spmv (csoftmax (coalesce P)) X) (range k))
          end))
      | Some wl =>
          bind P0 (fun A =>
          if Nat.eqb (length wl) (length A) then
            let P := cdrop_opt keep (with_vals A wl) in bind n (fun k =>
            match a with
            | AggrMean => ret (map (mean_weighted P X) (range k))
            | AggrSum => ret (map (spmv P X) (range k))
            | _ => ret (map (spmv (csoftmax (coalesce P)) X) (range k))
            end)
          else raise AssertionError)
      end
    else raise AssertionError.
  (** [_of_group]: the group check comes first *)
  Definition check_sc {A} (sc : option string) (f : M T hraw A) : M T hraw A :=
    match sc with None => f | Some g => with_group g (fun _ => f) end.
  Definition v2e_aggregation (sc : option string) (X : Z -> T) (a : aggr) (w : option (list T)) (keep : option (nat -> bool)) :=
    check_sc sc (aggregate (get_HT sc) (get_De1 sc) (get_ne sc) X a w keep).
  Definition e2v_aggregation (sc : option string) (X : Z -> T) (a : aggr) (w : option (list T)) (keep : option (nat -> bool)) :=
    check_sc sc (aggregate (get_H sc) (get_Dv1 sc) (bind ask (fun r => ret (h_nv r))) X a w keep).
  (** hg:1362-1398 [v2e_update(_of_group)] *)
  Definition v2e_update (sc : option string) (X : Z -> T) (ew : option (list T)) : M T hraw (list T) :=
    check_sc sc (match ew with
    | None => bind (get_We sc) (fun W => bind (get_ne sc) (fun k => ret (map (spmv W X) (range k))))
    | Some w => bind (get_ne sc) (fun k =>
        if Nat.eqb (length w) (Z.to_nat k) then ret (map (fun i => nmul (zn w i) (X i)) (range k))
        else raise AssertionError)
    end).
  (** hg:1400-1443 [v2e(_of_group)], hg:1583-1618 [e2v(_of_group)] (hg:1561-1581: e2v_update is the identity) *)
  Definition h_v2e (sc : option string) (X : Z -> T) (a : aggr) (w ew : option (list T)) (keep : option (nat -> bool)) :=
    check_sc sc (bind (v2e_aggregation sc X a w keep) (fun y => v2e_update sc (zn y) ew)).
  Definition h_e2v (sc : option string) (X : Z -> T) (a : aggr) (w : option (list T)) (keep : option (nat -> bool)) :=
    check_sc sc (e2v_aggregation sc X a w keep).
  (** hg:1620-1699 [v2v(_of_group)].  [dr], [dr1], [dr2]: whether drop_rate, v2e_drop_rate,
      e2v_drop_rate are positive ([None]: not given); [k1], [k2]: the draws of the two dropouts *)
  Definition h_v2v (sc : option string) (X : Z -> T) (a : aggr) (dr : bool) (a1 : option aggr) (w1 : option (list T))
      (dr1 : option bool) (ew : option (list T)) (a2 : option aggr) (w2 : option (list T)) (dr2 : option bool)
      (k1 k2 : nat -> bool) : M T hraw (list T) :=
    check_sc sc
      (let or_else {B} (o : option B) (x : B) := match o with Some y => y | None => x end in
       bind (h_v2e sc X (or_else a1 a) w1 ew (if or_else dr1 dr then Some k1 else None))
         (fun y => h_e2v sc (zn y) (or_else a2 a) w2 (if or_else dr2 dr then Some k2 else None))).

  (** hg:148-155 [clone]: the new object is built without v_weight, then groups and caches are copied *)
  Definition ones (n : Z) : list T := repeat n1 (Z.to_nat n).
  Definition h_clone (s : hypergraph) : hypergraph :=
    mkSt (mkHRaw (h_nv (st_raw s)) (Some (ones (h_nv (st_raw s)))) (h_gr (st_raw s))) (st_cache s).
  (** hg:56-59 [state_dict]: number of vertices and groups (no vertex weights) *)
  Definition h_state_dict (s : hypergraph) : Z * dict string (dict (list Z) T) := (h_nv (st_raw s), h_gr (st_raw s)).
  (** hg:168-176 [from_state_dict] *)
  Definition h_from_state_dict (d : Z * dict string (dict (list Z) T)) : res hypergraph :=
    if 0 <? fst d then Ok (mkSt (mkHRaw (fst d) (Some (ones (fst d))) (snd d)) []) else Err AssertionError.

  (** hg:451-470 [drop_hyperedges], hg:472-497 [drop_hyperedges_of_group]: hyperedge number [i] (in
      iteration order) survives iff [keep i]; [ord_ok]: ord = "uniform" *)
  Fixpoint drop_groups (sel : string -> bool) (i : nat) (keep : nat -> bool) (l : dict string (dict (list Z) T))
    : dict string (dict (list Z) T) :=
    match l with
    | [] => []
    | (n, d) :: r =>
        if sel n then (n, keep_from i keep d) :: drop_groups sel (i + length d) keep r
        else (n, d) :: drop_groups sel i keep r
    end.
  Definition h_drop (g : option string) (keep : nat -> bool) (ord_ok : bool) (s : hypergraph) : res hypergraph :=
    if ord_ok then
      h_from_state_dict (h_nv (st_raw s),
        drop_groups (fun n => match g with None => true | Some g' => String.eqb n g' end) 0 keep (h_gr (st_raw s)))
    else Err ValueError.

  (** base:695-734 [_subgraph_filter_hyperedge]: the selected vertices of the hyperedge, renumbered;
      dropped when fewer than [min_nodes] distinct vertices are left *)
  Fixpoint zindex (x : Z) (l : list Z) : option Z :=      (* v_map: position in the sorted selection *)
    match l with
    | [] => None
    | y :: r => if x =? y then Some 0 else match zindex x r with Some i => Some (i + 1) | None => None end
    end.
  Definition znodup (l : list Z) : list Z := nodup Z.eq_dec l.
  Definition sub_edge (vl : list Z) (keep1 : bool) (e : list Z) : option (list Z) :=
    let sub := filter (fun v => if zindex v vl then true else false) e in
    if Z.of_nat (length (znodup sub)) <? (if keep1 then 1 else 2) then None
    else Some (zsort (flat_map (fun v => match zindex v vl with Some i => [i] | None => [] end) e)).
  (** base:758-767: equal restricted hyperedges: the last one wins (dict assignment) *)
  Definition sub_group (vl : list Z) (keep1 : bool) (d : dict (list Z) T) : dict (list Z) T :=
    fold_left (fun acc kv => match sub_edge vl keep1 (fst kv) with Some e => dset e (snd kv) acc | None => acc end) d [].
  (** base:736-772 [subgraph] *)
  Definition h_subgraph (vs : list Z) (keep1 : bool) (s : hypergraph) : res hypergraph :=
    let vl := zsort (znodup vs) in
    match vl with
    | [] => Err AssertionError
    | v0 :: _ =>
        if (0 <=? v0) && (last vl 0 <? h_nv (st_raw s)) then
          match h_from_state_dict (Z.of_nat (length vl),
                  map (fun nd => (fst nd, sub_group vl keep1 (snd nd))) (h_gr (st_raw s))) with
          | Ok t => Ok (match h_vw (st_raw s) with
                        | None => t
                        | Some w => mkSt (mkHRaw (h_nv (st_raw t)) (Some (map (zn w) vl)) (h_gr (st_raw t))) []
                        end)
          | Err x => Err x
          end
        else Err AssertionError
    end.

  (** queries and operations of the public API; [None]: the whole hypergraph, [Some g]: the *_of_group variant *)
  Inductive hquery :=
  | hqE (sc : option string) | hqNumE (sc : option string) | hqNames | hqVw
  | hqH (sc : option string) | hqHT (sc : option string) | hqHdir (v2e : bool) (sc : option string) | hqWv | hqWe (sc : option string)
  | hqDv (sc : option string) | hqDv1 (sc : option string) | hqDv12 (sc : option string)
  | hqDe (sc : option string) | hqDe1 (sc : option string)
  | hqDegV (sc : option string) | hqDegE (sc : option string)
  | hqNe (sc : option string) (v : Z) | hqNv (sc : option string) (e : Z)
  | hqLsym (sc : option string) | hqLrw (sc : option string) | hqLhgnn (sc : option string)
  | hqV2eSrc (sc : option string) | hqV2eDst (sc : option string) | hqV2eW (sc : option string)
  | hqE2vSrc (sc : option string) | hqE2vDst (sc : option string) | hqE2vW (sc : option string)
  | hqHgnn (sc : option string) (X : Z -> T) (keep : option (nat -> bool))
  | hqV2eAgg (sc : option string) (X : Z -> T) (a : aggr) (w : option (list T)) (keep : option (nat -> bool))
  | hqV2eUpd (sc : option string) (X : Z -> T) (ew : option (list T))
  | hqV2e (sc : option string) (X : Z -> T) (a : aggr) (w ew : option (list T)) (keep : option (nat -> bool))
  | hqE2v (sc : option string) (X : Z -> T) (a : aggr) (w : option (list T)) (keep : option (nat -> bool))
  | hqV2v (sc : option string) (X : Z -> T) (a : aggr) (dr : bool) (a1 : option aggr) (w1 : option (list T))
      (dr1 : option bool) (ew : option (list T)) (a2 : option aggr) (w2 : option (list T)) (dr2 : option bool)
      (k1 k2 : nat -> bool).

  Definition oV {R} (g : M T R (list T)) : M T R (out T) := bind g (fun l => ret (OVals l)).
  Definition oI {R} (g : M T R (list Z)) : M T R (out T) := bind g (fun l => ret (OIdx l)).
  Definition h_query (q : hquery) : M T hraw (out T) :=
    match q with
    | hqE sc => bind (get_he sc) (fun x => ret (OHE (fst x) (snd x)))
    | hqNumE sc => bind (get_ne sc) (fun n => ret (OZ n))
    | hqNames => bind ask (fun r => ret (ONames (dkeys (h_gr r))))        (* base:857-866 *)
    | hqVw => bind ask (fun r => ret (match h_vw r with Some l => OVals l | None => OUnit end))
    | hqH sc => oM (get_H sc) | hqHT sc => oM (get_HT sc) | hqHdir b sc => oM (get_Hdir b sc) | hqWv => oM get_Wv | hqWe sc => oM (get_We sc)
    | hqDv sc => oM (get_Dv sc) | hqDv1 sc => oM (get_Dv1 sc) | hqDv12 sc => oM (get_Dv12 sc)
    | hqDe sc => oM (get_De sc) | hqDe1 sc => oM (get_De1 sc)
    | hqDegV sc => oV (bind (get_Dv sc) (fun m => ret (vals m)))          (* hg:560-572 *)
    | hqDegE sc => oV (bind (get_De sc) (fun m => ret (vals m)))          (* hg:574-587 *)
    | hqNe sc v => oI (get_Ne sc v) | hqNv sc e => oI (get_Nv sc e)
    | hqLsym sc => oM (get_hLsym sc) | hqLrw sc => oM (get_hLrw sc) | hqLhgnn sc => oM (get_Lhgnn sc)
    | hqV2eSrc sc => oI (bind (get_HT sc) (fun m => ret (cols m)))        (* hg:681-693 *)
    | hqV2eDst sc => oI (bind (get_HT sc) (fun m => ret (rows m)))        (* hg:695-708 *)
    | hqV2eW sc => oV (bind (get_HT sc) (fun m => ret (vals m)))          (* hg:710-723 *)
    | hqE2vSrc sc => oI (bind (get_H sc) (fun m => ret (cols m)))         (* hg:725-738 *)
    | hqE2vDst sc => oI (bind (get_H sc) (fun m => ret (rows m)))         (* hg:740-753 *)
    | hqE2vW sc => oV (bind (get_H sc) (fun m => ret (vals m)))           (* hg:755-768 *)
    | hqHgnn sc X keep => oV (hgnn_smooth sc X keep)
    | hqV2eAgg sc X a w keep => oV (v2e_aggregation sc X a w keep)
    | hqV2eUpd sc X ew => oV (v2e_update sc X ew)
    | hqV2e sc X a w ew keep => oV (h_v2e sc X a w ew keep)
    | hqE2v sc X a w keep => oV (h_e2v sc X a w keep)
    | hqV2v sc X a dr a1 w1 dr1 ew a2 w2 dr2 k1 k2 => oV (h_v2v sc X a dr a1 w1 dr1 ew a2 w2 dr2 k1 k2)
    end.

  Inductive hop :=
  | HAdd (e : harg) (w : warg T) (m : mop) (g : string)
  | HRemove (e : harg) (g : option string)
  | HRemoveGroup (g : string)
  | HClear
  | HQuery (q : hquery).
  Definition h_step (o : hop) : M T hraw (out T) :=
    match o with
    | HAdd e w m g => unit_out (h_add e w m g)
    | HRemove e g => unit_out (h_remove e g)
    | HRemoveGroup g => unit_out (h_remove_group g)
    | HClear => unit_out h_clear
    | HQuery q => h_query q
    end.
  (** a history of calls on one object *)
  Fixpoint h_run (ops : list hop) (s : hypergraph) : hypergraph * list (res (out T)) :=
    match ops with
    | [] => (s, [])
    | o :: r => let (s1, x) := h_step o s in let (s2, xs) := h_run r s1 in (s2, x :: xs)
    end.
End Hyper.
Arguments hraw T : clear implicits.
Arguments hypergraph T : clear implicits.
Arguments hquery T : clear implicits.
Arguments hop T : clear implicits.
