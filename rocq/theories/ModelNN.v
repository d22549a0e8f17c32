(** Model of dhg/nn (losses, regularisation, convolution layers), of the models that are more than a chain of layers
    (dhg/models/graphs/lightgcn.py, dhg/models/hypergraphs/hypergcn.py) and of the training loop in
    dhg/experiments/base.py.

    A feature matrix is the list of its columns; an input column is a function of the row number, an output column a list
    with one number per row.  The number of rows of the input is taken to be the number of vertices.  The structure is only
    read; the cache entries this leaves in it are dropped here (asking questions changes no later answer, C02, C28).
    Learnable parameters are ordinary arguments; gradients, devices and initialisation are not modelled. *)
From Coq Require Import String Reals Lra.
From Verif Require Import Num PyDict Coo ModelBase ModelGraph ModelBiGraph ModelHyper ModelConv ModelUtils ModelMetrics.
Set Implicit Arguments.
Open Scope Z_scope.
Open Scope list_scope.

Section Layers.
  Context {T : Type} {NT : Num T}.
  Definition fmat := list (Z -> T).
  Definition omat := list (list T).

  (** an answer that is a vector *)
  Definition as_vals (r : res (out T)) : res (list T) :=
    match r with Ok (OVals l) => Ok l | Ok _ => Err TypeError | Err x => Err x end.
  Definition as_idx (r : res (out T)) : res (list Z) :=
    match r with Ok (OIdx l) => Ok l | Ok _ => Err TypeError | Err x => Err x end.
  Definition as_coo (r : res (out T)) : res (coo T) :=
    match r with Ok (OM m) => Ok m | Ok _ => Err TypeError | Err x => Err x end.
  (** an output column read as an input column *)
  Definition vec (l : list T) (v : Z) : T := nth (Z.to_nat v) l nz.

  (** torch.nn.Linear as used in every layer (e.g. nn/convs/graphs/gcn_conv.py:41): [y = x W^T + b]; one row of [l_w] per
      output channel; a row of another length than the input has channels: RuntimeError *)
  Record lin := mklin { l_w : list (list T); l_b : option (list T) }.
  Definition linear (L : lin) (X : fmat) : res fmat :=
    if forallb (fun r => Nat.eqb (length r) (length X)) (l_w L) then
      Ok (map (fun rb v => nadd (sumf (combine (fst rb) X) (fun wx => nmul (snd wx v) (fst wx))) (snd rb))
              (combine (l_w L) (match l_b L with Some b => b | None => map (fun _ => nz) (l_w L) end)))
    else Err RuntimeError.

  (** the end of every layer (e.g. gcn_conv.py:52-57): [act] (ReLU / ELU) elementwise, batch normalisation and dropout as
      arbitrary functions of the matrix *)
  Record tcfg := mktcfg { t_last : bool; t_act : T -> T; t_bn : option (omat -> omat); t_drop : omat -> omat }.
  Definition tail (t : tcfg) (X : omat) : omat :=
    if t_last t then X
    else t_drop t ((match t_bn t with Some f => f | None => fun Y => Y end) (map (map (t_act t)) X)).
  (** the same without the dropout: gat_conv.py:58-62, unignn_conv.py:146-150 *)
  Definition tail_nodrop (t : tcfg) (X : omat) : omat :=
    if t_last t then X else (match t_bn t with Some f => f | None => fun Y => Y end) (map (map (t_act t)) X).

  (** [A + B] of two matrices whose first one is still given by functions; another number of channels: RuntimeError (torch
      would accept one channel on either side and repeat it) *)
  Fixpoint add_cols (rows : list Z) (X : fmat) (Y : omat) : res omat :=
    match X, Y with
    | [], [] => Ok []
    | x :: X', y :: Y' => rbind (add_cols rows X' Y') (fun r => Ok (map (fun vy => nadd (snd vy) (x (fst vy))) (combine rows y) :: r))
    | _, _ => Err RuntimeError
    end.
  Definition grows (s : graph T) : list Z := range (r_nv (st_raw s)).
  Definition hrows (s : hypergraph T) : list Z := range (h_nv (st_raw s)).

  (** nn/convs/graphs/gcn_conv.py:43-57 *)
  Definition gcn_conv (th : lin) (t : tcfg) (s : graph T) (X : fmat) : res omat :=
    rbind (linear th X) (fun H => rbind (map_res (fun h => as_vals (snd (g_query (QGcn h None) s))) H) (fun Y => Ok (tail t Y))).

  (** nn/convs/graphs/gin_conv.py:36-45; [mlp]: the network given to the constructor *)
  Definition gin_conv (eps : T) (mlp : omat -> res omat) (s : graph T) (X : fmat) : res omat :=
    rbind (map_res (fun x => rbind (as_vals (snd (g_query (QV2v x AggrSum None None) s))) (fun y =>
             Ok (map (fun vy => nadd (nmul (nadd n1 eps) (x (fst vy))) (snd vy)) (combine (grows s) y)))) X) mlp.

  (** nn/convs/graphs/graphsage_conv.py:46-64; [aggr] other than "mean" is refused by the constructor (lines 40-44) *)
  Definition graphsage_conv (th : lin) (t : tcfg) (s : graph T) (X : fmat) : res omat :=
    rbind (map_res (fun x => as_vals (snd (g_query (QV2v x AggrMean None None) s))) X) (fun N =>
    rbind (linear th (X ++ map vec N)) (fun H => Ok (tail t (map (fun h => map h (grows s)) H)))).

  (** nn/convs/hypergraphs/hgnn_conv.py:45-59 *)
  Definition hgnn_conv (th : lin) (t : tcfg) (s : hypergraph T) (X : fmat) : res omat :=
    rbind (linear th X) (fun H => rbind (map_res (fun h => as_vals (snd (h_query (hqHgnn None h None) s))) H) (fun Y => Ok (tail t Y))).
  (** nn/convs/hypergraphs/hgnnp_conv.py:54-68 *)
  Definition hv2v_mean (s : hypergraph T) (h : Z -> T) : res (list T) :=
    as_vals (snd (h_query (hqV2v None h AggrMean false None None None None None None None (fun _ => true) (fun _ => true)) s)).
  Definition hgnnp_conv (th : lin) (t : tcfg) (s : hypergraph T) (X : fmat) : res omat :=
    rbind (linear th X) (fun H => rbind (map_res (hv2v_mean s) H) (fun Y => Ok (tail t Y))).
  (** [hg.v2e(X, aggr="mean")], [hg.e2v(Y, aggr="sum" / "mean")] *)
  Definition v2e_mean (s : hypergraph T) (h : Z -> T) : res (list T) := as_vals (snd (h_query (hqV2e None h AggrMean None None None) s)).
  Definition e2v_with (a : aggr) (s : hypergraph T) (y : Z -> T) : res (list T) := as_vals (snd (h_query (hqE2v None y a None None) s)).
  (** nn/convs/hypergraphs/hnhn_conv.py:36-54; the same [act] is used twice *)
  Definition hnhn_conv (th1 th2 : lin) (t : tcfg) (s : hypergraph T) (X : fmat) : res omat :=
    rbind (linear th1 X) (fun H => rbind (map_res (v2e_mean s) H) (fun Y =>
    rbind (linear th2 (map vec (map (map (t_act t)) Y))) (fun Y2 => rbind (map_res (e2v_with AggrMean s) Y2) (fun Z => Ok (tail t Z))))).
  (** nn/convs/hypergraphs/dhcf_conv.py:42-56 *)
  Definition dhcf_conv (th : lin) (t : tcfg) (s : hypergraph T) (X : fmat) : res omat :=
    rbind (linear th X) (fun H => rbind (map_res (fun h => as_vals (snd (h_query (hqHgnn None h None) s))) H) (fun Y =>
    rbind (add_cols (hrows s) X Y) (fun Z => Ok (tail t Z)))).
  (** nn/convs/hypergraphs/unignn_conv.py:196-211 *)
  Definition unisage_conv (th : lin) (t : tcfg) (s : hypergraph T) (X : fmat) : res omat :=
    rbind (linear th X) (fun H => rbind (map_res (v2e_mean s) H) (fun Y =>
    rbind (map_res (fun y => e2v_with AggrSum s (vec y)) Y) (fun Z => rbind (add_cols (hrows s) H Z) (fun Z => Ok (tail t Z))))).
  (** nn/convs/hypergraphs/unignn_conv.py:266-281 *)
  Definition unigin_conv (eps : T) (th : lin) (t : tcfg) (s : hypergraph T) (X : fmat) : res omat :=
    rbind (linear th X) (fun H => rbind (map_res (v2e_mean s) H) (fun Y =>
    rbind (map_res (fun y => e2v_with AggrSum s (vec y)) Y) (fun Z =>
    rbind (add_cols (hrows s) H (map (map (nmul (nadd n1 eps))) Z)) (fun Z => Ok (tail t Z))))).

  (** nn/convs/hypergraphs/hypergcn_conv.py:41-64; [amax], [amin]: the random projection and arg max / arg min on these
      features inside [from_hypergraph_hypergcn], as in [g_hypergcn] *)
  Definition hypergcn_conv (th : lin) (t : tcfg) (mediator : bool) (amax amin : list Z -> nat) (hs : hypergraph T)
      (cached : option (graph T)) (X : fmat) : res omat :=
    rbind (linear th X) (fun H =>
    rbind (match cached with Some g => Ok g | None => g_hypergcn (h_nv (st_raw hs)) mediator false amax amin hs end) (fun g =>
    rbind (map_res (fun h => as_vals (snd (g_query (QGcn h None) g))) H) (fun Y => Ok (tail t Y)))).

  (** models/hypergraphs/hypergcn.py:22-64; one oracle pair per use of the random projection.  [forward] returns the new
      value of [self.cached_g] and the output; the two layers are [L1], [L2] *)
  Record hgcn := mkhgcn { m_fast : bool; m_med : bool; m_th1 : lin; m_t1 : tcfg; m_th2 : lin; m_t2 : tcfg }.
  Definition hypergcn_forward (m : hgcn) (cache : option (graph T)) (o1 o2 : (list Z -> nat) * (list Z -> nat)) (hs : hypergraph T) (X : fmat)
      : option (graph T) * res omat :=
    let two c := rbind (hypergcn_conv (m_th1 m) (m_t1 m) (m_med m) (fst o1) (snd o1) hs c X) (fun Y =>
                 hypergcn_conv (m_th2 m) (m_t2 m) (m_med m) (fst o2) (snd o2) hs c (map vec Y)) in
    if m_fast m then
      match cache with
      | Some g => (cache, two (Some g))
      | None => match g_hypergcn (h_nv (st_raw hs)) (m_med m) false (fst o1) (snd o1) hs with
                | Ok g => (Some g, two (Some g))
                | Err x => (None, Err x)
                end
      end
    else (cache, two None).
  (** a sequence of calls of one model *)
  Fixpoint hypergcn_calls (m : hgcn) (cache : option (graph T))
      (l : list (((list Z -> nat) * (list Z -> nat)) * ((list Z -> nat) * (list Z -> nat)) * hypergraph T * fmat)) : list (res omat) :=
    match l with
    | [] => []
    | (o1, o2, hs, X) :: r => let '(c, y) := hypergcn_forward m cache o1 o2 hs X in y :: hypergcn_calls m c r
    end.

  (** models/graphs/lightgcn.py:42-61 in evaluation mode or with [drop_rate = 0]; the embeddings are columns of [nu] / [ni]
      numbers.  Another number of rows than the graph has vertices: RuntimeError, if there is a layer *)
  Fixpoint light_layers (k : nat) (s : bigraph T) (x : list T) : res (list (list T)) :=
    match k with
    | O => Ok [x]
    | S k' => rbind (as_vals (snd (b_query (bqGcn (vec x) None) s))) (fun y => rbind (light_layers k' s y) (fun r => Ok (x :: r)))
    end.
  (** [torch.mean(torch.stack(l, dim=1), dim=1)] *)
  Definition mean_of (n : nat) (l : list (list T)) : list T :=
    map (fun i => nmul (sumf l (fun x => nth i x nz)) (ninv (sumf l (fun _ => n1)))) (seq 0 n).
  Definition light_col (k : nat) (s : bigraph T) (ui : list T * list T) : res (list T * list T) :=
    let n := length (fst ui ++ snd ui) in
    if Nat.eqb k 0 || (Z.of_nat n =? b_nu (st_raw s) + b_nv (st_raw s)) then
      rbind (light_layers k s (fst ui ++ snd ui)) (fun l =>
        let m := mean_of n l in Ok (firstn (length (fst ui)) m, skipn (length (fst ui)) m))
    else Err RuntimeError.
  Definition lightgcn (k : nat) (U I : omat) (s : bigraph T) : res (list (list T * list T)) := map_res (light_col k s) (combine U I).

  (** nn/convs/common.py:82-107; [outs]: what each head returns for the arguments (already evaluated: the first failing head
      decides).  [torch.cat]/[torch.stack] of no tensors: RuntimeError; of different shapes: RuntimeError *)
  Definition same_shape (a b : omat) : bool :=
    Nat.eqb (length a) (length b) && forallb (fun c => forallb (fun d => Nat.eqb (length c) (length d)) b) a.
  Definition zip_with (f : T -> T -> T) (a b : omat) : omat :=
    map (fun cd => map (fun xy => f (fst xy) (snd xy)) (combine (fst cd) (snd cd))) (combine a b).
  Definition fold_heads (f : T -> T -> T) (l : list omat) : omat :=
    match l with [] => [] | a :: r => fold_left (zip_with f) r a end.
  Definition multi_head (readout : string) (heads : list (res omat)) : res omat :=
    rbind (map_res (fun h => h) heads) (fun outs =>
      match outs with
      | [] => Err RuntimeError
      | a :: r =>
          if String.eqb readout "concat" then
            (if forallb (fun b => forallb (fun c => forallb (fun d => Nat.eqb (length c) (length d)) a) b) outs
             then Ok (concat outs) else Err RuntimeError)
          else if forallb (same_shape a) r then
            (if String.eqb readout "mean" then Ok (map (map (fun x => nmul x (ninv (sumf outs (fun _ => n1))))) (fold_heads nadd outs))
             else if String.eqb readout "max" then Ok (fold_heads nmax outs)
             else if String.eqb readout "sum" then Ok (fold_heads nadd outs)
             else Err ValueError)
          else Err RuntimeError
      end).
End Layers.

(** ** layers that compare numbers, over the reals *)
Section RealLayers.
  Open Scope R_scope.
  (** torch.nn.LeakyReLU, [torch.clamp] *)
  Definition leaky (a x : R) : R := if Rle_dec 0 x then x else a * x.
  Definition clamp (lo hi x : R) : R := Rmin (Rmax x lo) hi.
  (** nn/convs/graphs/gat_conv.py:40-62; [adrop]: the dropout on the scores; [slope]: of the LeakyReLU.  [squeeze] of a
      single score gives a tensor without dimensions, on which [e_weight.shape[0]] in [v2v] raises IndexError *)
  Definition gat_scores (slope : R) (adrop : list R -> list R) (l : list R) : list R :=
    map (clamp (1/1000) 5) (adrop (map (leaky slope) l)).
  Definition gat_conv (th asrc adst : lin (T := R)) (slope : R) (adrop : list R -> list R) (t : tcfg (T := R)) (s : graph R) (X : fmat (T := R))
      : res (omat (T := R)) :=
    rbind (linear th X) (fun H => rbind (linear asrc H) (fun As => rbind (linear adst H) (fun Ad =>
    rbind (as_idx (snd (g_query QEsrc s))) (fun src => rbind (as_idx (snd (g_query QEdst s))) (fun dst =>
      let a v := nth 0 As (fun _ => 0) v in let b v := nth 0 Ad (fun _ => 0) v in
      let sc := map (fun sd => a (fst sd) + b (snd sd)) (combine src dst) in
      if Nat.eqb (length sc) 1 then Err IndexError
      else rbind (map_res (fun h => as_vals (snd (g_query (QV2v h AggrSoftmax (Some (gat_scores slope adrop sc)) None) s))) H)
             (fun Y => Ok (tail_nodrop t Y))))))).
  (** nn/convs/hypergraphs/unignn_conv.py:127-150 ([atten_dst], line 118, is created but never used) *)
  Definition unigat_conv (th ae : lin (T := R)) (slope : R) (adrop : list R -> list R) (t : tcfg (T := R)) (s : hypergraph R) (X : fmat (T := R))
      : res (omat (T := R)) :=
    rbind (linear th X) (fun H => rbind (map_res (v2e_mean s) H) (fun Y =>
    rbind (linear ae (map vec Y)) (fun Ae => rbind (as_idx (snd (h_query (hqE2vSrc None) s))) (fun src =>
      let sc := map (fun i => nth 0 Ae (fun _ => 0) i) src in
      if Nat.eqb (length sc) 1 then Err IndexError
      else rbind (map_res (fun y => as_vals (snd (h_query (hqE2v None (vec y) AggrSoftmax (Some (gat_scores slope adrop sc)) None) s))) Y)
             (fun Z => Ok (tail_nodrop t Z)))))).
  (** nn/convs/hypergraphs/unignn_conv.py:52-80.  A hyperedge whose vertices all have degree 0 gives 0/0 (nan) in the code;
      here [Rinv0] makes that 0 and then 1, so the model is exact only when every such quotient is positive (nan: [ModelMore.unigcn_fl]) *)
  Definition uni_de (dv : list R) (src dst : list Z) (e : Z) : R :=
    let at_e f := sumf (combine src dst) (fun vd => if (snd vd =? e)%Z then f (vec dv (fst vd)) else 0) in
    let d := at_e (fun x => x) * ninv (at_e (fun x => if Req_EM_T x 0 then 0 else 1)) in
    if Req_EM_T d 0 then 1 else nisq d.
  Definition unigcn_conv (th : lin (T := R)) (t : tcfg (T := R)) (s : hypergraph R) (X : fmat (T := R)) : res (omat (T := R)) :=
    rbind (linear th X) (fun H => rbind (map_res (v2e_mean s) H) (fun Y =>
    rbind (as_coo (snd (h_query (hqDv None) s))) (fun Dv => rbind (as_idx (snd (h_query (hqV2eSrc None) s))) (fun src =>
    rbind (as_idx (snd (h_query (hqV2eDst None) s))) (fun dst =>
    rbind (map_res (fun y => e2v_with AggrSum s (fun e => uni_de (map snd Dv) src dst e * vec y e)) Y) (fun Z =>
    rbind (as_coo (snd (h_query (hqDv12 None) s))) (fun D12 =>
      Ok (tail t (map (fun z => map (spmv D12 (vec z)) (hrows s)) Z))))))))).

  (** nn/loss.py:14-34; sizes taken equal.  [torch.mean] of nothing is nan: left out *)
  Definition sigmoid (x : R) : R := / (1 + exp (- x)).
  Definition softplus (x : R) : R := ln (1 + exp x).
  Definition rmean (l : list R) : R := sumf l (fun x => x) / INR (length l).
  Definition bpr_loss (activation : string) (alpha beta : R) (pn : list (R * R)) : res R :=
    if String.eqb activation "sigmoid_then_log" then
      Ok (rmean (map (fun x => - ln (sigmoid (alpha * fst x - beta * snd x))) pn))
    else if String.eqb activation "softplus" then
      Ok (rmean (map (fun x => softplus (beta * snd x - alpha * fst x)) pn))
    else Err AssertionError.

  (** nn/regularization.py:20-29; an embedding is a non-empty list of rows; [p = 0]: [1 / 0].  A negative [p] is left out *)
  Definition emb_reg (p : nat) (decay : R) (embs : list (list (list R))) : res R :=
    match p, embs with
    | O, _ :: _ => Err ZeroDivisionError
    | _, _ => Ok (decay * sumf embs (fun emb => 1 / INR p * rmean (map (fun row => sumf row (fun x => x ^ p)) emb)))
    end.
End RealLayers.

(** ** dhg/experiments/base.py:80-116.  [val i]: what [validate] returns after training epoch [i] (nan possible);
    [mdl i]: the model after that epoch; [prune i]: [trial.should_prune()]; [has_str]: whether [data["structure"]] exists
    (KeyError at line 115 otherwise, after the model file has been written) *)
Inductive eres (M : Type) := EPruned | EFail (x : exn) (saved : option M) | EDone (score : fl R) (saved : M).
Arguments EPruned {M}. Arguments EFail {M} x saved. Arguments EDone {M} score saved.
(** [a > b] on floats *)
Definition fgt (a b : fl R) : bool :=
  match a, b with
  | NaN, _ | _, NaN => false
  | PInf, PInf => false
  | PInf, _ => true
  | _, PInf => false
  | NInf, _ => false
  | _, NInf => true
  | Fin x, Fin y => if Rlt_dec y x then true else false
  end.
Section Experiment.
  Context {M : Type}.
  Fixpoint epochs (maximize : bool) (val : nat -> fl R) (mdl : nat -> M) (prune : nat -> bool) (best : fl R * option M) (l : list nat)
      : option (fl R * option M) :=
    match l with
    | [] => Some best
    | i :: r => if prune i then None
                else epochs maximize val mdl prune (if maximize then if fgt (val i) (fst best) then (val i, Some (mdl i)) else best else best) r
    end.
  Definition experiment (direction : string) (max_epoch : nat) (val : nat -> fl R) (mdl : nat -> M) (prune : nat -> bool) (has_str : bool)
      : eres M :=
    let mx := String.eqb direction "maximize" in
    match epochs mx val mdl prune (if mx then NInf else PInf, None) (seq 0 max_epoch) with
    | None => EPruned
    | Some (_, None) => EFail AttributeError None
    | Some (sc, Some m) => if has_str then EDone sc m else EFail KeyError (Some m)
    end.
End Experiment.
