(** Model of dhg/models/graphs/ngcf.py, dhg/models/hypergraphs/dhcf.py and dhg/models/graphs/bgnn.py.  Matrices are lists of
    columns.  NGCF and DHCF are modelled in evaluation mode (dropout changes nothing); optimisers are an arbitrary function of
    the parameters. *)
From Coq Require Import Reals.
From Verif Require Import Num PyDict Coo ModelBase ModelGraph ModelBiGraph ModelHyper ModelConv ModelUtils ModelNN.
Set Implicit Arguments.
Open Scope Z_scope.
Open Scope list_scope.

Section CF.
  Open Scope R_scope.
  Notation omat := (omat (T := R)).
  Notation lin := (lin (T := R)).
  (** [F.normalize(X, p=2, dim=1)]: a row is divided by its length, by 1e-12 if the length is smaller.  ngcf.py:77, dhcf.py:88 *)
  Definition row_norm (Y : omat) (i : nat) : R := sqrt (sumf Y (fun c => nth i c 0 * nth i c 0)).
  Definition normalize_rows (Y : omat) : omat :=
    map (fun c => map (fun ix => snd ix / Rmax (row_norm Y (fst ix)) (/ 10 ^ 12)) (combine (seq 0 (length c)) c)) Y.
  (** [F.leaky_relu(_, negative_slope=0.2)] *)
  Definition leak : omat -> omat := map (map (leaky (/ 5))).
  (** one layer of ngcf.py:69-77 ([skip = false]) and of dhcf.py:72-88 ([skip = true], line 80 adds the input); [n]: number of
      rows.  The linear maps are square, so the sums and products below are of matrices of the same shape (the code could fail
      or repeat a column otherwise, here the shorter one decides). *)
  Definition cf_layer (skip : bool) (n : Z) (smooth : omat -> res omat) (gc bi : lin) (X : omat) : res omat :=
    rbind (smooth X) (fun G =>
    rbind (linear gc (map vec G)) (fun H =>
    rbind (linear bi (map vec (zip_with Rmult X G))) (fun B =>
      let at_rows := map (fun h => map h (range n)) in
      let S := if skip then zip_with Rplus (at_rows H) X else at_rows H in
      Ok (normalize_rows (zip_with Rplus (leak S) (leak (at_rows B))))))).
  (** [embs_list], ngcf.py:67-79, dhcf.py:70-90 *)
  Fixpoint cf_embs (skip : bool) (n : Z) (smooth : omat -> res omat) (ls : list (lin * lin)) (X : omat) : res (list omat) :=
    match ls with
    | [] => Ok [X]
    | (gc, bi) :: r => rbind (cf_layer skip n smooth gc bi X) (fun Y => rbind (cf_embs skip n smooth r Y) (fun l => Ok (X :: l)))
    end.
  (** mean over the layers, then split: ngcf.py:80-84, dhcf.py:91-95; one pair of columns per channel *)
  Definition cf_out (a : nat) (d : nat) (n : nat) (l : list omat) : list (list R * list R) :=
    map (fun j => let m := mean_of n (map (fun Y => nth j Y []) l) in (firstn a m, skipn a m)) (seq 0 d).
  Definition cf_model (skip : bool) (smooth : omat -> res omat) (ls : list (lin * lin)) (a b : nat) (U I : omat) : res (list (list R * list R)) :=
    let X := map (fun ui => fst ui ++ snd ui) (combine U I) in
    rbind (cf_embs skip (Z.of_nat (a + b)) smooth ls X) (fun l => Ok (cf_out a (length X) (a + b) l)).
  (** ngcf.py:57-84; [a], [b]: num_users, num_items.  Another number of rows than the graph has vertices: RuntimeError *)
  Definition ngcf (ls : list (lin * lin)) (a b : nat) (U I : omat) (s : bigraph R) : res (list (list R * list R)) :=
    cf_model false (fun X =>
      if Z.of_nat (a + b) =? b_nu (st_raw s) + b_nv (st_raw s) then map_res (fun x => as_vals (snd (b_query (bqGcn (vec x) None) s))) X
      else Err RuntimeError) ls a b U I.
  (** dhcf.py:57-95: users smoothed with the one hypergraph, items with the other *)
  Definition dhcf (ls : list (lin * lin)) (a b : nat) (U I : omat) (su si : hypergraph R) : res (list (list R * list R)) :=
    cf_model true (fun X =>
      if (Z.of_nat a =? h_nv (st_raw su)) then
        if (Z.of_nat b =? h_nv (st_raw si)) then
          rbind (map_res (fun x => as_vals (snd (h_query (hqHgnn None (vec (firstn a x)) None) su))) X) (fun GU =>
          rbind (map_res (fun x => as_vals (snd (h_query (hqHgnn None (vec (skipn a x)) None) si))) X) (fun GI =>
            Ok (map (fun ui => fst ui ++ snd ui) (combine GU GI))))
        else Err RuntimeError
      else Err RuntimeError) ls a b U I.
End CF.

Section BGNN.
  Context {T : Type} {N : Num T}.
  (** bgnn.py:41-49 (BGNN_Adv) and 191-199 (BGNN_MLP): the layers go back and forth, layer 0 from V to U.  A layer is its linear
      map and what is applied to the sums: [tanh] for BGNN_Adv, the decoder after [tanh] for BGNN_MLP ([post]).
      [toU]: the next layer goes from V to U.  Feature matrices are given by columns of numbers. *)
  Definition bstep (toU : bool) (l : lin (T := T) * (omat (T := T) -> res (omat (T := T)))) (s : bigraph T) (X : omat) : res omat :=
    rbind (linear (fst l) (map vec X)) (fun H =>
    rbind (map_res (fun h => as_vals (snd (b_query (bqPass (negb toU) h AggrSum None None) s))) H) (snd l)).
  Fixpoint bgnn_loop (toU : bool) (ls : list (lin * (omat -> res omat))) (s : bigraph T) (Xu Xv : omat) : res omat :=
    match ls with
    | [] => Ok Xu
    | l :: r => if toU then rbind (bstep true l s Xv) (fun Y => bgnn_loop false r s Y Xv)
                else rbind (bstep false l s Xu) (fun Y => bgnn_loop true r s Xu Y)
    end.
  Definition bgnn_forward (ls : list (lin * (omat -> res omat))) (s : bigraph T) (Xu Xv : omat) : res omat := bgnn_loop true ls s Xu Xv.
  (** bgnn.py:120-151, 251-284 [train_with_cascaded]: layer by layer, [train k] is what the optimiser makes of layer [k] given the
      matrices it is trained with (true side, other side); the layers are updated in place.  Returns the trained layers and the
      result. *)
  Section Train.
    Variable train : nat -> omat (T := T) -> omat (T := T) -> lin (T := T) * (omat (T := T) -> res (omat (T := T))) -> lin (T := T) * (omat (T := T) -> res (omat (T := T))).
    Fixpoint cascade (k : nat) (toU : bool) (ls : list (lin * (omat -> res omat))) (s : bigraph T) (Xu Xv : omat) : res (list (lin * (omat -> res omat)) * omat) :=
      match ls with
      | [] => Ok ([], Xu)
      | l :: r =>
          let l' := if toU then train k Xu Xv l else train k Xv Xu l in
          if toU then rbind (bstep true l' s Xv) (fun Y => rbind (cascade (S k) false r s Y Xv) (fun o => Ok (l' :: fst o, snd o)))
          else rbind (bstep false l' s Xu) (fun Y => rbind (cascade (S k) true r s Xu Y) (fun o => Ok (l' :: fst o, snd o)))
      end.
  End Train.
  (** bgnn.py:45, 48 *)
  Definition adv_post (tanh : T -> T) (Y : omat (T := T)) : res omat := Ok (map (map tanh) Y).
  (** bgnn.py:287-300 [Decoder] in evaluation mode, after the [tanh] of lines 195, 198; [rows]: of its input *)
  Definition mlp_post (tanh relu : T -> T) (d1 d2 : lin (T := T)) (rows : list Z) (Y : omat (T := T)) : res omat :=
    rbind (linear d1 (map vec (map (map tanh) Y))) (fun H =>
    rbind (linear d2 (map vec (map (fun h => map (fun i => relu (h i)) rows) H))) (fun O =>
      Ok (map (fun h => map (fun i => tanh (h i)) rows) O))).
End BGNN.
