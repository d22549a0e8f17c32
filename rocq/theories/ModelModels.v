(** Model of dhg/models: the ready-made networks, as compositions of the layers of ModelNN.v.  A feature matrix is the list of its
    columns, one number per vertex.  ([lightgcn] and [hypergcn_forward] are in ModelNN.v.)  *)
From Coq Require Import String Reals.
From Verif Require Import Num PyDict Coo ModelBase ModelGraph ModelBiGraph ModelHyper ModelConv ModelUtils ModelMetrics ModelNN.
Set Implicit Arguments.
Open Scope Z_scope.
Open Scope list_scope.

Section Models.
  Context {T : Type} {NT : Num T}.
  (** "for layer in self.layers: X = layer(X, g)", e.g. models/graphs/gcn.py:35-37 *)
  Fixpoint chain (ls : list (fmat (T := T) -> res (omat (T := T)))) (X : omat) : res omat :=
    match ls with
    | [] => Ok X
    | l :: r => rbind (l (map vec X)) (chain r)
    end.
  (** The code builds two layers, the second with [is_last]; here any number of layers with any configuration.
      models/graphs/gcn.py:24-37, models/graphs/graphsage.py:29-43 *)
  Definition gcn_model (ls : list (lin * tcfg)) (s : graph T) : omat -> res omat := chain (map (fun l => gcn_conv (fst l) (snd l) s) ls).
  Definition graphsage_model (ls : list (lin * tcfg)) (s : graph T) : omat -> res omat :=
    chain (map (fun l => graphsage_conv (fst l) (snd l) s) ls).
  (** models/hypergraphs/hgnn.py:28-45, hgnnp.py:28-45, hnhn.py:28-45, unignn.py:114-127 (UniSAGE), 154-171 (UniGIN) *)
  Definition hgnn_model (ls : list (lin * tcfg)) (s : hypergraph T) : omat -> res omat := chain (map (fun l => hgnn_conv (fst l) (snd l) s) ls).
  Definition hgnnp_model (ls : list (lin * tcfg)) (s : hypergraph T) : omat -> res omat := chain (map (fun l => hgnnp_conv (fst l) (snd l) s) ls).
  Definition hnhn_model (ls : list (lin * lin * tcfg)) (s : hypergraph T) : omat -> res omat :=
    chain (map (fun l => hnhn_conv (fst (fst l)) (snd (fst l)) (snd l) s) ls).
  Definition unisage_model (ls : list (lin * tcfg)) (s : hypergraph T) : omat -> res omat :=
    chain (map (fun l => unisage_conv (fst l) (snd l) s) ls).
  Definition unigin_model (ls : list (T * (lin * tcfg))) (s : hypergraph T) : omat -> res omat :=
    chain (map (fun l => unigin_conv (fst l) (fst (snd l)) (snd (snd l)) s) ls).

  (** nn/convs/common.py:19-54 [MLP]: linear maps, each followed by activation, batch normalisation and dropout (the last one
      not, with [is_last]); [rows]: the rows of the input *)
  Fixpoint mlp (rows : list Z) (ls : list (lin * tcfg)) (X : omat) : res omat :=
    match ls with
    | [] => Ok X
    | (th, t) :: r => rbind (linear th (map vec X)) (fun H => mlp rows r (tail t (map (fun h => map h rows) H)))
    end.
  (** models/graphs/gin.py:67-78: one linear prediction from the input and one from the output of every layer, added up *)
  Fixpoint gin_loop (s : graph T) (ls : list (T * list (lin * tcfg))) (preds : list lin) (X pred : omat) : res omat :=
    match ls, preds with
    | [], _ => Ok pred
    | _ :: _, [] => Err IndexError
    | (eps, net) :: r, p :: ps =>
        rbind (gin_conv eps (mlp (grows s) net) s (map vec X)) (fun X1 =>
        rbind (linear p (map vec X1)) (fun H =>
        rbind (add_cols (grows s) H pred) (fun pred1 => gin_loop s r ps X1 pred1)))
    end.
  Definition gin_model (ls : list (T * list (lin * tcfg))) (preds : list lin) (s : graph T) (X : omat) : res omat :=
    match preds with
    | [] => Err IndexError
    | p :: ps => rbind (linear p (map vec X)) (fun H => gin_loop s ls ps X (map (fun h => map h (grows s)) H))
    end.
End Models.

Section RealModels.
  Open Scope R_scope.
  (** models/graphs/gat.py:32-65: heads side by side, then one layer; [d1], [d2]: the two uses of the dropout layer; the
      dropout of attention scores is left out (evaluation mode) *)
  Record gat_head := mkhead { gh_th : lin (T := R); gh_src : lin (T := R); gh_dst : lin (T := R); gh_t : tcfg (T := R) }.
  Definition gat_layer (slope : R) (s : graph R) (h : gat_head) : fmat (T := R) -> res (omat (T := R)) :=
    gat_conv (gh_th h) (gh_src h) (gh_dst h) slope (fun l => l) (gh_t h) s.
  Definition gat_model (slope : R) (heads : list gat_head) (out : gat_head) (d1 d2 : omat (T := R) -> omat (T := R)) (s : graph R) (X : omat (T := R)) : res (omat (T := R)) :=
    rbind (multi_head "concat" (map (fun h => gat_layer slope s h (map vec (d1 X))) heads)) (fun Y => gat_layer slope s out (map vec (d2 Y))).
  (** models/hypergraphs/unignn.py:63-96 (UniGAT), 23-36 (UniGCN) *)
  Record ugat_head := mkuhead { uh_th : lin (T := R); uh_ae : lin (T := R); uh_t : tcfg (T := R) }.
  Definition unigat_layer (slope : R) (s : hypergraph R) (h : ugat_head) : fmat (T := R) -> res (omat (T := R)) :=
    unigat_conv (uh_th h) (uh_ae h) slope (fun l => l) (uh_t h) s.
  Definition unigat_model (slope : R) (heads : list ugat_head) (out : ugat_head) (d1 d2 : omat (T := R) -> omat (T := R)) (s : hypergraph R) (X : omat (T := R)) : res (omat (T := R)) :=
    rbind (multi_head "concat" (map (fun h => unigat_layer slope s h (map vec (d1 X))) heads)) (fun Y => unigat_layer slope s out (map vec (d2 Y))).
  Definition unigcn_model (ls : list (lin (T := R) * tcfg (T := R))) (s : hypergraph R) : omat (T := R) -> res (omat (T := R)) :=
    chain (map (fun l => unigcn_conv (fst l) (snd l) s) ls).
End RealModels.
