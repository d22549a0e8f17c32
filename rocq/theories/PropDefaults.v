(** Property C177: the default side of add_hyperedges_from_bigraph. *)
From Coq Require Import String Permutation QArith Qcanon.
From Verif Require Import Num PyDict PyDictFacts ModelBase ModelGraph ModelBiGraph SpecBiGraph BiGraphFacts BiGraphMatrix PropBiGraph
  SpecGraphOps  ModelHyper SpecHyper HyperStore HyperReach PropHyper ModelConv ConvFacts PropConv PropAdd ModelMore.
Set Implicit Arguments.
Local Open Scope string_scope.
Local Open Scope list_scope.
Local Open Scope Z_scope.
Local Notation q z := (Q2Qc (inject_Z z)).
Local Ltac qceq := repeat first [ match goal with |- @eq Qc _ _ => apply Qc_is_canon; vm_compute; reflexivity end | reflexivity | f_equal ].

(** A bipartite graph with sides of different size: the hypergraph made from it by default refuses the same bipartite graph when it is added by
    default, and takes it when the documented default is spelled out.  A hypergraph on as many vertices as V takes it by default: the new group
    is that of from_bigraph with U_as_vertex = False. *)
Theorem C177_default_actual : forall (T : Type) (N : Num T), half_ok N -> forall nu nv e w m ops (s : bigraph T) g,
  b_reach nu nv e w m ops s -> nonneg_new e -> Forall nonneg_bop ops -> 0 < nu -> 0 < nv -> nu <> nv ->
  (exists f, h_from_bigraph_opt None s = Ok f /\ h_from_bigraph_opt (Some true) s = Ok f /\
     h_add_from_bigraph_opt None s g f = (f, Err AssertionError) /\
     exists f', h_add_from_bigraph_opt (Some true) s g f = (f', Ok tt)) /\
  (forall e' w' vw' m' ops' (h : hypergraph T), h_reach nv e' w' vw' m' ops' h -> m' <> MOther -> Forall doc_op ops' ->
     exists f h', h_from_bigraph_opt (Some false) s = Ok f /\ h_add_from_bigraph_opt None s g h = (h', Ok tt) /\
       h_add_from_bigraph_opt (Some true) s g h = (h, Err AssertionError) /\
       (forall names, snd (h_query hqNames h) = Ok (ONames names) -> ~ In g names ->
          snd (h_query (hqE (Some g)) h') = snd (h_query (hqE (Some "main")) f))).
Proof.
  intros T N Hh nu nv e w m ops s g H NE NO PU PV D. destruct (breach_rel H) as (C & R & NU & NV & _).
  assert (PU' : 0 < (if true then nu else nv)) by exact PU. assert (PV' : 0 < (if false then nu else nv)) by exact PV.
  destruct (@C40_from_bigraph T N Hh nu nv e w m ops s true H NE NO PU') as (f & es & F & _).
  destruct (@C40_from_bigraph T N Hh nu nv e w m ops s false H NE NO PV') as (k & es' & K & _).
  unfold h_from_bigraph_opt, h_add_from_bigraph_opt. split.
  - assert (HF : exists x, h_reach nu (Some (HMany x)) WNone None MMean [] f).
    { revert F. unfold h_from_bigraph. destruct (bi_edges true s) as [x|]; cbn [rbind]; [|discriminate]. rewrite NU. intros F. exists x, f. split; [exact F|reflexivity]. }
    destruct HF as [x HF]. assert (MM : MMean <> MOther) by discriminate.
    exists f. split; [exact F|]. split; [exact F|]. split.
    + apply (proj1 (proj2 (@C150_add_source T N _ _ _ _ _ _ f (SrcBi false s) g HF MM (Forall_nil _)))). cbn [src_nv]. congruence.
    + destruct (proj1 (@C150_add_source T N _ _ _ _ _ _ f (SrcBi true s) g HF MM (Forall_nil _)) f F NU) as (f' & A & _). exists f'. exact A.
  - intros e' w' vw' m' ops' h HH M' D'.
    destruct (proj1 (@C150_add_source T N _ _ _ _ _ _ h (SrcBi false s) g HH M' D') k K NV) as (h' & A & B & _).
    exists k, h'. split; [exact K|]. split; [exact A|]. split; [|exact B].
    apply (proj1 (proj2 (@C150_add_source T N _ _ _ _ _ _ h (SrcBi true s) g HH M' D'))). cbn [src_nv]. congruence.
Qed.
(** with sides of equal size nothing is raised, and the hyperedges are those of the other side *)
Theorem C177_default_refuted : exists s h h', b_reach 3 3 (Some (EMany [(0, 0); (0, 1); (0, 2)])) (WNone (T := Qc)) MMean [] s /\
  h_from_bigraph_opt None s = Ok h /\ snd (h_query (hqE None) h) = Ok (OHE [[0]] [q 1]) /\
  h_add_from_bigraph_opt None s "other" h = (h', Ok tt) /\ snd (h_query (hqE (Some "other")) h') = Ok (OHE [[0; 1; 2]] [q 1]).
Proof.
  eexists _, _, _. split; [eexists; split; reflexivity|]. split; [reflexivity|]. split; [vm_compute; qceq|]. split; [reflexivity|]. vm_compute. qceq.
Qed.
Example C177_case : exists s, b_reach 2 3 (Some (EMany [(0, 0); (0, 1); (1, 2)])) (WNone (T := Qc)) MMean [] s /\ 0 < 2 /\ 0 < 3 /\ 2 <> 3.
Proof. eexists. split; [eexists; split; reflexivity|lia]. Qed.
