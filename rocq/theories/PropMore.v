(** Properties C171, C172: the matrices R of a hypergraph, self-loops of bipartite graphs. *)
From Coq Require Import String Ring QArith Qcanon.
From Verif Require Import Num PyDict PyDictFacts Coo CooFacts MatFacts ModelBase CacheFacts GraphFacts StoreFacts ModelGraph ModelDiGraph SpecBiGraph ModelBiGraph BiGraphFacts
  ModelHyper SpecHyper HyperFacts HyperStore HyperReach HyperOps ModelUtils ModelMore.
Set Implicit Arguments.
Local Open Scope string_scope.
Local Open Scope list_scope.
Local Open Scope Z_scope.

(** * C171 *)
Lemma fetch_R_is {T} {N : Num T} v2e (d : dict (list Z) T) : fetch_R v2e d = Err (match dkeys d with [] => TypeError | _ => KeyError end).
Proof. unfold fetch_R. destruct d as [|[e w] d]; [reflexivity|]. cbn. destruct v2e; reflexivity. Qed.
(** No call of R_v2e, R_e2v or their variants for one group succeeds. *)
Theorem C171_R_actual : forall (T : Type) (N : Num T) nv e w vw m ops (s : hypergraph T) gs v2e,
  h_reach nv e w vw m ops s -> m <> MOther -> Forall doc_op ops -> h_parts s gs ->
  (forall g es ws, In (g, (es, ws)) gs -> snd (get_R v2e (Some g) s) = Err (match es with [] => TypeError | _ => KeyError end)) /\
  (forall g, ~ In g (map fst gs) -> snd (get_R v2e (Some g) s) = Err AssertionError) /\
  snd (get_R v2e None s) = Err (match gs with [] => RuntimeError | (_, ([], _)) :: _ => TypeError | _ => KeyError end) /\
  forall sc, fst (get_R v2e sc s) = s.
Proof.
  intros T N nv e w vw m ops s gs v2e H M D P. destruct (reach_hst H M D) as [C W NV PN V]. pose proof (parts_eq C W P) as ->. unfold parts. split; [|split; [|split]].
  - intros g es ws I. apply in_map_iff in I as ([g' d] & E & I). cbn [fst snd] in E. injection E as -> <- <-. cbn [get_R bind ask snd].
    destruct W as [W0 _]. rewrite (In_dget g d W0 I). cbn [lift snd]. rewrite fetch_R_is. destruct (dkeys d); reflexivity.
  - intros g NI. cbn [get_R bind ask snd]. rewrite map_map in NI. cbn [fst] in NI. replace (dget g (h_gr (st_raw s))) with (@None (dict (list Z) T)); [reflexivity|].
    symmetry. apply dget_None. exact NI.
  - cbn [get_R bind ask snd lift]. destruct (h_gr (st_raw s)) as [|[g d] r]; [reflexivity|]. cbn [map map_res fst snd]. rewrite fetch_R_is.
    destruct (dkeys d); reflexivity.
  - intros [g|]; cbn [get_R bind ask fst]; [|reflexivity]. destruct (dget g (h_gr (st_raw s))); reflexivity.
Qed.
Example C171_case : forall (T : Type) (N : Num T), exists s : hypergraph T, h_reach 3 (Some (HOne [0; 1])) WNone None MMean [] s /\
  h_parts s [("main", ([[0; 1]], [n1]))] /\ snd (get_R true None s) = Err KeyError.
Proof. intros T N. eexists. split; [eexists; split; reflexivity|]. split; [split; [reflexivity|repeat constructor]|reflexivity]. Qed.

(** * C172 *)
Section Loops.
  Variable T : Type.
  Context {N : Num T}.
  Hypothesis RT : ring_theory (@nz T N) n1 nadd nmul nsub nopp eq.
  Theorem C172_selfloops_actual : forall nu nv e w m ops (s : bigraph T) es ws B,
    b_reach nu nv e w m ops s -> snd (b_query bqE s) = Ok (OE es ws) -> snd (b_query bqB s) = Ok (OM B) ->
    let x := fst (l_add_extra (l_of s)) in
    (snd (l_e (l_of s)) = Ok (es, ws) /\ l_num_e (st_raw (l_of s)) = Z.of_nat (length es)) /\
    snd (l_e x) = Ok (es ++ map (fun v => (v, v)) (range nv), ws ++ map (fun _ => n1) (range nv)) /\
    l_num_e (st_raw x) = Z.of_nat (length es) + nv /\
    (nv <= nu -> exists B', snd (l_B x) = Ok B' /\ forall i j, mget B' i j = nadd (mget B i j) (if (0 <=? i) && (i <? nv) && (i =? j) then n1 else nz)) /\
    (nu < nv -> snd (l_B x) = Err RuntimeError) /\
    (snd (l_B (fst (l_remove_extra x))) = Ok B /\ snd (l_e (fst (l_remove_selfloop x))) = Ok (es, ws)).
  Proof.
    intros nu nv e w m ops s es ws B H Q1 Q2 x. destruct (breach_rel H) as (C & R & NU & NV & P).
    assert (Q0 : snd (l_e (l_of s)) = Ok (es, ws)).
    { revert Q1. cbn [b_query]. unfold bind, l_e, bget_e, memoE, memo. cbn [l_of st_cache].
      destruct (dget Ke (st_cache s)) as [v|]; [destruct (prjE v) as [[a b]|]; cbn; congruence|].
      unfold bind. cbn [ask ret l_of st_raw]. unfold l_edges. cbn [fst snd map]. rewrite !app_nil_r. cbn. congruence. }
    rewrite (good_answer (bgood_query bqE) C) in Q1. rewrite (good_answer (bgood_query bqB) C) in Q2. injection Q1 as <- <-.
    cbn [bp_query] in Q2. destruct (bp_B (st_raw s)) as [B0|] eqn:EB; [|discriminate]. cbn [res_map] in Q2. injection Q2 as ->.
    assert (XE : l_edges (st_raw x) = (dkeys (b_e (st_raw s)) ++ map (fun v => (v, v)) (range nv), dvals (b_e (st_raw s)) ++ map (fun _ => n1) (range nv))).
    { unfold l_edges, x. cbn [l_add_extra fst snd st_raw l_of]. rewrite NV. reflexivity. }
    assert (XN : l_num_e (st_raw x) = Z.of_nat (length (b_e (st_raw s))) + nv).
    { unfold l_num_e, x. cbn [l_add_extra fst snd st_raw l_of]. rewrite NV. reflexivity. }
    assert (LB : snd (l_B x) = mk_sparse nu nv (dkeys (b_e (st_raw s)) ++ map (fun v => (v, v)) (range nv)) (dvals (b_e (st_raw s)) ++ map (fun _ => n1) (range nv))).
    { unfold l_B, memoM, memo. change (st_cache x) with (@nil (ckey * cval T)). cbn [dget]. unfold bind at 1. cbn [ask]. rewrite XN.
      replace (Z.of_nat (length (b_e (st_raw s))) + nv =? 0) with false by (symmetry; apply Z.eqb_neq; lia).
      unfold bind at 1. unfold l_e, memoE, memo. change (st_cache x) with (@nil (ckey * cval T)). cbn [dget]. unfold bind at 1. cbn [ask ret]. rewrite XE. cbn [lift fst snd].
      change (b_nu (fst (st_raw x))) with (b_nu (st_raw s)). change (b_nv (fst (st_raw x))) with (b_nv (st_raw s)). rewrite NU, NV.
      destruct (mk_sparse _ _ _ _); reflexivity. }
    split; [split; [exact Q0|]|split; [|split; [|split; [|split; [|split]]]]].
    { unfold l_num_e, l_of. cbn [st_raw fst snd]. unfold braw_edges, dkeys. cbn [fst]. rewrite map_length. apply Z.add_0_r. }
    - unfold l_e, memoE, memo. change (st_cache x) with (@nil (ckey * cval T)). cbn [dget]. unfold bind. cbn [ask ret]. rewrite XE. reflexivity.
    - rewrite XN. unfold braw_edges, dkeys. cbn [fst]. rewrite map_length. reflexivity.
    - intros L. rewrite LB.
      assert (IR : forall i j, In (i, j) (dkeys (b_e (st_raw s))) -> 0 <= i < nu /\ 0 <= j < nv).
      { intros i j I. unfold bp_B in EB. destruct (Z.eqb_spec (braw_num_e (st_raw s)) 0) as [Z0|_].
        - unfold braw_num_e in Z0. destruct (b_e (st_raw s)); [destruct I|cbn [length] in Z0; exfalso; lia].
        - unfold mk_sparse, braw_edges in EB. cbn [fst snd] in EB. rewrite NU, NV in EB. destruct (forallb (in_box nu nv) (dkeys (b_e (st_raw s)))) eqn:F; [|discriminate].
          rewrite forallb_forall in F. specialize (F _ I). unfold in_box in F. cbn [fst snd] in F. rewrite !andb_true_iff, !Z.leb_le, !Z.ltb_lt in F. lia. }
      rewrite mk_sparse_ok.
      2:{ intros i j I. apply in_app_iff in I as [I|I]; [auto|]. apply in_map_iff in I as (v & E & I). injection E as <- <-. apply range_In in I. lia. }
      eexists. split; [reflexivity|]. intros i j. rewrite (mget_coalesce RT).
      rewrite combine_app by (unfold dkeys, dvals; rewrite !map_length; reflexivity).
      rewrite (mget_app RT). f_equal.
      + rewrite combine_keys_vals. unfold bp_B in EB. destruct (Z.eqb_spec (braw_num_e (st_raw s)) 0) as [Z0|_].
        * injection EB as <-. unfold braw_num_e in Z0. destruct (b_e (st_raw s)); [reflexivity|cbn [length] in Z0; exfalso; lia].
        * unfold braw_edges in EB. cbn [fst snd] in EB. rewrite NU, NV, mk_sparse_ok in EB by exact IR. injection EB as <-. rewrite (mget_coalesce RT), combine_keys_vals. reflexivity.
      + rewrite <- (mget_diag RT nv (fun _ => n1) i j). f_equal. unfold diag. generalize (range nv). intros l. induction l as [|v l IH]; [reflexivity|]. cbn [map combine]. f_equal. exact IH.
    - intros L. rewrite LB. unfold mk_sparse. replace (forallb (in_box nu nv) _) with false; [reflexivity|]. symmetry. apply not_true_is_false. intros F. rewrite forallb_forall in F.
      specialize (F (nv - 1, nv - 1)). unfold in_box in F. cbn [fst snd] in F. rewrite !andb_true_iff, !Z.leb_le, !Z.ltb_lt in F.
      assert (I : In (nv - 1, nv - 1) (dkeys (b_e (st_raw s)) ++ map (fun v => (v, v)) (range nv))); [|specialize (F I); lia].
      apply in_app_iff. right. apply in_map_iff. exists (nv - 1). split; [reflexivity|]. apply range_In. lia.
    - unfold l_B, memoM, memo. cbn [l_remove_extra fst st_cache dget]. unfold bind at 1. cbn [ask st_raw x l_add_extra l_of fst snd]. unfold l_num_e. cbn [fst snd].
      unfold bp_B in EB. unfold braw_num_e in EB. rewrite Z.add_0_r. destruct (Z.of_nat (length (b_e (st_raw s))) =? 0); [cbn [ret]; injection EB as <-; reflexivity|].
      unfold bind at 1. unfold l_e, memoE, memo. cbn [st_cache dget]. unfold bind at 1. cbn [ask ret st_raw]. unfold l_edges. cbn [fst snd lift map]. rewrite !app_nil_r.
      unfold braw_edges in EB. cbn [fst snd] in EB. rewrite EB. reflexivity.
    - unfold l_e, memoE, memo. cbn [l_remove_selfloop fst st_cache dget]. unfold bind at 1. cbn [ask ret st_raw x l_add_extra l_of fst snd]. unfold l_edges. cbn [fst snd map]. rewrite !app_nil_r. reflexivity.
  Qed.
  (** A clone made after the edges have been read still lists the loops, and does not count them. *)
  Theorem C172_clone_actual : forall nu nv e w m ops (s : bigraph T) es ws,
    b_reach nu nv e w m ops s -> snd (b_query bqE s) = Ok (OE es ws) ->
    let x := l_clone (fst (l_e (fst (l_add_extra (l_of s))))) in
    let y := l_clone (fst (l_add_extra (l_of s))) in
    snd (l_e x) = Ok (es ++ map (fun v => (v, v)) (range nv), ws ++ map (fun _ => n1) (range nv)) /\
    l_num_e (st_raw x) = Z.of_nat (length es) /\
    snd (l_e y) = Ok (es, ws) /\ l_num_e (st_raw y) = Z.of_nat (length es).
  Proof.
    intros nu nv e w m ops s es ws H Q1 x y. destruct (breach_rel H) as (C & R & NU & NV & P).
    rewrite (good_answer (bgood_query bqE) C) in Q1. injection Q1 as <- <-.
    split; [|split; [|split]].
    - rewrite <- NV. reflexivity.
    - unfold x, l_num_e, dkeys. rewrite map_length. cbn. lia.
    - unfold y, l_e, memoE, memo. cbn. unfold l_edges. cbn. rewrite !app_nil_r. reflexivity.
    - unfold y, l_num_e, dkeys. rewrite map_length. cbn. lia.
  Qed.
End Loops.
Local Notation q z := (Q2Qc (inject_Z z)).
Example C172_case : exists s : bigraph Qc, b_reach 3 2 (Some (EMany [(0, 1)])) (WList [q 5]) MMean [] s /\
  snd (b_query bqE s) = Ok (OE [(0, 1)] [q 5]) /\ (exists B, snd (b_query bqB s) = Ok (OM B)) /\
  snd (l_e (fst (l_add_extra (l_of s)))) = Ok ([(0, 1); (0, 0); (1, 1)], [q 5; q 1; q 1]).
Proof. eexists. split; [eexists; split; reflexivity|]. split; [reflexivity|]. split; [eexists; reflexivity|reflexivity]. Qed.
