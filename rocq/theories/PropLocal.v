(** Properties C139, C140: a network of k layers sees k steps far. *)
From Coq Require Import String Ring Permutation Reals Lra QArith Qcanon.
From Verif Require Import Num PyDict PyDictFacts Coo CooFacts MatFacts RealFacts ModelBase CacheFacts ModelGraph GraphFacts SpecGraph SpecGraphOps StoreFacts
  GraphStore GraphMatrix GraphReach SoftmaxFacts PropGraph ModelHyper HyperFacts SpecHyper HyperStore HyperView HyperMatrix HyperPass HyperReach HyperOps PropHyper
  ModelConv ModelUtils ModelNN ModelModels SpecNN NNFacts PropLayers SpecLocal LocalFacts.
Set Implicit Arguments.
Local Open Scope list_scope.
Local Open Scope Z_scope.
Local Notation q z := (Q2Qc (inject_Z z)).

(** the edges of a graph, as a relation *)
Definition linked {T} (g : agraph T) (v u : Z) : Prop := aw g v u <> None.

Section Help.
  Context {T : Type} {N : Num T} (RT : ring_theory (@nz T N) n1 nadd nmul nsub nopp eq).
  Add Ring TRing20 : RT.
  Lemma stacked_st (ls : list (lin (T := T) * tcfg (T := T))) dup nv c : forall n, stacked n ls dup nv c ->
    (fix st n ls := match ls with [] => n = c | a :: r => exists h, (fits (fst a) (if dup then n + n else n)%nat h /\ quiet h nv (snd a)) /\ st h r end) n ls.
  Proof. induction ls as [|[th t] ls IH]; intros n S; cbn in *; auto. destruct S as (h & F & Q & S). exists h.
    split; [split; [exact F|exact Q]|]. apply IH. exact S. Qed.
  Lemma affine_ext (L : lin (T := T)) n x y j : (forall k, x k = y k) -> affine L n x j = affine L n y j.
  Proof. intros E. unfold affine. f_equal. apply sumf_ext. intros k. rewrite E. reflexivity. Qed.
  Lemma rowlen (X : list (list T)) n nv : shaped X n nv -> length (map vec X) = n.
  Proof. intros [L _]. rewrite map_length. exact L. Qed.
  (** a weighted sum over the vertices that leaves out what cannot be seen *)
  Lemma seen_sum nv (a : Z -> T) (f f' : Z -> T) : (forall u, 0 <= u < nv -> f u = f' u \/ a u = nz) ->
    sumf (range nv) (fun u => nmul (a u) (f u)) = sumf (range nv) (fun u => nmul (a u) (f' u)).
  Proof using RT.
    intros E. apply sumf_ext_in. intros u U. apply range_In in U. destruct (E u U) as [->| ->]; [reflexivity|]. ring.
  Qed.
  Lemma eqb_dec i j : (if i =? j then @n1 T N else nz) = nz \/ j = i.
  Proof. destruct (Z.eqb_spec i j); auto. Qed.
  Lemma coeff_zero nv (g : agraph T) v u : linked g v u \/ u = v \/ gcn_coeff nv g v u = nz.
  Proof using RT.
    unfold linked. destruct (aw g v u) eqn:E; [left; discriminate|right]. destruct (Z.eq_dec u v) as [->|NE]; auto. right.
    unfold gcn_coeff, ghat. rewrite E. cbn [wt]. replace (v =? u) with false by (symmetry; apply Z.eqb_neq; auto). ring.
  Qed.
  Lemma adj_zero (g : agraph T) v u : linked g v u \/ u = v \/ a_adj g v u = nz.
  Proof using RT.
    unfold linked. destruct (aw g v u) eqn:E; [left; discriminate|right]. destruct (Z.eq_dec u v) as [->|NE]; auto. right.
    unfold a_adj. rewrite E. cbn [wt]. replace (v =? u) with false by (symmetry; apply Z.eqb_neq; auto). cbn. ring.
  Qed.
  Lemma share_zero es (ws : list T) v u : share es v u \/ hshare es ws v u = nz.
  Proof using RT.
    destruct (existsb (fun e => zmem v e && zmem u e) es) eqn:E.
    - left. apply existsb_exists in E as (e & I & B). apply andb_true_iff in B as [B1 B2]. exists e. split; auto. split; apply zmem_In; auto.
    - right. unfold hshare. transitivity (sumf (combine es ws) (fun _ => @nz T N)).
      + apply sumf_ext_in. intros [e x] I. cbn [fst snd]. destruct (zmem v e && zmem u e) eqn:B; auto. exfalso.
        assert (X : existsb (fun e => zmem v e && zmem u e) es = true) by (apply existsb_exists; exists e; split; [eapply in_combine_l; eauto|exact B]). congruence.
      + generalize (combine es ws). intros l. induction l as [|a l IH]; cbn; [reflexivity|]. rewrite IH. ring.
  Qed.
  Lemma nthe_share es i v u : 0 <= i < Z.of_nat (length es) -> In v (nthe es i) -> In u (nthe es i) -> share es v u.
  Proof. intros I A B. exists (nthe es i). split; auto. unfold nthe. apply nth_In. lia. Qed.
End Help.

(** * C139 *)
Section Graphs.
  Context (T : Type) (N : Num T) (RT : ring_theory (@nz T N) n1 nadd nmul nsub nopp eq).
  Context (nv : Z) (e : option earg) (w : warg T) (ex : bool) (m : mop) (ops : list (gop T)) (s : graph T).
  Context (H : g_reach nv e w ex m ops s) (NE : nonneg_new e) (NO : Forall nonneg_op ops).
  Lemma gcn_local th t n c : fits th n c -> quiet c nv t ->
    sees (fun X => gcn_conv th t s (map vec X)) n c nv (linked (g_spec nv e w ex m ops)) 1.
  Proof using All.
    intros F Q. apply (@gives_sees T N true (fun X t => gcn_conv th t s X)); auto. intros X X' S S'.
    rewrite <- (rowlen S) in F. pose proof (C69_gcn RT (map vec X) (t_act t) H NE NO F) as G. rewrite (rowlen S), <- (rowlen S') in F.
    pose proof (C69_gcn RT (map vec X') (t_act t) H NE NO F) as G'. eexists; eexists. split; [exact G|]. split; [exact G'|].
    intros v V A j J. cbv beta. rewrite (rowlen S), (rowlen S'). apply (seen_sum RT). intros u U.
    destruct (coeff_zero RT nv (g_spec nv e w ex m ops) v u) as [L|[->|Z]]; auto; left; apply affine_ext; intros k; apply chan_row; auto.
  Qed.
  Lemma sage_local th t n c : fits th (n + n) c -> quiet c nv t ->
    sees (fun X => graphsage_conv th t s (map vec X)) n c nv (linked (g_spec nv e w ex m ops)) 1.
  Proof using All.
    intros F Q. apply (@gives_sees T N true (fun X t => graphsage_conv th t s X)); auto. intros X X' S S'.
    rewrite <- (rowlen S) in F. pose proof (C69_graphsage RT (map vec X) (t_act t) H NE NO F) as G. rewrite (rowlen S), <- (rowlen S') in F.
    pose proof (C69_graphsage RT (map vec X') (t_act t) H NE NO F) as G'. eexists; eexists. split; [exact G|]. split; [exact G'|].
    intros v V A j J. cbv beta. rewrite (rowlen S), (rowlen S'). apply affine_ext. intros k. destruct (Nat.ltb k n); [apply chan_row; auto|].
    f_equal. apply (seen_sum RT). intros u U.
    destruct (adj_zero RT (g_spec nv e w ex m ops) v u) as [L|[->|Z]]; auto; left; apply chan_row; auto.
  Qed.
  Lemma mlp_rows (net : list (lin * tcfg)) : forall n c X X', stacked n net false nv c -> shaped X n nv -> shaped X' n nv ->
    exists Y Y', mlp (grows s) net X = Ok Y /\ mlp (grows s) net X' = Ok Y' /\ shaped Y c nv /\ shaped Y' c nv /\
      forall v, 0 <= v < nv -> row X v = row X' v -> row Y v = row Y' v.
  Proof using H.
    induction net as [|[th t] net IH]; intros n c X X' ST S S'; cbn [stacked] in ST.
    - subst. exists X, X'. repeat (split; auto).
    - destruct ST as (h & F & Q & ST). cbn [mlp].
      rewrite <- (rowlen S) in F. destruct (linear_spec _ F) as (Y & E & L & D). rewrite (rowlen S), <- (rowlen S') in F.
      destruct (linear_spec _ F) as (Y' & E' & L' & D'). rewrite E, E'. cbn [rbind]. rewrite (graph_rows H), !map_range_mat, L, L'.
      destruct (tail_facts Q (mat_shaped h nv (chan Y))) as [S1 R1]. destruct (tail_facts Q (mat_shaped h nv (chan Y'))) as [S1' _].
      destruct (IH _ _ _ _ ST S1 S1') as (Z & Z' & EZ & EZ' & SZ & SZ' & A). rewrite (graph_rows H) in EZ, EZ'. exists Z, Z'. repeat (split; auto).
      intros v V RV. apply A; auto. apply R1; auto; [apply mat_shaped|]. apply row_entries with (c := h) (nv := nv); try apply mat_shaped.
      intros j J. rewrite !mat_entry by auto. rewrite D, D' by auto. rewrite (rowlen S), (rowlen S'). apply affine_ext. intros k. apply chan_row; auto.
  Qed.
  Lemma gin_local eps net n c : stacked n net false nv c ->
    sees (fun X => gin_conv eps (mlp (grows s) net) s (map vec X)) n c nv (linked (g_spec nv e w ex m ops)) 1.
  Proof using All.
    intros ST X X' S S'.
    destruct (C69_gin RT eps (map vec X) H NE NO) as (Z & SZ & EZ & FZ). destruct (C69_gin RT eps (map vec X') H NE NO) as (Z' & SZ' & EZ' & FZ').
    rewrite (rowlen S) in *. rewrite (rowlen S') in *. rewrite EZ, EZ'.
    destruct (@mlp_rows net n c Z Z' ST SZ SZ') as (Y & Y' & EY & EY' & SY & SY' & A). exists Y, Y'. repeat (split; auto).
    intros v V B. apply A; auto. apply row_entries with (c := n) (nv := nv); auto. intros j J. rewrite FZ, FZ' by auto.
    assert (RV : row X v = row X' v) by (apply B; auto; apply within_mono; reflexivity).
    f_equal; [f_equal; apply chan_row; auto|]. apply (seen_sum RT). intros u U.
    destruct (adj_zero RT (g_spec nv e w ex m ops) v u) as [L|[->|Z0]]; auto; left; apply chan_row; auto. apply B; auto. cbn. eauto.
  Qed.
End Graphs.

Theorem C139_gcn : forall (T : Type) (N : Num T), ring_theory (@nz T N) n1 nadd nmul nsub nopp eq ->
  forall nv e w ex m ops (s : graph T) ls n c, g_reach nv e w ex m ops s -> nonneg_new e -> Forall nonneg_op ops -> stacked n ls false nv c ->
  sees (gcn_model ls s) n c nv (linked (g_spec nv e w ex m ops)) (length ls).
Proof.
  intros T N RT nv e w ex m ops s ls n c H NE NO ST. unfold gcn_model.
  apply (chain_sees (fun l => gcn_conv (fst l) (snd l) s) (fun n a h => fits (fst a) n h /\ quiet h nv (snd a))); [|apply (stacked_st ls false nv c n ST)].
  intros a k h [F Q]. apply gcn_local; auto.
Qed.
Theorem C139_graphsage : forall (T : Type) (N : Num T), ring_theory (@nz T N) n1 nadd nmul nsub nopp eq ->
  forall nv e w ex m ops (s : graph T) ls n c, g_reach nv e w ex m ops s -> nonneg_new e -> Forall nonneg_op ops -> stacked n ls true nv c ->
  sees (graphsage_model ls s) n c nv (linked (g_spec nv e w ex m ops)) (length ls).
Proof.
  intros T N RT nv e w ex m ops s ls n c H NE NO ST. unfold graphsage_model.
  apply (chain_sees (fun l => graphsage_conv (fst l) (snd l) s) (fun n a h => fits (fst a) (n + n) h /\ quiet h nv (snd a))); [|apply (stacked_st ls true nv c n ST)].
  intros a k h [F Q]. apply sage_local; auto.
Qed.
(** GIN: the networks of the layers and the linear predictions fit together *)
Fixpoint gin_fits {T} {N : Num T} (n : nat) (ls : list (T * list (lin (T := T) * tcfg (T := T)))) (preds : list (lin (T := T))) (nv : Z) (c : nat) : Prop :=
  match ls, preds with
  | [], p :: _ => fits p n c
  | (_, net) :: r, p :: ps => fits p n c /\ exists h, stacked n net false nv h /\ gin_fits h r ps nv c
  | _, [] => False
  end.
Theorem C139_gin : forall (T : Type) (N : Num T), ring_theory (@nz T N) n1 nadd nmul nsub nopp eq ->
  forall nv e w ex m ops (s : graph T) ls preds n c, g_reach nv e w ex m ops s -> nonneg_new e -> Forall nonneg_op ops -> gin_fits n ls preds nv c ->
  sees (gin_model ls preds s) n c nv (linked (g_spec nv e w ex m ops)) (length ls).
Proof.
  intros T N RT nv e w ex m ops s ls preds n c H NE NO G. set (g := g_spec nv e w ex m ops).
  assert (P1 : forall p n X X', fits p n c -> shaped X n nv -> shaped X' n nv -> exists Y Y', linear p (map vec X) = Ok Y /\ linear p (map vec X') = Ok Y' /\
      length Y = c /\ length Y' = c /\ forall v, 0 <= v < nv -> row X v = row X' v -> forall j, (j < c)%nat -> chan Y j v = chan Y' j v).
  { clear G. intros p k X X' F S S'. rewrite <- (rowlen S) in F. destruct (linear_spec _ F) as (Y & E & L & D). rewrite (rowlen S), <- (rowlen S') in F.
    destruct (linear_spec _ F) as (Y' & E' & L' & D'). exists Y, Y'. repeat (split; auto). intros v V RV j J. rewrite D, D' by auto.
    rewrite (rowlen S), (rowlen S'). apply affine_ext. intros i. apply chan_row; auto. }
  assert (LOOP : forall ls preds n X X' F F', 
      match ls with [] => True | (_, net) :: r => exists h, stacked n net false nv h /\ gin_fits h r preds nv c end ->
      shaped X n nv -> shaped X' n nv -> exists Y Y', gin_loop s ls preds X (mat c nv F) = Ok Y /\ gin_loop s ls preds X' (mat c nv F') = Ok Y' /\
        shaped Y c nv /\ shaped Y' c nv /\ forall v, 0 <= v < nv -> (forall u, 0 <= u < nv -> within (linked g) (length ls) v u -> row X u = row X' u) ->
          (forall j, (j < c)%nat -> F j v = F' j v) -> row Y v = row Y' v).
  { clear ls preds n G. induction ls as [|[eps net] ls IH]; intros preds n X X' F F' G S S'.
    - cbn [gin_loop]. exists (mat c nv F), (mat c nv F'). repeat (split; [apply mat_shaped || reflexivity|]). 
      intros v V _ EF. apply row_entries with (c := c) (nv := nv); try apply mat_shaped. intros j J. rewrite !mat_entry by auto. auto.
    - destruct G as (h & ST & G). destruct (@gin_local T N RT _ _ _ _ _ _ _ H NE NO eps net n h ST X X' S S') as (X1 & X1' & E1 & E1' & S1 & S1' & A1).
      destruct preds as [|p ps]; [destruct ls as [|[]]; contradiction|]. cbn [gin_loop]. rewrite E1, E1'. cbn [rbind].
      assert (FP : fits p h c /\ match ls with [] => True | (_, net) :: r => exists h', stacked h net false nv h' /\ gin_fits h' r ps nv c end)
        by (destruct ls as [|[]]; cbn in G; [split; [exact G|exact I]|exact G]). destruct FP as [FP G1].
      destruct (P1 p h X1 X1' FP S1 S1') as (Y & Y' & -> & -> & L & L' & D). cbn [rbind].
      rewrite (graph_rows H). pose proof (@add_cols_mat T N nv Y F) as A3. pose proof (@add_cols_mat T N nv Y' F') as A3'. rewrite L in A3. rewrite L' in A3'.
      rewrite A3, A3'. cbn [rbind].
      destruct (IH ps h X1 X1' (fun j i => nadd (F j i) (chan Y j i)) (fun j i => nadd (F' j i) (chan Y' j i)) G1 S1 S1') as (Z & Z' & EZ & EZ' & SZ & SZ' & A2).
      exists Z, Z'. repeat (split; auto). intros v V B EF.
      assert (RX : forall u, 0 <= u < nv -> within (linked g) (length ls) v u -> row X1 u = row X1' u).
      { intros u U W. apply A1; auto. intros x XR (y & EY & WX). cbn in EY. subst y. apply B; auto. cbn [length]. eapply within_step; eauto. }
      apply A2; auto. intros j J. f_equal; auto. apply D; auto. apply RX; auto. clear. induction (length ls); cbn; eauto. }
  intros X X' S S'. unfold gin_model. destruct preds as [|p ps]; [destruct ls as [|[]]; contradiction|].
  assert (FP : fits p n c /\ match ls with [] => True | (_, net) :: r => exists h', stacked n net false nv h' /\ gin_fits h' r ps nv c end)
    by (destruct ls as [|[]]; cbn in G; [split; [exact G|exact I]|exact G]). destruct FP as [FP G1].
  destruct (P1 p n X X' FP S S') as (Y & Y' & -> & -> & L & L' & D). cbn [rbind]. rewrite (graph_rows H), !map_range_mat, L, L'.
  destruct (LOOP ls ps n X X' (chan Y) (chan Y') G1 S S') as (Z & Z' & EZ & EZ' & SZ & SZ' & A). exists Z, Z'. repeat (split; auto).
  intros v V B. apply A; auto. intros j J. apply D; auto. apply B; auto. clear. induction (length ls); cbn; eauto.
Qed.

(** heads side by side *)
Section Heads.
  Context {T : Type} {N : Num T}.
  Lemma concat_shaped (outs : list (list (list T))) ws nv : Forall2 (fun Y h => shaped Y h nv) outs ws -> shaped (concat outs) (list_sum ws) nv.
  Proof.
    intros F. induction F as [|Y h outs ws [L C] F [L' C']]; [split; constructor|]. split; cbn; [rewrite app_length, L, L'; reflexivity|]. apply Forall_app; auto.
  Qed.
  Lemma row_concat (outs : list (list (list T))) v : row (concat outs) v = concat (map (fun Y => row Y v) outs).
  Proof. unfold row. rewrite concat_map. reflexivity. Qed.
  Lemma multi_head_ok (outs : list (list (list T))) ws nv : outs <> [] -> Forall2 (fun Y h => shaped Y h nv) outs ws -> multi_head "concat" (map (@Ok _) outs) = Ok (concat outs).
  Proof.
    intros NN F. assert (M : map_res (fun h : res (list (list T)) => h) (map (@Ok _) outs) = Ok outs).
    { clear. induction outs as [|Y outs IH]; cbn; [reflexivity|]. rewrite IH. reflexivity. }
    assert (C : forall Y, In Y outs -> forall x, In x Y -> length x = Z.to_nat nv).
    { clear NN M. induction F as [|Y h outs ws [_ C] F IH]; intros Y1 I1; [destruct I1|].
      destruct I1 as [<-|I1]; [rewrite Forall_forall in C; auto|]. apply IH. exact I1. }
    unfold multi_head, omat in *. rewrite M. cbn [rbind]. destruct outs as [|a r]; [congruence|]. change (String.eqb "concat" "concat") with true. cbv iota.
    destruct (forallb _ (a :: r)) eqn:B; [reflexivity|]. exfalso. rewrite <- not_true_iff_false in B. apply B. clear B.
    apply forallb_forall. intros b IB. apply forallb_forall. intros x IX. apply forallb_forall. intros y IY. apply Nat.eqb_eq.
    rewrite (C b IB x IX), (C a (or_introl eq_refl) y IY). reflexivity.
  Qed.
  Lemma heads_see {A} (f : A -> list (list T) -> res (list (list T))) n nv nb k (hs : list A) ws : hs <> [] -> Forall2 (fun a h => sees (f a) n h nv nb k) hs ws ->
    sees (fun X => multi_head "concat" (map (fun a => f a X) hs)) n (list_sum ws) nv nb k.
  Proof.
    intros NN F X X' S S'.
    assert (O : exists outs outs', map (fun a => f a X) hs = map (@Ok _) outs /\ map (fun a => f a X') hs = map (@Ok _) outs' /\
      Forall2 (fun Y h => shaped Y h nv) outs ws /\ Forall2 (fun Y h => shaped Y h nv) outs' ws /\
      forall v, 0 <= v < nv -> (forall u, 0 <= u < nv -> within nb k v u -> row X u = row X' u) -> map (fun Y => row Y v) outs = map (fun Y => row Y v) outs').
    { clear NN. induction F as [|a h hs ws SA F (outs & outs' & E & E' & SO & SO' & R)]; [exists [], []; repeat (split; auto)|].
      destruct (SA X X' S S') as (Y & Y' & EY & EY' & SY & SY' & RY). exists (Y :: outs), (Y' :: outs'). cbn [map]. rewrite EY, EY', E, E'.
      repeat (split; auto). intros v V B. f_equal; auto. }
    destruct O as (outs & outs' & E & E' & SO & SO' & R). assert (N1 : outs <> []) by (intros ->; destruct hs; [congruence|discriminate]).
    assert (N2 : outs' <> []) by (intros ->; destruct hs; [congruence|discriminate]).
    exists (concat outs), (concat outs'). rewrite E, E', (multi_head_ok N1 SO), (multi_head_ok N2 SO'). repeat (split; [auto using concat_shaped|]).
    intros v V B. rewrite !row_concat, (R v V B). reflexivity.
  Qed.
End Heads.
Definition gat_fits (nv : Z) (n : nat) (h : gat_head) (c : nat) : Prop :=
  fits (gh_th h) n c /\ fits (gh_src h) c 1 /\ fits (gh_dst h) c 1 /\ quiet c nv (gh_t h).
Lemma gat_local nv e w ex m ops (s : graph R) src slope n h c : g_reach nv e w ex m ops s -> nonneg_new e -> Forall nonneg_op ops ->
  snd (g_query QEsrc s) = Ok (OIdx src) -> length src <> 1%nat -> gat_fits nv n h c ->
  sees (fun X => gat_layer slope s h (map vec X)) n c nv (linked (g_spec nv e w ex m ops)) 1.
Proof.
  intros H NE NO ES LS (F & FA & FB & Q). unfold gat_layer.
  apply (@gives_sees R _ false (fun X t => gat_conv (gh_th h) (gh_src h) (gh_dst h) slope (fun l => l) t s X)); auto. intros X X' S S'.
  rewrite <- (rowlen S) in F. destruct (@C69_gat nv e w ex m ops s (gh_th h) (gh_src h) (gh_dst h) slope (map vec X) c (t_act (gh_t h)) src H NE NO F FA FB ES LS) as (att & SM & G).
  rewrite (rowlen S), <- (rowlen S') in F.
  destruct (@C69_gat nv e w ex m ops s (gh_th h) (gh_src h) (gh_dst h) slope (map vec X') c (t_act (gh_t h)) src H NE NO F FA FB ES LS) as (att' & SM' & G').
  rewrite (rowlen S) in *. rewrite (rowlen S') in *. eexists; eexists. split; [exact G|]. split; [exact G'|].
  intros v V A j J. cbv beta.
  assert (X1 : forall u, 0 <= u < nv -> a_edge (g_spec nv e w ex m ops) v u \/ u = v -> forall j, affine (gh_th h) n (fun k => chan (map vec X) k u) j = affine (gh_th h) n (fun k => chan (map vec X') k u) j).
  { intros u U EU i. apply affine_ext. intros k. apply chan_row. apply A; auto. unfold a_edge, linked in *. destruct EU as [[|[]]|]; auto. }
  assert (AT : forall u, att v u = att' v u).
  { eapply softmax_unique with (i := v); [| | |exact SM|exact SM'].
    - intros u (_ & _ & U). exact U.
    - intros u. unfold a_edge. destruct (aw _ v u) as [x|] eqn:EW.
      + destruct (Z_lt_ge_dec u nv); [|right; lia]. destruct (Z_le_gt_dec 0 u); [|right; lia]. left. split; [left; discriminate|lia].
      + destruct (Z.eq_dec v u) as [<-|NVU]; [|right; intros ([D|[D _]] & _); congruence]. destruct (ax _) eqn:EX; [left; auto|].
        right. intros ([D|[_ D]] & _); congruence.
    - intros u (EU & _ & U). cbv beta. do 2 f_equal. f_equal; apply affine_ext; intros k; apply X1; auto. }
  apply sumf_ext_in. intros u U. apply range_In in U. rewrite AT. destruct SM' as (_ & Z0 & _).
  destruct (aw (g_spec nv e w ex m ops) v u) as [x|] eqn:EW; [rewrite X1; auto; left; left; congruence|].
  destruct (Z.eq_dec u v) as [->|NVU]; [rewrite X1; auto|]. rewrite Z0; [lra|]. intros ([D|[D _]] & _); congruence.
Qed.
Theorem C139_gat : forall nv e w ex m ops (s : graph R) src slope n heads ws out c d1 d2,
  g_reach nv e w ex m ops s -> nonneg_new e -> Forall nonneg_op ops -> snd (g_query QEsrc s) = Ok (OIdx src) -> length src <> 1%nat ->
  heads <> [] -> Forall2 (gat_fits nv n) heads ws -> gat_fits nv (list_sum ws) out c -> rowwise n nv d1 -> rowwise (list_sum ws) nv d2 ->
  sees (gat_model slope heads out d1 d2 s) n c nv (linked (g_spec nv e w ex m ops)) 2.
Proof.
  intros nv e w ex m ops s src slope n heads ws out c d1 d2 H NE NO ES LS NH F FO D1 D2. unfold gat_model.
  apply (@sees_step R _ (fun X => multi_head "concat" (map (fun h => gat_layer slope s h (map vec (d1 X))) heads))
           (fun Y => gat_layer slope s out (map vec (d2 Y))) n (list_sum ws) c).
  - apply heads_see; auto. clear NH FO D2. induction F as [|h k heads ws FH F IH]; constructor; auto.
    apply (sees_pre (g := fun X => gat_layer slope s h (map vec X)) D1). eapply gat_local; eauto.
  - apply (sees_pre (g := fun X => gat_layer slope s out (map vec X)) D2). eapply gat_local; eauto.
Qed.

(** * C140 *)
Section Hypergraphs.
  Context (T : Type) (N : Num T) (RT : ring_theory (@nz T N) n1 nadd nmul nsub nopp eq).
  Add Ring TRing21 : RT.
  Context (nv : Z) (e : option harg) (w : warg T) (vw : option (list T)) (m : mop) (ops : list (hop T)) (s : hypergraph T) (es : list (list Z)) (ws : list T).
  Context (H : h_clean_reach nv e w vw m ops s) (RP : h_reports s None es ws).
  Lemma hgnn_local th t n c : fits th n c -> quiet c nv t -> sees (fun X => hgnn_conv th t s (map vec X)) n c nv (share es) 1.
  Proof using All.
    intros F Q. apply (@gives_sees T N true (fun X t => hgnn_conv th t s X)); auto. intros X X' S S'.
    rewrite <- (rowlen S) in F. destruct (C69_hgnn RT (map vec X) (t_act t) H RP F) as [G _]. rewrite (rowlen S), <- (rowlen S') in F.
    destruct (C69_hgnn RT (map vec X') (t_act t) H RP F) as [G' _]. eexists; eexists. split; [exact G|]. split; [exact G'|].
    intros v V A j J. cbv beta zeta. rewrite (rowlen S), (rowlen S'). apply (seen_sum RT). intros u U.
    destruct (share_zero RT es ws v u) as [L|Z0]; [left; apply affine_ext; intros k; apply chan_row; auto|]. right. unfold hgnn_coeff. rewrite Z0.
    ring.
  Qed.
  Lemma hgnnp_local th t n c : fits th n c -> quiet c nv t -> sees (fun X => hgnnp_conv th t s (map vec X)) n c nv (share es) 1.
  Proof using All.
    intros F Q. apply (@gives_sees T N true (fun X t => hgnnp_conv th t s X)); auto. intros X X' S S'.
    rewrite <- (rowlen S) in F. destruct (C69_hgnn RT (map vec X) (t_act t) H RP F) as [_ G]. rewrite (rowlen S), <- (rowlen S') in F.
    destruct (C69_hgnn RT (map vec X') (t_act t) H RP F) as [_ G']. eexists; eexists. split; [exact G|]. split; [exact G'|].
    intros v V A j J. cbv beta zeta. rewrite (rowlen S), (rowlen S'). f_equal. apply (seen_sum RT). intros u U.
    destruct (share_zero RT es ws v u) as [L|Z0]; [left; apply affine_ext; intros k; apply chan_row; auto|auto].
  Qed.
  (** hyperedges of [v] hold only what [v] can see *)
  Lemma members_in i u : 0 <= i < Z.of_nat (length es) -> In u (nthe es i) -> 0 <= u < nv.
  Proof using H RP. intros I U. exact (inside H RP u I U). Qed.
  Lemma mean_local th (X X' : list (list T)) n v i j : shaped X n nv -> shaped X' n nv -> (forall u, 0 <= u < nv -> u = v \/ share es v u -> row X u = row X' u) ->
    0 <= i < Z.of_nat (length es) -> In v (nthe es i) ->
    edge_mean es ws (fun u => affine th n (fun k => chan (map vec X) k u) j) i = edge_mean es ws (fun u => affine th n (fun k => chan (map vec X') k u) j) i.
  Proof using H RP.
    intros S S' A IR IV. apply edge_mean_ext. intros u IU. apply affine_ext. intros k. apply chan_row. apply A; [eapply members_in; eauto|]. right. eapply nthe_share; eauto.
  Qed.
  Lemma hnhn_local th1 th2 t n c1 c2 : fits th1 n c1 -> fits th2 c1 c2 -> quiet c2 nv t -> sees (fun X => hnhn_conv th1 th2 t s (map vec X)) n c2 nv (share es) 1.
  Proof using All.
    intros F F2 Q. apply (@gives_sees T N true (fun X t => hnhn_conv th1 th2 t s X)); auto. intros X X' S S'.
    rewrite <- (rowlen S) in F. pose proof (C69_hnhn RT (map vec X) (t_act t) H RP F F2) as G. rewrite (rowlen S), <- (rowlen S') in F.
    pose proof (C69_hnhn RT (map vec X') (t_act t) H RP F F2) as G'. eexists; eexists. split; [exact G|]. split; [exact G'|].
    intros v V A j J. cbv beta zeta. rewrite (rowlen S), (rowlen S'). f_equal. apply inc_sum_ext. intros i IR IV. apply affine_ext. intros k. f_equal.
    eapply mean_local; eauto.
  Qed.
  Lemma unisage_local th t n c : fits th n c -> quiet c nv t -> sees (fun X => unisage_conv th t s (map vec X)) n c nv (share es) 1.
  Proof using All.
    intros F Q. apply (@gives_sees T N true (fun X t => unisage_conv th t s X)); auto. intros X X' S S'.
    rewrite <- (rowlen S) in F. pose proof (C69_unisage RT (map vec X) (t_act t) H RP F) as G. rewrite (rowlen S), <- (rowlen S') in F.
    pose proof (C69_unisage RT (map vec X') (t_act t) H RP F) as G'. eexists; eexists. split; [exact G|]. split; [exact G'|].
    intros v V A j J. cbv beta zeta. rewrite (rowlen S), (rowlen S'). f_equal; [|apply affine_ext; intros k; apply chan_row; auto].
    apply inc_sum_ext. intros i IR IV. eapply mean_local; eauto.
  Qed.
  Lemma unigin_local eps th t n c : fits th n c -> quiet c nv t -> sees (fun X => unigin_conv eps th t s (map vec X)) n c nv (share es) 1.
  Proof using All.
    intros F Q. apply (@gives_sees T N true (fun X t => unigin_conv eps th t s X)); auto. intros X X' S S'.
    rewrite <- (rowlen S) in F. pose proof (C122_unigin_actual RT eps (map vec X) (t_act t) H RP F) as G. rewrite (rowlen S), <- (rowlen S') in F.
    pose proof (C122_unigin_actual RT eps (map vec X') (t_act t) H RP F) as G'. eexists; eexists. split; [exact G|]. split; [exact G'|].
    intros v V A j J. cbv beta zeta. rewrite (rowlen S), (rowlen S'). f_equal; [|apply affine_ext; intros k; apply chan_row; auto].
    f_equal. apply inc_sum_ext. intros i IR IV. eapply mean_local; eauto.
  Qed.
End Hypergraphs.

Theorem C140_hgnn : forall (T : Type) (N : Num T), ring_theory (@nz T N) n1 nadd nmul nsub nopp eq ->
  forall nv e w vw m ops (s : hypergraph T) es ws ls n c, h_clean_reach nv e w vw m ops s -> h_reports s None es ws -> stacked n ls false nv c ->
  sees (hgnn_model ls s) n c nv (share es) (length ls) /\ sees (hgnnp_model ls s) n c nv (share es) (length ls) /\
  sees (unisage_model ls s) n c nv (share es) (length ls).
Proof.
  intros T N RT nv e w vw m ops s es ws ls n c H RP ST. unfold hgnn_model, hgnnp_model, unisage_model. split; [|split].
  - apply (chain_sees (fun l => hgnn_conv (fst l) (snd l) s) (fun n a h => fits (fst a) n h /\ quiet h nv (snd a))); [|apply (stacked_st ls false nv c n ST)].
    intros a k h [F Q]. eapply hgnn_local; eauto.
  - apply (chain_sees (fun l => hgnnp_conv (fst l) (snd l) s) (fun n a h => fits (fst a) n h /\ quiet h nv (snd a))); [|apply (stacked_st ls false nv c n ST)].
    intros a k h [F Q]. eapply hgnnp_local; eauto.
  - apply (chain_sees (fun l => unisage_conv (fst l) (snd l) s) (fun n a h => fits (fst a) n h /\ quiet h nv (snd a))); [|apply (stacked_st ls false nv c n ST)].
    intros a k h [F Q]. eapply unisage_local; eauto.
Qed.
(** UniGIN: the parameters [eps] do not matter for the fit *)
Theorem C140_unigin : forall (T : Type) (N : Num T), ring_theory (@nz T N) n1 nadd nmul nsub nopp eq ->
  forall nv e w vw m ops (s : hypergraph T) es ws ls n c, h_clean_reach nv e w vw m ops s -> h_reports s None es ws -> stacked n (map snd ls) false nv c ->
  sees (unigin_model ls s) n c nv (share es) (length ls).
Proof.
  intros T N RT nv e w vw m ops s es ws ls n c H RP ST. unfold unigin_model.
  apply (chain_sees (fun l => unigin_conv (fst l) (fst (snd l)) (snd (snd l)) s) (fun n a h => fits (fst (snd a)) n h /\ quiet h nv (snd (snd a)))).
  - intros a k h [F Q]. eapply unigin_local; eauto.
  - revert n ST. induction ls as [|(ep & th & t) ls IH]; intros n ST; cbn in *; auto. destruct ST as (h & F & Q & ST). exists h. split; [split; [exact F|exact Q]|]. apply IH. exact ST.
Qed.
(** HNHN has two linear maps per layer *)
Fixpoint hnhn_fits {T} {N : Num T} (n : nat) (ls : list (lin (T := T) * lin (T := T) * tcfg (T := T))) (nv : Z) (c : nat) : Prop :=
  match ls with
  | [] => n = c
  | (th1, th2, t) :: r => exists h1 h2, fits th1 n h1 /\ fits th2 h1 h2 /\ quiet h2 nv t /\ hnhn_fits h2 r nv c
  end.
Theorem C140_hnhn : forall (T : Type) (N : Num T), ring_theory (@nz T N) n1 nadd nmul nsub nopp eq ->
  forall nv e w vw m ops (s : hypergraph T) es ws ls n c, h_clean_reach nv e w vw m ops s -> h_reports s None es ws -> hnhn_fits n ls nv c ->
  sees (hnhn_model ls s) n c nv (share es) (length ls).
Proof.
  intros T N RT nv e w vw m ops s es ws ls n c H RP ST. unfold hnhn_model.
  apply (chain_sees (fun l => hnhn_conv (fst (fst l)) (snd (fst l)) (snd l) s)
           (fun n a h => exists k, fits (fst (fst a)) n k /\ fits (snd (fst a)) k h /\ quiet h nv (snd a))).
  - intros a k h (c1 & F & F2 & Q). eapply hnhn_local; eauto.
  - revert n ST. induction ls as [|((th1 & th2) & t) ls IH]; intros n ST; cbn in *; auto. destruct ST as (h1 & h & F & F2 & Q & ST). exists h.
    split; [exists h1; split; [exact F|split; [exact F2|exact Q]]|]. apply IH. exact ST.
Qed.
Theorem C140_unigcn : forall nv e w vw m ops (s : hypergraph R) es ws ls n c, h_clean_reach nv e w vw m ops s -> h_reports s None es ws ->
  Forall (fun x => 0 < x)%R ws -> stacked n ls false nv c -> sees (unigcn_model ls s) n c nv (share es) (length ls).
Proof.
  intros nv e w vw m ops s es ws ls n c H RP PW ST. unfold unigcn_model.
  apply (chain_sees (fun l => unigcn_conv (fst l) (snd l) s) (fun n a h => fits (fst a) n h /\ quiet h nv (snd a))); [|apply (stacked_st ls false nv c n ST)].
  intros [th t] k h [F Q]. cbn [fst snd] in *. apply (@gives_sees R _ true (fun X t => unigcn_conv th t s X)); auto. intros X X' S S'.
  rewrite <- (rowlen S) in F. pose proof (@C69_unigcn _ _ _ _ _ _ _ _ _ th (map vec X) h (t_act t) H RP PW F) as G. rewrite (rowlen S), <- (rowlen S') in F.
  pose proof (@C69_unigcn _ _ _ _ _ _ _ _ _ th (map vec X') h (t_act t) H RP PW F) as G'. eexists; eexists. split; [exact G|]. split; [exact G'|].
  intros v V A j J. cbv beta zeta. rewrite (rowlen S), (rowlen S'). f_equal. apply inc_sum_ext. intros i IR IV. f_equal. eapply mean_local; eauto.
Qed.
Definition ugat_fits (nv : Z) (n : nat) (h : ugat_head) (c : nat) : Prop := fits (uh_th h) n c /\ fits (uh_ae h) c 1 /\ quiet c nv (uh_t h).
Lemma unigat_local nv e w vw m ops (s : hypergraph R) es ws src slope n h c : h_clean_reach nv e w vw m ops s -> h_reports s None es ws ->
  snd (h_query (hqE2vSrc None) s) = Ok (OIdx src) -> length src <> 1%nat -> ugat_fits nv n h c ->
  sees (fun X => unigat_layer slope s h (map vec X)) n c nv (share es) 1.
Proof.
  intros H RP ES LS (F & FA & Q). unfold unigat_layer.
  apply (@gives_sees R _ false (fun X t => unigat_conv (uh_th h) (uh_ae h) slope (fun l => l) t s X)); auto. intros X X' S S'.
  rewrite <- (rowlen S) in F. destruct (@C125_vertex_ignored_actual nv e w vw m ops s es ws (uh_th h) (uh_ae h) slope (map vec X) c (t_act (uh_t h)) src H RP F FA ES LS) as (att & SM & G).
  rewrite (rowlen S), <- (rowlen S') in F.
  destruct (@C125_vertex_ignored_actual nv e w vw m ops s es ws (uh_th h) (uh_ae h) slope (map vec X') c (t_act (uh_t h)) src H RP F FA ES LS) as (att' & SM' & G').
  rewrite (rowlen S) in *. rewrite (rowlen S') in *. eexists; eexists. split; [exact G|]. split; [exact G'|].
  intros v V A j J. cbv beta.
  assert (AT : forall i, att v i = att' v i).
  { eapply softmax_unique with (i := v); [| | |exact SM|exact SM'].
    - intros i (I & _). exact I.
    - intros i. destruct (in_dec Z.eq_dec v (nthe es i)); [|right; intros []; auto]. destruct (Z_lt_ge_dec i (Z.of_nat (length es))); [|right; lia].
      destruct (Z_le_gt_dec 0 i); [left; auto|right; lia].
    - intros i (I & IV). cbv beta. do 2 f_equal. apply affine_ext. intros k. eapply mean_local; eauto. }
  apply sumf_ext_in. intros i I. apply range_In in I. rewrite AT. destruct SM' as (_ & Z0 & _).
  destruct (in_dec Z.eq_dec v (nthe es i)) as [IV|NI]; [f_equal; eapply mean_local; eauto|]. rewrite Z0; [lra|]. intros []; auto.
Qed.
Theorem C140_unigat : forall nv e w vw m ops (s : hypergraph R) es ws src slope n heads hw out c d1 d2,
  h_clean_reach nv e w vw m ops s -> h_reports s None es ws -> snd (h_query (hqE2vSrc None) s) = Ok (OIdx src) -> length src <> 1%nat ->
  heads <> [] -> Forall2 (ugat_fits nv n) heads hw -> ugat_fits nv (list_sum hw) out c -> rowwise n nv d1 -> rowwise (list_sum hw) nv d2 ->
  sees (unigat_model slope heads out d1 d2 s) n c nv (share es) 2.
Proof.
  intros nv e w vw m ops s es ws src slope n heads hw out c d1 d2 H RP ES LS NH F FO D1 D2. unfold unigat_model.
  apply (@sees_step R _ (fun X => multi_head "concat" (map (fun h => unigat_layer slope s h (map vec (d1 X))) heads))
           (fun Y => unigat_layer slope s out (map vec (d2 Y))) n (list_sum hw) c).
  - apply heads_see; auto. clear NH FO D2. induction F as [|h k heads hw FH F IH]; constructor; auto.
    apply (sees_pre (g := fun X => unigat_layer slope s h (map vec X)) D1). eapply unigat_local; eauto.
  - apply (sees_pre (g := fun X => unigat_layer slope s out (map vec X)) D2). eapply unigat_local; eauto.
Qed.

(** ** concrete cases: the path 0 - 1 - 2 - 3.  Two layers bring vertex 2 to vertex 0, not vertex 3. *)
Definition path4 : option earg := Some (EMany [(0, 1); (1, 2); (2, 3)]).
Definition quiet_plain {T} {N : Num T} c nv last : quiet c nv (plain (T := T) last).
Proof. split; [apply rowwise_id|]. intros f E. discriminate E. Qed.
Definition sage1 : lin (T := Qc) := mklin [[q 1; q 1]] None.
Example C139_case : exists s : graph Qc, g_reach 4 path4 WNone false MMean [] s /\ nonneg_new path4 /\
  stacked 1 [(sage1, plain false); (sage1, plain true)] true 4 1 /\
  stacked 1 [(one_to_one (q 2) (q 1), plain false); (one_to_one (q 2) (q 1), plain true)] false 4 1 /\
  gin_fits 1 [(q 0, [(one_to_one (q 1) (q 0), plain true)]); (q 0, [(one_to_one (q 1) (q 0), plain true)])]
    [one_to_one (q 1) (q 0); one_to_one (q 1) (q 0); one_to_one (q 1) (q 0)] 4 1 /\
  within (linked (g_spec 4 path4 (@WNone Qc) false MMean [])) 2 0 2 /\ ~ within (linked (g_spec 4 path4 (@WNone Qc) false MMean [])) 2 0 3 /\
  graphsage_model [(sage1, plain false); (sage1, plain true)] s [[q 0; q 0; q 0; q 8]] = Ok [[q 0; q 2; q 8; q 12]] /\
  graphsage_model [(sage1, plain false); (sage1, plain true)] s [[q 0; q 0; q 8; q 0]] = Ok [[q 4; q 8; q 14; q 16]] /\
  gin_model [(q 0, [(one_to_one (q 1) (q 0), plain true)]); (q 0, [(one_to_one (q 1) (q 0), plain true)])]
    [one_to_one (q 1) (q 0); one_to_one (q 1) (q 0); one_to_one (q 1) (q 0)] s [[q 0; q 0; q 8; q 0]] = Ok [[q 8; q 24; q 40; q 24]].
Proof.
  eexists. split; [eexists; split; reflexivity|]. split; [cbn; repeat (apply Forall_cons; [cbn; lia|]); apply Forall_nil|].
  split. { cbn. exists 1%nat. split; [repeat constructor; discriminate|]. split; [apply quiet_plain|]. exists 1%nat. split; [repeat constructor; discriminate|]. split; [apply quiet_plain|reflexivity]. }
  split. { cbn. exists 1%nat. split; [apply fits_one|]. split; [apply quiet_plain|]. exists 1%nat. split; [apply fits_one|]. split; [apply quiet_plain|reflexivity]. }
  split. { cbn. split; [apply fits_one|]. exists 1%nat. split. { exists 1%nat. split; [apply fits_one|]. split; [apply quiet_plain|reflexivity]. }
    split; [apply fits_one|]. exists 1%nat. split; [|apply fits_one]. exists 1%nat. split; [apply fits_one|]. split; [apply quiet_plain|reflexivity]. }
  split. { exists 1. split; [exists 0; split; [reflexivity|right; vm_compute; discriminate]|right; vm_compute; discriminate]. }
  split. { intros (x & (y & EY & WX) & WU). cbn in EY. subst y. unfold linked in *.
    assert (A : forall x, aw (g_spec 4 path4 (@WNone Qc) false MMean []) 0 x <> None -> x = 1).
    { clear. intros x. cbn -[Z.eqb]. unfold a_add, same_undirected. cbn [fst snd].
      repeat match goal with |- context [?a =? ?b] => destruct (Z.eqb_spec a b); try lia; cbn [andb orb] end; intros D; destruct D; reflexivity. }
    assert (B : forall x, aw (g_spec 4 path4 (@WNone Qc) false MMean []) x 3 <> None -> x = 2).
    { clear. intros x. cbn -[Z.eqb]. unfold a_add, same_undirected. cbn [fst snd].
      repeat match goal with |- context [?a =? ?b] => destruct (Z.eqb_spec a b); try lia; cbn [andb orb] end; intros D; destruct D; reflexivity. }
    assert (x = 3 \/ x = 2) by (destruct WU as [E|E]; [left; auto|right; auto]).
    destruct WX as [->|WX]; [|apply A in WX]; lia. }
  split; [vm_compute; qceq|]. split; [vm_compute; qceq|]. vm_compute; qceq.
Qed.
Definition head1 (last : bool) : gat_head := mkhead (one_to_one 2 1)%R (one_to_one 1 0)%R (one_to_one 1 0)%R (plain last).
Example C139_gat_case : exists (s : graph R) src, g_reach 4 path4 WNone false MMean [] s /\ snd (g_query QEsrc s) = Ok (OIdx src) /\ length src = 6%nat /\
  Forall2 (gat_fits 4 1) [head1 false; head1 false] [1%nat; 1%nat] /\
  gat_fits 4 2 (mkhead (mklin [[1; 1]]%R None) (one_to_one 1 0)%R (one_to_one 1 0)%R (plain true)) 1.
Proof.
  eexists. eexists. split; [eexists; split; reflexivity|]. split; [vm_compute; reflexivity|]. split; [reflexivity|].
  assert (F : forall b, gat_fits 4 1 (head1 b) 1) by (intros b; split; [apply fits_one|]; split; [apply fits_one|]; split; [apply fits_one|apply quiet_plain]).
  split; [apply Forall2_cons; [apply F|]; apply Forall2_cons; [apply F|]; apply Forall2_nil|].
  split; [repeat constructor; discriminate|]. split; [apply fits_one|]. split; [apply fits_one|apply quiet_plain].
Qed.
(** the hyperedges {0,1}, {1,2}, {2,3} *)
Example C140_case : exists s : hypergraph Qc, h_clean_reach 4 (Some (HMany [[0; 1]; [1; 2]; [2; 3]])) WNone None MMean [] s /\
  h_reports s None [[0; 1]; [1; 2]; [2; 3]] [q 1; q 1; q 1] /\ share [[0; 1]; [1; 2]; [2; 3]] 1 2 /\ ~ within (share [[0; 1]; [1; 2]; [2; 3]]) 2 0 3 /\
  stacked 1 [(one_to_one (q 4) (q 0), plain false); (one_to_one (q 4) (q 0), plain true)] false 4 1 /\
  hnhn_fits 1 [(one_to_one (q 4) (q 0), one_to_one (q 1) (q 0), plain (T := Qc) true)] 4 1 /\
  hgnnp_model [(one_to_one (q 4) (q 0), plain false); (one_to_one (q 4) (q 0), plain true)] s [[q 0; q 0; q 0; q 8]] = Ok [[q 0; q 8; q 32; q 48]] /\
  hgnnp_model [(one_to_one (q 4) (q 0), plain false); (one_to_one (q 4) (q 0), plain true)] s [[q 0; q 0; q 8; q 0]] = Ok [[q 16; q 32; q 56; q 64]].
Proof.
  eexists. split; [split; [eexists; split; [reflexivity|reflexivity]|]|].
  { split; [discriminate|]. split; [constructor|]. split; [|constructor]. unfold clean_new, clean_harg, hedges_of.
    repeat (apply Forall_cons; [split; [repeat (apply NoDup_cons; [cbn; lia|]); apply NoDup_nil|repeat (apply Forall_cons; [lia|]); apply Forall_nil]|]). apply Forall_nil. }
  split; [split; [reflexivity|intros _; discriminate]|]. split; [exists [1; 2]; cbn; auto|].
  split. { intros (x & (y & EY & WX) & WU). cbn in EY. subst y. unfold share in *.
    assert (x <= 1). { destruct WX as [->|(a & I & A & B)]; [lia|]. cbn in I. destruct I as [<-|[<-|[<-|[]]]]; cbn in A, B; lia. }
    destruct WU as [<-|(a & I & A & B)]; [lia|]. cbn in I. destruct I as [<-|[<-|[<-|[]]]]; cbn in A, B; lia. }
  split. { cbn. exists 1%nat. split; [apply fits_one|]. split; [apply quiet_plain|]. exists 1%nat. split; [apply fits_one|]. split; [apply quiet_plain|reflexivity]. }
  split. { cbn. exists 1%nat, 1%nat. split; [apply fits_one|]. split; [apply fits_one|]. split; [apply quiet_plain|reflexivity]. }
  split; vm_compute; qceq.
Qed.
