(** Property C184: the networks do not depend on the names of the vertices. *)
From Coq Require Import String Ring Permutation Reals Lra QArith Qcanon.
From Verif Require Import Num PyDict PyDictFacts Coo CooFacts MatFacts RealFacts ModelBase CacheFacts ModelGraph GraphFacts SpecGraph SpecGraphOps StoreFacts
  GraphStore GraphMatrix GraphReach SoftmaxFacts PropGraph ModelHyper HyperFacts SpecHyper HyperStore HyperView HyperMatrix HyperPass HyperReach HyperOps PropHyper
  ModelConv ModelUtils ModelNN ModelModels SpecNN NNFacts PropLayers SpecLocal LocalFacts PropLocal PropRelabel.
Set Implicit Arguments.
Local Open Scope list_scope.
Local Open Scope Z_scope.
Local Notation q z := (Q2Qc (inject_Z z)).

Section SpecEquiv.
  Context {T : Type} {N : Num T}.
  (** row [p v] of [Y'] is row [v] of [Y] *)
  Definition turned (nv : Z) (p : Z -> Z) (Y Y' : list (list T)) : Prop := forall v, 0 <= v < nv -> row Y' (p v) = row Y v.
  (** a function of matrices that does not care about the order of the rows, as batch normalisation in training and in
      evaluation mode, and dropout in evaluation mode *)
  Definition fair (c : nat) (nv : Z) (p : Z -> Z) (f : list (list T) -> list (list T)) : Prop :=
    forall Y Y', shaped Y c nv -> shaped Y' c nv -> turned nv p Y Y' -> shaped (f Y) c nv /\ shaped (f Y') c nv /\ turned nv p (f Y) (f Y').
  Definition calm (c : nat) (nv : Z) (p : Z -> Z) (t : tcfg (T := T)) : Prop := fair c nv p (t_drop t) /\ forall f, t_bn t = Some f -> fair c nv p f.
  (** [net] on one structure and [net'] on the renamed one give the same rows under the new names *)
  Definition turns (net net' : list (list T) -> res (list (list T))) (n c : nat) (nv : Z) (p : Z -> Z) : Prop :=
    forall X X', shaped X n nv -> shaped X' n nv -> turned nv p X X' -> exists Y Y',
      net X = Ok Y /\ net' X' = Ok Y' /\ shaped Y c nv /\ shaped Y' c nv /\ turned nv p Y Y'.
  (** parameters that fit together *)
  Fixpoint aligned (n : nat) (ls : list (lin (T := T) * tcfg (T := T))) (dup : bool) (nv : Z) (p : Z -> Z) (c : nat) : Prop :=
    match ls with
    | [] => n = c
    | (th, t) :: r => exists h, fits th (if dup then n + n else n)%nat h /\ calm h nv p t /\ aligned h r dup nv p c
    end.
End SpecEquiv.

Section Equiv.
  Context {T : Type} {N : Num T}.
  Lemma fair_id c nv p : fair (T := T) c nv p (fun Y => Y).
  Proof. intros Y Y' S S' E. auto. Qed.
  Lemma calm_plain c nv p last : calm (T := T) c nv p (plain last).
  Proof. split; [apply fair_id|]. intros f E. discriminate E. Qed.
  (** evaluation mode *)
  Lemma turned_chan nv p (X X' : list (list T)) v : turned nv p X X' -> 0 <= v < nv -> forall k, chan (map vec X') k (p v) = chan (map vec X) k v.
  Proof. intros E V k. rewrite !row_chan, (E v V). reflexivity. Qed.
  Lemma turned_entries nv p r (RN : renaming nv p r) (Y Y' : list (list T)) c : shaped Y c nv -> shaped Y' c nv ->
    (forall j v, (j < c)%nat -> 0 <= v < nv -> entry Y' j (p v) = entry Y j v) -> turned nv p Y Y'.
  Proof.
    intros [L _] [L' _] E v V. apply nth_ext with (d := nz) (d' := nz); unfold row; rewrite !map_length; [congruence|].
    intros j J. rewrite L' in J. fold (row Y v) (row Y' (p v)). rewrite !row_nth. apply E; auto.
  Qed.
  Lemma turned_act nv p r (RN : renaming nv p r) (f : T -> T) Y Y' c : shaped Y c nv -> shaped Y' c nv -> turned nv p Y Y' -> turned nv p (map (map f) Y) (map (map f) Y').
  Proof.
    intros S S' E v V. rewrite (row_map_act f S V). rewrite (row_map_act f S') by (apply (ren_in RN); auto). rewrite (E v V). reflexivity.
  Qed.
  Lemma tail_fair t c nv p r (RN : renaming nv p r) : calm c nv p t -> fair c nv p (tail t).
  Proof.
    intros [D B] Y Y' S S' E. unfold tail. destruct (t_last t); [auto|].
    assert (BN : fair c nv p (match t_bn t with Some f => f | None => fun Y => Y end)) by (destruct (t_bn t); [auto|apply fair_id]).
    destruct (BN (map (map (t_act t)) Y) (map (map (t_act t)) Y')) as (S1 & S1' & E1); eauto using shaped_map_act, turned_act.
  Qed.
  Lemma calm_nodrop t c nv p : calm c nv p t -> calm c nv p (mktcfg (t_last t) (t_act t) (t_bn t) (fun Y => Y)).
  Proof. intros [_ B]. split; [apply fair_id|exact B]. Qed.

  (** one layer with a formula *)
  Lemma gives_turns d (layer layer' : list (Z -> T) -> tcfg -> res (list (list T))) t n c nv p r : renaming nv p r ->
    (forall X X', shaped X n nv -> shaped X' n nv -> turned nv p X X' -> exists F F',
       gives d (layer (map vec X)) (t_act t) c nv F /\ gives d (layer' (map vec X')) (t_act t) c nv F' /\
       forall j v, (j < c)%nat -> 0 <= v < nv -> F' j (p v) = F j v) ->
    calm c nv p t -> turns (fun X => layer (map vec X) t) (fun X => layer' (map vec X) t) n c nv p.
  Proof.
    intros RN G Q X X' S S' TX. destruct (G X X' S S' TX) as (F & F' & (Y & SY & EY & LY) & (Y' & SY' & EY' & LY') & FF).
    set (t' := if d then t else mktcfg (t_last t) (t_act t) (t_bn t) (fun Y => Y)).
    assert (Q' : calm c nv p t') by (unfold t'; destruct d; [exact Q|apply calm_nodrop; exact Q]).
    assert (E : forall layer Y, (forall drop : list (list T) -> list (list T), let dd := if d then drop else fun Y => Y in
        (forall bn, layer (mktcfg true (t_act t) bn drop) = Ok Y) /\
        layer (mktcfg false (t_act t) None drop) = Ok (dd (map (map (t_act t)) Y)) /\
        forall b, layer (mktcfg false (t_act t) (Some b) drop) = Ok (dd (b (map (map (t_act t)) Y)))) -> layer t = Ok (tail t' Y)).
    { clear. intros layer Y H. specialize (H (t_drop t)). cbv zeta in H. destruct H as (A & B & C). unfold t', tail. destruct t as [l a [b|] dr], l; cbn in *; destruct d; cbn; auto. }
    exists (tail t' Y), (tail t' Y'). rewrite (E _ _ LY), (E _ _ LY'). split; [reflexivity|]. split; [reflexivity|]. apply (tail_fair RN Q'); auto.
    apply (turned_entries RN SY SY'). intros j v J V. rewrite EY, EY' by (auto; apply (ren_in RN); auto). auto.
  Qed.
  Lemma turns_zero n nv p : turns (T := T) (fun X => Ok X) (fun X => Ok X) n n nv p.
  Proof. intros X X' S S' E. exists X, X'. auto 6. Qed.
  Lemma turns_step (f f' g g' : list (list T) -> res (list (list T))) n h c nv p :
    turns f f' n h nv p -> turns g g' h c nv p -> turns (fun X => rbind (f X) g) (fun X => rbind (f' X) g') n c nv p.
  Proof.
    intros SF SG X X' S S' E. destruct (SF X X' S S' E) as (Y & Y' & -> & -> & SY & SY' & A). cbn [rbind]. apply SG; auto.
  Qed.
  Lemma turns_pre (f : list (list T) -> list (list T)) g g' n c nv p : fair n nv p f -> turns g g' n c nv p -> turns (fun X => g (f X)) (fun X => g' (f X)) n c nv p.
  Proof. intros FW SG X X' S S' E. destruct (FW X X' S S' E) as (S1 & S1' & E1). apply SG; auto. Qed.
  Lemma chain_turns {A} (layer layer' : A -> list (Z -> T) -> res (list (list T))) (ok : nat -> A -> nat -> Prop) nv p (ls : list A) :
    (forall a n h, ok n a h -> turns (fun X => layer a (map vec X)) (fun X => layer' a (map vec X)) n h nv p) ->
    forall n c, (fix st n ls := match ls with [] => n = c | a :: r => exists h, ok n a h /\ st h r end) n ls ->
    turns (chain (map layer ls)) (chain (map layer' ls)) n c nv p.
  Proof.
    intros L. induction ls as [|a ls IH]; intros n c ST; cbn [chain map].
    - subst. apply turns_zero.
    - destruct ST as (h & O & ST). apply (@turns_step (fun X => layer a (map vec X)) (fun X => layer' a (map vec X)) (chain (map layer ls)) (chain (map layer' ls)) n h c); auto.
  Qed.
  Lemma aligned_st (ls : list (lin (T := T) * tcfg (T := T))) dup nv p c : forall n, aligned n ls dup nv p c ->
    (fix st n ls := match ls with [] => n = c | a :: r => exists h, (fits (fst a) (if dup then n + n else n)%nat h /\ calm h nv p (snd a)) /\ st h r end) n ls.
  Proof. induction ls as [|[th t] ls IH]; intros n S; cbn in *; auto. destruct S as (h & F & Q & S). exists h.
    split; [split; [exact F|exact Q]|]. apply IH. exact S. Qed.
  Lemma linear_turned th n c nv p (X X' : list (list T)) : fits th n c -> shaped X n nv -> shaped X' n nv -> turned nv p X X' ->
    exists Y Y', linear th (map vec X) = Ok Y /\ linear th (map vec X') = Ok Y' /\ length Y = c /\ length Y' = c /\
      forall j v, (j < c)%nat -> 0 <= v < nv -> chan Y' j (p v) = chan Y j v.
  Proof.
    intros F S S' E. rewrite <- (rowlen S) in F. destruct (linear_spec _ F) as (Y & EY & L & D). rewrite (rowlen S), <- (rowlen S') in F.
    destruct (linear_spec _ F) as (Y' & EY' & L' & D'). exists Y, Y'. repeat (split; auto). intros j v J V. rewrite D, D' by auto.
    rewrite (rowlen S), (rowlen S'). apply affine_ext. intros i. apply (turned_chan E V).
  Qed.
  (** heads side by side *)
  Lemma heads_turn {A} (f f' : A -> list (list T) -> res (list (list T))) n nv p (hs : list A) ws : hs <> [] -> Forall2 (fun a h => turns (f a) (f' a) n h nv p) hs ws ->
    turns (fun X => multi_head "concat" (map (fun a => f a X) hs)) (fun X => multi_head "concat" (map (fun a => f' a X) hs)) n (list_sum ws) nv p.
  Proof.
    intros NN F X X' S S' E0.
    assert (O : exists outs outs', map (fun a => f a X) hs = map (@Ok _) outs /\ map (fun a => f' a X') hs = map (@Ok _) outs' /\
      Forall2 (fun Y h => shaped Y h nv) outs ws /\ Forall2 (fun Y h => shaped Y h nv) outs' ws /\
      forall v, 0 <= v < nv -> map (fun Y => row Y (p v)) outs' = map (fun Y => row Y v) outs).
    { clear NN. induction F as [|a h hs ws SA F (outs & outs' & E & E' & SO & SO' & R)]; [exists [], []; repeat (split; auto)|].
      destruct (SA X X' S S' E0) as (Y & Y' & EY & EY' & SY & SY' & RY). exists (Y :: outs), (Y' :: outs'). cbn [map]. rewrite EY, EY', E, E'.
      repeat (split; auto). intros v V. f_equal; auto. }
    destruct O as (outs & outs' & E & E' & SO & SO' & R). assert (N1 : outs <> []) by (intros ->; destruct hs; [congruence|discriminate]).
    assert (N2 : outs' <> []) by (intros ->; destruct hs; [congruence|discriminate]).
    exists (concat outs), (concat outs'). rewrite E, E', (multi_head_ok N1 SO), (multi_head_ok N2 SO'). repeat (split; [auto using concat_shaped|]).
    intros v V. rewrite !row_concat, (R v V). reflexivity.
  Qed.
End Equiv.

(** * Graphs *)
Section GraphCoeffs.
  Context {T : Type} {N : Num T} (RT : ring_theory (@nz T N) n1 nadd nmul nsub nopp eq).
  Context (nv : Z) (p r : Z -> Z) (RN : renaming nv p r) (g g' : agraph T) (RL : relabelled nv p g g').
  Lemma ren_adj u v : 0 <= u < nv -> 0 <= v < nv -> a_adj g' (p u) (p v) = a_adj g u v.
  Proof using RN RL. destruct RL as (RX & RW). intros U V. unfold a_adj. rewrite RW, RX, (ren_eqb RN) by auto. auto. Qed.
  Lemma ren_deg u : 0 <= u < nv -> a_deg nv g' (p u) = a_deg nv g u.
  Proof using RT RN RL. intros U. unfold a_deg. apply (ren_sumf RN RT). intros v V. apply ren_adj; auto. Qed.
  Lemma ren_coeff u v : 0 <= u < nv -> 0 <= v < nv -> gcn_coeff nv g' (p u) (p v) = gcn_coeff nv g u v.
  Proof using RT RN RL.
    destruct RL as (RX & RW). assert (HAT : forall u v, 0 <= u < nv -> 0 <= v < nv -> ghat g' (p u) (p v) = ghat g u v)
      by (intros a b A B; unfold ghat; rewrite RW, (ren_eqb RN) by auto; auto).
    assert (HD : forall x, 0 <= x < nv -> sumf (range nv) (fun j => ghat g' (p x) j) = sumf (range nv) (fun j => ghat g x j)) by (intros x X; apply (ren_sumf RN RT); auto).
    intros U V. unfold gcn_coeff. rewrite HAT, !HD by auto. auto.
  Qed.
  Lemma ren_edge u v : 0 <= u < nv -> 0 <= v < nv -> (a_edge g' (p u) (p v) <-> a_edge g u v).
  Proof using RN RL.
    destruct RL as (RX & RW). intros U V. unfold a_edge. rewrite RW, RX by auto.
    assert (P : p u = p v <-> u = v) by (rewrite <- !Z.eqb_eq, (ren_eqb RN); reflexivity). rewrite P. reflexivity.
  Qed.
End GraphCoeffs.

Section Graphs.
  Context (T : Type) (N : Num T) (RT : ring_theory (@nz T N) n1 nadd nmul nsub nopp eq).
  Context (nv : Z) (p r : Z -> Z) (e : option earg) (w : warg T) (ex : bool) (m : mop) (ops : list (gop T)) (s : graph T).
  Context (e' : option earg) (w' : warg T) (ex' : bool) (m' : mop) (ops' : list (gop T)) (s' : graph T).
  Context (H : g_reach nv e w ex m ops s) (NE : nonneg_new e) (NO : Forall nonneg_op ops).
  Context (H' : g_reach nv e' w' ex' m' ops' s') (NE' : nonneg_new e') (NO' : Forall nonneg_op ops').
  Context (RN : renaming nv p r) (RL : relabelled nv p (g_spec nv e w ex m ops) (g_spec nv e' w' ex' m' ops')).
  Lemma gcn_turns th t n c : fits th n c -> calm c nv p t ->
    turns (fun X => gcn_conv th t s (map vec X)) (fun X => gcn_conv th t s' (map vec X)) n c nv p.
  Proof using All.
    intros F Q. apply (@gives_turns T N true (fun X t => gcn_conv th t s X) (fun X t => gcn_conv th t s' X) _ _ _ _ _ r); auto. intros X X' S S' E.
    rewrite <- (rowlen S) in F. pose proof (C69_gcn RT (map vec X) (t_act t) H NE NO F) as G. rewrite (rowlen S), <- (rowlen S') in F.
    pose proof (C69_gcn RT (map vec X') (t_act t) H' NE' NO' F) as G'. eexists; eexists. split; [exact G|]. split; [exact G'|].
    intros j v J V. cbv beta. rewrite (rowlen S), (rowlen S'). apply (ren_sumf RN RT). intros u U.
    rewrite (ren_coeff RT RN RL) by auto. f_equal. apply affine_ext. intros k. apply (turned_chan E U).
  Qed.
  Lemma sage_turns th t n c : fits th (n + n) c -> calm c nv p t ->
    turns (fun X => graphsage_conv th t s (map vec X)) (fun X => graphsage_conv th t s' (map vec X)) n c nv p.
  Proof using All.
    intros F Q. apply (@gives_turns T N true (fun X t => graphsage_conv th t s X) (fun X t => graphsage_conv th t s' X) _ _ _ _ _ r); auto. intros X X' S S' E.
    rewrite <- (rowlen S) in F. pose proof (C69_graphsage RT (map vec X) (t_act t) H NE NO F) as G. rewrite (rowlen S), <- (rowlen S') in F.
    pose proof (C69_graphsage RT (map vec X') (t_act t) H' NE' NO' F) as G'. eexists; eexists. split; [exact G|]. split; [exact G'|].
    intros j v J V. cbv beta. rewrite (rowlen S), (rowlen S'). apply affine_ext. intros k. destruct (Nat.ltb k n); [apply (turned_chan E V)|].
    rewrite (ren_deg RT RN RL) by auto. f_equal. apply (ren_sumf RN RT). intros u U. rewrite (ren_adj RN RL) by auto. f_equal. apply (turned_chan E U).
  Qed.
  Lemma mlp_turned (net : list (lin * tcfg)) : forall n c, aligned n net false nv p c -> turns (mlp (grows s) net) (mlp (grows s') net) n c nv p.
  Proof using H H' RN.
    induction net as [|[th t] net IH]; intros n c ST; cbn [aligned] in ST.
    - subst. apply turns_zero.
    - destruct ST as (h & F & Q & ST). intros X X' S S' E. cbn [mlp].
      destruct (linear_turned F S S' E) as (Y & Y' & -> & -> & L & L' & D). cbn [rbind]. rewrite (graph_rows H), (graph_rows H'), !map_range_mat, L, L'.
      destruct (tail_fair RN Q (mat_shaped h nv (chan Y)) (mat_shaped h nv (chan Y'))) as (S1 & S1' & E1).
      { apply (turned_entries RN (mat_shaped h nv (chan Y)) (mat_shaped h nv (chan Y'))). intros j v J V. rewrite !mat_entry by (auto; apply (ren_in RN); auto). auto. }
      specialize (IH _ _ ST _ _ S1 S1' E1). rewrite (graph_rows H), (graph_rows H') in IH. exact IH.
  Qed.
  Lemma gin_turns eps net n c : aligned n net false nv p c ->
    turns (fun X => gin_conv eps (mlp (grows s) net) s (map vec X)) (fun X => gin_conv eps (mlp (grows s') net) s' (map vec X)) n c nv p.
  Proof using All.
    intros ST X X' S S' E.
    destruct (C69_gin RT eps (map vec X) H NE NO) as (Z & SZ & EZ & FZ). destruct (C69_gin RT eps (map vec X') H' NE' NO') as (Z' & SZ' & EZ' & FZ').
    rewrite (rowlen S) in *. rewrite (rowlen S') in *. rewrite EZ, EZ'. apply (@mlp_turned net n c ST Z Z' SZ SZ').
    apply (turned_entries RN SZ SZ'). intros j v J V. rewrite FZ, FZ' by (auto; apply (ren_in RN); auto).
    f_equal; [f_equal; apply (turned_chan E V)|]. apply (ren_sumf RN RT). intros u U. rewrite (ren_adj RN RL) by auto. f_equal. apply (turned_chan E U).
  Qed.
End Graphs.

Theorem C184_graph : forall (T : Type) (N : Num T), ring_theory (@nz T N) n1 nadd nmul nsub nopp eq ->
  forall nv p r e w ex m ops (s : graph T) e' w' ex' m' ops' (s' : graph T) ls n c,
  g_reach nv e w ex m ops s -> nonneg_new e -> Forall nonneg_op ops ->
  g_reach nv e' w' ex' m' ops' s' -> nonneg_new e' -> Forall nonneg_op ops' ->
  renaming nv p r -> relabelled nv p (g_spec nv e w ex m ops) (g_spec nv e' w' ex' m' ops') ->
  (aligned n ls false nv p c -> turns (gcn_model ls s) (gcn_model ls s') n c nv p) /\
  (aligned n ls true nv p c -> turns (graphsage_model ls s) (graphsage_model ls s') n c nv p).
Proof.
  intros T N RT nv p r e w ex m ops s e' w' ex' m' ops' s' ls n c H NE NO H' NE' NO' RN RL. unfold gcn_model, graphsage_model. split; intros ST.
  - apply (chain_turns (fun l => gcn_conv (fst l) (snd l) s) (fun l => gcn_conv (fst l) (snd l) s') (fun n a h => fits (fst a) n h /\ calm h nv p (snd a)));
      [|apply (aligned_st ls false nv p c n ST)]. intros a k h [F Q]. eapply gcn_turns; eauto.
  - apply (chain_turns (fun l => graphsage_conv (fst l) (snd l) s) (fun l => graphsage_conv (fst l) (snd l) s') (fun n a h => fits (fst a) (n + n) h /\ calm h nv p (snd a)));
      [|apply (aligned_st ls true nv p c n ST)]. intros a k h [F Q]. eapply sage_turns; eauto.
Qed.

Fixpoint gin_aligned {T} {N : Num T} (n : nat) (ls : list (T * list (lin (T := T) * tcfg (T := T)))) (preds : list (lin (T := T))) (nv : Z) (p : Z -> Z) (c : nat) : Prop :=
  match ls, preds with
  | [], th :: _ => fits th n c
  | (_, net) :: r, th :: ps => fits th n c /\ exists h, aligned n net false nv p h /\ gin_aligned h r ps nv p c
  | _, [] => False
  end.
Theorem C184_gin : forall (T : Type) (N : Num T), ring_theory (@nz T N) n1 nadd nmul nsub nopp eq ->
  forall nv p r e w ex m ops (s : graph T) e' w' ex' m' ops' (s' : graph T) ls preds n c,
  g_reach nv e w ex m ops s -> nonneg_new e -> Forall nonneg_op ops ->
  g_reach nv e' w' ex' m' ops' s' -> nonneg_new e' -> Forall nonneg_op ops' ->
  renaming nv p r -> relabelled nv p (g_spec nv e w ex m ops) (g_spec nv e' w' ex' m' ops') ->
  gin_aligned n ls preds nv p c -> turns (gin_model ls preds s) (gin_model ls preds s') n c nv p.
Proof.
  intros T N RT nv p r e w ex m ops s e' w' ex' m' ops' s' ls preds n c H NE NO H' NE' NO' RN RL G.
  assert (LOOP : forall ls preds n X X' F F',
      match ls with [] => True | (_, net) :: r => exists h, aligned n net false nv p h /\ gin_aligned h r preds nv p c end ->
      shaped X n nv -> shaped X' n nv -> turned nv p X X' -> (forall j v, (j < c)%nat -> 0 <= v < nv -> F' j (p v) = F j v) ->
      exists Y Y', gin_loop s ls preds X (mat c nv F) = Ok Y /\ gin_loop s' ls preds X' (mat c nv F') = Ok Y' /\ shaped Y c nv /\ shaped Y' c nv /\ turned nv p Y Y').
  { clear ls preds n G. induction ls as [|[eps net] ls IH]; intros preds n X X' F F' G S S' E EF.
    - cbn [gin_loop]. exists (mat c nv F), (mat c nv F'). repeat (split; [apply mat_shaped || reflexivity|]).
      apply (turned_entries RN (mat_shaped c nv F) (mat_shaped c nv F')). intros j v J V. rewrite !mat_entry by (auto; apply (ren_in RN); auto). auto.
    - destruct G as (h & ST & G).
      destruct (@gin_turns T N RT nv p r e w ex m ops s e' w' ex' m' ops' s' H NE NO H' NE' NO' RN RL eps net n h ST X X' S S' E) as (X1 & X1' & E1 & E1' & S1 & S1' & A1).
      destruct preds as [|th ps]; [destruct ls as [|[]]; contradiction|]. cbn [gin_loop]. rewrite E1, E1'. cbn [rbind].
      assert (FP : fits th h c /\ match ls with [] => True | (_, net) :: r => exists h', aligned h net false nv p h' /\ gin_aligned h' r ps nv p c end)
        by (destruct ls as [|[]]; cbn in G; [split; [exact G|exact I]|exact G]). destruct FP as [FP G1].
      destruct (linear_turned FP S1 S1' A1) as (Y & Y' & -> & -> & L & L' & D). cbn [rbind].
      rewrite (graph_rows H), (graph_rows H'). pose proof (@add_cols_mat T N nv Y F) as A3. pose proof (@add_cols_mat T N nv Y' F') as A3'. rewrite L in A3. rewrite L' in A3'.
      rewrite A3, A3'. cbn [rbind]. apply (IH ps h); auto. intros j v J V. cbv beta. rewrite EF, D by auto. reflexivity. }
  intros X X' S S' E. unfold gin_model. destruct preds as [|th ps]; [destruct ls as [|[]]; contradiction|].
  assert (FP : fits th n c /\ match ls with [] => True | (_, net) :: r => exists h', aligned n net false nv p h' /\ gin_aligned h' r ps nv p c end)
    by (destruct ls as [|[]]; cbn in G; [split; [exact G|exact I]|exact G]). destruct FP as [FP G1].
  destruct (linear_turned FP S S' E) as (Y & Y' & -> & -> & L & L' & D). cbn [rbind]. rewrite (graph_rows H), (graph_rows H'), !map_range_mat, L, L'.
  apply (LOOP ls ps n); auto.
Qed.

Definition gat_aligned (nv : Z) (p : Z -> Z) (n : nat) (h : gat_head) (c : nat) : Prop :=
  fits (gh_th h) n c /\ fits (gh_src h) c 1 /\ fits (gh_dst h) c 1 /\ calm c nv p (gh_t h).
Lemma gat_turns nv p r e w ex m ops (s : graph R) src e' w' ex' m' ops' (s' : graph R) src' slope n h c :
  g_reach nv e w ex m ops s -> nonneg_new e -> Forall nonneg_op ops -> snd (g_query QEsrc s) = Ok (OIdx src) -> length src <> 1%nat ->
  g_reach nv e' w' ex' m' ops' s' -> nonneg_new e' -> Forall nonneg_op ops' -> snd (g_query QEsrc s') = Ok (OIdx src') -> length src' <> 1%nat ->
  renaming nv p r -> relabelled nv p (g_spec nv e w ex m ops) (g_spec nv e' w' ex' m' ops') -> gat_aligned nv p n h c ->
  turns (fun X => gat_layer slope s h (map vec X)) (fun X => gat_layer slope s' h (map vec X)) n c nv p.
Proof.
  intros H NE NO ES LS H' NE' NO' ES' LS' RN RL (F & FA & FB & Q). unfold gat_layer.
  apply (@gives_turns R _ false (fun X t => gat_conv (gh_th h) (gh_src h) (gh_dst h) slope (fun l => l) t s X)
           (fun X t => gat_conv (gh_th h) (gh_src h) (gh_dst h) slope (fun l => l) t s' X) _ _ _ _ _ r); auto. intros X X' S S' E.
  rewrite <- (rowlen S) in F. destruct (@C69_gat nv e w ex m ops s (gh_th h) (gh_src h) (gh_dst h) slope (map vec X) c (t_act (gh_t h)) src H NE NO F FA FB ES LS) as (att & SM & G).
  rewrite (rowlen S), <- (rowlen S') in F.
  destruct (@C69_gat nv e' w' ex' m' ops' s' (gh_th h) (gh_src h) (gh_dst h) slope (map vec X') c (t_act (gh_t h)) src' H' NE' NO' F FA FB ES' LS') as (att' & SM' & G').
  rewrite (rowlen S) in *. rewrite (rowlen S') in *. eexists; eexists. split; [exact G|]. split; [exact G'|].
  set (g := g_spec nv e w ex m ops) in *. set (g' := g_spec nv e' w' ex' m' ops') in *.
  intros j v J V. cbv beta.
  assert (X1 : forall u, 0 <= u < nv -> forall j, affine (gh_th h) n (fun k => chan (map vec X') k (p u)) j = affine (gh_th h) n (fun k => chan (map vec X) k u) j).
  { intros u U i. apply affine_ext. intros k. apply (turned_chan E U). }
  assert (IN : forall u, 0 <= u < nv <-> 0 <= p u < nv) by (intros u; symmetry; apply (ren_in RN)).
  (* the weights of the renamed graph, read under the old names *)
  pose (sc' := fun i u => clamp (1/1000) 5 (leaky slope (affine (gh_src h) c (fun k => affine (gh_th h) n (fun k0 => chan (map vec X') k0 (p u)) k) 0
                  + affine (gh_dst h) c (fun k => affine (gh_th h) n (fun k0 => chan (map vec X') k0 (p i)) k) 0))%R).
  assert (SP : is_softmax nv (fun i u => a_edge g i u /\ 0 <= i < nv /\ 0 <= u < nv) sc' (fun i u => att' (p i) (p u))).
  { assert (EE : forall i u, a_edge g i u /\ 0 <= i < nv /\ 0 <= u < nv <-> a_edge g' (p i) (p u) /\ 0 <= p i < nv /\ 0 <= p u < nv).
    { intros i u. split; intros (A & B & C).
      - split; [apply (ren_edge RN RL); auto|]. split; apply (proj1 (IN _)); auto.
      - apply (proj2 (IN _)) in B. apply (proj2 (IN _)) in C. split; [apply (ren_edge RN RL) in A; auto|]. auto. }
    destruct SM' as (P1 & P2 & P3 & P4). split; [|split; [|split]].
    - intros i u A. apply P1. apply EE. exact A.
    - intros i u A. apply P2. intros B. apply A. apply EE. exact B.
    - intros i u k A B. apply P3; apply EE; assumption.
    - intros i (u & A). rewrite <- (P4 (p i)); [|exists (p u); apply EE; exact A]. symmetry. apply (ren_sumf RN RT). reflexivity. }
  assert (AT : forall u, att' (p v) (p u) = att v u).
  { intros u. symmetry. eapply softmax_unique with (i := v) (c' := fun i u => att' (p i) (p u)); [| | |exact SM|exact SP].
    - intros i (_ & _ & U). exact U.
    - intros i. unfold a_edge. destruct (aw g v i) as [x|] eqn:EW.
      + destruct (Z_lt_ge_dec i nv); [|right; lia]. destruct (Z_le_gt_dec 0 i); [|right; lia]. left. split; [left; discriminate|lia].
      + destruct (Z.eq_dec v i) as [<-|NVU]; [|right; intros ([D|[D _]] & _); congruence]. destruct (ax g) eqn:EX; [left; auto|].
        right. intros ([D|[_ D]] & _); congruence.
    - intros i (EU & _ & U). unfold sc'. do 2 f_equal. f_equal; apply affine_ext; intros k; symmetry; apply X1; auto. }
  apply (ren_sumf RN RT). intros u U. rewrite AT, X1 by auto. reflexivity.
Qed.
Theorem C184_gat : forall nv p r e w ex m ops (s : graph R) src e' w' ex' m' ops' (s' : graph R) src' slope n heads ws out c d1 d2,
  g_reach nv e w ex m ops s -> nonneg_new e -> Forall nonneg_op ops -> snd (g_query QEsrc s) = Ok (OIdx src) -> length src <> 1%nat ->
  g_reach nv e' w' ex' m' ops' s' -> nonneg_new e' -> Forall nonneg_op ops' -> snd (g_query QEsrc s') = Ok (OIdx src') -> length src' <> 1%nat ->
  renaming nv p r -> relabelled nv p (g_spec nv e w ex m ops) (g_spec nv e' w' ex' m' ops') ->
  heads <> [] -> Forall2 (gat_aligned nv p n) heads ws -> gat_aligned nv p (list_sum ws) out c -> fair n nv p d1 -> fair (list_sum ws) nv p d2 ->
  turns (gat_model slope heads out d1 d2 s) (gat_model slope heads out d1 d2 s') n c nv p.
Proof.
  intros nv p r e w ex m ops s src e' w' ex' m' ops' s' src' slope n heads ws out c d1 d2 H NE NO ES LS H' NE' NO' ES' LS' RN RL NH F FO D1 D2. unfold gat_model.
  apply (@turns_step R _ (fun X => multi_head "concat" (map (fun h => gat_layer slope s h (map vec (d1 X))) heads))
           (fun X => multi_head "concat" (map (fun h => gat_layer slope s' h (map vec (d1 X))) heads))
           (fun Y => gat_layer slope s out (map vec (d2 Y))) (fun Y => gat_layer slope s' out (map vec (d2 Y))) n (list_sum ws) c).
  - apply heads_turn; auto. clear NH FO D2. induction F as [|h k heads ws FH F IH]; constructor; auto.
    apply (turns_pre (g := fun X => gat_layer slope s h (map vec X)) (g' := fun X => gat_layer slope s' h (map vec X)) D1). eapply gat_turns with (src := src) (src' := src'); eauto.
  - apply (turns_pre (g := fun X => gat_layer slope s out (map vec X)) (g' := fun X => gat_layer slope s' out (map vec X)) D2). eapply gat_turns with (src := src) (src' := src'); eauto.
Qed.

(** * Hypergraphs *)
Section HyperSums.
  Context {T : Type} {N : Num T} (RT : ring_theory (@nz T N) n1 nadd nmul nsub nopp eq).
  Context (nv : Z) (p r : Z -> Z) (RN : renaming nv p r) (es es' : list (list Z)) (ws ws' : list T) (HR : hrelabelled p es ws es' ws').
  Context (LEN : length ws = length es) (LEN' : length ws' = length es') (IN : forall x u, In x es -> In u x -> 0 <= u < nv).
  Lemma ren_members x y (f f' : Z -> T) : In x es -> Permutation (map p x) y -> (forall u, 0 <= u < nv -> f' (p u) = f u) -> sumf y f' = sumf x f.
  Proof using RT IN. intros I P E. rewrite <- (@sumf_perm T N RT _ _ _ _ P), sumf_map. apply sumf_ext_in. intros u U. eauto. Qed.
  Lemma ren_hsum_in (F F' : list Z * T -> T) : (forall x y, In (fst x) es -> Permutation (map p (fst x)) (fst y) -> snd x = snd y -> F' y = F x) ->
    sumf (combine es' ws') F' = sumf (combine es ws) F.
  Proof using RT HR.
    intros E. destruct HR as (L & P & A). rewrite <- (@sumf_perm T N RT _ _ _ F' P). 
    assert (I : forall x, In x (combine es ws) -> In (fst x) es) by (intros [x c] I; eapply in_combine_l; eauto). clear -A E I.
    revert I. induction A as [|x y l l' (A1 & A2) _ IH]; intros I; cbn [sumf]; auto.
    rewrite IH by (intros; apply I; right; auto). f_equal. apply E; auto. apply I. left. auto.
  Qed.
  Lemma inc_combine (fs : list (list Z)) (us : list T) (y : Z -> T) (G : list Z -> T -> T) v : length us = length fs ->
    (forall i, 0 <= i < Z.of_nat (length fs) -> y i = G (nthe fs i) (nthw us i)) ->
    inc_sum fs y v = sumf (combine fs us) (fun ew => if zmem v (fst ew) then G (fst ew) (snd ew) else nz).
  Proof.
    intros LF E. unfold inc_sum. rewrite (@combine_nthe T N (mkHRaw 0 (@None (list T)) []) fs _ us _ nz LF). apply sumf_ext_in. intros i I. apply range_In in I. cbn [fst snd].
    rewrite E by auto. reflexivity.
  Qed.
  Lemma ren_inc (y y' : Z -> T) (G G' : list Z -> T -> T) v :
    (forall i, 0 <= i < Z.of_nat (length es) -> y i = G (nthe es i) (nthw ws i)) ->
    (forall i, 0 <= i < Z.of_nat (length es') -> y' i = G' (nthe es' i) (nthw ws' i)) ->
    (forall x x' c, In x es -> Permutation (map p x) x' -> G' x' c = G x c) -> inc_sum es' y' (p v) = inc_sum es y v.
  Proof using RT RN HR LEN LEN'.
    intros E E' GG. rewrite (@inc_combine es' ws' y' G' (p v) LEN' E'), (@inc_combine es ws y G v LEN E). apply ren_hsum_in.
    intros [x c] [x' c'] I P W. cbn [fst snd] in *. subst c'. rewrite (ren_zmem RN v x P). destruct (zmem v x); auto.
  Qed.
  (** the average of one hyperedge *)
  Definition mean_of (f : Z -> T) (x : list Z) (c : T) : T := nmul c (nmul (ninv (hcard x)) (sumf x f)).
  Lemma ren_mean (f f' : Z -> T) x x' c : (forall u, 0 <= u < nv -> f' (p u) = f u) -> In x es -> Permutation (map p x) x' -> mean_of f' x' c = mean_of f x c.
  Proof using RT RN IN. intros E I P. unfold mean_of. rewrite (ren_card RT p x P), (@ren_members x x' f f' I P E). reflexivity. Qed.
End HyperSums.

Section Hypergraphs.
  Context (T : Type) (N : Num T) (RT : ring_theory (@nz T N) n1 nadd nmul nsub nopp eq).
  Context (nv : Z) (p r : Z -> Z) (e : option harg) (w : warg T) (vw : option (list T)) (m : mop) (ops : list (hop T)) (s : hypergraph T) (es : list (list Z)) (ws : list T).
  Context (e' : option harg) (w' : warg T) (vw' : option (list T)) (m' : mop) (ops' : list (hop T)) (s' : hypergraph T) (es' : list (list Z)) (ws' : list T).
  Context (H : h_clean_reach nv e w vw m ops s) (RP : h_reports s None es ws) (H' : h_clean_reach nv e' w' vw' m' ops' s') (RP' : h_reports s' None es' ws').
  Context (RN : renaming nv p r) (HR : hrelabelled p es ws es' ws').
  Lemma lens : length ws = length es /\ length ws' = length es'.
  Proof using H RP H' RP'.
    destruct (clean_state H RP) as (C & W & K & NV & SC). destruct (clean_state H' RP') as (C' & W' & K' & NV' & SC').
    destruct (hview_scope None W K SC) as (Hm & VW). destruct (hview_scope None W' K' SC') as (Hm' & VW'). split; [apply (hv_len VW)|apply (hv_len VW')].
  Qed.
  Lemma within_nv x u : In x es -> In u x -> 0 <= u < nv.
  Proof using H RP.
    intros I U. destruct (In_nth es x [] I) as (i & L & E). assert (B : 0 <= Z.of_nat i < Z.of_nat (length es)) by lia.
    apply (inside H RP u B). unfold nthe. rewrite Nat2Z.id, E. exact U.
  Qed.
  Lemma hgnn_turns th t n c : fits th n c -> calm c nv p t ->
    turns (fun X => hgnn_conv th t s (map vec X)) (fun X => hgnn_conv th t s' (map vec X)) n c nv p.
  Proof using All.
    intros F Q. apply (@gives_turns T N true (fun X t => hgnn_conv th t s X) (fun X t => hgnn_conv th t s' X) _ _ _ _ _ r); auto. intros X X' S S' E.
    rewrite <- (rowlen S) in F. destruct (C69_hgnn RT (map vec X) (t_act t) H RP F) as [G _]. rewrite (rowlen S), <- (rowlen S') in F.
    destruct (C69_hgnn RT (map vec X') (t_act t) H' RP' F) as [G' _]. eexists; eexists. split; [exact G|]. split; [exact G'|].
    intros j v J V. cbv beta zeta. rewrite (rowlen S), (rowlen S'). apply (ren_sumf RN RT). intros u U.
    unfold hgnn_coeff. rewrite (ren_hshare RT RN HR), !(ren_hdeg RT RN HR). f_equal. apply affine_ext. intros k. apply (turned_chan E U).
  Qed.
  Lemma hgnnp_turns th t n c : fits th n c -> calm c nv p t ->
    turns (fun X => hgnnp_conv th t s (map vec X)) (fun X => hgnnp_conv th t s' (map vec X)) n c nv p.
  Proof using All.
    intros F Q. apply (@gives_turns T N true (fun X t => hgnnp_conv th t s X) (fun X t => hgnnp_conv th t s' X) _ _ _ _ _ r); auto. intros X X' S S' E.
    rewrite <- (rowlen S) in F. destruct (C69_hgnn RT (map vec X) (t_act t) H RP F) as [_ G]. rewrite (rowlen S), <- (rowlen S') in F.
    destruct (C69_hgnn RT (map vec X') (t_act t) H' RP' F) as [_ G']. eexists; eexists. split; [exact G|]. split; [exact G'|].
    intros j v J V. cbv beta zeta. rewrite (rowlen S), (rowlen S'), (ren_hdeg RT RN HR). f_equal. apply (ren_sumf RN RT). intros u U.
    rewrite (ren_hshare RT RN HR). f_equal. apply affine_ext. intros k. apply (turned_chan E U).
  Qed.
  Lemma hnhn_turns th1 th2 t n c1 c2 : fits th1 n c1 -> fits th2 c1 c2 -> calm c2 nv p t ->
    turns (fun X => hnhn_conv th1 th2 t s (map vec X)) (fun X => hnhn_conv th1 th2 t s' (map vec X)) n c2 nv p.
  Proof using All.
    intros F F2 Q. destruct lens as (L1 & L2).
    apply (@gives_turns T N true (fun X t => hnhn_conv th1 th2 t s X) (fun X t => hnhn_conv th1 th2 t s' X) _ _ _ _ _ r); auto. intros X X' S S' E.
    rewrite <- (rowlen S) in F. pose proof (C69_hnhn RT (map vec X) (t_act t) H RP F F2) as G. rewrite (rowlen S), <- (rowlen S') in F.
    pose proof (C69_hnhn RT (map vec X') (t_act t) H' RP' F F2) as G'. eexists; eexists. split; [exact G|]. split; [exact G'|].
    intros j v J V. cbv beta zeta. rewrite (rowlen S), (rowlen S'), (ren_hdeg RT RN HR). f_equal.
    set (f := fun k u => affine th1 n (fun k0 => chan (map vec X) k0 u) k). set (f' := fun k u => affine th1 n (fun k0 => chan (map vec X') k0 u) k).
    assert (FF : forall k u, 0 <= u < nv -> f' k (p u) = f k u) by (intros k u U; apply affine_ext; intros k0; apply (turned_chan E U)).
    apply (@ren_inc T N RT nv p r RN es es' ws ws' HR L1 L2 _ _ (fun x a => affine th2 c1 (fun k => t_act t (mean_of (f k) x a)) j) (fun x a => affine th2 c1 (fun k => t_act t (mean_of (f' k) x a)) j)); [reflexivity..|].
    intros x x' a I P. apply affine_ext. intros k. f_equal. apply (@ren_mean T N RT nv p r RN es within_nv (f k) (f' k) x x' a (FF k) I P).
  Qed.
  Lemma unisage_turns th t n c : fits th n c -> calm c nv p t ->
    turns (fun X => unisage_conv th t s (map vec X)) (fun X => unisage_conv th t s' (map vec X)) n c nv p.
  Proof using All.
    intros F Q. destruct lens as (L1 & L2).
    apply (@gives_turns T N true (fun X t => unisage_conv th t s X) (fun X t => unisage_conv th t s' X) _ _ _ _ _ r); auto. intros X X' S S' E.
    rewrite <- (rowlen S) in F. pose proof (C69_unisage RT (map vec X) (t_act t) H RP F) as G. rewrite (rowlen S), <- (rowlen S') in F.
    pose proof (C69_unisage RT (map vec X') (t_act t) H' RP' F) as G'. eexists; eexists. split; [exact G|]. split; [exact G'|].
    intros j v J V. cbv beta zeta. rewrite (rowlen S), (rowlen S').
    set (f := fun u => affine th n (fun k0 => chan (map vec X) k0 u) j). set (f' := fun u => affine th n (fun k0 => chan (map vec X') k0 u) j).
    assert (FF : forall u, 0 <= u < nv -> f' (p u) = f u) by (intros u U; apply affine_ext; intros k0; apply (turned_chan E U)).
    f_equal; [|apply FF; auto]. apply (@ren_inc T N RT nv p r RN es es' ws ws' HR L1 L2 _ _ (mean_of f) (mean_of f')); [reflexivity..|].
    intros x x' a I P. apply (@ren_mean T N RT nv p r RN es within_nv f f' x x' a FF I P).
  Qed.
  Lemma unigin_turns eps th t n c : fits th n c -> calm c nv p t ->
    turns (fun X => unigin_conv eps th t s (map vec X)) (fun X => unigin_conv eps th t s' (map vec X)) n c nv p.
  Proof using All.
    intros F Q. destruct lens as (L1 & L2).
    apply (@gives_turns T N true (fun X t => unigin_conv eps th t s X) (fun X t => unigin_conv eps th t s' X) _ _ _ _ _ r); auto. intros X X' S S' E.
    rewrite <- (rowlen S) in F. pose proof (C122_unigin_actual RT eps (map vec X) (t_act t) H RP F) as G. rewrite (rowlen S), <- (rowlen S') in F.
    pose proof (C122_unigin_actual RT eps (map vec X') (t_act t) H' RP' F) as G'. eexists; eexists. split; [exact G|]. split; [exact G'|].
    intros j v J V. cbv beta zeta. rewrite (rowlen S), (rowlen S').
    set (f := fun u => affine th n (fun k0 => chan (map vec X) k0 u) j). set (f' := fun u => affine th n (fun k0 => chan (map vec X') k0 u) j).
    assert (FF : forall u, 0 <= u < nv -> f' (p u) = f u) by (intros u U; apply affine_ext; intros k0; apply (turned_chan E U)).
    f_equal; [|apply FF; auto]. f_equal. apply (@ren_inc T N RT nv p r RN es es' ws ws' HR L1 L2 _ _ (mean_of f) (mean_of f')); [reflexivity..|].
    intros x x' a I P. apply (@ren_mean T N RT nv p r RN es within_nv f f' x x' a FF I P).
  Qed.
End Hypergraphs.

Theorem C184_hypergraph : forall (T : Type) (N : Num T), ring_theory (@nz T N) n1 nadd nmul nsub nopp eq ->
  forall nv p r e w vw m ops (s : hypergraph T) es ws e' w' vw' m' ops' (s' : hypergraph T) es' ws' ls n c,
  h_clean_reach nv e w vw m ops s -> h_reports s None es ws -> h_clean_reach nv e' w' vw' m' ops' s' -> h_reports s' None es' ws' ->
  renaming nv p r -> hrelabelled p es ws es' ws' -> aligned n ls false nv p c ->
  turns (hgnn_model ls s) (hgnn_model ls s') n c nv p /\ turns (hgnnp_model ls s) (hgnnp_model ls s') n c nv p /\
  turns (unisage_model ls s) (unisage_model ls s') n c nv p.
Proof.
  intros T N RT nv p r e w vw m ops s es ws e' w' vw' m' ops' s' es' ws' ls n c H RP H' RP' RN HR ST. unfold hgnn_model, hgnnp_model, unisage_model.
  split; [|split].
  - apply (chain_turns (fun l => hgnn_conv (fst l) (snd l) s) (fun l => hgnn_conv (fst l) (snd l) s') (fun n a h => fits (fst a) n h /\ calm h nv p (snd a)));
      [|apply (aligned_st ls false nv p c n ST)]. intros a k h [F Q]. eapply hgnn_turns; eauto.
  - apply (chain_turns (fun l => hgnnp_conv (fst l) (snd l) s) (fun l => hgnnp_conv (fst l) (snd l) s') (fun n a h => fits (fst a) n h /\ calm h nv p (snd a)));
      [|apply (aligned_st ls false nv p c n ST)]. intros a k h [F Q]. eapply hgnnp_turns; eauto.
  - apply (chain_turns (fun l => unisage_conv (fst l) (snd l) s) (fun l => unisage_conv (fst l) (snd l) s') (fun n a h => fits (fst a) n h /\ calm h nv p (snd a)));
      [|apply (aligned_st ls false nv p c n ST)]. intros a k h [F Q]. eapply unisage_turns; eauto.
Qed.
Theorem C184_unigin : forall (T : Type) (N : Num T), ring_theory (@nz T N) n1 nadd nmul nsub nopp eq ->
  forall nv p r e w vw m ops (s : hypergraph T) es ws e' w' vw' m' ops' (s' : hypergraph T) es' ws' ls n c,
  h_clean_reach nv e w vw m ops s -> h_reports s None es ws -> h_clean_reach nv e' w' vw' m' ops' s' -> h_reports s' None es' ws' ->
  renaming nv p r -> hrelabelled p es ws es' ws' -> aligned n (map snd ls) false nv p c ->
  turns (unigin_model ls s) (unigin_model ls s') n c nv p.
Proof.
  intros T N RT nv p r e w vw m ops s es ws e' w' vw' m' ops' s' es' ws' ls n c H RP H' RP' RN HR ST. unfold unigin_model.
  apply (chain_turns (fun l => unigin_conv (fst l) (fst (snd l)) (snd (snd l)) s) (fun l => unigin_conv (fst l) (fst (snd l)) (snd (snd l)) s')
           (fun n a h => fits (fst (snd a)) n h /\ calm h nv p (snd (snd a)))).
  - intros a k h [F Q]. eapply unigin_turns; eauto.
  - revert n ST. induction ls as [|(ep & th & t) ls IH]; intros n ST; cbn in *; auto. destruct ST as (h & F & Q & ST). exists h. split; [split; [exact F|exact Q]|]. apply IH. exact ST.
Qed.
Fixpoint hnhn_aligned {T} {N : Num T} (n : nat) (ls : list (lin (T := T) * lin (T := T) * tcfg (T := T))) (nv : Z) (p : Z -> Z) (c : nat) : Prop :=
  match ls with
  | [] => n = c
  | (th1, th2, t) :: r => exists h1 h2, fits th1 n h1 /\ fits th2 h1 h2 /\ calm h2 nv p t /\ hnhn_aligned h2 r nv p c
  end.
Theorem C184_hnhn : forall (T : Type) (N : Num T), ring_theory (@nz T N) n1 nadd nmul nsub nopp eq ->
  forall nv p r e w vw m ops (s : hypergraph T) es ws e' w' vw' m' ops' (s' : hypergraph T) es' ws' ls n c,
  h_clean_reach nv e w vw m ops s -> h_reports s None es ws -> h_clean_reach nv e' w' vw' m' ops' s' -> h_reports s' None es' ws' ->
  renaming nv p r -> hrelabelled p es ws es' ws' -> hnhn_aligned n ls nv p c ->
  turns (hnhn_model ls s) (hnhn_model ls s') n c nv p.
Proof.
  intros T N RT nv p r e w vw m ops s es ws e' w' vw' m' ops' s' es' ws' ls n c H RP H' RP' RN HR ST. unfold hnhn_model.
  apply (chain_turns (fun l => hnhn_conv (fst (fst l)) (snd (fst l)) (snd l) s) (fun l => hnhn_conv (fst (fst l)) (snd (fst l)) (snd l) s')
           (fun n a h => exists k, fits (fst (fst a)) n k /\ fits (snd (fst a)) k h /\ calm h nv p (snd a))).
  - intros a k h (c1 & F & F2 & Q). eapply hnhn_turns; eauto.
  - revert n ST. induction ls as [|((th1 & th2) & t) ls IH]; intros n ST; cbn in *; auto. destruct ST as (h1 & h & F & F2 & Q & ST). exists h.
    split; [exists h1; split; [exact F|split; [exact F2|exact Q]]|]. apply IH. exact ST.
Qed.
Theorem C184_unigcn : forall nv p r e w vw m ops (s : hypergraph R) es ws e' w' vw' m' ops' (s' : hypergraph R) es' ws' ls n c,
  h_clean_reach nv e w vw m ops s -> h_reports s None es ws -> Forall (fun x => 0 < x)%R ws ->
  h_clean_reach nv e' w' vw' m' ops' s' -> h_reports s' None es' ws' -> Forall (fun x => 0 < x)%R ws' ->
  renaming nv p r -> hrelabelled p es ws es' ws' -> aligned n ls false nv p c ->
  turns (unigcn_model ls s) (unigcn_model ls s') n c nv p.
Proof.
  intros nv p r e w vw m ops s es ws e' w' vw' m' ops' s' es' ws' ls n c H RP PW H' RP' PW' RN HR ST. unfold unigcn_model.
  destruct (lens H RP H' RP') as (L1 & L2). pose proof (within_nv H RP) as WN.
  apply (chain_turns (fun l => unigcn_conv (fst l) (snd l) s) (fun l => unigcn_conv (fst l) (snd l) s') (fun n a h => fits (fst a) n h /\ calm h nv p (snd a)));
    [|apply (aligned_st ls false nv p c n ST)]. clear n c ls ST. intros [th t] n c [F Q]. cbn [fst snd] in *.
  apply (@gives_turns R _ true (fun X t => unigcn_conv th t s X) (fun X t => unigcn_conv th t s' X) _ _ _ _ _ r); auto. intros X X' S S' E.
  rewrite <- (rowlen S) in F. pose proof (@C69_unigcn _ _ _ _ _ _ _ _ _ th (map vec X) c (t_act t) H RP PW F) as G. rewrite (rowlen S), <- (rowlen S') in F.
  pose proof (@C69_unigcn _ _ _ _ _ _ _ _ _ th (map vec X') c (t_act t) H' RP' PW' F) as G'. eexists; eexists. split; [exact G|]. split; [exact G'|].
  intros j v J V. cbv beta zeta. rewrite (rowlen S), (rowlen S'), (ren_hdeg RT RN HR). f_equal.
  set (f := fun u => affine th n (fun k0 => chan (map vec X) k0 u) j). set (f' := fun u => affine th n (fun k0 => chan (map vec X') k0 u) j).
  assert (FF : forall u, 0 <= u < nv -> f' (p u) = f u) by (intros u U; apply affine_ext; intros k0; apply (turned_chan E U)).
  apply (@ren_inc R _ RT nv p r RN es es' ws ws' HR L1 L2 _ _ (fun x a => / sqrt (sumf x (hdeg es ws) / INR (length x)) * mean_of f x a)%R
           (fun x a => / sqrt (sumf x (hdeg es' ws') / INR (length x)) * mean_of f' x a)%R); [reflexivity..|].
  intros x x' a I P. rewrite (@ren_mean R _ RT nv p r RN es WN f f' x x' a FF I P).
  rewrite (@ren_members R _ RT nv p es WN x x' (hdeg es ws) (hdeg es' ws') I P) by (intros u _; apply (ren_hdeg RT RN HR)).
  rewrite <- (Permutation_length P), map_length. reflexivity.
Qed.

Definition ugat_aligned (nv : Z) (p : Z -> Z) (n : nat) (h : ugat_head) (c : nat) : Prop := fits (uh_th h) n c /\ fits (uh_ae h) c 1 /\ calm c nv p (uh_t h).
(** an average weighted by attention, without the weights *)
Lemma softmax_mean es (sc y : Z -> R) att v : is_softmax (Z.of_nat (length es)) (fun v i => 0 <= i < Z.of_nat (length es) /\ In v (nthe es i)) (fun _ i => sc i) att ->
  sumf (range (Z.of_nat (length es))) (fun i => att v i * y i)%R = (inc_sum es (fun i => exp (sc i) * y i) v * / inc_sum es (fun i => exp (sc i)) v)%R.
Proof.
  intros (P1 & P2 & P3 & P4). set (ne := Z.of_nat (length es)) in *.
  assert (SL : forall l (c : R) (f : Z -> R), sumf l (fun i => c * f i)%R = (c * sumf l f)%R).
  { intros l c f. induction l as [|a l IH]; cbn; [change (@nz R _) with 0%R; ring|]. change (@nadd R _) with Rplus. rewrite IH. ring. }
  assert (A : forall i, 0 <= i < ne -> In v (nthe es i) -> (att v i * inc_sum es (fun k => exp (sc k)) v = exp (sc i))%R).
  { intros i I M. unfold inc_sum. fold ne. rewrite <- SL. transitivity (sumf (range ne) (fun k => exp (sc i) * att v k)%R); [|rewrite SL; change (exp (sc i) * sumf (range ne) (fun j => att v j) = exp (sc i))%R; rewrite (P4 v) by eauto; lra].
    apply sumf_ext_in. intros k K. apply range_In in K. destruct (zmem v (nthe es k)) eqn:Z0.
    - apply zmem_In in Z0. rewrite (P3 v i k) by auto. lra.
    - change (@nz R _) with 0%R. rewrite (P2 v k); [lra|]. intros [_ X]. apply zmem_In in X. congruence. }
  assert (POS : forall i, 0 <= i < ne -> In v (nthe es i) -> inc_sum es (fun k => exp (sc k)) v <> 0%R).
  { intros i I M Z0. pose proof (A i I M) as X. rewrite Z0 in X. pose proof (exp_pos (sc i)). lra. }
  rewrite Rmult_comm. unfold inc_sum at 2. fold ne. rewrite <- SL. apply sumf_ext_in. intros i I. apply range_In in I. destruct (zmem v (nthe es i)) eqn:Z0.
  - apply zmem_In in Z0. rewrite <- (A i I Z0). pose proof (POS i I Z0). field. auto.
  - change (@nz R _) with 0%R. rewrite (P2 v i); [lra|]. intros [_ X]. apply zmem_In in X. congruence.
Qed.
Lemma unigat_turns nv p r e w vw m ops (s : hypergraph R) es ws src e' w' vw' m' ops' (s' : hypergraph R) es' ws' src' slope n h c :
  h_clean_reach nv e w vw m ops s -> h_reports s None es ws -> snd (h_query (hqE2vSrc None) s) = Ok (OIdx src) -> length src <> 1%nat ->
  h_clean_reach nv e' w' vw' m' ops' s' -> h_reports s' None es' ws' -> snd (h_query (hqE2vSrc None) s') = Ok (OIdx src') -> length src' <> 1%nat ->
  renaming nv p r -> hrelabelled p es ws es' ws' -> ugat_aligned nv p n h c ->
  turns (fun X => unigat_layer slope s h (map vec X)) (fun X => unigat_layer slope s' h (map vec X)) n c nv p.
Proof.
  intros H RP ES LS H' RP' ES' LS' RN HR (F & FA & Q). unfold unigat_layer. destruct (lens H RP H' RP') as (L1 & L2). pose proof (within_nv H RP) as WN.
  apply (@gives_turns R _ false (fun X t => unigat_conv (uh_th h) (uh_ae h) slope (fun l => l) t s X) (fun X t => unigat_conv (uh_th h) (uh_ae h) slope (fun l => l) t s' X) _ _ _ _ _ r); auto.
  intros X X' S S' E.
  rewrite <- (rowlen S) in F. destruct (@C125_vertex_ignored_actual nv e w vw m ops s es ws (uh_th h) (uh_ae h) slope (map vec X) c (t_act (uh_t h)) src H RP F FA ES LS) as (att & SM & G).
  rewrite (rowlen S), <- (rowlen S') in F.
  destruct (@C125_vertex_ignored_actual nv e' w' vw' m' ops' s' es' ws' (uh_th h) (uh_ae h) slope (map vec X') c (t_act (uh_t h)) src' H' RP' F FA ES' LS') as (att' & SM' & G').
  rewrite (rowlen S) in *. rewrite (rowlen S') in *. eexists; eexists. split; [exact G|]. split; [exact G'|].
  intros j v J V. cbv beta. rewrite (@softmax_mean es _ _ att v SM), (@softmax_mean es' _ _ att' (p v) SM').
  set (f := fun k u => affine (uh_th h) n (fun k0 => chan (map vec X) k0 u) k). set (f' := fun k u => affine (uh_th h) n (fun k0 => chan (map vec X') k0 u) k).
  assert (FF : forall k u, 0 <= u < nv -> f' k (p u) = f k u) by (intros k u U; apply affine_ext; intros k0; apply (turned_chan E U)).
  assert (ME : forall k x x' a, In x es -> Permutation (map p x) x' -> mean_of (f' k) x' a = mean_of (f k) x a)
    by (intros k x x' a I P; apply (@ren_mean R _ RT nv p r RN es WN (f k) (f' k) x x' a (FF k) I P)).
  pose (sc := fun (f : nat -> Z -> R) x a => clamp (1/1000) 5 (leaky slope (affine (uh_ae h) c (fun k => mean_of (f k) x a) 0))).
  assert (SE : forall x x' a, In x es -> Permutation (map p x) x' -> sc f' x' a = sc f x a).
  { intros x x' a I P. unfold sc. do 2 f_equal. apply affine_ext. intros k. apply ME; auto. }
  f_equal; [|f_equal].
  - apply (@ren_inc R _ RT nv p r RN es es' ws ws' HR L1 L2 _ _ (fun x a => exp (sc f x a) * mean_of (f j) x a)%R (fun x a => exp (sc f' x a) * mean_of (f' j) x a)%R); [reflexivity..|].
    intros x x' a I P. rewrite SE with (x := x), ME with (x := x) by auto. reflexivity.
  - apply (@ren_inc R _ RT nv p r RN es es' ws ws' HR L1 L2 _ _ (fun x a => exp (sc f x a)) (fun x a => exp (sc f' x a))); [reflexivity..|].
    intros x x' a I P. rewrite SE with (x := x) by auto. reflexivity.
Qed.
Theorem C184_unigat : forall nv p r e w vw m ops (s : hypergraph R) es ws src e' w' vw' m' ops' (s' : hypergraph R) es' ws' src' slope n heads hw out c d1 d2,
  h_clean_reach nv e w vw m ops s -> h_reports s None es ws -> snd (h_query (hqE2vSrc None) s) = Ok (OIdx src) -> length src <> 1%nat ->
  h_clean_reach nv e' w' vw' m' ops' s' -> h_reports s' None es' ws' -> snd (h_query (hqE2vSrc None) s') = Ok (OIdx src') -> length src' <> 1%nat ->
  renaming nv p r -> hrelabelled p es ws es' ws' ->
  heads <> [] -> Forall2 (ugat_aligned nv p n) heads hw -> ugat_aligned nv p (list_sum hw) out c -> fair n nv p d1 -> fair (list_sum hw) nv p d2 ->
  turns (unigat_model slope heads out d1 d2 s) (unigat_model slope heads out d1 d2 s') n c nv p.
Proof.
  intros nv p r e w vw m ops s es ws src e' w' vw' m' ops' s' es' ws' src' slope n heads hw out c d1 d2 H RP ES LS H' RP' ES' LS' RN HR NH F FO D1 D2. unfold unigat_model.
  apply (@turns_step R _ (fun X => multi_head "concat" (map (fun h => unigat_layer slope s h (map vec (d1 X))) heads))
           (fun X => multi_head "concat" (map (fun h => unigat_layer slope s' h (map vec (d1 X))) heads))
           (fun Y => unigat_layer slope s out (map vec (d2 Y))) (fun Y => unigat_layer slope s' out (map vec (d2 Y))) n (list_sum hw) c).
  - apply heads_turn; auto. clear NH FO D2. induction F as [|h k heads hw FH F IH]; constructor; auto.
    apply (turns_pre (g := fun X => unigat_layer slope s h (map vec X)) (g' := fun X => unigat_layer slope s' h (map vec X)) D1).
    eapply unigat_turns with (src := src) (src' := src'); eauto.
  - apply (turns_pre (g := fun X => unigat_layer slope s out (map vec X)) (g' := fun X => unigat_layer slope s' out (map vec X)) D2).
    eapply unigat_turns with (src := src) (src' := src'); eauto.
Qed.

(** ** batch normalisation, with the statistics of the batch (training) or stored ones (evaluation), does not care about the order *)
Theorem C184_norm : forall (T S : Type) (N : Num T) c nv p r (stat : list T -> S) (phi : S -> T -> T), renaming nv p r ->
  (forall x x', Permutation x x' -> stat x = stat x') -> fair c nv p (map (fun x => map (phi (stat x)) x)).
Proof.
  intros T S0 N c nv p r stat phi RN ST Y Y' [L F] [L' F'] E.
  assert (SH : forall Z : list (list T), length Z = c -> Forall (fun x => length x = Z.to_nat nv) Z -> shaped (map (fun x => map (phi (stat x)) x) Z) c nv).
  { intros Z LZ FZ. split; [rewrite map_length; auto|]. rewrite Forall_forall in *. intros x I. apply in_map_iff in I as (y & <- & I). rewrite map_length. auto. }
  split; [auto|]. split; [auto|]. intros v V. unfold row. rewrite !map_map. clear SH. revert c Y' L L' F F' E.
  induction Y as [|x Y IH]; intros c [|x' Y'] L L' F F' E; cbn in L, L'; try lia; [reflexivity|]. cbn [map].
  inversion F as [|? ? LX FY]; subst. inversion F' as [|? ? LX' FY']; subst.
  assert (EV : forall u, 0 <= u < nv -> nth (Z.to_nat (p u)) x' nz = nth (Z.to_nat u) x nz /\ row Y' (p u) = row Y u).
  { intros u U. pose proof (E u U) as A. unfold row in A. cbn [map] in A. injection A as A B. auto. }
  f_equal; [|apply (IH (length Y)); auto; intros u U; apply EV; auto].
  assert (AS : forall z : list T, length z = Z.to_nat nv -> z = map (fun u => nth (Z.to_nat u) z nz) (range nv)).
  { intros z LZ. apply nth_ext with (d := nz) (d' := nz); [rewrite map_length, range_length; auto|]. intros i I.
    pose proof (@nth_map_range T _ (fun u => nth (Z.to_nat u) z nz) nv (Z.of_nat i) ltac:(lia)) as A. rewrite !Nat2Z.id in A. rewrite A. reflexivity. }
  assert (PX : Permutation x x').
  { rewrite (AS x LX), (AS x' LX'). apply Permutation_trans with (map (fun u => nth (Z.to_nat u) x' nz) (map p (range nv))).
    - rewrite map_map. apply Permutation_refl'. apply map_ext_in. intros u U. apply range_In in U. symmetry. apply EV. auto.
    - apply Permutation_map. apply (ren_range RN). }
  pose proof (ren_in RN v) as PV. rewrite <- (ST _ _ PX).
  rewrite (nth_indep (map (phi (stat x)) x') nz (phi (stat x) nz)) by (rewrite map_length; lia).
  rewrite (nth_indep (map (phi (stat x)) x) nz (phi (stat x) nz)) by (rewrite map_length; lia). rewrite !map_nth. f_equal. apply EV. auto.
Qed.

(** ** concrete cases: two layers, the first with batch normalisation by the mean of the batch *)
Definition centre (Y : list (list Qc)) : list (list Qc) := map (fun x => map (fun a => nsub a (nmul (sumf x (fun b => b)) (ninv (q 4)))) x) Y.
Lemma centre_fair c : fair c 4 turn centre.
Proof.
  apply (@C184_norm Qc Qc _ c 4 turn turn_back (fun x => nmul (sumf x (fun b => b)) (ninv (q 4))) (fun m a => nsub a m) turn_renaming).
  intros x x' P. f_equal. apply (@sumf_perm Qc Num_Qc Qcrt _ _ _ (fun b => b) P).
Qed.

Definition centred : tcfg (T := Qc) := mktcfg false (fun x => x) (Some centre) (fun Y => Y).
Lemma centred_calm c : calm c 4 turn centred.
Proof. split; [apply fair_id|]. intros f E. injection E as <-. apply centre_fair. Qed.
Example C184_graph_case : exists s s' : graph Qc,
  g_reach 4 (Some (EMany [(0, 1); (1, 2)])) (WList [q 2; q 3]) false MMean [] s /\ nonneg_new (Some (EMany [(0, 1); (1, 2)])) /\
  g_reach 4 (Some (EMany [(1, 2); (2, 0)])) (WList [q 2; q 3]) false MMean [] s' /\ nonneg_new (Some (EMany [(1, 2); (2, 0)])) /\
  renaming 4 turn turn_back /\
  relabelled 4 turn (g_spec 4 (Some (EMany [(0, 1); (1, 2)])) (WList [q 2; q 3]) false MMean []) (g_spec 4 (Some (EMany [(1, 2); (2, 0)])) (WList [q 2; q 3]) false MMean []) /\
  aligned 1 [(sage1, centred); (sage1, plain true)] true 4 turn 1 /\
  graphsage_model [(sage1, centred); (sage1, plain true)] s [[q 0; q 5; q 10; q 1]] = Ok [[q 0; q 6; q 10; q (-7)]] /\
  graphsage_model [(sage1, centred); (sage1, plain true)] s' [[q 10; q 0; q 5; q 1]] = Ok [[q 10; q 0; q 6; q (-7)]].
Proof.
  eexists _, _. split; [eexists; split; reflexivity|]. split; [cbn; repeat (apply Forall_cons; [cbn; lia|]); apply Forall_nil|].
  split; [eexists; split; reflexivity|]. split; [cbn; repeat (apply Forall_cons; [cbn; lia|]); apply Forall_nil|].
  split; [exact turn_renaming|].
  split. { split; [reflexivity|]. intros u v U V. assert (A : forall x, 0 <= x < 4 -> x = 0 \/ x = 1 \/ x = 2 \/ x = 3) by (intros; lia).
    destruct (A u U) as [->|[->|[->| ->]]], (A v V) as [->|[->|[->| ->]]]; vm_compute; reflexivity. }
  split. { cbn. exists 1%nat. split; [repeat constructor; discriminate|]. split; [apply centred_calm|]. exists 1%nat. split; [repeat constructor; discriminate|]. split; [apply calm_plain|reflexivity]. }
  split; vm_compute; qceq.
Qed.

(** the hyperedges {0,1} and {1,2}, and the same under the new names in the other order *)
Example C184_hypergraph_case : exists s s' : hypergraph Qc,
  h_clean_reach 4 (Some (HMany [[0; 1]; [1; 2]])) (WList [q 2; q 3]) None MMean [] s /\ h_reports s None [[0; 1]; [1; 2]] [q 2; q 3] /\
  h_clean_reach 4 (Some (HMany [[2; 0]; [1; 2]])) (WList [q 3; q 2]) None MMean [] s' /\ h_reports s' None [[0; 2]; [1; 2]] [q 3; q 2] /\
  renaming 4 turn turn_back /\ hrelabelled turn [[0; 1]; [1; 2]] [q 2; q 3] [[0; 2]; [1; 2]] [q 3; q 2] /\
  aligned 1 [(one_to_one (q 4) (q 1), centred); (one_to_one (q 4) (q 0), plain true)] false 4 turn 1 /\
  hgnnp_model [(one_to_one (q 4) (q 1), centred); (one_to_one (q 4) (q 0), plain true)] s [[q 0; q 5; q 10; q 1]] = Ok [[q 3; q 27; q 43; q 0]] /\
  hgnnp_model [(one_to_one (q 4) (q 1), centred); (one_to_one (q 4) (q 0), plain true)] s' [[q 10; q 0; q 5; q 1]] = Ok [[q 43; q 3; q 27; q 0]].
Proof.
  eexists _, _. split; [split; [eexists; split; [reflexivity|reflexivity]|]|].
  { split; [discriminate|]. split; [constructor|]. split; [|constructor]. unfold clean_new, clean_harg, hedges_of.
    repeat (apply Forall_cons; [split; [repeat (apply NoDup_cons; [cbn; lia|]); apply NoDup_nil|repeat (apply Forall_cons; [lia|]); apply Forall_nil]|]). apply Forall_nil. }
  split; [split; [reflexivity|intros _; discriminate]|]. split; [split; [eexists; split; [reflexivity|reflexivity]|]|].
  { split; [discriminate|]. split; [constructor|]. split; [|constructor]. unfold clean_new, clean_harg, hedges_of.
    repeat (apply Forall_cons; [split; [repeat (apply NoDup_cons; [cbn; lia|]); apply NoDup_nil|repeat (apply Forall_cons; [lia|]); apply Forall_nil]|]). apply Forall_nil. }
  split; [split; [reflexivity|intros _; discriminate]|]. split; [exact turn_renaming|].
  split. { exists [([1; 2], q 2); ([0; 2], q 3)]. split; [apply perm_swap|]. constructor; [split; [apply Permutation_refl|reflexivity]|]. constructor; [split; [apply perm_swap|reflexivity]|]. constructor. }
  split. { cbn. exists 1%nat. split; [apply fits_one|]. split; [apply centred_calm|]. exists 1%nat. split; [apply fits_one|]. split; [apply calm_plain|reflexivity]. }
  split; vm_compute; qceq.
Qed.
