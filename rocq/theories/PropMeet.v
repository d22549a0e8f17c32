(** Properties C169, C170: vertices or middles of edges at the same place in the force-directed layout. *)
From Coq Require Import String Reals Lra.
From Verif Require Import Num PyDict PyDictFacts CooFacts ModelBase ModelConv ModelUtils ModelMetrics RealFacts MetricFacts ModelVis ModelDraw SpecVis VisFacts PropVis PropForce PropLayout PropDraw.
From Verif Require ModelHyper SpecHyper PropHyper.
Set Implicit Arguments.
Local Open Scope string_scope.
Local Open Scope list_scope.
Local Open Scope R_scope.

(** ** sums with an infinite part *)
Definition infinite (x : fl R) : Prop := forall a, x <> Fin a.
Lemma fadd_infinite x y : infinite x \/ infinite y -> infinite (fadd x y).
Proof. intros [I|I] a; destruct x, y; cbn; try discriminate; destruct (I _ eq_refl). Qed.
Lemma fsum_infinite l : (exists x, In x l /\ infinite x) -> infinite (fsum l).
Proof.
  induction l as [|y l IH]; intros (x & I & N); [destruct I|]. cbn [fsum fold_right]. apply fadd_infinite.
  destruct I as [->|I]; [left; auto|right; apply IH; eauto].
Qed.
Lemma fsum_nan l : In NaN l -> fsum l = NaN.
Proof.
  induction l as [|y l IH]; intros I; [destruct I|]. cbn [fsum fold_right]. destruct I as [->|I]; [reflexivity|].
  fold (fsum l). rewrite (IH I). destruct y; reflexivity.
Qed.
Lemma fmul_inf_fin x : infinite (fmul PInf (Fin x)).
Proof. intros a. cbn. destruct (Rlt_dec 0 x); [discriminate|]. destruct (Rlt_dec x 0); discriminate. Qed.
Lemma fmul_0_infinite x : infinite x -> fmul (Fin 0) x = NaN.
Proof. intros I. destruct x; cbn; auto; try (destruct (Rlt_dec 0 0); [lra|]); auto. destruct (I _ eq_refl). Qed.
Lemma dist_same a : dist a a = 0.
Proof. unfold dist, vlen, psub. cbn [fst snd]. replace ((fst a - fst a) ^ 2 + (snd a - snd a) ^ 2) with 0 by ring. apply sqrt_0. Qed.
Lemma inv_0 : fdiv 1 (0 ^ 2) = PInf.
Proof.
  unfold fdiv, neqb, nltb. cbn [nleb Ext_R nz Num_R]. replace (0 ^ 2) with 0 by ring.
  destruct (Rle_dec 0 0); [|lra]. cbn [andb]. destruct (Rle_dec 1 0); [lra|reflexivity].
Qed.

(** * C169: a hyperedge that occurs twice *)
Lemma add_force_err n f force : (exists r, add_force n f force = Ok r) \/ add_force n f force = Err AssertionError.
Proof. unfold add_force. destruct existsb; eauto. Qed.
Lemma step_same sim n m (H : Z -> nat -> R) j damping pos k i i' w :
  s_erep sim = Some k -> (0 <= w < n)%Z -> (i < m)%nat -> (i' < m)%nat -> i <> i' ->
  (forall v, (0 <= v < n)%Z -> H v i = H v i') -> H w i = 0 ->
  (forall v, (0 <= v < n)%Z -> exists q, pos v = lift_pt q) -> (forall e, (e < m)%nat -> sumf (range n) (fun v => H v e) <> 0) ->
  step sim n m H j damping pos = Err AssertionError.
Proof.
  intros SE W I I' NI SAME Z0 POS NE. unfold step.
  replace (forallb _ (vs n)) with true.
  2:{ symmetry. apply forallb_forall. intros v V. apply in_vs in V. destruct (POS v V) as (q & ->). rewrite fin_pt_lift. auto. }
  cbn [negb]. replace (existsb (e_empty n H) (es m) || Nat.eqb m 0) with false.
  2:{ symmetry. apply orb_false_iff. split; [|apply Nat.eqb_neq; lia]. apply not_true_is_false. intros X.
      apply existsb_exists in X as (e & J & X). apply in_seq in J. unfold e_empty in X. destruct (Req_EM_T _ 0) as [E0|]; [|discriminate]. apply (NE e); [lia|exact E0]. }
  cbv zeta. set (p := fun v => match fin_pt (pos v) with Some x => x | None => (0, 0) end). rewrite SE.
  assert (EC : e_center n H p i = e_center n H p i').
  { unfold e_center. assert (S : forall f : Z -> R, sumf (vs n) (fun v => H v i * f v) = sumf (vs n) (fun v => H v i' * f v)).
    { intros f. apply sumf_ext_in. intros v V. apply in_vs in V. rewrite (SAME v V). reflexivity. }
    assert (S1 : sumf (vs n) (fun v => H v i) = sumf (vs n) (fun v => H v i')) by (apply sumf_ext_in; intros v V; apply in_vs in V; apply SAME; auto).
    rewrite S1. f_equal; f_equal; apply S. }
  assert (ERR : forall force, add_force n (fun v => fpmul (Fin k) (edge_repulsion m H j (e_center n H p) v)) force = Err AssertionError).
  { intros force. unfold add_force.
    match goal with |- (if ?b then _ else _) = _ => replace b with true end; [reflexivity|]. symmetry. apply existsb_exists. exists w. split; [apply in_vs; exact W|].
    unfold edge_repulsion, fp_nan, fpmul, fpsum. cbn [fst snd]. rewrite fsum_nan; [reflexivity|].
    rewrite map_map. apply in_map_iff. exists i. split; [|apply in_seq; lia]. cbn [fst]. rewrite Z0. apply fmul_0_infinite.
    unfold repulsion, fpsum. cbn [fst]. rewrite map_map. apply fsum_infinite.
    eexists. split; [apply in_map_iff; exists i'; split; [reflexivity|apply in_seq; lia]|].
    replace (Nat.eqb i i') with false by (symmetry; apply Nat.eqb_neq; auto). rewrite EC, dist_same, inv_0. cbn [fpmul fst lift_pt]. apply fmul_inf_fin. }
  destruct (s_attr sim) as [a|]; cbn [when];
    [match goal with |- rbind (add_force ?n ?f ?g) _ = _ => destruct (add_force_err n f g) as [(r & ->)|E1] end; [|rewrite E1; reflexivity]|]; cbn [rbind];
  (destruct (s_rep sim) as [l|]; cbn [when];
    [match goal with |- rbind (add_force ?n ?f ?g) _ = _ => destruct (add_force_err n f g) as [(r2 & ->)|E2] end; [|rewrite E2; reflexivity]|]; cbn [rbind];
   rewrite ERR; reflexivity).
Qed.
(** the layout of a (hyper)graph whose edges push each other: if two of the edges have the same vertices, and there is another
    vertex, then an assertion of the simulation fails, whatever is drawn *)
Theorem C169_layout_actual : forall n E push_v push_e pull_e pull_c rnd js i i' w,
  vertices_in n E -> ~ In [] E -> uniform n rnd -> (i < length E)%nat -> (i' < length E)%nat -> i <> i' ->
  (forall v, In v (nth i E []) <-> In v (nth i' E [])) -> (0 <= w < n)%Z -> ~ In w (nth i E []) ->
  force_layout n E push_v (Some push_e) pull_e pull_c rnd js = Err AssertionError.
Proof.
  intros n E push_v push_e pull_e pull_c rnd js i i' w V NN U I I' NI SAME W NW. unfold force_layout.
  match goal with |- context [negb (forallb ?f ?l)] => replace (forallb f l) with true end.
  2:{ symmetry. apply forallb_forall. intros v J. apply (in_vs n) in J. destruct (init_in U J) as [A B].
      assert (IN : forall x, Rabs x <= 5 -> -5 <= x <= 5) by (intros x X; unfold Rabs in X; destruct (Rcase_abs x); lra).
      apply IN in A. apply IN in B. repeat destruct Rle_dec; auto; lra. }
  cbn [negb]. destruct (@incidence_ok n E) as (H & EH & HH); [lia|exact V|]. rewrite EH. cbn [rbind].
  unfold simulate. assert (HO : forall v e, In v (nth e E []) <-> H v e = 1).
  { intros v e. rewrite HH. destruct (existsb (Z.eqb v) (nth e E [])) eqn:X.
    - apply existsb_exists in X as (x & J & X). apply Z.eqb_eq in X. subst x. split; auto.
    - split; [|lra]. intros J. rewrite <- not_true_iff_false in X. destruct X. apply existsb_exists. exists v. split; auto. apply Z.eqb_refl. }
  assert (H01 : forall v e, H v e = 1 \/ H v e = 0) by (intros v e; rewrite HH; destruct existsb; auto).
  change 400%nat with (S 399). cbn [iterate].
  rewrite (@step_same _ n (length E) H (js 0%nat) 1 _ push_e i i' w); auto.
  - intros v _. destruct (H01 v i) as [A|A], (H01 v i') as [B|B]; rewrite A, B; auto; exfalso.
    + apply HO, SAME, HO in A. lra.
    + apply HO, SAME, HO in B. lra.
  - destruct (H01 w i) as [A|A]; auto. destruct NW. apply HO, A.
  - intros v _. eauto.
  - intros e L. destruct (nth e E []) as [|x l] eqn:X; [destruct NN; rewrite <- X; apply nth_In, L|].
    assert (P : 0 < sumf (range n) (fun v => H v e)); [|lra]. apply Rsum_pos with (x := x).
    + intros u _. destruct (H01 u e) as [->| ->]; lra.
    + apply (in_vs n). apply (V (nth e E [])); [apply nth_In, L|rewrite X; cbn; auto].
    + assert (Y : H x e = 1) by (apply HO; rewrite X; cbn; auto). rewrite Y. lra.
Qed.
(** so that a hypergraph with the same hyperedge in two groups cannot be drawn *)
Theorem C169_draw_actual : forall hull argsort rnd js n hs k i i' w,
  vertices_in n hs -> ~ In [] hs -> uniform n rnd -> lk_style k = "circle" -> fine n (length hs) k ->
  (i < length hs)%nat -> (i' < length hs)%nat -> i <> i' -> nth i hs [] = nth i' hs [] -> (0 <= w < n)%Z -> ~ In w (nth i hs []) ->
  draw_hypergraph hull argsort rnd js n hs k = Err AssertionError.
Proof.
  intros hull argsort rnd js n hs k i i' w V NN U S F I I' NI SAME W NW.
  destruct (@common_parts n (length hs) k ltac:(lia) F) as (vc & ec & fc & sz & lw & elw & E1 & E2 & E3 & E4 & _).
  assert (NE : hs <> []) by (destruct hs; cbn in *; [lia|discriminate]).
  unfold draw_hypergraph. rewrite S, (not_empty NE). cbn [negb one_of existsb String.eqb Ascii.eqb Bool.eqb orb].
  rewrite E1, E2, E3. cbn [rbind]. rewrite E4. cbn [rbind].
  rewrite (@C169_layout_actual n hs _ _ _ _ rnd js i i' w); auto. intros v. rewrite SAME. reflexivity.
Qed.
Lemma concat_twice {A} (x d : A) : forall (ls : list (list A)) a b, (a < b)%nat -> In x (nth a ls []) -> In x (nth b ls []) ->
  exists i i', i <> i' /\ (i < length (concat ls))%nat /\ (i' < length (concat ls))%nat /\ nth i (concat ls) d = x /\ nth i' (concat ls) d = x.
Proof.
  induction ls as [|l ls IH]; intros a b L I J; [destruct a; destruct I|]. destruct b as [|b]; [lia|]. cbn [concat nth] in *. rewrite app_length. destruct a as [|a].
  - destruct (In_nth _ _ d I) as (i & Li & Ei).
    assert (C : In x (concat ls)). { destruct (nth_in_or_default b ls []) as [K|K]; [|rewrite K in J; destruct J]. apply in_concat. eauto. }
    destruct (In_nth _ _ d C) as (i' & Li' & Ei'). exists i, (length l + i')%nat. repeat split; try lia.
    + rewrite app_nth1 by auto. exact Ei.
    + rewrite app_nth2 by lia. replace (length l + i' - length l)%nat with i' by lia. exact Ei'.
  - destruct (IH a b) as (i & i' & N & L1 & L2 & E1 & E2); auto; [lia|]. exists (length l + i)%nat, (length l + i')%nat. repeat split; try lia.
    + rewrite app_nth2 by lia. replace (length l + i - length l)%nat with i by lia. exact E1.
    + rewrite app_nth2 by lia. replace (length l + i' - length l)%nat with i' by lia. exact E2.
Qed.
Theorem C169_groups_actual : forall (T : Type) (N : Num T) nv e w vw m ops (s : ModelHyper.hypergraph T) gs a b x hull argsort rnd js k z,
  SpecHyper.h_reach nv e w vw m ops s -> m <> MOther -> Forall SpecHyper.doc_op ops -> SpecHyper.h_parts s gs ->
  (a < b)%nat -> In x (nth a (map (fun g => fst (snd g)) gs) []) -> In x (nth b (map (fun g => fst (snd g)) gs) []) -> (0 <= z < nv)%Z -> ~ In z x ->
  exists hs ws, snd (ModelHyper.h_query (ModelHyper.hqE None) s) = Ok (OHE hs ws) /\
    (vertices_in nv hs -> ~ In [] hs -> uniform nv rnd -> lk_style k = "circle" -> fine nv (length hs) k ->
     draw_hypergraph hull argsort rnd js nv hs k = Err AssertionError).
Proof.
  intros T N nv e w vw m ops s gs a b x hull argsort rnd js k z RE M D P L I J Z NZ.
  destruct (PropHyper.C27_global RE M D P) as [E _]. do 2 eexists. split; [exact E|]. intros V NN U S F.
  destruct (concat_twice x [] _ L I J) as (i & i' & NI & L1 & L2 & E1 & E2).
  apply C169_draw_actual with (i := i) (i' := i') (w := z); auto; rewrite E1; auto.
Qed.
(** the hyperedge {0, 1} in two groups *)
Example C169_case : exists s s' : ModelHyper.hypergraph R,
  ModelHyper.h_new 3 (Some (ModelHyper.HOne [0; 1]%Z)) WNone None MMean = Ok s /\
  s' = fst (ModelHyper.h_step (ModelHyper.HAdd (ModelHyper.HOne [1; 0]%Z) WNone MMean "b") s) /\
  snd (ModelHyper.h_query (ModelHyper.hqE None) s') = Ok (OHE [[0; 1]; [0; 1]]%Z [1; 1]) /\
  vertices_in 3 [[0; 1]; [0; 1]]%Z /\ uniform 3 (fun v => (IZR v / 4, 1 / 2)) /\ fine 3 2 (plain "circle" None KNone (KOne "k") (SNum 1)).
Proof.
  do 2 eexists. split; [reflexivity|]. split; [reflexivity|]. split; [reflexivity|]. split; [|split].
  - intros e v [<-|[<-|[]]] [<-|[<-|[]]]; lia.
  - intros v V. cbn [fst snd]. assert (0 <= IZR v <= 3) by (split; apply IZR_le; lia). lra.
  - split; [split; discriminate|]. split; [split; discriminate|]. split; [split; discriminate|]. split; [split; [intros l E; discriminate E|split; intros l E; discriminate E]|]. split; [|discriminate].
    intros i _. cbn. lra.
Qed.

(** * C170: two vertices at the same place *)
Definition towards (a : R) : R := if Rlt_dec 0 a then 2 / 10 else - (2 / 10).
Definition inf_of (a : R) : fl R := if Rlt_dec 0 a then PInf else NInf.
Lemma fsum_one {A} (f : A -> fl R) a w : forall l, In w l -> f w = inf_of a -> (forall v, In v l -> v = w \/ exists b, f v = Fin b) -> fsum (map f l) = inf_of a.
Proof.
  intros l I E O.
  assert (G : (In w l -> fsum (map f l) = inf_of a) /\ ((exists b, fsum (map f l) = Fin b) \/ fsum (map f l) = inf_of a)); [|apply G, I].
  clear I. induction l as [|v l IH]; [split; [intros []|left; exists 0; reflexivity]|].
  destruct IH as [IH1 IH2]; [intros; apply O; right; auto|]. cbn [map fsum fold_right] in *. fold (fsum (map f l)) in *.
  destruct (O v (or_introl eq_refl)) as [->|(b & B)].
  - rewrite E. assert (X : fadd (inf_of a) (fsum (map f l)) = inf_of a).
    { destruct IH2 as [(c & ->)| ->]; unfold inf_of; destruct (Rlt_dec 0 a); reflexivity. }
    rewrite X. auto.
  - rewrite B. split.
    + intros [->|I].
      * rewrite B in E. unfold inf_of in E. destruct (Rlt_dec 0 a); discriminate.
      * rewrite (IH1 I). unfold inf_of. destruct (Rlt_dec 0 a); reflexivity.
    + destruct IH2 as [(c & ->)| ->]; [left; eexists; reflexivity|right]. unfold inf_of. destruct (Rlt_dec 0 a); reflexivity.
Qed.
Lemma inf_jitter a : a <> 0 -> fmul PInf (Fin (1 / 1000000 * a)) = inf_of a.
Proof.
  intros NA. cbn [fmul]. unfold inf_of. destruct (Rlt_dec 0 a) as [P|P].
  - destruct (Rlt_dec 0 (1 / 1000000 * a)); [reflexivity|lra].
  - destruct (Rlt_dec 0 (1 / 1000000 * a)); [lra|]. destruct (Rlt_dec (1 / 1000000 * a) 0); [reflexivity|lra].
Qed.
Lemma push_meet n j p u w : (0 <= w < n)%Z -> u <> w -> p u = p w ->
  (forall v, (0 <= v < n)%Z -> v <> u -> v <> w -> p u <> p v) -> fst (j_vv j u w) <> 0 -> snd (j_vv j u w) <> 0 ->
  node_repulsion n j p u = (inf_of (fst (j_vv j u w)), inf_of (snd (j_vv j u w))).
Proof.
  intros W NW EP D A B. unfold node_repulsion, repulsion, fpsum. rewrite !map_map.
  assert (F : forall v, In v (vs n) -> v = w \/ exists q, (if Z.eqb u v then (Fin 0, Fin 0) else fpmul (fdiv 1 (dist (p u) (p v) ^ 2))
     (lift_pt (safe_div (psub (p u) (p v)) (vlen (psub (p u) (p v))) (j_vv j u v)))) = lift_pt q).
  { intros v V. apply in_vs in V. destruct (Z.eq_dec v w) as [->|NV]; [left; auto|right].
    destruct (Z.eqb_spec u v) as [->|NU]; [exists (0, 0); reflexivity|]. specialize (D v V (not_eq_sym NU) NV).
    assert (P : 0 < dist (p u) (p v)). { destruct (vlen_nonneg (psub (p u) (p v))) as [L|L]; auto. destruct D. apply dist_0. unfold dist. lra. }
    unfold fdiv. match goal with |- context [if ?b then _ else Fin _] => replace b with false end.
    2:{ symmetry. unfold neqb. cbn [nleb Ext_R nz Num_R]. pose proof (pow_lt _ 2 P). destruct (Rle_dec (dist (p u) (p v) ^ 2) 0); [lra|reflexivity]. }
    unfold fpmul, lift_pt. cbn [fst snd fmul]. eexists (_, _). cbn [fst snd]. reflexivity. }
  assert (X : (if Z.eqb u w then (Fin 0, Fin 0) else fpmul (fdiv 1 (dist (p u) (p w) ^ 2))
     (lift_pt (safe_div (psub (p u) (p w)) (vlen (psub (p u) (p w))) (j_vv j u w)))) = (inf_of (fst (j_vv j u w)), inf_of (snd (j_vv j u w)))).
  { replace (Z.eqb u w) with false by (symmetry; apply Z.eqb_neq; auto). rewrite EP. change (vlen (psub (p w) (p w))) with (dist (p w) (p w)). rewrite dist_same, inv_0.
    unfold safe_div. destruct (Req_EM_T 0 0) as [_|N0]; [|destruct N0; reflexivity]. unfold fpmul, lift_pt, pscale. cbn [fst snd]. f_equal; apply inf_jitter; auto. }
  f_equal; apply fsum_one with (w := w); try (apply in_vs; exact W).
  - rewrite X. reflexivity.
  - intros v V. destruct (F v V) as [->|(q & ->)]; [left; auto|right; eexists; reflexivity].
  - rewrite X. reflexivity.
  - intros v V. destruct (F v V) as [->|(q & ->)]; [left; auto|right; eexists; reflexivity].
Qed.
Lemma add_force_ok n f force : (forall v, (0 <= v < n)%Z -> fp_nan (f v) = false) -> add_force n f force = Ok (fun v => fpadd (force v) (f v)).
Proof.
  intros F. unfold add_force. replace (existsb (fun v => fp_nan (f v)) (vs n)) with false; auto. symmetry. apply not_true_is_false. intros E.
  apply existsb_exists in E as (v & I & E). apply in_vs in I. rewrite (F v I) in E. discriminate.
Qed.
Lemma one_le_sum {A} (f : A -> R) u l : In u l -> (forall v, In v l -> 0 <= f v) -> f u <= sumf l f.
Proof.
  induction l as [|a l IH]; intros I P; [destruct I|]. change (sumf (a :: l) f) with (f a + sumf l f). destruct I as [->|I].
  - assert (0 <= sumf l f) by (apply Rsum_nonneg; intros; apply P; right; auto). lra.
  - specialize (IH I (fun v J => P v (or_intror J))). specialize (P a (or_introl eq_refl)). lra.
Qed.
Lemma fmul_inf k a : 0 < k -> fmul (Fin k) (inf_of a) = inf_of a.
Proof. intros K. unfold inf_of. destruct (Rlt_dec 0 a); cbn [fmul]; (destruct (Rlt_dec 0 k); [reflexivity|lra]). Qed.
(** One step of the layout of a graph, digraph or bipartite side (no pushes between edges) when the two vertices [u] and [w] are at the
    same place and nothing else is: they jump 2/10 along each axis, each in the direction of its own random draw; every other vertex
    moves as usual; the simulation goes on. *)
Theorem C170_meet : forall n E H j damping push_v pull_e pull_c x y u w, (0 < n)%Z -> vertices_in n E -> E <> [] -> ~ In [] E ->
  incidence_matrix n E = Ok H -> (0 <= u < n)%Z -> (0 <= w < n)%Z -> u <> w -> x u = x w -> y u = y w ->
  (forall a b, (0 <= a < n)%Z -> (0 <= b < n)%Z -> a <> b -> a <> u -> a <> w -> (x a, y a) <> (x b, y b)) ->
  fst (j_vv j u w) <> 0 -> snd (j_vv j u w) <> 0 -> fst (j_vv j w u) <> 0 -> snd (j_vv j w u) <> 0 -> 0 < push_v -> 0 < damping ->
  let F c v := total c n E (fun v => (x v, y v)) pull_e (fun _ => push_v) None (fun _ => (0, 0)) (fun _ => pull_c) v in
  exists pos', step (mkSim (Some pull_e) (Some [push_v]) None (Some [pull_c]) [(0, 0)] n) n (length E) H j damping (fun v => lift_pt (x v, y v)) = Ok (pos', false) /\
    pos' u = lift_pt (x u + towards (fst (j_vv j u w)), y u + towards (snd (j_vv j u w))) /\
    pos' w = lift_pt (x w + towards (fst (j_vv j w u)), y w + towards (snd (j_vv j w u))) /\
    (forall v, (0 <= v < n)%Z -> v <> u -> v <> w -> pos' v = lift_pt (x v + 2 * limited (damping * F fst v), y v + 2 * limited (damping * F snd v))).
Proof.
  intros n E H j damping push_v pull_e pull_c x y u w Hn V NE0 NN EH U W NUW EX EY D A1 A2 B1 B2 PV DA. cbv zeta.
  pose (q := fun v => (x v, y v)). set (sim := mkSim _ _ _ _ _ _).
  pose proof (holds_incidence Hn V EH) as HH.
  assert (NE1 : forall e, (e < length E)%nat -> exists v, (0 <= v < n)%Z /\ In v (nth e E [])).
  { intros e L. assert (I : In (nth e E []) E) by (apply nth_In, L). destruct (nth e E []) as [|v l] eqn:Q; [contradiction|]. exists v.
    split; [apply (V (v :: l)); cbn; auto|cbn; auto]. }
  unfold step. replace (forallb _ (vs n)) with true by (symmetry; apply forallb_forall; intros v _; rewrite fin_pt_lift; reflexivity). cbn [negb].
  replace (existsb (e_empty n H) (es (length E)) || Nat.eqb (length E) 0) with false.
  2:{ symmetry. apply orb_false_iff. split; [|apply Nat.eqb_neq; destruct E; [contradiction|discriminate]]. apply not_true_is_false. intros X.
      apply existsb_exists in X as (e & I & X). apply in_seq in I. unfold e_empty in X.
      destruct (Req_EM_T (sumf (vs n) (fun v => H v e)) 0) as [Z0|]; [|discriminate]. destruct (NE1 e ltac:(lia)) as (z & Z1 & IZ).
      assert (P : 0 < sumf (range n) (fun v => H v e)).
      { apply Rsum_pos with (x := z).
        - intros o _. rewrite HH. destruct holds; lra.
        - apply (in_vs n). exact Z1.
        - rewrite HH. replace (holds (nth e E []) z) with true; [lra|]. symmetry. apply existsb_exists. exists z. split; auto. apply Z.eqb_refl. }
      unfold vs in Z0. lra. }
  cbv zeta. change (s_attr sim) with (Some pull_e). change (s_rep sim) with (Some [push_v]). change (s_erep sim) with (@None R). change (s_grav sim) with (Some [pull_c]). cbn [when].
  change (fun v => match fin_pt (lift_pt (x v, y v)) with Some x0 => x0 | None => (0, 0) end) with q.
  rewrite add_force_ok by (intros; rewrite (@attraction_is n E H q HH NE1); reflexivity). cbn [rbind].
  assert (RU : node_repulsion n j q u = (inf_of (fst (j_vv j u w)), inf_of (snd (j_vv j u w)))).
  { apply push_meet; auto; unfold q; [congruence|]. intros v Vv N1 N2 C. apply (D v u); auto. }
  assert (RW : node_repulsion n j q w = (inf_of (fst (j_vv j w u)), inf_of (snd (j_vv j w u)))).
  { apply push_meet; auto; unfold q; [congruence|]. intros v Vv N1 N2 C. apply (D v w); auto. }
  assert (RV : forall v, (0 <= v < n)%Z -> v <> u -> v <> w -> node_repulsion n j q v = lift_pt (pushes fst n q v, pushes snd n q v)).
  { intros v Vv N1 N2. unfold node_repulsion. rewrite repulsion_is; [reflexivity|]. intros k K N. apply in_vs in K. apply Z.eqb_neq in N. unfold q. apply D; auto. }
  assert (RF : forall v, rep_factor sim [push_v] v = push_v) by reflexivity.
  assert (CASES : forall P : Z -> Prop, P u -> P w -> (forall v, (0 <= v < n)%Z -> v <> u -> v <> w -> P v) -> forall v, (0 <= v < n)%Z -> P v).
  { intros P P1 P2 P3 v Vv. destruct (Z.eq_dec v u) as [->|]; auto. destruct (Z.eq_dec v w) as [->|]; auto. }
  rewrite add_force_ok.
  2:{ apply CASES.
      - rewrite RF, RU. unfold fpmul. cbn [fst snd]. rewrite !fmul_inf by auto. unfold inf_of, fp_nan. cbn [fst snd]. destruct (Rlt_dec 0 _), (Rlt_dec 0 _); reflexivity.
      - rewrite RF, RW. unfold fpmul. cbn [fst snd]. rewrite !fmul_inf by auto. unfold inf_of, fp_nan. cbn [fst snd]. destruct (Rlt_dec 0 _), (Rlt_dec 0 _); reflexivity.
      - intros v Vv N1 N2. rewrite RV by auto. reflexivity. }
  cbn [rbind]. change (gravity_parts sim [pull_c]) with [(0%nat, (0, 0), pull_c, fun v => (v <? n)%Z)]. cbn [fold_left rbind].
  rewrite add_force_ok by (intros; reflexivity).
  match goal with |- context [rbind (Ok ?f) _] => set (f4 := f) end. cbn [rbind].
  assert (FA : forall a b c, fclip (-1 / 10) (1 / 10) (fmul (Fin damping) (fadd (fadd (fadd (Fin 0) (Fin a)) (fmul (Fin push_v) (inf_of b))) (Fin c))) = Fin (towards b / 2)).
  { intros a b c. rewrite fmul_inf by auto. replace (fadd (fadd (fadd (Fin 0) (Fin a)) (inf_of b)) (Fin c)) with (inf_of b) by (unfold inf_of; destruct (Rlt_dec 0 b); reflexivity).
    rewrite fmul_inf by auto. unfold inf_of, towards. destruct (Rlt_dec 0 b); cbn [fclip]; f_equal; lra. }
  set (vel := fun v => (fclip (-1 / 10) (1 / 10) (fmul (Fin damping) (fst (f4 v))), fclip (-1 / 10) (1 / 10) (fmul (Fin damping) (snd (f4 v))))).
  assert (VU : vel u = lift_pt (towards (fst (j_vv j u w)) / 2, towards (snd (j_vv j u w)) / 2)).
  { unfold vel, f4, fpadd, gravity_force. cbn [fst snd]. rewrite RF, RU. unfold fpmul, lift_pt. cbn [fst snd]. f_equal; apply FA. }
  assert (VW : vel w = lift_pt (towards (fst (j_vv j w u)) / 2, towards (snd (j_vv j w u)) / 2)).
  { unfold vel, f4, fpadd, gravity_force. cbn [fst snd]. rewrite RF, RW. unfold fpmul, lift_pt. cbn [fst snd]. f_equal; apply FA. }
  assert (VV : forall v, (0 <= v < n)%Z -> v <> u -> v <> w -> vel v = lift_pt (limited (damping * total fst n E q pull_e (fun _ => push_v) None (fun _ => (0, 0)) (fun _ => pull_c) v),
     limited (damping * total snd n E q pull_e (fun _ => push_v) None (fun _ => (0, 0)) (fun _ => pull_c) v))).
  { intros v Vv N1 N2. unfold vel, f4, fpadd, gravity_force. rewrite RF, RV by auto. rewrite (@attraction_is n E H q HH NE1), gravity_is.
    replace (v <? n)%Z with true by (symmetry; apply Z.ltb_lt; lia).
    unfold fpmul, lift_pt, psub, pscale. cbn [fst snd fmul fadd fclip nadd Num_R]. unfold limited, total. cbn [fst snd]. f_equal; f_equal; f_equal; f_equal; try lra; f_equal; ring. }
  assert (FIN : forall v, (0 <= v < n)%Z -> exists z, vel v = lift_pt z).
  { apply CASES; [rewrite VU; eauto|rewrite VW; eauto|]. intros v Vv N1 N2. rewrite VV by auto. eauto. }
  eexists. split; [|split; [|split]].
  - match goal with |- Ok (_, ?s) = _ => assert (ST : s = false) end; [|rewrite ST; reflexivity].
    change ((if existsb (fun v => fp_nan (vel v)) (vs n) then false else if Rlt_dec (sqrt (sumf (map (fun v => fin_pt (vel v)) (vs n))
      (fun o => match o with Some z => fst z ^ 2 + snd z ^ 2 | None => 0 end))) (1 / 1000) then true else false) = false).
    replace (existsb (fun v => fp_nan (vel v)) (vs n)) with false.
    2:{ symmetry. apply not_true_is_false. intros X. apply existsb_exists in X as (v & I & X). apply in_vs in I. destruct (FIN v I) as (z & Q). rewrite Q in X. discriminate. }
    match goal with |- (if Rlt_dec (sqrt ?s) _ then _ else _) = _ => assert (G : 1 / 1000 <= sqrt s); [|destruct (Rlt_dec (sqrt s) (1 / 1000)); [lra|reflexivity]] end.
    rewrite sumf_map. rewrite <- (sqrt_Rsqr (1 / 1000)) by lra. apply sqrt_le_1_alt.
    match goal with |- _ <= sumf _ ?f => pose proof (@one_le_sum _ f u (vs n)) as LE end. cbn beta in LE.
    eapply Rle_trans; [|apply LE].
    2:{ apply in_vs; exact U. }
    2:{ intros v I. apply in_vs in I. destruct (FIN v I) as (z & ->). rewrite fin_pt_lift.
      apply Rplus_le_le_0_compat; apply pow2_ge_0. }
    rewrite VU, fin_pt_lift. cbn [fst snd]. unfold towards, Rsqr. destruct (Rlt_dec 0 _), (Rlt_dec 0 _); lra.
  - change (fpadd (lift_pt (x u, y u)) (fpmul (Fin 2) (vel u)) = lift_pt (x u + towards (fst (j_vv j u w)), y u + towards (snd (j_vv j u w)))). rewrite VU. unfold fpadd, fpmul, lift_pt. cbn [fst snd fmul fadd nadd Num_R]. f_equal; f_equal; lra.
  - change (fpadd (lift_pt (x w, y w)) (fpmul (Fin 2) (vel w)) = lift_pt (x w + towards (fst (j_vv j w u)), y w + towards (snd (j_vv j w u)))). rewrite VW. unfold fpadd, fpmul, lift_pt. cbn [fst snd fmul fadd nadd Num_R]. f_equal; f_equal; lra.
  - intros v Vv N1 N2. match goal with |- _ = ?r => change (fpadd (lift_pt (x v, y v)) (fpmul (Fin 2) (vel v)) = r) end. rewrite VV by auto. reflexivity.
Qed.
(** two joined vertices at the origin and a third elsewhere *)
Example C170_case : let x v := if Z.eqb v 2 then 1 else 0 in
  let j := mkDraws (fun _ _ => (0, 0)) (fun a b => if Z.eqb a 0 then (1, -1) else (-1, -1)) (fun _ _ => (0, 0)) (fun _ _ => (0, 0)) in
  exists H pos', incidence_matrix 3 [[0; 1]; [1; 2]]%Z = Ok H /\
    step (mkSim (Some 1) (Some [1]) None (Some [1]) [(0, 0)] 3) 3 2 H j 1 (fun v => lift_pt (x v, 0)) = Ok (pos', false) /\
    pos' 0%Z = lift_pt (2 / 10, - (2 / 10)) /\ pos' 1%Z = lift_pt (- (2 / 10), - (2 / 10)).
Proof.
  intros x j. destruct (incidence_matrix 3 [[0; 1]; [1; 2]]%Z) as [H|] eqn:EH; [|discriminate]. exists H. destruct (@C170_meet 3 [[0; 1]; [1; 2]]%Z H j 1 1 1 1 x (fun _ => 0) 0 1) as (pos' & E & P0 & P1 & _).
  - lia.
  - intros e v [<-|[<-|[]]] [<-|[<-|[]]]; lia.
  - discriminate.
  - intros [C|[C|[]]]; discriminate.
  - exact EH.
  - lia.
  - lia.
  - lia.
  - reflexivity.
  - reflexivity.
  - intros a b A B N A0 A1 C. assert (a = 2)%Z as -> by lia. injection C as C. unfold x in C. cbn [Z.eqb Pos.eqb] in C.
    destruct (Z.eqb_spec b 2) as [->|_]; [lia|lra].
  - cbn. lra.
  - cbn. lra.
  - cbn. lra.
  - cbn. lra.
  - lra.
  - lra.
  - exists pos'. split; [reflexivity|]. split; [exact E|]. rewrite P0, P1. unfold j, towards. cbn [j_vv fst snd Z.eqb].
    destruct (Rlt_dec 0 1); [|lra]. destruct (Rlt_dec 0 (-1)); [lra|]. unfold lift_pt, x. cbn [Z.eqb Pos.eqb fst snd]. split; f_equal; f_equal; lra.
Qed.

Lemma fsum_up l : In PInf l -> fsum l = PInf \/ fsum l = NaN.
Proof.
  induction l as [|a l IH]; intros I; [destruct I|]. cbn [fsum fold_right]. fold (fsum l). destruct I as [->|I].
  - destruct (fsum l); cbn; auto.
  - destruct (IH I) as [-> | ->]; destruct a; cbn; auto.
Qed.
Lemma fsum_down l : In NInf l -> fsum l = NInf \/ fsum l = NaN.
Proof.
  induction l as [|a l IH]; intros I; [destruct I|]. cbn [fsum fold_right]. fold (fsum l). destruct I as [->|I].
  - destruct (fsum l); cbn; auto.
  - destruct (IH I) as [-> | ->]; destruct a; cbn; auto.
Qed.
(** Three vertices at the same place: if the draws for two of the pairs point in opposite directions along one axis, the step fails. *)
Theorem C170_three_actual : forall n E H j damping push_v push_e pull_e pull_c p u a b (c : R * R -> R), (0 < n)%Z -> vertices_in n E -> E <> [] -> ~ In [] E ->
  incidence_matrix n E = Ok H -> (0 <= u < n)%Z -> (0 <= a < n)%Z -> (0 <= b < n)%Z -> u <> a -> u <> b -> p u = p a -> p u = p b ->
  c = fst \/ c = snd -> 0 < c (j_vv j u a) -> c (j_vv j u b) < 0 -> 0 < push_v ->
  step (mkSim (Some pull_e) (Some [push_v]) push_e (Some [pull_c]) [(0, 0)] n) n (length E) H j damping (fun v => lift_pt (p v)) = Err AssertionError.
Proof.
  intros n E H j damping push_v push_e pull_e pull_c p u a b c Hn V NE0 NN EH U A B NA NB EA EB CC PA PB PV.
  pose proof (holds_incidence Hn V EH) as HH.
  assert (NE1 : forall e, (e < length E)%nat -> exists v, (0 <= v < n)%Z /\ In v (nth e E [])).
  { intros e L. assert (I : In (nth e E []) E) by (apply nth_In, L). destruct (nth e E []) as [|v l] eqn:Q; [contradiction|]. exists v.
    split; [apply (V (v :: l)); cbn; auto|cbn; auto]. }
  unfold step. replace (forallb _ (vs n)) with true by (symmetry; apply forallb_forall; intros v _; rewrite fin_pt_lift; reflexivity). cbn [negb].
  replace (existsb (e_empty n H) (es (length E)) || Nat.eqb (length E) 0) with false.
  2:{ symmetry. apply orb_false_iff. split; [|apply Nat.eqb_neq; destruct E; [contradiction|discriminate]]. apply not_true_is_false. intros X.
      apply existsb_exists in X as (e & I & X). apply in_seq in I. unfold e_empty in X.
      destruct (Req_EM_T (sumf (vs n) (fun v => H v e)) 0) as [Z0|]; [|discriminate]. destruct (NE1 e ltac:(lia)) as (z & Z1 & IZ).
      assert (P : 0 < sumf (range n) (fun v => H v e)).
      { apply Rsum_pos with (x := z).
        - intros o _. rewrite HH. destruct holds; lra.
        - apply (in_vs n). exact Z1.
        - rewrite HH. replace (holds (nth e E []) z) with true; [lra|]. symmetry. apply existsb_exists. exists z. split; auto. apply Z.eqb_refl. }
      unfold vs in Z0. lra. }
  cbv zeta. cbn [s_attr s_rep s_erep s_grav when].
  change (fun v => match fin_pt (lift_pt (p v)) with Some x0 => x0 | None => (0, 0) end) with (fun v => (fst (p v), snd (p v))).
  set (q := fun v => (fst (p v), snd (p v))).
  assert (QP : forall v, q v = p v) by (intros v; unfold q; symmetry; apply surjective_pairing).
  rewrite add_force_ok by (intros; rewrite (@attraction_is n E H q HH NE1); reflexivity). cbn [rbind].
  assert (X : forall k, (0 <= k < n)%Z -> u <> k -> p u = p k -> (if Z.eqb u k then (Fin 0, Fin 0) else fpmul (fdiv 1 (dist (q u) (q k) ^ 2))
     (lift_pt (safe_div (psub (q u) (q k)) (vlen (psub (q u) (q k))) (j_vv j u k)))) = (fmul PInf (Fin (1 / 1000000 * fst (j_vv j u k))), fmul PInf (Fin (1 / 1000000 * snd (j_vv j u k))))).
  { intros k K NK EK. replace (Z.eqb u k) with false by (symmetry; apply Z.eqb_neq; auto). rewrite !QP, EK. change (vlen (psub (p k) (p k))) with (dist (p k) (p k)). rewrite dist_same, inv_0.
    unfold safe_div. destruct (Req_EM_T 0 0) as [_|N0]; [reflexivity|destruct N0; reflexivity]. }
  assert (UP : forall k r, (0 <= k < n)%Z -> u <> k -> p u = p k -> c (j_vv j u k) = r -> 0 < r -> forall o, o = node_repulsion n j q u -> (c = fst -> fst o = PInf \/ fst o = NaN) /\ (c = snd -> snd o = PInf \/ snd o = NaN)).
  { intros k r K NK EK CR PR o ->. unfold node_repulsion, repulsion, fpsum. cbn [fst snd]. rewrite !map_map.
    split; intros ->; apply fsum_up; apply in_map_iff; exists k; rewrite (X k K NK EK); (split; [|apply in_vs; exact K]); cbn [fst snd]; rewrite inf_jitter by lra; unfold inf_of; rewrite CR; destruct (Rlt_dec 0 r); auto; lra. }
  assert (DOWN : forall k r, (0 <= k < n)%Z -> u <> k -> p u = p k -> c (j_vv j u k) = r -> r < 0 -> forall o, o = node_repulsion n j q u -> (c = fst -> fst o = NInf \/ fst o = NaN) /\ (c = snd -> snd o = NInf \/ snd o = NaN)).
  { intros k r K NK EK CR PR o ->. unfold node_repulsion, repulsion, fpsum. cbn [fst snd]. rewrite !map_map.
    split; intros ->; apply fsum_down; apply in_map_iff; exists k; rewrite (X k K NK EK); (split; [|apply in_vs; exact K]); cbn [fst snd]; rewrite inf_jitter by lra; unfold inf_of; rewrite CR; destruct (Rlt_dec 0 r); auto; lra. }
  destruct (UP a _ A NA EA eq_refl PA _ eq_refl) as [U1 U2]. destruct (DOWN b _ B NB EB eq_refl PB _ eq_refl) as [D1 D2].
  assert (NAN : fp_nan (node_repulsion n j q u) = true).
  { unfold fp_nan. destruct CC as [CC|CC].
    - specialize (U1 CC). specialize (D1 CC). destruct U1 as [U1|U1]; [|rewrite U1; reflexivity]. destruct D1 as [D1|D1]; [congruence|rewrite D1; reflexivity].
    - specialize (U2 CC). specialize (D2 CC). destruct U2 as [U2|U2]; [|rewrite U2; apply orb_true_r]. destruct D2 as [D2|D2]; [congruence|rewrite D2; apply orb_true_r]. }
  unfold add_force at 1. match goal with |- context [existsb ?f (vs n)] => replace (existsb f (vs n)) with true; [reflexivity|] end.
  symmetry. apply existsb_exists. exists u. split; [apply in_vs; exact U|]. unfold fp_nan in *. apply orb_true_iff in NAN as [C|C]; apply orb_true_iff; [left|right]; cbn [fpmul fst snd];
    (match goal with |- is_nan (fmul _ ?x) = _ => destruct x; try discriminate C; reflexivity end).
Qed.
