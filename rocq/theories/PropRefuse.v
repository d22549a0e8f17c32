(** Further parts of C49-C52, C135 and C154: arguments that are refused. *)
From Coq Require Import String Reals Lra QArith.
From Verif Require Import Num PyDict PyDictFacts CooFacts ModelBase ModelConv ModelUtils ModelMetrics RealFacts ModelHyper ModelRandom ModelEmbed ModelVis ModelDraw SpecVis VisFacts PropVis PropForce PropLayout PropDraw UtilFacts.
Set Implicit Arguments.
Local Open Scope string_scope.
Local Open Scope list_scope.
Local Open Scope Z_scope.

(** * C49, C50, C51: the generators of graphs *)
Theorem C49_rejects : forall (T : Type) (N : Num T) nu nv m ch ord fuel,
  (nv <= 1 \/ nv * (nv - 1) / 2 <= m -> @graph_Gnm T N nv m ch ord fuel = Some (Err AssertionError)) /\
  (nv <= 1 \/ nv * (nv - 1) <= m -> @digraph_Gnm T N nv m ch ord fuel = Some (Err AssertionError)) /\
  (nu <= 1 \/ nv <= 1 \/ nu * nv < m -> @bigraph_Gnm T N nu nv m ch ord fuel = Some (Err AssertionError)).
Proof.
  intros T N nu nv m ch ord fuel. unfold graph_Gnm, digraph_Gnm, bigraph_Gnm. split; [|split]; intros X; match goal with |- context [if ?c then _ else _] => replace c with false; auto end;
    symmetry; apply Bool.not_true_iff_false; rewrite !Bool.andb_true_iff, ?Z.ltb_lt, ?Z.leb_le; nia.
Qed.
Theorem C50_bigraph_rejects : forall (T : Type) (N : Num T) nu nv p rnd, nu <= 1 -> @bigraph_Gnp T N nu nv p rnd = Err AssertionError.
Proof. intros T N nu nv p rnd X. unfold bigraph_Gnp. replace (1 <? nu) with false; [|symmetry; apply Z.ltb_ge; auto]. rewrite ?Bool.andb_false_r, ?Bool.andb_false_l. reflexivity. Qed.
Theorem C51_rejects : forall (T : Type) (N : Num T) nv p rnd fuel, nv <= 1 \/ (p < 0)%R \/ (1 < p)%R ->
  @graph_Gnp_fast T N nv p rnd fuel = Some (Err AssertionError) /\ @digraph_Gnp_fast T N nv p rnd fuel = Some (Err AssertionError).
Proof.
  intros T N nv p rnd fuel X. assert (E : fast_checks nv p = Err AssertionError).
  { unfold fast_checks. destruct (Z.ltb_spec 1 nv); auto. repeat destruct Rle_dec; auto. exfalso. destruct X as [X|[X|X]]; [lia|lra|lra]. }
  unfold graph_Gnp_fast, digraph_Gnp_fast. rewrite E. auto.
Qed.

(** * C52: the generators of hypergraphs *)
Theorem C52_uniform_Gnp_rejects : forall (T : Type) (N : Num T) k nv p rnd, nv <= 1 \/ k <= 1 \/ (p < 0)%Q \/ (1 < p)%Q ->
  uniform_hypergraph_Gnp k nv p rnd = Err AssertionError.
Proof.
  intros T N k nv p rnd X. unfold uniform_hypergraph_Gnp. replace ((1 <? nv) && (1 <? k) && prob_ok p)%bool with false; auto. symmetry. apply Bool.not_true_iff_false.
  rewrite !Bool.andb_true_iff, !Z.ltb_lt. unfold prob_ok. rewrite Bool.andb_true_iff, !Qle_bool_iff. intros ((A & B) & C & D).
  destruct X as [X|[X|[X|X]]]; try lia; apply Qlt_not_le in X; contradiction.
Qed.
Theorem C52_Gnm_rejects : forall (T : Type) (N : Num T) nv m method custom kc smp ord fuel,
  (nv <= 1 \/ m <= 0 -> hypergraph_Gnm nv m method custom kc smp ord fuel = Some (Err AssertionError)) /\
  (1 < nv -> 0 < m -> forall x, degree_weights nv method custom = Err x -> hypergraph_Gnm nv m method custom kc smp ord fuel = Some (Err x)).
Proof.
  intros T N nv m method custom kc smp ord fuel. unfold hypergraph_Gnm. split.
  - intros X. replace ((1 <? nv) && (0 <? m))%bool with false; auto. symmetry. apply Bool.not_true_iff_false. rewrite Bool.andb_true_iff, !Z.ltb_lt. lia.
  - intros V M x ->. replace ((1 <? nv) && (0 <? m))%bool with true; auto. symmetry. rewrite Bool.andb_true_iff, !Z.ltb_lt. lia.
Qed.

(** * C135: projections of other dimension, and rows of zeros *)
Theorem C135_rejects : forall reduce rows dim,
  (dim <> 2%nat -> dim <> 3%nat -> project_to_poincare_ball reduce rows dim = Err AssertionError) /\
  (dim = 2%nat \/ dim = 3%nat -> (exists r, In r rows /\ forall a, In a r -> a = 0%R) -> project_to_poincare_ball reduce rows dim = Err ValueError).
Proof.
  intros reduce rows dim. unfold project_to_poincare_ball. split.
  - intros A B. replace (Nat.eqb dim 2) with false by (symmetry; apply Nat.eqb_neq; auto). replace (Nat.eqb dim 3) with false by (symmetry; apply Nat.eqb_neq; auto). reflexivity.
  - intros D (r & I & Z0). replace (negb (Nat.eqb dim 2 || Nat.eqb dim 3)) with false by (destruct D as [-> | ->]; reflexivity).
    assert (E : map_res tangent_row rows = Err ValueError); [|rewrite E; reflexivity].
    assert (N0 : row_norm r = 0%R).
    { unfold row_norm. rewrite <- sqrt_0. f_equal. clear I. induction r as [|a r IH]; [reflexivity|]. cbn. rewrite (Z0 a (or_introl eq_refl)).
      assert (IH' := IH (fun b J => Z0 b (or_intror J))). cbn in IH'. rewrite IH'. ring. }
    destruct (@map_res_err _ _ tangent_row rows r ValueError I) as (y & -> & b & _ & F).
    + unfold tangent_row. destruct (Req_EM_T (row_norm r) 0); [reflexivity|contradiction].
    + f_equal. unfold tangent_row in F. destruct (Req_EM_T (row_norm b) 0); congruence.
Qed.
Example C135_rejects_case : forall reduce, project_to_poincare_ball reduce [[1; 2]; [0; 0]]%R 2 = Err ValueError /\ project_to_poincare_ball reduce [[1; 2]]%R 4 = Err AssertionError.
Proof.
  intros reduce. split; apply C135_rejects; try discriminate; auto. exists [0; 0]%R. split; [cbn; auto|]. intros a [<-|[<-|[]]]; reflexivity.
Qed.

(** * C154: drawing *)
Theorem C154_draw_actual : forall hull argsort rnd js n hs k e v, (0 <= n) -> uniform n rnd -> lk_style k = "circle" -> fine n (length hs) k ->
  In e hs -> In v e -> v < - n \/ n <= v -> draw_hypergraph hull argsort rnd js n hs k = Err IndexError.
Proof.
  intros hull argsort rnd js n hs k e v Hn U S F I J X.
  destruct (@common_parts n (length hs) k ltac:(lia) F) as (vc & ec & fc & sz & lw & elw & E1 & E2 & E3 & E4 & _).
  assert (NE : hs <> []) by (destruct hs; [destruct I|discriminate]).
  unfold draw_hypergraph. rewrite S, (not_empty NE). cbn [negb one_of existsb String.eqb Ascii.eqb Bool.eqb orb].
  rewrite E1, E2, E3. cbn [rbind]. rewrite E4. cbn [rbind].
  unfold force_layout. match goal with |- context [negb (forallb ?f ?l)] => replace (forallb f l) with true end.
  2:{ symmetry. apply forallb_forall. intros w W. apply (in_vs n) in W. destruct (init_in U W) as [A B].
      assert (IN : forall x, (Rabs x <= 5 -> -5 <= x <= 5)%R) by (intros x Y; unfold Rabs in Y; destruct (Rcase_abs x); lra).
      apply IN in A. apply IN in B. repeat destruct Rle_dec; auto; lra. }
  cbn [negb]. unfold incidence_matrix. replace (forallb (forallb (vis_index_ok n)) hs) with false; [reflexivity|]. symmetry. apply Bool.not_true_iff_false. intros C.
  rewrite forallb_forall in C. specialize (C e I). rewrite forallb_forall in C. specialize (C v J). unfold vis_index_ok in C.
  apply Bool.andb_true_iff in C as [C1 C2]. apply Z.leb_le in C1. apply Z.ltb_lt in C2. lia.
Qed.
(** a hypergraph of three vertices with the hyperedge {0, 7}: accepted when built, an error when drawn *)
Example C154_draw_case : exists s : hypergraph R, h_new 3 (Some (HOne [0; 7])) WNone None MMean = Ok s /\ snd (ModelHyper.h_query (ModelHyper.hqE None) s) = Ok (OHE [[0; 7]] [1%R]) /\
  forall hull argsort js, draw_hypergraph hull argsort (fun v => (IZR v / 4, 1 / 2))%R js 3 [[0; 7]] (plain "circle" None KNone (KOne "k") (SNum 1)) = Err IndexError.
Proof.
  eexists. split; [reflexivity|]. split; [reflexivity|]. intros hull argsort js. apply C154_draw_actual with (e := [0; 7]) (v := 7); cbn [In]; auto; try lia.
  - intros v V. cbn [fst snd]. assert (0 <= IZR v <= 3)%R by (split; apply IZR_le; lia). lra.
  - split; [split; discriminate|]. split; [split; discriminate|]. split; [split; discriminate|]. split; [split; [intros l E; discriminate E|split; intros l E; discriminate E]|]. split; [|discriminate].
    intros i _. cbn. lra.
Qed.

(** * C174: a hyperedge without vertices *)
Theorem C174_draw_actual : forall hull argsort rnd js n hs k, 0 <= n -> uniform n rnd -> lk_style k = "circle" -> fine n (length hs) k ->
  Forall (Forall (fun v => 0 <= v < n)) hs -> In [] hs -> draw_hypergraph hull argsort rnd js n hs k = Err ValueError.
Proof.
  intros hull argsort rnd js n hs k Hn U S F IR I.
  destruct (@common_parts n (length hs) k ltac:(lia) F) as (vc & ec & fc & sz & lw & elw & E1 & E2 & E3 & E4 & _).
  assert (NE : hs <> []) by (destruct hs; [destruct I|discriminate]).
  unfold draw_hypergraph. rewrite S, (not_empty NE). cbn [negb one_of existsb String.eqb Ascii.eqb Bool.eqb orb].
  rewrite E1, E2, E3. cbn [rbind]. rewrite E4. cbn [rbind].
  unfold force_layout. match goal with |- context [negb (forallb ?f ?l)] => replace (forallb f l) with true end.
  2:{ symmetry. apply forallb_forall. intros w W. apply (in_vs n) in W. destruct (init_in U W) as [A B].
      assert (IN : forall x, (Rabs x <= 5 -> -5 <= x <= 5)%R) by (intros x Y; unfold Rabs in Y; destruct (Rcase_abs x); lra).
      apply IN in A. apply IN in B. repeat destruct Rle_dec; auto; lra. }
  cbn [negb]. unfold incidence_matrix. replace (forallb (forallb (vis_index_ok n)) hs) with true.
  2:{ symmetry. rewrite forallb_forall. intros e J. rewrite forallb_forall. intros v V. rewrite Forall_forall in IR. specialize (IR e J). rewrite Forall_forall in IR. specialize (IR v V).
      unfold vis_index_ok. apply Bool.andb_true_iff. rewrite Z.leb_le, Z.ltb_lt. lia. }
  cbn [rbind]. unfold simulate. cbn [iterate]. unfold step at 1.
  match goal with |- context [negb (forallb ?f ?l)] => replace (forallb f l) with true by (symmetry; apply forallb_forall; intros v _; reflexivity) end. cbn [negb].
  replace (existsb _ _) with true; [reflexivity|]. symmetry. apply existsb_exists.
  destruct (In_nth hs [] [] I) as (i & Hi & E). exists i. split; [apply in_seq; lia|]. unfold e_empty.
  match goal with |- context [Req_EM_T ?a 0] => destruct (Req_EM_T a 0) as [|X]; [reflexivity|exfalso; apply X] end.
  rewrite E. cbn [existsb]. apply (sumf_zero RT).
Qed.
(** accepted when built, an error when drawn *)
Example C174_case : exists s : hypergraph R, h_new 3 (Some (HMany [[0; 1]; []])) WNone None MMean = Ok s /\ snd (ModelHyper.h_query (ModelHyper.hqE None) s) = Ok (OHE [[0; 1]; []] [1%R; 1%R]) /\
  forall hull argsort js, draw_hypergraph hull argsort (fun v => (IZR v / 4, 1 / 2))%R js 3 [[0; 1]; []] (plain "circle" None KNone (KOne "k") (SNum 1)) = Err ValueError.
Proof.
  eexists. split; [reflexivity|]. split; [reflexivity|]. intros hull argsort js. apply C174_draw_actual; cbn [In]; auto; try lia.
  - intros v V. cbn [fst snd]. assert (0 <= IZR v <= 3)%R by (split; apply IZR_le; lia). lra.
  - split; [split; discriminate|]. split; [split; discriminate|]. split; [split; discriminate|]. split; [split; [intros l E; discriminate E|split; intros l E; discriminate E]|]. split; [|discriminate].
    intros i _. cbn. lra.
  - repeat (constructor; try lia).
Qed.
