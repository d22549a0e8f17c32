(** C71-C73, C130-C133: drawing of structures.  Statements use [SpecVis]. *)
From Coq Require Import String Reals Lra Psatz Permutation Sorted.
From Verif Require Import Num PyDict ModelBase ModelConv ModelUtils ModelMetrics ModelVis RealFacts UtilFacts SpecVis VisFacts.
Set Implicit Arguments.
Local Open Scope list_scope.
Local Open Scope Z_scope.
Local Open Scope R_scope.

(** ** C71: geometry *)
Theorem C71_polar_angle x y : (x, y) <> (0, 0) -> polar_angle x y (radian_from_atan x y).
Proof.
  intros Hn. unfold polar_angle. rewrite <- vlen_norm. apply radian_from_atan_ok; auto.
Qed.
(** The line that the code draws between two circles exists and touches both, on the same side. *)
Theorem C71_tangent p1 p2 r1 r2 : p1 <> p2 -> 0 <= r1 -> 0 <= r2 -> Rabs (r1 - r2) <= norm (vec p1 p2) ->
  exists alpha, common_tangent_radian r1 r2 (vlen (psub p2 p1)) = Ok alpha /\
    let theta := radian_from_atan (fst (psub p2 p1)) (snd (psub p2 p1)) - alpha in
    outer_tangent p1 r1 p2 r2 (polar_position r1 theta p1) (polar_position r2 theta p2).
Proof.
  intros Np R1 R2 L. rewrite vlen_norm. change (psub p2 p1) with (vec p1 p2).
  assert (D : 0 < norm (vec p1 p2)).
  { rewrite <- vlen_norm. destruct (vlen_nonneg (vec p1 p2)) as [|E]; auto. exfalso. apply Np. symmetry. apply dist_0. auto. }
  destruct (@tangent_ok r1 r2 _ D L) as (a & E & _). exists a. split; auto. apply tangent_line; auto.
Qed.
(** Circles one of which lies strictly inside the other have no tangent: the drawing raises ValueError. *)
Theorem C71_inside_actual r1 r2 d : 0 < d -> d < Rabs (r1 - r2) -> common_tangent_radian r1 r2 d = Err ValueError.
Proof.
  intros D L. unfold common_tangent_radian. destruct (Req_EM_T d 0); auto. destruct (Rlt_dec 1 (Rabs (r2 - r1) / d)) as [|N]; auto.
  exfalso. apply N. rewrite Rabs_minus_sym. apply Rmult_lt_reg_r with d; auto. unfold Rdiv. rewrite Rmult_assoc, Rinv_l by lra. lra.
Qed.
Example C71_case : (-3, 4) <> (0, 0) /\ (0, 0) <> (3, 4) /\ Rabs (2 - 1) <= norm (vec (0, 0) (3, 4)).
Proof.
  repeat split; try (intros C; inversion C; lra).
  unfold norm, dot, vec. cbn [fst snd]. replace ((3 - 0) * (3 - 0) + (4 - 0) * (4 - 0)) with (5 * 5) by ring.
  rewrite sqrt_square by lra. rewrite Rabs_right by lra. lra.
Qed.

(** ** C72: the layout *)
(** draws of [np.random.rand] *)
Definition uniform (n : Z) (rnd : Z -> R * R) : Prop :=
  forall v, (0 <= v < n)%Z -> 0 <= fst (rnd v) <= 1 /\ 0 <= snd (rnd v) <= 1.
Definition vertices_in (n : Z) (e_list : list (list Z)) : Prop := forall e v, In e e_list -> In v e -> (0 <= v < n)%Z.
Definition within (b : R) (x : fl R) : Prop := x = NaN \/ exists a, x = Fin a /\ Rabs a <= b.

Lemma incidence_ok n e_list : (0 < n)%Z -> vertices_in n e_list -> exists H, incidence_matrix n e_list = Ok H /\
  forall v e, H v e = if existsb (Z.eqb v) (nth e e_list []) then 1 else 0.
Proof.
  intros Hn V. unfold incidence_matrix.
  replace (forallb (forallb (vis_index_ok n)) e_list) with true.
  - eexists. split; [reflexivity|]. intros v e. cbv beta.
    assert (B : forall w, In w (nth e e_list []) -> (0 <= w < n)%Z).
    { intros w W. destruct (Nat.lt_ge_cases e (length e_list)) as [L|L].
      - apply (V (nth e e_list []) w); auto. apply nth_In; auto.
      - rewrite nth_overflow in W by auto. destruct W. }
    replace (existsb (fun w => Z.eqb (row_of n w) v) (nth e e_list [])) with (existsb (Z.eqb v) (nth e e_list [])); auto.
    revert B. generalize (nth e e_list []). induction l as [|w l IH]; cbn; intros B; auto.
    rewrite IH by auto. f_equal. unfold row_of. destruct (Z.ltb_spec w 0); [specialize (B w (or_introl eq_refl)); lia|]. apply Z.eqb_sym.
  - symmetry. apply forallb_forall. intros e I. apply forallb_forall. intros v J. specialize (V e v I J).
    unfold vis_index_ok. apply andb_true_intro. split; [apply Z.leb_le|apply Z.ltb_lt]; lia.
Qed.
Lemma columns_nonzero n e_list (H : Z -> nat -> R) : vertices_in n e_list -> (forall e, In e e_list -> e <> []) ->
  (forall v e, H v e = if existsb (Z.eqb v) (nth e e_list []) then 1 else 0) ->
  forall e, (e < length e_list)%nat -> sumf (range n) (fun v => H v e) <> 0.
Proof.
  intros V NE HH e L S0.
  assert (I : In (nth e e_list []) e_list) by (apply nth_In; auto).
  pose proof (NE _ I) as N. destruct (nth e e_list []) as [|v r] eqn:Ev; [congruence|].
  assert (P : 0 < sumf (range n) (fun v => H v e)).
  { apply Rsum_pos with (x := v).
    - intros w _. rewrite HH. destruct existsb; lra.
    - apply (in_vs n). apply (V _ v I). cbn; auto.
    - rewrite HH, Ev. cbn. rewrite Z.eqb_refl. cbn. lra. }
  lra.
Qed.
Lemma init_in rnd n v : uniform n rnd -> (0 <= v < n)%Z ->
  Rabs (fst (init_pos rnd (0, 0) 5 v)) <= 5 /\ Rabs (snd (init_pos rnd (0, 0) 5 v)) <= 5.
Proof.
  intros U V. destruct (U v V) as [A B]. unfold init_pos, padd, pscale. cbn [fst snd]. split; apply Rabs_le; lra.
Qed.
Lemma init_bi nu nv rnd_u rnd_v v : uniform nu rnd_u -> uniform nv rnd_v -> (0 <= v < nu + nv)%Z ->
  let init v := if (v <? nu)%Z then init_pos rnd_u (5, 0) (45 / 10) v else init_pos rnd_v (-5, 0) (45 / 10) (v - nu)%Z in
  Rabs (fst (init v)) <= 95 / 10 /\ Rabs (snd (init v)) <= 95 / 10.
Proof.
  intros U U' V init. unfold init. destruct (Z.ltb_spec v nu).
  - destruct (U v ltac:(lia)) as [A B]. unfold init_pos, padd, pscale. cbn [fst snd]. split; apply Rabs_le; lra.
  - destruct (U' (v - nu)%Z ltac:(lia)) as [A B]. unfold init_pos, padd, pscale. cbn [fst snd]. split; apply Rabs_le; lra.
Qed.
Lemma simulate_within sim n m H js init pos b : simulate sim n m H js init = Ok pos ->
  (forall v, (0 <= v < n)%Z -> Rabs (fst (init v)) <= b /\ Rabs (snd (init v)) <= b) ->
  forall v, (0 <= v < n)%Z -> within (b + 80) (fst (pos v)) /\ within (b + 80) (snd (pos v)).
Proof.
  unfold simulate. intros E I v V. destruct (I v V) as [I1 I2].
  destruct (iterate_near _ _ _ _ _ _ _ _ E V) as [N1 N2]; [cbn; eauto..|].
  assert (K : 2 / 10 * INR 400 = 80) by (rewrite INR_IZR_INZ; change (Z.of_nat 400) with 400%Z; lra).
  rewrite K in N1, N2. cbn [lift_pt fst snd] in *.
  assert (G : forall x y, Rabs x <= b -> near 80 (Fin x) y -> within (b + 80) y).
  { intros x y Hx [->|(c & d & Ex & -> & L)]; [left; auto|]. inversion Ex. subst c. right. exists d. split; auto.
    replace d with ((d - x) + x) by ring. pose proof (Rabs_triang (d - x) x). lra. }
  split; [apply (G _ _ I1 N1)|apply (G _ _ I2 N2)].
Qed.

(** The layout of any structure: positions that never left the square of side 170 around the origin, moved into the box
    from 0.1 to 0.9 and touching its sides, in the same order along each axis; or nan for all vertices, which happens only
    if they were all on one line parallel to the other axis or the simulation produced nan.  *)
Theorem C72_force_layout n e_list push_v push_e pull_e pull_c rnd js coor :
  (0 < n)%Z -> vertices_in n e_list -> uniform n rnd ->
  force_layout n e_list push_v push_e pull_e pull_c rnd js = Ok coor ->
  exists pos, (forall v, (0 <= v < n)%Z -> within 85 (fst (pos v)) /\ within 85 (snd (pos v))) /\
    boxed n (fun v => fst (pos v)) (fun v => fst (coor v)) /\ boxed n (fun v => snd (pos v)) (fun v => snd (coor v)).
Proof.
  intros Hn V U E. unfold force_layout in E.
  destruct (forallb _ (range n)); cbn [negb] in E; [|discriminate].
  destruct (incidence_ok Hn V) as (H & EH & _). rewrite EH in E. cbn [rbind] in E.
  match type of E with rbind ?x _ = _ => destruct x as [pos|] eqn:S; cbn [rbind] in E; [|discriminate] end.
  inversion E. subst coor. exists pos. split; [|split; apply into_box_ok; auto].
  replace 85 with (5 + 80) by lra. eapply simulate_within; eauto. intros v Hv. apply (init_in U Hv).
Qed.
Theorem C72_bipartite_layout nu nv e_list pu pv push_e pull_e cu cv rnd_u rnd_v js coor :
  (0 < nu)%Z -> (0 < nv)%Z -> vertices_in (nv + nu) e_list -> uniform nu rnd_u -> uniform nv rnd_v ->
  bipartite_force_layout nu nv e_list pu pv push_e pull_e cu cv rnd_u rnd_v js = Ok coor ->
  let n := (nu + nv)%Z in
  exists pos, (forall v, (0 <= v < n)%Z -> within (895 / 10) (fst (pos v)) /\ within (895 / 10) (snd (pos v))) /\
    boxed n (fun v => fst (pos v)) (fun v => fst (coor v)) /\ boxed n (fun v => snd (pos v)) (fun v => snd (coor v)).
Proof.
  intros Hu Hv V U U' E n. unfold bipartite_force_layout in E.
  destruct (@incidence_ok (nv + nu) e_list) as (H & EH & _); [lia|auto|]. rewrite EH in E. cbn [rbind] in E.
  match type of E with rbind ?x _ = _ => destruct x as [pos|] eqn:S; cbn [rbind] in E; [|discriminate] end.
  inversion E. subst coor. exists pos. split; [|split; apply into_box_ok; unfold n; lia].
  replace (895 / 10) with (95 / 10 + 80) by lra. eapply simulate_within; eauto.
  intros v Hw. apply (init_bi U U' Hw).
Qed.
(** A simulation in which no two vertices ever come to the same place (nor two centres of edges, if edges repel each other)
    raises nothing and yields numbers. *)
Theorem C72_completes n e_list push_v push_e pull_e pull_c rnd js :
  (0 < n)%Z -> vertices_in n e_list -> uniform n rnd -> e_list <> [] -> (forall e, In e e_list -> e <> []) ->
  let sim := mkSim (Some pull_e) (Some [push_v]) push_e (Some [pull_c]) [(0, 0)] n in
  (forall H it d pos, incidence_matrix n e_list = Ok H ->
     visited sim n (length e_list) H js (fun v => lift_pt (init_pos rnd (0, 0) 5 v)) it d pos ->
     spread sim n (length e_list) H pos) ->
  exists coor, force_layout n e_list push_v push_e pull_e pull_c rnd js = Ok coor.
Proof.
  intros Hn V U NE NE' sim SP. unfold force_layout.
  replace (forallb _ (range n)) with true.
  2:{ symmetry. apply forallb_forall. intros v I. apply (in_vs n) in I. destruct (init_in U I) as [A B].
      revert A B. unfold Rabs. repeat destruct Rcase_abs; intros A B;
      repeat destruct Rle_dec; auto; lra. }
  cbn [negb]. destruct (incidence_ok Hn V) as (H & EH & HH). rewrite EH. cbn [rbind]. fold sim.
  destruct (@iterate_ok sim n (length e_list) H js (fun v => lift_pt (init_pos rnd (0, 0) 5 v))) with (k := 400%nat) (it := 0%nat) (d := 1)
    (pos := fun v => lift_pt (init_pos rnd (0, 0) 5 v)) as (pos & P & _).
  - destruct e_list; [congruence|cbn; lia].
  - apply (columns_nonzero _ V NE' HH).
  - intros it d pos Vi. eauto.
  - constructor.
  - unfold simulate. rewrite P. cbn [rbind]. eauto.
Qed.

(** ** C130: one vertex *)
(** A structure with a single vertex is laid out without an error, at the position (nan, nan). *)
Theorem C130_single_vertex_actual e push_v push_e pull_e pull_c rnd js : uniform 1 rnd -> vertices_in 1 [e] -> e <> [] ->
  exists coor, force_layout 1 [e] push_v push_e pull_e pull_c rnd js = Ok coor /\ coor 0%Z = (NaN, NaN).
Proof.
  intros U V NEe.
  destruct (@C72_completes 1 [e] push_v push_e pull_e pull_c rnd js) as [coor E]; auto; try lia; try discriminate.
  - intros e' [<-|[]]. auto.
  - intros H it d pos EH Vi.
    destruct (@incidence_ok 1 [e] ltac:(lia) V) as (H' & EH' & HH). rewrite EH in EH'. inversion EH'. subst H'. clear EH'.
    set (sim := mkSim (Some pull_e) (Some [push_v]) push_e (Some [pull_c]) [(0, 0)] 1) in *.
    assert (SF : forall p, isfin (p 0%Z) -> spread sim 1 1 H p).
    { intros p [q Q]. exists (fun _ => q). split; [|split].
      - intros v Hv. assert (v = 0%Z) as -> by lia. auto.
      - intros v w Hv Hw N. lia.
      - right. intros e' f L1 L2 N. lia. }
    change (length [e]) with 1%nat in *.
    assert (NZ : forall e, (e < 1)%nat -> sumf (range 1) (fun v => H v e) <> 0).
    { apply (columns_nonzero H V); auto. intros e' [<-|[]]. auto. }
    induction Vi as [|it d p p' Vi IH S].
    + apply SF. apply isfin_lift.
    + apply SF. destruct (@step_ok sim 1 1 H (js it) d p ltac:(lia) NZ IH) as (p2 & stop & S2 & F2).
      rewrite S in S2. inversion S2. subst. apply F2. lia.
  - exists coor. split; auto.
    destruct (@C72_force_layout 1 [e] _ _ _ _ _ _ _ ltac:(lia) V U E) as (pos & _ & B1 & B2).
    assert (G : forall x y : Z -> fl R, boxed 1 x y -> y 0%Z = NaN).
    { intros x y [[Y _]|(_ & (v & Hv & Y1) & (w & Hw & Y2) & _)]; [apply Y; lia|].
      assert (v = 0%Z) as -> by lia. assert (w = 0%Z) as -> by lia. rewrite Y1 in Y2. inversion Y2. lra. }
    specialize (G _ _ B1) as G1. specialize (G _ _ B2) as G2. cbv beta in G1, G2. destruct (coor 0%Z). cbn in *. congruence.
Qed.

(** without forces the vertices stay where they are *)
Lemma step_idle n m H j damping pos : (0 < m)%nat ->
  (forall e, (e < m)%nat -> sumf (range n) (fun v => H v e) <> 0) ->
  let sim := mkSim (Some 0) (Some [0]) None (Some [0]) [(0, 0)] n in
  spread sim n m H pos -> exists pos' stop, step sim n m H j damping pos = Ok (pos', stop) /\ forall v, (0 <= v < n)%Z -> pos' v = pos v.
Proof.
  intros M NE sim SP. destruct (@step_ok sim n m H j damping pos M NE SP) as (pos' & stop & E & _).
  exists pos', stop. split; auto. intros v V. destruct SP as (p & P & D & _). rewrite (P v V).
  unfold step in E. destruct (forallb _ (vs n)); cbn [negb] in E; [|discriminate].
  destruct (existsb _ _ || _); [discriminate|]. cbv zeta in E.
  set (q := fun v => match fin_pt (pos v) with Some x => x | None => (0, 0) end) in *.
  assert (Q : forall v w, (0 <= v < n)%Z -> (0 <= w < n)%Z -> v <> w -> q v <> q w).
  { intros a b Ha Hb Hab. unfold q. rewrite (P a Ha), (P b Hb), !fin_pt_lift. auto. }
  clearbody q.
  assert (Z0 : forall x, isfin x -> fpmul (Fin 0) x = (Fin 0, Fin 0)).
  { intros x [y ->]. unfold fpmul, lift_pt. cbn. rewrite !Rmult_0_l. auto. }
  cbn [sim s_attr s_rep s_erep s_grav when] in E.
  assert (A : forall f g r, add_force n f g = Ok r -> f v = (Fin 0, Fin 0) -> g v = (Fin 0, Fin 0) -> r v = (Fin 0, Fin 0)).
  { intros f g r Ef F0 G0. unfold add_force in Ef. destruct existsb; [discriminate|]. inversion Ef. rewrite F0, G0. unfold fpadd. cbn. rewrite Rplus_0_l. auto. }
  match type of E with rbind ?x _ = _ => destruct x as [f1|] eqn:E1; cbn [rbind] in E; [|discriminate] end.
  apply A in E1; [|apply Z0, isfin_lift|reflexivity].
  match type of E with rbind ?x _ = _ => destruct x as [f2|] eqn:E2; cbn [rbind] in E; [|discriminate] end.
  apply A in E2; auto.
  2:{ apply Z0. apply isfin_repulsion. intros k K N. apply in_vs in K. apply Z.eqb_neq in N. auto. }
  match type of E with rbind ?x _ = _ => destruct x as [f4|] eqn:E4; cbn [rbind] in E; [|discriminate] end.
  unfold gravity_parts in E4. cbn [sim s_centers length seq combine fold_left rbind] in E4.
  apply A in E4; auto. 2:{ unfold gravity_force. destruct (v <? s_cut _)%Z; apply Z0, isfin_lift. }
  inversion E. rewrite E4, (P v V). cbn [fst snd]. unfold fpadd, fpmul, lift_pt. cbn.
  rewrite Rmult_0_r. replace (Rmin (Rmax 0 (-1 / 10)) (1 / 10)) with 0.
  - rewrite Rmult_0_r, !Rplus_0_r. auto.
  - unfold Rmax, Rmin. repeat destruct Rle_dec; lra.
Qed.
(** a layout with numbers: two vertices and no forces *)
Example C72_case_ok js : exists coor, force_layout 2 [[0; 1]]%Z 0 None 0 0 (fun v => (IZR v, IZR v)) js = Ok coor /\
  coor 0%Z = (Fin (1 / 10), Fin (1 / 10)).
Proof.
  assert (V : vertices_in 2 [[0; 1]]%Z) by (intros e v [<-|[]] I; cbn in I; lia).
  assert (U : uniform 2 (fun v => (IZR v, IZR v))).
  { intros v Hv. assert (0 <= IZR v <= 1) by (split; apply IZR_le; lia). auto. }
  destruct (@incidence_ok 2 [[0; 1]]%Z ltac:(lia) V) as (H & EH & HH).
  set (sim := mkSim (Some 0) (Some [0]) None (Some [0]) [(0, 0)] 2).
  set (init := fun v => lift_pt (init_pos (fun v => (IZR v, IZR v)) (0, 0) 5 v)).
  assert (NZ : forall e, (e < 1)%nat -> sumf (range 2) (fun v => H v e) <> 0).
  { apply (columns_nonzero H V); auto. intros e' [<-|[]]. discriminate. }
  assert (S0 : forall pos, (forall v, (0 <= v < 2)%Z -> pos v = init v) -> spread sim 2 1 H pos).
  { intros pos P. exists (init_pos (fun v => (IZR v, IZR v)) (0, 0) 5). split; [|split]; auto.
    intros v w Hv Hw N C. apply N. unfold init_pos, padd, pscale in C. cbn [fst snd] in C. inversion C. apply eq_IZR. lra. }
  assert (IT : forall k it d pos, (forall v, (0 <= v < 2)%Z -> pos v = init v) ->
            exists pos', iterate sim 2 1 H k it js d pos = Ok pos' /\ forall v, (0 <= v < 2)%Z -> pos' v = init v).
  { induction k as [|k IH]; intros it d pos P; cbn [iterate]; [eauto|].
    destruct (@step_idle 2 1 H (js it) d pos) as (pos' & stop & E & Q); auto.
    fold sim in E. rewrite E. cbn [rbind].
    assert (P' : forall v, (0 <= v < 2)%Z -> pos' v = init v) by (intros v Hv; rewrite Q; auto).
    destruct stop; eauto. }
  destruct (IT 400%nat 0%nat 1 init) as (pos & E & P); auto.
  exists (box 2 pos). split.
  - unfold force_layout.
    replace (forallb _ (range 2)) with true.
    2:{ symmetry. apply forallb_forall. intros v I. apply (in_vs 2) in I. destruct (init_in U I) as [A B].
        revert A B. unfold Rabs. repeat destruct Rcase_abs; intros A B;
        repeat destruct Rle_dec; auto; lra. }
    cbn [negb]. rewrite EH. cbn [rbind]. fold sim. unfold simulate. change (length [[0; 1]]%Z) with 1%nat. fold init. rewrite E. reflexivity.
  - unfold box. change (range 2) with [0; 1]%Z. cbn [map]. rewrite !P by lia. unfold init, lift_pt, init_pos, padd, pscale. cbn [fst snd].
    unfold into_box. cbn [fins fold_right fin_of]. cbn [lmin lmax fold_left].
    assert (Mn : Rmin (5 * (2 * 0 - 1) + 0) (5 * (2 * 1 - 1) + 0) = -5) by (unfold Rmin; destruct Rle_dec; lra).
    assert (Mx : Rmax (5 * (2 * 0 - 1) + 0) (5 * (2 * 1 - 1) + 0) = 5) by (unfold Rmax; destruct Rle_dec; lra).
    rewrite Mn, Mx. replace (5 * (2 * 0 - 1) + 0 - -5) with 0 by lra. unfold fdiv, neqb. cbn [nleb Ext_R nz Num_R].
    destruct (Rle_dec (5 - -5) 0); [lra|]. cbn. rewrite !Rmult_0_l, Rplus_0_l. auto.
Qed.
Example C72_case : vertices_in 3 [[0%Z; 1%Z]; [1%Z; 2%Z; 0%Z]] /\ uniform 3 (fun v => (IZR v / 4, 1)).
Proof.
  split.
  - intros e v [<-|[<-|[]]] I; cbn in I; lia.
  - intros v V. assert (0 <= IZR v <= 2) by (split; apply IZR_le; lia). cbn [fst snd]. lra.
Qed.

(** ** C73: the layout of bipartite graphs *)
(** [draw_bigraph] draws edge i between rows u and num_u + v of the coordinates, but passes to the layout an edge between
    the rows u and v: the vertex v of V that is drawn as its end is not pulled by it. *)
Theorem C73_layout_edges_actual nu nv e_list : (0 < nu)%Z -> (0 < nv)%Z ->
  (forall u v, In (u, v) e_list -> (0 <= u < nu)%Z /\ (0 <= v < nv)%Z) ->
  exists H, incidence_matrix (nv + nu) (bigraph_laid e_list) = Ok H /\
    forall i u v, nth_error e_list i = Some (u, v) ->
      nth_error (bigraph_drawn nu e_list) i = Some (u, (v + nu)%Z) /\
      (forall r, H r i = if (Z.eqb r u || Z.eqb r v)%bool then 1 else 0) /\ H (v + nu)%Z i = 0.
Proof.
  intros Hu Hv B. destruct (@incidence_ok (nv + nu) (bigraph_laid e_list)) as (H & E & HH); [lia| |].
  - intros e w I J. apply in_map_iff in I. destruct I as ([u v] & <- & I). cbn in J. destruct (B u v I). lia.
  - exists H. split; auto. intros i u v N.
    assert (I : In (u, v) e_list) by (eapply nth_error_In; eauto). destruct (B u v I) as [Bu Bv].
    assert (G : forall r, H r i = if (Z.eqb r u || Z.eqb r v)%bool then 1 else 0).
    { intros r. rewrite HH. unfold bigraph_laid.
      rewrite (nth_error_nth (map (fun e => [fst e; snd e]) e_list) i [] (x := [u; v])).
      - cbn [existsb]. rewrite orb_false_r. reflexivity.
      - rewrite nth_error_map, N. reflexivity. }
    repeat split; auto.
    + unfold bigraph_drawn. rewrite nth_error_map, N. reflexivity.
    + rewrite G. replace (Z.eqb (v + nu) u) with false by (symmetry; apply Z.eqb_neq; lia).
      replace (Z.eqb (v + nu) v) with false by (symmetry; apply Z.eqb_neq; lia). reflexivity.
Qed.
(** With no more vertices in V than in U, no edge pulls any vertex of V, wherever the vertices are. *)
Theorem C73_not_attracted_actual nu nv e_list H j p ec v : (0 < nu)%Z -> (0 < nv <= nu)%Z ->
  (forall u v, In (u, v) e_list -> (0 <= u < nu)%Z /\ (0 <= v < nv)%Z) ->
  incidence_matrix (nv + nu) (bigraph_laid e_list) = Ok H -> (0 <= v < nv)%Z ->
  node_attraction (length e_list) H j p ec (nu + v)%Z = (0, 0).
Proof.
  intros Hu Hv B E V. destruct (@C73_layout_edges_actual nu nv e_list) as (H' & E' & HH); auto; [lia|].
  rewrite E in E'. inversion E'. subst H'. clear E'.
  assert (Z0 : forall e, In e (es (length e_list)) -> H (nu + v)%Z e = 0).
  { intros e I. apply in_seq in I. destruct (nth_error e_list e) as [[u w]|] eqn:N; [|apply nth_error_None in N; lia].
    destruct (HH e u w N) as (_ & G & _). rewrite G. destruct (B u w) as [Bu Bw]; [eapply nth_error_In; eauto|].
    replace (Z.eqb (nu + v) u) with false by (symmetry; apply Z.eqb_neq; lia).
    replace (Z.eqb (nu + v) w) with false by (symmetry; apply Z.eqb_neq; lia). reflexivity. }
  unfold node_attraction. cbv zeta.
  assert (S0 : forall (l : list nat) f, (forall e, In e l -> f e = 0) -> sumf l f = 0).
  { intros l f. induction l; cbn; auto. intros P. rewrite P, IHl by auto. lra. }
  f_equal; apply S0; intros e I; rewrite (Z0 e I), Rmult_0_r; destruct (Rlt_dec 0 0); try lra; unfold pscale; cbn [fst snd]; ring.
Qed.
Example C73_case : forall u v, In (u, v) [(0, 0); (1, 0); (1, 1)]%Z -> (0 <= u < 2)%Z /\ (0 <= v < 2)%Z.
Proof. intros u v I. cbn in I. repeat destruct I as [I|I]; inversion I; lia. Qed.

(** ** C131: outlines of hyperedges *)
(** the number of the first [k] drawn edges that contain [v], and the radius around [v] of the outline drawn next *)
Definition earlier (e_list : list (list Z)) (order : list nat) (k : nat) (v : Z) : nat :=
  length (filter (fun i => existsb (Z.eqb v) (nth i e_list [])) (firstn k order)).
Definition outline_radius (e_list : list (list Z)) (order : list nat) (size : Z -> R) (k : nat) (v : Z) : R :=
  size v * (13 / 10 + 3 / 10 * INR (earlier e_list order k v)).
(** [o] goes around the vertices of [e]: a circle around a single one, otherwise a closed outline through corners that are
    vertices of [e] (all of them if there are two) *)
Definition goes_around (pos : Z -> R * R) (radius : Z -> R) (e : list Z) (o : outline) : Prop :=
  (exists v, e = [v] /\ o = ([], [(pos v, 0, 360, radius v)])) \/
  (length e <> 1%nat /\ exists ix, incl ix e /\ (length e = 2%nat -> ix = e) /\
     closed_outline (map pos ix) (map radius ix) (fst o) (snd o)).

Lemma row_id n e : (forall v, In v e -> (0 <= v < n)%Z) -> map (row_of n) e = e.
Proof.
  induction e as [|v e IH]; cbn; intros B; auto. rewrite IH by auto. f_equal. unfold row_of.
  destruct (Z.ltb_spec v 0); auto. specialize (B v (or_introl eq_refl)). lia.
Qed.
Lemma closed_ext cs rs rs' ls a : rs = rs' -> closed_outline cs rs ls a -> closed_outline cs rs' ls a.
Proof. intros <-. auto. Qed.
Lemma edge_outline_ok hull n pos radius radius' e o :
  (forall l ix, hull l = Ok ix -> forall i, In i ix -> (i < length l)%nat) ->
  (forall v, In v e -> (0 <= v < n)%Z) -> (forall v, 0 <= radius v) -> (forall v, radius v = radius' v) ->
  edge_outline hull n pos radius e = Ok o -> goes_around pos radius' e o.
Proof.
  intros HV B Rp Re E. unfold goes_around.
  assert (R0 : forall v, In v e -> row_of n v = v).
  { intros v I. unfold row_of. destruct (Z.ltb_spec v 0); auto. specialize (B v I). lia. }
  assert (Big : forall (K : rbind (corners hull n pos e) (fun ix => rbind (tangents pos radius ix) (fun ls => Ok (map fst ls, arcs pos radius ix (map snd ls)))) = Ok o),
           exists ix, incl ix e /\ (length e = 2%nat -> ix = e) /\ closed_outline (map pos ix) (map radius' ix) (fst o) (snd o)).
  { intros K. destruct (corners hull n pos e) as [ix|] eqn:C; cbn [rbind] in K; [|discriminate].
    destruct (tangents pos radius ix) as [ls|] eqn:T; cbn [rbind] in K; [|discriminate]. inversion K. subst o. cbn [fst snd].
    exists ix. unfold corners in C. destruct (Nat.eqb_spec (length e) 2) as [L2|L2].
    - injection C as C'. rewrite row_id in C' by auto. subst ix. split; [apply incl_refl|]. split; auto.
      apply closed_ext with (rs := map radius e); [apply map_ext; auto|]. apply outline_closed; auto.
    - destruct (hull _) as [hx|] eqn:Hh; cbn [rbind] in C; [|discriminate]. injection C as C'.
      split; [|split; [intros; lia|]].
      + intros v I. rewrite <- C' in I. apply in_map_iff in I. destruct I as (i & <- & I).
        pose proof (HV _ _ Hh i I) as L. rewrite map_length in L. rewrite R0 by (apply nth_In; auto). apply nth_In; auto.
      + apply closed_ext with (rs := map radius ix); [apply map_ext; auto|]. apply outline_closed; auto. }
  destruct e as [|v [|w e]]; cbn [edge_outline] in E.
  - right. split; [cbn; lia|]. apply Big. auto.
  - left. exists v. split; auto. inversion E. rewrite R0 by (cbn; auto). rewrite Re. auto.
  - right. split; [cbn; lia|]. apply Big. auto.
Qed.

(** Whatever convex hull scipy computes, every edge gets one outline, drawn in the given order; it is closed, made of
    outer tangents and arcs, and its circles have the radii that [outline_radius] says. *)
Theorem C131_outlines hull n pos e_list size order out :
  (forall l ix, hull l = Ok ix -> forall i, In i ix -> (i < length l)%nat) -> vertices_in n e_list -> (forall v, 0 <= size v) ->
  hull_layout hull n pos e_list size order = Ok out ->
  map fst out = order /\
  forall k i o, nth_error out k = Some (i, o) -> goes_around pos (outline_radius e_list order size k) (nth i e_list []) o.
Proof.
  intros HV V Sp E. unfold hull_layout in E. cbv zeta in E.
  assert (VB : forall i v, In v (nth i e_list []) -> (0 <= v < n)%Z).
  { intros i v I. destruct (Nat.lt_ge_cases i (length e_list)) as [L|L].
    - apply (V (nth i e_list []) v); auto. apply nth_In; auto.
    - rewrite nth_overflow in I by auto. destruct I. }
  assert (G : forall todo done radius out',
    (forall v, radius v = size v * (13 / 10 + 3 / 10 * INR (length (filter (fun i => existsb (Z.eqb v) (nth i e_list [])) done)))) ->
    hull_loop hull n pos (fun v => size v * (3 / 10)) radius (map (fun i => (i, nth i e_list [])) todo) = Ok out' ->
    map fst out' = todo /\ forall k i o, nth_error out' k = Some (i, o) ->
      goes_around pos (fun v => size v * (13 / 10 + 3 / 10 * INR (length (filter (fun i => existsb (Z.eqb v) (nth i e_list [])) (done ++ firstn k todo)))))
        (nth i e_list []) o).
  { induction todo as [|i todo IH]; intros done radius out' Hr L; cbn [map hull_loop] in L.
    - inversion L. split; auto. intros [|k] j o N; discriminate.
    - destruct (edge_outline hull n pos radius (nth i e_list [])) as [o|] eqn:O; cbn [rbind] in L; [|discriminate].
      match type of L with rbind ?x _ = _ => destruct x as [r|] eqn:L2; cbn [rbind] in L; [|discriminate] end.
      inversion L. subst out'.
      destruct (IH (done ++ [i]) (grow n (fun v => size v * (3 / 10)) radius (nth i e_list [])) r) as [M Q]; [|exact L2|].
      { intros v. unfold grow. rewrite filter_app, app_length. cbn [filter].
          replace (existsb (fun w => Z.eqb (row_of n w) v) (nth i e_list [])) with (existsb (Z.eqb v) (nth i e_list [])).
          - rewrite Hr. destruct (existsb (Z.eqb v) (nth i e_list [])); cbn [length]; rewrite plus_INR; cbn [INR]; ring.
          - specialize (VB i). revert VB. generalize (nth i e_list []). clear. induction l as [|w l IH]; cbn; intros VB; auto.
            rewrite IH by auto. f_equal. unfold row_of. destruct (Z.ltb_spec w 0); [specialize (VB w (or_introl eq_refl)); lia|].
            apply Z.eqb_sym. }
      split; [cbn; f_equal; auto|]. intros [|k] j o' N; cbn in N.
      + inversion N. subst j o'. apply edge_outline_ok with (hull := hull) (n := n) (radius := radius); auto.
        * apply VB.
        * intros v. rewrite Hr. apply Rmult_le_pos; auto. pose proof (pos_INR (length (filter (fun i0 => existsb (Z.eqb v) (nth i0 e_list [])) done))). lra.
        * intros v. rewrite Hr. cbn [firstn]. rewrite app_nil_r. auto.
      + specialize (Q k j o' N). cbn [firstn]. replace (done ++ i :: firstn k todo) with ((done ++ [i]) ++ firstn k todo); auto.
        rewrite <- app_assoc. reflexivity. }
  destruct (G order [] (fun v => size v + size v * (3 / 10)) out) as [M Q]; auto. intros v. cbn [filter length INR]. lra.
Qed.

(** the arcs of an outline are around vertices of its edge, with the radius of the vertex *)
Lemma around_arcs pos radius e o c t1 t2 r : goes_around pos radius e o -> In (c, t1, t2, r) (snd o) ->
  exists v, In v e /\ c = pos v /\ r = radius v.
Proof.
  intros [(v & -> & ->)|(_ & ix & I & _ & C)] A.
  - cbn in A. destruct A as [A|[]]. inversion A. subst. exists v. cbn. auto.
  - unfold closed_outline in C. cbv zeta in C. rewrite !map_length in C. destruct C as (_ & _ & LA & C).
    destruct (In_nth _ _ ((0, 0), 0, 0, 0) A) as (k & Lk & N).
    assert (Lk' : (k < length ix)%nat) by lia. specialize (C k Lk').
    rewrite (cyc_small _ (snd o)) in C by lia. rewrite N in C.
    destruct (cyc (0, 0, (0, 0)) (fst o) k) as [s t]. destruct C as (_ & -> & -> & _).
    exists (nth k ix 0%Z). rewrite !cyc_small by (rewrite map_length; auto).
    rewrite (nth_indep _ (0, 0) (pos 0%Z)) by (rewrite map_length; auto).
    rewrite (nth_indep _ 0 (radius 0%Z)) by (rewrite map_length; auto). rewrite !map_nth.
    repeat split; auto. apply I. apply nth_In; auto.
Qed.
(** Where the outlines of a smaller and of a larger edge go around the same vertex, the larger one is further out, by at
    least 0.3 times the size of the vertex.  [order] sorts the edges by size. *)
Theorem C131_nested hull n pos e_list size order out i j oi oj c ti1 ti2 ri tj1 tj2 rj :
  (forall l ix, hull l = Ok ix -> forall i, In i ix -> (i < length l)%nat) -> vertices_in n e_list -> (forall v, 0 <= size v) ->
  (forall v w, (0 <= v < n)%Z -> (0 <= w < n)%Z -> pos v = pos w -> v = w) ->
  StronglySorted (fun a b => (length (nth a e_list []) <= length (nth b e_list []))%nat) order ->
  hull_layout hull n pos e_list size order = Ok out ->
  In (i, oi) out -> In (j, oj) out -> (length (nth i e_list []) < length (nth j e_list []))%nat ->
  In (c, ti1, ti2, ri) (snd oi) -> In (c, tj1, tj2, rj) (snd oj) ->
  exists v, (0 <= v < n)%Z /\ c = pos v /\ ri + 3 / 10 * size v <= rj.
Proof.
  intros HV V Sp Inj SS E Oi Oj L Ai Aj.
  destruct (@C131_outlines hull n pos e_list size order out HV V Sp E) as [M Q].
  apply In_nth_error in Oi. destruct Oi as [ki Oi]. apply In_nth_error in Oj. destruct Oj as [kj Oj].
  destruct (@around_arcs _ _ _ _ _ _ _ _ (Q _ _ _ Oi) Ai) as (v & Iv & Cv & Rv).
  destruct (@around_arcs _ _ _ _ _ _ _ _ (Q _ _ _ Oj) Aj) as (w & Iw & Cw & Rw).
  assert (VB : forall i v, In v (nth i e_list []) -> (0 <= v < n)%Z).
  { intros a u I. destruct (Nat.lt_ge_cases a (length e_list)) as [La|La].
    - apply (V (nth a e_list []) u); auto. apply nth_In; auto.
    - rewrite nth_overflow in I by auto. destruct I. }
  assert (v = w) as <- by (apply Inj; eauto; congruence).
  exists v. split; [eauto|]. split; auto. subst ri rj. unfold outline_radius.
  assert (Ki : nth_error order ki = Some i) by (rewrite <- M, nth_error_map, Oi; reflexivity).
  assert (Kj : nth_error order kj = Some j) by (rewrite <- M, nth_error_map, Oj; reflexivity).
  assert (Lt : (ki < kj)%nat).
  { destruct (Nat.lt_trichotomy ki kj) as [|[->|G]]; auto.
    - rewrite Ki in Kj. inversion Kj. subst. lia.
    - exfalso. assert (SL : forall (l : list nat) a b x y, StronglySorted (fun a b => (length (nth a e_list []) <= length (nth b e_list []))%nat) l ->
        (a < b)%nat -> nth_error l a = Some x -> nth_error l b = Some y -> (length (nth x e_list []) <= length (nth y e_list []))%nat).
      { clear. induction l as [|z l IH]; intros a b x y S Lab A B; [destruct a; discriminate|].
        inversion S; subst. destruct a as [|a], b as [|b]; try lia; cbn in A, B.
        - inversion A. subst. rewrite Forall_forall in H2. apply H2. eapply nth_error_In; eauto.
        - eapply IH with (a := a) (b := b); eauto. lia. }
      pose proof (SL order kj ki j i SS G Kj Ki). lia. }
  assert (C : (earlier e_list order ki v < earlier e_list order kj v)%nat).
  { unfold earlier. assert (Li : (ki < length order)%nat) by (apply nth_error_Some; congruence).
    rewrite <- (firstn_skipn (S ki) (firstn kj order)).
    rewrite firstn_firstn. replace (Nat.min (S ki) kj) with (S ki) by lia.
    rewrite filter_app, app_length.
    assert (F : firstn (S ki) order = firstn ki order ++ [i]).
    { revert Ki. clear. revert ki. induction order as [|z l IH]; intros [|ki] K; try discriminate; cbn in *; [congruence|].
      f_equal. apply (IH ki); auto. }
    rewrite F, filter_app, app_length. cbn [filter].
    replace (existsb (Z.eqb v) (nth i e_list [])) with true; [cbn; lia|].
    symmetry. apply existsb_exists. exists v. split; auto. apply Z.eqb_refl. }
  apply le_INR in C. rewrite S_INR in C.
  assert (P : 0 <= size v * (INR (earlier e_list order kj v) - INR (earlier e_list order ki v) - 1)) by (apply Rmult_le_pos; auto; lra).
  lra.
Qed.

(** two edges, {0} and {0, 1}: both are outlined, and both outlines go around vertex 0 *)
Example C131_case : let hull (l : list (R * R)) := Ok (seq 0 (length l)) in
  let pos v := (IZR v, 0) in let e_list := [[0; 1]; [0]]%Z in let size (_ : Z) := 1 / 10 in
  exists out oi oj ti1 ti2 ri tj1 tj2 rj, hull_layout hull 2 pos e_list size [1%nat; 0%nat] = Ok out /\
    In (1%nat, oi) out /\ In (0%nat, oj) out /\ In (pos 0%Z, ti1, ti2, ri) (snd oi) /\ In (pos 0%Z, tj1, tj2, rj) (snd oj) /\
    StronglySorted (fun a b => (length (nth a e_list []) <= length (nth b e_list []))%nat) [1%nat; 0%nat].
Proof.
  cbv zeta.
  assert (D1 : vlen (psub (1, 0) (0, 0)) = 1).
  { unfold vlen, psub. cbn [fst snd]. replace ((1 - 0) ^ 2 + (0 - 0) ^ 2) with (1 * 1) by ring. apply sqrt_square. lra. }
  assert (D2 : vlen (psub (0, 0) (1, 0)) = 1).
  { unfold vlen, psub. cbn [fst snd]. replace ((0 - 1) ^ 2 + (0 - 0) ^ 2) with (1 * 1) by ring. apply sqrt_square. lra. }
  unfold hull_layout. cbn [map nth hull_loop edge_outline]. cbv zeta. unfold corners. cbn [length Nat.eqb map rbind].
  change (row_of 2 0) with 0%Z. change (row_of 2 1) with 1%Z.
  unfold tangents. cbn [tl firstn app combine map_res].
  unfold grow. cbn [existsb]. change (row_of 2 0) with 0%Z. cbn [Z.eqb orb]. rewrite D1, D2.
  destruct (@tangent_ok (1 / 10 + 1 / 10 * (3 / 10) + 1 / 10 * (3 / 10)) (1 / 10 + 1 / 10 * (3 / 10)) 1) as (a & -> & _); [lra|rewrite Rabs_right; lra|].
  cbn [rbind].
  destruct (@tangent_ok (1 / 10 + 1 / 10 * (3 / 10)) (1 / 10 + 1 / 10 * (3 / 10) + 1 / 10 * (3 / 10)) 1) as (b & -> & _); [lra|rewrite Rabs_left; lra|].
  cbn [rbind map fst snd length]. unfold arcs. cbn [length skipn firstn app combine map Nat.sub].
  do 9 eexists. split; [reflexivity|].
  split; [left; reflexivity|]. split; [right; left; reflexivity|].
  split; [left; reflexivity|]. split; [left; reflexivity|].
  repeat constructor.
Qed.

(** ** C132: straight edges *)
(** The arrow of an edge lies on the line through the two vertices and goes from the rim of the first to that of the
    second; it does not turn back if the two circles do not overlap.  None is drawn (nan) exactly for a self-loop or for
    vertices at the same place. *)
Theorem C132_line_edge n coor size a b : (0 <= a < n)%Z -> (0 <= b < n)%Z -> 0 <= size a -> 0 <= size b ->
  match line_edge n coor size a b with
  | None => coor a = coor b
  | Some (s, d) =>
      let t := (fst s + fst d, snd s + snd d) in
      exists u, dot u u = 1 /\ vec (coor a) (coor b) = (norm (vec (coor a) (coor b)) * fst u, norm (vec (coor a) (coor b)) * snd u) /\
        vec (coor a) s = (size a * fst u, size a * snd u) /\ vec t (coor b) = (size b * fst u, size b * snd u) /\
        norm (vec (coor a) s) = size a /\ norm (vec t (coor b)) = size b /\
        (size a + size b <= norm (vec (coor a) (coor b)) -> exists k, 0 <= k /\ d = (k * fst u, k * snd u))
  end.
Proof.
  intros Ba Bb Sa Sb. unfold line_edge.
  replace (row_of n a) with a by (unfold row_of; destruct (Z.ltb_spec a 0); lia).
  replace (row_of n b) with b by (unfold row_of; destruct (Z.ltb_spec b 0); lia).
  destruct (Req_EM_T (vlen (psub (coor b) (coor a))) 0) as [E|N].
  - symmetry. apply dist_0. auto.
  - cbv zeta. change (psub (coor b) (coor a)) with (vec (coor a) (coor b)) in *. rewrite vlen_norm in *.
    set (D := norm (vec (coor a) (coor b))) in *.
    assert (P : 0 < D) by (destruct (sqrt_pos (dot (vec (coor a) (coor b)) (vec (coor a) (coor b)))) as [|E]; auto; exfalso; apply N; symmetry; exact E).
    set (u := pscale (1 / D) (vec (coor a) (coor b))).
    assert (U : dot u u = 1).
    { unfold u, dot, pscale. cbn [fst snd].
      assert (DD : D * D = dot (vec (coor a) (coor b)) (vec (coor a) (coor b))).
      { apply sqrt_sqrt. unfold dot. nra. }
      unfold dot in DD. set (x := fst (vec (coor a) (coor b))) in *. set (y := snd (vec (coor a) (coor b))) in *.
      replace (1 / D * x * (1 / D * x) + 1 / D * y * (1 / D * y)) with ((x * x + y * y) / (D * D)) by (field; lra).
      rewrite <- DD. field. lra. }
    assert (VU : vec (coor a) (coor b) = (D * fst u, D * snd u)).
    { unfold u, pscale. cbn [fst snd]. destruct (vec (coor a) (coor b)) as [x y]. cbn [fst snd]. f_equal; field; lra. }
    assert (V1 : vec (coor a) (padd (coor a) (pscale (size a) u)) = (size a * fst u, size a * snd u)).
    { unfold vec, padd, pscale. cbn [fst snd]. f_equal; ring. }
    exists u. split; auto. split; auto. split; auto.
    assert (V2 : vec (fst (padd (coor a) (pscale (size a) u)) + fst (psub (psub (coor b) (pscale (size b) u)) (padd (coor a) (pscale (size a) u))),
                      snd (padd (coor a) (pscale (size a) u)) + snd (psub (psub (coor b) (pscale (size b) u)) (padd (coor a) (pscale (size a) u))))
                     (coor b) = (size b * fst u, size b * snd u)).
    { unfold vec, padd, pscale, psub. cbn [fst snd]. f_equal; ring. }
    split; auto. split; [rewrite V1; apply norm_scaled; auto|]. split; [rewrite V2; apply norm_scaled; auto|].
    intros L. exists (D - size a - size b). split; [lra|].
    pose proof (f_equal fst VU) as X. pose proof (f_equal snd VU) as Y. cbn [vec fst snd] in X, Y.
    clearbody u D. unfold psub, padd, pscale. cbn [fst snd].
    replace (fst (coor b)) with (fst (coor a) + D * fst u) by lra. replace (snd (coor b)) with (snd (coor a) + D * snd u) by lra.
    f_equal; ring.
Qed.
Example C132_case : exists s d, line_edge 2 (fun v => (IZR v, 0)) (fun _ => 1 / 10) 0 1 = Some (s, d).
Proof.
  unfold line_edge. change (row_of 2 0) with 0%Z. change (row_of 2 1) with 1%Z. cbv zeta.
  destruct (Req_EM_T (vlen (psub (1, 0) (0, 0))) 0) as [E|]; [|eauto].
  apply vlen_0 in E. unfold psub in E. cbn in E. inversion E. lra.
Qed.

(** In the drawing of a graph, the line of an edge goes from the rim of the circle of its first vertex to the rim of that of its second
    one; there is none if a position is not finite or the two positions are equal. *)
Theorem C132_drawing n e_list vs_ vl el font push_v push_e pull_e pull_c rnd js sc :
  draw_line_graph n e_list None vs_ vl el font push_v push_e pull_e pull_c rnd js = Ok sc ->
  (forall c, In c (sc_circles sc) -> 0 <= snd (fst c)) ->
  forall k a b, nth_error e_list k = Some (a, b) -> (0 <= a < n)%Z -> (0 <= b < n)%Z ->
  exists l w pa ra wa pb rb wb, nth_error (sc_lines sc) k = Some (l, w) /\
    nth_error (sc_circles sc) (Z.to_nat a) = Some (pa, ra, wa) /\ nth_error (sc_circles sc) (Z.to_nat b) = Some (pb, rb, wb) /\
    match l with
    | None => fin_pt pa = None \/ fin_pt pb = None \/ fin_pt pa = fin_pt pb
    | Some (s, d) => exists xa xb, fin_pt pa = Some xa /\ fin_pt pb = Some xb /\
        exists u, dot u u = 1 /\ vec xa xb = (norm (vec xa xb) * fst u, norm (vec xa xb) * snd u) /\
          vec xa s = (ra * fst u, ra * snd u) /\ vec (fst s + fst d, snd s + snd d) xb = (rb * fst u, rb * snd u)
    end.
Proof.
  intros E POS k a b EK Ba Bb. unfold draw_line_graph in E. destruct e_list as [|e0 e_list]; [destruct k; discriminate EK|].
  remember (e0 :: e_list) as el_ eqn:Eel. clear Eel.
  destruct (default_size n (length el_) vs_ vl el (Some 1)) as [[[[sz lw] elw] ft]|] eqn:D; cbn [rbind] in E; [|discriminate].
  assert (FS : forall c d k l, fill_sizes c d k = Ok l -> length l = k).
  { intros [|x|l0] d k0 l F; cbn in F.
    - inversion F. apply repeat_length.
    - inversion F. apply repeat_length.
    - destruct (Nat.eqb_spec (length l0) k0); [|discriminate]. inversion F. rewrite map_length. auto. }
  unfold default_size in D. cbv zeta in D.
  destruct (fill_sizes vs_ _ (Z.to_nat n)) as [sa|] eqn:Fa; cbn [rbind] in D; [|discriminate].
  destruct (fill_sizes vl _ (Z.to_nat n)) as [sb|] eqn:Fb; cbn [rbind] in D; [|discriminate].
  destruct (fill_sizes el _ (length el_)) as [sc0|] eqn:Fc; cbn [rbind] in D; [|discriminate].
  apply FS in Fa, Fb, Fc. injection D as -> -> -> _.
  match type of E with rbind ?x _ = _ => destruct x as [coor|]; cbn [rbind] in E; [|discriminate] end.
  unfold draw_vertex in E. injection E as <-. cbn [sc_circles sc_lines] in POS |- *.
  set (cs := map _ _) in POS |- *.
  assert (CS : forall v, (0 <= v < n)%Z -> nth_error cs (Z.to_nat v) = Some (coor v, nth (Z.to_nat v) sz 0, nth (Z.to_nat v) lw 0)).
  { intros v V. unfold cs.
    assert (X : nth_error (map coor (range n)) (Z.to_nat v) = Some (coor v)) by (rewrite nth_error_map; unfold range; rewrite nth_error_map, (nth_error_nth' _ 0%nat), seq_nth by (rewrite ?seq_length; lia); cbn [option_map]; rewrite Nat.add_0_l, Z2Nat.id by lia; reflexivity).
    assert (NC : forall A B (l : list A) (l' : list B) i x y, nth_error l i = Some x -> nth_error l' i = Some y -> nth_error (combine l l') i = Some (x, y)).
    { clear. induction l as [|x0 l IH]; intros [|y0 l'] [|i] x y; cbn; try discriminate; auto. congruence. }
    rewrite nth_error_map. erewrite NC; [|eapply NC; [eapply NC; [exact X|]|]|].
    - reflexivity.
    - rewrite nth_error_map, X. reflexivity.
    - apply nth_error_nth'. lia.
    - apply nth_error_nth'. lia. }
  assert (KL : (k < length el_)%nat) by (apply nth_error_Some; congruence).
  assert (EL : nth_error (combine el_ elw) k = Some ((a, b), nth k elw 0)).
  { clear - EK Fc KL. revert elw k EK Fc KL. induction el_ as [|e l IH]; intros [|w elw] [|k] EK L K; cbn in *; try discriminate; try lia; auto. injection EK as ->. auto. apply IH; auto; lia. }
  rewrite (nth_error_map _ k (combine el_ elw)), EL. cbn [option_map].
  do 8 eexists. split; [reflexivity|]. split; [apply CS; auto|]. split; [apply CS; auto|]. cbn [fst snd].
  assert (RW : forall v, (0 <= v < n)%Z -> row_of n v = v) by (intros v V; unfold row_of; destruct (Z.ltb_spec v 0); lia).
  rewrite !RW by auto.
  destruct (fin_pt (coor a)) as [xa|] eqn:XA; auto. destruct (fin_pt (coor b)) as [xb|] eqn:XB; auto.
  assert (SP : forall v, (0 <= v < n)%Z -> 0 <= nth (Z.to_nat v) sz 0) by (intros v V; exact (POS _ (nth_error_In _ _ (CS v V)))).
  pose proof (@C132_line_edge n (fun v => match fin_pt (coor v) with Some p => p | None => (0, 0) end) (fun v => nth (Z.to_nat v) sz 0) a b Ba Bb (SP a Ba) (SP b Bb)) as LE.
  cbv beta in LE. rewrite XA, XB in LE. destruct (line_edge _ _ _ _ _) as [[s d]|].
  - cbv zeta in LE. destruct LE as (u & H1 & H2 & H3 & H4 & _). exists xa, xb. repeat (split; [reflexivity|]). exists u. auto.
  - rewrite LE. auto.
Qed.

(** ** C133: labels *)
(** A list of labels shorter than the number of vertices hides the vertices without a label: they are not drawn at all,
    while all edges are. *)
Theorem C133_short_labels_actual n e_list labels vs_ vl el font push_v push_e pull_e pull_c rnd js sc :
  draw_line_graph n e_list (Some labels) vs_ vl el font push_v push_e pull_e pull_c rnd js = Ok sc ->
  length (sc_circles sc) = Nat.min (Z.to_nat n) (length labels) /\ length (sc_lines sc) = length e_list.
Proof.
  unfold draw_line_graph. destruct e_list as [|e0 e_list]; [discriminate|]. intros E.
  remember (e0 :: e_list) as el_ eqn:Eel. clear Eel.
  destruct (default_size n (length el_) vs_ vl el (Some 1)) as [[[[sz lw] elw] ft]|] eqn:D; cbn [rbind] in E; [|discriminate].
  assert (FS : forall c d k l, fill_sizes c d k = Ok l -> length l = k).
  { intros [|x|l0] d k l F; cbn in F.
    - inversion F. apply repeat_length.
    - inversion F. apply repeat_length.
    - destruct (Nat.eqb_spec (length l0) k); [|discriminate]. inversion F. rewrite map_length. auto. }
  unfold default_size in D. cbv zeta in D.
  destruct (fill_sizes vs_ _ (Z.to_nat n)) as [a|] eqn:Fa; cbn [rbind] in D; [|discriminate].
  destruct (fill_sizes vl _ (Z.to_nat n)) as [b|] eqn:Fb; cbn [rbind] in D; [|discriminate].
  destruct (fill_sizes el _ (length el_)) as [c|] eqn:Fc; cbn [rbind] in D; [|discriminate].
  apply FS in Fa, Fb, Fc. injection D as <- <- <- _.
  match type of E with rbind ?x _ = _ => destruct x as [coor|]; cbn [rbind] in E; [|discriminate] end.
  unfold draw_vertex in E. inversion E. cbn [sc_circles sc_lines].
  rewrite !map_length, !combine_length, map_length. unfold range. rewrite map_length, seq_length. lia.
Qed.
(** The font size and the push strength of edges that the caller gives have no influence; the labels are written in the
    size 20 exp(-n / 100). *)
Theorem C133_ignored_actual n e_list labels vs_ vl el font font' push_v push_e push_e' pull_e pull_c rnd js :
  draw_line_graph n e_list labels vs_ vl el font push_v push_e pull_e pull_c rnd js =
  draw_line_graph n e_list labels vs_ vl el font' push_v push_e' pull_e pull_c rnd js /\
  forall sc, draw_line_graph n e_list labels vs_ vl el font push_v push_e pull_e pull_c rnd js = Ok sc -> sc_font sc = 20 * exp (- IZR n / 100).
Proof.
  split; [reflexivity|]. intros sc E. unfold draw_line_graph in E. destruct e_list as [|e0 e_list]; [discriminate|].
  remember (e0 :: e_list) as el_ eqn:Eel. clear Eel.
  destruct (default_size n (length el_) vs_ vl el (Some 1)) as [[[[sz lw] elw] ft]|] eqn:D; cbn [rbind] in E; [|discriminate].
  unfold default_size in D. cbv zeta in D.
  destruct (fill_sizes vs_ _ (Z.to_nat n)) as [a|]; cbn [rbind] in D; [|discriminate].
  destruct (fill_sizes vl _ (Z.to_nat n)) as [b|]; cbn [rbind] in D; [|discriminate].
  destruct (fill_sizes el _ (length el_)) as [c|]; cbn [rbind] in D; [|discriminate]. injection D as _ _ _ <-.
  match type of E with rbind ?x _ = _ => destruct x as [coor|]; cbn [rbind] in E; [|discriminate] end.
  destruct (draw_vertex _ _ _ _). inversion E. cbn. ring.
Qed.
(** drawing a self-loop at a single vertex succeeds; its label is written and its arrow is nan *)
Example C133_case js : exists sc, draw_line_graph 1 [(0, 0)]%Z (Some ["a"%string]) (SNum 1) (SNum 1) (SList [2])
  (Some 3) (Some 1) (Some 1) (Some 1) (Some 1) (fun _ => (0, 0)) js = Ok sc /\ map snd (sc_labels sc) = ["a"%string] /\ map fst (sc_lines sc) = [None].
Proof.
  unfold draw_line_graph. cbn [default_size fill_sizes length Nat.eqb rbind map fst snd fill_strength].
  assert (V : vertices_in 1 [[0; 0]]%Z) by (intros e v [<-|[]] I; cbn in I; lia).
  assert (U : uniform 1 (fun _ => (0, 0))) by (intros v _; cbn [fst snd]; lra).
  destruct (@C130_single_vertex_actual [0; 0]%Z (1 * (6 / 1000)) None (1 * (45 / 1000)) (1 * (1 / 100)) (fun _ => (0, 0)) js) as (coor & -> & E);
    auto; try discriminate.
  cbn [rbind]. unfold draw_vertex. cbn [range map Z.to_nat seq combine Pos.to_nat Pos.iter_op Nat.add Z.of_nat flat_map String.eqb app].
  eexists. split; [reflexivity|]. cbn. rewrite E. cbn. auto.
Qed.
Example C132_drawing_case js : exists sc, draw_line_graph 1 [(0, 0)]%Z None (SNum 1) (SNum 1) (SList [2])
  (Some 3) (Some 1) (Some 1) (Some 1) (Some 1) (fun _ => (0, 0)) js = Ok sc /\ length (sc_circles sc) = 1%nat /\ forall c, In c (sc_circles sc) -> 0 <= snd (fst c).
Proof.
  unfold draw_line_graph. cbn [default_size fill_sizes length Nat.eqb rbind map fst snd fill_strength].
  assert (V : vertices_in 1 [[0; 0]]%Z) by (intros e v [<-|[]] I; cbn in I; lia).
  assert (U : uniform 1 (fun _ => (0, 0))) by (intros v _; cbn [fst snd]; lra).
  destruct (@C130_single_vertex_actual [0; 0]%Z (1 * (6 / 1000)) None (1 * (45 / 1000)) (1 * (1 / 100)) (fun _ => (0, 0)) js) as (coor & -> & E);
    auto; try discriminate.
  cbn [rbind]. unfold draw_vertex. cbn [range map Z.to_nat seq combine Pos.to_nat Pos.iter_op Nat.add Z.of_nat flat_map String.eqb app].
  eexists. split; [reflexivity|]. cbn [sc_circles]. split; [reflexivity|]. intros c [<-|[]]. cbn [fst snd].
  assert (0 < 1 / sqrt (1 + 10)) by (apply Rdiv_lt_0_compat; [lra|apply sqrt_lt_R0; lra]). lra.
Qed.
