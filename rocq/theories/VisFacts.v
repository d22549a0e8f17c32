(** Facts about the model of the drawing functions. *)
From Coq Require Import String Reals Lra Psatz.
From Verif Require Import Num PyDict ModelBase ModelConv ModelUtils ModelMetrics ModelVis RealFacts UtilFacts SpecVis.
Set Implicit Arguments.
Local Open Scope list_scope.
Local Open Scope Z_scope.
Local Open Scope R_scope.

Lemma pow2_gt_0 x : x <> 0 -> 0 < x ^ 2.
Proof. intros X. replace (x ^ 2) with (x²) by (unfold Rsqr; ring). apply Rsqr_pos_lt; auto. Qed.

(** ** polar angles *)
Lemma norm_pos x y : (x, y) <> (0, 0) -> 0 < sqrt (x ^ 2 + y ^ 2).
Proof.
  intros Hn. apply sqrt_lt_R0. destruct (Req_dec x 0) as [->|X].
  - destruct (Req_dec y 0) as [->|Y]; [tauto|]. pose proof (pow2_gt_0 Y). lra.
  - pose proof (pow2_gt_0 X). pose proof (pow2_ge_0 y). lra.
Qed.
Lemma atan_polar x y : x <> 0 ->
  x = sqrt (x ^ 2 + y ^ 2) * (if Rlt_dec 0 x then 1 else -1) * cos (atan (y / x)) /\
  y = sqrt (x ^ 2 + y ^ 2) * (if Rlt_dec 0 x then 1 else -1) * sin (atan (y / x)).
Proof.
  intros X. rewrite cos_atan, sin_atan.
  assert (E : 1 + (y / x)² = (x ^ 2 + y ^ 2) / x ^ 2) by (unfold Rsqr; field; auto).
  rewrite E, sqrt_div_alt by (apply pow2_gt_0; auto).
  assert (S : sqrt (x ^ 2) = Rabs x) by (rewrite <- sqrt_Rsqr_abs; f_equal; unfold Rsqr; ring). rewrite S.
  assert (Hn : 0 < sqrt (x ^ 2 + y ^ 2)) by (apply norm_pos; intros C; inversion C; auto).
  destruct (Rlt_dec 0 x).
  - rewrite Rabs_right by lra. split; field; split; lra.
  - rewrite Rabs_left by lra. split; field; split; lra.
Qed.
Lemma radian_from_atan_ok x y : (x, y) <> (0, 0) ->
  0 <= radian_from_atan x y < 2 * PI /\
  x = sqrt (x ^ 2 + y ^ 2) * cos (radian_from_atan x y) /\ y = sqrt (x ^ 2 + y ^ 2) * sin (radian_from_atan x y).
Proof.
  intros Hn. pose proof PI_RGT_0 as P. unfold radian_from_atan.
  destruct (Req_EM_T x 0) as [->|X].
  { assert (Y : y <> 0) by (intros ->; auto).
    replace (0 ^ 2 + y ^ 2) with (y * y) by ring.
    destruct (Rlt_dec 0 y).
    - rewrite cos_PI2, sin_PI2, sqrt_square by lra. repeat split; lra.
    - replace (3 * PI / 2) with (3 * (PI / 2)) by field. rewrite cos_3PI2, sin_3PI2.
      replace (y * y) with ((- y) * (- y)) by ring. rewrite sqrt_square by lra. repeat split; lra. }
  destruct (Req_EM_T y 0) as [->|Y].
  { replace (x ^ 2 + 0 ^ 2) with (x * x) by ring.
    destruct (Rlt_dec 0 x).
    - rewrite cos_0, sin_0, sqrt_square by lra. repeat split; lra.
    - rewrite cos_PI, sin_PI. replace (x * x) with ((- x) * (- x)) by ring. rewrite sqrt_square by lra. repeat split; lra. }
  cbn zeta. pose proof (atan_bound (y / x)) as B.
  destruct (atan_polar y X) as [EX EY].
  destruct (Rlt_dec 0 x) as [Xp|Xn].
  - destruct (Rlt_dec 0 y) as [Yp|Yn].
    + assert (0 < atan (y / x)).
      { rewrite <- atan_0. apply atan_increasing. apply Rdiv_lt_0_compat; auto. }
      repeat split; lra.
    + destruct (Rlt_dec y 0); [|lra].
      assert (atan (y / x) < 0).
      { rewrite <- atan_0. apply atan_increasing. apply Rmult_lt_reg_r with x; auto. unfold Rdiv.
        rewrite Rmult_assoc, Rinv_l by auto. lra. }
      replace (atan (y / x) + 2 * PI) with (atan (y / x) + 2 * INR 1 * PI) by (cbn; ring).
      rewrite cos_period, sin_period. replace (INR 1) with 1 by reflexivity.
      repeat split; lra.
  - rewrite neg_cos, neg_sin. repeat split; lra.
Qed.

Lemma tangent_ok r1 r2 d : 0 < d -> Rabs (r1 - r2) <= d ->
  exists a, common_tangent_radian r1 r2 d = Ok a /\ 0 <= a <= PI /\ d * cos a = r1 - r2.
Proof.
  intros D L. unfold common_tangent_radian. destruct (Req_EM_T d 0); [lra|].
  rewrite Rabs_minus_sym in L.
  assert (Hq : 0 <= Rabs (r2 - r1) / d <= 1).
  { split.
    - apply Rmult_le_pos; [apply Rabs_pos|]. left. apply Rinv_0_lt_compat; auto.
    - apply Rmult_le_reg_r with d; auto. unfold Rdiv. rewrite Rmult_assoc, Rinv_l by lra. lra. }
  destruct (Rlt_dec 1 (Rabs (r2 - r1) / d)); [lra|]. cbn zeta.
  pose proof (acos_bound (Rabs (r2 - r1) / d)) as B.
  eexists. split; [reflexivity|]. destruct (Rlt_dec r2 r1).
  - split; [auto|]. rewrite cos_acos by lra. rewrite Rabs_left by lra. field. lra.
  - split; [lra|]. replace (PI - acos (Rabs (r2 - r1) / d)) with (- acos (Rabs (r2 - r1) / d) + PI) by ring.
    rewrite neg_cos, cos_neg, cos_acos by lra. rewrite Rabs_right by lra. field. lra.
Qed.

(** ** extended floats *)
Lemma fin_dec (x : fl R) : {a | x = Fin a} + {forall a, x <> Fin a}.
Proof. destruct x; [left; eauto| | |]; right; discriminate. Qed.
Lemma fclip_cases lo hi x : lo <= hi -> fclip lo hi x = NaN \/ exists a, fclip lo hi x = Fin a /\ lo <= a <= hi.
Proof.
  intros L. destruct x; cbn; eauto; right; eexists; split; eauto; try lra.
  unfold Rmin, Rmax. repeat destruct Rle_dec; lra.
Qed.
Lemma in_vs n v : In v (vs n) <-> (0 <= v < n)%Z.
Proof.
  unfold vs, range. rewrite in_map_iff. split.
  - intros (k & <- & I). apply in_seq in I. lia.
  - intros B. exists (Z.to_nat v). split; [lia|]. apply in_seq. lia.
Qed.
Lemma fin_pt_some p q : fin_pt p = Some q -> p = lift_pt q.
Proof. destruct p as [a b]. destruct a, b; cbn; try discriminate. intros E. inversion E. reflexivity. Qed.
Lemma fin_pt_lift q : fin_pt (lift_pt q) = Some q.
Proof. destruct q; reflexivity. Qed.

(** a coordinate that is nan or close to [x] *)
Definition near (d : R) (x y : fl R) : Prop := y = NaN \/ exists a b, x = Fin a /\ y = Fin b /\ Rabs (b - a) <= d.
Lemma near_move a f : near (2 / 10) (Fin a) (fadd (Fin a) (fmul (Fin 2) (fclip (-1 / 10) (1 / 10) f))).
Proof.
  destruct (@fclip_cases (-1 / 10) (1 / 10) f) as [E|(b & E & B)]; [lra| |]; rewrite E.
  - left. reflexivity.
  - right. exists a, (a + 2 * b). cbn. repeat split; auto.
    replace (a + 2 * b - a) with (2 * b) by ring. apply Rabs_le. lra.
Qed.
Lemma step_near sim n m (H : Z -> nat -> R) j damping pos pos' stop :
  step sim n m H j damping pos = Ok (pos', stop) ->
  forall v, (0 <= v < n)%Z -> near (2 / 10) (fst (pos v)) (fst (pos' v)) /\ near (2 / 10) (snd (pos v)) (snd (pos' v)).
Proof.
  unfold step. intros E v V.
  destruct (forallb _ (vs n)) eqn:F; cbn [negb] in E; [|discriminate].
  destruct (existsb (e_empty n H) (es m) || Nat.eqb m 0); [discriminate|].
  cbv zeta in E.
  match type of E with rbind ?x _ = _ => destruct x as [f1|]; cbn [rbind] in E; [|discriminate] end.
  match type of E with rbind ?x _ = _ => destruct x as [f2|]; cbn [rbind] in E; [|discriminate] end.
  match type of E with rbind ?x _ = _ => destruct x as [f3|]; cbn [rbind] in E; [|discriminate] end.
  match type of E with rbind ?x _ = _ => destruct x as [f4|]; cbn [rbind] in E; [|discriminate] end.
  inversion E. subst pos'.
  rewrite forallb_forall in F. specialize (F v (proj2 (in_vs n v) V)).
  destruct (fin_pt (pos v)) as [q|] eqn:Q; [|discriminate]. apply fin_pt_some in Q. rewrite Q.
  split; apply near_move.
Qed.
Lemma iterate_near sim n m (H : Z -> nat -> R) k : forall it js damping pos pos',
  iterate sim n m H k it js damping pos = Ok pos' -> forall v, (0 <= v < n)%Z ->
  (exists a, fst (pos v) = Fin a) -> (exists a, snd (pos v) = Fin a) ->
  near (2 / 10 * INR k) (fst (pos v)) (fst (pos' v)) /\ near (2 / 10 * INR k) (snd (pos v)) (snd (pos' v)).
Proof.
  induction k as [|k IH]; intros it js damping pos pos' E v V [a A] [b B]; cbn [iterate] in E.
  - inversion E. subst. rewrite A, B. cbn [INR]. split; right; [exists a, a|exists b, b]; repeat split; auto;
      replace (a - a) with 0 by ring; replace (b - b) with 0 by ring; rewrite Rabs_R0; lra.
  - destruct (step sim n m H (js it) damping pos) as [[p1 stop]|] eqn:S; cbn [rbind] in E; [|discriminate].
    destruct (step_near _ _ _ _ _ _ S V) as [N1 N2]. rewrite S_INR.
    assert (K : 0 <= INR k) by apply pos_INR.
    assert (W : forall x y, near (2 / 10) x y -> near (2 / 10 * (INR k + 1)) x y).
    { intros x y [->|(c & d & -> & -> & L)]; [left; auto|]. right. exists c, d. repeat split; auto. lra. }
    destruct stop; [inversion E; subst; auto|].
    assert (G : forall x y z, near (2 / 10) x y -> near (2 / 10 * INR k) y z -> near (2 / 10 * (INR k + 1)) x z).
    { intros x y z [->|(c & d & -> & -> & L)] [->|(c' & d' & E1 & -> & L')]; try (left; reflexivity); try discriminate.
      inversion E1. subst c'. right. exists c, d'. repeat split; auto.
      replace (d' - c) with ((d' - d) + (d - c)) by ring. pose proof (Rabs_triang (d' - d) (d - c)). lra. }
    (* if a coordinate became nan the next step raises, or there is no next step *)
    assert (Q : (exists c, fst (p1 v) = Fin c) /\ (exists c, snd (p1 v) = Fin c) \/ k = O).
    { destruct k as [|k']; [auto|left]. cbn [iterate] in E.
      destruct (step sim n m H (js (Datatypes.S it)) (damping * (999 / 1000)) p1) as [p2|] eqn:S2; cbn [rbind] in E; [|discriminate].
      unfold step in S2. destruct (forallb _ (vs n)) eqn:F; cbn [negb] in S2; [|discriminate].
      rewrite forallb_forall in F. specialize (F v (proj2 (in_vs n v) V)).
      destruct (fin_pt (p1 v)) as [q|] eqn:Q; [|discriminate]. apply fin_pt_some in Q. rewrite Q. cbn. eauto. }
    destruct Q as [[Q1 Q2]| ->].
    + destruct (IH _ _ _ _ _ E v V Q1 Q2) as [M1 M2]. eauto.
    + cbn [iterate] in E. inversion E. subst. auto.
Qed.

(** ** the box *)
Lemma fold_min_le l : forall x, fold_left Rmin l x <= x /\ (forall y, In y l -> fold_left Rmin l x <= y) /\
  (fold_left Rmin l x = x \/ In (fold_left Rmin l x) l).
Proof.
  induction l as [|y l IH]; intros x; cbn; [repeat split; auto; try lra; tauto|].
  destruct (IH (Rmin x y)) as (A & B & C).
  pose proof (Rmin_l x y). pose proof (Rmin_r x y). repeat split; try lra.
  - intros z [<-|I]; [lra|auto].
  - destruct C as [C|C]; [|auto]. rewrite C. unfold Rmin. destruct Rle_dec; auto.
Qed.
Lemma fold_max_ge l : forall x, x <= fold_left Rmax l x /\ (forall y, In y l -> y <= fold_left Rmax l x) /\
  (fold_left Rmax l x = x \/ In (fold_left Rmax l x) l).
Proof.
  induction l as [|y l IH]; intros x; cbn; [repeat split; auto; try lra; tauto|].
  destruct (IH (Rmax x y)) as (A & B & C).
  pose proof (Rmax_l x y). pose proof (Rmax_r x y). repeat split; try lra.
  - intros z [<-|I]; [lra|auto].
  - destruct C as [C|C]; [|auto]. rewrite C. unfold Rmax. destruct Rle_dec; auto.
Qed.
Lemma lmin_spec l : l <> [] -> In (lmin l) l /\ forall x, In x l -> lmin l <= x.
Proof.
  destruct l as [|x l]; [tauto|intros _]. cbn. destruct (fold_min_le l x) as (A & B & C). split.
  - destruct C; auto.
  - intros y [<-|I]; auto.
Qed.
Lemma lmax_spec l : l <> [] -> In (lmax l) l /\ forall x, In x l -> x <= lmax l.
Proof.
  destruct l as [|x l]; [tauto|intros _]. cbn. destruct (fold_max_ge l x) as (A & B & C). split.
  - destruct C; auto.
  - intros y [<-|I]; auto.
Qed.
Lemma fins_some l r : fins l = Some r -> l = map Fin r.
Proof.
  revert r. induction l as [|x l IH]; cbn; intros r E; [inversion E; auto|].
  destruct x; cbn in E; try discriminate.
  fold (fins l) in E. destruct (fins l) as [r'|]; [|discriminate]. inversion E. subst. cbn. f_equal. auto.
Qed.
Lemma fins_none l : fins l = None -> exists x, In x l /\ forall a, x <> Fin a.
Proof.
  induction l as [|x l IH]; cbn; intros E; [discriminate|].
  destruct (fin_dec x) as [[a ->]|N]; [|exists x; split; auto].
  cbn in E. fold (fins l) in E. destruct (fins l); [discriminate|]. destruct (IH eq_refl) as (y & I & P). eauto.
Qed.
Lemma fins_map r : fins (map (@Fin R) r) = Some r.
Proof. induction r; cbn; auto. fold (fins (map (@Fin R) r)). rewrite IHr. auto. Qed.

(** one column of the layout *)
Definition boxed (n : Z) (x y : Z -> fl R) : Prop :=
  ((forall v, (0 <= v < n)%Z -> y v = NaN) /\
   ((exists v, (0 <= v < n)%Z /\ forall a, x v <> Fin a) \/ (forall v w, (0 <= v < n)%Z -> (0 <= w < n)%Z -> x v = x w))) \/
  ((forall v, (0 <= v < n)%Z -> exists a, y v = Fin a /\ 1 / 10 <= a <= 9 / 10) /\
   (exists v, (0 <= v < n)%Z /\ y v = Fin (1 / 10)) /\ (exists v, (0 <= v < n)%Z /\ y v = Fin (9 / 10)) /\
   (forall v w, (0 <= v < n)%Z -> (0 <= w < n)%Z -> exists a b c d, x v = Fin a /\ x w = Fin b /\ y v = Fin c /\ y w = Fin d /\
      (a <= b <-> c <= d))).
Lemma into_box_ok n (x : Z -> fl R) : (0 < n)%Z -> boxed n x (fun v => into_box (map x (range n)) (x v)).
Proof.
  intros Hn. unfold boxed, into_box.
  assert (IR : forall v, In v (range n) <-> (0 <= v < n)%Z) by (intros; apply (in_vs n)).
  destruct (fins (map x (range n))) as [l|] eqn:F.
  - apply fins_some in F.
    assert (X : forall v, (0 <= v < n)%Z -> exists a, x v = Fin a /\ In a l).
    { intros v V. assert (I : In (x v) (map x (range n))) by (apply in_map, IR; auto). rewrite F in I.
      apply in_map_iff in I. destruct I as (a & <- & I). eauto. }
    assert (X2 : forall a, In a l -> exists v, (0 <= v < n)%Z /\ x v = Fin a).
    { intros a I. assert (J : In (Fin a) (map x (range n))) by (rewrite F; apply in_map; auto).
      apply in_map_iff in J. destruct J as (v & E & J). exists v. rewrite <- IR. auto. }
    assert (NE : l <> []). { intros ->. destruct (X 0%Z) as (a & _ & []). lia. }
    destruct (lmin_spec NE) as [I1 L1]. destruct (lmax_spec NE) as [I2 L2].
    destruct (Req_dec (lmax l) (lmin l)) as [E|N].
    + left. split.
      * intros v V. destruct (X v V) as (a & -> & I). pose proof (L1 a I). pose proof (L2 a I).
        replace (a - lmin l) with 0 by lra. replace (lmax l - lmin l) with 0 by lra.
        unfold fdiv, neqb, nltb. cbn.
        repeat destruct Rle_dec; cbn; auto; lra.
      * right. intros v w V W. destruct (X v V) as (a & -> & I). destruct (X w W) as (b & -> & J).
        pose proof (L1 a I). pose proof (L2 a I). pose proof (L1 b J). pose proof (L2 b J). f_equal. lra.
    + right. assert (D : 0 < lmax l - lmin l) by (pose proof (L2 _ I1); lra).
      assert (S : forall a, fdiv (a - lmin l) (lmax l - lmin l) = Fin ((a - lmin l) * / (lmax l - lmin l))).
      { intros a. unfold fdiv, neqb. cbn. repeat destruct Rle_dec; cbn; try lra; rewrite Rinv0_ne by lra; auto. }
      set (k := / (lmax l - lmin l)) in *.
      assert (K : 0 < k) by (apply Rinv_0_lt_compat; auto).
      assert (K1 : (lmax l - lmin l) * k = 1) by (unfold k; field; lra).
      split; [|split; [|split]].
      * intros v V. destruct (X v V) as (a & -> & I). rewrite S. cbn. eexists. split; [reflexivity|].
        pose proof (L1 a I). pose proof (L2 a I).
        assert (0 <= (a - lmin l) * k) by (apply Rmult_le_pos; lra).
        assert ((a - lmin l) * k <= (lmax l - lmin l) * k) by (apply Rmult_le_compat_r; lra). lra.
      * destruct (X2 _ I1) as (v & V & E). exists v. split; auto. rewrite E, S. cbn. f_equal.
        replace (lmin l - lmin l) with 0 by ring. lra.
      * destruct (X2 _ I2) as (v & V & E). exists v. split; auto. rewrite E, S. cbn. f_equal. lra.
      * intros v w V W. destruct (X v V) as (a & -> & I). destruct (X w W) as (b & -> & J). rewrite !S. cbn.
        exists a, b. do 2 eexists. do 4 (split; [reflexivity|]).
        split; intros Hab.
        -- assert ((a - lmin l) * k <= (b - lmin l) * k) by (apply Rmult_le_compat_r; lra). lra.
        -- assert ((a - lmin l) * k <= (b - lmin l) * k) by lra. apply Rmult_le_reg_r in H; lra.
  - left. split.
    + auto.
    + left. apply fins_none in F. destruct F as (y & I & P). apply in_map_iff in I. destruct I as (v & <- & I).
      exists v. rewrite <- IR. auto.
Qed.

(** ** steps without coinciding points *)
Definition isfin (p : fpt) : Prop := exists q, p = lift_pt q.
Lemma isfin_lift q : isfin (lift_pt q). Proof. exists q. auto. Qed.
Lemma isfin_mul k p : isfin p -> isfin (fpmul (Fin k) p).
Proof. intros [q ->]. exists (k * fst q, k * snd q). reflexivity. Qed.
Lemma isfin_add p q : isfin p -> isfin q -> isfin (fpadd p q).
Proof. intros [a ->] [b ->]. exists (fst a + fst b, snd a + snd b). reflexivity. Qed.
Lemma isfin_sum {A} (l : list A) f : (forall a, In a l -> isfin (f a)) -> isfin (fpsum (map f l)).
Proof.
  induction l as [|a l IH]; intros F; [exists (0, 0); reflexivity|].
  cbn in F. assert (F1 : isfin (f a)) by auto. destruct IH as [q Q]; [auto|].
  destruct F1 as [p P]. exists (fst p + fst q, snd p + snd q).
  unfold fpsum in *. cbn. rewrite P. inversion Q as [[Q1 Q2]]. unfold fsum in *. cbn in *. rewrite Q1, Q2. reflexivity.
Qed.
Lemma isfin_nan p : isfin p -> fp_nan p = false.
Proof. intros [q ->]. reflexivity. Qed.
Lemma vlen_0 q : vlen q = 0 -> q = (0, 0).
Proof.
  intros E. destruct q as [x y]. destruct (Req_dec x 0) as [->|X]; [destruct (Req_dec y 0) as [->|Y]; [auto|]|].
  - pose proof (@norm_pos 0 y ltac:(intros C; inversion C; auto)). unfold vlen in E. cbn [fst snd] in E. lra.
  - pose proof (@norm_pos x y ltac:(intros C; inversion C; auto)). unfold vlen in E. cbn [fst snd] in E. lra.
Qed.
Lemma vlen_nonneg q : 0 <= vlen q.
Proof. apply sqrt_pos. Qed.
Lemma dist_0 a b : dist a b = 0 -> a = b.
Proof. intros E. apply vlen_0 in E. destruct a, b. unfold psub in E. inversion E. f_equal; lra. Qed.
Lemma isfin_repulsion {I} (eqI : I -> I -> bool) (ids : list I) jj pos i :
  (forall k, In k ids -> eqI i k = false -> pos i <> pos k) -> isfin (repulsion eqI ids jj pos i).
Proof.
  intros D. apply isfin_sum. intros k K. destruct (eqI i k) eqn:E; [exists (0, 0); reflexivity|].
  assert (N : dist (pos i) (pos k) <> 0) by (intros C; apply dist_0 in C; apply (D k K E C)).
  assert (N2 : 0 < dist (pos i) (pos k) ^ 2) by (apply pow2_gt_0; auto).
  assert (F : exists s, fdiv 1 (dist (pos i) (pos k) ^ 2) = Fin s).
  { unfold fdiv, neqb. cbn [nleb Ext_R nz Num_R]. destruct (Rle_dec (dist (pos i) (pos k) ^ 2) 0); [lra|]. cbn. eauto. }
  destruct F as [s ->]. apply isfin_mul, isfin_lift.
Qed.
Lemma add_force_fin n f force : (forall v, (0 <= v < n)%Z -> isfin (f v)) -> (forall v, (0 <= v < n)%Z -> isfin (force v)) ->
  exists g, add_force n f force = Ok g /\ forall v, (0 <= v < n)%Z -> isfin (g v).
Proof.
  intros A B. unfold add_force.
  replace (existsb (fun v => fp_nan (f v)) (vs n)) with false.
  - eexists. split; [reflexivity|]. intros v V. apply isfin_add; auto.
  - symmetry. apply not_true_is_false. intros E. apply existsb_exists in E. destruct E as (v & V & E).
    rewrite isfin_nan in E by (apply A; apply in_vs; auto). discriminate.
Qed.

(** finite positions, no two vertices at the same place and, if edges repel each other, no two centres of edges *)
Definition spread (sim : simulator) (n : Z) (m : nat) (H : Z -> nat -> R) (pos : Z -> fpt) : Prop :=
  exists p : Z -> pt, (forall v, (0 <= v < n)%Z -> pos v = lift_pt (p v)) /\
    (forall v w, (0 <= v < n)%Z -> (0 <= w < n)%Z -> v <> w -> p v <> p w) /\
    (s_erep sim = None \/ forall e f, (e < m)%nat -> (f < m)%nat -> e <> f -> e_center n H p e <> e_center n H p f).
Lemma e_center_ext n (H : Z -> nat -> R) p p' e : (forall v, (0 <= v < n)%Z -> p v = p' v) -> e_center n H p e = e_center n H p' e.
Proof.
  intros E.
  assert (S : forall l (f g : Z -> R), (forall v, In v l -> f v = g v) -> sumf l f = sumf l g).
  { intros l f g. induction l; cbn; auto. intros P. f_equal; auto. }
  unfold e_center. cbv zeta.
  f_equal; f_equal; apply S; intros v V; apply in_vs in V; rewrite (E v V); auto.
Qed.
Lemma step_ok sim n m (H : Z -> nat -> R) j damping pos : (0 < m)%nat ->
  (forall e, (e < m)%nat -> sumf (range n) (fun v => H v e) <> 0) -> spread sim n m H pos ->
  exists pos' stop, step sim n m H j damping pos = Ok (pos', stop) /\ forall v, (0 <= v < n)%Z -> isfin (pos' v).
Proof.
  intros M NE (p & P & D & DE). unfold step.
  replace (forallb _ (vs n)) with true.
  2:{ symmetry. apply forallb_forall. intros v V. apply in_vs in V. rewrite (P v V), fin_pt_lift. auto. }
  cbn [negb].
  replace (existsb (e_empty n H) (es m) || Nat.eqb m 0) with false.
  2:{ symmetry. apply orb_false_iff. split; [|apply Nat.eqb_neq; lia]. apply not_true_is_false. intros E.
      apply existsb_exists in E. destruct E as (e & I & E). apply in_seq in I. unfold e_empty in E.
      destruct (Req_EM_T (sumf (vs n) (fun v => H v e)) 0) as [Z0|]; [|discriminate]. apply (NE e); auto. lia. }
  cbv zeta.
  set (q := fun v => match fin_pt (pos v) with Some x => x | None => (0, 0) end).
  assert (Q : forall v, (0 <= v < n)%Z -> q v = p v) by (intros v V; unfold q; rewrite (P v V), fin_pt_lift; auto).
  assert (QD : forall v w, (0 <= v < n)%Z -> (0 <= w < n)%Z -> v <> w -> q v <> q w) by (intros; rewrite !Q by auto; auto).
  clearbody q.
  assert (F0 : forall v, (0 <= v < n)%Z -> isfin ((fun _ : Z => (Fin 0, Fin 0)) v)) by (intros; exists (0, 0); reflexivity).
  assert (W : forall {A} (o : option A) g force,
             (forall v, (0 <= v < n)%Z -> isfin (force v)) ->
             (forall a, o = Some a -> exists r, g a force = Ok r /\ forall v, (0 <= v < n)%Z -> isfin (r v)) ->
             exists r, when o g force = Ok r /\ forall v, (0 <= v < n)%Z -> isfin (r v)).
  { intros A [a|] g force F G; cbn; eauto. }
  match goal with |- context [rbind ?x _] => assert (E1 : exists r, x = Ok r /\ forall v, (0 <= v < n)%Z -> isfin (r v)) end.
  { apply W; auto. intros k _. apply add_force_fin; auto. intros. apply isfin_mul, isfin_lift. }
  destruct E1 as (f1 & -> & F1). cbn [rbind].
  match goal with |- context [rbind ?x _] => assert (E1 : exists r, x = Ok r /\ forall v, (0 <= v < n)%Z -> isfin (r v)) end.
  { apply W; auto. intros l _. apply add_force_fin; auto. intros v V. apply isfin_mul.
    apply isfin_repulsion. intros k K E. apply in_vs in K. apply Z.eqb_neq in E. auto. }
  destruct E1 as (f2 & -> & F2). cbn [rbind].
  match goal with |- context [rbind ?x _] => assert (E1 : exists r, x = Ok r /\ forall v, (0 <= v < n)%Z -> isfin (r v)) end.
  { apply W; auto. intros k K. destruct DE as [DE|DE]; [congruence|]. apply add_force_fin; auto. intros v V.
    apply isfin_mul. apply isfin_sum. intros e E. apply in_seq in E. apply isfin_mul. apply isfin_repulsion.
    intros f F N. apply in_seq in F. apply Nat.eqb_neq in N.
    rewrite !(@e_center_ext n H q p) by auto. apply DE; lia. }
  destruct E1 as (f3 & -> & F3). cbn [rbind].
  match goal with |- context [rbind ?x _] => assert (E1 : exists r, x = Ok r /\ forall v, (0 <= v < n)%Z -> isfin (r v)) end.
  { apply W; auto. intros l _. generalize (gravity_parts sim l) f3 F3. clear.
    induction l as [|x l IH]; intros f F; cbn [fold_left]; [eauto|].
    cbn [rbind]. destruct (@add_force_fin n (gravity_force j q x) f) as (g & -> & G); auto.
    intros v V. destruct x as [[[c ctr] g] mask]. apply isfin_mul, isfin_lift. }
  destruct E1 as (f4 & -> & F4). cbn [rbind].
  do 2 eexists. split; [reflexivity|]. intros v V. destruct (F4 v V) as [w Hw]. rewrite Hw, (P v V). cbn. eexists (_, _). reflexivity.
Qed.

(** the positions at the start of some iteration *)
Inductive visited (sim : simulator) (n : Z) (m : nat) (H : Z -> nat -> R) (js : nat -> draws) (init : Z -> fpt)
  : nat -> R -> (Z -> fpt) -> Prop :=
| Visit0 : visited sim n m H js init 0 1 init
| VisitS it damping pos pos' : visited sim n m H js init it damping pos ->
    step sim n m H (js it) damping pos = Ok (pos', false) -> visited sim n m H js init (S it) (damping * (999 / 1000)) pos'.
Lemma iterate_ok sim n m (H : Z -> nat -> R) js init : (0 < m)%nat ->
  (forall e, (e < m)%nat -> sumf (range n) (fun v => H v e) <> 0) ->
  (forall it d pos, visited sim n m H js init it d pos -> spread sim n m H pos) ->
  forall k it d pos, visited sim n m H js init it d pos ->
  exists pos', iterate sim n m H k it js d pos = Ok pos' /\ forall v, (0 <= v < n)%Z -> isfin (pos' v).
Proof.
  intros M NE SP. induction k as [|k IH]; intros it d pos V; cbn [iterate].
  - exists pos. split; auto. destruct (SP _ _ _ V) as (p & P & _). intros v Hv. rewrite P by auto. apply isfin_lift.
  - destruct (@step_ok sim n m H (js it) d pos M NE (SP _ _ _ V)) as (pos' & stop & E & F). rewrite E. cbn [rbind].
    destruct stop; [eauto|]. apply IH. econstructor; eauto.
Qed.

(** ** tangents *)
Lemma vlen_norm q : vlen q = norm q.
Proof. unfold vlen, norm, dot. f_equal. ring. Qed.
Lemma norm_scaled r u : 0 <= r -> dot u u = 1 -> norm (r * fst u, r * snd u) = r.
Proof.
  intros Hr E. unfold norm, dot in *. cbn [fst snd].
  replace (r * fst u * (r * fst u) + r * snd u * (r * snd u)) with (r * r * (fst u * fst u + snd u * snd u)) by ring.
  rewrite E, Rmult_1_r. apply sqrt_square; auto.
Qed.
Lemma tangent_line p1 p2 r1 r2 alpha : 0 <= r1 -> 0 <= r2 -> p1 <> p2 -> Rabs (r1 - r2) <= norm (vec p1 p2) ->
  common_tangent_radian r1 r2 (norm (vec p1 p2)) = Ok alpha ->
  let theta := radian_from_atan (fst p2 - fst p1) (snd p2 - snd p1) - alpha in
  outer_tangent p1 r1 p2 r2 (polar_position r1 theta p1) (polar_position r2 theta p2).
Proof.
  intros R1 R2 Np L E theta.
  set (dx := fst p2 - fst p1) in *. set (dy := snd p2 - snd p1) in *.
  assert (D : (dx, dy) <> (0, 0)).
  { intros C. apply Np. destruct p1, p2. inversion C. unfold dx, dy in *. cbn in *. f_equal; lra. }
  assert (V : norm (vec p1 p2) = sqrt (dx ^ 2 + dy ^ 2)) by (unfold norm, dot, vec; cbn [fst snd]; fold dx dy; f_equal; ring).
  assert (P : 0 < sqrt (dx ^ 2 + dy ^ 2)) by (apply norm_pos; auto).
  destruct (radian_from_atan_ok D) as (_ & EX & EY).
  rewrite V in *. set (d := sqrt (dx ^ 2 + dy ^ 2)) in *.
  destruct (@tangent_ok r1 r2 d) as (a & Ea & B & C); auto. rewrite Ea in E. inversion E. subst a. clear E Ea.
  set (beta := radian_from_atan dx dy) in *.
  assert (U : dot (cos theta, sin theta) (cos theta, sin theta) = 1).
  { unfold dot. cbn [fst snd]. pose proof (sin2_cos2 theta) as S. unfold Rsqr in S. lra. }
  assert (S0 : 0 <= sin alpha) by (apply sin_ge_0; lra).
  assert (DT : dx * cos theta + dy * sin theta = r1 - r2).
  { rewrite EX, EY. replace (d * cos beta * cos theta + d * sin beta * sin theta) with (d * (cos beta * cos theta + sin beta * sin theta)) by ring.
    rewrite <- cos_minus. replace (beta - theta) with alpha by (unfold theta; ring). auto. }
  assert (CR : dx * sin theta - dy * cos theta = - (d * sin alpha)).
  { rewrite EX, EY. replace (d * cos beta * sin theta - d * sin beta * cos theta) with (- (d * (sin beta * cos theta - cos beta * sin theta))) by ring.
    rewrite <- sin_minus. replace (beta - theta) with alpha by (unfold theta; ring). auto. }
  assert (V1 : vec p1 (polar_position r1 theta p1) = (r1 * fst (cos theta, sin theta), r1 * snd (cos theta, sin theta))).
  { unfold vec, polar_position. cbn [fst snd]. f_equal; ring. }
  assert (V2 : vec p2 (polar_position r2 theta p2) = (r2 * fst (cos theta, sin theta), r2 * snd (cos theta, sin theta))).
  { unfold vec, polar_position. cbn [fst snd]. f_equal; ring. }
  assert (VL : vec (polar_position r1 theta p1) (polar_position r2 theta p2) = (dx + (r2 - r1) * cos theta, dy + (r2 - r1) * sin theta)).
  { unfold vec, polar_position, dx, dy. cbn [fst snd]. f_equal; ring. }
  assert (Perp : (dx + (r2 - r1) * cos theta) * cos theta + (dy + (r2 - r1) * sin theta) * sin theta = 0).
  { pose proof U as U'. unfold dot in U'. cbn [fst snd] in U'.
    replace ((dx + (r2 - r1) * cos theta) * cos theta + (dy + (r2 - r1) * sin theta) * sin theta)
      with ((dx * cos theta + dy * sin theta) + (r2 - r1) * (cos theta * cos theta + sin theta * sin theta)) by ring.
    rewrite U', DT. ring. }
  assert (DA : 0 <= d * sin alpha) by (apply Rmult_le_pos; lra).
  assert (CP : forall r, 0 <= r -> cross (vec p1 p2) (r * fst (cos theta, sin theta), r * snd (cos theta, sin theta)) <= 0).
  { intros r Hr. unfold cross, vec. cbn [fst snd]. fold dx dy.
    replace (dx * (r * sin theta) - dy * (r * cos theta)) with (- (r * - (dx * sin theta - dy * cos theta))) by ring.
    rewrite CR. assert (0 <= r * (d * sin alpha)) by (apply Rmult_le_pos; auto). lra. }
  unfold outer_tangent, touches. rewrite VL, V1, V2. repeat split.
  - apply norm_scaled; auto.
  - unfold dot. cbn [fst snd].
    replace ((dx + (r2 - r1) * cos theta) * (r1 * cos theta) + (dy + (r2 - r1) * sin theta) * (r1 * sin theta))
      with (r1 * ((dx + (r2 - r1) * cos theta) * cos theta + (dy + (r2 - r1) * sin theta) * sin theta)) by ring. rewrite Perp. ring.
  - apply norm_scaled; auto.
  - unfold dot. cbn [fst snd].
    replace ((dx + (r2 - r1) * cos theta) * (r2 * cos theta) + (dy + (r2 - r1) * sin theta) * (r2 * sin theta))
      with (r2 * ((dx + (r2 - r1) * cos theta) * cos theta + (dy + (r2 - r1) * sin theta) * sin theta)) by ring. rewrite Perp. ring.
  - auto.
  - auto.
  - exists (cos theta, sin theta). auto.
Qed.

(** ** outlines *)
Lemma cyc_small {A} (d : A) l i : (i < length l)%nat -> cyc d l i = nth i l d.
Proof. intros L. unfold cyc. rewrite Nat.mod_small; auto. Qed.
Lemma nth_next {A} (d : A) l i : (i < length l)%nat -> nth i (tl l ++ firstn 1 l) d = cyc d l (i + 1).
Proof.
  intros L. unfold cyc. destruct l as [|x l]; [cbn in L; lia|]. cbn [tl firstn length] in *.
  destruct (Nat.eq_dec i (length l)) as [->|N].
  - rewrite app_nth2, Nat.sub_diag by lia. replace (length l + 1)%nat with (S (length l)) by lia. rewrite Nat.mod_same by lia. reflexivity.
  - rewrite app_nth1 by lia. rewrite Nat.mod_small by lia. replace (i + 1)%nat with (S i) by lia. reflexivity.
Qed.
Lemma nth_prev {A} (d : A) l i : (i < length l)%nat ->
  nth i (skipn (length l - 1) l ++ firstn (length l - 1) l) d = cyc d l (i + length l - 1).
Proof.
  intros L. unfold cyc. set (n := length l) in *. assert (K : length (skipn (n - 1) l) = 1%nat) by (rewrite skipn_length; fold n; lia).
  destruct i as [|i].
  - rewrite app_nth1 by lia. replace (0 + n - 1)%nat with (n - 1)%nat by lia. rewrite Nat.mod_small by lia.
    rewrite <- (firstn_skipn (n - 1) l) at 2. rewrite app_nth2 by (rewrite firstn_length; lia).
    rewrite firstn_length. fold n. replace (n - 1 - Nat.min (n - 1) n)%nat with 0%nat by lia. auto.
  - rewrite app_nth2 by lia. rewrite K. replace (S i - 1)%nat with i by lia.
    replace (S i + n - 1)%nat with (i + 1 * n)%nat by lia. rewrite Nat.mod_add by lia. rewrite Nat.mod_small by lia.
    rewrite <- (firstn_skipn (n - 1) l) at 2. rewrite app_nth1; auto. rewrite firstn_length. fold n. lia.
Qed.
Lemma Forall2_nth_both {A B} (P : A -> B -> Prop) l r : Forall2 P l r -> length l = length r /\
  forall i da db, (i < length l)%nat -> P (nth i l da) (nth i r db).
Proof.
  induction 1 as [|a b l r Hab F [E IH]]; cbn; split; auto; try (intros; lia).
  intros [|i] da db L; auto. apply IH. lia.
Qed.
Lemma polar_on_circle c r t : on_circle c r (rad_2_deg t) = polar_position r t c.
Proof.
  unfold on_circle, polar_position, rad_2_deg. replace (t * 180 / PI * PI / 180) with t by (field; apply PI_neq0).
  f_equal; ring.
Qed.
Lemma common_tangent_inv r1 r2 d alpha : 0 <= d -> common_tangent_radian r1 r2 d = Ok alpha -> 0 < d /\ Rabs (r1 - r2) <= d.
Proof.
  intros D E. unfold common_tangent_radian in E. destruct (Req_EM_T d 0); [discriminate|].
  destruct (Rlt_dec 1 (Rabs (r2 - r1) / d)) as [|N]; [discriminate|]. split; [lra|].
  rewrite Rabs_minus_sym. apply Rnot_lt_le in N. apply Rmult_le_compat_r with (r := d) in N; [|lra].
  unfold Rdiv in N. rewrite Rmult_assoc, Rinv_l in N by auto. lra.
Qed.
Lemma combine_nth_lt {A B} (l : list A) (r : list B) da db i : length l = length r ->
  nth i (combine l r) (da, db) = (nth i l da, nth i r db).
Proof. apply combine_nth. Qed.

Section HullFacts.
  Variables (n : Z) (pos : Z -> pt).
  Lemma outline_closed radius ix ls : (forall v, 0 <= radius v) -> tangents pos radius ix = Ok ls ->
    closed_outline (map pos ix) (map radius ix) (map fst ls) (arcs pos radius ix (map snd ls)).
  Proof.
    intros Rp E. unfold tangents in E. apply map_res_inv in E.
    assert (LN : length (tl ix ++ firstn 1 ix) = length ix) by (destruct ix; cbn; rewrite ?app_length; cbn; lia).
    destruct (Forall2_nth_both E) as [LE F]. rewrite combine_length, LN, Nat.min_id in LE, F.
    set (th := map snd ls). assert (LT : length th = length ix) by (unfold th; rewrite map_length; auto).
    set (pv := skipn (length th - 1) th ++ firstn (length th - 1) th).
    assert (LP : length pv = length ix).
    { unfold pv. rewrite app_length, skipn_length, firstn_length. lia. }
    unfold closed_outline. cbv zeta.
    assert (LA : length (arcs pos radius ix th) = length ix).
    { unfold arcs. fold pv. rewrite map_length, !combine_length. lia. }
    rewrite !map_length. repeat split; auto.
    intros i L.
    assert (G : forall i, (i < length ix)%nat ->
      exists s t theta alpha, nth i ls ((0,0),(0,0),0) = (s, t, theta) /\
        let i1 := nth i ix 0%Z in let i2 := cyc 0%Z ix (i + 1) in
        let dp := psub (pos i2) (pos i1) in
        common_tangent_radian (radius i1) (radius i2) (vlen dp) = Ok alpha /\
        theta = radian_from_atan (fst dp) (snd dp) - alpha /\
        s = polar_position (radius i1) theta (pos i1) /\ t = polar_position (radius i2) theta (pos i2)).
    { clear i L. intros i L. specialize (F i (0%Z, 0%Z) ((0,0),(0,0),0) L). rewrite combine_nth in F by auto.
      rewrite nth_next in F by auto. cbv beta iota zeta in F.
      match type of F with rbind ?x _ = _ => destruct x as [alpha|] eqn:A; cbn [rbind] in F; [|discriminate] end.
      inversion F as [F']. eexists _, _, _, alpha. split; [reflexivity|]. cbv zeta. auto. }
    assert (CM : forall {A B} (f : A -> B) (l : list A) (da : A) (db : B) k, (0 < length l)%nat -> cyc db (map f l) k = f (cyc da l k)).
    { intros A B f l da db k Hl. unfold cyc. rewrite map_length.
      rewrite (nth_indep _ db (f da)) by (rewrite map_length; apply Nat.mod_upper_bound; lia). apply map_nth. }
    assert (L0 : (0 < length ix)%nat) by lia.
    destruct (G i L) as (s & t & theta & alpha & E1 & A & Th & Es & Et).
    rewrite (CM _ _ fst ls ((0,0),(0,0),0) ((0,0),(0,0)) i) by lia. rewrite (cyc_small _ ls) by lia. rewrite E1. cbn [fst].
    rewrite !(CM _ _ pos ix 0%Z (0,0)) by lia. rewrite !(CM _ _ radius ix 0%Z 0) by lia.
    rewrite (cyc_small _ ix) by lia.
    rewrite cyc_small by lia. unfold arcs. fold pv.
    set (fa := fun '(i0, (t1, t2)) => (pos i0, rad_2_deg t1, rad_2_deg t2, radius i0) : arc).
    rewrite (nth_indep _ _ (fa (0%Z, (0, 0)))) by (rewrite map_length, !combine_length; lia).
    rewrite map_nth. rewrite combine_nth by (rewrite combine_length; lia). rewrite combine_nth by lia. cbn [fa].
    assert (Hth : nth i th 0 = theta).
    { unfold th. rewrite (nth_indep _ 0 (snd ((0,0),(0,0),0))) by (rewrite map_length; lia). rewrite map_nth, E1. auto. }
    rewrite Hth.
    split; [|repeat split].
    - subst s t. cbv zeta in A. set (i1 := nth i ix 0%Z) in *. set (i2 := cyc 0%Z ix (i + 1)) in *.
      rewrite vlen_norm in A. change (psub (pos i2) (pos i1)) with (vec (pos i1) (pos i2)) in A.
      destruct (@common_tangent_inv _ _ _ _ (sqrt_pos _) A) as [Dp Dr].
      rewrite Th. unfold psub. cbn [fst snd].
      apply tangent_line; auto.
      intros C. rewrite C in Dp. unfold norm, dot, vec in Dp. cbn [fst snd] in Dp.
      replace ((fst (pos i2) - fst (pos i2)) * (fst (pos i2) - fst (pos i2)) + (snd (pos i2) - snd (pos i2)) * (snd (pos i2) - snd (pos i2))) with 0 in Dp by ring.
      rewrite sqrt_0 in Dp. lra.
    - rewrite polar_on_circle. unfold pv. rewrite nth_prev by lia. rewrite LT.
      rewrite (CM _ _ fst ls ((0,0),(0,0),0) ((0,0),(0,0))) by lia.
      unfold th. rewrite (CM _ _ snd ls ((0,0),(0,0),0) 0) by lia.
      set (k := ((i + length ix - 1) mod length ix)%nat).
      assert (Lk : (k < length ix)%nat) by (apply Nat.mod_upper_bound; lia).
      unfold cyc. rewrite <- LE. fold k. destruct (G k Lk) as (s' & t' & theta' & alpha' & E2 & _ & _ & _ & Et').
      rewrite E2. cbn [fst snd]. rewrite Et'.
      assert (Ki : cyc 0%Z ix (k + 1) = nth i ix 0%Z).
      { unfold cyc, k. rewrite Nat.add_mod_idemp_l by lia. replace (i + length ix - 1 + 1)%nat with (i + 1 * length ix)%nat by lia.
        rewrite Nat.mod_add by lia. rewrite Nat.mod_small by lia. auto. }
      rewrite Ki. auto.
    - rewrite polar_on_circle. auto.
  Qed.
End HullFacts.
