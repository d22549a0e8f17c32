(** C134-C136: embeddings in the Poincare ball and on the plot. *)
From Coq Require Import Reals Lra Psatz.
From Verif Require Import Num PyDict ModelBase ModelConv ModelUtils ModelMetrics ModelVis RealFacts UtilFacts SpecVis VisFacts ModelEmbed.
Set Implicit Arguments.
Local Open Scope R_scope.

(** ** facts about tanh *)
Lemma tanh_exp x : tanh x = (exp x - exp (- x)) / (exp x + exp (- x)).
Proof. unfold tanh, sinh, cosh. pose proof (exp_pos x). pose proof (exp_pos (- x)). field. lra. Qed.
Lemma tanh_lt_1 x : tanh x < 1.
Proof.
  rewrite tanh_exp. pose proof (exp_pos x). pose proof (exp_pos (- x)).
  apply Rmult_lt_reg_r with (exp x + exp (- x)); [lra|]. unfold Rdiv. rewrite Rmult_assoc, Rinv_l by lra. lra.
Qed.
Lemma tanh_pos x : 0 < x -> 0 < tanh x.
Proof.
  intros P. rewrite tanh_exp. pose proof (exp_pos x). pose proof (exp_pos (- x)).
  assert (exp (- x) < exp x) by (apply exp_increasing; lra). apply Rdiv_lt_0_compat; lra.
Qed.
Lemma arctanh_tanh x : arctanh (tanh x) = x.
Proof.
  unfold arctanh. rewrite tanh_exp. pose proof (exp_pos x). pose proof (exp_pos (- x)).
  replace ((1 + (exp x - exp (- x)) / (exp x + exp (- x))) / (1 - (exp x - exp (- x)) / (exp x + exp (- x))))
    with (exp x * / exp (- x)) by (field; lra).
  rewrite <- exp_Ropp, <- exp_plus, ln_exp. field.
Qed.
(** tanh grows: bounds by way of exp (2 x) *)
Lemma tanh_le x e : exp (2 * x) <= (1 + e) / (1 - e) -> 0 <= e < 1 -> tanh x <= e.
Proof.
  intros L B. rewrite tanh_exp. pose proof (exp_pos x). pose proof (exp_pos (- x)).
  assert (E : exp (2 * x) * exp (- x) = exp x) by (rewrite <- exp_plus; f_equal; ring).
  apply Rmult_le_reg_r with (exp x + exp (- x)); [lra|]. unfold Rdiv at 1. rewrite Rmult_assoc, Rinv_l by lra.
  apply Rmult_le_compat_r with (r := (1 - e) * exp (- x)) in L; [|apply Rmult_le_pos; lra].
  replace ((1 + e) / (1 - e) * ((1 - e) * exp (- x))) with ((1 + e) * exp (- x)) in L by (field; lra).
  replace (exp (2 * x) * ((1 - e) * exp (- x))) with ((1 - e) * (exp (2 * x) * exp (- x))) in L by ring.
  rewrite E in L. lra.
Qed.
Lemma tanh_ge x : 0 <= x <= 1 -> x / 2 <= tanh x.
Proof.
  (* exp (2 x) >= 1 + 2 x >= (1 + x/2) / (1 - x/2) *)
  intros B. rewrite tanh_exp. pose proof (exp_pos x). pose proof (exp_pos (- x)).
  assert (E : exp (2 * x) * exp (- x) = exp x) by (rewrite <- exp_plus; f_equal; ring).
  assert (L : 1 + 2 * x <= exp (2 * x)).
  { destruct (Req_dec x 0) as [->|N]; [rewrite Rmult_0_r, exp_0; lra|]. left. apply exp_ineq1. lra. }
  apply Rmult_le_reg_r with (exp x + exp (- x)); [lra|]. unfold Rdiv at 2. rewrite Rmult_assoc, Rinv_l by lra.
  rewrite <- E. assert (0 <= (exp (2 * x) * (1 - x / 2) - (1 + x / 2)) * exp (- x)); [|lra].
  apply Rmult_le_pos; [|lra]. assert ((1 + 2 * x) * (1 - x / 2) <= exp (2 * x) * (1 - x / 2)) by (apply Rmult_le_compat_r; lra). nra.
Qed.
Lemma tanh_mono x y : x <= y -> tanh x <= tanh y.
Proof.
  intros L. rewrite !tanh_exp. pose proof (exp_pos x). pose proof (exp_pos (- x)). pose proof (exp_pos y). pose proof (exp_pos (- y)).
  assert (exp x <= exp y) by (destruct L as [L| ->]; [left; apply exp_increasing; auto|lra]).
  assert (exp (- y) <= exp (- x)) by (destruct L as [L| ->]; [left; apply exp_increasing; lra|lra]).
  apply Rmult_le_reg_r with ((exp x + exp (- x)) * (exp y + exp (- y))); [apply Rmult_lt_0_compat; lra|].
  replace ((exp x - exp (- x)) / (exp x + exp (- x)) * ((exp x + exp (- x)) * (exp y + exp (- y))))
    with ((exp x - exp (- x)) * (exp y + exp (- y))) by (field; lra).
  replace ((exp y - exp (- y)) / (exp y + exp (- y)) * ((exp x + exp (- x)) * (exp y + exp (- y))))
    with ((exp y - exp (- y)) * (exp x + exp (- x))) by (field; lra).
  assert (exp x * exp (- y) <= exp y * exp (- x)) by (apply Rmult_le_compat; lra). lra.
Qed.

(** ** rows *)
Lemma sq_nonneg (x : list R) : 0 <= sumf x (fun a => a * a).
Proof. apply Rsum_nonneg. intros. nra. Qed.
Lemma row_norm_nonneg x : 0 <= row_norm x. Proof. apply sqrt_pos. Qed.
Lemma sumf_map_sq (x : list R) k : sumf (map (fun a => k * a) x) (fun a => a * a) = k * k * sumf x (fun a => a * a).
Proof. induction x as [|a x IH]; cbn; [ring|]. cbn in IH. rewrite IH. ring. Qed.
Lemma row_norm_scale x k : 0 <= k -> row_norm (map (fun a => k * a) x) = k * row_norm x.
Proof.
  intros K. unfold row_norm. rewrite sumf_map_sq. rewrite sqrt_mult; [|nra|apply sq_nonneg]. rewrite sqrt_square; auto.
Qed.
Lemma min_norm_pos : 0 < min_norm. Proof. unfold min_norm. apply Rinv_0_lt_compat. apply pow_lt. lra. Qed.
Lemma min_norm_small : min_norm <= 1 / 1000.
Proof.
  unfold min_norm. replace (1 / 1000) with (/ 10 ^ 3) by lra. apply Rinv_le_contravar; [apply pow_lt; lra|]. apply Rle_pow; [lra|lia].
Qed.
Lemma clipped_pos x : 0 < clipped_norm x.
Proof. unfold clipped_norm. pose proof min_norm_pos. pose proof (Rmax_r (row_norm x) min_norm). lra. Qed.
Lemma tanh15_pos k : 0 < k -> 0 < tanh15 k < 1.
Proof.
  intros P. unfold tanh15. split; [|apply tanh_lt_1]. apply tanh_pos. unfold Rmax, Rmin. repeat destruct Rle_dec; lra.
Qed.
Lemma expmap0_scale c u : expmap0 c u = map (fun a => tanh15 (sqrt c * clipped_norm u) / (sqrt c * clipped_norm u) * a) u.
Proof. unfold expmap0. apply map_ext. intros a. unfold Rdiv. ring. Qed.

(** ** C134: the ball *)
(** Every vector is mapped into the open ball of radius 1 / sqrt c, in its own direction. *)
Theorem C134_into_ball c u : 0 < c ->
  row_norm (expmap0 c u) < 1 / sqrt c /\ exists k, 0 < k /\ expmap0 c u = map (fun a => k * a) u.
Proof.
  intros C. assert (S : 0 < sqrt c) by (apply sqrt_lt_R0; auto). pose proof (clipped_pos u) as P.
  assert (K : 0 < sqrt c * clipped_norm u) by (apply Rmult_lt_0_compat; auto).
  destruct (tanh15_pos K) as [T0 T1].
  set (t := tanh15 (sqrt c * clipped_norm u)) in *.
  assert (Kp : 0 < t / (sqrt c * clipped_norm u)) by (apply Rdiv_lt_0_compat; auto).
  rewrite expmap0_scale. fold t. split; [|eauto].
  rewrite row_norm_scale by lra.
  assert (L : row_norm u <= clipped_norm u) by apply Rmax_l.
  assert (A : t / (sqrt c * clipped_norm u) * row_norm u <= t / (sqrt c * clipped_norm u) * clipped_norm u) by (apply Rmult_le_compat_l; lra).
  replace (t / (sqrt c * clipped_norm u) * clipped_norm u) with (t * (1 / sqrt c)) in A by (field; lra).
  assert (0 < 1 / sqrt c) by (apply Rdiv_lt_0_compat; lra).
  assert (t * (1 / sqrt c) < 1 * (1 / sqrt c)) by (apply Rmult_lt_compat_r; auto). lra.
Qed.
(** [proj] keeps the points of the ball of radius (1 - 1e-5) / sqrt c and moves the others onto its rim, in their own
    direction. *)
Theorem C134_proj c x : 0 < c -> let m := (1 - 1 / 100000) / sqrt c in
  row_norm (proj c x) <= Rmax m (1 / 10 ^ 15) /\
  (row_norm x <= m -> 1 / 10 ^ 15 <= m -> proj c x = x) /\
  (m < row_norm x -> 1 / 10 ^ 15 <= m -> row_norm (proj c x) = m /\ exists k, 0 < k /\ proj c x = map (fun a => k * a) x).
Proof.
  intros C m. assert (S : 0 < sqrt c) by (apply sqrt_lt_R0; auto).
  assert (Mp : 0 < m) by (apply Rdiv_lt_0_compat; lra).
  replace (1 / 10 ^ 15) with min_norm by (unfold min_norm; lra).
  unfold proj. cbv zeta. unfold eps. fold m.
  pose proof (clipped_pos x) as P.
  assert (L : row_norm x <= clipped_norm x) by apply Rmax_l.
  assert (EM : map (fun a => a / clipped_norm x * m) x = map (fun a => (m / clipped_norm x) * a) x) by (apply map_ext; intros; field; lra).
  assert (Kp : 0 < m / clipped_norm x) by (apply Rdiv_lt_0_compat; auto).
  pose proof (Rmax_l m min_norm) as M1. pose proof (Rmax_r m min_norm) as M2. split; [|split].
  - destruct (Rlt_dec m (clipped_norm x)) as [G|G].
    + rewrite EM, row_norm_scale by lra.
      assert (m / clipped_norm x * row_norm x <= m / clipped_norm x * clipped_norm x) by (apply Rmult_le_compat_l; lra).
      replace (m / clipped_norm x * clipped_norm x) with m in H by (field; lra). lra.
    + lra.
  - intros L1 L2. destruct (Rlt_dec m (clipped_norm x)) as [G|G]; auto. exfalso. unfold clipped_norm, Rmax in G. destruct Rle_dec; lra.
  - intros L1 L2. destruct (Rlt_dec m (clipped_norm x)) as [G|G]; [|lra].
    rewrite EM. split; [|eauto]. rewrite row_norm_scale by lra.
    assert (E : clipped_norm x = row_norm x) by (unfold clipped_norm, Rmax; destruct Rle_dec; lra).
    rewrite E. field. rewrite <- E. lra.
Qed.
(** [logmap0] undoes [expmap0] on every vector whose norm is neither tiny nor beyond the clamp. *)
Theorem C134_inverse c u : 0 < c -> 1 / 10 ^ 15 <= row_norm u -> sqrt c * row_norm u <= 15 ->
  sqrt c / 10 ^ 15 <= tanh (sqrt c * row_norm u) -> logmap0 c (expmap0 c u) = u.
Proof.
  intros C L1 L2 L3. assert (S : 0 < sqrt c) by (apply sqrt_lt_R0; auto).
  replace (1 / 10 ^ 15) with min_norm in L1 by (unfold min_norm; lra).
  replace (sqrt c / 10 ^ 15) with (sqrt c * min_norm) in L3 by (unfold min_norm; lra).
  pose proof min_norm_pos as MP.
  assert (E : clipped_norm u = row_norm u) by (unfold clipped_norm, Rmax; destruct Rle_dec; lra).
  set (r := row_norm u) in *. set (k := sqrt c * r) in *.
  assert (K : 0 < k) by (apply Rmult_lt_0_compat; lra).
  assert (T : tanh15 k = tanh k) by (unfold tanh15; f_equal; unfold Rmin, Rmax; repeat destruct Rle_dec; lra).
  assert (T0 : 0 < tanh k) by (apply tanh_pos; auto).
  assert (EN : row_norm (expmap0 c u) = tanh k / sqrt c).
  { rewrite expmap0_scale, E. fold r. fold k. rewrite T, row_norm_scale by (left; apply Rdiv_lt_0_compat; auto).
    fold r. unfold k. field. split; lra. }
  assert (EC : clipped_norm (expmap0 c u) = tanh k / sqrt c).
  { unfold clipped_norm. rewrite EN. unfold Rmax. destruct Rle_dec as [G|]; auto.
    apply Rmult_le_compat_l with (r := sqrt c) in G; [|lra]. replace (sqrt c * (tanh k / sqrt c)) with (tanh k) in G by (field; lra).
    apply Rmult_eq_reg_l with (sqrt c); [|lra]. replace (sqrt c * (tanh k / sqrt c)) with (tanh k) by (field; lra). lra. }
  unfold logmap0. rewrite EC. cbv zeta.
  replace (sqrt c * (tanh k / sqrt c)) with (tanh k) by (field; lra). rewrite arctanh_tanh.
  rewrite expmap0_scale, E. fold r. fold k. rewrite T, map_map.
  rewrite <- (map_id u) at 2. apply map_ext. intros a. unfold k. field. unfold k in T0. repeat split; lra.
Qed.

(** ** C135: what the ball does to the drawing *)
Lemma exp2_bound x : x <= 11 / 2 -> exp (2 * x) <= 177147.
Proof.
  intros L. assert (exp (2 * x) <= exp 11).
  { destruct (Req_dec (2 * x) 11) as [->|N]; [lra|left; apply exp_increasing; lra]. }
  assert (E : exp 11 = exp 1 ^ 11).
  { replace 11 with (1 + 1 + 1 + 1 + 1 + 1 + 1 + 1 + 1 + 1 + 1) at 1 by ring. rewrite !exp_plus. ring. }
  pose proof exp_le_3 as E3. pose proof (exp_pos 1).
  assert (exp 1 ^ 11 <= 3 ^ 11) by (apply pow_incr; lra). lra.
Qed.
Lemma sqrt2_bounds : 14 / 10 <= sqrt 2 <= 15 / 10.
Proof.
  split.
  - rewrite <- (sqrt_square (14 / 10)) by lra. apply sqrt_le_1; lra.
  - rewrite <- (sqrt_square (15 / 10)) by lra. apply sqrt_le_1; lra.
Qed.
(** in a ball of curvature 2 no vector of norm at most 3.5 is moved by [proj] *)
Lemma proj_idle u : row_norm u <= 35 / 10 -> proj 2 (expmap0 2 u) = expmap0 2 u.
Proof.
  intros L. pose proof sqrt2_bounds as S.
  destruct (@C134_proj 2 (expmap0 2 u) ltac:(lra)) as (_ & Keep & _).
  assert (M : 1 / 10 ^ 15 <= (1 - 1 / 100000) / sqrt 2).
  { apply Rmult_le_reg_r with (sqrt 2); [lra|]. unfold Rdiv at 2. rewrite Rmult_assoc, Rinv_l by lra.
    pose proof min_norm_small as E. unfold min_norm in E. assert (1 / 10 ^ 15 * sqrt 2 <= 1 / 1000 * 2) by (apply Rmult_le_compat; lra). lra. }
  apply Keep; auto.
  pose proof (clipped_pos u) as P.
  assert (Cl : clipped_norm u <= 35 / 10).
  { unfold clipped_norm, Rmax. pose proof min_norm_small. destruct Rle_dec; lra. }
  rewrite expmap0_scale. set (k := sqrt 2 * clipped_norm u).
  assert (K : 0 < k) by (apply Rmult_lt_0_compat; lra).
  assert (K5 : k <= 11 / 2). { unfold k. assert (sqrt 2 * clipped_norm u <= 15 / 10 * (35 / 10)) by (apply Rmult_le_compat; lra). lra. }
  assert (T : tanh15 k = tanh k) by (unfold tanh15; f_equal; unfold Rmin, Rmax; repeat destruct Rle_dec; lra).
  rewrite T. assert (T0 : 0 < tanh k) by (apply tanh_pos; auto).
  assert (T1 : tanh k <= 1 - 1 / 100000).
  { apply tanh_le; [|lra]. pose proof (exp2_bound K5). lra. }
  rewrite row_norm_scale by (left; apply Rdiv_lt_0_compat; auto).
  assert (N : row_norm u <= clipped_norm u) by apply Rmax_l.
  assert (A : tanh k / k * row_norm u <= tanh k / k * clipped_norm u) by (apply Rmult_le_compat_l; [left; apply Rdiv_lt_0_compat; auto|auto]).
  replace (tanh k / k * clipped_norm u) with (tanh k * / sqrt 2) in A by (unfold k; field; lra).
  assert (tanh k * / sqrt 2 <= (1 - 1 / 100000) * / sqrt 2) by (apply Rmult_le_compat_r; [left; apply Rinv_0_lt_compat; lra|auto]).
  unfold Rdiv at 1. lra.
Qed.
(** The way into the ball and back, before the dimension reduction, changes nothing: what is reduced are the rows scaled to
    norm 1, with a zero in front.  A row of zeros raises ValueError. *)
Theorem C135_prestage_actual x : (forall y, tangent_row x = Ok y -> y = 0 :: map (fun a => a / row_norm x) x) /\
  (is_ok (tangent_row x) = true <-> exists a, In a x /\ a <> 0).
Proof.
  assert (ZN : row_norm x <> 0 <-> exists a, In a x /\ a <> 0).
  { split.
    - intros N. destruct (Rle_lt_or_eq_dec _ _ (sq_nonneg x)) as [P|E].
      + clear N. induction x as [|a x IH]; [cbn in P; lra|]. destruct (Req_dec a 0) as [->|N]; [|exists a; cbn; auto].
        destruct IH as (b & I & N); [cbn in P |- *; lra|]. exists b. cbn. auto.
      + exfalso. apply N. unfold row_norm. rewrite <- E. apply sqrt_0.
    - intros (a & I & N) E. unfold row_norm in E.
      assert (0 < sumf x (fun a => a * a)) by (apply Rsum_pos with (x := a); auto; intros; nra).
      apply sqrt_lt_R0 in H. lra. }
  unfold tangent_row. destruct (Req_EM_T (row_norm x) 0) as [E|N].
  - split; [discriminate|]. cbn. rewrite <- ZN. split; [discriminate|tauto].
  - split; [|cbn; rewrite <- ZN; tauto]. intros y Y. inversion Y. subst y. clear Y.
    pose proof (row_norm_nonneg x) as P.
    set (u := 0 :: map (fun a => a / row_norm x) x).
    assert (U : row_norm u = 1).
    { unfold u, row_norm at 1. cbn [sumf nadd nz Num_R].
      replace (map (fun a => a / row_norm x) x) with (map (fun a => / row_norm x * a) x) by (apply map_ext; intros; field; auto).
      rewrite sumf_map_sq. unfold row_norm in N, P |- *. set (s := sumf x (fun a => a * a)) in *.
      rewrite Rmult_0_l, Rplus_0_l.
      replace (/ sqrt s * / sqrt s * s) with (/ sqrt s * / sqrt s * (sqrt s * sqrt s)) by (rewrite sqrt_sqrt; [auto|apply sq_nonneg]).
      replace (/ sqrt s * / sqrt s * (sqrt s * sqrt s)) with 1 by (field; auto). apply sqrt_1. }
    rewrite proj_idle by lra. pose proof sqrt2_bounds as S. pose proof min_norm_small as M. unfold min_norm in M.
    apply C134_inverse; rewrite ?U; try lra.
    assert (T : 1 / 2 <= tanh (sqrt 2 * 1)).
    { apply Rle_trans with (tanh 1); [apply tanh_ge; lra|apply tanh_mono; lra]. }
    assert (sqrt 2 / 10 ^ 15 <= 2 * (1 / 1000)) by (apply Rmult_le_compat; lra). lra.
Qed.

(** ** the reduced points *)
Lemma lmin_map (f : R -> R) l : (forall a b, a <= b -> f a <= f b) -> l <> [] -> lmin (map f l) = f (lmin l) /\ lmax (map f l) = f (lmax l).
Proof.
  intros M NE. assert (NE' : map f l <> []) by (destruct l; [tauto|discriminate]).
  destruct (lmin_spec NE) as [I1 L1]. destruct (lmax_spec NE) as [I2 L2].
  destruct (lmin_spec NE') as [J1 K1]. destruct (lmax_spec NE') as [J2 K2]. split; apply Rle_antisym.
  - apply K1, in_map, I1.
  - apply in_map_iff in J1. destruct J1 as (a & <- & A). apply M. auto.
  - apply in_map_iff in J2. destruct J2 as (a & <- & A). apply M. auto.
  - apply K2, in_map, I2.
Qed.
Lemma scaled_bounds rows j x y : In x (column rows j) -> scaled rows j x = Some y -> -2 <= y <= 2.
Proof.
  intros I E. unfold scaled in E. cbv zeta in E. set (col := column rows j) in *.
  assert (NE : col <> []) by (destruct col; [destruct I|discriminate]).
  destruct (Req_EM_T (lmax col) (lmin col)) as [|N]; [discriminate|].
  destruct (lmin_spec NE) as [I1 L1]. destruct (lmax_spec NE) as [I2 L2]. pose proof (L1 x I). pose proof (L2 x I). pose proof (L2 _ I1).
  assert (D : 0 < lmax col - lmin col) by lra.
  assert (K : 0 < / (lmax col - lmin col)) by (apply Rinv_0_lt_compat; auto).
  destruct (@lmin_map (fun a => (a - lmin col) / (lmax col - lmin col)) col) as [Mn Mx]; auto.
  { intros a b Hab. unfold Rdiv. apply Rmult_le_compat_r; lra. }
  rewrite Mn, Mx in E. replace ((lmin col - lmin col) / (lmax col - lmin col)) with 0 in E by (field; lra).
  replace ((lmax col - lmin col) / (lmax col - lmin col)) with 1 in E by (field; lra). inversion E.
  assert (0 <= (x - lmin col) / (lmax col - lmin col)) by (apply Rmult_le_pos; lra).
  assert ((x - lmin col) / (lmax col - lmin col) <= 1).
  { apply Rmult_le_reg_r with (lmax col - lmin col); auto. unfold Rdiv. rewrite Rmult_assoc, Rinv_l by lra. lra. }
  split; lra.
Qed.
Lemma all_some_spec {A} (l : list (option A)) r : all_some l = Some r -> l = map Some r.
Proof.
  revert r. induction l as [|[a|] l IH]; cbn; intros r E; try discriminate; [inversion E; auto|].
  destruct (all_some l); [|discriminate]. inversion E. cbn. f_equal. auto.
Qed.
(** Every point that is drawn in the Poincare ball is strictly inside it, whatever the reduction returns; the last
    regularisation never moves it. *)
Theorem C135_points reduce rows dim out p : project_to_poincare_ball reduce rows dim = Ok out -> In (Some p) out ->
  length p = dim /\ row_norm p < 1 / sqrt 2 /\ exists s, length s = dim /\ (forall a, In a s -> -2 <= a <= 2) /\ p = expmap0 2 s.
Proof.
  unfold project_to_poincare_ball. intros E I.
  destruct (negb (Nat.eqb dim 2 || Nat.eqb dim 3)) eqn:D; [discriminate|]. apply negb_false_iff, orb_prop in D.
  destruct (map_res tangent_row rows) as [tg|]; cbn [rbind] in E; [|discriminate]. cbv zeta in E.
  remember (reduce dim tg) as low eqn:El. clear El. inversion E. subst out. clear E.
  apply in_map_iff in I. destruct I as (r & E & I).
  destruct (all_some (map (fun j => scaled low j (nth j r 0)) (seq 0 dim))) as [s|] eqn:A; cbn in E; [|discriminate]. inversion E. subst p.
  apply all_some_spec in A.
  assert (Ls : length s = dim).
  { apply (f_equal (@length _)) in A. rewrite !map_length, seq_length in A. auto. }
  assert (Bs : forall a, In a s -> -2 <= a <= 2).
  { intros a Ia. assert (J : In (Some a) (map Some s)) by (apply in_map; auto). rewrite <- A in J.
    apply in_map_iff in J. destruct J as (j & Ej & _). apply scaled_bounds in Ej; auto. apply in_map_iff. eauto. }
  assert (N : row_norm s <= 35 / 10).
  { unfold row_norm. rewrite <- (sqrt_square (35 / 10)) by lra. apply sqrt_le_1; [apply sq_nonneg|lra|].
    assert (G : sumf s (fun a => a * a) <= 4 * INR (length s)).
    { clear - Bs. induction s as [|a s IH]; cbn [sumf nz nadd Num_R length]; [cbn; lra|]. rewrite S_INR.
      assert (a * a <= 4) by (assert (-2 <= a <= 2) by (apply Bs; cbn; auto); nra).
      assert (sumf s (fun a => a * a) <= 4 * INR (length s)) by (apply IH; intros; apply Bs; cbn; auto). lra. }
    rewrite Ls in G. assert (INR dim <= 3).
    { destruct D as [D|D]; apply Nat.eqb_eq in D; subst dim; cbn; lra. }
    lra. }
  rewrite proj_idle by auto. split; [unfold expmap0; rewrite map_length; auto|]. split; [apply C134_into_ball; lra|].
  exists s. auto.
Qed.
(** If the reduction returns a constant column (always so for a single point), every row that comes out is nan. *)
Theorem C135_constant_column_actual reduce rows dim tangent out j x :
  map_res tangent_row rows = Ok tangent -> (j < dim)%nat -> (forall y, In y (column (reduce dim tangent) j) -> y = x) ->
  project_to_poincare_ball reduce rows dim = Ok out -> forall o, In o out -> o = None.
Proof.
  intros T J K E o I. unfold project_to_poincare_ball in E.
  destruct (negb _); [discriminate|]. rewrite T in E. cbn [rbind] in E. cbv zeta in E.
  remember (reduce dim tangent) as low eqn:El. clear El. inversion E. subst out. clear E.
  apply in_map_iff in I. destruct I as (r & <- & I).
  assert (NE : column low j <> []) by (destruct low; [destruct I|discriminate]).
  assert (C : lmax (column low j) = lmin (column low j)).
  { rewrite (K _ (proj1 (lmin_spec NE))). apply K. apply (lmax_spec NE). }
  assert (S0 : scaled low j (nth j r 0) = None).
  { unfold scaled. cbv zeta. destruct (Req_EM_T (lmax (column low j)) (lmin (column low j))); [auto|tauto]. }
  destruct (all_some _) as [s|] eqn:A; auto. exfalso. apply all_some_spec in A.
  assert (Z0 : In None (map (fun j => scaled low j (nth j r 0)) (seq 0 dim))).
  { apply in_map_iff. exists j. split; auto. apply in_seq. lia. }
  rewrite A in Z0. apply in_map_iff in Z0. destruct Z0 as (a & C0 & _). discriminate.
Qed.
Example C135_case : let reduce (_ : nat) (_ : list (list R)) := [[0; 5]; [1; 3]] in
  exists out p, project_to_poincare_ball reduce [[3; 4]; [0; 2]] 2 = Ok out /\ In (Some p) out.
Proof.
  cbv zeta. unfold project_to_poincare_ball. cbn [Nat.eqb orb negb].
  assert (OK : forall x, (exists a, In a x /\ a <> 0) -> exists y, tangent_row x = Ok y).
  { intros x Ex. apply C135_prestage_actual in Ex. destruct (tangent_row x); [eauto|discriminate]. }
  destruct (OK [3; 4]) as [y1 E1]. { exists 3. cbn. split; [auto|lra]. }
  destruct (OK [0; 2]) as [y2 E2]. { exists 2. cbn. split; [auto|lra]. }
  cbn [map_res]. rewrite E1, E2. cbn [rbind].
  assert (S0 : forall j x, (j < 2)%nat -> exists y, scaled [[0; 5]; [1; 3]] j x = Some y).
  { intros j x Hj. unfold scaled. cbv zeta. destruct (Req_EM_T _ _) as [C|]; [|eauto]. exfalso.
    destruct j as [|[|j]]; [| |lia]; unfold column in C; cbn [map nth lmin lmax fold_left] in C; unfold Rmax, Rmin in C;
      repeat destruct Rle_dec in C; lra. }
  destruct (S0 0%nat 0) as [a Ea]; [lia|]. destruct (S0 1%nat 5) as [b Eb]; [lia|].
  exists (map (fun r => option_map (fun s => proj 2 (expmap0 2 s)) (all_some (map (fun j => scaled [[0; 5]; [1; 3]] j (nth j r 0)) (seq 0 2)))) [[0; 5]; [1; 3]]),
    (proj 2 (expmap0 2 [a; b])).
  split; [reflexivity|]. left. cbn [seq map all_some nth]. rewrite Ea, Eb. reflexivity.
Qed.

(** ** C136: the plot *)
Lemma column_range rows j : map (fun v => Fin (nth (Z.to_nat v) (column rows j) 0)) (range (Z.of_nat (length rows))) = map Fin (column rows j).
Proof.
  unfold range. rewrite map_map, Nat2Z.id.
  rewrite (map_ext _ (fun i => Fin (nth i (column rows j) 0))) by (intros; rewrite Nat2Z.id; auto).
  assert (L : length (column rows j) = length rows) by apply map_length. rewrite <- L.
  generalize (column rows j). clear. intros l. rewrite <- (map_map (fun i => nth i l 0) Fin). f_equal.
  induction l as [|a l IH]; cbn; auto. f_equal. rewrite <- seq_shift, map_map. auto.
Qed.
(** The points of the plot lie in the box from 0.1 to 0.9 and touch its sides, in the same order along each axis as the
    reduced points; the coordinate is nan for all points exactly if the reduced points agree in it. *)
Theorem C136_plot low dim j i : (j < dim)%nat -> (i < length low)%nat ->
  exists x, nth_error (plotted low dim) i = Some x /\ length x = dim /\
    let y k := nth j (nth k (plotted low dim) []) NaN in let a k := nth j (nth k low []) 0 in
    ((forall k, (k < length low)%nat -> y k = NaN) /\ (forall k l, (k < length low)%nat -> (l < length low)%nat -> a k = a l)) \/
    ((forall k, (k < length low)%nat -> exists b, y k = Fin b /\ 1 / 10 <= b <= 9 / 10) /\
     (exists k, (k < length low)%nat /\ y k = Fin (1 / 10)) /\ (exists k, (k < length low)%nat /\ y k = Fin (9 / 10)) /\
     (forall k l, (k < length low)%nat -> (l < length low)%nat -> exists c d, y k = Fin c /\ y l = Fin d /\ (a k <= a l <-> c <= d))).
Proof.
  intros J I. set (n := Z.of_nat (length low)).
  assert (NE : nth_error (plotted low dim) i = Some (map (fun j => normalize (column low j) (nth j (nth i low []) 0)) (seq 0 dim))).
  { unfold plotted. rewrite nth_error_map. rewrite (nth_error_nth' low [] I). reflexivity. }
  eexists. split; [exact NE|]. split; [rewrite map_length, seq_length; auto|]. cbv zeta.
  set (col := column low j).
  assert (A : forall k, (k < length low)%nat -> nth k col 0 = nth j (nth k low []) 0).
  { intros k K. unfold col, column. rewrite (nth_indep _ 0 (nth j [] 0)) by (rewrite map_length; auto).
    rewrite (map_nth (fun r => nth j r 0)). auto. }
  assert (Y : forall k, (k < length low)%nat -> nth j (nth k (plotted low dim) []) NaN = normalize col (nth k col 0)).
  { intros k K. unfold plotted. set (F := fun r => map (fun j0 => normalize (column low j0) (nth j0 r 0)) (seq 0 dim)).
    rewrite (nth_indep _ [] (F [])) by (rewrite map_length; auto). rewrite map_nth. unfold F.
    rewrite (nth_indep _ NaN (normalize (column low 0) (nth 0 (nth k low []) 0))) by (rewrite map_length, seq_length; auto).
    rewrite (map_nth (fun j0 => normalize (column low j0) (nth j0 (nth k low []) 0))). rewrite seq_nth by auto. cbn [Nat.add].
    fold col. rewrite A; auto. }
  pose proof (@into_box_ok n (fun v => Fin (nth (Z.to_nat v) col 0)) ltac:(unfold n; lia)) as B.
  unfold col in B. unfold n in B. rewrite column_range in B. fold col in B. fold n in B.
  assert (V : forall k, (k < length low)%nat -> (0 <= Z.of_nat k < n)%Z) by (intros; unfold n; lia).
  assert (W : forall v, (0 <= v < n)%Z -> (Z.to_nat v < length low)%nat) by (unfold n; intros; lia).
  destruct B as [[N D]|(P1 & (v & Hv & P2) & (w & Hw & P3) & P4)].
  - left. split.
    + intros k K. rewrite Y by auto. specialize (N _ (V k K)). cbv beta in N. rewrite Nat2Z.id in N. exact N.
    + intros k l K L. rewrite <- !A by auto. destruct D as [(v & _ & D)|D]; [destruct (D _ eq_refl)|].
      specialize (D _ _ (V k K) (V l L)). cbv beta in D. rewrite !Nat2Z.id in D. inversion D. auto.
  - right. split; [|split; [|split]].
    + intros k K. rewrite Y by auto. specialize (P1 _ (V k K)). cbv beta in P1. rewrite Nat2Z.id in P1. exact P1.
    + exists (Z.to_nat v). split; auto. rewrite Y by auto. exact P2.
    + exists (Z.to_nat w). split; auto. rewrite Y by auto. exact P3.
    + intros k l K L. destruct (P4 _ _ (V k K) (V l L)) as (a & b & c & d & Ea & Eb & Ec & Ed & Iff). rewrite !Nat2Z.id in *.
      exists c, d. rewrite !Y by auto. injection Ea as <-. injection Eb as <-. rewrite <- !A by auto. repeat split; auto; apply Iff.
Qed.
Example C136_case : nth 0 (nth 0 (plotted [[0; 5]; [1; 3]] 2) []) NaN = Fin (1 / 10).
Proof.
  unfold plotted. cbn [map seq nth]. unfold normalize, into_box. cbn [column map nth fins fold_right fin_of lmin lmax fold_left].
  replace (Rmax 0 1) with 1 by (unfold Rmax; destruct Rle_dec; lra). replace (Rmin 0 1) with 0 by (unfold Rmin; destruct Rle_dec; lra).
  unfold fdiv, neqb. cbn [nleb Ext_R nz Num_R]. destruct (Rle_dec (1 - 0) 0); [lra|]. cbn. f_equal. ring.
Qed.
