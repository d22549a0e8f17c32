(** Property C163: the whole force-directed layout, from the random draws to the coordinates in the picture. *)
From Coq Require Import String Reals Lra.
From Verif Require Import Num PyDict PyDictFacts CooFacts ModelBase ModelConv ModelUtils ModelMetrics RealFacts MetricFacts ModelVis SpecVis VisFacts PropVis PropForce.
Set Implicit Arguments.
Local Open Scope list_scope.
Local Open Scope R_scope.

(** ** what should happen: [F c p v] is coordinate [c] of the force on vertex [v] when the vertices are at [p] *)
Section Run.
  Variables (n : Z) (E : list (list Z)) (push_e : option R) (F : (R * R -> R) -> (Z -> R * R) -> Z -> R).
  Definition shift (d : R) (p : Z -> R * R) (v : Z) : R * R := (limited (d * F fst p v), limited (d * F snd p v)).
  Definition moved (d : R) (p : Z -> R * R) (v : Z) : R * R := (fst (p v) + 2 * fst (shift d p v), snd (p v) + 2 * snd (shift d p v)).
  (** the vertices hardly moved *)
  Definition calm (d : R) (p : Z -> R * R) : Prop := sqrt (sumf (range n) (fun v => fst (shift d p v) ^ 2 + snd (shift d p v) ^ 2)) < 1 / 1000.
  (** at most [k] steps from [p] end at [q], and no two vertices (or edges, if these push each other) ever meet;
      the damping [d] shrinks by one thousandth with each step *)
  Inductive runs : nat -> R -> (Z -> R * R) -> (Z -> R * R) -> Prop :=
  | RunEnd d p : runs 0 d p p
  | RunCalm k d p : apart n E p push_e -> calm d p -> runs (S k) d p (moved d p)
  | RunStep k d p q : apart n E p push_e -> ~ calm d p -> runs k (d * (999 / 1000)) (moved d p) q -> runs (S k) d p q.
End Run.
(** one coordinate of the picture: the extreme vertices at 1/10 and 9/10, the others in proportion; nan if there is no extent *)
Definition framed (n : Z) (x : Z -> R) (y : Z -> fl R) : Prop := exists lo hi,
  (forall v, (0 <= v < n)%Z -> lo <= x v <= hi) /\ (exists v, (0 <= v < n)%Z /\ x v = lo) /\ (exists v, (0 <= v < n)%Z /\ x v = hi) /\
  forall v, (0 <= v < n)%Z -> y v = if Req_EM_T lo hi then NaN else Fin (1 / 10 + 8 / 10 * ((x v - lo) / (hi - lo))).

(** ** proofs *)
Lemma into_box_framed n (pos : Z -> fl R) x : (0 < n)%Z -> (forall v, (0 <= v < n)%Z -> pos v = Fin (x v)) ->
  framed n x (fun v => into_box (map pos (range n)) (pos v)).
Proof.
  intros Hn P. assert (IR : forall v, In v (range n) <-> (0 <= v < n)%Z) by (intros; apply (in_vs n)).
  assert (M : map pos (range n) = map (@Fin R) (map x (range n))).
  { rewrite map_map. apply map_ext_in. intros v V. apply P, IR, V. }
  set (l := map x (range n)) in *.
  assert (NE : l <> []).
  { assert (I : In (x 0%Z) l) by (apply in_map, IR; lia). destruct l; [destruct I|discriminate]. }
  destruct (lmin_spec NE) as [I1 L1]. destruct (lmax_spec NE) as [I2 L2].
  exists (lmin l), (lmax l). split; [|split; [|split]].
  - intros v V. assert (I : In (x v) l) by (apply in_map, IR, V). split; auto.
  - apply in_map_iff in I1 as (v & A & B). exists v. rewrite <- IR. auto.
  - apply in_map_iff in I2 as (v & A & B). exists v. rewrite <- IR. auto.
  - intros v V. unfold into_box. rewrite M, fins_map, (P v V).
    assert (I : In (x v) l) by (apply in_map, IR, V). pose proof (L1 _ I). pose proof (L2 _ I).
    unfold fdiv, neqb, nltb. cbn [nleb Ext_R nz Num_R].
    destruct (Req_EM_T (lmin l) (lmax l)) as [Eq|Ne].
    + replace (lmax l - lmin l) with 0 by lra. replace (x v - lmin l) with 0 by lra.
      repeat destruct Rle_dec; cbn; auto; lra.
    + pose proof (L1 _ I2). repeat destruct Rle_dec; cbn; try lra; rewrite Rinv0_ne by lra; f_equal; field; lra.
Qed.

Section Iterate.
  Variables (sim : simulator) (n : Z) (E : list (list Z)) (H : Z -> nat -> R) (pull : R) (l : list R) (push_e : option R) (g : list R)
            (push : Z -> R) (centre : Z -> R * R) (grav : Z -> R).
  Hypothesis HH : forall v e, H v e = if holds (nth e E []) v then 1 else 0.
  Hypothesis NN : E <> [].
  Hypothesis NE : forall e, In e E -> exists v, (0 <= v < n)%Z /\ In v e.
  Hypothesis SA : s_attr sim = Some pull.
  Hypothesis SR : s_rep sim = Some l.
  Hypothesis SE : s_erep sim = push_e.
  Hypothesis SG : s_grav sim = Some g.
  Hypothesis RF : forall v, (0 <= v < n)%Z -> rep_factor sim l v = push v.
  Hypothesis GF : forall j p f b, is_pt n f b -> exists r, fold_left (fun acc x => rbind acc (add_force n (gravity_force j p x))) (gravity_parts sim g) (Ok f) = Ok r /\
     is_pt n r (fun v => padd (b v) (pscale (grav v) (psub (centre v) (p v)))).
  Let F c p v := total c n E p pull push push_e centre grav v.
  Lemma iterate_runs js k d p q : runs n E push_e F k d p q -> forall it pos, is_pt n pos p ->
    exists pos', iterate sim n (length E) H k it js d pos = Ok pos' /\ is_pt n pos' q.
  Proof.
    induction 1 as [d p|k d p A C|k d p q A C _ IH]; intros it pos P; cbn [iterate].
    - eauto.
    - destruct (@step_is sim n E H (js it) d pull l push_e g pos p push centre grav P HH NN NE A SA SR SE SG RF (GF (js it))) as (pos' & stop & -> & P' & ST).
      cbn [rbind]. fold F in P', ST.
      assert (stop = true) as -> by (apply ST; exact C). exists pos'. split; [reflexivity|]. intros v V. rewrite (P' v V). reflexivity.
    - destruct (@step_is sim n E H (js it) d pull l push_e g pos p push centre grav P HH NN NE A SA SR SE SG RF (GF (js it))) as (pos' & stop & -> & P' & ST).
      cbn [rbind]. destruct stop; [destruct C; apply ST; reflexivity|]. apply IH. intros v V. rewrite (P' v V). reflexivity.
  Qed.
End Iterate.

Theorem C163_layout : forall n E push_v push_e pull_e pull_c rnd js q, (0 < n)%Z -> vertices_in n E -> E <> [] -> ~ In [] E -> uniform n rnd ->
  runs n E push_e (fun c p => total c n E p pull_e (fun _ => push_v) push_e (fun _ => (0, 0)) (fun _ => pull_c)) 400 1
    (fun v => (10 * fst (rnd v) - 5, 10 * snd (rnd v) - 5)) q ->
  exists coor, force_layout n E push_v push_e pull_e pull_c rnd js = Ok coor /\
    framed n (fun v => fst (q v)) (fun v => fst (coor v)) /\ framed n (fun v => snd (q v)) (fun v => snd (coor v)).
Proof.
  intros n E push_v push_e pull_e pull_c rnd js q Hn V NN NE U RU. unfold force_layout.
  match goal with |- context [negb (forallb ?f ?l)] => replace (forallb f l) with true end.
  2:{ symmetry. apply forallb_forall. intros v I. apply (in_vs n) in I. destruct (init_in U I) as [A B]. 
      assert (IN : forall x, Rabs x <= 5 -> -5 <= x <= 5) by (intros x X; unfold Rabs in X; destruct (Rcase_abs x); lra).
      apply IN in A. apply IN in B. repeat destruct Rle_dec; auto; lra. }
  cbn [negb]. destruct (incidence_ok Hn V) as (H & EH & HH). rewrite EH. cbn [rbind].
  unfold simulate.
  destruct (@iterate_runs (mkSim (Some pull_e) (Some [push_v]) push_e (Some [pull_c]) [(0, 0)] n) n E H pull_e [push_v] push_e [pull_c]
    (fun _ => push_v) (fun _ => (0, 0)) (fun _ => pull_c)) with (js := js) (k := 400%nat) (d := 1) (p := fun v => (10 * fst (rnd v) - 5, 10 * snd (rnd v) - 5)) (q := q) (it := 0%nat)
    (pos := fun v => lift_pt (init_pos rnd (0, 0) 5 v)) as (pos' & EQ & P'); auto.
  - intros e I. destruct e as [|v l]; [contradiction|]. exists v. split; [apply (V (v :: l)); cbn; auto|cbn; auto].
  - intros j p. apply gravity_one; reflexivity.
  - intros v Hv. unfold init_pos, padd, pscale. cbn [fst snd]. f_equal. f_equal; ring.
  - rewrite EQ. cbn [rbind]. exists (box n pos'). split; [reflexivity|].
    split; apply into_box_framed; auto; intros v Hv; rewrite (P' v Hv); reflexivity.
Qed.
(** bipartite graphs: U starts around (5, 0) and V around (-5, 0) *)
Theorem C163_layout_bipartite : forall nu nv E push_u push_v push_e pull_e pull_u pull_v rnd_u rnd_v js q, (0 < nu + nv)%Z -> vertices_in (nu + nv) E -> E <> [] -> ~ In [] E ->
  let side {A} (a b : A) v := if (v <? nu)%Z then a else b in
  runs (nu + nv) E push_e (fun c p => total c (nu + nv) E p pull_e (side push_u push_v) push_e (side (5, 0) (-5, 0)) (side pull_u pull_v)) 400 1
    (fun v => side (9 * fst (rnd_u v) + 1 / 2, 9 * snd (rnd_u v) - 9 / 2) (9 * fst (rnd_v (v - nu)%Z) - 19 / 2, 9 * snd (rnd_v (v - nu)%Z) - 9 / 2) v) q ->
  exists coor, bipartite_force_layout nu nv E push_u push_v push_e pull_e pull_u pull_v rnd_u rnd_v js = Ok coor /\
    framed (nu + nv) (fun v => fst (q v)) (fun v => fst (coor v)) /\ framed (nu + nv) (fun v => snd (q v)) (fun v => snd (coor v)).
Proof.
  intros nu nv E push_u push_v push_e pull_e pull_u pull_v rnd_u rnd_v js q Hn V NN NE side RU. unfold bipartite_force_layout.
  rewrite (Z.add_comm nv nu). destruct (incidence_ok Hn V) as (H & EH & HH). rewrite EH. cbn [rbind].
  unfold simulate.
  destruct (@iterate_runs (mkSim (Some pull_e) (Some [push_u; push_v]) push_e (Some [pull_u; pull_v]) [(5, 0); (-5, 0)] nu) (nu + nv)%Z E H pull_e [push_u; push_v] push_e [pull_u; pull_v]
    (side R push_u push_v) (side (Datatypes.prod R R) (5, 0) (-5, 0)) (side R pull_u pull_v)) with (js := js) (k := 400%nat) (d := 1) (q := q) (it := 0%nat)
    (p := fun v => side (Datatypes.prod R R) (9 * fst (rnd_u v) + 1 / 2, 9 * snd (rnd_u v) - 9 / 2) (9 * fst (rnd_v (v - nu)%Z) - 19 / 2, 9 * snd (rnd_v (v - nu)%Z) - 9 / 2) v)
    (pos := fun v => lift_pt (if (v <? nu)%Z then init_pos rnd_u (5, 0) (45 / 10) v else init_pos rnd_v (-5, 0) (45 / 10) (v - nu)%Z)) as (pos' & EQ & P'); auto.
  - intros e I. destruct e as [|v l]; [contradiction|]. exists v. split; [apply (V (v :: l)); cbn; auto|cbn; auto].
  - intros v _. unfold rep_factor, side. cbn [s_centers s_cut length Nat.eqb nth]. destruct (v <? nu)%Z; reflexivity.
  - intros j p. apply gravity_two; reflexivity.
  - intros v Hv. unfold init_pos, padd, pscale, side. destruct (v <? nu)%Z; cbn [fst snd]; f_equal; f_equal; field.
  - rewrite EQ. cbn [rbind]. exists (box (nu + nv) pos'). split; [reflexivity|].
    split; apply into_box_framed; auto; intros v Hv; rewrite (P' v Hv); reflexivity.
Qed.

(** two vertices joined by an edge: whatever the strengths (if they pull no more than half way to the middle), their layout
    exists, with one in each of two opposite corners *)
Section Two.
  Variables (e : list Z) (push : R) (push_e : option R) (pull grav cx : R) (fpush fgrav : Z -> R) (centre : Z -> R * R).
  Hypothesis EE : e = [0; 1]%Z \/ e = [0; 0]%Z.
  Hypothesis P0 : 0 <= push.
  Hypothesis PU : 0 <= pull.
  Hypothesis GR : 0 <= grav.
  Hypothesis CX : 0 <= cx.
  Hypothesis PG : pull + grav < 1 / 2.
  Hypothesis FP : fpush 0%Z = push /\ fpush 1%Z = push.
  Hypothesis FG : fgrav 0%Z = grav /\ fgrav 1%Z = grav.
  Hypothesis CE : centre 0%Z = (cx, 0) /\ centre 1%Z = (- cx, 0).
  Let E := [e].
  Let F c p v := total c 2 E p pull fpush push_e centre fgrav v.
  Definition opposite (p : Z -> R * R) : Prop := exists x y, 0 < x /\ 0 < y /\ p 0%Z = (x, y) /\ p 1%Z = (- x, - y).
  Lemma opposite_apart p : opposite p -> apart 2 E p push_e.
  Proof.
    intros (x & y & X & Y & A & B). split.
    - intros u v U V N. assert (u = 0 /\ v = 1 \/ u = 1 /\ v = 0)%Z as [[-> ->]|[-> ->]] by lia; rewrite A, B; intros C; injection C; lra.
    - right. intros i j I J. cbn in I, J. lia.
  Qed.
  Lemma opposite_middle p : opposite p -> middle 2 p [0; 1]%Z = (0, 0).
  Proof.
    intros (x & y & X & Y & A & B). unfold middle. change (filter (holds [0; 1]%Z) (range 2)) with [0; 1]%Z. unfold sumf. cbn [map fold_right nadd nz Num_R length INR].
    rewrite A, B. cbn [fst snd]. f_equal; field.
  Qed.
  Lemma edge_pushes_one c p v : edge_pushes c 2 E p v = 0.
  Proof. unfold edge_pushes, E. cbn [length seq]. cbn [filter nth]. destruct (holds e v); unfold sumf; cbn [filter Nat.eqb negb map fold_right nadd nz Num_R]; ring. Qed.
  Lemma opposite_force p : opposite p -> exists x y f g, 0 < x /\ 0 < y /\ p 0%Z = (x, y) /\ p 1%Z = (- x, - y) /\ - ((pull + grav) * x) <= f /\ - ((pull + grav) * y) <= g /\
    F fst p 0 = f /\ F snd p 0 = g /\ F fst p 1 = - f /\ F snd p 1 = - g.
  Proof.
    intros O. pose proof (opposite_middle O) as M0. destruct O as (x & y & X & Y & A & B).
    set (s := sqrt (x ^ 2 + y ^ 2)). assert (X2 : 0 < x ^ 2) by (apply pow_lt; lra). assert (Y2 : 0 < y ^ 2) by (apply pow_lt; lra).
    assert (S0 : 0 < s) by (apply sqrt_lt_R0; lra).
    set (w := sqrt ((x + x) ^ 2 + (y + y) ^ 2)). assert (W2 : 0 < (x + x) ^ 2) by (apply pow_lt; lra). assert (V2 : 0 < (y + y) ^ 2) by (apply pow_lt; lra).
    assert (W0 : 0 < w) by (apply sqrt_lt_R0; lra).
    set (t := if list_eq_dec Z.eq_dec e [0; 1]%Z then (s - 1 / 10) / s else 0).
    assert (T1 : t <= 1).
    { unfold t. destruct (list_eq_dec _ _ _); [|lra]. assert (0 < / s) by (apply Rinv_0_lt_compat; auto). replace ((s - 1 / 10) / s) with (1 - 1 / 10 * / s) by (field; lra). lra. }
    set (f := fun z c => pull * (t * (0 - z)) + push * ((z + z) / w ^ 3) + grav * (c - z)).
    assert (LB : forall z c, 0 < z -> 0 <= c -> - ((pull + grav) * z) <= f z c).
    { intros z c Hz Hc. unfold f. assert (0 <= pull * ((1 - t) * z)) by (apply Rmult_le_pos; [auto|apply Rmult_le_pos; lra]).
      assert (0 <= push * ((z + z) / w ^ 3)).
      { apply Rmult_le_pos; auto. apply Rmult_le_pos; [lra|]. left. apply Rinv_0_lt_compat, pow_lt, W0. }
      assert (0 <= grav * c) by (apply Rmult_le_pos; auto). lra. }
    exists x, y, (f x cx), (f y 0). do 4 (split; [assumption|]). split; [apply LB; auto|]. split; [apply LB; auto; lra|].
    assert (S1 : sep (0, 0) (x, y) = s) by (unfold sep, s; cbn [fst snd]; f_equal; ring).
    assert (S2 : sep (0, 0) (- x, - y) = s) by (unfold sep, s; cbn [fst snd]; f_equal; ring).
    assert (W1 : sep (x, y) (- x, - y) = w) by (unfold sep, w; cbn [fst snd]; f_equal; ring).
    assert (W3 : sep (- x, - y) (x, y) = w) by (unfold sep, w; cbn [fst snd]; f_equal; ring).
    assert (EP : forall v c, match push_e with Some k => k * edge_pushes c 2 E p v | None => 0 end = 0) by (intros v c; destruct push_e; [rewrite edge_pushes_one; ring|reflexivity]).
    assert (SP : forall c v, c (0, 0) = 0 -> v = 0%Z \/ v = 1%Z -> springs c 2 E p v = t * (0 - c (p v))).
    { intros c v C0 Hv. unfold springs, E, t. destruct (list_eq_dec Z.eq_dec e [0; 1]%Z) as [-> |N].
      - replace (filter (fun e => holds e v) [[0; 1]%Z]) with [[0; 1]%Z] by (destruct Hv as [-> | ->]; reflexivity).
        unfold sumf. cbn [map fold_right nadd nz Num_R]. rewrite M0, C0. cbv zeta.
        assert (NZ : sep (0, 0) (p v) = s) by (destruct Hv as [-> | ->]; [rewrite A, S1|rewrite B, S2]; reflexivity). rewrite NZ.
        destruct (Req_EM_T s 0); [lra|ring].
      - destruct EE as [-> | ->]; [contradiction|]. destruct Hv as [-> | ->]; cbn [filter holds existsb Z.eqb orb]; [|unfold sumf; cbn; ring].
        unfold sumf. cbn [map fold_right nadd nz Num_R]. cbv zeta.
        assert (MM : middle 2 p [0; 0]%Z = p 0%Z).
        { unfold middle. change (filter (holds [0; 0]%Z) (range 2)) with [0]%Z. unfold sumf. cbn [map fold_right nadd nz Num_R length INR].
          rewrite (surjective_pairing (p 0%Z)) at 3. f_equal; field. }
        rewrite MM. destruct (Req_EM_T (sep (p 0%Z) (p 0%Z)) 0) as [_|Z0]; [ring|]. destruct Z0. unfold sep. replace ((fst (p 0%Z) - fst (p 0%Z)) ^ 2 + (snd (p 0%Z) - snd (p 0%Z)) ^ 2) with 0 by ring. apply sqrt_0. }
    assert (N0 : forall c, pushes c 2 p 0 = (c (p 0%Z) - c (p 1%Z)) / sep (p 0%Z) (p 1%Z) ^ 3).
    { intros c. unfold pushes. change (filter (fun u => negb (Z.eqb 0 u)) (range 2)) with [1%Z]. unfold sumf. cbn [map fold_right nadd nz Num_R]. ring. }
    assert (N1 : forall c, pushes c 2 p 1 = (c (p 1%Z) - c (p 0%Z)) / sep (p 1%Z) (p 0%Z) ^ 3).
    { intros c. unfold pushes. change (filter (fun u => negb (Z.eqb 1 u)) (range 2)) with [0%Z]. unfold sumf. cbn [map fold_right nadd nz Num_R]. ring. }
    assert (WP : w ^ 3 <> 0) by (apply pow_nonzero; lra).
    destruct FP as [P1 P2]. destruct FG as [G1 G2]. destruct CE as [K1 K2].
    unfold F, total. rewrite !EP, !SP, !N0, !N1 by auto. rewrite A, B, W1, W3, P1, P2, G1, G2, K1, K2. cbn [fst snd]. unfold f.
    split; [|split; [|split]]; field; lra.
  Qed.
  Lemma limited_opp x : limited (- x) = - limited x.
  Proof. unfold limited. unfold Rmin, Rmax. repeat (destruct Rle_dec); lra. Qed.
  Lemma limited_ge x b : 0 <= b -> - b <= x -> - b <= limited x.
  Proof. intros B X. unfold limited, Rmin, Rmax. repeat destruct Rle_dec; lra. Qed.
  Lemma opposite_moved d p : 0 <= d <= 1 -> opposite p -> opposite (moved F d p).
  Proof.
    intros D O. destruct (opposite_force O) as (x & y & f & g & X & Y & A & B & L & L' & F0 & F0' & F1 & F1').
    assert (LM : forall z h, 0 < z -> - ((pull + grav) * z) <= h -> 0 < z + 2 * limited (d * h)).
    { intros z h Hz Hh. assert (0 <= (pull + grav) * z) by (apply Rmult_le_pos; lra).
      assert (- ((pull + grav) * z) <= limited (d * h)).
      { apply limited_ge; auto. destruct (Rle_dec 0 h) as [N|N].
        - assert (0 <= d * h) by (apply Rmult_le_pos; lra). lra.
        - assert (d * - h <= 1 * - h) by (apply Rmult_le_compat_r; lra). lra. }
      assert ((pull + grav) * z < 1 / 2 * z) by (apply Rmult_lt_compat_r; lra). lra. }
    exists (x + 2 * limited (d * f)), (y + 2 * limited (d * g)). split; [apply LM; auto|]. split; [apply LM; auto|].
    unfold moved, shift. cbn [fst snd]. rewrite F0, F0', F1, F1', A, B. cbn [fst snd].
    replace (d * - f) with (- (d * f)) by ring. replace (d * - g) with (- (d * g)) by ring. rewrite !limited_opp. split; f_equal; ring.
  Qed.
  Lemma opposite_runs k : forall d p, 0 <= d <= 1 -> opposite p -> exists q, runs 2 E push_e F k d p q /\ opposite q.
  Proof.
    induction k as [|k IH]; intros d p D O.
    - exists p. split; [constructor|auto].
    - destruct (Rlt_dec (sqrt (sumf (range 2) (fun v => fst (shift F d p v) ^ 2 + snd (shift F d p v) ^ 2))) (1 / 1000)) as [C|C].
      + exists (moved F d p). split; [apply RunCalm; [apply opposite_apart, O|exact C]|apply opposite_moved; auto].
      + destruct (IH (d * (999 / 1000)) (moved F d p)) as (q & Q & OQ); [lra|apply opposite_moved; auto|].
        exists q. split; auto. apply RunStep; auto. apply opposite_apart, O.
  Qed.
End Two.
Lemma opposite_framed (c : R * R -> R) q y : (c = fst \/ c = snd) -> opposite q -> framed 2 (fun v => c (q v)) y -> y 0%Z = Fin (9 / 10) /\ y 1%Z = Fin (1 / 10).
Proof.
  intros C (x1 & x2 & X1 & X2 & A & B) (lo & hi & L & (v & V & EV) & (u & U & EU) & Y).
  assert (C0 : exists x, 0 < x /\ c (q 0%Z) = x /\ c (q 1%Z) = - x).
  { destruct C as [-> | ->]; rewrite A, B; cbn [fst snd]; [exists x1|exists x2]; split; auto. }
  destruct C0 as (x & X & C0 & C1).
  pose proof (L 0%Z ltac:(lia)) as L0. pose proof (L 1%Z ltac:(lia)) as L1.
  assert (H : lo = - x) by (assert (v = 0 \/ v = 1)%Z as [-> | ->] by lia; lra).
  assert (H0 : hi = x) by (assert (u = 0 \/ u = 1)%Z as [-> | ->] by lia; lra).
  rewrite !Y by lia. destruct (Req_EM_T lo hi); [lra|]. split; f_equal; [rewrite C0|rewrite C1]; rewrite H, H0; field; lra.
Qed.
Lemma opposite_corners q coor : opposite q -> framed 2 (fun v => fst (q v)) (fun v => fst (coor v)) -> framed 2 (fun v => snd (q v)) (fun v => snd (coor v)) ->
  coor 0%Z = (Fin (9 / 10), Fin (9 / 10)) /\ coor 1%Z = (Fin (1 / 10), Fin (1 / 10)).
Proof.
  intros O F1 F2. destruct (@opposite_framed fst q _ (or_introl eq_refl) O F1) as [A1 A2]. destruct (@opposite_framed snd q _ (or_intror eq_refl) O F2) as [B1 B2].
  rewrite (surjective_pairing (coor 0%Z)), (surjective_pairing (coor 1%Z)), A1, A2, B1, B2. split; reflexivity.
Qed.
Definition two_draws (v : Z) : R * R := if (v =? 0)%Z then (3 / 4, 3 / 4) else (1 / 4, 1 / 4).
Example C163_two push push_e pull grav js : 0 <= push -> 0 <= pull -> 0 <= grav -> pull + grav < 1 / 2 ->
  exists coor, force_layout 2 [[0; 1]%Z] push push_e pull grav two_draws js = Ok coor /\
    coor 0%Z = (Fin (9 / 10), Fin (9 / 10)) /\ coor 1%Z = (Fin (1 / 10), Fin (1 / 10)).
Proof.
  intros P0 PU GR PG.
  destruct (@opposite_runs [0; 1]%Z push push_e pull grav 0 (fun _ => push) (fun _ => grav) (fun _ => (0, 0))) with (k := 400%nat) (d := 1) (p := fun v => (10 * fst (two_draws v) - 5, 10 * snd (two_draws v) - 5))
    as (q & Q & O); auto; try lra.
  - rewrite Ropp_0. auto.
  - unfold two_draws. exists (10 * (3 / 4) - 5), (10 * (3 / 4) - 5). split; [lra|]. split; [lra|]. cbn [Z.eqb fst snd]. split; f_equal; field.
  - destruct (@C163_layout 2 [[0; 1]%Z] push push_e pull grav two_draws js q) as (coor & EQ & F1 & F2).
    + lia.
    + intros e v [<-|[]] [<-|[<-|[]]]; lia.
    + discriminate.
    + intros [C|[]]. discriminate C.
    + intros v V. unfold two_draws. destruct (v =? 0)%Z; cbn [fst snd]; lra.
    + exact Q.
    + exists coor. split; [exact EQ|]. apply (@opposite_corners q coor O F1 F2).
Qed.
(** one vertex on each side; the layout that [draw_bigraph] asks for pulls rows 0 and 0 together instead of 0 and 1 (see C73) *)
Example C163_two_bipartite e push push_e pull grav js : e = [0; 1]%Z \/ e = [0; 0]%Z -> 0 <= push -> 0 <= pull -> 0 <= grav -> pull + grav < 1 / 2 ->
  exists coor, bipartite_force_layout 1 1 [e] push push push_e pull grav grav (fun _ => (1 / 2, 3 / 4)) (fun _ => (1 / 2, 1 / 4)) js = Ok coor /\
    coor 0%Z = (Fin (9 / 10), Fin (9 / 10)) /\ coor 1%Z = (Fin (1 / 10), Fin (1 / 10)).
Proof.
  intros EE P0 PU GR PG.
  destruct (@opposite_runs e push push_e pull grav 5 (fun v => if (v <? 1)%Z then push else push) (fun v => if (v <? 1)%Z then grav else grav) (fun v => if (v <? 1)%Z then (5, 0) else (-5, 0)))
    with (k := 400%nat) (d := 1) (p := fun v => if (v <? 1)%Z then (9 * (1 / 2) + 1 / 2, 9 * (3 / 4) - 9 / 2) else (9 * (1 / 2) - 19 / 2, 9 * (1 / 4) - 9 / 2))
    as (q & Q & O); auto; try lra.
  - exists (9 * (1 / 2) + 1 / 2), (9 * (3 / 4) - 9 / 2). split; [lra|]. split; [lra|]. cbn [Z.ltb Z.compare Pos.compare Pos.compare_cont]. split; f_equal; field.
  - destruct (@C163_layout_bipartite 1 1 [e] push push push_e pull grav grav (fun _ => (1 / 2, 3 / 4)) (fun _ => (1 / 2, 1 / 4)) js q) as (coor & EQ & F1 & F2).
    + lia.
    + intros e' v [<-|[]] I. destruct EE as [-> | ->]; destruct I as [<-|[<-|[]]]; lia.
    + discriminate.
    + intros [C|[]]. destruct EE as [-> | ->]; discriminate C.
    + exact Q.
    + exists coor. split; [exact EQ|]. apply (@opposite_corners q coor O F1 F2).
Qed.
