(** Properties C65, C66, C68, C121, C123, C127, C128: losses, HyperGCN, LightGCN and multi-head layers. *)
From Coq Require Import String Ring Permutation Reals Lra QArith Qcanon.
From Verif Require Import Num PyDict PyDictFacts Coo CooFacts MatFacts RealFacts ModelBase CacheFacts ModelGraph SpecGraph SpecGraphOps GraphMatrix GraphReach
  ModelBiGraph BiGraphFacts SpecBiGraph BiGraphMatrix PropBiGraph ModelHyper SpecHyper PropHyper ModelConv ModelUtils ModelMetrics ModelNN SpecNN NNFacts PropLayers.
Set Implicit Arguments.
Local Open Scope string_scope.
Local Open Scope list_scope.
Local Open Scope R_scope.
Local Open Scope Z_scope.

(** * C65 *)
Definition bpr_term (alpha beta : R) (x : R * R) : R := ln (1 + exp (beta * snd x - alpha * fst x))%R.
Lemma log_sigmoid x : (- ln (sigmoid x) = ln (1 + exp (- x)))%R.
Proof. unfold sigmoid. pose proof (exp_pos (-x)). rewrite ln_Rinv by lra. lra. Qed.
Lemma bpr_value a alpha beta l : In a ["sigmoid_then_log"; "softplus"] ->
  bpr_loss a alpha beta l = Ok (sumf l (bpr_term alpha beta) / INR (length l))%R.
Proof.
  intros [<-|[<-|[]]]; unfold bpr_loss; cbn [String.eqb Ascii.eqb Bool.eqb]; unfold rmean; rewrite map_length, sumf_map; do 2 f_equal; apply sumf_ext;
    intros [p n]; unfold bpr_term; cbn [fst snd];
    first [reflexivity | rewrite log_sigmoid; do 3 f_equal; lra].
Qed.
Lemma bpr_term_mono alpha beta x y : (0 < alpha -> 0 < beta -> fst x <= fst y -> snd y <= snd x ->
  bpr_term alpha beta y <= bpr_term alpha beta x /\ (x <> y -> bpr_term alpha beta y < bpr_term alpha beta x))%R.
Proof.
  intros A B P Q. destruct x as [p n], y as [p' n']; cbn [fst snd] in *. unfold bpr_term; cbn [fst snd].
  pose proof (exp_pos (beta * n' - alpha * p'))%R as E.
  assert (M1 : (alpha * p <= alpha * p')%R) by (apply Rmult_le_compat_l; lra). assert (M2 : (beta * n' <= beta * n)%R) by (apply Rmult_le_compat_l; lra).
  assert (LT : (p, n) <> (p', n') -> (beta * n' - alpha * p' < beta * n - alpha * p)%R).
  { intros NE. destruct (Req_dec p p') as [->|N1]; [destruct (Req_dec n n') as [->|N2]; [congruence|]|].
    - assert (beta * n' < beta * n)%R by (apply Rmult_lt_compat_l; lra). lra.
    - assert (alpha * p < alpha * p')%R by (apply Rmult_lt_compat_l; lra). lra. }
  split.
  - destruct (Rle_lt_or_eq_dec (beta * n' - alpha * p') (beta * n - alpha * p)) as [L|L]; [lra| |rewrite L; lra].
    left. apply ln_increasing; [lra|]. apply Rplus_lt_compat_l, exp_increasing, L.
  - intros NE. apply ln_increasing; [lra|]. apply Rplus_lt_compat_l, exp_increasing, LT, NE.
Qed.
(** the two activations are the same function, everything else is refused *)
Theorem C65_activations : forall alpha beta l,
  (forall a, In a ["sigmoid_then_log"; "softplus"] -> bpr_loss a alpha beta l = Ok (sumf l (bpr_term alpha beta) / INR (length l))%R) /\
  (forall a, ~ In a ["sigmoid_then_log"; "softplus"] -> bpr_loss a alpha beta l = Err AssertionError).
Proof.
  intros alpha beta l. split; [intros; apply bpr_value; auto|]. intros a NI. unfold bpr_loss.
  destruct (String.eqb_spec a "sigmoid_then_log") as [->|]; [exfalso; apply NI; left; auto|].
  destruct (String.eqb_spec a "softplus") as [->|]; [exfalso; apply NI; right; left; auto|reflexivity].
Qed.
(** positive; smaller the better the positives are ranked above the negatives; [ln 2] separates right from wrong order *)
Theorem C65_ranking : forall a alpha beta l, In a ["sigmoid_then_log"; "softplus"] -> (0 < alpha)%R -> (0 < beta)%R -> l <> [] ->
  exists x, bpr_loss a alpha beta l = Ok x /\ (0 < x)%R /\
    (Forall (fun pn => beta * snd pn <= alpha * fst pn)%R l -> (x <= ln 2)%R) /\
    (Forall (fun pn => alpha * fst pn <= beta * snd pn)%R l -> (ln 2 <= x)%R) /\
    forall l', Forall2 (fun pn pn' => fst pn <= fst pn' /\ snd pn' <= snd pn)%R l l' -> l <> l' ->
      exists x', bpr_loss a alpha beta l' = Ok x' /\ (x' < x)%R.
Proof.
  intros a alpha beta l I A B NE. exists (sumf l (bpr_term alpha beta) / INR (length l))%R. split; [apply bpr_value; auto|].
  assert (LP : (0 < INR (length l))%R) by (apply lt_0_INR; destruct l; [congruence|cbn; lia]).
  assert (TP : forall x, (0 < bpr_term alpha beta x)%R).
  { intros x. unfold bpr_term. rewrite <- ln_1. pose proof (exp_pos (beta * snd x - alpha * fst x))%R. apply ln_increasing; lra. }
  assert (CL : forall c, (sumf l (fun _ => c) = INR (length l) * c)%R).
  { intros c. clear. induction l as [|y l IH]; [cbn; lra|]. change (sumf (y :: l) (fun _ => c)) with (c + sumf l (fun _ => c))%R. rewrite IH.
    change (length (y :: l)) with (S (length l)). rewrite S_INR. lra. }
  assert (BND : forall c, (forall x, In x l -> bpr_term alpha beta x <= c)%R -> (sumf l (bpr_term alpha beta) / INR (length l) <= c)%R).
  { intros c H. apply Rmult_le_reg_r with (INR (length l)); auto. unfold Rdiv. rewrite Rmult_assoc, Rinv_l, Rmult_1_r by lra.
    rewrite Rmult_comm, <- CL. apply Rsum_le. auto. }
  assert (BND' : forall c, (forall x, In x l -> c <= bpr_term alpha beta x)%R -> (c <= sumf l (bpr_term alpha beta) / INR (length l))%R).
  { intros c H. apply Rmult_le_reg_r with (INR (length l)); auto. unfold Rdiv. rewrite Rmult_assoc, Rinv_l, Rmult_1_r by lra.
    rewrite Rmult_comm, <- CL. apply Rsum_le. auto. }
  split; [|split; [|split]].
  - apply Rdiv_lt_0_compat; auto. destruct l as [|y l]; [congruence|]. apply Rsum_pos with y; auto; [intros z _; left; auto|left; auto].
  - intros F. rewrite Forall_forall in F. apply BND. intros x J. specialize (F x J). unfold bpr_term.
    destruct (Rle_lt_or_eq_dec (beta * snd x - alpha * fst x) 0 ltac:(lra)) as [L| ->]; [|rewrite exp_0; apply Req_le; f_equal; lra].
    left. pose proof (exp_pos (beta * snd x - alpha * fst x))%R. apply exp_increasing in L. rewrite exp_0 in L. apply ln_increasing; lra.
  - intros F. rewrite Forall_forall in F. apply BND'. intros x J. specialize (F x J). unfold bpr_term.
    destruct (Rle_lt_or_eq_dec 0 (beta * snd x - alpha * fst x) ltac:(lra)) as [L|<-]; [|rewrite exp_0; apply Req_le; f_equal; lra].
    left. apply exp_increasing in L. rewrite exp_0 in L. apply ln_increasing; lra.
  - intros l' F NE'. exists (sumf l' (bpr_term alpha beta) / INR (length l'))%R. split; [apply bpr_value; auto|].
    assert (LE : length l' = length l) by (clear -F; induction F; cbn; auto). rewrite LE. apply Rmult_lt_compat_r; [apply Rinv_0_lt_compat; auto|].
    assert (W : (sumf l' (bpr_term alpha beta) <= sumf l (bpr_term alpha beta) /\ (l <> l' -> sumf l' (bpr_term alpha beta) < sumf l (bpr_term alpha beta)))%R).
    { clear -F A B. induction F as [|x y l l' (P & Q) F (IH1 & IH2)]; [split; [apply Rle_refl|congruence]|].
      destruct (@bpr_term_mono alpha beta x y A B P Q) as (T1 & T2).
      change (sumf (y :: l') (bpr_term alpha beta)) with (bpr_term alpha beta y + sumf l' (bpr_term alpha beta))%R.
      change (sumf (x :: l) (bpr_term alpha beta)) with (bpr_term alpha beta x + sumf l (bpr_term alpha beta))%R.
      split; [lra|]. intros NE. destruct x as [x1 x2], y as [y1 y2].
      destruct (Req_dec x1 y1) as [->|N1]; [destruct (Req_dec x2 y2) as [->|N2]|].
      - assert (l <> l') by congruence. specialize (IH2 H). lra.
      - assert ((y1, x2) <> (y1, y2)) by congruence. specialize (T2 H). lra.
      - assert ((x1, x2) <> (y1, y2)) by congruence. specialize (T2 H). lra. }
    apply W; auto.
Qed.
Example C65_case : Forall2 (fun pn pn' : R * R => fst pn <= fst pn' /\ snd pn' <= snd pn)%R [(1, 0); (2, 3)]%R [(2, 0); (2, 2)]%R /\
  [(1, 0); (2, 3)]%R <> [(2, 0); (2, 2)]%R.
Proof. split; [repeat constructor; cbn; lra|]. intros E. injection E as E _. lra. Qed.

(** * C66 *)
Definition penalty (p : nat) (emb : list (list R)) : R := (sumf emb (fun row => sumf row (fun x => x ^ p)) / (INR p * INR (length emb)))%R.
Lemma emb_reg_value p decay embs : (0 < p)%nat -> emb_reg p decay embs = Ok (decay * sumf embs (penalty p))%R.
Proof.
  intros P. destruct p as [|p]; [lia|]. unfold emb_reg. do 2 f_equal. apply sumf_ext. intros emb. unfold rmean, penalty. rewrite sumf_map, map_length.
  unfold Rdiv. rewrite Rinv_mult. lra.
Qed.
Lemma even_pow_pos x k : (0 <= x ^ (2 * k))%R.
Proof. rewrite pow_mult. apply pow_le. apply pow2_ge_0. Qed.
Lemma even_pow_zero x k : (0 < k)%nat -> (x ^ (2 * k) = 0)%R -> x = 0%R.
Proof. intros K E. destruct (Req_dec x 0) as [|NE]; auto. exfalso. apply (pow_nonzero x (2 * k) NE E). Qed.
Lemma Rsum_zero {A} (l : list A) f : (forall a, In a l -> (0 <= f a)%R) -> sumf l f = 0%R -> forall a, In a l -> f a = 0%R.
Proof.
  intros P Z a I. destruct (Rle_lt_or_eq_dec 0 (f a) (P a I)) as [L|L]; auto. pose proof (Rsum_pos _ _ _ P I L). lra.
Qed.
Theorem C66_even : forall k decay embs, (0 < k)%nat -> (0 < decay)%R -> Forall (fun emb => emb <> []) embs ->
  exists x, emb_reg (2 * k) decay embs = Ok x /\ x = (decay * sumf embs (penalty (2 * k)))%R /\ (0 <= x)%R /\
    (x = 0%R <-> forall emb row y, In emb embs -> In row emb -> In y row -> y = 0%R) /\
    forall c, emb_reg (2 * k) decay (map (map (map (Rmult c))) embs) = Ok (c ^ (2 * k) * x)%R.
Proof.
  intros k decay embs K DP NE. exists (decay * sumf embs (penalty (2 * k)))%R. rewrite Forall_forall in NE.
  assert (LP : forall emb, In emb embs -> (0 < INR (2 * k) * INR (length emb))%R).
  { intros emb I. apply Rmult_lt_0_compat; apply lt_0_INR; [lia|]. specialize (NE emb I). destruct emb; [congruence|cbn; lia]. }
  assert (RP : forall row, (0 <= sumf row (fun x => x ^ (2 * k)))%R) by (intros row; apply Rsum_nonneg; intros; apply even_pow_pos).
  assert (PP : forall emb, In emb embs -> (0 <= penalty (2 * k) emb)%R).
  { intros emb I. unfold penalty. apply Rmult_le_pos; [apply Rsum_nonneg; intros; apply RP|]. left. apply Rinv_0_lt_compat, LP, I. }
  split; [apply emb_reg_value; lia|]. split; auto. split; [apply Rmult_le_pos; [lra|apply Rsum_nonneg; auto]|]. split.
  - split.
    + intros Z emb row y I1 I2 I3.
      assert (S0 : sumf embs (penalty (2 * k)) = 0%R) by (apply Rmult_eq_reg_l with decay; [rewrite Rmult_0_r; exact Z|lra]).
      pose proof (Rsum_zero _ _ PP S0 _ I1) as P0. unfold penalty in P0.
      assert (S1 : sumf emb (fun row => sumf row (fun x => x ^ (2 * k))%R) = 0%R).
      { apply Rmult_eq_reg_r with (/ (INR (2 * k) * INR (length emb)))%R; [rewrite Rmult_0_l; exact P0|]. apply Rinv_neq_0_compat. specialize (LP emb I1). lra. }
      pose proof (Rsum_zero _ _ (fun r _ => RP r) S1 _ I2) as S2. cbv beta in S2.
      apply (@even_pow_zero y k); auto. apply (Rsum_zero row (fun x => x ^ (2 * k))%R (fun x _ => even_pow_pos x k) S2 _ I3).
    + intros Z. replace (sumf embs (penalty (2 * k))) with 0%R; [lra|]. symmetry. apply (sumf_zero_in RT). intros emb I1. unfold penalty.
      rewrite (sumf_zero_in RT); [cbn; lra|]. intros row I2. apply (sumf_zero_in RT). intros y I3. rewrite (Z emb row y I1 I2 I3). apply pow_ne_zero. lia.
  - intros c. rewrite emb_reg_value by lia. f_equal. rewrite sumf_map.
    rewrite (sumf_ext embs (fun a => penalty (2 * k) (map (map (Rmult c)) a)) (fun a => nmul (c ^ (2 * k))%R (penalty (2 * k) a))).
    { rewrite (sumf_mul_l RT). cbn [nmul Num_R]. lra. }
    intros emb. unfold penalty. rewrite map_length, sumf_map.
    rewrite (sumf_ext emb (fun a => sumf (map (Rmult c) a) _) (fun row => nmul (c ^ (2 * k))%R (sumf row (fun x => x ^ (2 * k))%R))).
    { rewrite (sumf_mul_l RT). cbn [nmul Num_R]. unfold Rdiv. lra. }
    intros row. rewrite sumf_map, <- (sumf_mul_l RT). apply sumf_ext. intros x. cbn [nmul Num_R]. apply Rpow_mult_distr.
Qed.
Example C66_case : Forall (fun emb : list (list R) => emb <> []) [[[1; -2]; [3; 0]]; [[5]]]%R.
Proof. repeat constructor; discriminate. Qed.
(** * C121: odd powers and 0 *)
Theorem C121_odd_actual : forall k decay embs,
  emb_reg 0 decay [[[1%R]]] = Err ZeroDivisionError /\
  exists x, emb_reg (2 * k + 1) decay embs = Ok x /\ emb_reg (2 * k + 1) decay (map (map (map Ropp)) embs) = Ok (- x)%R.
Proof.
  intros k decay embs. split; [reflexivity|]. eexists. split; [apply emb_reg_value; lia|]. rewrite emb_reg_value by lia. f_equal. rewrite sumf_map.
  rewrite (sumf_ext embs (fun a => penalty (2 * k + 1) (map (map Ropp) a)) (fun a => nopp (penalty (2 * k + 1) a))).
  { rewrite (sumf_opp RT). cbn [nopp Num_R]. lra. }
  intros emb. unfold penalty. rewrite map_length, sumf_map.
  rewrite (sumf_ext emb (fun a => sumf (map Ropp a) _) (fun row => nopp (sumf row (fun x => x ^ (2 * k + 1))%R))).
  { rewrite (sumf_opp RT). cbn [nopp Num_R]. unfold Rdiv. lra. }
  intros row. rewrite sumf_map, <- (sumf_opp RT). apply sumf_ext. intros x. cbn [nopp Num_R]. rewrite !pow_add, !pow_1, !pow_mult.
  replace ((- x) ^ 2)%R with (x ^ 2)%R by (cbn; lra). lra.
Qed.
(** a "penalty" that rewards large entries *)
Theorem C121_negative_refuted : exists x, emb_reg 1 1 [[[-1; -2]]]%R = Ok x /\ (x < 0)%R.
Proof. eexists. split; [apply emb_reg_value; lia|]. unfold penalty. cbn. lra. Qed.

(** * C68 *)
(** one HyperGCN layer is a GCN layer on the cached graph, or on the graph built from this hypergraph when none is given *)
Theorem C68_layer : forall (T : Type) (N : Num T) (th : lin (T := T)) t med amax amin (hs : hypergraph T) X Y,
  linear th X = Ok Y ->
  (forall g, hypergcn_conv th t med amax amin hs (Some g) X = gcn_conv th t g X) /\
  (forall g, g_hypergcn (h_nv (st_raw hs)) med false amax amin hs = Ok g -> hypergcn_conv th t med amax amin hs None X = gcn_conv th t g X).
Proof.
  intros T N th t med amax amin hs X Y E. unfold hypergcn_conv, gcn_conv. rewrite E. cbn [rbind]. split; [reflexivity|]. intros g ->. reflexivity.
Qed.
(** with [fast=False] no call depends on earlier calls *)
Theorem C68_slow : forall (T : Type) (N : Num T) (m : hgcn (T := T)) calls c, m_fast m = false ->
  hypergcn_calls m c calls = map (fun x => let '(o1, o2, hs, X) := x in snd (hypergcn_forward m None o1 o2 hs X)) calls.
Proof.
  intros T N m calls c F. revert c. induction calls as [|[[[o1 o2] hs] X] r IH]; intros c; cbn [hypergcn_calls map]; auto.
  unfold hypergcn_forward at 1 2. rewrite F. cbn [snd]. rewrite IH. reflexivity.
Qed.
(** * C123: with [fast=True] (the default) every later call uses the graph of the first hypergraph *)
Theorem C123_stale_graph_actual : forall (T : Type) (N : Num T) (m : hgcn (T := T)) o1 o2 hs X g r, m_fast m = true ->
  g_hypergcn (h_nv (st_raw hs)) (m_med m) false (fst o1) (snd o1) hs = Ok g ->
  hypergcn_calls m None ((o1, o2, hs, X) :: r) =
  map (fun X => rbind (gcn_conv (m_th1 m) (m_t1 m) g X) (fun Y => gcn_conv (m_th2 m) (m_t2 m) g (map vec Y))) (X :: map snd r).
Proof.
  intros T N m o1 o2 hs X g r F E. cbn [hypergcn_calls]. unfold hypergcn_forward at 1. rewrite F, E. cbn [map]. f_equal.
  clear E. induction r as [|[[[p1 p2] hs'] X'] r IH]; cbn [hypergcn_calls map snd]; auto.
  unfold hypergcn_forward at 1. rewrite F. rewrite IH. reflexivity.
Qed.
(** a failing first call leaves nothing behind *)
Theorem C123_first_fails : forall (T : Type) (N : Num T) (m : hgcn (T := T)) o1 o2 hs X x r, m_fast m = true ->
  g_hypergcn (h_nv (st_raw hs)) (m_med m) false (fst o1) (snd o1) hs = Err x ->
  hypergcn_calls m None ((o1, o2, hs, X) :: r) = Err x :: hypergcn_calls m None r.
Proof. intros T N m o1 o2 hs X x r F E. cbn [hypergcn_calls]. unfold hypergcn_forward at 1. rewrite F, E. reflexivity. Qed.
Local Notation q z := (Q2Qc (inject_Z z)).
(** two hypergraphs on the same vertices: the answer for the second one is that of the first *)
Definition two_models (fast : bool) : hgcn (T := Qc) :=
  mkhgcn fast false (one_to_one (q 1) (q 0)) (plain true) (one_to_one (q 1) (q 0)) (plain true).
Definition hg_of (es : list (list Z)) : hypergraph Qc :=
  match h_new 8 (Some (HMany es)) WNone None MMean with Ok s => s | Err _ => mkSt (mkHRaw 0 None []) [] end.
Definition second_hg : hypergraph Qc := hg_of [[2; 3]; [2; 3; 4; 5]; [2; 3; 4; 6]; [2; 3; 4; 7]].
Definition ends : (list Z -> nat) * (list Z -> nat) := (fun _ => 0%nat, fun _ => 1%nat).
Definition at3 (r : res (list (list Qc))) : Q := match r with Ok Y => this (entry Y 0 3) | Err _ => 99%Q end.
Theorem C123_stale_graph_refuted :
  let X := [fun v => if v =? 2 then q 1 else q 0] in
  let runs fast := hypergcn_calls (two_models fast) None [(ends, ends, hg_of [[0; 1]], X); (ends, ends, second_hg, X)] in
  map at3 (runs true) = [0%Q; 0%Q] /\ map at3 (runs false) = [0%Q; (40 # 81)%Q].
Proof. split; vm_compute; reflexivity. Qed.

(** * C127: LightGCN *)
Section Light.
  Context {T : Type} {N : Num T}.
  (** [l] smoothings of [x] with the coefficients [c] *)
  Fixpoint smooth_pow (n : Z) (c : Z -> Z -> T) (l : nat) (x : Z -> T) (i : Z) : T :=
    match l with O => x i | S l' => sumf (range n) (fun j => nmul (c i j) (smooth_pow n c l' x j)) end.
  (** adjacency of both sides together with one self-loop per vertex, normalised on both sides *)
  Definition bi_coeff (nu nv : Z) (g : wmap T) (i j : Z) : T :=
    let hat a b := nadd (block nu g a b) (if a =? b then n1 else nz) in
    let deg a := sumf (range (nu + nv)) (fun b => hat a b) in nmul (nmul (nisq (deg i)) (hat i j)) (nisq (deg j)).
  Lemma smooth_pow_ext n c l x y : (forall i, 0 <= i < n -> x i = y i) -> forall i, 0 <= i < n -> smooth_pow n c l x i = smooth_pow n c l y i.
  Proof. intros E. induction l as [|l IH]; intros i I; cbn; auto. apply sumf_ext_in. intros j J. apply range_In in J. rewrite IH; auto. Qed.
  Lemma smooth_pow_S n c l x : forall i, smooth_pow n c l (fun i => sumf (range n) (fun j => nmul (c i j) (x j))) i = smooth_pow n c (S l) x i.
  Proof. induction l as [|l IH]; intros i; [reflexivity|]. cbn [smooth_pow] in *. apply sumf_ext. intros j. rewrite IH. reflexivity. Qed.
  Lemma list_vec (x : list T) n : length x = Z.to_nat n -> x = map (vec x) (range n).
  Proof.
    intros L. apply nth_ext with nz nz; [rewrite map_length, range_length; auto|]. intros k K. rewrite L in K.
    rewrite <- (Nat2Z.id k) at 2. rewrite nth_map_range by lia. unfold vec. rewrite Nat2Z.id. reflexivity.
  Qed.
  Lemma light_layers_eq n c (s : bigraph T) k : (k <> 0%nat -> forall X, as_vals (snd (b_query (bqGcn X None) s)) = Ok (map (fun i => sumf (range n) (fun j => nmul (c i j) (X j))) (range n))) ->
    forall x, length x = Z.to_nat n -> light_layers k s x = Ok (map (fun l => map (smooth_pow n c l (vec x)) (range n)) (seq 0 (S k))).
  Proof.
    induction k as [|k IH]; intros A x L.
    - cbn. f_equal. f_equal. apply list_vec; auto.
    - cbn [light_layers]. rewrite A by discriminate. cbn [rbind]. rewrite IH by (auto; rewrite map_length, range_length; auto). cbn [rbind]. f_equal.
      change (seq 0 (S (S k))) with (0%nat :: seq 1 (S k)). cbn [map]. f_equal; [apply list_vec; auto|].
      rewrite <- seq_shift, map_map. apply map_ext. intros l. apply map_ext_in. intros i I. apply range_In in I.
      rewrite <- smooth_pow_S. apply smooth_pow_ext; auto. intros j J. rewrite vec_map by auto. reflexivity.
  Qed.
End Light.

Theorem C127_lightgcn : forall (T : Type) (N : Num T), ring_theory (@nz T N) n1 nadd nmul nsub nopp eq ->
  forall nu nv e w m ops (s : bigraph T) k U I a b, 0 <= nu -> b_reach nu nv e w m ops s -> nonneg_new e -> Forall nonneg_bop ops ->
  0 <= a -> 0 <= b -> length U = length I -> Forall (fun x => length x = Z.to_nat a) U -> Forall (fun x => length x = Z.to_nat b) I ->
  (k = 0%nat \/ a + b = nu + nv -> exists O, lightgcn k U I s = Ok O /\ length O = length U /\
    forall j, (j < length U)%nat ->
      let x i := if i <? a then nth (Z.to_nat i) (nth j U []) nz else nth (Z.to_nat (i - a)) (nth j I []) nz in
      let avg i := nmul (sumf (seq 0 (S k)) (fun l => smooth_pow (a + b) (bi_coeff nu nv (b_spec nu nv e w m ops)) l x i)) (ninv (sumf (seq 0 (S k)) (fun _ => n1))) in
      nth j O ([], []) = (map avg (range a), map (fun i => avg (a + i)) (range b))) /\
  (k <> 0%nat -> a + b <> nu + nv -> U <> [] -> lightgcn k U I s = Err RuntimeError).
Proof.
  intros T N RT nu nv e w m ops s k U I a b PU H NE NO PA PB LUI FU FI.
  destruct (breach_rel H) as (_ & _ & NU & NV & PV).
  assert (ROWS : b_nu (st_raw s) + b_nv (st_raw s) = nu + nv) by lia.
  set (c := bi_coeff nu nv (b_spec nu nv e w m ops)). set (n := a + b).
  assert (A : a + b = nu + nv -> forall X, as_vals (snd (b_query (bqGcn X None) s)) = Ok (map (fun i => sumf (range n) (fun j => nmul (c i j) (X j))) (range n))).
  { intros EQ X. unfold n. rewrite EQ. destruct (C26_gcn_matrix RT PU H NE NO) as (L & _ & D & Q). destruct (Q X) as (y & EY & DY). apply as_vals_range. exists y. split; [exact EY|].
    intros i II. rewrite DY. apply sumf_ext_in. intros j J. apply range_In in J. destruct (D i j II J) as (-> & _). reflexivity. }
  rewrite Forall_forall in FU, FI.
  assert (LEN : forall u i, In (u, i) (combine U I) -> length u = Z.to_nat a /\ length i = Z.to_nat b).
  { intros u i J. split; [apply FU; eapply in_combine_l; eauto|apply FI; eapply in_combine_r; eauto]. }
  split.
  - intros EQ.
    set (avg := fun (x : Z -> T) i => nmul (sumf (seq 0 (S k)) (fun l => smooth_pow n c l x i)) (ninv (sumf (seq 0 (S k)) (fun _ => n1)))).
    set (f := fun ui : list T * list T => let x := vec (fst ui ++ snd ui) in (map (avg x) (range a), map (fun i => avg x (a + i)) (range b))).
    exists (map f (combine U I)). split; [|split].
    + unfold lightgcn. apply map_res_ok. intros [u i] J. destruct (LEN u i J) as (LU & LI). unfold light_col. cbn [fst snd]. rewrite app_length, LU, LI, ROWS.
      replace (Nat.eqb k 0 || (Z.of_nat (Z.to_nat a + Z.to_nat b) =? nu + nv)) with true.
      2:{ symmetry. apply orb_true_iff. destruct EQ as [->|EQ]; [left; reflexivity|right; apply Z.eqb_eq; lia]. }
      rewrite (@light_layers_eq T N n c s k) by (first [intros NK; apply A; destruct EQ; [congruence|assumption]|rewrite app_length; unfold n; lia]). cbn [rbind]. f_equal.
      assert (ME : mean_of (Z.to_nat a + Z.to_nat b) (map (fun l => map (smooth_pow n c l (vec (u ++ i))) (range n)) (seq 0 (S k))) =
                   map (avg (vec (u ++ i))) (range n)).
      { assert (RN : range n = map Z.of_nat (seq 0 (Z.to_nat a + Z.to_nat b))) by (unfold range; do 2 f_equal; unfold n; lia).
        etransitivity; [|rewrite RN, map_map; reflexivity]. unfold mean_of. apply map_ext_in. intros p P. apply in_seq in P.
        rewrite !sumf_map. unfold avg. f_equal. apply sumf_ext. intros l. rewrite <- (Nat2Z.id p) at 1. apply nth_map_range. unfold n. lia. }
      rewrite ME. unfold f. cbn [fst snd]. f_equal.
      * rewrite firstn_map. f_equal. unfold range. rewrite firstn_map. f_equal. unfold n. replace (Z.to_nat (a + b)) with (Z.to_nat a + Z.to_nat b)%nat by lia.
        rewrite seq_app. rewrite firstn_app, seq_length, Nat.sub_diag. cbn [firstn]. rewrite app_nil_r. apply firstn_all2. rewrite seq_length. lia.
      * rewrite skipn_map. unfold range. rewrite skipn_map. unfold n. replace (Z.to_nat (a + b)) with (Z.to_nat a + Z.to_nat b)%nat by lia.
        rewrite seq_app, skipn_app, seq_length, Nat.sub_diag. rewrite skipn_all2 by (rewrite seq_length; lia). cbn [skipn app].
        rewrite !map_map. replace (0 + Z.to_nat a)%nat with (Z.to_nat a + 0)%nat by lia.
        clear -PA. induction (Z.to_nat b) as [|m0 IH] using nat_ind; [reflexivity|].
        rewrite !seq_S, !map_app, IH. cbn [map]. do 3 f_equal. lia.
    + rewrite map_length, combine_length. lia.
    + intros j J x. set (ui := nth j (combine U I) ([], [])).
      assert (UI : ui = (nth j U [], nth j I [])) by (apply combine_nth; auto).
      assert (INJ : In ui (combine U I)) by (apply nth_In; rewrite combine_length; lia).
      rewrite (nth_indep _ ([], []) (f ([], []))) by (rewrite map_length, combine_length; lia). rewrite map_nth. fold ui. rewrite UI in *. destruct (LEN _ _ INJ) as (LU & LI).
      unfold f. cbn [fst snd].
      assert (EX : forall p, 0 <= p < n -> vec (nth j U [] ++ nth j I []) p = x p).
      { intros p P. unfold vec, x. destruct (Z.ltb_spec p a); [apply app_nth1; lia|]. rewrite app_nth2 by lia. f_equal. lia. }
      assert (EV : forall p, 0 <= p < n -> avg (vec (nth j U [] ++ nth j I [])) p = avg x p).
      { intros p P. unfold avg. f_equal. apply sumf_ext. intros l. apply smooth_pow_ext; auto. }
      f_equal; apply map_ext_in; intros p P; apply range_In in P; apply EV; unfold n; lia.
  - intros NK NEQ NU0. unfold lightgcn. destruct U as [|u U]; [congruence|]. destruct I as [|i I]; [discriminate LUI|]. cbn [combine map_res].
    destruct (LEN u i (or_introl eq_refl)) as (LU & LI).
    unfold light_col at 1. cbn [fst snd]. rewrite app_length, LU, LI, ROWS.
    replace (Nat.eqb k 0) with false by (symmetry; apply Nat.eqb_neq; auto).
    replace (Z.of_nat (Z.to_nat a + Z.to_nat b) =? nu + nv) with false by (symmetry; apply Z.eqb_neq; lia). reflexivity.
Qed.
Local Ltac qceq := repeat first [ match goal with |- @eq Qc _ _ => apply Qc_is_canon; vm_compute; reflexivity end | reflexivity | f_equal ].
Example C127_case : exists s : bigraph Qc,
  b_reach 3 3 (Some (EMany [(0, 0); (0, 1); (0, 2); (1, 0); (1, 1); (1, 2); (2, 0); (2, 1); (2, 2)])) WNone MMean [] s /\
  lightgcn 1 [[q 0; q 4; q 8]] [[q 0; q 0; q 12]] s = Ok [([Q2Qc (3 # 2); q 4; Q2Qc (13 # 2)], [Q2Qc (3 # 2); Q2Qc (3 # 2); q 9])] /\
  lightgcn 0 [[q 0; q 4; q 8]] [[q 0; q 0; q 12]] s = Ok [([q 0; q 4; q 8], [q 0; q 0; q 12])] /\
  lightgcn 1 [[q 0; q 4]] [[q 0; q 0; q 12]] s = Err RuntimeError.
Proof.
  eexists. split; [eexists; split; [reflexivity|reflexivity]|]. split; [vm_compute; qceq|]. split; [vm_compute; qceq|vm_compute; reflexivity].
Qed.

(** * C128: several heads *)
Section Heads.
  Context {T : Type} {N : Num T}.
  Lemma zip_shaped f (a b : list (list T)) c n : shaped a c n -> shaped b c n -> shaped (zip_with f a b) c n.
  Proof.
    intros (A1 & A2) (B1 & B2). unfold zip_with. split; [rewrite map_length, combine_length; lia|]. rewrite Forall_forall in *. intros x X.
    apply in_map_iff in X as ([u v] & <- & X). cbn [fst snd]. rewrite map_length, combine_length.
    rewrite (A2 u) by (eapply in_combine_l; eauto). rewrite (B2 v) by (eapply in_combine_r; eauto). lia.
  Qed.
  Lemma zip_entry f (a b : list (list T)) c n j i : shaped a c n -> shaped b c n -> (j < c)%nat -> 0 <= i < n ->
    entry (zip_with f a b) j i = f (entry a j i) (entry b j i).
  Proof.
    intros (A1 & A2) (B1 & B2) J I. unfold entry, zip_with. rewrite Forall_forall in *.
    set (F := fun cd : list T * list T => _). change (@nil T) with (F ([], [])) at 1. rewrite map_nth, combine_nth2 by lia. unfold F. cbn [fst snd].
    assert (LA : length (nth j a []) = Z.to_nat n) by (apply A2, nth_In; lia). assert (LB : length (nth j b []) = Z.to_nat n) by (apply B2, nth_In; lia).
    set (G := fun xy : T * T => f (fst xy) (snd xy)). rewrite (nth_indep _ nz (G (nz, nz))) by (rewrite map_length, combine_length; lia).
    rewrite map_nth, combine_nth2 by lia. reflexivity.
  Qed.
  Lemma heads_fold f (l : list (list (list T))) c n : forall a, shaped a c n -> Forall (fun b => shaped b c n) l ->
    shaped (fold_left (zip_with f) l a) c n /\
    forall j i, (j < c)%nat -> 0 <= i < n -> entry (fold_left (zip_with f) l a) j i = fold_left (fun x b => f x (entry b j i)) l (entry a j i).
  Proof.
    induction l as [|b l IH]; intros a A F; cbn [fold_left]; [auto|]. inversion F as [|? ? FB FL]; subst. destruct (IH (zip_with f a b)) as (S & E); auto using zip_shaped.
    split; auto. intros j i J I. rewrite E by auto. erewrite zip_entry by eauto. reflexivity.
  Qed.
  Lemma shaped_same (a b : list (list T)) c n : shaped a c n -> shaped b c n -> same_shape a b = true.
  Proof.
    intros (A1 & A2) (B1 & B2). unfold same_shape. rewrite Forall_forall in *. apply andb_true_iff. split; [apply Nat.eqb_eq; lia|].
    apply forallb_forall. intros x X. apply forallb_forall. intros y Y. apply Nat.eqb_eq. rewrite (A2 x X), (B2 y Y). auto.
  Qed.
  Lemma map_res_id {A} (l : list A) : map_res (fun h => h) (map Ok l) = Ok l.
  Proof. induction l as [|a l IH]; cbn; auto. rewrite IH. reflexivity. Qed.
End Heads.
(** the heads agree on the shape: concatenation puts the channels side by side, mean, max and sum combine entry by entry *)
Theorem C128_sum_mean : forall (T : Type) (N : Num T), ring_theory (@nz T N) n1 nadd nmul nsub nopp eq ->
  forall outs c n, outs <> [] -> Forall (fun Y : list (list T) => shaped Y c n) outs -> exists S M,
  multi_head "sum" (map Ok outs) = Ok S /\ multi_head "mean" (map Ok outs) = Ok M /\ multi_head "concat" (map Ok outs) = Ok (concat outs) /\
  shaped S c n /\ shaped M c n /\ forall j i, (j < c)%nat -> 0 <= i < n ->
    entry S j i = sumf outs (fun Y => entry Y j i) /\ entry M j i = nmul (sumf outs (fun Y => entry Y j i)) (ninv (sumf outs (fun _ => n1))).
Proof.
  intros T N RT outs c n NE F. destruct outs as [|a r]; [congruence|]. inversion F as [|? ? FA FR]; subst.
  destruct (@heads_fold T N nadd r c n a FA FR) as (SH & E).
  assert (SM : forallb (same_shape a) r = true) by (apply forallb_forall; intros b B; rewrite Forall_forall in FR; eapply shaped_same; eauto).
  exists (fold_left (zip_with nadd) r a), (map (map (fun x => nmul x (ninv (sumf (a :: r) (fun _ => n1))))) (fold_left (zip_with nadd) r a)).
  unfold multi_head. rewrite map_res_id. cbn [rbind]. rewrite SM. cbn [String.eqb Ascii.eqb Bool.eqb fold_heads].
  split; [reflexivity|]. split; [reflexivity|]. split.
  { replace (forallb _ (a :: r)) with true; [reflexivity|]. symmetry. apply forallb_forall. intros b B. apply forallb_forall. intros x X. apply forallb_forall. intros y Y.
    apply Nat.eqb_eq. rewrite Forall_forall in F. destruct FA as (_ & FA), (F b B) as (_ & FB). rewrite Forall_forall in FA, FB. rewrite (FA y Y), (FB x X). auto. }
  assert (ES : forall j i, (j < c)%nat -> 0 <= i < n -> entry (fold_left (zip_with nadd) r a) j i = sumf (a :: r) (fun Y => entry Y j i)).
  { intros j i J I. rewrite E by auto. cbn [sumf]. generalize (entry a j i). clear -RT. induction r as [|b r IH]; intros x; cbn [fold_left sumf].
    - rewrite (Radd_comm RT), (Radd_0_l RT). reflexivity.
    - rewrite IH, (Radd_assoc RT). reflexivity. }
  split; [exact SH|]. split.
  { destruct SH as (S1 & S2). split; [rewrite map_length; auto|]. rewrite Forall_forall in *. intros x X. apply in_map_iff in X as (y & <- & Y). rewrite map_length. auto. }
  intros j i J I. split; [auto|]. rewrite <- ES by auto. destruct SH as (S1 & S2). rewrite Forall_forall in S2. unfold entry at 1.
  set (g := fun x => nmul x _). change (@nil T) with (map g []). rewrite map_nth.
  rewrite (nth_indep _ nz (g nz)) by (rewrite map_length, S2 by (apply nth_In; lia); lia). rewrite map_nth. reflexivity.
Qed.
Theorem C128_max : forall outs c n, outs <> [] -> Forall (fun Y : list (list R) => shaped Y c n) outs -> exists M,
  multi_head "max" (map Ok outs) = Ok M /\ shaped M c n /\ forall j i, (j < c)%nat -> 0 <= i < n ->
    (exists Y, In Y outs /\ entry M j i = entry Y j i) /\ forall Y, In Y outs -> (entry Y j i <= entry M j i)%R.
Proof.
  intros outs c n NE F. destruct outs as [|a r]; [congruence|]. inversion F as [|? ? FA FR]; subst.
  destruct (@heads_fold R _ nmax r c n a FA FR) as (SH & E).
  assert (SM : forallb (same_shape a) r = true) by (apply forallb_forall; intros b B; rewrite Forall_forall in FR; eapply shaped_same; eauto).
  exists (fold_left (zip_with nmax) r a). unfold multi_head. rewrite map_res_id. cbn [rbind]. rewrite SM. cbn [String.eqb Ascii.eqb Bool.eqb fold_heads].
  split; [reflexivity|]. split; [exact SH|]. intros j i J I. rewrite E by auto. clear.
  assert (G : forall x, (fold_left (fun x b => nmax x (entry b j i)) r x = x \/ exists Y, In Y r /\ fold_left (fun x b => nmax x (entry b j i)) r x = entry Y j i) /\
    (x <= fold_left (fun x b => nmax x (entry b j i)) r x)%R /\ forall Y, In Y r -> (entry Y j i <= fold_left (fun x b => nmax x (entry b j i)) r x)%R).
  { induction r as [|b r IH]; intros x; cbn [fold_left]; [repeat split; [left; auto|lra|intros Y []]|].
    destruct (IH (nmax x (entry b j i))) as (A & B & C). change (nmax x (entry b j i)) with (Rmax x (entry b j i)) in *.
    pose proof (Rmax_l x (entry b j i)). pose proof (Rmax_r x (entry b j i)). split; [|split].
    - destruct A as [A|(Y & IY & A)]; [|right; exists Y; split; [right; auto|exact A]]. rewrite A. unfold Rmax. destruct (Rle_dec x (entry b j i)); [right; exists b; split; [left; auto|auto]|left; auto].
    - lra.
    - intros Y [<-|IY]; [lra|]. apply C. auto. }
  destruct (G (entry a j i)) as (A & B & C). split.
  - destruct A as [A|(Y & IY & A)]; [exists a|exists Y]; split; auto; [left|right]; auto.
  - intros Y [<-|IY]; auto.
Qed.
Theorem C128_refused : forall (T : Type) (N : Num T),
  (forall outs c n r, outs <> [] -> Forall (fun Y : list (list T) => shaped Y c n) outs -> ~ In r ["concat"; "mean"; "max"; "sum"] ->
    multi_head r (map Ok outs) = Err ValueError) /\
  (forall r, multi_head (T := T) r [] = Err RuntimeError) /\
  (forall r pre x post, multi_head (T := T) r (map Ok pre ++ Err x :: post) = Err x).
Proof.
  intros T N. split; [|split].
  - intros outs c n r NE F NI. destruct outs as [|a l]; [congruence|]. inversion F as [|? ? FA FR]; subst.
    assert (SM : forallb (same_shape a) l = true) by (apply forallb_forall; intros b B; rewrite Forall_forall in FR; eapply shaped_same; eauto).
    unfold multi_head. rewrite map_res_id. cbn [rbind]. rewrite SM.
    destruct (String.eqb_spec r "concat") as [->|]; [exfalso; apply NI; cbn; auto|]. destruct (String.eqb_spec r "mean") as [->|]; [exfalso; apply NI; cbn; auto|].
    destruct (String.eqb_spec r "max") as [->|]; [exfalso; apply NI; cbn; auto|]. destruct (String.eqb_spec r "sum") as [->|]; [exfalso; apply NI; cbn; auto|]. reflexivity.
  - reflexivity.
  - intros r pre x post. unfold multi_head. replace (map_res _ _) with (@Err (list (list (list T))) x); [reflexivity|].
    induction pre as [|a pre IH]; cbn; auto. rewrite <- IH. reflexivity.
Qed.
Example C128_case : multi_head "mean" [Ok [[q 1; q 2]]; Ok [[q 3; q 4]]] = Ok [[q 2; q 3]] /\ shaped [[q 1; q 2]] 1 2 /\
  multi_head "concat" [Ok [[q 1; q 2]]; Ok [[q 3; q 4]]] = Ok [[q 1; q 2]; [q 3; q 4]].
Proof. split; [vm_compute; qceq|]. split; [split; [reflexivity|repeat constructor]|reflexivity]. Qed.
