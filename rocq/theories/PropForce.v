(** Property C157: where one step of the force-directed layout moves the vertices. *)
From Coq Require Import String Reals Lra.
From Verif Require Import Num PyDict PyDictFacts CooFacts ModelBase ModelConv ModelUtils ModelMetrics RealFacts MetricFacts ModelVis SpecVis VisFacts PropVis.
Set Implicit Arguments.
Local Open Scope list_scope.
Local Open Scope R_scope.

(** ** what should happen; [c] is one coordinate ([fst] or [snd]) *)
Definition sep (a b : R * R) : R := sqrt ((fst a - fst b) ^ 2 + (snd a - snd b) ^ 2).
Definition holds (e : list Z) (v : Z) : bool := existsb (Z.eqb v) e.
(** the mean of the positions of the vertices of an edge *)
Definition middle (n : Z) (p : Z -> R * R) (e : list Z) : R * R :=
  let l := filter (holds e) (range n) in
  (sumf l (fun v => fst (p v)) / INR (length l), sumf l (fun v => snd (p v)) / INR (length l)).
(** every edge pulls its vertices to its middle, like a spring of length 1/10 *)
Definition springs (c : R * R -> R) n (E : list (list Z)) (p : Z -> R * R) (v : Z) : R :=
  sumf (filter (fun e => holds e v) E) (fun e => let k := middle n p e in
    if Req_EM_T (sep k (p v)) 0 then 0 else (sep k (p v) - 1 / 10) / sep k (p v) * (c k - c (p v))).
(** vertices push each other away, with the inverse square of their distance *)
Definition pushes (c : R * R -> R) n (p : Z -> R * R) (v : Z) : R :=
  sumf (filter (fun u => negb (Z.eqb v u)) (range n)) (fun u => (c (p v) - c (p u)) / sep (p v) (p u) ^ 3).
(** so do the middles of edges, and the vertices of an edge move with it *)
Definition edge_pushes (c : R * R -> R) n (E : list (list Z)) (p : Z -> R * R) (v : Z) : R :=
  sumf (filter (fun i => holds (nth i E []) v) (seq 0 (length E))) (fun i =>
    sumf (filter (fun j => negb (Nat.eqb i j)) (seq 0 (length E))) (fun j =>
      let a := middle n p (nth i E []) in let b := middle n p (nth j E []) in (c a - c b) / sep a b ^ 3)).
Definition total (c : R * R -> R) n E p (pull : R) (push : Z -> R) (push_e : option R) (centre : Z -> R * R) (grav : Z -> R) (v : Z) : R :=
  pull * springs c n E p v + push v * pushes c n p v + match push_e with Some k => k * edge_pushes c n E p v | None => 0 end
  + grav v * (c (centre v) - c (p v)).
Definition limited (x : R) : R := Rmin (Rmax x (- (1 / 10))) (1 / 10).
(** no two vertices at the same place; no two edges with the same middle, if edges push each other *)
Definition apart n E (p : Z -> R * R) (push_e : option R) : Prop :=
  (forall u v, (0 <= u < n)%Z -> (0 <= v < n)%Z -> u <> v -> p u <> p v) /\
  (push_e = None \/ forall i j, (i < length E)%nat -> (j < length E)%nat -> i <> j -> middle n p (nth i E []) <> middle n p (nth j E [])).

(** ** proofs *)
Lemma sep_dist a b : sep a b = dist a b.
Proof. reflexivity. Qed.
Lemma dist_sym a b : dist a b = dist b a.
Proof. unfold dist, vlen, psub. cbn [fst snd]. f_equal. ring. Qed.
Lemma sumf_filter_R {A} (f : A -> bool) (g : A -> R) l : sumf (filter f l) g = sumf l (fun x => if f x then g x else 0).
Proof. induction l as [|a l IH]; cbn; auto. destruct (f a); cbn; rewrite IH; cbn; lra. Qed.
Lemma sumf_nth {A} (d : A) (g : A -> R) l : sumf l g = sumf (seq 0 (length l)) (fun i => g (nth i l d)).
Proof.
  induction l as [|a l IH]; cbn [length seq sumf]; auto. cbn. f_equal. rewrite <- seq_shift, sumf_map. rewrite IH. reflexivity.
Qed.
Definition is_pt (n : Z) (f : Z -> fpt) (g : Z -> R * R) : Prop := forall v, (0 <= v < n)%Z -> f v = lift_pt (g v).
Lemma add_force_is n f force a b : is_pt n f a -> is_pt n force b -> exists r, add_force n f force = Ok r /\ is_pt n r (fun v => padd (b v) (a v)).
Proof.
  intros F G. unfold add_force. replace (existsb (fun v => fp_nan (f v)) (vs n)) with false.
  - eexists. split; [reflexivity|]. intros v V. rewrite F, G by auto. reflexivity.
  - symmetry. apply not_true_is_false. intros E. apply existsb_exists in E as (v & I & E). apply in_vs in I. rewrite F in E by auto. discriminate.
Qed.
Lemma fsum_fin (l : list R) : fsum (map (@Fin R) l) = Fin (sumf l (fun x => x)).
Proof. induction l as [|a l IH]; auto. cbn [map fsum fold_right]. unfold fsum in IH. rewrite IH. reflexivity. Qed.
Lemma fpsum_lift {A} (l : list A) (f : A -> fpt) g : (forall a, In a l -> f a = lift_pt (g a)) -> fpsum (map f l) = lift_pt (sumf l (fun a => fst (g a)), sumf l (fun a => snd (g a))).
Proof.
  intros E. unfold fpsum, lift_pt. cbn [fst snd]. rewrite !map_map. f_equal.
  - rewrite (map_ext_in (fun x => fst (f x)) (fun x => Fin (fst (g x)))) by (intros a I; rewrite E by auto; reflexivity).
    rewrite <- (map_map (fun x => fst (g x)) (@Fin R)), fsum_fin, sumf_map. reflexivity.
  - rewrite (map_ext_in (fun x => snd (f x)) (fun x => Fin (snd (g x)))) by (intros a I; rewrite E by auto; reflexivity).
    rewrite <- (map_map (fun x => snd (g x)) (@Fin R)), fsum_fin, sumf_map. reflexivity.
Qed.
Lemma repulsion_is {I} (eqI : I -> I -> bool) (ids : list I) jj pos i :
  (forall k, In k ids -> eqI i k = false -> pos i <> pos k) ->
  repulsion eqI ids jj pos i = lift_pt (sumf (filter (fun k => negb (eqI i k)) ids) (fun k => (fst (pos i) - fst (pos k)) / sep (pos i) (pos k) ^ 3),
                                        sumf (filter (fun k => negb (eqI i k)) ids) (fun k => (snd (pos i) - snd (pos k)) / sep (pos i) (pos k) ^ 3)).
Proof.
  intros D. unfold repulsion. rewrite !sumf_filter_R.
  rewrite (fpsum_lift _ _ (fun k => if negb (eqI i k) then ((fst (pos i) - fst (pos k)) / sep (pos i) (pos k) ^ 3, (snd (pos i) - snd (pos k)) / sep (pos i) (pos k) ^ 3) else (0, 0))).
  - f_equal. f_equal; apply sumf_ext; intros k; destruct (eqI i k); reflexivity.
  - intros k K. destruct (eqI i k) eqn:E; [reflexivity|]. cbn [negb]. specialize (D k K E).
    assert (P : 0 < sep (pos i) (pos k)). { rewrite sep_dist. destruct (vlen_nonneg (psub (pos i) (pos k))) as [L|L]; auto. destruct D. apply dist_0. unfold dist. lra. }
    unfold safe_div. change (vlen (psub (pos i) (pos k))) with (sep (pos i) (pos k)). rewrite <- sep_dist. destruct (Req_EM_T (sep (pos i) (pos k)) 0); [lra|].
    unfold fdiv. cbn [neqb Num_R]. unfold lift_pt, pscale, psub. cbn [fst snd].
    match goal with |- context [if ?b then _ else _] => replace b with false end.
    2:{ symmetry. unfold neqb. cbn [nleb Ext_R nz Num_R]. pose proof (pow_lt _ 2 P). destruct (Rle_dec (sep (pos i) (pos k) ^ 2) 0); [lra|reflexivity]. }
    unfold fpmul. cbn [fst snd fmul nmul Num_R ninv]. unfold Rinv0. destruct (Req_EM_T (sep (pos i) (pos k) ^ 2) 0) as [Z0|_]; [pose proof (pow_lt _ 2 P); lra|]. f_equal; f_equal; field; lra.
Qed.

Section Step1.
  Variables (n : Z) (E : list (list Z)) (H : Z -> nat -> R) (p : Z -> R * R).
  Hypothesis HH : forall v e, H v e = if holds (nth e E []) v then 1 else 0.
  Lemma middle_is e : (exists v, (0 <= v < n)%Z /\ In v (nth e E [])) -> e_center n H p e = middle n p (nth e E []).
  Proof.
    intros (w & W & I). unfold e_center, middle, vs.
    assert (D : sumf (range n) (fun v => H v e) = INR (length (filter (holds (nth e E [])) (range n)))).
    { rewrite (sumf_ext _ _ (fun v => if holds (nth e E []) v then 1 else 0)) by (intros; apply HH). rewrite <- sumf_filter_R.
      generalize (filter (holds (nth e E [])) (range n)). induction l as [|a l IH]; [reflexivity|]. cbn [length sumf]. rewrite S_INR. cbn. rewrite IH. lra. }
    rewrite D. f_equal; f_equal; rewrite sumf_filter_R; apply sumf_ext; intros v; rewrite HH; destruct (holds _ v); lra.
  Qed.
  Hypothesis NE : forall e, (e < length E)%nat -> exists v, (0 <= v < n)%Z /\ In v (nth e E []).
  Lemma attraction_is j v : node_attraction (length E) H j p (e_center n H p) v = (springs fst n E p v, springs snd n E p v).
  Proof.
    unfold node_attraction, springs. rewrite !sumf_filter_R, !(sumf_nth []). unfold es.
    assert (G : forall e, In e (seq 0 (length E)) ->
      let d := dist (p v) (e_center n H p e) * H v e in let x := if Rlt_dec 0 d then d - 1 / 10 else d in
      pscale x (safe_div (psub (e_center n H p e) (p v)) (vlen (psub (e_center n H p e) (p v))) (j_ve j v e)) =
      let k := middle n p (nth e E []) in
      if holds (nth e E []) v then (if Req_EM_T (sep k (p v)) 0 then (0, 0) else ((sep k (p v) - 1 / 10) / sep k (p v) * (fst k - fst (p v)), (sep k (p v) - 1 / 10) / sep k (p v) * (snd k - snd (p v)))) else (0, 0)).
    { intros e I. apply in_seq in I. cbv zeta. rewrite middle_is by (apply NE; lia). set (k := middle n p (nth e E [])). rewrite HH.
      change (vlen (psub k (p v))) with (sep k (p v)). rewrite dist_sym, <- sep_dist. assert (P : 0 <= sep k (p v)) by (apply sqrt_pos).
      unfold safe_div. destruct (holds (nth e E []) v).
      - rewrite Rmult_1_r. destruct (Req_EM_T (sep k (p v)) 0) as [Z0|NZ].
        + rewrite Z0. destruct (Rlt_dec 0 0); [lra|]. unfold pscale. f_equal; ring.
        + destruct (Rlt_dec 0 (sep k (p v))); [|lra]. unfold pscale, psub. cbn [fst snd]. f_equal; field; auto.
      - rewrite Rmult_0_r. destruct (Rlt_dec 0 0); [lra|]. destruct (Req_EM_T (sep k (p v)) 0); unfold pscale; f_equal; ring. }
    cbv zeta in G |- *. f_equal; apply sumf_ext_in; intros e I; rewrite (G e I); destruct (holds (nth e E []) v); auto; destruct (Req_EM_T _ 0); auto.
  Qed.
  Lemma node_push_is j v : (forall u w, (0 <= u < n)%Z -> (0 <= w < n)%Z -> u <> w -> p u <> p w) -> (0 <= v < n)%Z ->
    node_repulsion n j p v = lift_pt (pushes fst n p v, pushes snd n p v).
  Proof. intros D V. unfold node_repulsion. rewrite repulsion_is; [reflexivity|]. intros k K N. apply in_vs in K. apply Z.eqb_neq in N. apply D; auto. Qed.
  Lemma edge_push_is j v :
    (forall i k, (i < length E)%nat -> (k < length E)%nat -> i <> k -> middle n p (nth i E []) <> middle n p (nth k E [])) ->
    edge_repulsion (length E) H j (e_center n H p) v = lift_pt (edge_pushes fst n E p v, edge_pushes snd n E p v).
  Proof.
    intros D. unfold edge_repulsion, edge_pushes. rewrite !sumf_filter_R. unfold es.
    rewrite (fpsum_lift _ _ (fun i => if holds (nth i E []) v then
       (sumf (filter (fun k => negb (Nat.eqb i k)) (seq 0 (length E))) (fun k => let a := middle n p (nth i E []) in let b := middle n p (nth k E []) in (fst a - fst b) / sep a b ^ 3),
        sumf (filter (fun k => negb (Nat.eqb i k)) (seq 0 (length E))) (fun k => let a := middle n p (nth i E []) in let b := middle n p (nth k E []) in (snd a - snd b) / sep a b ^ 3)) else (0, 0))).
    - f_equal. f_equal; apply sumf_ext; intros i; destruct (holds (nth i E []) v); reflexivity.
    - intros i I. apply in_seq in I. rewrite repulsion_is.
      + rewrite HH. cbv zeta. rewrite !sumf_filter_R. unfold fpmul, lift_pt. cbn [fst snd fmul].
        assert (M : forall c : R * R -> R, sumf (seq 0 (length E)) (fun x => if negb (Nat.eqb i x) then (c (e_center n H p i) - c (e_center n H p x)) / sep (e_center n H p i) (e_center n H p x) ^ 3 else 0) =
          sumf (seq 0 (length E)) (fun x => if negb (Nat.eqb i x) then (c (middle n p (nth i E [])) - c (middle n p (nth x E []))) / sep (middle n p (nth i E [])) (middle n p (nth x E [])) ^ 3 else 0)).
        { intros c. apply sumf_ext_in. intros k K. apply in_seq in K. rewrite !middle_is by (apply NE; lia). reflexivity. }
        rewrite (M fst), (M snd). destruct (holds (nth i E []) v); cbn [fst snd]; f_equal; f_equal; ring.
      + intros k K N. apply in_seq in K. apply Nat.eqb_neq in N. rewrite !middle_is by (apply NE; lia). apply D; lia.
  Qed.
  Lemma gravity_is j c ctr v : center_gravity j p c ctr v = psub ctr (p v).
  Proof.
    unfold center_gravity, safe_div. rewrite dist_sym. change (vlen (psub ctr (p v))) with (dist ctr (p v)). destruct (Req_EM_T (dist ctr (p v)) 0) as [Z0|NZ].
    - rewrite Z0. apply dist_0 in Z0. rewrite Z0. unfold pscale, psub. cbn [fst snd]. f_equal; ring.
    - unfold pscale, psub. cbn [fst snd]. f_equal; field; auto.
  Qed.
End Step1.
Lemma middle_ext n p q e : (forall v, (0 <= v < n)%Z -> p v = q v) -> middle n p e = middle n q e.
Proof.
  intros A. unfold middle. assert (I : forall v, In v (filter (holds e) (range n)) -> p v = q v) by (intros v V; apply filter_In in V as [V _]; apply A, (in_vs n), V).
  f_equal; f_equal; apply sumf_ext_in; intros v V; rewrite (I v V); reflexivity.
Qed.
Lemma total_ext c n E p q pull push push_e centre grav v : (forall v, (0 <= v < n)%Z -> p v = q v) -> (0 <= v < n)%Z ->
  total c n E p pull push push_e centre grav v = total c n E q pull push push_e centre grav v.
Proof.
  intros A V. unfold total. rewrite (A v V).
  assert (S : springs c n E p v = springs c n E q v) by (apply sumf_ext; intros e; cbv zeta; rewrite (middle_ext p q e A), (A v V); reflexivity).
  assert (P : pushes c n p v = pushes c n q v).
  { apply sumf_ext_in. intros u U. apply filter_In in U as [U _]. rewrite (A v V), (A u) by (apply (in_vs n), U). reflexivity. }
  assert (D : edge_pushes c n E p v = edge_pushes c n E q v).
  { apply sumf_ext. intros i. apply sumf_ext. intros j. cbv zeta. rewrite !(middle_ext p q _ A). reflexivity. }
  rewrite S, P, D. reflexivity.
Qed.
Lemma apart_ext n E p q push_e : (forall v, (0 <= v < n)%Z -> p v = q v) -> apart n E p push_e -> apart n E q push_e.
Proof.
  intros A (D & DE). split.
  - intros u v U V N. rewrite <- (A u U), <- (A v V). auto.
  - destruct DE as [DE|DE]; [left; auto|right]. intros i j I J N. rewrite <- !(middle_ext p q _ A). auto.
Qed.
Lemma step_is sim n E (H : Z -> nat -> R) j damping pull l push_e g pos (q : Z -> R * R) push centre grav :
  (forall v, (0 <= v < n)%Z -> pos v = lift_pt (q v)) ->
  (forall v e, H v e = if holds (nth e E []) v then 1 else 0) -> E <> [] -> (forall e, In e E -> exists v, (0 <= v < n)%Z /\ In v e) -> apart n E q push_e ->
  s_attr sim = Some pull -> s_rep sim = Some l -> s_erep sim = push_e -> s_grav sim = Some g ->
  (forall v, (0 <= v < n)%Z -> rep_factor sim l v = push v) ->
  (forall p f b, is_pt n f b -> exists r, fold_left (fun acc x => rbind acc (add_force n (gravity_force j p x))) (gravity_parts sim g) (Ok f) = Ok r /\
     is_pt n r (fun v => padd (b v) (pscale (grav v) (psub (centre v) (p v))))) ->
  let F c v := total c n E q pull push push_e centre grav v in
  exists pos' stop, step sim n (length E) H j damping pos = Ok (pos', stop) /\
    (forall v, (0 <= v < n)%Z -> pos' v = lift_pt (fst (q v) + 2 * limited (damping * F fst v), snd (q v) + 2 * limited (damping * F snd v))) /\
    (stop = true <-> sqrt (sumf (range n) (fun v => limited (damping * F fst v) ^ 2 + limited (damping * F snd v) ^ 2)) < 1 / 1000).
Proof.
  intros POS HH NN NE0 AQ SA SR SE SG RF GF F.
  set (p := fun v => match fin_pt (pos v) with Some x => x | None => (0, 0) end).
  assert (PQ : forall v, (0 <= v < n)%Z -> p v = q v) by (intros v V; unfold p; rewrite (POS v V), fin_pt_lift; reflexivity).
  destruct (@apart_ext n E q p push_e (fun v V => eq_sym (PQ v V)) AQ) as (D & DE).
  assert (NE : forall e, (e < length E)%nat -> exists v, (0 <= v < n)%Z /\ In v (nth e E [])) by (intros e L; apply NE0, nth_In, L).
  unfold step.
  replace (forallb _ (vs n)) with true.
  2:{ symmetry. apply forallb_forall. intros v V. apply in_vs in V. rewrite (POS v V), fin_pt_lift. auto. }
  cbn [negb].
  replace (existsb (e_empty n H) (es (length E)) || Nat.eqb (length E) 0) with false.
  2:{ symmetry. apply orb_false_iff. split; [|apply Nat.eqb_neq; destruct E; [contradiction|discriminate]]. apply not_true_is_false. intros X.
      apply existsb_exists in X as (e & I & X). apply in_seq in I. unfold e_empty in X.
      destruct (Req_EM_T (sumf (vs n) (fun v => H v e)) 0) as [Z0|]; [|discriminate]. destruct (NE e ltac:(lia)) as (w & W & IW).
      assert (P : 0 < sumf (range n) (fun v => H v e)).
      { apply Rsum_pos with (x := w).
        - intros u _. rewrite HH. destruct holds; lra.
        - apply (in_vs n). exact W.
        - rewrite HH. replace (holds (nth e E []) w) with true; [lra|]. symmetry. apply existsb_exists. exists w. split; auto. apply Z.eqb_refl. }
      unfold vs in Z0. lra. }
  cbv zeta. rewrite SA, SR, SE, SG. cbn [when].
  fold p.
  assert (F0 : is_pt n (fun _ => (Fin 0, Fin 0)) (fun _ => (0, 0))) by (intros v V; reflexivity).
  assert (A1 : is_pt n (fun v => fpmul (Fin pull) (lift_pt (node_attraction (length E) H j p (e_center n H p) v))) (fun v => (pull * springs fst n E p v, pull * springs snd n E p v))).
  { intros v V. rewrite (@attraction_is n E H p HH NE). reflexivity. }
  destruct (add_force_is A1 F0) as (f1 & E1 & F1). rewrite E1. cbn [rbind].
  assert (A2 : is_pt n (fun v => fpmul (Fin (rep_factor sim l v)) (node_repulsion n j p v)) (fun v => (push v * pushes fst n p v, push v * pushes snd n p v))).
  { intros v V. rewrite node_push_is by auto. rewrite RF by auto. reflexivity. }
  destruct (add_force_is A2 F1) as (f2 & E2 & F2). rewrite E2. cbn [rbind].
  assert (X3 : exists f3, when push_e (fun k : R => add_force n (fun v => fpmul (Fin k) (edge_repulsion (length E) H j (e_center n H p) v))) f2 = Ok f3 /\
    is_pt n f3 (fun v => padd (padd (padd (0, 0) (pull * springs fst n E p v, pull * springs snd n E p v)) (push v * pushes fst n p v, push v * pushes snd n p v))
      (match push_e with Some k => (k * edge_pushes fst n E p v, k * edge_pushes snd n E p v) | None => (0, 0) end))).
  { destruct push_e as [k|]; cbn [when].
    - apply add_force_is; auto. intros v V. rewrite (@edge_push_is n E H p HH NE); [reflexivity|]. destruct DE as [DE|DE]; [discriminate|]. exact DE.
    - exists f2. split; auto. intros v V. rewrite (F2 v V). unfold padd, lift_pt. cbn [fst snd]. f_equal; f_equal; ring. }
  destruct X3 as (f3 & E3 & F3). rewrite E3. cbn [rbind].
  destruct (GF p _ _ F3) as (f4 & E4 & F4). rewrite E4. cbn [rbind].
  assert (TOT : forall v, (0 <= v < n)%Z -> f4 v = lift_pt (F fst v, F snd v)).
  { intros v V. rewrite (F4 v V). unfold F. rewrite <- !(fun c => @total_ext c n E p q pull push push_e centre grav v PQ V). unfold total, padd, pscale, psub, lift_pt. destruct push_e; cbn [fst snd]; f_equal; f_equal; ring. }
  assert (LIM : forall x, fclip (-1 / 10) (1 / 10) (fmul (Fin damping) (Fin x)) = Fin (limited (damping * x))).
  { intros z. cbn [fmul fclip]. unfold limited. do 3 f_equal. lra. }
  do 2 eexists. split; [reflexivity|]. split.
  - intros v V. rewrite (TOT v V), (POS v V). cbn [lift_pt fst snd]. rewrite !LIM. reflexivity.
  - match goal with |- (if ?b then _ else _) = true <-> _ => replace b with false end.
    2:{ symmetry. apply not_true_is_false. intros X. apply existsb_exists in X as (v & I & X). apply in_vs in I. rewrite (TOT v I) in X. cbn [lift_pt fst snd] in X. rewrite !LIM in X. discriminate. }
    match goal with |- context [sqrt (sumf ?l ?f)] => replace (sumf l f) with (sumf (range n) (fun v => limited (damping * F fst v) ^ 2 + limited (damping * F snd v) ^ 2)) end.
    + destruct (Rlt_dec _ _); split; auto; try discriminate; try contradiction.
    + rewrite sumf_map. apply sumf_ext_in. intros v I. apply in_vs in I. rewrite (TOT v I). cbn [lift_pt fst snd]. rewrite !LIM. reflexivity.
Qed.

Lemma gravity_one n j p sim g c0 : s_centers sim = [c0] -> s_cut sim = n -> forall f b, is_pt n f b ->
  exists r, fold_left (fun acc x => rbind acc (add_force n (gravity_force j p x))) (gravity_parts sim [g]) (Ok f) = Ok r /\
    is_pt n r (fun v => padd (b v) (pscale g (psub c0 (p v)))).
Proof.
  intros C K f b F. unfold gravity_parts. rewrite C, K. cbn [length seq combine fold_left rbind]. apply add_force_is; auto.
  intros v V. unfold gravity_force. rewrite gravity_is. replace (v <? n)%Z with true by (symmetry; apply Z.ltb_lt; lia). reflexivity.
Qed.
Lemma gravity_two n nu j p sim g0 g1 c0 c1 : s_centers sim = [c0; c1] -> s_cut sim = nu -> forall f b, is_pt n f b ->
  exists r, fold_left (fun acc x => rbind acc (add_force n (gravity_force j p x))) (gravity_parts sim [g0; g1]) (Ok f) = Ok r /\
    is_pt n r (fun v => padd (b v) (pscale (if (v <? nu)%Z then g0 else g1) (psub (if (v <? nu)%Z then c0 else c1) (p v)))).
Proof.
  intros C K f b F. unfold gravity_parts. rewrite C, K. cbn [length seq combine fold_left rbind].
  assert (A : is_pt n (gravity_force j p (0%nat, c0, g0, fun v => (v <? nu)%Z)) (fun v => pscale (if (v <? nu)%Z then g0 else 0) (psub c0 (p v)))).
  { intros v V. unfold gravity_force. rewrite gravity_is. reflexivity. }
  destruct (add_force_is A F) as (r1 & E1 & F1). rewrite E1. cbn [rbind].
  assert (B : is_pt n (gravity_force j p (1%nat, c1, g1, fun v => negb (v <? nu)%Z)) (fun v => pscale (if negb (v <? nu)%Z then g1 else 0) (psub c1 (p v)))).
  { intros v V. unfold gravity_force. rewrite gravity_is. reflexivity. }
  destruct (add_force_is B F1) as (r2 & E2 & F2). exists r2. split; [exact E2|]. intros v V. rewrite (F2 v V). f_equal.
  unfold padd, pscale, psub. cbn [fst snd]. destruct (v <? nu)%Z; cbn [negb]; f_equal; ring.
Qed.
Lemma holds_incidence n E : (0 < n)%Z -> vertices_in n E -> forall H, incidence_matrix n E = Ok H -> forall v e, H v e = if holds (nth e E []) v then 1 else 0.
Proof. intros Hn V H EH. destruct (incidence_ok Hn V) as (H' & EH' & HH). rewrite EH in EH'. injection EH' as <-. exact HH. Qed.

(** One step of the layout of a graph or hypergraph with edges [E], from positions (x, y) that keep apart: the vertices move by twice
    the damped force, limited to 1/10 along each axis; the simulation stops when they hardly moved. *)
Theorem C157_step : forall n E H j damping push_v push_e pull_e pull_c x y, (0 < n)%Z -> vertices_in n E -> E <> [] -> ~ In [] E ->
  incidence_matrix n E = Ok H -> apart n E (fun v => (x v, y v)) push_e ->
  let F c v := total c n E (fun v => (x v, y v)) pull_e (fun _ => push_v) push_e (fun _ => (0, 0)) (fun _ => pull_c) v in
  exists pos' stop, step (mkSim (Some pull_e) (Some [push_v]) push_e (Some [pull_c]) [(0, 0)] n) n (length E) H j damping (fun v => lift_pt (x v, y v)) = Ok (pos', stop) /\
    (forall v, (0 <= v < n)%Z -> pos' v = lift_pt (x v + 2 * limited (damping * F fst v), y v + 2 * limited (damping * F snd v))) /\
    (stop = true <-> sqrt (sumf (range n) (fun v => limited (damping * F fst v) ^ 2 + limited (damping * F snd v) ^ 2)) < 1 / 1000).
Proof.
  intros n E H j damping push_v push_e pull_e pull_c x y Hn V NE NN EH AP. cbv zeta.
  apply (@step_is (mkSim (Some pull_e) (Some [push_v]) push_e (Some [pull_c]) [(0, 0)] n) n E H j damping pull_e [push_v] push_e [pull_c] (fun v => lift_pt (x v, y v)) (fun v => (x v, y v)) (fun _ => push_v) (fun _ => (0, 0)) (fun _ => pull_c)); auto.
  - apply (holds_incidence Hn V EH).
  - intros e I. destruct e as [|v l]; [contradiction|]. exists v. split; [apply (V (v :: l)); cbn; auto|cbn; auto].
  - intros p. apply gravity_one; reflexivity.
Qed.
(** The same for bipartite graphs: each side has its own strengths and its own centre. *)
Theorem C157_step_bipartite : forall nu nv E H j damping push_u push_v push_e pull_e pull_u pull_v x y, (0 < nu + nv)%Z -> vertices_in (nv + nu) E -> E <> [] -> ~ In [] E ->
  incidence_matrix (nv + nu) E = Ok H -> apart (nu + nv) E (fun v => (x v, y v)) push_e ->
  let side {A} (a b : A) v := if (v <? nu)%Z then a else b in
  let F c v := total c (nu + nv) E (fun v => (x v, y v)) pull_e (side push_u push_v) push_e (side (5, 0) (-5, 0)) (side pull_u pull_v) v in
  exists pos' stop, step (mkSim (Some pull_e) (Some [push_u; push_v]) push_e (Some [pull_u; pull_v]) [(5, 0); (-5, 0)] nu) (nu + nv) (length E) H j damping (fun v => lift_pt (x v, y v)) = Ok (pos', stop) /\
    (forall v, (0 <= v < nu + nv)%Z -> pos' v = lift_pt (x v + 2 * limited (damping * F fst v), y v + 2 * limited (damping * F snd v))) /\
    (stop = true <-> sqrt (sumf (range (nu + nv)) (fun v => limited (damping * F fst v) ^ 2 + limited (damping * F snd v) ^ 2)) < 1 / 1000).
Proof.
  intros nu nv E H j damping push_u push_v push_e pull_e pull_u pull_v x y Hn V NE NN EH AP. cbv zeta.
  apply (@step_is (mkSim (Some pull_e) (Some [push_u; push_v]) push_e (Some [pull_u; pull_v]) [(5, 0); (-5, 0)] nu) (nu + nv) E H j damping pull_e [push_u; push_v] push_e [pull_u; pull_v] (fun v => lift_pt (x v, y v)) (fun v => (x v, y v))
    (fun v => if (v <? nu)%Z then push_u else push_v) (fun v => if (v <? nu)%Z then (5, 0) else (-5, 0)) (fun v => if (v <? nu)%Z then pull_u else pull_v)); auto.
  - rewrite Z.add_comm in EH, V. apply (@holds_incidence (nu + nv) E); auto.
  - intros e I. destruct e as [|v l]; [contradiction|]. exists v. split; [rewrite Z.add_comm; apply (V (v :: l)); cbn; auto|cbn; auto].
  - intros v _. unfold rep_factor. cbn [s_centers s_cut length Nat.eqb nth]. destruct (v <? nu)%Z; reflexivity.
  - intros p. apply gravity_two; reflexivity.
Qed.
(** action and reaction: the pushes between vertices cancel in sum, so that they never move the centre of the picture *)
Theorem C157_balance : forall (c : R * R -> R) n p, sumf (range n) (pushes c n p) = 0.
Proof.
  intros c n p. set (f := fun v u => if negb (Z.eqb v u) then (c (p v) - c (p u)) / sep (p v) (p u) ^ 3 else 0).
  assert (E : sumf (range n) (pushes c n p) = sumf (range n) (fun v => sumf (range n) (f v))) by (apply sumf_ext; intros v; unfold pushes; rewrite sumf_filter_R; reflexivity).
  assert (A : sumf (range n) (fun v => sumf (range n) (f v)) = - sumf (range n) (fun v => sumf (range n) (f v))).
  { rewrite (sumf_swap RT) at 1. change (- sumf (range n) (fun v => sumf (range n) (f v))) with (nopp (sumf (range n) (fun v => sumf (range n) (f v)))).
    rewrite <- (sumf_opp RT). apply sumf_ext. intros v. rewrite <- (sumf_opp RT). apply sumf_ext. intros u. unfold f. rewrite (Z.eqb_sym u v), !sep_dist, (dist_sym (p u) (p v)). cbn [nopp Num_R].
    destruct (v =? u)%Z; cbn [negb]; [lra|].
    change (sep (p v) (p u)) with (dist (p v) (p u)). unfold Rdiv. generalize (/ dist (p v) (p u) ^ 3). intros k. lra. }
  rewrite E. lra.
Qed.
(** two vertices at distance 1, joined by an edge *)
Example C157_case : let p := fun v : Z => (IZR v, 0) in
  vertices_in 2 [[0; 1]%Z] /\ apart 2 [[0; 1]%Z] p (Some 1) /\ middle 2 p [0; 1]%Z = (1 / 2, 0) /\ pushes fst 2 p 0 = -1 /\ springs fst 2 [[0; 1]%Z] p 0 = 4 / 10.
Proof.
  cbv zeta. split; [intros e v [<-|[]] [<-|[<-|[]]]; lia|]. split; [split|].
  - intros u v _ _ N E. injection E as E. apply eq_IZR in E. contradiction.
  - right. intros i j I J. cbn in I, J. lia.
  - assert (M : middle 2 (fun v : Z => (IZR v, 0)) [0; 1]%Z = (1 / 2, 0)).
    { unfold middle. change (range 2) with [0%Z; 1%Z]. cbn [filter holds existsb Z.eqb Pos.eqb orb length sumf fst snd fold_right map INR]. unfold sumf. cbn [map fold_right nadd nz Num_R].
      f_equal; lra. }
    split; [exact M|]. split.
    + unfold pushes. change (filter (fun u => negb (Z.eqb 0 u)) (range 2)) with [1%Z]. unfold sumf. cbn [map fold_right nadd nz Num_R fst snd].
      assert (S : sep (0, 0) (1, 0) = 1) by (unfold sep; cbn [fst snd]; replace ((0 - 1) ^ 2 + (0 - 0) ^ 2) with 1 by ring; apply sqrt_1). rewrite S. lra.
    + unfold springs. cbn [filter holds existsb Z.eqb orb sumf]. rewrite M.
      assert (S : sep (1 / 2, 0) (IZR 0, 0) = 1 / 2).
      { unfold sep. cbn [fst snd]. replace ((1 / 2 - 0) ^ 2 + (0 - 0) ^ 2) with ((1 / 2) * (1 / 2)) by field. apply sqrt_square. lra. }
      rewrite S. destruct (Req_EM_T (1 / 2) 0); [lra|]. cbn. lra.
Qed.
