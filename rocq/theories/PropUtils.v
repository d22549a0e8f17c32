(** Properties C43-C48 and C94-C97: dhg/utils. *)
From Coq Require Import String Permutation Sorted Reals Lra QArith Qround Qcanon.
From Verif Require Import Num PyDict PyDictFacts Coo CooFacts MatFacts RealFacts ModelBase CacheFacts ModelGraph SpecGraph SpecGraphOps
  ModelDiGraph ModelBiGraph SpecBiGraph BiGraphFacts BiGraphMatrix PropBiGraph ModelConv ModelUtils SpecUtils UtilFacts SplitFacts BinomFacts.
Set Implicit Arguments.
Local Open Scope string_scope.
Local Open Scope list_scope.
Local Open Scope Z_scope.
Local Notation q z := (Q2Qc (inject_Z z)).
Local Ltac qceq := repeat first [ match goal with |- @eq Qc _ _ => apply Qc_is_canon; vm_compute; reflexivity end | reflexivity | f_equal ].

(** * C43 *)
(** the keys are the sources in first-occurrence order, each with its destinations in order *)
Theorem C43_adj_dict : forall (A : Type) (E : EqB A) (l : list (A * A)),
  dkeys (edge_list_to_adj_dict l) = firsts (map fst l) /\
  (forall s, dget s (edge_list_to_adj_dict l) =
     match map snd (filter (fun e => eqb s (fst e)) l) with [] => None | ds => Some ds end) /\
  edge_list_to_adj_list l = map (fun kv => fst kv :: snd kv) (edge_list_to_adj_dict l) /\
  Forall (fun line => (2 <= length line)%nat) (edge_list_to_adj_list l).
Proof.
  intros A E l. rewrite adj_dict_eq.
  assert (IN : forall s, In s (firsts (map fst l)) <-> dsts l s <> []).
  { intros s. rewrite firsts_In. unfold dsts. split.
    - intros I. apply in_map_iff in I as (e & <- & I) . intros X. apply map_eq_nil in X.
      assert (J : In e (filter (fun e0 => eqb (fst e) (fst e0)) l)) by (apply filter_In; rewrite eqb_refl; auto). rewrite X in J. destruct J.
    - intros X. destruct (filter (fun e => eqb s (fst e)) l) as [|e r] eqn:F; [destruct X; reflexivity|].
      assert (J : In e (filter (fun e => eqb s (fst e)) l)) by (rewrite F; left; auto). apply filter_In in J as [J K].
      apply eqb_eq in K. subst s. apply in_map; auto. }
  split; [|split; [|split]].
  - unfold graph_of, dkeys. rewrite map_map. cbn. apply map_id.
  - intros s. rewrite dget_graph_of. fold (dsts l s). destruct (existsb (eqb s) (firsts (map fst l))) eqn:X.
    + apply existsb_exists in X as (x & I & X). apply eqb_eq in X. subst x. apply IN in I. destruct (dsts l s); congruence.
    + destruct (dsts l s) as [|d r] eqn:D; auto. exfalso. assert (I : In s (firsts (map fst l))) by (apply IN; congruence).
      rewrite <- not_true_iff_false in X. apply X, existsb_exists. exists s. split; auto. apply eqb_refl.
  - unfold edge_list_to_adj_list. rewrite adj_dict_eq. reflexivity.
  - unfold edge_list_to_adj_list. rewrite adj_dict_eq. unfold graph_of. rewrite map_map. apply Forall_forall. intros line I.
    apply in_map_iff in I as (s & <- & I). cbn [fst snd]. apply IN in I. destruct (dsts l s) as [|d r]; [congruence|cbn; lia].
Qed.
(** to an adjacency list and back: the edges grouped by source, sources by first occurrence; nothing lost or added *)
Theorem C43_round_trip : forall (A : Type) (E : EqB A) (l : list (A * A)),
  adj_list_to_edge_list (edge_list_to_adj_list l) = flat_map (fun s => filter (fun e => eqb s (fst e)) l) (firsts (map fst l)) /\
  Permutation (adj_list_to_edge_list (edge_list_to_adj_list l)) l.
Proof.
  intros A E l. rewrite round_trip. split; [reflexivity|]. apply group_perm; [apply firsts_NoDup|]. intros e I. apply firsts_In, in_map; auto.
Qed.
Lemma own_dsts {A} {E : EqB A} (h : A) (m : list A) : map snd (filter (fun e => eqb h (fst e)) (map (fun x => (h, x)) m)) = m.
Proof. induction m as [|x m IH]; auto. cbn. rewrite eqb_refl. cbn. rewrite IH. reflexivity. Qed.
Lemma other_dsts {A} {E : EqB A} (s h : A) (m : list A) : s <> h -> filter (fun e => eqb s (fst e)) (map (fun x => (h, x)) m) = [].
Proof. intros NE. induction m as [|x m IH]; auto. cbn. destruct (eqb s h) eqn:Q; [apply eqb_eq in Q; congruence|]. exact IH. Qed.
(** from an adjacency list with one line per source and back: the same list *)
Theorem C43_adj_round_trip : forall (A : Type) (E : EqB A) (al : list (list A)),
  Forall (fun line => (2 <= length line)%nat) al -> NoDup (flat_map (firstn 1) al) ->
  edge_list_to_adj_list (adj_list_to_edge_list al) = al.
Proof.
  intros A E al L ND.
  assert (G : firsts (map fst (adj_list_to_edge_list al)) = flat_map (firstn 1) al /\
              map (fun s => s :: dsts (adj_list_to_edge_list al) s) (flat_map (firstn 1) al) = al).
  { induction al as [|line al IH]; [split; reflexivity|]. apply Forall_cons_iff in L as [L1 L2].
    destruct line as [|h [|d t]]; cbn [length] in L1; try lia. cbn [flat_map firstn app] in ND |- *. apply NoDup_cons_iff in ND as [NI ND].
    destruct (IH L2 ND) as [I1 I2]. clear IH.
    change (adj_list_to_edge_list ((h :: d :: t) :: al)) with (map (fun x => (h, x)) (d :: t) ++ adj_list_to_edge_list al).
    set (E2 := adj_list_to_edge_list al) in *.
    assert (NH : ~ In h (map fst E2)) by (rewrite <- firsts_In, I1; auto). split.
    - rewrite map_app, map_map. cbn [fst].
      assert (R : forall n (L : list A), ~ In h L -> firsts (map (fun _ => h) (n : list A) ++ L) = match n with [] => firsts L | _ => h :: firsts L end).
      { clear. induction n as [|a n IH]; intros L N; auto. cbn. rewrite (IH L N). f_equal.
        assert (F : filter (fun y => negb (eqb h y)) (firsts L) = firsts L).
        { assert (K : forall y, In y (firsts L) -> y <> h) by (intros y I ->; apply N, firsts_In; auto). clear N. induction (firsts L) as [|z M IHM]; auto. cbn.
          destruct (eqb h z) eqn:Q; cbn; [apply eqb_eq in Q; destruct (K z); [left|]; auto|]. f_equal. apply IHM. intros; apply K; right; auto. }
        destruct n; auto. cbn. rewrite eqb_refl. cbn. exact F. }
      rewrite (R (d :: t) _ NH), I1. reflexivity.
    - cbn [map]. f_equal.
      + f_equal. unfold dsts. rewrite filter_app, map_app.
        assert (F : filter (fun e => eqb h (fst e)) E2 = []).
        { clear -NH. induction E2 as [|e m IH]; auto. cbn in *. destruct (eqb h (fst e)) eqn:Q; [apply eqb_eq in Q; subst; tauto|apply IH; tauto]. }
        rewrite F. cbn [map]. rewrite app_nil_r. exact (own_dsts h (d :: t)).
      + rewrite <- I2 at 2. apply map_ext_in. intros s I. f_equal. unfold dsts. rewrite filter_app, map_app.
        assert (F : filter (fun e => eqb s (fst e)) (map (fun x => (h, x)) (d :: t)) = []).
        { apply (@other_dsts _ _ s h (d :: t)). intros ->; auto. }
        cbn [map] in F. rewrite F. reflexivity. }
  destruct G as [G1 G2]. unfold edge_list_to_adj_list. rewrite adj_dict_eq. unfold graph_of. rewrite map_map. cbn [fst snd].
  rewrite G1. exact G2.
Qed.
(** the edges of any adjacency list *)
Theorem C43_edges : forall (A : Type) (al : list (list A)) s d,
  In (s, d) (adj_list_to_edge_list al) <-> exists ds, In (s :: ds) al /\ In d ds.
Proof.
  intros A al s d. unfold adj_list_to_edge_list. rewrite in_flat_map. split.
  - intros (line & I & J). destruct line as [|h [|x t]]; [destruct J|destruct J|]. exists (x :: t).
    apply in_map_iff in J as (y & Q & J). injection Q as <- <-. auto.
  - intros (ds & I & J). exists (s :: ds). split; auto. destruct ds as [|x t]; [destruct J|]. apply in_map; auto.
Qed.
Example C43_case : edge_list_to_adj_list [(3, 1); (0, 2); (3, 0); (3, 1)] = [[3; 1; 0; 1]; [0; 2]] /\
  adj_list_to_edge_list [[3; 1; 0; 1]; [7]; [0; 2]] = [(3, 1); (3, 0); (3, 1); (0, 2)].
Proof. split; reflexivity. Qed.

(** * C44: [str] is Python's str on the markers *)
Theorem C44_edges : forall (A : Type) (str : A -> string) (ls : list (list (list A))) (es : list (list A)),
  (exists out m, remap_edge_list str false es = Ok (out, [m]) /\
     numbers (map str (concat es)) m /\ Forall2 (renamed str m) es out) /\
  (exists out m, remap_edge_lists str false ls = Ok (out, [m]) /\
     numbers (map str (concat (concat ls))) m /\ Forall2 (Forall2 (renamed str m)) ls out).
Proof. intros. split; [apply remap_edge_ok|apply remap_edges_ok]. Qed.
Theorem C44_edges_bipartite : forall (A : Type) (str : A -> string) (ls : list (list (list A))) (es : list (list A)),
  (Forall (fun e => length e = 2%nat) es -> exists out um vm, remap_edge_list str true es = Ok (out, [um; vm]) /\
     numbers (map str (flat_map (firstn 1) es)) um /\ numbers (map str (flat_map (@tl _) es)) vm /\ Forall2 (renamed2 str um vm) es out) /\
  (Exists (fun e => length e <> 2%nat) es -> remap_edge_list str true es = Err ValueError) /\
  (Forall (Forall (fun e => length e = 2%nat)) ls -> exists out um vm, remap_edge_lists str true ls = Ok (out, [um; vm]) /\
     numbers (map str (flat_map (firstn 1) (concat ls))) um /\ numbers (map str (flat_map (@tl _) (concat ls))) vm /\
     Forall2 (Forall2 (renamed2 str um vm)) ls out).
Proof.
  intros. split; [apply remap_edge_bip_ok|]. split; [|apply remap_edges_bip_ok]. intros X. apply remap_edge_bip_bad.
  apply Exists_exists in X as (e & I & L). exists e; auto.
Qed.
(** adjacency lists in which every line has a destination, or its marker occurs in such a line *)
Definition longs {A} (al : list (list A)) : list (list A) := filter (fun line => (2 <=? length line)%nat) al.
Lemma longs_long {A} (al : list (list A)) : longs al = filter long al.
Proof. apply filter_ext. intros [|a [|b r]]; reflexivity. Qed.
Theorem C44_adj : forall (A : Type) (str : A -> string) (ls : list (list (list A))) (al : list (list A)),
  ((forall x, In [x] al -> In (str x) (map str (concat (longs al)))) ->
   exists out m, remap_adj_list str false al = Ok (out, [m]) /\
     numbers (map str (concat (longs al))) m /\ Forall2 (renamed str m) al out) /\
  ((forall x, In [x] (concat ls) -> In (str x) (map str (concat (longs (concat ls))))) ->
   exists out m, remap_adj_lists str false ls = Ok (out, [m]) /\
     numbers (map str (concat (longs (concat ls)))) m /\ Forall2 (Forall2 (renamed str m)) ls out).
Proof. intros. rewrite !longs_long. split; [apply remap_adj_ok|apply remap_adjs_ok]. Qed.
Theorem C44_adj_bipartite : forall (A : Type) (str : A -> string) (ls : list (list (list A))) (al : list (list A)),
  (~ In [] al -> (forall x, In [x] al -> In (str x) (map str (flat_map (firstn 1) (longs al)))) ->
   exists out um vm, remap_adj_list str true al = Ok (out, [um; vm]) /\
     numbers (map str (flat_map (firstn 1) (longs al))) um /\ numbers (map str (flat_map (@tl _) (longs al))) vm /\
     Forall2 (renamed2 str um vm) al out) /\
  (~ In [] (concat ls) -> (forall x, In [x] (concat ls) -> In (str x) (map str (flat_map (firstn 1) (longs (concat ls))))) ->
   exists out um vm, remap_adj_lists str true ls = Ok (out, [um; vm]) /\
     numbers (map str (flat_map (firstn 1) (longs (concat ls)))) um /\ numbers (map str (flat_map (@tl _) (longs (concat ls)))) vm /\
     Forall2 (Forall2 (renamed2 str um vm)) ls out).
Proof. intros. rewrite !longs_long. split; [apply remap_adj_bip_ok|apply remap_adjs_bip_ok]. Qed.
(** what [numbers] means: a bijection between the markers and 0..n-1 *)
Theorem C44_bijection : forall ms m, numbers ms m ->
  (forall k, In k ms <-> exists i, dget k m = Some i) /\
  (forall a b i, dget a m = Some i -> dget b m = Some i -> a = b) /\
  (forall i, 0 <= i < Z.of_nat (length m) <-> exists k, dget k m = Some i).
Proof.
  intros ms m (D & K & V & O). split; [|split].
  - intros k. rewrite <- K. split.
    + apply dget_keys.
    + intros (i & E). apply dget_In in E. apply (in_map fst) in E. exact E.
  - intros a b i X Y. destruct (String.compare a b) eqn:C.
    + apply scmp_eq; auto.
    + assert (i < i) by (apply (O a b i i X Y); auto). lia.
    + apply scmp_gt in C. assert (i < i) by (apply (O b a i i Y X); auto). lia.
  - intros i. rewrite <- range_In, <- V. unfold dvals. rewrite in_map_iff. split.
    + intros ([k j] & <- & I). exists k. cbn. apply In_dget; auto.
    + intros (k & E). apply dget_In in E. exists (k, i). auto.
Qed.
Example C44_case : remap_edge_list (fun x => x) false [["b"; "a"; "d"]; ["c"; "b"]] =
  Ok ([[1; 0; 3]; [2; 1]], [[("a", 0); ("b", 1); ("c", 2); ("d", 3)]]) /\
  remap_adj_list (fun x => x) true [["u2"; "x"; "y"]; ["u1"; "x"]; ["u2"]] =
  Ok ([[1; 0; 1]; [0; 0]; [1]], [[("u1", 0); ("u2", 1)]; [("x", 0); ("y", 1)]]).
Proof. split; reflexivity. Qed.

(** * C94: isolated vertices in an adjacency list *)
Theorem C94_isolated_actual : forall (A : Type) (str : A -> string) (al : list (list A)) x,
  In [x] al -> 
  (~ In (str x) (map str (concat (longs al))) -> remap_adj_list str false al = Err KeyError) /\
  (~ In (str x) (map str (flat_map (firstn 1) (longs al))) -> is_ok (remap_adj_list str true al) = false).
Proof.
  intros A str al x I. rewrite longs_long. split; intros N.
  - apply remap_adj_bad with (x := x); auto.
  - destruct (@remap_adj_bip_bad _ str al) as (y & E); [right; exists x; auto|]. rewrite E. reflexivity.
Qed.
(** an adjacency list that adj_list_to_edge_list accepts *)
Theorem C94_isolated_refuted : remap_adj_list (fun x => x) false [["a"; "b"]; ["c"]] = Err KeyError /\
  adj_list_to_edge_list [["a"; "b"]; ["c"]] = [("a", "b")].
Proof. split; reflexivity. Qed.

(** * C95: integer markers are ordered as strings *)
Theorem C95_string_order_actual : forall str : Z -> string, str 2 = "2" -> str 10 = "10" ->
  remap_edge_list str false [[2; 10]] = Ok ([[1; 0]], [[("10", 0); ("2", 1)]]).
Proof. intros str E1 E2. unfold remap_edge_list. cbn [map]. rewrite E1, E2. reflexivity. Qed.
(** vertices that are already numbered 0..10 are renamed *)
Theorem C95_renumbered_refuted : forall str : Z -> string,
  map str (range 11) = ["0"; "1"; "2"; "3"; "4"; "5"; "6"; "7"; "8"; "9"; "10"] ->
  exists m, remap_edge_list str false [range 11] = Ok ([[0; 1; 3; 4; 5; 6; 7; 8; 9; 10; 2]], [m]).
Proof. intros str E. unfold remap_edge_list. cbn [map]. rewrite E. eexists. reflexivity. Qed.

(** * C45 *)
(** labels 0..k-1 or 1..k: every class is split into [train] training vertices, [val] validation vertices and [test]
    test vertices (all remaining ones if no test size is given), as far as its vertices suffice *)
Theorem C45_by_num : forall n lbl lo k sh train val test,
  (2 <= length lbl)%nat -> Z.of_nat (length lbl) = n -> lo = 0 \/ lo = 1 -> contiguous lbl lo k ->
  (forall c x, Permutation (sh c x) x) -> 0 <= train -> 0 <= opt0 val -> 0 <= opt0 test ->
  exists tr vo te, split_by_num n lbl sh train val test = Ok (tr, vo, te) /\ (vo = None <-> opt0 val = 0) /\
    split_spec n lbl lo k (fun _ => train) (fun _ => opt0 val) (match test with Some t => Some (fun _ => t) | None => None end) tr vo te /\
    (test = None -> forall i, 0 <= i < n -> msel tr i || vsel vo i || msel te i = true).
Proof.
  intros n lbl lo k sh train val test L LN LO C SH P1 P2 P3. destruct (@contiguous_facts lbl lo k C ltac:(lia)) as [LW D].
  destruct (@split_num_ok n lbl lo k sh train val test L ltac:(lia) LW D SH P1 P2 P3) as (tr & vo & te & E & V & S).
  replace (shift_of lo) with lo in S by (destruct LO; subst; reflexivity).
  exists tr, vo, te. split; auto. split; auto. split; auto. intros N i I. destruct S as (_ & _ & _ & _ & _ & S & _). subst test.
  apply S; auto; [lia|]. apply C. unfold label. apply nth_In. lia.
Qed.
Theorem C45_by_ratio : forall (F : Type) (RF : Ratio F) n lbl lo k sh (train : F) val test,
  (2 <= length lbl)%nat -> Z.of_nat (length lbl) = n -> lo = 0 \/ lo = 1 -> contiguous lbl lo k ->
  (forall c x, Permutation (sh c x) x) -> ratio_fits train val test = true ->
  (forall z, 0 <= z -> 0 <= r_cut train z /\ 0 <= r_cut (optr val) z /\ (forall t, test = Some t -> 0 <= r_cut t z)) ->
  (r_is0 (optr val) = true -> forall z, r_cut (optr val) z = 0) ->
  exists tr vo te, split_by_ratio n lbl sh train val test = Ok (tr, vo, te) /\ (vo = None <-> r_is0 (optr val) = true) /\
    split_spec n lbl lo k (r_cut train) (r_cut (optr val)) (match test with Some t => Some (r_cut t) | None => None end) tr vo te /\
    (test = None -> forall i, 0 <= i < n -> msel tr i || vsel vo i || msel te i = true).
Proof.
  intros F RF n lbl lo k sh train val test L LN LO C SH FT P Z0. destruct (@contiguous_facts lbl lo k C ltac:(lia)) as [LW D].
  destruct (@split_ratio_ok F RF n lbl lo k sh train val test L ltac:(lia) LW D SH FT P Z0) as (tr & vo & te & E & V & S).
  replace (shift_of lo) with lo in S by (destruct LO; subst; reflexivity).
  exists tr, vo, te. split; auto. split; auto. split; auto. intros N i I. destruct S as (_ & _ & _ & _ & _ & S & _). subst test.
  apply S; auto; [lia|]. apply C. unfold label. apply nth_In. lia.
Qed.
(** exact ratios: each class gives the floor of its share *)
Lemma cut_floor (r : Q) z : (0 <= r)%Q -> 0 <= z -> r_cut r z = Qfloor (inject_Z z * r).
Proof.
  intros R P. destruct r as [a d]. cbn. unfold Qle in R. cbn in R. apply Z.quot_div_nonneg; [|lia]. apply Z.mul_nonneg_nonneg; lia.
Qed.
Lemma floor_nonneg (x : Q) : (0 <= x)%Q -> 0 <= Qfloor x.
Proof. intros P. change 0 with (Qfloor 0). apply Qfloor_resp_le. auto. Qed.
Lemma floor_add (x y : Q) : Qfloor x + Qfloor y <= Qfloor (x + y).
Proof.
  rewrite <- (Qfloor_Z (Qfloor x + Qfloor y)). apply Qfloor_resp_le. rewrite inject_Z_plus. apply Qplus_le_compat; apply Qfloor_le.
Qed.
Lemma floor_share (z : Z) (r : Q) : 0 <= z -> (r <= 1)%Q -> Qfloor (inject_Z z * r) <= z.
Proof.
  intros P R. rewrite <- (Qfloor_Z z) at 2. apply Qfloor_resp_le. rewrite <- (Qmult_1_r (inject_Z z)) at 2.
  rewrite !(Qmult_comm (inject_Z z)). apply Qmult_le_compat_r; auto. change 0%Q with (inject_Z 0). rewrite <- Zle_Qle. auto.
Qed.
Definition qopt (o : option Q) : Q := match o with Some v => v | None => 0%Q end.
Theorem C45_by_exact_ratio : forall n lbl lo k sh (train : Q) val test,
  (2 <= length lbl)%nat -> Z.of_nat (length lbl) = n -> lo = 0 \/ lo = 1 -> contiguous lbl lo k ->
  (forall c x, Permutation (sh c x) x) -> (0 <= train)%Q -> (0 <= qopt val)%Q -> (0 <= qopt test)%Q ->
  match test with Some t => (train + qopt val + t <= 1)%Q | None => (train + qopt val < 1)%Q end ->
  exists tr vo te, split_by_ratio n lbl sh train val test = Ok (tr, vo, te) /\ (vo = None <-> (qopt val == 0)%Q) /\
    (forall i, 0 <= i < n -> msel tr i && vsel vo i = false /\ msel tr i && msel te i = false /\ vsel vo i && msel te i = false) /\
    (forall c, lo <= c < lo + k -> let z := class_size lbl c in
       selected lbl tr c = Qfloor (inject_Z z * train) /\ vselected lbl vo c = Qfloor (inject_Z z * qopt val) /\
       selected lbl te c = match test with Some t => Qfloor (inject_Z z * t)
                           | None => z - Qfloor (inject_Z z * train) - Qfloor (inject_Z z * qopt val) end).
Proof.
  intros n lbl lo k sh train val test L LN LO C SH P1 P2 P3 FT.
  assert (CE : forall r z, (0 <= r)%Q -> 0 <= z -> 0 <= r_cut r z).
  { intros r z R Z0. rewrite cut_floor by auto. apply floor_nonneg. apply Qmult_le_0_compat; auto. change 0%Q with (inject_Z 0). rewrite <- Zle_Qle. auto. }
  assert (VQ : @optr Q Ratio_Q val = qopt val) by reflexivity.
  destruct (@C45_by_ratio Q Ratio_Q n lbl lo k sh train val test L LN LO C SH) as (tr & vo & te & E & V & S & _).
  - unfold ratio_fits. rewrite VQ. cbn. destruct test as [t|].
    + apply Qle_bool_iff. auto.
    + apply negb_true_iff, not_true_iff_false. intros X. apply Qle_bool_iff in X. apply Qlt_not_le in FT. auto.
  - intros z Z0. rewrite VQ. split; [apply CE; auto|]. split; [apply CE; auto|]. intros t ->. apply CE; auto.
  - rewrite VQ. intros X z. cbn in *. apply Qeq_bool_iff in X. unfold Qeq in X. cbn in X. rewrite Z.mul_1_r in X. rewrite X, Z.mul_0_r. reflexivity.
  - exists tr, vo, te. split; auto. split; [rewrite V, VQ; cbn; apply Qeq_bool_iff|].
    destruct S as (_ & _ & _ & D & SZ & _). split; auto. intros c I z. specialize (SZ c I). cbn zeta in SZ. fold z in SZ.
    assert (Z0 : 0 <= z) by (unfold z, class_size; rewrite zcount_filter; lia).
    rewrite VQ, !cut_floor in SZ by auto. destruct SZ as (S1 & S2 & S3). rewrite S1, S2, S3.
    set (a := Qfloor (inject_Z z * train)) in *. set (b := Qfloor (inject_Z z * qopt val)) in *.
    assert (A0 : 0 <= a) by (unfold a; rewrite <- cut_floor by auto; apply CE; auto).
    assert (B0 : 0 <= b) by (unfold b; rewrite <- cut_floor by auto; apply CE; auto).
    assert (AB : a + b <= z).
    { etransitivity; [apply floor_add|]. rewrite <- Qmult_plus_distr_r. apply floor_share; auto. destruct test as [t|].
      - cbn in P3. apply Qle_trans with (train + qopt val + t)%Q; auto. rewrite <- (Qplus_0_r (train + qopt val)) at 1. apply Qplus_le_r; auto.
      - apply Qlt_le_weak; auto. }
    split; [lia|]. split; [lia|]. destruct test as [t|]; [|lia].
    rewrite cut_floor by auto. set (c0 := Qfloor (inject_Z z * t)).
    assert (ABC : a + b + c0 <= z).
    { transitivity (Qfloor (inject_Z z * train + inject_Z z * qopt val) + c0); [pose proof (floor_add (inject_Z z * train) (inject_Z z * qopt val)); fold a b in H; lia|].
      etransitivity; [apply floor_add|]. rewrite <- !Qmult_plus_distr_r. apply floor_share; auto. }
    lia.
Qed.
Theorem C45_reject : forall n sh train val test (x : Z) lbl lo (tr : Q) va te,
  split_by_num n [] sh train val test = Err ValueError /\
  split_by_num n [x] sh train val test = Err AssertionError /\
  ((2 <= length lbl)%nat -> lowest lbl lo ->
   match te with Some t => (1 < tr + qopt va + t)%Q | None => (1 <= tr + qopt va)%Q end ->
   split_by_ratio n lbl sh tr va te = Err AssertionError).
Proof.
  intros. split; [reflexivity|]. split; [reflexivity|]. intros L LO B. apply (split_ratio_reject n sh tr va te L LO).
  unfold ratio_fits. change (@optr Q Ratio_Q va) with (qopt va). cbn. destruct te as [t|].
  - apply not_true_iff_false. intros X. apply Qle_bool_iff in X. apply Qlt_not_le in B. auto.
  - apply negb_false_iff, Qle_bool_iff. auto.
Qed.
Example C45_case : contiguous [1; 2; 2; 1; 2] 1 2 /\
  split_by_num 5 [1; 2; 2; 1; 2] (fun _ x => rev x) 1 (Some 1) None =
  Ok ([false; false; false; true; true], Some [true; false; true; false; false], [false; true; false; false; false]) /\
  split_by_ratio 5 [1; 2; 2; 1; 2] (fun _ x => x) (1 # 2)%Q None None =
  Ok ([true; true; false; false; false], None, [false; false; true; true; true]).
Proof.
  split; [|split; reflexivity]. intros c. cbn. split; [intuition lia|]. intros I. assert (c = 1 \/ c = 2) as [ -> | -> ] by lia; auto.
Qed.

(** * C96: labels with gaps.  [k] is the number of distinct labels; labels outside lo..lo+k-1 are ignored *)
Theorem C96_gaps_actual : forall n lbl low k sh train val test,
  (2 <= length lbl)%nat -> Z.of_nat (length lbl) = n -> lowest lbl low -> distinct lbl k ->
  (forall c x, Permutation (sh c x) x) -> 0 <= train -> 0 <= opt0 val -> 0 <= opt0 test ->
  let lo := if low =? 1 then 1 else 0 in
  exists tr vo te, split_by_num n lbl sh train val test = Ok (tr, vo, te) /\
    (forall i, 0 <= i < n -> label lbl i < lo \/ lo + k <= label lbl i -> msel tr i || vsel vo i || msel te i = false).
Proof.
  intros n lbl low k sh train val test L LN LW D SH P1 P2 P3 lo.
  destruct (@split_num_ok n lbl low k sh train val test L ltac:(lia) LW D SH P1 P2 P3) as (tr & vo & te & E & V & S).
  exists tr, vo, te. split; auto. destruct S as (_ & _ & _ & _ & _ & _ & S). intros i I O. apply S; auto. change (shift_of low) with lo. lia.
Qed.
Theorem C96_gaps_refuted : lowest [0; 5; 0; 5] 0 /\ distinct [0; 5; 0; 5] 2 /\
  split_by_num 4 [0; 5; 0; 5] (fun _ x => x) 1 None None = Ok ([true; false; false; false], None, [false; false; true; false]).
Proof.
  split; [|split; [|reflexivity]].
  - split; cbn; [auto|intuition lia].
  - exists [0; 5]. split; [repeat constructor; cbn; intuition lia|]. split; [cbn; intuition|reflexivity].
Qed.

(** * C46 *)
Lemma nbrs {T} {N : Num T} nu nv e w m ops (s : bigraph T) : b_reach nu nv e w m ops s -> nonneg_new e -> Forall nonneg_bop ops ->
  b_nu (st_raw s) = nu /\ exists nb, forall u, 0 <= u < nu -> nbr_v s u = Ok (nb u) /\ NoDup (nb u) /\
    (forall v, In v (nb u) <-> b_spec nu nv e w m ops u v <> None).
Proof.
  intros H NE NO. destruct (breach_rel H) as (C & R & NU & NV & P). split; auto.
  exists (fun u => match nbr_v s u with Ok l => l | _ => [] end). intros u U.
  destruct (@bquery_nbr _ _ _ _ _ _ C R NU NV (bspec_range nu nv e w m NE NO) u 0 U ltac:(lia)) as (lv & lu & A1 & _ & N1 & _ & M1 & _).
  assert (E : nbr_v s u = Ok lv).
  { cbn [b_query] in A1. unfold bind in A1. unfold nbr_v, asks. destruct (bget_Nv u s) as [s1 [a|x]]; cbn in *; congruence. }
  rewrite E. auto.
Qed.
(** the split of one user: [t] for training, [t'] for testing *)
Definition user_split {T} (g : wmap T) (u : Z) (cut : Z -> Z) (t t' : list Z) : Prop :=
  NoDup (t ++ t') /\ (forall v, In v (t ++ t') <-> g u v <> None) /\
  let z := Z.of_nat (length (t ++ t')) in Z.of_nat (length t) = Z.min (cut z) z.
Lemma user_of {T} (g : wmap T) u cut l x : Permutation x l -> NoDup l -> (forall v, In v l <-> g u v <> None) -> 0 <= cut (Z.of_nat (length l)) ->
  user_split g u cut (firstn (Z.to_nat (cut (Z.of_nat (length l)))) x) (skipn (Z.to_nat (cut (Z.of_nat (length l)))) x).
Proof.
  intros P N I C. unfold user_split. rewrite firstn_skipn. split; [|split].
  - eapply Permutation_NoDup; [symmetry; exact P|auto].
  - intros v. rewrite <- I. split; apply Permutation_in; [|symmetry]; exact P.
  - cbn zeta. rewrite firstn_length. rewrite (Permutation_length P) in *. lia.
Qed.
Theorem C46_by_num : forall (T : Type) (N : Num T) nu nv e w m ops (s : bigraph T) sh train,
  b_reach nu nv e w m ops s -> nonneg_new e -> Forall nonneg_bop ops -> (forall u x, Permutation (sh u x) x) -> 0 <= train ->
  let g := b_spec nu nv e w m ops in
  exists tr te, split_by_num_UI s sh train = Ok (tr, te) /\
    (forall u, 0 <= u < nu -> user_split g u (fun _ => train) (items u tr) (items u te)) /\
    NoDup (map (hd 0) tr) /\ NoDup (map (hd 0) te) /\ Forall (fun line => (2 <= length line)%nat) te /\
    (forall line, In line tr \/ In line te -> exists u t, line = u :: t /\ 0 <= u < nu /\ exists v, g u v <> None).
Proof.
  intros T N nu nv e w m ops s sh train H NE NO SH P g. destruct (nbrs H NE NO) as (NU & nb & NB).
  unfold split_by_num_UI. rewrite NU.
  destruct (@ui_num_ok T N s sh SH nb train (range nu) (range_NoDup nu)) as (tr & te & E & (O1 & O2) & N1 & N2 & L2 & Z1 & Z2); auto.
  { intros u U. apply range_In in U. apply NB; auto. }
  exists tr, te. split; auto. split; [|split; [|split; [|split]]]; auto.
  - intros u U. destruct (O1 u) as [-> ->]; [apply range_In; auto|]. destruct (NB u U) as (_ & ND & I). apply (user_of g u (fun _ => train)  (SH u (nb u))); auto.
  - intros line I. destruct line as [|u t]; [destruct I; contradiction|]. exists u, t. split; auto. destruct (O2 u t I) as [J K]. apply range_In in J. split; auto.
    destruct (nb u) as [|v r] eqn:Q; [congruence|]. exists v. apply (NB u J). rewrite Q. left; auto.
Qed.
Theorem C46_by_ratio : forall (T : Type) (N : Num T) (F : Type) (RF : Ratio F) nu nv e w m ops (s : bigraph T) sh (ratio : F),
  b_reach nu nv e w m ops s -> nonneg_new e -> Forall nonneg_bop ops -> (forall u x, Permutation (sh u x) x) -> (forall z, 0 <= z -> 0 <= r_cut ratio z) ->
  let g := b_spec nu nv e w m ops in
  exists tr te, split_by_ratio_UI s sh ratio = Ok (tr, te) /\
    (forall u, 0 <= u < nu -> user_split g u (r_cut ratio) (items u tr) (items u te)) /\
    map (hd 0) tr = map (hd 0) te /\ NoDup (map (hd 0) tr) /\
    (forall line, In line tr \/ In line te -> exists u t, line = u :: t /\ 0 <= u < nu /\ exists v, g u v <> None).
Proof.
  intros T N F RF nu nv e w m ops s sh ratio H NE NO SH P g. destruct (nbrs H NE NO) as (NU & nb & NB).
  unfold split_by_ratio_UI. rewrite NU.
  destruct (@ui_ratio_ok T N s sh SH nb F RF ratio (range nu) (range_NoDup nu)) as (tr & te & E & (O1 & O2) & N1 & N2 & Z1 & Z2 & HH); auto.
  { intros u U. apply range_In in U. apply NB; auto. }
  exists tr, te. split; auto. split; [|split; [|split]]; auto.
  - intros u U. destruct (O1 u) as [-> ->]; [apply range_In; auto|]. destruct (NB u U) as (_ & ND & I). apply user_of; auto. apply P. lia.
  - intros line I. destruct line as [|u t]; [destruct I; contradiction|]. exists u, t. split; auto. destruct (O2 u t I) as [J K]. apply range_In in J. split; auto.
    destruct (nb u) as [|v r] eqn:Q; [congruence|]. exists v. apply (NB u J). rewrite Q. left; auto.
Qed.
Example C46_case : exists s : bigraph Qc, b_reach 3 4 (Some (EMany [(0, 1); (0, 2); (0, 3); (2, 0)])) WNone MSum [] s /\
  split_by_num_UI s (fun _ x => rev x) 2 = Ok ([[0; 3; 2]; [2; 0]], [[0; 1]]) /\
  split_by_ratio_UI s (fun _ x => x) (1 # 2)%Q = Ok ([[0; 1]; [2]], [[0; 2; 3]; [2; 0]]).
Proof. eexists. split; [eexists; split; reflexivity|]. split; vm_compute; reflexivity. Qed.

(** * C47 *)
Section DropValue.
  Context {T : Type} {N : Num T}.
  Hypothesis RT : ring_theory nz n1 nadd nmul nsub nopp (@eq T).
  Add Ring TRing14 : RT.
  Lemma drop_value (v fill : T) (b : bool) : nadd (nmul v (b2n b)) (nmul (b2n (negb b)) fill) = if b then v else fill.
  Proof. destruct b; cbn; ring. Qed.
End DropValue.
Theorem C47_dropout : forall (T : Type) (N : Num T), ring_theory nz n1 nadd nmul nsub nopp (@eq T) ->
  forall p keep fill (m : coo T), (0 < p)%Q -> (p <= 1)%Q ->
  exists out, sparse_dropout p keep fill m = Ok out /\ map fst out = map fst (coalesce m) /\
    (forall i k v, nth_error (coalesce m) i = Some (k, v) -> nth_error out i = Some (k, if keep i then v else fill)).
Proof.
  intros T N RT p keep fill m P0 P1. unfold sparse_dropout.
  replace (Qle_bool 0 p) with true by (symmetry; apply Qle_bool_iff, Qlt_le_weak; auto).
  replace (Qle_bool p 1) with true by (symmetry; apply Qle_bool_iff; auto). cbn [andb].
  replace (Qeq_bool p 0) with false.
  2:{ symmetry. apply not_true_iff_false. intros X. apply Qeq_bool_iff in X. rewrite X in P0. apply Qlt_irrefl in P0. auto. }
  eexists; split; [reflexivity|]. unfold cdrop.
  assert (G : forall l j, map fst (cdrop_from j keep fill l) = map fst l /\
    (forall i k v, nth_error l i = Some (k, v) -> nth_error (cdrop_from j keep fill l) i = Some (k, if keep (j + i)%nat then v else fill))).
  { induction l as [|[k0 v0] l IH]; intros j; cbn [cdrop_from map fst]; [split; auto; intros [|i] k v Q; discriminate|].
    destruct (IH (S j)) as [I1 I2]. split; [f_equal; auto|]. intros [|i] k v Q; cbn [nth_error] in *.
    - injection Q as -> ->. rewrite Nat.add_0_r. do 2 f_equal. apply (drop_value RT).
    - rewrite (I2 i k v Q). replace (S j + i)%nat with (j + S i)%nat by lia. reflexivity. }
  apply (G (coalesce m) 0%nat).
Qed.
Theorem C47_zero : forall (T : Type) (N : Num T), ring_theory nz n1 nadd nmul nsub nopp (@eq T) ->
  forall p keep fill (m : coo T), (p == 0)%Q ->
  exists out, sparse_dropout p keep fill m = Ok out /\ (forall i j, mget out i j = mget m i j) /\ NoDup (map fst out) /\
    (forall x, In x (map fst out) <-> In x (map fst m)).
Proof.
  intros T N RT p keep fill m E. unfold sparse_dropout. rewrite (proj2 (Qeq_bool_iff p 0) E).
  replace (Qle_bool 0 p) with true by (symmetry; apply Qle_bool_iff; rewrite E; apply Qle_refl).
  replace (Qle_bool p 1) with true by (symmetry; apply Qle_bool_iff; rewrite E; discriminate). cbn [andb].
  eexists; split; [reflexivity|]. split; [intros; apply mget_coalesce; auto|]. split; [apply coalesce_nodup|apply coalesce_keys].
Qed.
Theorem C47_reject : forall (T : Type) (N : Num T) p keep fill (m : coo T), (p < 0)%Q \/ (1 < p)%Q ->
  sparse_dropout p keep fill m = Err AssertionError.
Proof.
  intros T N p keep fill m B. unfold sparse_dropout.
  replace (Qle_bool 0 p && Qle_bool p 1) with false; auto. symmetry. apply not_true_iff_false. rewrite andb_true_iff, !Qle_bool_iff.
  intros [X Y]. destruct B as [B|B]; apply Qlt_not_le in B; auto.
Qed.
Example C47_case : sparse_dropout (1 # 2)%Q (fun i => Nat.eqb i 1) (q 9) [((1, 0), q 3); ((0, 1), q 2)] = Ok [((0, 1), q 9); ((1, 0), q 3)].
Proof. vm_compute. qceq. Qed.

(** * C48 (over the reals; rounding and overflow of floating point are not modelled) *)
Theorem C48_binomial : forall n m, 0 <= m <= n -> C_py n m = Z.of_nat (length (subsets (Z.to_nat m) (range n))).
Proof. exact C_py_value. Qed.
Example C48_case : C_py 5 2 = 10 /\ subsets 2 (range 3) = [[0; 1]; [0; 2]; [1; 2]].
Proof. split; [rewrite C48_binomial by lia|]; reflexivity. Qed.
(** * C97: more elements than there are *)
Theorem C97_out_of_range_actual : forall n m, n < m \/ m < 0 -> C_py n m = 1.
Proof. intros n m I. apply C_py_out. tauto. Qed.
Theorem C97_out_of_range_refuted : C_py 3 5 = 1 /\ length (subsets 5 (range 3)) = 0%nat.
Proof. split; [apply C97_out_of_range_actual; lia|reflexivity]. Qed.
