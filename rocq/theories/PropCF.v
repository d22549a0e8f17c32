(** Properties C141 - C144: NGCF, DHCF, BGNN. *)
From Coq Require Import String Ring Permutation Reals Lra QArith Qcanon.
From Verif Require Import Num PyDict PyDictFacts Coo CooFacts MatFacts RealFacts ModelBase CacheFacts ModelGraph GraphFacts SpecGraph SpecGraphOps StoreFacts
  GraphStore GraphMatrix GraphReach PropGraph ModelBiGraph SpecBiGraph BiGraphFacts BiGraphMatrix PropBiGraph
  ModelHyper HyperFacts SpecHyper HyperStore HyperView HyperMatrix HyperPass HyperReach HyperOps PropHyper
  ModelConv ModelUtils ModelNN SpecNN NNFacts PropNN PropLayers ModelCF.
Set Implicit Arguments.
Local Open Scope list_scope.
Local Open Scope Z_scope.

Section Embeddings.
  Local Open Scope R_scope.
  (** What one layer does to the embeddings [x] ([d] channels), given the smoothed ones [g]: *)
  Definition cf_raw (skip : bool) (d : nat) (gc bi : lin (T := R)) (g x : nat -> Z -> R) (j : nat) (i : Z) : R :=
    leaky (/ 5) (affine gc d (fun k => g k i) j + (if skip then x j i else 0)) + leaky (/ 5) (affine bi d (fun k => x k i * g k i) j).
  Definition length_of (d : nat) (y : nat -> Z -> R) (i : Z) : R := sqrt (sumf (seq 0 d) (fun k => y k i * y k i)).
  (** the embeddings of all layers *)
  Fixpoint cf_layers (skip : bool) (d : nat) (smooth : (Z -> R) -> Z -> R) (ls : list (lin (T := R) * lin (T := R))) (x : nat -> Z -> R) : list (nat -> Z -> R) :=
    x :: match ls with
    | [] => []
    | (gc, bi) :: r =>
        let y := cf_raw skip d gc bi (fun k => smooth (x k)) x in
        cf_layers skip d smooth r (fun j i => y j i / Rmax (length_of d y i) (/ 10 ^ 12))
    end.
  Definition cf_mean (l : list (nat -> Z -> R)) (j : nat) (i : Z) : R := sumf l (fun x => x j i) / INR (length l).
End Embeddings.

Section MatTools.
  Context {T : Type} {N : Num T}.
  Lemma zip_with_mat (f : T -> T -> T) d n A B : zip_with f (mat d n A) (mat d n B) = mat d n (fun j i => f (A j i) (B j i)).
  Proof.
    unfold zip_with, mat. assert (C : forall {X Y W} (h : X * Y -> W) (p : nat -> X) (r : nat -> Y) l, map h (combine (map p l) (map r l)) = map (fun j => h (p j, r j)) l).
    { clear. intros X Y W h p r l. induction l as [|a l IH]; cbn; [reflexivity|]. rewrite IH. reflexivity. }
    rewrite C. apply map_ext. intros j. cbn [fst snd].
    assert (D : forall (p r : Z -> T) l, map (fun xy => f (fst xy) (snd xy)) (combine (map p l) (map r l)) = map (fun i => f (p i) (r i)) l).
    { clear. intros p r l. induction l as [|a l IH]; cbn; [reflexivity|]. rewrite IH. reflexivity. }
    apply D.
  Qed.
  Lemma affine_ext_in (L : lin (T := T)) n x y j : (forall k, (k < n)%nat -> x k = y k) -> affine L n x j = affine L n y j.
  Proof. intros E. unfold affine. f_equal. apply sumf_ext_in. intros k K. apply in_seq in K. rewrite E by lia. reflexivity. Qed.
  (** a linear map of a matrix *)
  Lemma linear_mat (L : lin (T := T)) d c n F : fits L d c -> exists H, linear L (map vec (mat d n F)) = Ok H /\ length H = c /\
    map (fun h => map h (range n)) H = mat c n (fun j i => affine L d (fun k => F k i) j) /\
    forall j i, (j < c)%nat -> 0 <= i < n -> chan H j i = affine L d (fun k => F k i) j.
  Proof.
    intros FT. assert (LM : length (map vec (mat d n F)) = d) by (rewrite map_length; apply (mat_shaped d n F)).
    destruct (@linear_spec T N L (map vec (mat d n F)) c) as (H & E & LH & D); [rewrite LM; exact FT|]. rewrite LM in D.
    assert (D' : forall j i, (j < c)%nat -> 0 <= i < n -> chan H j i = affine L d (fun k => F k i) j).
    { intros j i J I. rewrite D by auto. apply affine_ext_in. intros k K. apply chan_vec; auto. }
    exists H. split; [exact E|]. split; [exact LH|]. split; [|exact D']. rewrite map_range_mat, LH. apply mat_ext. exact D'.
  Qed.
  (** every matrix of the right shape is given by its entries *)
  Lemma shaped_mat (Y : list (list T)) d n : shaped Y d n -> Y = mat d n (entry Y).
  Proof.
    intros [L F]. apply nth_ext with [] []; unfold mat; [rewrite map_length, seq_length; auto|]. intros j J. rewrite nth_map_seq by lia.
    rewrite Forall_forall in F. apply list_vec. apply F. apply nth_In. exact J.
  Qed.
End MatTools.

Section CF.
  Local Open Scope R_scope.
  Lemma normalize_mat d n Y : normalize_rows (mat d n Y) = mat d n (fun j i => Y j i / Rmax (length_of d Y i) (/ 10 ^ 12)).
  Proof.
    unfold normalize_rows. unfold mat at 2. rewrite map_map. unfold mat at 2. apply map_ext. intros j.
    assert (C : forall (g : Z -> R), combine (seq 0 (length (map g (range n)))) (map g (range n)) = map (fun i => (Z.to_nat i, g i)) (range n)).
    { clear. intros g. unfold range. rewrite !map_length, seq_length, !map_map. induction (seq 0 (Z.to_nat n)) as [|k l IH]; cbn; [reflexivity|].
      rewrite IH, Nat2Z.id. reflexivity. }
    rewrite C, map_map. apply map_ext_in. intros i I. apply range_In in I. cbn [fst snd]. do 3 f_equal.
    unfold row_norm, length_of. f_equal. unfold mat. rewrite sumf_map. apply sumf_ext. intros k.
    pose proof (@nth_map_range R _ (Y k) n i I) as Q. change (@nz R _) with 0 in Q. rewrite Q. reflexivity.
  Qed.
  Definition good_smooth (d : nat) (n : Z) (smooth : list (list R) -> res (list (list R))) (sm : (Z -> R) -> Z -> R) : Prop :=
    forall F, smooth (mat d n F) = Ok (mat d n (fun j => sm (F j))).
  Lemma cf_layer_ok skip d n smooth sm gc bi x : good_smooth d n smooth sm -> fits gc d d -> fits bi d d ->
    cf_layer skip n smooth gc bi (mat d n x) =
    Ok (mat d n (fun j i => let y := cf_raw skip d gc bi (fun k => sm (x k)) x in y j i / Rmax (length_of d y i) (/ 10 ^ 12))).
  Proof.
    intros GS F1 F2. unfold cf_layer. rewrite GS. cbn [rbind]. destruct (linear_mat n (fun j => sm (x j)) F1) as (H & -> & _ & EH & _). cbn [rbind].
    rewrite zip_with_mat. destruct (linear_mat n (fun j i => x j i * sm (x j) i)%R F2) as (B & -> & _ & EB & _). cbn [rbind]. f_equal. rewrite EH, EB.
    set (S := if skip then _ else _).
    assert (ES : S = mat d n (fun j i => affine gc d (fun k => sm (x k) i) j + (if skip then x j i else 0))).
    { unfold S. destruct skip; [rewrite zip_with_mat; reflexivity|]. apply mat_ext. intros. lra. }
    rewrite ES. unfold leak. rewrite !map_map_mat, zip_with_mat, normalize_mat. reflexivity.
  Qed.
  Lemma cf_embs_ok skip d n smooth sm ls : (ls = [] \/ good_smooth d n smooth sm) -> Forall (fun gb => fits (fst gb) d d /\ fits (snd gb) d d) ls ->
    forall x, cf_embs skip n smooth ls (mat d n x) = Ok (map (mat d n) (cf_layers skip d sm ls x)).
  Proof.
    intros GS F. induction F as [|[gc bi] ls [F1 F2] F IH]; intros x; [reflexivity|]. destruct GS as [|GS]; [discriminate|]. cbn [cf_embs cf_layers map fst snd] in *.
    rewrite (@cf_layer_ok skip d n smooth sm) by auto. cbn [rbind]. rewrite IH by auto. reflexivity.
  Qed.
  Lemma sum_ones {A} (l : list A) : sumf l (fun _ => 1) = INR (length l).
  Proof. induction l as [|a l IH]; [reflexivity|]. change (1 + sumf l (fun _ => 1) = INR (length (a :: l))). rewrite IH. cbn [length]. rewrite S_INR. lra. Qed.
  Lemma range_split a b {A} (f : Z -> A) : (0 <= a)%Z -> (0 <= b)%Z -> map f (range (a + b)) = map f (range a) ++ map (fun i => f (a + i)%Z) (range b).
  Proof.
    intros PA PB. unfold range. replace (Z.to_nat (a + b)) with (Z.to_nat a + Z.to_nat b)%nat by lia. rewrite seq_app, !map_app, !map_map. f_equal. cbn [plus].
    assert (SH : forall k m, seq k m = map (fun i => (k + i)%nat) (seq 0 m)).
    { clear. intros k m. revert k. induction m as [|m IH]; intros k; cbn; [reflexivity|]. rewrite Nat.add_0_r. f_equal.
      rewrite IH, (IH 1%nat), map_map. apply map_ext. intros i. lia. }
    rewrite (SH (Z.to_nat a)), map_map. apply map_ext. intros i. f_equal. lia.
  Qed.
  Lemma cf_out_ok a b d l : (0 <= a)%Z -> (0 <= b)%Z -> l <> [] ->
    cf_out (Z.to_nat a) d (Z.to_nat a + Z.to_nat b) (map (mat d (a + b)) l) = map (fun j => (map (cf_mean l j) (range a), map (fun i => cf_mean l j (a + i)%Z) (range b))) (seq 0 d).
  Proof.
    intros PA PB NL. unfold cf_out. apply map_ext_in. intros j J. apply in_seq in J. cbv zeta.
    assert (M : mean_of (Z.to_nat a + Z.to_nat b) (map (fun Y => nth j Y []) (map (mat d (a + b)) l)) = map (cf_mean l j) (range (a + b))).
    { unfold mean_of, range. rewrite !map_map. replace (Z.to_nat (a + b)) with (Z.to_nat a + Z.to_nat b)%nat by lia. apply map_ext_in. intros p P. apply in_seq in P.
      rewrite !sumf_map. unfold cf_mean. change (@nmul R _) with Rmult. unfold Rdiv. f_equal.
      - apply sumf_ext. intros x. unfold mat. rewrite nth_map_seq by lia. rewrite <- (Nat2Z.id p) at 1. apply nth_map_range. lia.
      - change (@n1 R _) with 1. rewrite (sum_ones l). change (@ninv R _) with Rinv0. apply Rinv0_ne. destruct l; [congruence|]. cbn [length]. apply not_0_INR. discriminate. }
    rewrite M, range_split by auto. f_equal.
    - rewrite firstn_app, map_length, range_length, Nat.sub_diag. cbn [firstn]. rewrite app_nil_r. apply firstn_all2. rewrite map_length, range_length. lia.
    - rewrite skipn_app, map_length, range_length, Nat.sub_diag. cbn [skipn]. rewrite skipn_all2 by (rewrite map_length, range_length; lia). reflexivity.
  Qed.
  Lemma stack_mat (U I : list (list R)) a b d : (0 <= a)%Z -> (0 <= b)%Z -> shaped U d a -> shaped I d b ->
    map (fun ui => fst ui ++ snd ui) (combine U I) = mat d (a + b) (fun j i => if (i <? a)%Z then entry U j i else entry I j (i - a)).
  Proof.
    intros PA PB SU SI. rewrite (shaped_mat SU), (shaped_mat SI) at 1. unfold mat.
    assert (C : forall (p r : nat -> list R) l, map (fun ui => fst ui ++ snd ui) (combine (map p l) (map r l)) = map (fun j => p j ++ r j) l).
    { clear. intros p r l. induction l as [|x l IH]; cbn; [reflexivity|]. rewrite IH. reflexivity. }
    rewrite C. apply map_ext. intros j. rewrite range_split by auto. f_equal; apply map_ext_in; intros i II; apply range_In in II.
    - destruct (Z.ltb_spec i a); [reflexivity|lia].
    - destruct (Z.ltb_spec (a + i) a); [lia|]. f_equal. lia.
  Qed.
  Lemma cf_model_ok skip smooth sm ls a b d U I : (0 <= a)%Z -> (0 <= b)%Z -> shaped U d a -> shaped I d b ->
    (ls = [] \/ good_smooth d (a + b) smooth sm) -> Forall (fun gb => fits (fst gb) d d /\ fits (snd gb) d d) ls ->
    cf_model skip smooth ls (Z.to_nat a) (Z.to_nat b) U I =
    let l := cf_layers skip d sm ls (fun j i => if (i <? a)%Z then entry U j i else entry I j (i - a)) in
    Ok (map (fun j => (map (cf_mean l j) (range a), map (fun i => cf_mean l j (a + i)%Z) (range b))) (seq 0 d)).
  Proof.
    intros PA PB SU SI GS F. unfold cf_model. rewrite (stack_mat PA PB SU SI). replace (Z.of_nat (Z.to_nat a + Z.to_nat b)) with (a + b)%Z by lia.
    rewrite (cf_embs_ok skip GS F). cbn [rbind]. cbv zeta. f_equal. rewrite (proj1 (mat_shaped d (a + b) _)). apply cf_out_ok; auto. destruct ls as [|[]]; discriminate.
  Qed.
End CF.

Theorem C141_ngcf : forall nu nv e w m ops (s : bigraph R) ls a b d U I,
  0 <= nu -> b_reach nu nv e w m ops s -> nonneg_new e -> Forall nonneg_bop ops ->
  0 <= a -> 0 <= b -> shaped U d a -> shaped I d b -> Forall (fun gb => fits (fst gb) d d /\ fits (snd gb) d d) ls ->
  let coeff := bi_coeff nu nv (b_spec nu nv e w m ops) in
  let layers := cf_layers false d (fun x i => sumf (range (nu + nv)) (fun j => coeff i j * x j)%R) ls
                  (fun j i => if i <? a then entry U j i else entry I j (i - a)) in
  (ls = [] \/ a + b = nu + nv -> ngcf ls (Z.to_nat a) (Z.to_nat b) U I s =
     Ok (map (fun j => (map (cf_mean layers j) (range a), map (fun i => cf_mean layers j (a + i)) (range b))) (seq 0 d))) /\
  (ls <> [] -> a + b <> nu + nv -> ngcf ls (Z.to_nat a) (Z.to_nat b) U I s = Err RuntimeError).
Proof.
  intros nu nv e w m ops s ls a b d U I PU H NE NO PA PB SU SI F coeff layers.
  destruct (breach_rel H) as (_ & _ & NU & NV & _). split.
  - intros EQ. unfold ngcf. apply (@cf_model_ok false _ (fun x i => sumf (range (nu + nv)) (fun j => coeff i j * x j)%R)); auto.
    destruct EQ as [->|EQ]; [left; auto|right]. intros G. rewrite NU, NV. replace (Z.of_nat (Z.to_nat a + Z.to_nat b)) with (nu + nv) by lia. rewrite Z.eqb_refl, EQ.
    apply (columns_vec (Q := fun x => as_vals (snd (b_query (bqGcn x None) s))) (F := fun x i => sumf (range (nu + nv)) (fun j => coeff i j * x j)%R)).
    + intros h. destruct (C26_gcn_matrix RT PU H NE NO) as (L & _ & D & Q). destruct (Q h) as (y & EY & DY). apply as_vals_range. exists y. split; [exact EY|].
      intros i II. rewrite DY. apply sumf_ext_in. intros j J. apply range_In in J. destruct (D i j II J) as (-> & _). reflexivity.
    + intros h h' EH i _. apply sumf_ext_in. intros j J. apply range_In in J. rewrite EH by auto. reflexivity.
  - intros NL NEQ. unfold ngcf, cf_model. destruct ls as [|[gc bi] ls]; [congruence|]. cbn [cf_embs]. unfold cf_layer. rewrite NU, NV.
    replace (Z.of_nat (Z.to_nat a + Z.to_nat b) =? nu + nv) with false by (symmetry; apply Z.eqb_neq; lia). reflexivity.
Qed.
Theorem C141_dhcf : forall nvu eu wu vwu mu opsu (su : hypergraph R) esu wsu nvi ei wi vwi mi opsi (si : hypergraph R) esi wsi ls a b d U I,
  h_clean_reach nvu eu wu vwu mu opsu su -> h_reports su None esu wsu -> h_clean_reach nvi ei wi vwi mi opsi si -> h_reports si None esi wsi ->
  0 <= a -> 0 <= b -> shaped U d a -> shaped I d b -> Forall (fun gb => fits (fst gb) d d /\ fits (snd gb) d d) ls ->
  let smooth x i := if i <? a then sumf (range a) (fun v => hgnn_coeff esu wsu i v * x v)%R
                    else sumf (range b) (fun v => hgnn_coeff esi wsi (i - a) v * x (a + v)%Z)%R in
  let layers := cf_layers true d smooth ls (fun j i => if i <? a then entry U j i else entry I j (i - a)) in
  (ls = [] \/ a = nvu /\ b = nvi -> dhcf ls (Z.to_nat a) (Z.to_nat b) U I su si =
     Ok (map (fun j => (map (cf_mean layers j) (range a), map (fun i => cf_mean layers j (a + i)) (range b))) (seq 0 d))) /\
  (ls <> [] -> a <> nvu \/ b <> nvi -> dhcf ls (Z.to_nat a) (Z.to_nat b) U I su si = Err RuntimeError).
Proof.
  intros nvu eu wu vwu mu opsu su esu wsu nvi ei wi vwi mi opsi si esi wsi ls a b d U I HU RU HI RI PA PB SU SI F smooth layers.
  destruct (clean_state HU RU) as (_ & _ & _ & NU & _). destruct (clean_state HI RI) as (_ & _ & _ & NI & _). split.
  - intros EQ. unfold dhcf. apply (@cf_model_ok true _ smooth); auto. destruct EQ as [->|[EA EB]]; [left; auto|right]. intros G. rewrite NU, NI, !Z2Nat.id by lia.
    rewrite EA, EB, !Z.eqb_refl. rewrite <- EA, <- EB.
    rewrite (@map_res_ok _ _ _ (fun x => map (fun u => sumf (range a) (fun v => hgnn_coeff esu wsu u v * vec (firstn (Z.to_nat a) x) v)%R) (range a))).
    2:{ intros x _. rewrite (ask_hgnn RT HU RU). rewrite <- EA. reflexivity. }
    cbn [rbind].
    rewrite (@map_res_ok _ _ _ (fun x => map (fun u => sumf (range b) (fun v => hgnn_coeff esi wsi u v * vec (skipn (Z.to_nat a) x) v)%R) (range b))).
    2:{ intros x _. rewrite (ask_hgnn RT HI RI). rewrite <- EB. reflexivity. }
    cbn [rbind]. f_equal. unfold mat. rewrite !map_map.
    assert (C : forall (p r : nat -> list R) l, map (fun ui => fst ui ++ snd ui) (combine (map p l) (map r l)) = map (fun j => p j ++ r j) l).
    { clear. intros p r l. induction l as [|x l IH]; cbn; [reflexivity|]. rewrite IH. reflexivity. }
    rewrite C. apply map_ext. intros j. rewrite (range_split (smooth (G j)) PA PB), range_split by auto. f_equal; apply map_ext_in; intros i II; apply range_In in II; unfold smooth.
    + destruct (Z.ltb_spec i a); [|lia]. apply sumf_ext_in. intros v V. apply range_In in V. f_equal.
      rewrite firstn_app, map_length, range_length, Nat.sub_diag. cbn [firstn]. rewrite app_nil_r, firstn_all2 by (rewrite map_length, range_length; lia). apply vec_map; auto.
    + destruct (Z.ltb_spec (a + i) a); [lia|]. replace (a + i - a) with i by lia. apply sumf_ext_in. intros v V. apply range_In in V. f_equal.
      rewrite skipn_app, map_length, range_length, Nat.sub_diag. cbn [skipn]. rewrite skipn_all2 by (rewrite map_length, range_length; lia). cbn [app].
      apply (vec_map (fun v => G j (a + v))); auto.
  - intros NL NEQ. unfold dhcf, cf_model. destruct ls as [|[gc bi] ls]; [congruence|]. cbn [cf_embs]. unfold cf_layer. rewrite NU, NI, !Z2Nat.id by lia.
    destruct (Z.eqb_spec a nvu); [|reflexivity]. destruct (Z.eqb_spec b nvi); [lia|reflexivity].
Qed.
(** after the first, all embeddings are vectors of length at most 1 (exactly 1 unless they were shorter than 1e-12 before) *)
Theorem C141_normalised : forall skip d smooth ls x l, nth_error (cf_layers skip d smooth ls x) (S l) <> None ->
  exists y, nth_error (cf_layers skip d smooth ls x) (S l) = Some y /\ forall i, (length_of d y i <= 1)%R /\ forall j, (j < d)%nat -> (-1 <= y j i <= 1)%R.
Proof.
  intros skip d smooth ls. induction ls as [|[gc bi] ls IH]; intros x l NN; [destruct l; cbn in NN; congruence|]. cbn [cf_layers nth_error] in *. cbv zeta in *.
  set (y := cf_raw _ _ _ _ _ _) in *. set (z := fun j i => (y j i / Rmax (length_of d y i) (/ 10 ^ 12))%R) in *.
  destruct l as [|l]; [|apply IH; destruct ls as [|[]]; exact NN]. exists z. split; [destruct ls as [|[]]; reflexivity|]. intros i.
  assert (L1 : (length_of d z i <= 1)%R).
  { set (M := Rmax (length_of d y i) (/ 10 ^ 12)). assert (PM : (0 < M)%R) by (apply Rlt_le_trans with (/ 10 ^ 12)%R; [apply Rinv_0_lt_compat, pow_lt; lra|apply Rmax_r]).
    assert (E : sumf (seq 0 d) (fun k => z k i * z k i)%R = (/ (M * M) * sumf (seq 0 d) (fun k => y k i * y k i))%R).
    { generalize (seq 0 d). intros ks. induction ks as [|k ks IHk]; cbn; [change (@nz R _) with 0%R; lra|]. change (@nadd R _) with Rplus. rewrite IHk. unfold z. fold M. field. lra. }
    unfold length_of. rewrite E. assert (S0 : (0 <= sumf (seq 0 d) (fun k => y k i * y k i))%R).
    { generalize (seq 0 d). intros ks. induction ks as [|k ks IHk]; cbn; [apply Rle_refl|]. change (@nadd R _) with Rplus. pose proof (Rle_0_sqr (y k i)). unfold Rsqr in *. lra. }
    assert (LE : (length_of d y i <= M)%R) by apply Rmax_l. unfold length_of in LE. apply sqrt_le_1_alt in S0 as SQ.
    rewrite <- sqrt_1. apply sqrt_le_1_alt. apply Rmult_le_reg_l with (M * M)%R; [apply Rmult_lt_0_compat; auto|]. rewrite <- Rmult_assoc, Rinv_r, Rmult_1_l by (apply Rgt_not_eq, Rmult_lt_0_compat; auto).
    rewrite Rmult_1_r. rewrite <- (sqrt_sqrt _ S0). apply Rmult_le_compat; auto using sqrt_pos. }
  split; [exact L1|]. intros j J. assert (SQ : (z j i * z j i <= 1)%R).
  { unfold length_of in L1. assert (SUM : (z j i * z j i <= sumf (seq 0 d) (fun k => z k i * z k i))%R).
    { assert (IJ : In j (seq 0 d)) by (apply in_seq; lia). revert IJ. generalize (seq 0 d). clear. intros ks IJ.
      assert (P : forall ks, (0 <= sumf ks (fun k => z k i * z k i))%R).
      { clear. induction ks as [|k ks IHk]; cbn; [apply Rle_refl|]. change (@nadd R _) with Rplus. pose proof (Rle_0_sqr (z k i)). unfold Rsqr in *. lra. }
      induction ks as [|k ks IHk]; [destruct IJ|]. cbn. change (@nadd R _) with Rplus. destruct IJ as [->|IJ]; [specialize (P ks); lra|].
      specialize (IHk IJ). pose proof (Rle_0_sqr (z k i)). unfold Rsqr in *. lra. }
    assert (P0 : (0 <= sumf (seq 0 d) (fun k => z k i * z k i))%R) by (pose proof (Rle_0_sqr (z j i)); unfold Rsqr in *; lra).
    rewrite <- sqrt_1 in L1. apply sqrt_le_0 in L1; lra. }
  split; nra.
Qed.
(** * BGNN *)
Section BGNN.
  Context {T : Type} {N : Num T}.
  (** the features of the one side are replaced by [act] of the weighted sums over the edges of the mapped features of the other side *)
  Fixpoint back_forth (nu nv : Z) (g : wmap T) (act : T -> T) (du dv : nat) (toU : bool) (ls : list (lin (T := T))) (xu xv : nat -> Z -> T) : nat -> Z -> T :=
    match ls with
    | [] => xu
    | L :: r =>
        if toU then back_forth nu nv g act du dv false r (fun j u => act (sumf (range nv) (fun v => nmul (wt (g u v)) (affine L dv (fun k => xv k v) j)))) xv
        else back_forth nu nv g act du dv true r xu (fun j v => act (sumf (range nu) (fun u => nmul (wt (g u v)) (affine L du (fun k => xu k u) j))))
    end.
  Fixpoint alt_fits (du dv : nat) (toU : bool) (ls : list (lin (T := T))) : Prop :=
    match ls with
    | [] => True
    | L :: r => (if toU then fits L dv du else fits L du dv) /\ alt_fits du dv (negb toU) r
    end.
  (** both sides after the layers [ls] *)
  Fixpoint sides (toU : bool) (ls : list (lin (T := T) * (omat (T := T) -> res (omat (T := T))))) (s : bigraph T) (Xu Xv : omat (T := T)) : res (omat (T := T) * omat (T := T)) :=
    match ls with
    | [] => Ok (Xu, Xv)
    | l :: r => if toU then match bstep true l s Xv with Ok Y => sides false r s Y Xv | Err x => Err x end
                else match bstep false l s Xu with Ok Y => sides true r s Xu Y | Err x => Err x end
    end.
End BGNN.
Theorem C142_bgnn : forall (T : Type) (N : Num T), ring_theory (@nz T N) n1 nadd nmul nsub nopp eq ->
  forall nu nv e w m ops (s : bigraph T) act du dv ls Xu Xv, b_reach nu nv e w m ops s -> nonneg_new e -> Forall nonneg_bop ops ->
  alt_fits du dv true ls -> shaped Xu du nu -> shaped Xv dv nv ->
  exists Y, bgnn_forward (map (fun L => (L, adv_post act)) ls) s Xu Xv = Ok Y /\ shaped Y du nu /\
    forall j u, (j < du)%nat -> 0 <= u < nu -> entry Y j u = back_forth nu nv (b_spec nu nv e w m ops) act du dv true ls (entry Xu) (entry Xv) j u.
Proof.
  intros T N RT nu nv e w m ops s act du dv ls Xu Xv H NE NO AF SU SV. unfold bgnn_forward.
  set (g := b_spec nu nv e w m ops).
  assert (PU : forall h, as_vals (snd (b_query (bqPass false h AggrSum None None) s)) = Ok (map (fun u => sumf (range nv) (fun v => nmul (wt (g u v)) (h v))) (range nu))).
  { intros h. destruct (C25_pass RT H NE NO h) as (vs & vm & us & um & _ & _ & E & _ & _ & D). apply as_vals_range. exists us. split; [exact E|]. intros i I. apply (D i I). }
  assert (PV : forall h, as_vals (snd (b_query (bqPass true h AggrSum None None) s)) = Ok (map (fun v => sumf (range nu) (fun u => nmul (wt (g u v)) (h u))) (range nv))).
  { intros h. destruct (C25_pass RT H NE NO h) as (vs & vm & us & um & E & _ & _ & _ & D & _). apply as_vals_range. exists vs. split; [exact E|]. intros i I. apply (D i I). }
  assert (SU1 : forall L x, fits L dv du -> bstep true (L, adv_post act) s (mat dv nv x) =
      Ok (mat du nu (fun j u => act (sumf (range nv) (fun v => nmul (wt (g u v)) (affine L dv (fun k => x k v) j)))))).
  { intros L x F. unfold bstep, adv_post. cbn [fst snd negb]. destruct (linear_mat nv x F) as (Y & -> & LY & _ & D). cbn [rbind].
    rewrite (columns _ PU), LY. cbn [rbind]. rewrite map_map_mat. f_equal. apply mat_ext. intros j u J U. f_equal. apply sumf_ext_in. intros v V. apply range_In in V. rewrite D by auto. reflexivity. }
  assert (SV1 : forall L x, fits L du dv -> bstep false (L, adv_post act) s (mat du nu x) =
      Ok (mat dv nv (fun j v => act (sumf (range nu) (fun u => nmul (wt (g u v)) (affine L du (fun k => x k u) j)))))).
  { intros L x F. unfold bstep, adv_post. cbn [fst snd negb]. destruct (linear_mat nu x F) as (Y & -> & LY & _ & D). cbn [rbind].
    rewrite (columns _ PV), LY. cbn [rbind]. rewrite map_map_mat. f_equal. apply mat_ext. intros j u J U. f_equal. apply sumf_ext_in. intros v V. apply range_In in V. rewrite D by auto. reflexivity. }
  assert (MAIN : forall xu xv, bgnn_loop true (map (fun L => (L, adv_post act)) ls) s (mat du nu xu) (mat dv nv xv) = Ok (mat du nu (back_forth nu nv g act du dv true ls xu xv))).
  { clear SU SV. revert AF. generalize true. induction ls as [|L ls IH]; intros toU AF xu xv; [reflexivity|]. destruct AF as [F AF]. destruct toU; cbn [map bgnn_loop back_forth negb] in *.
    - rewrite SU1 by auto. cbn [rbind]. apply IH. exact AF.
    - rewrite SV1 by auto. cbn [rbind]. apply IH. exact AF. }
  exists (mat du nu (back_forth nu nv g act du dv true ls (entry Xu) (entry Xv))). split; [|split; [apply mat_shaped|intros; apply mat_entry; auto]].
  pose proof (MAIN (entry Xu) (entry Xv)) as M. rewrite <- (shaped_mat SU), <- (shaped_mat SV) in M. exact M.
Qed.
(** the features given for U are never read, whatever the layers *)
Theorem C143_Xu_ignored_actual : forall (T : Type) (N : Num T) (s : bigraph T) l ls Xu Xu' Xv,
  bgnn_forward (l :: ls) s Xu Xv = bgnn_forward (l :: ls) s Xu' Xv.
Proof. reflexivity. Qed.
(** an even number of layers: the last one can only raise an error *)
Theorem C143_last_layer_ignored_actual : forall (T : Type) (N : Num T) (s : bigraph T) ls l Xu Xv Y, Nat.odd (length ls) = true ->
  bgnn_forward (ls ++ [l]) s Xu Xv = Ok Y -> bgnn_forward ls s Xu Xv = Ok Y.
Proof.
  intros T N s ls l Xu Xv Y O. unfold bgnn_forward.
  assert (G : forall (ls : list (lin (T := T) * (omat (T := T) -> res (omat (T := T))))) Xu Xv (toU : bool), (if toU then Nat.odd (length ls) else Nat.even (length ls)) = true ->
    bgnn_loop toU (ls ++ [l]) s Xu Xv = Ok Y -> bgnn_loop toU ls s Xu Xv = Ok Y).
  { clear. induction ls as [|a ls IH]; intros Xu Xv toU O; destruct toU; cbn [app bgnn_loop length] in *; try discriminate O.
    - destruct (bstep false l s Xu); cbn [rbind]; [auto|discriminate].
    - rewrite Nat.odd_succ in O. destruct (bstep true a s Xv); cbn [rbind]; [apply IH; exact O|discriminate].
    - rewrite Nat.even_succ in O. destruct (bstep false a s Xu); cbn [rbind]; [apply IH; exact O|discriminate]. }
  apply G. exact O.
Qed.
(** layer-wise training returns what the trained network answers *)
Theorem C144_cascade : forall (T : Type) (N : Num T) train (s : bigraph T) ls Xu Xv ls' Y,
  cascade train 0 true ls s Xu Xv = Ok (ls', Y) -> length ls' = length ls /\ bgnn_forward ls' s Xu Xv = Ok Y /\
  (* layer k was trained on what the trained layers before it give: the side to be produced, then the side read *)
  forall k l, nth_error ls k = Some l -> exists A B, sides true (firstn k ls') s Xu Xv = Ok (A, B) /\
    nth_error ls' k = Some (if Nat.even k then train k A B l else train k B A l).
Proof.
  intros T N train s ls Xu Xv ls' Y. unfold bgnn_forward.
  assert (G : forall (ls : list (lin (T := T) * (omat (T := T) -> res (omat (T := T))))) p toU Xu Xv ls', toU = Nat.even p -> cascade train p toU ls s Xu Xv = Ok (ls', Y) -> length ls' = length ls /\ bgnn_loop toU ls' s Xu Xv = Ok Y /\
    forall k l, nth_error ls k = Some l -> exists A B, sides toU (firstn k ls') s Xu Xv = Ok (A, B) /\
      nth_error ls' k = Some (if Nat.even (p + k) then train (p + k)%nat A B l else train (p + k)%nat B A l)).
  { clear. induction ls as [|a ls IH]; intros p toU Xu Xv ls' EP C.
    - injection C as <- <-. split; [reflexivity|]. split; [reflexivity|]. intros [|k] l E; discriminate E.
    - cbn [cascade] in C. destruct toU.
      + destruct (bstep true (train p Xu Xv a) s Xv) as [Z|] eqn:B; cbn [rbind] in C; [|discriminate].
        destruct (cascade train (S p) false ls s Z Xv) as [[r O]|] eqn:CC; cbn [rbind fst snd] in C; [|discriminate]. injection C as <- ->.
        destruct (IH (S p) false Z Xv r) as (L & F & D); [rewrite Nat.even_succ, <- Nat.negb_even, <- EP; reflexivity|exact CC|].
        split; [cbn; congruence|]. split; [cbn [bgnn_loop]; rewrite B; exact F|]. intros [|k] l E.
        * exists Xu, Xv. split; [reflexivity|]. cbn in *. injection E as <-. rewrite Nat.add_0_r, <- EP. reflexivity.
        * destruct (D k l E) as (A & A' & S1 & S2). exists A, A'. cbn [firstn sides nth_error]. rewrite B. replace (p + S k)%nat with (S p + k)%nat by lia. split; [exact S1|exact S2].
      + destruct (bstep false (train p Xv Xu a) s Xu) as [Z|] eqn:B; cbn [rbind] in C; [|discriminate].
        destruct (cascade train (S p) true ls s Xu Z) as [[r O]|] eqn:CC; cbn [rbind fst snd] in C; [|discriminate]. injection C as <- ->.
        destruct (IH (S p) true Xu Z r) as (L & F & D); [rewrite Nat.even_succ, <- Nat.negb_even, <- EP; reflexivity|exact CC|].
        split; [cbn; congruence|]. split; [cbn [bgnn_loop]; rewrite B; exact F|]. intros [|k] l E.
        * exists Xu, Xv. split; [reflexivity|]. cbn in *. injection E as <-. rewrite Nat.add_0_r, <- EP. reflexivity.
        * destruct (D k l E) as (A & A' & S1 & S2). exists A, A'. cbn [firstn sides nth_error]. rewrite B. replace (p + S k)%nat with (S p + k)%nat by lia. split; [exact S1|exact S2]. }
  intros C. exact (G ls 0%nat true Xu Xv ls' eq_refl C).
Qed.
(** all features BGNN gives back lie strictly between -1 and 1, also with decoders *)
Lemma tanh_bound x : (-1 < tanh x < 1)%R.
Proof.
  unfold tanh, sinh, cosh. pose proof (exp_pos x) as A. pose proof (exp_pos (- x)) as B.
  split; [apply Rmult_lt_reg_r with ((exp x + exp (- x)) / 2)%R|apply Rmult_lt_reg_r with ((exp x + exp (- x)) / 2)%R]; try lra;
    unfold Rdiv; rewrite ?Rmult_assoc; field_simplify; lra.
Qed.
Theorem C142_bounded : forall (s : bigraph R) ls l Xu Xv Y,
  Forall (fun x => snd x = adv_post tanh \/ exists relu d1 d2 rows, snd x = mlp_post tanh relu d1 d2 rows) (l :: ls) ->
  bgnn_forward (l :: ls) s Xu Xv = Ok Y -> Forall (Forall (fun x => -1 < x < 1)%R) Y.
Proof.
  intros s ls l Xu Xv Y F E.
  assert (ST : forall toU a X Z, (snd a = adv_post tanh \/ exists relu d1 d2 rows, snd a = mlp_post tanh relu d1 d2 rows) -> bstep toU a s X = Ok Z -> Forall (Forall (fun x => -1 < x < 1)%R) Z).
  { clear. intros toU a X Z P E. unfold bstep in E. destruct (linear _ _); cbn [rbind] in E; [|discriminate]. destruct (map_res _ _); cbn [rbind] in E; [|discriminate].
    destruct P as [P|(relu & d1 & d2 & rows & P)]; rewrite P in E.
    - injection E as <-. apply Forall_forall. intros c I. apply in_map_iff in I as (c0 & <- & _). apply Forall_forall. intros x I. apply in_map_iff in I as (y & <- & _). apply tanh_bound.
    - unfold mlp_post in E. destruct (linear d1 _); cbn [rbind] in E; [|discriminate]. destruct (linear d2 _); cbn [rbind] in E; [|discriminate]. injection E as <-.
      apply Forall_forall. intros c I. apply in_map_iff in I as (c0 & <- & _). apply Forall_forall. intros x I. apply in_map_iff in I as (y & <- & _). apply tanh_bound. }
  assert (G : forall ls toU Xu Xv, Forall (fun x => snd x = adv_post tanh \/ exists relu d1 d2 rows, snd x = mlp_post tanh relu d1 d2 rows) ls ->
    Forall (Forall (fun x => -1 < x < 1)%R) Xu -> bgnn_loop toU ls s Xu Xv = Ok Y -> Forall (Forall (fun x => -1 < x < 1)%R) Y).
  { clear -ST. induction ls as [|a ls IH]; intros toU Xu Xv F BX E; [injection E as <-; exact BX|]. inversion F as [|? ? FA F']; subst. destruct toU; cbn [bgnn_loop] in E.
    - destruct (bstep true a s Xv) as [Z|] eqn:B; cbn [rbind] in E; [|discriminate]. exact (IH false Z Xv F' (ST _ _ _ _ FA B) E).
    - destruct (bstep false a s Xu) as [Z|] eqn:B; cbn [rbind] in E; [|discriminate]. exact (IH true Xu Z F' BX E). }
  unfold bgnn_forward in E. cbn [bgnn_loop] in E. inversion F as [|? ? FA F']; subst. destruct (bstep true l s Xv) as [Z|] eqn:B; cbn [rbind] in E; [|discriminate].
  exact (G ls false Z Xv F' (ST _ _ _ _ FA B) E).
Qed.

(** ** concrete cases *)
Local Notation q z := (Q2Qc (inject_Z z)).
Local Ltac qceq := repeat first [ match goal with |- @eq Qc _ _ => apply Qc_is_canon; vm_compute; reflexivity end | reflexivity | f_equal ].
Definition bi3 : option earg := Some (EMany [(0, 0); (0, 1); (1, 1)]).
Example C141_case : (exists s : bigraph R, b_reach 2 2 bi3 WNone MMean [] s /\ ngcf [] 2 2 [[1; 0]]%R [[0; 5]]%R s = Ok [([1; 0], [0; 5])]%R) /\ nonneg_new bi3 /\
  (exists (s : hypergraph R) es ws, ex_reached s /\ h_reports s None es ws) /\
  fits (one_to_one 2 1)%R 1 1 /\ shaped [[1; 0]]%R 1 2 /\ nth_error (cf_layers false 1 (fun x => x) [(one_to_one 2 1, one_to_one 2 1)]%R (fun _ _ => 1%R)) 1 <> None.
Proof.
  assert (NN : nonneg_new bi3) by (cbn; repeat (apply Forall_cons; [cbn; lia|]); apply Forall_nil).
  split. { destruct (b_new (T := R) 2 2 bi3 WNone MMean) as [s|] eqn:E; [|discriminate E]. exists s.
    assert (BR : b_reach (T := R) 2 2 bi3 WNone MMean [] s) by (exists s; split; [exact E|reflexivity]). split; [exact BR|].
    destruct (@C141_ngcf 2 2 bi3 WNone MMean [] s [] 2 2 1%nat [[1; 0]]%R [[0; 5]]%R ltac:(lia) BR NN (Forall_nil _) ltac:(lia) ltac:(lia)) as [G _]; [repeat constructor|repeat constructor|constructor|].
    change 2%nat with (Z.to_nat 2). rewrite G by auto. change (range 2) with [0; 1]. cbn [seq map cf_layers]. unfold cf_mean, entry. cbn. change (@nadd R _) with Rplus; change (@nz R _) with 0%R.
    repeat match goal with |- cons _ _ = cons _ _ => f_equal | |- (_, _) = (_, _) => f_equal | |- Ok _ = Ok _ => f_equal end; change (Pos.to_nat 1) with 1%nat; lra. }
  split; [exact NN|]. split; [destruct (ex_hyper Num_R) as (s & X & _ & _ & E); exists s; eexists; eexists; split; [exact X|exact E]|].
  split; [apply fits_one|]. split; [repeat constructor|discriminate].
Qed.
Example C142_case : exists s : bigraph Qc, b_reach 2 2 bi3 WNone MMean [] s /\ alt_fits 1 1 true [one_to_one (q 2) (q 1); one_to_one (q 1) (q 0); one_to_one (q 1) (q 1)] /\
  bgnn_forward (map (fun L => (L, adv_post (fun x => x))) [one_to_one (q 2) (q 1)]) s [[q 5; q 5]] [[q 1; q 3]] = Ok [[q 10; q 7]] /\
  bgnn_forward (map (fun L => (L, adv_post (fun x => x))) [one_to_one (q 2) (q 1); one_to_one (q 1) (q 0)]) s [[q 5; q 5]] [[q 1; q 3]] = Ok [[q 10; q 7]] /\
  bgnn_forward (map (fun L => (L, adv_post (fun x => x))) [one_to_one (q 2) (q 1); one_to_one (q 1) (q 0); one_to_one (q 1) (q 1)]) s [[q 5; q 5]] [[q 1; q 3]] = Ok [[q 29; q 18]] /\
  exists ls', cascade (fun k A B l => (one_to_one (q 2) (nth 0 (nth 0 A []) (q 0)), snd l)) 0 true (map (fun L => (L, adv_post (fun x => x))) [one_to_one (q 0) (q 0)]) s [[q 5; q 6]] [[q 1; q 3]] =
    Ok (ls', [[q 18; q 11]]).
Proof.
  eexists. split; [eexists; split; reflexivity|]. split; [cbn; repeat split; repeat constructor; intros b E; injection E as <-; reflexivity|].
  split; [vm_compute; qceq|]. split; [vm_compute; qceq|]. split; [vm_compute; qceq|]. eexists. cbn [map cascade]. 
  match goal with |- rbind ?a _ = _ => let v := eval vm_compute in a in assert (E : a = v) by (vm_compute; reflexivity); rewrite E end. cbn [rbind fst snd]. f_equal.
Qed.
