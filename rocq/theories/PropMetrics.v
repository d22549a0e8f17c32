(** Properties C53-C57, C101-C106: retrieval and recommender metrics, in exact real arithmetic.  A theorem about two-dimensional
    inputs covers one-dimensional ones by [C53_one_dim]. *)
From Coq Require Import Reals Lra Permutation Sorted String.
From Verif Require Import Num PyDict PyDictFacts ModelBase ModelConv ModelUtils UtilFacts RealFacts ModelMetrics SpecMetrics MetricFacts RankFacts.
Set Implicit Arguments.
Local Open Scope string_scope.
Local Open Scope R_scope.

(** * C53: precision and recall *)
(** a vector is treated as a matrix with one row *)
Theorem C53_one_dim : forall (argsort : list R -> list nat) (y p : list R) k (ratio : option R) rb,
  let t := V2 (length y) [y] in let s := V2 (length p) [p] in
  precision argsort (V1 y) (V1 p) k ratio rb = precision argsort t s k ratio rb /\
  recall argsort (V1 y) (V1 p) k ratio rb = recall argsort t s k ratio rb /\
  ndcg argsort (V1 y) (V1 p) k ratio rb = ndcg argsort t s k ratio rb /\
  precision_rc argsort (V1 y) (V1 p) k ratio rb = precision_rc argsort t s k ratio rb /\
  recall_rc argsort (V1 y) (V1 p) k ratio rb = recall_rc argsort t s k ratio rb /\
  ndcg_rc argsort (V1 y) (V1 p) k ratio rb = ndcg_rc argsort t s k ratio rb /\
  (forall m, map_score argsort (V1 y) (V1 p) k ratio m rb = map_score argsort t s k ratio m rb) /\
  mrr argsort (V1 y) (V1 p) k ratio rb = mrr argsort t s k ratio rb /\
  (forall m n, pr_curve argsort (V1 y) (V1 p) k ratio m n rb = pr_curve argsort t s k ratio m n rb).
Proof.
  intros argsort y p k ratio rb t s.
  assert (E : eqb [length y] [length p] = eqb [1%nat; length y] [1%nat; length p]).
  { destruct (Nat.eq_dec (length y) (length p)) as [->|N].
    - transitivity true; [apply eqb_eq; auto|symmetry; apply eqb_eq; auto].
    - transitivity false; [|symmetry]; (destruct (eqb _ _) eqn:E; [|auto]; apply eqb_eq in E; congruence). }
  assert (F : format_inputs (V1 y) (V1 p) k ratio = format_inputs t s k ratio)
    by (unfold format_inputs, t, s; cbn [shape length]; rewrite E; reflexivity).
  assert (G : format_inputs_rc (V1 y) (V1 p) k ratio = format_inputs_rc t s k ratio)
    by (unfold format_inputs_rc, t, s; cbn [shape length]; rewrite E; reflexivity).
  unfold precision, recall, ndcg, precision_rc, recall_rc, ndcg_rc, map_score, mrr, pr_curve.
  rewrite F, G. repeat split.
Qed.

Section Values.
  Variable argsort : list R -> list nat.
  Hypothesis AS : sorts_desc argsort.
  Variable c : nat.
  Variable rows : list (list R * list R).
  Hypothesis SM : samples c rows.

  Lemma top_hits r kk : In r rows -> binary (fst r) -> nsum (pref (Z.of_nat kk) (ranked argsort r)) = INR (hits kk (argsort (snd r)) (fst r)).
  Proof.
    intros I B. destruct r as [y p]. destruct (SM _ I) as [L1 L2]. cbn [fst snd] in *.
    rewrite pref_nat, binary_sum.
    - rewrite hits_relevant, ranked_nth. reflexivity.
    - apply binary_firstn. eapply binary_perm; [apply ranked_perm; auto; lia|auto].
  Qed.
  Lemma hits_bounds r kk : In r rows -> (kk <= c)%nat -> (hits kk (argsort (snd r)) (fst r) <= kk)%nat /\ (hits kk (argsort (snd r)) (fst r) <= relevant (fst r))%nat.
  Proof.
    intros I K. destruct r as [y p]. destruct (SM _ I) as [L1 L2]. cbn [fst snd] in *. rewrite hits_relevant. split.
    - etransitivity; [apply relevant_le|]. rewrite firstn_length. lia.
    - etransitivity; [apply relevant_firstn_le|]. rewrite <- (relevant_perm (ranked_perm AS y p ltac:(lia))). rewrite ranked_nth. lia.
  Qed.
  Lemma hits_full r : In r rows -> hits c (argsort (snd r)) (fst r) = relevant (fst r).
  Proof.
    intros I. destruct r as [y p]. destruct (SM _ I) as [L1 L2]. cbn [fst snd] in *. rewrite hits_relevant, firstn_all2.
    - rewrite <- ranked_nth. apply relevant_perm, ranked_perm; auto. lia.
    - rewrite map_length, (argsort_length AS). lia.
  Qed.

  Hypothesis BIN : forall r, In r rows -> binary (fst r).
  Hypothesis ANY : exists r, In r rows /\ In 1 (fst r).
  Variable kk : nat.
  Lemma checked : check_binary (concat (map fst rows)) = Ok tt.
  Proof.
    apply check_binary_ok.
    - intros x I. apply in_concat in I as (y & I & J). apply in_map_iff in I as (r & <- & I). destruct (BIN _ I x J); lra.
    - destruct ANY as (r & I & J). apply in_concat. exists (fst r). split; auto. apply in_map; auto.
  Qed.
  Definition prec_of (r : list R * list R) : R := INR (hits kk (argsort (snd r)) (fst r)) / INR kk.
  Definition rec_of (r : list R * list R) : R :=
    if Nat.eq_dec (relevant (fst r)) 0 then 0 else INR (hits kk (argsort (snd r)) (fst r)) / INR (relevant (fst r)).
  Lemma precision_value rb : (1 <= kk)%nat -> precision_of argsort (Ok (rows, Z.of_nat kk)) rb = Ok (pack rb (map (fun r => Fin (prec_of r)) rows)).
  Proof.
    intros K. unfold precision_of. cbn [rbind]. rewrite checked. cbn [rbind]. f_equal. f_equal. apply map_ext_in.
    intros r I. rewrite top_hits by auto. cbn [nofZ Ext_R]. rewrite <- INR_IZR_INZ. apply fdiv_ne. apply not_0_INR. lia.
  Qed.
  Lemma recall_value rb : (kk <= c)%nat -> recall_of argsort (Ok (rows, Z.of_nat kk)) rb = Ok (pack rb (map (fun r => Fin (rec_of r)) rows)).
  Proof.
    intros K. unfold recall_of. cbn [rbind]. rewrite checked. cbn [rbind]. f_equal. f_equal. apply map_ext_in.
    intros r I. rewrite top_hits by auto. rewrite binary_sum by auto. unfold rec_of.
    destruct (Nat.eq_dec (relevant (fst r)) 0) as [E|N].
    - destruct (hits_bounds r I K) as [_ H]. rewrite E in *. replace (hits kk (argsort (snd r)) (fst r)) with 0%nat by lia.
      cbn [INR]. rewrite fdiv_00. reflexivity.
    - rewrite fdiv_ne by (apply not_0_INR; auto). reflexivity.
  Qed.
  Lemma prec_bound r : In r rows -> (1 <= kk <= c)%nat -> 0 <= prec_of r <= 1 /\ prec_of r * INR kk = INR (hits kk (argsort (snd r)) (fst r)).
  Proof.
    intros I K. destruct (@hits_bounds r kk I (proj2 K)) as [H _]. apply le_INR in H. pose proof (pos_INR (hits kk (argsort (snd r)) (fst r))).
    assert (P : 0 < INR kk) by (apply lt_0_INR; lia). unfold prec_of.
    split; [|field; lra]. split.
    - apply Rmult_le_pos; auto. left. apply Rinv_0_lt_compat; auto.
    - apply Rmult_le_reg_r with (INR kk); auto. unfold Rdiv. rewrite Rmult_assoc, Rinv_l; lra.
  Qed.
  Lemma rec_bound r : In r rows -> (kk <= c)%nat -> 0 <= rec_of r <= 1 /\ rec_of r * INR (relevant (fst r)) = INR (hits kk (argsort (snd r)) (fst r)).
  Proof.
    intros I K. destruct (hits_bounds r I K) as [_ H]. pose proof (pos_INR (hits kk (argsort (snd r)) (fst r))).
    unfold rec_of. destruct (Nat.eq_dec (relevant (fst r)) 0) as [E|N].
    - split; [lra|]. rewrite E in *. replace (hits kk (argsort (snd r)) (fst r)) with 0%nat by lia. apply Rmult_0_l.
    - apply le_INR in H. assert (P : 0 < INR (relevant (fst r))) by (apply lt_0_INR; lia).
      split; [|field; lra]. split.
      + apply Rmult_le_pos; auto. left. apply Rinv_0_lt_compat; auto.
      + apply Rmult_le_reg_r with (INR (relevant (fst r))); auto. unfold Rdiv. rewrite Rmult_assoc, Rinv_l; lra.
  Qed.
End Values.

(** the value and range of both metrics, per sample, in both modules *)
Theorem C53_values : forall (argsort : list R -> list nat) c (rows : list (list R * list R)) k (ratio : option R) kk,
  sorts_desc argsort -> samples c rows -> (forall r, In r rows -> binary (fst r)) -> (exists r, In r rows /\ In 1 (fst r)) ->
  depth c k ratio kk -> (1 <= kk)%nat ->
  let yt := V2 c (map fst rows) in let yp := V2 c (map snd rows) in
  exists p r : list R * list R -> R,
    precision argsort yt yp k ratio true = Ok (MList (map (fun s => Fin (p s)) rows)) /\
    recall argsort yt yp k ratio true = Ok (MList (map (fun s => Fin (r s)) rows)) /\
    precision argsort yt yp k ratio false = Ok (MScal (Fin (avg (map p rows)))) /\
    recall argsort yt yp k ratio false = Ok (MScal (Fin (avg (map r rows)))) /\
    (ratio = None -> forall rb, precision_rc argsort yt yp k ratio rb = precision argsort yt yp k ratio rb /\
                               recall_rc argsort yt yp k ratio rb = recall argsort yt yp k ratio rb) /\
    forall s, In s rows ->
      let h := INR (hits kk (argsort (snd s)) (fst s)) in
      0 <= p s <= 1 /\ 0 <= r s <= 1 /\ p s * INR kk = h /\ r s * INR (relevant (fst s)) = h /\
      (relevant (fst s) = 0%nat -> r s = 0).
Proof.
  intros argsort c rows k ratio kk AS SM BIN ANY D K yt yp.
  assert (NE : rows <> []) by (destruct ANY as (r & I & _); intros ->; destruct I).
  pose proof (depth_le _ _ _ _ D) as KC.
  exists (prec_of argsort kk), (rec_of argsort kk).
  unfold precision, recall, yt, yp. rewrite (samples_format _ _ _ SM D).
  rewrite !(@precision_value argsort AS c rows SM BIN ANY kk) by auto.
  rewrite !(@recall_value argsort AS c rows SM BIN ANY kk) by auto.
  split; [reflexivity|]. split; [reflexivity|].
  split; [cbn [pack]; rewrite fmean_map by auto; reflexivity|]. split; [cbn [pack]; rewrite fmean_map by auto; reflexivity|].
  split.
  - intros -> rb. unfold precision_rc, recall_rc. rewrite (@samples_format_rc _ c rows k kk) by auto.
    rewrite !(@precision_value argsort AS c rows SM BIN ANY kk) by auto.
    rewrite !(@recall_value argsort AS c rows SM BIN ANY kk) by auto. auto.
  - intros s I. destruct (@prec_bound argsort AS c rows SM kk s I) as [P1 P2]; [lia|].
    destruct (@rec_bound argsort AS c rows SM kk s I) as [R1 R2]; [lia|]. repeat split; try tauto.
    intros E. unfold rec_of. destruct (Nat.eq_dec (relevant (fst s)) 0); tauto.
Qed.
(** recall does not decrease with the depth, and is 1 at full depth when something is relevant *)
Theorem C53_recall_mono : forall (argsort : list R -> list nat) c (rows : list (list R * list R)) k1 r1 kk1 k2 r2 kk2 l1 l2,
  sorts_desc argsort -> samples c rows -> (forall r, In r rows -> binary (fst r)) ->
  depth c k1 r1 kk1 -> depth c k2 r2 kk2 -> (kk1 <= kk2)%nat ->
  recall argsort (V2 c (map fst rows)) (V2 c (map snd rows)) k1 r1 true = Ok (MList l1) ->
  recall argsort (V2 c (map fst rows)) (V2 c (map snd rows)) k2 r2 true = Ok (MList l2) ->
  Forall2 (fun a b => exists x y, a = Fin x /\ b = Fin y /\ x <= y) l1 l2 /\
  (kk2 = c -> Forall2 (fun s b => In 1 (fst s) -> b = Fin 1) rows l2).
Proof.
  intros argsort c rows k1 r1 kk1 k2 r2 kk2 l1 l2 AS SM BIN D1 D2 LE E1 E2.
  pose proof (depth_le _ _ _ _ D2) as KC.
  unfold recall in *. rewrite (samples_format _ _ _ SM D1) in E1. rewrite (samples_format _ _ _ SM D2) in E2.
  assert (ANY : exists r, In r rows /\ In 1 (fst r)).
  { unfold recall_of in E1. cbn [rbind] in E1. pose proof (check_binary_spec (concat (map fst rows))) as H.
    destruct (check_binary _) as [[]|x]; [|discriminate]. destruct H as [I _]. apply in_concat in I as (y & I & J).
    apply in_map_iff in I as (r & <- & I). eauto. }
  rewrite (@recall_value argsort AS c rows SM BIN ANY) in E1 by lia.
  rewrite (@recall_value argsort AS c rows SM BIN ANY) in E2 by lia.
  injection E1 as <-. injection E2 as <-.
  assert (H : forall s, In s rows -> rec_of argsort kk1 s <= rec_of argsort kk2 s).
  { intros [y p] I. unfold rec_of. destruct (Nat.eq_dec _ 0); [lra|]. unfold Rdiv. apply Rmult_le_compat_r.
    - left. apply Rinv_0_lt_compat, lt_0_INR. lia.
    - apply le_INR. rewrite !hits_relevant. apply relevant_firstn_mono. auto. }
  assert (G : kk2 = c -> forall s, In s rows -> In 1 (fst s) -> rec_of argsort kk2 s = 1).
  { intros -> s I J. unfold rec_of. destruct (Nat.eq_dec (relevant (fst s)) 0) as [E|N].
    - apply relevant_0 in E. tauto.
    - rewrite (@hits_full argsort AS c rows SM s I). field. apply not_0_INR; auto. }
  clear - H G. induction rows as [|s l IH]; cbn [map]; [split; constructor|].
  destruct IH as [A B].
  - intros; apply H; right; auto.
  - intros E t I J. apply G; auto. right; auto.
  - split.
    + constructor; auto. exists (rec_of argsort kk1 s), (rec_of argsort kk2 s). repeat split. apply H. left; auto.
    + intros E. constructor; auto. intros J. rewrite (G E s (or_introl eq_refl) J). auto.
Qed.

(** the scores matter only through the order of the items *)
Theorem C53_scores : forall a1 a2 c (rows1 rows2 : list (list R * list R)) k (ratio : option R) rb,
  sorts_desc a1 -> sorts_desc a2 ->
  Forall2 (fun r s => fst r = fst s /\ same_order (snd r) (snd s)) rows1 rows2 ->
  let yt := V2 c (map fst rows1) in let p := V2 c (map snd rows1) in let q := V2 c (map snd rows2) in
  precision a1 yt p k ratio rb = precision a2 yt q k ratio rb /\
  recall a1 yt p k ratio rb = recall a2 yt q k ratio rb /\
  ndcg a1 yt p k ratio rb = ndcg a2 yt q k ratio rb /\
  (forall m, map_score a1 yt p k ratio m rb = map_score a2 yt q k ratio m rb) /\
  mrr a1 yt p k ratio rb = mrr a2 yt q k ratio rb /\
  (forall m n, pr_curve a1 yt p k ratio m n rb = pr_curve a2 yt q k ratio m n rb).
Proof.
  intros a1 a2 c rows1 rows2 k ratio rb S1 S2 F yt p q.
  assert (LEN : length rows1 = length rows2) by (eapply Forall2_len; eauto).
  assert (FST : map fst rows1 = map fst rows2) by (clear - F; induction F as [|? ? ? ? [E _]]; cbn; congruence).
  assert (RK : Forall2 (fun r s : list R * list R => fst r = fst s /\ ranked a1 r = ranked a2 s /\ length (snd r) = length (snd s)) rows1 rows2).
  { clear - F S1 S2. induction F as [|[y u] [z v] l m [E O] F IH]; constructor; auto. cbn in *. subst z. split; auto.
    rewrite !ranked_nth, (same_order_ranking O (S1 u) (S2 v)). split; auto. apply O. }
  assert (C1 : combine (map fst rows1) (map snd rows1) = rows1) by (clear; induction rows1 as [|[] l IH]; cbn; congruence).
  assert (C2 : combine (map fst rows1) (map snd rows2) = rows2) by (rewrite FST; clear; induction rows2 as [|[] l IH]; cbn; congruence).
  assert (FI : forall g h : list (list R * list R) -> Z -> res (mout R), (forall kk, g rows1 kk = h rows2 kk) ->
      rbind (format_inputs yt p k ratio) (fun '(rows, kk) => g rows kk) = rbind (format_inputs yt q k ratio) (fun '(rows, kk) => h rows kk)).
  { intros g h GH. unfold format_inputs, yt, p, q. cbn [shape dim12 rows_of cols_of]. rewrite !map_length, LEN, C1, C2.
    destruct (negb _); auto. cbn [negb]. destruct (negb _); auto. cbn [rbind]. apply GH. }
  clear LEN C1 C2 F. unfold precision, recall, ndcg, precision_of, recall_of, ndcg_of, map_score, mrr, pr_curve.
  repeat split.
  - apply FI. intros kk. rewrite FST. destruct (check_binary _); cbn [rbind]; auto. f_equal. f_equal.
    clear - RK. induction RK as [|r s l m (E & K & _) F IH]; cbn [map]; auto. rewrite K, IH. auto.
  - apply FI. intros kk. rewrite FST. destruct (check_binary _); cbn [rbind]; auto. f_equal. f_equal.
    clear - RK. induction RK as [|r s l m (E & K & _) F IH]; cbn [map]; auto. rewrite K, E, IH. auto.
  - apply FI. intros kk. f_equal. f_equal.
    clear - RK. induction RK as [|r s l m (E & K & _) F IH]; cbn [map]; auto. rewrite K, E, IH. auto.
  - intros m. destruct (negb _); auto. apply FI. intros kk. f_equal.
    clear - RK. induction RK as [|[y u] [z v] l n (E & K & L) F IH]; cbn [map_res]; auto. cbn [fst snd] in *. subst z. rewrite IH. f_equal.
    unfold ap. cbn [shape is1]. rewrite L, K. auto.
  - apply FI. intros kk. f_equal.
    clear - RK. induction RK as [|[y u] [z v] l n (E & K & L) F IH]; cbn [map_res]; auto. cbn [fst snd] in *. subst z. rewrite IH. f_equal.
    unfold rr. cbn [shape is1]. rewrite L, K. auto.
  - intros m n. destruct (negb _); auto. apply FI. intros kk. f_equal.
    clear - RK. induction RK as [|[y u] [z v] l n' (E & K & L) F IH]; cbn [map_res]; auto. cbn [fst snd] in *. subst z. rewrite IH. f_equal.
    unfold pr_curve1. cbn [shape is1]. rewrite L, K. auto.
Qed.

(** * C54: normalised discounted cumulative gain *)
Definition in_rank_order (argsort : list R -> list nat) (s : list R * list R) : list R := map (fun i => nth i (fst s) 0) (argsort (snd s)).
Theorem C54_ndcg : forall (argsort : list R -> list nat) c (rows : list (list R * list R)) k (ratio : option R) kk,
  sorts_desc argsort -> samples c rows -> (forall r x, In r rows -> In x (fst r) -> 0 <= x) -> depth c k ratio kk ->
  let yt := V2 c (map fst rows) in let yp := V2 c (map snd rows) in
  exists g : list R * list R -> R,
    ndcg argsort yt yp k ratio true = Ok (MList (map (fun s => Fin (g s)) rows)) /\
    (rows <> [] -> ndcg argsort yt yp k ratio false = Ok (MScal (Fin (avg (map g rows))))) /\
    (ratio = None -> forall rb, ndcg_rc argsort yt yp k ratio rb = ndcg argsort yt yp k ratio rb) /\
    forall s, In s rows ->
      0 <= g s <= 1 /\
      (exists b, best_gain kk (fst s) b /\ g s * b = gain (firstn kk (in_rank_order argsort s))) /\
      (StronglySorted Rge (in_rank_order argsort s) -> (1 <= kk)%nat -> (exists x, In x (fst s) /\ 0 < x) -> g s = 1) /\
      ((forall x, In x (fst s) -> x = 0) -> g s = 0).
Proof.
  intros argsort c rows k ratio kk AS SM NN D yt yp.
  set (num := fun s : list R * list R => gain (firstn kk (in_rank_order argsort s))).
  set (den := fun s : list R * list R => gain (firstn kk (sort_desc (fst s)))).
  assert (B : forall s, In s rows -> 0 <= num s <= den s).
  { intros [y p] I. destruct (SM _ I) as [L1 L2]. cbn [fst snd] in *.
    assert (P : Permutation (in_rank_order argsort (y, p)) y) by (apply (ranked_perm AS y p); lia). split.
    - apply gain_nonneg; auto. intros x J. apply (NN _ x I). cbn. eapply Permutation_in; [exact P|].
      rewrite <- (firstn_skipn kk). apply in_or_app; auto.
    - apply gain_best. exact P. }
  exists (fun s => if Req_EM_T (den s) 0 then 0 else num s / den s).
  assert (V : forall rb, ndcg_of argsort (Ok (rows, Z.of_nat kk)) rb =
    Ok (pack rb (map (fun s => Fin (if Req_EM_T (den s) 0 then 0 else num s / den s)) rows))).
  { intros rb. unfold ndcg_of. cbn [rbind]. f_equal. f_equal. apply map_ext_in. intros s I. rewrite !pref_nat, !dcg_gain.
    change (ranked argsort s) with (in_rank_order argsort s). fold (num s) (den s). specialize (B s I).
    destruct (Req_EM_T (den s) 0) as [E|N].
    - rewrite E. replace (num s) with 0 by lra. rewrite fdiv_00. reflexivity.
    - rewrite fdiv_ne by auto. reflexivity. }
  unfold ndcg, yt, yp. rewrite (samples_format _ _ _ SM D). split; [apply V|]. split.
  { intros NE. rewrite V. cbn [pack]. rewrite fmean_map by auto. reflexivity. }
  split. { intros -> rb. unfold ndcg_rc. rewrite (@samples_format_rc _ c rows k kk) by auto. reflexivity. }
  intros s I. specialize (B s I).
  assert (G : 0 <= (if Req_EM_T (den s) 0 then 0 else num s / den s) <= 1 /\ (if Req_EM_T (den s) 0 then 0 else num s / den s) * den s = num s).
  { destruct (Req_EM_T (den s) 0) as [E|N]; [lra|]. assert (P : 0 < den s) by lra. split; [|field; auto]. split.
    - apply Rmult_le_pos; [lra|]. left. apply Rinv_0_lt_compat; auto.
    - apply Rmult_le_reg_r with (den s); auto. unfold Rdiv. rewrite Rmult_assoc, Rinv_l; lra. }
  split; [tauto|]. split; [exists (den s); split; [apply best_is_sort|tauto]|]. split.
  - intros ST K (x & Ix & Px).
    assert (E : in_rank_order argsort s = sort_desc (fst s)).
    { destruct s as [y p]. destruct (SM _ I) as [L1 L2]. cbn [fst snd] in *. apply sorted_is_sort; [apply (ranked_perm AS y p); lia|].
      eapply StronglySorted_Sorted, Sorted_StronglySorted in ST; [|intros a b d; apply Rge_trans].
      clear - ST. induction ST as [|a l S IH F]; constructor; auto. eapply Forall_impl; [|exact F]. unfold geR. intros; lra. }
    assert (P : 0 < den s).
    { unfold den, gain. destruct kk as [|kk']; [lia|]. pose proof (sort_sorted (fst s)) as S. pose proof (sort_perm (fst s)) as Q.
      destruct (sort_desc (fst s)) as [|a l]; [apply Permutation_nil in Q; rewrite Q in Ix; destruct Ix|].
      cbn [firstn]. rewrite gain_cons.
      assert (Pa : 0 < a).
      { inversion S as [|? ? _ F]; subst. apply (Permutation_in _ (Permutation_sym Q)) in Ix. destruct Ix as [->|Ix]; auto.
        rewrite Forall_forall in F. specialize (F _ Ix). unfold geR in F. lra. }
      assert (0 < wt 1 * a) by (apply Rmult_lt_0_compat; [apply wt_pos; auto|auto]).
      assert (0 <= gain_from 2 (firstn kk' l)).
      { apply gain_nonneg; auto. intros z J. apply (NN s z I). eapply Permutation_in; [exact Q|]. right.
        rewrite <- (firstn_skipn kk' l). apply in_or_app; auto. }
      lra. }
    destruct (Req_EM_T (den s) 0); [lra|]. unfold num. rewrite E. fold (den s). field. auto.
  - intros Z. assert (E : den s = 0).
    { unfold den, gain. assert (A : forall x, In x (firstn kk (sort_desc (fst s))) -> x = 0).
      { intros x J. apply Z. eapply Permutation_in; [apply sort_perm|]. rewrite <- (firstn_skipn kk). apply in_or_app; auto. }
      revert A. generalize 1%nat. induction (firstn kk (sort_desc (fst s))) as [|x l IH]; intros n A; [reflexivity|].
      rewrite gain_cons, IH by (intros; apply A; right; auto). rewrite (A x) by (left; auto). lra. }
    destruct (Req_EM_T (den s) 0); tauto.
Qed.

(** * C55: average precision *)
Definition ratio_fine (ratio : option R) : Prop := match ratio with None => True | Some r => 0 < r <= 1 end.
Lemma ratio_fine_ok ratio : ratio_fine ratio -> ratio_ok ratio = true.
Proof. destruct ratio as [r|]; auto. cbn [ratio_fine ratio_ok]. rewrite andb_true_iff, nltb_true, nleb_true. cbn. auto. Qed.
Definition prec_rank (ord : list nat) (y : list R) (r : nat) : R := INR (hits r ord y) / INR r.
Section Ap.
  Variable argsort : list R -> list nat.
  Hypothesis AS : sorts_desc argsort.
  Variables y p : list R.
  Hypothesis L : length y = length p.
  Hypothesis B : binary y.
  Variable rs : list nat.
  Hypothesis RS : relevant_ranks (argsort p) y rs.
  Lemma prec_list : prec_at 1 (positives 1 (ranked argsort (y, p))) = map (prec_rank (argsort p) y) rs.
  Proof.
    rewrite (relevant_ranks_is RS), ranked_nth. set (l := map (fun i => nth i y 0) (argsort p)).
    assert (Bl : binary l) by (eapply binary_perm; [apply (ranked_perm AS); exact L|auto]).
    change 1%Z with (Z.of_nat 1) at 2. rewrite (positives_ranks Bl). change 1%Z with (Z.of_nat 0 + 1)%Z.
    rewrite prec_at_ranks by auto. apply map_ext. intros r. unfold prec_rank. rewrite hits_relevant. fold l.
    replace (S r - 1)%nat with r by lia. reflexivity.
  Qed.
  Lemma rs_length : length rs = relevant y.
  Proof. rewrite (relevant_ranks_is RS), ranks_length. apply relevant_perm. apply (ranked_perm AS); exact L. Qed.
  Lemma rs_ne : In 1 y -> rs <> [].
  Proof. intros I E. pose proof rs_length as H. rewrite E in H. symmetry in H. apply relevant_0 in H. auto. Qed.
  Lemma rs_pos r : In r rs -> (1 <= r <= length p)%nat.
  Proof. destruct RS as [_ E]. intros I. apply E in I as [H _]. rewrite (argsort_length AS) in H. auto. Qed.
  (** the j-th relevant rank has j hits *)
  Lemma hits_rank j : (j < length rs)%nat -> hits (nth j rs 0%nat) (argsort p) y = S j.
  Proof.
    rewrite (relevant_ranks_is RS), hits_relevant. generalize (map (fun i => nth i y 0) (argsort p)).
    assert (H : forall l i j, (j < length (ranks (S i) l))%nat -> relevant (firstn (nth j (ranks (S i) l) 0%nat - i) l) = S j).
    { clear. induction l as [|x l IH]; intros i j H; [cbn in H; lia|]. cbn [ranks] in *. destruct (is_one x) eqn:E.
      - destruct j as [|j].
        + cbn [nth]. replace (S i - i)%nat with 1%nat by lia. unfold relevant. cbn [firstn filter]. rewrite E. reflexivity.
        + cbn [nth length] in *. specialize (IH (S i) j ltac:(lia)).
          assert (In (nth j (ranks (S (S i)) l) 0%nat) (ranks (S (S i)) l)) as Q by (apply nth_In; lia).
          apply ranks_In in Q as [Q _]. set (r := nth j (ranks (S (S i)) l) 0%nat) in *.
          replace (r - i)%nat with (S (r - S i)) by lia. unfold relevant in *. cbn [firstn filter]. rewrite E. cbn [length]. auto.
      - specialize (IH (S i) j H). assert (In (nth j (ranks (S (S i)) l) 0%nat) (ranks (S (S i)) l)) as Q by (apply nth_In; lia).
        apply ranks_In in Q as [Q _]. set (r := nth j (ranks (S (S i)) l) 0%nat) in *.
        replace (r - i)%nat with (S (r - S i)) by lia. unfold relevant in *. cbn [firstn filter]. rewrite E. auto. }
    intros l J. specialize (H l 0%nat j J). rewrite Nat.sub_0_r in H. exact H.
  Qed.
  Lemma prec_rank_bound r : In r rs -> 0 < prec_rank (argsort p) y r <= 1.
  Proof.
    intros I. pose proof (rs_pos r I) as P. unfold prec_rank.
    destruct (In_nth _ _ 0%nat I) as (j & J & E). pose proof (hits_rank J) as H. rewrite E in H.
    assert (P1 : 0 < INR r) by (apply lt_0_INR; lia).
    assert (H2 : INR (hits r (argsort p) y) <= INR r).
    { apply le_INR. rewrite hits_relevant. etransitivity; [apply relevant_le|]. rewrite firstn_length. lia. }
    assert (H3 : 0 < INR (hits r (argsort p) y)) by (rewrite H; apply lt_0_INR; lia).
    split; [apply Rdiv_lt_0_compat; auto|]. apply Rmult_le_reg_r with (INR r); auto. unfold Rdiv. rewrite Rmult_assoc, Rinv_l; lra.
  Qed.
  Variables (k : option Z) (ratio : option R).
  Hypothesis RF : ratio_fine ratio.
  Lemma ap_legacy : In 1 y -> ap argsort (V1 y) (V1 p) k ratio "legacy" = Ok (Fin (avg (map (prec_rank (argsort p) y) rs))).
  Proof.
    intros I. unfold ap. rewrite (ratio_fine_ok _ RF). cbn [negb method_ok String.eqb Ascii.eqb Bool.eqb orb andb shape is1].
    rewrite L. replace (eqb [length p] [length p]) with true by (symmetry; apply eqb_eq; auto). cbn [negb].
    rewrite prec_list. rewrite fmean_fin; auto. pose proof (rs_ne I). destruct rs; [tauto|discriminate].
  Qed.
  Lemma ap_pascal : In 1 y -> ap argsort (V1 y) (V1 p) k ratio "pascal_voc" = Ok (Fin (avg (sufmax (map (prec_rank (argsort p) y) rs)))).
  Proof.
    intros I. unfold ap. rewrite (ratio_fine_ok _ RF). cbn [negb method_ok String.eqb Ascii.eqb Bool.eqb orb andb shape is1].
    rewrite L. replace (eqb [length p] [length p]) with true by (symmetry; apply eqb_eq; auto). cbn [negb].
    rewrite prec_list. rewrite <- rev_cummax. rewrite avg_rev.
    rewrite fmean_fin; auto. pose proof (rs_ne I) as N. intros E. apply (f_equal (@rev R)) in E. rewrite rev_cummax in E.
    apply (f_equal (@length R)) in E. rewrite sufmax_length, map_length in E. destruct rs; [tauto|discriminate].
  Qed.
End Ap.

(** 'legacy' is the mean, over the ranks of the relevant items, of the precision at this rank *)
Theorem C55_legacy : forall (argsort : list R -> list nat) (y p : list R) k (ratio : option R) rs,
  sorts_desc argsort -> length y = length p -> binary y -> In 1 y -> ratio_fine ratio -> relevant_ranks (argsort p) y rs ->
  ap argsort (V1 y) (V1 p) k ratio "legacy" = Ok (Fin (avg (map (prec_rank (argsort p) y) rs))).
Proof. intros. apply ap_legacy; auto. Qed.
(** 'pascal_voc' takes at every rank the best precision from there on *)
Definition best_from (ord : list nat) (y : list R) (rs : list nat) (r : nat) (v : R) : Prop :=
  (exists r', In r' rs /\ (r <= r')%nat /\ v = prec_rank ord y r') /\
  forall r', In r' rs -> (r <= r')%nat -> prec_rank ord y r' <= v.
Lemma sorted_nth_mono rs i j : StronglySorted lt rs -> (i < length rs)%nat -> (j < length rs)%nat -> (i <= j <-> nth i rs 0 <= nth j rs 0)%nat.
Proof.
  intros S. revert i j. induction S as [|a l S IH F]; intros i j I J; [cbn in I; lia|]. rewrite Forall_forall in F.
  destruct i as [|i], j as [|j]; cbn [nth length] in *; try lia.
  - assert (In (nth j l 0%nat) l) as Q by (apply nth_In; lia). specialize (F _ Q). lia.
  - assert (In (nth i l 0%nat) l) as Q by (apply nth_In; lia). specialize (F _ Q). lia.
  - rewrite <- IH by lia. lia.
Qed.
Lemma sufmax_best ord y rs i : StronglySorted lt rs -> (i < length rs)%nat ->
  best_from ord y rs (nth i rs 0%nat) (nth i (sufmax (map (prec_rank ord y) rs)) 0).
Proof.
  intros S I. destruct (sufmax_spec (map (prec_rank ord y) rs) (i := i)) as [(j & J & E) U]; [rewrite map_length; auto|].
  rewrite map_length in *.
  assert (N : forall j, (j < length rs)%nat -> nth j (map (prec_rank ord y) rs) 0 = prec_rank ord y (nth j rs 0%nat)).
  { intros j' J'. rewrite nth_indep with (d' := prec_rank ord y 0%nat) by (rewrite map_length; auto). apply map_nth. }
  split.
  - exists (nth j rs 0%nat). split; [apply nth_In; lia|]. split; [apply sorted_nth_mono; auto; lia|]. rewrite E, N by lia. auto.
  - intros r' I' L. destruct (In_nth _ _ 0%nat I') as (j' & J' & <-). rewrite <- N by auto. apply U.
    apply sorted_nth_mono in L; auto.
Qed.
Lemma Forall2_nth {A B} (P : A -> B -> Prop) a b (l : list A) (m : list B) :
  length m = length l -> (forall i, (i < length l)%nat -> P (nth i l a) (nth i m b)) -> Forall2 P l m.
Proof.
  revert m; induction l as [|x l IH]; intros [|z m] Q H; try discriminate; constructor.
  - apply (H 0%nat). cbn; lia.
  - apply IH; [cbn in Q; lia|]. intros i J. apply (H (S i)). cbn; lia.
Qed.
Theorem C55_pascal : forall (argsort : list R -> list nat) (y p : list R) k (ratio : option R) rs,
  sorts_desc argsort -> length y = length p -> binary y -> In 1 y -> ratio_fine ratio -> relevant_ranks (argsort p) y rs ->
  exists vs, ap argsort (V1 y) (V1 p) k ratio "pascal_voc" = Ok (Fin (avg vs)) /\ Forall2 (best_from (argsort p) y rs) rs vs.
Proof.
  intros argsort y p k ratio rs AS L B I RF RS. exists (sufmax (map (prec_rank (argsort p) y) rs)). split; [apply ap_pascal; auto|].
  destruct RS as [S _].
  assert (H : forall i, (i < length rs)%nat -> best_from (argsort p) y rs (nth i rs 0%nat) (nth i (sufmax (map (prec_rank (argsort p) y) rs)) 0))
    by (intros; apply sufmax_best; auto).
  assert (Q : length (sufmax (map (prec_rank (argsort p) y) rs)) = length rs) by (rewrite sufmax_length, map_length; auto).
  apply (@Forall2_nth nat R (best_from (argsort p) y rs) 0%nat 0); auto.
Qed.
(** range; the value 1 *)
Theorem C55_bounds : forall (argsort : list R -> list nat) (y p : list R) k (ratio : option R) method,
  sorts_desc argsort -> length y = length p -> binary y -> In 1 y -> ratio_fine ratio -> method = "legacy" \/ method = "pascal_voc" ->
  exists a, ap argsort (V1 y) (V1 p) k ratio method = Ok (Fin a) /\ 0 < a <= 1 /\ (a = 1 <-> relevant_first (argsort p) y).
Proof.
  intros argsort y p k ratio method AS L B I RF M.
  pose proof (relevant_ranks_exists (argsort p) y) as RS. set (rs := ranks 1 (map (fun i => nth i y 0) (argsort p))) in *.
  pose proof (rs_ne AS p L RS I) as NE.
  assert (PB : forall x, In x (map (prec_rank (argsort p) y) rs) -> 0 < x <= 1).
  { intros x J. apply in_map_iff in J as (r & <- & J). eapply prec_rank_bound; eauto. }
  (* all precisions 1 iff the relevant items come first *)
  assert (ONE : relevant_first (argsort p) y -> forall x, In x (map (prec_rank (argsort p) y) rs) -> x = 1).
  { intros RF' x J. apply in_map_iff in J as (r & <- & J). unfold prec_rank.
    pose proof (rs_pos AS p RS r J) as RP. destruct RS as [_ E]. apply E in J as [RP2 R1].
    assert (H : hits r (argsort p) y = r).
    { rewrite hits_relevant. assert (A : forall x, In x (firstn r (map (fun i => nth i y 0) (argsort p))) -> x = 1).
      { intros x J. rewrite firstn_map in J. apply in_map_iff in J as (v & <- & J).
        destruct (In_nth _ _ 0%nat J) as (i & LI & <-). rewrite firstn_length in LI.
        assert (EQ : nth i (firstn r (argsort p)) 0%nat = nth i (argsort p) 0%nat).
        { clear - LI. revert i LI. generalize (argsort p). induction r as [|r IH]; intros [|v t] i LI; cbn in *; try lia.
          destruct i; auto. apply IH. lia. }
        rewrite EQ. destruct (Nat.eq_dec i (r - 1)) as [->|N]; auto. apply RF' with (r - 1)%nat; auto. lia. }
      transitivity (length (firstn r (map (fun i => nth i y 0) (argsort p)))).
      - clear - A. induction (firstn r (map (fun i => nth i y 0) (argsort p))) as [|x l IH]; auto. unfold relevant in *. cbn.
        replace (is_one x) with true by (symmetry; apply is_one_true, A; left; auto). cbn. f_equal. apply IH. intros; apply A; right; auto.
      - rewrite firstn_length, map_length. lia. }
    rewrite H. field. apply not_0_INR. lia. }
  assert (LAST : prec_rank (argsort p) y (nth (length rs - 1) rs 0%nat) = 1 -> relevant_first (argsort p) y).
  { intros H. set (r := nth (length rs - 1) rs 0%nat) in *. assert (LR : (0 < length rs)%nat) by (destruct rs; [tauto|cbn; lia]).
    pose proof (@hits_rank argsort y p rs RS (length rs - 1)) as HR. fold r in HR. specialize (HR ltac:(lia)).
    assert (Ir : In r rs) by (apply nth_In; lia). pose proof (rs_pos AS p RS r Ir) as RP.
    unfold prec_rank in H. rewrite HR in H. replace (S (length rs - 1)) with (length rs) in * by lia.
    assert (E : INR (length rs) = INR r).
    { apply Rmult_eq_reg_r with (/ INR r); [|apply Rinv_neq_0_compat, not_0_INR; lia]. rewrite Rinv_r by (apply not_0_INR; lia). exact H. }
    apply INR_eq in E.
    (* r = number of relevant items = hits within r: all first r are relevant *)
    assert (A : forall i, (i < r)%nat -> nth (nth i (argsort p) 0%nat) y 0 = 1).
    { intros i LI. rewrite hits_relevant in HR. rewrite E in HR.
      assert (FL : length (firstn r (map (fun i => nth i y 0) (argsort p))) = r).
      { rewrite firstn_length, map_length, (argsort_length AS). lia. }
      assert (ALL : forall l, relevant l = length l -> forall x, In x l -> x = 1).
      { clear. induction l as [|z l IH]; intros H x J; [destruct J|]. unfold relevant in *. cbn in H.
        pose proof (relevant_le l) as RL. unfold relevant in RL.
        destruct (is_one z) eqn:Z; [|lia]. cbn in H. destruct J as [<-|J]; [apply is_one_true; auto|]. apply IH; auto. }
      apply (ALL (firstn r (map (fun i => nth i y 0) (argsort p)))); [lia|].
      rewrite firstn_map. apply in_map_iff. exists (nth i (argsort p) 0%nat). split; auto.
      rewrite <- (firstn_skipn r (argsort p)) at 1. rewrite app_nth1 by (rewrite firstn_length, (argsort_length AS); lia).
      apply nth_In. rewrite firstn_length, (argsort_length AS). lia. }
    intros i j LJ Y. apply A. assert (S j <= r)%nat; [|lia].
    destruct RS as [SO E2]. assert (Q : In (S j) rs) by (apply E2; split; [lia|]; replace (S j - 1)%nat with j by lia; auto).
    destruct (In_nth _ _ 0%nat Q) as (t & T1 & T2). rewrite <- T2. unfold r. apply sorted_nth_mono; auto; lia. }
  assert (LASTIN : In (nth (length rs - 1) rs 0%nat) rs) by (apply nth_In; destruct rs; [tauto|cbn; lia]).
  destruct M as [->| ->].
  - exists (avg (map (prec_rank (argsort p) y) rs)). split; [apply ap_legacy; auto|].
    assert (N : map (prec_rank (argsort p) y) rs <> []) by (destruct rs; [tauto|discriminate]).
    split; [|split].
    + split.
      * unfold avg. apply Rdiv_lt_0_compat; [|apply lt_0_INR; destruct rs; [tauto|cbn; lia]].
        clear - PB N. destruct (map (prec_rank (argsort p) y) rs) as [|x l]; [tauto|]. cbn.
        assert (0 < x) by (apply PB; left; auto).
        assert (0 <= fold_right Rplus 0 l).
        { assert (Q : forall z, In z l -> 0 < z) by (intros z J; apply (PB z); right; auto). clear - Q.
          induction l as [|z l IH]; cbn; [lra|]. assert (0 < z) by (apply Q; left; auto).
          assert (0 <= fold_right Rplus 0 l) by (apply IH; intros; apply Q; right; auto). lra. }
        lra.
      * apply (@avg_bound (map (prec_rank (argsort p) y) rs) 0 1); auto. intros x J. specialize (PB x J). lra.
    + intros E. apply LAST. apply (avg_one N) with (1 := fun x J => proj2 (PB x J)); auto. apply in_map; auto.
    + intros F. apply Rle_antisym; apply (@avg_bound _ 1 1); auto; intros x J; rewrite (ONE F x J); lra.
  - exists (avg (sufmax (map (prec_rank (argsort p) y) rs))). split; [apply ap_pascal; auto|].
    assert (SL : length (sufmax (map (prec_rank (argsort p) y) rs)) = length rs) by (rewrite sufmax_length, map_length; auto).
    assert (N : sufmax (map (prec_rank (argsort p) y) rs) <> []) by (intros Z; rewrite Z in SL; destruct rs; [tauto|discriminate]).
    assert (SB : forall x, In x (sufmax (map (prec_rank (argsort p) y) rs)) -> In x (map (prec_rank (argsort p) y) rs)).
    { intros x J. destruct (In_nth _ _ 0 J) as (i & LI & <-). rewrite SL in LI.
      destruct (sufmax_spec (map (prec_rank (argsort p) y) rs) (i := i)) as [(j & J' & ->) _]; [rewrite map_length; auto|].
      apply nth_In. lia. }
    split; [|split].
    + split.
      * unfold avg. apply Rdiv_lt_0_compat; [|apply lt_0_INR; rewrite SL; destruct rs; [tauto|cbn; lia]].
        assert (Q : forall z, In z (sufmax (map (prec_rank (argsort p) y) rs)) -> 0 < z) by (intros z J; apply (PB z); auto).
        clear - Q N. destruct (sufmax (map (prec_rank (argsort p) y) rs)) as [|x l]; [tauto|]. cbn.
        assert (0 < x) by (apply Q; left; auto).
        assert (0 <= fold_right Rplus 0 l).
        { assert (Q' : forall z, In z l -> 0 < z) by (intros z J; apply (Q z); right; auto). clear - Q'.
          induction l as [|z l IH]; cbn; [lra|]. assert (0 < z) by (apply Q'; left; auto).
          assert (0 <= fold_right Rplus 0 l) by (apply IH; intros; apply Q'; right; auto). lra. }
        lra.
      * apply (@avg_bound (sufmax (map (prec_rank (argsort p) y) rs)) 0 1); auto. intros x J. specialize (PB x (SB x J)). lra.
    + intros E. apply LAST.
      assert (A : forall x, In x (sufmax (map (prec_rank (argsort p) y) rs)) -> x = 1)
        by (apply avg_one; auto; intros x J; apply (PB x (SB x J))).
      assert (LR : (length rs - 1 < length rs)%nat) by (destruct rs; [tauto|cbn; lia]).
      destruct (@sufmax_best (argsort p) y rs (length rs - 1) (proj1 RS) LR) as [(r' & I' & L' & V) _].
      rewrite (A (nth (length rs - 1) (sufmax (map (prec_rank (argsort p) y) rs)) 0)) in V by (apply nth_In; lia).
      destruct (In_nth _ _ 0%nat I') as (t & T1 & T2). rewrite <- T2 in *.
      apply sorted_nth_mono in L'; auto; [|apply RS]. replace t with (length rs - 1)%nat in V by lia. auto.
    + intros F. apply Rle_antisym; apply (@avg_bound _ 1 1); auto; intros x J; rewrite (ONE F x (SB x J)); lra.
Qed.
Theorem C55_methods : forall (argsort : list R -> list nat) (y p : list R) k (ratio : option R),
  sorts_desc argsort -> length y = length p -> binary y -> In 1 y -> ratio_fine ratio ->
  exists a b, ap argsort (V1 y) (V1 p) k ratio "legacy" = Ok (Fin a) /\ ap argsort (V1 y) (V1 p) k ratio "pascal_voc" = Ok (Fin b) /\ a <= b.
Proof.
  intros argsort y p k ratio AS L B I RF.
  pose proof (relevant_ranks_exists (argsort p) y) as RS. set (rs := ranks 1 (map (fun i => nth i y 0) (argsort p))) in *.
  exists (avg (map (prec_rank (argsort p) y) rs)), (avg (sufmax (map (prec_rank (argsort p) y) rs))).
  split; [apply ap_legacy; auto|]. split; [apply ap_pascal; auto|]. apply avg_le.
  generalize (map (prec_rank (argsort p) y) rs). clear. induction l as [|x l IH]; cbn [sufmax]; [constructor|].
  destruct (sufmax l) as [|m s] eqn:E.
  - inversion IH; subst. constructor; [lra|constructor].
  - constructor; auto. apply Rmax_l.
Qed.
(** map is the mean of ap over the samples *)
Theorem C55_map : forall (argsort : list R -> list nat) c (rows : list (list R * list R)) k (ratio : option R) kk method,
  sorts_desc argsort -> samples c rows -> rows <> [] -> (forall r, In r rows -> binary (fst r) /\ In 1 (fst r)) -> depth c k ratio kk ->
  method = "legacy" \/ method = "pascal_voc" ->
  exists a : list R * list R -> R,
    map_score argsort (V2 c (map fst rows)) (V2 c (map snd rows)) k ratio method true = Ok (MList (map (fun s => Fin (a s)) rows)) /\
    map_score argsort (V2 c (map fst rows)) (V2 c (map snd rows)) k ratio method false = Ok (MScal (Fin (avg (map a rows)))) /\
    forall s, In s rows -> ap argsort (V1 (fst s)) (V1 (snd s)) k ratio method = Ok (Fin (a s)).
Proof.
  intros argsort c rows k ratio kk method AS SM NE H D M.
  assert (RF : ratio_fine ratio) by (destruct ratio as [r|]; cbn in *; [apply D|auto]).
  set (a := fun s : list R * list R => match ap argsort (V1 (fst s)) (V1 (snd s)) k ratio method with Ok (Fin x) => x | _ => 0 end).
  assert (A : forall s, In s rows -> ap argsort (V1 (fst s)) (V1 (snd s)) k ratio method = Ok (Fin (a s))).
  { intros s I. destruct (SM _ I), (H _ I). unfold a.
    destruct (@C55_bounds argsort (fst s) (snd s) k ratio method) as (x & E & _); auto; [lia|]. rewrite E. auto. }
  assert (A2 : forall s, In s rows -> ap argsort (V1 (fst s)) (V1 (snd s)) (Some (Z.of_nat kk)) None method = Ok (Fin (a s))).
  { intros s I. rewrite <- (A s I). unfold ap. rewrite (ratio_fine_ok _ RF). cbn [ratio_ok negb]. destruct (negb _); auto. }
  exists a. unfold map_score. rewrite (samples_format _ _ _ SM D). cbn [rbind].
  assert (MO : method_ok method = true) by (destruct M as [->| ->]; reflexivity). rewrite MO. cbn [negb].
  rewrite (map_res_fn _ (fun s => Fin (a s)) rows A2). cbn [rbind pack]. split; auto. split; [|exact A].
  rewrite fmean_map by auto. reflexivity.
Qed.

(** * C56: reciprocal ranks *)
Lemma ranks_firstn l : forall k i, ranks i (firstn k l) = filter (fun r => Nat.ltb r (i + k)) (ranks i l).
Proof.
  induction l as [|x l IH]; intros k i; [rewrite firstn_nil; reflexivity|]. destruct k as [|k].
  - cbn [firstn]. change (ranks i []) with (@nil nat). rewrite Nat.add_0_r.
    assert (H : forall r, In r (ranks i (x :: l)) -> (i <= r)%nat) by (intros r I; apply ranks_In in I; lia).
    induction (ranks i (x :: l)) as [|r t IHt]; auto. cbn [filter]. specialize (H r (or_introl eq_refl)) as Hr.
    replace (Nat.ltb r i) with false by (symmetry; apply Nat.ltb_ge; auto). apply IHt. intros; apply H; right; auto.
  - cbn [firstn ranks]. replace (i + S k)%nat with (S i + k)%nat by lia. destruct (is_one x); rewrite IH; auto.
    cbn [filter]. replace (Nat.ltb i (S i + k)) with true by (symmetry; apply Nat.ltb_lt; lia). auto.
Qed.
Lemma ranks_shift l : forall i, ranks (S i) l = map S (ranks i l).
Proof. induction l as [|x l IH]; intros i; cbn; auto. rewrite IH. destruct (is_one x); auto. Qed.
Definition top_ranks (kk : nat) (rs : list nat) : list nat := filter (fun r => Nat.leb r kk) rs.
Lemma avg_single x : avg [x] = x.
Proof. unfold avg. cbn. field. Qed.
Lemma rr_value argsort y p k ratio kk rs :
  sorts_desc argsort -> length y = length p -> binary y -> depth (length y) k ratio kk -> relevant_ranks (argsort p) y rs ->
  rr argsort (V1 y) (V1 p) k ratio = Ok (fmean (map (fun r => Fin (/ INR r)) (top_ranks kk rs))).
Proof.
  intros AS L B D RS. apply depth_top_k in D as [_ K]. unfold rr. cbn [shape is1].
  replace (eqb [length y] [length p]) with true by (symmetry; apply eqb_eq; congruence). cbn [negb].
  rewrite K, pref_nat, ranked_nth. set (l := map (fun i => nth i y 0) (argsort p)).
  assert (Bl : binary l) by (eapply binary_perm; [apply (ranked_perm AS); exact L|auto]).
  change 0%Z with (Z.of_nat 0). rewrite (nonzeros_ranks (binary_firstn kk Bl)). rewrite map_map. f_equal. f_equal.
  replace (top_ranks kk rs) with (map S (ranks 0 (firstn kk l))).
  - rewrite map_map. apply map_ext. intros i. cbn [ninv Num_R nofZ Ext_R].
    replace (Z.of_nat i + 1)%Z with (Z.of_nat (S i)) by lia. rewrite <- INR_IZR_INZ. rewrite Rinv0_ne by (apply not_0_INR; lia). reflexivity.
  - rewrite <- ranks_shift, ranks_firstn, (relevant_ranks_is RS). fold l. unfold top_ranks. apply filter_ext. intros r.
    destruct (Nat.leb_spec r kk); [apply Nat.ltb_lt|apply Nat.ltb_ge]; lia.
Qed.
(** the mean of 1/rank over the relevant items among the first k; with one such item this is the reciprocal of its rank *)
Theorem C56_rr : forall (argsort : list R -> list nat) (y p : list R) k (ratio : option R) kk rs,
  sorts_desc argsort -> length y = length p -> binary y -> depth (length y) k ratio kk -> relevant_ranks (argsort p) y rs ->
  (exists r, In r rs /\ (r <= kk)%nat) ->
  exists v, rr argsort (V1 y) (V1 p) k ratio = Ok (Fin v) /\ v = avg (map (fun r => / INR r) (top_ranks kk rs)) /\ 0 < v <= 1 /\
    (forall r, top_ranks kk rs = [r] -> v = / INR r).
Proof.
  intros argsort y p k ratio kk rs AS L B D RS (r0 & I0 & L0).
  assert (NE : top_ranks kk rs <> []).
  { intros E. assert (In r0 (top_ranks kk rs)) as Q by (apply filter_In; split; auto; apply Nat.leb_le; auto). rewrite E in Q. destruct Q. }
  exists (avg (map (fun r => / INR r) (top_ranks kk rs))). rewrite (@rr_value argsort y p k ratio kk rs AS L B D RS), fmean_map by auto.
  split; [auto|]. split; [auto|].
  assert (PB : forall x, In x (map (fun r => / INR r) (top_ranks kk rs)) -> / INR (S (length p)) <= x <= 1).
  { intros x J. apply in_map_iff in J as (r & <- & J). apply filter_In in J as [J _].
    pose proof (rs_pos AS p RS r J) as P.
    assert (1 <= INR r) by (change 1 with (INR 1); apply le_INR; lia).
    split; [apply Rinv_le_contravar; [lra|apply le_INR; lia]|]. rewrite <- Rinv_1. apply Rinv_le_contravar; lra. }
  assert (N2 : map (fun r => / INR r) (top_ranks kk rs) <> []) by (destruct (top_ranks kk rs); [tauto|discriminate]).
  pose proof (avg_bound N2 PB) as AB.
  assert (0 < / INR (S (length p))) by (apply Rinv_0_lt_compat, lt_0_INR; lia).
  split; [lra|]. intros r ->. cbn [map]. apply avg_single.
Qed.
Theorem C56_mrr : forall (argsort : list R -> list nat) c (rows : list (list R * list R)) k (ratio : option R) kk,
  sorts_desc argsort -> samples c rows -> rows <> [] -> (forall r, In r rows -> binary (fst r)) -> depth c k ratio kk ->
  (forall s, In s rows -> exists rs r, relevant_ranks (argsort (snd s)) (fst s) rs /\ In r rs /\ (r <= kk)%nat) ->
  exists a : list R * list R -> R,
    mrr argsort (V2 c (map fst rows)) (V2 c (map snd rows)) k ratio true = Ok (MList (map (fun s => Fin (a s)) rows)) /\
    mrr argsort (V2 c (map fst rows)) (V2 c (map snd rows)) k ratio false = Ok (MScal (Fin (avg (map a rows)))) /\
    forall s, In s rows -> rr argsort (V1 (fst s)) (V1 (snd s)) k ratio = Ok (Fin (a s)).
Proof.
  intros argsort c rows k ratio kk AS SM NE H D M.
  set (a := fun s : list R * list R => match rr argsort (V1 (fst s)) (V1 (snd s)) k ratio with Ok (Fin x) => x | _ => 0 end).
  assert (A : forall s, In s rows -> rr argsort (V1 (fst s)) (V1 (snd s)) k ratio = Ok (Fin (a s))).
  { intros s I. destruct (SM _ I) as [L1 L2]. destruct (M _ I) as (rs & r & RS & Ir & Lr). unfold a.
    destruct (@C56_rr argsort (fst s) (snd s) k ratio kk rs) as (x & E & _); eauto; [lia|rewrite L1; auto|]. rewrite E. auto. }
  assert (A2 : forall s, In s rows -> rr argsort (V1 (fst s)) (V1 (snd s)) (Some (Z.of_nat kk)) None = Ok (Fin (a s))).
  { intros s I. rewrite <- (A s I). destruct (SM _ I) as [L1 L2]. unfold rr. cbn [is1]. rewrite L1.
    pose proof (depth_le _ _ _ _ D) as KC. apply depth_top_k in D as [_ ->].
    cbn [top_k]. rewrite Z.min_l by lia. auto. }
  exists a. unfold mrr. rewrite (samples_format _ _ _ SM D). cbn [rbind].
  rewrite (map_res_fn _ (fun s => Fin (a s)) rows A2). cbn [rbind pack]. split; auto. split; [|exact A].
  rewrite fmean_map by auto. reflexivity.
Qed.

(** * C57: precision-recall curve *)
Lemma range_nth n i : (0 <= i < n)%Z -> nth (Z.to_nat i) (range n) 0%Z = i.
Proof.
  intros B. unfold range. change 0%Z with (Z.of_nat 0). rewrite map_nth, seq_nth by lia. lia.
Qed.
Lemma range_len n : length (range n) = Z.to_nat n.
Proof. unfold range. rewrite map_length, seq_length. auto. Qed.
(** the recall coordinate number [i] of [n] and the index it selects among [m] relevant items *)
Definition coord (n i : nat) : R := INR i * Rinv0 (INR n - 1).
Definition pick (n m i : nat) : Z := Int_part (coord n i * (INR m - 1)).
Lemma coord_spec n i : (i < n)%nat -> coord n i * (INR n - 1) = INR i /\ 0 <= coord n i <= 1 /\ coord n 0 = 0 /\ ((2 <= n)%nat -> coord n (n - 1) = 1).
Proof.
  intros L. unfold coord. assert (Z : INR 0 * Rinv0 (INR n - 1) = 0) by (cbn; lra).
  destruct (Nat.eq_dec n 1) as [->|N].
  - assert (i = 0%nat) by lia. subst. replace (INR 1 - 1) with 0 by (cbn; lra). cbn [INR]. repeat split; try lra. lia.
  - assert (2 <= INR n) by (change 2 with (INR 2); apply le_INR; lia). rewrite Rinv0_ne by lra.
    assert (P : 0 < / (INR n - 1)) by (apply Rinv_0_lt_compat; lra). pose proof (pos_INR i).
    assert (INR i <= INR n - 1) by (assert (INR (S i) <= INR n) as Q by (apply le_INR; lia); rewrite S_INR in Q; lra).
    split; [field; lra|]. split; [split|split].
    + apply Rmult_le_pos; lra.
    + apply Rmult_le_reg_r with (INR n - 1); [lra|]. rewrite Rmult_assoc, Rinv_l; lra.
    + cbn; lra.
    + intros _. rewrite minus_INR by lia. cbn [INR]. field. lra.
Qed.
Lemma pick_spec n m i : (i < n)%nat -> (1 <= m)%nat ->
  (0 <= pick n m i <= Z.of_nat m - 1)%Z /\ IZR (pick n m i) <= coord n i * (INR m - 1) < IZR (pick n m i) + 1.
Proof.
  intros L M. destruct (coord_spec L) as (_ & [C0 C1] & _).
  assert (M1 : 1 <= INR m) by (change 1 with (INR 1); apply le_INR; auto).
  assert (B : IZR (pick n m i) <= coord n i * (INR m - 1) < IZR (pick n m i) + 1) by (apply floor_spec; reflexivity).
  split; auto. assert (0 <= coord n i * (INR m - 1)) by (apply Rmult_le_pos; lra).
  assert (coord n i * (INR m - 1) <= 1 * (INR m - 1)) by (apply Rmult_le_compat_r; lra).
  split.
  - apply Z.lt_succ_r, lt_IZR. rewrite succ_IZR. lra.
  - apply le_IZR. rewrite minus_IZR, <- INR_IZR_INZ. lra.
Qed.
Lemma pick_mono n m i j : (i <= j < n)%nat -> (1 <= m)%nat -> (pick n m i <= pick n m j)%Z.
Proof.
  intros L M. destruct (@pick_spec n m i) as [_ A]; [lia|auto|]. destruct (@pick_spec n m j) as [_ B]; [lia|auto|].
  assert (M1 : 1 <= INR m) by (change 1 with (INR 1); apply le_INR; auto).
  assert (coord n i <= coord n j).
  { unfold coord. apply Rmult_le_compat_r; [|apply le_INR; lia]. unfold Rinv0. destruct (Req_EM_T _ _); [lra|].
    left. apply Rinv_0_lt_compat. assert (1 <= INR n) by (change 1 with (INR 1); apply le_INR; lia). lra. }
  assert (coord n i * (INR m - 1) <= coord n j * (INR m - 1)) by (apply Rmult_le_compat_r; lra).
  apply Z.lt_succ_r, lt_IZR. rewrite succ_IZR. lra.
Qed.
Lemma curve_value argsort y p k ratio rs n method (ps : list R) :
  sorts_desc argsort -> length y = length p -> binary y -> In 1 y -> relevant_ranks (argsort p) y rs ->
  method = "legacy" /\ ps = map (prec_rank (argsort p) y) rs \/ method = "pascal_voc" /\ ps = sufmax (map (prec_rank (argsort p) y) rs) ->
  pr_curve1 argsort (V1 y) (V1 p) k ratio method (Z.of_nat n) =
  Ok (map (fun i => Fin (nth (Z.to_nat (pick n (relevant y) i)) ps 0)) (seq 0 n), map (fun i => Fin (coord n i)) (seq 0 n)).
Proof.
  intros AS L B I RS M.
  assert (PL : length ps = relevant y).
  { rewrite <- (rs_length AS p L RS). destruct M as [[_ ->]|[_ ->]]; [|rewrite sufmax_length]; apply map_length. }
  assert (M1 : (1 <= relevant y)%nat) by (destruct (relevant y) eqn:E; [apply relevant_0 in E; tauto|lia]).
  unfold pr_curve1. cbn [shape is1]. replace (eqb [length y] [length p]) with true by (symmetry; apply eqb_eq; congruence).
  assert (MO : method_ok method = true) by (destruct M as [[-> _]|[-> _]]; reflexivity). rewrite MO. cbn [negb].
  rewrite (prec_list AS p L B RS).
  replace (if String.eqb method "pascal_voc" then rev (cummax (rev (map (prec_rank (argsort p) y) rs))) else map (prec_rank (argsort p) y) rs) with ps
    by (destruct M as [[-> ->]|[-> ->]]; cbn [String.eqb Ascii.eqb Bool.eqb]; [reflexivity|rewrite rev_cummax; reflexivity]).
  unfold linspace. replace (Z.of_nat n <? 0)%Z with false by (symmetry; apply Z.ltb_ge; lia). cbn [rbind].
  assert (C : map (fun i => nmul (nofZ i) (ninv (nofZ (Z.of_nat n - 1)))) (range (Z.of_nat n)) = map (coord n) (seq 0 n)).
  { unfold range. rewrite Nat2Z.id, map_map. apply map_ext. intros i. unfold coord. cbn [nmul Num_R nofZ Ext_R ninv].
    rewrite minus_IZR, <- !INR_IZR_INZ. reflexivity. }
  rewrite C, map_res_map.
  rewrite map_res_fn with (g := fun i => nth (Z.to_nat (pick n (relevant y) i)) ps 0).
  - cbn [rbind]. rewrite !map_map. reflexivity.
  - intros i J. apply in_seq in J. rewrite (binary_sum B). cbn [nmul nsub n1 Num_R].
    destruct (@pick_spec n (relevant y) i) as [P1 P2]; [lia|auto|]. unfold ntrunc.
    destruct (@coord_spec n i) as (_ & [C0 C1] & _); [lia|].
    assert (1 <= INR (relevant y)) by (change 1 with (INR 1); apply le_INR; auto).
    replace (nleb nz (coord n i * (INR (relevant y) - 1))) with true by (symmetry; apply nleb_true; cbn [nz Num_R]; apply Rmult_le_pos; lra).
    cbn [nfloor Ext_R]. fold (pick n (relevant y) i). unfold np_index.
    replace (pick n (relevant y) i <? 0)%Z with false by (symmetry; apply Z.ltb_ge; lia).
    replace (pick n (relevant y) i <? 0)%Z with false by (symmetry; apply Z.ltb_ge; lia).
    rewrite nth_error_nth' with (d := 0) by lia. reflexivity.
Qed.
(** the points: recall coordinates 0, 1/(n-1), ..., 1; precisions in (0,1], which for 'pascal_voc' do not increase, end with the
    precision at the last relevant item, are at least every precision reached at this recall or more, and are reached at a recall
    of more than the coordinate c minus c/m ([m] relevant items) *)
Theorem C57_curve : forall (argsort : list R -> list nat) (y p : list R) k (ratio : option R) rs n,
  sorts_desc argsort -> length y = length p -> binary y -> In 1 y -> relevant_ranks (argsort p) y rs -> (1 <= n)%nat ->
  let m := relevant y in let rec r := INR (hits r (argsort p) y) / INR m in
  exists c v u : nat -> R,
    pr_curve1 argsort (V1 y) (V1 p) k ratio "pascal_voc" (Z.of_nat n) = Ok (map (fun i => Fin (v i)) (seq 0 n), map (fun i => Fin (c i)) (seq 0 n)) /\
    pr_curve1 argsort (V1 y) (V1 p) k ratio "legacy" (Z.of_nat n) = Ok (map (fun i => Fin (u i)) (seq 0 n), map (fun i => Fin (c i)) (seq 0 n)) /\
    c 0%nat = 0 /\ ((2 <= n)%nat -> c (n - 1)%nat = 1) /\
    forall i, (i < n)%nat ->
      c i * (INR n - 1) = INR i /\ 0 < v i <= 1 /\ 0 < u i <= v i /\
      (forall j, (i <= j < n)%nat -> v j <= v i) /\
      (forall r, In r rs -> c i <= rec r -> prec_rank (argsort p) y r <= v i) /\
      (exists r, In r rs /\ v i = prec_rank (argsort p) y r /\ c i - c i / INR m < rec r) /\
      (exists r, In r rs /\ u i = prec_rank (argsort p) y r /\ c i - c i / INR m < rec r <= c i - c i / INR m + 1 / INR m) /\
      (c i = 1 -> exists r, In r rs /\ (forall r', In r' rs -> (r' <= r)%nat) /\ v i = prec_rank (argsort p) y r).
Proof.
  intros argsort y p k ratio rs n AS L B I RS N m rec.
  set (pl := map (prec_rank (argsort p) y) rs).
  exists (coord n), (fun i => nth (Z.to_nat (pick n m i)) (sufmax pl) 0), (fun i => nth (Z.to_nat (pick n m i)) pl 0).
  split; [apply curve_value with (rs := rs); auto|]. split; [apply curve_value with (rs := rs); auto|].
  assert (M1 : (1 <= m)%nat) by (unfold m; destruct (relevant y) eqn:E; [apply relevant_0 in E; tauto|lia]).
  assert (RL : length rs = m) by (apply (rs_length AS p L RS)).
  assert (PL : length pl = m) by (unfold pl; rewrite map_length; auto).
  assert (MR : 1 <= INR m) by (change 1 with (INR 1); apply le_INR; auto).
  assert (NTH : forall j, (j < m)%nat -> nth j pl 0 = prec_rank (argsort p) y (nth j rs 0%nat)).
  { intros j J. unfold pl. rewrite nth_indep with (d' := prec_rank (argsort p) y 0%nat) by (rewrite map_length; lia). apply map_nth. }
  assert (REC : forall j, (j < m)%nat -> rec (nth j rs 0%nat) = (INR j + 1) / INR m).
  { intros j J. unfold rec. rewrite (hits_rank argsort p RS) by lia. rewrite S_INR. reflexivity. }
  split; [apply (@coord_spec n 0); lia|]. split; [intros N2; apply (@coord_spec n 0); lia|].
  intros i J. destruct (@coord_spec n i J) as (C1 & C2 & _). destruct (@pick_spec n m i J M1) as [P1 P2].
  set (q := Z.to_nat (pick n m i)) in *. assert (Q : (q < m)%nat) by lia.
  assert (QR : INR q = IZR (pick n m i)) by (rewrite INR_IZR_INZ; f_equal; lia). rewrite <- QR in P2.
  destruct (@sufmax_spec pl q) as [(t & T1 & T2) U]; [lia|].
  assert (PB : forall j, (j < m)%nat -> 0 < nth j pl 0 <= 1).
  { intros j J'. rewrite NTH by auto. eapply prec_rank_bound; eauto. apply nth_In. lia. }
  assert (IM : 0 < / INR m) by (apply Rinv_0_lt_compat; lra).
  assert (RQ : coord n i - coord n i / INR m < (INR q + 1) / INR m).
  { apply Rmult_lt_reg_r with (INR m); [lra|]. unfold Rdiv. rewrite Rmult_minus_distr_r, !Rmult_assoc, Rinv_l by lra. lra. }
  split; [exact C1|]. split; [rewrite T2; apply PB; lia|]. split; [split; [apply PB; auto|apply U; lia]|]. split; [|split; [|split; [|split]]].
  - intros j LJ. pose proof (@pick_mono n m i j LJ M1) as PM. destruct (@pick_spec n m j ltac:(lia) M1) as [P3 _].
    destruct (@sufmax_spec pl (Z.to_nat (pick n m j))) as [(t' & T1' & T2') _]; [lia|]. rewrite T2'. apply U. lia.
  - intros r Ir CR. destruct (In_nth _ _ 0%nat Ir) as (j & LJ & <-). rewrite <- NTH by lia. rewrite REC in CR by lia. apply U. split; [|lia].
    assert (CM : coord n i * INR m <= INR j + 1).
    { apply Rmult_le_compat_r with (r := INR m) in CR; [|lra]. unfold Rdiv in CR. rewrite Rmult_assoc, Rinv_l in CR; lra. }
    destruct (Rle_lt_or_eq_dec _ _ (proj1 C2)) as [CP|CZ].
    + assert (INR q < INR (j + 1)) by (rewrite plus_INR; cbn [INR]; lra). apply INR_lt in H. lia.
    + rewrite <- CZ in P2. rewrite Rmult_0_l in P2. assert (INR q <= INR 0) by (cbn; lra). apply INR_le in H. lia.
  - exists (nth t rs 0%nat). split; [apply nth_In; lia|]. split; [rewrite T2; apply NTH; lia|]. rewrite REC by lia.
    eapply Rlt_le_trans; [exact RQ|]. unfold Rdiv. apply Rmult_le_compat_r; [lra|]. assert (INR q <= INR t) by (apply le_INR; lia). lra.
  - exists (nth q rs 0%nat). split; [apply nth_In; lia|]. split; [apply NTH; lia|]. rewrite REC by lia. split; auto.
    apply Rmult_le_reg_r with (INR m); [lra|]. unfold Rdiv. rewrite !Rmult_plus_distr_r, Rmult_minus_distr_r, !Rmult_assoc, Rinv_l by lra. lra.
  - intros C. exists (nth (m - 1) rs 0%nat). split; [apply nth_In; lia|]. split.
    + intros r' I'. destruct (In_nth _ _ 0%nat I') as (j & LJ & <-). apply sorted_nth_mono; try lia. apply RS.
    + assert (E : q = (m - 1)%nat).
      { rewrite C in P2. assert (INR (m - 1) < INR (q + 1)) by (rewrite minus_INR, plus_INR by lia; cbn [INR]; lra). apply INR_lt in H. lia. }
      rewrite T2. rewrite <- NTH by lia. f_equal. lia.
Qed.

(** * Defects *)
(** C101: the check "y_true must be binary" compares the largest label of the whole batch with 1: a batch in which nothing is
    relevant is refused, and labels that are not binary are accepted *)
Theorem C101_nothing_relevant_actual : forall (argsort : list R -> list nat) c (rows : list (list R * list R)) k (ratio : option R) kk rb,
  samples c rows -> (1 <= c)%nat -> rows <> [] -> (forall r x, In r rows -> In x (fst r) -> x = 0) -> depth c k ratio kk ->
  let yt := V2 c (map fst rows) in let yp := V2 c (map snd rows) in
  precision argsort yt yp k ratio rb = Err AssertionError /\ recall argsort yt yp k ratio rb = Err AssertionError /\
  (ratio = None -> precision_rc argsort yt yp k ratio rb = Err AssertionError /\ recall_rc argsort yt yp k ratio rb = Err AssertionError).
Proof.
  intros argsort c rows k ratio kk rb SM C NE Z D yt yp.
  assert (CB : check_binary (concat (map fst rows)) = Err AssertionError).
  { pose proof (check_binary_spec (concat (map fst rows))) as H.
    assert (A : forall x, In x (concat (map fst rows)) -> x = 0).
    { intros x I. apply in_concat in I as (y & I & J). apply in_map_iff in I as (r & <- & I). eauto. }
    assert (N : concat (map fst rows) <> []).
    { destruct rows as [|r l]; [tauto|]. destruct (SM r (or_introl eq_refl)) as [L _]. cbn. destruct (fst r); [cbn in L; lia|discriminate]. }
    destruct (check_binary _) as [[]|[]]; auto; try tauto. destruct H as [I _]. apply A in I. lra. }
  unfold precision, recall, yt, yp. rewrite (samples_format _ _ _ SM D). unfold precision_of, recall_of. cbn [rbind]. rewrite CB.
  split; auto. split; auto. intros ->. unfold precision_rc, recall_rc, precision_of, recall_of.
  rewrite (@samples_format_rc _ c rows k kk) by auto. cbn [rbind]. rewrite CB. auto.
Qed.
Theorem C101_not_binary_refuted : forall (argsort : list R -> list nat), sorts_desc argsort ->
  precision argsort (V1 [1; -3]) (V1 [2; 1]) None None false = Ok (MScal (Fin (-1))).
Proof.
  intros argsort AS. unfold precision, format_inputs. cbn [shape length].
  replace (eqb [2%nat] [2%nat]) with true by (symmetry; apply eqb_eq; auto). cbn [negb dim12 ratio_ok rows_of cols_of combine length].
  unfold precision_of. cbn [rbind map concat fst app].
  rewrite check_binary_ok by (cbn; intros; lra || (left; reflexivity) || intuition lra). cbn [rbind].
  replace (top_k (Z.of_nat 2) None None) with (Z.of_nat 2) by reflexivity.
  rewrite pref_nat. rewrite firstn_all2 by (rewrite (ranked_length AS); auto).
  assert (E : nsum (ranked argsort ([1; -3], [2; 1])) = -2).
  { transitivity (tot (ranked argsort ([1; -3], [2; 1]))).
    - unfold nsum, tot. induction (ranked argsort ([1; -3], [2; 1])) as [|x l IH]; cbn in *; auto. rewrite IH. auto.
    - rewrite (tot_perm (ranked_perm AS [1; -3] [2; 1] eq_refl)). unfold tot. cbn. lra. }
  rewrite E. cbn [nofZ Ext_R]. rewrite fdiv_ne by (cbn; lra). cbn [pack]. unfold fmean. cbn [fold_right length fadd].
  rewrite fdiv_ne by (cbn; lra). f_equal. f_equal. f_equal. cbn. field.
Qed.

(** C102: a depth of 0 or less is accepted: precision@0 is nan, precision@-j is negative or zero, recall@-j is the recall at depth n-j *)
Theorem C102_zero_actual : forall (argsort : list R -> list nat) c (rows : list (list R * list R)),
  samples c rows -> (forall r, In r rows -> binary (fst r)) -> (exists r, In r rows /\ In 1 (fst r)) ->
  let yt := V2 c (map fst rows) in let yp := V2 c (map snd rows) in
  precision argsort yt yp (Some 0%Z) None true = Ok (MList (map (fun _ => NaN) rows)) /\
  precision argsort yt yp (Some 0%Z) None false = Ok (MScal NaN).
Proof.
  intros argsort c rows SM BIN ANY yt yp.
  assert (D : depth c (Some 0%Z) None 0) by (cbn; lia).
  assert (H : forall rb, precision_of argsort (Ok (rows, Z.of_nat 0)) rb = Ok (pack rb (map (fun _ => NaN) rows))).
  { intros rb. unfold precision_of. cbn [rbind]. rewrite (checked rows BIN ANY). cbn [rbind]. f_equal. f_equal. apply map_ext.
    intros r. rewrite pref_nat. cbn [firstn]. apply fdiv_00. }
  unfold precision, yt, yp. rewrite (samples_format _ _ _ SM D), !H. split; auto. cbn [pack]. rewrite fmean_nan; auto.
  destruct ANY as (r & I & _). apply in_map_iff. exists r. auto.
Qed.
Theorem C102_negative_actual : forall (argsort : list R -> list nat) c (rows : list (list R * list R)) (j : nat),
  sorts_desc argsort -> samples c rows -> (forall r, In r rows -> binary (fst r)) -> (exists r, In r rows /\ In 1 (fst r)) -> (1 <= j <= c)%nat ->
  let yt := V2 c (map fst rows) in let yp := V2 c (map snd rows) in
  precision argsort yt yp (Some (- Z.of_nat j)%Z) None true =
    Ok (MList (map (fun s => Fin (- (INR (hits (c - j) (argsort (snd s)) (fst s)) / INR j))) rows)) /\
  recall argsort yt yp (Some (- Z.of_nat j)%Z) None true = recall argsort yt yp (Some (Z.of_nat (c - j))) None true.
Proof.
  intros argsort c rows j AS SM BIN ANY J yt yp.
  assert (F : format_inputs yt yp (Some (- Z.of_nat j)%Z) None = Ok (rows, (- Z.of_nat j)%Z)).
  { unfold format_inputs, yt, yp. cbn [shape dim12 negb ratio_ok rows_of cols_of top_k]. rewrite !map_length.
    replace (eqb [length rows; c] [length rows; c]) with true by (symmetry; apply eqb_eq; auto). cbn [negb].
    rewrite Z.min_l by lia. f_equal. f_equal. clear. induction rows as [|[] l IH]; cbn; congruence. }
  assert (P : forall s, In s rows -> pref (- Z.of_nat j) (ranked argsort s) = pref (Z.of_nat (c - j)) (ranked argsort s)).
  { intros [y p] I. destruct (SM _ I) as [L1 L2]. cbn [fst snd] in *. unfold pref. rewrite (ranked_length AS), L2.
    replace (0 <=? - Z.of_nat j)%Z with false by (symmetry; apply Z.leb_gt; lia).
    replace (0 <=? Z.of_nat (c - j))%Z with true by (symmetry; apply Z.leb_le; lia). f_equal. lia. }
  assert (D : depth c (Some (Z.of_nat (c - j))) None (c - j)) by (cbn; lia).
  unfold precision, recall. rewrite F. unfold yt, yp. rewrite (samples_format _ _ _ SM D). split.
  - unfold precision_of. cbn [rbind]. rewrite (checked rows BIN ANY). cbn [rbind pack]. f_equal. f_equal. apply map_ext_in. intros s I.
    rewrite (P s I), (@top_hits argsort AS c rows SM s (c - j) I (BIN s I)). cbn [nofZ Ext_R].
    assert (0 < INR j) by (apply lt_0_INR; lia).
    rewrite opp_IZR, <- INR_IZR_INZ, fdiv_ne by lra. f_equal. field. lra.
  - unfold recall_of. cbn [rbind]. rewrite (checked rows BIN ANY). cbn [rbind pack]. f_equal. f_equal. apply map_ext_in. intros s I.
    rewrite (P s I). auto.
Qed.

(** C103: ap, map and pr_curve ignore k and ratio *)
Theorem C103_ignored_actual : forall (argsort : list R -> list nat) (yt yp : tensor R) k1 k2 (r1 r2 : option R) method,
  ratio_fine r1 -> ratio_fine r2 ->
  ap argsort yt yp k1 r1 method = ap argsort yt yp k2 r2 method /\
  (forall rb, map_score argsort yt yp k1 r1 method rb = map_score argsort yt yp k2 r2 method rb) /\
  (forall n, pr_curve1 argsort yt yp k1 r1 method n = pr_curve1 argsort yt yp k2 r2 method n) /\
  (forall n rb, pr_curve argsort yt yp k1 r1 method n rb = pr_curve argsort yt yp k2 r2 method n rb).
Proof.
  intros argsort yt yp k1 k2 r1 r2 method F1 F2.
  assert (A : forall yt yp k1 k2 r1 r2, ratio_fine r1 -> ratio_fine r2 -> ap argsort yt yp k1 r1 method = ap argsort yt yp k2 r2 method).
  { intros. unfold ap. rewrite !ratio_fine_ok by auto. reflexivity. }
  assert (FI : forall A (g h : list (list R * list R) -> Z -> res A), (forall rows a b, g rows a = h rows b) ->
    rbind (format_inputs yt yp k1 r1) (fun '(rows, k) => g rows k) = rbind (format_inputs yt yp k2 r2) (fun '(rows, k) => h rows k)).
  { intros X g h GH. unfold format_inputs. rewrite !ratio_fine_ok by auto. destruct (negb _); auto. destruct (negb _); auto. cbn [negb rbind]. apply GH. }
  split; [apply A; auto|]. split.
  - intros rb. unfold map_score. destruct (negb _); auto.
  - split; [intros n; reflexivity|]. intros n rb. unfold pr_curve. destruct (negb _); auto.
Qed.
Lemma ranking_is p ord argsort : sorts_desc argsort -> same_order p p -> ranking_of p ord -> argsort p = ord.
Proof. intros AS S R. apply (same_order_ranking S); auto. Qed.
Theorem C103_below_k_refuted : forall (argsort : list R -> list nat), sorts_desc argsort -> forall ratio, ratio_fine ratio ->
  (* the first item of both rankings is the same, but ap@1 differs *)
  hd_error (argsort [3; 2; 1]) = hd_error (argsort [3; 1; 2]) /\
  ap argsort (V1 [1; 1; 0]) (V1 [3; 2; 1]) (Some 1%Z) ratio "legacy" = Ok (Fin 1) /\
  ap argsort (V1 [1; 1; 0]) (V1 [3; 1; 2]) (Some 1%Z) ratio "legacy" = Ok (Fin (5 / 6)).
Proof.
  intros argsort AS ratio RF.
  assert (E1 : argsort [3; 2; 1] = [0; 1; 2]%nat).
  { apply ranking_is; auto.
    - split; auto. split; [|tauto]. intros [|[|[|i]]] [|[|[|j]]] I J N; cbn in *; try lia; lra.
    - split; [reflexivity|]. repeat constructor; cbn; lra. }
  assert (E2 : argsort [3; 1; 2] = [0; 2; 1]%nat).
  { apply ranking_is; auto.
    - split; auto. split; [|tauto]. intros [|[|[|i]]] [|[|[|j]]] I J N; cbn in *; try lia; lra.
    - split; [cbn; constructor; constructor|]. repeat constructor; cbn; lra. }
  assert (B : binary [1; 1; 0]) by (intros x [<-|[<-|[<-|[]]]]; lra).
  assert (I1 : is_one 1 = true) by (apply is_one_true; auto). assert (I0 : is_one 0 = false) by (apply is_one_false; lra).
  split; [rewrite E1, E2; auto|]. split.
  - rewrite (@C55_legacy argsort [1; 1; 0] [3; 2; 1] (Some 1%Z) ratio [1; 2]%nat); auto; [|left; auto|].
    + rewrite E1. f_equal. f_equal. unfold avg, prec_rank, hits. cbn [map firstn filter nth]. rewrite I1. cbn. field.
    + rewrite E1. pose proof (relevant_ranks_exists [0; 1; 2]%nat [1; 1; 0]) as H. cbn [map nth ranks] in H. rewrite I1, I0 in H. exact H.
  - rewrite (@C55_legacy argsort [1; 1; 0] [3; 1; 2] (Some 1%Z) ratio [1; 3]%nat); auto; [|left; auto|].
    + rewrite E2. f_equal. f_equal. unfold avg, prec_rank, hits. cbn [map firstn filter nth]. rewrite I1, I0. cbn. field.
    + rewrite E2. pose proof (relevant_ranks_exists [0; 2; 1]%nat [1; 1; 0]) as H. cbn [map nth ranks] in H. rewrite I1, I0 in H. exact H.
Qed.

(** C104: rr is not the reciprocal of the rank of the first relevant item: with two or more relevant items in the top k it is smaller *)
Theorem C104_not_first_actual : forall (argsort : list R -> list nat) (y p : list R) k (ratio : option R) kk rs r1 r2 t,
  sorts_desc argsort -> length y = length p -> binary y -> depth (length y) k ratio kk -> relevant_ranks (argsort p) y rs ->
  rs = r1 :: r2 :: t -> (r2 <= kk)%nat ->
  exists v, rr argsort (V1 y) (V1 p) k ratio = Ok (Fin v) /\ v < / INR r1.
Proof.
  intros argsort y p k ratio kk rs r1 r2 t AS L B D RS E K.
  assert (P : forall r, In r rs -> (1 <= r)%nat) by (intros r I; pose proof (rs_pos AS p RS r I); lia).
  destruct RS as [S RS']. rewrite E in S. inversion S as [|? ? S' F]; subst. rewrite Forall_forall in F.
  assert (L12 : (r1 < r2)%nat) by (apply F; left; auto).
  exists (avg (map (fun r => / INR r) (top_ranks kk (r1 :: r2 :: t)))).
  rewrite (@rr_value argsort y p k ratio kk (r1 :: r2 :: t)) by (auto; split; auto).
  assert (TR : exists u, top_ranks kk (r1 :: r2 :: t) = r1 :: r2 :: u /\ forall r, In r u -> (r1 < r)%nat).
  { exists (top_ranks kk t). unfold top_ranks. cbn [filter].
    replace (Nat.leb r1 kk) with true by (symmetry; apply Nat.leb_le; lia). replace (Nat.leb r2 kk) with true by (symmetry; apply Nat.leb_le; lia).
    split; auto. intros r I. apply filter_In in I as [I _]. apply F. right; auto. }
  destruct TR as (u & -> & U). rewrite fmean_map by discriminate. split; auto.
  assert (R1 : 0 < INR r1) by (apply lt_0_INR; specialize (P r1 (or_introl eq_refl)); lia).
  unfold avg. rewrite map_length. cbn [map fold_right length].
  assert (SU : fold_right Rplus 0 (map (fun r => / INR r) u) <= INR (length u) * / INR r1).
  { clear - U R1. induction u as [|r u IH]; cbn [map fold_right length]; [cbn; lra|]. rewrite S_INR.
    assert (/ INR r <= / INR r1) by (apply Rinv_le_contravar; [auto|apply le_INR; specialize (U r (or_introl eq_refl)); lia]).
    assert (fold_right Rplus 0 (map (fun r => / INR r) u) <= INR (length u) * / INR r1) by (apply IH; intros; apply U; right; auto). lra. }
  assert (/ INR r2 < / INR r1) by (apply Rinv_lt_contravar; [apply Rmult_lt_0_compat; auto; apply lt_0_INR; lia|apply lt_INR; auto]).
  assert (LP : 0 < INR (Datatypes.S (Datatypes.S (length u)))) by (apply lt_0_INR; lia).
  apply Rmult_lt_reg_r with (INR (Datatypes.S (Datatypes.S (length u)))); auto. unfold Rdiv. rewrite Rmult_assoc, Rinv_l by lra.
  rewrite !S_INR. lra.
Qed.

(** C105: a sample without a relevant item (for rr: in the top k) has no value: rr and ap are nan and make the mean over all samples
    nan; pr_curve raises IndexError *)
Theorem C105_nothing_relevant_actual : forall (argsort : list R -> list nat) (y p : list R) k (ratio : option R),
  sorts_desc argsort -> length y = length p -> (forall x, In x y -> x = 0) -> ratio_fine ratio ->
  (forall kk, depth (length y) k ratio kk -> rr argsort (V1 y) (V1 p) k ratio = Ok NaN) /\
  (forall method, method = "legacy" \/ method = "pascal_voc" ->
     ap argsort (V1 y) (V1 p) k ratio method = Ok NaN /\
     forall n, (1 <= n)%nat -> pr_curve1 argsort (V1 y) (V1 p) k ratio method (Z.of_nat n) = Err IndexError).
Proof.
  intros argsort y p k ratio AS L Z RF.
  assert (B : binary y) by (intros x I; left; auto).
  assert (RS : relevant_ranks (argsort p) y []).
  { assert (E : ranks 1 (map (fun i => nth i y 0) (argsort p)) = []).
    { apply length_zero_iff_nil. rewrite ranks_length. replace (relevant _) with (relevant y).
      - apply relevant_0. intros I. specialize (Z _ I). lra.
      - symmetry. apply relevant_perm. apply (ranked_perm AS); exact L. }
    rewrite <- E. apply relevant_ranks_exists. }
  split.
  - intros kk D. rewrite (@rr_value argsort y p k ratio kk [] AS L B D RS). unfold top_ranks. cbn [filter map]. rewrite fmean_nil. auto.
  - intros method M. assert (MO : method_ok method = true) by (destruct M as [->| ->]; reflexivity).
    unfold ap, pr_curve1. rewrite (ratio_fine_ok _ RF), MO. cbn [negb shape is1].
    replace (eqb [length y] [length p]) with true by (symmetry; apply eqb_eq; congruence). cbn [negb].
    rewrite (prec_list AS p L B RS). cbn [map rev cummax]. split.
    + destruct (String.eqb _ _); cbn [map]; rewrite fmean_nil; auto.
    + intros n N. unfold linspace. replace (Z.of_nat n <? 0)%Z with false by (symmetry; apply Z.ltb_ge; lia). cbn [rbind].
      replace (if String.eqb method "pascal_voc" then [] else []) with (@nil R) by (destruct (String.eqb _ _); auto).
      unfold range. rewrite Nat2Z.id. destruct n as [|n]; [lia|]. cbn [seq map map_res]. unfold np_index at 1. cbn [length].
      destruct (ntrunc _ <? 0)%Z; [replace (_ + Z.of_nat 0)%Z with (ntrunc (nmul (nmul (nofZ (Z.of_nat 0)) (ninv (nofZ (Z.of_nat (S n) - 1)))) (nsub (nsum y) n1))) by lia|];
      (destruct (_ <? 0)%Z; [reflexivity|]; destruct (Z.to_nat _); reflexivity).
Qed.
Theorem C105_mean_actual : forall (argsort : list R -> list nat) c (rows : list (list R * list R)) k (ratio : option R) kk s,
  sorts_desc argsort -> samples c rows -> depth c k ratio kk -> In s rows -> (forall r, In r rows -> binary (fst r)) ->
  (forall x, In x (fst s) -> x = 0) ->
  mrr argsort (V2 c (map fst rows)) (V2 c (map snd rows)) k ratio false = Ok (MScal NaN) /\
  (forall method, method = "legacy" \/ method = "pascal_voc" ->
     map_score argsort (V2 c (map fst rows)) (V2 c (map snd rows)) k ratio method false = Ok (MScal NaN)).
Proof.
  intros argsort c rows k ratio kk s AS SM D I BIN Z.
  assert (GEN : forall (f : list R * list R -> res (fl R)), (forall r, In r rows -> exists v, f r = Ok v) -> f s = Ok NaN ->
    rbind (map_res f rows) (fun l => Ok (pack false l)) = Ok (MScal NaN)).
  { intros f TOT FS. destruct (map_res_ok f rows (fun r v => f r = Ok v)) as (l & -> & F2).
    - intros r J. destruct (TOT r J) as (v & E). eauto.
    - cbn [rbind pack]. rewrite fmean_nan; auto. clear - F2 I FS. induction F2 as [|r v l m E F IH]; [destruct I|].
      destruct I as [->|I]; [left; congruence|right; auto]. }
  destruct (SM _ I) as [L1 L2]. pose proof (depth_le _ _ _ _ D) as KC. split.
  - unfold mrr. rewrite (samples_format _ _ _ SM D). cbn [rbind]. apply GEN.
    + intros [y p] J. destruct (SM _ J) as [M1 M2]. cbn [fst snd] in *. unfold rr. cbn [shape is1].
      replace (eqb [length y] [length p]) with true by (symmetry; apply eqb_eq; congruence). cbn [negb]. eauto.
    + apply (proj1 (@C105_nothing_relevant_actual argsort (fst s) (snd s) (Some (Z.of_nat kk)) None AS ltac:(lia) Z Logic.I) kk).
      cbn. lia.
  - intros method M. unfold map_score. assert (MO : method_ok method = true) by (destruct M as [->| ->]; reflexivity). rewrite MO. cbn [negb].
    rewrite (samples_format _ _ _ SM D). cbn [rbind]. apply GEN.
    + intros [y p] J. destruct (SM _ J) as [M1 M2]. cbn [fst snd] in *. unfold ap. rewrite MO. cbn [shape is1 ratio_ok negb].
      replace (eqb [length y] [length p]) with true by (symmetry; apply eqb_eq; congruence). cbn [negb]. eauto.
    + apply (proj2 (@C105_nothing_relevant_actual argsort (fst s) (snd s) (Some (Z.of_nat kk)) None AS ltac:(lia) Z Logic.I) method M).
Qed.

(** C106: in dhg.metrics.recommender the documented argument ratio raises NameError *)
Theorem C106_ratio_actual : forall T (NT : Num T) (ET : Ext T) (argsort : list T -> list nat) (yt yp : tensor T) k (r : T) rb,
  shape yt = shape yp -> dim12 yt = true ->
  precision_rc argsort yt yp k (Some r) rb = Err NameError /\ recall_rc argsort yt yp k (Some r) rb = Err NameError /\
  ndcg_rc argsort yt yp k (Some r) rb = Err NameError.
Proof.
  intros T NT ET argsort yt yp k r rb S D. unfold precision_rc, recall_rc, ndcg_rc, format_inputs_rc. rewrite S, D.
  replace (eqb (shape yp) (shape yp)) with true by (symmetry; apply eqb_eq; auto). repeat split.
Qed.
(** C105, continued: for rr it is enough that the relevant items are all below the first k *)
Theorem C105_below_k_actual : forall (argsort : list R -> list nat) (y p : list R) k (ratio : option R) kk rs,
  sorts_desc argsort -> length y = length p -> binary y -> depth (length y) k ratio kk -> relevant_ranks (argsort p) y rs ->
  (forall r, In r rs -> (kk < r)%nat) -> rr argsort (V1 y) (V1 p) k ratio = Ok NaN.
Proof.
  intros argsort y p k ratio kk rs AS L B D RS K. rewrite (@rr_value argsort y p k ratio kk rs AS L B D RS).
  replace (top_ranks kk rs) with (@nil nat); [cbn [map]; rewrite fmean_nil; auto|].
  symmetry. unfold top_ranks. clear - K. induction rs as [|r rs IH]; cbn [filter]; auto.
  replace (Nat.leb r kk) with false by (symmetry; apply Nat.leb_gt, K; left; auto). apply IH. intros; apply K; right; auto.
Qed.

(** C113: the precision reported at a recall can be larger than every precision reached at that recall or beyond: here 1 at recall 2/3,
    where the ranking reaches recall 2/3 only at its last item, with precision 2/3 *)
Theorem C113_overstated_refuted : forall (argsort : list R -> list nat) k (ratio : option R), sorts_desc argsort ->
  (exists ps cs, pr_curve1 argsort (V1 [1; 0; 1]) (V1 [3; 2; 1]) k ratio "pascal_voc" 4 = Ok (ps, cs) /\
     nth 2 ps NaN = Fin 1 /\ nth 2 cs NaN = Fin (2 / 3)) /\
  forall r, (1 <= r <= 3)%nat -> 2 / 3 <= INR (hits r (argsort [3; 2; 1]) [1; 0; 1]) / INR (relevant [1; 0; 1]) ->
    prec_rank (argsort [3; 2; 1]) [1; 0; 1] r = 2 / 3.
Proof.
  intros argsort k ratio AS.
  assert (E1 : argsort [3; 2; 1] = [0; 1; 2]%nat).
  { apply ranking_is; auto.
    - split; auto. split; [|tauto]. intros [|[|[|i]]] [|[|[|j]]] I J N; cbn in *; try lia; lra.
    - split; [reflexivity|]. repeat constructor; cbn; lra. }
  assert (B : binary [1; 0; 1]) by (intros x [<-|[<-|[<-|[]]]]; lra).
  assert (I1 : is_one 1 = true) by (apply is_one_true; auto). assert (I0 : is_one 0 = false) by (apply is_one_false; lra).
  assert (RS : relevant_ranks (argsort [3; 2; 1]) [1; 0; 1] [1; 3]%nat).
  { rewrite E1. pose proof (relevant_ranks_exists [0; 1; 2]%nat [1; 0; 1]) as H. cbn [map nth ranks] in H. rewrite I1, I0 in H. exact H. }
  assert (M : relevant [1; 0; 1] = 2%nat) by (unfold relevant; cbn [filter]; rewrite I1, I0; auto).
  assert (P1 : prec_rank (argsort [3; 2; 1]) [1; 0; 1] 1 = 1).
  { rewrite E1. unfold prec_rank, hits. cbn [firstn filter nth]. rewrite I1. cbn. field. }
  assert (P3 : prec_rank (argsort [3; 2; 1]) [1; 0; 1] 3 = 2 / 3).
  { rewrite E1. unfold prec_rank, hits. cbn [firstn filter nth]. rewrite I1, I0. cbn. field. }
  split.
  - change 4%Z with (Z.of_nat 4).
    rewrite (@curve_value argsort [1; 0; 1] [3; 2; 1] k ratio [1; 3]%nat 4 "pascal_voc" _ AS eq_refl B (or_introl eq_refl) RS (or_intror (conj eq_refl eq_refl))).
    eexists _, _. split; [reflexivity|]. rewrite M. cbn [seq map nth]. rewrite P1, P3.
    assert (C : coord 4 2 = 2 / 3) by (destruct (@coord_spec 4 2) as [H _]; [lia|cbn in H; lra]).
    split; [|rewrite C; auto]. unfold pick. rewrite C.
    replace (Int_part (2 / 3 * (INR 2 - 1))) with 0%Z by (symmetry; apply floor_spec; cbn; lra).
    cbn [Z.to_nat nth sufmax]. f_equal. unfold Rmax. cbn. destruct (Rle_dec _ _); lra.
  - rewrite M, E1 in *. intros [|[|[|[|r]]]] R H; try lia; auto; exfalso; revert H; unfold hits; cbn [firstn filter nth]; rewrite ?I1, ?I0; cbn; lra.
Qed.

(** * The hypotheses are met *)
Definition ex_rows : list (list R * list R) := [([0; 1; 1], [1; 2; 3]); ([0; 0; 0], [3; 2; 1])].
Example metrics_nonvacuous :
  sorts_desc ins_argsort /\ samples 3 ex_rows /\ (forall r, In r ex_rows -> binary (fst r)) /\ (exists r, In r ex_rows /\ In 1 (fst r)) /\
  depth 3 (Some 2%Z) None 2 /\ depth 3 None (Some (1 / 2)) 2 /\ depth 3 None None 3 /\ ratio_fine (Some (1 / 2)).
Proof.
  split; [apply ins_argsort_sorts|]. split; [intros r [<-|[<-|[]]]; auto|].
  split; [intros r [<-|[<-|[]]] x; cbn; intuition lra|]. split; [exists ([0; 1; 1], [1; 2; 3]); cbn; auto|].
  cbn. repeat split; lia || lra.
Qed.
Example same_order_nonvacuous : same_order [1; 2; 3] [10; 20; 40].
Proof. split; auto. split; intros [|[|[|i]]] [|[|[|j]]]; cbn; intros; try lia; lra. Qed.
Example relevant_ranks_nonvacuous : relevant_ranks [2; 1; 0]%nat [0; 1; 1] [1; 2]%nat /\ relevant_ranks [2; 1; 0]%nat [1; 0; 0] [3]%nat.
Proof.
  assert (I1 : is_one 1 = true) by (apply is_one_true; auto). assert (I0 : is_one 0 = false) by (apply is_one_false; lra).
  pose proof (relevant_ranks_exists [2; 1; 0]%nat [0; 1; 1]) as H. pose proof (relevant_ranks_exists [2; 1; 0]%nat [1; 0; 0]) as K.
  cbn [map nth ranks] in *. rewrite I1, I0 in *. auto.
Qed.

(** Runs of the examples of the documentation, over the rationals (scores in tenths or hundredths; the order is what counts). *)
From Coq Require Import QArith Qcanon.
Section Runs.
  Local Open Scope Q_scope.
  Local Open Scope Z_scope.
  Definition qv (l : list Z) : list Qc := map (fun z => Q2Qc (inject_Z z)) l.
  Definition qf (x : fl Qc) : option Q := match x with Fin y => Some (this y) | _ => None end.
  Definition qs (r : res (mout Qc)) : option (list (option Q)) :=
    match r with Ok (MScal x) => Some [qf x] | Ok (MList l) => Some (map qf l) | Ok (MCurve l _) => Some (map qf l) | _ => None end.
  Definition qo (r : res (fl Qc)) : option Q := match r with Ok x => qf x | _ => None end.
  (** rt:64-67, rt:98-101 *)
  Definition yt1 : tensor Qc := V1 (qv [0; 1; 0; 0; 1; 1]).
  Definition yp1 : tensor Qc := V1 (qv [8; 9; 6; 7; 4; 5]).
  Example run_precision : qs (precision ins_argsort yt1 yp1 (Some 2) None false) = Some [Some (1 # 2)]. Proof. vm_compute. reflexivity. Qed.
  Example run_recall : qs (recall ins_argsort yt1 yp1 (Some 5) None false) = Some [Some (2 # 3)]. Proof. vm_compute. reflexivity. Qed.
  (** rt:135-138 *)
  Example run_ap : qo (ap ins_argsort (V1 (qv [1; 0; 1])) (V1 (qv [2; 3; 5])) None None "legacy") = Some (5 # 6).
  Proof. vm_compute. reflexivity. Qed.
  (** rt:183-198: 0.70555... and 0.730555... *)
  Definition yt2 : tensor Qc := V2 5 (map qv [[1; 0; 1; 0; 1]; [0; 0; 0; 1; 1]; [1; 1; 0; 1; 0]; [0; 1; 1; 0; 1]]).
  Definition yp2 : tensor Qc := V2 5 (map qv [[2; 8; 5; 4; 3]; [8; 2; 3; 9; 4]; [2; 4; 5; 9; 8]; [8; 2; 9; 3; 7]]).
  Example run_map : qs (map_score ins_argsort yt2 yp2 (Some 2) None "legacy" false) = Some [Some (127 # 180)] /\
    qs (map_score ins_argsort yt2 yp2 (Some 2) None "pascal_voc" false) = Some [Some (263 # 360)].
  Proof. split; vm_compute; reflexivity. Qed.
  (** rt:276-281 *)
  Example run_rr : qo (rr ins_argsort (V1 (qv [0; 1; 0; 1])) (V1 (qv [2; 3; 5; 2])) None None) = Some (3 # 8) /\
    qo (rr ins_argsort (V1 (qv [0; 1; 0; 1])) (V1 (qv [2; 3; 5; 2])) (Some 2) None) = Some (1 # 2).
  Proof. split; vm_compute; reflexivity. Qed.
  (** rt:354-360 *)
  Example run_curve : qs (pr_curve ins_argsort (V1 (qv [0; 1; 0; 1; 0; 0; 1; 0; 1; 0])) (V1 (qv [23; 76; 1; 91; 13; 45; 12; 3; 38; 11]))
      None None "pascal_voc" 11 false) =
    Some (map Some [1 # 1; 1 # 1; 1 # 1; 1 # 1; 1 # 1; 1 # 1; 1 # 1; 3 # 4; 3 # 4; 3 # 4; 4 # 7]).
  Proof. vm_compute. reflexivity. Qed.
End Runs.
