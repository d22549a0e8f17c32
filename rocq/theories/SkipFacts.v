(** Facts about the skipping loops of the fast G(n,p) generators. *)
From Coq Require Import Reals Lra Sorting.Sorted.
From Verif Require Import Num ModelRandom SplitFacts RandomFacts.
Set Implicit Arguments.
Local Open Scope list_scope.
Local Open Scope Z_scope.

(** the number of the pair w < v when pairs are listed by v and then by w *)
Definition tri (v : Z) : Z := v * (v - 1) / 2.
Lemma tri_next v : tri (v + 1) = tri v + v.
Proof.
  unfold tri. replace ((v + 1) * (v + 1 - 1)) with (v * (v - 1) + v * 2) by ring. rewrite Z.div_add by lia. reflexivity.
Qed.
Lemma tri_mono a b : 0 <= a <= b -> tri a <= tri b.
Proof. intros L. unfold tri. apply Z.div_le_mono; [lia|]. destruct (Z.eq_dec a b) as [->|]; [lia|]. assert (1 <= b) by lia. destruct (Z.eq_dec a 0) as [->|]; nia. Qed.
Lemma tri_nonneg a : 0 <= a -> 0 <= tri a.
Proof. intros L. unfold tri. apply Z.div_pos; [|lia]. destruct (Z.eq_dec a 0) as [->|]; nia. Qed.
Lemma tri_inj v w v' w' : 0 <= w < v -> 0 <= w' < v' -> tri v + w = tri v' + w' -> v = v' /\ w = w'.
Proof.
  intros A B E. destruct (Z.lt_trichotomy v v') as [L|[->|L]]; [|split; lia|].
  - pose proof (@tri_mono (v + 1) v'). rewrite tri_next in H. lia.
  - pose proof (@tri_mono (v' + 1) v). rewrite tri_next in H. lia.
Qed.
Lemma tri_find nv x : 0 < nv -> 0 <= x < tri nv -> exists v w, 0 <= w < v /\ v < nv /\ tri v + w = x.
Proof.
  intros P [A B]. assert (G : forall k v, nv = v + Z.of_nat k -> 0 < v -> tri v <= x -> exists v' w, 0 <= w < v' /\ v' < nv /\ tri v' + w = x).
  { induction k as [|k IH]; intros v E V L; [replace nv with v in B by lia; lia|].
    destruct (Z_lt_le_dec x (tri (v + 1))) as [X|X].
    - rewrite tri_next in X. exists v, (x - tri v). lia.
    - apply (IH (v + 1)); lia. }
  apply (G (Z.to_nat (nv - 1)) 1); [lia|lia|exact A].
Qed.

Lemma settle_spec nv fuel : forall v w, nv = v + Z.of_nat fuel -> 1 <= v -> 0 <= w ->
  let (v2, w2) := settle nv fuel v w in v <= v2 <= nv /\ 0 <= w2 /\ tri v2 + w2 = tri v + w /\ (v2 < nv -> w2 < v2).
Proof.
  induction fuel as [|f IH]; intros v w E V W; cbn [settle]; [lia|].
  destruct (v <=? w) eqn:L1; cbn [andb]; [apply Z.leb_le in L1|apply Z.leb_gt in L1; lia].
  destruct (v <? nv) eqn:L2; [apply Z.ltb_lt in L2|apply Z.ltb_ge in L2; lia].
  specialize (IH (v + 1) (w - v)). destruct (settle nv f (v + 1) (w - v)) as [v2 w2]. rewrite tri_next in IH. lia.
Qed.

(** the place reached after the draws i .. i + t *)
Fixpoint reach_to (sk : nat -> Z) (i t : nat) : Z :=
  match t with O => sk i + 1 | S t' => reach_to sk i t' + sk (i + t)%nat + 1 end.
Lemma reach_shift sk i t : reach_to sk i (S t) = (sk i + 1) + reach_to sk (S i) t.
Proof.
  induction t as [|t IH]; [cbn [reach_to]; replace (i + 1)%nat with (S i) by lia; lia|].
  change (reach_to sk i (S (S t))) with (reach_to sk i (S t) + sk (i + S (S t))%nat + 1). rewrite IH.
  change (reach_to sk (S i) (S t)) with (reach_to sk (S i) t + sk (S i + S t)%nat + 1). replace (S i + S t)%nat with (i + S (S t))%nat by lia. lia.
Qed.
Lemma reach_lower sk i t : (forall j, 0 <= sk j) -> Z.of_nat t < reach_to sk i t.
Proof. intros P. induction t as [|t IH]; cbn [reach_to]; [pose proof (P i)|pose proof (P (i + S t)%nat)]; lia. Qed.
Lemma reach_mono sk i s t : (forall j, 0 <= sk j) -> (s < t)%nat -> reach_to sk i s < reach_to sk i t.
Proof.
  intros P L. induction L; cbn [reach_to]; [pose proof (P (i + S s)%nat)|pose proof (P (i + S m)%nat)]; lia.
Qed.

(** the pairs found are those whose numbers the draws reach, in order; the last draw goes past the end *)
Lemma skip_spec nv sk (P : forall j, 0 <= sk j) fuel : forall i v w j l, 1 <= v < nv -> -1 <= w < v -> skip_loop nv sk fuel i v w = Some (j, l) ->
  exists k, j = (i + S k)%nat /\ tri nv <= tri v + w + reach_to sk i k /\
    Forall2 (fun e t => 0 <= snd e < fst e /\ fst e < nv /\ tri (fst e) + snd e = tri v + w + reach_to sk i t) l (seq 0 k).
Proof.
  induction fuel as [|f IH]; intros i v w j l V W E; cbn [skip_loop] in E.
  - replace (v <? nv) with true in E by (symmetry; apply Z.ltb_lt; lia). discriminate.
  - replace (v <? nv) with true in E by (symmetry; apply Z.ltb_lt; lia).
    pose proof (@settle_spec nv (Z.to_nat (nv - v)) v (w + 1 + sk i)) as S. pose proof (P i) as Pi.
    destruct (settle nv (Z.to_nat (nv - v)) v (w + 1 + sk i)) as [v2 w2]. destruct S as (S1 & S2 & S3 & S4); [lia|lia|lia|].
    destruct (skip_loop nv sk f (Datatypes.S i) v2 w2) as [[j' l']|] eqn:R; [|discriminate]. injection E as <- <-.
    destruct (v2 <? nv) eqn:L.
    + apply Z.ltb_lt in L. apply IH in R as (k & Q1 & Q2 & Q3); [|lia|lia]. exists (Datatypes.S k). rewrite reach_shift.
      split; [lia|]. split; [lia|]. cbn [seq]. constructor.
      * cbn [fst snd]. cbn [reach_to]. lia.
      * rewrite <- seq_shift. clear - Q3 S3. remember (seq 0 k) as q eqn:Hq. clear Hq. induction Q3 as [|e t l q (A & B & C) F IH]; cbn [map]; constructor; auto.
        rewrite reach_shift. lia.
    + apply Z.ltb_ge in L. exists 0%nat. destruct f as [|f']; cbn [skip_loop] in R; (replace (v2 <? nv) with false in R by (symmetry; apply Z.ltb_ge; lia));
        injection R as <- <-; (split; [lia|]); (split; [|constructor]); cbn [reach_to]; assert (v2 = nv) by lia; subst v2; lia.
Qed.
Lemma skip_ends nv sk (P : forall j, 0 <= sk j) fuel : forall i v w, 1 <= v -> (v < nv -> -1 <= w < v) -> (v < nv -> tri nv - (tri v + w) <= Z.of_nat fuel) -> 
  exists r, skip_loop nv sk fuel i v w = Some r.
Proof.
  induction fuel as [|f IH]; intros i v w V W F; cbn [skip_loop]; destruct (v <? nv) eqn:L; eauto; apply Z.ltb_lt in L; specialize (W L); specialize (F L).
  - exfalso. pose proof (@tri_mono (v + 1) nv). rewrite tri_next in H. lia.
  - pose proof (@settle_spec nv (Z.to_nat (nv - v)) v (w + 1 + sk i)) as S. pose proof (P i) as Pi.
    destruct (settle nv (Z.to_nat (nv - v)) v (w + 1 + sk i)) as [v2 w2]. destruct S as (S1 & S2 & S3 & S4); [lia|lia|lia|].
    destruct (IH (Datatypes.S i) v2 w2) as ([j l] & ->); [lia|lia|lia|]. eauto.
Qed.

(** the number of draws a pass takes is determined by the draws *)
Lemma pass_unique sk i N k k' : (forall j, 0 <= sk j) -> N <= reach_to sk i k - 1 -> (forall t, (t < k)%nat -> reach_to sk i t - 1 < N) ->
  N <= reach_to sk i k' - 1 -> (forall t, (t < k')%nat -> reach_to sk i t - 1 < N) -> k = k'.
Proof.
  intros P A B A' B'. destruct (Nat.lt_trichotomy k k') as [L|[L|L]]; auto; [apply B' in L|apply B in L]; lia.
Qed.

(** one pass from the beginning *)
Lemma pass_spec nv sk (P : forall j, 0 <= sk j) fuel i : 1 < nv -> tri nv + 1 <= Z.of_nat fuel ->
  exists k l, skip_loop nv sk fuel i 1 (-1) = Some ((i + S k)%nat, l) /\ tri nv <= reach_to sk i k - 1 /\ (forall t, (t < k)%nat -> reach_to sk i t - 1 < tri nv) /\
    NoDup l /\ Forall (fun e => 0 <= snd e < fst e /\ fst e < nv) l /\
    (forall v w, 0 <= w < v -> v < nv -> (In (v, w) l <-> exists t, tri v + w = reach_to sk i t - 1)).
Proof.
  intros V F. destruct (@skip_ends nv sk P fuel i 1 (-1)) as ([j l] & E); [lia|lia|intros _; change (tri 1) with 0; lia|].
  destruct (@skip_spec nv sk P fuel i 1 (-1) j l) as (k & -> & Q2 & Q3); auto; [lia|lia|]. change (tri 1) with 0 in Q2, Q3.
  exists k, l. split; auto. split; [lia|].
  assert (IN : forall e, In e l -> exists t, (t < k)%nat /\ 0 <= snd e < fst e /\ fst e < nv /\ tri (fst e) + snd e = reach_to sk i t - 1).
  { intros e I. assert (G : forall q, Forall2 (fun e t => 0 <= snd e < fst e /\ fst e < nv /\ tri (fst e) + snd e = 0 + -1 + reach_to sk i t) l q -> exists t, In t q /\ 0 <= snd e < fst e /\ fst e < nv /\ tri (fst e) + snd e = reach_to sk i t - 1).
    { clear - I. intros q F. induction F as [|e' t l q (A & B & C) F IH]; [destruct I|]. destruct I as [->|I]; [exists t; split; [left; auto|lia]|]. destruct (IH I) as (t' & T & R). exists t'. split; [right; auto|exact R]. }
    destruct (G _ Q3) as (t & T & R). apply in_seq in T. exists t. split; [lia|exact R]. }
  assert (RT : forall t, (t < k)%nat -> exists e, In e l /\ 0 <= snd e < fst e /\ fst e < nv /\ tri (fst e) + snd e = reach_to sk i t - 1).
  { intros t T. assert (G : forall q, Forall2 (fun e t => 0 <= snd e < fst e /\ fst e < nv /\ tri (fst e) + snd e = 0 + -1 + reach_to sk i t) l q -> In t q -> exists e, In e l /\ 0 <= snd e < fst e /\ fst e < nv /\ tri (fst e) + snd e = reach_to sk i t - 1).
    { clear. intros q F I. induction F as [|e' t' l q (A & B & C) F IH]; [destruct I|]. destruct I as [->|I]; [exists e'; split; [left; auto|lia]|]. destruct (IH I) as (e & J & R). exists e. split; [right; auto|exact R]. }
    apply (G _ Q3). apply in_seq. lia. }
  split; [|split; [|split]].
  - intros t T. apply RT in T as (e & _ & A & B & C). rewrite <- C. pose proof (@tri_mono (fst e + 1) nv). rewrite tri_next in H. lia.
  - assert (G : forall q, NoDup q -> Forall2 (fun e t => 0 <= snd e < fst e /\ fst e < nv /\ tri (fst e) + snd e = 0 + -1 + reach_to sk i t) l q -> NoDup l).
    { clear - P. intros q ND F. induction F as [|e t l q (A & B & C) F IH]; constructor; inversion ND as [|? ? N1 N2]; subst; auto.
      intros I. assert (X : exists t', In t' q /\ tri (fst e) + snd e = 0 + -1 + reach_to sk i t').
      { clear - F I. induction F as [|e' t' l q (A & B & C) F IH]; [destruct I|]. destruct I as [->|I]; [exists t'; split; [left; auto|auto]|]. destruct (IH I) as (z & Z & R). exists z. split; [right; auto|auto]. }
      destruct X as (t' & T & R). apply N1. assert (EQ : reach_to sk i t = reach_to sk i t') by lia.
      destruct (Nat.lt_trichotomy t t') as [L|[<-|L]]; auto; exfalso; apply (@reach_mono sk i) in L; auto; lia. }
    apply (G (seq 0 k)); auto. apply seq_NoDup.
  - apply Forall_forall. intros e I. apply IN in I as (t & _ & A & B & _). auto.
  - intros v w W V'. split.
    + intros I. apply IN in I as (t & _ & _ & _ & R). exists t. exact R.
    + intros (t & R). assert (T : (t < k)%nat).
      { destruct (le_lt_dec k t) as [L|L]; auto. exfalso. assert (reach_to sk i k <= reach_to sk i t).
        { apply Nat.lt_eq_cases in L as [L| ->]; [|lia]. apply (@reach_mono sk i) in L; auto. lia. }
        pose proof (@tri_mono (v + 1) nv). rewrite tri_next in H0. lia. }
      apply RT in T as ([v' w'] & I & A & B & C). cbn [fst snd] in *. destruct (@tri_inj v w v' w') as [-> ->]; auto. lia.
Qed.

(** * The skips of the draws *)
Lemma skips_nonneg p rnd j : (0 < p < 1)%R -> (0 <= rnd j < 1)%R -> 0 <= skips p rnd j.
Proof.
  intros P R. unfold skips, py_int. set (x := (ln (1 - rnd j) / ln (1 - p))%R). assert (X : (0 <= x)%R).
  { assert (A : (ln (1 - p) < 0)%R) by (rewrite <- ln_1; apply ln_increasing; lra).
    assert (B : (ln (1 - rnd j) <= 0)%R). { rewrite <- ln_1. destruct (Req_dec (rnd j) 0) as [->|NE]; [rewrite Rminus_0_r; lra|]. left. apply ln_increasing; lra. }
    unfold x, Rdiv. replace (ln (1 - rnd j) * / ln (1 - p))%R with ((- ln (1 - rnd j)) * (- / ln (1 - p)))%R by ring.
    apply Rmult_le_pos; [lra|]. apply Rinv_lt_0_compat in A. lra. }
  destruct (Rle_dec 0 x) as [_|C]; [|contradiction]. destruct (base_Int_part x) as [_ B]. apply le_IZR. apply Rnot_lt_le. intros C.
  apply lt_IZR in C. assert (D : Int_part x <= -1) by lia. apply IZR_le in D. lra.
Qed.
(** every skip is possible *)
Lemma skip_possible p k : (0 < p < 1)%R -> 0 <= k -> exists r, (0 <= r < 1)%R /\ py_int (ln (1 - r) / ln (1 - p)) = k.
Proof.
  intros P K. assert (A : (ln (1 - p) < 0)%R) by (rewrite <- ln_1; apply ln_increasing; lra).
  exists (1 - (1 - p) ^ Z.to_nat k)%R. assert (B : (0 < (1 - p) ^ Z.to_nat k <= 1)%R).
  { split; [apply pow_lt; lra|]. eapply Rle_trans; [apply (@pow_incr _ 1); lra|rewrite pow1; lra]. }
  split; [lra|]. replace (1 - (1 - (1 - p) ^ Z.to_nat k))%R with ((1 - p) ^ Z.to_nat k)%R by ring.
  rewrite ln_pow by lra. replace (INR (Z.to_nat k) * ln (1 - p) / ln (1 - p))%R with (IZR k) by (rewrite INR_IZR_INZ, Z2Nat.id by lia; field; lra).
  unfold py_int. destruct (Rle_dec 0 (IZR k)) as [_|C]; [|exfalso; apply C; apply IZR_le; lia].
  unfold Int_part. rewrite <- (tech_up (IZR k) (k + 1)); [lia| |]; rewrite plus_IZR; lra.
Qed.

(** any rising sequence of places is reached by some skips *)
Lemma reach_choose (x : nat -> Z) (L : 0 <= x 0%nat) (I : forall t, x t < x (S t)) : exists sk, (forall j, 0 <= sk j) /\ forall t, reach_to sk 0 t - 1 = x t.
Proof.
  exists (fun j => match j with O => x 0%nat | S j' => x (S j') - x j' - 1 end). split.
  - intros [|j]; auto. pose proof (I j). lia.
  - induction t as [|t IH]; cbn [reach_to Nat.add]; [lia|]. cbn [Nat.add] in *. lia.
Qed.
(** the places of a set, in order, then the places past the end *)
Lemma places (Q : Z -> bool) N : 0 <= N -> exists x : nat -> Z, 0 <= x 0%nat /\ (forall t, x t < x (S t)) /\
  (forall z, 0 <= z < N -> (Q z = true <-> exists t, z = x t)).
Proof.
  intros PN. set (l := filter Q (range N)). assert (S : StronglySorted Z.lt l).
  { unfold l. generalize (range_sorted N). clear. induction 1 as [|a r S IH F]; cbn; [constructor|]. destruct (Q a); auto. constructor; auto.
    rewrite Forall_forall in *. intros y I. apply filter_In in I as [I _]. auto. }
  assert (B : forall z, In z l <-> 0 <= z < N /\ Q z = true) by (intros z; unfold l; rewrite filter_In, range_In; reflexivity).
  exists (fun t => if Nat.ltb t (length l) then nth t l 0 else N + Z.of_nat (t - length l)).
  assert (IN : forall t, (t < length l)%nat -> 0 <= nth t l 0 < N /\ Q (nth t l 0) = true) by (intros t T; apply B, nth_In; auto).
  split; [|split].
  - destruct (Nat.ltb_spec 0 (length l)) as [T|T]; [apply IN in T|]; lia.
  - intros t. destruct (Nat.ltb_spec t (length l)) as [T|T]; destruct (Nat.ltb_spec (Datatypes.S t) (length l)) as [T'|T']; try lia.
    + clear - S T'. clearbody l. revert l S T'. induction t as [|t IH]; intros l S T'.
      * destruct l as [|a [|b l]]; cbn in *; try lia. inversion S; subst. inversion H2; auto.
      * destruct l as [|a l]; cbn in T'; [lia|]. inversion S; subst. cbn [nth]. apply IH; auto. lia.
    + apply IN in T. lia.
  - intros z Z. split.
    + intros E. assert (I : In z l) by (apply B; auto). apply (In_nth _ _ 0) in I as (t & T & E'). exists t. replace (Nat.ltb t (length l)) with true by (symmetry; apply Nat.ltb_lt; auto). auto.
    + intros (t & ->). destruct (Nat.ltb_spec t (length l)) as [T|T]; [apply IN; auto|lia].
Qed.
