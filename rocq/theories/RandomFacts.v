(** Facts about the loops of dhg/random. *)
From Coq Require Import String Reals QArith Permutation Sorting.Sorted.
From Verif Require Import Num PyDict PyDictFacts ModelBase ModelGraph ModelDiGraph ModelBiGraph ModelHyper ModelConv ModelUtils ModelRandom.
From Verif Require Import SpecUtils UtilFacts SplitFacts RebuildFacts HyperStore ConvFacts.
Set Implicit Arguments.
Local Open Scope list_scope.
Local Open Scope Z_scope.

(** * Structures built from different edges *)
Section Built.
  Context {T : Type} `{N : Num T}.
  Lemma adds_fresh (norm : Z * Z -> Z * Z) nv ex (l : list (Z * Z)) : forall d, NoDup (dkeys d ++ map norm l) ->
    Forall (fun e => fst (norm e) <> snd (norm e)) l ->
    for_each (fun x => add_edge MMean (fst (norm (fst x))) (snd (norm (fst x))) (snd x)) (map (fun e => (e, @n1 T N)) l) (mkSt (mkRaw nv d [] ex) [])
    = (mkSt (mkRaw nv (d ++ map (fun e => (norm e, n1)) l) [] ex) [], Ok tt).
  Proof.
    induction l as [|e l IH]; intros d ND F; cbn [map for_each]; [rewrite app_nil_r; reflexivity|].
    inversion F as [|? ? F1 F2]; subst. unfold bind, add_edge. cbn [merge_fun fst snd st_raw]. unfold add_edge_raw. cbn [r_nv r_e r_loop r_extra].
    replace (fst (norm e) =? snd (norm e)) with false by (symmetry; apply Z.eqb_neq; auto).
    unfold dmerge. assert (D : dget (norm e) d = None).
    { apply dget_None. intros I. cbn [map] in ND. apply NoDup_remove_2 in ND. apply ND. apply in_app_iff; auto. }
    rewrite <- surjective_pairing, D, dset_new by auto. rewrite IH; [rewrite <- app_assoc; reflexivity| |auto].
    unfold dkeys in *. rewrite map_app, <- app_assoc. exact ND.
  Qed.
  Lemma g_new_set nv l : 0 < nv -> NoDup (map norm_und l) -> Forall (fun e => fst e <> snd e /\ fst e < nv /\ snd e < nv) l ->
    exists g : graph T, g_new nv (Some (EMany l)) WNone false MMean = Ok g /\
      snd (g_query QE g) = Ok (OE (map norm_und l) (map (fun _ => n1) l)).
  Proof.
    intros P ND F. exists (mkSt (mkRaw nv (map (fun e => (norm_und e, n1)) l) [] false) []).
    split.
    - unfold g_new. replace (0 <? nv) with true by (symmetry; apply Z.ltb_lt; auto). unfold g_add_edges, add_edges.
      destruct l as [|e l]; [reflexivity|]. cbn [earg_empty]. remember (e :: l) as L. unfold format_edges.
      destruct L as [|e' L']; [discriminate|]. clear HeqL. remember (e' :: L') as L.
      unfold bind at 1, lift. cbn [st_raw r_nv]. replace (forallb (below nv) L) with true.
      2:{ symmetry. apply forallb_forall. intros x I. rewrite Forall_forall in F. apply F in I as (_ & A & B). unfold below. apply andb_true_iff. rewrite !Z.ltb_lt. auto. }
      cbn [fst snd].
      replace (combine L (map (fun _ => n1) L)) with (map (fun e => (e, @n1 T N)) L) by (clear; induction L as [|a L IH]; cbn; auto; rewrite IH; auto).
      unfold bind. rewrite adds_fresh; [reflexivity|exact ND|]. eapply Forall_impl; [|exact F]. intros [a b] (A & _). unfold norm_und. cbn in *. destruct (b <? a); cbn; auto.
    - cbn. unfold dkeys, dvals. rewrite !app_nil_r, !map_map. cbn. reflexivity.
  Qed.
  Lemma d_new_set nv l : 0 < nv -> NoDup l -> Forall (fun e => fst e <> snd e /\ fst e < nv /\ snd e < nv) l ->
    exists g : digraph T, d_new nv (Some (EMany l)) WNone false MMean = Ok g /\
      snd (d_query dqE g) = Ok (OE l (map (fun _ => n1) l)).
  Proof.
    intros P ND F. exists (mkSt (mkRaw nv (map (fun e => (norm_dir e, n1)) l) [] false) []).
    split.
    - unfold d_new. replace (0 <? nv) with true by (symmetry; apply Z.ltb_lt; auto). unfold d_add_edges, add_edges.
      destruct l as [|e l]; [reflexivity|]. cbn [earg_empty]. remember (e :: l) as L. unfold format_edges.
      destruct L as [|e' L']; [discriminate|]. clear HeqL. remember (e' :: L') as L.
      unfold bind at 1, lift. cbn [st_raw r_nv]. replace (forallb (below nv) L) with true.
      2:{ symmetry. apply forallb_forall. intros x I. rewrite Forall_forall in F. apply F in I as (_ & A & B). unfold below. apply andb_true_iff. rewrite !Z.ltb_lt. auto. }
      cbn [fst snd].
      replace (combine L (map (fun _ => n1) L)) with (map (fun e => (e, @n1 T N)) L) by (clear; induction L as [|a L IH]; cbn; auto; rewrite IH; auto).
      unfold bind. rewrite adds_fresh; [reflexivity| |].
      + unfold norm_dir. rewrite map_id. exact ND.
      + eapply Forall_impl; [|exact F]. intros [a b] (A & _). exact A.
    - cbn. unfold dkeys, dvals, norm_dir. rewrite !app_nil_r, !map_map. cbn. rewrite map_id. reflexivity.
  Qed.
  Lemma badds_fresh nu nv (l : list (Z * Z)) : forall d, NoDup (dkeys d ++ l) ->
    for_each (badd_edge MMean) (map (fun e => (e, @n1 T N)) l) (mkSt (mkBRaw nu nv d) [])
    = (mkSt (mkBRaw nu nv (d ++ map (fun e => (e, n1)) l)) [], Ok tt).
  Proof.
    induction l as [|e l IH]; intros d ND; cbn [map for_each]; [rewrite app_nil_r; reflexivity|].
    unfold bind, badd_edge. cbn [merge_fun fst snd st_raw b_nu b_nv b_e].
    unfold dmerge. assert (D : dget e d = None).
    { apply dget_None. intros I. apply NoDup_remove_2 in ND. apply ND. apply in_app_iff; auto. }
    rewrite D, dset_new by auto. fold (@badd_edge T N). rewrite IH; [rewrite <- app_assoc; reflexivity|].
    unfold dkeys in *. rewrite map_app, <- app_assoc. exact ND.
  Qed.
  Lemma b_new_set nu nv l : 0 < nv -> NoDup l -> Forall (fun e => fst e < nu /\ snd e < nv) l ->
    exists g : bigraph T, b_new nu nv (Some (EMany l)) WNone MMean = Ok g /\
      snd (b_query bqE g) = Ok (OE l (map (fun _ => n1) l)).
  Proof.
    intros P ND F. exists (mkSt (mkBRaw nu nv (map (fun e => (e, n1)) l)) []).
    split.
    - unfold b_new. replace (0 <? nv) with true by (symmetry; apply Z.ltb_lt; auto). unfold b_add_edges.
      destruct l as [|e l]; [reflexivity|]. cbn [earg_empty]. remember (e :: l) as L. unfold format_edges.
      destruct L as [|e' L']; [discriminate|]. clear HeqL. remember (e' :: L') as L.
      unfold bind at 1, lift. cbn [st_raw b_nv b_nu]. replace (forallb (below2 nu nv) L) with true.
      2:{ symmetry. apply forallb_forall. intros x I. rewrite Forall_forall in F. apply F in I as (A & B). unfold below2. apply andb_true_iff. rewrite !Z.ltb_lt. auto. }
      cbn [fst snd].
      replace (combine L (map (fun _ => n1) L)) with (map (fun e => (e, @n1 T N)) L) by (clear; induction L as [|a L IH]; cbn; auto; rewrite IH; auto).
      unfold bind. rewrite badds_fresh; [reflexivity|exact ND].
    - cbn. unfold dkeys, dvals. rewrite !map_map. cbn. rewrite map_id. reflexivity.
  Qed.
  Lemma h_new_set nv L : 0 < nv -> NoDup L -> Forall (StronglySorted Z.le) L ->
    exists h : hypergraph T, h_new nv (Some (HMany L)) WNone None MMean = Ok h /\
      snd (h_query (hqE None) h) = Ok (OHE L (map (fun _ => n1) L)).
  Proof.
    intros P ND F. assert (E : map zsort L = L).
    { clear - F. induction F as [|e L S F IH]; cbn; auto. rewrite IH, zsort_id; auto. }
    destruct (@h_new_nodup T N nv L (map (fun _ => n1) L) P) as (h & E1 & _ & Q1 & _); [rewrite E; auto|apply map_length|].
    rewrite E in Q1. exists h. split; auto. rewrite <- E1. unfold h_new. destruct (0 <? nv); auto.
    unfold h_add. replace (hweights (length (hformat (HMany L))) (WList (map (fun _ => n1) L))) with (hweights (length (hformat (HMany L))) (@WNone T)); auto.
    cbn. rewrite !map_length, Nat.eqb_refl. f_equal. clear. induction L as [|a L IH]; cbn; auto. rewrite IH; auto.
  Qed.
End Built.

(** * Drawing until there is enough *)
Section CollectFacts.
  Context {K : Type} `{EqB K}.
  Definition extend (acc : list K) (c : option K) : list K :=
    match c with Some k => if existsb (eqb k) acc then acc else acc ++ [k] | None => acc end.
  Lemma existsb_eqb_In (k : K) l : existsb (eqb k) l = true <-> In k l.
  Proof.
    rewrite existsb_exists. split; [intros (x & I & E); apply eqb_eq in E; subst; auto|]. intros I. exists k. split; auto. apply eqb_refl.
  Qed.
  Lemma extend_In acc c x : In x (extend acc c) <-> In x acc \/ c = Some x.
  Proof.
    unfold extend. destruct c as [k|]; [|split; [auto|intros [?|?]; [auto|discriminate]]].
    destruct (existsb (eqb k) acc) eqn:E.
    - apply existsb_eqb_In in E. split; auto. intros [?|Q]; auto. injection Q as ->. auto.
    - rewrite in_app_iff. cbn. split; intros [?|Q]; auto; [destruct Q as [->|[]]; auto|injection Q as ->; auto].
  Qed.
  Lemma extend_NoDup acc c : NoDup acc -> NoDup (extend acc c).
  Proof.
    intros ND. unfold extend. destruct c as [k|]; auto. destruct (existsb (eqb k) acc) eqn:E; auto.
    apply HyperView.NoDup_app_intro; auto; [repeat constructor; auto|]. intros x I [<-|[]]. apply existsb_eqb_In in I. congruence.
  Qed.
  Lemma extend_length acc c : (length (extend acc c) <= S (length acc))%nat.
  Proof. unfold extend. destruct c; auto. destruct existsb; auto. rewrite app_length; cbn; lia. Qed.
  Lemma collect_eq cand m fuel i acc : @collect K _ cand m fuel i acc =
    if Z.of_nat (length acc) <? m then match fuel with O => None | S f => collect cand m f (S i) (extend acc (cand i)) end else Some acc.
  Proof. destruct fuel; reflexivity. Qed.
  Lemma collect_some cand m fuel : forall i acc l, collect cand m fuel i acc = Some l -> NoDup acc -> Z.of_nat (length acc) <= Z.max m 0 ->
    NoDup l /\ Z.of_nat (length l) = Z.max m 0 /\ (forall k, In k l -> In k acc \/ exists j, (i <= j)%nat /\ cand j = Some k).
  Proof.
    induction fuel as [|f IH]; intros i acc l E ND L; rewrite collect_eq in E; destruct (Z.of_nat (length acc) <? m) eqn:LT; try discriminate.
    - injection E as <-. apply Z.ltb_ge in LT. split; [auto|split; [lia|auto]].
    - apply Z.ltb_lt in LT. apply IH in E as (A & B & C).
      + split; [auto|split; [auto|]]. intros k I. apply C in I as [I|(j & J & Q)]; [|right; exists j; split; [lia|auto]].
        apply extend_In in I as [I|Q]; auto. right. exists i. auto.
      + apply extend_NoDup; auto.
      + pose proof (extend_length acc (cand i)). lia.
    - injection E as <-. apply Z.ltb_ge in LT. split; [auto|split; [lia|auto]].
  Qed.
  Lemma collect_none cand m fuel : forall i acc, collect cand m fuel i acc = None ->
    exists acc', Z.of_nat (length acc') < m /\ incl acc acc' /\ (forall j k, (i <= j < i + fuel)%nat -> cand j = Some k -> In k acc').
  Proof.
    induction fuel as [|f IH]; intros i acc E; rewrite collect_eq in E; destruct (Z.of_nat (length acc) <? m) eqn:LT; try discriminate; apply Z.ltb_lt in LT.
    - exists acc. split; auto. split; [apply incl_refl|]. intros; lia.
    - apply IH in E as (acc' & L & I & C). exists acc'. split; auto. split.
      + intros x J. apply I. apply extend_In. auto.
      + intros j k J Q. destruct (Nat.eq_dec j i) as [->|]; [|apply (C j); auto; lia]. apply I. apply extend_In. auto.
  Qed.
  (** the loop ends if and only if the rounds show enough different items *)
  Lemma collect_ends cand m : (exists fuel l, collect cand m fuel 0 [] = Some l) <->
    exists L, NoDup L /\ m <= Z.of_nat (length L) /\ forall k, In k L -> exists i, cand i = Some k.
  Proof.
    split.
    - intros (fuel & l & E). apply collect_some in E as (A & B & C); [|constructor|cbn; lia]. exists l. split; auto. split; [lia|].
      intros k I. apply C in I as [[]|(j & _ & Q)]. exists j. auto.
    - intros (L & ND & LE & F).
      assert (X : exists n, forall k, In k L -> exists i, (i < n)%nat /\ cand i = Some k).
      { clear ND LE. induction L as [|k L IH]; [exists 0%nat; intros ? []|]. destruct IH as (n & Q); [intros; apply F; right; auto|].
        destruct (F k (or_introl eq_refl)) as (i & E). exists (Nat.max n (S i)). intros x [<-|I].
        - exists i. split; [lia|auto].
        - apply Q in I as (j & J & E'). exists j. split; [lia|auto]. }
      destruct X as (n & Q). exists n. destruct (collect cand m n 0 []) as [l|] eqn:E; [exists l; auto|].
      apply collect_none in E as (acc' & LT & _ & C). assert (I : incl L acc').
      { intros k I. apply Q in I as (i & J & E). apply (C i); [lia|auto]. }
      apply NoDup_incl_length in I; auto. lia.
  Qed.
  Lemma collect_never cand m (U : list K) fuel : (forall i k, cand i = Some k -> In k U) -> Z.of_nat (length U) < m -> collect cand m fuel 0 [] = None.
  Proof.
    intros F L. destruct (collect cand m fuel 0 []) as [l|] eqn:E; auto. apply collect_some in E as (A & B & C); [|constructor|cbn; lia].
    assert (I : incl l U). { intros k I. apply C in I as [[]|(j & _ & Q)]. eauto. }
    apply NoDup_incl_length in I; auto. lia.
  Qed.
End CollectFacts.

(** * One draw per item *)
Lemma keep_In {A} rnd p extra (l : list A) : forall i x, In x (keep_below rnd p extra i l) <->
  exists j, nth_error l j = Some x /\ (rnd (i + j)%nat < p)%Q /\ extra x = true.
Proof.
  induction l as [|e l IH]; intros i x; cbn [keep_below].
  - split; [intros []|intros (j & E & _); destruct j; discriminate].
  - assert (Q0 : Qle_bool p (rnd i) = false <-> (rnd i < p)%Q).
    { split; intros E; [|destruct (Qle_bool p (rnd i)) eqn:B; auto; apply Qle_bool_iff in B; exfalso; apply (Qlt_not_le _ _ E); auto].
      apply Qnot_le_lt. intros B. apply Qle_bool_iff in B. congruence. }
    assert (ST : In x (keep_below rnd p extra (S i) l) <-> exists j, nth_error (e :: l) (S j) = Some x /\ (rnd (i + S j)%nat < p)%Q /\ extra x = true).
    { rewrite IH. split; intros (j & E); exists j; cbn in *; rewrite <- plus_n_Sm in *; exact E. }
    destruct (negb (Qle_bool p (rnd i)) && extra e) eqn:B.
    + apply andb_true_iff in B as [B1 B2]. apply negb_true_iff, Q0 in B1. cbn [In]. rewrite ST. split.
      * intros [<-|(j & E)]; [exists 0%nat; cbn; rewrite <- plus_n_O; auto|exists (S j); auto].
      * intros (j & E & F). destruct j as [|j]; [left; cbn in E; congruence|right; eauto].
    + rewrite ST. split; [intros (j & E); exists (S j); auto|]. intros (j & E & F1 & F2). destruct j as [|j]; [|eauto].
      exfalso. cbn in E. injection E as ->. rewrite <- plus_n_O in F1. apply Q0 in F1. rewrite F1, F2 in B. discriminate.
Qed.
Lemma keep_incl {A} rnd p extra (l : list A) i x : In x (keep_below rnd p extra i l) -> In x l.
Proof. rewrite keep_In. intros (j & E & _). eapply nth_error_In; eauto. Qed.
Lemma keep_NoDup {A} rnd p extra (l : list A) : forall i, NoDup l -> NoDup (keep_below rnd p extra i l).
Proof.
  induction l as [|e l IH]; intros i ND; cbn; [constructor|]. inversion ND; subst. destruct (_ && _); auto. constructor; auto. intros I. apply keep_incl in I. auto.
Qed.

(** a position in blocks of equal length *)
Lemma nth_error_blocks {A B} (f : A -> list B) c (l : list A) : (forall x, In x l -> length (f x) = c) ->
  forall i j x, nth_error l i = Some x -> (j < c)%nat -> nth_error (flat_map f l) (i * c + j) = nth_error (f x) j.
Proof.
  induction l as [|y l IH]; intros L i j x E J; [destruct i; discriminate|]. cbn [flat_map]. destruct i as [|i].
  - cbn in E. injection E as ->. cbn. rewrite nth_error_app1; auto. rewrite (L x) by (left; auto). auto.
  - cbn in E. rewrite nth_error_app2; rewrite (L y) by (left; auto); [|lia]. replace (S i * c + j - c)%nat with (i * c + j)%nat by lia.
    apply IH; auto. intros z I; apply L; right; auto.
Qed.
Lemma range_nth_error n k : 0 <= k < n -> nth_error (range n) (Z.to_nat k) = Some k.
Proof.
  intros L. unfold range. rewrite nth_error_map, (nth_error_nth' _ 0%nat) by (rewrite seq_length; lia). rewrite seq_nth by lia. cbn. f_equal. lia.
Qed.
Lemma others a : forall n, flat_map (fun b => if a =? b then [] else [(a, b)]) (range n) = map (pair a) (filter (fun b => negb (a =? b)) (range n)).
Proof. intros n. induction (range n) as [|b l IH]; cbn; auto. destruct (a =? b); cbn; rewrite IH; auto. Qed.
Lemma range_split n a : 0 <= a < n -> range n = range a ++ a :: map (fun i => i + (a + 1)) (range (n - a - 1)).
Proof.
  intros L. unfold range. replace (Z.to_nat n) with (Z.to_nat a + S (Z.to_nat (n - a - 1)))%nat by lia.
  rewrite seq_app, map_app. cbn [seq map]. f_equal. f_equal; [lia|]. rewrite map_map, <- seq_shift, map_map.
  replace (0 + Z.to_nat a)%nat with (Z.to_nat a) by lia.
  assert (G : forall k s, map (fun x => Z.of_nat (S x)) (seq s k) = map (fun x => Z.of_nat x + (Z.of_nat s + 1)) (seq 0 k)).
  { induction k as [|k IH]; intros s; auto. cbn [seq map]. f_equal; [lia|]. rewrite IH. rewrite <- seq_shift, map_map. apply map_ext. intros x. lia. }
  rewrite G. apply map_ext. intros x. lia.
Qed.
Lemma filter_all {A} (f : A -> bool) l : (forall x, In x l -> f x = true) -> filter f l = l.
Proof. induction l as [|a l IH]; cbn; intros F; auto. rewrite (F a) by auto. rewrite IH; auto. Qed.
Lemma others_eq n a : 0 <= a < n -> filter (fun b => negb (a =? b)) (range n) = range a ++ map (fun i => i + (a + 1)) (range (n - a - 1)).
Proof.
  intros L. rewrite (range_split L), filter_app. cbn [filter]. rewrite Z.eqb_refl. cbn [negb]. f_equal; apply filter_all; intros x I; apply negb_true_iff, Z.eqb_neq.
  - apply range_In in I. lia.
  - apply in_map_iff in I as (i & <- & I). apply range_In in I. lia.
Qed.
(** the number of an ordered pair in the list of all ordered pairs *)
Definition pair_no (n a b : Z) : nat := Z.to_nat (a * (n - 1) + (if b <? a then b else b - 1)).
Lemma permutations_nth n a b : 0 <= a < n -> 0 <= b < n -> a <> b -> nth_error (permutations2 n) (pair_no n a b) = Some (a, b).
Proof.
  intros A B NE. unfold pair_no. replace (Z.to_nat _) with (Z.to_nat a * Z.to_nat (n - 1) + Z.to_nat (if (b <? a)%Z then b else (b - 1)%Z))%nat.
  2:{ destruct (b <? a) eqn:E; [apply Z.ltb_lt in E|apply Z.ltb_ge in E]; rewrite Z2Nat.inj_add, Z2Nat.inj_mul; nia. }
  unfold permutations2. erewrite nth_error_blocks; [|intros x I; apply range_In in I; rewrite others, map_length, others_eq, app_length, map_length, !range_length by auto; lia|apply range_nth_error; auto|].
  2:{ destruct (b <? a) eqn:E; [apply Z.ltb_lt in E|apply Z.ltb_ge in E]; lia. }
  rewrite others, others_eq, nth_error_map by auto. destruct (b <? a) eqn:E; [apply Z.ltb_lt in E|apply Z.ltb_ge in E].
  - rewrite nth_error_app1 by (rewrite range_length; lia). rewrite range_nth_error by lia. reflexivity.
  - rewrite nth_error_app2 by (rewrite range_length; lia). rewrite range_length, nth_error_map. replace (Z.to_nat (b - 1) - Z.to_nat a)%nat with (Z.to_nat (b - 1 - a)) by lia.
    rewrite range_nth_error by lia. cbn. do 2 f_equal. lia.
Qed.
Lemma permutations_In n a b : In (a, b) (permutations2 n) <-> 0 <= a < n /\ 0 <= b < n /\ a <> b.
Proof.
  unfold permutations2. rewrite in_flat_map. split.
  - intros (x & X & I). rewrite others in I. apply in_map_iff in I as (y & E & I). apply filter_In in I as [I Q]. apply negb_true_iff, Z.eqb_neq in Q. apply range_In in X, I. injection E as <- <-. auto.
  - intros (A & B & NE). exists a. rewrite range_In. split; auto. rewrite others. apply in_map_iff. exists b. split; auto. apply filter_In. rewrite range_In, negb_true_iff, Z.eqb_neq. auto.
Qed.
Lemma NoDup_flat {A B} (f : A -> list B) l : NoDup l -> (forall x, In x l -> NoDup (f x)) -> (forall x y z, In x l -> In y l -> In z (f x) -> In z (f y) -> x = y) -> NoDup (flat_map f l).
Proof.
  induction l as [|a l IH]; intros ND F D; cbn; [constructor|]. inversion ND; subst. apply HyperView.NoDup_app_intro.
  - apply F; left; auto.
  - apply IH; auto; intros; [apply F; right; auto|eapply D; eauto; right; auto].
  - intros z I J. apply in_flat_map in J as (y & Y & J). assert (a = y) by (eapply D; eauto; [left|right]; auto). subst; auto.
Qed.
Lemma permutations_NoDup n : NoDup (permutations2 n).
Proof.
  unfold permutations2. apply NoDup_flat; [apply range_NoDup| |].
  - intros a _. rewrite others. apply FinFun.Injective_map_NoDup; [intros x y E; congruence|]. apply NoDup_filter, range_NoDup.
  - intros x y z _ _. rewrite !others, !in_map_iff. intros (b & <- & _) (c & E & _). congruence.
Qed.
Lemma product_nth nu nv u v : 0 <= u < nu -> 0 <= v < nv -> nth_error (product nu nv) (Z.to_nat (u * nv + v)) = Some (u, v).
Proof.
  intros U V. rewrite Z2Nat.inj_add, Z2Nat.inj_mul by nia. unfold product.
  erewrite nth_error_blocks; [|intros x I; rewrite map_length, range_length; reflexivity|apply range_nth_error; auto|lia].
  rewrite nth_error_map, range_nth_error by auto. reflexivity.
Qed.
Lemma product_In nu nv u v : In (u, v) (product nu nv) <-> 0 <= u < nu /\ 0 <= v < nv.
Proof.
  unfold product. rewrite in_flat_map. split.
  - intros (x & X & I). apply in_map_iff in I as (y & E & I). injection E as <- <-. apply range_In in X, I. auto.
  - intros (U & V). exists u. rewrite range_In. split; auto. apply in_map_iff. exists v. rewrite range_In. auto.
Qed.
Lemma product_NoDup nu nv : NoDup (product nu nv).
Proof.
  unfold product. apply NoDup_flat; [apply range_NoDup| |].
  - intros a _. apply FinFun.Injective_map_NoDup; [intros x y E; congruence|apply range_NoDup].
  - intros x y z _ _. rewrite !in_map_iff. intros (b & <- & _) (c & E & _). congruence.
Qed.
Lemma nth_error_NoDup {A} (l : list A) i j x : NoDup l -> nth_error l i = Some x -> nth_error l j = Some x -> i = j.
Proof.
  intros ND E1 E2. eapply NoDup_nth_error; eauto; [apply nth_error_Some; congruence|congruence].
Qed.

(** * Subsets of given size *)
Lemma combinations_eq {A} (l : list A) : forall k, combinations k l = subsets k l.
Proof. induction l as [|x l IH]; intros [|k]; cbn; auto. Qed.
Lemma range_sorted n : StronglySorted Z.lt (range n).
Proof.
  unfold range. generalize 0%nat. induction (Z.to_nat n) as [|k IH]; intros s; cbn [seq map]; constructor; auto.
  apply Forall_forall. intros x I. apply in_map_iff in I as (y & <- & I). apply in_seq in I. lia.
Qed.
Lemma subsets_In l : StronglySorted Z.lt l -> forall k e, In e (subsets k l) <-> StronglySorted Z.lt e /\ length e = k /\ incl e l.
Proof.
  induction 1 as [|x l S IH F]; intros [|k] e; cbn [subsets].
  - cbn. split; [intros [<-|[]]; repeat split; auto using incl_refl; constructor|intros (_ & L & _); destruct e; [auto|discriminate]].
  - cbn. split; [tauto|]. intros (_ & L & I). destruct e as [|y e]; [discriminate|]. destruct (I y); left; auto.
  - cbn. split; [intros [<-|[]]; repeat split; auto using incl_nil_l; constructor|intros (_ & L & _); destruct e; [auto|discriminate]].
  - rewrite in_app_iff, in_map_iff, IH. rewrite Forall_forall in F. split.
    + intros [(e' & <- & I)|(A & B & C)].
      * apply IH in I as (A & B & C). split; [|split; [cbn; auto|intros y [<-|J]; [left; auto|right; auto]]]. constructor; auto. apply Forall_forall. intros y J. apply F, C; auto.
      * split; [auto|split; auto]. intros y J; right; auto.
    + intros (A & B & C). destruct e as [|y e]; [discriminate|]. inversion A as [|? ? A1 A2]; subst. rewrite Forall_forall in A2.
      assert (SUB : forall z, In z e -> In z l). { intros z J. destruct (C z (or_intror J)) as [<-|]; auto. exfalso. specialize (A2 x J). destruct (C y (or_introl eq_refl)) as [<-|K]; [lia|]. apply F in K. lia. }
      destruct (C y (or_introl eq_refl)) as [->|Y].
      * left. exists e. split; auto. apply IH. cbn in B. repeat split; auto.
      * right. split; [auto|split; auto]. intros z [<-|J]; auto.
Qed.
Lemma subsets_NoDup {A} (l : list A) : NoDup l -> forall k, NoDup (subsets k l).
Proof.
  induction 1 as [|x l NI ND IH]; intros [|k]; cbn; try (repeat constructor; auto; fail).
  apply HyperView.NoDup_app_intro; auto.
  - apply FinFun.Injective_map_NoDup; auto. intros a b E; congruence.
  - intros e I J. apply in_map_iff in I as (e' & <- & _). apply NI. clear - J. 
    assert (G : forall m e, In e (subsets m l) -> incl e l).
    { clear. induction l as [|y l IH]; intros [|m] e; cbn; [intros [<-|[]]; apply incl_refl|tauto|intros [<-|[]]; apply incl_nil_l|].
      rewrite in_app_iff, in_map_iff. intros [(e' & <- & I)|I]; [apply IH in I|apply IH in I]; intros z J; [destruct J as [<-|J]; [left; auto|right; auto]|right; auto]. }
    apply G in J. apply J. left; auto.
Qed.
Lemma sample_subset nv k l : NoDup l -> length l = k -> (forall x, In x l -> 0 <= x < nv) -> In (zsort l) (subsets k (range nv)).
Proof.
  intros ND L B. apply subsets_In; [apply range_sorted|]. pose proof (zsort_perm l) as P. split; [|split].
  - apply SS_le_lt; [apply zsort_sorted|]. eapply Permutation_NoDup; [symmetry; exact P|auto].
  - rewrite (Permutation_length P). auto.
  - intros x I. apply range_In, B. eapply Permutation_in; [exact P|auto].
Qed.
(** number of subsets with at least two elements *)
Fixpoint powerset {A} (l : list A) : list (list A) :=
  match l with [] => [[]] | x :: r => map (cons x) (powerset r) ++ powerset r end.
Definition big {A} (e : list A) : bool := Nat.leb 2 (length e).
Lemma powerset_In {A} (l : list A) : forall k e, In e (subsets k l) -> In e (powerset l).
Proof.
  assert (N0 : forall l : list A, In [] (powerset l)) by (induction l0 as [|x r IH]; cbn; [auto|apply in_app_iff; auto]).
  induction l as [|x l IH]; intros [|k] e; cbn [subsets powerset].
  - intros [<-|[]]; left; auto.
  - intros [].
  - intros [<-|[]]. apply in_app_iff; auto.
  - rewrite !in_app_iff, !in_map_iff. intros [(e' & <- & I)|I]; [left; exists e'; split; eauto|right; eauto].
Qed.
Lemma powerset_count {A} (l : list A) : let n := length l in
  length (filter (fun e => Nat.eqb (length e) 0) (powerset l)) = 1%nat /\ length (filter (fun e => Nat.leb 1 (length e)) (powerset l)) = (2 ^ n - 1)%nat /\
  length (filter big (powerset l)) = (2 ^ n - 1 - n)%nat.
Proof.
  assert (P : forall l : list A, length (powerset l) = (2 ^ length l)%nat).
  { induction l0 as [|x r IH]; cbn; auto. rewrite app_length, map_length, IH. lia. }
  induction l as [|x l IH]; cbn zeta; [repeat split; reflexivity|]. destruct IH as (A0 & A1 & A2). cbn [powerset length].
  assert (M : forall (f : list A -> bool) L, length (filter f (map (cons x) L)) = length (filter (fun e => f (x :: e)) L)).
  { intros f L. induction L as [|e L IH]; cbn; auto. destruct (f (x :: e)); cbn; rewrite IH; auto. }
  assert (T1 : forall L : list (list A), length (filter (fun e => true) L) = length L) by (induction L as [|e L IH]; cbn; auto).
  cbn zeta in A0, A1, A2. pose proof (P l) as PL. pose proof (Nat.pow_gt_lin_r 2 (length l)) as G.
  assert (Z0 : filter (fun _ : list A => false) (powerset l) = []) by (clear; induction (powerset l); cbn; auto).
  rewrite !filter_app, !app_length, !M. cbn [Nat.pow]. split; [|split].
  - transitivity (length (filter (fun _ : list A => false) (powerset l)) + 1)%nat; [rewrite <- A0; reflexivity|]. rewrite Z0. reflexivity.
  - transitivity (length (filter (fun _ : list A => true) (powerset l)) + (2 ^ length l - 1))%nat; [rewrite <- A1; reflexivity|]. rewrite T1. lia.
  - transitivity ((2 ^ length l - 1) + (2 ^ length l - 1 - length l))%nat; [rewrite <- A2, <- A1; reflexivity|]. lia.
Qed.

(** * Numbers of pairs *)
Definition und_pairs (n : Z) : list (Z * Z) := flat_map (fun b => map (fun a => (a, b)) (range b)) (range n).
Lemma und_pairs_In n a b : In (a, b) (und_pairs n) <-> 0 <= a < b /\ b < n.
Proof.
  unfold und_pairs. rewrite in_flat_map. split.
  - intros (x & X & I). apply in_map_iff in I as (y & E & I). injection E as <- <-. apply range_In in X, I. lia.
  - intros (A & B). exists b. rewrite range_In. split; [lia|]. apply in_map_iff. exists a. rewrite range_In. split; auto. 
Qed.
Lemma und_pairs_NoDup n : NoDup (und_pairs n).
Proof.
  unfold und_pairs. apply NoDup_flat; [apply range_NoDup| |].
  - intros a _. apply FinFun.Injective_map_NoDup; [intros x y E; congruence|apply range_NoDup].
  - intros x y z _ _. rewrite !in_map_iff. intros (b & <- & _) (c & E & _). congruence.
Qed.
Lemma range_S n : range (Z.of_nat (S n)) = range (Z.of_nat n) ++ [Z.of_nat n].
Proof. unfold range. rewrite !Nat2Z.id, seq_S, map_app. reflexivity. Qed.
Lemma und_pairs_length n : 0 <= n -> Z.of_nat (length (und_pairs n)) = n * (n - 1) / 2.
Proof.
  intros P. replace n with (Z.of_nat (Z.to_nat n)) by lia. induction (Z.to_nat n) as [|k IH]; [reflexivity|].
  unfold und_pairs in *. rewrite range_S, flat_map_app, app_length. cbn [flat_map]. rewrite app_nil_r, map_length, range_length, Nat2Z.id.
  rewrite Nat2Z.inj_add, IH. replace (Z.of_nat (S k) * (Z.of_nat (S k) - 1)) with (Z.of_nat k * (Z.of_nat k - 1) + Z.of_nat k * 2) by nia.
  rewrite Z.div_add by lia. reflexivity.
Qed.
Lemma blocks_length {A B} (f : A -> list B) c l : (forall x, In x l -> length (f x) = c) -> length (flat_map f l) = (length l * c)%nat.
Proof. induction l as [|x l IH]; intros F; cbn; auto. rewrite app_length, IH, (F x); auto; [left; auto|intros; apply F; right; auto]. Qed.
Lemma permutations_length n : 1 <= n -> Z.of_nat (length (permutations2 n)) = n * (n - 1).
Proof.
  intros P. unfold permutations2. rewrite (@blocks_length _ _ _ (Z.to_nat (n - 1))); [rewrite range_length; nia|].
  intros x I; apply range_In in I; rewrite others, map_length, others_eq, app_length, map_length, !range_length by auto; lia.
Qed.
Lemma product_length nu nv : 0 <= nu -> 0 <= nv -> Z.of_nat (length (product nu nv)) = nu * nv.
Proof.
  intros P Q. unfold product. rewrite (@blocks_length _ _ _ (Z.to_nat nv)); [rewrite range_length; nia|]. intros x I. rewrite map_length, range_length. auto.
Qed.
Lemma collect_mono {K} `{EqB K} cand m fuel : forall fuel' i (acc l : list K), collect cand m fuel i acc = Some l -> (fuel <= fuel')%nat -> collect cand m fuel' i acc = Some l.
Proof.
  induction fuel as [|f IH]; intros fuel' i acc l E L; rewrite collect_eq in *; destruct (_ <? m); auto; try discriminate.
  destruct fuel' as [|f']; [lia|]. apply IH; auto. lia.
Qed.

(** the rounds of the three pair generators *)
Lemma cand_und_some ch i a b : cand_und ch i = Some (a, b) <-> a < b /\ ((ch (2 * i)%nat = a /\ ch (2 * i + 1)%nat = b) \/ (ch (2 * i)%nat = b /\ ch (2 * i + 1)%nat = a)).
Proof.
  unfold cand_und. set (v := ch (2 * i)%nat). set (w := ch (2 * i + 1)%nat). destruct (w <? v) eqn:L; [apply Z.ltb_lt in L|apply Z.ltb_ge in L].
  - replace (w =? v) with false by (symmetry; apply Z.eqb_neq; lia). split; [intros E; injection E as <- <-; lia|]. intros (A & [[]|[]]); subst a b; [lia|reflexivity].
  - destruct (v =? w) eqn:E; [apply Z.eqb_eq in E; split; [discriminate|lia]|apply Z.eqb_neq in E]. split; [intros Q; injection Q as <- <-; lia|]. intros (A & [[]|[]]); subst a b; [reflexivity|lia].
Qed.
Lemma cand_dir_some ch i a b : cand_dir ch i = Some (a, b) <-> a <> b /\ ch (2 * i)%nat = a /\ ch (2 * i + 1)%nat = b.
Proof.
  unfold cand_dir. destruct (_ =? _) eqn:E; [apply Z.eqb_eq in E|apply Z.eqb_neq in E]; (split; [intros Q; try discriminate; injection Q as <- <-; auto|intros (A & <- & <-); auto; congruence]).
Qed.
