(** Properties C49-C52 and C98-C100: the random generators of dhg/random. *)
From Coq Require Import String Reals Lra QArith Qcanon Permutation Sorting.Sorted.
From Verif Require Import Num PyDict PyDictFacts ModelBase ModelGraph ModelDiGraph ModelBiGraph ModelHyper ModelConv ModelUtils ModelRandom.
From Verif Require Import SpecUtils SpecRandom UtilFacts SplitFacts RebuildFacts HyperStore ConvFacts BinomFacts RandomFacts SkipFacts.
Set Implicit Arguments.
Local Open Scope list_scope.
Local Open Scope Z_scope.

Ltac ltb := repeat match goal with
  | |- context [?a <? ?b] => replace (a <? b) with true by (symmetry; apply Z.ltb_lt; lia)
  | |- context [?a <=? ?b] => replace (a <=? b) with true by (symmetry; apply Z.leb_le; lia)
  end.
Ltac ltb_in E := repeat match type of E with
  | context [?a <? ?b] => replace (a <? b) with true in E by (symmetry; apply Z.ltb_lt; lia)
  | context [?a <=? ?b] => replace (a <=? b) with true in E by (symmetry; apply Z.leb_le; lia)
  end.
Lemma norm_pairs l : Forall (fun e => fst e < snd e) l -> map norm_und l = l.
Proof. induction 1 as [|[a b] l L F IH]; cbn; auto. cbn in L. unfold norm_und at 1; cbn. replace (b <? a) with false by (symmetry; apply Z.ltb_ge; lia). rewrite IH; auto. Qed.
Lemma ord_NoDup {A} (ord : list A -> list A) l : any_order ord -> NoDup l -> NoDup (ord l).
Proof. intros O ND. eapply Permutation_NoDup; [symmetry; apply O|auto]. Qed.
Lemma ord_length {A} (ord : list A -> list A) l : any_order ord -> length (ord l) = length l.
Proof. intros O. apply Permutation_length, O. Qed.
Lemma ord_In {A} (ord : list A -> list A) l x : any_order ord -> In x (ord l) <-> In x l.
Proof. intros O. split; apply Permutation_in; [|symmetry]; apply O. Qed.
Lemma ones_length {T} `{Num T} {A} (l l' : list A) : length l = length l' -> map (fun _ => n1) l = map (fun _ => @n1 T _) l'.
Proof. revert l'. induction l as [|a l IH]; intros [|b l'] E; try discriminate; cbn; auto. f_equal. apply IH. cbn in E; lia. Qed.

Section C49.
  Context {T : Type} `{N : Num T}.
  (** C49, Graph: what is returned.  [fuel] rounds are enough, and more rounds change nothing. *)
  Theorem C49_graph nv m ch ord fuel r : 1 < nv -> m < nv * (nv - 1) / 2 -> draws_below nv ch -> any_order ord ->
    graph_Gnm nv m ch ord fuel = Some r ->
    exists (g : graph T) es, r = Ok g /\ snd (g_query QE g) = Ok (OE es (map (fun _ => n1) es)) /\
      NoDup es /\ Z.of_nat (length es) = Z.max m 0 /\ (forall a b, In (a, b) es -> 0 <= a < b /\ b < nv) /\
      forall fuel', (fuel <= fuel')%nat -> graph_Gnm nv m ch ord fuel' = Some r.
  Proof.
    intros V M D O E. unfold graph_Gnm in E. ltb_in E. cbn [andb] in E. destruct (collect (cand_und ch) m fuel 0 []) as [l|] eqn:C; [|discriminate]. injection E as E.
    destruct (collect_some _ _ _ _ C) as (ND & L & F); [constructor|cbn; lia|].
    assert (B : forall a b, In (a, b) (ord l) -> 0 <= a < b /\ b < nv).
    { intros a b I. apply ord_In in I; auto. apply F in I as [[]|(j & _ & Q)]. apply cand_und_some in Q as (Q1 & Q2). pose proof (D (2 * j)%nat). pose proof (D (2 * j + 1)%nat). lia. }
    assert (NP : map norm_und (ord l) = ord l). { apply norm_pairs. apply Forall_forall. intros [a b] I. apply B in I. cbn. lia. }
    destruct (@g_new_set T N nv (ord l)) as (g & G & Q); [lia|rewrite NP; apply ord_NoDup; auto|apply Forall_forall; intros [a b] I; apply B in I; cbn; lia|].
    exists g, (ord l). rewrite NP in Q. split; [congruence|]. split; auto. split; [apply ord_NoDup; auto|]. split; [rewrite ord_length; auto|]. split; auto.
    intros fuel' LE. unfold graph_Gnm. ltb. cbn [andb]. erewrite collect_mono; [|exact C|exact LE]. congruence.
  Qed.
  (** it returns exactly for the streams that draw enough different pairs *)
  Theorem C49_graph_ends nv m ch ord : 1 < nv -> m < nv * (nv - 1) / 2 ->
    ((exists fuel r, @graph_Gnm T N nv m ch ord fuel = Some r) <->
     exists L, NoDup L /\ m <= Z.of_nat (length L) /\ forall a b, In (a, b) L -> a < b /\
       exists i, (ch (2 * i)%nat = a /\ ch (2 * i + 1)%nat = b) \/ (ch (2 * i)%nat = b /\ ch (2 * i + 1)%nat = a)).
  Proof.
    intros V M. transitivity (exists fuel l, collect (cand_und ch) m fuel 0 [] = Some l).
    - unfold graph_Gnm. ltb. cbn [andb]. split; intros (fuel & r & E); exists fuel; destruct (collect (cand_und ch) m fuel 0 []) as [l|]; try discriminate; eauto.
    - rewrite collect_ends. split; intros (L & ND & LE & F); exists L; (split; [auto|split; [auto|]]).
      + intros a b I. destruct (F _ I) as (i & Q). apply cand_und_some in Q as (Q1 & Q2). split; eauto.
      + intros [a b] I. destruct (F _ _ I) as (Q1 & i & Q2). exists i. apply cand_und_some. auto.
  Qed.
  Theorem C49_graph_possible nv m ch ord : 1 < nv -> m < nv * (nv - 1) / 2 ->
    (forall a b, 0 <= a < b -> b < nv -> exists i, (ch (2 * i)%nat = a /\ ch (2 * i + 1)%nat = b) \/ (ch (2 * i)%nat = b /\ ch (2 * i + 1)%nat = a)) ->
    exists fuel r, @graph_Gnm T N nv m ch ord fuel = Some r.
  Proof.
    intros V M F. apply C49_graph_ends; auto. exists (und_pairs nv). split; [apply und_pairs_NoDup|]. split; [rewrite und_pairs_length; lia|].
    intros a b I. apply und_pairs_In in I as [A B]. split; [lia|]. auto.
  Qed.

  Theorem C49_digraph nv m ch ord fuel r : 1 < nv -> m < nv * (nv - 1) -> draws_below nv ch -> any_order ord ->
    digraph_Gnm nv m ch ord fuel = Some r ->
    exists (g : digraph T) es, r = Ok g /\ snd (d_query dqE g) = Ok (OE es (map (fun _ => n1) es)) /\
      NoDup es /\ Z.of_nat (length es) = Z.max m 0 /\ (forall a b, In (a, b) es -> 0 <= a < nv /\ 0 <= b < nv /\ a <> b) /\
      forall fuel', (fuel <= fuel')%nat -> digraph_Gnm nv m ch ord fuel' = Some r.
  Proof.
    intros V M D O E. unfold digraph_Gnm in E. ltb_in E. cbn [andb] in E. destruct (collect (cand_dir ch) m fuel 0 []) as [l|] eqn:C; [|discriminate]. injection E as E.
    destruct (collect_some _ _ _ _ C) as (ND & L & F); [constructor|cbn; lia|].
    assert (B : forall a b, In (a, b) (ord l) -> 0 <= a < nv /\ 0 <= b < nv /\ a <> b).
    { intros a b I. apply ord_In in I; auto. apply F in I as [[]|(j & _ & Q)]. apply cand_dir_some in Q as (Q1 & Q2 & Q3). pose proof (D (2 * j)%nat). pose proof (D (2 * j + 1)%nat). lia. }
    destruct (@d_new_set T N nv (ord l)) as (g & G & Q); [lia|apply ord_NoDup; auto|apply Forall_forall; intros [a b] I; apply B in I; cbn; lia|].
    exists g, (ord l). split; [congruence|]. split; auto. split; [apply ord_NoDup; auto|]. split; [rewrite ord_length; auto|]. split; auto.
    intros fuel' LE. unfold digraph_Gnm. ltb. cbn [andb]. erewrite collect_mono; [|exact C|exact LE]. congruence.
  Qed.
  Theorem C49_digraph_ends nv m ch ord : 1 < nv -> m < nv * (nv - 1) ->
    ((exists fuel r, @digraph_Gnm T N nv m ch ord fuel = Some r) <->
     exists L, NoDup L /\ m <= Z.of_nat (length L) /\ forall a b, In (a, b) L -> a <> b /\ exists i, ch (2 * i)%nat = a /\ ch (2 * i + 1)%nat = b).
  Proof.
    intros V M. transitivity (exists fuel l, collect (cand_dir ch) m fuel 0 [] = Some l).
    - unfold digraph_Gnm. ltb. cbn [andb]. split; intros (fuel & r & E); exists fuel; destruct (collect (cand_dir ch) m fuel 0 []) as [l|]; try discriminate; eauto.
    - rewrite collect_ends. split; intros (L & ND & LE & F); exists L; (split; [auto|split; [auto|]]).
      + intros a b I. destruct (F _ I) as (i & Q). apply cand_dir_some in Q as (Q1 & Q2). split; eauto.
      + intros [a b] I. destruct (F _ _ I) as (Q1 & i & Q2). exists i. apply cand_dir_some. auto.
  Qed.
  Theorem C49_digraph_possible nv m ch ord : 1 < nv -> m < nv * (nv - 1) ->
    (forall a b, 0 <= a < nv -> 0 <= b < nv -> a <> b -> exists i, ch (2 * i)%nat = a /\ ch (2 * i + 1)%nat = b) ->
    exists fuel r, @digraph_Gnm T N nv m ch ord fuel = Some r.
  Proof.
    intros V M F. apply C49_digraph_ends; auto. exists (permutations2 nv). split; [apply permutations_NoDup|]. split; [rewrite permutations_length; lia|].
    intros a b I. apply permutations_In in I as (A & B & NE). auto.
  Qed.

  Theorem C49_bigraph nu nv m ch ord fuel r : 1 < nu -> 1 < nv -> m <= nu * nv ->
    (forall i, 0 <= ch (2 * i)%nat < nu /\ 0 <= ch (2 * i + 1)%nat < nv) -> any_order ord ->
    bigraph_Gnm nu nv m ch ord fuel = Some r ->
    exists (g : bigraph T) es, r = Ok g /\ snd (b_query bqE g) = Ok (OE es (map (fun _ => n1) es)) /\
      NoDup es /\ Z.of_nat (length es) = Z.max m 0 /\ (forall u v, In (u, v) es -> 0 <= u < nu /\ 0 <= v < nv) /\
      forall fuel', (fuel <= fuel')%nat -> bigraph_Gnm nu nv m ch ord fuel' = Some r.
  Proof.
    intros U V M D O E. unfold bigraph_Gnm in E. ltb_in E. cbn [andb] in E. destruct (collect (cand_bip ch) m fuel 0 []) as [l|] eqn:C; [|discriminate]. injection E as E.
    destruct (collect_some _ _ _ _ C) as (ND & L & F); [constructor|cbn; lia|].
    assert (B : forall a b, In (a, b) (ord l) -> 0 <= a < nu /\ 0 <= b < nv).
    { intros a b I. apply ord_In in I; auto. apply F in I as [[]|(j & _ & Q)]. unfold cand_bip in Q. injection Q as <- <-. apply D. }
    destruct (@b_new_set T N nu nv (ord l)) as (g & G & Q); [lia|apply ord_NoDup; auto|apply Forall_forall; intros [a b] I; apply B in I; cbn; lia|].
    exists g, (ord l). split; [congruence|]. split; auto. split; [apply ord_NoDup; auto|]. split; [rewrite ord_length; auto|]. split; auto.
    intros fuel' LE. unfold bigraph_Gnm. ltb. cbn [andb]. erewrite collect_mono; [|exact C|exact LE]. congruence.
  Qed.
  Theorem C49_bigraph_ends nu nv m ch ord : 1 < nu -> 1 < nv -> m <= nu * nv ->
    ((exists fuel r, @bigraph_Gnm T N nu nv m ch ord fuel = Some r) <->
     exists L, NoDup L /\ m <= Z.of_nat (length L) /\ forall u v, In (u, v) L -> exists i, ch (2 * i)%nat = u /\ ch (2 * i + 1)%nat = v).
  Proof.
    intros U V M. transitivity (exists fuel l, collect (cand_bip ch) m fuel 0 [] = Some l).
    - unfold bigraph_Gnm. ltb. cbn [andb]. split; intros (fuel & r & E); exists fuel; destruct (collect (cand_bip ch) m fuel 0 []) as [l|]; try discriminate; eauto.
    - rewrite collect_ends. split; intros (L & ND & LE & F); exists L; (split; [auto|split; [auto|]]).
      + intros a b I. destruct (F _ I) as (i & Q). unfold cand_bip in Q. injection Q as <- <-. exists i; split; reflexivity.
      + intros [a b] I. destruct (F _ _ I) as (i & <- & <-). exists i. reflexivity.
  Qed.
  Theorem C49_bigraph_possible nu nv m ch ord : 1 < nu -> 1 < nv -> m <= nu * nv ->
    (forall u v, 0 <= u < nu -> 0 <= v < nv -> exists i, ch (2 * i)%nat = u /\ ch (2 * i + 1)%nat = v) ->
    exists fuel r, @bigraph_Gnm T N nu nv m ch ord fuel = Some r.
  Proof.
    intros U V M F. apply C49_bigraph_ends; auto. exists (product nu nv). split; [apply product_NoDup|]. split; [rewrite product_length; lia|].
    intros a b I. apply product_In in I as (A & B). auto.
  Qed.

  (** C98: the number of edges of the complete graph is refused, although the structure with that many edges exists *)
  Theorem C98_graph_actual nv ch ord fuel : 1 < nv ->
    @graph_Gnm T N nv (nv * (nv - 1) / 2) ch ord fuel = Some (Err AssertionError) /\
    exists (g : graph T) es, g_new nv (Some (EMany es)) WNone false MMean = Ok g /\ snd (g_query QE g) = Ok (OE es (map (fun _ => n1) es)) /\
      NoDup es /\ Z.of_nat (length es) = nv * (nv - 1) / 2.
  Proof.
    intros V. split.
    - unfold graph_Gnm. rewrite Z.ltb_irrefl, andb_false_r. reflexivity.
    - assert (NP : map norm_und (und_pairs nv) = und_pairs nv). { apply norm_pairs. apply Forall_forall. intros [a b] I. apply und_pairs_In in I. cbn. lia. }
      destruct (@g_new_set T N nv (und_pairs nv)) as (g & G & Q); [lia|rewrite NP; apply und_pairs_NoDup|apply Forall_forall; intros [a b] I; apply und_pairs_In in I; cbn; lia|].
      rewrite NP in Q. exists g, (und_pairs nv). split; auto. split; auto. split; [apply und_pairs_NoDup|apply und_pairs_length; lia].
  Qed.
  Theorem C98_digraph_actual nv ch ord fuel : 1 < nv ->
    @digraph_Gnm T N nv (nv * (nv - 1)) ch ord fuel = Some (Err AssertionError) /\
    exists (g : digraph T) es, d_new nv (Some (EMany es)) WNone false MMean = Ok g /\ snd (d_query dqE g) = Ok (OE es (map (fun _ => n1) es)) /\
      NoDup es /\ Z.of_nat (length es) = nv * (nv - 1) /\ forall a, ~ In (a, a) es.
  Proof.
    intros V. split.
    - unfold digraph_Gnm. rewrite Z.ltb_irrefl, andb_false_r. reflexivity.
    - destruct (@d_new_set T N nv (permutations2 nv)) as (g & G & Q); [lia|apply permutations_NoDup|apply Forall_forall; intros [a b] I; apply permutations_In in I; cbn; lia|].
      exists g, (permutations2 nv). split; auto. split; auto. split; [apply permutations_NoDup|]. split; [apply permutations_length; lia|]. intros a I. apply permutations_In in I. lia.
  Qed.
End C49.

(** the hypotheses are met: a stream that draws 0,1 then 1,1 then 2,1 then 0,1 again then 2,0 gives two edges of three
    after three rounds, three of four for the directed graph after five *)
Definition stream1 (i : nat) : Z := nth i [0; 1; 1; 1; 2; 1; 0; 1; 2; 0] 0.
Example C49_graph_case : exists g, @graph_Gnm Qc _ 3 2 stream1 (@rev _) 2 = None /\ @graph_Gnm Qc _ 3 2 stream1 (@rev _) 3 = Some (Ok g) /\
  snd (g_query QE g) = Ok (OE [(1, 2); (0, 1)] [n1; n1]).
Proof. eexists. split; [reflexivity|]. split; reflexivity. Qed.
Example C49_digraph_case : exists g, @digraph_Gnm Qc _ 3 3 stream1 (fun l => l) 5 = Some (Ok g) /\
  snd (d_query dqE g) = Ok (OE [(0, 1); (2, 1); (2, 0)] [n1; n1; n1]).
Proof. eexists. split; reflexivity. Qed.
Example C49_bigraph_case : exists g, @bigraph_Gnm Qc _ 3 2 3 stream1 (fun l => l) 5 = Some (Ok g) /\
  snd (b_query bqE g) = Ok (OE [(0, 1); (1, 1); (2, 1)] [n1; n1; n1]).
Proof. eexists. split; reflexivity. Qed.
Example C49_stream_ok : draws_below 3 stream1 /\ any_order (@rev (Z * Z)) /\ (forall i, 0 <= stream1 (2 * i)%nat < 3 /\ 0 <= stream1 (2 * i + 1)%nat < 2).
Proof.
  assert (D : forall i, (i < 10)%nat \/ stream1 i = 0) by (intros i; destruct (le_lt_dec 10 i); auto; right; apply nth_overflow; cbn; lia).
  split; [|split].
  - intros i. destruct (D i) as [L| ->]; [|lia]. do 10 (destruct i as [|i]; [cbn; lia|]). lia.
  - intros l. symmetry. apply Permutation_rev.
  - intros i. destruct (le_lt_dec 5 i) as [L|L].
    + destruct (D (2 * i)%nat) as [?| ->]; [lia|]. destruct (D (2 * i + 1)%nat) as [?| ->]; lia.
    + do 5 (destruct i as [|i]; [cbn; lia|]). lia.
Qed.

(** * C50 *)
Section C50.
  Context {T : Type} `{N : Num T}.
  Lemma prob_ok_iff p : prob_ok p = true <-> (0 <= p /\ p <= 1)%Q.
  Proof. unfold prob_ok. rewrite andb_true_iff, !Qle_bool_iff. reflexivity. Qed.
  (** C50: an edge is there exactly when its own draw is below [prob] *)
  Theorem C50_graph nv p rnd : 1 < nv -> (0 <= p /\ p <= 1)%Q -> exists (g : graph T) es,
    graph_Gnp nv p rnd = Ok g /\ snd (g_query QE g) = Ok (OE es (map (fun _ => n1) es)) /\ NoDup es /\
    forall a b, In (a, b) es <-> (0 <= a < b /\ b < nv) /\ (rnd (Z.to_nat (a * (nv - 1) + (b - 1))) < p)%Q.
  Proof.
    intros V P. unfold graph_Gnp. apply prob_ok_iff in P. rewrite P. replace (1 <? nv) with true by (symmetry; apply Z.ltb_lt; lia). cbn [andb].
    set (es := keep_below rnd p (fun e => fst e <? snd e) 0 (permutations2 nv)).
    assert (M : forall a b, In (a, b) es <-> (0 <= a < b /\ b < nv) /\ (rnd (Z.to_nat (a * (nv - 1) + (b - 1))) < p)%Q).
    { intros a b. unfold es. rewrite keep_In. cbn [fst snd]. split.
      - intros (j & E & R & L). apply Z.ltb_lt in L. cbn [Nat.add] in R. pose proof (nth_error_In _ _ E) as I. apply permutations_In in I as (A & B & NE).
        rewrite (nth_error_NoDup _ _ (permutations_NoDup nv) E (permutations_nth A B NE)) in R. unfold pair_no in R.
        replace (b <? a) with false in R by (symmetry; apply Z.ltb_ge; lia). split; [lia|exact R].
      - intros ((A & B) & R). exists (pair_no nv a b). cbn [Nat.add]. split; [apply permutations_nth; lia|]. split; [|apply Z.ltb_lt; lia]. unfold pair_no.
        replace (b <? a) with false by (symmetry; apply Z.ltb_ge; lia). exact R. }
    assert (NP : map norm_und es = es). { apply norm_pairs. apply Forall_forall. intros [a b] I. apply M in I. cbn. lia. }
    assert (ND : NoDup es) by apply keep_NoDup, permutations_NoDup.
    destruct (@g_new_set T N nv es) as (g & G & Q); [lia|rewrite NP; auto|apply Forall_forall; intros [a b] I; apply M in I; cbn; lia|].
    rewrite NP in Q. exists g, es. auto.
  Qed.
  Theorem C50_digraph nv p rnd : 1 < nv -> (0 <= p /\ p <= 1)%Q -> exists (g : digraph T) es,
    digraph_Gnp nv p rnd = Ok g /\ snd (d_query dqE g) = Ok (OE es (map (fun _ => n1) es)) /\ NoDup es /\
    forall a b, In (a, b) es <-> (0 <= a < nv /\ 0 <= b < nv /\ a <> b) /\ (rnd (Z.to_nat (a * (nv - 1) + (if b <? a then b else b - 1))) < p)%Q.
  Proof.
    intros V P. unfold digraph_Gnp. apply prob_ok_iff in P. rewrite P. replace (1 <? nv) with true by (symmetry; apply Z.ltb_lt; lia). cbn [andb].
    set (es := keep_below rnd p (fun _ => true) 0 (permutations2 nv)).
    assert (M : forall a b, In (a, b) es <-> (0 <= a < nv /\ 0 <= b < nv /\ a <> b) /\ (rnd (pair_no nv a b) < p)%Q).
    { intros a b. unfold es. rewrite keep_In. split.
      - intros (j & E & R & L). cbn [Nat.add] in R. pose proof (nth_error_In _ _ E) as I. apply permutations_In in I as (A & B & NE).
        rewrite (nth_error_NoDup _ _ (permutations_NoDup nv) E (permutations_nth A B NE)) in R. auto.
      - intros ((A & B & NE) & R). exists (pair_no nv a b). cbn [Nat.add]. split; [apply permutations_nth; auto|]. auto. }
    assert (ND : NoDup es) by apply keep_NoDup, permutations_NoDup.
    destruct (@d_new_set T N nv es) as (g & G & Q); [lia|auto|apply Forall_forall; intros [a b] I; apply M in I; cbn; lia|].
    exists g, es. auto.
  Qed.
  Theorem C50_bigraph nu nv p rnd : 1 < nu -> 1 < nv -> (0 <= p /\ p <= 1)%Q -> exists (g : bigraph T) es,
    bigraph_Gnp nu nv p rnd = Ok g /\ snd (b_query bqE g) = Ok (OE es (map (fun _ => n1) es)) /\ NoDup es /\
    forall u v, In (u, v) es <-> (0 <= u < nu /\ 0 <= v < nv) /\ (rnd (Z.to_nat (u * nv + v)) < p)%Q.
  Proof.
    intros U V P. unfold bigraph_Gnp. apply prob_ok_iff in P. rewrite P. ltb. cbn [andb].
    set (es := keep_below rnd p (fun _ => true) 0 (product nu nv)).
    assert (M : forall u v, In (u, v) es <-> (0 <= u < nu /\ 0 <= v < nv) /\ (rnd (Z.to_nat (u * nv + v)) < p)%Q).
    { intros a b. unfold es. rewrite keep_In. split.
      - intros (j & E & R & L). cbn [Nat.add] in R. pose proof (nth_error_In _ _ E) as I. apply product_In in I as (A & B).
        rewrite (nth_error_NoDup _ _ (product_NoDup nu nv) E (product_nth A B)) in R. auto.
      - intros ((A & B) & R). exists (Z.to_nat (a * nv + b)). cbn [Nat.add]. split; [apply product_nth; auto|]. auto. }
    assert (ND : NoDup es) by apply keep_NoDup, product_NoDup.
    destruct (@b_new_set T N nu nv es) as (g & G & Q); [lia|auto|apply Forall_forall; intros [a b] I; apply M in I; cbn; lia|].
    exists g, es. auto.
  Qed.
  (** prob = 0 gives no edge and prob = 1 every edge *)
  Theorem C50_extremes nv nu rnd : 1 < nv -> 1 < nu -> (forall i, 0 <= rnd i /\ rnd i < 1)%Q ->
    (exists g : graph T, graph_Gnp nv 0 rnd = Ok g /\ snd (g_query QE g) = Ok (OE [] [])) /\
    (exists g : digraph T, digraph_Gnp nv 0 rnd = Ok g /\ snd (d_query dqE g) = Ok (OE [] [])) /\
    (exists g : bigraph T, bigraph_Gnp nu nv 0 rnd = Ok g /\ snd (b_query bqE g) = Ok (OE [] [])) /\
    (exists (g : graph T) es, graph_Gnp nv 1 rnd = Ok g /\ snd (g_query QE g) = Ok (OE es (map (fun _ => n1) es)) /\
       NoDup es /\ forall a b, In (a, b) es <-> 0 <= a < b /\ b < nv) /\
    (exists (g : digraph T) es, digraph_Gnp nv 1 rnd = Ok g /\ snd (d_query dqE g) = Ok (OE es (map (fun _ => n1) es)) /\
       NoDup es /\ forall a b, In (a, b) es <-> 0 <= a < nv /\ 0 <= b < nv /\ a <> b) /\
    (exists (g : bigraph T) es, bigraph_Gnp nu nv 1 rnd = Ok g /\ snd (b_query bqE g) = Ok (OE es (map (fun _ => n1) es)) /\
       NoDup es /\ forall u v, In (u, v) es <-> 0 <= u < nu /\ 0 <= v < nv).
  Proof.
    intros V U R. assert (P0 : (0 <= 0 /\ 0 <= 1)%Q) by (split; discriminate). assert (P1 : (0 <= 1 /\ 1 <= 1)%Q) by (split; discriminate).
    assert (NI : forall i, ~ (rnd i < 0)%Q) by (intros i I; destruct (R i) as [X _]; apply (Qlt_not_le _ _ I); auto).
    assert (NIL : forall es : list (Z * Z), (forall a b, ~ In (a, b) es) -> es = []) by (intros [|[a b] es] F; auto; destruct (F a b); left; auto).
    split; [|split; [|split; [|split; [|split]]]].
    - destruct (@C50_graph nv 0%Q rnd V P0) as (g & es & E & Q & _ & M). rewrite (NIL es) in Q; [eauto|]. intros a b I. apply M in I as [_ I]. eapply NI; eauto.
    - destruct (@C50_digraph nv 0%Q rnd V P0) as (g & es & E & Q & _ & M). rewrite (NIL es) in Q; [eauto|]. intros a b I. apply M in I as [_ I]. eapply NI; eauto.
    - destruct (@C50_bigraph nu nv 0%Q rnd U V P0) as (g & es & E & Q & _ & M). rewrite (NIL es) in Q; [eauto|]. intros a b I. apply M in I as [_ I]. eapply NI; eauto.
    - destruct (@C50_graph nv 1%Q rnd V P1) as (g & es & E & Q & ND & M). exists g, es. split; auto. split; auto. split; auto. intros a b. rewrite M. split; [tauto|]. intros I. split; auto. apply R.
    - destruct (@C50_digraph nv 1%Q rnd V P1) as (g & es & E & Q & ND & M). exists g, es. split; auto. split; auto. split; auto. intros a b. rewrite M. split; [tauto|]. intros I. split; auto. apply R.
    - destruct (@C50_bigraph nu nv 1%Q rnd U V P1) as (g & es & E & Q & ND & M). exists g, es. split; auto. split; auto. split; auto. intros a b. rewrite M. split; [tauto|]. intros I. split; auto. apply R.
  Qed.
  (** everything else is refused *)
  Theorem C50_rejects nu nv p rnd : nv <= 1 \/ (p < 0)%Q \/ (1 < p)%Q ->
    @graph_Gnp T N nv p rnd = Err AssertionError /\ @digraph_Gnp T N nv p rnd = Err AssertionError /\ @bigraph_Gnp T N nu nv p rnd = Err AssertionError.
  Proof.
    intros X. assert (B : (1 <? nv) && prob_ok p = false).
    { apply Bool.not_true_iff_false. rewrite andb_true_iff, Z.ltb_lt, prob_ok_iff. intros (A & B & C). destruct X as [X|[X|X]]; [lia| |]; apply (Qlt_not_le _ _ X); auto. }
    unfold graph_Gnp, digraph_Gnp, bigraph_Gnp. rewrite B. split; auto. split; auto. destruct (1 <? nu); cbn; rewrite ?andb_false_r, ?andb_true_r; cbn; [rewrite B|]; reflexivity.
  Qed.
End C50.
(** every other draw is below 1/2 *)
Definition halves (i : nat) : Q := if Nat.even i then 1 # 4 else 3 # 4.
Example C50_case : exists g, @graph_Gnp Qc _ 3 (1 # 2) halves = Ok g /\ snd (g_query QE g) = Ok (OE [(0, 1)] [n1]).
Proof. eexists. split; reflexivity. Qed.
Example C50_case2 : exists g, @digraph_Gnp Qc _ 3 (1 # 2) halves = Ok g /\ snd (d_query dqE g) = Ok (OE [(0, 1); (1, 0); (2, 0)] [n1; n1; n1]).
Proof. eexists. split; reflexivity. Qed.
Example C50_case3 : exists g, @bigraph_Gnp Qc _ 2 3 (1 # 2) halves = Ok g /\ snd (b_query bqE g) = Ok (OE [(0, 0); (0, 2); (1, 1)] [n1; n1; n1]).
Proof. eexists. split; reflexivity. Qed.
Example C50_draws : forall i, (0 <= halves i /\ halves i < 1)%Q.
Proof. intros i. unfold halves. destruct (Nat.even i); split; reflexivity || discriminate. Qed.

(** * C51 *)
Lemma place_reach sk i t : place sk i t = reach_to sk i t - 1.
Proof. induction t as [|t IH]; cbn [place reach_to]; [lia|]. rewrite IH. lia. Qed.
Lemma reach_ext sk sk' i t : (forall j, sk j = sk' j) -> reach_to sk i t = reach_to sk' i t.
Proof. intros E. induction t as [|t IH]; cbn [reach_to]; rewrite ?IH, E; auto. Qed.
Lemma place_as sk sk' (E : forall j, sk j = sk' j) i t : place sk i t = reach_to sk' i t - 1.
Proof. rewrite place_reach. f_equal. apply reach_ext. auto. Qed.
Lemma skip_of_unique p r k k' : skip_of p r k -> skip_of p r k' -> k = k'.
Proof.
  intros [A B] [A' B']. assert (IZR k < IZR (k' + 1))%R by (rewrite plus_IZR; lra). assert (IZR k' < IZR (k + 1))%R by (rewrite plus_IZR; lra).
  apply lt_IZR in H, H0. lia.
Qed.
Lemma ratio_nonneg p r : (0 < p < 1)%R -> (0 <= r < 1)%R -> (0 <= ln (1 - r) / ln (1 - p))%R.
Proof.
  intros P R. assert (A : (ln (1 - p) < 0)%R) by (rewrite <- ln_1; apply ln_increasing; lra).
  assert (B : (ln (1 - r) <= 0)%R). { rewrite <- ln_1. destruct (Req_dec r 0) as [->|NE]; [rewrite Rminus_0_r; lra|]. left. apply ln_increasing; lra. }
  unfold Rdiv. replace (ln (1 - r) * / ln (1 - p))%R with ((- ln (1 - r)) * (- / ln (1 - p)))%R by ring.
  apply Rmult_le_pos; [lra|]. apply Rinv_lt_0_compat in A. lra.
Qed.
Lemma skips_skip_of p rnd j : (0 < p < 1)%R -> (0 <= rnd j < 1)%R -> skip_of p (rnd j) (skips p rnd j).
Proof.
  intros P R. unfold skip_of, skips, py_int. pose proof (ratio_nonneg P R) as X. destruct (Rle_dec 0 _) as [_|C]; [|contradiction].
  destruct (base_Int_part (ln (1 - rnd j) / ln (1 - p))) as [A B]. lra.
Qed.
Lemma fast_checks_ok nv p : 1 < nv -> (0 < p < 1)%R -> fast_checks nv p = Ok tt.
Proof.
  intros V P. unfold fast_checks. ltb. destruct (Rle_dec 0 p) as [_|C]; [|exfalso; apply C; lra]. destruct (Rle_dec p 1) as [_|C]; [|exfalso; apply C; lra].
  destruct (Req_EM_T p 1) as [C|_]; [lra|]. destruct (Req_EM_T (ln (1 - p)) 0) as [C|_]; auto. exfalso.
  assert (A : (ln (1 - p) < 0)%R) by (rewrite <- ln_1; apply ln_increasing; lra). lra.
Qed.

Section C51.
  Context {T : Type} `{N : Num T}.
  (** C51: the loops end within [pairs_below nv + 1] rounds, for every stream in [0,1); the edges are the pairs whose
      numbers are reached by the skips *)
  Theorem C51_graph nv p rnd sk fuel : 1 < nv -> (0 < p < 1)%R -> (forall j, 0 <= rnd j < 1)%R -> (forall j, skip_of p (rnd j) (sk j)) ->
    pairs_below nv + 1 <= Z.of_nat fuel ->
    exists (g : graph T) es, graph_Gnp_fast nv p rnd fuel = Some (Ok g) /\ snd (g_query QE g) = Ok (OE es (map (fun _ => n1) es)) /\
      NoDup es /\ (forall a b, In (a, b) es -> 0 <= a < b /\ b < nv) /\
      forall a b, 0 <= a < b -> b < nv -> (In (a, b) es <-> exists t, place sk 0 t = pairs_below b + a).
  Proof.
    intros V P R S F. assert (SK : forall j, sk j = skips p rnd j) by (intros j; eapply skip_of_unique; [apply S|apply skips_skip_of; auto]).
    unfold graph_Gnp_fast. rewrite fast_checks_ok by auto.
    destruct (@pass_spec nv (skips p rnd) (fun j => skips_nonneg rnd j P (R j)) fuel 0 V F) as (k & l & E & _ & _ & ND & B & M). rewrite E.
    rewrite Forall_forall in B.
    assert (NM : map norm_und l = map (fun e => (snd e, fst e)) l).
    { apply map_ext_in. intros [v w] I. apply B in I. cbn in I. unfold norm_und; cbn. replace (w <? v) with true by (symmetry; apply Z.ltb_lt; lia). reflexivity. }
    assert (NE : NoDup (map norm_und l)). { rewrite NM. apply FinFun.Injective_map_NoDup; auto. intros [a b] [c d] Q. cbn in Q. congruence. }
    destruct (@g_new_set T N nv l) as (g & G & Q); [lia|auto|apply Forall_forall; intros [v w] I; apply B in I; cbn in *; lia|].
    exists g, (map norm_und l). split; [congruence|]. split; [rewrite map_map; exact Q|]. split; auto.
    assert (IN : forall a b, In (a, b) (map norm_und l) <-> In (b, a) l).
    { intros a b. rewrite NM, in_map_iff. split; [intros ([v w] & Q' & I); cbn in Q'; injection Q' as <- <-; auto|intros I; exists (b, a); auto]. }
    split.
    - intros a b I. apply IN, B in I. cbn in I. lia.
    - intros a b A L. rewrite IN, M by auto. split; intros (t & Q'); exists t; rewrite (place_as _ _ SK) in *; change pairs_below with tri in *; lia.
  Qed.
  (** every set of edges is possible *)
  Lemma draws_exist p (sk : nat -> Z) : (0 < p < 1)%R -> (forall j, 0 <= sk j) -> exists rnd, (forall j, 0 <= rnd j < 1)%R /\ (forall j, skips p rnd j = sk j).
  Proof.
    intros P S. exists (fun j => 1 - (1 - p) ^ Z.to_nat (sk j))%R. assert (A : (ln (1 - p) < 0)%R) by (rewrite <- ln_1; apply ln_increasing; lra).
    assert (X : forall j, (0 < (1 - p) ^ Z.to_nat (sk j) <= 1)%R).
    { intros j. split; [apply pow_lt; lra|]. eapply Rle_trans; [apply (@pow_incr _ 1); lra|rewrite pow1; lra]. }
    assert (Y : forall j, (0 <= 1 - (1 - p) ^ Z.to_nat (sk j) < 1)%R) by (intros j; specialize (X j); lra).
    split; [exact Y|]. intros j. apply (@skip_of_unique p (1 - (1 - p) ^ Z.to_nat (sk j))%R).
    - apply (@skips_skip_of p (fun j => 1 - (1 - p) ^ Z.to_nat (sk j))%R j P). apply Y.
    - unfold skip_of. replace (1 - (1 - (1 - p) ^ Z.to_nat (sk j)))%R with ((1 - p) ^ Z.to_nat (sk j))%R by ring.
      rewrite ln_pow by lra. replace (INR (Z.to_nat (sk j)) * ln (1 - p) / ln (1 - p))%R with (IZR (sk j)) by (rewrite INR_IZR_INZ, Z2Nat.id by auto; field; lra). lra.
  Qed.
  Definition has (es : list (Z * Z)) (z : Z) : bool := existsb (fun e => pairs_below (snd e) + fst e =? z) es.
  Lemma has_spec nv es z : (forall a b, In (a, b) es -> 0 <= a < b /\ b < nv) -> has es z = true <-> exists a b, In (a, b) es /\ 0 <= a < b /\ pairs_below b + a = z.
  Proof.
    intros B. unfold has. rewrite existsb_exists. split.
    - intros ([a b] & I & E). apply Z.eqb_eq in E. cbn in E. exists a, b. destruct (B a b I). auto.
    - intros (a & b & I & _ & E). exists (a, b). split; auto. apply Z.eqb_eq. auto.
  Qed.
  Lemma pairs_range a b nv : 0 <= a < b -> b < nv -> 0 <= pairs_below b + a < pairs_below nv.
  Proof. intros A L. change pairs_below with tri. pose proof (@tri_nonneg b). pose proof (@tri_mono (b + 1) nv). rewrite tri_next in *. lia. Qed.
  Theorem C51_graph_reachable nv p E : 1 < nv -> (0 < p < 1)%R -> (forall a b, In (a, b) E -> 0 <= a < b /\ b < nv) ->
    exists rnd fuel (g : graph T) es, (forall j, 0 <= rnd j < 1)%R /\ graph_Gnp_fast nv p rnd fuel = Some (Ok g) /\
      snd (g_query QE g) = Ok (OE es (map (fun _ => n1) es)) /\ NoDup es /\ forall e, In e es <-> In e E.
  Proof.
    intros V P B. destruct (@places (has E) (pairs_below nv)) as (x & X0 & X1 & X2). { change pairs_below with tri. apply tri_nonneg. lia. }
    destruct (reach_choose x X0 X1) as (sk & S & RC). destruct (draws_exist _ P S) as (rnd & R & SR). exists rnd, (Z.to_nat (pairs_below nv + 1)).
    destruct (@C51_graph nv p rnd (skips p rnd) (Z.to_nat (pairs_below nv + 1)) V P R) as (g & es & A1 & A2 & A3 & A4 & A5).
    { intros j. apply skips_skip_of; auto. } { pose proof (@tri_nonneg nv). change pairs_below with tri. lia. }
    exists g, es. split; auto. split; auto. split; auto. split; auto. intros [a b].
    assert (K : forall a b, 0 <= a < b -> b < nv -> (In (a, b) es <-> In (a, b) E)).
    { intros c d C D. rewrite A5 by auto. transitivity (has E (pairs_below d + c) = true).
      - rewrite X2 by (apply pairs_range; auto). split; intros (t & Q); exists t; rewrite (place_as _ _ SR), RC in *; auto.
      - rewrite (has_spec _ _ B). split; [|intros I; exists c, d; auto]. intros (c' & d' & I & L & Q). destruct (@tri_inj d' c' d c) as [-> ->]; auto. }
    split; intros I; [destruct (A4 a b I)|destruct (B a b I)]; apply K; auto.
  Qed.

  (** DiGraph: a first pass gives the edges a -> b with a < b, a second one, with the following draws, the edges b -> a *)
  Theorem C51_digraph nv p rnd sk fuel : 1 < nv -> (0 < p < 1)%R -> (forall j, 0 <= rnd j < 1)%R -> (forall j, skip_of p (rnd j) (sk j)) ->
    pairs_below nv + 1 <= Z.of_nat fuel ->
    exists (g : digraph T) es k, digraph_Gnp_fast nv p rnd fuel = Some (Ok g) /\ snd (d_query dqE g) = Ok (OE es (map (fun _ => n1) es)) /\
      NoDup es /\ (forall a b, In (a, b) es -> 0 <= a < nv /\ 0 <= b < nv /\ a <> b) /\
      (pairs_below nv <= place sk 0 k /\ forall t, (t < k)%nat -> place sk 0 t < pairs_below nv) /\
      forall a b, 0 <= a < b -> b < nv ->
        (In (a, b) es <-> exists t, place sk 0 t = pairs_below b + a) /\ (In (b, a) es <-> exists t, place sk (S k) t = pairs_below b + a).
  Proof.
    intros V P R S F. assert (SK : forall j, sk j = skips p rnd j) by (intros j; eapply skip_of_unique; [apply S|apply skips_skip_of; auto]).
    unfold digraph_Gnp_fast. rewrite fast_checks_ok by auto. pose proof (fun j => skips_nonneg rnd j P (R j)) as NN.
    destruct (@pass_spec nv (skips p rnd) NN fuel 0 V F) as (k & l1 & E1 & H1 & H2 & ND1 & B1 & M1). rewrite E1.
    destruct (@pass_spec nv (skips p rnd) NN fuel (0 + Datatypes.S k) V F) as (k2 & l2 & E2 & _ & _ & ND2 & B2 & M2). rewrite E2.
    rewrite Forall_forall in B1, B2. set (es := map (fun e : Z * Z => (snd e, fst e)) l1 ++ l2).
    assert (I1 : forall a b, In (a, b) (map (fun e : Z * Z => (snd e, fst e)) l1) <-> In (b, a) l1).
    { intros a b. rewrite in_map_iff. split; [intros ([v w] & Q' & I); cbn in Q'; injection Q' as <- <-; auto|intros I; exists (b, a); auto]. }
    assert (ND : NoDup es).
    { apply HyperView.NoDup_app_intro; auto; [apply FinFun.Injective_map_NoDup; auto; intros [a b] [c d] Q; cbn in Q; congruence|].
      intros [a b] I J. apply I1, B1 in I. apply B2 in J. cbn in *. lia. }
    assert (BB : forall a b, In (a, b) es -> 0 <= a < nv /\ 0 <= b < nv /\ a <> b).
    { intros a b I. apply in_app_iff in I as [I|I]; [apply I1, B1 in I|apply B2 in I]; cbn in I; lia. }
    destruct (@d_new_set T N nv es) as (g & G & Q); [lia|auto|apply Forall_forall; intros [v w] I; apply BB in I; cbn in *; lia|].
    exists g, es, k. split; [congruence|]. split; [auto|]. split; auto. split; auto. split.
    { rewrite (place_as _ _ SK). split; [exact H1|]. intros t L. rewrite (place_as _ _ SK). apply H2; auto. }
    intros a b A L. unfold es. rewrite !in_app_iff, !I1. split.
    - transitivity (In (b, a) l1); [split; auto; intros [I|I]; auto; apply B2 in I; cbn in I; lia|]. rewrite M1 by auto.
      split; intros (t & Q'); exists t; rewrite (place_as _ _ SK) in *; change pairs_below with tri in *; lia.
    - transitivity (In (b, a) l2); [split; auto; intros [I|I]; auto; apply B1 in I; cbn in I; lia|]. rewrite M2 by auto. cbn [Nat.add].
      split; intros (t & Q'); exists t; rewrite (place_as _ _ SK) in *; change pairs_below with tri in *; lia.
  Qed.
  Lemma reach_local sk sk' i t : (forall s, (s <= t)%nat -> sk (i + s)%nat = sk' (i + s)%nat) -> reach_to sk i t = reach_to sk' i t.
  Proof.
    induction t as [|t IH]; intros E; cbn [reach_to]; [specialize (E 0%nat); rewrite <- plus_n_O in E; rewrite E; auto|].
    rewrite IH, (E (Datatypes.S t)); auto.
  Qed.
  Lemma reach_offset sk i t : reach_to (fun j => sk (j - i)%nat) i t = reach_to sk 0 t.
  Proof. induction t as [|t IH]; cbn [reach_to Nat.add]; [rewrite Nat.sub_diag; auto|]. rewrite IH. replace (i + Datatypes.S t - i)%nat with (Datatypes.S t) by lia. reflexivity. Qed.
  Theorem C51_digraph_reachable nv p E : 1 < nv -> (0 < p < 1)%R -> (forall a b, In (a, b) E -> 0 <= a < nv /\ 0 <= b < nv /\ a <> b) ->
    exists rnd fuel (g : digraph T) es, (forall j, 0 <= rnd j < 1)%R /\ digraph_Gnp_fast nv p rnd fuel = Some (Ok g) /\
      snd (d_query dqE g) = Ok (OE es (map (fun _ => n1) es)) /\ NoDup es /\ forall e, In e es <-> In e E.
  Proof.
    intros V P B. assert (TN : 0 <= pairs_below nv) by (change pairs_below with tri; apply tri_nonneg; lia).
    set (E1 := filter (fun e => fst e <? snd e) E). set (E2 := map (fun e : Z * Z => (snd e, fst e)) (filter (fun e => snd e <? fst e) E)).
    assert (M1 : forall a b, In (a, b) E1 <-> In (a, b) E /\ a < b) by (intros a b; unfold E1; rewrite filter_In; cbn; rewrite Z.ltb_lt; reflexivity).
    assert (M2 : forall a b, In (a, b) E2 <-> In (b, a) E /\ a < b).
    { intros a b. unfold E2. rewrite in_map_iff. split; [intros ([c d] & Q & I); cbn in Q; injection Q as <- <-; apply filter_In in I as [I L]; cbn in L; apply Z.ltb_lt in L; auto|].
      intros [I L]. exists (b, a). split; auto. apply filter_In. cbn. rewrite Z.ltb_lt. auto. }
    assert (B1 : forall a b, In (a, b) E1 -> 0 <= a < b /\ b < nv) by (intros a b I; apply M1 in I as [I L]; apply B in I; lia).
    assert (B2 : forall a b, In (a, b) E2 -> 0 <= a < b /\ b < nv) by (intros a b I; apply M2 in I as [I L]; apply B in I; lia).
    destruct (@places (has E1) (pairs_below nv) TN) as (x & X0 & X1 & X2). destruct (@places (has E2) (pairs_below nv) TN) as (y & Y0 & Y1 & Y2).
    destruct (reach_choose x X0 X1) as (sx & SX & RX). destruct (reach_choose y Y0 Y1) as (sy & SY & RY).
    (* the first round of the first pass that goes past the end *)
    assert (K : exists k, pairs_below nv <= x k /\ forall t, (t < k)%nat -> x t < pairs_below nv).
    { assert (G : forall n, (exists k, pairs_below nv <= x k /\ forall t, (t < k)%nat -> x t < pairs_below nv) \/ (forall t, (t < n)%nat -> x t < pairs_below nv)).
      { induction n as [|n [IH|IH]]; [right; intros; lia|left; auto|]. destruct (Z_lt_le_dec (x n) (pairs_below nv)) as [L|L]; [|left; exists n; auto].
        right. intros t T'. destruct (Nat.eq_dec t n) as [->|]; auto. apply IH. lia. }
      destruct (G (Datatypes.S (Z.to_nat (pairs_below nv)))) as [?|F]; auto. exfalso. specialize (F (Z.to_nat (pairs_below nv))).
      assert (L : forall t, Z.of_nat t <= x t) by (induction t as [|t IH]; [cbn; lia|]; specialize (X1 t); lia).
      specialize (L (Z.to_nat (pairs_below nv))). lia. }
    destruct K as (k & K1 & K2).
    set (sk := fun j => if Nat.leb j k then sx j else sy (j - Datatypes.S k)%nat).
    assert (S : forall j, 0 <= sk j) by (intros j; unfold sk; destruct (Nat.leb j k); auto).
    assert (P1 : forall t, (t <= k)%nat -> reach_to sk 0 t - 1 = x t).
    { intros t L. rewrite <- RX. f_equal. apply reach_local. intros s LS. unfold sk. cbn [Nat.add]. replace (Nat.leb s k) with true by (symmetry; apply Nat.leb_le; lia). auto. }
    assert (P2 : forall t, reach_to sk (Datatypes.S k) t - 1 = y t).
    { intros t. rewrite <- RY. f_equal. rewrite <- (reach_offset sy (Datatypes.S k)). apply reach_local. intros s LS. unfold sk. replace (Nat.leb (Datatypes.S k + s) k) with false by (symmetry; apply Nat.leb_gt; lia). auto. }
    destruct (draws_exist _ P S) as (rnd & R & SR). exists rnd, (Z.to_nat (pairs_below nv + 1)).
    destruct (@C51_digraph nv p rnd (skips p rnd) (Z.to_nat (pairs_below nv + 1)) V P R) as (g & es & k' & A1 & A2 & A3 & A4 & (A5 & A6) & A7).
    { intros j. apply skips_skip_of; auto. } { lia. }
    assert (k' = k). 
    { apply (@pass_unique sk 0 (pairs_below nv)); auto.
      - rewrite (place_as _ _ SR) in A5. auto.
      - intros t L. apply A6 in L. rewrite (place_as _ _ SR) in L. auto.
      - rewrite P1; auto.
      - intros t L. rewrite P1 by lia. auto. }
    subst k'. exists g, es. split; auto. split; auto. split; auto. split; auto. intros [a b].
    assert (X : forall a b, 0 <= a < b -> b < nv -> (In (a, b) es <-> In (a, b) E) /\ (In (b, a) es <-> In (b, a) E)).
    { intros c d C D. destruct (A7 c d C D) as [J1 J2]. pose proof (pairs_range C D) as PR. split.
      - rewrite J1. transitivity (In (c, d) E1); [|rewrite M1; split; [tauto|intros; split; [auto|lia]]]. transitivity (has E1 (pairs_below d + c) = true).
        + rewrite X2 by auto. split; intros (t & Q).
          * exists t. rewrite (place_as _ _ SR) in Q. rewrite <- Q. apply P1. destruct (le_lt_dec t k) as [|L]; auto. exfalso.
            apply (@reach_mono sk 0) in L; auto. specialize (P1 k (le_n k)). lia.
          * exists t. rewrite (place_as _ _ SR), Q. apply P1. destruct (le_lt_dec t k) as [|L]; auto. exfalso.
            assert (MX : forall s t, (s < t)%nat -> x s < x t) by (intros s u L'; induction L'; [apply X1|specialize (X1 m); lia]). apply MX in L. lia.
        + rewrite (has_spec _ _ B1). split; [|intros I; exists c, d; auto]. intros (c' & d' & I & L & Q). destruct (@tri_inj d' c' d c) as [-> ->]; auto.
      - rewrite J2. transitivity (In (c, d) E2); [|rewrite M2; split; [tauto|intros; split; [auto|lia]]]. transitivity (has E2 (pairs_below d + c) = true).
        + rewrite Y2 by auto. split; intros (t & Q); exists t; rewrite (place_as _ _ SR), P2 in *; auto.
        + rewrite (has_spec _ _ B2). split; [|intros I; exists c, d; auto]. intros (c' & d' & I & L & Q). destruct (@tri_inj d' c' d c) as [-> ->]; auto. }
    assert (Y : forall c d, 0 <= c < nv -> 0 <= d < nv -> c <> d -> (In (c, d) es <-> In (c, d) E)).
    { intros c d C D NE. destruct (Z_lt_le_dec c d); [apply (X c d); lia|apply (X d c); lia]. }
    split; intros I; [destruct (A4 a b I) as (? & ? & ?)|destruct (B a b I) as (? & ? & ?)]; apply Y; auto.
  Qed.

  (** C99: both ends of the documented range of [prob] raise *)
  Theorem C99_endpoints_actual nv rnd fuel : 1 < nv ->
    @graph_Gnp_fast T N nv 0 rnd fuel = Some (Err ZeroDivisionError) /\ @graph_Gnp_fast T N nv 1 rnd fuel = Some (Err ValueError) /\
    @digraph_Gnp_fast T N nv 0 rnd fuel = Some (Err ZeroDivisionError) /\ @digraph_Gnp_fast T N nv 1 rnd fuel = Some (Err ValueError).
  Proof.
    intros V. assert (A : fast_checks nv 0 = Err ZeroDivisionError).
    { unfold fast_checks. ltb. destruct (Rle_dec 0 0) as [_|C]; [|exfalso; apply C; lra]. destruct (Rle_dec 0 1) as [_|C]; [|exfalso; apply C; lra].
      destruct (Req_EM_T 0 1) as [C|_]; [lra|]. rewrite Rminus_0_r, ln_1. destruct (Req_EM_T 0 0) as [_|C]; [reflexivity|congruence]. }
    assert (B : fast_checks nv 1 = Err ValueError).
    { unfold fast_checks. ltb. destruct (Rle_dec 0 1) as [_|C]; [|exfalso; apply C; lra]. destruct (Rle_dec 1 1) as [_|C]; [|exfalso; apply C; lra].
      destruct (Req_EM_T 1 1) as [_|C]; [reflexivity|congruence]. }
    unfold graph_Gnp_fast, digraph_Gnp_fast. rewrite A, B. auto.
  Qed.
End C51.
(** draws 0 skip nothing: all three edges of three vertices are found *)
Example C51_case : skip_of (1 / 2) 0 0 /\ skip_of (1 / 2) (3 / 4) 2.
Proof.
  assert (A : (ln (1 / 2) < 0)%R) by (rewrite <- ln_1; apply ln_increasing; lra). unfold skip_of. replace (1 - 1 / 2)%R with (1 / 2)%R by field. split.
  - rewrite Rminus_0_r, ln_1. unfold Rdiv. rewrite Rmult_0_l. lra.
  - replace (1 - 3 / 4)%R with ((1 / 2) ^ 2)%R by field. rewrite ln_pow by lra. replace (INR 2 * ln (1 / 2) / ln (1 / 2))%R with 2%R by (cbn [INR]; field; lra). lra.
Qed.
Example C51_loop : skip_loop 4 (fun i => nth i [0; 2; 1] 5) 7 0 1 (-1) = Some (4%nat, [(1, 0); (3, 0); (3, 2)]).
Proof. reflexivity. Qed.
Example C51_full_case : exists (g : graph Qc) es, graph_Gnp_fast 3 (1 / 2) (fun _ => 0%R) 4 = Some (Ok g) /\
  snd (g_query QE g) = Ok (OE es (map (fun _ => n1) es)) /\ forall a b, 0 <= a < b -> b < 3 -> In (a, b) es.
Proof.
  destruct (@C51_graph Qc _ 3 (1 / 2) (fun _ => 0%R) (fun _ => 0) 4) as (g & es & A & B & _ & _ & C); [lia|lra|intros; lra|intros j; apply C51_case|cbn; lia|].
  exists g, es. split; auto. split; auto. intros a b L1 L2. apply C; auto.
  assert (PL : forall t, place (fun _ => 0) 0 t = Z.of_nat t) by (induction t as [|t IH]; cbn [place]; lia).
  exists (Z.to_nat (pairs_below b + a)). rewrite PL. pose proof (pairs_range L1 L2). lia.
Qed.

(** * C52 *)
Section C52.
  Context {T : Type} `{N : Num T}.
  (** C52: the subsets of size k, in lexicographic order, are taken exactly when their own draw is below [prob] *)
  Theorem C52_uniform_Gnp k nv p rnd : 1 < nv -> 1 < k -> (0 <= p /\ p <= 1)%Q -> exists (h : hypergraph T) es,
    uniform_hypergraph_Gnp k nv p rnd = Ok h /\ snd (h_query (hqE None) h) = Ok (OHE es (map (fun _ => n1) es)) /\ NoDup es /\
    (forall e, In e es -> StronglySorted Z.lt e /\ Z.of_nat (length e) = k /\ forall x, In x e -> 0 <= x < nv) /\
    forall e, In e es <-> exists i, nth_error (subsets (Z.to_nat k) (range nv)) i = Some e /\ (rnd i < p)%Q.
  Proof.
    intros V K P. unfold uniform_hypergraph_Gnp. apply prob_ok_iff in P. rewrite P. ltb. cbn [andb]. rewrite combinations_eq.
    set (es := keep_below rnd p (fun _ => true) 0 (subsets (Z.to_nat k) (range nv))).
    assert (ND : NoDup es) by apply keep_NoDup, subsets_NoDup, range_NoDup.
    assert (B : forall e, In e es -> StronglySorted Z.lt e /\ Z.of_nat (length e) = k /\ forall x, In x e -> 0 <= x < nv).
    { intros e I. apply keep_incl, subsets_In in I as (A & L & I); [|apply range_sorted]. split; auto. split; [lia|]. intros x J. apply range_In, I; auto. }
    destruct (@h_new_set T N nv es) as (h & G & Q); [lia|auto|apply Forall_forall; intros e I; apply SS_lt_le, B; auto|].
    exists h, es. split; auto. split; auto. split; auto. split; auto. intros e. unfold es. rewrite keep_In.
    split; intros (j & E); exists j; cbn [Nat.add] in *; [split|split; [|split]]; try apply E; auto.
  Qed.
  (** uniform_hypergraph_Gnm: what is returned, and for which streams *)
  Theorem C52_uniform_Gnm k nv m smp ord fuel r : 1 < k -> k <= nv -> 0 < m -> (forall i, sample_of nv k (smp i)) -> any_order ord ->
    uniform_hypergraph_Gnm k nv m smp ord fuel = Some r ->
    exists (h : hypergraph T) es, r = Ok h /\ snd (h_query (hqE None) h) = Ok (OHE es (map (fun _ => n1) es)) /\ NoDup es /\ Z.of_nat (length es) = m /\
      (forall e, In e es -> StronglySorted Z.lt e /\ Z.of_nat (length e) = k /\ forall x, In x e -> 0 <= x < nv) /\
      forall fuel', (fuel <= fuel')%nat -> uniform_hypergraph_Gnm k nv m smp ord fuel' = Some r.
  Proof.
    intros K V M S O E. unfold uniform_hypergraph_Gnm in E. replace (nv <? k) with false in E by (symmetry; apply Z.ltb_ge; lia). ltb_in E. cbn [andb] in E.
    destruct (collect (fun i => Some (zsort (smp i))) m fuel 0 []) as [l|] eqn:C; [|discriminate]. injection E as E.
    destruct (collect_some _ _ _ _ C) as (ND & L & F); [constructor|cbn; lia|].
    assert (B : forall e, In e (ord l) -> StronglySorted Z.lt e /\ Z.of_nat (length e) = k /\ forall x, In x e -> 0 <= x < nv).
    { intros e I. apply ord_In in I; auto. apply F in I as [[]|(j & _ & Q)]. injection Q as <-. destruct (S j) as (S1 & S2 & S3).
      assert (I : In (zsort (smp j)) (subsets (Z.to_nat k) (range nv))) by (apply sample_subset; auto; lia).
      apply subsets_In in I as (A & L' & I); [|apply range_sorted]. split; auto. split; [lia|]. intros x J. apply range_In, I; auto. }
    destruct (@h_new_set T N nv (ord l)) as (h & G & Q); [lia|apply ord_NoDup; auto|apply Forall_forall; intros e I; apply SS_lt_le, B; auto|].
    exists h, (ord l). split; [congruence|]. split; auto. split; [apply ord_NoDup; auto|]. split; [rewrite ord_length; auto; lia|]. split; auto.
    intros fuel' LE. unfold uniform_hypergraph_Gnm. replace (nv <? k) with false by (symmetry; apply Z.ltb_ge; lia). ltb. cbn [andb]. erewrite collect_mono; [|exact C|exact LE]. congruence.
  Qed.
  Theorem C52_uniform_Gnm_ends k nv m smp ord : 1 < k -> k <= nv -> 0 < m ->
    ((exists fuel r, @uniform_hypergraph_Gnm T N k nv m smp ord fuel = Some r) <->
     exists L, NoDup L /\ m <= Z.of_nat (length L) /\ forall e, In e L -> exists i, zsort (smp i) = e).
  Proof.
    intros K V M. transitivity (exists fuel l, collect (fun i => Some (zsort (smp i))) m fuel 0 [] = Some l).
    - unfold uniform_hypergraph_Gnm. replace (nv <? k) with false by (symmetry; apply Z.ltb_ge; lia). ltb. cbn [andb].
      split; intros (fuel & r & E); exists fuel; destruct (collect (fun i => Some (zsort (smp i))) m fuel 0 []) as [l|]; try discriminate; eauto.
    - rewrite collect_ends. split; intros (L & ND & LE & F); exists L; (split; [auto|split; [auto|]]).
      + intros e I. destruct (F _ I) as (i & Q). injection Q as <-. eauto.
      + intros e I. destruct (F _ I) as (i & <-). eauto.
  Qed.
  (** a feasible request ends for every stream in which every subset of size k shows up *)
  Theorem C52_uniform_Gnm_possible k nv m smp ord : 1 < k -> k <= nv -> 0 < m -> m <= Z.of_nat (length (subsets (Z.to_nat k) (range nv))) ->
    (forall e, In e (subsets (Z.to_nat k) (range nv)) -> exists i, Permutation (smp i) e) ->
    exists fuel r, @uniform_hypergraph_Gnm T N k nv m smp ord fuel = Some r.
  Proof.
    intros K V M LE F. apply C52_uniform_Gnm_ends; auto. exists (subsets (Z.to_nat k) (range nv)). split; [apply subsets_NoDup, range_NoDup|]. split; auto.
    intros e I. destruct (F e I) as (i & P). exists i. apply subsets_In in I as (A & _); [|apply range_sorted].
    rewrite <- (zsort_id (SS_lt_le A)). apply zsort_eq_perm. auto.
  Qed.
  Theorem C52_uniform_Gnm_rejects k nv m smp ord fuel : k <= 1 \/ nv <= 1 \/ m <= 0 -> @uniform_hypergraph_Gnm T N k nv m smp ord fuel = Some (Err AssertionError).
  Proof.
    intros X. unfold uniform_hypergraph_Gnm. replace ((1 <? k) && (1 <? nv) && (0 <? m)) with false; auto. symmetry. apply Bool.not_true_iff_false.
    rewrite !andb_true_iff, !Z.ltb_lt. lia.
  Qed.
  Theorem C52_uniform_Gnm_too_large k nv m smp ord fuel : 1 < nv -> nv < k -> 0 < m -> @uniform_hypergraph_Gnm T N k nv m smp ord fuel = Some (Err ValueError).
  Proof. intros V K M. unfold uniform_hypergraph_Gnm. ltb. reflexivity. Qed.

  (** hypergraph_Gnm *)
  Theorem C52_Gnm nv m method custom ws kc smp ord fuel r : 1 < nv -> 0 < m -> degree_weights nv method custom = Ok ws ->
    (forall i, 2 <= kc i <= nv) -> (forall i k, 2 <= k <= nv -> sample_of nv k (smp i k)) -> any_order ord ->
    hypergraph_Gnm nv m method custom kc smp ord fuel = Some r ->
    exists (h : hypergraph T) es, r = Ok h /\ snd (h_query (hqE None) h) = Ok (OHE es (map (fun _ => n1) es)) /\ NoDup es /\ Z.of_nat (length es) = m /\
      (forall e, In e es -> StronglySorted Z.lt e /\ (exists i, Z.of_nat (length e) = kc i) /\ forall x, In x e -> 0 <= x < nv) /\
      forall fuel', (fuel <= fuel')%nat -> hypergraph_Gnm nv m method custom kc smp ord fuel' = Some r.
  Proof.
    intros V M W K S O E. unfold hypergraph_Gnm in E. ltb_in E. cbn [andb] in E. rewrite W in E.
    destruct (collect (fun i => Some (zsort (smp i (kc i)))) m fuel 0 []) as [l|] eqn:C; [|discriminate]. injection E as E.
    destruct (collect_some _ _ _ _ C) as (ND & L & F); [constructor|cbn; lia|].
    assert (B : forall e, In e (ord l) -> StronglySorted Z.lt e /\ (exists i, Z.of_nat (length e) = kc i) /\ forall x, In x e -> 0 <= x < nv).
    { intros e I. apply ord_In in I; auto. apply F in I as [[]|(j & _ & Q)]. injection Q as <-. destruct (S j (kc j) (K j)) as (S1 & S2 & S3).
      assert (I : In (zsort (smp j (kc j))) (subsets (Z.to_nat (kc j)) (range nv))) by (apply sample_subset; auto; lia). specialize (K j).
      apply subsets_In in I as (A & L' & I); [|apply range_sorted]. split; auto. split; [exists j; lia|]. intros x J. apply range_In, I; auto. }
    destruct (@h_new_set T N nv (ord l)) as (h & G & Q); [lia|apply ord_NoDup; auto|apply Forall_forall; intros e I; apply SS_lt_le, B; auto|].
    exists h, (ord l). split; [congruence|]. split; auto. split; [apply ord_NoDup; auto|]. split; [rewrite ord_length; auto; lia|]. split; auto.
    intros fuel' LE. unfold hypergraph_Gnm. ltb. cbn [andb]. rewrite W. erewrite collect_mono; [|exact C|exact LE]. congruence.
  Qed.
  Theorem C52_Gnm_ends nv m method custom ws kc smp ord : 1 < nv -> 0 < m -> degree_weights nv method custom = Ok ws ->
    ((exists fuel r, @hypergraph_Gnm T N nv m method custom kc smp ord fuel = Some r) <->
     exists L, NoDup L /\ m <= Z.of_nat (length L) /\ forall e, In e L -> exists i, zsort (smp i (kc i)) = e).
  Proof.
    intros V M W. transitivity (exists fuel l, collect (fun i => Some (zsort (smp i (kc i)))) m fuel 0 [] = Some l).
    - unfold hypergraph_Gnm. ltb. cbn [andb]. rewrite W.
      split; intros (fuel & r & E); exists fuel; destruct (collect (fun i => Some (zsort (smp i (kc i)))) m fuel 0 []) as [l|]; try discriminate; eauto.
    - rewrite collect_ends. split; intros (L & ND & LE & F); exists L; (split; [auto|split; [auto|]]).
      + intros e I. destruct (F _ I) as (i & Q). injection Q as <-. eauto.
      + intros e I. destruct (F _ I) as (i & <-). eauto.
  Qed.

  (** C100: a request for more hyperedges than there are is not refused; the loop never ends *)
  Theorem C100_uniform_actual k nv m smp ord fuel : 1 < k -> k <= nv -> (forall i, sample_of nv k (smp i)) ->
    Z.of_nat (length (subsets (Z.to_nat k) (range nv))) < m -> @uniform_hypergraph_Gnm T N k nv m smp ord fuel = None.
  Proof.
    intros K V S L. unfold uniform_hypergraph_Gnm. replace (nv <? k) with false by (symmetry; apply Z.ltb_ge; lia). ltb. cbn [andb].
    rewrite (@collect_never _ _ _ m (subsets (Z.to_nat k) (range nv))); auto. intros i e Q. injection Q as <-. destruct (S i) as (S1 & S2 & S3). apply sample_subset; auto. lia.
  Qed.
  Theorem C100_Gnm_actual nv m method custom ws kc smp ord fuel : 1 < nv -> degree_weights nv method custom = Ok ws ->
    (forall i, 2 <= kc i <= nv) -> (forall i k, 2 <= k <= nv -> sample_of nv k (smp i k)) -> 2 ^ nv - nv - 1 < m ->
    @hypergraph_Gnm T N nv m method custom kc smp ord fuel = None.
  Proof.
    intros V W K S L. unfold hypergraph_Gnm. destruct (powerset_count (range nv)) as (_ & _ & PC). rewrite range_length in PC.
    assert (G : Z.of_nat (2 ^ Z.to_nat nv) = 2 ^ nv) by (rewrite Nat2Z.inj_pow, Z2Nat.id by lia; reflexivity).
    pose proof (Z.pow_gt_lin_r 2 nv). ltb. cbn [andb]. rewrite W.
    rewrite (@collect_never _ _ _ m (filter big (powerset (range nv)))); auto; [|rewrite PC; lia].
    intros i e Q. injection Q as <-. destruct (S i (kc i) (K i)) as (S1 & S2 & S3). specialize (K i).
    assert (I : In (zsort (smp i (kc i))) (subsets (Z.to_nat (kc i)) (range nv))) by (apply sample_subset; auto; lia).
    apply filter_In. split; [apply powerset_In in I; auto|]. apply subsets_In in I as (_ & L' & _); [|apply range_sorted]. unfold big. apply Nat.leb_le. lia.
  Qed.
  (** with weights that allow only some degrees the same happens earlier *)
  Theorem C100_custom_actual nv m method custom ws kc smp ord fuel ks : 1 < nv -> degree_weights nv method custom = Ok ws ->
    (forall i, In (kc i) ks) -> (forall k, In k ks -> 2 <= k <= nv) -> (forall i k, 2 <= k <= nv -> sample_of nv k (smp i k)) ->
    Z.of_nat (length (flat_map (fun k => subsets (Z.to_nat k) (range nv)) ks)) < m ->
    @hypergraph_Gnm T N nv m method custom kc smp ord fuel = None.
  Proof.
    intros V W KI K S L. unfold hypergraph_Gnm. ltb. cbn [andb]. rewrite W.
    rewrite (@collect_never _ _ _ m (flat_map (fun k => subsets (Z.to_nat k) (range nv)) ks)); auto.
    intros i e Q. injection Q as <-. pose proof (K _ (KI i)) as KB. destruct (S i (kc i) KB) as (S1 & S2 & S3). apply in_flat_map. exists (kc i). split; auto. apply sample_subset; auto; lia.
  Qed.
End C52.

(** the weights of the degrees 2 .. nv (position k - 2 belongs to degree k) *)
Lemma deg_list_length nv : length (deg_list nv) = Z.to_nat (nv - 1).
Proof. unfold deg_list. rewrite map_length, range_length. reflexivity. Qed.
Lemma rsum_pos l : l <> [] -> Forall (fun x => 0 < x)%R l -> (0 < rsum l)%R.
Proof.
  intros NE F. destruct F as [|x l P F]; [congruence|]. clear NE. unfold rsum. cbn [fold_right].
  assert (G : (0 <= fold_right Rplus 0 l)%R) by (clear P; induction F; cbn; lra). lra.
Qed.
Lemma rsum_scale c l : rsum (map (fun x => x / c)%R l) = (rsum l / c)%R.
Proof. unfold rsum. induction l as [|x l IH]; cbn; [unfold Rdiv; ring|]. rewrite IH. unfold Rdiv. ring. Qed.
Lemma normalise_ok l : rsum l <> 0%R -> normalise l = Ok (map (fun x => x / rsum l)%R l) /\ rsum (map (fun x => x / rsum l)%R l) = 1%R.
Proof.
  intros NE. unfold normalise. destruct (Req_EM_T (rsum l) 0) as [C|_]; [contradiction|]. split; auto. rewrite rsum_scale. field. auto.
Qed.
Lemma powers3_pos n : Forall (fun x => 0 < x)%R (powers3 n).
Proof. apply Forall_forall. intros x I. apply in_map_iff in I as (k & <- & _). apply Rinv_0_lt_compat, pow_lt. lra. Qed.
Lemma nth_map_in {A B} (f : A -> B) l k d d' : (k < length l)%nat -> nth k (map f l) d = f (nth k l d').
Proof. intros L. rewrite (nth_indep _ _ (f d')) by (rewrite map_length; auto). apply map_nth. Qed.
Lemma powers3_nth n k : (k < n)%nat -> nth k (powers3 n) 0%R = (/ 3 ^ k)%R.
Proof. intros L. unfold powers3. rewrite (nth_map_in _ _ _ 0%nat) by (rewrite seq_length; auto). rewrite seq_nth; auto. Qed.
Lemma nth_scale l c k : nth k (map (fun x => x / c)%R l) 0%R = (nth k l 0 / c)%R.
Proof. rewrite <- (map_nth (fun x => x / c)%R). f_equal. unfold Rdiv. ring. Qed.
(** C52, the methods: "low_order_first" gives every degree three times the weight of the next one, "high_order_first" one
    third of it, "uniform" the share of the subsets of that size; all weights are positive *)
Theorem C52_weights nv : 1 < nv ->
  (exists ws, degree_weights nv "low_order_first" None = Ok ws /\ Z.of_nat (length ws) = nv - 1 /\ Forall (fun x => 0 < x)%R ws /\ rsum ws = 1%R /\
     forall k, 2 <= k -> k < nv -> nth (Z.to_nat (k - 2)) ws 0%R = (3 * nth (Z.to_nat (k - 1)) ws 0)%R) /\
  (exists ws, degree_weights nv "high_order_first" None = Ok ws /\ Z.of_nat (length ws) = nv - 1 /\ Forall (fun x => 0 < x)%R ws /\ rsum ws = 1%R /\
     forall k, 2 <= k -> k < nv -> (3 * nth (Z.to_nat (k - 2)) ws 0)%R = nth (Z.to_nat (k - 1)) ws 0%R) /\
  (exists ws, degree_weights nv "uniform" None = Ok ws /\ Z.of_nat (length ws) = nv - 1 /\ Forall (fun x => 0 < x)%R ws /\
     forall k, 2 <= k <= nv -> nth (Z.to_nat (k - 2)) ws 0%R = (INR (length (subsets (Z.to_nat k) (range nv))) / (2 ^ Z.to_nat nv - 1))%R).
Proof.
  intros V. assert (PL : length (powers3 (length (deg_list nv))) = Z.to_nat (nv - 1)) by (unfold powers3; rewrite map_length, seq_length; apply deg_list_length).
  assert (NE : powers3 (length (deg_list nv)) <> []) by (intros E; rewrite E in PL; cbn in PL; lia).
  set (l := powers3 (length (deg_list nv))) in *. pose proof (powers3_pos (length (deg_list nv))) as POS. fold l in POS.
  assert (NTH : forall k, (k < Z.to_nat (nv - 1))%nat -> nth k l 0%R = (/ 3 ^ k)%R) by (intros k L; unfold l; apply powers3_nth; rewrite deg_list_length; auto).
  split; [|split].
  - pose proof (rsum_pos NE POS) as SP. destruct (@normalise_ok l) as [E S]; [lra|]. exists (map (fun x => x / rsum l)%R l).
    split; [exact E|]. split; [rewrite map_length, PL; lia|]. split; [|split; auto].
    + apply Forall_forall. intros x I. apply in_map_iff in I as (y & <- & I). rewrite Forall_forall in POS. apply Rdiv_lt_0_compat; auto.
    + intros k K1 K2. rewrite !nth_scale, !NTH by lia. replace (Z.to_nat (k - 1)) with (Datatypes.S (Z.to_nat (k - 2))) by lia. cbn [pow]. field. split; first [lra|apply pow_nonzero; lra].
  - assert (NER : rev l <> []) by (intros E; apply NE; rewrite <- (rev_involutive l), E; reflexivity). pose proof (Forall_rev POS) as POSR.
    pose proof (rsum_pos NER POSR) as SP. destruct (@normalise_ok (rev l)) as [E S]; [lra|]. exists (map (fun x => x / rsum (rev l))%R (rev l)).
    split; [exact E|]. split; [rewrite map_length, rev_length, PL; lia|]. split; [|split; auto].
    + apply Forall_forall. intros x I. apply in_map_iff in I as (y & <- & I). rewrite Forall_forall in POSR. apply Rdiv_lt_0_compat; auto.
    + intros k K1 K2. rewrite !nth_scale, !rev_nth, !PL by (rewrite PL; lia). rewrite !NTH by lia.
      replace (Z.to_nat (nv - 1) - Datatypes.S (Z.to_nat (k - 2)))%nat with (Datatypes.S (Z.to_nat (nv - 1) - Datatypes.S (Z.to_nat (k - 1))))%nat by lia.
      cbn [pow]. field. split; first [lra|apply pow_nonzero; lra].
  - exists (map (fun k => (IZR (C_py nv k) / (2 ^ Z.to_nat nv - 1))%R) (deg_list nv)). split; [reflexivity|]. split; [rewrite map_length, deg_list_length; lia|].
    assert (P2 : (0 < 2 ^ Z.to_nat nv - 1)%R). { assert (1 < 2 ^ Z.to_nat nv)%R by (apply Rlt_pow_R1; [lra|lia]). lra. }
    assert (CV : forall k, 2 <= k <= nv -> IZR (C_py nv k) = INR (length (subsets (Z.to_nat k) (range nv)))) by (intros k K; rewrite C_py_value by lia; rewrite <- INR_IZR_INZ; auto).
    split.
    + apply Forall_forall. intros x I. apply in_map_iff in I as (k & <- & I). unfold deg_list in I. apply in_map_iff in I as (j & <- & I). apply range_In in I.
      apply Rdiv_lt_0_compat; auto. rewrite CV by lia. rewrite subsets_C by (rewrite range_length; lia). rewrite range_length.
      unfold Binomial.C. apply Rdiv_lt_0_compat; [|apply Rmult_lt_0_compat]; apply INR_fact_lt_0.
    + intros k K. rewrite (nth_map_in _ _ _ 0) by (rewrite deg_list_length; lia). unfold deg_list. rewrite (nth_map_in _ _ _ 0) by (rewrite range_length; lia). rewrite range_nth by lia. replace (Z.of_nat (Z.to_nat (k - 2)) + 2) with k by lia. rewrite CV by lia. reflexivity.
Qed.
Theorem C52_custom nv l : 1 < nv ->
  (Z.of_nat (length l) <> nv - 1 -> degree_weights nv "custom" (Some l) = Err AssertionError) /\
  (Z.of_nat (length l) = nv - 1 -> rsum l = 0%R -> degree_weights nv "custom" (Some l) = Err ZeroDivisionError) /\
  (Z.of_nat (length l) = nv - 1 -> rsum l <> 0%R -> exists ws, degree_weights nv "custom" (Some l) = Ok ws /\ rsum ws = 1%R /\
     forall k, nth k ws 0%R = (nth k l 0 / rsum l)%R) /\
  degree_weights nv "custom" None = Err AssertionError /\
  (forall method custom, ~ In method ["uniform"; "low_order_first"; "high_order_first"; "custom"]%string -> degree_weights nv method custom = Err AssertionError).
Proof.
  intros V. unfold degree_weights. cbn [String.eqb]. change (String.eqb "custom" "uniform") with false. change (String.eqb "custom" "low_order_first") with false.
  change (String.eqb "custom" "high_order_first") with false. change (String.eqb "custom" "custom") with true. cbn iota.
  split; [|split; [|split; [|split; [reflexivity|]]]].
  - intros L. replace (Z.of_nat (length l) =? nv - 1) with false by (symmetry; apply Z.eqb_neq; auto). reflexivity.
  - intros L S. rewrite L, Z.eqb_refl. unfold normalise. rewrite S. destruct (Req_EM_T 0 0) as [_|C]; [reflexivity|exfalso; apply C; reflexivity].
  - intros L S. rewrite L, Z.eqb_refl. destruct (normalise_ok _ S) as [E1 E2]. exists (map (fun x => x / rsum l)%R l). split; auto. split; auto. intros k. apply nth_scale.
  - intros method custom NI.
    destruct (String.eqb_spec method "uniform") as [->|]; [exfalso; apply NI; cbn; tauto|]. destruct (String.eqb_spec method "low_order_first") as [->|]; [exfalso; apply NI; cbn; tauto|].
    destruct (String.eqb_spec method "high_order_first") as [->|]; [exfalso; apply NI; cbn; tauto|]. destruct (String.eqb_spec method "custom") as [->|]; [exfalso; apply NI; cbn; tauto|]. reflexivity.
Qed.
(** cases *)
Definition samples3 (i : nat) : list Z := nth i [[2; 0]; [0; 2]; [1; 2]] [0; 1].
Example C52_case : (forall i, sample_of 3 2 (samples3 i)) /\ exists h, @uniform_hypergraph_Gnm Qc _ 2 3 3 samples3 (fun l => l) 4 = Some (Ok h) /\
  snd (h_query (hqE None) h) = Ok (OHE [[0; 2]; [1; 2]; [0; 1]] [n1; n1; n1]).
Proof.
  split; [|eexists; split; reflexivity]. intros i. assert (X : samples3 i = [2; 0] \/ samples3 i = [0; 2] \/ samples3 i = [1; 2] \/ samples3 i = [0; 1]).
  { destruct i as [|[|[|i]]]; cbn; auto. right; right; right. destruct i; reflexivity. }
  unfold sample_of. destruct X as [-> |[-> |[-> | ->]]]; (split; [repeat constructor; cbn; lia|split; [reflexivity|intros x; cbn; lia]]).
Qed.
Example C52_Gnp_case : exists h, @uniform_hypergraph_Gnp Qc _ 3 4 (1 # 2) halves = Ok h /\ snd (h_query (hqE None) h) = Ok (OHE [[0; 1; 2]; [0; 2; 3]] [n1; n1]).
Proof. eexists. split; reflexivity. Qed.
Definition deg_stream (i : nat) : Z := if Nat.even i then 2 else 3.
Example C52_Gnm_case : exists ws h, degree_weights 3 "low_order_first" None = Ok ws /\ (forall i, 2 <= deg_stream i <= 3) /\ (forall k, 2 <= k <= 3 -> sample_of 3 k (range k)) /\
  @hypergraph_Gnm Qc _ 3 2 "low_order_first" None deg_stream (fun _ k => range k) (fun l => l) 2 = Some (Ok h) /\
  snd (h_query (hqE None) h) = Ok (OHE [[0; 1]; [0; 1; 2]] [n1; n1]).
Proof.
  destruct (@C52_weights 3) as ((ws & E & _) & _); [lia|]. exists ws. eexists. split; [exact E|]. split; [intros i; unfold deg_stream; destruct (Nat.even i); lia|].
  split; [|split; [unfold hypergraph_Gnm; rewrite E; reflexivity|reflexivity]].
  intros k K. split; [apply range_NoDup|]. split; [rewrite range_length; lia|]. intros x I. apply range_In in I. lia.
Qed.
(** a 2-uniform hypergraph on 3 vertices has at most 3 hyperedges *)
Example C100_case fuel : @uniform_hypergraph_Gnm Qc _ 2 3 4 samples3 (fun l => l) fuel = None.
Proof. apply C100_uniform_actual; [lia|lia|apply C52_case|vm_compute; reflexivity]. Qed.
