(** Custom message weights and the kNN construction of a DiGraph. *)
From Coq Require Import Ring Permutation Sorted Reals Lra.
From Verif Require Import Num PyDict PyDictFacts Coo CooFacts MatFacts RealFacts ModelBase CacheFacts ModelGraph GraphFacts
  SpecGraph SpecGraphOps StoreFacts RebuildFacts GraphMatrix GraphLaplace GraphReach SoftmaxFacts ModelDiGraph SpecDiGraph DiGraphFacts.
Set Implicit Arguments.
Local Open Scope Z_scope.

Section Weighted.
  Context {T : Type} `{N : Num T}.
  Variables (s : digraph T) (g : agraph T) (nv : Z).
  Hypothesis R : drel (st_raw s) g.
  Hypothesis C : coh dspec s.
  Hypothesis NV : r_nv (st_raw s) = nv.
  Hypothesis POS : 0 < nv.
  Hypothesis IR : in_range nv g.

  Lemma dquery_weighted (w : list T) src dst :
    snd (d_query dqSrc s) = Ok (OIdx src) -> snd (d_query dqDst s) = Ok (OIdx dst) -> length w = length src ->
    forall (s2d : bool), let P := coalesce (if s2d then ctrans (combine (combine src dst) w) else combine (combine src dst) w) in
      (forall X, snd (d_query (dqV2v X AggrSum (Some w) (Some s2d) None) s) = Ok (OVals (map (spmv P X) (range nv))) /\
      snd (d_query (dqV2v X AggrMean (Some w) (Some s2d) None) s) = Ok (OVals (map (mean_weighted P X) (range nv))) /\
      snd (d_query (dqV2v X AggrSoftmax (Some w) (Some s2d) None) s) = Ok (OVals (map (spmv (csoftmax P) X) (range nv)))) /\
      (forall i j, In (i, j) (combine src dst) <-> a_edge g i j /\ 0 <= i < nv /\ 0 <= j < nv) /\
      map fst (combine (combine src dst) w) = combine src dst.
  Proof.
    rewrite (good_answer (dgood_query dqSrc) C), (good_answer (dgood_query dqDst) C). cbn [dp_query].
    rewrite (q_A_eq s R NV POS IR). cbn [res_map].
    intros E1 E2 L s2d. cbv zeta. injection E1 as <-. injection E2 as <-.
    assert (LA : length w = length (dA s)) by (rewrite L; unfold rows; apply map_length).
    assert (K := keys_rows_cols (dA s)). split; [intros X|split].
    - rewrite !(good_answer (dgood_query _) C). cbn [dp_query]. unfold q_v2v; cbn [aggr_ok].
      rewrite (q_A_eq s R NV POS IR). cbn [res_bind]. rewrite LA, Nat.eqb_refl.
      cbn [cdrop_opt]. rewrite NV. unfold with_vals. rewrite <- K. auto.
    - intros i j. rewrite K. apply (dA_keys s R NV IR).
    - apply combine_keys. rewrite K, map_length; exact LA.
  Qed.
End Weighted.

Section WeightedSum.
  Context {T : Type} `{N : Num T}.
  Context (RT : ring_theory (@nz T N) n1 nadd nmul nsub nopp eq).
  Lemma spmv_dir (B : coo T) (s2d : bool) X i :
    spmv (coalesce (if s2d then ctrans B else B)) X i =
    sumf B (fun x => if (if s2d then snd (fst x) else fst (fst x)) =? i
                     then nmul (snd x) (X (if s2d then fst (fst x) else snd (fst x))) else nz).
  Proof.
    rewrite (spmv_coalesce RT). destruct s2d.
    - unfold ctrans, spmv. rewrite sumf_map. apply sumf_ext. intros x. cbn [fst snd]. rewrite Zeqb_unf, Z.eqb_sym. reflexivity.
    - unfold spmv. apply sumf_ext. intros x. rewrite Zeqb_unf, Z.eqb_sym. reflexivity.
  Qed.
  Lemma rowsum_dir (B : coo T) (s2d : bool) i :
    rowsum (coalesce (if s2d then ctrans B else B)) i =
    sumf B (fun x => if (if s2d then snd (fst x) else fst (fst x)) =? i then snd x else nz).
  Proof.
    rewrite (rowsum_coalesce RT). destruct s2d.
    - unfold ctrans, rowsum. rewrite sumf_map. apply sumf_ext. intros x. cbn [fst snd]. rewrite Zeqb_unf, Z.eqb_sym. reflexivity.
    - unfold rowsum. apply sumf_ext. intros x. rewrite Zeqb_unf, Z.eqb_sym. reflexivity.
  Qed.
End WeightedSum.

Section WeightedR.
  Variables (s : digraph R) (g : agraph R) (nv : Z).
  Hypothesis RR : drel (st_raw s) g.
  Hypothesis C : coh dspec s.
  Hypothesis NV : r_nv (st_raw s) = nv.
  Hypothesis POS : 0 < nv.
  Hypothesis IR : in_range nv g.
  Lemma is_softmax_iff m E E' w w' c : (forall i j, E i j <-> E' i j) -> (forall i j, w i j = w' i j) -> is_softmax m E w c -> is_softmax m E' w' c.
  Proof.
    intros EE WW (A & B & D & S). split; [|split; [|split]].
    - intros i j I. apply A, EE; auto.
    - intros i j I. apply B. rewrite EE; auto.
    - intros i j k I J. rewrite <- !WW. apply D; apply EE; auto.
    - intros i (j & I). apply S. exists j. apply EE; auto.
  Qed.
  Lemma dquery_softmax (w : list R) src dst (s2d : bool) :
    snd (d_query dqSrc s) = Ok (OIdx src) -> snd (d_query dqDst s) = Ok (OIdx dst) -> length w = length src ->
    exists c, is_softmax nv (fun i j => (if s2d then a_edge g j i else a_edge g i j) /\ 0 <= i < nv /\ 0 <= j < nv)
       (fun i j => mget (combine (combine src dst) w) (if s2d then j else i) (if s2d then i else j)) c /\
      forall X, exists f, snd (d_query (dqV2v X AggrSoftmax (Some w) (Some s2d) None) s) = Ok (OVals (map f (range nv))) /\
        forall i, f i = sumf (range nv) (fun j => c i j * X j)%R.
  Proof.
    intros E1 E2 L. destruct (dquery_weighted RR C NV POS IR w E1 E2 L s2d) as (Q & KE & KF). cbv zeta in *.
    set (B := combine (combine src dst) w) in *.
    set (P := coalesce (if s2d then ctrans B else B)) in *.
    assert (PK : forall i j, In (i, j) (map fst P) <-> (if s2d then a_edge g j i else a_edge g i j) /\ 0 <= i < nv /\ 0 <= j < nv).
    { intros i j. unfold P. rewrite coalesce_keys. destruct s2d.
      - rewrite ctrans_keys, KF, KE. tauto.
      - rewrite KF, KE. tauto. }
    destruct (@softmax_dense nv nv P) as (SM & SV).
    - intros i j I. apply PK in I; tauto.
    - apply coalesce_nodup.
    - exists (fun i j => mget (csoftmax P) i j). split.
      + eapply is_softmax_iff; [exact PK| |exact SM]. intros i j. unfold P. rewrite (mget_coalesce RT). destruct s2d; [rewrite mget_ctrans|]; reflexivity.
      + intros X. destruct (Q X) as (_ & _ & A). eexists; split; [exact A|]. intros i. apply SV.
  Qed.
  Lemma dquery_softmax_plain (s2d : bool) :
    exists c, is_softmax nv (fun i j => (if s2d then a_edge g j i else a_edge g i j) /\ 0 <= i < nv /\ 0 <= j < nv)
       (fun i j => a_adj g (if s2d then j else i) (if s2d then i else j)) c /\
      forall X, exists f, snd (d_query (dqV2v X AggrSoftmax None (Some s2d) None) s) = Ok (OVals (map f (range nv))) /\
        forall i, f i = sumf (range nv) (fun j => c i j * X j)%R.
  Proof.
    set (P := if s2d then dAT s else dA s).
    assert (PK : forall i j, In (i, j) (map fst P) <-> (if s2d then a_edge g j i else a_edge g i j) /\ 0 <= i < nv /\ 0 <= j < nv).
    { intros i j. unfold P. destruct s2d; [apply (dAT_keys s RR NV IR)|apply (dA_keys s RR NV IR)]. }
    destruct (@softmax_dense nv nv P) as ((A & B & D & S) & SV).
    - intros i j I. apply PK in I; tauto.
    - unfold P; destruct s2d; apply coalesce_nodup.
    - exists (fun i j => mget (csoftmax P) i j). split.
      + split; [|split; [|split]].
        * intros i j I. apply A, PK; auto.
        * intros i j I. apply B. rewrite PK; auto.
        * intros i j k I J.
          assert (W : forall i j, 0 <= i < nv -> 0 <= j < nv -> mget P i j = a_adj g (if s2d then j else i) (if s2d then i else j)).
          { intros a b Ia Ib. unfold P. destruct s2d; [apply (mget_dAT RT s RR NV); auto | apply (mget_dA RT s RR NV); auto]. }
          rewrite <- !W by tauto. apply D; apply PK; auto.
        * intros i (j & I). apply S. exists j. apply PK; auto.
      + intros X. eexists. split; [|intros i; apply SV].
        rewrite (good_answer (dgood_query _) C). cbn [dp_query]. unfold q_v2v; cbn [aggr_ok].
        rewrite (q_A_eq s RR NV POS IR), (q_AT_eq s RR NV POS IR). unfold P. destruct s2d; cbn [res_bind res_map cdrop_opt]; rewrite NV; reflexivity.
  Qed.
End WeightedR.

(** * kNN *)
Section KNN.
  (** what the k-d tree must return for vertex [v]: [tk] distinct vertices with their distances,
      nearest first, none of them farther than a vertex left out *)
  Definition knn_row (nv tk : Z) (dist : Z -> Z -> R) (v : Z) (row : list (Z * R)) : Prop :=
    length row = Z.to_nat tk /\ NoDup (map fst row) /\
    Forall (fun x => 0 <= fst x < nv /\ snd x = dist v (fst x)) row /\
    StronglySorted (fun x y => snd x <= snd y)%R row /\
    (forall x u, In x row -> 0 <= u < nv -> ~ In u (map fst row) -> (snd x <= dist v u)%R).

  (** the nearest vertex of [v] is [v] itself when the points are pairwise different *)
  Lemma knn_head nv tk dist v row : knn_row nv tk dist v row -> 0 < tk -> 0 <= v < nv ->
    dist v v = 0%R -> (forall u, u <> v -> (0 < dist v u)%R) ->
    exists d rest, row = (v, d) :: rest.
  Proof.
    intros (L & ND & F & S & O) P V Z0 DP. destruct row as [|[a d] rest]; [cbn in L; lia|].
    destruct (Z.eq_dec a v) as [->|Na]; eauto. exfalso.
    inversion F as [|? ? [Ra Da] F']; subst. cbn in *. inversion S as [|? ? S' FS]; subst.
    destruct (in_dec Z.eq_dec v (map fst rest)) as [I|NI].
    - apply in_map_iff in I as ([u e] & <- & I). cbn in *. rewrite Forall_forall in F', FS.
      specialize (F' _ I). specialize (FS _ I). cbn in *. pose proof (DP a Na). destruct F' as [_ ->]. lra.
    - specialize (O (a, dist v a) v (or_introl eq_refl) V). cbn in O. pose proof (DP a Na).
      assert (dist v a <= dist v v)%R by (apply O; intuition). lra.
  Qed.
  Context (nv k : Z) (dist : Z -> Z -> R) (nbr : Z -> list (Z * R)).
  Let rowsl := flat_map (fun v => map (fun x => (v, x)) (tl (nbr v))) (range nv).
  Lemma rows_In v x : In (v, x) rowsl <-> 0 <= v < nv /\ In x (tl (nbr v)).
  Proof.
    unfold rowsl. rewrite in_flat_map. split.
    - intros (u & Iu & I). apply in_map_iff in I as (y & E & I). injection E as -> ->. apply range_In in Iu; auto.
    - intros [V I]. exists v. split; [apply range_In; auto|]. apply in_map_iff; eauto.
  Qed.
End KNN.
Lemma NoDup_app_intro {A} (l1 l2 : list A) : NoDup l1 -> NoDup l2 -> (forall x, In x l1 -> ~ In x l2) -> NoDup (l1 ++ l2).
Proof.
  induction l1 as [|a l1 IH]; intros N1 N2 D; cbn; auto.
  inversion N1; subst. constructor.
  - rewrite in_app_iff. intros [I|I]; [contradiction|]. apply (D a); cbn; auto.
  - apply IH; auto. intros x I. apply D; cbn; auto.
Qed.
Lemma NoDup_flat_map {A B} (f : A -> list B) l : NoDup l -> (forall a, In a l -> NoDup (f a)) ->
  (forall a b x, In a l -> In b l -> In x (f a) -> In x (f b) -> a = b) -> NoDup (flat_map f l).
Proof.
  induction l as [|a l IH]; intros N D X; cbn; [constructor|]. inversion N; subst.
  apply NoDup_app_intro.
  - apply D; cbn; auto.
  - apply IH; auto. intros; apply D; cbn; auto. intros; eapply X; cbn; eauto.
  - intros x I1 I2. apply in_flat_map in I2 as (b & Ib & I2). assert (a = b) by (eapply X; cbn; eauto). congruence.
Qed.

Section AddDistinct.
  Context {T : Type} `{N : Num T}.
  Lemma add_distinct m ps (g : wmap T) a b w : NoDup (map fst ps) -> (forall k, In k (map fst ps) -> g (fst k) (snd k) = None) ->
    (fold_left (fun g x => a_add same_directed m x g) ps g a b = Some w <-> In ((a, b), w) ps \/ g a b = Some w).
  Proof.
    revert g; induction ps as [|[[c d] v] ps IH]; intros g ND F; cbn [fold_left]; [cbn; tauto|].
    cbn in ND. inversion ND as [|? ? NI ND']; subst.
    assert (G0 : g c d = None) by (apply (F (c, d)); cbn; auto).
    rewrite IH; auto.
    - unfold a_add; cbn [fst snd]. unfold same_directed.
      destruct (Z.eqb_spec a c) as [->|Na]; [destruct (Z.eqb_spec b d) as [->|Nb]|]; cbn [andb].
      + rewrite !Z.eqb_refl. cbn. rewrite G0. cbn. split.
        * intros [I|E]; [|injection E as <-; auto]. exfalso. apply NI. apply in_map_iff. exists ((c, d), w); auto.
        * intros [[E|I]|E]; [injection E as <-; auto| |discriminate]. auto.
      + replace (d =? b) with false by (symmetry; apply Z.eqb_neq; auto). rewrite andb_false_r. cbn.
        intuition. congruence.
      + replace (c =? a) with false by (symmetry; apply Z.eqb_neq; auto). cbn. intuition. congruence.
    - intros k I. unfold a_add; cbn [fst snd]. unfold same_directed.
      destruct (Z.eqb_spec c (fst k)) as [E1|]; cbn; [destruct (Z.eqb_spec d (snd k)) as [E2|]; cbn|]; try (apply F; cbn; auto; fail).
      exfalso. apply NI. rewrite E1, E2, <- surjective_pairing. auto.
  Qed.
End AddDistinct.

Lemma tl_In {A} (x : A) l : In x (tl l) -> In x l.
Proof. destruct l; cbn; auto. Qed.
Lemma same_length {A} (l1 l2 : list A) : NoDup l1 -> NoDup l2 -> (forall x, In x l1 <-> In x l2) -> length l1 = length l2.
Proof.
  intros N1 N2 E. apply Nat.le_antisymm; apply NoDup_incl_length; auto; intros x I; apply E; auto.
Qed.

Section KNNmain.
  Context (nv k : Z) (dist : Z -> Z -> R) (nbr : Z -> list (Z * R)) (dw center as_src : bool).
  Let tk := if center then k else k + 1.
  Hypothesis TK : 2 <= tk.
  Hypothesis KN : k <= nv.
  Hypothesis POS : 0 < nv.
  Hypothesis ROW : forall v, 0 <= v < nv -> knn_row nv tk dist v (nbr v).
  Hypothesis D0 : forall v, 0 <= v < nv -> dist v v = 0%R.
  Hypothesis DP : forall u v, u <> v -> (0 < dist v u)%R.

  Lemma tail_facts v : 0 <= v < nv ->
    NoDup (map fst (tl (nbr v))) /\ ~ In v (map fst (tl (nbr v))) /\ length (tl (nbr v)) = Z.to_nat (tk - 1) /\
    (forall x, In x (tl (nbr v)) -> 0 <= fst x < nv /\ snd x = dist v (fst x)) /\
    (forall x u, In x (tl (nbr v)) -> 0 <= u < nv -> u <> v -> ~ In u (map fst (tl (nbr v))) -> (snd x <= dist v u)%R).
  Proof.
    intros V. pose proof (ROW V) as RW.
    destruct (knn_head RW) as (d & rest & E); [lia|auto|apply D0; auto|intros; apply DP; auto|].
    destruct RW as (L & ND & F & S & O). rewrite E in *. cbn in *.
    inversion ND; subst. inversion F as [|? ? _ F']; subst. rewrite Forall_forall in F'. repeat split; auto; try lia.
    - apply F'; auto.
    - apply F'; auto.
    - apply F'; auto.
    - intros x u I U NU NI. apply O; auto. intuition.
  Qed.
  Let rowsl := flat_map (fun v => map (fun x => (v, x)) (tl (nbr v))) (range nv).
  Let dir (p : Z * Z) := if as_src then p else (snd p, fst p).
  Let es := map (fun p : Z * (Z * R) => if as_src then (fst p, fst (snd p)) else (fst (snd p), fst p)) rowsl.
  Let ws := map (fun p : Z * (Z * R) => if dw then nexp (nopp (snd (snd p))) else n1) rowsl.
  Let wgt (d : R) : R := if dw then exp (- d) else 1%R.
  Lemma es_nodup : NoDup es.
  Proof.
    unfold es, rowsl. rewrite flat_map_concat_map, concat_map, map_map, <- flat_map_concat_map.
    apply NoDup_flat_map; [apply range_nodup| |].
    - intros v I. apply range_In in I. destruct (tail_facts I) as (ND & _). rewrite map_map. cbn.
      revert ND. generalize (tl (nbr v)). intros l; induction l as [|[a d] l IH]; cbn; intros ND; constructor.
      + inversion ND; subst. intros I2. apply in_map_iff in I2 as ([b e] & E & I2). cbn in E.
        assert (a = b) by (destruct as_src; congruence). subst. apply H1. apply in_map_iff. exists (b, e); auto.
      + inversion ND; auto.
    - intros a b x Ia Ib I1 I2. rewrite map_map in I1, I2. apply in_map_iff in I1 as (y & E1 & I1). apply in_map_iff in I2 as (z & E2 & I2).
      cbn in *. apply range_In in Ia, Ib. destruct as_src; congruence.
  Qed.
  Lemma combine_map2 {A B C} (f : A -> B) (h : A -> C) l : combine (map f l) (map h l) = map (fun a => (f a, h a)) l.
  Proof. induction l; cbn; congruence. Qed.
  Lemma pairs_In a b w : In ((a, b), w) (combine es ws) <->
    exists u v d, (a, b) = dir (v, u) /\ 0 <= v < nv /\ In (u, d) (tl (nbr v)) /\ w = wgt d.
  Proof.
    unfold es, ws. rewrite combine_map2, in_map_iff. split.
    - intros ([v [u d]] & E & I). apply (rows_In nv nbr) in I as [V I]. cbn in E. exists u, v, d.
      unfold dir, wgt. destruct as_src, dw; injection E as <- <- <-; cbn; auto.
    - intros (u & v & d & E & V & I & ->). exists (v, (u, d)). split.
      + unfold dir, wgt in *. cbn in *. destruct as_src, dw; congruence.
      + apply (rows_In nv nbr). auto.
  Qed.
  Lemma knn_built : exists s, d_knn nv k nbr dw center as_src = Ok s /\
    drel (st_raw s) (mkA (fold_left (fun g x => a_add same_directed MMean x g) (combine es ws) empty_map) center) /\
    coh dspec s /\ r_nv (st_raw s) = nv.
  Proof.
    unfold d_knn. replace (k <=? nv) with true by (symmetry; apply Z.leb_le; auto).
    fold tk. replace (tk =? 1) with false by (symmetry; apply Z.eqb_neq; lia). cbv zeta. fold rowsl. fold es. fold ws.
    assert (LW : length ws = length es) by (unfold ws, es; rewrite !map_length; auto).
    assert (EO : endpoints_ok nv es = true).
    { unfold endpoints_ok. apply forallb_forall. intros [a b] I.
      rewrite <- (@combine_keys _ _ es ws LW) in I. apply in_map_iff in I as ([[a' b'] w] & E & I). cbn in E. injection E as -> ->.
      apply pairs_In in I as (u & v & d & E & V & I & _). destruct (tail_facts V) as (_ & _ & _ & F & _). specialize (F _ I). cbn in F.
      unfold dir in E. cbn. apply andb_true_iff. rewrite !Z.ltb_lt. cbn in E. destruct as_src; injection E as -> ->; lia. }
    assert (NE : earg_empty (EMany es) = false).
    { cbn. assert (0 <= 0 < nv) as V0 by lia. destruct (tail_facts V0) as (_ & _ & L & _).
      destruct (nbr 0) as [|x0 [|x1 r]] eqn:E; cbn in L; try lia.
      destruct es as [|p l] eqn:EE; auto. exfalso.
      assert (X : In (0, x1) rowsl) by (apply rows_In; rewrite E; cbn; auto).
      apply (in_map (fun p : Z * (Z * R) => if as_src then (fst p, fst (snd p)) else (fst (snd p), fst p))) in X.
      fold es in X. rewrite EE in X. destruct X. }
    destruct (d_new nv (Some (EMany es)) (WList ws) false MMean) as [s|x] eqn:E.
    - destruct (dnew_rel _ _ _ _ _ E) as (R & [C _] & NV & _).
      unfold d_spec_new, a_add_edges in R. cbn [pairs_of edges_of] in R. rewrite EO in R. cbn [known orb andb] in R.
      destruct center.
      + eexists; split; [reflexivity|]. split; [|split; [apply coh_empty|exact NV]].
        apply (@set_extra_rel _ norm_dir true s _ R).
      + exists s. auto.
    - exfalso. revert E. unfold d_new. replace (0 <? nv) with true by (symmetry; apply Z.ltb_lt; auto).
      unfold d_add_edges. destruct (add_edges norm_dir (EMany es) (WList ws) MMean (mkSt (mkRaw nv [] [] false) [])) as [s' o] eqn:A.
      apply add_edges_outcome in A as [(x' & -> & -> & EE & D)|[(-> & _ & _)|(-> & _)]]; try discriminate.
      intros _. cbn [st_raw r_nv edges_of] in D. destruct D as [D|[D|(D & _)]]; try discriminate. rewrite EO in D. discriminate.
  Qed.
  Definition knn_graph : wmap R := fold_left (fun g x => a_add same_directed MMean x g) (combine es ws) empty_map.
  Lemma knn_map v u w : knn_graph (fst (dir (v, u))) (snd (dir (v, u))) = Some w <->
    0 <= v < nv /\ exists d, In (u, d) (tl (nbr v)) /\ w = wgt d.
  Proof.
    assert (LW : length ws = length es) by (unfold ws, es; rewrite !map_length; auto).
    unfold knn_graph. rewrite add_distinct.
    - rewrite <- surjective_pairing. rewrite (surjective_pairing (dir (v, u))), pairs_In. split.
      + intros [(u' & v' & d & E & V & I & ->)|E]; [|discriminate].
        unfold dir in E; cbn in E. destruct as_src; injection E as -> ->; eauto.
      + intros (V & d & I & ->). left. exists u, v, d. rewrite <- surjective_pairing. auto.
    - rewrite combine_keys by auto. apply es_nodup.
    - reflexivity.
  Qed.
End KNNmain.

Section KNNresult.
  Local Open Scope Z_scope.
  Lemma knn_main nv k dist nbr (dw center as_src : bool) :
    let tk := if center then k else k + 1 in
    2 <= tk -> k <= nv -> 0 < nv ->
    (forall v, 0 <= v < nv -> knn_row nv tk dist v (nbr v)) ->
    (forall v, 0 <= v < nv -> dist v v = 0%R) -> (forall u v, u <> v -> (0 < dist v u)%R) ->
    exists s A, d_knn nv k nbr dw center as_src = Ok s /\ snd (d_query dqA s) = Ok (OM A) /\
    forall v, 0 <= v < nv -> exists l,
      snd (d_query (if as_src then dqNout v else dqNin v) s) = Ok (OIdx l) /\ NoDup l /\ length l = Z.to_nat k /\
      (In v l <-> center = true) /\
      (forall u u', In u l -> 0 <= u' < nv -> ~ In u' l -> u' <> v -> (dist v u <= dist v u')%R) /\
      (forall u, In u l -> mget A (if as_src then v else u) (if as_src then u else v) =
         if u =? v then 1%R else if dw then exp (- dist v u) else 1%R).
  Proof.
    intros tk TK KN POS ROW D0 DP.
    destruct (@knn_built nv k dist nbr dw center as_src TK KN POS ROW D0 DP) as (s & E & RR & C & NV).
    set (gw := fold_left _ _ empty_map) in RR. set (g := mkA gw center) in *.
    assert (KM : forall v u w, gw (if as_src then v else u) (if as_src then u else v) = Some w <->
      0 <= v < nv /\ exists d, In (u, d) (tl (nbr v)) /\ w = if dw then exp (- d) else 1%R).
    { intros v u w. pose proof (@knn_map nv k dist nbr dw center as_src TK ROW D0 DP v u w) as K.
      unfold knn_graph in K. fold gw in K. destruct as_src; exact K. }
    assert (TF := @tail_facts nv k dist nbr center TK ROW D0 DP).
    assert (IR : in_range nv g).
    { intros a b I. cbn in I. destruct (gw a b) as [w|] eqn:G; [|congruence].
      set (v := if as_src then a else b). set (u := if as_src then b else a).
      assert (0 <= v < nv /\ exists d, In (u, d) (tl (nbr v)) /\ w = if dw then exp (- d) else 1%R) as (V & d & I2 & _).
      { apply KM. unfold u, v. destruct as_src; exact G. }
      destruct (TF v V) as (_ & _ & _ & F & _). specialize (F _ I2). cbn in F. unfold u, v in *. destruct as_src; lia. }
    destruct (dquery_A RT RR C NV POS IR) as (A & _ & EA & _ & MA & _).
    exists s, A. split; auto. split; auto. intros v V.
    destruct (dquery_nbr RR C NV POS IR V) as (li & lo & Ei & Eo & Ni & No & Mi & Mo).
    set (l := if as_src then lo else li).
    assert (ML : forall u, In u l <-> In u (map fst (tl (nbr v))) \/ (u = v /\ center = true)).
    { intros u. assert (X : In u l <-> (gw (if as_src then v else u) (if as_src then u else v) <> None \/ (u = v /\ center = true))).
      { unfold l. destruct as_src; [rewrite Mo|rewrite Mi]; unfold a_edge; cbn; intuition. }
      rewrite X. apply or_iff_compat_r. destruct (gw (if as_src then v else u) (if as_src then u else v)) as [w|] eqn:G.
      - apply KM in G as (_ & d & I & _). split; [|congruence]. intros _. apply in_map_iff. exists (u, d); auto.
      - split; [congruence|]. intros I. apply in_map_iff in I as ([u' d] & E' & I). cbn in E'. subst u'.
        intros _. assert (gw (if as_src then v else u) (if as_src then u else v) = Some (if dw then exp (- d) else 1%R)) by (apply KM; eauto).
        congruence. }
    destruct (TF v V) as (ND & NV' & LT & F & O).
    assert (NL : NoDup l) by (unfold l; destruct as_src; auto).
    exists l. split; [unfold l; destruct as_src; auto|]. split; auto. split; [|split; [|split]].
    - destruct center.
      + transitivity (length (v :: map fst (tl (nbr v)))).
        * apply same_length; auto; [constructor; auto|]. intros x. rewrite ML. cbn. intuition.
        * cbn [length]. rewrite map_length, LT. subst tk. lia.
      + transitivity (length (map fst (tl (nbr v)))).
        * apply same_length; auto. intros x. rewrite ML. intuition discriminate.
        * rewrite map_length, LT. subst tk. lia.
    - rewrite ML. tauto.
    - intros u u' I U' NI NE. rewrite ML in I, NI.
      destruct I as [I|[-> _]].
      + apply in_map_iff in I as ([x d] & Ex & I). cbn in Ex. subst x. specialize (F _ I) as (_ & Ed). cbn in Ed. rewrite <- Ed.
        apply (O (u, d) u' I U' NE). tauto.
      + rewrite D0 by auto. pose proof (DP u' v NE). lra.
    - intros u I. pose proof I as I'. rewrite ML in I.
      assert (U : 0 <= u < nv).
      { destruct I as [I|[-> _]]; auto. apply in_map_iff in I as (x & <- & I). apply F; auto. }
      rewrite MA by (destruct as_src; auto). unfold a_adj. cbn [aw ax g].
      destruct (Z.eqb_spec u v) as [->|Nuv].
      + replace (_ =? _) with true by (symmetry; destruct as_src; apply Z.eqb_refl).
        destruct I as [I|[_ ->]]; [contradiction|]. cbn [andb].
        destruct (gw (if as_src then v else v) (if as_src then v else v)) as [w|] eqn:G.
        * apply KM in G as (_ & d & I & _). exfalso. apply NV'. apply in_map_iff. exists (v, d); auto.
        * cbn. lra.
      + replace ((if as_src then v else u) =? (if as_src then u else v)) with false by (symmetry; apply Z.eqb_neq; destruct as_src; auto).
        destruct I as [I|[? _]]; [|contradiction].
        apply in_map_iff in I as ([x d] & Ex & I). cbn in Ex. subst x.
        assert (G : gw (if as_src then v else u) (if as_src then u else v) = Some (if dw then exp (- d) else 1%R)) by (apply KM; eauto).
        rewrite G. specialize (F _ I) as (_ & Ed). cbn in Ed. rewrite <- Ed. cbn. lra.
  Qed.
End KNNresult.

Section Reversal.
  Local Open Scope Z_scope.
  Context {T : Type} `{N : Num T}.
  Lemma adj_reverse (g : agraph T) i j : a_adj (a_reverse g) j i = a_adj g i j.
  Proof. unfold a_adj; cbn. rewrite (Z.eqb_sym j i). reflexivity. Qed.
  Lemma edge_reverse (g : agraph T) i j : a_edge (a_reverse g) j i <-> a_edge g i j.
  Proof. unfold a_edge; cbn. intuition. Qed.
  Lemma reverse_raw_invol (r : raw T) g : drel r g -> reverse_raw (reverse_raw r) = r.
  Proof.
    intros (W & _). pose proof (wf_e W) as WE. destruct r as [n e l x]. unfold reverse_raw at 1.
    rewrite (reverse_re (mkRaw n e l x) WE). cbn [r_nv r_loop r_extra reverse_raw r_e]. cbn [r_e] in WE.
    rewrite map_map. cbn [fst snd].
    rewrite (map_ext _ (fun kv => kv)); [rewrite map_id|].
    - rewrite dict_of_nodup; auto.
    - intros [k v]. cbn. rewrite swap_swap. reflexivity.
  Qed.
  Lemma reverse_safe_app nv (ops1 ops2 : list (dop T)) c :
    reverse_safe nv c (ops1 ++ ops2) = reverse_safe nv c ops1 && reverse_safe nv (fold_left (clean_step nv) ops1 c) ops2.
  Proof. revert c; induction ops1 as [|o ops1 IH]; intros c; cbn; auto. rewrite IH, andb_assoc. reflexivity. Qed.
  Lemma drun_cstate ops (s : digraph T) nv c g : drel (st_raw s) g -> r_nv (st_raw s) = nv -> cstate c s ->
    reverse_safe nv c ops = true -> cstate (fold_left (clean_step nv) ops c) (fst (d_run ops s)).
  Proof.
    revert s c g; induction ops as [|o ops IH]; intros s c g R NN CS SF; cbn [d_run fold_left]; [exact CS|].
    cbn in SF. apply andb_true_iff in SF as [S1 S2].
    pose proof (dstep_rel o s R) as [R1 N1]. rewrite NN in N1.
    assert (CS1 : cstate (clean_step nv c o) (fst (d_step o s))).
    { apply clean_step_state; auto. intros ->; auto. }
    destruct (d_step o s) as [s1 x]; cbn [fst] in *.
    specialize (IH s1 _ _ R1 N1 CS1 S2). destruct (d_run ops s1); exact IH.
  Qed.
  Lemma reverse_state nv e w ex m ops (s : digraph T) : d_reach nv e w ex m ops s -> reverse_safe nv true (ops ++ [dReverse]) = true ->
    let g := d_spec nv e w ex m ops in let s' := fst (d_reverse s) in
    drel (st_raw s) g /\ coh dspec s /\ drel (st_raw s') (a_reverse g) /\ coh dspec s' /\
    (forall q, snd (d_query q (fst (d_reverse s'))) = snd (d_query q s)) /\
    r_nv (st_raw s) = nv /\ 0 < nv.
  Proof.
    intros H SF. cbv zeta. rewrite reverse_safe_app in SF. apply andb_true_iff in SF as [S1 S2]. cbn in S2. rewrite andb_true_r in S2.
    destruct (dreach_rel H S1) as (R & C & NV & P).
    assert (E : st_cache s = []).
    { destruct H as (s0 & E0 & ->). destruct (dnew_rel _ _ _ _ _ E0) as (R0 & C0 & NV0 & _).
      apply (drun_cstate ops R0 NV0 C0 S1). exact S2. }
    split; auto. split; auto. split; [apply reverse_rel; auto|]. split; [apply coh_nocache; exact E|]. split; auto.
    intros q. unfold d_reverse; cbn [fst st_raw st_cache]. rewrite (reverse_raw_invol R).
    rewrite (st_eta s). reflexivity.
  Qed.
  (** a memoised answer survives the reversal *)
  Lemma memo_answers (s : digraph T) g nv : drel (st_raw s) g -> coh dspec s -> r_nv (st_raw s) = nv -> 0 < nv -> in_range nv g ->
    forall q : dquery T, In q [dqE; dqA; dqAT; dqDin; dqDout; dqDin1; dqDout1] ->
    exists (k : ckey) (v : cval T), dget k (st_cache (fst (d_query q s))) = Some v /\ True /\
      snd (d_query q (fst (d_reverse (fst (d_query q s))))) = snd (d_query q s).
  Proof.
    intros R C NV P IR.
    assert (HIT : forall (key : ckey) (g1 : M T (raw T) (coo T)) f, good dspec (memoM key g1) f ->
      (exists m, f (st_raw s) = Ok m) ->
      exists (k : ckey) (v : cval T), dget k (st_cache (fst (oM (memoM key g1) s))) = Some v /\ True /\
      snd (oM (memoM key g1) (fst (d_reverse (fst (oM (memoM key g1) s))))) = snd (oM (memoM key g1) s)).
    { intros key g1 f G (m & Em). exists key, (VM m). pose proof (good_answer G C) as A. rewrite Em in A.
      assert (X : memoM key g1 s = (fst (memoM key g1 s), Ok m)) by (rewrite <- A; apply surjective_pairing).
      assert (Y : dget key (st_cache (fst (memoM key g1 s))) = Some (VM m)).
      { revert X. unfold memoM, memo. destruct (dget key (st_cache s)) as [v|] eqn:D.
        - destruct v; cbn; intros X; inversion X; subst; auto.
        - destruct (g1 s) as [s1 [a|x]]; cbn; intros X; inversion X; subst. apply dget_dset_same. }
      unfold oM, bind. rewrite X. cbn [fst snd ret]. split; auto. split; auto.
      assert (Z0 : memoM key g1 (mkSt (reverse_raw (st_raw (fst (memoM key g1 s)))) (st_cache (fst (memoM key g1 s)))) =
        (mkSt (reverse_raw (st_raw (fst (memoM key g1 s)))) (st_cache (fst (memoM key g1 s))), Ok m)).
      { unfold memoM at 1, memo at 1. cbn [st_cache st_raw]. rewrite Y. reflexivity. }
      unfold d_reverse. cbn [fst st_raw st_cache]. rewrite Z0. reflexivity. }
    intros q [<-|[<-|[<-|[<-|[<-|[<-|[<-|[]]]]]]]]; cbn [d_query].
    - exists Ke, (injE (raw_edges (st_raw s))).
      assert (X : get_e s = (fst (get_e s), Ok (raw_edges (st_raw s)))) by
        (rewrite <- (good_answer (dgood_e (T := T)) C); apply surjective_pairing).
      assert (Y : dget Ke (st_cache (fst (get_e s))) = Some (injE (raw_edges (st_raw s)))).
      { revert X. unfold get_e, memoE, memo. destruct (dget Ke (st_cache s)) as [v|] eqn:D.
        - pose proof (C _ _ D) as D2. cbn in D2. injection D2 as <-. intros _. destruct (prjE _); cbn; auto.
        - cbn. intros _. apply dget_dset_same. }
      unfold bind. rewrite X. cbn [fst snd ret]. split; auto. split; auto.
      assert (Z0 : get_e (mkSt (reverse_raw (st_raw (fst (get_e s)))) (st_cache (fst (get_e s)))) =
        (mkSt (reverse_raw (st_raw (fst (get_e s)))) (st_cache (fst (get_e s))), Ok (raw_edges (st_raw s)))).
      { unfold get_e at 1, memoE at 1, memo at 1. cbn [st_cache st_raw]. rewrite Y. cbn [prjE injE].
        rewrite <- surjective_pairing. reflexivity. }
      unfold d_reverse. cbn [fst st_raw st_cache]. rewrite Z0. reflexivity.
    - apply (HIT _ _ _ (dgood_A (T := T))). rewrite (q_A_eq s R NV P IR); eauto.
    - apply (HIT _ _ _ (dgood_AT (T := T))). rewrite (q_AT_eq s R NV P IR); eauto.
    - apply (HIT _ _ _ (dgood_Din (T := T))). unfold q_Din. rewrite (q_AT_eq s R NV P IR); cbn; eauto.
    - apply (HIT _ _ _ (dgood_Dout (T := T))). unfold q_Dout. rewrite (q_A_eq s R NV P IR); cbn; eauto.
    - apply (HIT _ _ _ (dgood_Din1 (T := T))). unfold q_Din1, q_Din. rewrite (q_AT_eq s R NV P IR); cbn; eauto.
    - apply (HIT _ _ _ (dgood_Dout1 (T := T))). unfold q_Dout1, q_Dout. rewrite (q_A_eq s R NV P IR); cbn; eauto.
  Qed.
  Lemma v2v_reverse (RT : ring_theory (@nz T N) n1 nadd nmul nsub nopp eq) (s : digraph T) g nv :
    let s' := fst (d_reverse s) in
    drel (st_raw s) g -> coh dspec s -> drel (st_raw s') (a_reverse g) -> coh dspec s' -> r_nv (st_raw s) = nv -> 0 < nv ->
    in_range nv g -> in_range nv (a_reverse g) ->
    forall X (dir : bool) a, a = AggrSum \/ a = AggrMean ->
    snd (d_query (dqV2v X a None (Some dir) None) s') = snd (d_query (dqV2v X a None (Some (negb dir)) None) s).
  Proof.
    intros s' R C R' C' NV P IR IR' X dir a AA.
    destruct (dquery_v2v RT R C NV P IR X) as (f1 & f2 & f3 & f4 & E1 & E2 & E3 & E4 & F).
    destruct (dquery_v2v RT R' C' NV P IR' X) as (h1 & h2 & h3 & h4 & G1 & G2 & G3 & G4 & G).
    assert (SW : forall i, sumf (range nv) (fun j => nmul (a_adj (a_reverse g) j i) (X j)) = sumf (range nv) (fun j => nmul (a_adj g i j) (X j)))
      by (intros i; apply sumf_ext; intros j; rewrite adj_reverse; reflexivity).
    assert (SW2 : forall i, sumf (range nv) (fun j => nmul (a_adj (a_reverse g) i j) (X j)) = sumf (range nv) (fun j => nmul (a_adj g j i) (X j)))
      by (intros i; apply sumf_ext; intros j; rewrite adj_reverse; reflexivity).
    assert (DG1 : forall i, in_deg (a_reverse g) nv i = out_deg g nv i)
      by (intros i; apply sumf_ext; intros j; apply adj_reverse).
    assert (DG2 : forall i, out_deg (a_reverse g) nv i = in_deg g nv i)
      by (intros i; apply sumf_ext; intros j; apply adj_reverse).
    destruct AA as [-> | ->], dir; cbn [negb]; rewrite ?E1, ?E2, ?E3, ?E4, ?G1, ?G2, ?G3, ?G4; do 2 f_equal;
      apply map_ext_in; intros i I; apply range_In in I; destruct (F i I) as (F1 & F2 & F3 & F4); destruct (G i I) as (H1 & H2 & H3 & H4);
      rewrite ?F1, ?F2, ?F3, ?F4, ?H1, ?H2, ?H3, ?H4, ?SW, ?SW2, ?DG1, ?DG2; reflexivity.
  Qed.
End Reversal.
