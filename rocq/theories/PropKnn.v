(** Properties C198, C199: graphs of nearest neighbours when points coincide, and the numbers of neighbours that are refused. *)
From Coq Require Import Ring Permutation Sorted Reals Lra.
From Verif Require Import Num PyDict PyDictFacts Coo CooFacts MatFacts RealFacts ModelBase CacheFacts ModelGraph GraphFacts
  SpecGraph SpecGraphOps StoreFacts RebuildFacts GraphMatrix GraphLaplace GraphReach SoftmaxFacts ModelDiGraph SpecDiGraph DiGraphFacts DiGraphReach.
Set Implicit Arguments.
Local Open Scope Z_scope.

(** * Rows of different points, in any order *)
Section Weak.
  Context (nv k : Z) (nbr : Z -> list (Z * R)) (dw center as_src : bool).
  Let tk := if center then k else k + 1.
  Hypothesis TK : 2 <= tk.
  Hypothesis KN : k <= nv.
  Hypothesis POS : 0 < nv.
  Hypothesis tail_facts : forall v, 0 <= v < nv ->
    NoDup (map fst (tl (nbr v))) /\ length (tl (nbr v)) = Z.to_nat (tk - 1) /\ (forall x, In x (tl (nbr v)) -> 0 <= fst x < nv).
  Let rowsl := flat_map (fun v => map (fun x => (v, x)) (tl (nbr v))) (range nv).
  Let dir (p : Z * Z) := if as_src then p else (snd p, fst p).
  Let es := map (fun p : Z * (Z * R) => if as_src then (fst p, fst (snd p)) else (fst (snd p), fst p)) rowsl.
  Let ws := map (fun p : Z * (Z * R) => if dw then nexp (nopp (snd (snd p))) else n1) rowsl.
  Let wgt (d : R) : R := if dw then exp (- d) else 1%R.
  Lemma w_es_nodup : NoDup es.
  Proof.
    unfold es, rowsl. rewrite flat_map_concat_map, concat_map, map_map, <- flat_map_concat_map.
    apply NoDup_flat_map; [apply range_nodup| |].
    - intros v I. apply range_In in I. destruct (tail_facts I) as (ND & _). rewrite map_map. cbn.
      revert ND. generalize (tl (nbr v)). intros l; induction l as [|[a d] l IH]; cbn; intros ND; constructor.
      + inversion ND; subst. intros I2. apply in_map_iff in I2 as ([b e] & E & I2). cbn in E.
        assert (a = b) by (destruct as_src; congruence). subst. apply H1. apply in_map_iff. exists (b, e); auto.
      + inversion ND; auto.
    - intros a b x Ia Ib I1 I2. rewrite map_map in I1, I2. apply in_map_iff in I1 as (y & E1 & I1). apply in_map_iff in I2 as (z & E2 & I2).
      cbn in *. apply range_In in Ia, Ib. destruct as_src; congruence.
  Qed.
  Lemma w_combine_map2 {A B C} (f : A -> B) (h : A -> C) l : combine (map f l) (map h l) = map (fun a => (f a, h a)) l.
  Proof. induction l; cbn; congruence. Qed.
  Lemma w_pairs_In a b w : In ((a, b), w) (combine es ws) <->
    exists u v d, (a, b) = dir (v, u) /\ 0 <= v < nv /\ In (u, d) (tl (nbr v)) /\ w = wgt d.
  Proof.
    unfold es, ws. rewrite w_combine_map2, in_map_iff. split.
    - intros ([v [u d]] & E & I). apply (rows_In nv nbr) in I as [V I]. cbn in E. exists u, v, d.
      unfold dir, wgt. destruct as_src, dw; injection E as <- <- <-; cbn; auto.
    - intros (u & v & d & E & V & I & ->). exists (v, (u, d)). split.
      + unfold dir, wgt in *. cbn in *. destruct as_src, dw; congruence.
      + apply (rows_In nv nbr). auto.
  Qed.
  Lemma w_knn_built : exists s, d_knn nv k nbr dw center as_src = Ok s /\
    drel (st_raw s) (mkA (fold_left (fun g x => a_add same_directed MMean x g) (combine es ws) empty_map) center) /\
    coh dspec s /\ r_nv (st_raw s) = nv.
  Proof.
    unfold d_knn. replace (k <=? nv) with true by (symmetry; apply Z.leb_le; auto).
    fold tk. replace (tk =? 1) with false by (symmetry; apply Z.eqb_neq; lia). cbv zeta. fold rowsl. fold es. fold ws.
    assert (LW : length ws = length es) by (unfold ws, es; rewrite !map_length; auto).
    assert (EO : endpoints_ok nv es = true).
    { unfold endpoints_ok. apply forallb_forall. intros [a b] I.
      rewrite <- (@combine_keys _ _ es ws LW) in I. apply in_map_iff in I as ([[a' b'] w] & E & I). cbn in E. injection E as -> ->.
      apply w_pairs_In in I as (u & v & d & E & V & I & _). destruct (tail_facts V) as (_ & _ & F). specialize (F _ I). cbn in F.
      unfold dir in E. cbn. apply andb_true_iff. rewrite !Z.ltb_lt. cbn in E. destruct as_src; injection E as -> ->; lia. }
    assert (NE : earg_empty (EMany es) = false).
    { cbn. assert (0 <= 0 < nv) as V0 by lia. destruct (tail_facts V0) as (_ & L & _).
      destruct (nbr 0) as [|x0 [|x1 r]] eqn:E; cbn in L; try lia.
      destruct es as [|p l] eqn:EE; auto. exfalso.
      assert (X : In (0, x1) rowsl) by (apply rows_In; rewrite E; cbn; auto).
      apply (in_map (fun p : Z * (Z * R) => if as_src then (fst p, fst (snd p)) else (fst (snd p), fst p))) in X.
      fold es in X. rewrite EE in X. destruct X. }
    destruct (d_new nv (Some (EMany es)) (WList ws) false MMean) as [s|x] eqn:E.
    - destruct (dnew_rel _ _ _ _ _ E) as (R & [C _] & NV & _).
      unfold d_spec_new, a_add_edges in R. cbn [pairs_of edges_of] in R. rewrite EO in R. cbn [known orb andb] in R.
      destruct center.
      + eexists; split; [reflexivity|]. split; [|split; [apply coh_empty|exact NV]].
        apply (@set_extra_rel _ norm_dir true s _ R).
      + exists s. auto.
    - exfalso. revert E. unfold d_new. replace (0 <? nv) with true by (symmetry; apply Z.ltb_lt; auto).
      unfold d_add_edges. destruct (add_edges norm_dir (EMany es) (WList ws) MMean (mkSt (mkRaw nv [] [] false) [])) as [s' o] eqn:A.
      apply add_edges_outcome in A as [(x' & -> & -> & EE & D)|[(-> & _ & _)|(-> & _)]]; try discriminate.
      intros _. cbn [st_raw r_nv edges_of] in D. destruct D as [D|[D|(D & _)]]; try discriminate. rewrite EO in D. discriminate.
  Qed.
  Definition w_knn_graph : wmap R := fold_left (fun g x => a_add same_directed MMean x g) (combine es ws) empty_map.
  Lemma w_knn_map v u w : w_knn_graph (fst (dir (v, u))) (snd (dir (v, u))) = Some w <->
    0 <= v < nv /\ exists d, In (u, d) (tl (nbr v)) /\ w = wgt d.
  Proof.
    assert (LW : length ws = length es) by (unfold ws, es; rewrite !map_length; auto).
    unfold w_knn_graph. rewrite add_distinct.
    - rewrite <- surjective_pairing. rewrite (surjective_pairing (dir (v, u))), w_pairs_In. split.
      + intros [(u' & v' & d & E & V & I & ->)|E]; [|discriminate].
        unfold dir in E; cbn in E. destruct as_src; injection E as -> ->; eauto.
      + intros (V & d & I & ->). left. exists u, v, d. rewrite <- surjective_pairing. auto.
    - rewrite combine_keys by auto. apply w_es_nodup.
    - reflexivity.
  Qed.
  Lemma w_result : exists s A, d_knn nv k nbr dw center as_src = Ok s /\ snd (d_query dqA s) = Ok (OM A) /\
    forall v, 0 <= v < nv -> exists l,
      snd (d_query (if as_src then dqNout v else dqNin v) s) = Ok (OIdx l) /\ NoDup l /\
      (forall u, In u l <-> In u (map fst (tl (nbr v))) \/ (u = v /\ center = true)) /\
      (forall d, In (v, d) (tl (nbr v)) -> mget A v v = ((if dw then exp (- d) else 1) + (if center then 1 else 0))%R).
  Proof.
    destruct w_knn_built as (s & E & RR & C & NV).
    set (gw := fold_left _ _ empty_map) in RR. set (g := mkA gw center) in *.
    assert (KM : forall v u w, gw (if as_src then v else u) (if as_src then u else v) = Some w <->
      0 <= v < nv /\ exists d, In (u, d) (tl (nbr v)) /\ w = if dw then exp (- d) else 1%R).
    { intros v u w. pose proof (@w_knn_map v u w) as K.
      unfold w_knn_graph in K. fold gw in K. unfold dir in K. destruct as_src; exact K. }
    assert (IR : in_range nv g).
    { intros a b I. cbn in I. destruct (gw a b) as [w|] eqn:G; [|congruence].
      set (v := if as_src then a else b). set (u := if as_src then b else a).
      assert (0 <= v < nv /\ exists d, In (u, d) (tl (nbr v)) /\ w = if dw then exp (- d) else 1%R) as (V & d & I2 & _).
      { apply KM. unfold u, v. destruct as_src; exact G. }
      destruct (tail_facts V) as (_ & _ & F). specialize (F _ I2). cbn in F. unfold u, v in *. destruct as_src; lia. }
    destruct (dquery_A RT RR C NV POS IR) as (A & _ & EA & _ & MA & _).
    exists s, A. split; auto. split; auto. intros v V.
    destruct (dquery_nbr RR C NV POS IR V) as (li & lo & Ei & Eo & Ni & No & Mi & Mo).
    exists (if as_src then lo else li). split; [destruct as_src; auto|]. split; [destruct as_src; auto|]. split.
    - intros u. assert (X : In u (if as_src then lo else li) <-> (gw (if as_src then v else u) (if as_src then u else v) <> None \/ (u = v /\ center = true))).
      { destruct as_src; [rewrite Mo|rewrite Mi]; unfold a_edge; cbn; intuition. }
      rewrite X. apply or_iff_compat_r. destruct (gw (if as_src then v else u) (if as_src then u else v)) as [w|] eqn:G.
      + apply KM in G as (_ & d & I & _). split; [|congruence]. intros _. apply in_map_iff. exists (u, d); auto.
      + split; [congruence|]. intros I. apply in_map_iff in I as ([u' d] & E' & I). cbn in E'. subst u'.
        intros _. assert (gw (if as_src then v else u) (if as_src then u else v) = Some (if dw then exp (- d) else 1%R)) by (apply KM; eauto).
        congruence.
    - intros d I. rewrite MA by auto. unfold a_adj. cbn [aw ax g]. rewrite Z.eqb_refl.
      assert (G : gw v v = Some (if dw then exp (- d) else 1%R)).
      { pose proof (proj2 (KM v v (if dw then exp (- d) else 1%R)) (conj V (ex_intro _ d (conj I eq_refl)))) as K. destruct as_src; exact K. }
      rewrite G. destruct center; cbn; lra.
  Qed.
End Weak.

(** ** C198: numbers of neighbours that are refused *)
(** [k] larger than the number of points; one single point requested (scipy then returns vectors instead of matrices); and
    [k] equal to the number of points without the centre, which passes the check, but one more point than there are is requested:
    scipy fills up the rows with the index [nv] *)
Theorem C198_refused_actual : forall nv k (nbr : Z -> list (Z * R)) (dw center as_src : bool),
  let tk := if center then k else k + 1 in
  (nv < k -> d_knn nv k nbr dw center as_src = Err AssertionError) /\
  (k <= nv -> tk = 1 -> d_knn nv k nbr dw center as_src = Err IndexError) /\
  (k = nv -> center = false -> 2 <= tk -> (forall v, 0 <= v < nv -> exists d, In (nv, d) (tl (nbr v))) ->
     d_knn nv k nbr dw center as_src = Err AssertionError).
Proof.
  intros nv k nbr dw center as_src tk. unfold d_knn. fold tk. split; [|split].
  - intros L. destruct (Z.leb_spec k nv); [lia|]. auto.
  - intros L E. destruct (Z.leb_spec k nv); [|lia]. rewrite E. auto.
  - intros E C T2 P. destruct (Z.leb_spec k nv); [|lia]. destruct (Z.eqb_spec tk 1); [lia|]. cbv zeta.
    assert (NP : 0 < nv) by (unfold tk in T2; rewrite C in T2; lia).
    set (rows := flat_map _ _). set (es := map _ rows). set (ws := map _ rows).
    assert (I0 : exists p, In p es /\ (fst p = nv \/ snd p = nv)).
    { destruct (P 0) as [d I]; [lia|]. assert (J : In (0, (nv, d)) rows) by (apply rows_In; split; [lia|auto]).
      apply (in_map (fun p : Z * (Z * R) => if as_src then (fst p, fst (snd p)) else (fst (snd p), fst p))) in J. fold es in J.
      eexists. split; [exact J|]. destruct as_src; cbn; auto. }
    destruct I0 as (p & I & D).
    assert (EO : forallb (below nv) es = false).
    { apply Bool.not_true_iff_false. intros A. rewrite forallb_forall in A. specialize (A p I). destruct p as [a b]. unfold below in A. cbn [fst snd] in D, A.
      apply andb_prop in A. rewrite !Z.ltb_lt in A. lia. }
    unfold d_new. destruct (Z.ltb_spec 0 nv); [|lia]. destruct es as [|e0 es']; [destruct I|].
    unfold d_add_edges, add_edges, bind, lift, format_edges. cbn [earg_empty st_raw r_nv]. rewrite EO. reflexivity.
Qed.

(** ** C199: points that coincide *)
(** The first point of the row of a vertex is left out, whichever it is: the neighbours are the rest of the row. *)
Theorem C199_first_dropped_actual : forall nv k dist nbr (dw center as_src : bool),
  let tk := if center then k else k + 1 in
  2 <= tk -> k <= nv -> 0 < nv ->
  (forall v, 0 <= v < nv -> knn_row nv tk dist v (nbr v)) ->
  exists s A, d_knn nv k nbr dw center as_src = Ok s /\ snd (d_query dqA s) = Ok (OM A) /\
  forall v, 0 <= v < nv -> exists l first rest,
    snd (d_query (if as_src then dqNout v else dqNin v) s) = Ok (OIdx l) /\ NoDup l /\ map fst (nbr v) = first :: rest /\
    (forall u, In u l <-> In u rest \/ (u = v /\ center = true)) /\
    (In v rest -> mget A v v = ((if dw then exp (- dist v v) else 1) + (if center then 1 else 0))%R).
Proof.
  intros nv k dist nbr dw center as_src tk T2 KN P ROW.
  assert (TF : forall v, 0 <= v < nv -> NoDup (map fst (tl (nbr v))) /\ length (tl (nbr v)) = Z.to_nat (tk - 1) /\ (forall x, In x (tl (nbr v)) -> 0 <= fst x < nv)).
  { intros v V. destruct (ROW v V) as (L & ND & F & _). destruct (nbr v) as [|[a d] r]; [cbn in L; lia|]. cbn in L, ND |- *. inversion ND; subst. inversion F as [|? ? _ F']; subst.
    split; auto. split; [lia|]. intros x I. rewrite Forall_forall in F'. apply F'. auto. }
  destruct (@w_result nv k nbr dw center as_src T2 KN P TF) as (s & A & E & EA & R). exists s, A. split; auto. split; auto. intros v V.
  destruct (R v V) as (l & EL & NL & ML & DG). destruct (ROW v V) as (L & _ & F & _). destruct (nbr v) as [|[a d] r] eqn:EN; [cbn in L; lia|]. cbn [tl map fst] in *.
  exists l, a, (map fst r). repeat (split; [solve [auto]|]). intros I. apply in_map_iff in I. destruct I as ([u e] & <- & I). cbn [fst] in *. rewrite (DG e I).
  inversion F as [|? ? _ F']; subst. rewrite Forall_forall in F'. destruct (F' _ I) as [_ Q]. cbn [fst snd] in Q. rewrite Q. reflexivity.
Qed.
(** Two points at the same place get the same row, as the tree is asked the same question twice.  One of them is then its own
    neighbour although include_center is False, and the other one is the neighbour of neither of the two. *)
Theorem C199_self_loop_actual : forall nv k dist nbr (dw as_src : bool) v w,
  1 <= k -> k <= nv -> (forall v, 0 <= v < nv -> knn_row nv (k + 1) dist v (nbr v)) ->
  0 <= v < nv -> 0 <= w < nv -> v <> w -> nbr v = nbr w ->
  dist v v = 0%R -> dist v w = 0%R -> (forall u, 0 <= u < nv -> u <> v -> u <> w -> (0 < dist v u)%R) ->
  exists s x y, d_knn nv k nbr dw false as_src = Ok s /\ (x = v /\ y = w \/ x = w /\ y = v) /\
  exists lx ly, snd (d_query (if as_src then dqNout x else dqNin x) s) = Ok (OIdx lx) /\ snd (d_query (if as_src then dqNout y else dqNin y) s) = Ok (OIdx ly) /\
    In y ly /\ ~ In x ly /\ In y lx /\ ~ In x lx.
Proof.
  intros nv k dist nbr dw as_src v w K1 KN ROW V W NE SAME D0 DW DP.
  destruct (@C199_first_dropped_actual nv k dist nbr dw false as_src) as (s & A & E & _ & R); auto; [cbv zeta; lia|lia|].
  pose proof (ROW v V) as (L & ND & F & S & O).
  destruct (nbr v) as [|[a da] [|[b db] r]] eqn:EN; try (cbn in L; lia).
  assert (AB : forall u d, In (u, d) ((a, da) :: (b, db) :: r) -> 0 <= u < nv /\ d = dist v u) by (intros u d I; rewrite Forall_forall in F; exact (F _ I)).
  inversion S as [|? ? S' FA]; subst. inversion S' as [|? ? _ FB]; subst. cbn [map fst] in ND, O. inversion ND as [|? ? N1 ND']; subst. inversion ND' as [|? ? N2 _]; subst.
  (* both are in the row, and nothing that is farther away comes before them *)
  assert (FIRST : forall z, (z = v \/ z = w) -> a = z \/ b = z).
  { intros z Hz. assert (Dz : dist v z = 0%R) by (destruct Hz as [->| ->]; auto).
    destruct (Z.eq_dec a z) as [|Na]; auto. destruct (Z.eq_dec b z) as [|Nb]; auto. exfalso.
    destruct (AB a da (or_introl eq_refl)) as [Ra Ea]. destruct (AB b db (or_intror (or_introl eq_refl))) as [Rb Eb].
    assert (LE : (da <= 0 /\ db <= 0)%R).
    { destruct (in_dec Z.eq_dec z (map fst r)) as [I|NI].
      - apply in_map_iff in I. destruct I as ([z' d] & Ez & I). cbn in Ez. subst z'. destruct (AB z d (or_intror (or_intror I))) as [_ ->].
        rewrite Forall_forall in FA, FB. pose proof (FA _ (or_intror I)) as X. pose proof (FB _ I) as Y. cbn in X, Y. rewrite Dz in X, Y. auto.
      - rewrite <- Dz. assert (Vz : 0 <= z < nv) by (destruct Hz as [->| ->]; auto). split.
        + apply (O (a, da) z (or_introl eq_refl) Vz). cbn. intuition.
        + apply (O (b, db) z (or_intror (or_introl eq_refl)) Vz). cbn. intuition. }
    assert (Ha : a = v \/ a = w) by (destruct (Z.eq_dec a v); auto; destruct (Z.eq_dec a w); auto; specialize (DP a Ra); rewrite <- Ea in DP; assert (0 < da)%R by (apply DP; auto); lra).
    assert (Hb : b = v \/ b = w) by (destruct (Z.eq_dec b v); auto; destruct (Z.eq_dec b w); auto; specialize (DP b Rb); rewrite <- Eb in DP; assert (0 < db)%R by (apply DP; auto); lra).
    assert (a <> b) by (intros ->; apply N1; left; auto).
    destruct Hz as [->| ->], Ha, Hb; congruence. }
  destruct (R v V) as (lv & f1 & r1 & Ev & _ & M1 & Mv & _). destruct (R w W) as (lw & f2 & r2 & Ew & _ & M2 & Mw & _).
  rewrite EN in M1. rewrite <- SAME in M2. cbn [map fst] in M1, M2. injection M1 as <- <-. injection M2 as <- <-.
  assert (IL : forall u, In u lv <-> In u (b :: map fst r)) by (intros u; rewrite Mv; intuition discriminate).
  assert (IW : forall u, In u lw <-> In u (b :: map fst r)) by (intros u; rewrite Mw; intuition discriminate).
  destruct (FIRST v (or_introl eq_refl)) as [Ea|Eb], (FIRST w (or_intror eq_refl)) as [Ea'|Eb']; try congruence; subst.
  - exists s, v, w. split; auto. split; auto. exists lv, lw. rewrite !IL, !IW. repeat split; auto; left; auto.
  - exists s, w, v. split; auto. split; auto. exists lw, lv. rewrite !IL, !IW. repeat split; auto; left; auto.
Qed.
(** three points on a line, the first two at the same place *)
Definition co_dist (v u : Z) : R := if (v =? 2) then (if u =? 2 then 0 else 1)%R else if u =? 2 then 1%R else 0%R.
Definition co_nbr (v : Z) : list (Z * R) := if v =? 2 then [(2, 0%R); (0, 1%R)] else [(0, 0%R); (1, 0%R)].
Example C199_ex : exists s x y, d_knn 3 1 co_nbr false false true = Ok s /\ (x = 0 /\ y = 1 \/ x = 1 /\ y = 0) /\
  exists l, snd (d_query (dqNout y) s) = Ok (OIdx l) /\ In y l /\ ~ In x l.
Proof.
  destruct (@C199_self_loop_actual 3 1 co_dist co_nbr false true 0 1) as (s & x & y & E & XY & lx & ly & _ & Ey & H1 & H2 & _); try lia; try reflexivity.
  - intros v V. assert (v = 0 \/ v = 1 \/ v = 2) as [ -> | [ -> | -> ] ] by lia; unfold knn_row, co_nbr; cbn [Z.eqb Pos.eqb];
      (split; [reflexivity|]); (split; [repeat constructor; cbn; lia|]); (split; [repeat constructor; cbn; try lia; reflexivity|]);
      (split; [repeat constructor; cbn; lra|]);
      intros x u [<-|[<-|[]]] U NI; assert (u = 0 \/ u = 1 \/ u = 2) as [ -> | [ -> | -> ] ] by lia; cbn in NI; try (exfalso; lia); cbn; lra.
  - intros u U N0 N1. assert (u = 2) as -> by lia. cbn. lra.
  - exists s, x, y. eauto 10.
Qed.
Example C198_ex : d_knn 2 1 co_nbr true true false = Err IndexError /\ d_knn 2 3 co_nbr true true false = Err AssertionError /\
  d_knn 2 2 (fun v => [(v, 0%R); (1 - v, 1%R); (2, 0%R)]) false false true = Err AssertionError.
Proof.
  split; [|split].
  - destruct (C198_refused_actual 2 1 co_nbr true true false) as (_ & A & _). apply A; [lia|reflexivity].
  - destruct (C198_refused_actual 2 3 co_nbr true true false) as (A & _). apply A. lia.
  - destruct (C198_refused_actual 2 2 (fun v => [(v, 0%R); (1 - v, 1%R); (2, 0%R)]) false false true) as (_ & _ & A). apply A; try reflexivity; [cbn; lia|].
    intros v V. exists 0%R. cbn. auto.
Qed.
