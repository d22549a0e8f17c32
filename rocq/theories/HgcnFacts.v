(** Facts about the graph HyperGCN builds from a hypergraph, over the reals. *)
From Coq Require Import String Permutation Sorted Reals Lra.
From Verif Require Import Num PyDict PyDictFacts Coo CooFacts MatFacts ModelBase CacheFacts ModelGraph GraphFacts SpecGraph SpecGraphOps StoreFacts
  GraphStore GraphMatrix RebuildFacts GraphReach ModelHyper HyperFacts SpecHyper HyperStore HyperView HyperReach HyperOps ModelConv SpecConv RealFacts ConvFacts.
Set Implicit Arguments.
Local Open Scope list_scope.
Local Open Scope Z_scope.

Section Accept.
  Context {T : Type} `{N : Num T}.
  Lemma g_new_accept nv (l : list ((Z * Z) * T)) ex m : 0 < nv -> known m = true -> Forall (fun e => fst e < nv /\ snd e < nv) (map fst l) ->
    exists g, g_new nv (Some (EMany (map fst l))) (WList (map snd l)) ex m = Ok g.
  Proof.
    intros P K F. unfold g_new. replace (0 <? nv) with true by (symmetry; apply Z.ltb_lt; auto). unfold g_add_edges.
    destruct (add_edges _ _ _ _ _) as [s' o] eqn:A. apply add_edges_outcome in A as [(x & -> & -> & EE & D)|[(-> & EE & ->)|(-> & EE & ps & P1 & B & KM & CE & R)]]; eauto.
    exfalso. destruct D as [D|[D|(D & p & ps & P1)]]; cbn in D; try congruence.
    unfold endpoints_ok in D. cbn [edges_of r_nv st_raw] in D. apply Bool.not_true_iff_false in D. apply D. apply forallb_forall. intros p I.
    rewrite Forall_forall in F. apply F in I. apply andb_true_iff. rewrite !Z.ltb_lt. auto.
  Qed.
  Section Ring.
    Context (RT0 : ring_theory (@nz T N) n1 nadd nmul nsub nopp eq).
    Add Ring TRing13 : RT0.
    Lemma fold_msum (l : list ((Z * Z) * T)) (g : wmap T) u v :
      wt (fold_left (fun g x => a_add same_undirected MSum x g) l g u v) =
      nadd (wt (g u v)) (sumf l (fun x => if same_undirected (fst (fst x)) (snd (fst x)) u v then snd x else nz)).
    Proof.
      revert g; induction l as [|x l IH]; intros g; cbn [fold_left sumf]; [ring|]. rewrite IH. unfold a_add at 1.
      destruct (same_undirected _ _ u v); [|ring]. destruct (g u v); cbn [wt merged]; ring.
    Qed.
    Lemma spec_msum nv (l : list ((Z * Z) * T)) ex u v : Forall (fun e => fst e < nv /\ snd e < nv) (map fst l) ->
      wt (aw (g_spec nv (Some (EMany (map fst l))) (WList (map snd l)) ex MSum []) u v) =
      sumf l (fun x => if same_undirected (fst (fst x)) (snd (fst x)) u v then snd x else nz).
    Proof.
      intros F. unfold g_spec. cbn [fold_left g_spec_new]. unfold a_add_edges. cbn [pairs_of edges_of].
      replace (combine (map fst l) (map snd l)) with l by (clear; induction l as [|[a b] l IH]; cbn; congruence).
      replace (endpoints_ok nv (map fst l)) with true; cbn [andb known orb aw].
      - rewrite fold_msum. cbn. ring.
      - symmetry. apply forallb_forall. intros p I. rewrite Forall_forall in F. apply F in I. apply andb_true_iff. rewrite !Z.ltb_lt. auto.
    Qed.
  End Ring.
End Accept.

Lemma n_of_nat_INR n : @n_of_nat R Num_R n = INR n.
Proof.
  unfold n_of_nat. induction n as [|n IH]; [reflexivity|]. rewrite seq_S, sumf_app, IH by exact RT. rewrite S_INR. cbn. lra.
Qed.
Lemma one_over_INR n : (0 < n)%nat -> @one_over R Num_R n = (/ INR n)%R.
Proof.
  intros P. unfold one_over. rewrite n_of_nat_INR. cbn. unfold Rinv0. destruct (Req_EM_T _ _) as [E|_]; auto. apply lt_0_INR in P. lra.
Qed.
Lemma one_over_med n : (2 <= n)%nat -> @one_over R Num_R (2 * n - 3) = (/ (2 * INR n - 3))%R.
Proof.
  intros P. rewrite one_over_INR by lia. rewrite minus_INR, mult_INR by lia. cbn [INR]. f_equal. lra.
Qed.

Lemma med_In e ab x : In x (hgcn_mediated e ab) <-> exists c, In c e /\ c <> fst ab /\ c <> snd ab /\
  (x = ((fst ab, c), (/ (2 * INR (length e) - 3))%R) \/ x = ((snd ab, c), (/ (2 * INR (length e) - 3))%R)).
Proof.
  unfold hgcn_mediated. rewrite in_flat_map. split.
  - intros (c & I & J). apply filter_In in I as [I O]. unfold other_than in O. apply negb_true_iff, orb_false_iff in O as [O1 O2]. apply Z.eqb_neq in O1, O2.
    exists c. cbn in J. intuition.
  - intros (c & I & O1 & O2 & J). exists c. split; [|cbn; intuition]. apply filter_In. split; auto. unfold other_than. apply negb_true_iff, orb_false_iff. rewrite !Z.eqb_neq. auto.
Qed.

Section Hgcn.
  Variable amax amin : list Z -> nat.
  Variable p : Z -> R.
  Definition pick (e : list Z) : Z * Z := (nth_v e (amax e), nth_v e (amin e)).
  Definition picks_ok (e : list Z) : Prop := holds_max (map p e) (amax e) /\ holds_min (map p e) (amin e).

  Lemma nth_map_p e i : (i < length e)%nat -> nth i (map p e) 0%R = p (nth_v e i).
  Proof. intros L. unfold nth_v. rewrite nth_indep with (d' := p 0) by (rewrite map_length; auto). apply map_nth. Qed.
  Lemma pick_extremes e : picks_ok e -> extremes p e (pick e).
  Proof.
    intros [[L1 M] [L2 m]]. rewrite map_length in L1, L2. unfold extremes, pick, nth_v; cbn [fst snd]. split; [apply nth_In; auto|]. split; [apply nth_In; auto|].
    intros c I. pose proof (M _ (in_map p _ _ I)) as A. pose proof (m _ (in_map p _ _ I)) as B. rewrite nth_map_p in A, B by auto. unfold nth_v in *. auto.
  Qed.
  Lemma e_as_map (e : list Z) : e = map (nth_v e) (seq 0 (length e)).
  Proof. unfold nth_v. induction e as [|a e IH]; cbn; auto. f_equal. rewrite <- seq_shift, map_map. exact IH. Qed.
  Lemma nth_v_inj e i j : NoDup e -> (i < length e)%nat -> (j < length e)%nat -> nth_v e i = nth_v e j -> i = j.
  Proof. intros ND L1 L2 E. eapply NoDup_nth; eauto. Qed.
  Lemma flat_filter {A B C} (f : A -> B) (q : B -> bool) (t : A -> bool) (h : B -> list C) l :
    (forall a, In a l -> t a = negb (q (f a))) ->
    flat_map (fun a => if t a then [] else h (f a)) l = flat_map h (filter q (map f l)).
  Proof.
    induction l as [|a l IH]; intros E; cbn; auto. rewrite (E a) by (left; auto). rewrite IH by (intros; apply E; right; auto). destruct (q (f a)); cbn; auto.
  Qed.
  Lemma hgcn_med_eq e : NoDup e -> (2 <= length e)%nat -> picks_ok e -> hgcn_edges true amax amin e = hgcn_mediated e (pick e).
  Proof.
    intros ND L [[L1 _] [L2 _]]. rewrite map_length in L1, L2. unfold hgcn_edges, hgcn_mediated. rewrite one_over_med by auto.
    replace (filter (other_than (pick e)) e) with (filter (other_than (pick e)) (map (nth_v e) (seq 0 (length e)))) by (rewrite <- e_as_map; reflexivity).
    rewrite <- (flat_filter (nth_v e) (other_than (pick e)) (fun i => Nat.eqb i (amax e) || Nat.eqb i (amin e))); [reflexivity|].
    intros i I. apply in_seq in I. unfold other_than, pick. cbn [fst snd]. rewrite Bool.negb_involutive. f_equal.
    - destruct (Nat.eqb_spec i (amax e)) as [->|D]; [rewrite Z.eqb_refl; auto|]. symmetry; apply Z.eqb_neq. intros E. apply D. eapply nth_v_inj; eauto; lia.
    - destruct (Nat.eqb_spec i (amin e)) as [->|D]; [rewrite Z.eqb_refl; auto|]. symmetry; apply Z.eqb_neq. intros E. apply D. eapply nth_v_inj; eauto; lia.
  Qed.
  Lemma hgcn_plain_eq e : (2 <= length e)%nat -> hgcn_edges false amax amin e = hgcn_plain true e (pick e).
  Proof. intros L. unfold hgcn_edges, hgcn_plain, pick. cbn [negb andb]. rewrite one_over_INR by lia. reflexivity. Qed.
  Definition noloop (x : (Z * Z) * R) : bool := negb (fst (fst x) =? snd (fst x)).
  Lemma plain_noloop e ab : filter noloop (hgcn_plain true e ab) = hgcn_plain false e ab.
  Proof. unfold hgcn_plain, noloop. cbn. destruct ab as [a b]; cbn. destruct (a =? b); reflexivity. Qed.
  Lemma med_noloop e ab : filter noloop (hgcn_mediated e ab) = hgcn_mediated e ab.
  Proof.
    apply filter_all. intros x I. apply med_In in I as (c & _ & O1 & O2 & [-> | ->]); unfold noloop; cbn; apply negb_true_iff, Z.eqb_neq; auto.
  Qed.
  Lemma filter_flat {A B} (q : B -> bool) (f g : A -> list B) l : (forall a, In a l -> filter q (f a) = g a) -> filter q (flat_map f l) = flat_map g l.
  Proof. induction l as [|a l IH]; intros E; cbn; auto. rewrite filter_app, (E a) by (left; auto). f_equal. apply IH. intros; apply E; right; auto. Qed.
  Lemma flat_ext {A B} (f g : A -> list B) l : (forall a, In a l -> f a = g a) -> flat_map f l = flat_map g l.
  Proof. induction l as [|a l IH]; intros E; cbn; auto. rewrite (E a) by (left; auto). f_equal. apply IH. intros; apply E; right; auto. Qed.

  Definition made (med keep : bool) (e : list Z) (ab : Z * Z) : list ((Z * Z) * R) :=
    if med then hgcn_mediated e ab else hgcn_plain keep e ab.
  Lemma made_inside med keep e ab a b w : In (fst ab) e -> In (snd ab) e -> In ((a, b), w) (made med keep e ab) -> In a e /\ In b e.
  Proof.
    intros A B. unfold made. destruct med.
    - intros I. apply med_In in I as (c & I & _ & _ & [Q | Q]); injection Q as -> -> _; auto.
    - unfold hgcn_plain. destruct (_ && _); [intros []|]. intros [Q|[]]. destruct ab; injection Q as -> -> _. auto.
  Qed.

  Variables (s : hypergraph R) (nv : Z) (es : list (list Z)) (ws : list R).
  Hypothesis C : coh (hspec None) s.
  Hypothesis W : hwf (st_raw s).
  Hypothesis NV : h_nv (st_raw s) = nv.
  Hypothesis QE : snd (h_query (hqE None) s) = Ok (OHE es ws).
  Hypothesis CL : hclean (st_raw s).
  Hypothesis POS : 0 < nv.

  Lemma hgcn_ok (med rm : bool) : Forall (fun e => (2 <= length e)%nat) es -> Forall picks_ok es ->
    (rm = true -> if med then exists e, In e es /\ (3 <= length e)%nat else es <> []) ->
    let l := flat_map (fun e => made med (negb rm) e (pick e)) es in
    exists g, g_hypergcn nv med rm amax amin s = Ok g /\ g_new nv (Some (EMany (map fst l))) (WList (map snd l)) false MSum = Ok g /\
      Forall (fun e => 0 <= fst e < nv /\ 0 <= snd e < nv) (map fst l).
  Proof.
    intros L2 PK NE l. pose proof (all_clean C W NV QE CL) as CE.
    assert (IN : Forall (fun e => 0 <= fst e < nv /\ 0 <= snd e < nv) (map fst l)).
    { apply Forall_forall. intros [a b] I. apply in_map_iff in I as ([[a' b'] w] & Q & I). cbn in Q. injection Q as -> ->. unfold l in I. apply in_flat_map in I as (e & I & J).
      rewrite Forall_forall in PK. destruct (pick_extremes (PK e I)) as (X & Y & _). apply made_inside in J as [J1 J2]; auto.
      rewrite Forall_forall in CE. destruct (CE e I) as [_ F]. rewrite Forall_forall in F. cbn; auto. }
    destruct (@g_new_accept R _ nv l false MSum POS eq_refl) as (g & E).
    { eapply Forall_impl; [|exact IN]. intros a; cbn; lia. }
    exists g. split; [|split; auto]. unfold g_hypergcn. rewrite NV, Z.eqb_refl, (asks_e s QE). cbn [rbind fst].
    replace (forallb _ es) with true by (symmetry; apply forallb_forall; intros e I; apply Nat.leb_le; rewrite Forall_forall in L2; auto).
    assert (EQ : forall e, In e es -> hgcn_edges med amax amin e = made med true e (pick e)).
    { intros e I. rewrite Forall_forall in L2, PK, CE. unfold made. destruct med; [apply hgcn_med_eq|apply hgcn_plain_eq]; auto. apply CE; auto. }
    rewrite (flat_ext _ _ _ EQ). destruct rm.
    - assert (FL : filter noloop (flat_map (fun e => made med true e (pick e)) es) = l).
      { apply filter_flat. intros e I. unfold made; cbn [negb]. destruct med; [apply med_noloop|apply plain_noloop]. }
      destruct (flat_map (fun e => made med true e (pick e)) es) as [|x y] eqn:FM.
      + exfalso. specialize (NE eq_refl). destruct med.
        * destruct NE as (e & I & L3). 
          assert (X : exists c, In c e /\ c <> fst (pick e) /\ c <> snd (pick e)).
          { destruct (Forall_dec (fun c => c = fst (pick e) \/ c = snd (pick e))) with (l := e) as [F|F].
            - intros x. destruct (Z.eq_dec x (fst (pick e))); auto. destruct (Z.eq_dec x (snd (pick e))); auto. right; tauto.
            - exfalso. rewrite Forall_forall in CE. destruct (CE e I) as [ND _].
              assert (incl e [fst (pick e); snd (pick e)]) by (intros c J; rewrite Forall_forall in F; destruct (F c J); cbn; auto).
              apply NoDup_incl_length in H; auto. cbn in H. lia.
            - apply neg_Forall_Exists_neg in F; [|intros x; destruct (Z.eq_dec x (fst (pick e))); auto; destruct (Z.eq_dec x (snd (pick e))); auto; right; tauto].
              apply Exists_exists in F as (c & J & K). exists c. tauto. }
          destruct X as (c & J & O1 & O2). 
          assert (Y : In ((fst (pick e), c), (/ (2 * INR (length e) - 3))%R) (flat_map (fun e => made true true e (pick e)) es)).
          { apply in_flat_map. exists e. split; auto. cbn [made]. apply med_In. exists c; auto. }
          rewrite FM in Y. destruct Y.
        * destruct es as [|e t]; [congruence|]. cbn in FM. discriminate.
      + rewrite <- FM in *. fold noloop. replace (filter _ _) with l by (symmetry; exact FL). exact E.
    - exact E.
  Qed.
End Hgcn.
