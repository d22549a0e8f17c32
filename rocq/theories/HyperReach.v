(** Histories of a Hypergraph: determinism, rebuilding, group isolation, clone and persistence. *)
From Coq Require Import String Permutation.
From Verif Require Import Num PyDict PyDictFacts Coo CooFacts ModelBase CacheFacts ModelGraph SpecGraph StoreFacts RebuildFacts
  ModelHyper HyperFacts SpecHyper HyperStore HyperView HyperMatrix.
Set Implicit Arguments.
Local Open Scope Z_scope.

Section Agree.
  Context {T : Type} `{N : Num T}.
  Implicit Types (r : hraw T) (s : hypergraph T).

  Lemma p_walk_vw nv vw vw' gr (l : list (string * Z)) : forall i, p_walk i l (mkHRaw nv vw gr) = p_walk i l (@mkHRaw T nv vw' gr).
  Proof. induction l as [|[g n] l IH]; intros i; cbn [p_walk]; auto. destruct (i <? n); [reflexivity|apply IH]. Qed.
  (** answers do not depend on the vertex weights *)
  Lemma hp_query_vw q r r' : h_nv r = h_nv r' -> h_gr r = h_gr r' -> reads_vw q = false -> hp_query q r = hp_query q r'.
  Proof.
    destruct r as [nv vw gr], r' as [nv' vw' gr']. cbn [h_nv h_gr]. intros <- <- V.
    destruct q; try discriminate V; try reflexivity.
    destruct sc as [g|]; [reflexivity|]. cbn [hp_query hp_Nv h_gr raw_sizes].
    change (raw_ne (mkHRaw nv vw' gr)) with (raw_ne (mkHRaw nv vw gr)). destruct (e <? raw_ne (mkHRaw nv vw gr)); auto.
    change (raw_sizes (mkHRaw nv vw' gr)) with (raw_sizes (mkHRaw nv vw gr)). rewrite (@p_walk_vw nv vw vw'). reflexivity.
  Qed.
  (** same store, and same vertex weights if [b] *)
  Definition agree (b : bool) r r' : Prop := h_nv r = h_nv r' /\ h_gr r = h_gr r' /\ (b = true -> h_vw r = h_vw r').
  Definition allowed (b : bool) (o : hop T) : Prop := if b then True else no_vw o.
  Lemma agree_full r r' : agree true r r' -> r = r'.
  Proof. destruct r, r'. intros (A & B & C). cbn in *. rewrite A, B, C; auto. Qed.

  Lemma hadds_agree b m g l : forall r r', agree b r r' -> agree b (fst (hadds m g l r)) (fst (hadds m g l r')) /\ snd (hadds m g l r) = snd (hadds m g l r').
  Proof.
    induction l as [|[e w] l IH]; intros r r' A; cbn [hadds]; [cbn; auto|].
    assert (X : match hadd1 m g e w r, hadd1 m g e w r' with Ok r1, Ok r1' => agree b r1 r1' | Err x, Err y => x = y | _, _ => False end).
    { destruct A as (A1 & A2 & A3). unfold hadd1. rewrite <- A2. destruct (dget g (h_gr r)) as [d|]; [destruct (dget e d); [destruct (merge_fun m)|]|];
        auto; unfold agree, set_gr; cbn; auto. }
    destruct (hadd1 m g e w r) as [r1|x], (hadd1 m g e w r') as [r1'|x']; try tauto; [apply IH; auto|cbn; subst; auto].
  Qed.
  Lemma hdels_agree b (g : option string) l : forall r r', agree b r r' ->
    agree b (fold_left (fun r x => hdel g x r) l r) (fold_left (fun r x => hdel g x r) l r').
  Proof.
    induction l as [|e l IH]; intros r r' A; cbn [fold_left]; auto. apply IH. destruct A as (A1 & A2 & A3).
    unfold agree, hdel, set_gr; cbn. rewrite A2. auto.
  Qed.
  Lemma h_step_agree b fz fz' o s s' : doc_op o -> allowed b o -> (b = true -> fz = None /\ fz' = None) ->
    coh (hspec fz) s -> coh (hspec fz') s' -> agree b (st_raw s) (st_raw s') ->
    snd (h_step o s) = snd (h_step o s') /\ agree b (st_raw (fst (h_step o s))) (st_raw (fst (h_step o s'))) /\
    coh (hspec fz) (fst (h_step o s)) /\ coh (hspec fz') (fst (h_step o s')).
  Proof.
    intros D AL FB C C' A. destruct o as [e w m g|e g|g| |q]; cbn [h_step doc_op allowed] in *.
    - rewrite !unit_out_fst. split; [|split; [|split; apply h_add_coh; auto]].
      + unfold unit_out, bind, h_add. destruct (hweights (length (hformat e)) w) as [ws|]; auto.
        destruct (hadds_agree m g (combine (hformat e) ws) A) as [_ B].
        destruct (hadds m g (combine (hformat e) ws) (st_raw s)) as [r1 [u|x]], (hadds m g (combine (hformat e) ws) (st_raw s')) as [r1' [u'|x']];
          cbn in *; congruence.
      + unfold h_add. destruct (hweights (length (hformat e)) w) as [ws|]; auto.
        destruct (hadds_agree m g (combine (hformat e) ws) A) as [B _].
        destruct (hadds m g (combine (hformat e) ws) (st_raw s)) as [r1 [u|x]], (hadds m g (combine (hformat e) ws) (st_raw s')) as [r1' [u'|x']]; exact B.
    - rewrite !unit_out_fst. split; [|split; [|split; apply h_remove_coh; auto]].
      + unfold unit_out, bind, h_remove. destruct A as (_ & A2 & _). rewrite <- A2.
        match goal with |- context [if ?c then _ else _] => destruct c end; reflexivity.
      + unfold h_remove. pose proof A as (_ & A2 & _). rewrite <- A2.
        match goal with |- context [if ?c then _ else _] => destruct c end; [|exact A].
        pose proof (hdels_agree g (hformat e) A) as B. destruct g; exact B.
    - rewrite !unit_out_fst. split; [reflexivity|]. split; [|split; apply h_remove_group_coh; auto].
      unfold h_remove_group, agree in *; cbn. destruct A as (A1 & A2 & A3). rewrite A2; auto.
    - split; [reflexivity|]. split; [|split; apply coh_empty]. unfold agree in *; cbn. tauto.
    - assert (OKf : fz = None \/ is_Wv q = false).
      { destruct b; [left; apply FB; auto|right]. cbn in AL. destruct q; auto; discriminate. }
      assert (OKf' : fz' = None \/ is_Wv q = false).
      { destruct b; [left; apply FB; auto|right]. cbn in AL. destruct q; auto; discriminate. }
      pose proof (hgood_query q OKf) as G. pose proof (hgood_query q OKf') as G'.
      rewrite (good_answer G C), (good_answer G' C'), (good_raw G C), (good_raw G' C').
      split; [|split; [exact A|split; [apply (good_coh G C)|apply (good_coh G' C')]]].
      destruct b; [rewrite (agree_full A); auto|]. apply hp_query_vw; [apply A|apply A|]. exact AL.
  Qed.
  Lemma h_run_agree b fz fz' ops : forall s s', Forall doc_op ops -> Forall (allowed b) ops -> (b = true -> fz = None /\ fz' = None) ->
    coh (hspec fz) s -> coh (hspec fz') s' -> agree b (st_raw s) (st_raw s') ->
    snd (h_run ops s) = snd (h_run ops s').
  Proof.
    induction ops as [|o ops IH]; intros s s' D AL FB C C' A; cbn [h_run]; auto.
    inversion D; subst. inversion AL; subst.
    destruct (h_step_agree o H1 H3 FB C C' A) as (E & A1 & C1 & C1').
    destruct (h_step o s) as [s1 x], (h_step o s') as [s1' x']; cbn in *. subst x'.
    specialize (IH s1 s1' H2 H4 FB C1 C1' A1). destruct (h_run ops s1), (h_run ops s1'); cbn in *. congruence.
  Qed.

  (** * group isolation *)
  Lemma hp_query_local g q r r' : q_scope q = Some (Some g) -> h_nv r = h_nv r' -> dget g (h_gr r) = dget g (h_gr r') ->
    hp_query q r = hp_query q r'.
  Proof.
    intros Q NV E.
    assert (PG : forall X (f : dict (list Z) T -> res X), p_group r g f = p_group r' g f) by (intros; unfold p_group; rewrite E; auto).
    assert (PS : forall X (x : res X), p_sc r (Some g) x = p_sc r' (Some g) x) by (intros; cbn; apply PG).
    assert (EN : hp_ne (Some g) r = hp_ne (Some g) r') by (cbn; apply PG).
    assert (EH : hp_H (Some g) r = hp_H (Some g) r') by (cbn; unfold hp_H_g; rewrite NV; apply PG).
    assert (EHT : hp_HT (Some g) r = hp_HT (Some g) r') by (unfold hp_HT; rewrite EH; auto).
    assert (EW : hp_We (Some g) r = hp_We (Some g) r') by (cbn; unfold hp_We_g; apply PG).
    assert (ED : hp_Dv (Some g) r = hp_Dv (Some g) r') by (cbn in *; unfold hp_Dv_g; rewrite EH, EW, NV; auto).
    assert (EE : hp_De (Some g) r = hp_De (Some g) r') by (cbn in *; unfold hp_De_g; rewrite EHT; apply PG).
    assert (EL : hp_Lhgnn (Some g) r = hp_Lhgnn (Some g) r') by (unfold hp_Lhgnn, hp_Dv12, hp_De1; rewrite ED, EH, EW, EE, EHT; auto).
    assert (EA : forall X a w k, hp_v2e_agg (Some g) X a w k r = hp_v2e_agg (Some g) X a w k r').
    { intros. unfold hp_v2e_agg, hp_De1. rewrite EHT, EE, EN. apply PS. }
    assert (EU : forall X w, hp_v2e_upd (Some g) X w r = hp_v2e_upd (Some g) X w r').
    { intros. unfold hp_v2e_upd. rewrite EW, EN. apply PS. }
    assert (EV : forall X a w ew k, hp_v2e (Some g) X a w ew k r = hp_v2e (Some g) X a w ew k r').
    { intros. unfold hp_v2e. rewrite EA. destruct (hp_v2e_agg (Some g) X a w k r'); cbn [res_bind]; rewrite ?EU; apply PS. }
    assert (EB : forall X a w k, hp_e2v (Some g) X a w k r = hp_e2v (Some g) X a w k r').
    { intros. unfold hp_e2v, hp_e2v_agg, hp_Dv1. rewrite EH, ED, NV, ?PS; auto. }
    destruct q; cbn [q_scope] in Q; try discriminate Q; injection Q as ->; cbn [hp_query];
      unfold hp_Dv1, hp_Dv12, hp_De1, hp_Lsym, hp_hgnn, p_sub_id; rewrite ?EN, ?EHT, ?EH, ?EW, ?ED, ?EE, ?EL, ?EA, ?EU, ?EV, ?EB, ?NV; auto.
    - cbn. unfold hp_e_g. rewrite PG; auto.
    - cbn [hp_Ne]. unfold hp_Ne_g. change (hp_H_g g r) with (hp_H (Some g) r). rewrite EH, NV, PG. reflexivity.
    - cbn [hp_Nv]. unfold hp_Nv_g. rewrite EHT, PG. reflexivity.
    - unfold hp_Lrw, hp_Dv1, hp_De1, p_sub_id. rewrite ED, EH, EW, EE, EHT, NV; auto.
    - unfold hp_v2v. rewrite EV. destruct (hp_v2e (Some g) X (or_else a1 a) w1 ew (if or_else dr1 dr then Some k1 else None) r'); cbn [res_bind]; rewrite ?EB, PS; auto.
  Qed.
  Lemma h_step_local o g g' s : op_group o = Some g -> g' <> g ->
    h_nv (st_raw (fst (h_step o s))) = h_nv (st_raw s) /\ dget g' (h_gr (st_raw (fst (h_step o s)))) = dget g' (h_gr (st_raw s)).
  Proof.
    intros OG NE. destruct o as [e w m g0|e g0|g0| |q]; cbn [op_group h_step] in *; try discriminate.
    - injection OG as ->. rewrite unit_out_fst. unfold h_add. destruct (hweights (length (hformat e)) w) as [ws|]; [|auto].
      pose proof (hadds_local m g (combine (hformat e) ws) (st_raw s)) as (A & _ & B). cbv zeta in *.
      destruct (hadds m g (combine (hformat e) ws) (st_raw s)) as [r [u|x]]; cbn in *; auto.
    - destruct g0 as [g0|]; [|discriminate]. injection OG as ->. rewrite unit_out_fst. unfold h_remove. destruct (dhas g (h_gr (st_raw s))); [|auto].
      destruct (hdels_local g (hformat e) (st_raw s)) as (A & _ & B). cbn. auto.
    - injection OG as ->. rewrite unit_out_fst. cbn. split; auto. apply dget_ddel_other; auto.
  Qed.

  (** * rebuilding *)
  Definition parts r : list (string * (list (list Z) * list T)) := map (fun nd => (fst nd, (dkeys (snd nd), dvals (snd nd)))) (h_gr r).
  Lemma dget_snoc {V} (l : list (string * V)) g v : ~ In g (map fst l) -> dget g (l ++ [(g, v)]) = Some v.
  Proof.
    induction l as [|[k w] l IH]; cbn; intros NI; [rewrite eqb_refl; auto|].
    destruct (eqb_spec g k) as [->|]; [tauto|]. apply IH. tauto.
  Qed.
  Lemma dset_snoc {V} (l : list (string * V)) g v v' : ~ In g (map fst l) -> dset g v' (l ++ [(g, v)]) = l ++ [(g, v')].
  Proof.
    induction l as [|[k w] l IH]; cbn; intros NI; [rewrite eqb_refl; auto|].
    destruct (eqb_spec g k) as [->|]; [tauto|]. rewrite IH; auto.
  Qed.
  Lemma hadds_fresh m g (l d0 : dict (list Z) T) nv vw gr : ~ In g (map fst gr) -> NoDup (map fst (d0 ++ l)) -> d0 <> [] ->
    hadds m g l (mkHRaw nv vw (gr ++ [(g, d0)])) = (mkHRaw nv vw (gr ++ [(g, d0 ++ l)]), Ok tt).
  Proof.
    intros NI. revert d0; induction l as [|[e w] l IH]; intros d0 ND NE; cbn [hadds]; [rewrite app_nil_r; auto|].
    unfold hadd1. cbn [h_gr]. rewrite dget_snoc by auto.
    assert (DN : dget e d0 = None).
    { apply dget_None. intros I. rewrite map_app in ND. cbn in ND. apply NoDup_remove_2 in ND. apply ND. apply in_or_app; auto. }
    rewrite DN. unfold set_gr; cbn [h_gr h_nv h_vw]. rewrite dset_snoc, dset_new by auto.
    rewrite IH; [rewrite <- app_assoc; reflexivity|rewrite <- app_assoc; exact ND|intros E; apply app_eq_nil in E as [_ E]; discriminate].
  Qed.
  Lemma hadds_new m g (l : dict (list Z) T) nv vw gr : ~ In g (map fst gr) -> NoDup (map fst l) -> l <> [] ->
    hadds m g l (mkHRaw nv vw gr) = (mkHRaw nv vw (gr ++ [(g, l)]), Ok tt).
  Proof.
    intros NI ND NE. destruct l as [|[e w] l]; [congruence|]. cbn [hadds]. unfold hadd1. cbn [h_gr].
    assert (GN : dget g gr = None) by (apply dget_None; auto). rewrite GN. unfold set_gr; cbn [h_gr h_nv h_vw].
    rewrite dset_new by auto. rewrite hadds_fresh; auto. discriminate.
  Qed.
  Lemma hclear_empty (g : option string) r : hclear_cache g (mkSt r []) = mkSt (T := T) r [].
  Proof. destruct g; reflexivity. Qed.
  Lemma rebuild_group_run g (d : dict (list Z) T) nv vw gr : ~ In g (map fst gr) -> gwf d ->
    fst (h_run (rebuild_group (g, (dkeys d, dvals d))) (mkSt (mkHRaw nv vw gr) [])) = mkSt (mkHRaw nv vw (gr ++ [(g, d)])) [].
  Proof.
    intros NI [OK SO]. unfold rebuild_group. cbn [fst snd]. destruct (dkeys d) as [|k0 ks] eqn:DK.
    - apply map_eq_nil in DK as ->. cbn [h_run h_step].
      pose proof (unit_out_fst (h_add (HMany [[0]]) WNone MMean g) (mkSt (mkHRaw nv vw gr) [])) as U.
      destruct (unit_out (h_add (HMany [[0]]) WNone MMean g) (mkSt (mkHRaw nv vw gr) [])) as [s1 x]. cbn [fst] in U.
      assert (A : h_add (HMany [[0]]) WNone MMean g (mkSt (mkHRaw nv vw gr) []) = (mkSt (mkHRaw nv vw (gr ++ [(g, [([0], n1)])])) [], Ok tt)).
      { unfold h_add. cbn [hformat map length hweights repeat combine st_raw st_cache]. rewrite hadds_new; auto; [repeat constructor; auto|discriminate]. }
      rewrite A in U. cbn [fst] in U. subst s1.
      pose proof (unit_out_fst (h_remove (HMany [[0]]) (Some g)) (mkSt (mkHRaw nv vw (gr ++ [(g, [([0], n1)])])) [])) as U.
      destruct (unit_out (h_remove (HMany [[0]]) (Some g)) (mkSt (mkHRaw nv vw (gr ++ [(g, [([0], n1)])])) [])) as [s2 x2]. cbn [fst] in *. rewrite U.
      unfold h_remove. cbn [st_raw h_gr]. unfold dhas. rewrite dget_snoc by auto. cbn [hformat map fold_left fst].
      rewrite hclear_empty. unfold hdel, set_gr. cbn [h_nv h_vw h_gr]. do 2 f_equal. rewrite map_app. cbn [map fst snd]. rewrite String.eqb_refl. f_equal.
      rewrite <- (map_id gr) at 2. apply map_ext_in. intros [k w] I. cbn [fst snd]. destruct (String.eqb_spec g k) as [->|]; auto.
      exfalso. apply NI, in_map_iff. exists (k, w); auto.
    - cbn [h_run h_step]. rewrite <- DK in *.
      assert (HF : hformat (HMany (dkeys d)) = dkeys d).
      { cbn [hformat]. rewrite <- (map_id (dkeys d)) at 2. apply map_ext_in. rewrite Forall_forall in SO. auto. }
      assert (LE : length (dvals d) = length (dkeys d)) by (unfold dkeys, dvals; rewrite !map_length; auto).
      pose proof (unit_out_fst (h_add (HMany (dkeys d)) (WList (dvals d)) MMean g) (mkSt (mkHRaw nv vw gr) [])) as U.
      destruct (unit_out (h_add (HMany (dkeys d)) (WList (dvals d)) MMean g) (mkSt (mkHRaw nv vw gr) [])) as [s1 x]. cbn [fst] in *. rewrite U.
      unfold h_add. rewrite HF. cbn [hweights]. rewrite LE, Nat.eqb_refl. cbn [st_raw st_cache]. rewrite combine_keys_vals.
      rewrite hadds_new; auto. intros ->; discriminate DK.
  Qed.
  Lemma h_run_app ops1 ops2 s : fst (h_run (ops1 ++ ops2) s) = fst (h_run ops2 (fst (h_run ops1 s))).
  Proof.
    revert s; induction ops1 as [|o ops IH]; intros s; cbn [h_run app]; auto.
    destruct (h_step o s) as [s1 x]. specialize (IH s1). destruct (h_run (ops ++ ops2) s1), (h_run ops s1). cbn in *. auto.
  Qed.
  Lemma rebuild_groups_run nv vw (l : list (string * dict (list Z) T)) : forall gr, NoDup (map fst (gr ++ l)) ->
    (forall g d, In (g, d) l -> gwf d) ->
    fst (h_run (flat_map rebuild_group (map (fun nd => (fst nd, (dkeys (snd nd), dvals (snd nd)))) l)) (mkSt (mkHRaw nv vw gr) [])) = mkSt (mkHRaw nv vw (gr ++ l)) [].
  Proof.
    induction l as [|[g d] l IH]; intros gr ND G; cbn [map flat_map fst snd]; [rewrite app_nil_r; auto|].
    rewrite h_run_app, rebuild_group_run.
    - rewrite IH; [rewrite <- app_assoc; reflexivity|rewrite <- app_assoc; exact ND|intros; eapply G; right; eauto].
    - rewrite map_app in ND. cbn in ND. apply NoDup_remove_2 in ND. intros I; apply ND, in_or_app; auto.
    - eapply G; left; eauto.
  Qed.
  Lemma rebuild_reach r : hwf r -> 0 < h_nv r -> (forall l, h_vw r = Some l -> length l = Z.to_nat (h_nv r)) ->
    h_reach (h_nv r) None WNone (h_vw r) MMean (rebuild (h_vw r) (parts r)) (mkSt r []).
  Proof.
    intros [O G] P L. destruct r as [nv vw gr]. cbn [h_nv h_vw h_gr] in *. unfold h_reach, h_new.
    replace (0 <? nv) with true by (symmetry; apply Z.ltb_lt; auto).
    assert (ND : NoDup (map fst gr)) by exact O.
    assert (GW : forall g d, In (g, d) gr -> gwf d) by (intros g d I; eapply G; apply In_dget; eauto).
    unfold rebuild, parts; cbn [h_gr]. destruct vw as [l|].
    - rewrite (L l eq_refl), Nat.eqb_refl. eexists; split; [reflexivity|]. cbn [app]. rewrite rebuild_groups_run; auto.
    - eexists; split; [reflexivity|]. rewrite h_run_app. cbn. rewrite rebuild_groups_run; auto.
  Qed.
  Lemma rebuild_doc (vw : option (list T)) gs : Forall doc_op (rebuild vw gs).
  Proof.
    unfold rebuild. apply Forall_app. split; [destruct vw; repeat constructor|]. apply Forall_flat_map, Forall_forall. intros [g [es ws]] _.
    unfold rebuild_group; cbn. destruct es; repeat constructor; discriminate.
  Qed.
  Lemma rebuild_clean nv (vw : option (list T)) gs : 0 < nv -> (forall g es ws, In (g, (es, ws)) gs -> Forall (clean_edge nv) es) -> Forall (clean_op nv) (rebuild vw gs).
  Proof.
    intros P F. unfold rebuild. apply Forall_app. split; [destruct vw; repeat constructor|]. apply Forall_flat_map, Forall_forall. intros [g [es ws]] I.
    apply F in I. unfold rebuild_group; cbn. destruct es; [|constructor; [exact I|constructor]].
    repeat constructor; auto; lia.
  Qed.
End Agree.
