(** The Hypergraph store refines the specification; cache coherence of histories. *)
From Coq Require Import String Permutation Sorting.Sorted.
From Verif Require Import Num PyDict PyDictFacts Coo ModelBase CacheFacts ModelGraph SpecGraph StoreFacts ModelHyper HyperFacts SpecHyper.
Set Implicit Arguments.

(** * sorting *)
Lemma zins_perm x l : Permutation (zins x l) (x :: l).
Proof.
  induction l as [|y l IH]; cbn; auto. destruct (x <=? y); auto.
  rewrite IH. apply perm_swap.
Qed.
Lemma zsort_perm l : Permutation (zsort l) l.
Proof. induction l as [|x l IH]; cbn; auto. rewrite zins_perm. auto. Qed.
Lemma zins_sorted x l : StronglySorted Z.le l -> StronglySorted Z.le (zins x l).
Proof.
  induction 1 as [|y l S IH F]; cbn; [repeat constructor|].
  destruct (x <=? y) eqn:E.
  - constructor; [constructor; auto|]. constructor; [lia|]. eapply Forall_impl; [|exact F]. cbn; intros; lia.
  - constructor; auto. eapply Permutation_Forall; [symmetry; apply zins_perm|]. constructor; [lia|auto].
Qed.
Lemma zsort_sorted l : StronglySorted Z.le (zsort l).
Proof. induction l; cbn; [constructor|apply zins_sorted; auto]. Qed.
Lemma sorted_perm_eq l l' : StronglySorted Z.le l -> StronglySorted Z.le l' -> Permutation l l' -> l = l'.
Proof.
  intros S; revert l'; induction S as [|a l S IH F]; intros l' S' P.
  - apply Permutation_nil in P; auto.
  - destruct S' as [|b l' S' F']; [symmetry in P; apply Permutation_nil in P; discriminate|].
    assert (a = b).
    { rewrite Forall_forall in F, F'. 
      assert (In a (b :: l')) as [E|I1] by (eapply Permutation_in; [exact P|left; auto]); auto.
      assert (In b (a :: l)) as [E|I2] by (eapply Permutation_in; [symmetry; exact P|left; auto]); auto.
      specialize (F _ I2). specialize (F' _ I1). lia. }
    subst b. f_equal. apply IH; auto. eapply Permutation_cons_inv; eauto.
Qed.
Lemma zsort_id l : StronglySorted Z.le l -> zsort l = l.
Proof. intros S. apply sorted_perm_eq; auto using zsort_sorted, zsort_perm. Qed.
Lemma zsort_idem l : zsort (zsort l) = zsort l.
Proof. apply zsort_id, zsort_sorted. Qed.
Lemma zsort_eq_perm l l' : zsort l = zsort l' <-> Permutation l l'.
Proof.
  split; intros E.
  - rewrite <- (zsort_perm l), E. apply zsort_perm.
  - apply sorted_perm_eq; auto using zsort_sorted. rewrite !zsort_perm; auto.
Qed.
Lemma same_edge_perm e e' : same_edge e e' = true <-> Permutation e e'.
Proof.
  unfold same_edge, occurs. rewrite forallb_forall. split.
  - intros F. apply (Permutation_count_occ Z.eq_dec). intros v.
    destruct (in_dec Z.eq_dec v (e ++ e')) as [I|N].
    + apply Nat.eqb_eq. apply F; auto.
    + rewrite in_app_iff in N. rewrite (proj1 (count_occ_not_In Z.eq_dec e v)), (proj1 (count_occ_not_In Z.eq_dec e' v)); auto.
  - intros P v _. apply Nat.eqb_eq. apply (Permutation_count_occ Z.eq_dec); auto.
Qed.
Lemma same_edge_sort e e' : same_edge e e' = eqb (zsort e) (zsort e').
Proof.
  apply eq_true_iff_eq. rewrite same_edge_perm, eqb_eq, zsort_eq_perm. tauto.
Qed.
Lemma same_name_eqb g g' : same_name g g' = eqb g g'.
Proof.
  unfold same_name. apply eq_true_iff_eq. rewrite eqb_eq. destruct (string_dec g g'); split; intros; congruence.
Qed.
Lemma String_eqb_eqb g g' : String.eqb g g' = eqb g g'.
Proof. apply eq_true_iff_eq. rewrite eqb_eq, String.eqb_eq. tauto. Qed.
Lemma has_name_In g l : has_name g l = true <-> In g l.
Proof.
  unfold has_name. rewrite existsb_exists. split.
  - intros (x & I & E). rewrite same_name_eqb, eqb_eq in E. subst; auto.
  - intros I. exists g; split; auto. rewrite same_name_eqb, eqb_refl; reflexivity.
Qed.
Lemma clean_sort nv e : clean_edge nv e -> clean_edge nv (zsort e).
Proof.
  intros [N F]. split.
  - eapply Permutation_NoDup; [symmetry; apply zsort_perm|auto].
  - eapply Permutation_Forall; [symmetry; apply zsort_perm|auto].
Qed.

Section Store.
  Context {T : Type} `{Num T}.
  Implicit Types (r : hraw T) (A : ahyper T) (g : string) (d : dict (list Z) T).

  Definition gwf d : Prop := dict_ok d /\ Forall (fun k => zsort k = k) (dkeys d).
  Definition hwf r : Prop := dict_ok (h_gr r) /\ forall g d, dget g (h_gr r) = Some d -> gwf d.
  Definition hclean r : Prop := forall g d, dget g (h_gr r) = Some d -> Forall (clean_edge (h_nv r)) (dkeys d).
  Definition hlookup r g (e : list Z) : option T :=
    match dget g (h_gr r) with Some d => dget (zsort e) d | None => None end.
  Definition hrel r A : Prop :=
    hwf r /\ dkeys (h_gr r) = ah_names A /\ h_vw r = ah_vw A /\ forall g e, hlookup r g e = ah_w A g e.

  Lemma dkeys_dset {K V} `{EqB K} (k : K) (v : V) (d : dict K V) : dkeys (dset k v d) = if dhas k d then dkeys d else dkeys d ++ [k].
  Proof.
    unfold dhas. induction d as [|[k' v'] d IH]; cbn; auto.
    destruct (eqb_spec k k') as [->|NE]; cbn; auto.
    change (k' :: dkeys (dset k v d) = if match dget k d with Some _ => true | None => false end then k' :: dkeys d else k' :: dkeys d ++ [k]).
    rewrite IH. destruct (dget k d); reflexivity.
  Qed.
  Lemma has_name_dhas g r : has_name g (dkeys (h_gr r)) = dhas g (h_gr r).
  Proof.
    apply eq_true_iff_eq. rewrite has_name_In, dhas_spec. split.
    - intros I. destruct (dget g (h_gr r)) eqn:E; eauto. apply dget_None in E; tauto.
    - intros (v & E). apply dget_In in E. apply in_map_iff. exists (g, v); auto.
  Qed.

  Lemma hwf_set r g d : hwf r -> gwf d -> hwf (set_gr r (dset g d (h_gr r))).
  Proof.
    intros [O W] G. split; cbn; [apply dset_ok; auto|].
    intros g' d' E. destruct (eqb_spec g' g) as [->|N].
    - rewrite dget_dset_same in E. injection E as <-; auto.
    - rewrite dget_dset_other in E by auto. eauto.
  Qed.
  Lemma gwf_set d e w : gwf d -> gwf (dset (zsort e) w d).
  Proof.
    intros [O S]. split; [apply dset_ok; auto|]. rewrite Forall_forall in *. intros x I.
    apply dset_keys_in in I as [->|I]; [apply zsort_idem|auto].
  Qed.
  Lemma gwf_one e (w : T) : gwf [(zsort e, w)].
  Proof. split; [repeat constructor; auto|repeat constructor; apply zsort_idem]. Qed.

  Lemma hadd1_rel m g e w r A : m <> MOther -> hrel r A ->
    exists r', hadd1 m g (zsort e) w r = Ok r' /\ hrel r' (ah_add1 m g (e, w) A) /\ h_nv r' = h_nv r /\
      (hclean r -> clean_edge (h_nv r) e -> hclean r').
  Proof.
    intros M (W & NM & VW & L).
    assert (MF : exists f, merge_fun m = Some f /\ forall x y : T, f x y = merged m x y).
    { destruct m; cbn; try congruence; eexists; split; reflexivity. }
    destruct MF as (f & MF & FM).
    (* the new dictionary of the group *)
    assert (X : exists d', hadd1 m g (zsort e) w r = Ok (set_gr r (dset g d' (h_gr r))) /\ gwf d' /\
      (forall x, dget (zsort x) d' = if eqb (zsort e) (zsort x)
         then Some (match hlookup r g x with Some o => merged m o w | None => w end) else hlookup r g x) /\
      (forall k, In k (dkeys d') -> k = zsort e \/ exists d, dget g (h_gr r) = Some d /\ In k (dkeys d))).
    { unfold hadd1, hlookup. destruct (dget g (h_gr r)) as [d|] eqn:E.
      - pose proof (proj2 W _ _ E) as G.
        assert (K : forall v k, In k (dkeys (dset (zsort e) v d)) -> k = zsort e \/ exists d0, Some d = Some d0 /\ In k (dkeys d0)).
        { intros v k I. apply dset_keys_in in I as [->|I]; eauto. }
        assert (Q : forall v x, dget (zsort x) (dset (zsort e) v d) = if eqb (zsort e) (zsort x) then Some v else dget (zsort x) d).
        { intros v x. destruct (eqb_spec (zsort e) (zsort x)) as [->|N]; [apply dget_dset_same|apply dget_dset_other; auto]. }
        destruct (dget (zsort e) d) as [o|] eqn:E2.
        + rewrite MF. exists (dset (zsort e) (f o w) d). split; [reflexivity|]. split; [apply gwf_set; auto|]. split; [|apply K].
          intros x. rewrite Q. destruct (eqb_spec (zsort e) (zsort x)) as [<-|N]; auto. rewrite E2, FM; auto.
        + exists (dset (zsort e) w d). split; [reflexivity|]. split; [apply gwf_set; auto|]. split; [|apply K].
          intros x. rewrite Q. destruct (eqb_spec (zsort e) (zsort x)) as [<-|N]; auto. rewrite E2; auto.
      - exists [(zsort e, w)]. split; [reflexivity|]. split; [apply gwf_one|]. split.
        + intros x. cbn [dget]. rewrite (eqb_sym (zsort x)). destruct (eqb (zsort e) (zsort x)); reflexivity.
        + intros k [E0|[]]; left; symmetry; exact E0. }
    destruct X as (d' & E & G & Q & K). exists (set_gr r (dset g d' (h_gr r))). split; [exact E|]. split; [|split; [reflexivity|]].
    - split; [apply hwf_set; auto|]. split; [|split; [exact VW|]].
      + cbn. rewrite dkeys_dset, <- NM, has_name_dhas. reflexivity.
      + intros g' x. unfold hlookup at 1. cbn [ah_add1 ah_w set_gr h_gr fst snd]. rewrite same_name_eqb, same_edge_sort.
        destruct (eqb_spec g g') as [<-|N].
        * rewrite dget_dset_same, Q. cbn [andb]. rewrite L. destruct (eqb (zsort e) (zsort x)); reflexivity.
        * rewrite dget_dset_other by auto. cbn [andb]. apply L.
    - intros C CE g' d0 E0. cbn in *. destruct (eqb_spec g' g) as [->|N].
      + rewrite dget_dset_same in E0. injection E0 as <-. rewrite Forall_forall. intros k I.
        destruct (K k I) as [->|(d1 & E1 & I1)]; [apply clean_sort; auto|].
        specialize (C _ _ E1). rewrite Forall_forall in C. auto.
      + rewrite dget_dset_other in E0 by auto. eapply C; eauto.
  Qed.
  Lemma hadds_rel m g ps r A : m <> MOther -> hrel r A ->
    exists r', hadds m g (map (fun x => (zsort (fst x), snd x)) ps) r = (r', Ok tt) /\
      hrel r' (fold_left (fun A x => ah_add1 m g x A) ps A) /\ h_nv r' = h_nv r /\
      (hclean r -> Forall (fun x => clean_edge (h_nv r) (fst x)) ps -> hclean r').
  Proof.
    intros M. revert r A; induction ps as [|[e w] ps IH]; intros r A R.
    - cbn. eauto.
    - destruct (hadd1_rel g e w M R) as (r1 & E1 & R1 & N1 & C1). cbn [map fst snd hadds]. rewrite E1.
      destruct (IH r1 _ R1) as (r2 & E2 & R2 & N2 & C2). exists r2. split; [exact E2|]. split; [exact R2|].
      split; [congruence|]. intros C F. inversion F; subst. apply C2; auto. rewrite N1; auto.
  Qed.
  Lemma hformat_edges e : hformat e = map zsort (hedges_of e).
  Proof. destruct e as [[|a l]|l]; reflexivity. Qed.
  Lemma combine_map_l {X Y Z0} (f : X -> Y) (l : list X) (w : list Z0) :
    combine (map f l) w = map (fun x => (f (fst x), snd x)) (combine l w).
  Proof. revert w; induction l as [|a l IH]; intros [|b w]; cbn; auto. rewrite IH; reflexivity. Qed.
  Lemma combine_repeat {X} (l : list X) (c : T) : combine l (repeat c (length l)) = map (fun x => (x, c)) l.
  Proof. induction l as [|a l IH]; cbn; auto. rewrite IH; reflexivity. Qed.
  Lemma hweights_pairs e (w : warg T) :
    match hweights (length (hformat e)) w, hpairs_of e w with
    | Ok ws, Some ps => combine (hformat e) ws = map (fun x => (zsort (fst x), snd x)) ps /\ map fst ps = hedges_of e
    | Err x, None => x = AssertionError
    | _, _ => False
    end.
  Proof.
    rewrite hformat_edges, map_length. unfold hweights, hpairs_of.
    destruct w as [|c|ws].
    - rewrite combine_map_l, combine_repeat. split; auto. rewrite map_map. apply map_id.
    - rewrite combine_map_l, combine_repeat. split; auto. rewrite map_map. apply map_id.
    - destruct (Nat.eqb (length ws) (length (hedges_of e))) eqn:E; auto.
      rewrite combine_map_l. split; auto. apply Nat.eqb_eq in E. 
      clear - E. revert ws E. generalize (hedges_of e). induction l as [|a l IH]; intros [|b ws] E; cbn in *; try discriminate; auto.
      f_equal. apply IH. congruence.
  Qed.

  Lemma h_add_rel e w m g (s : hypergraph T) A : m <> MOther -> hrel (st_raw s) A ->
    let s' := fst (h_add e w m g s) in
    hrel (st_raw s') (ah_add e w m g A) /\ h_nv (st_raw s') = h_nv (st_raw s) /\
    (hclean (st_raw s) -> clean_harg (h_nv (st_raw s)) e -> hclean (st_raw s')).
  Proof.
    intros M R. pose proof (hweights_pairs e w) as P. unfold h_add, ah_add, clean_harg.
    destruct (hweights (length (hformat e)) w) as [ws|x], (hpairs_of e w) as [ps|]; try contradiction; [|cbn; auto].
    destruct P as [P PF]. rewrite P. destruct (hadds_rel g ps M R) as (r' & E & R' & N & C). rewrite E. cbn.
    split; [exact R'|]. split; [exact N|]. intros C0 F. apply C; auto. rewrite <- PF in F. exact (proj1 (Forall_map _ _ _) F).
  Qed.

  Lemma dget_map_snd {K V W} `{EqB K} (f : K -> V -> W) (d : list (K * V)) k :
    dget k (map (fun nd => (fst nd, f (fst nd) (snd nd))) d) = match dget k d with Some v => Some (f k v) | None => None end.
  Proof.
    induction d as [|[k' v] d IH]; cbn; auto. destruct (eqb_spec k k') as [->|N]; auto.
  Qed.
  Definition hdel_fun (g : option string) (e : list Z) (n : string) d : dict (list Z) T :=
    match g with None => ddel e d | Some g' => if String.eqb g' n then ddel e d else d end.
  Lemma hdel_eq (g : option string) e r : hdel g e r = set_gr r (map (fun nd => (fst nd, hdel_fun g e (fst nd) (snd nd))) (h_gr r)).
  Proof.
    unfold hdel. f_equal. apply map_ext. intros [n d]. cbn. unfold hdel_fun. destruct g as [g|]; auto. destruct (String.eqb g n); reflexivity.
  Qed.
  Lemma hdel_rel (g : option string) e r A : hrel r A ->
    hrel (hdel g (zsort e) r) (mkAH (ah_names A)
      (fun g' e' => if match g with None => true | Some n => same_name n g' end && same_edge e e' then None else ah_w A g' e') (ah_vw A)) /\
    h_nv (hdel g (zsort e) r) = h_nv r /\ (hclean r -> hclean (hdel g (zsort e) r)).
  Proof.
    intros ([O W] & NM & VW & L). rewrite hdel_eq.
    assert (G : forall n d, gwf d -> gwf (hdel_fun g (zsort e) n d)).
    { intros n d [O1 S]. unfold hdel_fun.
      assert (gwf (ddel (zsort e) d)). { split; [apply ddel_ok; auto|]. rewrite Forall_forall in *. intros x I. apply S, (ddel_keys_sub _ _ _ I). }
      destruct g as [g|]; auto. destruct (String.eqb g n); auto. split; auto. }
    assert (K : forall n d x, In x (dkeys (hdel_fun g (zsort e) n d)) -> In x (dkeys d)).
    { intros n d x. unfold hdel_fun. destruct g as [g|]; [destruct (String.eqb g n)|]; auto; apply ddel_keys_sub. }
    split; [|split; [reflexivity|]].
    - split; [|split; [|split]]; cbn [set_gr h_gr h_vw].
      + split; cbn [set_gr h_gr].
        * unfold dict_ok, dkeys. rewrite map_map. cbn. exact O.
        * intros g' d. rewrite dget_map_snd. destruct (dget g' (h_gr r)) as [d0|] eqn:E; [|discriminate]. intros X; injection X as <-. eauto.
      + unfold dkeys in *. rewrite map_map. cbn. exact NM.
      + exact VW.
      + intros g' x. cbn [ah_w]. unfold hlookup. cbn [set_gr h_gr]. rewrite dget_map_snd. rewrite <- L. unfold hlookup.
        rewrite same_edge_sort. destruct (dget g' (h_gr r)) as [d|] eqn:E.
        2:{ match goal with |- context [if ?c then _ else _] => destruct c end; reflexivity. }
        assert (D : dget (zsort x) (ddel (zsort e) d) = if eqb (zsort e) (zsort x) then None else dget (zsort x) d).
        { destruct (eqb_spec (zsort e) (zsort x)) as [->|N].
          - apply dget_ddel_same. apply (proj1 (W _ _ E)).
          - apply dget_ddel_other; auto. }
        unfold hdel_fun. destruct g as [g|]; [|exact D]. rewrite same_name_eqb, String_eqb_eqb.
        destruct (eqb g g'); [exact D|reflexivity].
    - intros C g' d. cbn [set_gr h_gr h_nv]. rewrite dget_map_snd. destruct (dget g' (h_gr r)) as [d0|] eqn:E; [|discriminate].
      intros X; injection X as <-. specialize (C _ _ E). rewrite Forall_forall in *. intros x I. apply C. eapply K; eauto.
  Qed.
  Lemma hdels_rel (g : option string) es r A : hrel r A ->
    let r' := fold_left (fun r x => hdel g x r) (map zsort es) r in
    hrel r' (mkAH (ah_names A)
      (fun g' e' => if match g with None => true | Some n => same_name n g' end && existsb (fun x => same_edge x e') es then None else ah_w A g' e') (ah_vw A)) /\
    h_nv r' = h_nv r /\ (hclean r -> hclean r').
  Proof.
    revert r A; induction es as [|e es IH]; intros r A R.
    - cbn. split; [|auto]. destruct R as (W & NM & VW & L). split; [exact W|]. split; [exact NM|]. split; [exact VW|].
      intros g' e'. cbn. rewrite andb_false_r. apply L.
    - cbn [map fold_left]. destruct (hdel_rel g e R) as (R1 & N1 & C1). destruct (IH _ _ R1) as (R2 & N2 & C2).
      cbv zeta in *. split; [|split; [congruence|auto]].
      destruct R2 as (W & NM & VW & L). split; [exact W|]. split; [exact NM|]. split; [exact VW|].
      intros g' e'. rewrite L. cbn [ah_w existsb].
      destruct (match g with None => true | Some n => same_name n g' end), (same_edge e e'), (existsb (fun x => same_edge x e') es); reflexivity.
  Qed.
  Lemma h_remove_rel e (g : option string) (s : hypergraph T) A : hrel (st_raw s) A ->
    let s' := fst (h_remove e g s) in
    hrel (st_raw s') (ah_remove e g A) /\ h_nv (st_raw s') = h_nv (st_raw s) /\ (hclean (st_raw s) -> hclean (st_raw s')).
  Proof.
    intros R. unfold h_remove, ah_remove.
    replace (match g with None => true | Some n => has_name n (ah_names A) end)
      with (match g with None => true | Some n => dhas n (h_gr (st_raw s)) end).
    2:{ destruct g; auto. destruct R as (_ & NM & _). rewrite <- NM. symmetry; apply has_name_dhas. }
    match goal with |- context [if ?c then _ else _] => destruct c end; [|cbn; auto].
    rewrite hformat_edges. pose proof (hdels_rel g (hedges_of e) R) as X. cbv zeta in *. destruct g; exact X.
  Qed.
  Lemma filter_all {X} (f : X -> bool) l : (forall x, In x l -> f x = true) -> filter f l = l.
  Proof. induction l as [|a l IH]; cbn; intros F; auto. rewrite F by auto. f_equal; auto. Qed.
  Lemma dkeys_ddel {K V} `{EqB K} (k : K) (d : dict K V) : NoDup (dkeys d) -> dkeys (ddel k d) = filter (fun x => negb (eqb k x)) (dkeys d).
  Proof.
    unfold dkeys. induction d as [|[k' v] d IH]; cbn; intros ND; auto. inversion ND; subst.
    destruct (eqb_spec k k') as [->|N]; cbn.
    - symmetry. apply filter_all. intros x I. destruct (eqb_spec k' x) as [->|]; auto.
    - rewrite IH; auto.
  Qed.
  Lemma h_remove_group_rel g (s : hypergraph T) A : hrel (st_raw s) A ->
    let s' := fst (h_remove_group g s) in
    hrel (st_raw s') (ah_remove_group g A) /\ h_nv (st_raw s') = h_nv (st_raw s) /\ (hclean (st_raw s) -> hclean (st_raw s')).
  Proof.
    intros ([O W] & NM & VW & L). cbn [h_remove_group fst hclear_cache st_raw].
    assert (Q : forall g', dget g' (ddel g (h_gr (st_raw s))) = if eqb g g' then None else dget g' (h_gr (st_raw s))).
    { intros g'. destruct (eqb_spec g g') as [<-|N]; [apply dget_ddel_same; auto|apply dget_ddel_other; auto]. }
    split; [|split; [reflexivity|]].
    - split; [|split; [|split; [exact VW|]]]; cbn [set_gr h_gr].
      + split; cbn [set_gr h_gr]; [apply ddel_ok; auto|]. intros g' d E. rewrite Q in E. destruct (eqb g g'); [discriminate|eauto].
      + rewrite dkeys_ddel by exact O. rewrite NM. cbn [ah_remove_group ah_names]. apply filter_ext. intros x. rewrite same_name_eqb; reflexivity.
      + intros g' e. unfold hlookup. cbn [set_gr h_gr ah_remove_group ah_w]. rewrite Q, same_name_eqb, <- L. unfold hlookup.
        destruct (eqb g g'); reflexivity.
    - intros C g' d E. cbn [set_gr h_gr] in *. rewrite Q in E. destruct (eqb g g'); [discriminate|]. cbn. eauto.
  Qed.
  Lemma hrel_empty nv vw : hrel (mkHRaw nv vw []) (mkAH [] (fun _ _ => None) vw).
  Proof. split; [split; cbn; [constructor|discriminate]|]. auto. Qed.
  Lemma hclean_empty nv vw : hclean (@mkHRaw T nv vw []).
  Proof. intros g d; discriminate. Qed.

  (** * coherence of the caches under mutation *)
  Lemma dget_filter_key {K V} `{EqB K} (p : K -> bool) (d : dict K V) k :
    dget k (filter (fun kv => p (fst kv)) d) = if p k then dget k d else None.
  Proof.
    induction d as [|[k' v] d IH]; cbn; [destruct (p k); auto|].
    destruct (p k') eqn:P; cbn.
    - destruct (eqb_spec k k') as [->|N]; [rewrite P; auto|auto].
    - destruct (eqb_spec k k') as [->|N]; [rewrite IH, P; auto|auto].
  Qed.
  Lemma hspec_local fz g k r r' : h_nv r = h_nv r' -> dget g (h_gr r) = dget g (h_gr r') ->
    hspec fz (KH (Some g) k) r = hspec fz (KH (Some g) k) r'.
  Proof.
    intros N E.
    assert (PG : forall X (f : dict (list Z) T -> res X), p_group r g f = p_group r' g f) by (intros; unfold p_group; rewrite E; auto).
    assert (EH : hp_H (Some g) r = hp_H (Some g) r') by (cbn; unfold hp_H_g; rewrite N; apply PG).
    assert (EHT : hp_HT (Some g) r = hp_HT (Some g) r') by (unfold hp_HT; rewrite EH; auto).
    assert (EW : hp_We (Some g) r = hp_We (Some g) r') by (cbn; unfold hp_We_g; apply PG).
    assert (ED : hp_Dv (Some g) r = hp_Dv (Some g) r').
    { cbn in *. unfold hp_Dv_g. rewrite EH, EW, N; auto. }
    assert (EE : hp_De (Some g) r = hp_De (Some g) r').
    { cbn in *. unfold hp_De_g. rewrite EHT. apply PG. }
    destruct k; cbn [hspec]; auto.
    - cbn. unfold hp_e_g. rewrite PG; auto.
    - rewrite EH; auto.
    - rewrite EH; auto.
    - rewrite EH; auto.
    - rewrite EHT; auto.
    - rewrite EW; auto.
    - rewrite ED; auto.
    - unfold hp_Dv1. rewrite ED; auto.
    - unfold hp_Dv12. rewrite ED; auto.
    - rewrite EE; auto.
    - unfold hp_De1; rewrite EE; auto.
    - unfold hp_Lsym, hp_Lhgnn, hp_Dv12, hp_De1, p_sub_id. rewrite ED, EH, EW, EE, EHT, N; auto.
    - unfold hp_Lrw, hp_Dv1, hp_De1, p_sub_id. rewrite ED, EH, EW, EE, EHT, N; auto.
    - unfold hp_Lhgnn, hp_Dv12, hp_De1. rewrite ED, EH, EW, EE, EHT; auto.
  Qed.
  Lemma hclear_coh fz g r r' c : coh (hspec fz) (mkSt r c) -> h_nv r = h_nv r' ->
    (forall g', g' <> g -> dget g' (h_gr r) = dget g' (h_gr r')) ->
    coh (hspec fz) (hclear_cache (Some g) (mkSt r' c)).
  Proof.
    intros C N E k v. cbn [hclear_cache st_raw st_cache].
    set (p := fun k => match k with KH None _ => false | KH (Some n') _ => negb (String.eqb g n') | _ => true end).
    change (dget k (filter (fun kv => p (fst kv)) c) = Some v -> hspec fz k r' = Ok v).
    rewrite dget_filter_key. destruct (p k) eqn:P; [|discriminate]. intros D. pose proof (C _ _ D) as S. cbn [st_raw] in S.
    destruct k; try discriminate S. cbn in P. destruct g0 as [g'|]; [|discriminate].
    rewrite <- S. symmetry. apply hspec_local; auto. apply E. intros ->. rewrite String.eqb_refl in P; discriminate.
  Qed.
  Lemma hadd1_local m g e w r r' : hadd1 m g e w r = Ok r' -> h_nv r' = h_nv r /\ h_vw r' = h_vw r /\ forall g', g' <> g -> dget g' (h_gr r') = dget g' (h_gr r).
  Proof.
    unfold hadd1. destruct (dget g (h_gr r)) as [d|]; [destruct (dget e d)|]; [destruct (merge_fun m); [|discriminate]| |];
      intros E; injection E as <-; cbn; (split; [reflexivity|]); (split; [reflexivity|]); intros g' NE; apply dget_dset_other; auto.
  Qed.
  Lemma hadds_local m g l r : let r' := fst (hadds m g l r) in
    h_nv r' = h_nv r /\ h_vw r' = h_vw r /\ forall g', g' <> g -> dget g' (h_gr r') = dget g' (h_gr r).
  Proof.
    revert r; induction l as [|[e w] l IH]; intros r; cbn [hadds]; [cbn; auto|].
    destruct (hadd1 m g e w r) as [r1|x] eqn:E; [|cbn; auto].
    destruct (hadd1_local _ _ _ _ _ E) as (N & V & G). destruct (IH r1) as (N1 & V1 & G1). cbv zeta in *.
    split; [congruence|]. split; [congruence|]. intros g' NE. rewrite G1, G; auto.
  Qed.
  Lemma hadds_known m g l r : m <> MOther -> exists r', hadds m g l r = (r', Ok tt).
  Proof.
    intros M. revert r; induction l as [|[e w] l IH]; intros r; cbn; [eauto|].
    assert (X : exists r1, hadd1 m g e w r = Ok r1).
    { unfold hadd1. destruct (dget g (h_gr r)) as [d|]; [destruct (dget e d)|]; eauto. destruct m; cbn; eauto. congruence. }
    destruct X as (r1 & ->). apply IH.
  Qed.
  Lemma h_add_coh fz e w m g : m <> MOther -> keeps_coh (hspec fz) (h_add (T := T) e w m g).
  Proof.
    intros M s C. unfold h_add. destruct (hweights (length (hformat e)) w) as [ws|]; auto.
    pose proof (hadds_local m g (combine (hformat e) ws) (st_raw s)) as L.
    destruct (hadds_known g (combine (hformat e) ws) (st_raw s) M) as (r' & E). rewrite E in *. cbv zeta in L. cbn [fst] in *.
    destruct L as (N & _ & G). apply hclear_coh with (r := st_raw s); [rewrite st_eta; exact C|symmetry; exact N|intros; symmetry; auto].
  Qed.
  Lemma hdels_local g es r : let r' := fold_left (fun r x => hdel (Some g) x r) es r in
    h_nv r' = h_nv r /\ h_vw r' = h_vw r /\ forall g', g' <> g -> dget g' (h_gr r') = dget g' (h_gr r).
  Proof.
    revert r; induction es as [|e es IH]; intros r; cbn [fold_left]; [cbn; auto|].
    destruct (IH (hdel (Some g) e r)) as (N & V & G). cbv zeta in *. rewrite N, V. split; [reflexivity|]. split; [reflexivity|].
    intros g' NE. rewrite G by auto. rewrite hdel_eq. cbn [set_gr h_gr]. rewrite dget_map_snd.
    unfold hdel_fun. destruct (dget g' (h_gr r)); auto. destruct (String.eqb_spec g g'); [congruence|auto].
  Qed.
  Lemma h_remove_coh fz e (g : option string) : keeps_coh (hspec fz) (h_remove (T := T) e g).
  Proof.
    intros s C. unfold h_remove. match goal with |- context [if ?c then _ else _] => destruct c end; [|exact C].
    destruct g as [g|]; [|apply coh_empty]. cbn [fst].
    destruct (hdels_local g (hformat e) (st_raw s)) as (N & _ & G). cbv zeta in *.
    apply hclear_coh with (r := st_raw s); [rewrite st_eta; exact C|symmetry; exact N|intros; symmetry; auto].
  Qed.
  Lemma h_remove_group_coh fz g : keeps_coh (hspec fz) (h_remove_group (T := T) g).
  Proof.
    intros s C. unfold h_remove_group. cbn [fst]. apply hclear_coh with (r := st_raw s); [rewrite st_eta; exact C|reflexivity|].
    intros g' NE. cbn. symmetry. apply dget_ddel_other; auto.
  Qed.
  Lemma h_clear_coh fz : keeps_coh (hspec fz) (h_clear (T := T)).
  Proof. intros s C. apply coh_empty. Qed.

  (** * histories *)
  Lemma unit_out_fst {R} (f : M T R unit) s : fst (unit_out f s) = fst (f s).
  Proof. unfold unit_out, bind, ret. destruct (f s) as [s1 [u|x]]; reflexivity. Qed.
  Definition hinv (nv : Z) (s : hypergraph T) A : Prop := hrel (st_raw s) A /\ coh (hspec None) s /\ h_nv (st_raw s) = nv.
  Lemma h_step_inv nv o s A : doc_op o -> hinv nv s A -> hinv nv (fst (h_step o s)) (ah_step A o) /\
    (clean_op nv o -> hclean (st_raw s) -> hclean (st_raw (fst (h_step o s)))).
  Proof.
    intros D (R & C & N). destruct o as [e w m g|e g|g| |q]; cbn [h_step ah_step doc_op clean_op] in *.
    - rewrite unit_out_fst. destruct (h_add_rel e w g s D R) as (R1 & N1 & K1). split.
      + split; [exact R1|]. split; [apply h_add_coh; auto|congruence].
      + intros CH CR. apply K1; auto. rewrite N; auto.
    - rewrite unit_out_fst. destruct (h_remove_rel e g s R) as (R1 & N1 & K1). split; [|intros _; exact K1].
      split; [exact R1|]. split; [apply h_remove_coh; auto|congruence].
    - rewrite unit_out_fst. destruct (h_remove_group_rel g s R) as (R1 & N1 & K1). split; [|intros _; exact K1].
      split; [exact R1|]. split; [apply h_remove_group_coh; auto|cbv zeta in N1; congruence].
    - rewrite unit_out_fst. cbn. split; [|intros _ _; apply hclean_empty].
      split; [apply hrel_empty|]. split; [apply coh_empty|exact N].
    - assert (G : good (hspec None) (h_query q) (hp_query q)) by (apply hgood_query; auto).
      pose proof (good_raw G C) as RW. split; [|intros _; rewrite RW; auto].
      split; [rewrite RW; exact R|]. split; [exact (good_coh G C)|rewrite RW; exact N].
  Qed.
  Lemma h_run_inv nv ops s A : Forall doc_op ops -> hinv nv s A -> hinv nv (fst (h_run ops s)) (fold_left ah_step ops A) /\
    (Forall (clean_op nv) ops -> hclean (st_raw s) -> hclean (st_raw (fst (h_run ops s)))).
  Proof.
    revert s A; induction ops as [|o ops IH]; intros s A D I; cbn [h_run fold_left]; [cbn; auto|].
    inversion D; subst. destruct (h_step_inv o H2 I) as [I1 C1].
    destruct (h_step o s) as [s1 x] eqn:E. cbn [fst] in *. destruct (IH s1 _ H3 I1) as [I2 C2].
    destruct (h_run ops s1) as [s2 xs]. cbn [fst] in *. split; [exact I2|]. intros F CS. inversion F; subst. auto.
  Qed.
  Lemma h_new_inv nv e w vw m s : m <> MOther -> h_new nv e w vw m = Ok s ->
    hinv nv s (ah_new nv e w vw m) /\ 0 < nv /\ (clean_new nv e -> hclean (st_raw s)) /\
    (forall l, vw = Some l -> length l = Z.to_nat nv).
  Proof.
    intros M E. unfold h_new in E. destruct (0 <? nv) eqn:P; [|discriminate].
    assert (X : forall vl, let s0 := mkSt (mkHRaw nv (Some vl) []) [] in
      match e with None => Ok s0 | Some ea => match h_add ea w m "main" s0 with (s1, Ok _) => Ok s1 | (_, Err x) => Err x end end = Ok s ->
      hinv nv s (let A0 := mkAH [] (fun _ _ => None) (Some vl) in match e with None => A0 | Some ea => ah_add ea w m "main" A0 end) /\
      (clean_new nv e -> hclean (st_raw s))).
    { intros vl s0 E0. pose proof (hrel_empty nv (Some vl)) as R0. destruct e as [ea|].
      - destruct (h_add_rel ea w "main" s0 M R0) as (R1 & N1 & K1).
        pose proof (@h_add_coh None ea w m "main" M s0 (@coh_empty _ _ _ _)) as C1.
        destruct (h_add ea w m "main" s0) as [s1 [u|x]]; [|discriminate]. injection E0 as ->. cbn [fst] in *.
        split; [split; [exact R1|split; [exact C1|exact N1]]|]. intros CE. apply K1; auto. apply hclean_empty.
      - injection E0 as <-. split; [split; [exact R0|split; [apply coh_empty|reflexivity]]|]. intros _. apply hclean_empty. }
    destruct vw as [l|].
    - destruct (Nat.eqb (length l) (Z.to_nat nv)) eqn:EL; [|discriminate]. apply Nat.eqb_eq in EL.
      destruct (X l E) as [I K]. split; [exact I|]. split; [lia|]. split; [exact K|]. intros l' E'; injection E' as <-; exact EL.
    - destruct (X (repeat n1 (Z.to_nat nv)) E) as [I K]. split; [exact I|]. split; [lia|]. split; [exact K|]. discriminate.
  Qed.
  Lemma h_reach_inv nv e w vw m ops s : h_reach nv e w vw m ops s -> m <> MOther -> Forall doc_op ops ->
    hinv nv s (h_spec nv e w vw m ops) /\ 0 < nv /\ (clean_new nv e -> Forall (clean_op nv) ops -> hclean (st_raw s)).
  Proof.
    intros (s0 & E & ->) M D. destruct (h_new_inv _ _ _ _ M E) as (I & P & K & _).
    destruct (h_run_inv D I) as [I1 K1]. split; [exact I1|]. split; [exact P|]. auto.
  Qed.
End Store.
