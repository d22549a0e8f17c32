(** The matrices of a hypergraph (or one of its groups) in terms of the reported hyperedges and weights. *)
From Coq Require Import String Permutation Ring.
From Verif Require Import Num PyDict PyDictFacts Coo CooFacts ModelBase CacheFacts ModelGraph SpecGraph StoreFacts MatFacts
  ModelHyper HyperFacts SpecHyper HyperStore.
Set Implicit Arguments.

Lemma zmem_In v e : zmem v e = true <-> In v e.
Proof. unfold zmem. rewrite existsb_exists. split; [intros (x & I & E); apply Z.eqb_eq in E; subst; auto | intros I; exists v; rewrite Z.eqb_refl; auto]. Qed.

Lemma inc_from_In es k v j : In (v, j) (inc_from k es) <-> k <= j < k + Z.of_nat (length es) /\ In v (nthe es (j - k)).
Proof.
  unfold nthe. revert k; induction es as [|e es IH]; intros k; cbn [inc_from length].
  - cbn. split; [tauto|lia].
  - rewrite in_app_iff, IH, in_map_iff. split.
    + intros [(x & E & I)|[R I]].
      * injection E as <- <-. rewrite Z.sub_diag. cbn. split; [lia|auto].
      * split; [lia|]. replace (Z.to_nat (j - k)) with (S (Z.to_nat (j - (k + 1)))) by lia. cbn. auto.
    + intros [R I]. destruct (Z.eq_dec j k) as [->|N].
      * left. rewrite Z.sub_diag in I. cbn in I. eauto.
      * right. split; [lia|]. replace (Z.to_nat (j - k)) with (S (Z.to_nat (j - (k + 1)))) in I by lia. cbn in I. auto.
Qed.
Lemma NoDup_app_intro {A} (l1 l2 : list A) : NoDup l1 -> NoDup l2 -> (forall x, In x l1 -> ~ In x l2) -> NoDup (l1 ++ l2).
Proof.
  induction l1 as [|a l1 IH]; cbn; intros N1 N2 D; auto. inversion N1; subst. constructor; auto.
  rewrite in_app_iff. intros [I|I]; [auto|]. apply (D a); auto.
Qed.
Lemma inc_from_nodup es k : Forall (@NoDup Z) es -> NoDup (inc_from k es).
Proof.
  revert k; induction es as [|e es IH]; intros k F; cbn [inc_from]; [constructor|]. inversion F; subst.
  apply NoDup_app_intro; auto.
  - apply FinFun.Injective_map_NoDup; auto. intros x y E; injection E; auto.
  - intros [v j] I1 I2. apply in_map_iff in I1 as (x & E & _). injection E as <- <-. apply inc_from_In in I2. lia.
Qed.
Lemma inc_from_shift es k o : map (fun x => (fst x, snd x + o)) (inc_from k es) = inc_from (k + o) es.
Proof.
  revert k; induction es as [|e es IH]; intros k; cbn [inc_from]; auto.
  rewrite map_app, map_map, IH. cbn [fst snd]. replace (k + 1 + o) with (k + o + 1) by lia. reflexivity.
Qed.
Lemma inc_from_app es es' k : inc_from k (es ++ es') = inc_from k es ++ inc_from (k + Z.of_nat (length es)) es'.
Proof.
  revert k; induction es as [|e es IH]; intros k; cbn [inc_from app length].
  - rewrite Z.add_0_r; reflexivity.
  - rewrite IH, <- app_assoc. do 3 f_equal. lia.
Qed.

Section View.
  Context {T : Type} `{N : Num T}.
  Implicit Types (r : hraw T) (sc : option string) (d : dict (list Z) T) (m : coo T).

  Lemma cins_fresh k v m : ~ In k (map fst m) -> Permutation (cins k v m) ((k, v) :: m).
  Proof.
    induction m as [|[k' v'] m IH]; cbn; intros F; auto.
    destruct (kcmp k k') eqn:E; auto.
    - apply kcmp_eq in E. subst; tauto.
    - rewrite IH by tauto. apply perm_swap.
  Qed.
  Lemma coalesce_perm m : NoDup (map fst m) -> Permutation (coalesce m) m.
  Proof.
    unfold coalesce. cut (forall acc, NoDup (map fst m ++ map fst acc) ->
      Permutation (fold_left (fun acc kv => cins (fst kv) (snd kv) acc) m acc) (m ++ acc)).
    { intros X ND. specialize (X []). rewrite !app_nil_r in X. auto. }
    induction m as [|[k v] m IH]; intros acc ND; cbn [fold_left fst snd]; auto.
    cbn in ND. inversion ND as [|? ? NI ND']; subst. rewrite in_app_iff in NI.
    assert (P : Permutation (cins k v acc) ((k, v) :: acc)) by (apply cins_fresh; tauto).
    rewrite IH.
    - rewrite P. symmetry. apply Permutation_middle.
    - eapply Permutation_NoDup; [|exact ND]. rewrite P. cbn. apply Permutation_middle.
  Qed.

  Definition ones_at (idx : list (Z * Z)) : coo T := map (fun k => (k, n1)) idx.
  Lemma ones_at_keys idx : map fst (ones_at idx) = idx.
  Proof. unfold ones_at. rewrite map_map. apply map_id. Qed.
  Lemma combine_ones (idx : list (Z * Z)) : combine idx (map (fun _ => @n1 T N) idx) = ones_at idx.
  Proof. induction idx as [|k l IH]; cbn; auto. rewrite IH; reflexivity. Qed.

  Definition gH d : coo T := coalesce (ones_at (inc_from 0 (dkeys d))).
  Lemma clean_nodup nv (es : list (list Z)) : Forall (clean_edge nv) es -> Forall (@NoDup Z) es.
  Proof. apply Forall_impl. intros e [C _]; exact C. Qed.
  Lemma nthe_In es i : 0 <= i < Z.of_nat (length es) -> In (nthe es i) es.
  Proof. intros I. apply nth_In. lia. Qed.
  Lemma clean_In nv es v i : Forall (clean_edge nv) es -> 0 <= i < Z.of_nat (length es) -> In v (nthe es i) -> 0 <= v < nv.
  Proof.
    intros F I J. rewrite Forall_forall in F. destruct (F _ (nthe_In es I)) as [_ C]. rewrite Forall_forall in C. auto.
  Qed.
  Lemma fetch_H_ok nv d : Forall (clean_edge nv) (dkeys d) -> fetch_H nv d = Ok (gH d).
  Proof.
    intros F. unfold fetch_H. rewrite mk_sparse_ok; [rewrite combine_ones; reflexivity|].
    intros v i I. apply inc_from_In in I as [R I]. rewrite Z.sub_0_r in I.
    unfold dkeys in *. rewrite map_length in R. split; [|lia]. eapply clean_In; eauto. rewrite map_length; lia.
  Qed.
  Lemma gH_perm nv d : Forall (clean_edge nv) (dkeys d) -> Permutation (gH d) (ones_at (inc_from 0 (dkeys d))).
  Proof. intros F. apply coalesce_perm. rewrite ones_at_keys. apply inc_from_nodup. eapply clean_nodup; eauto. Qed.

  Lemma diag_of_eq (l : list T) : diag_of l = diag (Z.of_nat (length l)) (zn l).
  Proof. unfold diag_of. apply coalesce_id, diag_sorted. Qed.
  Lemma range_map_nth {A B} (f : A -> B) (l : list A) dflt :
    map (fun i => f (nth (Z.to_nat i) l dflt)) (range (Z.of_nat (length l))) = map f l.
  Proof.
    unfold range. rewrite Nat2Z.id, map_map. induction l as [|a l IH]; cbn; auto.
    f_equal. rewrite <- IH. rewrite <- seq_shift, map_map. apply map_ext. intros i.
    replace (Z.to_nat (Z.of_nat (S i))) with (S i) by lia. rewrite Nat2Z.id. reflexivity.
  Qed.
  Lemma vals_diag_of (l : list T) : vals (diag_of l) = l.
  Proof. rewrite diag_of_eq, vals_diag. unfold zn. rewrite (range_map_nth (fun x => x)). apply map_id. Qed.
  Lemma diag_ext n (f g : Z -> T) : (forall i, 0 <= i < n -> f i = g i) -> diag n f = diag n g.
  Proof. intros E. unfold diag. apply map_ext_in. intros i I. apply range_In in I. rewrite E; auto. Qed.
  Lemma zn_map_range n (f : Z -> T) i : 0 <= i < n -> zn (map f (range n)) i = f i.
  Proof.
    intros I. unfold zn, range. rewrite map_map.
    rewrite nth_indep with (d' := f (Z.of_nat 0)) by (rewrite map_length, seq_length; lia).
    rewrite (map_nth (fun x => f (Z.of_nat x))). rewrite seq_nth by lia. f_equal. lia.
  Qed.
  Lemma zn_map (f : list Z -> T) es i : 0 <= i < Z.of_nat (length es) -> zn (map f es) i = f (nthe es i).
  Proof.
    intros I. unfold zn, nthe. rewrite nth_indep with (d' := f []) by (rewrite map_length; lia). apply map_nth.
  Qed.

  (** global answers from group answers *)
  Lemma rmapM_ok {A B} (f : A -> res B) h l : (forall a, In a l -> f a = Ok (h a)) -> rmapM f l = Ok (map h l).
  Proof.
    induction l as [|a l IH]; cbn; intros F; auto. rewrite F by auto. cbn. rewrite IH by auto. reflexivity.
  Qed.
  Lemma rmapM_groups {B} (f : string -> res B) (h : dict (list Z) T -> B) r : dict_ok (h_gr r) ->
    (forall g d, dget g (h_gr r) = Some d -> f g = Ok (h d)) -> rmapM f (dkeys (h_gr r)) = Ok (map (fun nd => h (snd nd)) (h_gr r)).
  Proof.
    intros O F. assert (X : forall l : list (string * dict (list Z) T), (forall nd, In nd l -> In nd (h_gr r)) -> rmapM f (map fst l) = Ok (map (fun nd => h (snd nd)) l)).
    { induction l as [|[g d] l IH]; cbn; intros S; auto. rewrite (F g d).
      - cbn. rewrite IH; auto.
      - apply In_dget; auto. }
    apply X; auto.
  Qed.

  Definition all_e r : list (list Z) := concat (map (fun nd => dkeys (snd nd)) (h_gr r)).
  Definition all_w r : list T := concat (map (fun nd => dvals (snd nd)) (h_gr r)).
  Lemma raw_ne_eq r : raw_ne r = Z.of_nat (length (all_e r)).
  Proof.
    unfold raw_ne, all_e. induction (h_gr r) as [|[g d] l IH]; cbn; auto. rewrite app_length, IH. unfold dkeys. rewrite map_length. lia.
  Qed.
  Lemma concat_len {A B C} (l : list C) (f : C -> list A) (g : C -> list B) : (forall c, length (f c) = length (g c)) ->
    length (concat (map f l)) = length (concat (map g l)).
  Proof. intros E. induction l as [|c l IH]; cbn; auto. rewrite !app_length, IH, E; auto. Qed.
  Lemma hcat_ones off (l : list (string * dict (list Z) T)) nv : (forall nd, In nd l -> Forall (clean_edge nv) (dkeys (snd nd))) ->
    Permutation (hcat off (combine (map (fun nd => Z.of_nat (length (snd nd))) l) (map (fun nd => gH (snd nd)) l)))
      (ones_at (inc_from off (concat (map (fun nd => dkeys (snd nd)) l)))).
  Proof.
    revert off; induction l as [|[g d] l IH]; intros off F; cbn [map combine hcat concat snd fst]; [reflexivity|].
    rewrite inc_from_app. unfold ones_at. rewrite map_app. apply Permutation_app.
    - rewrite (gH_perm d (F (g, d) (or_introl eq_refl))). unfold ones_at. rewrite map_map. cbn.
      replace (map (fun x => (fst x, snd x + off, n1)) (inc_from 0 (dkeys d))) with (map (fun k => (k, @n1 T N)) (map (fun x => (fst x, snd x + off)) (inc_from 0 (dkeys d)))) by (rewrite map_map; reflexivity).
      rewrite inc_from_shift. reflexivity.
    - unfold dkeys at 1. rewrite map_length. apply IH. intros nd I; apply F; right; auto.
  Qed.

  (** what scope [sc] contains *)
  Definition scope sc r : option (list (list Z) * list T) :=
    match sc with
    | Some g => match dget g (h_gr r) with Some d => Some (dkeys d, dvals d) | None => None end
    | None => match h_gr r with [] => None | _ => Some (all_e r, all_w r) end
    end.
  Record hview (sc : option string) (r : hraw T) (es : list (list Z)) (ws : list T) (Hm : coo T) : Prop := {
    hv_e : hp_e sc r = Ok (es, ws);
    hv_len : length ws = length es;
    hv_ne : hp_ne sc r = Ok (Z.of_nat (length es));
    hv_H : hp_H sc r = Ok Hm;
    hv_perm : Permutation Hm (ones_at (inc_from 0 es));
    hv_We : hp_We sc r = Ok (diag_of ws);
    hv_clean : Forall (clean_edge (h_nv r)) es;
    hv_psc : forall A (x : res A), p_sc r sc x = x;
    hv_sc : scope sc r = Some (es, ws)
  }.
  Lemma hview_group g d r : hclean r -> dget g (h_gr r) = Some d -> hview (Some g) r (dkeys d) (dvals d) (gH d).
  Proof.
    intros C E. assert (F := C _ _ E). split; unfold hp_e, hp_e_g, hp_ne, hp_H, hp_H_g, hp_We, hp_We_g, p_sc, p_group, scope; rewrite ?E; auto.
    - unfold dkeys, dvals; rewrite !map_length; auto.
    - unfold dkeys; rewrite map_length; auto.
    - apply fetch_H_ok; auto.
    - eapply gH_perm; eauto.
  Qed.
  Definition catH r : coo T :=
    hcat 0 (combine (map (fun nd => Z.of_nat (length (snd nd))) (h_gr r)) (map (fun nd => gH (snd nd)) (h_gr r))).
  Lemma match_ne {A B} (l : list A) (x y : B) : l <> [] -> match l with [] => x | _ => y end = y.
  Proof. destruct l; congruence. Qed.
  Lemma hview_all r : hwf r -> hclean r -> h_gr r <> [] -> hview None r (all_e r) (all_w r) (catH r).
  Proof.
    intros [O W] C NE.
    assert (NM : forall B (f : _ -> B), map f (h_gr r) <> []) by (intros B f E; apply map_eq_nil in E; auto).
    split; auto.
    - unfold hp_e, p_groups. rewrite (@rmapM_groups _ _ (fun d => (dkeys d, dvals d))); auto.
      + cbn. rewrite !map_map. reflexivity.
      + intros g d E. unfold hp_e_g, p_group. rewrite E; auto.
    - apply concat_len. intros [g d]; unfold dkeys, dvals; rewrite !map_length; auto.
    - cbn. rewrite raw_ne_eq; auto.
    - unfold hp_H, p_groups. rewrite (@rmapM_groups _ _ gH); auto.
      + cbn [res_bind]. rewrite match_ne by auto. reflexivity.
      + intros g d E. unfold hp_H_g, p_group. rewrite E. apply fetch_H_ok. eapply C; eauto.
    - unfold catH, all_e. apply hcat_ones with (nv := h_nv r). intros [g d] I. cbn. apply (C g). apply In_dget; auto.
    - unfold hp_We, p_groups. rewrite (@rmapM_groups _ _ (fun d => diag_of (dvals d))); auto.
      + cbn [res_bind]. rewrite match_ne by auto. rewrite map_map. do 2 f_equal. unfold all_w. f_equal. apply map_ext. intros [g d].
        apply vals_diag_of.
      + intros g d E. unfold hp_We_g, p_group. rewrite E; auto.
    - unfold all_e. apply Forall_concat, Forall_map. apply Forall_forall. intros [g d] I. apply (C g). apply In_dget; auto.
    - cbn. rewrite match_ne; auto.
  Qed.
  Lemma hview_scope sc r es ws : hwf r -> hclean r -> scope sc r = Some (es, ws) -> exists Hm, hview sc r es ws Hm.
  Proof.
    intros W C E. destruct sc as [g|]; cbn in E.
    - destruct (dget g (h_gr r)) as [d|] eqn:D; [|discriminate]. injection E as <- <-. exists (gH d). apply hview_group; auto.
    - destruct (h_gr r) as [|x l] eqn:D; [discriminate|]. injection E as <- <-. exists (catH r). apply hview_all; auto. rewrite D; discriminate.
  Qed.
End View.

Section Ring.
  Context {T : Type} `{N : Num T}.
  Context (RT : ring_theory (@nz T N) n1 nadd nmul nsub nopp eq).
  Add Ring TRing8 : RT.
  Implicit Types (r : hraw T) (sc : option string) (d : dict (list Z) T) (m : coo T).

  (** sums over incidences *)
  Lemma sumf_inc es k (f : Z * Z -> T) :
    sumf (inc_from k es) f = sumf (range (Z.of_nat (length es))) (fun i => sumf (nthe es i) (fun v => f (v, k + i))).
  Proof.
    unfold range. rewrite Nat2Z.id, sumf_map. unfold nthe.
    revert k; induction es as [|e es IH]; intros k; cbn [inc_from length seq sumf]; [reflexivity|].
    rewrite (sumf_app RT), IH, sumf_map. cbn [Z.of_nat Z.to_nat nth]. rewrite Z.add_0_r. f_equal.
    rewrite <- seq_shift, sumf_map. apply sumf_ext. intros i. rewrite Nat2Z.id.
    replace (Z.to_nat (Z.of_nat (S i))) with (S i) by lia. cbn [nth]. apply sumf_ext. intros v. do 2 f_equal. lia.
  Qed.
  Lemma sumf_member (e : list Z) v (c : T) : NoDup e -> sumf e (fun x => if v =? x then c else nz) = if zmem v e then c else nz.
  Proof.
    intros ND. destruct (zmem v e) eqn:M.
    - apply zmem_In in M. pose proof (@sumf_single _ _ RT _ EqB_Z e v (fun _ => c) ND M) as X. exact X.
    - apply (sumf_zero_in RT). intros x I. destruct (Z.eqb_spec v x) as [->|]; auto.
      apply zmem_In in I. congruence.
  Qed.
  Lemma nthe_nodup nv es i : Forall (clean_edge nv) es -> 0 <= i < Z.of_nat (length es) -> NoDup (nthe es i).
  Proof. intros F I. rewrite Forall_forall in F. apply (F _ (nthe_In es I)). Qed.

  Section V.
    Variables (sc : option string) (r : hraw T) (es : list (list Z)) (ws : list T) (Hm : coo T).
    Hypothesis V : hview sc r es ws Hm.
    Let n := h_nv r.
    Let k := Z.of_nat (length es).

    Lemma V_keys v i : In (v, i) (map fst Hm) <-> 0 <= i < k /\ In v (nthe es i).
    Proof.
      rewrite (Permutation_map fst (hv_perm V)), ones_at_keys, inc_from_In, Z.sub_0_r. unfold k. split; intros [A B]; split; auto; lia.
    Qed.
    Lemma V_nodup : NoDup (map fst Hm).
    Proof.
      eapply Permutation_NoDup; [symmetry; apply (Permutation_map fst (hv_perm V))|]. rewrite ones_at_keys.
      apply inc_from_nodup. eapply clean_nodup, (hv_clean V).
    Qed.
    Lemma V_sum (f : (Z * Z) * T -> T) : sumf Hm f = sumf (range k) (fun i => sumf (nthe es i) (fun v => f ((v, i), n1))).
    Proof.
      rewrite (sumf_perm RT _ (hv_perm V)). unfold ones_at. rewrite sumf_map, sumf_inc. apply sumf_ext. intros i. cbn [Z.add]. reflexivity.
    Qed.
    Lemma V_mget v i : mget Hm v i = if (0 <=? i) && (i <? k) && zmem v (nthe es i) then n1 else nz.
    Proof.
      destruct (in_dec (fun a b : Z * Z => eq_dec_of_eqb a b) (v, i) (map fst Hm)) as [I|NI].
      - pose proof (proj1 (V_keys v i) I) as [R M]. apply zmem_In in M. rewrite M.
        replace (0 <=? i) with true by (symmetry; apply Z.leb_le; lia). replace (i <? k) with true by (symmetry; apply Z.ltb_lt; lia). cbn.
        apply in_map_iff in I as ([k0 x] & E & I). cbn in E; subst k0. rewrite (mget_present RT Hm v i x V_nodup I).
        pose proof (Permutation_in _ (hv_perm V) I) as J. apply in_map_iff in J as (y & E & _). congruence.
      - rewrite (mget_absent RT) by auto. destruct ((0 <=? i) && (i <? k) && zmem v (nthe es i)) eqn:B; auto.
        exfalso. apply NI, V_keys. apply andb_true_iff in B as [B M]. apply andb_true_iff in B as [B1 B2].
        apply Z.leb_le in B1. apply Z.ltb_lt in B2. apply zmem_In in M. auto.
    Qed.
    Lemma V_boxed : boxed n k Hm.
    Proof. intros v i I. apply V_keys in I as [R M]. split; auto. eapply clean_In; eauto using (hv_clean V). Qed.
    Lemma V_boxedT : boxed k n (ctrans Hm).
    Proof. apply boxed_trans, V_boxed. Qed.
    Lemma V_HT : hp_HT sc r = Ok (ctrans Hm).
    Proof. unfold hp_HT. rewrite (hv_H V); reflexivity. Qed.
    (** one entry per (vertex, hyperedge), weighted by a function of the hyperedge *)
    Lemma combine_nthe {A} (ws0 : list A) (f : list Z * A -> T) dflt : length ws0 = length es ->
      sumf (combine es ws0) f = sumf (range k) (fun i => f (nthe es i, nth (Z.to_nat i) ws0 dflt)).
    Proof.
      intros L. unfold k, range, nthe. rewrite Nat2Z.id, sumf_map. clear V k. revert ws0 L; induction es as [|e l IH]; intros [|w ws0] L; try discriminate; cbn [combine sumf length seq]; auto.
      rewrite IH by (cbn in L; congruence). f_equal. rewrite <- seq_shift, sumf_map. apply sumf_ext. intros i. rewrite Nat2Z.id.
      replace (Z.to_nat (Z.of_nat (S i))) with (S i) by lia. reflexivity.
    Qed.
    Lemma hdeg_range v : hdeg es ws v = sumf (range k) (fun i => if zmem v (nthe es i) then zn ws i else nz).
    Proof. unfold hdeg. rewrite (@combine_nthe _ ws _ nz (hv_len V)). reflexivity. Qed.
    Lemma V_rowsum_w v : rowsum (weigh_cols ws Hm) v = hdeg es ws v.
    Proof.
      unfold weigh_cols. rewrite (rowsum_coalesce RT). unfold rowsum. rewrite sumf_map, V_sum, hdeg_range. cbn [fst snd].
      apply sumf_ext_in. intros i I. apply range_In in I.
      rewrite <- (@sumf_member (nthe es i) v (zn ws i)) by (eapply nthe_nodup; eauto using (hv_clean V)).
      apply sumf_ext. intros x. change (eqb v x) with (v =? x). destruct (v =? x); ring.
    Qed.
    Lemma V_rowsum_T i : 0 <= i < k -> rowsum (ctrans Hm) i = hcard (nthe es i).
    Proof.
      intros I. unfold rowsum, ctrans. rewrite sumf_map. cbn [fst snd]. rewrite V_sum. cbn [fst snd].
      rewrite <- (@sumf_single _ _ RT _ EqB_Z (range k) i (fun j => hcard (nthe es j)) (range_nodup k)) by (apply range_In; auto).
      apply sumf_ext. intros j. destruct (eqb i j); [reflexivity|]. apply (sumf_zero RT).
    Qed.
  End V.

  Lemma Dv_group g d r : hclean r -> dget g (h_gr r) = Some d -> hp_Dv_g g r = Ok (diag (h_nv r) (hdeg (dkeys d) (dvals d))).
  Proof.
    intros C E. pose proof (hview_group g C E) as V. unfold hp_Dv_g. change (hp_H_g g r) with (hp_H (Some g) r). change (hp_We_g g r) with (hp_We (Some g) r).
    rewrite (hv_H V), (hv_We V). cbn [res_bind]. rewrite vals_diag_of, diag_rowsum_eq. f_equal. apply diag_ext. intros i _. apply (V_rowsum_w V).
  Qed.
  Lemma De_group g d r : hclean r -> dget g (h_gr r) = Some d -> hp_De_g g r = Ok (diag_of (map hcard (dkeys d))).
  Proof.
    intros C E. pose proof (hview_group g C E) as V. unfold hp_De_g, p_group. rewrite E, (V_HT V). cbn [res_bind].
    rewrite diag_rowsum_eq, diag_of_eq. f_equal. rewrite map_length. unfold dkeys at 1. rewrite map_length. apply diag_ext. intros i I.
    rewrite (V_rowsum_T V) by (unfold dkeys; rewrite map_length; auto). symmetry. apply zn_map. unfold dkeys; rewrite map_length; auto.
  Qed.
  Lemma hdeg_all r v : sumf (h_gr r) (fun nd => hdeg (dkeys (snd nd)) (dvals (snd nd)) v) = hdeg (all_e r) (all_w r) v.
  Proof.
    unfold all_e, all_w, hdeg. induction (h_gr r) as [|[g d] l IH]; cbn [map concat sumf snd]; auto.
    rewrite combine_app by (unfold dkeys, dvals; rewrite !map_length; auto). rewrite (sumf_app RT), IH. reflexivity.
  Qed.
  Lemma V_Dv sc r es ws : hwf r -> hclean r -> scope sc r = Some (es, ws) -> hp_Dv sc r = Ok (diag (h_nv r) (hdeg es ws)).
  Proof.
    intros W C S. destruct sc as [g|]; cbn [hp_Dv scope] in *.
    - destruct (dget g (h_gr r)) as [d|] eqn:D; [|discriminate]. injection S as <- <-. apply Dv_group; auto.
    - assert (NE : h_gr r <> []) by (destruct (h_gr r); discriminate). rewrite match_ne in S by auto. injection S as <- <-.
      assert (NM : forall B (f : _ -> B), map f (h_gr r) <> []) by (intros B f E; apply map_eq_nil in E; auto).
      unfold p_groups. rewrite (@rmapM_groups _ _ _ (fun d => diag (h_nv r) (hdeg (dkeys d) (dvals d)))).
      + cbn [res_bind]. rewrite match_ne by auto. rewrite coalesce_id by apply diag_sorted. f_equal. apply diag_ext. intros i I.
        rewrite sumf_map, <- hdeg_all. apply sumf_ext. intros [g d]. rewrite vals_diag. apply zn_map_range; auto.
      + apply W.
      + intros g d E. apply Dv_group; auto.
  Qed.
  Lemma V_De sc r es ws : hwf r -> hclean r -> scope sc r = Some (es, ws) -> hp_De sc r = Ok (diag_of (map hcard es)).
  Proof.
    intros W C S. destruct sc as [g|]; cbn [hp_De scope] in *.
    - destruct (dget g (h_gr r)) as [d|] eqn:D; [|discriminate]. injection S as <- <-. apply De_group; auto.
    - assert (NE : h_gr r <> []) by (destruct (h_gr r); discriminate). rewrite match_ne in S by auto. injection S as <- <-.
      assert (NM : forall B (f : _ -> B), map f (h_gr r) <> []) by (intros B f E; apply map_eq_nil in E; auto).
      unfold p_groups. rewrite (@rmapM_groups _ _ _ (fun d => diag_of (map hcard (dkeys d)))).
      + cbn [res_bind]. rewrite match_ne by auto. do 2 f_equal. rewrite map_map. unfold all_e. rewrite concat_map, map_map. f_equal.
        apply map_ext. intros [g d]. apply vals_diag_of.
      + apply W.
      + intros g d E. apply De_group; auto.
  Qed.
End Ring.
