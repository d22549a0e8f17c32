(** Answers of the matrix, neighbour and message-passing queries of a Hypergraph. *)
From Coq Require Import String Permutation Ring Reals Lra.
From Verif Require Import Num PyDict PyDictFacts Coo CooFacts ModelBase CacheFacts ModelGraph SpecGraph StoreFacts MatFacts RealFacts
  GraphMatrix GraphLaplace GraphReach SoftmaxFacts ModelDiGraph DiGraphFacts DiGraphReach ModelHyper HyperFacts SpecHyper HyperStore HyperView.
Set Implicit Arguments.
Local Open Scope Z_scope.

Lemma py_index_in n i : 0 <= i < n -> py_index n i = Ok i.
Proof.
  intros I. unfold py_index. replace (0 <=? i) with true by (symmetry; apply Z.leb_le; lia).
  replace (i <? n) with true by (symmetry; apply Z.ltb_lt; lia). reflexivity.
Qed.
Lemma nthe_app es es' i : 0 <= i -> nthe (es ++ es') i = if i <? Z.of_nat (length es) then nthe es i else nthe es' (i - Z.of_nat (length es)).
Proof.
  intros I. unfold nthe. destruct (Z.ltb_spec i (Z.of_nat (length es))).
  - apply app_nth1. lia.
  - rewrite app_nth2 by lia. f_equal. lia.
Qed.

Lemma dklen {K V} (d : dict K V) : length (dkeys d) = length d.
Proof. apply map_length. Qed.

Section Structure.
  Context {T : Type} `{N : Num T}.
  Variables (s : hypergraph T) (fz : option (cval T)).
  Hypothesis C : coh (hspec fz) s.
  Hypothesis W : hwf (st_raw s).
  Hypothesis K : hclean (st_raw s).
  Local Notation r := (st_raw s).
  Local Notation nv := (h_nv (st_raw s)).

  Lemma hans q : is_Wv q = false -> snd (h_query q s) = hp_query q r.
  Proof. intros NW. apply (@good_answer _ _ _ _ _ _ s (@hgood_query _ _ fz q (or_intror NW)) C). Qed.

  Lemma row_idx_app (m1 m2 : coo T) i : row_idx (m1 ++ m2) i = row_idx m1 i ++ row_idx m2 i.
  Proof. unfold row_idx. rewrite filter_app, map_app. reflexivity. Qed.
  Lemma row_idx_hcat off (l : list (Z * coo T)) v :
    row_idx (hcat off l) v = shift_cat off (map (fun x => (fst x, row_idx (snd x) v)) l).
  Proof.
    revert off; induction l as [|[w m] l IH]; intros off; cbn [hcat shift_cat map fst snd]; auto.
    rewrite row_idx_app, IH. f_equal. unfold row_idx. induction m as [|[[a b] x] m IHm]; cbn; auto.
    destruct (eqb v a); cbn; rewrite IHm; reflexivity.
  Qed.

    Lemma Nv_group g d i : dget g (h_gr r) = Some d -> 0 <= i < Z.of_nat (length d) ->
      hp_Nv_g i g r = Ok (row_idx (ctrans (gH d)) i).
    Proof.
      intros E I. pose proof (hview_group g K E) as V. unfold hp_Nv_g, p_group. rewrite E.
      replace (i <? Z.of_nat (length d)) with true by (symmetry; apply Z.ltb_lt; lia).
      rewrite (V_HT V). cbn [res_bind]. rewrite py_index_in by auto. reflexivity.
    Qed.
    Lemma ctrans_nodup (m : coo T) : NoDup (map fst m) -> NoDup (map fst (ctrans m)).
    Proof.
      intros ND. unfold ctrans. rewrite map_map. cbn.
      replace (map (fun x : Z * Z * T => (snd (fst x), fst (fst x))) m) with (map (fun p => (snd p, fst p)) (map fst m)) by (rewrite map_map; reflexivity).
      apply FinFun.Injective_map_NoDup; auto. intros [a b] [a' b'] E. cbn in E. injection E; congruence.
    Qed.
    Lemma ctrans_In (m : coo T) i j : In (i, j) (map fst (ctrans m)) <-> In (j, i) (map fst m).
    Proof.
      unfold ctrans. rewrite map_map. cbn. rewrite !in_map_iff. split.
      - intros ([[a b] x] & E & I). cbn in E. injection E as <- <-. eexists; split; [|exact I]. reflexivity.
      - intros ([[a b] x] & E & I). cbn in E. injection E as <- <-. exists ((a, b), x); auto.
    Qed.
    Lemma Nv_ok g d i : dget g (h_gr r) = Some d -> 0 <= i < Z.of_nat (length d) ->
      NoDup (row_idx (ctrans (gH d)) i) /\ forall v, In v (row_idx (ctrans (gH d)) i) <-> In v (nthe (dkeys d) i).
    Proof.
      intros E I. pose proof (hview_group g K E) as V. split; [apply row_idx_nodup, ctrans_nodup, (V_nodup V)|].
      intros v. rewrite row_idx_In, ctrans_In, (V_keys V). unfold dkeys; rewrite map_length. tauto.
    Qed.
    Lemma walk_ok (l : list (string * dict (list Z) T)) i : (forall nd, In nd l -> In nd (h_gr r)) ->
      0 <= i < Z.of_nat (length (concat (map (fun nd => dkeys (snd nd)) l))) ->
      exists x, p_walk i (combine (map fst l) (map (fun nd => Z.of_nat (length (snd nd))) l)) r = Ok x /\ NoDup x /\
        forall v, In v x <-> In v (nthe (concat (map (fun nd => dkeys (snd nd)) l)) i).
    Proof.
      revert i; induction l as [|[g d] l IH]; intros i SB I; cbn [map concat fst snd combine p_walk length] in *; [lia|].
      rewrite app_length, dklen in I. rewrite nthe_app, dklen by lia.
      assert (E : dget g (h_gr r) = Some d) by (apply In_dget; [apply W|apply SB; left; reflexivity]).
      destruct (Z.ltb_spec i (Z.of_nat (length d))).
      - rewrite (Nv_group g E) by lia. eexists; split; [reflexivity|]. apply (@Nv_ok g); auto; lia.
      - apply IH; [intros; apply SB; right; auto|]. lia.
    Qed.
  Section Scope.
    Variables (sc : option string) (es : list (list Z)) (ws : list T).
    Hypothesis S : scope sc r = Some (es, ws).
    Let k := Z.of_nat (length es).

    Lemma hquery_e : snd (h_query (@hqE T sc) s) = Ok (OHE es ws) /\ snd (h_query (@hqNumE T sc) s) = Ok (OZ k) /\ length ws = length es.
    Proof.
      destruct (hview_scope sc W K S) as (Hm & V). rewrite !hans by reflexivity. cbn [hp_query].
      rewrite (hv_e V), (hv_ne V). split; [reflexivity|]. split; [reflexivity|]. apply (hv_len V).
    Qed.
    Lemma hquery_coords : exists src dst ones,
      snd (h_query (@hqV2eSrc T sc) s) = Ok (OIdx src) /\ snd (h_query (@hqV2eDst T sc) s) = Ok (OIdx dst) /\ snd (h_query (@hqV2eW T sc) s) = Ok (OVals ones) /\
      snd (h_query (@hqE2vSrc T sc) s) = Ok (OIdx dst) /\ snd (h_query (@hqE2vDst T sc) s) = Ok (OIdx src) /\ snd (h_query (@hqE2vW T sc) s) = Ok (OVals ones) /\
      length src = length dst /\ ones = map (fun _ => n1) src /\ NoDup (combine src dst) /\
      snd (h_query (@hqH T sc) s) = Ok (OM (combine (combine src dst) ones)) /\
      forall v i, In (v, i) (combine src dst) <-> 0 <= i < k /\ In v (nthe es i).
    Proof.
      destruct (hview_scope sc W K S) as (Hm & V). rewrite !hans by reflexivity. cbn [hp_query].
      rewrite (V_HT V), (hv_H V). cbn [rmap].
      assert (R1 : rows (ctrans Hm) = cols Hm) by (unfold rows, cols, ctrans; rewrite map_map; reflexivity).
      assert (R2 : cols (ctrans Hm) = rows Hm) by (unfold rows, cols, ctrans; rewrite map_map; reflexivity).
      assert (R3 : vals (ctrans Hm) = vals Hm) by (unfold vals, ctrans; rewrite map_map; reflexivity).
      rewrite R1, R2, R3.
      assert (KK : combine (rows Hm) (cols Hm) = map fst Hm) by apply keys_rows_cols.
      exists (rows Hm), (cols Hm), (vals Hm). do 6 (split; [reflexivity|]).
      split; [unfold rows, cols; rewrite !map_length; auto|]. split.
      - assert (F : forall x, In x Hm -> snd x = n1).
        { intros x I. apply (Permutation_in _ (hv_perm V)) in I. apply in_map_iff in I as (y & <- & _); auto. }
        unfold vals, rows. rewrite map_map. apply map_ext_in. auto.
      - rewrite KK. split; [apply (V_nodup V)|]. split.
        + rewrite <- KK, combine_rows_cols; reflexivity.
        + intros v i. apply (V_keys V).
    Qed.
    Lemma hquery_Ne v : 0 <= v < nv -> exists l, snd (h_query (@hqNe T sc v) s) = Ok (OIdx l) /\ NoDup l /\
      forall i, In i l <-> 0 <= i < k /\ In v (nthe es i).
    Proof.
      intros B. destruct (hview_scope sc W K S) as (Hm & V). rewrite !hans by reflexivity. cbn [hp_query].
      assert (X : hp_Ne sc v r = Ok (row_idx Hm v)).
      { pose proof (hv_H V) as EH. destruct sc as [g|].
        - cbn [hp_Ne scope] in *. unfold hp_Ne_g, p_group. destruct (dget g (h_gr r)); [|discriminate].
          replace (v <? nv) with true by (symmetry; apply Z.ltb_lt; lia).
          change (hp_H_g g r) with (hp_H (Some g) r). rewrite EH. cbn [res_bind].  rewrite py_index_in by auto. reflexivity.
        - cbn [hp_Ne scope] in *. assert (NE : h_gr r <> []) by (destruct (h_gr r); discriminate).
          replace (v <? nv) with true by (symmetry; apply Z.ltb_lt; lia).
          assert (NM : forall B (f : _ -> B), map f (h_gr r) <> []) by (intros B' f E; apply map_eq_nil in E; auto).
          unfold p_groups. rewrite (rmapM_groups (fun g => hp_Ne_g v g r) (fun d => row_idx (gH d) v)).
          + cbn [res_bind]. rewrite match_ne by auto. do 2 f_equal.
            pose proof (hview_all W K NE) as V2. rewrite (hv_H V2) in EH. injection EH as <-.
            unfold catH. rewrite row_idx_hcat.  f_equal. unfold raw_sizes.
            clear; induction (h_gr r) as [|nd l IH]; cbn; [reflexivity|f_equal; exact IH].
          + apply W.
          + intros g d E. unfold hp_Ne_g, p_group. rewrite E.  replace (v <? nv) with true by (symmetry; apply Z.ltb_lt; lia).
            unfold hp_H_g, p_group. rewrite E. rewrite fetch_H_ok by (eapply K; eauto). cbn [res_bind].  rewrite py_index_in by auto. reflexivity. }
      rewrite X. cbn [rmap]. eexists; split; [reflexivity|]. split.
      - apply row_idx_nodup, (V_nodup V).
      - intros i. rewrite row_idx_In. apply (V_keys V).
    Qed.
    Lemma hquery_Nv i : 0 <= i < k -> exists l, snd (h_query (@hqNv T sc i) s) = Ok (OIdx l) /\ NoDup l /\ forall v, In v l <-> In v (nthe es i).
    Proof.
      intros B. rewrite !hans by reflexivity. cbn [hp_query]. destruct sc as [g|]; cbn [scope hp_Nv] in *.
      - destruct (dget g (h_gr r)) as [d|] eqn:E; [|discriminate]. injection S as <- <-.
        assert (B' : 0 <= i < Z.of_nat (length d)) by (unfold k, dkeys in B; rewrite map_length in B; auto).
        rewrite (Nv_group g E) by auto. eexists; split; [reflexivity|]. apply (@Nv_ok g); auto.
      - assert (NE : h_gr r <> []) by (destruct (h_gr r); discriminate). rewrite match_ne in S by auto. injection S as <- <-.
        rewrite raw_ne_eq. unfold k in B. replace (i <? Z.of_nat (length (all_e r))) with true by (symmetry; apply Z.ltb_lt; lia).
        destruct (@walk_ok (h_gr r) i) as (x & E & ND & M); auto. unfold raw_sizes, dkeys in *. rewrite E. cbn [rmap]. eauto.
    Qed.
    (** a neighbour query outside the range is rejected *)
    Lemma hquery_N_out x : (nv <= x -> snd (h_query (@hqNe T sc x) s) = Err AssertionError) /\ (k <= x -> snd (h_query (@hqNv T sc x) s) = Err AssertionError).
    Proof.
      rewrite !hans by reflexivity. cbn [hp_query]. split; intros B; destruct sc as [g|]; cbn [scope hp_Ne hp_Nv] in *.
      - unfold hp_Ne_g, p_group. destruct (dget g (h_gr r)); [|discriminate]. replace (x <? nv) with false by (symmetry; apply Z.ltb_ge; lia). reflexivity.
      - replace (x <? nv) with false by (symmetry; apply Z.ltb_ge; lia). reflexivity.
      - unfold hp_Nv_g, p_group. destruct (dget g (h_gr r)) as [d|] eqn:E; [|discriminate]. injection S as <- <-. unfold k, dkeys in B. rewrite map_length in B.
        replace (x <? Z.of_nat (length d)) with false by (symmetry; apply Z.ltb_ge; lia). reflexivity.
      - assert (NE : h_gr r <> []) by (destruct (h_gr r); discriminate). rewrite match_ne in S by auto. injection S as <- <-.
        rewrite raw_ne_eq. unfold k in B. replace (x <? Z.of_nat (length (all_e r))) with false by (symmetry; apply Z.ltb_ge; lia). reflexivity.
    Qed.
    (** the per-stage arguments of v2v *)
    Lemma hquery_v2v X a dr a1 w1 dr1 ew a2 w2 dr2 k1 k2 :
      snd (h_query (hqV2v sc X a dr a1 w1 dr1 ew a2 w2 dr2 k1 k2) s) =
      match snd (h_query (hqV2e sc X (or_else a1 a) w1 ew (if or_else dr1 dr then Some k1 else None)) s) with
      | Ok (OVals y) => snd (h_query (hqE2v sc (zn y) (or_else a2 a) w2 (if or_else dr2 dr then Some k2 else None)) s)
      | Ok _ => Err TypeError
      | Err x => Err x
      end.
    Proof.
      destruct (hview_scope sc W K S) as (Hm & V).
      rewrite (@hans (hqV2v sc X a dr a1 w1 dr1 ew a2 w2 dr2 k1 k2)), (hans (hqV2e sc X (or_else a1 a) w1 ew (if or_else dr1 dr then Some k1 else None))) by reflexivity.
      cbn [hp_query]. unfold hp_v2v. rewrite (hv_psc V). 
      destruct (hp_v2e sc X (or_else a1 a) w1 ew (if or_else dr1 dr then Some k1 else None) r) as [y|x]; cbn [rmap res_bind]; auto.
      rewrite hans by reflexivity. reflexivity.
    Qed.
  End Scope.
End Structure.

Section Ring.
  Context {T : Type} `{N : Num T}.
  Context (RT : ring_theory (@nz T N) n1 nadd nmul nsub nopp eq).
  Add Ring TRing9 : RT.

  Section V.
    Variables (sc : option string) (r : hraw T) (es : list (list Z)) (ws : list T) (Hm : coo T).
    Hypothesis V : hview sc r es ws Hm.
    Let n := h_nv r.
    Let k := Z.of_nat (length es).
    Lemma hshare_range u v : hshare es ws u v =
      sumf (range k) (fun i => if zmem u (nthe es i) && zmem v (nthe es i) then nmul (zn ws i) (ninv (hcard (nthe es i))) else nz).
    Proof. unfold hshare. rewrite (@combine_nthe _ _ r es _ ws _ nz (hv_len V)). reflexivity. Qed.
    Lemma hshare_sym u v : hshare es ws u v = hshare es ws v u.
    Proof. unfold hshare. apply sumf_ext. intros [e w]. cbn [fst snd]. rewrite andb_comm. reflexivity. Qed.
    Definition hE : coo T := diag_of (map hcard es).
    Lemma De1_eq : inv_vals hE = diag k (fun i => ninv (hcard (nthe es i))).
    Proof.
      unfold hE. rewrite diag_of_eq, inv_vals_diag, map_length. apply diag_ext. intros i I. rewrite zn_map by auto. reflexivity.
    Qed.
    (** D H W E H^T for a diagonal D *)
    Lemma mid_entry (f : Z -> T) u v : 0 <= u < n ->
      mget (spmm (spmm (spmm (spmm (diag n f) Hm) (diag_of ws)) (inv_vals hE)) (ctrans Hm)) u v = nmul (f u) (hshare es ws u v).
    Proof.
      intros U. assert (LW : length ws = length es) by apply (hv_len V).
      assert (B1 : boxed n k (spmm (diag n f) Hm)) by (eapply boxed_spmm; [apply boxed_diag|apply (V_boxed V)]).
      assert (B2 : boxed n k (spmm (spmm (diag n f) Hm) (diag_of ws))) by (eapply boxed_spmm; [exact B1|rewrite diag_of_eq, LW; apply boxed_diag]).
      assert (B3 : boxed n k (spmm (spmm (spmm (diag n f) Hm) (diag_of ws)) (inv_vals hE))) by (eapply boxed_spmm; [exact B2|rewrite De1_eq; apply boxed_diag]).
      rewrite (mget_spmm_dense RT _ u v (range_nodup k) (boxed_cols B3)).
      rewrite hshare_range. rewrite <- (sumf_mul_l RT). apply sumf_ext_in. intros i I. apply range_In in I.
      rewrite De1_eq, diag_of_eq, LW. fold k.
      rewrite (mget_diag_r RT) by auto. rewrite (mget_diag_r RT) by auto. rewrite (mget_diag_l RT) by auto.
      rewrite mget_ctrans, !(V_mget RT V). fold k.
      replace (0 <=? i) with true by (symmetry; apply Z.leb_le; lia). replace (i <? k) with true by (symmetry; apply Z.ltb_lt; lia). cbn [andb].
      destruct (zmem u (nthe es i)), (zmem v (nthe es i)); cbn [andb]; ring.
    Qed.
    Lemma mid_boxed (f : Z -> T) : boxed n n (spmm (spmm (spmm (spmm (diag n f) Hm) (diag_of ws)) (inv_vals hE)) (ctrans Hm)).
    Proof.
      assert (LW : length ws = length es) by apply (hv_len V).
      eapply boxed_spmm; [eapply boxed_spmm; [eapply boxed_spmm; [eapply boxed_spmm|]|]|].
      - apply boxed_diag.
      - apply (V_boxed V).
      - rewrite diag_of_eq, LW; apply boxed_diag.
      - rewrite De1_eq; apply boxed_diag.
      - apply (V_boxedT V).
    Qed.
    Lemma spmv_HT X i : 0 <= i < k -> spmv (ctrans Hm) X i = sumf (nthe es i) X.
    Proof.
      intros I. unfold spmv, ctrans. rewrite sumf_map. cbn [fst snd]. rewrite (V_sum RT V). cbn [fst snd].
      rewrite <- (@sumf_single _ _ RT _ EqB_Z (range k) i (fun j => sumf (nthe es j) X) (range_nodup k)) by (apply range_In; auto).
      apply sumf_ext. intros j. destruct (eqb i j); [|apply (sumf_zero RT)]. apply sumf_ext. intros v. ring.
    Qed.
    Lemma spmv_H X v : spmv Hm X v = sumf (range k) (fun i => if zmem v (nthe es i) then X i else nz).
    Proof.
      unfold spmv. rewrite (V_sum RT V). cbn [fst snd]. apply sumf_ext_in. intros i I. apply range_In in I.
      rewrite <- (@sumf_member _ _ RT (nthe es i) v (X i)) by (eapply nthe_nodup; eauto using (hv_clean V)).
      apply sumf_ext. intros x. change (eqb v x) with (v =? x). destruct (v =? x); ring.
    Qed.
    Lemma handshake : sumf (range n) (hdeg es ws) = sumf (combine es ws) (fun ew => nmul (snd ew) (hcard (fst ew))).
    Proof.
      rewrite (sumf_ext (range n) (hdeg es ws) _ (hdeg_range V)). rewrite (sumf_swap RT).
      rewrite (@combine_nthe _ _ r es _ ws _ nz (hv_len V)). apply sumf_ext_in. intros i I. apply range_In in I. cbn [fst snd].
      unfold hcard. rewrite <- (sumf_mul_l RT).
      rewrite (sumf_ext_in _ _ (fun a => sumf (nthe es i) (fun x => if x =? a then zn ws i else nz))).
      - rewrite (sumf_swap RT). apply sumf_ext_in. intros x X. pose proof (clean_In _ (hv_clean V) I X) as XB.
        pose proof (@sumf_single _ _ RT _ EqB_Z (range n) x (fun _ => zn ws i) (range_nodup n) (proj2 (range_In n x) XB)) as Y.
        etransitivity; [exact Y|]. unfold zn. ring.
      - intros a A. rewrite <- (@sumf_member _ _ RT (nthe es i) a (zn ws i)) by (eapply nthe_nodup; eauto using (hv_clean V)).
        apply sumf_ext. intros x. rewrite Z.eqb_sym. reflexivity.
    Qed.
  End V.

  Variables (s : hypergraph T) (fz : option (cval T)).
  Hypothesis C : coh (hspec fz) s.
  Hypothesis W : hwf (st_raw s).
  Hypothesis K : hclean (st_raw s).
  Local Notation r := (st_raw s).
  Local Notation nv := (h_nv (st_raw s)).
  Variables (sc : option string) (es : list (list Z)) (ws : list T).
  Hypothesis S : scope sc r = Some (es, ws).
  Local Notation k := (Z.of_nat (length es)).

  Lemma hp_De1_eq : hp_De1 sc r = Ok (diag k (fun i => ninv (hcard (nthe es i)))).
  Proof. unfold hp_De1. rewrite (@V_De _ _ RT _ _ _ _ W K S). cbn [rmap]. rewrite <- De1_eq. reflexivity. Qed.
  Lemma hp_Dv1_eq : hp_Dv1 sc r = Ok (diag nv (fun v => ninv (hdeg es ws v))).
  Proof. unfold hp_Dv1. rewrite (@V_Dv _ _ RT _ _ _ _ W K S). cbn [rmap]. rewrite inv_vals_diag. reflexivity. Qed.
  Lemma hp_Dv12_eq : hp_Dv12 sc r = Ok (diag nv (fun v => nisq (hdeg es ws v))).
  Proof. unfold hp_Dv12. rewrite (@V_Dv _ _ RT _ _ _ _ W K S). cbn [rmap]. rewrite isq_vals_diag. reflexivity. Qed.

  Lemma hquery_H : exists Hm, snd (h_query (@hqH T sc) s) = Ok (OM Hm) /\ snd (h_query (@hqHT T sc) s) = Ok (OM (ctrans Hm)) /\
    (forall v i, 0 <= i < k -> mget Hm v i = if zmem v (nthe es i) then n1 else nz) /\ (forall v i, ~ (0 <= i < k) -> mget Hm v i = nz).
  Proof.
    destruct (hview_scope sc W K S) as (Hm & V). exists Hm. rewrite !(hans C) by reflexivity. cbn [hp_query]. rewrite (hv_H V), (V_HT V).
    split; [reflexivity|]. split; [reflexivity|]. split; intros v i I; rewrite (V_mget RT V).
    - replace (0 <=? i) with true by (symmetry; apply Z.leb_le; lia). replace (i <? k) with true by (symmetry; apply Z.ltb_lt; lia). reflexivity.
    - destruct (Z.leb_spec 0 i), (Z.ltb_spec i k); cbn [andb]; auto. exfalso; lia.
  Qed.
  Lemma hquery_D :
    snd (h_query (@hqWe T sc) s) = Ok (OM (diag k (nthw ws))) /\
    snd (h_query (@hqDv T sc) s) = Ok (OM (diag nv (hdeg es ws))) /\
    snd (h_query (@hqDv1 T sc) s) = Ok (OM (diag nv (fun v => ninv (hdeg es ws v)))) /\
    snd (h_query (@hqDv12 T sc) s) = Ok (OM (diag nv (fun v => nisq (hdeg es ws v)))) /\
    snd (h_query (@hqDe T sc) s) = Ok (OM (diag k (fun i => hcard (nthe es i)))) /\
    snd (h_query (@hqDe1 T sc) s) = Ok (OM (diag k (fun i => ninv (hcard (nthe es i))))) /\
    snd (h_query (@hqDegV T sc) s) = Ok (OVals (map (hdeg es ws) (range nv))) /\
    snd (h_query (@hqDegE T sc) s) = Ok (OVals (map hcard es)) /\
    sumf (range nv) (hdeg es ws) = sumf (combine es ws) (fun ew => nmul (snd ew) (hcard (fst ew))).
  Proof.
    destruct (hview_scope sc W K S) as (Hm & V). rewrite !(hans C) by reflexivity. cbn [hp_query].
    rewrite hp_De1_eq, hp_Dv1_eq, hp_Dv12_eq, (@V_Dv _ _ RT _ _ _ _ W K S), (@V_De _ _ RT _ _ _ _ W K S), (hv_We V). cbn [rmap].
    split; [rewrite diag_of_eq, (hv_len V); reflexivity|]. do 3 (split; [reflexivity|]). split.
    { rewrite diag_of_eq, map_length. do 2 f_equal. apply diag_ext. intros i I. apply zn_map; auto. }
    split; [reflexivity|]. split; [rewrite vals_diag; reflexivity|]. split; [rewrite vals_diag_of; reflexivity|]. apply (handshake V).
  Qed.
  Lemma mget_sub_id m u v : 0 <= u < nv -> mget (p_sub_id r m) u v = nsub (if u =? v then n1 else nz) (mget m u v).
  Proof.
    intros U. unfold p_sub_id. rewrite (mget_coalesce RT), (mget_app RT), (mget_cmap_opp RT). unfold ident. rewrite (mget_diag RT).
    replace (0 <=? u) with true by (symmetry; apply Z.leb_le; lia). replace (u <? nv) with true by (symmetry; apply Z.ltb_lt; lia). cbn [andb]. ring.
  Qed.
  Lemma boxed_sub_id m : boxed nv nv m -> boxed nv nv (p_sub_id r m).
  Proof. intros B. unfold p_sub_id. apply boxed_coalesce, boxed_app; [apply boxed_diag|apply boxed_cmap, B]. Qed.
  Lemma hquery_L : exists L Ls Lr,
    snd (h_query (@hqLhgnn T sc) s) = Ok (OM L) /\ snd (h_query (@hqLsym T sc) s) = Ok (OM Ls) /\ snd (h_query (@hqLrw T sc) s) = Ok (OM Lr) /\
    boxed nv nv L /\ boxed nv nv Ls /\ boxed nv nv Lr /\
    (forall X keep, snd (h_query (hqHgnn sc X keep) s) = Ok (OVals (map (spmv (cdrop_opt keep L) X) (range nv)))) /\
    forall u v, 0 <= u < nv -> 0 <= v < nv ->
      mget L u v = nmul (nmul (nisq (hdeg es ws u)) (hshare es ws u v)) (nisq (hdeg es ws v)) /\
      mget Ls u v = nsub (if u =? v then n1 else nz) (mget L u v) /\
      mget Lr u v = nsub (if u =? v then n1 else nz) (nmul (ninv (hdeg es ws u)) (hshare es ws u v)).
  Proof.
    destruct (hview_scope sc W K S) as (Hm & V).
    set (M0 := fun f => spmm (spmm (spmm (spmm (diag nv f) Hm) (diag_of ws)) (inv_vals (hE es))) (ctrans Hm)).
    assert (EL : hp_Lhgnn sc r = Ok (coalesce (spmm (M0 (fun v => nisq (hdeg es ws v))) (diag nv (fun v => nisq (hdeg es ws v)))))).
    { unfold hp_Lhgnn. rewrite hp_Dv12_eq, (hv_H V), (hv_We V), (V_HT V). unfold hp_De1. rewrite (@V_De _ _ RT _ _ _ _ W K S). reflexivity. }
    assert (ER : hp_Lrw sc r = Ok (p_sub_id r (M0 (fun v => ninv (hdeg es ws v))))).
    { unfold hp_Lrw. rewrite hp_Dv1_eq, (hv_H V), (hv_We V), (V_HT V). unfold hp_De1. rewrite (@V_De _ _ RT _ _ _ _ W K S). reflexivity. }
    assert (MB : forall f, boxed nv nv (M0 f)) by (intros f; apply (mid_boxed V)).
    assert (LB : boxed nv nv (coalesce (spmm (M0 (fun v => nisq (hdeg es ws v))) (diag nv (fun v => nisq (hdeg es ws v)))))).
    { apply boxed_coalesce. eapply boxed_spmm; [apply MB|apply boxed_diag]. }
    rewrite !(hans C) by reflexivity. cbn [hp_query]. unfold hp_Lsym. rewrite ER, EL. cbn [rmap].
    do 3 eexists. do 3 (split; [reflexivity|]). split; [exact LB|]. split; [apply boxed_sub_id; exact LB|]. split; [apply boxed_sub_id, MB|]. split.
    { intros X keep. rewrite (hans C) by reflexivity. cbn [hp_query]. unfold hp_hgnn. rewrite EL. reflexivity. }
    intros u v U Vv. split; [|split].
    - rewrite (mget_coalesce RT), (mget_diag_r RT) by auto. unfold M0. rewrite (mid_entry V) by auto. reflexivity.
    - apply mget_sub_id; auto.
    - rewrite mget_sub_id by auto. unfold M0. rewrite (mid_entry V) by auto. reflexivity.
  Qed.

  (** message passing without user weights or dropout *)
  Lemma hquery_v2e_agg X : exists ys ym,
    snd (h_query (hqV2eAgg sc X AggrSum None None) s) = Ok (OVals (map ys (range k))) /\
    snd (h_query (hqV2eAgg sc X AggrMean None None) s) = Ok (OVals (map ym (range k))) /\
    forall i, 0 <= i < k -> ys i = sumf (nthe es i) X /\ ym i = nmul (ninv (hcard (nthe es i))) (sumf (nthe es i) X).
  Proof.
    destruct (hview_scope sc W K S) as (Hm & V). rewrite !(hans C) by reflexivity. cbn [hp_query].
    unfold hp_v2e_agg. rewrite !(hv_psc V), (V_HT V), hp_De1_eq, (hv_ne V). unfold p_aggregate; cbn [aggr_ok res_bind rmap cdrop_opt].
    do 2 eexists. split; [reflexivity|]. split; [reflexivity|]. intros i I. split; [apply (spmv_HT V); auto|].
    rewrite (spmv_diag RT) by auto. rewrite (spmv_HT V) by auto. reflexivity.
  Qed.
  Lemma hquery_v2e_upd X : 
    snd (h_query (hqV2eUpd sc X None) s) = Ok (OVals (map (fun i => nmul (nthw ws i) (X i)) (range k))) /\
    forall ew, length ew = length es -> snd (h_query (hqV2eUpd sc X (Some ew)) s) = Ok (OVals (map (fun i => nmul (nthw ew i) (X i)) (range k))).
  Proof.
    destruct (hview_scope sc W K S) as (Hm & V). split; [|intros ew LE]; rewrite !(hans C) by reflexivity; cbn [hp_query];
      unfold hp_v2e_upd; rewrite !(hv_psc V), (hv_ne V); cbn [res_bind].
    - rewrite (hv_We V). cbn [res_bind rmap]. do 2 f_equal. apply map_ext_in. intros i I. apply range_In in I.
      rewrite diag_of_eq, (spmv_diag RT) by (rewrite (hv_len V); auto). reflexivity.
    - rewrite Nat2Z.id, LE, Nat.eqb_refl. reflexivity.
  Qed.
  (** [v2e] is aggregation followed by update *)
  Lemma hquery_v2e X a w ew keep : snd (h_query (hqV2e sc X a w ew keep) s) =
    match snd (h_query (hqV2eAgg sc X a w keep) s) with
    | Ok (OVals y) => snd (h_query (hqV2eUpd sc (nthw y) ew) s)
    | Ok _ => Err TypeError
    | Err x => Err x
    end.
  Proof.
    destruct (hview_scope sc W K S) as (Hm & V).
    rewrite (hans C (hqV2e sc X a w ew keep)), (hans C (hqV2eAgg sc X a w keep)) by reflexivity.
    cbn [hp_query]. unfold hp_v2e. rewrite (hv_psc V).
    destruct (hp_v2e_agg sc X a w keep r) as [y|x]; cbn [rmap res_bind]; auto.
    rewrite (hans C) by reflexivity. reflexivity.
  Qed.
  Lemma hquery_e2v Y : exists ys ym,
    snd (h_query (hqE2v sc Y AggrSum None None) s) = Ok (OVals (map ys (range nv))) /\
    snd (h_query (hqE2v sc Y AggrMean None None) s) = Ok (OVals (map ym (range nv))) /\
    forall v, 0 <= v < nv -> let inc := sumf (range k) (fun i => if zmem v (nthe es i) then Y i else nz) in
      ys v = inc /\ ym v = nmul (ninv (hdeg es ws v)) inc.
  Proof.
    destruct (hview_scope sc W K S) as (Hm & V). rewrite !(hans C) by reflexivity. cbn [hp_query].
    unfold hp_e2v, hp_e2v_agg. rewrite !(hv_psc V), (hv_H V), hp_Dv1_eq. unfold p_aggregate; cbn [aggr_ok res_bind rmap cdrop_opt].
    do 2 eexists. split; [reflexivity|]. split; [reflexivity|]. intros v I. split; [apply (spmv_H V); auto|].
    rewrite (spmv_diag RT) by auto. rewrite (spmv_H V) by auto. reflexivity.
  Qed.
End Ring.
