(** Message passing of a Hypergraph: two-stage passing, user weights, softmax, bounds over the reals. *)
From Coq Require Import String Permutation Ring Reals Lra.
From Verif Require Import Num PyDict PyDictFacts Coo CooFacts ModelBase CacheFacts ModelGraph SpecGraph StoreFacts MatFacts RealFacts
  GraphMatrix GraphLaplace GraphReach SoftmaxFacts ModelDiGraph DiGraphFacts DiGraphReach ModelHyper HyperFacts SpecHyper HyperStore HyperView HyperMatrix.
Set Implicit Arguments.
Local Open Scope Z_scope.

(** one direction of message passing: [true] = vertices to hyperedges *)
Definition hqAgg {T} (b : bool) sc (X : Z -> T) a w : hquery T := if b then hqV2eAgg sc X a w None else hqE2v sc X a w None.
Definition hqASrc {T} (b : bool) sc : hquery T := if b then hqV2eSrc sc else hqE2vSrc sc.
Definition hqADst {T} (b : bool) sc : hquery T := if b then hqV2eDst sc else hqE2vDst sc.

Section Structure.
  Context {T : Type} `{N : Num T}.
  Variables (s : hypergraph T) (fz : option (cval T)).
  Hypothesis C : coh (hspec fz) s.
  Hypothesis W : hwf (st_raw s).
  Hypothesis K : hclean (st_raw s).
  Local Notation r := (st_raw s).
  Local Notation nv := (h_nv (st_raw s)).
  Variables (sc : option string) (es : list (list Z)) (ws : list T).
  Hypothesis S : scope sc r = Some (es, ws).
  Local Notation k := (Z.of_nat (length es)).
  Definition hinc (b : bool) i j : Prop := if b then 0 <= i < k /\ In j (nthe es i) else 0 <= j < k /\ In i (nthe es j).

  Lemma hquery_weighted (b : bool) w src dst :
    snd (h_query (@hqASrc T b sc) s) = Ok (OIdx src) -> snd (h_query (@hqADst T b sc) s) = Ok (OIdx dst) ->
    (length w <> length src -> forall X a, snd (h_query (hqAgg b sc X a (Some w)) s) = Err AssertionError) /\
    (length w = length src -> let P := combine (combine dst src) w in let n := if b then k else nv in
      (forall X, snd (h_query (hqAgg b sc X AggrSum (Some w)) s) = Ok (OVals (map (spmv P X) (range n))) /\
        snd (h_query (hqAgg b sc X AggrMean (Some w)) s) = Ok (OVals (map (mean_weighted P X) (range n))) /\
        snd (h_query (hqAgg b sc X AggrSoftmax (Some w)) s) = Ok (OVals (map (spmv (csoftmax (coalesce P)) X) (range n)))) /\
      map fst P = combine dst src /\ (forall i j, In (i, j) (combine dst src) <-> hinc b i j)).
  Proof.
    destruct (hview_scope sc W K S) as (Hm & V).
    set (m := if b then ctrans Hm else Hm).
    assert (E1 : snd (h_query (@hqASrc T b sc) s) = Ok (OIdx (cols m))).
    { unfold hqASrc, m. destruct b; rewrite (hans C) by reflexivity; cbn [hp_query]; rewrite ?(V_HT V), ?(hv_H V); reflexivity. }
    assert (E2 : snd (h_query (@hqADst T b sc) s) = Ok (OIdx (rows m))).
    { unfold hqADst, m. destruct b; rewrite (hans C) by reflexivity; cbn [hp_query]; rewrite ?(V_HT V), ?(hv_H V); reflexivity. }
    rewrite E1, E2. intros Es Ed. injection Es as <-. injection Ed as <-.
    assert (LC : length (cols m) = length m) by apply map_length. rewrite LC.
    assert (KE := keys_rows_cols m).
    assert (QA : forall X a, snd (h_query (hqAgg b sc X a (Some w)) s) =
      rmap (@OVals T) (p_aggregate (Ok m) (Ok []) (Ok (if b then k else nv)) X a (Some w) None)).
    { intros X a. unfold hqAgg, m. destruct b; rewrite (hans C) by reflexivity; cbn [hp_query];
        unfold hp_e2v, hp_v2e_agg, hp_e2v_agg; rewrite !(hv_psc V), ?(V_HT V), ?(hv_H V), ?(hv_ne V); reflexivity. }
    split.
    - intros NL X a. rewrite QA. unfold p_aggregate. apply Nat.eqb_neq in NL. cbn [res_bind]. rewrite NL. destruct (aggr_ok a); reflexivity.
    - intros L. cbv zeta. split; [|split].
      + intros X. rewrite !QA. unfold p_aggregate. cbn [res_bind aggr_ok]. rewrite L, Nat.eqb_refl. cbn [cdrop_opt]. unfold with_vals. rewrite <- KE. auto.
      + apply combine_keys. rewrite KE, map_length; exact L.
      + intros i j. rewrite KE. unfold m, hinc. destruct b; [rewrite ctrans_In|]; apply (V_keys V).
  Qed.
  Lemma hquery_bad_aggr (b : bool) X w : snd (h_query (hqAgg b sc X AggrOther w) s) = Err AssertionError.
  Proof.
    destruct (hview_scope sc W K S) as (Hm & V).
    destruct b; unfold hqAgg; rewrite (hans C) by reflexivity; cbn [hp_query]; unfold hp_e2v, hp_v2e_agg, hp_e2v_agg; rewrite !(hv_psc V); reflexivity.
  Qed.
End Structure.

Section Ring.
  Context {T : Type} `{N : Num T}.
  Context (RT : ring_theory (@nz T N) n1 nadd nmul nsub nopp eq).
  Add Ring TRing10 : RT.
  Variables (s : hypergraph T) (fz : option (cval T)).
  Hypothesis C : coh (hspec fz) s.
  Hypothesis W : hwf (st_raw s).
  Hypothesis K : hclean (st_raw s).
  Local Notation r := (st_raw s).
  Local Notation nv := (h_nv (st_raw s)).
  Variables (sc : option string) (es : list (list Z)) (ws : list T).
  Hypothesis S : scope sc r = Some (es, ws).
  Local Notation k := (Z.of_nat (length es)).

  (** sum over the members of one hyperedge as a sum over all vertices *)
  Lemma sum_members i (f : Z -> T) : 0 <= i < k -> sumf (nthe es i) f = sumf (range nv) (fun v => if zmem v (nthe es i) then f v else nz).
  Proof.
    destruct (hview_scope sc W K S) as (Hm & V). intros I.
    rewrite (sumf_ext_in (range nv) _ (fun a => sumf (nthe es i) (fun x => if x =? a then f a else nz))).
    - rewrite (sumf_swap RT). apply sumf_ext_in. intros x X. pose proof (clean_In _ (hv_clean V) I X) as XB.
      symmetry. exact (@sumf_single _ _ RT _ EqB_Z (range nv) x f (range_nodup nv) (proj2 (range_In nv x) XB)).
    - intros a A. rewrite <- (@sumf_member _ _ RT (nthe es i) a (f a)) by (eapply nthe_nodup; eauto using (hv_clean V)).
      apply sumf_ext. intros x. rewrite Z.eqb_sym. reflexivity.
  Qed.
  Lemma share_sum (X : Z -> T) u :
    sumf (range k) (fun i => if zmem u (nthe es i) then nmul (nthw ws i) (nmul (ninv (hcard (nthe es i))) (sumf (nthe es i) X)) else nz) =
    sumf (range nv) (fun v => nmul (hshare es ws u v) (X v)).
  Proof.
    destruct (hview_scope sc W K S) as (Hm & V).
    rewrite (sumf_ext (range nv) _ (fun v => sumf (range k) (fun i => nmul (if zmem u (nthe es i) && zmem v (nthe es i) then nmul (zn ws i) (ninv (hcard (nthe es i))) else nz) (X v)))).
    - rewrite (sumf_swap RT). apply sumf_ext_in. intros i I. apply range_In in I. destruct (zmem u (nthe es i)); cbn [andb].
      + rewrite sum_members by auto. rewrite <- !(sumf_mul_l RT). apply sumf_ext. intros v. change (nthw ws i) with (zn ws i). destruct (zmem v (nthe es i)); ring.
      + symmetry. apply (sumf_zero_in RT). intros v _. ring.
    - intros v. rewrite (hshare_range V). symmetry. apply (sumf_mul_r RT).
  Qed.
  Lemma hquery_v2v_plain X : exists ys ym,
    snd (h_query (hqV2v sc X AggrSum false None None None None None None None (fun _ => true) (fun _ => true)) s) = Ok (OVals (map ys (range nv))) /\
    snd (h_query (hqV2v sc X AggrMean false None None None None None None None (fun _ => true) (fun _ => true)) s) = Ok (OVals (map ym (range nv))) /\
    forall u, 0 <= u < nv ->
      ys u = sumf (range k) (fun i => if zmem u (nthe es i) then nmul (nthw ws i) (sumf (nthe es i) X) else nz) /\
      ym u = nmul (ninv (hdeg es ws u)) (sumf (range nv) (fun v => nmul (hshare es ws u v) (X v))).
  Proof.
    rewrite !(hquery_v2v C W K sc S), !(@hquery_v2e _ _ s _ C W K sc es ws S). cbn [or_else].
    destruct (hquery_v2e_agg RT C W K sc S X) as (gs & gm & -> & -> & G).
    destruct (hquery_v2e_upd RT C W K sc S (nthw (map gs (range k)))) as (-> & _).
    destruct (hquery_v2e_upd RT C W K sc S (nthw (map gm (range k)))) as (-> & _).
    set (Y1 := zn (map (fun i => nmul (nthw ws i) (nthw (map gs (range k)) i)) (range k))).
    set (Y2 := zn (map (fun i => nmul (nthw ws i) (nthw (map gm (range k)) i)) (range k))).
    destruct (hquery_e2v RT C W K sc S Y1) as (ys & ym0 & -> & _ & A). destruct (hquery_e2v RT C W K sc S Y2) as (ys0 & ym & _ & -> & B).
    exists ys, ym. split; [reflexivity|]. split; [reflexivity|]. intros u U. destruct (A u U) as [-> _]. destruct (B u U) as [_ ->].
    assert (Z1 : forall f i, 0 <= i < k -> zn (map (fun i => nmul (nthw ws i) (nthw (map f (range k)) i)) (range k)) i = nmul (nthw ws i) (f i)).
    { intros f i I. rewrite zn_map_range by auto. f_equal. apply (@zn_map_range _ _ k f); auto. }
    split.
    - apply sumf_ext_in. intros i I. apply range_In in I. unfold Y1. rewrite Z1 by auto. destruct (G i I) as [-> _]. reflexivity.
    - rewrite <- share_sum. f_equal. apply sumf_ext_in. intros i I. apply range_In in I. unfold Y2. rewrite Z1 by auto. destruct (G i I) as [_ ->]. reflexivity.
  Qed.
  (** user weights *)
  Lemma spmv_lists (dst src : list Z) (w : list T) X i :
    spmv (combine (combine dst src) w) X i = sumf (combine (combine dst src) w) (fun x => if fst (fst x) =? i then nmul (snd x) (X (snd (fst x))) else nz).
  Proof. unfold spmv. apply sumf_ext. intros [[a b] x]; cbn [fst snd]. change (eqb i a) with (i =? a). rewrite Z.eqb_sym. reflexivity. Qed.
  Lemma rowsum_lists (dst src : list Z) (w : list T) i :
    rowsum (combine (combine dst src) w) i = sumf (combine (combine dst src) w) (fun x => if fst (fst x) =? i then snd x else nz).
  Proof. unfold rowsum. apply sumf_ext. intros [[a b] x]; cbn [fst snd]. change (eqb i a) with (i =? a). rewrite Z.eqb_sym. reflexivity. Qed.
End Ring.

Section Real.
  Variables (s : hypergraph R) (fz : option (cval R)).
  Hypothesis C : coh (hspec fz) s.
  Hypothesis W : hwf (st_raw s).
  Hypothesis K : hclean (st_raw s).
  Local Notation r := (st_raw s).
  Local Notation nv := (h_nv (st_raw s)).
  Variables (sc : option string) (es : list (list Z)) (ws : list R).
  Hypothesis S : scope sc r = Some (es, ws).
  Local Notation k := (Z.of_nat (length es)).
  Local Open Scope R_scope.

  Lemma hcard_len (e : list Z) : hcard e = INR (length e).
  Proof. unfold hcard. induction e as [|x e IH]; [reflexivity|]. cbn [sumf length]. rewrite S_INR, IH. cbn. lra. Qed.
  Lemma hcard_pos v (e : list Z) : In v e -> 0 < @hcard R _ e.
  Proof. intros I. rewrite hcard_len. apply lt_0_INR. destruct e; [destruct I|cbn; lia]. Qed.
  Lemma hshare_rows u : sumf (range nv) (hshare es ws u) = hdeg es ws u.
  Proof.
    destruct (hview_scope sc W K S) as (Hm & V).
    pose proof (share_sum RT s W K sc S (fun _ => 1) u) as E.
    transitivity (sumf (range nv) (fun v => nmul (hshare es ws u v) 1)); [apply sumf_ext; intros; cbn; ring|]. rewrite <- E, (hdeg_range V).
    apply sumf_ext_in. intros i I. destruct (zmem u (nthe es i)) eqn:Z; auto. apply zmem_In in Z. apply hcard_pos in Z.
    change (sumf (nthe es i) (fun _ => 1)) with (@hcard R _ (nthe es i)). change (@ninv R _) with Rinv0. rewrite Rinv0_ne by lra.
    change (nthw ws i) with (zn ws i). cbn. field. lra.
  Qed.
  Lemma hshare_nonneg u v : Forall (fun w => 0 <= w) ws -> 0 <= hshare es ws u v.
  Proof.
    intros F. unfold hshare. apply Rsum_nonneg. intros [e w] I. cbn [fst snd].
    destruct (zmem u e && zmem v e) eqn:Z; [|cbn; lra]. apply andb_true_iff in Z as [Z _]. apply zmem_In, hcard_pos in Z.
    rewrite Forall_forall in F. apply in_combine_r in I. change (@ninv R _) with Rinv0. rewrite Rinv0_ne by lra.
    apply Rmult_le_pos; [auto|]. left. apply Rinv_0_lt_compat; auto.
  Qed.
  Lemma henergy : Forall (fun w => 0 <= w) ws -> forall x : Z -> R, exists y : Z -> R,
    snd (h_query (hqHgnn sc x None) s) = Ok (OVals (map y (range nv))) /\
    Rabs (sumf (range nv) (fun i => x i * y i)) <= sumf (range nv) (fun i => x i * x i) /\
    (forall Ls, snd (h_query (hqLsym sc) s) = Ok (OM Ls) ->
       0 <= sumf (range nv) (fun i => x i * sumf (range nv) (fun j => mget Ls i j * x j)) <= 2 * sumf (range nv) (fun i => x i * x i)).
  Proof.
    intros NN x. destruct (hquery_L RT C W K sc S) as (L & Ls & Lr & EL & ELs & ELr & BL & BLs & BLr & HG & D).
    exists (spmv L x). split; [apply (HG x None)|].
    assert (F : sumf (range nv) (fun i => x i * spmv L x i) = sumf (range nv) (fun i => sumf (range nv) (fun j =>
        x i * (Risq (sumf (range nv) (fun j0 => hshare es ws i j0)) * hshare es ws i j * Risq (sumf (range nv) (fun j0 => hshare es ws j j0))) * x j))).
    { apply sumf_ext_in. intros i I. apply range_In in I.
      rewrite (@spmv_dense _ _ RT (range nv) L x i (range_nodup _) (boxed_cols BL)). etransitivity; [symmetry; apply (sumf_mul_l RT)|].
      apply sumf_ext_in. intros j J. apply range_In in J. destruct (D i j I J) as (-> & _). rewrite !hshare_rows. cbn. ring. }
    assert (B : Rabs (sumf (range nv) (fun i => x i * spmv L x i)) <= sumf (range nv) (fun i => x i * x i)).
    { rewrite F. apply normalised_form_bound; intros i j _ _; [apply hshare_nonneg; auto|apply hshare_sym]. }
    split; [exact B|]. intros Ls' E. rewrite ELs in E. injection E as <-.
    assert (Q : sumf (range nv) (fun i => x i * sumf (range nv) (fun j => mget Ls i j * x j)) =
      sumf (range nv) (fun i => x i * x i) - sumf (range nv) (fun i => x i * spmv L x i)).
    { etransitivity; [|apply (sumf_sub RT)]. apply sumf_ext_in. intros i I.
      rewrite (@spmv_dense _ _ RT (range nv) L x i (range_nodup _) (boxed_cols BL)).
      assert (Y : sumf (range nv) (fun j => mget Ls i j * x j) = x i - sumf (range nv) (fun j => mget L i j * x j)).
      { transitivity (sumf (range nv) (fun j => nsub (if eqb i j then x j else 0) (mget L i j * x j))).
        - apply sumf_ext_in. intros j J. apply range_In in J. destruct (D i j (proj1 (range_In _ _) I) J) as (_ & -> & _).
          change (eqb i j) with (i =? j)%Z. destruct (i =? j)%Z; cbn; ring.
        - rewrite (sumf_sub RT). cbn [nsub Num_R]. f_equal. apply (@sumf_single _ _ RT _ EqB_Z (range nv) i x (range_nodup _) I). }
      rewrite Y. cbn. ring. }
    rewrite Q. set (q := sumf (range nv) (fun i => x i * spmv L x i)) in *. pose proof (Rle_abs q) as A1. pose proof (Rle_abs (- q)) as A2. rewrite Rabs_Ropp in A2. lra.
  Qed.
  Lemma hrw_constants : forall Lr c, snd (h_query (hqLrw sc) s) = Ok (OM Lr) -> forall v, (0 <= v < nv)%Z ->
    spmv Lr (fun _ => c) v = if Req_EM_T (hdeg es ws v) 0 then c else 0.
  Proof.
    intros Lr c E v I. destruct (hquery_L RT C W K sc S) as (L & Ls & Lr' & EL & ELs & ELr & BL & BLs & BLr & HG & D).
    rewrite ELr in E. injection E as <-.
    rewrite (@spmv_dense _ _ RT (range nv) Lr' _ v (range_nodup _) (boxed_cols BLr)).
    transitivity (c * (1 - Rinv0 (hdeg es ws v) * hdeg es ws v)).
    - rewrite <- (hshare_rows v) at 2.
      transitivity (sumf (range nv) (fun j => nsub (if eqb v j then c else 0) (nmul (c * Rinv0 (hdeg es ws v)) (hshare es ws v j)))).
      + apply sumf_ext_in. intros j J. apply range_In in J. destruct (D v j I J) as (_ & _ & ->). change (eqb v j) with (v =? j)%Z.
        change (@ninv R _) with Rinv0. destruct (v =? j)%Z; cbn; ring.
      + rewrite (sumf_sub RT), (sumf_mul_l RT). pose proof (@sumf_single _ _ RT _ EqB_Z (range nv) v (fun _ => c) (range_nodup _) (proj2 (range_In _ _) I)) as Y.
        etransitivity; [apply f_equal2; [exact Y|reflexivity]|]. cbn. ring.
    - destruct (Req_EM_T (hdeg es ws v) 0) as [->|NZ]; [rewrite Rinv0_0; ring|]. rewrite Rinv0_ne by auto. field. auto.
  Qed.
  (** the mean of one hyperedge, and the two-stage mean, stay within the range of the features they read *)
  Lemma hv2e_between X : exists y, snd (h_query (hqV2eAgg sc X AggrMean None None) s) = Ok (OVals (map y (range k))) /\
    forall i, (0 <= i < k)%Z -> forall lo hi, nthe es i <> [] -> (forall v, In v (nthe es i) -> lo <= X v <= hi) -> lo <= y i <= hi.
  Proof.
    destruct (hquery_v2e_agg RT C W K sc S X) as (ys & ym & _ & E & D). exists ym; split; [exact E|]. intros i I lo hi NE B. destruct (D i I) as [_ ->].
    pose proof (@Rmean_between Z (nthe es i) (fun _ => 1) X lo hi) as M.
    change (sumf (nthe es i) (fun _ => 1)) with (@hcard R _ (nthe es i)) in M.
    replace (sumf (nthe es i) (fun j => 1 * X j)) with (sumf (nthe es i) X) in M by (apply sumf_ext; intros; ring).
    apply M; [intros; lra| |auto]. destruct (nthe es i) as [|v l]; [congruence|]. exists v; split; [left; auto|lra].
  Qed.
  Lemma hv2v_between X : Forall (fun w => 0 < w) ws -> exists y,
    snd (h_query (hqV2v sc X AggrMean false None None None None None None None (fun _ => true) (fun _ => true)) s) = Ok (OVals (map y (range nv))) /\
    forall u, (0 <= u < nv)%Z -> let near v := exists e, In e es /\ In u e /\ In v e in
      (forall lo hi, (exists v, near v) -> (forall v, near v -> lo <= X v <= hi) -> lo <= y u <= hi) /\
      ((forall v, ~ near v) -> y u = 0).
  Proof.
    intros PP. assert (NN : Forall (fun w => 0 <= w) ws) by (eapply Forall_impl; [|exact PP]; cbn; intros; lra).
    destruct (hview_scope sc W K S) as (Hm & V).
    destruct (hquery_v2v_plain RT C W K sc S X) as (ys & ym & _ & E & D). exists ym; split; [exact E|]. intros u U near. destruct (D u U) as [_ ->].
    rewrite <- hshare_rows.
    assert (SP : forall v, near v -> 0 < hshare es ws u v /\ In v (range nv)).
    { intros v (e & Ie & Iu & Iv). pose proof (hv_clean V) as F. rewrite Forall_forall in F. split.
      - unfold hshare. apply In_nth with (d := []) in Ie as (p & Lp & <-).
        apply (@Rsum_pos _ _ _ (nth p es [], nth p ws 0)).
        + intros [e' w'] I. cbn [fst snd]. destruct (zmem u e' && zmem v e') eqn:Z; [|cbn; lra]. apply andb_true_iff in Z as [Z _]. apply zmem_In, hcard_pos in Z.
          rewrite Forall_forall in NN. apply in_combine_r in I. change (@ninv R _) with Rinv0. rewrite Rinv0_ne by lra.
          apply Rmult_le_pos; [auto|]. left. apply Rinv_0_lt_compat; auto.
        + rewrite <- combine_nth by (symmetry; apply (hv_len V)). apply nth_In. rewrite combine_length, (hv_len V). lia.
        + cbn [fst snd]. rewrite (proj2 (zmem_In _ _) Iu), (proj2 (zmem_In _ _) Iv). cbn [andb]. apply hcard_pos in Iu.
          change (@ninv R _) with Rinv0. rewrite Rinv0_ne by lra. apply Rmult_lt_0_compat; [|apply Rinv_0_lt_compat; auto].
          rewrite Forall_forall in PP. apply PP, nth_In. rewrite (hv_len V); auto.
      - apply range_In. destruct (F _ Ie) as [_ F2]. rewrite Forall_forall in F2. auto. }
    assert (SN : forall v, 0 < hshare es ws u v -> near v).
    { intros v P. destruct (existsb (fun e => zmem u e && zmem v e) es) eqn:Q.
      - apply existsb_exists in Q as (e & Ie & Z). apply andb_true_iff in Z as [Z1 Z2]. exists e. rewrite <- !zmem_In. auto.
      - exfalso. assert (Z : hshare es ws u v = 0); [|lra]. unfold hshare. apply (sumf_zero_in RT). intros [e w] I. cbn [fst snd].
        destruct (zmem u e && zmem v e) eqn:Z; auto. exfalso. rewrite <- not_true_iff_false in Q. apply Q, existsb_exists. exists e; split; auto. apply in_combine_l in I; auto. }
    split.
    - intros lo hi (v0 & N0) B. apply Rmean_between.
      + intros; apply hshare_nonneg; auto.
      + exists v0. split; [apply SP; auto|apply SP; auto].
      + intros j _ P. apply B, SN, P.
    - intros NO. apply Rmean_none. intros j _. pose proof (hshare_nonneg u j NN). destruct (Rle_lt_or_eq_dec _ _ H) as [L|L]; auto.
      exfalso. eapply NO; eauto.
  Qed.
  Lemma hquery_softmax (b : bool) w src dst :
    snd (h_query (@hqASrc R b sc) s) = Ok (OIdx src) -> snd (h_query (@hqADst R b sc) s) = Ok (OIdx dst) -> length w = length src ->
    exists c, is_softmax (if b then nv else k) (hinc es b) (mget (combine (combine dst src) w)) c /\
      forall X, exists f, snd (h_query (hqAgg b sc X AggrSoftmax (Some w)) s) = Ok (OVals (map f (range (if b then k else nv)))) /\
        forall i, f i = sumf (range (if b then nv else k)) (fun j => c i j * X j).
  Proof.
    intros E1 E2 L. destruct (hview_scope sc W K S) as (Hm & V). destruct (hquery_weighted C W K sc S b w E1 E2) as (_ & Q). destruct (Q L) as (QX & KF & KE). clear Q. cbv zeta in *.
    set (P := coalesce (combine (combine dst src) w)) in *.
    assert (PK : forall i j, In (i, j) (map fst P) <-> hinc es b i j) by (intros i j; unfold P; rewrite coalesce_keys, KF; apply KE).
    destruct (@softmax_dense (if b then k else nv) (if b then nv else k) P) as (SM & SV).
    - intros i j I. apply PK in I. unfold hinc in I. destruct b; destruct I as [I J]; (split; auto); eapply clean_In; eauto using (hv_clean V).
    - apply coalesce_nodup.
    - exists (fun i j => mget (csoftmax P) i j). split.
      + eapply is_softmax_iff; [exact PK| |exact SM]. intros i j. unfold P. apply (mget_coalesce RT).
      + intros X. destruct (QX X) as (_ & _ & A). eexists; split; [exact A|]. intros i. apply SV.
  Qed.
  Lemma hquery_softmax_plain (b : bool) :
    exists c, is_softmax (if b then nv else k) (hinc es b) (fun _ _ => 1) c /\
      forall X, exists f, snd (h_query (hqAgg b sc X AggrSoftmax None) s) = Ok (OVals (map f (range (if b then k else nv)))) /\
        forall i, f i = sumf (range (if b then nv else k)) (fun j => c i j * X j).
  Proof.
    destruct (hview_scope sc W K S) as (Hm & V). set (m := if b then ctrans Hm else Hm). set (P := coalesce m).
    assert (PK : forall i j, In (i, j) (map fst P) <-> hinc es b i j).
    { intros i j. unfold P, m, hinc. rewrite coalesce_keys. destruct b; [rewrite ctrans_In|]; apply (V_keys V). }
    destruct (@softmax_dense (if b then k else nv) (if b then nv else k) P) as (SM & SV).
    - intros i j I. apply PK in I. unfold hinc in I. destruct b; destruct I as [I J]; (split; auto); eapply clean_In; eauto using (hv_clean V).
    - apply coalesce_nodup.
    - exists (fun i j => mget (csoftmax P) i j). split.
      + destruct SM as (A & B & D & F). split; [intros i j I; apply A, PK, I|]. split; [intros i j I; apply B; rewrite PK; exact I|]. split.
        * intros i j l I J. assert (ME : forall i j, hinc es b i j -> mget P i j = 1).
          { clear i j l I J. intros i j I. unfold P. rewrite (mget_coalesce RT). unfold m, hinc in *. destruct b; [rewrite mget_ctrans|];
              rewrite (V_mget RT V); destruct I as [I J]; rewrite (proj2 (zmem_In _ _) J), (proj2 (Z.leb_le _ _) (proj1 I)), (proj2 (Z.ltb_lt _ _) (proj2 I)); reflexivity. }
          pose proof (D i j l (proj2 (PK _ _) I) (proj2 (PK _ _) J)) as Y. rewrite !ME in Y by auto. exact Y.
        * intros i (j & I). apply F. exists j. apply PK, I.
      + intros X. eexists. split; [|intros i; apply SV]. unfold hqAgg, P, m. destruct b; rewrite (hans C) by reflexivity; cbn [hp_query];
          unfold hp_e2v, hp_v2e_agg, hp_e2v_agg; rewrite !(hv_psc V), ?(V_HT V), ?(hv_H V), ?(hv_ne V); reflexivity.
  Qed.
End Real.
