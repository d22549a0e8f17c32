(** Facts about the conversions between structures. *)
From Coq Require Import String Permutation Sorted.
From Verif Require Import Num PyDict PyDictFacts Coo CooFacts MatFacts ModelBase CacheFacts ModelGraph GraphFacts SpecGraph SpecGraphOps StoreFacts
  GraphStore GraphMatrix RebuildFacts GraphReach ModelDiGraph ModelBiGraph SpecBiGraph BiGraphFacts BiGraphMatrix
  ModelHyper HyperFacts SpecHyper HyperStore HyperView HyperReach HyperOps HyperMatrix ModelConv SpecConv GraphLaplace.
Set Implicit Arguments.
Local Open Scope string_scope.
Local Open Scope list_scope.
Local Open Scope Z_scope.

Section Build.
  Context {T : Type} `{N : Num T}.

  (** adding to a new group, all weights 1, merging by the mean: every different hyperedge once, with weight 1 *)
  Lemma hadds_ones (Hh : nhalf (nadd n1 n1) = @n1 T N) g L : forall nv vw gr (d : dict (list Z) T), ~ In g (map fst gr) ->
    NoDup (dkeys d) -> Forall (fun x => x = n1) (dvals d) ->
    exists d', hadds MMean g (map (fun e => (e, n1)) L) (mkHRaw nv vw (gr ++ [(g, d)])) = (mkHRaw nv vw (gr ++ [(g, d')]), Ok tt) /\
      NoDup (dkeys d') /\ Forall (fun x => x = n1) (dvals d') /\ (forall e, In e (dkeys d') <-> In e (dkeys d) \/ In e L).
  Proof.
    induction L as [|e L IH]; intros nv vw gr d NI ND F; cbn [map hadds].
    - exists d. repeat split; auto. intros [X|[]]; auto.
    - unfold hadd1. cbn [h_gr]. rewrite dget_snoc by auto. destruct (dget e d) as [x|] eqn:E.
      + assert (X : x = n1). { apply dget_In in E. rewrite Forall_forall in F. apply F. unfold dvals. apply in_map_iff. exists (e, x); auto. }
        subst x. cbn [merge_fun]. rewrite Hh. unfold set_gr; cbn [h_gr h_nv h_vw]. rewrite dset_snoc by auto.
        assert (D : dset e n1 d = d).
        { clear - E. induction d as [|[k v] d IH]; cbn in *; [discriminate|]. destruct (eqb_spec e k); [congruence|]. rewrite IH; auto. }
        rewrite D. destruct (IH nv vw gr d NI ND F) as (d' & E' & N' & F' & M'). exists d'. repeat split; auto.
        * intros I. apply M' in I as [I|I]; auto. right; right; auto.
        * intros [I|[<-|I]]; apply M'; auto. left. apply dget_In in E. unfold dkeys. apply in_map_iff. exists (e, n1); auto.
      + unfold set_gr; cbn [h_gr h_nv h_vw]. rewrite dset_snoc, dset_new by auto.
        destruct (IH nv vw gr (d ++ [(e, n1)]) NI) as (d' & E' & N' & F' & M').
        * unfold dkeys in *. rewrite map_app. apply NoDup_app_intro; auto; [repeat constructor; auto|]. intros x I [<-|[]]. apply dget_None in E. tauto.
        * unfold dvals in *. rewrite map_app. apply Forall_app; split; auto. repeat constructor.
        * exists d'. repeat split; auto.
          -- intros I. apply M' in I as [I|I]; [|right; right; auto]. unfold dkeys in I. rewrite map_app in I. apply in_app_iff in I as [I|[<-|[]]]; auto. right; left; auto.
          -- intros I. apply M'. unfold dkeys. rewrite map_app, in_app_iff. unfold dkeys in I. cbn in I |- *. tauto.
  Qed.
  Lemma h_new_ones (Hh : nhalf (nadd n1 n1) = @n1 T N) nv L : 0 < nv ->
    exists h es, h_new nv (Some (HMany L)) WNone None MMean = Ok h /\ h_reach nv (Some (HMany L)) WNone None MMean [] h /\
      NoDup es /\ (forall e, In e es <-> In e (map zsort L)) /\ (L <> [] -> h_gr (st_raw h) <> []) /\
      snd (h_query (hqE None) h) = Ok (OHE es (map (fun _ => n1) es)).
  Proof.
    intros P. set (vw := Some (repeat (@n1 T N) (Z.to_nat nv))).
    assert (X : exists h es, h_new nv (Some (HMany L)) WNone None MMean = Ok h /\ NoDup es /\ (forall e, In e es <-> In e (map zsort L)) /\ (L <> [] -> h_gr (st_raw h) <> []) /\
      all_e (st_raw h) = es /\ all_w (st_raw h) = map (fun _ => n1) es).
    { unfold h_new. replace (0 <? nv) with true by (symmetry; apply Z.ltb_lt; auto). unfold h_add. cbn [hformat hweights st_raw st_cache].
      rewrite combine_repeat. fold vw. destruct L as [|e L].
      - cbn. exists (mkSt (mkHRaw nv vw []) []), []. split; [reflexivity|]. split; [constructor|]. split; [intros; reflexivity|]. split; [congruence|]. split; reflexivity.
      - cbn [map hadds]. unfold hadd1. cbn [h_gr dget]. unfold set_gr. cbn [h_gr h_nv h_vw dset].
        destruct (@hadds_ones Hh "main" (map zsort L) nv vw [] [(zsort e, n1)]) as (d' & E & ND & F & M);
          [tauto|repeat constructor; auto|repeat constructor|]. cbn [app] in E.
        match goal with |- context [hadds ?a ?b ?c ?d] => replace (hadds a b c d) with (mkHRaw nv vw [("main", d')], @Ok unit tt) by (symmetry; exact E) end.
        exists (mkSt (mkHRaw nv vw [("main", d')]) []), (dkeys d'). rewrite hclear_empty. split; [reflexivity|]. split; [auto|]. split; [|split; [discriminate|]].
        + intros x. rewrite M. unfold dkeys. cbn [map fst In]. cbn. intuition.
        + cbn. unfold all_e, all_w; cbn. rewrite !app_nil_r. split; [reflexivity|]. unfold dkeys, dvals in *. rewrite map_map. clear - F.
          induction d' as [|[k v] d IH]; cbn in *; auto. inversion F; subst. rewrite IH; auto. }
    destruct X as (h & es & E & ND & M & NE & A & W). exists h, es. split; auto.
    assert (R : h_reach nv (Some (HMany L)) WNone None MMean [] h) by (exists h; split; auto).
    split; auto. split; auto. split; auto. split; auto. destruct (reach_hst R) as [C WF _ _ _]; [discriminate|constructor|].
    rewrite (h_e_all C WF), A, W. reflexivity.
  Qed.
  (** a list without duplicates is stored as it is *)
  Lemma h_new_nodup nv L (ws : list T) : 0 < nv -> NoDup (map zsort L) -> length ws = length L ->
    exists h, h_new nv (Some (HMany L)) (WList ws) None MMean = Ok h /\ h_reach nv (Some (HMany L)) (WList ws) None MMean [] h /\
      snd (h_query (hqE None) h) = Ok (OHE (map zsort L) ws) /\ snd (h_query hqNames h) = Ok (ONames (match L with [] => [] | _ => ["main"] end)).
  Proof.
    intros P ND LN. set (vw := Some (repeat (@n1 T N) (Z.to_nat nv))).
    assert (FC : map fst (combine (map zsort L) ws) = map zsort L).
    { clear ND. revert ws LN; induction L as [|e L IH]; intros [|w ws] LN; try discriminate; cbn; auto. rewrite IH; auto. }
    assert (SC : map snd (combine (map zsort L) ws) = ws).
    { clear ND FC. revert ws LN; induction L as [|e L IH]; intros [|w ws] LN; try discriminate; cbn; auto. rewrite IH; auto. }
    assert (X : exists h, h_new nv (Some (HMany L)) (WList ws) None MMean = Ok h /\ h_gr (st_raw h) = match L with [] => [] | _ => [("main", combine (map zsort L) ws)] end).
    { unfold h_new. replace (0 <? nv) with true by (symmetry; apply Z.ltb_lt; auto). unfold h_add. cbn [hformat hweights st_raw st_cache].
      rewrite map_length. replace (Nat.eqb (length ws) (length L)) with true by (symmetry; apply Nat.eqb_eq; auto). fold vw. destruct L as [|e L].
      - cbn. eexists; split; reflexivity.
      - rewrite hadds_new; [|intros []|rewrite FC; exact ND|destruct ws; discriminate].
        rewrite hclear_empty. eexists; split; reflexivity. }
    destruct X as (h & E & G). exists h. split; auto. assert (R : h_reach nv (Some (HMany L)) (WList ws) None MMean [] h) by (exists h; split; auto).
    split; auto. destruct (reach_hst R) as [C WF _ _ _]; [discriminate|constructor|]. split.
    - rewrite (h_e_all C WF). unfold all_e, all_w. rewrite G. destruct L as [|e L].
      + cbn in *. destruct ws; [reflexivity|discriminate].
      + cbn [map concat snd]. rewrite !app_nil_r. do 2 f_equal; [exact FC|exact SC].
    - change (snd (h_query hqNames h)) with (@Ok (out T) (ONames (dkeys (h_gr (st_raw h))))). rewrite G. destruct L; reflexivity.
  Qed.
  (** a Graph built from different pairs a < b, in range, stores exactly them *)
  Lemma g_new_nodup nv l m : 0 < nv -> m <> MOther -> NoDup (map fst l) ->
    Forall (fun e => fst e < snd e < nv) (map fst l) ->
    exists g : graph T, g_new nv (Some (EMany (map fst l))) (WList (map snd l)) false m = Ok g /\
      g_reach nv (Some (EMany (map fst l))) (WList (map snd l)) false m [] g /\ snd (g_query QE g) = Ok (OE (map fst l) (map snd l)).
  Proof.
    intros P K ND F. set (r := mkRaw nv l [] false).
    assert (NB : forall k, In k (map fst l) -> norm_und k = k /\ fst k <> snd k).
    { intros [a b] I. rewrite Forall_forall in F. apply F in I. cbn in *. unfold norm_und; cbn. replace (b <? a) with false by (symmetry; apply Z.ltb_ge; lia). split; [auto|lia]. }
    assert (W : wf norm_und r). { split; cbn; auto. constructor. }
    assert (E : g_new nv (Some (EMany (map fst l))) (WList (map snd l)) false m = Ok (mkSt r [])).
    { unfold g_new. replace (0 <? nv) with true by (symmetry; apply Z.ltb_lt; auto). unfold g_add_edges.
      pose proof (rebuild_add und_diag (m := m) W K) as R. 
      assert (P1 : fst (plain_edges r) = map fst l) by (unfold plain_edges, raw_edges, r; cbn; apply app_nil_r).
      assert (P2 : snd (plain_edges r) = map snd l) by (unfold plain_edges, raw_edges, r; cbn; apply app_nil_r).
      rewrite P1, P2 in R. change (r_nv r) with nv in R. change (r_extra r) with false in R. rewrite R; auto.
      unfold core, r. cbn [r_e r_loop map]. rewrite app_nil_r.
      intros k I. rewrite Forall_forall in F. apply F in I. unfold below. apply andb_true_iff. split; apply Z.ltb_lt; lia. }
    exists (mkSt r []). split; auto. split; [exists (mkSt r []); split; auto|].
    cbn. unfold dkeys, dvals. rewrite !app_nil_r. reflexivity.
  Qed.
  Lemma g_new_ones nv l m : 0 < nv -> m <> MOther -> NoDup l -> Forall (fun e => fst e < snd e < nv) l ->
    exists g : graph T, g_new nv (Some (EMany l)) WNone false m = Ok g /\
      g_reach nv (Some (EMany l)) WNone false m [] g /\ snd (g_query QE g) = Ok (OE l (map (fun _ => n1) l)).
  Proof.
    intros P K ND F. destruct (@g_new_nodup nv (map (fun e => (e, n1)) l) m P K) as (g & E & R & Q).
    - rewrite map_map, map_id; auto.
    - rewrite map_map, map_id; auto.
    - rewrite !map_map, map_id in *. cbn [fst snd] in *. exists g.
      assert (X : g_new nv (Some (EMany l)) WNone false m = Ok g).
      { rewrite <- E. unfold g_new, g_add_edges, add_edges. destruct (0 <? nv); auto; destruct l; reflexivity. }
      split; [exact X|]. split; [exists g; split; auto|exact Q].
  Qed.
End Build.

(** * sets of vertices as sorted lists *)
Lemma znodup_In l x : In x (znodup l) <-> In x l.
Proof.
  induction l as [|y l IH]; cbn; [tauto|]. destruct (existsb (Z.eqb y) l) eqn:E; cbn; rewrite IH; [|tauto].
  split; auto. intros [<-|I]; auto. apply existsb_exists in E as (z & I & Q). apply Z.eqb_eq in Q. subst; auto.
Qed.
Lemma znodup_nodup l : NoDup (znodup l).
Proof.
  induction l as [|y l IH]; cbn; [constructor|]. destruct (existsb (Z.eqb y) l) eqn:E; auto. constructor; auto. rewrite znodup_In. intros I.
  assert (X : existsb (Z.eqb y) l = true) by (apply existsb_exists; exists y; split; auto; apply Z.eqb_refl). congruence.
Qed.
Lemma SS_le_lt l : StronglySorted Z.le l -> NoDup l -> StronglySorted Z.lt l.
Proof.
  induction 1 as [|a l S IH F]; intros ND; constructor; inversion ND; subst; auto.
  rewrite Forall_forall in *. intros x I. specialize (F x I). assert (a <> x) by congruence. lia.
Qed.
Lemma SS_lt_le l : StronglySorted Z.lt l -> StronglySorted Z.le l.
Proof. induction 1 as [|a l S IH F]; constructor; auto. rewrite Forall_forall in *. intros x I. specialize (F x I). lia. Qed.
Lemma SS_lt_nodup l : StronglySorted Z.lt l -> NoDup l.
Proof. induction 1 as [|a l S IH F]; constructor; auto. rewrite Forall_forall in F. intros I. specialize (F a I). lia. Qed.
Lemma zsort_lists l : NoDup l -> lists_set (zsort l) (fun u => In u l).
Proof.
  intros ND. pose proof (zsort_perm l) as P. split.
  - apply SS_le_lt; [apply zsort_sorted|]. eapply Permutation_NoDup; [symmetry; exact P|auto].
  - intros u. split; apply Permutation_in; [exact P|symmetry; exact P].
Qed.
Lemma lists_unique e e' P : lists_set e P -> lists_set e' P -> e = e'.
Proof.
  intros [S M] [S' M']. apply sorted_perm_eq; auto using SS_lt_le. apply NoDup_Permutation; auto using SS_lt_nodup.
  intros x. rewrite M, M'. tauto.
Qed.
Lemma lists_ext e (P Q : Z -> Prop) : (forall u, P u <-> Q u) -> lists_set e P -> lists_set e Q.
Proof. intros E [S M]. split; auto. intros u. rewrite M. apply E. Qed.

(** * k-hop neighbourhoods *)
Section Khop.
  Context {T : Type} `{N : Num T}.

  Lemma apowers_In (A Ak : coo T) k C : In C (apowers A Ak k) <-> exists j, (j < k)%nat /\ C = spow A Ak (S j).
  Proof.
    revert Ak; induction k as [|k IH]; intros Ak; cbn [apowers].
    - split; [intros []|intros (j & L & _); lia].
    - cbn [In]. rewrite IH. split.
      + intros [<-|(j & L & ->)]; [exists O; split; [lia|reflexivity]|exists (S j); split; [lia|reflexivity]].
      + intros ([|j] & L & ->); [left; reflexivity|]. right. exists j. split; [lia|reflexivity].
  Qed.
  Lemma fold_sum_keys l (A : coo T) k : In k (map fst (fold_left (fun B C => coalesce (B ++ C)) l A)) <-> In k (map fst A) \/ exists C, In C l /\ In k (map fst C).
  Proof.
    revert A; induction l as [|C l IH]; intros A; cbn [fold_left].
    - split; auto. intros [I|(C & [] & _)]; auto.
    - rewrite IH, coalesce_keys, map_app, in_app_iff. split.
      + intros [[I|I]|(D & I & J)]; auto; right; [exists C|exists D]; cbn; auto.
      + intros [I|(D & [<-|I] & J)]; auto. right; exists D; auto.
  Qed.

  Variables (s : graph T) (g : agraph T) (nv : Z).
  Hypothesis R : grel (st_raw s) g.
  Hypothesis C : coh gspec s.
  Hypothesis NV : r_nv (st_raw s) = nv.
  Hypothesis POS : 0 < nv.
  Hypothesis IR : in_range nv g.

  Definition hop_count (only : bool) (k : Z) (j : nat) : Prop := if only then Z.of_nat j = k else 1 <= Z.of_nat j <= k.
  Lemma khop_ok k only : 1 <= k -> exists f, khop_edges k only s = Ok (map f (range nv)) /\
    forall v, 0 <= v < nv -> NoDup (f v) /\ forall u, In u (f v) <-> u = v \/ exists j, hop_count only k j /\ walk (a_edge g) j v u.
  Proof.
    intros K. unfold khop_edges. destruct (Z.leb_spec 1 k) as [_|]; [|lia].
    set (A := coalesce (eb_coo (st_raw s) nv)).
    assert (EA : asks get_A s = Ok A).
    { pose proof (good_answer (good_query QA) C) as X. cbn [g_query p_query] in X. rewrite (p_A_eq R NV POS IR) in X. fold A in X. cbn in X.
      unfold asks. unfold oM, bind in X. destruct (get_A s) as [s1 [m|x]]; cbn in *; congruence. }
    rewrite EA. cbn [rbind]. rewrite NV. eexists; split; [reflexivity|]. intros v V. split; [apply znodup_nodup|]. intros u. rewrite znodup_In. cbn [In].
    assert (W : forall j, In (v, u) (map fst (spow A A j)) <-> walk (a_edge g) (S j) v u).
    { intros j. rewrite (@spow_keys _ _ A A _ 0).
      - apply (@walk_iff_on Z (fun x => 0 <= x < nv)); auto.
        + intros x y Px. unfold A. rewrite (A_keys R IR). tauto.
        + intros x y Px [E|[<- E]]; auto. apply IR in E; tauto.
      - intros a b. rewrite walk_one. reflexivity. }
    rewrite row_idx_In. split.
    - intros [->|I]; auto. right. destruct only; cbn [hop_count].
      + apply W in I. exists (Z.to_nat k). split; [lia|]. replace (Z.to_nat k) with (S (Z.to_nat (k - 1))) by lia. exact I.
      + apply fold_sum_keys in I as [I|(D & I & J)].
        * exists 1%nat. split; [lia|]. apply (W O). exact I.
        * apply apowers_In in I as (j & L & ->). exists (S (S j)). split; [lia|]. apply W. exact J.
    - intros [->|(j & HC & WK)]; auto. right. destruct only; cbn [hop_count] in HC.
      + apply W. replace (S (Z.to_nat (k - 1))) with j by lia. exact WK.
      + apply fold_sum_keys. destruct j as [|[|j]]; [lia| |].
        * left. apply (W O) in WK. exact WK.
        * right. exists (spow A A (S j)). split; [apply apowers_In; exists j; split; [lia|reflexivity]|]. apply W. exact WK.
  Qed.
End Khop.

(** * bipartite graphs *)
Section Bi.
  Context {T : Type} `{N : Num T}.

  Lemma bgood_mapM {A B} (f : A -> M T (braw T) B) (p : A -> braw T -> res B) l :
    (forall a, good bspec (f a) (p a)) -> good bspec (mapM f l) (fun r => rmapM (fun a => p a r) l).
  Proof.
    intros G. induction l as [|a l IH]; cbn [mapM rmapM]; [apply good_ret|].
    eapply good_ext; [eapply good_bind; [apply G|intros b; eapply good_bind; [apply IH|intros bs; apply good_ret]]|].
    intros r. reflexivity.
  Qed.
  Lemma rmapM_ok_in {A B} (f : A -> res B) h l : (forall a, In a l -> f a = Ok (h a)) -> rmapM f l = Ok (map h l).
  Proof. induction l as [|a l IH]; intros E; cbn [rmapM map]; auto. rewrite (E a) by (left; auto). cbn [res_bind]. rewrite IH; [reflexivity|]. intros; apply E; right; auto. Qed.

  Variables (s : bigraph T) (g : wmap T) (nu nv : Z).
  Hypothesis C : coh bspec s.
  Hypothesis R : brel (st_raw s) g.
  Hypothesis NU : b_nu (st_raw s) = nu.
  Hypothesis NV : b_nv (st_raw s) = nv.
  Hypothesis IR : b_in (fun a => 0 <= a < nu) (fun b => 0 <= b < nv) g.

  (** the neighbourhoods as functions *)
  Lemma bi_nbr (uv : bool) : exists f, forall y, 0 <= y < (if uv then nv else nu) ->
    (if uv then bp_Nu else bp_Nv) y (st_raw s) = Ok (f y) /\ NoDup (f y) /\ forall x, In x (f y) <-> (if uv then g x y else g y x) <> None.
  Proof.
    destruct uv.
    - exists (fun y => match bp_Nu y (st_raw s) with Ok l => l | _ => [] end). intros y Y.
        unfold bp_Nu. rewrite (bp_BT_eq s R NU NV IR). cbn [res_map]. rewrite NV.
        replace (py_index nv y) with (@Ok Z y) by (unfold py_index; replace (0 <=? y) with true by (symmetry; apply Z.leb_le; lia); replace (y <? nv) with true by (symmetry; apply Z.ltb_lt; lia); reflexivity).
        assert (K : forall x, In x (row_idx (bBT s) y) <-> g x y <> None) by (intros x; rewrite row_idx_In, (bBT_keys s R); reflexivity).
        cbn. split; [reflexivity|]. split; auto. apply row_idx_nodup. unfold bBT. apply coalesce_nodup.
    - exists (fun y => match bp_Nv y (st_raw s) with Ok l => l | _ => [] end). intros y Y.
        unfold bp_Nv. rewrite (bp_B_eq s R NU NV IR). cbn [res_map]. rewrite NU.
        replace (py_index nu y) with (@Ok Z y) by (unfold py_index; replace (0 <=? y) with true by (symmetry; apply Z.leb_le; lia); replace (y <? nu) with true by (symmetry; apply Z.ltb_lt; lia); reflexivity).
        assert (K : forall x, In x (row_idx (bB s) y) <-> g y x <> None) by (intros x; rewrite row_idx_In, (bB_keys s R); reflexivity).
        cbn. split; [reflexivity|]. split; auto. apply row_idx_nodup. unfold bB. apply coalesce_nodup.
  Qed.
  Lemma bi_edges_ok (uv : bool) : exists f, bi_edges uv s = Ok (filter nonempty (map f (range (if uv then nv else nu)))) /\
    forall y, 0 <= y < (if uv then nv else nu) -> NoDup (f y) /\ forall x, In x (f y) <-> (if uv then g x y else g y x) <> None.
  Proof.
    destruct (bi_nbr uv) as (f & F). exists f. split; [|intros y Y; apply F; auto]. unfold bi_edges, asks.
    assert (G : good bspec (mapM (if uv then bget_Nu else bget_Nv) (range (if uv then b_nv (st_raw s) else b_nu (st_raw s))))
                  (fun r => rmapM (fun a => (if uv then bp_Nu else bp_Nv) a r) (range (if uv then b_nv (st_raw s) else b_nu (st_raw s))))).
    { apply bgood_mapM. intros a. destruct uv; [apply bgood_Nu|apply bgood_Nv]. }
    rewrite (good_answer G C). rewrite (@rmapM_ok_in _ _ _ f).
    - cbn [rbind]. rewrite NU, NV. reflexivity.
    - intros a I. apply range_In in I. rewrite NU, NV in I. apply F; auto.
  Qed.
End Bi.

(** * from hypergraphs *)
Section FromHyper.
  Context {T : Type} `{N : Num T}.

  Lemma b_new_ones nu nv l m : 0 < nv -> m <> MOther -> NoDup l -> ends_ok nu nv l = true ->
    b_new nu nv (Some (EMany l)) WNone m = Ok (mkSt (mkBRaw nu nv (map (fun e => (e, @n1 T N)) l)) []).
  Proof.
    intros P K ND F. rewrite <- (@bnew_nodup _ _ nu nv (map (fun e => (e, n1)) l) m); auto; try (rewrite map_map, map_id; auto; fail).
    rewrite !map_map, map_id. cbn [snd]. unfold b_new, b_add_edges. destruct (0 <? nv); auto; destruct l; reflexivity.
  Qed.
  Lemma combine_app {A B} (l1 l2 : list A) (m1 m2 : list B) : length m1 = length l1 -> combine (l1 ++ l2) (m1 ++ m2) = combine l1 m1 ++ combine l2 m2.
  Proof. revert m1; induction l1 as [|a l1 IH]; intros [|b m1] L; try discriminate; cbn; auto. rewrite IH; auto. Qed.
  Lemma combine_snd {A B} (l : list A) (w : list B) : length w = length l -> map snd (combine l w) = w.
  Proof. revert w; induction l as [|a l IH]; intros [|b w] L; try discriminate; cbn; auto. rewrite IH; auto. Qed.
  Lemma inc_weights_len es (ws : list T) k : length ws = length es -> length (inc_weights es ws) = length (inc_from k es).
  Proof.
    revert ws k; induction es as [|e es IH]; intros [|w ws] k L; try discriminate; cbn [inc_from]; auto. unfold inc_weights in *. cbn [combine flat_map fst snd].
    rewrite !app_length, !map_length. rewrite (IH ws (k + 1)); auto.
  Qed.
  Lemma inc_weights_In es (ws : list T) : forall k v i w, length ws = length es ->
    (In ((v, i), w) (combine (inc_from k es) (inc_weights es ws)) <-> k <= i < k + Z.of_nat (length es) /\ In v (nthe es (i - k)) /\ w = nthw ws (i - k)).
  Proof.
    revert ws; induction es as [|e es IH]; intros [|w0 ws] k v i w L; try discriminate; cbn [inc_from length].
    - cbn. split; [tauto|lia].
    - unfold inc_weights. cbn [combine flat_map fst snd]. rewrite combine_app by (rewrite !map_length; auto). rewrite in_app_iff.
      fold (inc_weights es ws). rewrite IH by (cbn in L; congruence).
      assert (X : In ((v, i), w) (combine (map (fun v => (v, k)) e) (map (fun _ => w0) e)) <-> i = k /\ In v e /\ w = w0).
      { clear. induction e as [|x e IH]; cbn; [tauto|]. rewrite IH. split.
        - intros [E|(-> & I & ->)]; [injection E as -> -> ->; auto|auto].
        - intros (-> & [->|I] & ->); auto. }
      rewrite X. unfold nthe, nthw. split.
      + intros [(-> & I & ->)|(B & I & E)].
        * rewrite Z.sub_diag. cbn. split; [lia|]. auto.
        * split; [lia|]. replace (Z.to_nat (i - k)) with (S (Z.to_nat (i - (k + 1)))) by lia. cbn. auto.
      + intros (B & I & E). destruct (Z.eqb_spec i k) as [->|Q].
        * rewrite Z.sub_diag in *. cbn in *. auto.
        * right. replace (Z.to_nat (i - k)) with (S (Z.to_nat (i - (k + 1)))) in * by lia. cbn in *. split; [lia|]. auto.
  Qed.

  Variables (s : hypergraph T) (nv : Z) (es : list (list Z)) (ws : list T).
  Hypothesis C : coh (hspec None) s.
  Hypothesis W : hwf (st_raw s).
  Hypothesis NV : h_nv (st_raw s) = nv.
  Hypothesis QE : snd (h_query (hqE None) s) = Ok (OHE es ws).
  Let ne := Z.of_nat (length es).

  Lemma asks_e : asks (get_he None) s = Ok (es, ws).
  Proof.
    unfold asks. cbn [h_query] in QE. unfold bind in QE. destruct (get_he None s) as [s1 [[a b]|x]]; cbn in *; congruence.
  Qed.
  Lemma all_eq : es = all_e (st_raw s) /\ ws = all_w (st_raw s).
  Proof. rewrite (h_e_all C W) in QE. injection QE as <- <-. auto. Qed.
  Lemma all_ne : raw_ne (st_raw s) = ne.
  Proof. unfold ne. rewrite (proj1 all_eq). apply raw_ne_eq. Qed.
  Lemma all_len : length ws = length es.
  Proof. rewrite (proj1 all_eq), (proj2 all_eq). unfold all_e, all_w. symmetry. apply concat_len. intros [g d]; unfold dkeys, dvals; rewrite !map_length; auto. Qed.
  Lemma all_sorted : Forall (StronglySorted Z.le) es.
  Proof.
    rewrite (proj1 all_eq). unfold all_e. apply Forall_concat, Forall_map, Forall_forall. intros [g d] I. destruct W as [O G]. apply In_dget in I; auto.
    destruct (G _ _ I) as [_ SD]. cbn. apply Forall_forall. intros x J. rewrite Forall_forall in SD. rewrite <- (SD x J). apply zsort_sorted.
  Qed.
  Hypothesis CL : hclean (st_raw s).
  Lemma all_clean : Forall (clean_edge nv) es.
  Proof.
    rewrite (proj1 all_eq), <- NV. unfold all_e. apply Forall_concat, Forall_map, Forall_forall. intros [g d] I. destruct W as [O G]. apply In_dget in I; auto.
    exact (CL _ I).
  Qed.
  Lemma inc_range v i : In (v, i) (inc_from 0 es) -> 0 <= v < nv /\ 0 <= i < ne.
  Proof.
    intros I. apply inc_from_In in I as [B I]. rewrite Z.sub_0_r in I. split; [|unfold ne; lia]. eapply clean_In; eauto using all_clean.
  Qed.
  Lemma inc_nodup : NoDup (inc_from 0 es).
  Proof. apply inc_from_nodup. eapply clean_nodup, all_clean. Qed.

  Definition ends (vu : bool) (v i : Z) : Z * Z := if vu then (v, i) else (i, v).
  Lemma swap_nodup (l : list (Z * Z)) : NoDup l -> NoDup (map swap_pair l).
  Proof. intros ND. apply FinFun.Injective_map_NoDup; auto. intros [a b] [c d] E. unfold swap_pair in E; cbn in E. congruence. Qed.
  Lemma b_of_hyper (vu wd : bool) : 0 < nv -> (vu = true -> 0 < ne) -> exists b l,
    b_from_hypergraph vu wd s = Ok b /\ b = mkSt (mkBRaw (if vu then nv else ne) (if vu then ne else nv) l) [] /\
    b_reach (if vu then nv else ne) (if vu then ne else nv) (Some (EMany (map fst l))) (if wd then WList (map snd l) else WNone) MMean [] b /\
    nonneg_new (Some (EMany (map fst l))) /\ NoDup (map fst l) /\
    forall v i w, In (ends vu v i, w) l <-> 0 <= i < ne /\ In v (nthe es i) /\ w = (if wd then nthw ws i else n1).
  Proof.
    intros P PE. unfold b_from_hypergraph. rewrite asks_e. cbn [rbind fst snd]. rewrite NV, all_ne. pose proof all_len as LN.
    set (el := if vu then inc_from 0 es else map swap_pair (inc_from 0 es)).
    set (wl := if wd then inc_weights es ws else map (fun _ => n1) el).
    set (l := combine el wl).
    assert (LW : length wl = length el).
    { unfold wl, el. destruct wd; [|rewrite map_length; auto]. rewrite (@inc_weights_len es ws 0) by auto. destruct vu; rewrite ?map_length; auto. }
    assert (L1 : map fst l = el) by (apply combine_keys; auto).
    assert (L2 : map snd l = wl) by (apply combine_snd; auto).
    assert (ND : NoDup el) by (unfold el; destruct vu; [apply inc_nodup|apply swap_nodup, inc_nodup]).
    assert (EO : ends_ok (if vu then nv else ne) (if vu then ne else nv) el = true).
    { apply forallb_forall. intros [a b] I. unfold el in I. destruct vu.
      - apply inc_range in I. cbn. apply andb_true_iff; split; apply Z.ltb_lt; lia.
      - apply in_map_iff in I as ([c d] & E & I). unfold swap_pair in E; cbn in E. injection E as <- <-. apply inc_range in I. cbn. apply andb_true_iff; split; apply Z.ltb_lt; lia. }
    assert (PV : 0 < (if vu then ne else nv)) by (destruct vu; auto).
    assert (BN : b_new (if vu then nv else ne) (if vu then ne else nv) (Some (EMany (map fst l))) (WList (map snd l)) MMean = Ok (mkSt (mkBRaw (if vu then nv else ne) (if vu then ne else nv) l) [])).
    { apply bnew_nodup; auto; [discriminate|rewrite L1; auto|rewrite L1; auto]. }
    rewrite L1, L2 in BN.
    assert (B : b_new (if vu then nv else ne) (if vu then ne else nv) (Some (EMany el)) (if wd then WList wl else WNone) MMean = Ok (mkSt (mkBRaw (if vu then nv else ne) (if vu then ne else nv) l) [])).
    { destruct wd.
      - exact BN.
      - replace l with (map (fun e => (e, @n1 T N)) el); [apply b_new_ones; auto; discriminate|]. unfold l, wl. clear. induction el; cbn; congruence. }
    exists (mkSt (mkBRaw (if vu then nv else ne) (if vu then ne else nv) l) []), l. split; [|split; [reflexivity|split; [|split; [|split]]]].
    - etransitivity; [|exact B]. unfold el, wl. destruct vu, wd; reflexivity.
    - rewrite L1, L2. eexists; split; [exact B|reflexivity].
    - rewrite L1. cbn. apply Forall_forall. intros [a b] I. unfold el in I. cbn in I. destruct vu.
      + apply inc_range in I. cbn. lia.
      + apply in_map_iff in I as ([c d] & E & I). unfold swap_pair in E; cbn in E. injection E as <- <-. apply inc_range in I. cbn. lia.
    - rewrite L1; auto.
    - intros v i w. unfold l, ends, el, wl.
      assert (SW : forall (a : list (Z * Z)) (b : list T), In ((i, v), w) (combine (map swap_pair a) b) <-> In ((v, i), w) (combine a b)).
      { clear. induction a as [|[x y] a IH]; intros [|c b]; cbn; try tauto. rewrite IH. unfold swap_pair; cbn. split; intros [E|E]; auto; left; congruence. }
      assert (M : In ((v, i), w) (combine (inc_from 0 es) (if wd then inc_weights es ws else map (fun _ => n1) (inc_from 0 es))) <->
                  0 <= i < ne /\ In v (nthe es i) /\ w = (if wd then nthw ws i else n1)).
      { destruct wd.
        - rewrite inc_weights_In by auto. rewrite Z.sub_0_r. fold ne. replace (0 + ne) with ne by lia. tauto.
        - rewrite combine_ones. unfold ones_at. rewrite in_map_iff. split.
          + intros ([a b] & E & I). injection E as -> -> <-. apply inc_from_In in I. rewrite Z.sub_0_r in I. unfold ne. intuition lia.
          + intros (I & J & ->). exists (v, i). split; auto. apply inc_from_In. rewrite Z.sub_0_r. unfold ne in I. split; auto; lia. }
      unfold el; destruct vu; [exact M|]. rewrite SW. rewrite <- M. destruct wd; [tauto|]. unfold el. cbv iota. rewrite map_map. tauto.
  Qed.
End FromHyper.

(** * star and clique expansion *)
Section Expand.
  Context {T : Type} `{N : Num T}.
  Variables (s : hypergraph T) (nv : Z) (es : list (list Z)) (ws : list T).
  Hypothesis C : coh (hspec None) s.
  Hypothesis W : hwf (st_raw s).
  Hypothesis NV : h_nv (st_raw s) = nv.
  Hypothesis CL : hclean (st_raw s).
  Hypothesis SC : scope None (st_raw s) = Some (es, ws).
  Hypothesis POS : 0 < nv.
  Let ne := Z.of_nat (length es).

  Lemma asks_H : exists Hm, hview None (st_raw s) es ws Hm /\ asks (get_H None) s = Ok Hm /\ asks (bind (get_H None) (fun _ => get_HT None)) s = Ok (ctrans Hm).
  Proof.
    destruct (hview_scope None W CL SC) as (Hm & V). exists Hm. split; auto.
    pose proof (hgood_query (fz := None) (hqH None) (or_introl eq_refl)) as G1. pose proof (hgood_query (fz := None) (hqHT None) (or_introl eq_refl)) as G2.
    pose proof (good_answer G1 C) as A1. pose proof (good_coh G1 C) as C1. pose proof (good_raw G1 C) as R1.
    cbn [h_query hp_query] in A1, C1, R1. rewrite (hv_H V) in A1. unfold oM, bind in A1, C1, R1. unfold asks, bind.
    destruct (get_H None s) as [s1 [m|x]]; cbn [snd fst ret] in A1, C1, R1; [|discriminate]. cbn in A1. injection A1 as ->.
    split; [reflexivity|]. cbn in C1, R1. pose proof (good_answer G2 C1) as A2. cbn [h_query hp_query] in A2. rewrite R1, (V_HT V) in A2. unfold oM, bind in A2.
    destruct (get_HT None s1) as [s2 [m|x]]; cbn in A2 |- *; [|discriminate]. congruence.
  Qed.
  Lemma ne_eq : raw_ne (st_raw s) = ne.
  Proof. cbn in SC. unfold ne. destruct (h_gr (st_raw s)); [discriminate|]. injection SC as <- <-. apply raw_ne_eq. Qed.

  Lemma star_ok wd m : m <> MOther -> exists g ges,
    g_star wd m s = Ok (g, map (fun _ => true) (range nv) ++ map (fun _ => false) (range ne)) /\
    g_reach (nv + ne) (Some (EMany ges)) (if wd then WList (map (fun _ => n1) ges) else WNone) false m [] g /\
    snd (g_query QE g) = Ok (OE ges (map (fun _ => n1) ges)) /\ NoDup ges /\
    forall a b, In (a, b) ges <-> exists i, b = nv + i /\ 0 <= i < ne /\ In a (nthe es i).
  Proof.
    intros K. destruct asks_H as (Hm & V & E & _). unfold g_star. rewrite E. cbn [rbind]. rewrite NV, ne_eq.
    set (ges := map (fun kv : (Z * Z) * T => (fst (fst kv), snd (fst kv) + nv)) Hm).
    assert (GE : ges = map (fun k => (fst k, snd k + nv)) (map fst Hm)) by (unfold ges; rewrite map_map; reflexivity).
    assert (VS : vals Hm = map (fun _ => n1) ges).
    { unfold ges, vals. rewrite map_map. apply map_ext_in. intros kv I. apply (Permutation_in _ (hv_perm V)) in I. unfold ones_at in I. apply in_map_iff in I as (k & <- & _). reflexivity. }
    assert (M : forall a b, In (a, b) ges <-> exists i, b = nv + i /\ 0 <= i < ne /\ In a (nthe es i)).
    { intros a b. rewrite GE, in_map_iff. split.
      - intros ([v i] & Q & I). cbn in Q. injection Q as <- <-. apply (V_keys V) in I as [B I]. exists i. split; [lia|]. auto.
      - intros (i & -> & B & I). exists (a, i). cbn. split; [f_equal; lia|]. apply (V_keys V). auto. }
    assert (ND : NoDup ges).
    { rewrite GE. apply FinFun.Injective_map_NoDup; [|exact (V_nodup V)]. intros [a b] [c d] Q. cbn in Q. injection Q as -> Q. f_equal. lia. }
    assert (F : Forall (fun e => fst e < snd e < nv + ne) ges).
    { apply Forall_forall. intros [a b] I. apply M in I as (i & -> & B & I). cbn. unfold ne in *. pose proof (clean_In _ (hv_clean V) B I). rewrite NV in *. lia. }
    assert (P : 0 < nv + ne) by (unfold ne; lia).
    rewrite VS. destruct wd.
    - destruct (@g_new_nodup _ _ (nv + ne) (combine ges (map (fun _ => n1) ges)) m P K) as (g & E1 & R1 & Q1);
        rewrite ?combine_keys, ?combine_snd in * by (rewrite map_length; auto); auto.
      exists g, ges. rewrite E1. cbn [rbind]. auto.
    - destruct (@g_new_ones _ _ (nv + ne) ges m P K ND F) as (g & E1 & R1 & Q1). exists g, ges. rewrite E1. cbn [rbind]. auto.
  Qed.

  Section Ring.
    Context (RT : ring_theory (@nz T N) n1 nadd nmul nsub nopp eq).
    Add Ring TRing12 : RT.
    (** number of hyperedges containing both *)
    Definition n_shared (u v : Z) : T := sumf es (fun e => if zmem u e && zmem v e then n1 else nz).
    Lemma spmm_HHT Hm u v : hview None (st_raw s) es ws Hm -> mget (spmm Hm (ctrans Hm)) u v = n_shared u v.
    Proof.
      intros V. rewrite (mget_spmm_dense RT (cs := range ne)); [|apply range_nodup|].
      - unfold n_shared. transitivity (sumf (range ne) (fun i => if zmem u (nthe es i) && zmem v (nthe es i) then n1 else nz)).
        + apply sumf_ext_in. intros i I. apply range_In in I. rewrite mget_ctrans, !(V_mget RT V). unfold ne in I.
          replace (0 <=? i) with true by (symmetry; apply Z.leb_le; lia). replace (i <? Z.of_nat (length es)) with true by (symmetry; apply Z.ltb_lt; lia).
          cbn [andb]. destruct (zmem u (nthe es i)), (zmem v (nthe es i)); cbn [andb]; ring.
        + unfold ne, range, nthe. rewrite Nat2Z.id, sumf_map. clear. induction es as [|e l IH]; cbn [length seq sumf]; auto. cbn [Z.of_nat Z.to_nat nth]. f_equal.
          rewrite <- IH, <- seq_shift, sumf_map. apply sumf_ext. intros i. rewrite !Nat2Z.id. replace (Z.to_nat (Z.of_nat (S i))) with (S i) by lia. reflexivity.
      - eapply boxed_cols, V_boxed; eauto.
    Qed.
    Lemma clique_ok wd miu : exists g ges gws,
      g_clique wd miu s = Ok g /\ g_reach nv (Some (EMany ges)) (if wd then WList gws else WNone) false (if wd then MSum else MMean) [] g /\
      snd (g_query QE g) = Ok (OE ges gws) /\ length gws = length ges /\ NoDup ges /\
      forall a b w, In ((a, b), w) (combine ges gws) <->
        a < b /\ (exists e, In e es /\ In a e /\ In b e) /\ w = (if wd then n_shared a b else n1).
    Proof.
      destruct asks_H as (Hm & V & E1 & E2). unfold g_clique. rewrite E1, E2. cbn [rbind]. rewrite NV.
      set (adj := cmap (nmul n1) (coalesce (spmm Hm (ctrans Hm)))). set (up := filter _ adj).
      assert (KA : forall a b, In (a, b) (map fst adj) <-> exists e, In e es /\ In a e /\ In b e).
      { intros a b. unfold adj. rewrite map_fst_cmap, coalesce_keys, spmm_In. split.
        - intros (i & I & J). apply (V_keys V) in I as [B I]. rewrite ctrans_In in J. apply (V_keys V) in J as [_ J]. exists (nthe es i). split; auto. apply nthe_In; auto.
        - intros (e & I & A & B). apply In_nth with (d := []) in I as (i & L & Q). exists (Z.of_nat i). rewrite ctrans_In, !(V_keys V).
          unfold nthe. rewrite Nat2Z.id, Q. split; split; auto; lia. }
      assert (NA : NoDup (map fst adj)) by (unfold adj; rewrite map_fst_cmap; apply coalesce_nodup).
      assert (VA : forall a b w, In ((a, b), w) adj -> w = n_shared a b).
      { intros a b w I. unfold adj, cmap in I. apply in_map_iff in I as ([k x] & Q & I). cbn in Q. injection Q as Q1 Q2. subst k w. 
        apply (mget_present RT) in I; [|apply coalesce_nodup]. rewrite (mget_coalesce RT), (spmm_HHT a b V) in I. rewrite <- I. ring. }
      assert (UP : forall a b w, In ((a, b), w) up <-> a < b /\ (exists e, In e es /\ In a e /\ In b e) /\ w = n_shared a b).
      { intros a b w. unfold up. rewrite filter_In. cbn [fst snd]. rewrite Z.ltb_lt. split.
        - intros [I L]. split; auto. split; [|eapply VA; eauto]. apply KA. apply in_map_iff. exists ((a, b), w); auto.
        - intros (L & X & ->). split; auto. apply KA in X. apply in_map_iff in X as ([k x] & Q & I). cbn in Q; subst k. rewrite <- (VA a b x I). exact I. }
      assert (NU : NoDup (map fst up)).
      { unfold up. clear - NA. induction adj as [|x l IH]; cbn; [constructor|]. inversion NA; subst. destruct (_ <? _); cbn; auto. constructor; auto.
        intros I. apply H1. apply in_map_iff in I as (y & Q & I). apply filter_In in I as [I _]. rewrite <- Q. apply in_map; auto. }
      assert (F : Forall (fun e => fst e < snd e < nv) (map fst up)).
      { apply Forall_forall. intros [a b] I. apply in_map_iff in I as ([k x] & Q & I). cbn in Q; subst k. apply UP in I as (L & (e & I & A & B) & _). cbn. split; auto.
        pose proof (hv_clean V) as FC. rewrite Forall_forall in FC. destruct (FC e I) as [_ FR]. rewrite Forall_forall in FR. specialize (FR b B). lia. }
      assert (CB : combine (map fst up) (map snd up) = up) by (clear; induction up as [|[a b] l IH]; cbn; congruence).
      destruct wd.
      - destruct (@g_new_nodup _ _ nv up MSum POS) as (g & E3 & R3 & Q3); auto; [discriminate|]. exists g, (map fst up), (map snd up).
        split; [exact E3|]. split; [exact R3|]. split; [exact Q3|]. split; [rewrite !map_length; auto|]. split; auto. intros a b w. rewrite CB. apply UP.
      - destruct (@g_new_ones _ _ nv (map fst up) MMean POS) as (g & E3 & R3 & Q3); auto; [discriminate|]. exists g, (map fst up), (map (fun _ => n1) (map fst up)).
        split; [exact E3|]. split; [exact R3|]. split; [exact Q3|]. split; [rewrite !map_length; auto|]. split; auto. intros a b w.
        rewrite combine_ones. unfold ones_at. rewrite in_map_iff. split.
        + intros ([x y] & Q & I). injection Q as -> -> <-. apply in_map_iff in I as ([k z] & Q & I). cbn in Q; subst k. apply UP in I. tauto.
        + intros (L & X & ->). exists (a, b). split; auto. apply in_map_iff. exists ((a, b), n_shared a b). split; auto. apply UP. auto.
    Qed.
  End Ring.
End Expand.
