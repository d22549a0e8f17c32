(** Property C180: edge weights that are Python integers. *)
From Coq Require Import Ring Permutation Reals Lra.
From Verif Require Import Num PyDict PyDictFacts Coo CooFacts RealFacts ModelBase CacheFacts ModelGraph SpecGraph StoreFacts
  GraphStore ModelDiGraph DiGraphFacts ModelMore.
Set Implicit Arguments.
Local Open Scope R_scope.
Local Open Scope Z_scope.

(** * The values do not depend on the type of the numbers *)
Lemma py_dget {K} `{EqB K} (k : K) (d : dict K pynum) : dget k (py_dict d) = option_map snd (dget k d).
Proof. induction d as [|[k' v] d IH]; cbn; auto. destruct (eqb k k'); auto. Qed.
Lemma py_dset {K} `{EqB K} (k : K) v (d : dict K pynum) : py_dict (dset k v d) = dset k (snd v) (py_dict d).
Proof. induction d as [|[k' v'] d IH]; cbn; auto. destruct (eqb k k'); cbn; [reflexivity|]. f_equal. exact IH. Qed.
Lemma merge_snd m f f' : @merge_fun pynum _ m = Some f -> @merge_fun R _ m = Some f' -> forall x y, snd (f x y) = f' (snd x) (snd y).
Proof.
  destruct m; cbn; intros E E'; try discriminate; injection E as <-; injection E' as <-; intros x y; cbn; auto.
  unfold Rmax. destruct (Rlt_dec (snd x) (snd y)), (Rle_dec (snd x) (snd y)); cbn; lra.
Qed.
Lemma py_dmerge {K} `{EqB K} (f : pynum -> pynum -> pynum) f' (k : K) (w : pynum) (d : dict K pynum) : (forall x y, snd (f x y) = f' (snd x) (snd y)) ->
  py_dict (dmerge f k w d) = dmerge f' k (snd w) (py_dict d).
Proof.
  intros E. unfold dmerge. rewrite py_dget. destruct (dget k d); cbn [option_map].
  all: rewrite py_dset, ?E; reflexivity.
Qed.

Section Int.
  Variable norm : Z * Z -> Z * Z.
  Variable same : Z -> Z -> Z -> Z -> bool.
  Hypothesis norm_idem : forall p, norm (norm p) = norm p.
  Hypothesis norm_diag : forall a, norm (a, a) = (a, a).
  Hypothesis norm_off : forall a b, a <> b -> fst (norm (a, b)) <> snd (norm (a, b)).
  Hypothesis norm_same : forall a b x y, same a b x y = true <-> norm (a, b) = norm (x, y).

  Definition fold_raw {T} (f : T -> T -> T) (ps : list ((Z * Z) * T)) (r : raw T) : raw T :=
    fold_left (fun r x => add_edge_raw f (fst (norm (fst x))) (snd (norm (fst x))) (snd x) r) ps r.
  Definition to_float (ps : list ((Z * Z) * pynum)) : list ((Z * Z) * R) := map (fun p => (fst p, snd (snd p))) ps.
  Lemma py_fold (f : pynum -> pynum -> pynum) f' ps r : (forall x y, snd (f x y) = f' (snd x) (snd y)) ->
    st_raw (py_float (fold_raw f ps r)) = fold_raw f' (to_float ps) (st_raw (py_float r)).
  Proof.
    intros E. unfold fold_raw. revert r. induction ps as [|[p w] ps IH]; intros r; cbn [fold_left to_float map fst snd]; auto.
    rewrite IH. f_equal. unfold add_edge_raw. cbn [r_nv r_e r_loop r_extra py_float st_raw].
    destruct (fst (norm p) =? snd (norm p)); cbn [r_nv r_e r_loop r_extra]; f_equal; apply py_dmerge; exact E.
  Qed.
  Lemma add_many {T} {N : Num T} (l : list (Z * Z)) ws m f (r : raw T) : l <> [] -> forallb (below (r_nv r)) l = true -> merge_fun m = Some f ->
    add_edges norm (EMany l) (WList ws) m (mkSt r []) = (mkSt (fold_raw f (combine l ws) r) [], Ok tt).
  Proof.
    intros NE B MF. unfold add_edges. destruct l as [|p l]; [congruence|]. cbn [earg_empty].
    unfold bind at 1, lift, format_edges. cbn [st_raw]. rewrite B. cbn [fst snd].
    destruct (@for_each_add T N norm m f (combine (p :: l) ws) (mkSt r []) MF) as [c F]. unfold bind. rewrite F. reflexivity.
  Qed.

  (** * The types *)
  Let tags (g : wmap pynum) : Prop := forall c d v, g c d = Some v -> fst v = true.
  Let resp (g : wmap pynum) : Prop := forall a b c d, same a b c d = true -> g a b = g c d.
  Let apart (p q : Z * Z) : Prop := same (fst p) (snd p) (fst q) (snd q) = false.
  Lemma same_refl a b : same a b a b = true. Proof. apply norm_same. reflexivity. Qed.
  Lemma fold_keep m (ps : list ((Z * Z) * pynum)) g : m <> MMean -> Forall (fun p => fst (snd p) = true) ps -> tags g ->
    tags (fold_left (fun g x => a_add same m x g) ps g).
  Proof.
    intros NM F. revert g. induction F as [|[p w] ps W F IH]; intros g G; cbn [fold_left]; auto. apply IH. intros c d v. unfold a_add. cbn [fst snd] in *.
    destruct (same (fst p) (snd p) c d); [|apply G]. destruct (g c d) as [old|] eqn:E; intros Q; injection Q as <-; auto.
    specialize (G _ _ _ E). destruct m; cbn; try congruence; auto.
    - destruct (Rlt_dec (snd old) (snd w)); auto.
    - rewrite G, W. reflexivity.
  Qed.
  Lemma fold_mean (ps : list ((Z * Z) * pynum)) g : Forall (fun p => fst (snd p) = true) ps -> resp g ->
    (tags (fold_left (fun g x => a_add same MMean x g) ps g) <->
     tags g /\ ForallOrdPairs apart (map fst ps) /\ Forall (fun p => g (fst p) (snd p) = None) (map fst ps)).
  Proof.
    intros F. revert g. induction F as [|[[a b] w] ps W F IH]; intros g RG; cbn [fold_left map].
    { split; [intros G; repeat split; [exact G|constructor|constructor]|tauto]. }
    cbn [fst snd] in *. rewrite IH.
    - assert (FO : ForallOrdPairs apart ((a, b) :: map fst ps) <-> Forall (apart (a, b)) (map fst ps) /\ ForallOrdPairs apart (map fst ps)).
      { split; [intros Q; inversion Q; auto|intros []; constructor; auto]. }
      rewrite FO. clear FO IH.
      assert (A : tags (a_add same MMean (a, b, w) g) <-> tags g /\ g a b = None).
      { split.
        - intros G. assert (N0 : g a b = None).
          { destruct (g a b) as [old|] eqn:E; auto. specialize (G a b). unfold a_add in G. cbn [fst snd] in G. rewrite same_refl, E in G.
            specialize (G _ eq_refl). cbn in G. discriminate. }
          split; auto. intros c d v E. apply (G c d). unfold a_add. cbn [fst snd]. destruct (same a b c d) eqn:S; auto.
          rewrite (RG a b c d S) in N0. congruence.
        - intros [G N0] c d v. unfold a_add. cbn [fst snd]. destruct (same a b c d) eqn:S; [|apply G].
          rewrite <- (RG a b c d S), N0. intros Q. injection Q as <-. exact W. }
      assert (B : Forall (fun p => a_add same MMean (a, b, w) g (fst p) (snd p) = None) (map fst ps) <->
                  Forall (apart (a, b)) (map fst ps) /\ Forall (fun p => g (fst p) (snd p) = None) (map fst ps)).
      { rewrite !Forall_forall. unfold a_add, apart. cbn [fst snd]. split.
        - intros Q. split; intros p I; specialize (Q p I); cbn beta in Q; destruct (same a b (fst p) (snd p)), (g (fst p) (snd p)); congruence.
        - intros [Q1 Q2] p I. rewrite (Q1 p I). apply Q2. exact I. }
      rewrite A, B. split.
      + intros ((G & N0) & FP & FA & FG). repeat split; auto.
      + intros (G & (FA & FP) & FG). inversion FG; subst. repeat split; auto.
    - intros x y c d S. unfold a_add. cbn [fst snd].
      assert (E : same a b x y = same a b c d).
      { apply norm_same in S. destruct (same a b x y) eqn:E1, (same a b c d) eqn:E2; auto; exfalso.
        - apply norm_same in E1. assert (same a b c d = true) by (apply norm_same; congruence). congruence.
        - apply norm_same in E2. assert (same a b x y = true) by (apply norm_same; congruence). congruence. }
      rewrite E, (RG x y c d S). reflexivity.
  Qed.
  Lemma tags_core (r : raw pynum) : wf norm r ->
    (forallb fst (dvals (r_e r) ++ dvals (r_loop r)) = true <-> tags (lookup norm r)).
  Proof.
    intros W. rewrite forallb_forall. split.
    - intros Q a b v E. apply Q. unfold lookup in E. apply in_app_iff.
      destruct (a =? b); apply dget_In in E; [right|left]; unfold dvals; apply in_map_iff; eexists; split; [|exact E| |exact E]; reflexivity.
    - intros G v I. unfold dvals in I. assert (J : exists k, In (k, v) (core r)).
      { unfold core. apply in_app_iff in I as [I|I]; apply in_map_iff in I as ([k x] & <- & I).
        - exists k. apply in_app_iff. left. exact I.
        - exists (k, k). apply in_app_iff. right. apply in_map_iff. exists (k, x). auto. }
      destruct J as ([a b] & J). apply (core_In norm_diag a b v W) in J as [_ J]. exact (G a b v J).
  Qed.

  (** [bad m l]: every pair of [l] gets a weight that is an int *)
  Definition bad (m : mop) (l : list (Z * Z)) : Prop := l <> [] /\ (m = MMean -> ForallOrdPairs apart l).
  Let r0 nv ex : raw pynum := mkRaw nv [] [] ex.
  Lemma fold_frame {T} {N : Num T} (f : T -> T -> T) ps (r : raw T) : r_nv (fold_raw f ps r) = r_nv r /\ r_extra (fold_raw f ps r) = r_extra r.
  Proof.
    unfold fold_raw. revert r. induction ps as [|p ps IH]; intros r; cbn [fold_left]; auto. rewrite !(proj1 (IH _)), !(proj2 (IH _)).
    unfold add_edge_raw. destruct (_ =? _); auto.
  Qed.
  Lemma core_all m (f : pynum -> pynum -> pynum) (ps : list ((Z * Z) * pynum)) nv ex : merge_fun m = Some f -> Forall (fun p => fst (snd p) = true) ps ->
    (forallb fst (dvals (r_e (fold_raw f ps (r0 nv ex))) ++ dvals (r_loop (fold_raw f ps (r0 nv ex)))) = true <->
     (m = MMean -> ForallOrdPairs apart (map fst ps))).
  Proof.
    intros MF F.
    destruct (@fold_add_rel pynum _ norm same norm_idem norm_diag norm_off norm_same m f ps (r0 nv ex) empty_map MF) as (W & L & _).
    { apply (@rel_empty pynum norm nv ex). }
    { intros a b. apply (@rel_empty pynum norm nv ex). }
    fold (fold_raw f ps (r0 nv ex)) in W, L. rewrite (tags_core W).
    assert (E : tags (lookup norm (fold_raw f ps (r0 nv ex))) <-> tags (fold_left (fun g x => a_add same m x g) ps empty_map)).
    { unfold tags. split; intros Q c d v; [rewrite <- L|rewrite L]; apply Q. }
    rewrite E. clear E. assert (RE : resp empty_map) by (intros a b c d _; reflexivity).
    assert (TE : tags empty_map) by (intros c d v Q; discriminate).
    destruct m; try discriminate; [|split; [intros _ Q; discriminate|intros _; apply fold_keep; auto; discriminate] ..].
    rewrite (fold_mean F RE). split; [intros (_ & Q & _) _; exact Q|]. intros Q. repeat split; auto. rewrite Forall_forall. reflexivity.
  Qed.
  Lemma dmerge_ne {T} {N : Num T} {K} `{EqB K} (f : T -> T -> T) (k : K) w d : dmerge f k w d <> [].
  Proof. unfold dmerge. destruct (dget k d); destruct d as [|[k' v'] d]; cbn; try discriminate; destruct (eqb k k'); discriminate. Qed.
  Lemma fold_ne {T} {N : Num T} (f : T -> T -> T) ps (r : raw T) :
    r_e (fold_raw f ps r) = [] -> r_loop (fold_raw f ps r) = [] -> ps = [] /\ r_e r = [] /\ r_loop r = [].
  Proof.
    unfold fold_raw. revert r. induction ps as [|p ps IH]; intros r E1 E2; cbn [fold_left] in *; auto.
    destruct (IH _ E1 E2) as (_ & Q1 & Q2). exfalso. unfold add_edge_raw in Q1, Q2. destruct (_ =? _); cbn [r_e r_loop] in Q1, Q2; [exact (dmerge_ne _ _ _ _ Q2)|exact (dmerge_ne _ _ _ _ Q1)].
  Qed.
  Lemma num_e_zero (r : raw pynum) : r_extra r = false -> ((raw_num_e r =? 0) = true <-> r_e r = [] /\ r_loop r = []).
  Proof.
    intros X. unfold raw_num_e. rewrite X, Z.eqb_eq. split; [|intros [-> ->]; reflexivity].
    intros Q. destruct (r_e r), (r_loop r); cbn [length] in Q; auto; lia.
  Qed.
  Lemma int_dA_iff m (f : pynum -> pynum -> pynum) (ps : list ((Z * Z) * pynum)) nv ex : 0 < nv -> merge_fun m = Some f -> Forall (fun p => fst (snd p) = true) ps ->
    (int_dA (fold_raw f ps (r0 nv ex)) = true <-> ex = false /\ bad m (map fst ps)) /\
    int_A (fold_raw f ps (r0 nv ex)) = int_dA (fold_raw f ps (r0 nv ex)).
  Proof.
    intros NV MF F. pose proof (@core_all m f ps nv ex MF F) as CA. destruct (fold_frame f ps (r0 nv ex)) as [FN FX].
    set (r := fold_raw f ps (r0 nv ex)) in *. cbn in FN, FX. unfold int_A, int_dA, raw_edges. cbn [snd]. split.
    - destruct ex.
      + rewrite FX, FN. split; [|intros [Q _]; discriminate]. rewrite andb_true_iff, !forallb_app, !andb_true_iff. intros (_ & _ & _ & Q).
        assert (I : In 0 (range nv)) by (apply range_In; lia). rewrite forallb_forall in Q.
        specialize (Q (n1 : pynum)). cbn in Q. discriminate Q. apply in_map_iff. exists 0. auto.
      + rewrite FX, app_nil_r. rewrite andb_true_iff, CA, negb_true_iff. unfold bad.
        assert (Z0 : (raw_num_e r =? 0) = false <-> map fst ps <> []).
        { rewrite <- not_true_iff_false, (num_e_zero r FX). split.
          - intros Q E. apply Q. assert (ps = []) as E0 by (destruct ps; [reflexivity|discriminate]). unfold r. rewrite E0. auto.
          - intros Q [E1 E2]. destruct (@fold_ne _ _ f ps _ E1 E2) as (-> & _). apply Q. reflexivity. }
        rewrite Z0. tauto.
    - f_equal. rewrite !forallb_app. match goal with |- (?x && ?y && ?z)%bool = ?t =>
        change z with x; change t with (x && y)%bool; destruct x, y; reflexivity end.
  Qed.
  (** without the self-loops *)
  Let noloop (p : Z * Z) : bool := negb (fst p =? snd p).
  Lemma norm_loop p : (fst (norm p) =? snd (norm p)) = (fst p =? snd p).
  Proof.
    destruct p as [a b]. cbn [fst snd]. destruct (Z.eqb_spec a b) as [<-|D]; [rewrite norm_diag; apply Z.eqb_refl|]. apply Z.eqb_neq. apply norm_off. exact D.
  Qed.
  Lemma fold_noloop (f : pynum -> pynum -> pynum) ps (r r' : raw pynum) : r_e r = r_e r' -> r_nv r = r_nv r' ->
    mkRaw (r_nv (fold_raw f ps r)) (r_e (fold_raw f ps r)) (r_loop r') (r_extra r') = fold_raw f (filter (fun p => noloop (fst p)) ps) r'.
  Proof.
    unfold fold_raw. revert r r'. induction ps as [|[p w] ps IH]; intros r r' E1 E2; cbn [fold_left filter fst snd].
    { rewrite E1, E2. destruct r'; reflexivity. }
    unfold noloop at 1. rewrite <- norm_loop. unfold add_edge_raw at 2 4. destruct (fst (norm p) =? snd (norm p)) eqn:L; cbn [negb].
    - apply IH; auto.
    - cbn [fold_left fst snd].
      match goal with |- _ = fold_left ?g ?xs (add_edge_raw ?h ?a ?b ?c ?d) =>
        replace (add_edge_raw h a b c d) with (mkRaw (r_nv r') (dmerge f (fst (norm p), snd (norm p)) w (r_e r')) (r_loop r') (r_extra r'))
          by (unfold add_edge_raw; rewrite L; reflexivity) end.
      exact (IH (mkRaw (r_nv r) (dmerge f (fst (norm p), snd (norm p)) w (r_e r)) (r_loop r) (r_extra r))
                (mkRaw (r_nv r') (dmerge f (fst (norm p), snd (norm p)) w (r_e r')) (r_loop r') (r_extra r'))
                (f_equal (dmerge f (fst (norm p), snd (norm p)) w) E1) E2).
  Qed.
  Lemma int_noloop m (f : pynum -> pynum -> pynum) (ps : list ((Z * Z) * pynum)) nv ex : 0 < nv -> merge_fun m = Some f -> Forall (fun p => fst (snd p) = true) ps ->
    let r := fold_raw f ps (r0 nv ex) in
    int_A (mkRaw (r_nv r) (r_e r) [] false) = true <-> bad m (filter noloop (map fst ps)).
  Proof.
    intros NV MF F r. pose proof (@fold_noloop f ps (r0 nv ex) (r0 nv false) eq_refl eq_refl) as E. cbn in E. fold r in E. rewrite E.
    assert (F' : Forall (fun p => fst (snd p) = true) (filter (fun p => noloop (fst p)) ps)).
    { rewrite Forall_forall in *. intros x I. apply filter_In in I as [I _]. auto. }
    destruct (@int_dA_iff m f _ nv false NV MF F') as [Q1 Q2]. rewrite Q2, Q1.
    assert (EM : map fst (filter (fun p : Z * Z * pynum => noloop (fst p)) ps) = filter noloop (map fst ps)).
    { clear. induction ps as [|p ps IH]; cbn; auto. destruct (noloop (fst p)); cbn; congruence. }
    rewrite EM. tauto.
  Qed.
End Int.

(** [ints ps]: the edges of [ps] with Python integers as weights; [floats ps]: the same numbers as floats *)
Definition ints (ps : list ((Z * Z) * Z)) : list pynum := map (fun p => (true, IZR (snd p))) ps.
Definition floats (ps : list ((Z * Z) * Z)) : list R := map (fun p => IZR (snd p)) ps.
Lemma combine_map2 {A B C} (f : A -> B) (g : A -> C) l : combine (map f l) (map g l) = map (fun x => (f x, g x)) l.
Proof. induction l; cbn; congruence. Qed.
(** two written pairs are different edges *)
Definition apart_und (p q : Z * Z) : Prop := p <> q /\ p <> (snd q, fst q).
Definition all_int (apart : Z * Z -> Z * Z -> Prop) (m : mop) (l : list (Z * Z)) : Prop := l <> [] /\ (m = MMean -> ForallOrdPairs apart l).
Definition loopless (l : list (Z * Z)) : list (Z * Z) := filter (fun p => negb (fst p =? snd p)) l.
Lemma fop_iff {A} (P Q : A -> A -> Prop) l : (forall x y, P x y <-> Q x y) -> (ForallOrdPairs P l <-> ForallOrdPairs Q l).
Proof.
  intros E. split; intros F; induction F as [|x l A0 F IH]; constructor; auto; rewrite Forall_forall in *; intros y I; apply E; auto.
Qed.
Lemma bad_und m l : bad same_undirected m l <-> all_int apart_und m l.
Proof.
  unfold bad, all_int. rewrite (@fop_iff _ _ apart_und); [tauto|]. intros [a b] [c d]. unfold apart_und, same_undirected. cbn [fst snd].
  rewrite orb_false_iff, !andb_false_iff, !Z.eqb_neq. split.
  - intros [P Q]. split; intros E; injection E as -> ->; intuition.
  - intros [P Q]. split; [destruct (Z.eq_dec a c); [right|left]|destruct (Z.eq_dec a d); [right|left]]; auto; intros E; subst; auto.
Qed.
Lemma bad_dir m l : bad same_directed m l <-> all_int (fun p q => p <> q) m l.
Proof.
  unfold bad, all_int. rewrite (@fop_iff _ _ (fun p q => p <> q)); [tauto|]. intros [a b] [c d]. unfold same_directed. cbn [fst snd].
  rewrite andb_false_iff, !Z.eqb_neq. split.
  - intros P E. injection E as -> ->. intuition.
  - intros P. destruct (Z.eq_dec a c); [right|left]; auto. intros E; subst; auto.
Qed.
Lemma no_int_iff {A} (b : bool) (x y : res A) (P : Prop) : (b = true <-> P) -> x = y ->
  (P -> no_int b x = Err RuntimeError) /\ (~ P -> no_int b x = y).
Proof. intros E <-. unfold no_int. destruct b; split; intros Q; auto; [exfalso; tauto|exfalso; apply E in Q; discriminate]. Qed.

(** Graph(nv, l, w, extra, m) where the weights are Python integers, against the same graph with the weights written as floats: D_v,
    D_v_neg_1_2, L and L_GCN are the same; D_v_neg_1 and v2v raise RuntimeError exactly if there is an edge, there are no extra self-loops and, when
    the weights are merged by "mean", no two pairs of [l] denote the same edge; L_sym and L_rw likewise, with the self-loops left out of [l]. *)
Theorem C180_graph_actual : forall nv ps ex m, 0 < nv -> m <> MOther -> ps <> [] ->
  let l := map fst ps in Forall (fun p => fst p < nv /\ snd p < nv) l ->
  exists (s : graph pynum) (sf : graph R),
    g_new nv (Some (EMany l)) (WList (ints ps)) ex m = Ok s /\ g_new nv (Some (EMany l)) (WList (floats ps)) ex m = Ok sf /\
    let r := st_raw s in
    py_D r = snd (get_D sf) /\ py_D12 r = snd (get_D12 sf) /\ py_L r = snd (get_L sf) /\ py_Lgcn r = snd (get_Lgcn sf) /\
    let P := ex = false /\ all_int apart_und m l in
    ((P -> py_D1 r = Err RuntimeError) /\ (~ P -> py_D1 r = snd (get_D1 sf))) /\
    (forall X mean, (P -> py_v2v X mean r = Err RuntimeError) /\
       (~ P -> py_v2v X mean r = snd (g_v2v X (if mean then AggrMean else AggrSum) None None sf))) /\
    let P0 := all_int apart_und m (loopless l) in
    ((P0 -> py_Lsym r = Err RuntimeError) /\ (~ P0 -> py_Lsym r = snd (get_Lsym sf))) /\
    ((P0 -> py_Lrw r = Err RuntimeError) /\ (~ P0 -> py_Lrw r = snd (get_Lrw sf))).
Proof.
  intros nv ps ex m NV NM NE l B.
  assert (NL : l <> []) by (unfold l; destruct ps; [congruence|discriminate]).
  assert (BL : forallb (below nv) l = true).
  { apply forallb_forall. intros p I. rewrite Forall_forall in B. destruct (B p I). unfold below. rewrite andb_true_iff, !Z.ltb_lt. auto. }
  assert (MF : exists f, @merge_fun pynum _ m = Some f) by (destruct m; try congruence; eexists; reflexivity). destruct MF as [f MF].
  assert (MF' : exists f, @merge_fun R _ m = Some f) by (destruct m; try congruence; eexists; reflexivity). destruct MF' as [f' MF'].
  pose proof (@merge_snd m f f' MF MF') as MS.
  set (pi := combine l (ints ps)). assert (MP : map fst pi = l) by (unfold pi, l, ints; rewrite combine_map2, map_map; reflexivity).
  assert (FI : Forall (fun p : Z * Z * pynum => fst (snd p) = true) pi).
  { unfold pi, l, ints. rewrite combine_map2. apply Forall_forall. intros x I. apply in_map_iff in I as (y & <- & _). reflexivity. }
  assert (TF : to_float pi = combine l (floats ps)) by (unfold pi, to_float, l, ints, floats; rewrite !combine_map2, map_map; reflexivity).
  set (r := fold_raw norm_und f pi (mkRaw nv [] [] ex)).
  exists (mkSt r []), (py_float r). split; [|split].
  - unfold g_new, g_add_edges. replace (0 <? nv) with true by (symmetry; apply Z.ltb_lt; exact NV). rewrite (@add_many norm_und _ _ l _ m f (mkRaw nv [] [] ex) NL BL MF). reflexivity.
  - unfold g_new, g_add_edges. replace (0 <? nv) with true by (symmetry; apply Z.ltb_lt; exact NV). rewrite (@add_many norm_und _ _ l _ m f' (mkRaw nv [] [] ex) NL BL MF').
    f_equal. unfold py_float at 1. f_equal. pose proof (@py_fold norm_und f f' pi (mkRaw nv [] [] ex) MS) as E. rewrite TF in E. cbn in E. symmetry. exact E.
  - cbn zeta. cbn [st_raw].
    destruct (@int_dA_iff norm_und same_undirected und_idem und_diag und_off und_same m f pi nv ex NV MF FI) as [I1 I2].
    pose proof (@int_noloop norm_und same_undirected und_idem und_diag und_off und_same m f pi nv ex NV MF FI) as I3. cbn zeta in I3.
    fold r in I1, I2, I3. rewrite MP, bad_und in I1. rewrite MP, bad_und in I3. rewrite <- I2 in I1.
    assert (I4 : int_A (st_raw (fst (set_extra true (mkSt r [])))) = false).
    { unfold int_A, raw_edges. cbn [st_raw fst snd set_extra r_extra r_nv r_e r_loop]. destruct (fold_frame norm_und f pi (mkRaw nv [] [] ex)) as [FN _].
      fold r in FN. cbn in FN. rewrite FN. apply not_true_iff_false. rewrite andb_true_iff, forallb_forall. intros [_ Q].
      assert (J : fst (n1 : pynum) = true); [|discriminate J]. apply Q.
      apply in_app_iff. left. apply in_app_iff. right. apply in_app_iff. right. apply in_map_iff. exists 0. split; auto. apply range_In; lia. }
    split; [reflexivity|]. split; [reflexivity|]. split; [reflexivity|]. split; [unfold py_Lgcn, no_int; rewrite I4; reflexivity|].
    split; [apply no_int_iff; [exact I1|reflexivity]|].
    split; [intros X mean; apply no_int_iff; [exact I1|reflexivity]|].
    split; apply no_int_iff; try reflexivity; exact I3.
Qed.
(** DiGraph: the reciprocals of the degrees and v2v *)
Theorem C180_digraph_actual : forall nv ps ex m, 0 < nv -> m <> MOther -> ps <> [] ->
  let l := map fst ps in Forall (fun p => fst p < nv /\ snd p < nv) l ->
  exists (s : digraph pynum) (sf : digraph R),
    d_new nv (Some (EMany l)) (WList (ints ps)) ex m = Ok s /\ d_new nv (Some (EMany l)) (WList (floats ps)) ex m = Ok sf /\
    let r := st_raw s in let P := ex = false /\ all_int (fun p q => p <> q) m l in
    (forall into : bool, (P -> py_dD1 into r = Err RuntimeError) /\ (~ P -> py_dD1 into r = snd ((if into then dget_Din1 else dget_Dout1) sf))) /\
    (forall X mean s2d, (P -> py_dv2v X mean s2d r = Err RuntimeError) /\
       (~ P -> py_dv2v X mean s2d r = snd (d_v2v X (if mean then AggrMean else AggrSum) None (Some s2d) None sf))).
Proof.
  intros nv ps ex m NV NM NE l B.
  assert (NL : l <> []) by (unfold l; destruct ps; [congruence|discriminate]).
  assert (BL : forallb (below nv) l = true).
  { apply forallb_forall. intros p I. rewrite Forall_forall in B. destruct (B p I). unfold below. rewrite andb_true_iff, !Z.ltb_lt. auto. }
  assert (MF : exists f, @merge_fun pynum _ m = Some f) by (destruct m; try congruence; eexists; reflexivity). destruct MF as [f MF].
  assert (MF' : exists f, @merge_fun R _ m = Some f) by (destruct m; try congruence; eexists; reflexivity). destruct MF' as [f' MF'].
  pose proof (@merge_snd m f f' MF MF') as MS.
  set (pi := combine l (ints ps)). assert (MP : map fst pi = l) by (unfold pi, l, ints; rewrite combine_map2, map_map; reflexivity).
  assert (FI : Forall (fun p : Z * Z * pynum => fst (snd p) = true) pi).
  { unfold pi, l, ints. rewrite combine_map2. apply Forall_forall. intros x I. apply in_map_iff in I as (y & <- & _). reflexivity. }
  assert (TF : to_float pi = combine l (floats ps)) by (unfold pi, to_float, l, ints, floats; rewrite !combine_map2, map_map; reflexivity).
  set (r := fold_raw norm_dir f pi (mkRaw nv [] [] ex)).
  exists (mkSt r []), (py_float r). split; [|split].
  - unfold d_new, d_add_edges. replace (0 <? nv) with true by (symmetry; apply Z.ltb_lt; exact NV). rewrite (@add_many norm_dir _ _ l _ m f (mkRaw nv [] [] ex) NL BL MF). reflexivity.
  - unfold d_new, d_add_edges. replace (0 <? nv) with true by (symmetry; apply Z.ltb_lt; exact NV). rewrite (@add_many norm_dir _ _ l _ m f' (mkRaw nv [] [] ex) NL BL MF').
    f_equal. unfold py_float at 1. f_equal. pose proof (@py_fold norm_dir f f' pi (mkRaw nv [] [] ex) MS) as E. rewrite TF in E. cbn in E. symmetry. exact E.
  - cbn zeta. cbn [st_raw].
    destruct (@int_dA_iff norm_dir same_directed dir_idem dir_diag dir_off dir_same m f pi nv ex NV MF FI) as [I1 _].
    fold r in I1. rewrite MP, bad_dir in I1.
    split; [intros into; apply no_int_iff; [exact I1|reflexivity]|intros X mean s2d; apply no_int_iff; [exact I1|reflexivity]].
Qed.
(** Graph(2, [(0, 1)], [2]): the weight 2 instead of 2.0 makes D_v_neg_1 raise; with the same edge written twice it does not *)
Example C180_case : (all_int apart_und MMean [(0, 1)] /\ all_int apart_und MSum [(0, 1); (1, 0)]) /\ ~ all_int apart_und MMean [(0, 1); (1, 0)].
Proof.
  split; [split; (split; [discriminate|]); [intros _; repeat constructor|discriminate]|].
  intros [_ Q]. specialize (Q eq_refl). inversion Q as [|? ? F]; subst. inversion F as [|? ? A]; subst. destruct A as [_ A]. apply A. reflexivity.
Qed.
