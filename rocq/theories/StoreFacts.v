(** The dict-based edge store of BaseGraph refines the abstract edge map, for any
    key normalisation. *)
From Coq Require Import Permutation.
From Verif Require Import Num PyDict PyDictFacts Coo CooFacts ModelBase SpecGraph.
Set Implicit Arguments.

Section Store.
  Context {T : Type} `{Num T}.
  Variable norm : Z * Z -> Z * Z.
  Variable same : Z -> Z -> Z -> Z -> bool.
  Hypothesis norm_idem : forall p, norm (norm p) = norm p.
  Hypothesis norm_diag : forall a, norm (a, a) = (a, a).
  Hypothesis norm_off : forall a b, a <> b -> fst (norm (a, b)) <> snd (norm (a, b)).
  Hypothesis norm_same : forall a b x y, same a b x y = true <-> norm (a, b) = norm (x, y).

  Definition lookup (r : raw T) (a b : Z) : option T :=
    if a =? b then dget a (r_loop r) else dget (norm (a, b)) (r_e r).

  Record wf (r : raw T) : Prop := {
    wf_e : dict_ok (r_e r);
    wf_l : dict_ok (r_loop r);
    wf_k : forall k, In k (dkeys (r_e r)) -> norm k = k /\ fst k <> snd k
  }.
  Definition rel (r : raw T) (g : agraph T) : Prop :=
    wf r /\ (forall a b, lookup r a b = aw g a b) /\ r_extra r = ax g.

  Lemma norm_eq_diag a x y : norm (a, a) = norm (x, y) -> x = a /\ y = a.
  Proof.
    rewrite norm_diag. intros E. destruct (Z.eq_dec x y) as [->|N].
    - rewrite norm_diag in E. injection E; auto.
    - pose proof (norm_off N) as O. rewrite <- E in O. cbn in O. congruence.
  Qed.

  Lemma dget_dmerge {K} `{EqB K} f (k : K) (w : T) d k' :
    dget k' (dmerge f k w d) =
    if eqb k k' then Some (match dget k d with Some o => f o w | None => w end) else dget k' d.
  Proof.
    unfold dmerge. destruct (eqb_spec k k') as [->|N].
    - destruct (dget k' d); rewrite dget_dset_same; reflexivity.
    - destruct (dget k d); rewrite dget_dset_other by congruence; reflexivity.
  Qed.
  Lemma dmerge_ok {K} `{EqB K} f (k : K) (w : T) d : dict_ok d -> dict_ok (dmerge f k w d).
  Proof. intros; unfold dmerge; destruct (dget k d); apply dset_ok; auto. Qed.
  Lemma dmerge_keys {K} `{EqB K} f (k : K) (w : T) d x :
    In x (dkeys (dmerge f k w d)) <-> x = k \/ In x (dkeys d).
  Proof. unfold dmerge; destruct (dget k d); apply dset_keys_in. Qed.

  Lemma add_edge_lookup f a b w r x y : wf r ->
    lookup (add_edge_raw f (fst (norm (a, b))) (snd (norm (a, b))) w r) x y =
    if same a b x y
    then Some (match lookup r x y with Some o => f o w | None => w end) else lookup r x y.
  Proof.
    intros W. unfold lookup, add_edge_raw.
    destruct (Z.eq_dec a b) as [<-|N].
    - rewrite norm_diag; cbn. rewrite Z.eqb_refl; cbn.
      destruct (same a a x y) eqn:E.
      + apply norm_same in E. apply norm_eq_diag in E as [-> ->].
        rewrite Z.eqb_refl, dget_dmerge, eqb_refl; reflexivity.
      + destruct (Z.eqb_spec x y) as [<-|N]; [|reflexivity].
        rewrite dget_dmerge. destruct (eqb_spec a x) as [->|N]; [|reflexivity].
        assert (X : same x x x x = true) by (apply norm_same; reflexivity). congruence.
    - pose proof (norm_off N) as O. apply Z.eqb_neq in O. rewrite O. cbn.
      rewrite <- surjective_pairing.
      destruct (Z.eqb_spec x y) as [<-|N'].
      + destruct (same a b x x) eqn:E; [|reflexivity].
        apply norm_same in E. symmetry in E. apply norm_eq_diag in E as [-> ->]. congruence.
      + rewrite dget_dmerge. destruct (same a b x y) eqn:E.
        * apply norm_same in E. rewrite E, eqb_refl; reflexivity.
        * destruct (eqb_spec (norm (a, b)) (norm (x, y))) as [E'|E']; [|reflexivity].
          apply norm_same in E'. congruence.
  Qed.
  Lemma add_edge_wf f a b w r : wf r -> wf (add_edge_raw f (fst (norm (a, b))) (snd (norm (a, b))) w r).
  Proof.
    intros [E L K]. unfold add_edge_raw.
    destruct (fst (norm (a, b)) =? snd (norm (a, b))) eqn:D; constructor; cbn; auto; try (apply dmerge_ok; auto).
    intros k. rewrite dmerge_keys. intros [->|I]; auto.
    rewrite <- surjective_pairing, norm_idem. apply Z.eqb_neq in D. auto.
  Qed.

  Lemma remove_edge_lookup a b r x y : wf r ->
    lookup (remove_edge_raw (fst (norm (a, b))) (snd (norm (a, b))) r) x y =
    if same a b x y then None else lookup r x y.
  Proof.
    intros [WE WL WK]. unfold lookup, remove_edge_raw.
    destruct (Z.eq_dec a b) as [<-|N].
    - rewrite norm_diag; cbn. rewrite Z.eqb_refl; cbn.
      assert (NE : dhas (a, a) (r_e r) = false).
      { destruct (dhas (a, a) (r_e r)) eqn:E; auto. apply dhas_spec in E as [v E].
        apply dget_In in E. destruct (WK (a, a)) as [_ X]; [|cbn in X; congruence].
        apply in_map_iff. exists ((a, a), v); auto. }
      rewrite NE. destruct (same a a x y) eqn:E.
      + apply norm_same in E. apply norm_eq_diag in E as [-> ->].
        destruct (dhas a (r_loop r)) eqn:Hs; cbn; rewrite Z.eqb_refl.
        * apply dget_ddel_same; auto.
        * unfold dhas in Hs. destruct (dget a (r_loop r)); congruence.
      + destruct (dhas a (r_loop r)); cbn; auto.
        destruct (Z.eqb_spec x y) as [<-|N]; [|reflexivity].
        apply dget_ddel_other. intros ->.
        assert (X : same a a a a = true) by (apply norm_same; reflexivity). congruence.
    - pose proof (norm_off N) as O. apply Z.eqb_neq in O. rewrite O. cbn.
      rewrite <- surjective_pairing.
      destruct (dhas (norm (a, b)) (r_e r)) eqn:Hs; cbn.
      + destruct (Z.eqb_spec x y) as [<-|N'].
        * destruct (same a b x x) eqn:E; [|reflexivity].
          apply norm_same in E. symmetry in E. apply norm_eq_diag in E as [-> ->]. congruence.
        * destruct (same a b x y) eqn:E.
          -- apply norm_same in E. rewrite <- E. apply dget_ddel_same; auto.
          -- apply dget_ddel_other. intros E'. assert (X : same a b x y = true) by (apply norm_same; auto).
             congruence.
      + destruct (same a b x y) eqn:E; auto. apply norm_same in E.
        destruct (Z.eqb_spec x y) as [<-|N'].
        * symmetry in E. apply norm_eq_diag in E as [-> ->]. congruence.
        * rewrite <- E. unfold dhas in Hs. destruct (dget (norm (a, b)) (r_e r)); congruence.
  Qed.
  Lemma remove_edge_wf a b r : wf r -> wf (remove_edge_raw a b r).
  Proof.
    intros [WE WL WK]. unfold remove_edge_raw.
    destruct ((a =? b) && dhas a (r_loop r)); [|destruct (dhas (a, b) (r_e r))];
      constructor; cbn; auto; try (apply ddel_ok; auto).
    intros k I. apply WK. eapply ddel_keys_sub; eauto.
  Qed.

  (** * the loops over edge lists *)
  Lemma for_each_add m f ps s : merge_fun m = Some f ->
    exists c, for_each (fun x => add_edge m (fst (norm (fst x))) (snd (norm (fst x))) (snd x)) ps s =
      (mkSt (fold_left (fun r x => add_edge_raw f (fst (norm (fst x))) (snd (norm (fst x))) (snd x) r) ps (st_raw s)) c,
       Ok tt).
  Proof.
    intros E. revert s; induction ps as [|p ps IH]; intros s; cbn [for_each fold_left].
    - exists (st_cache s). destruct s; reflexivity.
    - unfold bind, add_edge at 1. rewrite E.
      destruct (IH (mkSt (add_edge_raw f (fst (norm (fst p))) (snd (norm (fst p))) (snd p) (st_raw s)) [])) as [c IHc].
      exists c. exact IHc.
  Qed.
  Lemma for_each_remove l s :
    exists c, for_each (fun x => @remove_edge T (fst (norm x)) (snd (norm x))) l s =
      (mkSt (fold_left (fun r x => remove_edge_raw (fst (norm x)) (snd (norm x)) r) l (st_raw s)) c, Ok tt).
  Proof.
    revert s; induction l as [|p ps IH]; intros s; cbn [for_each fold_left].
    - exists (st_cache s). destruct s; reflexivity.
    - unfold bind, remove_edge at 1.
      destruct (IH (mkSt (remove_edge_raw (fst (norm p)) (snd (norm p)) (st_raw s)) [])) as [c IHc].
      exists c. exact IHc.
  Qed.

  Lemma merge_fun_merged m f : merge_fun m = Some f -> forall x y, f x y = merged m x y.
  Proof. destruct m; cbn; intros E; try discriminate; injection E as <-; reflexivity. Qed.

  Lemma fold_add_rel m f ps r (g : wmap T) : merge_fun m = Some f -> wf r ->
    (forall a b, lookup r a b = g a b) ->
    let r' := fold_left (fun r x => add_edge_raw f (fst (norm (fst x))) (snd (norm (fst x))) (snd x) r) ps r in
    wf r' /\ (forall a b, lookup r' a b = fold_left (fun g x => a_add same m x g) ps g a b)
      /\ r_extra r' = r_extra r /\ r_nv r' = r_nv r.
  Proof.
    intros E. revert r g; induction ps as [|[[a b] w] ps IH]; intros r g W L; cbn [fold_left fst snd].
    - auto.
    - destruct (IH (add_edge_raw f (fst (norm (a, b))) (snd (norm (a, b))) w r) (a_add same m ((a, b), w) g))
        as (W' & L' & X' & N').
      + apply add_edge_wf; auto.
      + intros c d. rewrite add_edge_lookup by auto. unfold a_add; cbn. rewrite L.
        destruct (same a b c d); auto. destruct (g c d); auto.
        rewrite (merge_fun_merged m E); reflexivity.
      + split; [|split; [|split]]; auto; [rewrite X'|rewrite N'];
          unfold add_edge_raw; destruct (fst (norm (a, b)) =? snd (norm (a, b))); reflexivity.
  Qed.
  Lemma remove_edge_raw_same a b (r : raw T) :
    r_extra (remove_edge_raw a b r) = r_extra r /\ r_nv (remove_edge_raw a b r) = r_nv r.
  Proof.
    unfold remove_edge_raw.
    destruct ((a =? b) && dhas a (r_loop r)); [|destruct (dhas (a, b) (r_e r))]; auto.
  Qed.
  Lemma fold_remove_rel l r (g : wmap T) : wf r ->
    (forall a b, lookup r a b = g a b) ->
    let r' := fold_left (fun r x => remove_edge_raw (fst (norm x)) (snd (norm x)) r) l r in
    wf r' /\ (forall a b, lookup r' a b = fold_left (fun g x => a_del same x g) l g a b)
      /\ r_extra r' = r_extra r /\ r_nv r' = r_nv r.
  Proof.
    revert r g; induction l as [|[a b] ps IH]; intros r g W L; cbn [fold_left].
    - auto.
    - destruct (IH (remove_edge_raw (fst (norm (a, b))) (snd (norm (a, b))) r) (a_del same (a, b) g))
        as (W' & L' & X' & N').
      + apply remove_edge_wf; auto.
      + intros c d. rewrite remove_edge_lookup by auto. unfold a_del; cbn. rewrite L. reflexivity.
      + destruct (remove_edge_raw_same (fst (norm (a, b))) (snd (norm (a, b))) r) as [X N].
        split; [|split; [|split]]; auto; [rewrite X'|rewrite N']; auto.
  Qed.

  (** * argument handling *)
  Lemma combine_map_const {A B} (l : list A) (c : B) :
    combine l (map (fun _ => c) l) = map (fun p => (p, c)) l.
  Proof. induction l; cbn; congruence. Qed.

  Lemma below_endpoints nv l : forallb (below nv) l = endpoints_ok nv l.
  Proof. reflexivity. Qed.

  (** outcome of [add_edges] *)
  Lemma add_edges_outcome e w m (s : st T (raw T)) s' o :
    add_edges norm e w m s = (s', o) ->
    (exists x, o = Err x /\ s' = s /\
       (earg_empty e = false /\
        (pairs_of e w = None \/ endpoints_ok (r_nv (st_raw s)) (edges_of e) = false \/
         (known m = false /\ exists p ps, pairs_of e w = Some (p :: ps)))))
    \/ (o = Ok tt /\ earg_empty e = true /\ s' = s)
    \/ (o = Ok tt /\ earg_empty e = false /\ exists ps, pairs_of e w = Some ps /\
        endpoints_ok (r_nv (st_raw s)) (edges_of e) = true /\
        (known m = true \/ ps = []) /\ st_cache s' = [] /\
        st_raw s' = match merge_fun m with
                    | Some f => fold_left (fun r x => add_edge_raw f (fst (norm (fst x))) (snd (norm (fst x))) (snd x) r)
                          ps (st_raw s)
                    | None => st_raw s
                    end).
  Proof.
    unfold add_edges. destruct (earg_empty e) eqn:EE.
    { intros E; injection E as <- <-. auto. }
    intros E.
    assert (F : format_edges (below (r_nv (st_raw s))) e w =
      match pairs_of e w with
      | Some _ => if endpoints_ok (r_nv (st_raw s)) (edges_of e)
                  then Ok (edges_of e, match w with WNone => map (fun _ => n1) (edges_of e) | WNum x => [x] | WList l => l end)
                  else Err AssertionError
      | None => if endpoints_ok (r_nv (st_raw s)) (edges_of e) then Err TypeError else Err AssertionError
      end).
    { destruct e as [a b|[|p l]].
      - cbn. rewrite andb_true_r. unfold below; cbn.
        destruct w; cbn; destruct ((a <? r_nv (st_raw s)) && (b <? r_nv (st_raw s))); reflexivity.
      - discriminate EE.
      - unfold format_edges, edges_of. rewrite below_endpoints.
        destruct w; destruct (endpoints_ok (r_nv (st_raw s)) (p :: l)); reflexivity. }
    unfold bind at 1, lift in E. rewrite F in E. clear F.
    destruct (pairs_of e w) as [ps|] eqn:P; destruct (endpoints_ok (r_nv (st_raw s)) (edges_of e)) eqn:B.
    2-4: injection E as <- <-; left; eexists; intuition eauto.
    assert (C : combine (edges_of e) (match w with WNone => map (fun _ => n1) (edges_of e) | WNum x => [x] | WList l => l end) = ps).
    { destruct e, w; cbn in P; try discriminate; injection P as <-; cbn; auto. apply combine_map_const. }
    cbn [fst snd] in E. rewrite C in E. clear C.
    destruct (merge_fun m) as [f|] eqn:MF.
    - right; right. destruct (for_each_add m ps s MF) as [c F].
      unfold bind in E. rewrite F in E. injection E as <- <-.
      split; auto. split; auto. exists ps. split; auto. split; auto. split; [left; destruct m; auto; discriminate|].
      split; reflexivity.
    - assert (KM : known m = false) by (destruct m; auto; discriminate).
      destruct ps as [|p ps].
      + right; right. cbn in E. injection E as <- <-. split; auto. split; auto.
        exists []. cbn. auto 10.
      + left. cbn in E. unfold bind, add_edge in E. rewrite MF in E. injection E as <- <-.
        eexists. split; [reflexivity|]. split; auto. split; auto. right; right. eauto.
  Qed.

  Lemma endpoints_nil nv : endpoints_ok nv [] = true.
  Proof. reflexivity. Qed.

  Lemma add_edges_rel e w m s g : rel (st_raw s) g ->
    rel (st_raw (fst (add_edges norm e w m s))) (a_add_edges same (r_nv (st_raw s)) e w m g)
    /\ r_nv (st_raw (fst (add_edges norm e w m s))) = r_nv (st_raw s).
  Proof.
    intros (W & L & X). destruct (add_edges norm e w m s) as [s' o] eqn:E. cbn [fst].
    apply add_edges_outcome in E as [(x & -> & -> & EE & D)|[(-> & EE & ->)|(-> & EE & ps & P & B & KM & C & R)]].
    - split; auto. unfold a_add_edges.
      assert (G : (match pairs_of e w with
                   | Some ps => if endpoints_ok (r_nv (st_raw s)) (edges_of e) && (known m || match ps with [] => true | _ => false end)
                                then mkA (fold_left (fun g x => a_add same m x g) ps (aw g)) (ax g) else g
                   | None => g end) = g).
      { destruct D as [->|[->|(-> & p & ps & ->)]]; auto.
        - destruct (pairs_of e w); auto.
        - cbn. rewrite andb_false_r; auto. }
      rewrite G. split; auto.
    - split; auto. unfold a_add_edges. destruct e as [|[|]]; try discriminate.
      destruct w; cbn; rewrite ?orb_true_r; cbn; split; auto.
    - unfold a_add_edges. rewrite P, B. cbn [andb].
      destruct (merge_fun m) as [f|] eqn:MF.
      + assert (K : known m = true) by (destruct m; auto; discriminate). rewrite K. cbn.
        destruct (fold_add_rel m ps (aw g) MF W L) as (W' & L' & X' & N').
        rewrite R. split; [|exact N']. split; [exact W'|]. split; [exact L'|]. cbn. congruence.
      + assert (ps = []) as -> by (destruct KM as [KM|KM]; auto; destruct m; discriminate).
        rewrite orb_true_r, R. cbn. split; auto. split; auto.
  Qed.

  Lemma format_none nv e : earg_empty e = false ->
    format_edges (below nv) e WNone =
      if endpoints_ok nv (edges_of e) then Ok (edges_of e, map (fun _ => @n1 T _) (edges_of e))
      else Err AssertionError.
  Proof.
    destruct e as [a b|[|p l]]; intros EE; [| discriminate EE |].
    - cbn. rewrite andb_true_r. unfold below; cbn.
      destruct ((a <? nv) && (b <? nv)); reflexivity.
    - unfold format_edges, edges_of. rewrite below_endpoints. reflexivity.
  Qed.

  Lemma remove_edges_outcome e (s : st T (raw T)) s' o :
    remove_edges norm e s = (s', o) ->
    (exists x, o = Err x /\ s' = s /\
       (earg_empty e = true \/ endpoints_ok (r_nv (st_raw s)) (edges_of e) = false))
    \/ (o = Ok tt /\ earg_empty e = false /\ endpoints_ok (r_nv (st_raw s)) (edges_of e) = true /\
        st_cache s' = [] /\
        st_raw s' = fold_left (fun r x => remove_edge_raw (fst (norm x)) (snd (norm x)) r) (edges_of e) (st_raw s)).
  Proof.
    unfold remove_edges, bind at 1, lift. destruct (earg_empty e) eqn:EE.
    - assert (format_edges (below (r_nv (st_raw s))) e (@WNone T) = Err IndexError) as ->.
      { destruct e as [|[|]]; try discriminate; reflexivity. }
      intros E; injection E as <- <-. left. eauto 10.
    - rewrite format_none by auto.
      destruct (endpoints_ok (r_nv (st_raw s)) (edges_of e)) eqn:B.
      + cbn [fst]. destruct (for_each_remove (edges_of e) s) as [c F].
        unfold bind. rewrite F. intros E; injection E as <- <-. right. cbn. auto 10.
      + intros E; injection E as <- <-. left; eauto 10.
  Qed.

  Lemma remove_edges_rel e s g : rel (st_raw s) g ->
    rel (st_raw (fst (remove_edges norm e s))) (a_remove_edges same (r_nv (st_raw s)) e g)
    /\ r_nv (st_raw (fst (remove_edges norm e s))) = r_nv (st_raw s).
  Proof.
    intros (W & L & X). destruct (remove_edges norm e s) as [s' o] eqn:E. cbn [fst].
    apply remove_edges_outcome in E as [(x & -> & -> & D)|(-> & EE & B & C & R)].
    - split; auto. unfold a_remove_edges. destruct D as [D| ->]; [|split; auto].
      destruct e as [|[|]]; try discriminate. cbn. split; auto.
    - unfold a_remove_edges. rewrite B.
      destruct (fold_remove_rel (edges_of e) (aw g) W L) as (W' & L' & X' & N').
      rewrite R. split; [|exact N']. split; [exact W'|]. split; [exact L'|]. cbn. congruence.
  Qed.

  Lemma set_extra_rel b s g : rel (st_raw s) g ->
    rel (st_raw (fst (set_extra b s))) (mkA (aw g) b) /\ r_nv (st_raw (fst (set_extra b s))) = r_nv (st_raw s).
  Proof.
    intros ([WE WL WK] & L & X). split; auto. split; [constructor; auto|]. split; auto.
  Qed.
  Lemma remove_loops_rel s g : rel (st_raw s) g ->
    rel (st_raw (fst (remove_selfloop s))) (a_remove_loops g) /\ r_nv (st_raw (fst (remove_selfloop s))) = r_nv (st_raw s).
  Proof.
    intros ([WE WL WK] & L & X). split; auto. split; [constructor; cbn; auto; constructor|]. split; auto.
    intros a b. unfold lookup; cbn. specialize (L a b). unfold lookup in L.
    destruct (a =? b); auto.
  Qed.
  Lemma clear_rel s g : rel (st_raw (fst (@clear T s))) (a_clear g) /\ r_nv (st_raw (fst (clear s))) = r_nv (st_raw s).
  Proof.
    split; auto. split; [constructor; cbn; try constructor; intros; contradiction|]. split; auto.
    intros a b; unfold lookup; cbn. destruct (a =? b); reflexivity.
  Qed.
  Lemma rel_empty nv ex : rel (mkRaw nv [] [] ex) (mkA empty_map ex).
  Proof.
    split; [constructor; cbn; try constructor; intros; contradiction|]. split; auto.
    intros a b; unfold lookup; cbn. destruct (a =? b); reflexivity.
  Qed.

  (** * reading the store *)
  Definition core (r : raw T) : list ((Z * Z) * T) :=
    r_e r ++ map (fun kv => ((fst kv, fst kv), snd kv)) (r_loop r).

  Lemma combine_keys_vals {K V} (d : dict K V) : combine (dkeys d) (dvals d) = d.
  Proof. unfold dkeys, dvals; induction d as [|[k v] d IH]; cbn; congruence. Qed.
  Lemma combine_app {A B} (a1 a2 : list A) (b1 b2 : list B) : length a1 = length b1 ->
    combine (a1 ++ a2) (b1 ++ b2) = combine a1 b1 ++ combine a2 b2.
  Proof.
    revert b1; induction a1 as [|x a1 IH]; intros [|y b1]; cbn; intros E; try discriminate; auto.
    f_equal; auto.
  Qed.

  Lemma raw_edges_combine r :
    combine (fst (raw_edges r)) (snd (raw_edges r)) =
    core r ++ (if r_extra r then map (fun v => ((v, v), n1)) (range (r_nv r)) else []).
  Proof.
    unfold raw_edges, core; cbn [fst snd]. unfold dkeys, dvals.
    rewrite combine_app by (rewrite !map_length; auto).
    rewrite <- app_assoc. f_equal; [apply combine_keys_vals|].
    rewrite combine_app by (rewrite !map_length; auto). f_equal.
    - generalize (r_loop r) as d. induction d as [|[k v] d IH]; cbn; congruence.
    - destruct (r_extra r); auto. generalize (range (r_nv r)). intros l. induction l; cbn; congruence.
  Qed.
  Lemma raw_edges_length r : length (snd (raw_edges r)) = length (fst (raw_edges r)) /\
    (0 <= r_nv r -> Z.of_nat (length (fst (raw_edges r))) = raw_num_e r).
  Proof.
    unfold raw_edges, raw_num_e; cbn. unfold dkeys, dvals. rewrite !app_length, !map_length.
    split.
    - destruct (r_extra r); cbn; rewrite ?map_length; auto.
    - intros. destruct (r_extra r); cbn; rewrite ?map_length, ?range_length; lia.
  Qed.

  Lemma core_In r a b w : wf r ->
    (In ((a, b), w) (core r) <-> norm (a, b) = (a, b) /\ lookup r a b = Some w).
  Proof.
    intros [WE WL WK]. unfold core, lookup. rewrite in_app_iff. split.
    - intros [I|I].
      + destruct (WK (a, b)) as [N D]; [apply in_map_iff; eexists; split; [|exact I]; auto|].
        cbn in D. apply Z.eqb_neq in D. rewrite D. split; auto. rewrite N.
        apply In_dget; auto.
      + apply in_map_iff in I as ([k v] & E & I). cbn in E. injection E as <- <- <-.
        rewrite norm_diag, Z.eqb_refl. split; auto. apply In_dget; auto.
    - intros [N L]. destruct (Z.eqb_spec a b) as [<-|D].
      + right. apply in_map_iff. exists (a, w). split; auto. apply dget_In; auto.
      + left. rewrite N in L. apply dget_In; auto.
  Qed.

  Lemma core_keys_nodup r : wf r -> NoDup (map fst (core r)).
  Proof.
    intros [WE WL WK]. unfold core. rewrite map_app, map_map. cbn.
    assert (E : forall l : list (Z * T), map (fun x : Z * T => (fst x, fst x)) l = map (fun v => (v, v)) (map fst l)).
    { intros l. rewrite map_map; reflexivity. }
    rewrite E. clear E.
    assert (ND : NoDup (map (fun v : Z => (v, v)) (map fst (r_loop r)))).
    { apply FinFun.Injective_map_NoDup; auto. intros x y E; injection E; auto. }
    revert WE WK. unfold dict_ok, dkeys. generalize (map fst (r_e r)) as l.
    induction l as [|k l IH]; intros WE WK; cbn; auto.
    inversion WE as [|? ? NI ND']; subst. constructor.
    - rewrite in_app_iff. intros [I|I]; [contradiction|].
      apply in_map_iff in I as (v & E & _). subst k.
      destruct (WK (v, v)) as [_ X]; [left; auto|]. cbn in X; congruence.
    - apply IH; auto. intros k' I. apply WK. right; auto.
  Qed.
  Lemma core_keys_norm r k : wf r -> In k (map fst (core r)) -> norm k = k.
  Proof.
    intros W I. apply in_map_iff in I as ([[a b] w] & <- & I). apply core_In in I as [N _]; auto.
  Qed.
End Store.
