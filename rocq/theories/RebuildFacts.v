(** Building a graph anew from the edges another graph reports. *)
From Verif Require Import Num PyDict PyDictFacts Coo CooFacts ModelBase SpecGraph StoreFacts.
Set Implicit Arguments.

Section Rebuild.
  Context {T : Type} `{Num T}.
  Variable norm : Z * Z -> Z * Z.
  Variable norm_diag : forall a, norm (a, a) = (a, a).

  Lemma dset_new {K V} `{EqB K} (k : K) (v : V) d : dget k d = None -> dset k v d = d ++ [(k, v)].
  Proof.
    induction d as [|[k' v'] d IH]; cbn; auto. destruct (eqb k k'); [discriminate|]. intros E. rewrite IH; auto.
  Qed.
  Lemma dmerge_new {K} `{EqB K} f (k : K) (v : T) d : ~ In k (dkeys d) -> dmerge f k v d = d ++ [(k, v)].
  Proof. intros E. apply dget_None in E. unfold dmerge. rewrite E. apply dset_new; auto. Qed.

  Definition addall (f : T -> T -> T) ps (r : raw T) :=
    fold_left (fun r (x : (Z * Z) * T) => add_edge_raw f (fst (norm (fst x))) (snd (norm (fst x))) (snd x) r) ps r.

  Lemma addall_proper f nv ex L l d :
    (forall k, In k (map fst l) -> norm k = k /\ fst k <> snd k) -> NoDup (dkeys d ++ dkeys l) ->
    addall f l (mkRaw nv d L ex) = mkRaw nv (d ++ l) L ex.
  Proof.
    revert d; induction l as [|[[a b] w] l IH]; intros d K ND; cbn.
    - rewrite app_nil_r; reflexivity.
    - change (addall f l (add_edge_raw f (fst (norm (a, b))) (snd (norm (a, b))) w (mkRaw nv d L ex)) = mkRaw nv (d ++ (a, b, w) :: l) L ex).
      destruct (K (a, b)) as [E D]; [left; auto|]. rewrite E. unfold add_edge_raw. cbn [fst snd r_nv r_e r_loop r_extra] in *.
      apply Z.eqb_neq in D. rewrite D. unfold dkeys in *; cbn in ND.
      rewrite dmerge_new.
      + rewrite IH.
        * rewrite <- app_assoc. reflexivity.
        * intros k I; apply K; right; auto.
        * unfold dkeys. rewrite map_app, <- app_assoc. exact ND.
      + apply NoDup_remove_2 in ND. intros I. apply ND. apply in_or_app; auto.
  Qed.
  Lemma addall_loops f nv ex E l d :
    NoDup (dkeys d ++ dkeys l) ->
    addall f (map (fun kv => ((fst kv, fst kv), snd kv)) l) (mkRaw nv E d ex) = mkRaw nv E (d ++ l) ex.
  Proof.
    revert d; induction l as [|[a w] l IH]; intros d ND; cbn.
    - rewrite app_nil_r; reflexivity.
    - change (addall f (map (fun kv => ((fst kv, fst kv), snd kv)) l) (add_edge_raw f (fst (norm (a, a))) (snd (norm (a, a))) w (mkRaw nv E d ex)) = mkRaw nv E (d ++ (a, w) :: l) ex).
      rewrite norm_diag. unfold add_edge_raw; cbn [fst snd r_nv r_e r_loop r_extra]. rewrite Z.eqb_refl. unfold dkeys in *; cbn in ND.
      rewrite dmerge_new.
      + rewrite IH.
        * rewrite <- app_assoc. reflexivity.
        * unfold dkeys. rewrite map_app, <- app_assoc. exact ND.
      + apply NoDup_remove_2 in ND. intros I. apply ND. apply in_or_app; auto.
  Qed.
  Lemma addall_core f (r : raw T) : wf norm r -> addall f (core r) (mkRaw (r_nv r) [] [] (r_extra r)) = r.
  Proof.
    intros [WE WL WK]. unfold core, addall. rewrite fold_left_app.
    fold (addall f (r_e r) (mkRaw (r_nv r) [] [] (r_extra r))).
    rewrite addall_proper; auto. cbn.
    change (addall f (map (fun kv : Z * T => (fst kv, fst kv, snd kv)) (r_loop r)) (mkRaw (r_nv r) (r_e r) [] (r_extra r)) = r).
    rewrite addall_loops; auto. cbn. destruct r; reflexivity.
  Qed.

  (** the edges without the extra self-loops, as the code reports them *)
  Definition plain_edges (r : raw T) : list (Z * Z) * list T :=
    raw_edges (mkRaw (r_nv r) (r_e r) (r_loop r) false).
  Lemma plain_combine r : combine (fst (plain_edges r)) (snd (plain_edges r)) = core r.
  Proof. unfold plain_edges. rewrite raw_edges_combine. cbn. apply app_nil_r. Qed.
  Lemma plain_keys r : fst (plain_edges r) = map fst (core r).
  Proof.
    rewrite <- plain_combine. symmetry. destruct (raw_edges_length (mkRaw (r_nv r) (r_e r) (r_loop r) false)) as [E _].
    unfold plain_edges. revert E. generalize (fst (raw_edges (mkRaw (r_nv r) (r_e r) (r_loop r) false))) as a.
    generalize (snd (raw_edges (mkRaw (r_nv r) (r_e r) (r_loop r) false))) as b.
    intros b a; revert b; induction a as [|x a IH]; intros [|y b]; cbn; intros E; try discriminate; auto.
    f_equal. apply IH. lia.
  Qed.

  Lemma rebuild_add m (r : raw T) : wf norm r -> m <> MOther ->
    (forall k, In k (map fst (core r)) -> below (r_nv r) k = true) ->
    add_edges norm (EMany (fst (plain_edges r))) (WList (snd (plain_edges r))) m
      (mkSt (mkRaw (r_nv r) [] [] (r_extra r)) []) = (mkSt r [], Ok tt).
  Proof.
    intros W KN B. unfold add_edges. rewrite plain_keys.
    destruct (map fst (core r)) as [|k ks] eqn:KE; cbn [earg_empty].
    - unfold core in KE. destruct r as [nv [|x E] [|y L] ex]; cbn in KE; try discriminate. reflexivity.
    - rewrite <- KE in *. cbn [r_nv st_raw].
      assert (F : format_edges (below (r_nv r)) (EMany (map fst (core r))) (WList (snd (plain_edges r))) =
                  Ok (map fst (core r), snd (plain_edges r))).
      { rewrite KE. cbn -[forallb]. rewrite <- KE.
        replace (forallb (below (r_nv r)) (map fst (core r))) with true; auto.
        symmetry. apply forallb_forall; auto. }
      rewrite F. unfold bind, lift; cbn [fst snd]. rewrite <- plain_keys, plain_combine.
      assert (MF : exists f, merge_fun m = Some f) by (destruct m; cbn; eauto; congruence).
      destruct MF as [f MF].
      destruct (@for_each_add T _ norm m f (core r) (mkSt (mkRaw (r_nv r) [] [] (r_extra r)) []) MF) as [c E].
      rewrite E. cbn [st_raw].
      fold (addall f (core r) (mkRaw (r_nv r) [] [] (r_extra r))). rewrite addall_core by auto. reflexivity.
  Qed.
End Rebuild.
