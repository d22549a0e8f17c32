(** Cache coherence, store and matrices of a BiGraph. *)
From Coq Require Import Ring Permutation Sorted.
From Verif Require Import Num PyDict PyDictFacts Coo CooFacts MatFacts ModelBase CacheFacts ModelGraph
  SpecGraph SpecGraphOps StoreFacts RebuildFacts GraphMatrix GraphLaplace GraphFacts ModelDiGraph DiGraphFacts ModelBiGraph SpecBiGraph.
Set Implicit Arguments.

Section Coherence.
  Context {T : Type} `{Num T}.

  Definition bp_B (r : braw T) : res (coo T) :=
    if braw_num_e r =? 0 then Ok []
    else mk_sparse (b_nu r) (b_nv r) (fst (braw_edges r)) (snd (braw_edges r)).
  Definition bp_BT (r : braw T) : res (coo T) := res_map (fun A => coalesce (ctrans A)) (bp_B r).
  Definition bp_A (r : braw T) : res (coo T) :=
    res_bind (bp_B r) (fun B => res_map (fun BT => coalesce (shift 0 (b_nu r) B ++ shift (b_nu r) 0 BT)) (bp_BT r)).
  Definition bp_Du (r : braw T) : res (coo T) := res_map (diag_rowsum (b_nu r)) (bp_B r).
  Definition bp_Dv (r : braw T) : res (coo T) := res_map (diag_rowsum (b_nv r)) (bp_BT r).
  Definition bp_Du1 (r : braw T) : res (coo T) := res_map inv_vals (bp_Du r).
  Definition bp_Dv1 (r : braw T) : res (coo T) := res_map inv_vals (bp_Dv r).
  Definition bp_L (r : braw T) : res (coo T) := res_map (gcn_of (b_nu r + b_nv r)) (bp_A r).
  Definition bspec (k : ckey) (r : braw T) : res (cval T) :=
    match k with
    | Ke => Ok (injE (braw_edges r))
    | KA => res_map VM (bp_A r)
    | KB => res_map VM (bp_B r)
    | KBT => res_map VM (bp_BT r)
    | KDu => res_map VM (bp_Du r)
    | KDv => res_map VM (bp_Dv r)
    | KDu1 => res_map VM (bp_Du1 r)
    | KDv1 => res_map VM (bp_Dv1 r)
    | KLgcn => res_map VM (bp_L r)
    | _ => Err KeyError
    end.
  Ltac gd := eapply good_ext; [repeat first
    [ apply good_bind | apply good_ask | apply good_lift | apply good_ret | apply good_raise | intro ] | ].
  Lemma bgood_map {A B} (g : M T (braw T) A) f (h : A -> B) :
    good bspec g f -> good bspec (bind g (fun a => ret (h a))) (fun r => res_map h (f r)).
  Proof.
    intros G. eapply good_ext; [apply good_bind; [exact G|]; intro; apply good_ret|].
    intros r; cbv beta; destruct (f r); reflexivity.
  Qed.
  Lemma bgood_mapr {A B} (g : M T (braw T) A) f (h : braw T -> A -> B) :
    good bspec g f -> good bspec (bind g (fun a => bind ask (fun r => ret (h r a)))) (fun r => res_map (h r) (f r)).
  Proof.
    intros G. eapply good_ext; [apply good_bind; [exact G|]; intro; gd; intro; reflexivity|].
    intros r; cbv beta; destruct (f r); reflexivity.
  Qed.
  Lemma bgood_e : good bspec bget_e (fun r => Ok (braw_edges r)).
  Proof. apply good_memoE; [|reflexivity]. gd. reflexivity. Qed.
  Lemma bgood_B : good bspec bget_B bp_B.
  Proof.
    apply good_memoM; [|reflexivity].
    eapply good_ext; [apply good_if_raw with (f := fun _ _ => Ok [])
      (k := fun r r' => res_bind (Ok (braw_edges r')) (fun ew => mk_sparse (b_nu r) (b_nv r) (fst ew) (snd ew)))|].
    - intros r. apply good_ret.
    - intros r. apply good_bind with (f := fun r => Ok (braw_edges r))
        (k := fun ew _ => mk_sparse (b_nu r) (b_nv r) (fst ew) (snd ew)); [apply bgood_e|].
      intro a. apply good_lift.
    - intros r; reflexivity.
  Qed.
  Lemma bgood_BT : good bspec bget_BT bp_BT.
  Proof. apply good_memoM; [apply bgood_map, bgood_B | reflexivity]. Qed.
  Lemma bgood_A : good bspec bget_A bp_A.
  Proof.
    apply good_memoM; [|reflexivity]. apply good_bind; [apply bgood_B|]. intro B.
    apply (bgood_mapr (fun r BT => coalesce (shift 0 (b_nu r) B ++ shift (b_nu r) 0 BT))), bgood_BT.
  Qed.
  Lemma bgood_Du : good bspec bget_Du bp_Du.
  Proof. apply good_memoM; [apply (bgood_mapr (fun r => diag_rowsum (b_nu r))), bgood_B | reflexivity]. Qed.
  Lemma bgood_Dv : good bspec bget_Dv bp_Dv.
  Proof. apply good_memoM; [apply (bgood_mapr (fun r => diag_rowsum (b_nv r))), bgood_BT | reflexivity]. Qed.
  Lemma bgood_Du1 : good bspec bget_Du1 bp_Du1.
  Proof. apply good_memoM; [apply bgood_map, bgood_Du | reflexivity]. Qed.
  Lemma bgood_Dv1 : good bspec bget_Dv1 bp_Dv1.
  Proof. apply good_memoM; [apply bgood_map, bgood_Dv | reflexivity]. Qed.
  Lemma bgood_L : good bspec bget_Lgcn bp_L.
  Proof. apply good_memoM; [exact (bgood_mapr (fun r => gcn_of (b_nu r + b_nv r)) bgood_A) | intro; reflexivity]. Qed.
  Definition bp_Nv (u : Z) (r : braw T) : res (list Z) := res_bind (bp_B r) (fun B => res_map (row_idx B) (py_index (b_nu r) u)).
  Definition bp_Nu (v : Z) (r : braw T) : res (list Z) := res_bind (bp_BT r) (fun B => res_map (row_idx B) (py_index (b_nv r) v)).
  Lemma bgood_Nv u : good bspec (bget_Nv u) (bp_Nv u).
  Proof.
    eapply good_ext; [apply good_bind; [apply bgood_B|]; intro; gd; intro; reflexivity|].
    intros r; unfold bp_Nv; cbv beta; destruct (bp_B r); [|reflexivity]. cbn [res_bind].
    destruct (py_index (b_nu r) u); reflexivity.
  Qed.
  Lemma bgood_Nu v : good bspec (bget_Nu v) (bp_Nu v).
  Proof.
    eapply good_ext; [apply good_bind; [apply bgood_BT|]; intro; gd; intro; reflexivity|].
    intros r; unfold bp_Nu; cbv beta; destruct (bp_BT r); [|reflexivity]. cbn [res_bind].
    destruct (py_index (b_nv r) v); reflexivity.
  Qed.
  Definition bp_gcn (X : Z -> T) keep (r : braw T) : res (list T) :=
    res_map (fun L => map (spmv (cdrop_opt keep L) X) (range (b_nu r + b_nv r))) (bp_L r).
  Lemma bgood_gcn X keep : good bspec (bgcn_smooth X keep) (bp_gcn X keep).
  Proof. exact (bgood_mapr (fun r L => map (spmv (cdrop_opt keep L) X) (range (b_nu r + b_nv r))) bgood_L). Qed.
  Definition bp_pass (u2v : bool) (X : Z -> T) (a : aggr) (ew : option (list T)) keep (r : braw T) : res (list T) :=
    let n := if u2v then b_nv r else b_nu r in
    if aggr_ok a then
      match ew with
      | None =>
          res_bind (if u2v then bp_BT r else bp_B r) (fun A => let P := cdrop_opt keep A in
          match a with
          | AggrMean => res_map (fun D1 => map (spmv D1 (spmv P X)) (range n)) (if u2v then bp_Dv1 r else bp_Du1 r)
          | AggrSum => Ok (map (spmv P X) (range n))
          | _ => Ok (map (spmv (csoftmax P) X) (range n))
          end)
      | Some w =>
          res_bind (bp_B r) (fun B =>
          if Nat.eqb (length w) (length B) then
            let C := with_vals B w in
            let P := cdrop_opt keep (coalesce (if u2v then ctrans C else C)) in
            match a with
            | AggrMean => Ok (map (mean_weighted P X) (range n))
            | AggrSum => Ok (map (spmv P X) (range n))
            | _ => Ok (map (spmv (csoftmax P) X) (range n))
            end
          else Err AssertionError)
      end
    else Err AssertionError.
  Lemma bgood_pass u2v X a ew keep : good bspec (b_pass u2v X a ew keep) (bp_pass u2v X a ew keep).
  Proof.
    unfold b_pass, bp_pass. destruct (aggr_ok a); [|apply good_raise].
    destruct ew as [w|].
    - apply good_bind; [apply bgood_B|]. intro A. destruct (Nat.eqb (length w) (length A)); [|apply good_raise].
      destruct a; gd; intros r; reflexivity.
    - apply good_bind; [destruct u2v; [apply bgood_BT|apply bgood_B]|]. intro A. cbv zeta.
      destruct a; try (gd; intros r; reflexivity).
      eapply good_ext; [apply good_bind; [apply good_ask|]; intro r;
        apply (@bgood_map _ _ _ (fun r => if u2v then bp_Dv1 r else bp_Du1 r)); destruct u2v; [apply bgood_Dv1|apply bgood_Du1]|].
      intros r; reflexivity.
  Qed.
  Definition bp_query (q : bquery T) (r : braw T) : res (out T) :=
    match q with
    | bqE => Ok (OE (fst (braw_edges r)) (snd (braw_edges r)))
    | bqNumE => Ok (OZ (braw_num_e r))
    | bqA => res_map OM (bp_A r) | bqB => res_map OM (bp_B r) | bqBT => res_map OM (bp_BT r)
    | bqDu => res_map OM (bp_Du r) | bqDv => res_map OM (bp_Dv r)
    | bqDu1 => res_map OM (bp_Du1 r) | bqDv1 => res_map OM (bp_Dv1 r)
    | bqDegU => res_map (fun m => OVals (vals m)) (bp_Du r)
    | bqDegV => res_map (fun m => OVals (vals m)) (bp_Dv r)
    | bqNv u => res_map OIdx (bp_Nv u r)
    | bqNu v => res_map OIdx (bp_Nu v r)
    | bqEu => res_map (fun m => OIdx (rows m)) (bp_B r)
    | bqEv => res_map (fun m => OIdx (cols m)) (bp_B r)
    | bqW => res_map (fun m => OVals (vals m)) (bp_B r)
    | bqLgcn => res_map OM (bp_L r)
    | bqGcn X keep => res_map OVals (bp_gcn X keep r)
    | bqPass d X a ew keep => res_map OVals (bp_pass d X a ew keep r)
    end.
  Lemma bgood_query q : good bspec (b_query q) (bp_query q).
  Proof.
    destruct q; cbn [b_query bp_query]; unfold oM.
    - eapply good_ext; [apply (bgood_map (fun x => OE (fst x) (snd x)) bgood_e) | reflexivity].
    - gd. reflexivity.
    - apply bgood_map, bgood_A.
    - apply bgood_map, bgood_B.
    - apply bgood_map, bgood_BT.
    - apply bgood_map, bgood_Du.
    - apply bgood_map, bgood_Dv.
    - apply bgood_map, bgood_Du1.
    - apply bgood_map, bgood_Dv1.
    - apply bgood_map, bgood_Du.
    - apply bgood_map, bgood_Dv.
    - apply bgood_map, bgood_Nv.
    - apply bgood_map, bgood_Nu.
    - apply bgood_map, bgood_B.
    - apply bgood_map, bgood_B.
    - apply bgood_map, bgood_B.
    - apply bgood_map, bgood_L.
    - apply bgood_map, bgood_gcn.
    - apply bgood_map, bgood_pass.
  Qed.
  Lemma bkeeps_step o : keeps_coh bspec (b_step o).
  Proof.
    destruct o; cbn [b_step]; unfold unit_out; try (apply keeps_bind; [|intro; apply keeps_ret]).
    - intros s C. unfold b_add_edges. destruct (earg_empty e); [exact C|].
      apply keeps_bind; [apply keeps_lift| |exact C].
      intro ew. apply keeps_bind; [|intro; apply keeps_wipe].
      apply keeps_for_each. intros x s' C'. unfold badd_edge. destruct (merge_fun m); cbn; [apply coh_empty|exact C'].
    - intros s C. unfold b_remove_edges.
      apply keeps_bind; [apply keeps_lift| |exact C].
      intro ew. apply keeps_bind; [|intro; apply keeps_wipe].
      apply keeps_for_each. intros x s' C'. apply coh_empty.
    - intros s C; apply coh_empty.
    - apply (keeps_good (bgood_query q)).
  Qed.
End Coherence.

Section Store.
  Context {T : Type} `{Num T}.
  Definition brel (r : braw T) (g : wmap T) : Prop := dict_ok (b_e r) /\ forall a b, dget (a, b) (b_e r) = g a b.

  Definition badd f (x : (Z * Z) * T) (r : braw T) : braw T := mkBRaw (b_nu r) (b_nv r) (dmerge f (fst x) (snd x) (b_e r)).
  Definition bdel (x : Z * Z) (r : braw T) : braw T :=
    if dhas x (b_e r) then mkBRaw (b_nu r) (b_nv r) (ddel x (b_e r)) else r.
  Lemma bfor_add m f ps s : merge_fun m = Some f ->
    exists c, for_each (badd_edge m) ps s = (mkSt (fold_left (fun r x => badd f x r) ps (st_raw s)) c, Ok tt).
  Proof.
    intros E. revert s; induction ps as [|p ps IH]; intros s; cbn [for_each fold_left].
    - exists (st_cache s). destruct s; reflexivity.
    - unfold bind, badd_edge at 1. rewrite E. apply (IH (mkSt (badd f p (st_raw s)) [])).
  Qed.
  Lemma bfor_remove l s :
    exists c, for_each bremove_edge l s = (mkSt (fold_left (fun r x => bdel x r) l (st_raw s)) c, Ok tt).
  Proof.
    revert s; induction l as [|p ps IH]; intros s; cbn [for_each fold_left].
    - exists (st_cache s). destruct s; reflexivity.
    - unfold bind, bremove_edge at 1. apply (IH (mkSt (bdel p (st_raw s)) [])).
  Qed.
  Lemma bfold_add m f ps r (g : wmap T) : merge_fun m = Some f -> brel r g ->
    let r' := fold_left (fun r x => badd f x r) ps r in
    brel r' (fold_left (fun g x => a_add same_directed m x g) ps g) /\ b_nu r' = b_nu r /\ b_nv r' = b_nv r.
  Proof.
    intros E. revert r g; induction ps as [|[[a b] w] ps IH]; intros r g R; cbn [fold_left]; auto.
    destruct (IH (badd f ((a, b), w) r) (a_add same_directed m ((a, b), w) g)) as (R' & U & V); auto.
    destruct R as [D L]. split; cbn.
    - apply dmerge_ok; auto.
    - intros c d. rewrite dget_dmerge. unfold a_add, same_directed; cbn [fst snd]. rewrite <- !L.
      destruct (eqb_spec (a, b) (c, d)) as [Q|Q].
      + injection Q as -> ->. rewrite !Z.eqb_refl. cbn [andb].
        destruct (dget (c, d) (b_e r)); auto. rewrite (merge_fun_merged m E); reflexivity.
      + replace ((a =? c) && (b =? d)) with false; auto. symmetry. apply andb_false_iff. rewrite !Z.eqb_neq.
        destruct (Z.eq_dec a c) as [->|]; auto. right. congruence.
  Qed.
  Lemma bfold_del l r (g : wmap T) : brel r g ->
    let r' := fold_left (fun r x => bdel x r) l r in
    brel r' (fold_left (fun g x => a_del same_directed x g) l g) /\ b_nu r' = b_nu r /\ b_nv r' = b_nv r.
  Proof.
    revert r g; induction l as [|[a b] l IH]; intros r g R; cbn [fold_left]; auto.
    destruct (IH (bdel (a, b) r) (a_del same_directed (a, b) g)) as (R' & U & V).
    - destruct R as [D L]. unfold bdel. destruct (dhas (a, b) (b_e r)) eqn:HS.
      + split; cbn; [apply ddel_ok; auto|]. intros c d. unfold a_del, same_directed; cbn [fst snd].
        destruct (Z.eqb_spec a c) as [->|]; cbn; [destruct (Z.eqb_spec b d) as [->|]; cbn|].
        * apply dget_ddel_same; auto.
        * rewrite dget_ddel_other by congruence. auto.
        * rewrite dget_ddel_other by congruence. auto.
      + split; auto. intros c d. unfold a_del, same_directed; cbn [fst snd].
        destruct (Z.eqb_spec a c) as [->|]; cbn; [destruct (Z.eqb_spec b d) as [->|]; cbn|]; auto.
        unfold dhas in HS. destruct (dget (c, d) (b_e r)); auto; discriminate.
    - split; auto. rewrite U, V. unfold bdel. destruct (dhas (a, b) (b_e r)); auto.
  Qed.
  Lemma bformat nu nv e (w : warg T) : earg_empty e = false ->
    format_edges (below2 nu nv) e w =
      match pairs_of e w with
      | Some _ => if ends_ok nu nv (edges_of e)
                  then Ok (edges_of e, match w with WNone => map (fun _ => n1) (edges_of e) | WNum x => [x] | WList l => l end)
                  else Err AssertionError
      | None => if ends_ok nu nv (edges_of e) then Err TypeError else Err AssertionError
      end.
  Proof.
    intros EE. destruct e as [a b|[|p l]].
    - cbn. rewrite andb_true_r. unfold below2; cbn. destruct w; cbn; destruct ((a <? nu) && (b <? nv)); reflexivity.
    - discriminate EE.
    - unfold format_edges, edges_of. change (forallb (below2 nu nv)) with (ends_ok nu nv).
      destruct w; destruct (ends_ok nu nv (p :: l)); reflexivity.
  Qed.
  Lemma badd_outcome e w m (s : bigraph T) s' o :
    b_add_edges e w m s = (s', o) ->
    let nu := b_nu (st_raw s) in let nv := b_nv (st_raw s) in
    (exists x, o = Err x /\ s' = s /\
       (earg_empty e = false /\
        (pairs_of e w = None \/ ends_ok nu nv (edges_of e) = false \/
         (known m = false /\ exists p ps, pairs_of e w = Some (p :: ps)))))
    \/ (o = Ok tt /\ earg_empty e = true /\ s' = s)
    \/ (o = Ok tt /\ earg_empty e = false /\ exists ps, pairs_of e w = Some ps /\
        ends_ok nu nv (edges_of e) = true /\
        (known m = true \/ ps = []) /\ st_cache s' = [] /\
        st_raw s' = match merge_fun m with
                    | Some f => fold_left (fun r x => badd f x r) ps (st_raw s)
                    | None => st_raw s
                    end).
  Proof.
    cbv zeta. unfold b_add_edges. destruct (earg_empty e) eqn:EE.
    { intros E; injection E as <- <-. auto. }
    intros E. unfold bind at 1, lift in E. rewrite bformat in E by auto.
    destruct (pairs_of e w) as [ps|] eqn:P; destruct (ends_ok (b_nu (st_raw s)) (b_nv (st_raw s)) (edges_of e)) eqn:B.
    2-4: injection E as <- <-; left; eexists; intuition eauto.
    assert (C : combine (edges_of e) (match w with WNone => map (fun _ => n1) (edges_of e) | WNum x => [x] | WList l => l end) = ps).
    { destruct e, w; cbn in P; try discriminate; injection P as <-; cbn; auto. apply combine_map_const. }
    cbn [fst snd] in E. rewrite C in E. clear C.
    destruct (merge_fun m) as [f|] eqn:MF.
    - right; right. destruct (bfor_add m ps s MF) as [c F].
      unfold bind in E. rewrite F in E. injection E as <- <-.
      split; auto. split; auto. exists ps. split; auto. split; auto. split; [left; destruct m; auto; discriminate|].
      split; reflexivity.
    - assert (KM : known m = false) by (destruct m; auto; discriminate).
      destruct ps as [|p ps].
      + right; right. cbn in E. injection E as <- <-. split; auto. split; auto. exists []. cbn. auto 10.
      + left. cbn in E. unfold bind, badd_edge in E. rewrite MF in E. injection E as <- <-.
        eexists. split; [reflexivity|]. split; auto. split; auto. right; right. eauto.
  Qed.
  Lemma badd_rel e w m (s : bigraph T) g : brel (st_raw s) g ->
    let s' := fst (b_add_edges e w m s) in
    brel (st_raw s') (bs_add (b_nu (st_raw s)) (b_nv (st_raw s)) e w m g) /\
    b_nu (st_raw s') = b_nu (st_raw s) /\ b_nv (st_raw s') = b_nv (st_raw s).
  Proof.
    intros R. cbv zeta. destruct (b_add_edges e w m s) as [s' o] eqn:E. cbn [fst]. unfold bs_add.
    apply badd_outcome in E as [(x & -> & -> & EE & D)|[(-> & EE & ->)|(-> & EE & ps & P & B & KM & C & Q)]].
    - split; auto. destruct D as [->|[->|(-> & p & ps & ->)]]; auto.
      + destruct (pairs_of e w); auto.
      + cbn. rewrite andb_false_r; auto.
    - split; auto. destruct e as [|[|]]; try discriminate. destruct w; cbn; rewrite ?orb_true_r; cbn; auto.
    - rewrite P, B. cbn [andb]. destruct (merge_fun m) as [f|] eqn:MF.
      + assert (K : known m = true) by (destruct m; auto; discriminate). rewrite K. cbn. rewrite Q. apply bfold_add; auto.
      + assert (ps = []) as -> by (destruct KM as [KM|KM]; auto; destruct m; discriminate).
        rewrite orb_true_r, Q. cbn. auto.
  Qed.
  Lemma bremove_outcome e (s : bigraph T) s' o :
    b_remove_edges e s = (s', o) ->
    (exists x, o = Err x /\ s' = s /\
       (earg_empty e = true \/ ends_ok (b_nu (st_raw s)) (b_nv (st_raw s)) (edges_of e) = false))
    \/ (o = Ok tt /\ earg_empty e = false /\ ends_ok (b_nu (st_raw s)) (b_nv (st_raw s)) (edges_of e) = true /\
        st_cache s' = [] /\ st_raw s' = fold_left (fun r x => bdel x r) (edges_of e) (st_raw s)).
  Proof.
    unfold b_remove_edges, bind at 1, lift. destruct (earg_empty e) eqn:EE.
    - assert (format_edges (below2 (b_nu (st_raw s)) (b_nv (st_raw s))) e (@WNone T) = Err IndexError) as ->.
      { destruct e as [|[|]]; try discriminate; reflexivity. }
      intros E; injection E as <- <-. left. eauto 10.
    - rewrite bformat by auto.
      assert (exists ps, pairs_of e (@WNone T) = Some ps) as [ps ->] by (destruct e; cbn; eauto).
      destruct (ends_ok (b_nu (st_raw s)) (b_nv (st_raw s)) (edges_of e)) eqn:B.
      + cbn [fst]. destruct (bfor_remove (edges_of e) s) as [c F].
        unfold bind. rewrite F. intros E; injection E as <- <-. right. cbn. auto 10.
      + intros E; injection E as <- <-. left; eauto 10.
  Qed.
  Lemma bremove_rel e (s : bigraph T) g : brel (st_raw s) g ->
    let s' := fst (b_remove_edges e s) in
    brel (st_raw s') (bs_remove (b_nu (st_raw s)) (b_nv (st_raw s)) e g) /\
    b_nu (st_raw s') = b_nu (st_raw s) /\ b_nv (st_raw s') = b_nv (st_raw s).
  Proof.
    intros R. cbv zeta. destruct (b_remove_edges e s) as [s' o] eqn:E. cbn [fst]. unfold bs_remove.
    apply bremove_outcome in E as [(x & -> & -> & D)|(-> & EE & B & C & Q)].
    - split; auto. destruct D as [D| ->]; auto. destruct e as [|[|]]; try discriminate. cbn. auto.
    - rewrite B, Q. apply bfold_del; auto.
  Qed.
  Lemma brel_empty nu nv : brel (mkBRaw nu nv []) empty_map.
  Proof. split; [constructor|reflexivity]. Qed.
  Lemma bstep_rel o (s : bigraph T) g : coh bspec s -> brel (st_raw s) g ->
    let s' := fst (b_step o s) in
    brel (st_raw s') (b_spec_step (b_nu (st_raw s)) (b_nv (st_raw s)) g o) /\
    b_nu (st_raw s') = b_nu (st_raw s) /\ b_nv (st_raw s') = b_nv (st_raw s).
  Proof.
    intros C R. destruct o; cbn [b_step b_spec_step]; rewrite ?unit_out_fst.
    - apply badd_rel; auto.
    - apply bremove_rel; auto.
    - cbn. split; [apply brel_empty|auto].
    - rewrite (good_raw (bgood_query q) C). auto.
  Qed.
  Lemma brun_rel ops (s : bigraph T) g nu nv : coh bspec s -> brel (st_raw s) g -> b_nu (st_raw s) = nu -> b_nv (st_raw s) = nv ->
    let s' := fst (b_run ops s) in
    coh bspec s' /\ brel (st_raw s') (fold_left (b_spec_step nu nv) ops g) /\ b_nu (st_raw s') = nu /\ b_nv (st_raw s') = nv.
  Proof.
    revert s g; induction ops as [|o ops IH]; intros s g C R U V; cbn [b_run fold_left]; auto.
    pose proof (bstep_rel o C R) as (R1 & U1 & V1). rewrite U, V in *. pose proof (bkeeps_step o C) as C1.
    destruct (b_step o s) as [s1 x]; cbn [fst] in *.
    specialize (IH s1 _ C1 R1 U1 V1). destruct (b_run ops s1); exact IH.
  Qed.
  Lemma bnew_rel nu nv e w m s : b_new nu nv e w m = Ok s ->
    coh bspec s /\ brel (st_raw s) (b_spec_new nu nv e w m) /\ b_nu (st_raw s) = nu /\ b_nv (st_raw s) = nv /\ 0 < nv /\ st_cache s = [].
  Proof.
    unfold b_new. destruct (Z.ltb_spec 0 nv) as [P|P]; [|discriminate].
    pose proof (brel_empty nu nv) as R0. destruct e as [ea|]; intros E.
    - destruct (@badd_rel ea w m (mkSt (mkBRaw nu nv []) []) _ R0) as (A & B & D).
      destruct (b_add_edges ea w m (mkSt (mkBRaw nu nv []) [])) as [s1 [u|x]] eqn:Q; [|discriminate].
      injection E as <-. apply badd_outcome in Q.
      assert (E1 : st_cache s1 = []).
      { destruct Q as [(x & Q & _)|[(_ & _ & ->)|(_ & _ & ps & _ & _ & _ & Q & _)]]; auto; discriminate. }
      cbn in *. split; [intros k v; rewrite E1; discriminate|]. auto 10.
    - injection E as <-. split; [apply coh_empty|]. auto 10.
  Qed.
  Lemma breach_rel nu nv e w m ops s : b_reach nu nv e w m ops s ->
    coh bspec s /\ brel (st_raw s) (b_spec nu nv e w m ops) /\ b_nu (st_raw s) = nu /\ b_nv (st_raw s) = nv /\ 0 < nv.
  Proof.
    intros (s0 & E & ->). apply bnew_rel in E as (C & R & U & V & P & _).
    destruct (brun_rel ops C R U V) as (C' & R' & U' & V'). auto.
  Qed.
  (** what remains below the bounds *)
  Definition b_in (P Q : Z -> Prop) (g : wmap T) : Prop := forall a b, g a b <> None -> P a /\ Q b.
  Lemma b_in_add P Q m ps (g : wmap T) : (forall k, In k (map fst ps) -> P (fst k) /\ Q (snd k)) -> b_in P Q g ->
    b_in P Q (fold_left (fun g x => a_add same_directed m x g) ps g).
  Proof.
    revert g; induction ps as [|[[a b] w] ps IH]; intros g F G; cbn [fold_left]; auto.
    apply IH; [intros k I; apply F; cbn; auto|]. intros c d. unfold a_add; cbn [fst snd]. unfold same_directed.
    destruct (Z.eqb_spec a c) as [->|]; cbn; [destruct (Z.eqb_spec b d) as [->|]; cbn|]; try apply G.
    intros _. apply (F (c, d)); cbn; auto.
  Qed.
  Lemma b_in_del P Q l (g : wmap T) : b_in P Q g -> b_in P Q (fold_left (fun g x => a_del same_directed x g) l g).
  Proof.
    revert g; induction l as [|x l IH]; intros g G; cbn [fold_left]; auto. apply IH.
    intros c d. unfold a_del. destruct (same_directed _ _ c d); [congruence|apply G].
  Qed.
  Lemma b_in_bs_add (P Q : Z -> Prop) nu nv e w m g :
    (forall k, In k (edges_of e) -> fst k < nu -> snd k < nv -> P (fst k) /\ Q (snd k)) -> b_in P Q g ->
    b_in P Q (bs_add nu nv e w m g).
  Proof.
    intros F G. unfold bs_add. destruct (pairs_of e w) as [ps|] eqn:PE; auto.
    destruct (ends_ok nu nv (edges_of e)) eqn:B; auto. destruct (known m || match ps with [] => true | _ => false end); auto. cbn [andb].
    apply b_in_add; auto. intros k I.
    assert (I' : In k (edges_of e)).
    { apply in_map_iff in I as (x & <- & I). eapply pairs_edges; eauto. }
    unfold ends_ok in B. rewrite forallb_forall in B. specialize (B _ I'). apply andb_true_iff in B as [B1 B2].
    apply Z.ltb_lt in B1, B2. auto.
  Qed.
  Lemma bspec_in (P Q : Z -> Prop) nu nv e w m ops :
    (forall ea, e = Some ea -> forall k, In k (edges_of ea) -> fst k < nu -> snd k < nv -> P (fst k) /\ Q (snd k)) ->
    Forall (fun o => forall k, match o with bAdd ea _ _ => In k (edges_of ea) | _ => False end -> fst k < nu -> snd k < nv -> P (fst k) /\ Q (snd k)) ops ->
    b_in P Q (b_spec nu nv e w m ops).
  Proof.
    intros FE FO. unfold b_spec.
    assert (G : b_in P Q (b_spec_new nu nv e w m)).
    { destruct e as [ea|]; cbn; [apply b_in_bs_add; [apply FE; auto|]|]; intros a b; unfold empty_map; congruence. }
    revert G. generalize (b_spec_new nu nv e w m). induction FO as [|o ops F1 FO IH]; intros g G; cbn [fold_left]; auto.
    apply IH. destruct o; cbn; auto.
    - apply b_in_bs_add; auto.
    - unfold bs_remove. destruct (ends_ok nu nv (edges_of e0)); auto. apply b_in_del; auto.
    - intros a b; unfold empty_map; congruence.
  Qed.
  Lemma bspec_below nu nv e w m ops : b_in (fun a => a < nu) (fun b => b < nv) (b_spec nu nv e w m ops).
  Proof.
    apply bspec_in; [tauto|]. apply Forall_forall. intros o _ k _; tauto.
  Qed.
  Lemma bspec_range nu nv e w m ops : nonneg_new e -> Forall nonneg_bop ops ->
    b_in (fun a => 0 <= a < nu) (fun b => 0 <= b < nv) (b_spec nu nv e w m ops).
  Proof.
    intros NE NO. apply bspec_in.
    - intros ea -> k I. cbn in NE. unfold nonneg_earg in NE. rewrite Forall_forall in NE. specialize (NE _ I). lia.
    - revert NO. apply Forall_impl. intros o NN k. destruct o; try tauto. intros I. cbn in NN.
      unfold nonneg_earg in NN. rewrite Forall_forall in NN. specialize (NN _ I). lia.
  Qed.

  Lemma breported (s : bigraph T) g : coh bspec s -> brel (st_raw s) g ->
    exists es ws, snd (b_query bqE s) = Ok (OE es ws) /\
      snd (b_query bqNumE s) = Ok (OZ (Z.of_nat (length es))) /\
      length ws = length es /\ NoDup es /\
      (forall a b w, In ((a, b), w) (combine es ws) <-> g a b = Some w).
  Proof.
    intros C [D L]. rewrite (good_answer (bgood_query bqE) C), (good_answer (bgood_query bqNumE) C). cbn [bp_query braw_edges fst snd].
    do 2 eexists; split; [reflexivity|]. unfold braw_num_e. unfold dkeys at 1. rewrite map_length. split; [reflexivity|].
    split; [unfold dkeys, dvals; rewrite !map_length; auto|]. split; [exact D|].
    intros a b w. rewrite combine_keys_vals, <- L. split; [apply In_dget; auto|apply dget_In].
  Qed.
  Lemma brebuild_fold f nu nv l d : NoDup (dkeys d ++ dkeys l) ->
    fold_left (fun r x => badd f x r) l (mkBRaw nu nv d) = mkBRaw nu nv (d ++ l).
  Proof.
    revert d; induction l as [|[k w] l IH]; intros d ND; cbn [fold_left]; [rewrite app_nil_r; auto|].
    unfold badd at 2; cbn [b_nu b_nv b_e fst snd]. unfold dkeys in *. cbn in ND. rewrite dmerge_new.
    - rewrite IH; [rewrite <- app_assoc; reflexivity|]. rewrite map_app, <- app_assoc. exact ND.
    - apply NoDup_remove_2 in ND. intros I. apply ND, in_or_app; auto.
  Qed.
  (** adding a duplicate-free list of edges to an empty graph stores exactly that list *)
  Lemma bnew_nodup nu nv l m : 0 < nv -> m <> MOther -> NoDup (map fst l) -> ends_ok nu nv (map fst l) = true ->
    b_new nu nv (Some (EMany (map fst l))) (WList (map snd l)) m = Ok (mkSt (mkBRaw nu nv l) []).
  Proof.
    intros P K ND EO. unfold b_new. replace (0 <? nv) with true by (symmetry; apply Z.ltb_lt; auto).
    destruct (b_add_edges (EMany (map fst l)) (WList (map snd l)) m (mkSt (mkBRaw nu nv []) [])) as [s1 o] eqn:E.
    apply badd_outcome in E. cbn [st_raw b_nu b_nv edges_of pairs_of] in E.
    assert (KM : known m = true) by (destruct m; auto; congruence).
    assert (CB : combine (map fst l) (map snd l) = l) by (clear; induction l as [|[]]; cbn; congruence).
    destruct E as [(x & _ & _ & EE & [D|[D|[D _]]])|[(-> & EE & ->)|(-> & EE & ps & PE & B & _ & C & Q)]]; try congruence.
    - destruct l as [|]; [|discriminate]. reflexivity.
    - injection PE as <-. rewrite CB in Q. destruct (merge_fun m) as [f|] eqn:MF; [|destruct m; discriminate].
      rewrite brebuild_fold in Q by auto. cbn in Q. destruct s1; cbn in *; subst; reflexivity.
  Qed.
  Lemma brel_ends (r : braw T) g nu nv : brel r g -> b_in (fun a => a < nu) (fun b => b < nv) g -> ends_ok nu nv (map fst (b_e r)) = true.
  Proof.
    intros [D L] I. apply forallb_forall. intros [a b] K. apply map_fst_In in K as (w & K).
    apply In_dget in K; auto. rewrite L in K. destruct (I a b) as [A B]; [congruence|]. cbn.
    apply Z.ltb_lt in A, B. rewrite A, B; reflexivity.
  Qed.
  (** switch_uv *)
  Definition swap_map (g : wmap T) : wmap T := fun a b => g b a.
  Lemma bswitch_raw (s : bigraph T) g : brel (st_raw s) g ->
    b_switch s = mkSt (mkBRaw (b_nv (st_raw s)) (b_nu (st_raw s)) (map (fun kv => (swap_pair (fst kv), snd kv)) (b_e (st_raw s)))) [] /\
    brel (st_raw (b_switch s)) (swap_map g).
  Proof.
    intros [D L].
    assert (E : b_switch s = mkSt (mkBRaw (b_nv (st_raw s)) (b_nu (st_raw s)) (map (fun kv => (swap_pair (fst kv), snd kv)) (b_e (st_raw s)))) []).
    { unfold b_switch, clear_cache; cbn. rewrite dict_of_nodup by (apply swapped_nodup; auto). reflexivity. }
    split; auto. rewrite E. cbn. split; cbn.
    - apply swapped_nodup; auto.
    - intros a b. rewrite dget_swap. apply L.
  Qed.
End Store.
