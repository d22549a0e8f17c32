(** Graph: cache coherence and the pure value of every query. *)
From Verif Require Import Num PyDict PyDictFacts Coo CooFacts ModelBase CacheFacts ModelGraph.
Set Implicit Arguments.

Section GraphPure.
  Context {T : Type} `{Num T}.

  Definition res_map {A B} (f : A -> B) (r : res A) : res B :=
    match r with Ok a => Ok (f a) | Err e => Err e end.

  Definition p_eb (r : raw T) : list (Z * Z) * list T :=
    (fst (raw_edges r) ++ map swap_pair (dkeys (r_e r)), snd (raw_edges r) ++ dvals (r_e r)).
  Definition p_A (r : raw T) : res (coo T) :=
    if raw_num_e r =? 0 then Ok []
    else mk_sparse (r_nv r) (r_nv r) (fst (p_eb r)) (snd (p_eb r)).
  Definition p_D (r : raw T) : res (coo T) := res_map (diag_rowsum (r_nv r)) (p_A r).
  Definition p_D1 (r : raw T) : res (coo T) := res_map inv_vals (p_D r).
  Definition p_D12 (r : raw T) : res (coo T) := res_map isq_vals (p_D r).
  Definition p_Apow (h : Z) (r : raw T) : res (coo T) :=
    res_map (fun A => spow A A (Z.to_nat (h - 1))) (p_A r).
  Definition strip (r : raw T) : raw T := mkRaw (r_nv r) (r_e r) [] false.
  Definition extra (r : raw T) : raw T := mkRaw (r_nv r) (r_e r) (r_loop r) true.
  Definition p_L (r : raw T) : res (coo T) :=
    res_bind (p_D (strip r)) (fun D => res_map (csub D) (p_A (strip r))).
  Definition p_Lsym (r : raw T) : res (coo T) :=
    res_bind (p_D12 (strip r)) (fun D =>
      res_map (fun A => coalesce (ident (r_nv r) ++ cmap nopp (spmm (spmm D A) D))) (p_A (strip r))).
  Definition p_Lrw (r : raw T) : res (coo T) :=
    res_bind (p_D1 (strip r)) (fun D =>
      res_map (fun A => coalesce (ident (r_nv r) ++ cmap nopp (spmm D A))) (p_A (strip r))).
  Definition p_Lgcn (r : raw T) : res (coo T) :=
    res_bind (p_D12 (extra r)) (fun D =>
      res_map (fun A => coalesce (spmm (spmm D A) D)) (p_A (extra r))).

  Definition gspec (k : ckey) (r : raw T) : res (cval T) :=
    match k with
    | Ke => Ok (injE (raw_edges r))
    | Keboth => Ok (injE (p_eb r))
    | KA => res_map VM (p_A r)
    | KD => res_map VM (p_D r)
    | KD1 => res_map VM (p_D1 r)
    | KD12 => res_map VM (p_D12 r)
    | KApow h => res_map VM (p_Apow h r)
    | KL => res_map VM (p_L r)
    | KLsym => res_map VM (p_Lsym r)
    | KLrw => res_map VM (p_Lrw r)
    | KLgcn => res_map VM (p_Lgcn r)
    | _ => Err KeyError
    end.

  Ltac gd := eapply good_ext; [repeat first
    [ apply good_bind | apply good_ask | apply good_lift | apply good_ret | apply good_raise | intro ] | ].

  Lemma good_e : good gspec get_e (fun r => Ok (raw_edges r)).
  Proof.
    apply good_memoE; [|reflexivity]. gd. reflexivity.
  Qed.
  Lemma good_eb : good gspec get_e_both (fun r => Ok (p_eb r)).
  Proof.
    apply good_memoE; [|reflexivity].
    eapply good_ext; [apply good_bind; [apply good_e|]; intro; gd; intro; reflexivity|].
    intros r; reflexivity.
  Qed.
  Lemma good_A : good gspec get_A p_A.
  Proof.
    apply good_memoM; [|reflexivity].
    eapply good_ext; [apply good_if_raw with (f := fun _ _ => Ok [])
      (k := fun r r' => res_bind (Ok (p_eb r')) (fun ew => mk_sparse (r_nv r) (r_nv r) (fst ew) (snd ew)))|].
    - intros r. apply good_ret.
    - intros r. apply good_bind with (f := fun r => Ok (p_eb r))
        (k := fun ew _ => mk_sparse (r_nv r) (r_nv r) (fst ew) (snd ew)); [apply good_eb|].
      intro a. apply good_lift.
    - intros r; reflexivity.
  Qed.
  Lemma good_map {A B} (g : M T (raw T) A) f (h : A -> B) :
    good gspec g f -> good gspec (bind g (fun a => ret (h a))) (fun r => res_map h (f r)).
  Proof.
    intros G. eapply good_ext; [apply good_bind; [exact G|]; intro; apply good_ret|].
    intros r; cbv beta; destruct (f r); reflexivity.
  Qed.
  Lemma good_D : good gspec get_D p_D.
  Proof.
    apply good_memoM; [|reflexivity].
    eapply good_ext; [apply good_bind; [apply good_A|]; intro; gd; intro; reflexivity|].
    intros r; unfold p_D; cbv beta; destruct (p_A r); reflexivity.
  Qed.
  Lemma good_D1 : good gspec get_D1 p_D1.
  Proof. apply good_memoM; [apply good_map, good_D | reflexivity]. Qed.
  Lemma good_D12 : good gspec get_D12 p_D12.
  Proof. apply good_memoM; [apply good_map, good_D | reflexivity]. Qed.

  Definition p_N (v hop : Z) (r : raw T) : res (list Z) :=
    if 1 <=? hop then
      res_bind (if hop =? 1 then p_A r else p_Apow hop r) (fun Ak =>
      res_map (row_idx Ak) (py_index (r_nv r) v))
    else Err AssertionError.
  Lemma good_N v hop : good gspec (get_N v hop) (p_N v hop).
  Proof.
    unfold get_N, p_N. destruct (1 <=? hop); [|apply good_raise].
    eapply good_ext; [apply good_bind; [apply good_if; [apply good_A|]|]|].
    - apply good_memoM; [apply good_map, good_A | intros r; reflexivity].
    - intro. gd. intro. reflexivity.
    - intros r; cbn. destruct (hop =? 1).
      + destruct (p_A r) as [A|]; cbn; auto; destruct (py_index (r_nv r) v); reflexivity.
      + unfold p_Apow; destruct (p_A r) as [A|]; cbn; auto; destruct (py_index (r_nv r) v); reflexivity.
  Qed.

  (** a scratch copy with an emptied cache *)
  Lemma good_tmp {A} (prep : M T (raw T) unit) (ch : raw T -> raw T) (g : M T (raw T) A) f :
    (forall s, prep s = (mkSt (ch (st_raw s)) [], Ok tt)) ->
    good gspec g f -> good gspec (on_tmp prep g) (fun r => f (ch r)).
  Proof.
    intros P G s C. unfold on_tmp. rewrite P. cbn.
    exists (st_cache s). rewrite st_eta. split; [|exact C].
    f_equal. rewrite (good_answer G); [reflexivity | apply coh_empty].
  Qed.
  Lemma prep_strip (s : graph T) : remove_selfloop s = (mkSt (strip (st_raw s)) [], Ok tt).
  Proof. reflexivity. Qed.
  Lemma prep_extra (s : graph T) : set_extra true s = (mkSt (extra (st_raw s)) [], Ok tt).
  Proof. reflexivity. Qed.

  Lemma good_L : good gspec get_L p_L.
  Proof.
    apply good_memoM; [|reflexivity].
    eapply good_ext; [apply good_tmp with (ch := strip); [apply prep_strip|]|].
    - apply good_bind; [apply good_D|]. intro D. apply (good_map (fun A => csub D A) good_A).
    - intros r; cbn. unfold p_L. destruct (p_D (strip r)); reflexivity.
  Qed.
  Lemma good_Lsym : good gspec get_Lsym p_Lsym.
  Proof.
    apply good_memoM; [|reflexivity].
    eapply good_ext; [apply good_bind; [apply good_tmp with (ch := strip); [apply prep_strip|]|]|].
    - apply good_bind; [apply good_D12|]. intro D. apply (good_map (fun A => spmm (spmm D A) D) good_A).
    - intro L. gd. intro; reflexivity.
    - intros r; unfold p_Lsym; cbn.
      destruct (p_D12 (strip r)); cbn; auto. destruct (p_A (strip r)); reflexivity.
  Qed.
  Lemma good_Lrw : good gspec get_Lrw p_Lrw.
  Proof.
    apply good_memoM; [|reflexivity].
    eapply good_ext; [apply good_bind; [apply good_tmp with (ch := strip); [apply prep_strip|]|]|].
    - apply good_bind; [apply good_D1|]. intro D. apply (good_map (fun A => spmm D A) good_A).
    - intro L. gd. intro; reflexivity.
    - intros r; unfold p_Lrw; cbn.
      destruct (p_D1 (strip r)); cbn; auto. destruct (p_A (strip r)); reflexivity.
  Qed.
  Lemma good_Lgcn : good gspec get_Lgcn p_Lgcn.
  Proof.
    apply good_memoM; [|reflexivity].
    eapply good_ext; [apply good_tmp with (ch := extra); [apply prep_extra|]|].
    - apply good_bind; [apply good_D12|]. intro D.
      apply (good_map (fun A => coalesce (spmm (spmm D A) D)) good_A).
    - intros r; unfold p_Lgcn; cbv beta; destruct (p_D12 (extra r)); reflexivity.
  Qed.

  Definition p_gcn (X : Z -> T) keep (r : raw T) : res (list T) :=
    res_map (fun L => map (spmv (cdrop_opt keep L) X) (range (r_nv r))) (p_Lgcn r).
  Lemma good_gcn X keep : good gspec (gcn_smooth X keep) (p_gcn X keep).
  Proof.
    eapply good_ext; [apply good_bind; [apply good_Lgcn|]; intro; gd; intro; reflexivity|].
    intros r; unfold p_gcn; cbv beta; destruct (p_Lgcn r); reflexivity.
  Qed.

  Definition p_v2v (X : Z -> T) (a : aggr) ew keep (r : raw T) : res (list T) :=
    if aggr_ok a then
      res_bind (p_A r) (fun A =>
        match ew with
        | None =>
            match a with
            | AggrMean => res_map (fun D1 => map (spmv D1 (spmv (cdrop_opt keep A) X)) (range (r_nv r))) (p_D1 r)
            | AggrSum => Ok (map (spmv (cdrop_opt keep A) X) (range (r_nv r)))
            | _ => Err TypeError
            end
        | Some w =>
            if Nat.eqb (length w) (length A) then
              let P := cdrop_opt keep (coalesce (with_vals A w)) in
              match a with
              | AggrMean => Ok (map (mean_weighted P X) (range (r_nv r)))
              | AggrSum => Ok (map (spmv P X) (range (r_nv r)))
              | _ => Ok (map (spmv (csoftmax P) X) (range (r_nv r)))
              end
            else Err AssertionError
        end)
    else Err AssertionError.
  Lemma good_v2v X a ew keep : good gspec (g_v2v X a ew keep) (p_v2v X a ew keep).
  Proof.
    unfold g_v2v, p_v2v. destruct (aggr_ok a); [|apply good_raise].
    destruct ew as [w|].
    - apply good_bind; [apply good_A|]. intro A. destruct (Nat.eqb (length w) (length A)); [|apply good_raise].
      destruct a; gd; intros r; reflexivity.
    - apply good_bind; [apply good_A|]. intro A.
      destruct a.
      + eapply good_ext; [apply good_bind; [apply good_ask|]; intro r; apply (good_map _ good_D1)|].
        intros r; reflexivity.
      + gd. intros r; reflexivity.
      + gd. intros r; reflexivity.
      + gd. intros r; reflexivity.
  Qed.

  (** pure value of a query *)
  Definition p_query (q : gquery T) (r : raw T) : res (out T) :=
    match q with
    | QE => Ok (OE (fst (raw_edges r)) (snd (raw_edges r)))
    | QEboth => Ok (OE (fst (p_eb r)) (snd (p_eb r)))
    | QNumE => Ok (OZ (raw_num_e r))
    | QA => res_map OM (p_A r) | QD => res_map OM (p_D r)
    | QD1 => res_map OM (p_D1 r) | QD12 => res_map OM (p_D12 r)
    | QN v h => res_map OIdx (p_N v h r)
    | QL => res_map OM (p_L r) | QLsym => res_map OM (p_Lsym r)
    | QLrw => res_map OM (p_Lrw r) | QLgcn => res_map OM (p_Lgcn r)
    | QDeg => res_map (fun m => OVals (vals m)) (p_D r)
    | QEsrc => res_map (fun m => OIdx (cols m)) (p_A r)
    | QEdst => res_map (fun m => OIdx (rows m)) (p_A r)
    | QEweight => res_map (fun m => OVals (vals m)) (p_A r)
    | QGcn X keep => res_map OVals (p_gcn X keep r)
    | QV2v X a ew keep => res_map OVals (p_v2v X a ew keep r)
    end.

  Lemma good_query q : good gspec (g_query q) (p_query q).
  Proof.
    destruct q; cbn [g_query p_query].
    - eapply good_ext; [apply (good_map (fun x => OE (fst x) (snd x)) good_e) | reflexivity].
    - eapply good_ext; [apply (good_map (fun x => OE (fst x) (snd x)) good_eb) | reflexivity].
    - gd. reflexivity.
    - apply (good_map OM good_A).
    - apply (good_map OM good_D).
    - apply (good_map OM good_D1).
    - apply (good_map OM good_D12).
    - apply (good_map OIdx (good_N v hop)).
    - apply (good_map OM good_L).
    - apply (good_map OM good_Lsym).
    - apply (good_map OM good_Lrw).
    - apply (good_map OM good_Lgcn).
    - apply (good_map _ good_D).
    - apply (good_map _ good_A).
    - apply (good_map _ good_A).
    - apply (good_map _ good_A).
    - apply (good_map _ (good_gcn X keep)).
    - apply (good_map _ (good_v2v X a ew keep)).
  Qed.

  (** mutations keep the cache coherent *)
  Lemma keeps_add_edge m a b w : keeps_coh gspec (add_edge m a b w).
  Proof.
    intros s C. unfold add_edge. destruct (merge_fun m); cbn; [apply coh_empty | exact C].
  Qed.
  Lemma keeps_add_edges n e w m : keeps_coh gspec (add_edges n e w m).
  Proof.
    intros s C. unfold add_edges. destruct (earg_empty e); [exact C|].
    apply keeps_bind; [apply keeps_lift| |exact C].
    intro ew. apply keeps_bind; [|intro; apply keeps_wipe].
    apply keeps_for_each. intros; apply keeps_add_edge.
  Qed.
  Lemma keeps_remove_edges n e : keeps_coh gspec (remove_edges n e).
  Proof.
    intros s C. unfold remove_edges.
    apply keeps_bind; [apply keeps_lift| |exact C].
    intro ew. apply keeps_bind; [|intro; apply keeps_wipe].
    apply keeps_for_each. intros x s' C'. apply coh_empty.
  Qed.
  Lemma keeps_step o : keeps_coh gspec (g_step o).
  Proof.
    destruct o; cbn; try (apply keeps_bind; [|intro; apply keeps_ret]).
    - apply keeps_add_edges.
    - apply keeps_remove_edges.
    - intros s C; apply coh_empty.
    - intros s C; apply coh_empty.
    - intros s C; apply coh_empty.
    - intros s C; apply coh_empty.
    - apply (keeps_good (good_query q)).
  Qed.
  Lemma keeps_run ops s : coh gspec s -> coh gspec (fst (g_run ops s)).
  Proof.
    revert s; induction ops as [|o ops IH]; intros s C; cbn; [exact C|].
    pose proof (keeps_step o C) as C1. destruct (g_step o s) as [s1 x]; cbn in C1.
    specialize (IH s1 C1). destruct (g_run ops s1); exact IH.
  Qed.
  Lemma coh_new nv e w ex m s : g_new nv e w ex m = Ok s -> coh gspec s.
  Proof.
    unfold g_new. destruct (0 <? nv); [|discriminate].
    destruct e as [ea|]; intros E.
    - assert (C0 : coh gspec (mkSt (mkRaw nv [] [] ex) [])) by apply coh_empty.
      pose proof (keeps_add_edges norm_und ea w m C0) as C1. unfold g_add_edges in E.
      destruct (add_edges norm_und ea w m (mkSt (mkRaw nv [] [] ex) [])) as [s1 [u|x]]; [|discriminate].
      injection E as <-; exact C1.
    - injection E as <-. apply coh_empty.
  Qed.
End GraphPure.
