(** Cache coherence and the store of a DiGraph. *)
From Coq Require Import Ring Permutation Sorted.
From Verif Require Import Num PyDict PyDictFacts Coo CooFacts MatFacts ModelBase CacheFacts ModelGraph GraphFacts
  SpecGraph SpecGraphOps StoreFacts RebuildFacts GraphMatrix GraphReach ModelDiGraph SpecDiGraph.
Set Implicit Arguments.

Section Coherence.
  Context {T : Type} `{Num T}.

  Definition q_A (r : raw T) : res (coo T) :=
    if raw_num_e r =? 0 then Ok []
    else mk_sparse (r_nv r) (r_nv r) (fst (raw_edges r)) (snd (raw_edges r)).
  Definition q_AT (r : raw T) : res (coo T) := res_map (fun A => coalesce (ctrans A)) (q_A r).
  Definition q_Din (r : raw T) : res (coo T) := res_map (diag_rowsum (r_nv r)) (q_AT r).
  Definition q_Dout (r : raw T) : res (coo T) := res_map (diag_rowsum (r_nv r)) (q_A r).
  Definition q_Din1 (r : raw T) : res (coo T) := res_map inv_vals (q_Din r).
  Definition q_Dout1 (r : raw T) : res (coo T) := res_map inv_vals (q_Dout r).
  Definition dspec (k : ckey) (r : raw T) : res (cval T) :=
    match k with
    | Ke => Ok (injE (raw_edges r))
    | KA => res_map VM (q_A r)
    | KAT => res_map VM (q_AT r)
    | KDin => res_map VM (q_Din r)
    | KDout => res_map VM (q_Dout r)
    | KDin1 => res_map VM (q_Din1 r)
    | KDout1 => res_map VM (q_Dout1 r)
    | _ => Err KeyError
    end.
  Ltac gd := eapply good_ext; [repeat first
    [ apply good_bind | apply good_ask | apply good_lift | apply good_ret | apply good_raise | intro ] | ].
  Lemma dgood_map {A B} (g : M T (raw T) A) f (h : A -> B) :
    good dspec g f -> good dspec (bind g (fun a => ret (h a))) (fun r => res_map h (f r)).
  Proof.
    intros G. eapply good_ext; [apply good_bind; [exact G|]; intro; apply good_ret|].
    intros r; cbv beta; destruct (f r); reflexivity.
  Qed.
  Lemma dgood_e : good dspec get_e (fun r => Ok (raw_edges r)).
  Proof. apply good_memoE; [|reflexivity]. gd. reflexivity. Qed.
  Lemma dgood_A : good dspec dget_A q_A.
  Proof.
    apply good_memoM; [|reflexivity].
    eapply good_ext; [apply good_if_raw with (f := fun _ _ => Ok [])
      (k := fun r r' => res_bind (Ok (raw_edges r')) (fun ew => mk_sparse (r_nv r) (r_nv r) (fst ew) (snd ew)))|].
    - intros r. apply good_ret.
    - intros r. apply good_bind with (f := fun r => Ok (raw_edges r))
        (k := fun ew _ => mk_sparse (r_nv r) (r_nv r) (fst ew) (snd ew)); [apply dgood_e|].
      intro a. apply good_lift.
    - intros r; reflexivity.
  Qed.
  Lemma dgood_AT : good dspec dget_AT q_AT.
  Proof. apply good_memoM; [apply dgood_map, dgood_A | reflexivity]. Qed.
  Lemma dgood_Din : good dspec dget_Din q_Din.
  Proof.
    apply good_memoM; [|reflexivity].
    eapply good_ext; [apply good_bind; [apply dgood_AT|]; intro; gd; intro; reflexivity|].
    intros r; unfold q_Din; cbv beta; destruct (q_AT r); reflexivity.
  Qed.
  Lemma dgood_Dout : good dspec dget_Dout q_Dout.
  Proof.
    apply good_memoM; [|reflexivity].
    eapply good_ext; [apply good_bind; [apply dgood_A|]; intro; gd; intro; reflexivity|].
    intros r; unfold q_Dout; cbv beta; destruct (q_A r); reflexivity.
  Qed.
  Lemma dgood_Din1 : good dspec dget_Din1 q_Din1.
  Proof. apply good_memoM; [apply dgood_map, dgood_Din | reflexivity]. Qed.
  Lemma dgood_Dout1 : good dspec dget_Dout1 q_Dout1.
  Proof. apply good_memoM; [apply dgood_map, dgood_Dout | reflexivity]. Qed.
  Definition q_N (m : raw T -> res (coo T)) (v : Z) (r : raw T) : res (list Z) :=
    res_bind (m r) (fun A => res_map (row_idx A) (py_index (r_nv r) v)).
  Lemma dgood_N g f v : good dspec g f -> good dspec (dget_N g v) (q_N f v).
  Proof.
    intros G. eapply good_ext; [apply good_bind; [exact G|]; intro; gd; intro; reflexivity|].
    intros r; unfold q_N; cbv beta; destruct (f r); [|reflexivity]. cbn [res_bind].
    destruct (py_index (r_nv r) v); reflexivity.
  Qed.
  Definition q_v2v (X : Z -> T) (a : aggr) (ew : option (list T)) (dir : option bool) keep (r : raw T) : res (list T) :=
    if aggr_ok a then
      match dir with
      | None => Err AssertionError
      | Some s2d =>
          match ew with
          | None =>
              res_bind (if s2d then q_AT r else q_A r) (fun A => let P := cdrop_opt keep A in
              match a with
              | AggrMean => res_map (fun D1 => map (spmv D1 (spmv P X)) (range (r_nv r))) (if s2d then q_Din1 r else q_Dout1 r)
              | AggrSum => Ok (map (spmv P X) (range (r_nv r)))
              | _ => Ok (map (spmv (csoftmax P) X) (range (r_nv r)))
              end)
          | Some w =>
              res_bind (q_A r) (fun A =>
              if Nat.eqb (length w) (length A) then
                let B := with_vals A w in
                let P := cdrop_opt keep (coalesce (if s2d then ctrans B else B)) in
                match a with
                | AggrMean => Ok (map (mean_weighted P X) (range (r_nv r)))
                | AggrSum => Ok (map (spmv P X) (range (r_nv r)))
                | _ => Ok (map (spmv (csoftmax P) X) (range (r_nv r)))
                end
              else Err AssertionError)
          end
      end
    else Err AssertionError.
  Lemma dgood_v2v X a ew dir keep : good dspec (d_v2v X a ew dir keep) (q_v2v X a ew dir keep).
  Proof.
    unfold d_v2v, q_v2v. destruct (aggr_ok a); [|apply good_raise]. destruct dir as [s2d|]; [|apply good_raise].
    destruct ew as [w|].
    - apply good_bind; [apply dgood_A|]. intro A. destruct (Nat.eqb (length w) (length A)); [|apply good_raise].
      destruct a; gd; intros r; reflexivity.
    - apply good_bind; [destruct s2d; [apply dgood_AT|apply dgood_A]|]. intro A. cbv zeta.
      destruct a; try (gd; intros r; reflexivity).
      eapply good_ext; [apply good_bind; [apply good_ask|]; intro r;
        apply (@dgood_map _ _ _ (fun r => if s2d then q_Din1 r else q_Dout1 r)); destruct s2d; [apply dgood_Din1|apply dgood_Dout1]|].
      intros r; reflexivity.
  Qed.
  Definition dp_query (q : dquery T) (r : raw T) : res (out T) :=
    match q with
    | dqE => Ok (OE (fst (raw_edges r)) (snd (raw_edges r)))
    | dqNumE => Ok (OZ (raw_num_e r))
    | dqA => res_map OM (q_A r) | dqAT => res_map OM (q_AT r)
    | dqDin => res_map OM (q_Din r) | dqDout => res_map OM (q_Dout r)
    | dqDin1 => res_map OM (q_Din1 r) | dqDout1 => res_map OM (q_Dout1 r)
    | dqDegIn => res_map (fun m => OVals (vals m)) (q_Din r)
    | dqDegOut => res_map (fun m => OVals (vals m)) (q_Dout r)
    | dqNin v => res_map OIdx (q_N q_AT v r)
    | dqNout v => res_map OIdx (q_N q_A v r)
    | dqSrc => res_map (fun m => OIdx (rows m)) (q_A r)
    | dqDst => res_map (fun m => OIdx (cols m)) (q_A r)
    | dqW => res_map (fun m => OVals (vals m)) (q_A r)
    | dqV2v X a ew dir keep => res_map OVals (q_v2v X a ew dir keep r)
    end.
  Lemma dgood_query q : good dspec (d_query q) (dp_query q).
  Proof.
    destruct q; cbn [d_query dp_query].
    - eapply good_ext; [apply (dgood_map (fun x => OE (fst x) (snd x)) dgood_e) | reflexivity].
    - gd. reflexivity.
    - apply (dgood_map OM dgood_A).
    - apply (dgood_map OM dgood_AT).
    - apply (dgood_map OM dgood_Din).
    - apply (dgood_map OM dgood_Dout).
    - apply (dgood_map OM dgood_Din1).
    - apply (dgood_map OM dgood_Dout1).
    - apply (dgood_map _ dgood_Din).
    - apply (dgood_map _ dgood_Dout).
    - apply (dgood_map OIdx (dgood_N v dgood_AT)).
    - apply (dgood_map OIdx (dgood_N v dgood_A)).
    - apply (dgood_map _ dgood_A).
    - apply (dgood_map _ dgood_A).
    - apply (dgood_map _ dgood_A).
    - apply (dgood_map _ (dgood_v2v X a ew dir keep)).
  Qed.
  Lemma dkeeps_add_edges n e w m : keeps_coh dspec (add_edges n e w m).
  Proof.
    intros s C. unfold add_edges. destruct (earg_empty e); [exact C|].
    apply keeps_bind; [apply keeps_lift| |exact C].
    intro ew. apply keeps_bind; [|intro; apply keeps_wipe].
    apply keeps_for_each. intros x s' C'. unfold add_edge. destruct (merge_fun m); cbn; [apply coh_empty|exact C'].
  Qed.
  Lemma dkeeps_remove_edges n e : keeps_coh dspec (remove_edges n e).
  Proof.
    intros s C. unfold remove_edges.
    apply keeps_bind; [apply keeps_lift| |exact C].
    intro ew. apply keeps_bind; [|intro; apply keeps_wipe].
    apply keeps_for_each. intros x s' C'. apply coh_empty.
  Qed.
  (** everything but reverse_direction keeps the cache coherent *)
  Lemma dkeeps_step o : o <> dReverse -> keeps_coh dspec (d_step o).
  Proof.
    intros N. destruct o; cbn; try congruence; try (apply keeps_bind; [|intro; apply keeps_ret]).
    - apply dkeeps_add_edges.
    - apply dkeeps_remove_edges.
    - intros s C; apply coh_empty.
    - intros s C; apply coh_empty.
    - intros s C; apply coh_empty.
    - intros s C; apply coh_empty.
    - apply (keeps_good (dgood_query q)).
  Qed.
  (** a coherent object with, if [c], an empty cache *)
  Definition cstate (c : bool) (s : digraph T) : Prop := coh dspec s /\ (c = true -> st_cache s = []).
  Lemma unit_out_fst {R} (g : M T R unit) s : fst (unit_out g s) = fst (g s).
  Proof. unfold unit_out, bind. destruct (g s) as [s' [[]|e]]; reflexivity. Qed.
  Lemma clean_add c e w m s : cstate c s ->
    cstate (c || add_accepted (r_nv (st_raw s)) e w m) (fst (add_edges norm_dir e w m s)).
  Proof.
    intros [C E]. split; [apply dkeeps_add_edges; auto|].
    destruct (add_edges norm_dir e w m s) as [s' o] eqn:A. cbn [fst].
    apply add_edges_outcome in A as [(x & -> & -> & EE & D)|[(-> & EE & ->)|(-> & EE & ps & P & B & KM & CE & R)]]; auto.
    - intros O. apply E. apply orb_true_iff in O as [O|O]; auto. unfold add_accepted in O.
      destruct D as [D|[D|(D & p & ps & P)]].
      + rewrite D, andb_false_r in O; discriminate.
      + rewrite D, andb_false_r in O; discriminate.
      + rewrite P, D in O. cbn in O. rewrite andb_false_r in O; discriminate.
    - intros O. apply E. apply orb_true_iff in O as [O|O]; auto. unfold add_accepted in O. rewrite EE in O. discriminate.
  Qed.
  Lemma clean_remove c e s : cstate c s ->
    cstate (c || (negb (earg_empty e) && endpoints_ok (r_nv (st_raw s)) (edges_of e))) (fst (remove_edges norm_dir e s)).
  Proof.
    intros [C E]. split; [apply dkeeps_remove_edges; auto|].
    destruct (remove_edges norm_dir e s) as [s' o] eqn:A. cbn [fst].
    apply remove_edges_outcome in A as [(x & -> & -> & D)|(-> & EE & B & CE & R)]; auto.
    intros O. apply E. apply orb_true_iff in O as [O|O]; auto. apply andb_true_iff in O as [O1 O2].
    destruct D as [D|D]; rewrite D in *; discriminate.
  Qed.
  Lemma coh_nocache (s : digraph T) : st_cache s = [] -> coh dspec s.
  Proof. intros E k v. rewrite E. discriminate. Qed.
  Lemma clean_step_state nv c o s : r_nv (st_raw s) = nv -> (o = dReverse -> c = true) -> cstate c s ->
    cstate (clean_step nv c o) (fst (d_step o s)).
  Proof.
    intros NV RV CS. destruct o; cbn [d_step clean_step]; rewrite ?unit_out_fst.
    - rewrite <- NV. apply clean_add; auto.
    - rewrite <- NV. apply clean_remove; auto.
    - split; [apply coh_empty|reflexivity].
    - split; [apply coh_empty|reflexivity].
    - split; [apply coh_empty|reflexivity].
    - split; [apply coh_empty|reflexivity].
    - destruct CS as [C E]. specialize (RV eq_refl). subst c. cbn.
      split; [apply coh_nocache|]; cbn; auto.
    - split; [|discriminate]. apply (good_coh (dgood_query q)), CS.
  Qed.
End Coherence.

Section Store.
  Context {T : Type} `{Num T}.
  Definition drel : raw T -> agraph T -> Prop := rel norm_dir.

  Lemma dir_idem p : norm_dir (norm_dir p) = norm_dir p.
  Proof. reflexivity. Qed.
  Lemma dir_diag a : norm_dir (a, a) = (a, a).
  Proof. reflexivity. Qed.
  Lemma dir_off a b : a <> b -> fst (norm_dir (a, b)) <> snd (norm_dir (a, b)).
  Proof. intros; exact H0. Qed.
  Lemma dir_same a b x y : same_directed a b x y = true <-> norm_dir (a, b) = norm_dir (x, y).
  Proof.
    unfold same_directed, norm_dir. rewrite andb_true_iff, !Z.eqb_eq. split; [intros [-> ->]; auto|].
    intros E; injection E; auto.
  Qed.
  Lemma same_dir_ends a b x y : same_directed a b x y = true -> (x = a \/ x = b) /\ (y = a \/ y = b).
  Proof. unfold same_directed. rewrite andb_true_iff, !Z.eqb_eq. lia. Qed.

  Lemma swap_inj (p q : Z * Z) : swap_pair p = swap_pair q -> p = q.
  Proof. destruct p, q; unfold swap_pair; cbn; congruence. Qed.
  Lemma swap_swap (p : Z * Z) : swap_pair (swap_pair p) = p.
  Proof. destruct p; reflexivity. Qed.
  Lemma dict_of_fresh {K V} `{EqB K} (l d : dict K V) : NoDup (dkeys d ++ dkeys l) ->
    fold_left (fun d kv => dset (fst kv) (snd kv) d) l d = d ++ l.
  Proof.
    revert d; induction l as [|[k v] l IH]; intros d ND; cbn; [rewrite app_nil_r; auto|].
    unfold dkeys in *; cbn in ND. rewrite dset_new.
    - rewrite IH; [rewrite <- app_assoc; reflexivity|]. rewrite map_app, <- app_assoc. exact ND.
    - apply dget_None. apply NoDup_remove_2 in ND. intros I. apply ND. apply in_or_app; auto.
  Qed.
  Lemma dict_of_nodup {K V} `{EqB K} (l : dict K V) : NoDup (map fst l) -> dict_of l = l.
  Proof. intros ND. unfold dict_of. apply dict_of_fresh; auto. Qed.
  Lemma swapped_nodup (d : dict (Z * Z) T) : dict_ok d -> NoDup (map fst (map (fun kv => (swap_pair (fst kv), snd kv)) d)).
  Proof.
    intros D. rewrite map_map. cbn. change (NoDup (map (fun x : Z * Z * T => swap_pair (fst x)) d)).
    rewrite <- (map_map fst swap_pair). apply FinFun.Injective_map_NoDup; auto. intros p q; apply swap_inj.
  Qed.
  Lemma reverse_re (r : raw T) : dict_ok (r_e r) -> r_e (reverse_raw r) = map (fun kv => (swap_pair (fst kv), snd kv)) (r_e r).
  Proof. intros D. cbn. apply dict_of_nodup. apply swapped_nodup; auto. Qed.
  Lemma dget_swap (d : dict (Z * Z) T) k : dget k (map (fun kv => (swap_pair (fst kv), snd kv)) d) = dget (swap_pair k) d.
  Proof.
    induction d as [|[k' v] d IH]; auto. cbn [map dget fst snd]. rewrite IH.
    assert (E : eqb k (swap_pair k') = eqb (swap_pair k) k').
    { destruct (eqb_spec k (swap_pair k')) as [->|N]; [rewrite swap_swap, eqb_refl; auto|].
      symmetry. apply eqb_neq. intros E; apply N. rewrite <- E. symmetry; apply swap_swap. }
    rewrite E. reflexivity.
  Qed.
  Lemma reverse_rel (r : raw T) g : drel r g -> drel (reverse_raw r) (a_reverse g).
  Proof.
    intros ([WE WL WK] & L & X). pose proof (reverse_re r WE) as RE. split; [constructor|split].
    - rewrite RE. unfold dict_ok, dkeys. apply (@swapped_nodup (r_e r)); auto.
    - exact WL.
    - rewrite RE. unfold dkeys. rewrite map_map. cbn. intros k I. apply in_map_iff in I as (kv & <- & I).
      destruct (WK (fst kv)) as [_ D]; [apply in_map; auto|]. cbn. split; auto.
    - intros a b. cbn [a_reverse aw]. rewrite <- L. unfold lookup. cbn [r_loop reverse_raw]. fold (r_e (reverse_raw r)).
      change (dict_of (map (fun kv => (swap_pair (fst kv), snd kv)) (r_e r))) with (r_e (reverse_raw r)).
      rewrite RE. unfold norm_dir. rewrite dget_swap. rewrite (Z.eqb_sym b a).
      destruct (Z.eqb_spec a b) as [->|]; reflexivity.
    - exact X.
  Qed.

  (** queries never touch the stored edges, whatever is in the cache *)
  Definition ro {A} (g : M T (raw T) A) : Prop := forall s, st_raw (fst (g s)) = st_raw s.
  Lemma ro_bind {A B} (g : M T (raw T) A) (h : A -> M T (raw T) B) : ro g -> (forall a, ro (h a)) -> ro (bind g h).
  Proof.
    intros G K s. unfold bind. specialize (G s). destruct (g s) as [s1 [a|e]]; cbn in *; auto. rewrite K; auto.
  Qed.
  Lemma ro_ret {A} (a : A) : ro (ret a). Proof. intros s; reflexivity. Qed.
  Lemma ro_raise {A} e : ro (@raise T (raw T) A e). Proof. intros s; reflexivity. Qed.
  Lemma ro_lift {A} (x : res A) : ro (lift x). Proof. intros s; reflexivity. Qed.
  Lemma ro_ask : ro ask. Proof. intros s; reflexivity. Qed.
  Lemma ro_memo {A} (inj : A -> cval T) prj k (g : M T (raw T) A) : ro g -> ro (memo inj prj k g).
  Proof.
    intros G s. unfold memo. destruct (dget k (st_cache s)) as [v|].
    - destruct (prj v); reflexivity.
    - specialize (G s). destruct (g s) as [s1 [a|e]]; cbn in *; auto.
  Qed.
  Ltac ro1 := repeat first [ apply ro_bind | apply ro_ret | apply ro_raise | apply ro_lift | apply ro_ask
    | apply ro_memo | progress intro ].
  Lemma ro_e : ro get_e. Proof. unfold get_e, memoE. ro1. Qed.
  Lemma ro_A : ro dget_A.
  Proof. unfold dget_A, memoM. ro1. destruct (raw_num_e _ =? 0); [apply ro_ret|]. apply ro_bind; [apply ro_e|]. ro1. Qed.
  Lemma ro_AT : ro dget_AT.
  Proof. unfold dget_AT, memoM. apply ro_memo, ro_bind; [apply ro_A|]. ro1. Qed.
  Lemma ro_Din : ro dget_Din.
  Proof. unfold dget_Din, memoM. apply ro_memo, ro_bind; [apply ro_AT|]. ro1. Qed.
  Lemma ro_Dout : ro dget_Dout.
  Proof. unfold dget_Dout, memoM. apply ro_memo, ro_bind; [apply ro_A|]. ro1. Qed.
  Lemma ro_Din1 : ro dget_Din1.
  Proof. unfold dget_Din1, memoM. apply ro_memo, ro_bind; [apply ro_Din|]. ro1. Qed.
  Lemma ro_Dout1 : ro dget_Dout1.
  Proof. unfold dget_Dout1, memoM. apply ro_memo, ro_bind; [apply ro_Dout|]. ro1. Qed.
  Lemma ro_v2v X a ew dir keep : ro (d_v2v X a ew dir keep).
  Proof.
    unfold d_v2v. destruct (aggr_ok a); [|apply ro_raise]. destruct dir as [s2d|]; [|apply ro_raise].
    destruct ew as [w|].
    - apply ro_bind; [apply ro_A|]. intro A. destruct (Nat.eqb _ _); [|apply ro_raise]. destruct a; ro1.
    - apply ro_bind; [destruct s2d; [apply ro_AT|apply ro_A]|]. intro A. cbv zeta. apply ro_bind; [apply ro_ask|]. intro r.
      destruct a; try apply ro_ret. apply ro_bind; [destruct s2d; [apply ro_Din1|apply ro_Dout1]|]. ro1.
  Qed.
  Lemma ro_query q : ro (d_query q).
  Proof.
    destruct q; cbn [d_query]; unfold oM, dget_N; repeat (apply ro_bind || intro);
      first [ apply ro_e | apply ro_A | apply ro_AT | apply ro_Din | apply ro_Dout | apply ro_Din1 | apply ro_Dout1
            | apply ro_v2v | apply ro_ret | apply ro_ask | apply ro_lift ].
  Qed.

  Lemma dstep_rel o (s : digraph T) g : drel (st_raw s) g ->
    drel (st_raw (fst (d_step o s))) (d_spec_step (r_nv (st_raw s)) g o) /\
    r_nv (st_raw (fst (d_step o s))) = r_nv (st_raw s).
  Proof.
    intros R. destruct o; cbn [d_step d_spec_step]; rewrite ?unit_out_fst.
    - apply (@add_edges_rel T _ norm_dir same_directed dir_idem dir_diag dir_off dir_same e w m s g R).
    - apply (@remove_edges_rel T _ norm_dir same_directed dir_diag dir_off dir_same e s g R).
    - apply set_extra_rel; exact R.
    - apply set_extra_rel; exact R.
    - apply remove_loops_rel; exact R.
    - apply clear_rel.
    - split; [apply reverse_rel; exact R | reflexivity].
    - rewrite (ro_query q). auto.
  Qed.
  Lemma drun_rel ops (s : digraph T) g nv : drel (st_raw s) g -> r_nv (st_raw s) = nv ->
    let s' := fst (d_run ops s) in
    drel (st_raw s') (fold_left (d_spec_step nv) ops g) /\ r_nv (st_raw s') = nv.
  Proof.
    revert s g; induction ops as [|o ops IH]; intros s g R N; cbn [d_run fold_left]; auto.
    pose proof (dstep_rel o s R) as [R1 N1]. rewrite N in R1, N1.
    destruct (d_step o s) as [s1 x]; cbn [fst] in *.
    specialize (IH s1 _ R1 N1). destruct (d_run ops s1); exact IH.
  Qed.
  Lemma drun_clean ops (s : digraph T) nv c g : drel (st_raw s) g -> r_nv (st_raw s) = nv -> cstate c s ->
    reverse_safe nv c ops = true -> coh dspec (fst (d_run ops s)).
  Proof.
    revert s c g; induction ops as [|o ops IH]; intros s c g R N CS SF; cbn [d_run]; [apply CS|].
    cbn in SF. apply andb_true_iff in SF as [S1 S2].
    pose proof (dstep_rel o s R) as [R1 N1]. rewrite N in N1.
    assert (CS1 : cstate (clean_step nv c o) (fst (d_step o s))).
    { apply clean_step_state; auto. intros ->; auto. }
    destruct (d_step o s) as [s1 x]; cbn [fst] in *.
    specialize (IH s1 _ _ R1 N1 CS1 S2). destruct (d_run ops s1); exact IH.
  Qed.
  Lemma dnew_rel nv e w ex m s : d_new nv e w ex m = Ok s ->
    drel (st_raw s) (d_spec_new nv e w ex m) /\ cstate true s /\ r_nv (st_raw s) = nv /\ 0 < nv.
  Proof.
    unfold d_new.
    destruct (Z.ltb_spec 0 nv) as [P|P]; [|discriminate].
    pose proof (rel_empty (T := T) norm_dir nv ex) as R0.
    destruct e as [ea|]; intros E.
    - destruct (@add_edges_rel T _ norm_dir same_directed dir_idem dir_diag dir_off dir_same ea w m
        (mkSt (mkRaw nv [] [] ex) []) _ R0) as [A B]. unfold d_add_edges in E.
      pose proof (@clean_add T _ true ea w m (mkSt (mkRaw nv [] [] ex) [])) as CA.
      destruct (add_edges norm_dir ea w m (mkSt (mkRaw nv [] [] ex) [])) as [s1 [u|x]]; [|discriminate].
      injection E as <-. cbn in *. split; auto. split; auto. apply CA. split; [apply coh_empty|reflexivity].
    - injection E as <-. split; auto. split; auto. split; [apply coh_empty|reflexivity].
  Qed.
  Lemma dreach_raw nv e w ex m ops s : d_reach nv e w ex m ops s ->
    drel (st_raw s) (d_spec nv e w ex m ops) /\ r_nv (st_raw s) = nv /\ 0 < nv.
  Proof.
    intros (s0 & E & ->). apply dnew_rel in E as (R & C & N & P).
    destruct (drun_rel ops s0 R N) as (R' & N'). auto.
  Qed.
  Lemma dreach_rel nv e w ex m ops s : d_reach nv e w ex m ops s -> reverse_safe nv true ops = true ->
    drel (st_raw s) (d_spec nv e w ex m ops) /\ coh dspec s /\ r_nv (st_raw s) = nv /\ 0 < nv.
  Proof.
    intros RR SF. destruct (dreach_raw RR) as (A & B & P). destruct RR as (s0 & E & ->).
    apply dnew_rel in E as (R & C & N & _).
    split; auto. split; [eapply drun_clean; eauto|auto].
  Qed.

  (** the reported edges *)
  Lemma dreported (s : digraph T) g nv : drel (st_raw s) g -> coh dspec s -> r_nv (st_raw s) = nv -> 0 < nv ->
    exists es ws proper,
      snd (d_query dqE s) = Ok (OE es ws) /\
      snd (d_query dqNumE s) = Ok (OZ (Z.of_nat (length es))) /\
      length ws = length es /\
      combine es ws = proper ++ (if ax g then map (fun v => ((v, v), n1)) (range nv) else []) /\
      NoDup (map fst proper) /\
      (forall a b w, In ((a, b), w) proper <-> aw g a b = Some w).
  Proof.
    intros R C N P. set (r := st_raw s) in *.
    exists (fst (raw_edges r)), (snd (raw_edges r)), (core r).
    destruct R as (W & L & X).
    rewrite (good_answer (dgood_query dqE) C), (good_answer (dgood_query dqNumE) C). fold r. cbn [dp_query].
    destruct (raw_edges_length r) as [E1 E2]. rewrite <- E2 by lia.
    split; auto. split; auto. split; auto. split.
    { rewrite raw_edges_combine, <- X, N. reflexivity. }
    split.
    - exact (core_keys_nodup W).
    - intros a b w. rewrite (core_In dir_diag) by auto. rewrite <- L. unfold norm_dir; tauto.
  Qed.
  Lemma dbelow_step nv (g : agraph T) o : below_range nv g -> below_range nv (d_spec_step nv g o).
  Proof.
    intros G. destruct o; cbn in *; auto.
    - apply below_add_edges; auto. apply same_dir_ends.
    - unfold a_remove_edges. destruct (endpoints_ok nv (edges_of e)); auto.
      intros a b; cbn. apply below_del; auto.
    - intros a b; cbn. destruct (a =? b); [congruence|]. apply G.
    - intros a b; cbn. unfold empty_map; congruence.
    - intros a b; cbn. intros E. apply G in E. tauto.
  Qed.
  Lemma dspec_below nv e w ex m ops : below_range nv (d_spec (T := T) nv e w ex m ops).
  Proof.
    unfold d_spec.
    assert (G : below_range nv (d_spec_new (T := T) nv e w ex m)).
    { destruct e as [ea|]; cbn.
      - apply below_add_edges; [apply same_dir_ends|]. intros a b; cbn; unfold empty_map; congruence.
      - intros a b; cbn; unfold empty_map; congruence. }
    revert G. generalize (d_spec_new (T := T) nv e w ex m). induction ops as [|o ops IH]; intros g G; cbn; auto.
    apply IH. apply dbelow_step; auto.
  Qed.
  (** building a new graph from the reported edges reproduces the store *)
  Lemma drebuild nv e w ex m ops (s : digraph T) : d_reach nv e w ex m ops s ->
    forall m', m' <> MOther ->
      d_new nv (Some (EMany (fst (plain_edges (st_raw s))))) (WList (snd (plain_edges (st_raw s))))
        (ax (d_spec nv e w ex m ops)) m' = Ok (mkSt (st_raw s) []).
  Proof.
    intros R m' K. pose proof (dreach_raw R) as ((W & L & X) & NV & POS).
    unfold d_new. replace (0 <? nv) with true by (symmetry; apply Z.ltb_lt; auto).
    unfold d_add_edges. rewrite <- NV at 1. rewrite <- X.
    rewrite (rebuild_add dir_diag (m := m') W K); auto.
    intros k I. apply in_map_iff in I as ([[a b] x] & <- & I).
    apply (core_In dir_diag) in I as [_ I]; auto. rewrite L in I.
    unfold below; cbn. rewrite NV.
    destruct (@dspec_below nv e w ex m ops a b) as [B1 B2]; [congruence|].
    apply Z.ltb_lt in B1, B2. rewrite B1, B2; reflexivity.
  Qed.
  Lemma dstep_in_range nv (g : agraph T) o : nonneg_dop o -> in_range nv g -> in_range nv (d_spec_step nv g o).
  Proof.
    intros NN G. destruct o; cbn in *; auto.
    - apply add_edges_in_range; auto. apply same_dir_ends.
    - unfold a_remove_edges. destruct (endpoints_ok nv (edges_of e)); auto.
      intros a b; cbn. apply del_in_range; auto.
    - intros a b; cbn. destruct (a =? b); [congruence|]. apply G.
    - intros a b; cbn. unfold empty_map; congruence.
    - intros a b; cbn. intros E. apply G in E. tauto.
  Qed.
  Lemma dspec_in_range nv e w ex m ops : nonneg_new e -> Forall nonneg_dop ops ->
    in_range nv (d_spec (T := T) nv e w ex m ops).
  Proof.
    intros NE NO. unfold d_spec.
    assert (G : in_range nv (d_spec_new (T := T) nv e w ex m)).
    { destruct e as [ea|]; cbn.
      - apply add_edges_in_range; auto; [apply same_dir_ends|]. intros a b; cbn; unfold empty_map; congruence.
      - intros a b; cbn; unfold empty_map; congruence. }
    revert G. generalize (d_spec_new (T := T) nv e w ex m). induction NO as [|o ops NO1 NO IH]; intros g G; cbn; auto.
    apply IH. apply dstep_in_range; auto.
  Qed.
End Store.

Section Structure.
  Context {T : Type} `{Num T}.
  Variables (s : digraph T) (g : agraph T) (nv : Z).
  Hypothesis R : drel (st_raw s) g.
  Hypothesis C : coh dspec s.
  Hypothesis NV : r_nv (st_raw s) = nv.
  Hypothesis POS : 0 < nv.
  Hypothesis IR : in_range nv g.

  Definition d_coo (r : raw T) : coo T :=
    core r ++ (if r_extra r then map (fun v => ((v, v), n1)) (range (r_nv r)) else []).
  Lemma d_coo_keys i j : In (i, j) (map fst (d_coo (st_raw s))) <-> a_edge g i j /\ 0 <= i < nv /\ 0 <= j < nv.
  Proof.
    unfold d_coo. rewrite map_app, in_app_iff, extra_keys, map_fst_In, NV.
    destruct R as (W & L & X). rewrite X.
    setoid_rewrite (core_In dir_diag); auto. unfold a_edge.
    assert (Q : (exists b, norm_dir (i, j) = (i, j) /\ lookup norm_dir (st_raw s) i j = Some b) <-> aw g i j <> None).
    { rewrite <- L. destruct (lookup norm_dir (st_raw s) i j) as [b|].
      - split; [congruence|]. intros _. exists b. split; reflexivity.
      - split; [intros (b & _ & E); discriminate | congruence]. }
    rewrite Q. split.
    - intros [A|(A & -> & B)]; auto.
    - intros [[A|[-> A]] [I J]]; auto.
  Qed.
  Definition dA : coo T := coalesce (d_coo (st_raw s)).
  Definition dAT : coo T := coalesce (ctrans dA).
  Lemma q_A_eq : q_A (st_raw s) = Ok dA.
  Proof.
    unfold q_A, dA, d_coo. destruct (Z.eqb_spec (raw_num_e (st_raw s)) 0) as [E|E].
    - unfold raw_num_e in E. rewrite NV in *. unfold core.
      destruct (r_extra (st_raw s)); [exfalso; lia|].
      destruct (r_e (st_raw s)); [|cbn [length] in E; exfalso; lia].
      destruct (r_loop (st_raw s)); [|cbn [length] in E; exfalso; lia]. reflexivity.
    - rewrite NV. rewrite mk_sparse_ok.
      + rewrite raw_edges_combine, NV; reflexivity.
      + intros i j I. destruct (raw_edges_length (st_raw s)) as [E1 _].
        rewrite <- (@combine_keys _ _ _ (snd (raw_edges (st_raw s))) E1), raw_edges_combine in I.
        apply d_coo_keys in I; tauto.
  Qed.
  Lemma q_AT_eq : q_AT (st_raw s) = Ok dAT.
  Proof. unfold q_AT. rewrite q_A_eq. reflexivity. Qed.
  Lemma dA_keys i j : In (i, j) (map fst dA) <-> a_edge g i j /\ 0 <= i < nv /\ 0 <= j < nv.
  Proof. unfold dA. rewrite coalesce_keys. apply d_coo_keys. Qed.
  Lemma ctrans_keys (m : coo T) i j : In (i, j) (map fst (ctrans m)) <-> In (j, i) (map fst m).
  Proof.
    unfold ctrans. rewrite map_map. cbn. rewrite !in_map_iff. split.
    - intros ([[a b] v] & E & I). cbn in E. injection E as <- <-. exists ((a, b), v); auto.
    - intros ([[a b] v] & E & I). cbn in E. injection E as -> ->. exists ((j, i), v); auto.
  Qed.
  Lemma dAT_keys i j : In (i, j) (map fst dAT) <-> a_edge g j i /\ 0 <= i < nv /\ 0 <= j < nv.
  Proof. unfold dAT. rewrite coalesce_keys, ctrans_keys, dA_keys. tauto. Qed.
  Lemma dA_boxed : boxed nv nv dA.
  Proof. intros i j I. apply dA_keys in I; tauto. Qed.
  Lemma dAT_boxed : boxed nv nv dAT.
  Proof. intros i j I. apply dAT_keys in I; tauto. Qed.

  Lemma dquery_nbr v : 0 <= v < nv ->
    exists li lo, snd (d_query (dqNin v) s) = Ok (OIdx li) /\ snd (d_query (dqNout v) s) = Ok (OIdx lo) /\
      NoDup li /\ NoDup lo /\
      (forall u, In u li <-> a_edge g u v) /\ (forall u, In u lo <-> a_edge g v u).
  Proof.
    intros V. rewrite (good_answer (dgood_query (dqNin v)) C), (good_answer (dgood_query (dqNout v)) C). cbn [dp_query].
    assert (PI : py_index (r_nv (st_raw s)) v = Ok v).
    { unfold py_index. rewrite NV. replace (0 <=? v) with true by (symmetry; apply Z.leb_le; lia).
      replace (v <? nv) with true by (symmetry; apply Z.ltb_lt; lia). reflexivity. }
    unfold q_N. rewrite q_A_eq, q_AT_eq, PI. cbn [res_bind res_map].
    do 2 eexists; split; [reflexivity|]. split; [reflexivity|].
    split; [apply row_idx_nodup, coalesce_nodup|]. split; [apply row_idx_nodup, coalesce_nodup|].
    assert (CL : forall x, a_edge g v x \/ a_edge g x v -> 0 <= x < nv).
    { intros x [[E|[-> E]]|[E|[-> E]]]; auto; apply IR in E; tauto. }
    split; intros u; rewrite row_idx_In, ?dA_keys, ?dAT_keys; (split; [tauto|]); intros E; pose proof (CL u); tauto.
  Qed.
  Lemma dquery_coords :
    exists src dst w,
      snd (d_query dqSrc s) = Ok (OIdx src) /\ snd (d_query dqDst s) = Ok (OIdx dst) /\
      snd (d_query dqW s) = Ok (OVals w) /\
      length dst = length src /\ length w = length src /\
      snd (d_query dqA s) = Ok (OM (combine (combine src dst) w)) /\
      NoDup (combine src dst) /\
      (forall i j, In (i, j) (combine src dst) <-> (a_edge g i j /\ 0 <= i < nv /\ 0 <= j < nv)).
  Proof.
    exists (rows dA), (cols dA), (vals dA).
    rewrite (good_answer (dgood_query dqSrc) C), (good_answer (dgood_query dqDst) C),
      (good_answer (dgood_query dqW) C), (good_answer (dgood_query dqA) C).
    cbn [dp_query]. rewrite q_A_eq. cbn [res_map]. rewrite combine_rows_cols.
    assert (K : combine (rows dA) (cols dA) = map fst dA).
    { unfold rows, cols. induction dA as [|[[i j] v] m IH]; cbn; congruence. }
    rewrite K. do 3 (split; [reflexivity|]).
    split; [unfold rows, cols; rewrite !map_length; auto|]. split; [unfold rows, vals; rewrite !map_length; auto|].
    split; [reflexivity|]. split.
    - apply coalesce_nodup.
    - intros i j. apply dA_keys.
  Qed.
End Structure.

Section Ring.
  Context {T : Type} `{N : Num T}.
  Context (RT : ring_theory (@nz T N) n1 nadd nmul nsub nopp eq).
  Add Ring TRing6 : RT.
  Variables (s : digraph T) (g : agraph T) (nv : Z).
  Hypothesis R : drel (st_raw s) g.
  Hypothesis C : coh dspec s.
  Hypothesis NV : r_nv (st_raw s) = nv.
  Hypothesis POS : 0 < nv.
  Hypothesis IR : in_range nv g.

  Lemma mget_d_coo i j : 0 <= i < nv -> mget (d_coo (st_raw s)) i j = a_adj g i j.
  Proof.
    intros I. unfold d_coo, a_adj. rewrite (mget_app RT). f_equal.
    - destruct R as (W & L & X). rewrite (mget_nodup RT) by (apply (core_keys_nodup W)).
      f_equal. rewrite <- L. destruct (dget (i, j) (core (st_raw s))) as [w|] eqn:D.
      + apply dget_In in D. apply (core_In dir_diag) in D as [_ Lk]; auto.
      + apply dget_None in D. destruct (lookup norm_dir (st_raw s) i j) as [w|] eqn:Lk; auto.
        exfalso; apply D. unfold dkeys. apply map_fst_In. exists w. apply (core_In dir_diag); auto.
    - destruct R as (W & L & X). rewrite <- X. rewrite NV. destruct (r_extra (st_raw s)).
      + change (map (fun v => ((v, v), n1)) (range nv)) with (diag nv (fun _ => @n1 T N)).
        rewrite (mget_diag RT). rewrite andb_true_r.
        replace (0 <=? i) with true by (symmetry; apply Z.leb_le; lia).
        replace (i <? nv) with true by (symmetry; apply Z.ltb_lt; lia). reflexivity.
      + rewrite andb_false_r. reflexivity.
  Qed.
  Lemma mget_dA i j : 0 <= i < nv -> mget (dA s) i j = a_adj g i j.
  Proof. unfold dA. rewrite (mget_coalesce RT). apply mget_d_coo. Qed.
  Lemma mget_dAT i j : 0 <= j < nv -> mget (dAT s) i j = a_adj g j i.
  Proof. intros J. unfold dAT. rewrite (mget_coalesce RT), mget_ctrans. apply mget_dA; auto. Qed.
  Definition out_deg i : T := sumf (range nv) (fun j => a_adj g i j).
  Definition in_deg i : T := sumf (range nv) (fun j => a_adj g j i).
  Lemma rowsum_dA i : 0 <= i < nv -> rowsum (dA s) i = out_deg i.
  Proof.
    intros I. rewrite (@rowsum_dense T N RT (range nv)) by (apply range_nodup || (eapply boxed_cols, (dA_boxed s R NV IR))).
    apply sumf_ext. intros j. apply mget_dA; auto.
  Qed.
  Lemma rowsum_dAT i : 0 <= i < nv -> rowsum (dAT s) i = in_deg i.
  Proof.
    intros I. rewrite (@rowsum_dense T N RT (range nv)) by (apply range_nodup || (eapply boxed_cols, (dAT_boxed s R NV IR))).
    apply sumf_ext_in. intros j J. apply range_In in J. apply mget_dAT; auto.
  Qed.
  Lemma dquery_A : exists m mt, snd (d_query dqA s) = Ok (OM m) /\ snd (d_query dqAT s) = Ok (OM mt) /\
    (forall i j, 0 <= i < nv -> 0 <= j < nv -> mget m i j = a_adj g i j) /\
    (forall i j, mget mt i j = mget m j i) /\
    (forall i j, ~ (0 <= i < nv /\ 0 <= j < nv) -> mget m i j = nz).
  Proof.
    rewrite (good_answer (dgood_query dqA) C), (good_answer (dgood_query dqAT) C). cbn [dp_query].
    rewrite (q_A_eq s R NV POS IR), (q_AT_eq s R NV POS IR). cbn [res_map].
    do 2 eexists; split; [reflexivity|]. split; [reflexivity|]. split; [|split].
    - intros i j I J. apply mget_dA; auto.
    - intros i j. unfold dAT. rewrite (mget_coalesce RT), mget_ctrans. reflexivity.
    - intros i j O. apply (mget_absent RT). rewrite (dA_keys s R NV IR); tauto.
  Qed.
  Lemma q_Din_eq : q_Din (st_raw s) = Ok (diag nv in_deg).
  Proof.
    unfold q_Din. rewrite (q_AT_eq s R NV POS IR). cbn. rewrite NV, diag_rowsum_eq. f_equal. apply diag_ext. intros; apply rowsum_dAT; auto.
  Qed.
  Lemma q_Dout_eq : q_Dout (st_raw s) = Ok (diag nv out_deg).
  Proof.
    unfold q_Dout. rewrite (q_A_eq s R NV POS IR). cbn. rewrite NV, diag_rowsum_eq. f_equal. apply diag_ext. intros; apply rowsum_dA; auto.
  Qed.
  Lemma q_Din1_eq : q_Din1 (st_raw s) = Ok (diag nv (fun i => ninv (in_deg i))).
  Proof. unfold q_Din1. rewrite q_Din_eq. cbn. rewrite inv_vals_diag; reflexivity. Qed.
  Lemma q_Dout1_eq : q_Dout1 (st_raw s) = Ok (diag nv (fun i => ninv (out_deg i))).
  Proof. unfold q_Dout1. rewrite q_Dout_eq. cbn. rewrite inv_vals_diag; reflexivity. Qed.
  Lemma dquery_D :
    snd (d_query dqDin s) = Ok (OM (diag nv in_deg)) /\ snd (d_query dqDout s) = Ok (OM (diag nv out_deg)) /\
    snd (d_query dqDin1 s) = Ok (OM (diag nv (fun i => ninv (in_deg i)))) /\
    snd (d_query dqDout1 s) = Ok (OM (diag nv (fun i => ninv (out_deg i)))) /\
    snd (d_query dqDegIn s) = Ok (OVals (map in_deg (range nv))) /\
    snd (d_query dqDegOut s) = Ok (OVals (map out_deg (range nv))).
  Proof.
    rewrite !(good_answer (dgood_query _) C). cbn [dp_query].
    rewrite q_Din_eq, q_Dout_eq, q_Din1_eq, q_Dout1_eq. cbn [res_map]. rewrite !vals_diag. auto 10.
  Qed.
  (** total in-degree = total out-degree = total weight *)
  Lemma dhandshake : exists es ws, snd (d_query dqE s) = Ok (OE es ws) /\
    sumf (range nv) out_deg = sumf ws (fun w => w) /\ sumf (range nv) in_deg = sumf ws (fun w => w).
  Proof.
    rewrite (good_answer (dgood_query dqE) C). cbn [dp_query]. do 2 eexists; split; [reflexivity|].
    assert (S : sumf (range nv) out_deg = sumf (snd (raw_edges (st_raw s))) (fun w => w)).
    { transitivity (sumf (range nv) (fun i => sumf (range nv) (fun j => nmul (mget (d_coo (st_raw s)) i j) n1))).
      { apply sumf_ext_in. intros i I. apply range_In in I. apply sumf_ext. intros j. rewrite mget_d_coo by auto. ring. }
      rewrite (double_sum RT) by (intros i j I; apply (d_coo_keys s R NV IR) in I; tauto).
      unfold d_coo. rewrite <- raw_edges_combine.
      destruct (raw_edges_length (st_raw s)) as [E _]. revert E.
      generalize (fst (raw_edges (st_raw s))). generalize (snd (raw_edges (st_raw s))).
      intros l; induction l as [|x l IH]; intros [|k ks] E; try discriminate; auto.
      cbn in *. rewrite IH by lia. ring. }
    split; auto. rewrite <- S. unfold in_deg, out_deg. apply (sumf_swap RT).
  Qed.
  Lemma dquery_v2v X : exists s2d_sum s2d_mean d2s_sum d2s_mean,
    snd (d_query (dqV2v X AggrSum None (Some true) None) s) = Ok (OVals (map s2d_sum (range nv))) /\
    snd (d_query (dqV2v X AggrMean None (Some true) None) s) = Ok (OVals (map s2d_mean (range nv))) /\
    snd (d_query (dqV2v X AggrSum None (Some false) None) s) = Ok (OVals (map d2s_sum (range nv))) /\
    snd (d_query (dqV2v X AggrMean None (Some false) None) s) = Ok (OVals (map d2s_mean (range nv))) /\
    forall i, 0 <= i < nv ->
      s2d_sum i = sumf (range nv) (fun j => nmul (a_adj g j i) (X j)) /\
      s2d_mean i = nmul (ninv (in_deg i)) (sumf (range nv) (fun j => nmul (a_adj g j i) (X j))) /\
      d2s_sum i = sumf (range nv) (fun j => nmul (a_adj g i j) (X j)) /\
      d2s_mean i = nmul (ninv (out_deg i)) (sumf (range nv) (fun j => nmul (a_adj g i j) (X j))).
  Proof.
    rewrite !(good_answer (dgood_query _) C). cbn [dp_query]. unfold q_v2v; cbn [aggr_ok].
    rewrite (q_A_eq s R NV POS IR), (q_AT_eq s R NV POS IR), q_Din1_eq, q_Dout1_eq. cbn [res_bind res_map cdrop_opt]. rewrite NV.
    do 4 eexists. do 4 (split; [reflexivity|]). intros i I.
    assert (SA : spmv (dA s) X i = sumf (range nv) (fun j => nmul (a_adj g i j) (X j))).
    { rewrite (@spmv_dense T N RT (range nv)) by (apply range_nodup || (eapply boxed_cols, (dA_boxed s R NV IR))).
      apply sumf_ext. intros j. rewrite mget_dA; auto. }
    assert (ST : spmv (dAT s) X i = sumf (range nv) (fun j => nmul (a_adj g j i) (X j))).
    { rewrite (@spmv_dense T N RT (range nv)) by (apply range_nodup || (eapply boxed_cols, (dAT_boxed s R NV IR))).
      apply sumf_ext_in. intros j J. apply range_In in J. rewrite mget_dAT; auto. }
    rewrite !(spmv_diag RT) by auto. rewrite SA, ST. auto.
  Qed.
End Ring.
