From Coq Require Import Ring Permutation Sorted.
From Verif Require Import Num PyDict PyDictFacts Coo.
Set Implicit Arguments.

Definition klt (a b : Z * Z) : Prop := kcmp a b = Lt.

Lemma kcmp_eq a b : kcmp a b = Eq <-> a = b.
Proof.
  destruct a as [a1 a2], b as [b1 b2]; unfold kcmp; cbn.
  destruct (Z.compare_spec a1 b1) as [->|L|L].
  - rewrite Z.compare_eq_iff. split; [intros ->; reflexivity | intros E; injection E; auto].
  - split; [discriminate | intros E; injection E; lia].
  - split; [discriminate | intros E; injection E; lia].
Qed.
Lemma klt_iff a b : klt a b <-> fst a < fst b \/ (fst a = fst b /\ snd a < snd b).
Proof.
  unfold klt, kcmp; destruct (Z.compare_spec (fst a) (fst b)) as [->|L|L].
  - rewrite Z.compare_lt_iff; lia.
  - split; auto; lia.
  - split; [discriminate | lia].
Qed.
Lemma kcmp_gt a b : kcmp a b = Gt <-> klt b a.
Proof.
  rewrite klt_iff. unfold kcmp; destruct (Z.compare_spec (fst a) (fst b)) as [->|L|L].
  - rewrite Z.compare_gt_iff; lia.
  - split; [discriminate | lia].
  - split; auto; lia.
Qed.
Lemma klt_trans a b c : klt a b -> klt b c -> klt a c.
Proof. rewrite !klt_iff; lia. Qed.
Lemma klt_irrefl a : ~ klt a a.
Proof. rewrite klt_iff; lia. Qed.

Section Structure.
  Context {T : Type} `{Num T}.

  Definition sorted_keys (m : coo T) : Prop := StronglySorted klt (map fst m).

  Lemma cins_keys k v (m : coo T) x : In x (map fst (cins k v m)) <-> x = k \/ In x (map fst m).
  Proof.
    induction m as [|[k' v'] m IH]; cbn; [intuition|].
    destruct (kcmp k k') eqn:E; cbn.
    - apply kcmp_eq in E; subst; intuition.
    - intuition.
    - rewrite IH; intuition.
  Qed.

  Lemma cins_sorted k v (m : coo T) : sorted_keys m -> sorted_keys (cins k v m).
  Proof.
    unfold sorted_keys; induction m as [|[k' v'] m IH]; cbn; intros S.
    - constructor; constructor.
    - inversion S as [|? ? S' F]; subst.
      destruct (kcmp k k') eqn:E; cbn.
      + constructor; auto.
      + constructor; [exact S|]. constructor; [exact E|].
        eapply Forall_impl; [|exact F]. intros; eapply klt_trans; eauto.
      + constructor; [apply IH; exact S'|].
        apply Forall_forall. intros x I. apply cins_keys in I as [->|I].
        * apply kcmp_gt; exact E.
        * rewrite Forall_forall in F; auto.
  Qed.

  Lemma coalesce_aux_sorted (m acc : coo T) : sorted_keys acc ->
    sorted_keys (fold_left (fun a kv => cins (fst kv) (snd kv) a) m acc).
  Proof. revert acc; induction m as [|kv m IH]; cbn; intros acc S; auto using cins_sorted. Qed.

  Lemma coalesce_sorted (m : coo T) : sorted_keys (coalesce m).
  Proof. apply coalesce_aux_sorted. constructor. Qed.

  Lemma coalesce_aux_keys (m acc : coo T) x :
    In x (map fst (fold_left (fun a kv => cins (fst kv) (snd kv) a) m acc)) <->
    In x (map fst m) \/ In x (map fst acc).
  Proof.
    revert acc; induction m as [|kv m IH]; cbn; intros acc; [tauto|].
    rewrite IH, cins_keys. intuition.
  Qed.

  (** the stored indices of the coalesced matrix are those given *)
  Lemma coalesce_keys (m : coo T) x : In x (map fst (coalesce m)) <-> In x (map fst m).
  Proof. unfold coalesce; rewrite coalesce_aux_keys; cbn; tauto. Qed.

  Lemma sorted_nodup (l : list (Z * Z)) : StronglySorted klt l -> NoDup l.
  Proof.
    induction 1 as [|a l S IH F]; constructor; auto.
    rewrite Forall_forall in F. intros I; apply (klt_irrefl (a := a)); auto.
  Qed.

  Lemma coalesce_nodup (m : coo T) : NoDup (map fst (coalesce m)).
  Proof. apply sorted_nodup, coalesce_sorted. Qed.

  Lemma row_idx_In (m : coo T) i j : In j (row_idx m i) <-> In (i, j) (map fst m).
  Proof.
    unfold row_idx. rewrite !in_map_iff. split.
    - intros ([[a b] v] & E & I). cbn in E; subst. apply filter_In in I as [I E].
      cbn in E. apply eqb_eq in E as ->. exists ((a, j), v); auto.
    - intros ([[a b] v] & E & I). cbn in E; injection E as -> ->. exists ((i, j), v); split; auto.
      apply filter_In; split; auto. cbn. apply eqb_refl.
  Qed.

  Lemma row_idx_nodup (m : coo T) i : NoDup (map fst m) -> NoDup (row_idx m i).
  Proof.
    unfold row_idx; induction m as [|[[a b] v] m IH]; cbn [map fst snd filter]; intros ND; [constructor|].
    inversion ND as [|? ? N ND']; subst.
    destruct (eqb_spec i a) as [->|_]; cbn [map fst snd]; auto.
    constructor; auto. intros I. apply (row_idx_In m a b) in I. auto.
  Qed.

  Lemma spmm_raw_In (a b : coo T) i j : In (i, j) (map fst (spmm_raw a b)) <->
    exists k, In (i, k) (map fst a) /\ In (k, j) (map fst b).
  Proof.
    unfold spmm_raw. rewrite in_map_iff. split.
    - intros ([p v] & E & I). cbn in E; subst p.
      apply in_flat_map in I as ([[i1 k1] x] & I1 & I).
      apply in_flat_map in I as ([[k2 j2] y] & I2 & I). cbn in I.
      destruct (eqb_spec k1 k2) as [->|]; cbn in I; [|tauto].
      destruct I as [E|[]]; injection E as -> -> _.
      exists k2; split; [apply (in_map fst) in I1 | apply (in_map fst) in I2]; auto.
    - intros (k & I1 & I2).
      apply in_map_iff in I1 as ([p1 x] & E1 & I1); cbn in E1; subst p1.
      apply in_map_iff in I2 as ([p2 y] & E2 & I2); cbn in E2; subst p2.
      exists ((i, j), nmul x y); split; auto.
      apply in_flat_map; exists ((i, k), x); split; auto.
      apply in_flat_map; exists ((k, j), y); split; auto. cbn.
      rewrite eqb_refl; cbn; auto.
  Qed.

  Lemma spmm_In (a b : coo T) i j : In (i, j) (map fst (spmm a b)) <->
    exists k, In (i, k) (map fst a) /\ In (k, j) (map fst b).
  Proof. unfold spmm; rewrite coalesce_keys; apply spmm_raw_In. Qed.

  Lemma range_In n i : In i (range n) <-> 0 <= i < n.
  Proof.
    unfold range; rewrite in_map_iff. split.
    - intros (k & <- & I). apply in_seq in I; lia.
    - intros L. exists (Z.to_nat i); split; [lia|]. apply in_seq; lia.
  Qed.

  Lemma range_nodup n : NoDup (range n).
  Proof.
    unfold range. apply FinFun.Injective_map_NoDup; [intros a b; lia | apply seq_NoDup].
  Qed.

  Lemma range_length n : length (range n) = Z.to_nat n.
  Proof. unfold range; rewrite map_length, seq_length; reflexivity. Qed.
End Structure.

(** Facts that need the ring laws. *)
Section Ring.
  Context {T : Type} `{N : Num T}.
  Context (RT : ring_theory (@nz T N) n1 nadd nmul nsub nopp eq).
  Add Ring TRing : RT.

  Lemma sumf_ext_in {A} (l : list A) (f g : A -> T) :
    (forall a, In a l -> f a = g a) -> sumf l f = sumf l g.
  Proof.
    induction l as [|a l IH]; cbn; intros E; auto.
    rewrite E, IH; auto.
  Qed.
  Lemma sumf_ext {A} (l : list A) (f g : A -> T) : (forall a, f a = g a) -> sumf l f = sumf l g.
  Proof. intros; apply sumf_ext_in; auto. Qed.

  Lemma sumf_app {A} (l1 l2 : list A) (f : A -> T) : sumf (l1 ++ l2) f = nadd (sumf l1 f) (sumf l2 f).
  Proof. induction l1 as [|a l IH]; cbn; [ring | rewrite IH; ring]. Qed.

  Lemma sumf_map {A B} (h : A -> B) (l : list A) (f : B -> T) : sumf (map h l) f = sumf l (fun a => f (h a)).
  Proof. induction l as [|a l IH]; cbn; [|rewrite IH]; reflexivity. Qed.

  Lemma sumf_zero {A} (l : list A) : sumf l (fun _ => nz) = nz.
  Proof. induction l as [|a l IH]; cbn; [|rewrite IH]; ring. Qed.

  Lemma sumf_zero_in {A} (l : list A) (f : A -> T) : (forall a, In a l -> f a = nz) -> sumf l f = nz.
  Proof. intros E. rewrite (sumf_ext_in l f (fun _ => nz)); auto using sumf_zero. Qed.

  Lemma sumf_add {A} (l : list A) (f g : A -> T) :
    sumf l (fun a => nadd (f a) (g a)) = nadd (sumf l f) (sumf l g).
  Proof. induction l as [|a l IH]; cbn; [|rewrite IH]; ring. Qed.

  Lemma sumf_opp {A} (l : list A) (f : A -> T) : sumf l (fun a => nopp (f a)) = nopp (sumf l f).
  Proof. induction l as [|a l IH]; cbn; [|rewrite IH]; ring. Qed.

  Lemma sumf_sub {A} (l : list A) (f g : A -> T) :
    sumf l (fun a => nsub (f a) (g a)) = nsub (sumf l f) (sumf l g).
  Proof. induction l as [|a l IH]; cbn; [|rewrite IH]; ring. Qed.

  Lemma sumf_mul_l {A} (l : list A) (f : A -> T) c : sumf l (fun a => nmul c (f a)) = nmul c (sumf l f).
  Proof. induction l as [|a l IH]; cbn; [|rewrite IH]; ring. Qed.

  Lemma sumf_mul_r {A} (l : list A) (f : A -> T) c : sumf l (fun a => nmul (f a) c) = nmul (sumf l f) c.
  Proof. induction l as [|a l IH]; cbn; [|rewrite IH]; ring. Qed.

  Lemma sumf_swap {A B} (l1 : list A) (l2 : list B) (f : A -> B -> T) :
    sumf l1 (fun a => sumf l2 (f a)) = sumf l2 (fun b => sumf l1 (fun a => f a b)).
  Proof.
    induction l1 as [|a l1 IH]; cbn.
    - symmetry; apply sumf_zero.
    - rewrite IH. rewrite <- sumf_add. reflexivity.
  Qed.

  Lemma sumf_perm {A} (l1 l2 : list A) (f : A -> T) : Permutation l1 l2 -> sumf l1 f = sumf l2 f.
  Proof.
    induction 1 as [|a l1 l2 P IH|a b l|l1 l2 l3 P1 IH1 P2 IH2]; cbn; try ring.
    - rewrite IH; ring.
    - rewrite IH1; auto.
  Qed.

  Lemma sumf_filter {A} (l : list A) (p : A -> bool) (f : A -> T) :
    sumf (filter p l) f = sumf l (fun a => if p a then f a else nz).
  Proof. induction l as [|a l IH]; cbn; auto. destruct (p a); cbn; rewrite IH; ring. Qed.

  Lemma sumf_flat_map {A B} (l : list A) (h : A -> list B) (f : B -> T) :
    sumf (flat_map h l) f = sumf l (fun a => sumf (h a) f).
  Proof. induction l as [|a l IH]; cbn; auto. rewrite sumf_app, IH; ring. Qed.

  (** a sum in which exactly one index contributes *)
  Lemma sumf_single {A} `{EqB A} (l : list A) (x : A) (f : A -> T) :
    NoDup l -> In x l -> sumf l (fun a => if eqb x a then f a else nz) = f x.
  Proof.
    induction l as [|a l IH]; cbn; [tauto|]. intros ND I.
    inversion ND as [|? ? Nin ND']; subst.
    destruct (eqb_spec x a) as [->|Ne].
    - rewrite sumf_zero_in; [ring|]. intros b Ib.
      destruct (eqb_spec a b) as [->|]; [contradiction | reflexivity].
    - rewrite IH; auto; [ring|]. destruct I as [->|]; [contradiction | auto].
  Qed.
  Lemma sumf_single_out {A} `{EqB A} (l : list A) (x : A) (f : A -> T) :
    ~ In x l -> sumf l (fun a => if eqb x a then f a else nz) = nz.
  Proof.
    intros NI. apply sumf_zero_in. intros b Ib.
    destruct (eqb_spec x b) as [->|]; [contradiction | reflexivity].
  Qed.

  (** [coalesce] does not change any weighted sum over the entries *)
  Lemma cins_sumf k v (m : coo T) (f : Z * Z -> T) :
    sumf (cins k v m) (fun kv => nmul (snd kv) (f (fst kv))) =
    nadd (nmul v (f k)) (sumf m (fun kv => nmul (snd kv) (f (fst kv)))).
  Proof.
    induction m as [|[k' v'] m IH]; cbn; [ring|].
    destruct (kcmp k k') eqn:E; cbn.
    - apply kcmp_eq in E as ->. ring.
    - ring.
    - rewrite IH. ring.
  Qed.

  Lemma coalesce_sumf (m : coo T) (f : Z * Z -> T) :
    sumf (coalesce m) (fun kv => nmul (snd kv) (f (fst kv))) =
    sumf m (fun kv => nmul (snd kv) (f (fst kv))).
  Proof.
    unfold coalesce.
    assert (G : forall m acc, sumf (fold_left (fun a kv => cins (fst kv) (snd kv) a) m acc)
                 (fun kv => nmul (snd kv) (f (fst kv))) =
               nadd (sumf m (fun kv => nmul (snd kv) (f (fst kv))))
                    (sumf acc (fun kv => nmul (snd kv) (f (fst kv))))).
    { clear m. induction m as [|kv m IH]; cbn; intros acc; [ring|].
      rewrite IH, cins_sumf. ring. }
    rewrite G; cbn; ring.
  Qed.

  Lemma if_mul (b : bool) (v : T) : (if b then v else nz) = nmul v (if b then n1 else nz).
  Proof. destruct b; ring. Qed.

  (** every "sum of the stored values whose index satisfies p" *)
  Lemma coalesce_sum_if (m : coo T) (p : Z * Z -> bool) :
    sumf (coalesce m) (fun kv => if p (fst kv) then snd kv else nz) =
    sumf m (fun kv => if p (fst kv) then snd kv else nz).
  Proof.
    rewrite (sumf_ext (coalesce m) _ (fun kv => nmul (snd kv) (if p (fst kv) then n1 else nz)))
      by (intros; apply if_mul).
    rewrite (coalesce_sumf m (fun k => if p k then n1 else nz)).
    apply sumf_ext; intros; symmetry; apply if_mul.
  Qed.

  Lemma mget_coalesce (m : coo T) i j : mget (coalesce m) i j = mget m i j.
  Proof. unfold mget. apply (coalesce_sum_if m (fun k => eqb (i, j) k)). Qed.
  Lemma rowsum_coalesce (m : coo T) i : rowsum (coalesce m) i = rowsum m i.
  Proof. unfold rowsum. apply (coalesce_sum_if m (fun k => eqb i (fst k))). Qed.
  Lemma colsum_coalesce (m : coo T) j : colsum (coalesce m) j = colsum m j.
  Proof. unfold colsum. apply (coalesce_sum_if m (fun k => eqb j (snd k))). Qed.

  Lemma spmv_as_sumf (m : coo T) x i :
    spmv m x i = sumf m (fun kv => nmul (snd kv) (if eqb i (fst (fst kv)) then x (snd (fst kv)) else nz)).
  Proof. unfold spmv; apply sumf_ext; intros kv. destruct (eqb i _); ring. Qed.
  Lemma spmv_coalesce (m : coo T) x i : spmv (coalesce m) x i = spmv m x i.
  Proof.
    rewrite !spmv_as_sumf.
    apply (coalesce_sumf m (fun k => if eqb i (fst k) then x (snd k) else nz)).
  Qed.

  (** dense form of the sparse operations: all column indices lie in [cs] *)
  Definition cols_in (cs : list Z) (m : coo T) : Prop := forall kv, In kv m -> In (snd (fst kv)) cs.
  Definition rows_in (rs : list Z) (m : coo T) : Prop := forall kv, In kv m -> In (fst (fst kv)) rs.

  Lemma spmv_dense cs (m : coo T) x i : NoDup cs -> cols_in cs m ->
    spmv m x i = sumf cs (fun j => nmul (mget m i j) (x j)).
  Proof.
    intros ND CI. unfold spmv, mget.
    rewrite (sumf_ext cs _ (fun j => sumf m (fun kv => if eqb (i, j) (fst kv) then nmul (snd kv) (x j) else nz))).
    2:{ intros j. rewrite <- sumf_mul_r. apply sumf_ext; intros kv. destruct (eqb (i, j) (fst kv)); ring. }
    rewrite sumf_swap. apply sumf_ext_in. intros [[a b] v] I.
    specialize (CI _ I). cbn [fst snd] in CI |- *.
    rewrite (sumf_ext cs _ (fun j => if eqb b j then (if eqb i a then nmul v (x b) else nz) else nz)).
    - rewrite (sumf_single b (fun _ => if eqb i a then nmul v (x b) else nz) ND CI). reflexivity.
    - intros j. rewrite pair_eqb.
      destruct (eqb_spec i a), (eqb_spec j b), (eqb_spec b j); subst; cbn; try congruence.
  Qed.

  Lemma rowsum_dense cs (m : coo T) i : NoDup cs -> cols_in cs m ->
    rowsum m i = sumf cs (fun j => mget m i j).
  Proof.
    intros ND CI.
    replace (rowsum m i) with (spmv m (fun _ => n1) i).
    - rewrite (spmv_dense (cs := cs)) by auto. apply sumf_ext; intros; ring.
    - unfold spmv, rowsum; apply sumf_ext; intros kv. destruct (eqb i _); ring.
  Qed.

  Lemma mget_ctrans (m : coo T) i j : mget (ctrans m) i j = mget m j i.
  Proof.
    unfold mget, ctrans. rewrite sumf_map. apply sumf_ext. intros [[a b] v]; cbn.
    rewrite !pair_eqb. destruct (eqb i b), (eqb j a); reflexivity.
  Qed.

  Lemma mget_app (m1 m2 : coo T) i j : mget (m1 ++ m2) i j = nadd (mget m1 i j) (mget m2 i j).
  Proof. apply sumf_app. Qed.

  Lemma mget_cmap_opp (m : coo T) i j : mget (cmap nopp m) i j = nopp (mget m i j).
  Proof.
    unfold mget, cmap. rewrite sumf_map, <- sumf_opp. apply sumf_ext; intros kv; cbn.
    destruct (eqb _ _); ring.
  Qed.

  Lemma mget_csub (a b : coo T) i j : mget (csub a b) i j = nsub (mget a i j) (mget b i j).
  Proof. unfold csub. rewrite mget_coalesce, mget_app, mget_cmap_opp. ring. Qed.

  Lemma mget_diag n (f : Z -> T) i j :
    mget (diag n f) i j = if (0 <=? i) && (i <? n) && (i =? j) then f i else nz.
  Proof.
    unfold mget, diag. rewrite sumf_map. cbn.
    destruct (Z.eqb_spec i j) as [->|Ne]; cbn.
    - rewrite andb_true_r.
      rewrite (sumf_ext _ _ (fun a => if eqb j a then f a else nz)).
      2:{ intros a; rewrite pair_eqb; destruct (eqb_spec j a); cbn; reflexivity. }
      destruct (Z.leb_spec 0 j), (Z.ltb_spec j n); cbn.
      + apply (sumf_single j f); [apply range_nodup | apply range_In; lia].
      + apply (sumf_single_out (range n) j f); rewrite range_In; lia.
      + apply (sumf_single_out (range n) j f); rewrite range_In; lia.
      + apply (sumf_single_out (range n) j f); rewrite range_In; lia.
    - rewrite andb_false_r. apply sumf_zero_in. intros a _. cbn [fst snd].
      rewrite pair_eqb. destruct (eqb_spec i a), (eqb_spec j a); subst; cbn; auto; congruence.
  Qed.

  Lemma spmv_diag n (f : Z -> T) x i : 0 <= i < n -> spmv (diag n f) x i = nmul (f i) (x i).
  Proof.
    intros L. unfold spmv, diag. rewrite sumf_map. cbn.
    apply (sumf_single i (fun a => nmul (f a) (x a))); [apply range_nodup | apply range_In; lia].
  Qed.

  Lemma spmm_sumf (a b : coo T) i j :
    mget (spmm a b) i j =
    sumf a (fun x => if eqb i (fst (fst x)) then nmul (snd x) (mget b (snd (fst x)) j) else nz).
  Proof.
    unfold spmm. rewrite mget_coalesce. unfold mget, spmm_raw.
    rewrite sumf_flat_map. apply sumf_ext. intros [[p q] x]; cbn [fst snd].
    rewrite sumf_flat_map.
    destruct (eqb_spec i p) as [->|Ne].
    - rewrite <- sumf_mul_l. apply sumf_ext. intros [[r s] y]; cbn.
      rewrite ?pair_eqb.
      destruct (eqb q r); cbn; rewrite ?pair_eqb, ?eqb_refl; cbn; [|ring].
      destruct (eqb j s); ring.
    - apply sumf_zero_in. intros [[r s] y] _; cbn.
      destruct (eqb q r); cbn; auto. rewrite ?pair_eqb.
      destruct (eqb_spec i p); [contradiction | cbn; ring].
  Qed.

  Lemma mget_spmm (a b : coo T) i j : mget (spmm a b) i j = spmv a (fun k => mget b k j) i.
  Proof. rewrite spmm_sumf. reflexivity. Qed.

  Lemma mget_spmm_dense cs (a b : coo T) i j : NoDup cs -> cols_in cs a ->
    mget (spmm a b) i j = sumf cs (fun k => nmul (mget a i k) (mget b k j)).
  Proof. intros. rewrite mget_spmm, (spmv_dense (cs := cs)); auto. Qed.

  Lemma spmv_ext_in (m : coo T) x y i : (forall kv, In kv m -> x (snd (fst kv)) = y (snd (fst kv))) ->
    spmv m x i = spmv m y i.
  Proof. intros E. unfold spmv. apply sumf_ext_in. intros kv I. destruct (eqb i _); auto. rewrite E; auto. Qed.

  (** an absent index has entry zero *)
  Lemma mget_absent (m : coo T) i j : ~ In (i, j) (map fst m) -> mget m i j = nz.
  Proof.
    intros NI. unfold mget. apply sumf_zero_in. intros [k v] I; cbn [fst snd].
    destruct (eqb_spec (i, j) k) as [<-|]; auto. exfalso; apply NI. apply (in_map fst) in I; exact I.
  Qed.
  Lemma mget_present (m : coo T) i j v : NoDup (map fst m) -> In ((i, j), v) m -> mget m i j = v.
  Proof.
    unfold mget; induction m as [|[k w] m IH]; cbn [map fst snd sumf]; [intros _ []|]. intros ND I.
    inversion ND as [|? ? Nin ND']; subst.
    destruct I as [E|I].
    - injection E as -> ->. rewrite eqb_refl. fold (mget m i j). rewrite mget_absent by auto. ring.
    - destruct (eqb_spec (i, j) k) as [<-|Ne].
      + exfalso; apply Nin. apply (in_map fst) in I; exact I.
      + rewrite IH by auto. ring.
  Qed.
End Ring.
