(** More facts on sparse matrices: diagonal factors and double sums. *)
From Coq Require Import Ring Permutation Sorted.
From Verif Require Import Num PyDict PyDictFacts Coo CooFacts ModelBase.
Set Implicit Arguments.

Section Structure.
  Context {T : Type} `{Num T}.

  Lemma cins_last k v (m : coo T) : (forall k', In k' (map fst m) -> klt k' k) -> cins k v m = m ++ [(k, v)].
  Proof.
    induction m as [|[k' v'] m IH]; cbn; intros L; auto.
    assert (X : kcmp k k' = Gt) by (apply kcmp_gt, L; auto). rewrite X, IH; auto.
  Qed.
  Lemma coalesce_id (m : coo T) : sorted_keys m -> coalesce m = m.
  Proof.
    unfold coalesce.
    enough (G : forall acc, sorted_keys (acc ++ m) ->
      fold_left (fun a kv => cins (fst kv) (snd kv) a) m acc = acc ++ m) by (apply (G [])).
    induction m as [|[k v] m IH]; intros acc S; cbn.
    - rewrite app_nil_r; auto.
    - rewrite cins_last.
      + rewrite IH; rewrite <- app_assoc; auto.
      + revert S. unfold sorted_keys. rewrite map_app; cbn. generalize (map fst acc). intros l S k' I.
        induction l as [|x l IHl]; cbn in *; [tauto|].
        inversion S as [|? ? S' F]; subst. destruct I as [->|I]; [|apply IHl; auto].
        rewrite Forall_forall in F. apply F. rewrite in_app_iff; cbn; auto.
  Qed.

  Lemma seq_sorted_keys (l : list nat) (f : Z -> T) : StronglySorted lt l ->
    sorted_keys (map (fun i => ((i, i), f i)) (map Z.of_nat l)).
  Proof.
    unfold sorted_keys. induction 1 as [|a l S IH F]; cbn; constructor; auto.
    rewrite Forall_forall in *. intros k I. rewrite !map_map in I. cbn in I.
    apply in_map_iff in I as (b & <- & I). apply klt_iff; cbn. specialize (F b I). lia.
  Qed.
  Lemma seq_SS a n : StronglySorted lt (seq a n).
  Proof.
    revert a; induction n as [|n IH]; intros a; cbn; constructor; auto.
    apply Forall_forall. intros x I. apply in_seq in I. lia.
  Qed.
  Lemma diag_sorted n (f : Z -> T) : sorted_keys (diag n f).
  Proof. apply seq_sorted_keys, seq_SS. Qed.
  Lemma diag_rowsum_eq n (m : coo T) : diag_rowsum n m = diag n (rowsum m).
  Proof. apply coalesce_id, diag_sorted. Qed.
  Lemma cmap_diag g n (f : Z -> T) : cmap g (diag n f) = diag n (fun i => g (f i)).
  Proof. unfold cmap, diag. rewrite map_map; reflexivity. Qed.
  Lemma inv_vals_diag n (f : Z -> T) : inv_vals (diag n f) = diag n (fun i => ninv (f i)).
  Proof. unfold inv_vals. rewrite cmap_diag. apply coalesce_id, diag_sorted. Qed.
  Lemma isq_vals_diag n (f : Z -> T) : isq_vals (diag n f) = diag n (fun i => nisq (f i)).
  Proof. unfold isq_vals. rewrite cmap_diag. apply coalesce_id, diag_sorted. Qed.
  Lemma vals_diag n (f : Z -> T) : vals (diag n f) = map f (range n).
  Proof. unfold vals, diag. rewrite map_map; reflexivity. Qed.
  Lemma diag_keys n (f : Z -> T) i j : In (i, j) (map fst (diag n f)) <-> i = j /\ 0 <= i < n.
  Proof.
    unfold diag. rewrite map_map; cbn. rewrite in_map_iff. split.
    - intros (x & E & I). injection E as <- <-. apply range_In in I; auto.
    - intros [-> I]. exists j. rewrite range_In; auto.
  Qed.
  Lemma coalesce_idem (m : coo T) : coalesce (coalesce m) = coalesce m.
  Proof. apply coalesce_id, coalesce_sorted. Qed.

  Definition boxed (n m : Z) (A : coo T) : Prop :=
    forall i j, In (i, j) (map fst A) -> 0 <= i < n /\ 0 <= j < m.
  Lemma boxed_cols n m A : boxed n m A -> cols_in (range m) A.
  Proof.
    intros B [[i j] v] I. cbn. apply range_In. apply (B i j). apply in_map_iff. eexists; split; [|exact I]; auto.
  Qed.
  Lemma boxed_rows n m A : boxed n m A -> rows_in (range n) A.
  Proof.
    intros B [[i j] v] I. cbn. apply range_In. apply (B i j). apply in_map_iff. eexists; split; [|exact I]; auto.
  Qed.
  Lemma boxed_coalesce n m A : boxed n m A -> boxed n m (coalesce A).
  Proof. intros B i j I. apply B. apply coalesce_keys; auto. Qed.
  Lemma boxed_diag n f : boxed n n (diag n f).
  Proof. intros i j I. apply diag_keys in I as [-> I]; auto. Qed.
  Lemma boxed_app n m A B : boxed n m A -> boxed n m B -> boxed n m (A ++ B).
  Proof. intros X Y i j. rewrite map_app, in_app_iff. intros [I|I]; auto. Qed.
  Lemma map_fst_cmap (f : T -> T) (A : coo T) : map fst (cmap f A) = map fst A.
  Proof. unfold cmap. rewrite map_map; reflexivity. Qed.
  Lemma boxed_cmap n m f A : boxed n m A -> boxed n m (cmap f A).
  Proof. intros B i j. rewrite map_fst_cmap. auto. Qed.
  Lemma boxed_spmm n k m A B : boxed n k A -> boxed k m B -> boxed n m (spmm A B).
  Proof.
    intros X Y i j I. apply spmm_In in I as (l & I1 & I2).
    split; [apply (X i l) | apply (Y l j)]; auto.
  Qed.
  Lemma boxed_trans n m A : boxed n m A -> boxed m n (ctrans A).
  Proof.
    intros B i j I. unfold ctrans in I. rewrite map_map in I. cbn in I.
    apply in_map_iff in I as ([[a b] v] & E & I). cbn in E. injection E as <- <-.
    destruct (B a b); auto. apply in_map_iff; eexists; split; [|exact I]; auto.
  Qed.
  Lemma mk_sparse_ok n m idx w : (forall i j, In (i, j) idx -> 0 <= i < n /\ 0 <= j < m) ->
    mk_sparse n m idx w = Ok (coalesce (combine idx w)).
  Proof.
    intros B. unfold mk_sparse.
    replace (forallb (in_box n m) idx) with true; auto. symmetry. apply forallb_forall.
    intros [i j] I. unfold in_box; cbn. specialize (B i j I).
    rewrite !andb_true_iff, !Z.leb_le, !Z.ltb_lt. lia.
  Qed.
  Lemma combine_keys {A B} (l : list A) (w : list B) : length w = length l -> map fst (combine l w) = l.
  Proof.
    revert w; induction l as [|a l IH]; intros [|b w]; cbn; intros E; try discriminate; auto.
    f_equal; auto.
  Qed.
  Lemma combine_rows_cols (A : coo T) : combine (combine (rows A) (cols A)) (vals A) = A.
  Proof. unfold rows, cols, vals. induction A as [|[[i j] v] A IH]; cbn; congruence. Qed.
End Structure.

Section Ring.
  Context {T : Type} `{N : Num T}.
  Context (RT : ring_theory (@nz T N) n1 nadd nmul nsub nopp eq).
  Add Ring TRing2 : RT.
  Lemma nsub_zero_r (x : T) : nsub x nz = x.
  Proof. ring. Qed.

  Lemma mget_diag_l n (f : Z -> T) (A : coo T) i j : 0 <= i < n ->
    mget (spmm (diag n f) A) i j = nmul (f i) (mget A i j).
  Proof. intros I. rewrite (mget_spmm RT), (spmv_diag RT) by auto. reflexivity. Qed.
  Lemma mget_diag_r n (f : Z -> T) (A : coo T) i j : 0 <= j < n ->
    mget (spmm A (diag n f)) i j = nmul (mget A i j) (f j).
  Proof.
    intros J. rewrite (mget_spmm RT). unfold spmv.
    transitivity (sumf A (fun kv => nmul (if eqb (i, j) (fst kv) then snd kv else nz) (f j)));
      [|apply (sumf_mul_r RT)].
    apply sumf_ext.
    intros [[a b] v]; cbn. rewrite pair_eqb.
    destruct (eqb_spec i a) as [->|Ni]; cbn; [|ring].
    rewrite (mget_diag RT). rewrite (eqb_sym j b). change (eqb b j) with (b =? j).
    destruct (Z.eqb_spec b j) as [->|Nb]; cbn.
    - replace (0 <=? j) with true by (symmetry; apply Z.leb_le; lia).
      replace (j <? n) with true by (symmetry; apply Z.ltb_lt; lia). cbn. reflexivity.
    - rewrite andb_false_r. ring.
  Qed.

  (** a bilinear sum over the dense matrix is a sum over the stored entries *)
  Lemma double_sum n m (A : coo T) (f : Z -> Z -> T) : boxed n m A ->
    sumf (range n) (fun i => sumf (range m) (fun j => nmul (mget A i j) (f i j))) =
    sumf A (fun kv => nmul (snd kv) (f (fst (fst kv)) (snd (fst kv)))).
  Proof.
    intros B.
    transitivity (sumf (range n) (fun i => sumf (range m) (fun j =>
      sumf A (fun kv => if eqb (i, j) (fst kv) then nmul (snd kv) (f i j) else nz)))).
    { apply sumf_ext; intros i. apply sumf_ext; intros j.
      unfold mget. etransitivity; [symmetry; apply (sumf_mul_r RT)|]. apply sumf_ext. intros kv. destruct (eqb (i, j) (fst kv)); ring. }
    transitivity (sumf A (fun kv => sumf (range n) (fun i => sumf (range m) (fun j =>
      if eqb (i, j) (fst kv) then nmul (snd kv) (f i j) else nz)))).
    { transitivity (sumf (range n) (fun i => sumf A (fun kv => sumf (range m) (fun j =>
        if eqb (i, j) (fst kv) then nmul (snd kv) (f i j) else nz)))).
      - apply sumf_ext. intros i. apply (sumf_swap RT).
      - apply (sumf_swap RT). }
    apply sumf_ext_in. intros [[a b] v] I. cbn.
    destruct (B a b) as [Ba Bb]; [apply in_map_iff; eexists; split; [|exact I]; auto|].
    transitivity (sumf (range n) (fun i => if eqb a i then nmul v (f i b) else nz)).
    { apply sumf_ext. intros i.
      transitivity (sumf (range m) (fun j => if eqb b j then (if eqb a i then nmul v (f i j) else nz) else nz)).
      - apply sumf_ext. intros j. rewrite pair_eqb, (eqb_sym i a), (eqb_sym j b).
        destruct (eqb a i), (eqb b j); reflexivity.
      - apply (sumf_single RT b (fun j => if eqb a i then nmul v (f i j) else nz)); [apply range_nodup | apply range_In; auto]. }
    apply (sumf_single RT a (fun i => nmul v (f i b))); [apply range_nodup | apply range_In; auto].
  Qed.
End Ring.
