(** Property C173: UniGCN on hypergraphs with hyperedges of weight zero. *)
From Coq Require Import String Ring Permutation Reals Lra.
From Verif Require Import Num PyDict PyDictFacts Coo CooFacts MatFacts RealFacts ModelBase CacheFacts ModelHyper HyperFacts SpecHyper HyperStore HyperView HyperMatrix
  HyperPass HyperReach HyperOps PropHyper ModelUtils ModelConv ModelMetrics MetricFacts ModelNN SpecNN NNFacts PropLayers ModelVis ModelMore.
Set Implicit Arguments.
Local Open Scope list_scope.
Local Open Scope R_scope.
Local Open Scope Z_scope.

Lemma fadd_nan_r (x : fl R) : fadd x NaN = NaN. Proof. destruct x; reflexivity. Qed.
Lemma fsum_nan l : In NaN l -> fsum l = NaN.
Proof. induction l as [|x l IH]; [intros []|]. unfold fsum in *. cbn [fold_right]. intros [->|I]; [reflexivity|]. rewrite IH by auto. apply fadd_nan_r. Qed.
Lemma fsum_fin {A} (l : list A) (f : A -> R) (g : A -> fl R) : (forall a, In a l -> g a = Fin (f a)) -> fsum (map g l) = Fin (sumf l f).
Proof. induction l as [|x l IH]; intros E; [reflexivity|]. cbn [map]. unfold fsum in *. cbn [fold_right]. rewrite IH by (intros a I; apply E; right; exact I). rewrite E by (left; reflexivity). reflexivity. Qed.
Lemma fspmv_nan A x i j v : In ((i, j), v) A -> x j = NaN -> fspmv A x i = NaN.
Proof.
  intros I E. apply fsum_nan. apply in_map_iff. exists ((i, j), v). cbn [fst snd]. rewrite E. split; [reflexivity|]. apply filter_In. cbn. rewrite Z.eqb_refl. auto.
Qed.
Lemma fspmv_fin A x y i : (forall j v, In ((i, j), v) A -> x j = Fin (y j)) -> fspmv A x i = Fin (spmv A y i).
Proof.
  intros E. unfold fspmv. rewrite (fsum_fin _ (fun a => (snd a * y (snd (fst a)))%R)).
  - f_equal. unfold spmv. etransitivity; [exact (sumf_filter RT A (fun a => fst (fst a) =? i) (fun a => (snd a * y (snd (fst a)))%R))|]. apply sumf_ext. intros [[a b] v]. cbn [fst snd]. change (eqb i a) with (i =? a). rewrite Z.eqb_sym. reflexivity.
  - intros [[a b] v] I. apply filter_In in I as [I Q]. cbn [fst snd] in *. apply Z.eqb_eq in Q as ->. rewrite (E b v I). reflexivity.
Qed.

Lemma nth_map_rng {A} (f : Z -> A) n v d : 0 <= v < n -> nth (Z.to_nat v) (map f (range n)) d = f v.
Proof. intros V. unfold range. rewrite map_map, nth_map_seq by lia. f_equal. lia. Qed.
Lemma Rsum_nn {A} (l : list A) (f : A -> R) : (forall a, In a l -> 0 <= f a)%R -> (0 <= sumf l f)%R.
Proof. induction l as [|a l IH]; intros P; cbn [sumf]; [apply Rle_refl|]. apply Rplus_le_le_0_compat; [apply P; left; reflexivity|apply IH; intros b I; apply P; right; exact I]. Qed.
Lemma filter_none {A} (f : A -> bool) l : (forall a, In a l -> f a = false) -> filter f l = [].
Proof. induction l as [|a l IH]; intros E; [reflexivity|]. cbn [filter]. rewrite E by (left; reflexivity). apply IH. intros b I. apply E. right. exact I. Qed.
Lemma alive_sums (d : Z -> R) l : (forall u, In u l -> 0 <= d u)%R ->
  let a := filter (fun u => if Req_EM_T (d u) 0 then false else true) l in
  sumf l d = sumf a d /\ sumf l (fun u => if Req_EM_T (d u) 0 then 0%R else 1%R) = INR (length a) /\ (a <> [] -> 0 < sumf a d)%R.
Proof.
  induction l as [|u l IH]; intros P; cbn [filter]; [split; [reflexivity|split; [reflexivity|intros X; contradiction X; reflexivity]]|].
  destruct IH as (S1 & S2 & S3); [intros b I; apply P; right; exact I|]. cbn [sumf]. rewrite S1, S2. destruct (Req_EM_T (d u) 0) as [Q|Q].
  - split; [|split; [|exact S3]]; change (@nadd _ Num_R) with Rplus; [rewrite Q|]; ring.
  - cbn [sumf]. split; [reflexivity|]. split.
    + change (length (u :: ?x)) with (S (length x)). rewrite S_INR. change (@nadd _ Num_R) with Rplus. ring.
    + intros _. change (@nadd _ Num_R) with Rplus. pose proof (P u (or_introl eq_refl)). apply Rplus_lt_le_0_compat; [lra|]. apply Rsum_nn.
      intros b I. apply filter_In in I as [I _]. apply P. right. exact I.
Qed.
(** With non-negative weights, a vertex gets nan in every channel exactly if it lies in a hyperedge all of whose vertices have degree 0;
    every other vertex gets the published formula, with the average taken over the vertices of degree other than 0. *)
Theorem C173_unigcn_actual : forall nv e w vw m ops (s : hypergraph R) es ws th X c,
  h_clean_reach nv e w vw m ops s -> h_reports s None es ws -> Forall (fun x => 0 <= x)%R ws -> fits th (length X) c ->
  let X1 j v := affine th (length X) (fun k => chan X k v) j in
  let dead i := forall u, In u (nthe es i) -> hdeg es ws u = 0%R in
  let alive i := filter (fun u => if Req_EM_T (hdeg es ws u) 0 then false else true) (nthe es i) in
  let d_e i := (sumf (alive i) (hdeg es ws) / INR (length (alive i)))%R in
  exists Y, unigcn_fl th s X = Ok Y /\ length Y = c /\ forall j v, (j < c)%nat -> 0 <= v < nv ->
    let y := nth (Z.to_nat v) (nth j Y []) (Fin 0%R) in
    ((exists i, 0 <= i < Z.of_nat (length es) /\ In v (nthe es i) /\ dead i) -> y = NaN) /\
    ((forall i, 0 <= i < Z.of_nat (length es) -> In v (nthe es i) -> ~ dead i) ->
      y = Fin ((if Req_EM_T (hdeg es ws v) 0 then 0 else / sqrt (hdeg es ws v)) * inc_sum es (fun i => / sqrt (d_e i) * edge_mean es ws (X1 j) i) v)%R).
Proof.
  intros nv e w vw m ops s es ws th X c H R PW F X1 dead alive d_e. destruct (linear_spec _ F) as (Y & E & L & D).
  destruct (C29_degrees RT H R) as (_ & EDv & _ & EDv12 & _).
  destruct (C29_coordinates H R) as (src & dst & on & A1 & A2 & _ & _ & _ & _ & LL & EO & ND & AH & K).
  set (ne := Z.of_nat (length es)) in *.
  assert (VD : map snd (diag nv (hdeg es ws)) = map (hdeg es ws) (range nv)) by (unfold diag; rewrite map_map; reflexivity).
  set (ue := uni_de_fl (map (hdeg es ws) (range nv)) src dst).
  set (Hm := combine (combine src dst) on) in *.
  assert (IH : forall v i x, In ((v, i), x) Hm -> 0 <= i < ne /\ In v (nthe es i)).
  { intros v i x I. apply in_combine_l in I. apply K. exact I. }
  assert (HI : forall v i, 0 <= i < ne -> In v (nthe es i) -> In ((v, i), 1%R) Hm).
  { intros v i I IV. assert (J : In (v, i) (combine src dst)) by (apply K; auto). subst on. unfold Hm. clear - J LL.
    revert dst LL J. induction src as [|a src IH]; intros [|b dst] LL J; try destruct J; try discriminate; cbn [combine map].
    - injection H as -> ->. left. reflexivity.
    - right. apply IH; auto. }
  unfold unigcn_fl. rewrite E. cbn [rbind]. rewrite (columns _ (ask_v2e RT H R)). cbn [rbind]. rewrite EDv, A1, A2, AH, EDv12. cbn [rbind as_coo as_idx]. rewrite VD. fold ue. fold ne.
  rewrite (hyper_rows H R).
  eexists. split; [reflexivity|]. split; [unfold mat; rewrite !map_length, seq_length; exact L|].
  intros j v J V.
  match goal with |- (_ -> ?a = _) /\ _ => set (y := a) end.
  assert (EY : y = fspmv (diag nv (fun v => nisq (hdeg es ws v))) (fspmv Hm (fun e0 => fmul (ue e0) (Fin (vec (map (edge_mean es ws (chan Y j)) (range ne)) e0)))) v).
  { unfold y, mat. rewrite map_map. rewrite nth_map_seq by (rewrite L; exact J). rewrite nth_map_rng by exact V. reflexivity. }
  assert (DN : forall u, (0 <= hdeg es ws u)%R).
  { intros u. unfold hdeg. apply Rsum_nn. intros [e' w'] I. cbn [fst snd]. destruct (zmem u e'); [|apply Rle_refl]. rewrite Forall_forall in PW. apply PW. apply in_combine_r in I. exact I. }
  assert (UE : forall i, 0 <= i < ne -> ue i = match alive i with [] => NaN | _ => Fin (/ sqrt (d_e i)) end).
  { intros i I. unfold ue, uni_de_fl. cbv zeta.
    rewrite (@inc_pairs _ _ _ _ _ _ _ _ _ _ _ H R A1 A2 i (fun u => vec (map (hdeg es ws) (range nv)) u) I).
    rewrite (@inc_pairs _ _ _ _ _ _ _ _ _ _ _ H R A1 A2 i (fun u => if Req_EM_T (vec (map (hdeg es ws) (range nv)) u) 0 then 0 else 1)%R I).
    rewrite (sumf_ext_in (nthe es i) _ (hdeg es ws)) by (intros u U; apply vec_map; exact (inside H R u I U)).
    rewrite (sumf_ext_in (nthe es i) (fun u => if Req_EM_T _ 0 then _ else _) (fun u => if Req_EM_T (hdeg es ws u) 0 then 0 else 1)%R).
    2:{ intros u U. rewrite vec_map by (exact (inside H R u I U)). reflexivity. }
    destruct (alive_sums (hdeg es ws) (nthe es i) (fun u _ => DN u)) as (S1 & S2 & S3). fold (alive i) in S1, S2, S3. rewrite S1, S2.
    destruct (alive i) as [|a l] eqn:EA.
    - change (sumf [] (hdeg es ws)) with 0%R. change (INR (length (@nil Z))) with 0%R. rewrite fdiv_00. reflexivity.
    - assert (SP : (0 < sumf (a :: l) (hdeg es ws))%R) by (apply S3; discriminate).
      assert (LP : (0 < INR (length (a :: l)))%R) by (apply lt_0_INR; cbn; lia).
      unfold d_e. rewrite EA. rewrite fdiv_ne by lra.
      assert (DP : (0 < sumf (a :: l) (hdeg es ws) / INR (length (a :: l)))%R) by (apply Rmult_lt_0_compat; auto; apply Rinv_0_lt_compat; auto).
      destruct (Req_EM_T _ 0) as [Q|Q]; [exfalso; lra|]. destruct (Rlt_dec 0 _) as [Q'|Q']; [reflexivity|contradiction]. }
  split.
  - intros (i & I & IV & DD). rewrite EY. apply fspmv_nan with v (nisq (hdeg es ws v)); [apply in_map_iff; exists v; split; [reflexivity|apply range_In; exact V]|].
    apply fspmv_nan with i 1%R; [apply HI; auto|]. rewrite UE by auto. replace (alive i) with (@nil Z); [reflexivity|].
    symmetry. unfold alive. apply filter_none. intros u U. rewrite (DD u U). destruct (Req_EM_T 0 0); [reflexivity|contradiction].
  - intros A. rewrite EY.
    rewrite (fspmv_fin _ _ (fun u => spmv Hm (fun i => / sqrt (d_e i) * edge_mean es ws (X1 j) i)%R u)).
    + f_equal. rewrite (spmv_diag RT) by exact V. change (nmul (nisq (hdeg es ws v)) ?x) with (Risq (hdeg es ws v) * x)%R. unfold Risq at 1. f_equal.
      unfold spmv, inc_sum, Hm. subst on. fold ne.
      transitivity (sumf (combine src dst) (fun vd => if fst vd =? v then / sqrt (d_e (snd vd)) * edge_mean es ws (X1 j) (snd vd) else 0)%R).
      { clear - LL. revert dst LL. induction src as [|a src IH]; intros [|b dst] LL; try discriminate; [reflexivity|]. cbn [combine map sumf fst snd]. rewrite IH by (injection LL; auto).
        f_equal. change (eqb v a) with (v =? a). rewrite Z.eqb_sym. destruct (a =? v); [|reflexivity]. change (@n1 _ Num_R) with 1%R. change (@nmul _ Num_R) with Rmult. ring. }
      set (g := fun i => (/ sqrt (d_e i) * edge_mean es ws (X1 j) i)%R).
      transitivity (sumf (filter (fun vd => fst vd =? v) (combine src dst)) (fun vd => g (snd vd))); [symmetry; exact (sumf_filter RT (combine src dst) (fun vd => fst vd =? v) (fun vd => g (snd vd)))|].
      transitivity (sumf (map (fun i => (v, i)) (filter (fun i => zmem v (nthe es i)) (range ne))) (fun vd => g (snd vd))).
      2:{ rewrite sumf_map. cbn [snd]. exact (sumf_filter RT (range ne) (fun i => zmem v (nthe es i)) g). }
      apply (sumf_perm RT). apply NoDup_Permutation.
      { apply NoDup_filter; exact ND. }
      { apply FinFun.Injective_map_NoDup; [intros a b X0; injection X0; auto|]. apply NoDup_filter, range_nodup. }
      { intros [u i]. rewrite filter_In, in_map_iff. cbn [fst snd]. rewrite K. split.
        - intros ((I & IU) & Q). apply Z.eqb_eq in Q as ->. exists i. split; [reflexivity|]. apply filter_In. split; [apply range_In; exact I|apply zmem_In; exact IU].
        - intros (i' & Q & I). injection Q as -> ->. apply filter_In in I as [I IU]. apply range_In in I. apply zmem_In in IU. split; [auto|apply Z.eqb_refl]. }
    + intros u x I. apply in_map_iff in I as (u' & Q & _). injection Q as -> -> _. apply fspmv_fin. intros i x' I. destruct (IH _ _ _ I) as [II IV].
      rewrite UE by exact II. destruct (alive i) as [|a l] eqn:EA.
      * exfalso. apply (A i II IV). intros u0 U. destruct (Req_EM_T (hdeg es ws u0) 0) as [|NQ]; [assumption|]. exfalso.
        assert (B : In u0 (alive i)) by (apply filter_In; split; [exact U|destruct (Req_EM_T (hdeg es ws u0) 0); [contradiction|reflexivity]]). rewrite EA in B. exact B.
      * cbn [fmul]. do 2 f_equal. rewrite vec_map by exact II. apply edge_mean_ext. intros u0 _. apply D; auto.
Qed.
(** two vertices in a hyperedge of weight 0 *)
Example C173_case : exists s : hypergraph R, h_clean_reach 3 (Some (HMany [[0; 1]; [1; 2]])) (WList [0%R; 0%R]) None MMean [] s /\
  h_reports s None [[0; 1]; [1; 2]] [0%R; 0%R] /\ Forall (fun x => 0 <= x)%R [0%R; 0%R] /\ fits (one_to_one 1%R 0%R) 1 1 /\
  (forall u, In u (nthe [[0; 1]; [1; 2]] 0) -> hdeg [[0; 1]; [1; 2]] [0%R; 0%R] u = 0%R) /\
  exists Y, unigcn_fl (one_to_one 1%R 0%R) s [fun v => IZR v] = Ok Y /\ nth 0 (nth 0 Y []) (Fin 0%R) = NaN.
Proof.
  assert (HH : exists s : hypergraph R, h_clean_reach 3 (Some (HMany [[0; 1]; [1; 2]])) (WList [0%R; 0%R]) None MMean [] s /\ h_reports s None [[0; 1]; [1; 2]] [0%R; 0%R]).
  { eexists. split; [split; [eexists; split; [reflexivity|reflexivity]|]|].
    - split; [discriminate|]. split; [constructor|]. split; [|constructor]. unfold clean_new, clean_harg. repeat (constructor; try (cbn; lia)).
    - split; [reflexivity|]. intros _. discriminate. }
  destruct HH as (s & H & RP).
  assert (PW : Forall (fun x => 0 <= x)%R [0%R; 0%R]) by (repeat constructor; apply Rle_refl).
  assert (DD : forall u, In u (nthe [[0; 1]; [1; 2]] 0) -> hdeg [[0; 1]; [1; 2]] [0%R; 0%R] u = 0%R).
  { intros u [<-|[<-|[]]]; unfold hdeg; cbn; ring. }
  exists s. split; [exact H|]. split; [exact RP|]. split; [exact PW|]. split; [apply fits_one|]. split; [exact DD|].
  destruct (@C173_unigcn_actual _ _ _ _ _ _ _ _ _ (one_to_one 1%R 0%R) [fun v => IZR v] 1%nat H RP PW (fits_one _ _)) as (Y & E & _ & A).
  exists Y. split; [exact E|]. apply (A 0%nat 0); [lia|lia|]. exists 0. split; [cbn; lia|]. split; [left; reflexivity|exact DD].
Qed.
