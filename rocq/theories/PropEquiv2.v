(** Property C185: the recommenders do not depend on the numbers of users and items. *)
From Coq Require Import String Ring Permutation Reals Lra QArith Qcanon.
From Verif Require Import Num PyDict PyDictFacts Coo CooFacts MatFacts RealFacts ModelBase CacheFacts ModelGraph GraphFacts SpecGraph SpecGraphOps StoreFacts
  GraphStore GraphMatrix GraphReach PropGraph ModelBiGraph SpecBiGraph BiGraphFacts BiGraphMatrix PropBiGraph
  ModelHyper HyperFacts SpecHyper HyperStore HyperView HyperMatrix HyperPass HyperReach HyperOps PropHyper
  ModelConv ModelUtils ModelNN ModelModels SpecNN NNFacts PropNN PropLayers SpecLocal LocalFacts ModelCF PropCF PropRelabel PropRelabel2 PropEquiv.
Set Implicit Arguments.
Local Open Scope list_scope.
Local Open Scope Z_scope.
Local Notation q z := (Q2Qc (inject_Z z)).

(** embeddings of users and items, one pair of columns per channel: row [pu u] of the new users is row [u] of the old ones, and
    likewise the items *)
Definition turned_pairs {T} {N : Num T} (nu nv : Z) (pu pv : Z -> Z) (d : nat) (O O' : list (list T * list T)) : Prop :=
  shaped (map fst O) d nu /\ shaped (map snd O) d nv /\ shaped (map fst O') d nu /\ shaped (map snd O') d nv /\
  turned nu pu (map fst O) (map fst O') /\ turned nv pv (map snd O) (map snd O').

Section Both.
  Context {T : Type} {N : Num T}.
  Context (nu nv : Z) (pu ru pv rv : Z -> Z) (PU : 0 <= nu) (PV : 0 <= nv) (RU : renaming nu pu ru) (RV : renaming nv pv rv).
  Lemma both_cases i : 0 <= i < nu + nv -> (both nu pu pv i <? nu) = (i <? nu) /\ (nu <=? both nu pu pv i) = (nu <=? i) /\
    (i < nu -> both nu pu pv i = pu i) /\ (nu <= i -> both nu pu pv i - nu = pv (i - nu)).
  Proof using RU RV.
    intros I. unfold both. destruct (Z.ltb_spec i nu) as [L|L].
    - pose proof (proj2 (ren_in RU i) ltac:(lia)). destruct (Z.ltb_spec (pu i) nu), (Z.leb_spec nu (pu i)), (Z.leb_spec nu i); repeat split; auto; lia.
    - pose proof (proj2 (ren_in RV (i - nu)) ltac:(lia)). destruct (Z.ltb_spec (nu + pv (i - nu)) nu), (Z.leb_spec nu (nu + pv (i - nu))), (Z.leb_spec nu i); repeat split; auto; lia.
  Qed.
  Lemma both_hi v : 0 <= v -> both nu pu pv (nu + v) = nu + pv v.
  Proof. intros V. unfold both. destruct (Z.ltb_spec (nu + v) nu); [lia|]. do 2 f_equal. lia. Qed.
  Lemma both_lo u : u < nu -> both nu pu pv u = pu u.
  Proof. intros U. unfold both. destruct (Z.ltb_spec u nu); [auto|lia]. Qed.
  (** embeddings of users over those of items *)
  Definition over (U I : list (list T)) (j : nat) (i : Z) : T := if i <? nu then entry U j i else entry I j (i - nu).
  Lemma over_turned U U' I I' : turned nu pu U U' -> turned nv pv I I' -> forall j i, 0 <= i < nu + nv -> over U' I' j (both nu pu pv i) = over U I j i.
  Proof using RU RV PU PV.
    intros EU EI j i B. destruct (both_cases B) as (A1 & _ & A3 & A4). unfold over. rewrite A1. destruct (Z.ltb_spec i nu) as [L|L].
    - rewrite A3 by auto. rewrite <- !row_nth, (EU i) by lia. reflexivity.
    - rewrite A4 by auto. rewrite <- !row_nth, (EI (i - nu)) by lia. reflexivity.
  Qed.
  (** averages over the layers, split again *)
  Definition split_at (d : nat) (m : nat -> Z -> T) : list (list T * list T) :=
    map (fun j => (map (m j) (range nu), map (fun i => m j (nu + i)) (range nv))) (seq 0 d).
  Lemma split_turned d (m m' : nat -> Z -> T) : (forall j i, (j < d)%nat -> 0 <= i < nu + nv -> m' j (both nu pu pv i) = m j i) ->
    turned_pairs nu nv pu pv d (split_at d m) (split_at d m').
  Proof using RU RV PU PV.
    intros E. unfold turned_pairs, split_at. rewrite !map_map. cbn [fst snd].
    change (map (fun x => map (m x) (range nu)) (seq 0 d)) with (mat d nu m). change (map (fun x => map (m' x) (range nu)) (seq 0 d)) with (mat d nu m').
    change (map (fun x => map (fun i => m x (nu + i)) (range nv)) (seq 0 d)) with (mat d nv (fun j i => m j (nu + i))).
    change (map (fun x => map (fun i => m' x (nu + i)) (range nv)) (seq 0 d)) with (mat d nv (fun j i => m' j (nu + i))).
    repeat (split; [apply mat_shaped|]). split.
    - apply (turned_entries RU (mat_shaped d nu m) (mat_shaped d nu m')). intros j u J V. pose proof (proj2 (ren_in RU u) V).
      rewrite !mat_entry by auto. rewrite <- (both_lo (u := u)) by lia. apply E; auto. lia.
    - apply (turned_entries RV (mat_shaped d nv _) (mat_shaped d nv _)). intros j v J V. pose proof (proj2 (ren_in RV v) V).
      rewrite !mat_entry by auto. rewrite <- both_hi by lia. apply E; auto. lia.
  Qed.
  Context (RT : ring_theory (@nz T N) n1 nadd nmul nsub nopp eq) (g g' : wmap T) (BR : brelabelled nu nv pu pv g g').
  Lemma bi_coeff_turned i j : 0 <= i < nu + nv -> 0 <= j < nu + nv -> bi_coeff nu nv g' (both nu pu pv i) (both nu pu pv j) = bi_coeff nu nv g i j.
  Proof using All.
    pose proof (both_renaming PU PV RU RV) as RB.
    assert (BL : forall i j, 0 <= i < nu + nv -> 0 <= j < nu + nv -> block nu g' (both nu pu pv i) (both nu pu pv j) = block nu g i j).
    { clear i j. intros i j I J. destruct (both_cases I) as (I1 & I2 & I3 & I4). destruct (both_cases J) as (J1 & J2 & J3 & J4). unfold block. rewrite I1, I2, J1, J2.
      destruct (Z.ltb_spec i nu), (Z.leb_spec nu j), (Z.leb_spec nu i), (Z.ltb_spec j nu); cbn [andb]; auto; try lia.
      - rewrite I3, J4, BR by lia. auto.
      - rewrite J3, I4, BR by lia. auto. }
    assert (HD : forall x, 0 <= x < nu + nv -> sumf (range (nu + nv)) (fun b => nadd (block nu g' (both nu pu pv x) b) (if both nu pu pv x =? b then n1 else nz)) =
      sumf (range (nu + nv)) (fun b => nadd (block nu g x b) (if x =? b then n1 else nz))).
    { intros x X. apply (ren_sumf RB RT). intros v V. rewrite BL, (ren_eqb RB); auto. }
    intros I J. unfold bi_coeff. rewrite !HD, BL, (ren_eqb RB) by auto. reflexivity.
  Qed.
  Lemma smooth_pow_turned l (x x' : Z -> T) : (forall i, 0 <= i < nu + nv -> x' (both nu pu pv i) = x i) ->
    forall i, 0 <= i < nu + nv -> smooth_pow (nu + nv) (bi_coeff nu nv g') l x' (both nu pu pv i) = smooth_pow (nu + nv) (bi_coeff nu nv g) l x i.
  Proof using All.
    intros E. induction l as [|l IH]; intros i I; cbn [smooth_pow]; [auto|]. apply (ren_sumf (both_renaming PU PV RU RV) RT). intros j J. rewrite bi_coeff_turned, IH by auto. reflexivity.
  Qed.
End Both.

Theorem C185_lightgcn : forall (T : Type) (N : Num T), ring_theory (@nz T N) n1 nadd nmul nsub nopp eq ->
  forall nu nv pu ru pv rv e w m ops (s : bigraph T) e' w' m' ops' (s' : bigraph T) k d U I U' I', 0 <= nu ->
  b_reach nu nv e w m ops s -> nonneg_new e -> Forall nonneg_bop ops ->
  b_reach nu nv e' w' m' ops' s' -> nonneg_new e' -> Forall nonneg_bop ops' ->
  renaming nu pu ru -> renaming nv pv rv -> brelabelled nu nv pu pv (b_spec nu nv e w m ops) (b_spec nu nv e' w' m' ops') ->
  shaped U d nu -> shaped I d nv -> shaped U' d nu -> shaped I' d nv -> turned nu pu U U' -> turned nv pv I I' ->
  exists O O', lightgcn k U I s = Ok O /\ lightgcn k U' I' s' = Ok O' /\ turned_pairs nu nv pu pv d O O'.
Proof.
  intros T N RT nu nv pu ru pv rv e w m ops s e' w' m' ops' s' k d U I U' I' PU H NE NO H' NE' NO' RU RV BR [LU FU] [LI FI] [LU' FU'] [LI' FI'] EU EI.
  assert (PV : 0 <= nv) by (destruct (breach_rel H) as (_ & _ & _ & _ & P); lia).
  destruct (@C127_lightgcn T N RT nu nv e w m ops s k U I nu nv PU H NE NO PU PV ltac:(lia) FU FI) as [C _].
  destruct (@C127_lightgcn T N RT nu nv e' w' m' ops' s' k U' I' nu nv PU H' NE' NO' PU PV ltac:(lia) FU' FI') as [C' _].
  destruct C as (O & EO & LO & DO); [auto|]. destruct C' as (O' & EO' & LO' & DO'); [auto|]. rewrite LU in *. rewrite LU' in *. exists O, O'. split; [exact EO|]. split; [exact EO'|].
  pose (avg := fun g U I j i => nmul (sumf (seq 0 (S k)) (fun l => smooth_pow (nu + nv) (bi_coeff (T := T) nu nv g) l (over nu U I j) i)) (ninv (sumf (seq 0 (S k)) (fun _ => n1)))).
  assert (AS : forall O U I g, length O = d -> (forall j, (j < d)%nat -> nth j O ([], []) = (map (avg g U I j) (range nu), map (fun i => avg g U I j (nu + i)) (range nv))) -> O = split_at nu nv d (avg g U I)).
  { clear. intros O U I g L D. apply nth_ext with (d := ([], [])) (d' := ([], [])); unfold split_at; rewrite ?map_length, ?seq_length; auto. intros j J. rewrite L in J. rewrite D by auto.
    rewrite nth_map_seq by auto. reflexivity. }
  rewrite (AS O U I (b_spec nu nv e w m ops) LO DO), (AS O' U' I' (b_spec nu nv e' w' m' ops') LO' DO').
  apply (split_turned PU PV RU RV). intros j i J B. unfold avg. f_equal. apply sumf_ext. intros l. apply (smooth_pow_turned PU PV RU RV RT BR); auto.
  intros x X. apply (over_turned PU PV RU RV EU EI); auto.
Qed.

Section Layers.
  Local Open Scope R_scope.
  Lemma cf_turned skip d n p (smooth smooth' : (Z -> R) -> Z -> R) ls :
    (forall x x', (forall i, (0 <= i < n)%Z -> x' (p i) = x i) -> forall i, (0 <= i < n)%Z -> smooth' x' (p i) = smooth x i) ->
    forall x x', (forall j i, (0 <= i < n)%Z -> x' j (p i) = x j i) ->
    forall j i, (0 <= i < n)%Z -> cf_mean (cf_layers skip d smooth' ls x') j (p i) = cf_mean (cf_layers skip d smooth ls x) j i.
  Proof.
    intros SM x x' E j i B. unfold cf_mean.
    assert (X : length (cf_layers skip d smooth' ls x') = length (cf_layers skip d smooth ls x) /\
      sumf (cf_layers skip d smooth' ls x') (fun y => y j (p i)) = sumf (cf_layers skip d smooth ls x) (fun y => y j i)).
    { revert x x' E. induction ls as [|[gc bi] ls IH]; intros x x' E; cbn [cf_layers sumf length]; [rewrite E by auto; auto|].
      set (y := cf_raw skip d gc bi (fun k => smooth (x k)) x). set (y' := cf_raw skip d gc bi (fun k => smooth' (x' k)) x').
      assert (EY : forall k a, (0 <= a < n)%Z -> y' k (p a) = y k a).
      { intros k a A. unfold y, y', cf_raw. rewrite (E k a A). f_equal; [f_equal; f_equal|f_equal]; apply PropLocal.affine_ext; intros k0; rewrite ?(SM (x k0) (x' k0)), ?(E k0 a A) by auto; auto. }
      destruct (IH (fun j i => y j i / Rmax (length_of d y i) (/ 10 ^ 12)) (fun j i => y' j i / Rmax (length_of d y' i) (/ 10 ^ 12))) as (L & S0).
      { intros k a A. rewrite EY by auto. do 2 f_equal. unfold length_of. f_equal. apply sumf_ext. intros k0. rewrite EY by auto. reflexivity. }
      cbv zeta. rewrite L, S0, E by auto. auto. }
    destruct X as (-> & ->). reflexivity.
  Qed.
End Layers.
Theorem C185_ngcf : forall nu nv pu ru pv rv e w m ops (s : bigraph R) e' w' m' ops' (s' : bigraph R) ls d U I U' I', 0 <= nu ->
  b_reach nu nv e w m ops s -> nonneg_new e -> Forall nonneg_bop ops ->
  b_reach nu nv e' w' m' ops' s' -> nonneg_new e' -> Forall nonneg_bop ops' ->
  renaming nu pu ru -> renaming nv pv rv -> brelabelled nu nv pu pv (b_spec nu nv e w m ops) (b_spec nu nv e' w' m' ops') ->
  shaped U d nu -> shaped I d nv -> shaped U' d nu -> shaped I' d nv -> turned nu pu U U' -> turned nv pv I I' ->
  Forall (fun gb => fits (fst gb) d d /\ fits (snd gb) d d) ls ->
  exists O O', ngcf ls (Z.to_nat nu) (Z.to_nat nv) U I s = Ok O /\ ngcf ls (Z.to_nat nu) (Z.to_nat nv) U' I' s' = Ok O' /\ turned_pairs nu nv pu pv d O O'.
Proof.
  intros nu nv pu ru pv rv e w m ops s e' w' m' ops' s' ls d U I U' I' PU H NE NO H' NE' NO' RU RV BR SU SI SU' SI' EU EI F.
  assert (PV : 0 <= nv) by (destruct (breach_rel H) as (_ & _ & _ & _ & P); lia).
  destruct (@C141_ngcf nu nv e w m ops s ls nu nv d U I PU H NE NO PU PV SU SI F) as [C _].
  destruct (@C141_ngcf nu nv e' w' m' ops' s' ls nu nv d U' I' PU H' NE' NO' PU PV SU' SI' F) as [C' _].
  rewrite C, C' by auto. eexists. eexists. split; [reflexivity|]. split; [reflexivity|].
  match goal with |- turned_pairs _ _ _ _ _ (map (fun j => (map (cf_mean ?l j) _, _)) _) (map (fun j' => (map (cf_mean ?l' j') _, _)) _) =>
    apply (split_turned PU PV RU RV (d := d) (cf_mean l) (cf_mean l')) end.
  intros j i _ B. apply cf_turned with (n := nu + nv); auto.
  - clear j i B. intros x x' E i B. apply (ren_sumf (both_renaming PU PV RU RV) RT). intros j J. rewrite (bi_coeff_turned PU PV RU RV RT BR), E by auto. reflexivity.
  - intros k a A. apply (over_turned PU PV RU RV EU EI k A).
Qed.
Theorem C185_dhcf : forall nu nv pu ru pv rv eu wu vwu mu opsu (su : hypergraph R) esu wsu ei wi vwi mi opsi (si : hypergraph R) esi wsi
  eu' wu' vwu' mu' opsu' (su' : hypergraph R) esu' wsu' ei' wi' vwi' mi' opsi' (si' : hypergraph R) esi' wsi' ls d U I U' I',
  h_clean_reach nu eu wu vwu mu opsu su -> h_reports su None esu wsu -> h_clean_reach nv ei wi vwi mi opsi si -> h_reports si None esi wsi ->
  h_clean_reach nu eu' wu' vwu' mu' opsu' su' -> h_reports su' None esu' wsu' -> h_clean_reach nv ei' wi' vwi' mi' opsi' si' -> h_reports si' None esi' wsi' ->
  renaming nu pu ru -> renaming nv pv rv -> hrelabelled pu esu wsu esu' wsu' -> hrelabelled pv esi wsi esi' wsi' ->
  shaped U d nu -> shaped I d nv -> shaped U' d nu -> shaped I' d nv -> turned nu pu U U' -> turned nv pv I I' ->
  Forall (fun gb => fits (fst gb) d d /\ fits (snd gb) d d) ls ->
  exists O O', dhcf ls (Z.to_nat nu) (Z.to_nat nv) U I su si = Ok O /\ dhcf ls (Z.to_nat nu) (Z.to_nat nv) U' I' su' si' = Ok O' /\ turned_pairs nu nv pu pv d O O'.
Proof.
  intros nu nv pu ru pv rv eu wu vwu mu opsu su esu wsu ei wi vwi mi opsi si esi wsi eu' wu' vwu' mu' opsu' su' esu' wsu' ei' wi' vwi' mi' opsi' si' esi' wsi' ls d U I U' I'
    HU QU HI QI HU' QU' HI' QI' RU RV RLU RLI SU SI SU' SI' EU EI F.
  assert (PU : 0 <= nu) by (destruct HU as [(s0 & E0 & _) _]; unfold h_new in E0; destruct (Z.ltb_spec 0 nu); [lia|discriminate]).
  assert (PV : 0 <= nv) by (destruct HI as [(s0 & E0 & _) _]; unfold h_new in E0; destruct (Z.ltb_spec 0 nv); [lia|discriminate]).
  destruct (@C141_dhcf nu eu wu vwu mu opsu su esu wsu nv ei wi vwi mi opsi si esi wsi ls nu nv d U I HU QU HI QI PU PV SU SI F) as [C _].
  destruct (@C141_dhcf nu eu' wu' vwu' mu' opsu' su' esu' wsu' nv ei' wi' vwi' mi' opsi' si' esi' wsi' ls nu nv d U' I' HU' QU' HI' QI' PU PV SU' SI' F) as [C' _].
  rewrite C, C' by auto. eexists. eexists. split; [reflexivity|]. split; [reflexivity|].
  match goal with |- turned_pairs _ _ _ _ _ (map (fun j => (map (cf_mean ?l j) _, _)) _) (map (fun j' => (map (cf_mean ?l' j') _, _)) _) =>
    apply (split_turned PU PV RU RV (d := d) (cf_mean l) (cf_mean l')) end.
  intros j i _ B. apply cf_turned with (n := nu + nv); auto.
  - clear j i B. intros x x' E i B. destruct (both_cases RU RV B) as (A1 & _ & A3 & A4). cbv beta zeta. rewrite A1. destruct (Z.ltb_spec i nu) as [L|L].
    + rewrite A3 by auto. apply (ren_sumf RU RT). intros u V. unfold hgnn_coeff. rewrite (ren_hshare RT RU RLU), !(ren_hdeg RT RU RLU).
      rewrite <- (@both_lo nu pu pv u), E by lia. reflexivity.
    + rewrite A4 by auto. apply (ren_sumf RV RT). intros v V. unfold hgnn_coeff. rewrite (ren_hshare RT RV RLI), !(ren_hdeg RT RV RLI).
      rewrite <- (@both_hi nu pu pv v), E by lia. reflexivity.
  - intros k a A. apply (over_turned PU PV RU RV EU EI k A).
Qed.

(** ** a concrete case: users 0, 1, 2 become 1, 2, 0; the items keep their numbers *)
Lemma turn_renaming3 : renaming 3 turn turn_back.
Proof.
  destruct turn_renaming as (A & B & _ & _). split; [exact A|]. split; [exact B|]. split; intros v V.
  - assert (D : v = 0 \/ v = 1 \/ v = 2) by lia. destruct D as [->|[->| ->]]; cbn; lia.
  - unfold turn. destruct (Z.leb_spec 0 v), (Z.ltb_spec v 3); cbn [andb]; auto; lia.
Qed.
Lemma same_renaming n : renaming n (fun v => v) (fun v => v).
Proof. repeat split; auto; lia. Qed.
Definition likes : option earg := Some (EMany [(0, 0); (1, 1); (2, 2)]).
Definition likes' : option earg := Some (EMany [(1, 0); (2, 1); (0, 2)]).
Example C185_case : exists s s' : bigraph Qc,
  b_reach 3 3 likes (WList [q 3; q 3; q 3]) MMean [] s /\ nonneg_new likes /\ b_reach 3 3 likes' (WList [q 3; q 3; q 3]) MMean [] s' /\ nonneg_new likes' /\
  renaming 3 turn turn_back /\ renaming 3 (fun v => v) (fun v => v) /\
  brelabelled 3 3 turn (fun v => v) (b_spec 3 3 likes (WList [q 3; q 3; q 3]) MMean []) (b_spec 3 3 likes' (WList [q 3; q 3; q 3]) MMean []) /\
  turned 3 turn [[q 0; q 8; q 16]] [[q 16; q 0; q 8]] /\ turned 3 (fun v => v) [[q 24; q 0; q 0]] [[q 24; q 0; q 0]] /\
  lightgcn 1 [[q 0; q 8; q 16]] [[q 24; q 0; q 0]] s = Ok [([q 9; q 5; q 10], [q 15; q 3; q 6])] /\
  lightgcn 1 [[q 16; q 0; q 8]] [[q 24; q 0; q 0]] s' = Ok [([q 10; q 9; q 5], [q 15; q 3; q 6])].
Proof.
  assert (A : forall x, 0 <= x < 3 -> x = 0 \/ x = 1 \/ x = 2) by (intros; lia).
  eexists _, _. split; [eexists; split; [reflexivity|reflexivity]|]. split; [cbn; repeat (apply Forall_cons; [cbn; lia|]); apply Forall_nil|].
  split; [eexists; split; [reflexivity|reflexivity]|]. split; [cbn; repeat (apply Forall_cons; [cbn; lia|]); apply Forall_nil|].
  split; [exact turn_renaming3|]. split; [apply same_renaming|].
  split. { intros u v U V. destruct (A u U) as [->|[->| ->]], (A v V) as [->|[->| ->]]; vm_compute; reflexivity. }
  split. { intros v V. destruct (A v V) as [->|[->| ->]]; reflexivity. }
  split. { intros v V. reflexivity. }
  split; vm_compute; qceq.
Qed.
