(** Property C176: which hypergraphs can be built. *)
From Coq Require Import String Permutation QArith Qcanon.
From Verif Require Import Num PyDict PyDictFacts ModelBase ModelGraph ModelHyper SpecHyper HyperStore HyperReach PropHyper.
Set Implicit Arguments.
Local Open Scope string_scope.
Local Open Scope list_scope.
Local Open Scope Z_scope.
Local Notation q z := (Q2Qc (inject_Z z)).
Local Ltac qceq := repeat first [ match goal with |- @eq Qc _ _ => apply Qc_is_canon; vm_compute; reflexivity end | reflexivity | f_equal ].

Section Build.
  Context {T : Type} {N : Num T}.
  (** [hadds] with an unknown operator: fine exactly while no hyperedge is already there *)
  Lemma hadds_other g (l : list (list Z * T)) r :
    let old := match dget g (h_gr r) with Some d => dkeys d | None => [] end in
    (NoDup (map fst l) /\ (forall e, In e (map fst l) -> ~ In e old) -> snd (hadds MOther g l r) = Ok tt) /\
    (~ (NoDup (map fst l) /\ (forall e, In e (map fst l) -> ~ In e old)) -> snd (hadds MOther g l r) = Err AssertionError).
  Proof.
    revert r. induction l as [|[e w] l IH]; intros r old; cbn [hadds map fst].
    { split; auto. intros F. exfalso. apply F. split; [constructor|intros ? []]. }
    unfold hadd1. destruct (dget g (h_gr r)) as [d|] eqn:G.
    - destruct (dget e d) as [x|] eqn:E; cbn [merge_fun snd].
      + split; auto. intros (_ & F). exfalso. apply (F e); [left; auto|]. unfold old, dkeys. apply (in_map fst d (e, x)). apply dget_In in E. auto.
      + assert (NE : ~ In e (dkeys d)) by (intros I; apply dget_None in E; auto).
        specialize (IH (set_gr r (dset g (dset e w d) (h_gr r)))). cbn [set_gr h_gr] in IH.
        rewrite dget_dset_same in IH. cbv zeta in IH.
        assert (K : forall y, In y (dkeys (dset e w d)) <-> y = e \/ In y (dkeys d)) by (intros; apply dset_keys_in).
        assert (X : (NoDup (map fst l) /\ (forall e0, In e0 (map fst l) -> ~ In e0 (dkeys (dset e w d)))) <->
          (NoDup (e :: map fst l) /\ (forall e0, In e0 (e :: map fst l) -> ~ In e0 old))).
        { unfold old. split.
          - intros (A & B). split; [constructor; auto|].
            + intros I. apply (B e I). apply K. auto.
            + intros y [<-|I] J; auto. apply (B y I). apply K. auto.
          - intros (A & B). inversion A as [|? ? A1 A2]; subst. split; auto. intros y I J. apply K in J as [->|J]; auto. apply (B y); auto. right; auto. }
        rewrite X in IH. exact IH.
    - specialize (IH (set_gr r (dset g [(e, w)] (h_gr r)))). cbn [set_gr h_gr] in IH.
        rewrite dget_dset_same in IH. cbv zeta in IH.
        assert (X : (NoDup (map fst l) /\ (forall e0, In e0 (map fst l) -> ~ In e0 (dkeys [(e, w)]))) <->
          (NoDup (e :: map fst l) /\ (forall e0, In e0 (e :: map fst l) -> ~ In e0 old))).
        { unfold old, dkeys. cbn [map fst In]. split.
          - intros (A & B). split; [constructor; auto|intros y _ []]. intros I. apply (B e I). auto.
          - intros (A & B). inversion A as [|? ? A1 A2]; subst. split; auto. intros y I [<-|[]]; auto. }
        rewrite X in IH. exact IH.
  Qed.
  (** no two of the hyperedges have the same vertices (each as often) *)
  Definition all_different (es : list (list Z)) : Prop := ForallOrdPairs (fun a b => ~ Permutation a b) es.
  Lemma different_nodup es : all_different es <-> NoDup (map zsort es).
  Proof.
    unfold all_different. induction es as [|a es IH]; cbn [map]; [split; constructor|]. split.
    - intros F. inversion F as [|? ? F1 F2]; subst. constructor; [|apply IH; auto]. intros I. apply in_map_iff in I as (b & E & I).
      rewrite Forall_forall in F1. apply (F1 b I). apply zsort_eq_perm. auto.
    - intros F. inversion F as [|? ? F1 F2]; subst. constructor; [|apply IH; auto]. apply Forall_forall. intros b I P. apply F1. apply zsort_eq_perm in P. rewrite P. apply in_map; auto.
  Qed.
End Build.

Theorem C176_constructor : forall (T : Type) (N : Num T) nv e (w : warg T) vw m,
  let es := match e with None => [] | Some ea => hedges_of ea end in
  let fits := 0 < nv /\ (forall l, vw = Some l -> Z.of_nat (length l) = nv) /\ (forall l, w = WList l -> e <> None -> length l = length es) /\
    (m <> MOther \/ all_different es) in
  (fits -> exists s : hypergraph T, h_new nv e w vw m = Ok s) /\
  (~ fits -> h_new (T := T) nv e w vw m = Err AssertionError).
Proof.
  intros T N nv e w vw m es fits.
  assert (AD : forall s0 : hypergraph T, h_gr (st_raw s0) = [] -> forall ea, e = Some ea ->
    let ok := (forall l, w = WList l -> length l = length es) /\ (m <> MOther \/ all_different es) in
    (ok -> snd (h_add ea w m "main" s0) = Ok tt) /\ (~ ok -> snd (h_add ea w m "main" s0) = Err AssertionError)).
  { intros s0 E0 ea -> ok. cbv beta iota in es. assert (LE : length (hformat ea) = length es) by (rewrite hformat_edges, map_length; auto).
    assert (HW : (exists ws, hweights (length (hformat ea)) w = Ok ws /\ length ws = length (hformat ea) /\ (forall l, w = WList l -> length l = length es)) \/
                 (hweights (length (hformat ea)) w = Err AssertionError /\ ~ (forall l, w = WList l -> length l = length es))).
    { unfold hweights. destruct w as [|c|l].
      - left. eexists. split; [reflexivity|]. rewrite repeat_length. split; auto. discriminate.
      - left. eexists. split; [reflexivity|]. rewrite repeat_length. split; auto. discriminate.
      - destruct (Nat.eqb_spec (length l) (length (hformat ea))) as [L|L].
        + left. eexists. split; [reflexivity|]. split; auto. intros l0 E. injection E as <-. congruence.
        + right. split; auto. intros F. apply L. rewrite (F l); auto. }
    unfold h_add. destruct HW as [(ws & -> & LW & OKW)|(-> & BW)]; [|split; [intros (X & _); tauto|auto]].
    destruct (hadds m "main" (combine (hformat ea) ws) (st_raw s0)) as [r1 o1] eqn:EA.
    match goal with |- (_ -> ?a = _) /\ _ => assert (O : a = o1) by (destruct o1 as [[]|]; reflexivity); rewrite !O end.
    assert (DM : m = MOther \/ m <> MOther) by (destruct m; auto; right; discriminate). destruct DM as [->|NM].
    - pose proof (hadds_other "main" (combine (hformat ea) ws) (st_raw s0)) as X. rewrite EA, E0 in X. cbn [dget snd] in X.
      assert (FS : map fst (combine (hformat ea) ws) = map zsort es).
      { change es with (hedges_of ea); rewrite <- hformat_edges. clear - LW. revert ws LW. induction (hformat ea) as [|x l IH]; intros [|y ws] L; cbn in *; try lia; auto. f_equal. apply IH. lia. }
      rewrite FS, <- different_nodup in X. destruct X as (X1 & X2). split.
      + intros (_ & [K|K]); [congruence|]. apply X1. split; auto.
      + intros NK. apply X2. intros (K & _). apply NK. split; auto.
    - destruct (hadds_known "main" (combine (hformat ea) ws) (st_raw s0) NM) as (r' & E'). rewrite E' in EA. injection EA as <- <-. split; auto. intros NK. exfalso. apply NK. unfold ok. split; auto. }
  unfold h_new. destruct (Z.ltb_spec 0 nv) as [P|P]; [|split; auto; intros (X & _); lia].
  destruct vw as [l|].
  - destruct (Nat.eqb_spec (length l) (Z.to_nat nv)) as [L|L].
    2:{ split; auto. intros (_ & X & _). specialize (X l eq_refl). lia. }
    destruct e as [ea|].
    + destruct (AD (mkSt (mkHRaw nv (Some l) []) []) eq_refl ea eq_refl) as (A1 & A2). cbv zeta in A1, A2.
      destruct (h_add ea w m "main" _) as [s1 o1]. cbn [snd] in A1, A2. split.
      * intros (_ & _ & X & Y). rewrite A1; [eauto|]. split; auto. intros l0 E. apply X; auto. discriminate.
      * intros NF. rewrite A2; auto. intros (X & Y). apply NF. split; auto. split; [intros l0 E; injection E as <-; lia|]. split; auto.
    + split; eauto. intros NF. exfalso. apply NF. split; auto. split; [intros l0 E; injection E as <-; lia|]. split; [congruence|]. right. constructor.
  - destruct e as [ea|].
    + destruct (AD (mkSt (mkHRaw nv (Some (repeat n1 (Z.to_nat nv))) []) []) eq_refl ea eq_refl) as (A1 & A2). cbv zeta in A1, A2.
      destruct (h_add ea w m "main" _) as [s1 o1]. cbn [snd] in A1, A2. split.
      * intros (_ & _ & X & Y). rewrite A1; [eauto|]. split; auto. intros l0 E. apply X; auto. discriminate.
      * intros NF. rewrite A2; auto. intros (X & Y). apply NF. split; auto. split; [discriminate|]. split; auto.
    + split; eauto. intros NF. exfalso. apply NF. split; auto. split; [discriminate|]. split; [congruence|]. right. constructor.
Qed.
(** with an operator that does not exist distinct hyperedges are accepted, repeated ones are not *)
Example C176_case : (exists s : hypergraph Qc, h_new 4 (Some (HMany [[0; 1]; [1; 2]])) (WList [q 1; q 2]) None MOther = Ok s) /\
  all_different [[0; 1]; [1; 2]] /\ h_new (T := Qc) 4 (Some (HMany [[0; 1]; [1; 0]])) WNone None MOther = Err AssertionError /\
  h_new (T := Qc) 4 None WNone (Some [q 1]) MMean = Err AssertionError.
Proof.
  split; [eexists; reflexivity|]. split; [|split; reflexivity]. apply different_nodup. cbn. repeat constructor; cbn; intuition discriminate.
Qed.
