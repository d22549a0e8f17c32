From Verif Require Import Num PyDict.
Set Implicit Arguments.

Section EqBFacts.
  Context {K : Type} `{EqB K}.
  Lemma eqb_refl (k : K) : eqb k k = true.
  Proof. apply eqb_eq; reflexivity. Qed.
  Lemma eqb_neq (a b : K) : eqb a b = false <-> a <> b.
  Proof.
    split.
    - intros E ->. rewrite eqb_refl in E; discriminate.
    - intros N. destruct (eqb a b) eqn:E; auto. apply eqb_eq in E; contradiction.
  Qed.
  Lemma eqb_spec (a b : K) : reflect (a = b) (eqb a b).
  Proof. destruct (eqb a b) eqn:E; constructor; [apply eqb_eq | apply eqb_neq]; assumption. Qed.
  Lemma eqb_sym (a b : K) : eqb a b = eqb b a.
  Proof. destruct (eqb_spec a b), (eqb_spec b a); congruence. Qed.
  Lemma eq_dec_of_eqb (a b : K) : {a = b} + {a <> b}.
  Proof. destruct (eqb a b) eqn:E; [left; apply eqb_eq | right; apply eqb_neq]; assumption. Qed.
  Lemma pair_eqb {K2} `{EqB K2} (a c : K) (b d : K2) : eqb (a, b) (c, d) = eqb a c && eqb b d.
  Proof. reflexivity. Qed.
End EqBFacts.
Lemma Zeqb_unf (a b : Z) : eqb a b = Z.eqb a b.
Proof. reflexivity. Qed.

Section DictFacts.
  Context {K V : Type} `{EqB K}.
  Implicit Types (d : dict K V) (k : K) (v : V).

  Lemma dget_dset_same k v d : dget k (dset k v d) = Some v.
  Proof.
    induction d as [|[k' v'] d IH]; cbn.
    - rewrite eqb_refl; reflexivity.
    - destruct (eqb k k') eqn:E; cbn; rewrite E; auto.
  Qed.

  Lemma dget_dset_other k k' v d : k <> k' -> dget k (dset k' v d) = dget k d.
  Proof.
    intros N; induction d as [|[k2 v2] d IH]; cbn.
    - apply eqb_neq in N; rewrite N; reflexivity.
    - destruct (eqb_spec k' k2) as [->|N2]; cbn.
      + apply eqb_neq in N; rewrite N; reflexivity.
      + destruct (eqb k k2); auto.
  Qed.

  Lemma dget_In k v d : dget k d = Some v -> In (k, v) d.
  Proof.
    induction d as [|[k' v'] d IH]; cbn; [discriminate|].
    destruct (eqb_spec k k') as [->|N]; intros E; [injection E as ->|]; auto.
  Qed.

  Lemma dget_None k d : dget k d = None <-> ~ In k (dkeys d).
  Proof.
    induction d as [|[k' v'] d IH]; cbn; [tauto|].
    destruct (eqb_spec k k') as [->|N].
    - split; [discriminate | intros C; exfalso; auto].
    - rewrite IH. split; [intros C [E|I]; [subst; auto | auto] | auto].
  Qed.

  Lemma In_dget k v d : dict_ok d -> In (k, v) d -> dget k d = Some v.
  Proof.
    unfold dict_ok; induction d as [|[k' v'] d IH]; cbn; [tauto|].
    intros ND [E|I].
    - injection E as -> ->. rewrite eqb_refl; reflexivity.
    - inversion ND as [|? ? N ND']; subst.
      destruct (eqb_spec k k') as [->|_]; auto.
      exfalso; apply N. apply (in_map fst) in I; exact I.
  Qed.

  Lemma dget_In_iff k v d : dict_ok d -> (dget k d = Some v <-> In (k, v) d).
  Proof. intros; split; [apply dget_In | apply In_dget; auto]. Qed.

  Lemma dset_keys_in k v d x : In x (dkeys (dset k v d)) <-> x = k \/ In x (dkeys d).
  Proof.
    induction d as [|[k' v'] d IH]; cbn; [intuition|].
    destruct (eqb_spec k k') as [->|N]; cbn; [intuition|].
    rewrite IH; intuition.
  Qed.

  Lemma dset_ok k v d : dict_ok d -> dict_ok (dset k v d).
  Proof.
    unfold dict_ok; induction d as [|[k' v'] d IH]; cbn; intros ND.
    - constructor; [tauto | constructor].
    - inversion ND as [|? ? N ND']; subst.
      destruct (eqb_spec k k') as [->|N']; cbn; constructor; auto.
      fold (dkeys (dset k v d)). rewrite dset_keys_in. intros [->|I]; auto.
  Qed.

  Lemma ddel_keys_sub k d x : In x (dkeys (ddel k d)) -> In x (dkeys d).
  Proof.
    induction d as [|[k' v'] d IH]; cbn; auto.
    destruct (eqb k k'); cbn; intuition.
  Qed.

  Lemma ddel_In_sub k d x : In x (ddel k d) -> In x d.
  Proof.
    induction d as [|[k' v'] d IH]; cbn; auto.
    destruct (eqb k k'); cbn; intuition.
  Qed.

  Lemma ddel_ok k d : dict_ok d -> dict_ok (ddel k d).
  Proof.
    unfold dict_ok; induction d as [|[k' v'] d IH]; cbn; intros ND; auto.
    inversion ND as [|? ? N ND']; subst.
    destruct (eqb k k'); cbn; auto. constructor; auto.
    intros I; apply N; eapply ddel_keys_sub; exact I.
  Qed.

  Lemma dget_ddel_same k d : dict_ok d -> dget k (ddel k d) = None.
  Proof.
    unfold dict_ok; induction d as [|[k' v'] d IH]; cbn; intros ND; auto.
    inversion ND as [|? ? N ND']; subst.
    destruct (eqb_spec k k') as [->|N']; cbn.
    - apply dget_None; exact N.
    - apply eqb_neq in N'; rewrite N'; auto.
  Qed.

  Lemma dget_ddel_other k k' d : k <> k' -> dget k (ddel k' d) = dget k d.
  Proof.
    intros N; induction d as [|[k2 v2] d IH]; cbn; auto.
    destruct (eqb_spec k' k2) as [->|N2]; cbn.
    - apply eqb_neq in N; rewrite N; reflexivity.
    - destruct (eqb k k2); auto.
  Qed.

  Lemma ddel_absent k d : dget k d = None -> ddel k d = d.
  Proof.
    induction d as [|[k' v'] d IH]; cbn; auto.
    destruct (eqb k k') eqn:E; [discriminate|]. intros G; rewrite IH; auto.
  Qed.

  Lemma dhas_spec k d : dhas k d = true <-> exists v, dget k d = Some v.
  Proof.
    unfold dhas; destruct (dget k d) as [v|]; split; intros X; eauto; try discriminate.
    destruct X; discriminate.
  Qed.

  Lemma dset_length k v d :
    length (dset k v d) = if dhas k d then length d else S (length d).
  Proof.
    unfold dhas; induction d as [|[k' v'] d IH]; cbn; auto.
    destruct (eqb k k') eqn:E; cbn; auto.
    rewrite IH; destruct (dget k d); reflexivity.
  Qed.

  Lemma dict_ok_nil : dict_ok (@nil (K * V)).
  Proof. constructor. Qed.

  Lemma dict_ok_filter (f : K * V -> bool) d : dict_ok d -> dict_ok (filter f d).
  Proof.
    unfold dict_ok; induction d as [|[k v] d IH]; cbn; intros ND; auto.
    inversion ND as [|? ? N ND']; subst.
    destruct (f (k, v)); cbn; auto. constructor; auto.
    intros I; apply N. unfold dkeys in *. apply in_map_iff in I as ([k2 v2] & E & I).
    cbn in E; subst. apply filter_In in I as [I _]. apply (in_map fst) in I; exact I.
  Qed.
End DictFacts.
#[global] Arguments dkeys {K V} d : simpl never.
#[global] Arguments dvals {K V} d : simpl never.
