(** Property C129: which files the search leaves in the cache directory. *)
From Coq Require Import String Ascii Reals Lra.
From Verif Require Import Num PyDict PyDictFacts ModelBase ModelMetrics ModelEval SpecEval MarkerFacts ModelData ModelNN ModelRun PropRun.
Set Implicit Arguments.
Local Open Scope string_scope.
Local Open Scope list_scope.
Local Open Scope R_scope.
Local Open Scope Z_scope.

(** the name is the number alone, the number and "_...", or the number and a last extension that is not empty *)
Definition belongs (k : nat) (f : string) : Prop :=
  exists rest, f = str_int (Z.of_nat k) +++ rest /\
    (rest = "" \/ (exists t, rest = String "_" t) \/ exists t, rest = String "." t /\ t <> "" /\ free "." t).

Lemma substring_pre a b : String.substring 0 (String.length a) (a +++ b) = a.
Proof. rewrite <- (Nat.add_0_r (String.length a)), substring_app. destruct b; cbn [String.substring]; apply str_app_nil. Qed.
Lemma rfind_none c s : rfind c s = None -> free c s.
Proof.
  induction s as [|a s IH]; cbn [rfind]; intros E; [reflexivity|]. destruct (rfind c s) eqn:F; [discriminate|].
  destruct (Ascii.eqb_spec a c) as [|NE]; [discriminate|]. apply free_cons. auto.
Qed.
Lemma rfind_some c s : forall i, rfind c s = Some i -> exists a t, s = a +++ String c t /\ String.length a = i /\ free c t.
Proof.
  induction s as [|x s IH]; cbn [rfind]; intros i E; [discriminate|]. destruct (rfind c s) as [j|] eqn:F.
  - injection E as <-. destruct (IH j eq_refl) as (a & t & -> & <- & FT). exists (String x a), t. auto.
  - destruct (Ascii.eqb_spec x c) as [->|]; [|discriminate]. injection E as <-. exists "", s. repeat split; auto. apply rfind_none. auto.
Qed.
Lemma stem_cut f : exists suf, f = stem f +++ suf /\ (suf = "" \/ exists t, suf = String "." t /\ t <> "" /\ free "." t).
Proof.
  unfold stem. destruct (rfind "." f) as [i|] eqn:R; [|exists ""; rewrite str_app_nil; auto].
  destruct (_ && _)%bool eqn:B; [|exists ""; rewrite str_app_nil; auto].
  apply andb_prop in B as (B1 & B2). apply Nat.ltb_lt in B1, B2. destruct (rfind_some _ _ R) as (a & t & -> & <- & FT).
  rewrite substring_pre. exists (String "." t). split; auto. right. exists t. repeat split; auto.
  intros ->. rewrite str_len_app in B2. cbn [String.length] in B2. lia.
Qed.
Lemma split_first_inv c g n : hd "" (split_str (Ascii.eqb c) g) = n -> g = n \/ exists t, g = n +++ String c t.
Proof.
  revert n. induction g as [|x g IH]; intros n E; cbn [split_str] in E; [left; auto|].
  pose proof (@split_ne (Ascii.eqb c) g) as NE. destruct (split_str (Ascii.eqb c) g) as [|w ws]; [congruence|].
  destruct (Ascii.eqb_spec c x) as [->|D]; cbn [hd] in *; subst n.
  - right. exists g. reflexivity.
  - destruct (IH w eq_refl) as [->|(t & ->)]; [left; reflexivity|right; exists t; reflexivity].
Qed.
Lemma split_whole c a : free c a -> hd "" (split_str (Ascii.eqb c) a) = a.
Proof.
  induction a as [|x a IH]; intros F; auto. apply free_cons in F as (A & F). specialize (IH F). cbn [split_str].
  pose proof (@split_ne (Ascii.eqb c) a) as NE. destruct (split_str (Ascii.eqb c) a) as [|w ws]; [congruence|].
  destruct (Ascii.eqb_spec c x); [congruence|]. cbn [hd] in *. congruence.
Qed.
Lemma num_len k : (0 < String.length (str_int (Z.of_nat k)))%nat.
Proof. destruct (str_int_shape (Z.of_nat k)) as (_ & _ & c & r & -> & _). cbn. lia. Qed.
Lemma number_iff k f : file_number f = str_int (Z.of_nat k) <-> belongs k f.
Proof.
  pose proof (num_free "_" k eq_refl) as FU. pose proof (num_free "." k eq_refl) as FD. pose proof (num_len k) as LN. unfold belongs, file_number.
  set (n := str_int (Z.of_nat k)) in *. split.
  - intros E. destruct (stem_cut f) as (suf & EF & S). destruct (split_first_inv _ _ E) as [G|(t & G)].
    + exists suf. rewrite <- G. tauto.
    + exists (String "_" t +++ suf). split; [rewrite EF at 1; rewrite G, str_app_assoc; reflexivity|]. right. left. exists (t +++ suf). reflexivity.
  - intros (rest & -> & [->|[(t & ->)|(t & -> & NE & FT)]]).
    + rewrite str_app_nil. unfold stem. rewrite (rfind_free FD). apply split_whole. auto.
    + unfold stem. destruct (rfind "." (n +++ String "_" t)) as [i|] eqn:R; [|apply split_first; auto].
      match goal with |- context [if ?b then _ else _] => destruct b end; [|apply split_first; auto].
      assert (exists j, rfind "." t = Some j /\ i = (String.length n + Datatypes.S j)%nat) as (j & Rj & ->).
      { destruct (rfind "." t) as [j|] eqn:Rt.
        - exists j. split; auto. rewrite (@rfind_app "." n (String "_" t) (Datatypes.S j)) in R; [congruence|]. cbn [rfind]. rewrite Rt. reflexivity.
        - exfalso. apply rfind_none in Rt. assert (F : free "." (n +++ String "_" t)) by (apply free_app; split; auto).
          rewrite (rfind_free F) in R. discriminate. }
      rewrite substring_app. cbn [String.substring]. apply split_first. auto.
    + assert (R : rfind "." (n +++ String "." t) = Some (String.length n + 0)%nat) by (apply rfind_app; cbn [rfind]; rewrite (rfind_free FT); reflexivity).
      unfold stem. rewrite R, Nat.add_0_r, str_len_app. cbn [String.length].
      assert (LT : (0 < String.length t)%nat) by (destruct t; [congruence|cbn; lia]).
      rewrite (proj2 (Nat.ltb_lt _ _)) by auto. rewrite (proj2 (Nat.ltb_lt _ _)) by lia. cbn [andb]. rewrite substring_pre. apply split_whole. auto.
Qed.

Section Kept.
  Variables M S : Type.
  Lemma optimize_keys (l : list (eres M * S)) : forall n files best files' best', optimize n l files best = (files', Ok best') ->
    forall f, In f (dkeys files) -> In f (dkeys files').
  Proof.
    induction l as [|[e u] l IH]; intros n fs b fs' b' E f I; cbn [optimize] in E; [injection E as <- <-; auto|].
    destruct e as [|y [w|]|sc w]; try discriminate; eapply IH; eauto. apply dset_keys_in. right. apply dset_keys_in. auto.
  Qed.
  (** the search ends with the two files of the trial whose model it returns, and with those of the files found at the start
      whose name belongs to that trial's number; it removes all others *)
  Theorem C129_files : forall (l : list (eres M * S)) files, dict_ok files -> trials l -> (exists k sc m s, nth_error l k = Some (EDone sc m, s)) ->
    exists k sc m s, nth_error l k = Some (EDone sc m, s) /\ snd (run l files) = Ok (m, s, sc) /\
    forall f, In f (dkeys (fst (run l files))) <-> f = model_file k \/ f = struct_file k \/ (In f (dkeys files) /\ belongs k f).
  Proof.
    intros l files DO T (k0 & sc0 & m0 & s0 & E0).
    assert (H0 : history files [] files None).
    { split; auto. split; [intros k ? ? ? E; destruct k; discriminate|]. split; [auto|]. intros k ? ? ? E; destruct k; discriminate. }
    destruct (optimize_history l H0 (trials_ok T)) as (files' & best' & EO & (HO & HF & HK & HB)). cbn [length app] in *.
    destruct best' as [[b sc]|]; [|destruct (HB _ _ _ _ E0)]. destruct HB as ((m & s & Eb) & HB). exists b, sc, m, s. split; auto.
    unfold run. rewrite EO. cbn [fst snd]. destruct (HF _ _ _ _ Eb) as (F1 & F2).
    assert (D1 : dget (model_file b) (remove_cached b files') = Some (FModel m)) by (apply dget_filter; auto; cbn [fst]; rewrite number_model; apply String.eqb_refl).
    assert (D2 : dget (struct_file b) (remove_cached b files') = Some (FStruct s)) by (apply dget_filter; auto; cbn [fst]; rewrite number_struct; apply String.eqb_refl).
    rewrite D1, D2. split; auto. intros f.
    assert (KEY : In f (dkeys (remove_cached b files')) <-> In f (dkeys files') /\ belongs b f).
    { rewrite <- number_iff. unfold dkeys, remove_cached. split.
      - intros F. apply in_map_iff in F as ([f' c] & <- & F). apply filter_In in F as (F & Q). cbn [fst] in *. apply String.eqb_eq in Q. split; auto. apply (in_map fst) in F. auto.
      - intros (F & Q). apply in_map_iff in F as ([f' c] & E & F). cbn [fst] in E. subst f'. apply in_map_iff. exists (f, c). split; auto.
        apply filter_In. split; auto. cbn [fst]. apply String.eqb_eq. auto. }
    rewrite KEY. split.
    - intros (I & B). destruct (HK f I) as [I0|(k & [-> | ->])]; auto; apply number_iff in B; rewrite ?number_model, ?number_struct in B; apply num_inj in B; subst; auto.
    - intros [-> |[-> |(I & B)]].
      + split; [apply dget_In in F1; apply (in_map fst) in F1; auto|apply number_iff, number_model].
      + split; [apply dget_In in F2; apply (in_map fst) in F2; auto|apply number_iff, number_struct].
      + split; auto. eapply optimize_keys; eauto.
  Qed.
End Kept.
(** stray files: those of another trial, hidden ones and those ending in a dot go, the notes on trial 0 stay *)
Example C129_files_ex : let tr v := experiment "maximize" 1 (fun _ => Fin v) (fun i => v) (fun _ => false) true in
  trials (S := nat) [(tr 1%R, 10%nat)] /\ belongs 0 "0_notes.txt" /\ belongs 0 "0.txt" /\ ~ belongs 0 "0." /\
  dkeys (fst (run [(tr 1%R, 10%nat)] [("0_notes.txt", FEmpty); ("0.txt", FEmpty); ("0.", FEmpty); (".0", FEmpty); ("10_model.pth", FEmpty)])) =
    ["0_notes.txt"; "0.txt"; "0_model.pth"; "0_structure.dhg"].
Proof.
  cbv zeta. split; [|split; [|split; [|split]]].
  - repeat constructor; cbn [fst]; exists 1%nat; do 3 eexists; split; [reflexivity|discriminate].
  - apply number_iff. reflexivity.
  - apply number_iff. reflexivity.
  - rewrite <- number_iff. discriminate.
  - reflexivity.
Qed.
