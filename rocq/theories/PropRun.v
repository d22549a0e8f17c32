(** Properties C70, C124, C129: the training loop and the search over trials. *)
From Coq Require Import String Ascii Reals Lra.
From Verif Require Import Num PyDict PyDictFacts ModelBase ModelMetrics ModelEval SpecEval MarkerFacts ModelData ModelNN ModelRun.
Set Implicit Arguments.
Local Open Scope string_scope.
Local Open Scope list_scope.
Local Open Scope R_scope.
Local Open Scope Z_scope.

(** the order of the extended reals, with nan unordered *)
Inductive above : fl R -> fl R -> Prop :=
| above_fin x y : (y < x)%R -> above (Fin x) (Fin y)
| above_ninf x : above (Fin x) NInf
| above_pinf y : above PInf (Fin y)
| above_inf : above PInf NInf.
Lemma fgt_above a b : fgt a b = true <-> above a b.
Proof.
  split.
  - destruct a, b; cbn; try discriminate; intros; try constructor. destruct (Rlt_dec _ _); [auto|discriminate].
  - destruct 1; cbn; auto. destruct (Rlt_dec y x); auto; lra.
Qed.
Lemma above_trans a b c : above a b -> above b c -> above a c.
Proof. destruct 1; inversion 1; subst; constructor; lra. Qed.
Lemma above_irrefl a : ~ above a a.
Proof. inversion 1; lra. Qed.
Lemma above_total a b : a <> NaN -> b <> NaN -> ~ above a b -> above b a \/ a = b.
Proof.
  intros A B H. destruct a as [x| | |], b as [y| | |]; try congruence; auto; try (left; constructor; fail); try (exfalso; apply H; constructor; fail).
  destruct (Rtotal_order x y) as [L|[->|L]]; auto; [left; constructor; auto|exfalso; apply H; constructor; auto].
Qed.

(** * C70, C124: one trial *)
Section Trial.
  Variable M : Type.
  Implicit Types (val : nat -> fl R) (mdl : nat -> M) (prune : nat -> bool).
  Lemma epochs_pruned mx val mdl prune l : forall best, epochs mx val mdl prune best l = None <-> exists i, In i l /\ prune i = true.
  Proof.
    induction l as [|a l IH]; intros best; cbn; [split; [discriminate|intros (? & [] & _)]|]. destruct (prune a) eqn:P; [split; eauto|].
    rewrite IH. split; intros (i & I & E); exists i; auto. destruct I as [->|I]; [congruence|auto].
  Qed.
  Lemma epochs_other val mdl prune l : forall best, Forall (fun i => prune i = false) l -> epochs false val mdl prune best l = Some best.
  Proof. induction l as [|a l IH]; intros best F; cbn; auto. inversion F as [|? ? H1 H2]; subst. rewrite H1. auto. Qed.
  (** state after the epochs [0 .. k-1] *)
  Definition best_at val mdl (k : nat) (best : fl R * option M) : Prop :=
    (best = (NInf, None) /\ forall j, (j < k)%nat -> ~ above (val j) NInf) \/
    exists b, (b < k)%nat /\ best = (val b, Some (mdl b)) /\ above (val b) NInf /\ (forall j, (j < k)%nat -> ~ above (val j) (val b)) /\
      forall j, (j < b)%nat -> above (val b) (val j) \/ val j = NaN.
  Lemma epochs_best val mdl prune n : forall k best, best_at val mdl k best -> (forall i, (k <= i < k + n)%nat -> prune i = false) ->
    exists b, epochs true val mdl prune best (seq k n) = Some b /\ best_at val mdl (k + n) b.
  Proof.
    induction n as [|n IH]; intros k best B P; cbn [seq epochs].
    - exists best. split; auto. replace (k + 0)%nat with k by lia. auto.
    - rewrite (P k) by lia. replace (k + S n)%nat with (S k + n)%nat by lia. apply IH; [|intros i I; apply P; lia].
      destruct (fgt (val k) (fst best)) eqn:F.
      + apply fgt_above in F. right. exists k. split; [lia|]. split; auto. destruct B as [(-> & B)|(b & Lb & -> & AN & B1 & B2)]; cbn [fst] in F.
        * split; auto. split.
          -- intros j J. destruct (Nat.eq_dec j k) as [->|]; [apply above_irrefl|]. intros A. apply (B j); [lia|]. eapply above_trans; eauto.
          -- intros j J. specialize (B j ltac:(lia)). destruct (val j) as [y| | |]; auto; [exfalso; apply B; constructor|exfalso; apply B; constructor].
        * split; [eapply above_trans; eauto|]. split.
          -- intros j J. destruct (Nat.eq_dec j k) as [->|]; [apply above_irrefl|]. intros A. apply (B1 j); [lia|]. eapply above_trans; eauto.
          -- intros j J. specialize (B1 j ltac:(lia)). assert (D : val j = NaN \/ val j <> NaN) by (destruct (val j); auto; right; discriminate).
             destruct D as [D|D]; auto. left. destruct (above_total (a := val j) (b := val b)) as [A|A]; auto; [intros Q; rewrite Q in AN; inversion AN|eapply above_trans; eauto|rewrite A; auto].
      + assert (NF : ~ above (val k) (fst best)) by (rewrite <- fgt_above; congruence).
        destruct B as [(-> & B)|(b & Lb & -> & AN & B1 & B2)]; cbn [fst] in NF.
        * left. split; auto. intros j J. destruct (Nat.eq_dec j k) as [->|]; auto. apply B. lia.
        * right. exists b. split; [lia|]. split; auto. split; auto. split; auto. intros j J. destruct (Nat.eq_dec j k) as [->|]; auto. apply B1. lia.
  Qed.
End Trial.
Lemma experiment_best (M : Type) max_epoch val (mdl : nat -> M) prune : (forall i, (i < max_epoch)%nat -> prune i = false) ->
  exists best, epochs true val mdl prune (NInf, None) (seq 0 max_epoch) = Some best /\ best_at val mdl max_epoch best.
Proof. intros P. apply (@epochs_best M val mdl prune max_epoch 0%nat); [left; split; auto; lia|intros i I; apply P; lia]. Qed.
(** maximizing: the score returned is the best over all epochs, and the model saved is the one of the first epoch with that score *)
Theorem C70_best_epoch : forall (M : Type) max_epoch val (mdl : nat -> M) prune, (forall i, (i < max_epoch)%nat -> prune i = false) ->
  (exists i, (i < max_epoch)%nat /\ above (val i) NInf) -> exists k, (k < max_epoch)%nat /\
  experiment "maximize" max_epoch val mdl prune true = EDone (val k) (mdl k) /\
  (forall j, (j < max_epoch)%nat -> ~ above (val j) (val k)) /\ (forall j, (j < k)%nat -> above (val k) (val j) \/ val j = NaN).
Proof.
  intros M max_epoch val mdl prune P (i & I & A). destruct (experiment_best val mdl prune P) as (best & E & [(-> & B)|(b & Lb & -> & AN & B1 & B2)]).
  - destruct (B i I A).
  - exists b. split; auto. unfold experiment. cbn [String.eqb Ascii.eqb Bool.eqb]. rewrite E. auto.
Qed.
Theorem C70_pruned : forall (M : Type) direction max_epoch val (mdl : nat -> M) prune has_str,
  experiment direction max_epoch val mdl prune has_str = EPruned <-> exists i, (i < max_epoch)%nat /\ prune i = true.
Proof.
  intros M direction max_epoch val mdl prune has_str. unfold experiment.
  match goal with |- context [epochs ?mx _ _ _ ?b _] => pose proof (epochs_pruned mx val mdl prune (seq 0 max_epoch) b) as H; destruct (epochs mx val mdl prune b (seq 0 max_epoch)) as [[sc [m'|]]|] end.
  - split; [destruct has_str; discriminate|]. intros (i & I & E). destruct H as [_ H]. discriminate H. exists i. split; auto. apply in_seq. lia.
  - split; [discriminate|]. intros (i & I & E). destruct H as [_ H]. discriminate H. exists i. split; auto. apply in_seq. lia.
  - split; auto. intros _. destruct H as [H _]. destruct (H eq_refl) as (i & I & E). exists i. split; auto. apply in_seq in I. lia.
Qed.
Example C70_case : exists k, (k < 3)%nat /\
  experiment "maximize" 3 (fun i => Fin (nth i [1; 2; 2]%R 0%R)) (fun i => i) (fun _ => false) true = EDone (Fin (nth k [1; 2; 2]%R 0%R)) k /\ k = 1%nat /\
  experiment "maximize" 3 (fun i => Fin (nth i [1; 2; 2]%R 0%R)) (fun i => i) (fun i => Nat.eqb i 2) true = EPruned.
Proof.
  exists 1%nat. split; [lia|]. split; [|split; [auto|]].
  - unfold experiment. cbn. destruct (Rlt_dec 1 2); [|lra]. cbn. destruct (Rlt_dec 2 2); [lra|]. reflexivity.
  - apply C70_pruned. exists 2%nat. split; [lia|reflexivity].
Qed.
(** minimizing never records a model: every trial that is not pruned ends in AttributeError *)
Theorem C124_minimize_actual : forall (M : Type) direction max_epoch val (mdl : nat -> M) prune has_str, direction <> "maximize" ->
  (forall i, (i < max_epoch)%nat -> prune i = false) -> experiment direction max_epoch val mdl prune has_str = EFail AttributeError None.
Proof.
  intros M direction max_epoch val mdl prune has_str D P. unfold experiment. destruct (String.eqb_spec direction "maximize") as [->|_]; [tauto|].
  rewrite epochs_other; auto. apply Forall_forall. intros i I. apply P. apply in_seq in I. lia.
Qed.
(** maximizing without a single score above minus infinity (no epochs, or only nan or -inf) fails in the same way *)
Theorem C124_no_score_actual : forall (M : Type) max_epoch val (mdl : nat -> M) prune has_str, (forall i, (i < max_epoch)%nat -> prune i = false) ->
  (forall i, (i < max_epoch)%nat -> val i = NaN \/ val i = NInf) -> experiment "maximize" max_epoch val mdl prune has_str = EFail AttributeError None.
Proof.
  intros M max_epoch val mdl prune has_str P V. destruct (experiment_best val mdl prune P) as (best & E & [(-> & B)|(b & Lb & -> & AN & B1 & B2)]).
  - unfold experiment. cbn [String.eqb Ascii.eqb Bool.eqb]. rewrite E. auto.
  - exfalso. destruct (V b Lb) as [H|H]; rewrite H in AN; inversion AN.
Qed.
(** without data["structure"] (which recommender tasks treat as optional) training completes, the model file is written, then KeyError *)
Theorem C124_no_structure_actual : forall (M : Type) max_epoch val (mdl : nat -> M) prune, (forall i, (i < max_epoch)%nat -> prune i = false) ->
  (exists i, (i < max_epoch)%nat /\ above (val i) NInf) -> exists k, (k < max_epoch)%nat /\
  experiment "maximize" max_epoch val mdl prune false = EFail KeyError (Some (mdl k)) /\
  (forall j, (j < max_epoch)%nat -> ~ above (val j) (val k)).
Proof.
  intros M max_epoch val mdl prune P (i & I & A). destruct (experiment_best val mdl prune P) as (best & E & [(-> & B)|(b & Lb & -> & AN & B1 & B2)]).
  - destruct (B i I A).
  - exists b. split; auto. unfold experiment. cbn [String.eqb Ascii.eqb Bool.eqb]. rewrite E. auto.
Qed.
Example C124_case : "minimize" <> "maximize" /\ experiment "minimize" 2 (fun i => Fin (INR i)) (fun i => i) (fun _ => false) true = EFail AttributeError None /\
  above (Fin (INR 1)) NInf.
Proof. split; [discriminate|]. split; [reflexivity|constructor]. Qed.

(** * C129: the search *)
Lemma rfind_free c s : free c s -> rfind c s = None.
Proof. induction s as [|a s IH]; cbn [rfind]; auto. intros F. apply free_cons in F as [A F]. rewrite IH by auto. destruct (Ascii.eqb_spec a c); congruence. Qed.
Lemma rfind_app c a b i : rfind c b = Some i -> rfind c (a +++ b) = Some (String.length a + i)%nat.
Proof. intros E. induction a as [|x a IH]; cbn [String.append rfind String.length]; auto. rewrite IH. reflexivity. Qed.
Lemma substring_app a b n : String.substring 0 (String.length a + n) (a +++ b) = a +++ String.substring 0 n b.
Proof. induction a as [|x a IH]; cbn [String.append String.length Nat.add String.substring]; auto. rewrite IH. reflexivity. Qed.
Lemma str_len_app a b : String.length (a +++ b) = (String.length a + String.length b)%nat.
Proof. induction a as [|x a IH]; cbn [String.append String.length]; auto; rewrite IH; auto. Qed.
Lemma split_ne sep s : split_str sep s <> [].
Proof. induction s as [|x s IH]; cbn; [discriminate|]. destruct (split_str sep s); [congruence|]. destruct (sep x); discriminate. Qed.
Lemma split_first c a b : free c a -> hd "" (split_str (Ascii.eqb c) (a +++ String c b)) = a.
Proof.
  induction a as [|x a IH]; intros F.
  - cbn [String.append split_str]. pose proof (@split_ne (Ascii.eqb c) b). destruct (split_str _ b) as [|w ws]; [congruence|]. rewrite Ascii.eqb_refl. reflexivity.
  - cbn [String.append split_str]. apply free_cons in F as [A F]. specialize (IH F). pose proof (@split_ne (Ascii.eqb c) (a +++ String c b)).
    destruct (split_str _ (a +++ String c b)) as [|w ws]; [congruence|]. destruct (Ascii.eqb_spec c x); [congruence|]. cbn [hd] in *. congruence.
Qed.
Lemma num_free c k : digit_char c = false -> free c (str_int (Z.of_nat k)).
Proof. intros D. destruct (str_int_shape (Z.of_nat k)) as (A & _). apply all_free with (p := digit_char); auto. apply A. lia. Qed.
Lemma file_number_ext k rest i : rfind "." rest = Some i -> (0 < i < String.length rest - 1)%nat -> (exists t, String.substring 0 i rest = String "_" t) ->
  file_number (str_int (Z.of_nat k) +++ rest) = str_int (Z.of_nat k).
Proof.
  intros R I (t & E). unfold file_number, stem. rewrite (rfind_app _ _ _ R), str_len_app.
  replace (Nat.ltb 0 (String.length (str_int (Z.of_nat k)) + i)) with true by (symmetry; apply Nat.ltb_lt; lia).
  replace (Nat.ltb (String.length (str_int (Z.of_nat k)) + i) (String.length (str_int (Z.of_nat k)) + String.length rest - 1)) with true by (symmetry; apply Nat.ltb_lt; lia).
  cbn [andb]. rewrite substring_app, E. apply split_first. apply num_free. reflexivity.
Qed.
Lemma number_model k : file_number (model_file k) = str_int (Z.of_nat k).
Proof. apply file_number_ext with (i := 6%nat); [reflexivity|cbn; lia|eexists; reflexivity]. Qed.
Lemma number_struct k : file_number (struct_file k) = str_int (Z.of_nat k).
Proof. apply file_number_ext with (i := 10%nat); [reflexivity|cbn; lia|eexists; reflexivity]. Qed.
Lemma num_inj j k : str_int (Z.of_nat j) = str_int (Z.of_nat k) -> j = k.
Proof. intros E. apply str_int_inj in E. lia. Qed.
Lemma app_cancel a b c : a +++ b = a +++ c -> b = c.
Proof. induction a as [|x a IH]; cbn [String.append]; auto. intros E. injection E as E. auto. Qed.
Lemma names_differ j k : model_file j <> struct_file k.
Proof.
  intros E. assert (j = k) as -> by (apply num_inj; rewrite <- number_model, E, number_struct; auto).
  apply app_cancel in E. discriminate.
Qed.
Lemma model_inj j k : model_file j = model_file k -> j = k.
Proof. intros E. apply num_inj. rewrite <- !number_model, E. auto. Qed.
Lemma struct_inj j k : struct_file j = struct_file k -> j = k.
Proof. intros E. apply num_inj. rewrite <- !number_struct, E. auto. Qed.

Section Search.
  Variables M S : Type.
  Implicit Types (h l : list (eres M * S)) (files : dict string (content M S)).
  Definition history files0 h files (best : option (nat * fl R)) : Prop :=
    dict_ok files /\
    (forall k sc m s, nth_error h k = Some (EDone sc m, s) -> dget (model_file k) files = Some (FModel m) /\ dget (struct_file k) files = Some (FStruct s)) /\
    (forall f, In f (dkeys files) -> In f (dkeys files0) \/ exists k, f = model_file k \/ f = struct_file k) /\
    match best with
    | None => forall k sc m s, nth_error h k <> Some (EDone sc m, s)
    | Some (b, sc) => (exists m s, nth_error h b = Some (EDone sc m, s)) /\
        forall j sc' m' s', nth_error h j = Some (EDone sc' m', s') -> ~ above sc' sc /\ ((j < b)%nat -> above sc sc')
    end.
  Lemma nth_error_snoc {A} (h : list A) t k x : nth_error (h ++ [t]) k = Some x -> nth_error h k = Some x \/ (k = length h /\ x = t).
  Proof.
    intros E. destruct (Nat.lt_ge_cases k (length h)) as [L|L]; [rewrite nth_error_app1 in E by auto; auto|].
    rewrite nth_error_app2 in E by auto. destruct (k - length h)%nat as [|n] eqn:D; cbn in E; [injection E as <-; right; split; auto; lia|destruct n; discriminate].
  Qed.
  Lemma nth_error_lt {A} (h : list A) k x : nth_error h k = Some x -> (k < length h)%nat.
  Proof. intros E. apply nth_error_Some. congruence. Qed.
  Lemma optimize_history files0 l : forall h files best, history files0 h files best ->
    (forall t, In t (h ++ l) -> match fst t with EDone sc _ => sc <> NaN | EPruned => True | EFail _ _ => False end) ->
    exists files' best', optimize (length h) l files best = (files', Ok best') /\ history files0 (h ++ l) files' best'.
  Proof.
    induction l as [|[e s] l IH]; intros h files best H OK; cbn [optimize].
    - exists files, best. rewrite app_nil_r. auto.
    - assert (LEN : Datatypes.S (length h) = length (h ++ [(e, s)])) by (rewrite app_length; cbn; lia).
      destruct H as (HO & HF & HK & HB). pose proof (OK (e, s) ltac:(apply in_or_app; right; left; auto)) as OKe. cbn [fst] in OKe.
      destruct e as [|x sv|sc m]; [|tauto|].
      + rewrite LEN. replace (h ++ (EPruned, s) :: l) with ((h ++ [(EPruned, s)]) ++ l) in * by (rewrite <- app_assoc; reflexivity). apply IH; auto.
        split; auto. split; [|split; auto].
        * intros k sc m s' E. apply nth_error_snoc in E as [E|(_ & E)]; [eauto|discriminate].
        * destruct best as [[b sc]|].
          -- destruct HB as ((m & s' & E) & HB). split; [exists m, s'; rewrite nth_error_app1; auto; eapply nth_error_lt; eauto|].
             intros j sc' m' s'' E'. apply nth_error_snoc in E' as [E'|(_ & E')]; [eauto|discriminate].
          -- intros k sc m s' E. apply nth_error_snoc in E as [E|(_ & E)]; [eapply HB; eauto|discriminate].
      + rewrite LEN. replace (h ++ (EDone sc m, s) :: l) with ((h ++ [(EDone sc m, s)]) ++ l) in * by (rewrite <- app_assoc; reflexivity). apply IH; auto.
        split; [repeat apply dset_ok; auto|]. split; [|split].
        * intros k sc' m' s' E. apply nth_error_snoc in E as [E|(-> & E)].
          -- pose proof (nth_error_lt _ _ E). destruct (HF _ _ _ _ E) as (F1 & F2).
             rewrite !dget_dset_other; auto; intros Eq; (apply model_inj in Eq || apply struct_inj in Eq || (apply names_differ in Eq; tauto) || (symmetry in Eq; apply names_differ in Eq; tauto)); lia.
          -- injection E as -> -> ->. split; [rewrite dget_dset_other by apply names_differ|]; apply dget_dset_same.
        * intros f F. apply dset_keys_in in F as [->|F]; [eauto|]. apply dset_keys_in in F as [->|F]; [eauto|]. auto.
        * assert (LE : nth_error (h ++ [(EDone sc m, s)]) (length h) = Some (EDone sc m, s)) by (rewrite nth_error_app2, Nat.sub_diag by lia; reflexivity).
          destruct best as [[b sb]|].
          -- destruct HB as ((mb & sb' & Eb) & HB). destruct (fgt sc sb) eqn:G.
             ++ apply fgt_above in G. split; [eauto|]. intros j sc' m' s' E. apply nth_error_snoc in E as [E|(-> & E)].
                ** destruct (HB _ _ _ _ E) as (N1 & N2). assert (sc' <> NaN) by (apply (OK (EDone sc' m', s')); apply in_or_app; left; apply in_or_app; left; eapply nth_error_In; eauto).
                   assert (sb <> NaN) by (apply (OK (EDone sb mb, sb')); apply in_or_app; left; apply in_or_app; left; eapply nth_error_In; eauto).
                   assert (A : above sc sc') by (destruct (above_total H H0 N1) as [A| ->]; [eapply above_trans; eauto|auto]).
                   split; auto. intros B. exact (above_irrefl (above_trans A B)).
                ** injection E as -> -> ->. split; [apply above_irrefl|lia].
             ++ assert (NG : ~ above sc sb) by (rewrite <- fgt_above; congruence).
                split; [exists mb, sb'; rewrite nth_error_app1; auto; eapply nth_error_lt; eauto|]. intros j sc' m' s' E. apply nth_error_snoc in E as [E|(-> & E)]; [eauto|].
                injection E as -> -> ->. split; auto. intros L. pose proof (nth_error_lt _ _ Eb). lia.
          -- split; [eauto|]. intros j sc' m' s' E. apply nth_error_snoc in E as [E|(-> & E)]; [destruct (HB _ _ _ _ E)|].
             injection E as -> -> ->. split; [apply above_irrefl|lia].
  Qed.
  Lemma dget_filter {K V} `{EqB K} (f : K * V -> bool) k v (d : dict K V) : dict_ok d -> dget k d = Some v -> f (k, v) = true -> dget k (filter f d) = Some v.
  Proof.
    intros O G F. apply In_dget; [apply dict_ok_filter; auto|]. apply filter_In. split; auto. apply dget_In. auto.
  Qed.
  (** trials of a maximizing study, none of which failed *)
  Definition trials l : Prop := Forall (fun t => exists max_epoch val mdl prune, fst t = experiment "maximize" max_epoch val mdl prune true /\
    forall x sv, fst t <> EFail x sv) l.
  Lemma trial_score max_epoch val (mdl : nat -> M) prune sc m : experiment "maximize" max_epoch val mdl prune true = EDone sc m -> sc <> NaN.
  Proof.
    intros E NE. subst sc. assert (P : forall i, (i < max_epoch)%nat -> prune i = false).
    { intros i I. destruct (prune i) eqn:P; auto. rewrite (proj2 (C70_pruned "maximize" max_epoch val mdl prune true)) in E; [discriminate|eauto]. }
    destruct (experiment_best val mdl prune P) as (best & EB & [(-> & B)|(b & Lb & -> & AN & B1 & B2)]); unfold experiment in E; cbn [String.eqb Ascii.eqb Bool.eqb] in E;
      rewrite EB in E; [discriminate|]. injection E as E _. rewrite E in AN. inversion AN.
  Qed.
  Lemma trials_ok l : trials l -> forall t, In t l -> match fst t with EDone sc _ => sc <> NaN | EPruned => True | EFail _ _ => False end.
  Proof.
    intros T t I. unfold trials in T. rewrite Forall_forall in T. destruct (T t I) as (mx & val & mdl & prune & E & NF).
    destruct (fst t) as [|x sv|sc m] eqn:F; auto; [eapply NF; eauto|]. symmetry in E. eapply trial_score; eauto.
  Qed.
  Theorem C129_best_trial : forall l files, dict_ok files -> trials l -> (exists k sc m s, nth_error l k = Some (EDone sc m, s)) ->
    exists k sc m s, nth_error l k = Some (EDone sc m, s) /\ snd (run l files) = Ok (m, s, sc) /\
    (forall j sc' m' s', nth_error l j = Some (EDone sc' m', s') -> ~ above sc' sc /\ ((j < k)%nat -> above sc sc')) /\
    dget (model_file k) (fst (run l files)) = Some (FModel m) /\ dget (struct_file k) (fst (run l files)) = Some (FStruct s) /\
    (forall f, In f (dkeys (fst (run l files))) -> file_number f = str_int (Z.of_nat k)) /\
    (files = [] -> forall f, In f (dkeys (fst (run l files))) -> f = model_file k \/ f = struct_file k).
  Proof.
    intros l files DO T (k0 & sc0 & m0 & s0 & E0).
    assert (H0 : history files [] files None).
    { split; auto. split; [intros k ? ? ? E; destruct k; discriminate|]. split; [auto|]. intros k ? ? ? E; destruct k; discriminate. }
    destruct (optimize_history l H0 (trials_ok T)) as (files' & best' & EO & (HO & HF & HK & HB)). cbn [length app] in *.
    destruct best' as [[b sc]|]; [|destruct (HB _ _ _ _ E0)]. destruct HB as ((m & s & Eb) & HB). exists b, sc, m, s. split; auto.
    unfold run. rewrite EO. cbn [fst snd]. destruct (HF _ _ _ _ Eb) as (F1 & F2).
    assert (D1 : dget (model_file b) (remove_cached b files') = Some (FModel m)) by (apply dget_filter; auto; cbn [fst]; rewrite number_model; apply String.eqb_refl).
    assert (D2 : dget (struct_file b) (remove_cached b files') = Some (FStruct s)) by (apply dget_filter; auto; cbn [fst]; rewrite number_struct; apply String.eqb_refl).
    rewrite D1, D2. split; auto. split; auto. split; auto. split; auto.
    assert (NUM : forall f, In f (dkeys (remove_cached b files')) -> file_number f = str_int (Z.of_nat b) /\ In f (dkeys files')).
    { intros f F. apply in_map_iff in F as ([f' c] & <- & F). apply filter_In in F as (F & Q). cbn [fst] in *. apply String.eqb_eq in Q. split; auto. apply (in_map fst) in F. auto. }
    split; [intros f F; apply NUM; auto|]. intros -> f F. destruct (NUM f F) as (Q & I). destruct (HK f I) as [[]|(k & [->| ->])].
    - rewrite number_model in Q. apply num_inj in Q. subst. auto.
    - rewrite number_struct in Q. apply num_inj in Q. subst. auto.
  Qed.
  (** any exception but pruning ends the search; a study with nothing but pruned trials has no best trial *)
  Theorem C129_no_result : forall l files,
    (forall pre x sv s post, trials pre -> snd (run (pre ++ (EFail x sv, s) :: post) files) = Err x) /\
    ((forall t, In t l -> fst t = EPruned) -> run l files = (files, Err ValueError)).
  Proof.
    intros l files. split.
    - intros pre x sv s post T. unfold run. match goal with |- context [optimize 0 _ _ ?b] => generalize 0%nat, files, b end.
      induction T as [|[e t] pre (mx & val & mdl & prune & _ & NF) T IH]; intros n fs best; cbn [app optimize].
      + destruct sv; reflexivity.
      + cbn [fst] in NF. destruct e as [|y sv'|sc m]; [apply IH|destruct (NF y sv'); auto|apply IH].
    - intros H. unfold run. replace (optimize 0 l files None) with (files, @Ok (option (nat * fl R)) None); auto. generalize 0%nat.
      induction l as [|[e t] l IH]; intros n; auto. pose proof (H (e, t) (or_introl eq_refl)) as E. cbn [fst] in E. subst e. cbn [optimize]. apply IH. intros u U. apply H. right. auto.
  Qed.
  (** a failing trial leaves everything that the trials before it wrote in the cache, with its own model's file, which is empty
      when there was no model to save *)
  Theorem C129_failure_leaves : forall pre x sv s post files, dict_ok files -> trials pre ->
    let after := fst (run (pre ++ (EFail x sv, s) :: post) files) in
    (forall k sc m t, nth_error pre k = Some (EDone sc m, t) -> dget (model_file k) after = Some (FModel m) /\ dget (struct_file k) after = Some (FStruct t)) /\
    dget (model_file (length pre)) after = Some (match sv with Some m => FModel m | None => FEmpty end) /\
    (forall f, In f (dkeys files) -> In f (dkeys after)).
  Proof.
    intros pre x sv s post files DO T. cbv zeta.
    assert (H0 : history files [] files None).
    { split; auto. split; [intros k ? ? ? E; destruct k; discriminate|]. split; [auto|]. intros k ? ? ? E; destruct k; discriminate. }
    destruct (optimize_history pre H0 (trials_ok T)) as (files' & best' & EO & (HO & HF & HK & HB)). cbn [length app] in *.
    assert (APP : forall n l1 l2 fs b fs' b', optimize n l1 fs b = (fs', Ok b') -> optimize n (l1 ++ l2) fs b = optimize (n + length l1) l2 fs' b').
    { intros n l1. revert n. induction l1 as [|[e u] l1 IH]; intros n l2 fs b fs' b' E; cbn [app optimize length] in *; [injection E as <- <-; rewrite Nat.add_0_r; reflexivity|].
      rewrite <- Nat.add_succ_comm. destruct e as [|y [w|]|sc w]; try discriminate; eapply IH; eauto. }
    assert (KEEP : forall n l1 fs b fs' b', optimize n l1 fs b = (fs', Ok b') -> forall f, In f (dkeys fs) -> In f (dkeys fs')).
    { intros n l1. revert n. induction l1 as [|[e u] l1 IH]; intros n fs b fs' b' E f I; cbn [optimize] in E; [injection E as <- <-; auto|].
      destruct e as [|y [w|]|sc w]; try discriminate; eapply IH; eauto. apply dset_keys_in. right. apply dset_keys_in. auto. }
    set (c := match sv with Some m => FModel m | None => FEmpty end).
    assert (AFTER : fst (run (pre ++ (EFail x sv, s) :: post) files) = dset (model_file (length pre)) c files').
    { unfold run. rewrite (APP _ _ _ _ _ _ _ EO). cbn [plus optimize]. destruct sv; reflexivity. }
    rewrite AFTER. split; [|split].
    - intros k sc m t E. pose proof (nth_error_lt _ _ E). destruct (HF _ _ _ _ E) as (F1 & F2).
      rewrite !dget_dset_other; auto; intros Eq; [symmetry in Eq; apply names_differ in Eq; tauto|]. apply model_inj in Eq. lia.
    - apply dget_dset_same.
    - intros f I. apply dset_keys_in. right. eapply KEEP; eauto.
  Qed.
End Search.
Example C129_case : let tr v := experiment "maximize" 1 (fun _ => Fin v) (fun i => v) (fun _ => false) true in
  trials (S := nat) [(tr 1%R, 10%nat); (tr 2%R, 20%nat)] /\
  run [(tr 1%R, 10%nat); (tr 2%R, 20%nat)] [] = ([("1_model.pth", FModel 2%R); ("1_structure.dhg", FStruct 20%nat)], Ok (2%R, 20%nat, Fin 2%R)).
Proof.
  cbv zeta. assert (E : forall v : R, experiment "maximize" 1 (fun _ => Fin v) (fun _ : nat => v) (fun _ => false) true = EDone (Fin v) v) by reflexivity. split.
  - repeat constructor; cbn [fst]; (exists 1%nat; do 3 eexists; split; [reflexivity|rewrite E; discriminate]).
  - rewrite !E. unfold run. cbn [optimize fgt]. destruct (Rlt_dec 1 2); [|lra]. reflexivity.
Qed.
