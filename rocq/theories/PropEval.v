(** Properties C58-C60, C107-C112: metric configurations, evaluators, classification metrics. *)
From Coq Require Import String Ascii Reals Lra Permutation QArith.
From Verif Require Import Num PyDict PyDictFacts ModelBase ModelConv ModelUtils UtilFacts RealFacts ModelMetrics ModelEval.
From Verif Require Import SpecMetrics SpecEval MetricFacts RankFacts EvalFacts.
Set Implicit Arguments.
Local Open Scope string_scope.
Local Open Scope list_scope.
Local Open Scope Z_scope.

Lemma ev_new_state {T D} (impl : string -> params -> metric T D) task confs index e :
  ev_new impl task confs index = Ok e ->
  ev_val e = [] /\ ev_lastv e = None /\ ev_test e = [] /\ ev_last e = [] /\ ev_index e = index /\ 0 <= index < Z.of_nat (length (ev_fns e)) /\
  exists ms, format_metric_configs task confs = Ok ms /\ ev_fns e = map (fun m => (fst m, impl (fst (snd m)) (snd (snd m)))) ms.
Proof.
  unfold ev_new. destruct (format_metric_configs task confs) as [ms|]; [|discriminate]. cbn [rbind].
  destruct (_ && _)%bool eqn:B; [|discriminate]. injection 1 as <-. apply andb_true_iff in B as [B1 B2].
  apply Z.leb_le in B1. apply Z.ltb_lt in B2. cbn [ev_val ev_lastv ev_test ev_last ev_index ev_fns]. rewrite map_length. repeat split; eauto.
Qed.

(** * C58: epoch results *)
(** validation: after any history the epoch result is the mean over all samples of all batches added (and accepted) since the last
    call, for every way of cutting the samples into batches; without new batches the last result is repeated; without any it fails *)
Theorem C58_validate : forall (T : Type) (NT : Num T) (ET : Ext T) (D : Type) impl task confs index (e : ev T D) (f : metric T D) (ok : D -> bool) (g : D -> list (fl T)) cs,
  ev_new impl task confs index = Ok e -> vfn e = Ok f ->
  (forall d, if ok d then f d true = Ok (MList (g d)) else exists x, f d true = Err x) ->
  snd (validate_epoch_res (ev_run cs e)) =
  match current (val_batches ok cs [] None) with
  | Some ds => Ok (fmean (concat (map g ds)))
  | None => Err AssertionError
  end.
Proof.
  intros T NT ET D impl task confs index e f ok g cs N V F. destruct (ev_new_state _ _ _ _ N) as (S & L & _).
  pose proof (val_history _ _ F cs _ [] None V S L) as H. cbn beta zeta in H.
  destruct (val_batches ok cs [] None) as [cur last]. destruct H as (_ & H1 & H2). exact (val_result _ _ _ _ H1 H2).
Qed.
(** testing: likewise for every metric, under its own marker, for metrics with one number or one curve per sample *)
Theorem C58_test : forall (T : Type) (NT : Num T) (ET : Ext T) (D : Type) impl task confs index (e : ev T D) ms cs,
  ev_new impl task confs index = Ok e -> NoDup (map fst ms) ->
  (forall d, In (ETestAdd d) cs -> realises (ev_fns e) ms d) -> length ms = length (ev_fns e) ->
  snd (test_epoch_res (ev_run cs e)) =
  Ok (match current (test_batches cs [] None) with
     | Some ds => map (fun m => (fst m, epoch_val (snd m) ds)) ms
     | None => []
     end).
Proof.
  intros T NT ET D impl task confs index e ms cs N ND R LEN. destruct (ev_new_state _ _ _ _ N) as (_ & _ & S & L & _ & IX & _).
  assert (NE : ms <> []) by (intros ->; cbn in LEN; lia).
  pose proof (@test_history T NT ET D ms ND NE cs e [] None) as H. cbn beta zeta in H.
  destruct (test_batches cs [] None) as [cur last]. destruct H as (H0 & H1 & H2 & H3); auto; [intros x []|].
  destruct (@test_result T NT ET D ms ND NE (ev_run cs e) cur last) as [E _]; auto. rewrite H0; auto.
Qed.

(** the metrics with one number per sample: any partition of the samples into batches gives the value of the whole *)
Definition batch {P} (c : nat) (rows : list (list R * list P)) : tensor R * tensor P := (V2 c (map fst rows), V2 c (map snd rows)).
Definition scalar_metrics : list string := ["precision"; "recall"; "ndcg"; "map"; "mrr"].

Lemma format_batch {P} c (rows : list (list R * list P)) k ratio : samples c rows ->
  format_inputs (V2 c (map fst rows)) (V2 c (map snd rows)) k ratio =
    (if ratio_ok ratio then Ok (rows, top_k (Z.of_nat c) k ratio) else Err AssertionError) /\
  format_inputs_rc (V2 c (map fst rows)) (V2 c (map snd rows)) k ratio =
    (match ratio with Some _ => Err NameError | None => Ok (rows, top_k (Z.of_nat c) k None) end).
Proof.
  intros _. unfold format_inputs, format_inputs_rc. cbn [shape dim12 negb rows_of cols_of]. rewrite !map_length.
  replace (eqb [length rows; c] [length rows; c]) with true by (symmetry; apply eqb_eq; auto). cbn [negb].
  assert (E : combine (map fst rows) (map snd rows) = rows) by (induction rows as [|[] l IH]; cbn; congruence).
  rewrite E. split; [destruct (ratio_ok ratio); auto|destruct ratio; auto].
Qed.
Lemma map_res_concat {A B} (f : A -> res B) (out : list A -> list B) parts :
  (forall b, In b parts -> map_res f b = Ok (out b)) -> map_res f (concat parts) = Ok (concat (map out parts)).
Proof.
  induction parts as [|b parts IH]; intros H; cbn [concat map]; auto.
  assert (A1 : forall l m x y, map_res f l = Ok x -> map_res f m = Ok y -> map_res f (l ++ m) = Ok (x ++ y)).
  { clear. induction l as [|a l IH]; intros m x y L M; cbn [map_res app] in *; [injection L as <-; auto|].
    destruct (f a); cbn [rbind] in *; [|discriminate]. destruct (map_res f l) as [l'|]; cbn [rbind] in *; [|discriminate].
    injection L as <-. rewrite (IH m l' y) by auto. auto. }
  apply A1; [apply H; left; auto|]. apply IH. intros; apply H; right; auto.
Qed.
Lemma check_concat {P} (parts : list (list (list R * list P))) : parts <> [] -> (forall b, In b parts -> check_binary (concat (map fst b)) = Ok tt) ->
  check_binary (concat (map fst (concat parts))) = Ok tt.
Proof.
  intros NE H. apply check_binary_ok.
  - intros x I. apply in_concat in I as (y & I & J). apply in_map_iff in I as (r & <- & I). apply in_concat in I as (b & B & I).
    pose proof (check_binary_spec (concat (map fst b))) as S. rewrite (H b B) in S. apply S. apply in_concat.
    exists (fst r). split; auto. apply in_map; auto.
  - destruct parts as [|b parts]; [tauto|]. pose proof (check_binary_spec (concat (map fst b))) as S. rewrite (H b (or_introl eq_refl)) in S.
    destruct S as [S _]. apply in_concat in S as (y & I & J). apply in_concat. exists y. split; auto. apply in_map_iff in I as (r & <- & I).
    apply in_map. cbn [concat]. apply in_or_app; auto.
Qed.

(** a metric that maps rows to numbers, with a check of the batch that accepts a union of accepted batches *)
Definition rowwise {P} (f : metric R (tensor R * tensor P)) : Prop :=
  forall c parts (out : list (list R * list P) -> list (fl R)), parts <> [] -> (forall b, In b parts -> samples c b) ->
  (forall b, In b parts -> f (batch c b) true = Ok (MList (out b))) ->
  f (batch c (concat parts)) true = Ok (MList (concat (map out parts))) /\
  f (batch c (concat parts)) false = Ok (MScal (fmean (concat (map out parts)))).
(** with one number per sample, or an exception *)
Definition numeric {P} (f : metric R (tensor R * tensor P)) : Prop :=
  forall d, (exists l, f d true = Ok (MList l)) \/ (exists x, f d true = Err x).

Lemma rowwise_of {P} (f : metric R (tensor R * tensor P)) (F : bool -> list (list R * list P) -> nat -> res (mout R)) :
  (forall c rows rb, samples c rows -> f (batch c rows) rb = F rb rows c) ->
  ((exists x, forall rb rows c, F rb rows c = Err x) \/
   exists (chk : list (list R * list P) -> res unit) (h : nat -> list R * list P -> res (fl R)),
     (forall rb rows c, F rb rows c = rbind (chk rows) (fun _ => rbind (map_res (h c) rows) (fun l => Ok (pack rb l)))) /\
     forall parts, parts <> [] -> (forall b, In b parts -> chk b = Ok tt) -> chk (concat parts) = Ok tt) ->
  rowwise f.
Proof.
  intros E [(x & X)|(chk & h & FE & CK)] c parts out NE SM H.
  - exfalso. destruct parts as [|b parts]; [tauto|]. specialize (H b (or_introl eq_refl)). rewrite E, X in H; [discriminate|]. apply SM; left; auto.
  - assert (SC : samples c (concat parts)).
    { intros r I. apply in_concat in I as (b & B & I). eapply SM; eauto. }
    assert (PB : forall b, In b parts -> chk b = Ok tt /\ map_res (h c) b = Ok (out b)).
    { intros b B. specialize (H b B). rewrite E, FE in H by auto. destruct (chk b) as [[]|]; [|discriminate]. cbn [rbind] in H.
      destruct (map_res (h c) b) as [l|]; [|discriminate]. cbn [rbind pack] in H. injection H as <-. auto. }
    rewrite !E by auto. rewrite !FE, CK by (auto; intros b B; apply (PB b B)). cbn [rbind].
    rewrite (map_res_concat (h c) out) by (intros b B; apply (PB b B)). auto.
Qed.
Lemma rowwise_ext {P} (f f' : metric R (tensor R * tensor P)) : (forall d rb, f d rb = f' d rb) -> rowwise f' -> rowwise f.
Proof. intros E R c parts out NE SM H. rewrite !E. apply R; auto. intros b B. rewrite <- E. auto. Qed.
Lemma rowwise_err {P} (f : metric R (tensor R * tensor P)) x : (forall d rb, f d rb = Err x) -> rowwise f.
Proof. intros E c [|b parts] out NE SM H; [tauto|]. specialize (H b (or_introl eq_refl)). rewrite E in H. discriminate. Qed.

Section Rowwise.
  Context {P : Type}.
  Variable argsort : list P -> list nat.
  Variables (k : option Z) (ratio : option R).
  Notation two f := (fun (d : tensor R * tensor P) (rb : bool) => f argsort (fst d) (snd d) k ratio rb).
  Lemma pure_rows {A B} (h : A -> B) rows : map_res (fun r => Ok (h r)) rows = Ok (map h rows).
  Proof. apply map_res_fn; auto. Qed.
  Lemma precision_rowwise : rowwise (two precision).
  Proof.
    apply rowwise_of with (F := fun rb rows c => precision_of argsort (if ratio_ok ratio then Ok (rows, top_k (Z.of_nat c) k ratio) else Err AssertionError) rb).
    - intros c rows rb SM. cbn [batch fst snd]. unfold precision. rewrite (proj1 (format_batch k ratio SM)). auto.
    - destruct (ratio_ok ratio); [right|left; exists AssertionError; auto].
      eexists (fun rows => check_binary (concat (map fst rows))), (fun c r => Ok _). split; [|apply check_concat].
      intros rb rows c. rewrite pure_rows. unfold precision_of. cbn [rbind]. reflexivity.
  Qed.
  Lemma recall_rowwise : rowwise (two recall).
  Proof.
    apply rowwise_of with (F := fun rb rows c => recall_of argsort (if ratio_ok ratio then Ok (rows, top_k (Z.of_nat c) k ratio) else Err AssertionError) rb).
    - intros c rows rb SM. cbn [batch fst snd]. unfold recall. rewrite (proj1 (format_batch k ratio SM)). auto.
    - destruct (ratio_ok ratio); [right|left; exists AssertionError; auto].
      eexists (fun rows => check_binary (concat (map fst rows))), (fun c r => Ok _). split; [|apply check_concat].
      intros rb rows c. rewrite pure_rows. unfold recall_of. cbn [rbind]. reflexivity.
  Qed.
  Lemma ndcg_rowwise : rowwise (two ndcg).
  Proof.
    apply rowwise_of with (F := fun rb rows c => ndcg_of argsort (if ratio_ok ratio then Ok (rows, top_k (Z.of_nat c) k ratio) else Err AssertionError) rb).
    - intros c rows rb SM. cbn [batch fst snd]. unfold ndcg. rewrite (proj1 (format_batch k ratio SM)). auto.
    - destruct (ratio_ok ratio); [right|left; exists AssertionError; auto].
      eexists (fun rows => Ok tt), (fun c r => Ok _). split; [|auto].
      intros rb rows c. rewrite pure_rows. unfold ndcg_of. cbn [rbind]. reflexivity.
  Qed.
  Lemma precision_rc_rowwise : rowwise (two precision_rc).
  Proof.
    apply rowwise_of with (F := fun rb rows c => precision_of argsort (match ratio with Some _ => Err NameError | None => Ok (rows, top_k (Z.of_nat c) k None) end) rb).
    - intros c rows rb SM. cbn [batch fst snd]. unfold precision_rc. rewrite (proj2 (format_batch k ratio SM)). auto.
    - destruct ratio; [left; exists NameError; auto|right].
      eexists (fun rows => check_binary (concat (map fst rows))), (fun c r => Ok _). split; [|apply check_concat].
      intros rb rows c. rewrite pure_rows. unfold precision_of. cbn [rbind]. reflexivity.
  Qed.
  Lemma recall_rc_rowwise : rowwise (two recall_rc).
  Proof.
    apply rowwise_of with (F := fun rb rows c => recall_of argsort (match ratio with Some _ => Err NameError | None => Ok (rows, top_k (Z.of_nat c) k None) end) rb).
    - intros c rows rb SM. cbn [batch fst snd]. unfold recall_rc. rewrite (proj2 (format_batch k ratio SM)). auto.
    - destruct ratio; [left; exists NameError; auto|right].
      eexists (fun rows => check_binary (concat (map fst rows))), (fun c r => Ok _). split; [|apply check_concat].
      intros rb rows c. rewrite pure_rows. unfold recall_of. cbn [rbind]. reflexivity.
  Qed.
  Lemma ndcg_rc_rowwise : rowwise (two ndcg_rc).
  Proof.
    apply rowwise_of with (F := fun rb rows c => ndcg_of argsort (match ratio with Some _ => Err NameError | None => Ok (rows, top_k (Z.of_nat c) k None) end) rb).
    - intros c rows rb SM. cbn [batch fst snd]. unfold ndcg_rc. rewrite (proj2 (format_batch k ratio SM)). auto.
    - destruct ratio; [left; exists NameError; auto|right].
      eexists (fun rows => Ok tt), (fun c r => Ok _). split; [|auto].
      intros rb rows c. rewrite pure_rows. unfold ndcg_of. cbn [rbind]. reflexivity.
  Qed.
  Lemma map_rowwise m : rowwise (fun d rb => map_score argsort (fst d) (snd d) k ratio m rb).
  Proof.
    apply rowwise_of with (F := fun rb rows c => if negb (method_ok m) then Err AssertionError else
      rbind (if ratio_ok ratio then Ok (rows, top_k (Z.of_nat c) k ratio) else Err AssertionError) (fun '(rows, k) =>
      rbind (map_res (fun r => ap argsort (V1 (fst r)) (V1 (snd r)) (Some k) None m) rows) (fun l => Ok (pack rb l)))).
    - intros c rows rb SM. cbn [batch fst snd]. unfold map_score. rewrite (proj1 (format_batch k ratio SM)). auto.
    - destruct (negb (method_ok m)); [left; exists AssertionError; auto|]. destruct (ratio_ok ratio); [right|left; exists AssertionError; auto].
      exists (fun rows => Ok tt), (fun c r => ap argsort (V1 (fst r)) (V1 (snd r)) (Some (top_k (Z.of_nat c) k ratio)) None m). split; auto.
  Qed.
  Lemma mrr_rowwise : rowwise (two mrr).
  Proof.
    apply rowwise_of with (F := fun rb rows c => 
      rbind (if ratio_ok ratio then Ok (rows, top_k (Z.of_nat c) k ratio) else Err AssertionError) (fun '(rows, k) =>
      rbind (map_res (fun r => rr argsort (V1 (fst r)) (V1 (snd r)) (Some k) None) rows) (fun l => Ok (pack rb l)))).
    - intros c rows rb SM. cbn [batch fst snd]. unfold mrr. rewrite (proj1 (format_batch k ratio SM)). auto.
    - destruct (ratio_ok ratio); [right|left; exists AssertionError; auto].
      exists (fun rows => Ok tt), (fun c r => rr argsort (V1 (fst r)) (V1 (snd r)) (Some (top_k (Z.of_nat c) k ratio)) None). split; auto.
  Qed.
End Rowwise.
Ltac names H := cbn [In scalar_metrics] in H; repeat (destruct H as [<-|H]); [..|destruct H].
Ltac by_err := match goal with |- rowwise ?f => eapply rowwise_err; intros [? ?] ?; reflexivity end.
Lemma retrieval_rowwise {P} (argsort : list P -> list nat) name ps : In name scalar_metrics -> rowwise (retrieval_impl argsort name ps).
Proof.
  intros I. names I; unfold retrieval_impl; cbn [String.eqb Ascii.eqb Bool.eqb];
    (destruct (kw_only _ ps); [|by_err]); (destruct (kw_k ps) as [k|x]; [|by_err]); (destruct (kw_ratio ps) as [r|x]; [|by_err]).
  - apply rowwise_ext with (2 := precision_rowwise argsort k r). intros [? ?] ?; reflexivity.
  - apply rowwise_ext with (2 := recall_rowwise argsort k r). intros [? ?] ?; reflexivity.
  - apply rowwise_ext with (2 := ndcg_rowwise argsort k r). intros [? ?] ?; reflexivity.
  - destruct (kw_method ps) as [m|x]; [|by_err]. apply rowwise_ext with (2 := map_rowwise argsort k r m). intros [? ?] ?; reflexivity.
  - apply rowwise_ext with (2 := mrr_rowwise argsort k r). intros [? ?] ?; reflexivity.
Qed.
Lemma recommender_rowwise {P} (argsort : list P -> list nat) name ps : rowwise (recommender_impl argsort name ps).
Proof.
  unfold recommender_impl.
  destruct (String.eqb name "precision"); [|destruct (String.eqb name "recall"); [|destruct (String.eqb name "ndcg"); [|by_err]]];
    (destruct (kw_only _ ps); [|by_err]); (destruct (kw_k ps) as [k|x]; [|by_err]); (destruct (kw_ratio ps) as [r|x]; [|by_err]).
  - apply rowwise_ext with (2 := precision_rc_rowwise argsort k r). intros [? ?] ?; reflexivity.
  - apply rowwise_ext with (2 := recall_rc_rowwise argsort k r). intros [? ?] ?; reflexivity.
  - apply rowwise_ext with (2 := ndcg_rc_rowwise argsort k r). intros [? ?] ?; reflexivity.
Qed.
Ltac num_tac := repeat first [ left; eexists; reflexivity | right; eexists; reflexivity
  | match goal with |- context [match ?x with _ => _ end] => lazymatch x with context [match _ with _ => _ end] => fail | _ => destruct x end end ].
Lemma retrieval_numeric {P} (argsort : list P -> list nat) name ps : In name scalar_metrics -> numeric (retrieval_impl argsort name ps).
Proof.
  intros I [yt yp]. names I; unfold retrieval_impl; cbn [String.eqb Ascii.eqb Bool.eqb];
    (destruct (kw_only _ ps); [|right; eexists; reflexivity]); (destruct (kw_k ps) as [k|x]; [|right; eexists; reflexivity]);
    (destruct (kw_ratio ps) as [r|x]; [|right; eexists; reflexivity]); cbn [rbind].
  - unfold precision, precision_of. destruct (format_inputs _ _ _ _) as [[rows kk]|]; cbn [rbind]; [|right; eauto]. destruct (check_binary _); cbn [rbind pack]; eauto.
  - unfold recall, recall_of. destruct (format_inputs _ _ _ _) as [[rows kk]|]; cbn [rbind]; [|right; eauto]. destruct (check_binary _); cbn [rbind pack]; eauto.
  - unfold ndcg, ndcg_of. destruct (format_inputs _ _ _ _) as [[rows kk]|]; cbn [rbind pack]; eauto.
  - destruct (kw_method ps) as [m|x]; cbn [rbind]; [|right; eauto]. unfold map_score. destruct (negb _); [right; eauto|].
    destruct (format_inputs _ _ _ _) as [[rows kk]|]; cbn [rbind pack]; [|right; eauto]. destruct (map_res _ _); cbn [rbind pack]; eauto.
  - unfold mrr. destruct (format_inputs _ _ _ _) as [[rows kk]|]; cbn [rbind pack]; [|right; eauto]. destruct (map_res _ _); cbn [rbind pack]; eauto.
Qed.
Lemma recommender_numeric {P} (argsort : list P -> list nat) name ps : numeric (recommender_impl argsort name ps).
Proof.
  intros [yt yp]. unfold recommender_impl.
  destruct (String.eqb name "precision"); [|destruct (String.eqb name "recall"); [|destruct (String.eqb name "ndcg"); [|right; eexists; reflexivity]]];
    (destruct (kw_only _ ps); [|right; eexists; reflexivity]); (destruct (kw_k ps) as [k|x]; [|right; eexists; reflexivity]);
    (destruct (kw_ratio ps) as [r|x]; [|right; eexists; reflexivity]); cbn [rbind].
  - unfold precision_rc, precision_of. destruct (format_inputs_rc _ _ _ _) as [[rows kk]|]; cbn [rbind]; [|right; eauto]. destruct (check_binary _); cbn [rbind pack]; eauto.
  - unfold recall_rc, recall_of. destruct (format_inputs_rc _ _ _ _) as [[rows kk]|]; cbn [rbind]; [|right; eauto]. destruct (check_binary _); cbn [rbind pack]; eauto.
  - unfold ndcg_rc, ndcg_of. destruct (format_inputs_rc _ _ _ _) as [[rows kk]|]; cbn [rbind pack]; eauto.
Qed.

(** does the metric accept the batch? *)
Definition accepts {T D} (f : metric T D) (d : D) : bool := match f d true with Ok _ => true | Err _ => false end.
(** name and parameters of a configuration *)
Definition conf_metric (c : config) : option (string * params) :=
  match c with CName s => Some (s, []) | CDict [(s, ps)] => Some (s, ps) | _ => None end.
Lemma format_conf av c m : format_one av c = Ok m -> conf_metric c = Some (snd m) /\ In (fst (snd m)) av.
Proof.
  assert (S : forall s, str_in s av = true -> In s av).
  { intros s H. apply existsb_exists in H as (x & I & E). apply String.eqb_eq in E as ->. auto. }
  destruct c as [s|[|[s ps] [|]]|]; cbn; try discriminate; (destruct (str_in s av) eqn:E; [|discriminate]); injection 1 as <-; cbn; auto.
Qed.
Lemma ev_fn {T D} (impl : string -> params -> metric T D) task confs index e cf :
  ev_new impl task confs index = Ok e -> nth_error confs (Z.to_nat index) = Some cf ->
  exists name ps av, available task = Ok av /\ In name av /\ conf_metric cf = Some (name, ps) /\ vfn e = Ok (impl name ps).
Proof.
  intros N C. destruct (ev_new_state _ _ _ _ N) as (_ & _ & _ & _ & IX & RG & ms & FM & FN).
  unfold format_metric_configs in FM. destruct (available task) as [av|]; [|discriminate]. cbn [rbind] in FM.
  apply map_res_inv in FM. unfold vfn. rewrite FN, IX. rewrite FN, map_length in RG.
  assert (G : forall i, nth_error confs i = Some cf -> exists m, nth_error ms i = Some m /\ format_one av cf = Ok m).
  { clear - FM. induction FM as [|a b l m E F IH]; intros [|i]; cbn; try discriminate; auto. injection 1 as ->. eauto. }
  destruct (G _ C) as (m & M & FO). destruct (format_conf _ _ FO) as [CM IN]. destruct m as [mk [name ps]]. cbn [fst snd] in *.
  exists name, ps, av. repeat split; auto. rewrite nth_error_map, M. auto.
Qed.
Lemma val_batches_app {D} (ok : D -> bool) h : forall k cur last,
  val_batches ok (h ++ k) cur last = let (c, l) := val_batches ok h cur last in val_batches ok k c l.
Proof. induction h as [|c h IH]; intros k cur last; cbn [app val_batches]; auto. destruct c; apply IH. Qed.
Lemma val_batches_add {D} (ok : D -> bool) ds : forall cur last, (forall d, In d ds -> ok d = true) ->
  val_batches ok (map EValAdd ds) cur last = (cur ++ ds, last).
Proof.
  induction ds as [|d ds IH]; intros cur last H; cbn [map val_batches]; [rewrite app_nil_r; auto|].
  rewrite (H d (or_introl eq_refl)), IH by (intros; apply H; right; auto). rewrite <- app_assoc. auto.
Qed.

(** after any history without pending batches: adding the parts of a data set as batches and asking for the result gives what
    [validate] gives for the whole data set, if every part is accepted (see C111 for parts that are not) *)
Theorem C58_partition : forall (P : Type) impl task confs index e cf name ps f c parts hist,
  (exists argsort : list P -> list nat, impl = retrieval_impl argsort /\ In name scalar_metrics \/ impl = recommender_impl argsort) ->
  ev_new impl task confs index = Ok e -> nth_error confs (Z.to_nat index) = Some cf -> conf_metric cf = Some (name, ps) -> f = impl name ps ->
  parts <> [] -> (forall b, In b parts -> samples c b) -> (forall b, In b parts -> accepts f (batch c b) = true) ->
  fst (val_batches (accepts f) hist [] None) = [] ->
  exists v, snd (validate_epoch_res (ev_run (hist ++ map (fun b => EValAdd (batch c b)) parts) e)) = Ok v /\
            validate (batch c (concat parts)) e = Ok (MScal v).
Proof.
  intros P impl task confs index e cf name ps f c parts hist IM N C CM -> NE SM AC HI. set (f := impl name ps) in *.
  destruct (ev_fn _ _ _ _ N C) as (name' & ps' & av & _ & _ & CM' & V). rewrite CM in CM'. injection CM' as <- <-. fold f in V.
  assert (RW : rowwise f /\ numeric f).
  { destruct IM as (a & [[-> I]| ->]); split; [apply retrieval_rowwise|apply retrieval_numeric|apply recommender_rowwise|apply recommender_numeric]; auto. }
  destruct RW as [RW NU].
  set (g := fun d => match f d true with Ok (MList l) => l | _ => [] end).
  assert (F : forall d, if accepts f d then f d true = Ok (MList (g d)) else exists x, f d true = Err x).
  { intros d. unfold accepts, g. destruct (NU d) as [(l & E)|(x & E)]; rewrite E; eauto. }
  rewrite (@C58_validate _ _ _ _ impl task confs index e f (accepts f) g _ N V F).
  rewrite val_batches_app. destruct (val_batches (accepts f) hist [] None) as [cur last]. cbn [fst] in HI. subst cur.
  rewrite <- (map_map (batch c) EValAdd), val_batches_add by (intros d I; apply in_map_iff in I as (b & <- & I); auto).
  cbn [app]. exists (fmean (concat (map g (map (batch c) parts)))). split.
  - unfold current. cbn [fst snd]. destruct parts as [|b parts]; [tauto|]. auto.
  - unfold validate. rewrite V. cbn [rbind]. rewrite map_map.
    apply (RW c parts (fun b => g (batch c b))); auto. intros b B. specialize (F (batch c b)). rewrite (AC b B) in F. auto.
Qed.

(** * Defects of the evaluators *)
(** C107: test_epoch_res without data returns an empty dict instead of failing *)
Theorem C107_no_data_actual : forall (T : Type) (NT : Num T) (ET : Ext T) (D : Type) impl task confs index (e : ev T D) cs,
  ev_new impl task confs index = Ok e -> (forall d, ~ In (ETestAdd d) cs) -> snd (test_epoch_res (ev_run cs e)) = Ok [].
Proof.
  intros T NT ET D impl task confs index e cs N H. destruct (ev_new_state _ _ _ _ N) as (_ & _ & S & L & _).
  assert (G : ev_test (ev_run cs e) = [] /\ ev_last (ev_run cs e) = []).
  { clear N. revert e S L. induction cs as [|c cs IH]; intros e S L; cbn [ev_run fold_left]; auto.
    apply IH; auto; [intros d I; apply (H d); right; auto|..];
      (destruct c as [d| |d|]; cbn [ev_step]; [unfold validate_add_batch; destruct (rbind _ _); auto
        |unfold validate_epoch_res; destruct (ev_val e); [destruct (ev_lastv e); auto|destruct (rbind _ _); auto]
        |exfalso; apply (H d); left; auto|unfold test_epoch_res; rewrite S; auto]). }
  destruct G as [G1 G2]. unfold test_epoch_res. rewrite G1. cbn [snd]. rewrite G2. auto.
Qed.

(** C108: the dict returned by test_epoch_res is the evaluator's own ([ev_last], b:96, b:154, b:165), filled in place (b:158-160): after
    the next epoch the caller's first result holds the values of that epoch *)
Theorem C108_live_actual : forall (T : Type) (NT : Num T) (ET : Ext T) (D : Type) impl task confs index (e : ev T D) ms cs d1 ds1 d2 ds2,
  ev_new impl task confs index = Ok e -> NoDup (map fst ms) -> length ms = length (ev_fns e) ->
  (forall d, realises (ev_fns e) ms d) -> current (test_batches cs [] None) = Some (d1 :: ds1) ->
  let e1 := ev_run (cs ++ [ETestRes]) e in let e2 := ev_run (map ETestAdd (d2 :: ds2) ++ [ETestRes]) e1 in
  (* returned, and held by the caller when the call returns *)
  snd (test_epoch_res (ev_run cs e)) = Ok (map (fun m => (fst m, epoch_val (snd m) (d1 :: ds1))) ms) /\
  ev_last e1 = map (fun m => (fst m, epoch_val (snd m) (d1 :: ds1))) ms /\
  (* held by the caller after the next epoch *)
  ev_last e2 = map (fun m => (fst m, epoch_val (snd m) (d2 :: ds2))) ms.
Proof.
  intros T NT ET D impl task confs index e ms cs d1 ds1 d2 ds2 N ND LEN R CUR e1 e2.
  destruct (ev_new_state _ _ _ _ N) as (_ & _ & S & L & _ & IX & _).
  assert (NE : ms <> []) by (intros ->; cbn in LEN; lia).
  assert (RUN : forall cs, ev_last (ev_run cs e) = test_last ms (snd (test_batches cs [] None))).
  { intros c. pose proof (@test_history T NT ET D ms ND NE c e [] None) as H. cbn beta zeta in H.
    destruct (test_batches c [] None) as [cur last]. destruct H as (_ & _ & _ & H); auto. }
  assert (TB : forall h k cur last, test_batches (h ++ k) cur last = let (c, l) := test_batches h cur last in test_batches (D := D) k c l).
  { clear. induction h as [|c h IH]; intros k cur last; cbn [app test_batches]; auto. destruct c; apply IH. }
  assert (TA : forall ds cur last, test_batches (map ETestAdd ds) cur last = (cur ++ ds, last) :> list D * option (list D)).
  { clear. induction ds as [|d ds IH]; intros cur last; cbn [map test_batches]; [rewrite app_nil_r; auto|]. rewrite IH, <- app_assoc. auto. }
  split.
  - rewrite (@C58_test T NT ET D impl task confs index e ms cs N ND) by auto. rewrite CUR. auto.
  - assert (E2 : e2 = ev_run ((cs ++ [ETestRes]) ++ (map ETestAdd (d2 :: ds2) ++ [ETestRes])) e) by (unfold e2, e1, ev_run; rewrite !fold_left_app; auto).
    rewrite E2. unfold e1. rewrite !RUN, !TB. destruct (test_batches cs [] None) as [cur last].
    change (test_batches [ETestRes] cur last) with (@nil D, match cur with [] => last | _ => Some cur end). cbv iota. rewrite TB, TA. cbn [test_batches app snd].
    unfold current in CUR. cbn [fst snd] in CUR. split; [|reflexivity]. destruct cur; [subst last; auto|]. injection CUR as <- <-. auto.
Qed.

(** C110: the metrics of dhg.metrics.classification have no argument ret_batch: every batch added to an evaluator for vertex
    classification raises TypeError *)
Theorem C110_batches_actual : forall (T : Type) (NT : Num T) (ET : Ext T) argmax f1 confs index e cs d,
  ev_new (classification_impl argmax f1) "classification" confs index = Ok e ->
  snd (validate_add_batch d (ev_run cs e)) = Err TypeError /\ snd (test_add_batch d (ev_run cs e)) = Err TypeError /\
  snd (validate_epoch_res (ev_run cs e)) = Err AssertionError.
Proof.
  intros T NT ET argmax f1 confs index e cs d N. destruct (ev_new_state _ _ _ _ N) as (S & L & S2 & _ & IX & RG & ms & FM & FN).
  assert (NE : exists m r, ev_fns e = m :: r) by (destruct (ev_fns e) as [|m r]; [cbn in RG; lia|eauto]).
  assert (V : exists f, vfn e = Ok f /\ forall d, f d true = Err TypeError).
  { unfold vfn. rewrite IX, FN. rewrite FN, map_length in RG. rewrite nth_error_map. destruct (nth_error ms (Z.to_nat index)) as [m|] eqn:E.
    - eexists. split; [reflexivity|]. auto.
    - apply nth_error_None in E. lia. }
  destruct V as (f & V & F).
  assert (A : forall d t, add_all (ev_fns e) d t = (t, Err TypeError)).
  { intros x t. rewrite FN. destruct ms as [|m ms]; [rewrite FN in RG; cbn in RG; lia|]. reflexivity. }
  assert (G : ev_run cs e = e).
  { induction cs as [|c cs IH]; auto. cbn [ev_run fold_left].
    replace (ev_step c e) with e; [exact IH|]. destruct c as [x| |x|]; cbn [ev_step].
    - unfold validate_add_batch. rewrite V. cbn [rbind]. rewrite F. auto.
    - unfold validate_epoch_res. rewrite S, L. auto.
    - unfold test_add_batch. rewrite A. destruct e; auto.
    - unfold test_epoch_res. rewrite S2. auto. }
  rewrite G. unfold validate_add_batch, test_add_batch, validate_epoch_res. rewrite V, A, S, L. cbn [rbind]. rewrite F. auto.
Qed.

(** C111: when a metric refuses a batch, test_add_batch raises but keeps the values of the metrics before it: the epoch results of two
    metrics are then over different samples *)
Theorem C111_partly_recorded_actual : forall (T : Type) (NT : Num T) (ET : Ext T) (D : Type) (e : ev T D) m1 m2 f1 f2 g1 g2 d d' x,
  ev_fns e = [(m1, f1); (m2, f2)] -> ev_test e = [] -> ev_last e = [] -> m1 <> m2 ->
  f1 d true = Ok (MList (g1 d)) -> f2 d true = Ok (MList (g2 d)) -> f1 d' true = Ok (MList (g1 d')) -> f2 d' true = Err x ->
  snd (test_add_batch d' (fst (test_add_batch d e))) = Err x /\
  snd (test_epoch_res (ev_run [ETestAdd d; ETestAdd d'] e)) =
    Ok [(m1, OScal (fmean (g1 d ++ g1 d'))); (m2, OScal (fmean (g2 d)))].
Proof.
  intros T NT ET D e m1 m2 f1 f2 g1 g2 d d' x FN S L NM A1 A2 B1 B2.
  assert (E12 : eqb m1 m2 = false) by (apply eqb_neq; auto). assert (E21 : eqb m2 m1 = false) by (apply eqb_neq; auto).
  assert (T1 : test_add_batch d e = (set_test e [(m1, [IArr 1 (map (fun x => [x]) (g1 d))]); (m2, [IArr 1 (map (fun x => [x]) (g2 d))])], Ok tt)).
  { unfold test_add_batch. rewrite FN, S. cbn [add_all]. rewrite A1. cbn [rbind tget dget add_result app dset]. rewrite A2.
    cbn [rbind]. unfold tget at 1. cbn [dget]. rewrite !E21. reflexivity. }
  assert (T2 : test_add_batch d' (fst (test_add_batch d e)) =
    (set_test e [(m1, [IArr 1 (map (fun x => [x]) (g1 d)); IArr 1 (map (fun x => [x]) (g1 d'))]); (m2, [IArr 1 (map (fun x => [x]) (g2 d))])], Err x)).
  { rewrite T1. unfold test_add_batch. cbn [fst set_test ev_fns ev_test]. rewrite FN. cbn [add_all]. rewrite B1. cbn [rbind].
    unfold tget at 1. cbn [dget]. rewrite eqb_refl. cbn [add_result app dset]. rewrite eqb_refl. rewrite B2. cbn [rbind]. reflexivity. }
  split; [rewrite T2; auto|]. cbn [ev_run fold_left ev_step]. rewrite T2. cbn [fst]. unfold test_epoch_res.
  cbn [set_test ev_test ev_last]. rewrite L. cbn [summarise_all summarise map_res rbind]. unfold vstack2. cbn [forallb fst Nat.eqb andb rbind].
  cbn [mean0 seq map squeeze snd concat]. rewrite !app_nil_r, <- map_app, !col_column. cbn [dset]. rewrite E21. reflexivity.
Qed.
(** in particular, precision refuses a batch in which nothing is relevant, although it accepts the same rows together with others: the
    validation result then leaves these samples out *)
Theorem C111_refused_batch_actual : forall (P : Type) (argsort : list P -> list nat) task confs index e c rows1 rows2,
  ev_new (retrieval_impl argsort) task confs index = Ok e -> nth_error confs (Z.to_nat index) = Some (CName "precision") ->
  samples c rows1 -> samples c rows2 -> rows2 <> [] -> (1 <= c)%nat ->
  (forall r, In r rows1 -> binary (fst r)) -> (exists r, In r rows1 /\ In 1%R (fst r)) -> (forall r x, In r rows2 -> In x (fst r) -> x = 0%R) ->
  (exists v, validate (batch c (rows1 ++ rows2)) e = Ok (MScal v)) /\
  snd (validate_add_batch (batch c rows2) e) = Err AssertionError /\
  snd (validate_epoch_res (ev_run [EValAdd (batch c rows1); EValAdd (batch c rows2)] e)) =
    rbind (validate (batch c rows1) e) (fun o => match o with MScal v => Ok v | _ => Err TypeError end).
Proof.
  intros P argsort task confs index e c rows1 rows2 N C S1 S2 NE CP BIN ANY Z.
  destruct (ev_fn _ _ _ _ N C) as (name & ps & av & _ & _ & CM & V). injection CM as <- <-.
  assert (IMP : forall rows rb, samples c rows -> retrieval_impl argsort "precision" [] (batch c rows) rb =
    precision_of argsort (Ok (rows, Z.of_nat c)) rb).
  { intros rows rb SM. unfold retrieval_impl, batch. cbn [String.eqb Ascii.eqb Bool.eqb kw_only forallb kw_k kw_ratio pget dget rbind].
    unfold precision. rewrite (proj1 (format_batch None None SM)). cbn [ratio_ok top_k]. auto. }
  assert (CB1 : check_binary (concat (map fst rows1)) = Ok tt).
  { apply check_binary_ok.
    - intros x I. apply in_concat in I as (y & I & J). apply in_map_iff in I as (r & <- & I). destruct (BIN _ I x J); lra.
    - destruct ANY as (r & I & J). apply in_concat. exists (fst r). split; auto. apply in_map; auto. }
  assert (Z2 : forall x, In x (concat (map fst rows2)) -> x = 0%R).
  { intros x I. apply in_concat in I as (y & I & J). apply in_map_iff in I as (r & <- & I). eauto. }
  assert (CB2 : check_binary (concat (map fst rows2)) = Err AssertionError).
  { pose proof (check_binary_spec (concat (map fst rows2))) as H.
    assert (NN : concat (map fst rows2) <> []).
    { destruct rows2 as [|r l]; [tauto|]. destruct (S2 r (or_introl eq_refl)) as [L _]. cbn. destruct (fst r); [cbn in L; lia|discriminate]. }
    destruct (check_binary (concat (map fst rows2))) as [[]|[]]; auto; try tauto; try congruence. destruct H as [I _]. apply Z2 in I. lra. }
  assert (CB3 : check_binary (concat (map fst (rows1 ++ rows2))) = Ok tt).
  { pose proof (check_binary_spec (concat (map fst rows1))) as H. rewrite CB1 in H. destruct H as [H1 H2].
    rewrite map_app, concat_app. apply check_binary_ok; [|apply in_or_app; auto].
    intros x I. apply in_app_or in I as [I|I]; auto. apply Z2 in I. lra. }
  assert (S3 : samples c (rows1 ++ rows2)) by (intros r I; apply in_app_or in I as [I|I]; auto).
  split; [|split].
  - unfold validate. rewrite V. cbn [rbind]. rewrite IMP by auto. unfold precision_of. cbn [rbind]. rewrite CB3. cbn [rbind pack]. eauto.
  - unfold validate_add_batch. rewrite V. cbn [rbind]. rewrite IMP by auto. unfold precision_of. cbn [rbind]. rewrite CB2. auto.
  - set (f := retrieval_impl argsort "precision" []) in *.
    assert (NU : numeric f) by (apply retrieval_numeric; cbn; auto).
    set (g := fun d => match f d true with Ok (MList l) => l | _ => [] end).
    assert (F : forall d, if accepts f d then f d true = Ok (MList (g d)) else exists x, f d true = Err x).
    { intros d. unfold accepts, g. destruct (NU d) as [(l & E)|(x & E)]; rewrite E; eauto. }
    rewrite (@C58_validate _ _ _ _ _ task confs index e f (accepts f) g _ N V F). cbn [val_batches].
    assert (A1 : accepts f (batch c rows1) = true).
    { unfold accepts. rewrite IMP by auto. unfold precision_of. cbn [rbind]. rewrite CB1. auto. }
    assert (A2 : accepts f (batch c rows2) = false).
    { unfold accepts. rewrite IMP by auto. unfold precision_of. cbn [rbind]. rewrite CB2. auto. }
    rewrite A1, A2. cbn [app current fst snd map concat]. rewrite app_nil_r. unfold g. unfold validate. rewrite V. cbn [rbind]. fold f.
    rewrite !IMP by auto. unfold precision_of. cbn [rbind]. rewrite CB1. cbn [rbind pack]. auto.
Qed.
