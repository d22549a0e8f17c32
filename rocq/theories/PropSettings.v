(** Properties C156 (method and n_points), C168: the settings of an evaluator and the metrics they reach. *)
From Coq Require Import String Reals Qreals Lra.
From Verif Require Import Num PyDict PyDictFacts ModelBase ModelConv ModelUtils RealFacts ModelMetrics SpecMetrics MetricFacts ModelEval SpecEval EvalFacts PropEval PropChecks.
Set Implicit Arguments.
Local Open Scope string_scope.
Local Open Scope list_scope.
Local Open Scope R_scope.

(** the setting [key] is absent, or given as this value *)
Definition given {A} (ps : params) (key : string) (inj : A -> pval) (o : option A) : Prop := dget key ps = option_map inj o.
(** only known settings are given *)
Definition known (task name : string) (ps : params) : Prop := forall x, In x ps -> In (fst x) (settings task name).
Definition default {A} (d : A) (o : option A) : A := match o with Some x => x | None => d end.

Lemma known_kw task name ps : known task name ps -> kw_only (settings task name) ps = true.
Proof.
  intros K. unfold kw_only. apply forallb_forall. intros x I. unfold str_in. apply existsb_exists. exists (fst x). split; [auto|]. apply String.eqb_refl.
Qed.
Lemma nofQ_R q : nofQ (T := R) q = Q2R q.
Proof. unfold nofQ, Q2R. cbn [nmul ninv nofZ Num_R Ext_R]. rewrite Rinv0_ne; [reflexivity|]. apply not_0_IZR. discriminate. Qed.
Lemma kw_values ps k q m n :
  given ps "k" PInt k -> given ps "ratio" PFloat q -> given ps "method" PStr m -> given ps "n_points" PInt n ->
  kw_k ps = Ok k /\ kw_ratio (T := R) ps = Ok (option_map Q2R q) /\ kw_method ps = Ok (default "pascal_voc" m) /\ kw_points ps = Ok (default 11%Z n).
Proof.
  unfold given, kw_k, kw_ratio, kw_method, kw_points, pget. intros -> -> -> ->.
  repeat split; [destruct k|destruct q|destruct m|destruct n]; cbn [option_map default]; auto. rewrite nofQ_R. auto.
Qed.

(** [validate] is the configured metric with the configured settings, and the documented defaults for the others *)
Theorem C168_retrieval : forall (argsort : list R -> list nat) (e : ev R (tensor R * tensor R)) confs index cf name ps k q m n (yt yp : tensor R),
  ev_new (retrieval_impl argsort) "retrieval" confs index = Ok e -> nth_error confs (Z.to_nat index) = Some cf -> conf_metric cf = Some (name, ps) ->
  known "retrieval" name ps -> given ps "k" PInt k -> given ps "ratio" PFloat q -> given ps "method" PStr m -> given ps "n_points" PInt n ->
  let r := option_map Q2R q in
  validate (yt, yp) e =
    (if String.eqb name "precision" then precision argsort yt yp k r false
     else if String.eqb name "recall" then recall argsort yt yp k r false
     else if String.eqb name "ndcg" then ndcg argsort yt yp k r false
     else if String.eqb name "mrr" then mrr argsort yt yp k r false
     else if String.eqb name "map" then map_score argsort yt yp k r (default "pascal_voc" m) false
     else pr_curve argsort yt yp k r (default "pascal_voc" m) (default 11%Z n) false).
Proof.
  intros argsort e confs index cf name ps k q m n yt yp N C CM K GK GQ GM GN r.
  destruct (ev_fn _ _ _ _ N C) as (name' & ps' & av & A & I & CM' & V). rewrite CM in CM'. injection CM' as <- <-. injection A as <-.
  destruct (kw_values GK GQ GM GN) as (EK & EQ & EM & EN). pose proof (known_kw K) as KW.
  unfold validate. rewrite V. cbn [rbind]. unfold retrieval_impl.
  repeat (destruct I as [<-|I]; [cbn [String.eqb Ascii.eqb Bool.eqb settings] in *; rewrite KW, EK, EQ; cbn [rbind];
    try (rewrite EM; cbn [rbind]); try (rewrite EN; cbn [rbind]); reflexivity|]). destruct I.
Qed.
Theorem C168_recommender : forall (argsort : list R -> list nat) (e : ev R (tensor R * tensor R)) confs index cf name ps k q (yt yp : tensor R),
  ev_new (recommender_impl argsort) "recommender" confs index = Ok e -> nth_error confs (Z.to_nat index) = Some cf -> conf_metric cf = Some (name, ps) ->
  known "recommender" name ps -> given ps "k" PInt k -> given ps "ratio" PFloat q ->
  let r := option_map Q2R q in
  validate (yt, yp) e =
    (if String.eqb name "precision" then precision_rc argsort yt yp k r false
     else if String.eqb name "recall" then recall_rc argsort yt yp k r false
     else ndcg_rc argsort yt yp k r false).
Proof.
  intros argsort e confs index cf name ps k q yt yp N C CM K GK GQ r.
  destruct (ev_fn _ _ _ _ N C) as (name' & ps' & av & A & I & CM' & V). rewrite CM in CM'. injection CM' as <- <-. injection A as <-.
  assert (EK : kw_k ps = Ok k) by (unfold kw_k, pget; rewrite GK; destruct k; auto).
  assert (EQ : kw_ratio (T := R) ps = Ok r) by (unfold kw_ratio, pget; rewrite GQ; unfold r; destruct q; cbn [option_map]; rewrite ?nofQ_R; auto).
  pose proof (known_kw K) as KW. unfold validate. rewrite V. cbn [rbind]. unfold recommender_impl.
  repeat (destruct I as [<-|I]; [cbn [String.eqb Ascii.eqb Bool.eqb settings] in *; rewrite KW, EK, EQ; reflexivity|]). destruct I.
Qed.
Theorem C168_classification : forall argmax f1 (e : ev R (list Z * preds (T := R))) confs index cf name ps a y p,
  ev_new (classification_impl argmax f1) "classification" confs index = Ok e -> nth_error confs (Z.to_nat index) = Some cf -> conf_metric cf = Some (name, ps) ->
  name <> "confusion_matrix" -> known "classification" name ps -> given ps "average" PStr a ->
  length y = length (match p with PLabels l => l | PScores rows => map argmax rows end) ->
  validate (y, p) e =
    rbind (if String.eqb name "accuracy" then accuracy argmax y p
           else f1 y (match p with PLabels l => l | PScores rows => map argmax rows end) (default "macro" a)) (fun x => Ok (MScal x)).
Proof.
  intros argmax f1 e confs index cf name ps a y p N C CM NM K GA L.
  destruct (ev_fn _ _ _ _ N C) as (name' & ps' & av & A & I & CM' & V). rewrite CM in CM'. injection CM' as <- <-. injection A as <-.
  pose proof (known_kw K) as KW. unfold validate. rewrite V. cbn [rbind]. unfold classification_impl.
  assert (FC : format_classes argmax y p = Ok (y, match p with PLabels l => l | PScores rows => map argmax rows end)).
  { unfold format_classes. apply Nat.eqb_eq in L. rewrite L. reflexivity. }
  destruct I as [<-|[<-|[<-|[]]]]; cbn [String.eqb Ascii.eqb Bool.eqb settings] in *; try tauto; rewrite KW.
  - reflexivity.
  - cbn [fst snd]. rewrite FC. cbn [rbind]. unfold pget. rewrite GA. destruct a; reflexivity.
Qed.
Example C168_case : exists e : ev R (tensor R * tensor R),
  let ps := [("k", PInt 3); ("method", PStr "legacy")] in
  ev_new (retrieval_impl (fun _ => [])) "retrieval" [CName "recall"; CDict [("map", ps)]] 1 = Ok e /\
  known "retrieval" "map" ps /\ given ps "k" PInt (Some 3%Z) /\ given ps "ratio" PFloat None /\ given ps "method" PStr (Some "legacy") /\
  given ps "n_points" PInt None.
Proof.
  eexists. split; [reflexivity|]. split; [|repeat split].
  intros x [<-|[<-|[]]]; cbn; auto.
Qed.

(** * C156: the settings method and n_points *)
(** a method that is not one of the two names *)
Theorem C156_method : forall (argsort : list R -> list nat) name ps k q (d : tensor R * tensor R) rb v,
  In name ["map"; "pr_curve"] -> known "retrieval" name ps -> given ps "k" PInt k -> given ps "ratio" PFloat q ->
  dget "method" ps = Some v -> v <> PStr "legacy" -> v <> PStr "pascal_voc" ->
  (exists n, given ps "n_points" PInt n) ->
  retrieval_impl (T := R) argsort name ps d rb = Err AssertionError.
Proof.
  intros argsort name ps k q [yt yp] rb v I K GK GQ GM N1 N2 (n & GN).
  assert (EK : kw_k ps = Ok k) by (unfold kw_k, pget; rewrite GK; destruct k; auto).
  assert (EQ : kw_ratio (T := R) ps = Ok (option_map Q2R q)) by (unfold kw_ratio, pget; rewrite GQ; destruct q; cbn [option_map]; rewrite ?nofQ_R; auto).
  assert (EN : kw_points ps = Ok (default 11%Z n)) by (unfold kw_points, pget; rewrite GN; destruct n; auto).
  assert (EM : kw_method ps = Err AssertionError \/ exists s, kw_method ps = Ok s /\ method_ok s = false).
  { unfold kw_method, pget. rewrite GM. destruct v; auto. right. eexists. split; eauto. unfold method_ok. apply orb_false_iff.
    split; apply String.eqb_neq; congruence. }
  pose proof (known_kw K) as KW. unfold retrieval_impl.
  destruct I as [<-|[<-|[]]]; cbn [String.eqb Ascii.eqb Bool.eqb settings] in *; rewrite KW, EK, EQ; cbn [rbind];
    (destruct EM as [EM|(s & EM & MO)]; rewrite EM; cbn [rbind]; auto); rewrite ?EN; cbn [rbind]; unfold map_score, pr_curve; rewrite MO; auto.
Qed.
(** text in place of the number of points, with data and other settings that are accepted *)
Theorem C156_points : forall (argsort : list R -> list nat) ps k q (d : tensor R * tensor R) rb t m,
  known "retrieval" "pr_curve" ps -> given ps "k" PInt k -> given ps "ratio" PFloat q -> given ps "method" PStr m ->
  In (default "pascal_voc" m) ["legacy"; "pascal_voc"] -> ~ bad_ratio (option_map Q2R q) ->
  (exists c rows, rows <> [] /\ samples c rows /\ d = (V2 c (map fst rows), V2 c (map snd rows))) ->
  dget "n_points" ps = Some (PStr t) -> retrieval_impl (T := R) argsort "pr_curve" ps d rb = Err TypeError.
Proof.
  intros argsort ps k q [yt yp] rb t m K GK GQ GM _ _ _ GN.
  assert (EK : kw_k ps = Ok k) by (unfold kw_k, pget; rewrite GK; destruct k; auto).
  assert (EQ : kw_ratio (T := R) ps = Ok (option_map Q2R q)) by (unfold kw_ratio, pget; rewrite GQ; destruct q; cbn [option_map]; rewrite ?nofQ_R; auto).
  assert (EN : kw_points ps = Err TypeError) by (unfold kw_points, pget; rewrite GN; auto).
  assert (EM : kw_method ps = Ok (default "pascal_voc" m)) by (unfold kw_method, pget; rewrite GM; destruct m; auto).
  pose proof (known_kw K) as KW. unfold retrieval_impl. cbn [String.eqb Ascii.eqb Bool.eqb settings] in *. rewrite KW, EK, EQ. cbn [rbind].
  rewrite EM. cbn [rbind]. rewrite EN. reflexivity.
Qed.
Example C156_settings_case :
  (let ps := [("method", PStr "voc"); ("k", PInt 2)] in known "retrieval" "map" ps /\ given ps "k" PInt (Some 2%Z) /\ dget "method" ps = Some (PStr "voc")) /\
  (let ps := [("n_points", PStr "11"); ("ratio", PFloat (1 # 2))] in known "retrieval" "pr_curve" ps /\ given ps "ratio" PFloat (Some (1 # 2)%Q) /\
    given ps "method" PStr None /\ dget "n_points" ps = Some (PStr "11") /\ ~ bad_ratio (Some (Q2R (1 # 2)))).
Proof.
  split; cbn zeta.
  - split; [|split; reflexivity]. intros x [<-|[<-|[]]]; cbn; auto.
  - split; [|split; [|split; [|split]]]; try reflexivity.
    + intros x [<-|[<-|[]]]; cbn; auto.
    + intros (r & E & B). injection E as <-. unfold Q2R in B. cbn in B. lra.
Qed.
