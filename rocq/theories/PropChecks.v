(** Properties C151, C156: inputs and settings that metrics refuse. *)
From Coq Require Import String Reals Lra.
From Verif Require Import Num PyDict PyDictFacts ModelBase ModelConv ModelUtils RealFacts ModelMetrics SpecMetrics MetricFacts ModelEval SpecEval EvalFacts PropEval.
Set Implicit Arguments.
Local Open Scope string_scope.
Local Open Scope list_scope.
Local Open Scope R_scope.

(** * C151: what the ranking metrics refuse *)
(** two tensors of equal shape; [VN] stands for those with another number of dimensions than one or two *)
Inductive same_shape : tensor R -> tensor R -> Prop :=
| same1 l l' : length l = length l' -> same_shape (V1 l) (V1 l')
| same2 c rows rows' : length rows = length rows' -> same_shape (V2 c rows) (V2 c rows')
| sameN s : same_shape (VN s) (VN s).
Definition proper (t : tensor R) : Prop := match t with VN s => length s <> 1%nat /\ length s <> 2%nat | _ => True end.
Definition high (t : tensor R) : Prop := exists s, t = VN s.
Definition bad_ratio (ratio : option R) : Prop := exists r, ratio = Some r /\ (r <= 0 \/ 1 < r).

(** the metrics on batches, and those on one sample *)
Definition batch_metrics (argsort : list R -> list nat) (yt yp : tensor R) k ratio rb : list (res (mout R)) :=
  [precision argsort yt yp k ratio rb; recall argsort yt yp k ratio rb; ndcg argsort yt yp k ratio rb; mrr argsort yt yp k ratio rb].
Definition named_metrics (argsort : list R -> list nat) (yt yp : tensor R) k ratio method n rb : list (res (mout R)) :=
  [map_score argsort yt yp k ratio method rb; pr_curve argsort yt yp k ratio method n rb].
Definition rc_metrics (argsort : list R -> list nat) (yt yp : tensor R) k ratio rb : list (res (mout R)) :=
  [precision_rc argsort yt yp k ratio rb; recall_rc argsort yt yp k ratio rb; ndcg_rc argsort yt yp k ratio rb].

Lemma shape_same yt yp : proper yt -> proper yp -> shape yt = shape yp -> same_shape yt yp.
Proof.
  intros P Q E. destruct yt as [l|c rows|sh], yp as [l'|c' rows'|sh']; cbn in P, Q, E; try discriminate E.
  - injection E as E. constructor. exact E.
  - subst sh'. cbn in Q. lia.
  - injection E as E1 E2. subst c'. constructor. exact E1.
  - subst sh'. cbn in Q. lia.
  - subst sh. cbn in P. lia.
  - subst sh. cbn in P. lia.
  - subst sh'. constructor.
Qed.
Lemma format_shape yt yp k ratio : proper yt -> proper yp -> ~ same_shape yt yp \/ high yt ->
  format_inputs yt yp k ratio = Err AssertionError /\ format_inputs_rc yt yp k ratio = Err AssertionError.
Proof.
  intros P Q B. unfold format_inputs, format_inputs_rc. destruct (eqb (shape yt) (shape yp)) eqn:E; cbn [negb]; auto.
  apply eqb_eq in E. destruct B as [B|[s ->]]; auto. exfalso. apply B, shape_same; auto.
Qed.
Lemma format_ratio (yt yp : tensor R) k (ratio : option R) : bad_ratio ratio -> format_inputs yt yp k ratio = Err AssertionError.
Proof.
  intros (r & -> & B). unfold format_inputs. destruct (eqb _ _); cbn [negb]; auto. destruct (dim12 yt); cbn [negb]; auto.
  replace (ratio_ok (Some r)) with false; auto. cbn [ratio_ok]. unfold nltb. cbn [nleb Ext_R nz n1 Num_R].
  destruct (Rle_dec r 0), (Rle_dec r 1); cbn; auto. exfalso. lra.
Qed.

Theorem C151_shape : forall (argsort : list R -> list nat) (yt yp : tensor R) k (ratio : option R) rb method n,
  proper yt -> proper yp -> ~ same_shape yt yp \/ high yt ->
  Forall (fun r => r = Err AssertionError) (batch_metrics argsort yt yp k ratio rb ++ named_metrics argsort yt yp k ratio method n rb ++ rc_metrics argsort yt yp k ratio rb).
Proof.
  intros argsort yt yp k ratio rb method n P Q B. destruct (format_shape k ratio P Q B) as [E F].
  unfold batch_metrics, named_metrics, rc_metrics, precision, recall, ndcg, mrr, map_score, pr_curve, precision_rc, recall_rc, ndcg_rc.
  rewrite E, F. cbn [rbind precision_of recall_of ndcg_of app]. destruct (method_ok method); cbn [negb]; repeat (constructor; [reflexivity|]); constructor.
Qed.
Theorem C151_ratio : forall (argsort : list R -> list nat) (yt yp : tensor R) k (ratio : option R) rb method n, bad_ratio ratio ->
  Forall (fun r => r = Err AssertionError) (batch_metrics argsort yt yp k ratio rb ++ named_metrics argsort yt yp k ratio method n rb) /\
  ap argsort yt yp k ratio method = Err AssertionError.
Proof.
  intros argsort yt yp k ratio rb method n B. pose proof (@format_ratio yt yp k ratio B) as E. split.
  - unfold batch_metrics, named_metrics, precision, recall, ndcg, mrr, map_score, pr_curve.
    rewrite E. cbn [rbind precision_of recall_of ndcg_of app]. destruct (method_ok method); cbn [negb]; repeat (constructor; [reflexivity|]); constructor.
  - unfold ap. destruct B as (r & -> & B). replace (ratio_ok (Some r)) with false; auto. cbn [ratio_ok]. unfold nltb. cbn [nleb Ext_R nz n1 Num_R].
    destruct (Rle_dec r 0), (Rle_dec r 1); cbn; auto. exfalso. lra.
Qed.
Theorem C151_method : forall (argsort : list R -> list nat) (yt yp : tensor R) k (ratio : option R) method n rb, method <> "legacy" -> method <> "pascal_voc" ->
  Forall (fun r => r = Err AssertionError) (named_metrics argsort yt yp k ratio method n rb) /\
  ap argsort yt yp k ratio method = Err AssertionError.
Proof.
  intros argsort yt yp k ratio method n rb A B. assert (E : method_ok method = false).
  { unfold method_ok. apply orb_false_iff. split; apply String.eqb_neq; auto. }
  split.
  - unfold named_metrics, map_score, pr_curve. rewrite E. repeat (constructor; [reflexivity|]). constructor.
  - unfold ap. rewrite E. destruct (ratio_ok ratio); reflexivity.
Qed.
(** ap and rr are for one sample: everything but two vectors of equal length is refused *)
Theorem C151_one_sample : forall (argsort : list R -> list nat) (yt yp : tensor R) k (ratio : option R) method,
  (forall y p, yt = V1 y -> yp = V1 p -> length y <> length p) ->
  ap argsort yt yp k ratio method = Err AssertionError /\ rr argsort yt yp k ratio = Err AssertionError.
Proof.
  intros argsort yt yp k ratio method B. unfold ap, rr. split.
  - destruct (ratio_ok ratio); cbn [negb]; auto. destruct (method_ok method); cbn [negb]; auto.
    destruct (eqb (shape yt) (shape yp)) eqn:E; cbn [negb]; auto. apply eqb_eq in E.
    destruct yt, yp; cbn [is1]; auto. cbn in E. injection E as E. destruct (B _ _ eq_refl eq_refl E).
  - destruct (eqb (shape yt) (shape yp)) eqn:E; cbn [negb]; auto. apply eqb_eq in E.
    destruct yt, yp; cbn [is1]; auto. cbn in E. injection E as E. destruct (B _ _ eq_refl eq_refl E).
Qed.
(** everything else is answered: ndcg, mrr and map refuse nothing but the above, whatever labels, scores and k are *)
Theorem C151_accepted : forall (argsort : list R -> list nat) c (rows : list (list R * list R)) k (ratio : option R) rb method,
  (forall r, In r rows -> length (fst r) = c /\ length (snd r) = c) -> ~ bad_ratio ratio -> method = "legacy" \/ method = "pascal_voc" ->
  let yt := V2 c (map fst rows) in let yp := V2 c (map snd rows) in
  (exists x, ndcg argsort yt yp k ratio rb = Ok x) /\ (exists x, mrr argsort yt yp k ratio rb = Ok x) /\
  (exists x, map_score argsort yt yp k ratio method rb = Ok x).
Proof.
  intros argsort c rows k ratio rb method L B M yt yp.
  assert (RO : ratio_ok ratio = true).
  { destruct ratio as [r|]; auto. cbn [ratio_ok]. unfold nltb. cbn [nleb Ext_R nz n1 Num_R].
    destruct (Rle_dec r 0) as [Y|Y]; [exfalso; apply B; exists r; auto|].
    destruct (Rle_dec r 1) as [Y2|Y2]; cbn; auto. exfalso. apply B. exists r. split; auto. right. lra. }
  assert (F : exists kk, format_inputs yt yp k ratio = Ok (rows, kk)).
  { unfold format_inputs, yt, yp. cbn [shape dim12 rows_of cols_of]. rewrite !map_length.
    replace (eqb _ _) with true by (symmetry; apply eqb_eq; auto). rewrite RO. cbn [negb]. eexists. do 2 f_equal.
    clear. induction rows as [|[a b] l IH]; cbn; f_equal; auto. }
  destruct F as [kk F]. unfold ndcg, mrr, map_score, ndcg_of. rewrite F. cbn [rbind].
  assert (MO : method_ok method = true) by (destruct M as [-> | ->]; reflexivity). rewrite MO. cbn [negb].
  split; [eauto|]. split.
  - assert (Q : exists l, map_res (fun r : list R * list R => rr argsort (V1 (fst r)) (V1 (snd r)) (Some kk) None) rows = Ok l).
    { clear F. revert L. induction rows as [|r l IH]; intros L; cbn [map_res]; eauto.
      destruct (L r (or_introl eq_refl)) as [L1 L2]. unfold rr at 1. cbn [shape is1].
      replace (eqb _ _) with true by (symmetry; apply eqb_eq; rewrite L1, L2; auto). cbn [negb rbind].
      destruct IH as [x ->]; [intros; apply L; right; auto|]. cbn. eauto. }
    destruct Q as [l ->]. cbn. eauto.
  - assert (Q : exists l, map_res (fun r : list R * list R => ap argsort (V1 (fst r)) (V1 (snd r)) (Some kk) None method) rows = Ok l).
    { clear F. revert L. induction rows as [|r l IH]; intros L; cbn [map_res]; eauto.
      destruct (L r (or_introl eq_refl)) as [L1 L2]. unfold ap at 1. cbn [shape is1 ratio_ok negb]. rewrite MO. cbn [negb].
      replace (eqb _ _) with true by (symmetry; apply eqb_eq; rewrite L1, L2; auto). cbn [negb rbind].
      destruct IH as [x ->]; [intros; apply L; right; auto|]. cbn. eauto. }
    destruct Q as [l ->]. cbn. eauto.
Qed.
Example C151_case : proper (V1 [1]) /\ proper (V2 1 [[1]]) /\ ~ same_shape (V1 [1]) (V2 1 [[1]]) /\ proper (VN [2; 2; 2]%nat) /\ high (VN [2; 2; 2]%nat) /\
  bad_ratio (Some 2) /\ bad_ratio (Some 0) /\ ~ bad_ratio (Some 1) /\
  (forall r, In r [([1; 0], [1; 2]); ([0; 0], [3; 1])] -> length (fst r) = 2%nat /\ length (snd r) = 2%nat).
Proof.
  split; [exact I|]. split; [exact I|]. split; [intros X; inversion X|]. split; [cbn; lia|]. split; [eexists; eauto|].
  split; [exists 2; split; auto; lra|]. split; [exists 0; split; auto; lra|].
  split; [intros (r & [= <-] & [X|X]); lra|]. intros r [<-|[<-|[]]]; auto.
Qed.

(** * C156: settings of an evaluator are looked at when a metric is computed *)
(** the settings that a metric knows, besides ret_batch *)
Definition settings (task name : string) : list string :=
  if String.eqb task "classification" then (if String.eqb name "f1_score" then ["average"] else [])
  else if String.eqb task "recommender" then ["k"; "ratio"]
  else if String.eqb name "map" then ["k"; "ratio"; "method"]
  else if String.eqb name "pr_curve" then ["k"; "ratio"; "method"; "n_points"]
  else ["k"; "ratio"].
Definition unknown_setting (task name : string) (ps : params) : Prop := exists x, In x ps /\ ~ In (fst x) ("ret_batch" :: settings task name).

Lemma kw_only_unknown l ps : (exists x, In x ps /\ ~ In (fst x) l) -> kw_only l ps = false.
Proof.
  intros (x & I & NI). destruct (kw_only l ps) eqn:E; auto. exfalso. unfold kw_only in E. rewrite forallb_forall in E. specialize (E _ I).
  unfold str_in in E. apply existsb_exists in E as (y & J & Y). apply String.eqb_eq in Y. rewrite Y in NI. contradiction.
Qed.
Lemma impl_unknown {T} {NT : Num T} {ET : Ext T} (argsort : list T -> list nat) name ps d rb :
  (In name ["precision"; "recall"; "map"; "ndcg"; "mrr"; "pr_curve"] -> unknown_setting "retrieval" name ps -> retrieval_impl (T := T) argsort name ps d rb = Err TypeError) /\
  (In name ["precision"; "recall"; "ndcg"] -> unknown_setting "recommender" name ps -> recommender_impl (T := T) argsort name ps d rb = Err TypeError).
Proof.
  unfold unknown_setting, settings. split; intros I (x & J & NJ); destruct d as [yt yp].
  - assert (K : forall l, (forall z, In z l -> In z ("ret_batch" :: (if String.eqb name "map" then ["k"; "ratio"; "method"] else if String.eqb name "pr_curve" then ["k"; "ratio"; "method"; "n_points"] else ["k"; "ratio"]))) -> kw_only l ps = false).
    { intros l S. apply kw_only_unknown. exists x. split; auto. }
    unfold retrieval_impl. repeat (destruct I as [<-|I]; [cbn [String.eqb Ascii.eqb Bool.eqb] in *; rewrite K by (intros; right; auto); reflexivity|]). destruct I.
  - assert (K : kw_only ["k"; "ratio"] ps = false). { apply kw_only_unknown. exists x. split; auto. intros F. apply NJ. right. exact F. }
    unfold recommender_impl. repeat (destruct I as [<-|I]; [cbn [String.eqb Ascii.eqb Bool.eqb]; rewrite K; reflexivity|]). destruct I.
Qed.
Lemma classif_unknown {T} {NT : Num T} {ET : Ext T} argmax f1 name ps d :
  In name ["accuracy"; "f1_score"] -> unknown_setting "classification" name ps -> classification_impl (T := T) argmax f1 name ps d false = Err TypeError.
Proof.
  intros I (x & J & NJ). unfold classification_impl. destruct I as [<-|[<-|[]]]; cbn [String.eqb Ascii.eqb Bool.eqb settings] in *.
  - rewrite (@kw_only_unknown []) by (exists x; split; auto; intros []). reflexivity.
  - rewrite (@kw_only_unknown ["average"]) by (exists x; split; auto; intros F; apply NJ; right; exact F). reflexivity.
Qed.
(** an evaluator is built with settings that no metric knows; every use of that metric then raises TypeError, and records nothing *)
Theorem C156_ranking : forall (T : Type) (NT : Num T) (ET : Ext T) (argsort : list T -> list nat) (e e' : ev T (tensor T * tensor T)) confs index name ps d,
  nth_error confs (Z.to_nat index) = Some (CDict [(name, ps)]) ->
  (ev_new (retrieval_impl argsort) "retrieval" confs index = Ok e -> unknown_setting "retrieval" name ps ->
     validate d e = Err TypeError /\ validate_add_batch d e = (e, Err TypeError)) /\
  (ev_new (recommender_impl argsort) "recommender" confs index = Ok e' -> unknown_setting "recommender" name ps ->
     validate d e' = Err TypeError /\ validate_add_batch d e' = (e', Err TypeError)).
Proof.
  intros T NT ET argsort e e' confs index name ps d C. split; intros N U.
  - destruct (ev_fn _ _ _ _ N C) as (name' & ps' & av & A & I & CM & V). injection CM as <- <-. injection A as <-.
    unfold validate, validate_add_batch. rewrite V. cbn [rbind]. rewrite !(fun d rb => proj1 (impl_unknown argsort name ps d rb) I U). auto.
  - destruct (ev_fn _ _ _ _ N C) as (name' & ps' & av & A & I & CM & V). injection CM as <- <-. injection A as <-.
    unfold validate, validate_add_batch. rewrite V. cbn [rbind]. rewrite !(fun d rb => proj2 (impl_unknown argsort name ps d rb) I U). auto.
Qed.
Theorem C156_classification : forall (T : Type) (NT : Num T) (ET : Ext T) argmax f1 (e : ev T (list Z * preds (T := T))) confs index name ps d,
  nth_error confs (Z.to_nat index) = Some (CDict [(name, ps)]) -> name <> "confusion_matrix" ->
  ev_new (classification_impl argmax f1) "classification" confs index = Ok e -> unknown_setting "classification" name ps -> validate d e = Err TypeError.
Proof.
  intros T NT ET argmax f1 e confs index name ps d C NM N U.
  destruct (ev_fn _ _ _ _ N C) as (name' & ps' & av & A & I & CM & V). injection CM as <- <-. injection A as <-.
  unfold validate. rewrite V. cbn [rbind]. apply classif_unknown; auto. destruct I as [<-|[<-|[<-|[]]]]; cbn; auto.
Qed.
(** text in place of a number: refused with TypeError on data of equal shapes *)
Theorem C156_text : forall (argsort : list R -> list nat) name ps (yt yp : tensor R) rb t,
  In name ["precision"; "recall"; "map"; "ndcg"; "mrr"; "pr_curve"] -> same_shape yt yp -> ~ high yt -> ~ unknown_setting "retrieval" name ps ->
  ~ In "ret_batch" (map fst ps) ->
  dget "ratio" ps = Some (PStr t) \/ dget "k" ps = Some (PStr t) /\ dget "ratio" ps = None ->
  retrieval_impl (T := R) argsort name ps (yt, yp) rb = Err TypeError.
Proof.
  intros argsort name ps yt yp rb t I _ _ U NR E.
  assert (K : forall l, l = settings "retrieval" name -> kw_only l ps = true).
  { intros l ->. unfold kw_only. apply forallb_forall. intros x J. destruct (str_in (fst x) (settings "retrieval" name)) eqn:S; auto. exfalso. apply U.
    exists x. split; auto. intros [F|F].
    - apply NR. rewrite F. apply in_map, J.
    - assert (str_in (fst x) (settings "retrieval" name) = true); [|congruence]. unfold str_in. apply existsb_exists. exists (fst x). split; auto. apply String.eqb_refl. }
  assert (KR : (exists k, kw_k ps = Ok k) /\ kw_ratio (T := R) ps = Err TypeError \/ kw_k ps = Err TypeError).
  { unfold kw_k, kw_ratio, pget. destruct E as [E|[E _]]; rewrite E; auto. destruct (dget "k" ps) as [[]|]; eauto. }
  unfold retrieval_impl. repeat (destruct I as [<-|I]; [cbn [String.eqb Ascii.eqb Bool.eqb]; rewrite K by reflexivity; destruct KR as [[(k & ->) ->]| ->]; reflexivity|]). destruct I.
Qed.
Example C156_case : exists e : ev R (tensor R * tensor R),
  ev_new (retrieval_impl (fun _ => [])) "retrieval" [CName "recall"; CDict [("precision", [("topk", PInt 3)])]] 1 = Ok e /\
  unknown_setting "retrieval" "precision" [("topk", PInt 3)] /\ ~ unknown_setting "retrieval" "map" [("k", PStr "five"); ("method", PStr "pascal_voc")].
Proof.
  eexists. split; [reflexivity|]. split.
  - exists ("topk", PInt 3). split; [left; auto|]. cbn. intros [F|[F|[F|[]]]]; discriminate.
  - intros (x & I & NI). destruct I as [<-|[<-|[]]]; apply NI; cbn; auto 6.
Qed.
