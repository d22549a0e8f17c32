(** Properties C59, C60, C109, C112: markers, classification metrics, curves as validation metric. *)
From Coq Require Import String Ascii Reals Lra Permutation Sorted QArith.
From Verif Require Import Num PyDict PyDictFacts ModelBase ModelConv ModelUtils UtilFacts RealFacts ModelMetrics ModelEval.
From Verif Require Import SpecMetrics SpecEval MetricFacts RankFacts EvalFacts MarkerFacts PropMetrics PropEval.
Set Implicit Arguments.
Local Open Scope string_scope.
Local Open Scope list_scope.
Local Open Scope Z_scope.

(** * C59: markers *)
(** two configurations with identifiers as names and integers, identifiers or floats as values get different markers, unless they are
    equal up to floats at most 1/10000 apart (see C109) *)
Theorem C59_distinct : forall av c1 c2 m1 m2, plain_config c1 -> plain_config c2 ->
  format_one av c1 = Ok m1 -> format_one av c2 = Ok m2 -> fst m1 = fst m2 -> close_config c1 c2.
Proof.
  intros av c1 c2 m1 m2 P1 P2 F1 F2 E.
  destruct c1 as [s|[|[s ps] [|]]|]; cbn [plain_config] in P1; try tauto; destruct c2 as [t|[|[t qs] [|]]|]; cbn [plain_config] in P2; try tauto;
    cbn [format_one] in F1, F2; (destruct (str_in s av); [|discriminate]); (destruct (str_in t av); [|discriminate]); injection F1 as <-; injection F2 as <-;
    cbn [fst] in E; cbn [close_config]; auto.
  - exfalso. eapply (marker_not_name t qs P1). auto.
  - exfalso. eapply (marker_not_name s ps P2). auto.
  - apply marker_inj; tauto.
Qed.
Lemma Forall2_nth {A B} (Q : A -> B -> Prop) l m : Forall2 Q l m -> forall i, match nth_error l i, nth_error m i with
  | Some a, Some b => Q a b | None, None => True | _, _ => False end.
Proof. induction 1 as [|a b l m H F IH]; intros [|i]; cbn; auto. apply IH. Qed.
Lemma NoDup_nth_error' {A} (l : list A) : (forall i j a, (i < j)%nat -> nth_error l i = Some a -> nth_error l j = Some a -> False) -> NoDup l.
Proof.
  induction l as [|x l IH]; intros H; constructor.
  - intros I. apply In_nth_error in I as (j & J). apply (H 0%nat (S j) x); auto. lia.
  - apply IH. intros i j a L I J. apply (H (S i) (S j) a); auto. lia.
Qed.
(** one slot per configuration, in order, with the configured name and parameters; the slots are distinct if no two configurations are
    close.  Otherwise the first bad configuration decides the exception. *)
Theorem C59_slots : forall task cs,
  match format_metric_configs task cs with
  | Ok ms =>
      exists av, available task = Ok av /\
      Forall2 (fun c m => conf_metric c = Some (snd m) /\ In (fst (snd m)) av /\ (forall s, c = CName s -> fst m = s)) cs ms /\
      ((forall c, In c cs -> plain_config c) ->
       (forall i j c1 c2, (i < j)%nat -> nth_error cs i = Some c1 -> nth_error cs j = Some c2 -> ~ close_config c1 c2) -> NoDup (map fst ms))
  | Err x =>
      available task = Err x /\ x = ValueError \/
      exists av pre c post, available task = Ok av /\ cs = pre ++ c :: post /\
        (forall c', In c' pre -> exists s ps, conf_metric c' = Some (s, ps) /\ In s av) /\
        (c = CBad /\ x = ValueError \/ c <> CBad /\ x = AssertionError /\ forall s ps, conf_metric c = Some (s, ps) -> ~ In s av)
  end.
Proof.
  intros task cs. unfold format_metric_configs. destruct (available task) as [av|x] eqn:AV; cbn [rbind].
  2: { left. split; auto. unfold available in AV. destruct (String.eqb _ _); [discriminate|]. destruct (String.eqb _ _); [discriminate|].
       destruct (String.eqb _ _); [discriminate|]. injection AV; auto. }
  assert (SI : forall s, str_in s av = true <-> In s av).
  { intros s. unfold str_in. rewrite existsb_exists. split; [intros (y & I & E); apply String.eqb_eq in E as ->; auto|].
    intros I. exists s. split; auto. apply String.eqb_refl. }
  destruct (map_res (format_one av) cs) as [ms|x] eqn:E.
  - apply map_res_inv in E. exists av. split; auto. split.
    + clear - E. induction E as [|c m cs ms F E IH]; constructor; auto. destruct (format_conf _ _ F) as [A B]. split; auto. split; auto.
      intros s ->. cbn in F. destruct (str_in s av); [|discriminate]. injection F as <-. auto.
    + intros P D. apply NoDup_nth_error'. intros i j mk L I J. rewrite nth_error_map in I, J.
      pose proof (Forall2_nth E i) as A. pose proof (Forall2_nth E j) as B.
      destruct (nth_error ms i) as [m1|] eqn:I1; [|discriminate]. destruct (nth_error ms j) as [m2|] eqn:J1; [|discriminate].
      destruct (nth_error cs i) as [c1|] eqn:C1; [|tauto]. destruct (nth_error cs j) as [c2|] eqn:C2; [|tauto].
      apply (D i j c1 c2); auto. eapply C59_distinct; eauto; [apply P; eapply nth_error_In; eauto..|]. cbn in I, J. congruence.
  - right. exists av. revert x E. induction cs as [|c cs IH]; cbn [map_res]; intros x E; [discriminate|].
    destruct (format_one av c) as [m|y] eqn:F; cbn [rbind] in E.
    + destruct (map_res (format_one av) cs) as [ms|y] eqn:M; [discriminate|]. cbn [rbind] in E. injection E as <-.
      destruct (IH y eq_refl) as (pre & c' & post & A & -> & PR & B). exists (c :: pre), c', post. split; auto. split; auto. split; auto.
      destruct (format_conf _ _ F) as [F1 F2]. destruct m as [mk [s ps]]. cbn [fst snd] in *. intros c0 [<-|I]; eauto.
    + injection E as <-. exists [], c, cs. split; auto. split; auto. split; [intros c' []|].
      assert (NI : forall s, str_in s av = false -> ~ In s av) by (intros s H I; apply SI in I; congruence).
      destruct c as [s|[|[s ps] [|]]|]; cbn in F; [| | | |left]; try (destruct (str_in s av) eqn:K; [discriminate|]); injection F as <-; try (right; split; [discriminate|split; [auto|]]; cbn [conf_metric]; intros s' ps' H; try discriminate; injection H as <- <-; auto); auto.
Qed.
(** [test] on an evaluator whose markers are distinct returns the value of every metric under its marker, in the order of configuration *)
Theorem C59_test : forall (T : Type) (NT : Num T) (ET : Ext T) (D : Type) impl task confs index (e : ev T D) ms d outs,
  ev_new impl task confs index = Ok e -> format_metric_configs task confs = Ok ms -> NoDup (map fst ms) ->
  Forall2 (fun m o => impl (fst (snd m)) (snd (snd m)) d false = Ok o) ms outs ->
  test d e = Ok (combine (map fst ms) outs).
Proof.
  intros T NT ET D impl task confs index e ms d outs N F ND O. destruct (ev_new_state _ _ _ _ N) as (_ & _ & _ & _ & _ & _ & ms' & F' & FN).
  rewrite F in F'. injection F' as <-. unfold test. rewrite FN. clear - ND O.
  assert (E : map_res (fun m => rbind (snd m d false) (fun o => Ok (fst m, o))) (map (fun m => (fst m, impl (fst (snd m)) (snd (snd m)))) ms) =
              Ok (combine (map fst ms) outs)).
  { clear ND. induction O as [|m o ms outs E O IH]; cbn [map map_res combine]; auto. cbn [fst snd]. rewrite E. cbn [rbind]. rewrite IH. auto. }
  rewrite E. cbn [rbind]. f_equal. clear E.
  assert (K : map fst (combine (map fst ms) outs) = map fst ms).
  { clear ND. induction O as [|m o ms outs E O IH]; cbn; auto. rewrite IH; auto. }
  rewrite <- K in ND. set (l := combine (map fst ms) outs) in *. clearbody l. clear - ND.
  assert (G : forall acc : dict string (mout T), NoDup (map fst (acc ++ l)) -> fold_left (fun acc no => dset (fst no) (snd no) acc) l acc = acc ++ l).
  { clear ND. induction l as [|[k o] l IH]; intros acc ND; cbn [fold_left fst snd]; [rewrite app_nil_r; auto|].
    assert (KA : ~ In k (dkeys acc)).
    { rewrite map_app in ND. cbn [map fst] in ND. apply NoDup_remove_2 in ND. intros I. apply ND. apply in_or_app. left. exact I. }
    replace (dset k o acc) with (acc ++ [(k, o)]).
    - rewrite IH; rewrite <- app_assoc; auto.
    - rewrite <- (app_nil_r acc) at 2. rewrite dset_skip; auto. }
  apply G. auto.
Qed.

(** * C109: floats are cut to four decimals, and other types are not distinguished *)
(** two configurations with the same marker share one slot: [test] returns one entry, the second metric's; the epoch result is the mean
    over the values of both metrics *)
Theorem C109_shared_slot_actual : forall (T : Type) (NT : Num T) (ET : Ext T) (D : Type) (e : ev T D) m f1 f2 (g1 g2 : D -> list (fl T)) o1 o2 d ds,
  ev_fns e = [(m, f1); (m, f2)] -> ev_test e = [] -> ev_last e = [] ->
  (forall d, f1 d true = Ok (MList (g1 d)) /\ f2 d true = Ok (MList (g2 d))) -> f1 d false = Ok o1 -> f2 d false = Ok o2 ->
  test d e = Ok [(m, o2)] /\
  snd (test_epoch_res (ev_run (map ETestAdd (d :: ds)) e)) = Ok [(m, OScal (fmean (concat (map (fun d => g1 d ++ g2 d) (d :: ds)))))].
Proof.
  intros T NT ET D e m f1 f2 g1 g2 o1 o2 d ds FN S L G O1 O2. split.
  { unfold test. rewrite FN. cbn [map_res fst snd]. rewrite O1. cbn [rbind]. rewrite O2. cbn [rbind fold_left fst snd dset]. rewrite eqb_refl. auto. }
  set (it := fun g : D -> list (fl T) => fun d => IArr 1 (map (fun x => [x]) (g d))).
  assert (RUN : forall ds e done, ev_fns e = [(m, f1); (m, f2)] -> ev_test e = match done with [] => [] | _ => [(m, done)] end -> ev_last e = [] ->
    let e' := ev_run (map ETestAdd ds) e in
    ev_last e' = [] /\ ev_test e' = match done ++ concat (map (fun d => [it g1 d; it g2 d]) ds) with [] => [] | l => [(m, l)] end).
  { clear - G. induction ds as [|d ds IH]; intros e done FN S L; cbn [map ev_run fold_left concat]; [rewrite app_nil_r; split; [auto|rewrite S; destruct done; auto]|].
    destruct (G d) as [G1 G2].
    assert (ST : ev_step (ETestAdd d) e = set_test e [(m, done ++ [it g1 d; it g2 d])]).
    { cbn [ev_step]. unfold test_add_batch. rewrite FN. cbn [add_all]. rewrite G1. cbn [rbind].
      assert (TG : tget m (ev_test e) = done) by (rewrite S; destruct done; unfold tget; cbn [dget]; rewrite ?eqb_refl; auto).
      rewrite TG. cbn [add_result rbind]. rewrite G2. cbn [rbind].
      assert (DS : forall l, dset m l (ev_test e) = [(m, l)]) by (intros l; rewrite S; destruct done; cbn [dset]; rewrite ?eqb_refl; auto).
      rewrite DS. unfold tget. cbn [dget]. rewrite eqb_refl. cbn [add_result dset]. rewrite eqb_refl. cbn [fst]. rewrite <- app_assoc. auto. }
    rewrite ST. destruct (IH (set_test e [(m, done ++ [it g1 d; it g2 d])]) (done ++ [it g1 d; it g2 d])) as [A B]; auto.
    - cbn [set_test ev_test]. destruct done; auto.
    - split; [exact A|]. etransitivity; [exact B|]. rewrite <- app_assoc. auto. }
  destruct (RUN (d :: ds) e [] FN S L) as [A B]. unfold test_epoch_res. rewrite A, B. cbn [app map concat].
  assert (SU : summarise (it g1 d :: it g2 d :: concat (map (fun d => [it g1 d; it g2 d]) ds)) = Ok (OScal (fmean (concat (map (fun d => g1 d ++ g2 d) (d :: ds)))))).
  { change (it g1 d :: it g2 d :: concat (map (fun d => [it g1 d; it g2 d]) ds)) with (concat (map (fun d => [it g1 d; it g2 d]) (d :: ds))).
    set (l := d :: ds). assert (NE : l <> []) by discriminate. clearbody l. clear - NE.
    assert (M : map_res (fun i => match i with IArr w rows => Ok (w, rows) | ILst _ => Err ValueError end) (concat (map (fun d => [it g1 d; it g2 d]) l)) =
      Ok (map (fun r => (1%nat, r)) (concat (map (fun d => [map (fun x => [x]) (g1 d); map (fun x => [x]) (g2 d)]) l)))).
    { clear NE. induction l as [|d l IH]; auto. cbn [map concat app map_res it rbind]. rewrite IH. auto. }
    assert (SL : forall L w r tl, L = IArr w r :: tl -> summarise L =
      rbind (map_res (fun i => match i with IArr w rows => Ok (w, rows) | ILst _ => Err ValueError end) L) (fun l => rbind (vstack2 l) (fun '(w, rows) => Ok (squeeze (mean0 (A2 w rows)))))).
    { intros L w r tl ->. reflexivity. }
    destruct l as [|d l]; [tauto|]. rewrite (SL (concat (map (fun d => [it g1 d; it g2 d]) (d :: l))) 1%nat (map (fun x => [x]) (g1 d)) (it g2 d :: concat (map (fun d => [it g1 d; it g2 d]) l)) eq_refl).
    rewrite M. cbn [rbind].
    assert (CC : forall l, concat (concat (map (fun d => [map (fun x => [x]) (g1 d); map (fun x => [x]) (g2 d)]) l)) = map (fun x => [x]) (concat (map (fun d => g1 d ++ g2 d) l))).
    { clear. induction l as [|d l IH]; auto. cbn [map concat app]. rewrite IH, !map_app, app_assoc. auto. }
    rewrite vstack2_same by discriminate. cbn [rbind]. rewrite CC. set (z := concat (map (fun d => g1 d ++ g2 d) (d :: l))). clearbody z.
    cbn [mean0 seq map squeeze]. rewrite col_column. auto. }
  cbn [summarise_all]. rewrite SU. cbn [summarise_all dset snd]. reflexivity.
Qed.
(** floats that agree in sign and in the nearest multiple of 1/10000 give the same marker *)
Theorem C109_floats_actual : forall name k q1 q2, Qle_bool 0 q1 = Qle_bool 0 q2 ->
  round_even (Qabs.Qabs q1 * 10000) = round_even (Qabs.Qabs q2 * 10000) ->
  forall av m1 m2, format_one av (CDict [(name, [(k, PFloat q1)])]) = Ok m1 -> format_one av (CDict [(name, [(k, PFloat q2)])]) = Ok m2 -> fst m1 = fst m2.
Proof.
  intros name k q1 q2 S R av m1 m2. cbn [format_one]. destruct (str_in name av); [|discriminate]. intros E1 E2. injection E1 as <-. injection E2 as <-.
  cbn [fst]. unfold marker_of. f_equal. f_equal. unfold show_item. cbn [map fst snd show_val join]. f_equal. f_equal. unfold str_float. rewrite S, R. auto.
Qed.
(** for example ratio 0.1 and ratio 0.10001 of ten items: depths 1 and 2, one marker *)
Theorem C109_collision_refuted :
  let c1 := CDict [("precision", [("ratio", PFloat (1 # 10))])] in
  let c2 := CDict [("precision", [("ratio", PFloat (10001 # 100000))])] in
  (exists m1 m2, format_metric_configs "retrieval" [c1; c2] = Ok [m1; m2] /\ fst m1 = fst m2 /\ snd m1 <> snd m2) /\
  depth 10 None (Some (1 / 10)%R) 1 /\ depth 10 None (Some (10001 / 100000)%R) 2.
Proof.
  split; [|cbn; lra]. eexists _, _. split; [reflexivity|]. split; [vm_compute; reflexivity|discriminate].
Qed.

(** * C112: a curve cannot be the validation metric *)
Definition accepted {T D} (f : metric T D) (cs : list (ecall D)) : Prop := exists d, In (EValAdd d) cs /\ accepts f d = true.
Definition not_column {T} (a : arr T) : Prop := match a with A2 w _ | A3 _ w _ => w <> 1%nat end.
Lemma vstack_bad {T} {NT : Num T} {ET : Ext T} (l : list (arr T)) : l <> [] -> (forall a, In a l -> not_column a) ->
  rbind (vstack l) (fun a => item (mean0 a)) = Err ValueError.
Proof.
  intros NE B. assert (IT : forall l : list (fl T), length l <> 1%nat -> item l = Err ValueError).
  { intros [|x [|y r]]; cbn; auto; lia. }
  assert (MV : forall (P : arr T -> res (nat * list (list (fl T)))) l, (forall a x, P a = Err x -> x = ValueError) ->
     forall x, map_res P l = Err x -> x = ValueError).
  { clear. intros P l H. induction l as [|a l IH]; cbn [map_res]; intros x E; [discriminate|]. destruct (P a) eqn:K; cbn [rbind] in E; [|injection E as <-; eauto].
    destruct (map_res P l); cbn [rbind] in E; [discriminate|]. injection E as <-. auto. }
  assert (MV3 : forall (P : arr T -> res (list (list (list (fl T))))) l, (forall a x, P a = Err x -> x = ValueError) ->
     forall x, map_res P l = Err x -> x = ValueError).
  { clear. intros P l H. induction l as [|a l IH]; cbn [map_res]; intros x E; [discriminate|]. destruct (P a) eqn:K; cbn [rbind] in E; [|injection E as <-; eauto].
    destruct (map_res P l); cbn [rbind] in E; [discriminate|]. injection E as <-. auto. }
  destruct l as [|[w rows|h w ps] l]; [tauto|..]; specialize (B _ (or_introl eq_refl)); cbn [not_column] in B; unfold vstack.
  - destruct (map_res _ _) as [l'|x] eqn:M; cbn [rbind].
    + cbn [map_res rbind] in M. destruct (map_res _ l) as [l2|]; [|discriminate]. cbn [rbind] in M. injection M as <-.
      unfold vstack2. destruct (forallb _ _); [|reflexivity]. cbn [rbind mean0]. apply IT. rewrite map_length, seq_length. auto.
    + f_equal. eapply MV; [|exact M]. intros [? ?|? ? ?] y E; congruence.
  - destruct (map_res _ _) as [l'|x] eqn:M; cbn [rbind].
    + apply IT. cbn [mean0].
      assert (LE : forall s (F : nat -> nat -> fl T), length (flat_map (fun i => map (F i) (seq 0 w)) (seq s h)) = (h * w)%nat).
      { clear. intros s F. revert s. induction h as [|h IH]; intros s; cbn [seq flat_map]; auto. rewrite app_length, map_length, seq_length, IH. auto. }
      rewrite (LE 0%nat (fun i j => _)). intros E. apply Nat.mul_eq_1 in E. tauto.
    + f_equal. eapply MV3; [|exact M]. intros [? ?|? ? ?] y E; [congruence|]. destruct (_ && _)%bool; congruence.
Qed.
(** curves of [n <> 1] points as the validation metric: every batch is accepted as before, but no call of validate_epoch_res in any
    history returns a value *)
Theorem C112_curve_actual : forall (T : Type) (NT : Num T) (ET : Ext T) (argsort : list T -> list nat) task confs index (e : ev T (tensor T * tensor T)) cf ps n cs,
  ev_new (retrieval_impl argsort) task confs index = Ok e -> nth_error confs (Z.to_nat index) = Some cf ->
  conf_metric cf = Some ("pr_curve", ps) -> kw_points ps = Ok n -> n <> 1 ->
  (accepted (retrieval_impl argsort "pr_curve" ps) cs -> snd (validate_epoch_res (ev_run cs e)) = Err ValueError) /\
  (~ accepted (retrieval_impl argsort "pr_curve" ps) cs -> snd (validate_epoch_res (ev_run cs e)) = Err AssertionError).
Proof.
  intros T NT ET argsort task confs index e cf ps n cs N C CM KP N1. set (f := retrieval_impl argsort "pr_curve" ps).
  destruct (ev_fn _ _ _ _ N C) as (name & ps' & av & _ & _ & CM' & V). rewrite CM in CM'. injection CM' as <- <-. fold f in V.
  destruct (ev_new_state _ _ _ _ N) as (S & L & _).
  assert (AR : forall d o, f d true = Ok o -> not_column (as_array o)).
  { intros [yt yp] o. unfold f, retrieval_impl. cbn [String.eqb Ascii.eqb Bool.eqb].
    destruct (kw_only _ ps); [|discriminate]. destruct (kw_k ps) as [k|]; [|discriminate]. destruct (kw_ratio ps) as [r|]; [|discriminate]. cbn [rbind].
    destruct (kw_method ps) as [m|]; [|discriminate]. cbn [rbind]. rewrite KP. cbn [rbind]. unfold pr_curve. destruct (negb _); [discriminate|].
    destruct (format_inputs yt yp k r) as [[rows kk]|]; [|discriminate]. cbn [rbind].
    destruct (map_res _ rows) as [l|] eqn:M; [|discriminate]. cbn [rbind]. intros E. injection E as <-. apply map_res_inv in M.
    destruct M as [|r0 c0 rows l M _]; cbn [map as_array]; [discriminate|]. cbn [not_column width].
    unfold pr_curve1 in M. destruct (negb _); [discriminate|]. destruct (negb _); [discriminate|]. cbn [is1] in M.
    unfold linspace in M. destruct (n <? 0) eqn:NN; [discriminate|]. cbn [rbind] in M. destruct (map_res _ _) as [pr|] eqn:M2; [|discriminate].
    cbn [rbind] in M. injection M as <-. apply map_res_inv in M2. cbn [fst]. rewrite map_length.
    assert (LE : forall A B (Q : A -> B -> Prop) x y, Forall2 Q x y -> length x = length y) by (induction 1; cbn; auto).
    apply LE in M2. rewrite map_length in M2. rewrite <- M2. unfold range. rewrite map_length, seq_length. apply Z.ltb_ge in NN. lia. }
  assert (INV : vfn (ev_run cs e) = Ok f /\ ev_lastv (ev_run cs e) = None /\
    (forall a, In a (ev_val (ev_run cs e)) -> not_column a) /\
    (ev_val (ev_run cs e) <> [] <-> accepted f cs)).
  { clear N. revert S. intros S.
    assert (G : forall cs e, vfn e = Ok f -> ev_lastv e = None -> (forall a, In a (ev_val e) -> not_column a) ->
      vfn (ev_run cs e) = Ok f /\ ev_lastv (ev_run cs e) = None /\
      (forall a, In a (ev_val (ev_run cs e)) -> not_column a) /\
      (ev_val (ev_run cs e) <> [] <-> ev_val e <> [] \/ accepted f cs)).
    { clear - AR. induction cs as [|c cs IH]; intros e V L B; cbn [ev_run fold_left].
      - repeat split; auto. intros [H|(d & [] & _)]; auto.
      - assert (ST : vfn (ev_step c e) = Ok f /\ ev_lastv (ev_step c e) = None /\
          (forall a, In a (ev_val (ev_step c e)) -> not_column a) /\
          (ev_val (ev_step c e) <> [] <-> ev_val e <> [] \/ exists d, c = EValAdd d /\ accepts f d = true)).
        { destruct c as [d| |d|]; cbn [ev_step].
          - unfold validate_add_batch. rewrite V. cbn [rbind]. unfold accepts. destruct (f d true) as [o|x] eqn:F.
            + cbn [fst ev_lastv ev_val]. split; [exact V|]. split; auto. split.
              * intros a I. apply in_app_or in I as [I|[<-|[]]]; [exact (B a I)|exact (AR d o F)].
              * split; intros _; [right; exists d; split; auto; rewrite F; auto|]. destruct (ev_val e); discriminate.
            + cbn [fst]. repeat split; auto. intros [H|(d' & [= <-] & H)]; auto. rewrite F in H. discriminate.
          - unfold validate_epoch_res. rewrite L. destruct (ev_val e) as [|a l] eqn:VE.
            + cbn [fst]. rewrite VE. repeat split; auto. intros [H|(d & H & _)]; [auto|discriminate].
            + rewrite (@vstack_bad T NT ET (a :: l)) by (auto; discriminate). cbn [fst]. rewrite VE. repeat split; auto. intros _; discriminate.
          - unfold test_add_batch. destruct (add_all _ _ _) as [t r]. cbn [fst set_test ev_lastv ev_val]. repeat split; auto. intros [H|(x & H & _)]; [auto|discriminate].
          - unfold test_epoch_res. destruct (ev_test e) as [|t ts]; [cbn [fst]|destruct (summarise_all _ _) as [la [u|x]]; cbn [fst ev_lastv ev_val]];
              (split; [exact V|]); repeat split; auto; (intros [H|(d & H & _)]; [auto|discriminate]). }
        destruct ST as (V' & L' & B' & NE'). destruct (IH _ V' L' B') as (H1 & H2 & H3 & H4). repeat split; auto.
        + intros H. apply H4 in H as [H|(d & I & A)]; [apply NE' in H as [H|(d & -> & A)]; auto|]; right; exists d; split; auto; [left|right]; auto.
        + intros H. apply H4. destruct H as [H|(d & [->|I] & A)]; [left; apply NE'; auto|left; apply NE'; right; eauto|right; exists d; auto]. }
    destruct (G cs e V L) as (H1 & H2 & H3 & H4); [rewrite S; intros a []|]. repeat split; auto.
    - intros H. apply H4 in H as [H|H]; auto. congruence.
    - intros H. apply H4. auto. }
  destruct INV as (_ & LV & B & NE). split; intros H; unfold validate_epoch_res; rewrite LV.
  - apply NE in H. destruct (ev_val (ev_run cs e)) as [|a l]; [tauto|]. rewrite (@vstack_bad T NT ET (a :: l)) by (auto; discriminate). auto.
  - destruct (ev_val (ev_run cs e)) as [|a l]; auto. exfalso. apply H, NE. discriminate.
Qed.

(** * C60: classification metrics *)
Definition pred_labels {T} (argmax : list T -> Z) (yp : preds (T := T)) : list Z := match yp with PLabels l => l | PScores rows => map argmax rows end.
Definition count (a b : Z) (y p : list Z) : nat := length (filter (fun q => (fst q =? a) && (snd q =? b)) (combine y p)).
Definition matches (y p : list Z) : nat := length (filter (fun q => fst q =? snd q) (combine y p)).
Definition total (l : list Z) : Z := fold_right Z.add 0 l.

Lemma filter_len {A} (t : A -> bool) l : (length (filter t l) <= length l)%nat.
Proof. induction l as [|x l IH]; cbn; auto. destruct (t x); cbn; lia. Qed.
Lemma format_classes_eq {T} (argmax : list T -> Z) y yp :
  format_classes argmax y yp = if Nat.eqb (length y) (length (pred_labels argmax yp)) then Ok (y, pred_labels argmax yp) else Err AssertionError.
Proof. reflexivity. Qed.
Lemma avg_ind {A} (t : A -> bool) l : fold_right Rplus 0%R (map (fun x => if t x then 1%R else 0%R) l) = INR (length (filter t l)).
Proof.
  induction l as [|x l IH]; cbn [map fold_right filter]; [reflexivity|]. rewrite IH. destruct (t x); cbn [length]; [rewrite S_INR|]; lra.
Qed.
Lemma acc_value argmax y (yp : preds (T := R)) : y <> [] -> length y = length (pred_labels argmax yp) ->
  accuracy argmax y yp = Ok (Fin (INR (matches y (pred_labels argmax yp)) / INR (length y))%R).
Proof.
  intros NE L. unfold accuracy. rewrite format_classes_eq, L, Nat.eqb_refl. cbn [rbind]. f_equal.
  assert (CL : length (combine y (pred_labels argmax yp)) = length y) by (rewrite combine_length; lia).
  assert (CN : combine y (pred_labels argmax yp) <> []) by (intros H; rewrite H in CL; destruct y; [tauto|discriminate]).
  transitivity (fmean (map (fun q => Fin (if fst q =? snd q then 1%R else 0%R)) (combine y (pred_labels argmax yp)))).
  - f_equal. apply map_ext. intros [a b]. reflexivity.
  - rewrite (fmean_map (fun q : Z * Z => if fst q =? snd q then 1%R else 0%R)) by auto. f_equal. unfold avg. rewrite avg_ind, map_length, CL. rewrite <- L. reflexivity.
Qed.
(** the fraction of samples whose predicted label (of largest score, for score rows) is the true one *)
Theorem C60_accuracy : forall argmax y (yp : preds (T := R)), let p := pred_labels argmax yp in
  (length y <> length p -> accuracy argmax y yp = Err AssertionError) /\
  (length y = length p -> y <> [] ->
   accuracy argmax y yp = Ok (Fin (INR (matches y p) / INR (length y))%R) /\ (0 <= INR (matches y p) / INR (length y) <= 1)%R).
Proof.
  intros argmax y yp p. split.
  - intros H. unfold accuracy. rewrite format_classes_eq. fold p. apply Nat.eqb_neq in H. rewrite H. auto.
  - intros L NE. split; [apply acc_value; auto|].
    assert (M : (matches y p <= length y)%nat).
    { unfold matches. etransitivity; [apply filter_len|]. rewrite combine_length. lia. }
    assert (0 < length y)%nat by (destruct y; [tauto|cbn; lia]). apply lt_0_INR in H. apply le_INR in M.
    pose proof (pos_INR (matches y p)) as P. unfold Rdiv. split.
    + apply Rmult_le_pos; auto. left. apply Rinv_0_lt_compat; auto.
    + apply (Rmult_le_reg_r (INR (length y))); auto. rewrite Rmult_assoc, Rinv_l by lra. lra.
Qed.

Lemma insert_z_in x z l : In x (insert_z z l) <-> x = z \/ In x l.
Proof.
  induction l as [|y l IH]; cbn [insert_z In]; [intuition|]. destruct (Z.eqb_spec z y); [subst; cbn; intuition|].
  destruct (z <? y); cbn [In]; [intuition|]. rewrite IH. intuition.
Qed.
Lemma insert_z_sorted z l : StronglySorted Z.lt l -> StronglySorted Z.lt (insert_z z l).
Proof.
  induction 1 as [|y l S IH F]; cbn [insert_z]; [repeat constructor|]. destruct (Z.eqb_spec z y); [constructor; auto|].
  destruct (Z.ltb_spec z y).
  - constructor; [constructor; auto|]. constructor; auto. rewrite Forall_forall in *. intros x I. specialize (F x I). lia.
  - constructor; auto. rewrite Forall_forall in *. intros x I. apply insert_z_in in I as [->|I]; [lia|auto].
Qed.
Lemma labels_of_spec y p : StronglySorted Z.lt (labels_of y p) /\ forall x, In x (labels_of y p) <-> In x y \/ In x p.
Proof.
  unfold labels_of. assert (G : forall l, StronglySorted Z.lt (fold_right insert_z [] l) /\ forall x, In x (fold_right insert_z [] l) <-> In x l).
  { induction l as [|z l [S I]]; cbn [fold_right]; [split; [constructor|tauto]|]. split; [apply insert_z_sorted; auto|].
    intros x. rewrite insert_z_in, I. cbn. intuition. }
  destruct (G (y ++ p)) as [S I]. split; auto. intros x. rewrite I. apply in_app_iff.
Qed.
Lemma sorted_nodup l : StronglySorted Z.lt l -> NoDup l.
Proof. induction 1 as [|y l S IH F]; constructor; auto. rewrite Forall_forall in F. intros I. specialize (F _ I). lia. Qed.
Lemma sorted_unique l : forall m, StronglySorted Z.lt l -> StronglySorted Z.lt m -> (forall x, In x l <-> In x m) -> l = m.
Proof.
  induction l as [|a l IH]; intros m S1 S2 E.
  - destruct m as [|b m]; auto. exfalso. apply (E b). left; auto.
  - inversion S1 as [|? ? SL FL]; subst. rewrite Forall_forall in FL. destruct m as [|b m]; [exfalso; apply (E a); left; auto|].
    inversion S2 as [|? ? SM FM]; subst. rewrite Forall_forall in FM.
    assert (a = b).
    { destruct (proj1 (E a) (or_introl eq_refl)) as [H|H]; auto. destruct (proj2 (E b) (or_introl eq_refl)) as [K|K]; auto.
      specialize (FL _ K). specialize (FM _ H). lia. }
    subst b. f_equal. apply IH; auto. intros x. split; intros I.
    + destruct (proj1 (E x) (or_intror I)) as [<-|H]; auto. specialize (FL _ I). lia.
    + destruct (proj2 (E x) (or_intror I)) as [<-|H]; auto. specialize (FM _ I). lia.
Qed.

Lemma total_map_add {A} (f g : A -> Z) l : total (map (fun a => f a + g a) l) = total (map f l) + total (map g l).
Proof. induction l as [|a l IH]; cbn [map total fold_right]; auto. unfold total in IH. rewrite IH. lia. Qed.
Lemma total_ind x c l : NoDup l -> In x l -> total (map (fun a => if x =? a then c else 0) l) = c.
Proof.
  assert (Z0 : forall l, ~ In x l -> total (map (fun a => if x =? a then c else 0) l) = 0).
  { induction l0 as [|a l0 IH]; cbn [map total fold_right In]; intros H; auto. unfold total in IH. rewrite IH by tauto. destruct (Z.eqb_spec x a); [subst; tauto|lia]. }
  induction l as [|a l IH]; intros ND I; [destruct I|]. inversion ND; subst. cbn [map total fold_right].
  destruct (Z.eqb_spec x a).
  - subst. fold (total (map (fun b => if a =? b then c else 0) l)). rewrite Z0 by auto. lia.
  - fold (total (map (fun b => if x =? b then c else 0) l)). rewrite IH; auto. destruct I; [subst; tauto|auto].
Qed.
Lemma total_ext {A} (f g : A -> Z) l : (forall a, In a l -> f a = g a) -> total (map f l) = total (map g l).
Proof. intros H. f_equal. apply map_ext_in. auto. Qed.
Lemma total_zero {A} (l : list A) : total (map (fun _ => 0) l) = 0.
Proof. induction l; cbn; auto. Qed.

Section Confusion.
  Variable ls : list Z.
  Hypothesis ND : NoDup ls.
  Notation cnt a b l := (Z.of_nat (length (filter (fun q => (fst q =? a) && (snd q =? b)) l))).
  Lemma cnt_cons a b (q : Z * Z) l : cnt a b (q :: l) = (if fst q =? a then (if snd q =? b then 1 else 0) else 0) + cnt a b l.
  Proof. cbn [filter]. destruct (fst q =? a), (snd q =? b); cbn [andb length]; lia. Qed.
  Lemma conf_total l : (forall q, In q l -> In (fst q) ls /\ In (snd q) ls) ->
    total (map (fun a => total (map (fun b => cnt a b l) ls)) ls) = Z.of_nat (length l).
  Proof using ND.
    induction l as [|q l IH]; intros H.
    - cbn [filter length]. rewrite (total_ext _ (fun _ => 0)), total_zero by (intros; apply total_zero). auto.
    - destruct (H q (or_introl eq_refl)) as [H1 H2].
      rewrite (total_ext _ (fun a => (if fst q =? a then 1 else 0) + total (map (fun b => cnt a b l) ls))).
      + rewrite total_map_add, total_ind, IH by (auto; intros; apply H; right; auto). cbn [length]. lia.
      + intros a A. rewrite (total_ext _ (fun b => (if fst q =? a then (if snd q =? b then 1 else 0) else 0) + cnt a b l)) by (intros; apply cnt_cons).
        rewrite total_map_add. f_equal. destruct (fst q =? a); [apply total_ind; auto|apply total_zero].
  Qed.
  Lemma conf_trace l : (forall q, In q l -> In (fst q) ls /\ In (snd q) ls) ->
    total (map (fun a => cnt a a l) ls) = Z.of_nat (length (filter (fun q => fst q =? snd q) l)).
  Proof using ND.
    induction l as [|q l IH]; intros H; [cbn [filter length]; apply total_zero|]. destruct (H q (or_introl eq_refl)) as [H1 H2].
    rewrite (total_ext _ (fun a => (if fst q =? a then (if fst q =? snd q then 1 else 0) else 0) + cnt a a l)).
    - rewrite total_map_add, total_ind, IH by (auto; intros; apply H; right; auto). cbn [filter]. destruct (fst q =? snd q); cbn [length]; lia.
    - intros a A. rewrite cnt_cons. f_equal. destruct (Z.eqb_spec (fst q) a); auto. subst a. rewrite (Z.eqb_sym (snd q)). auto.
  Qed.
End Confusion.
(** rows and columns are the labels that occur, ascending; entry (i, j) counts the samples of class i predicted as class j; the entries sum to
    the number of samples, the diagonal to the number of matches (so diagonal / total is the accuracy) *)
Theorem C60_confusion : forall (T : Type) (argmax : list T -> Z) y (yp : preds (T := T)), let p := pred_labels argmax yp in
  (length y <> length p -> confusion_matrix argmax y yp = Err AssertionError) /\
  (length y = length p -> exists m ls, confusion_matrix argmax y yp = Ok m /\
   StronglySorted Z.lt ls /\ (forall x, In x ls <-> In x y \/ In x p) /\ length m = length ls /\ (forall r, In r m -> length r = length ls) /\
   (forall i j, (i < length ls)%nat -> (j < length ls)%nat -> nth j (nth i m []) 0 = Z.of_nat (count (nth i ls 0) (nth j ls 0) y p)) /\
   total (map total m) = Z.of_nat (length y) /\ total (map (fun i => nth i (nth i m []) 0) (seq 0 (length m))) = Z.of_nat (matches y p)).
Proof.
  intros T argmax y yp p. unfold confusion_matrix. rewrite format_classes_eq. fold p. split.
  - intros H. apply Nat.eqb_neq in H. rewrite H. auto.
  - intros L. rewrite L, Nat.eqb_refl. cbn [rbind]. destruct (labels_of_spec y p) as [S I]. set (ls := labels_of y p) in *.
    eexists _, ls. split; [reflexivity|]. pose proof (sorted_nodup S) as ND.
    assert (C : forall q, In q (combine y p) -> In (fst q) ls /\ In (snd q) ls).
    { intros [a b] H. pose proof (in_combine_l _ _ _ _ H). pose proof (in_combine_r _ _ _ _ H). split; apply I; auto. }
    assert (CL : length (combine y p) = length y) by (rewrite combine_length; lia).
    split; auto. split; auto. split; [apply map_length|]. split; [intros r R; apply in_map_iff in R as (a & <- & _); apply map_length|].
    assert (NTH : forall A B (f : A -> B) l i d e, (i < length l)%nat -> nth i (map f l) e = f (nth i l d)).
    { intros A B f l i d e H. rewrite (nth_indep _ e (f d)) by (rewrite map_length; auto). apply map_nth. }
    assert (EN : forall i j, (i < length ls)%nat -> (j < length ls)%nat ->
      nth j (nth i (map (fun a => map (fun b => Z.of_nat (length (filter (fun q => (fst q =? a) && (snd q =? b)) (combine y p)))) ls) ls) []) 0 =
      Z.of_nat (count (nth i ls 0) (nth j ls 0) y p)).
    { intros i j IL JL. rewrite (NTH _ _ _ _ _ 0) by auto. rewrite (NTH _ _ _ _ _ 0) by auto. reflexivity. }
    split; [exact EN|]. split.
    + rewrite map_map, conf_total by auto. rewrite CL. auto.
    + rewrite map_length. unfold matches. rewrite <- (conf_trace ND _ C).
      rewrite (total_ext _ (fun i => Z.of_nat (count (nth i ls 0) (nth i ls 0) y p))) by (intros i J; apply in_seq in J; apply EN; lia).
      rewrite <- (map_map (fun i => nth i ls 0) (fun a => Z.of_nat (count a a y p))). f_equal. f_equal.
      clear. induction ls as [|a l IH]; auto. cbn [length seq map nth]. f_equal. rewrite <- seq_shift, map_map. auto.
Qed.
Lemma filter_perm {A} (t : A -> bool) l m : Permutation l m -> length (filter t l) = length (filter t m).
Proof. induction 1; cbn [filter]; auto; [destruct (t x); cbn; auto|destruct (t x), (t y); auto|congruence]. Qed.
(** the order of the samples does not matter *)
Theorem C60_reorder : forall argmax y (yp : preds (T := R)) argmax' y' (yp' : preds (T := R)),
  let p := pred_labels argmax yp in let p' := pred_labels argmax' yp' in
  length y = length p -> length y' = length p' -> Permutation (combine y p) (combine y' p') ->
  accuracy argmax y yp = accuracy argmax' y' yp' /\ confusion_matrix argmax y yp = confusion_matrix argmax' y' yp'.
Proof.
  intros argmax y yp argmax' y' yp' p p' L L' P.
  assert (LY : length y = length y').
  { apply Permutation_length in P. rewrite !combine_length in P. lia. }
  assert (SP : forall (y p : list Z), length y = length p -> map fst (combine y p) = y /\ map snd (combine y p) = p).
  { clear. induction y as [|a y IH]; intros [|b p]; cbn; try discriminate; auto. intros [= L]. destruct (IH p L) as [-> ->]. auto. }
  destruct (SP y p L) as [Y1 P1]. destruct (SP y' p' L') as [Y2 P2].
  assert (PY : Permutation y y') by (rewrite <- Y1, <- Y2; apply Permutation_map; auto).
  assert (PP : Permutation p p') by (rewrite <- P1, <- P2; apply Permutation_map; auto).
  split.
  - destruct y as [|a y].
    + cbn in LY. destruct y' as [|]; [|discriminate]. cbn in L, L'. unfold accuracy. rewrite !format_classes_eq. fold p p'. rewrite <- L, <- L'. cbn.
      destruct p, p'; try discriminate; auto.
    + assert (NE' : y' <> []) by (destruct y'; discriminate). rewrite (@acc_value argmax (a :: y) yp), (@acc_value argmax' y' yp') by (auto; discriminate). fold p p'. rewrite LY. unfold matches. rewrite (filter_perm _ P). auto.
  - unfold confusion_matrix. rewrite !format_classes_eq. fold p p'. rewrite <- L, <- L', !Nat.eqb_refl. cbn [rbind]. f_equal.
    assert (LS : labels_of y p = labels_of y' p').
    { destruct (labels_of_spec y p) as [S1 I1]. destruct (labels_of_spec y' p') as [S2 I2]. apply sorted_unique; auto.
      intros x. rewrite I1, I2. split; (intros [H|H]; [left; revert H|right; revert H]; apply Permutation_in; auto using Permutation_sym). }
    rewrite LS. apply map_ext. intros a. apply map_ext. intros b. rewrite (filter_perm _ P). auto.
Qed.

(** * The hypotheses are met *)
Definition ex_confs : list config := [CName "ndcg"; CDict [("precision", [("k", PInt 2)])]].
Definition ex_batch (rows : list (list R * list R)) := batch 3 rows.
Definition ex_r1 : list R * list R := ([0; 1; 1], [1; 2; 3])%R.
Definition ex_r2 : list R * list R := ([0; 0; 0], [3; 2; 1])%R.
(** C58: two metrics, an evaluator, two batches of different size *)
Example partition_nonvacuous : exists e,
  ev_new (retrieval_impl ins_argsort) "retrieval" ex_confs 0 = Ok e /\ nth_error ex_confs 0 = Some (CName "ndcg") /\
  (forall b, In b [[ex_r1]; [ex_r2; ex_r1]] -> samples 3 b /\ accepts (retrieval_impl ins_argsort "ndcg" []) (ex_batch b) = true).
Proof.
  eexists. split; [reflexivity|]. split; [reflexivity|].
  intros b [<-|[<-|[]]]; (split; [intros r I; cbn in I; intuition (subst; auto)|reflexivity]).
Qed.
(** C58, C108: the metrics of an evaluator as functions of the batch *)
Definition ex_vals (f : metric R (tensor R * tensor R)) : tensor R * tensor R -> list (fl R) := fun d => match f d true with Ok (MList l) => l | _ => [] end.
Example test_nonvacuous : exists e ms,
  ev_new (retrieval_impl ins_argsort) "retrieval" [CName "ndcg"; CName "mrr"] 0 = Ok e /\ NoDup (map fst ms) /\ length ms = length (ev_fns e) /\
  forall b, In b [[ex_r1]; [ex_r2; ex_r1]] -> realises (ev_fns e) ms (ex_batch b).
Proof.
  eexists _, [("ndcg", VNum (ex_vals (retrieval_impl ins_argsort "ndcg" []))); ("mrr", VNum (ex_vals (retrieval_impl ins_argsort "mrr" [])))].
  split; [reflexivity|]. split; [repeat constructor; cbn; intuition discriminate|]. split; [reflexivity|].
  intros b [<-|[<-|[]]]; (constructor; [split; reflexivity|constructor; [split; reflexivity|constructor]]).
Qed.
(** C59 *)
Example markers_nonvacuous :
  (forall c, In c ex_confs -> plain_config c) /\
  (forall i j c1 c2, (i < j)%nat -> nth_error ex_confs i = Some c1 -> nth_error ex_confs j = Some c2 -> ~ close_config c1 c2) /\
  match format_metric_configs "Retrieval" (ex_confs ++ [CDict [("map", [("ratio", PFloat (-1 # 3)); ("method", PStr "legacy")])]]) with
  | Ok ms => map fst ms = ["ndcg"; "precision -> k@2"; "map -> ratio@-0.3333 | method@legacy"] | Err _ => False end.
Proof.
  split; [|split].
  - intros c [<-|[<-|[]]]; cbn; auto. split; auto. intros k v [[= <- <-]|[]]. cbn. auto.
  - intros [|[|i]] [|[|j]] c1 c2 L; cbn; try lia; try (destruct i; discriminate); try (destruct j; discriminate). intros [= <-] [= <-]. cbn. auto.
  - vm_compute. reflexivity.
Qed.
(** C112: the default is 11 points *)
Example curve_nonvacuous : exists e, ev_new (retrieval_impl (T := R) ins_argsort) "retrieval" [CName "pr_curve"] 0 = Ok e /\
  conf_metric (CName "pr_curve") = Some ("pr_curve", []) /\ kw_points [] = Ok 11.
Proof. eexists. repeat split. Qed.
(** cl:111-124: the docstring of confusion_matrix *)
Example run_confusion : confusion_matrix (fun _ : list R => 0) [3; 2; 4; 0] (PLabels [2; 0; 4; 0]) = Ok [[1; 0; 0; 0]; [1; 0; 0; 0]; [0; 1; 0; 0]; [0; 0; 0; 1]].
Proof. vm_compute. reflexivity. Qed.
From Coq Require Import Qcanon.
Section Runs2.
  Local Open Scope Q_scope.
  Local Open Scope Z_scope.
  Definition qt (o : tout Qc) : option Q := match o with OScal (Fin x) => Some (this x) | _ => None end.
  Definition qb (y p : list (list Z)) : tensor Qc * tensor Qc := (V2 3 (map qv y), V2 3 (map qv p)).
  Definition b1 := qb [[0; 1; 1]] [[1; 2; 3]].
  Definition b2 := qb [[1; 0; 0]; [1; 0; 0]] [[1; 2; 3]; [3; 2; 1]].
  Definition qrun (cs : list config) (calls : list (ecall (tensor Qc * tensor Qc))) : option (list (string * option Q)) :=
    match ev_new (retrieval_impl ins_argsort) "retrieval" cs 0 with
    | Ok e => match snd (test_epoch_res (ev_run calls e)) with Ok d => Some (map (fun kv => (fst kv, qt (snd kv))) d) | _ => None end
    | _ => None end.
  Definition vrun (cs : list config) (calls : list (ecall (tensor Qc * tensor Qc))) : res (option Q) :=
    match ev_new (retrieval_impl ins_argsort) "retrieval" cs 0 with
    | Ok e => match snd (validate_epoch_res (ev_run calls e)) with Ok d => Ok (qf d) | Err x => Err x end
    | Err x => Err x end.
  Definition p_at (k : Z) := CDict [("precision", [("k", PInt k)])].
  (** precision@1 of the three samples: 1, 0, 1; precision@2: 1, 0, 1/2; batches of one and two samples *)
  Example run_test : qrun [p_at 1; p_at 2] [ETestAdd b1; ETestAdd b2] =
    Some [("precision -> k@1", Some (2 # 3)); ("precision -> k@2", Some (1 # 2))].
  Proof. vm_compute. reflexivity. Qed.
  Example run_two_epochs : qrun [p_at 1] [ETestAdd b1; ETestRes; ETestAdd b2; ETestRes] = Some [("precision -> k@1", Some (1 # 2))] /\
    vrun [p_at 1] [EValAdd b1; EValRes; EValAdd b2] = Ok (Some (1 # 2)) /\ vrun [p_at 1] [EValAdd b1; EValRes] = Ok (Some (1 # 1)) /\ vrun [p_at 1] [] = Err AssertionError.
  Proof. vm_compute. auto. Qed.
  (** C111: a batch in which nothing is relevant: recorded for mrr (nan), refused by precision *)
  Example run_refused : qrun [CName "mrr"; CName "precision"] [ETestAdd b1; ETestAdd (qb [[0; 0; 0]] [[1; 2; 3]])] =
    Some [("mrr", None); ("precision", Some (2 # 3))].
  Proof. vm_compute. reflexivity. Qed.
  (** C109: ratios 0.66666 and 0.66667 of three items are depths 2 and 3 *)
  Definition r_at (q : Q) := CDict [("precision", [("ratio", PFloat q)])].
  Example run_shared : qrun [r_at (66666 # 100000); r_at (66667 # 100000)] [ETestAdd b1] = Some [("precision -> ratio@0.6667", Some (5 # 6))] /\
    qrun [r_at (66666 # 100000)] [ETestAdd b1] = Some [("precision -> ratio@0.6667", Some (1 # 1))] /\
    qrun [r_at (66667 # 100000)] [ETestAdd b1] = Some [("precision -> ratio@0.6667", Some (2 # 3))].
  Proof. vm_compute. auto. Qed.
  (** C112 *)
  Example run_curve_validate : vrun [CName "pr_curve"] [EValAdd b1] = Err ValueError.
  Proof. vm_compute. reflexivity. Qed.
  (** cl:56-67: one match of three *)
  Example run_accuracy : qo (accuracy (fun _ : list Qc => 0) [3; 2; 4] (PLabels [2; 0; 4])) = Some (1 # 3).
  Proof. vm_compute. reflexivity. Qed.
End Runs2.
