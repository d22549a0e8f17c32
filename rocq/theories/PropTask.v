(** Properties C186-C191: the tasks of dhg.experiments. *)
From Coq Require Import String Reals Lra Permutation Sorted.
From Verif Require Import Num PyDict PyDictFacts ModelBase ModelConv ModelUtils UtilFacts RealFacts ModelMetrics ModelEval ModelData ModelNN ModelRun ModelTask.
From Verif Require Import SpecMetrics SpecEval MetricFacts EvalFacts PropRun PropEval PropMarkers PropDatasets.
Set Implicit Arguments.
Local Open Scope string_scope.
Local Open Scope list_scope.
Local Open Scope Z_scope.

(** * Studies *)
Lemma run_best (M S : Type) (l : list (eres M * S)) files m s sc : dict_ok files ->
  (forall t, In t l -> match fst t with EDone sc _ => sc <> NaN | EPruned => True | EFail _ _ => False end) ->
  snd (run l files) = Ok (m, s, sc) ->
  exists k, nth_error l k = Some (EDone sc m, s) /\
  forall j sc' m' s', nth_error l j = Some (EDone sc' m', s') -> ~ above sc' sc /\ ((j < k)%nat -> above sc sc').
Proof.
  intros DO OK E.
  assert (H0 : history files [] files (@None (nat * fl R))).
  { split; auto. split; [intros k ? ? ? E0; destruct k; discriminate|]. split; [auto|]. intros k ? ? ? E0; destruct k; discriminate. }
  destruct (optimize_history l H0 OK) as (files' & best' & EO & (HO & HF & HK & HB)). cbn [length app] in *.
  unfold run in E. rewrite EO in E. destruct best' as [[b sb]|]; [|discriminate]. cbn [snd] in E. destruct HB as ((mb & stb & Eb) & HB).
  destruct (HF _ _ _ _ Eb) as (F1 & F2).
  assert (D1 : dget (model_file b) (remove_cached b files') = Some (FModel mb)) by (apply dget_filter; auto; cbn [fst]; rewrite number_model; apply String.eqb_refl).
  assert (D2 : dget (struct_file b) (remove_cached b files') = Some (FStruct stb)) by (apply dget_filter; auto; cbn [fst]; rewrite number_struct; apply String.eqb_refl).
  rewrite D1, D2 in E. injection E as <- <- <-. exists b. auto.
Qed.

Section Study.
  Variables P M O S W : Type.
  Variables (sb : option (P -> S)) (mb : P -> M) (tb : P -> M -> option O) (sched : O -> O).
  Variables (suggest : list (trec P) -> P) (prune : list (trec P) -> list (fl R) -> bool).

  Section One.
  Variables (train : option S -> W -> M -> O -> W * res (M * O)) (validate : option S -> W -> M -> W * res (fl R)).
  Variable Inv : W -> Prop.
  Hypothesis inv_train : forall st w m o, Inv w -> forall w' r, train st w m o = (w', Ok r) -> Inv w'.
  Hypothesis inv_validate : forall st w m, Inv w -> forall w' r, validate st w m = (w', Ok r) -> Inv w'.
  Local Notation loop := (loop sched prune train validate).
  Local Notation task_run := (task_run sb mb tb sched suggest prune train validate).

  Lemma loop_spec hist st n : forall vals best w m o w' vals' r, Inv w -> loop true n hist st vals best w m o = (w', vals', r) ->
    match r with
    | LRaise _ => True
    | LPruned => Inv w'
    | LDone (sc, b) => Inv w' /\ exists new, vals' = vals ++ new /\ length new = n /\ (forall v, In v new -> ~ above v sc) /\
        ((sc, b) = best \/ exists m' w1 w2, b = Some m' /\ Inv w1 /\ validate st w1 m' = (w2, Ok sc) /\ In sc new /\ above sc (fst best))
    end.
  Proof.
    induction n as [|n IH]; intros vals best w m o w' vals' r I E; cbn [ModelTask.loop] in E.
    - injection E as <- <- <-. destruct best as [sc b]. split; auto. exists []. rewrite app_nil_r. repeat split; auto.
    - destruct (train st w m o) as [w1 [[m1 o1]|x]] eqn:ET; [|injection E as <- <- <-; auto].
      destruct (validate st w1 m1) as [w2 [v|x]] eqn:EV; [|injection E as <- <- <-; auto].
      assert (I1 : Inv w1) by eauto. assert (I2 : Inv w2) by eauto. cbv zeta in E.
      destruct (prune hist (vals ++ [v])); [injection E as <- <- <-; auto|].
      specialize (IH _ _ _ _ _ _ _ _ I2 E). destruct r as [x| |[sc b]]; auto. destruct IH as (I' & new & -> & L & MX & C). split; auto.
      exists (v :: new). rewrite <- app_assoc. split; auto. split; [cbn; lia|].
      destruct (fgt v (fst best)) eqn:G.
      + apply fgt_above in G. destruct C as [C|(m' & w3 & w4 & -> & I3 & V & IN & A)].
        * injection C as -> ->. split; [intros u [<-|U]; [apply above_irrefl|auto]|]. right. exists m1, w1, w2. repeat split; auto. left; auto.
        * cbn [fst] in A. split; [intros u [<-|U]; [intros B; exact (above_irrefl (above_trans A B))|auto]|].
          right. exists m', w3, w4. repeat split; auto; [right; auto|eapply above_trans; eauto].
      + assert (NG : ~ above v (fst best)) by (rewrite <- fgt_above; congruence).
        destruct C as [C|(m' & w3 & w4 & -> & I3 & V & IN & A)].
        * subst best. split; [intros u [<-|U]; auto|]. auto.
        * split; [intros u [<-|U]; [intros B; apply NG; eapply above_trans; eauto|auto]|]. right. exists m', w3, w4. repeat split; auto. right; auto.
  Qed.

  (** a trial's record and what it returned *)
  Definition tied (r : trec P) (t : eres M * option S) : Prop :=
    match t with
    | (EPruned, _) => t_value r = None
    | (EDone sc m, Some s) => t_value r = Some sc /\ (exists w w', Inv w /\ validate (Some s) w m = (w', Ok sc)) /\ above sc NInf /\
        In sc (t_vals r) /\ forall v, In v (t_vals r) -> ~ above v sc
    | _ => False
    end.
  Lemma trials_tied n k : forall d : study P M S W, sd_exn d = None -> Inv (sd_w d) -> Forall2 tied (sd_hist d) (sd_out d) ->
    let d' := ModelTask.trials sb mb tb sched suggest prune train validate true n k d in
    sd_exn d' = None -> Inv (sd_w d') /\ Forall2 tied (sd_hist d') (sd_out d').
  Proof.
    induction k as [|k IH]; intros d X I F; cbn [ModelTask.trials]; auto. cbv zeta.
    match goal with |- context [trial ?a ?b ?c ?e ?f ?g ?h ?i ?j ?l ?q] => set (d1 := trial a b c e f g h i j l q) end.
    assert (H : sd_exn d1 = None -> Inv (sd_w d1) /\ Forall2 tied (sd_hist d1) (sd_out d1)).
    { unfold d1, trial. cbv zeta. set (p := suggest (sd_hist d)). set (st := match sb with Some f => Some (f p) | None => sd_st d end).
      destruct (tb p (mb p)) as [o|]; [|discriminate].
      destruct (loop true n (sd_hist d) st [] (NInf, None) (sd_w d) (mb p) o) as [[w vals] r] eqn:E.
      pose proof (@loop_spec (sd_hist d) st n _ _ _ _ _ _ _ _ I E) as L. destruct r as [x| |[sc b]]; [discriminate| |].
      - cbn [sd_exn sd_w sd_hist sd_out]. intros _. split; auto. apply Forall2_app; auto. constructor; [reflexivity|constructor].
      - destruct L as (I' & new & -> & _ & MX & C). destruct b as [m|]; [|discriminate]. destruct st as [s|] eqn:ES; [|discriminate].
        cbn [sd_exn sd_w sd_hist sd_out]. intros _. split; auto. apply Forall2_app; auto. constructor; [|constructor].
        destruct C as [C|(m' & w1 & w2 & B & I1 & V & IN & A)]; [discriminate|]. injection B as <-. cbn [fst] in A.
        cbn [tied t_value t_vals app]. split; auto. split; [exists w1, w2; auto|]. auto. }
    destruct (sd_exn d1) as [x|] eqn:X1; [congruence|]. destruct (H eq_refl) as [H1 H2]. apply IH; auto.
  Qed.
  Lemma minimize_none n k : forall d : study P M S W, sd_exn d = None -> (forall t, In t (sd_out d) -> fst t = EPruned) ->
    let d' := ModelTask.trials sb mb tb sched suggest prune train validate false n k d in
    sd_exn d' = None -> forall t, In t (sd_out d') -> fst t = EPruned.
  Proof.
    assert (LB : forall hist st n vals w m o w' vals' r, loop false n hist st vals (PInf, None) w m o = (w', vals', r) ->
      match r with LDone (_, Some _) => False | _ => True end).
    { clear. intros hist st n. induction n as [|n IH]; intros vals w m o w' vals' r E; cbn [ModelTask.loop] in E; [injection E as <- <- <-; exact Logic.I|].
      destruct (train st w m o) as [w1 [[m1 o1]|x]]; [|injection E as <- <- <-; exact Logic.I].
      destruct (validate st w1 m1) as [w2 [v|x]]; [|injection E as <- <- <-; exact Logic.I]. cbv zeta in E.
      destruct (prune hist (vals ++ [v])); [injection E as <- <- <-; exact Logic.I|]. exact (IH _ _ _ _ _ _ _ E). }
    induction k as [|k IH]; intros d X F; cbn [ModelTask.trials]; auto. cbv zeta.
    match goal with |- context [trial ?a ?b ?c ?e ?f ?g ?h ?i ?j ?l ?q] => set (d1 := trial a b c e f g h i j l q) end.
    assert (H : sd_exn d1 = None -> forall t, In t (sd_out d1) -> fst t = EPruned).
    { unfold d1, trial. cbv zeta. set (p := suggest (sd_hist d)). set (st := match sb with Some f => Some (f p) | None => sd_st d end).
      destruct (tb p (mb p)) as [o|]; [|discriminate].
      destruct (loop false n (sd_hist d) st [] (PInf, None) (sd_w d) (mb p) o) as [[w vals] r] eqn:E. apply LB in E.
      destruct r as [x| |[sc [b|]]]; [discriminate| |tauto|discriminate].
      cbn [sd_out]. intros _ t I. apply in_app_or in I as [I|[<-|[]]]; auto. }
    destruct (sd_exn d1) as [x|] eqn:X1; [congruence|]. apply IH; auto.
  Qed.

  (** a study that finishes: the value reported for the best trial is what [validate] gave for the model and the structure that are
      kept, and no epoch of a complete trial was better *)
  Lemma task_run_ok direction max_epoch k st w files d files' m s sc : dict_ok files -> Inv w ->
    task_run direction max_epoch k st w files = (d, files', Ok (m, s, sc)) ->
    direction = "maximize" /\ Inv (sd_w d) /\ (exists w1 w2, Inv w1 /\ validate s w1 m = (w2, Ok sc)) /\ s <> None /\ above sc NInf /\
    (exists r, In r (sd_hist d) /\ t_value r = Some sc /\ In sc (t_vals r)) /\
    (forall r v, In r (sd_hist d) -> t_value r <> None -> In v (t_vals r) -> ~ above v sc).
  Proof.
    intros DO I E. unfold ModelTask.task_run in E. cbv zeta in E.
    destruct (String.eqb_spec direction "maximize") as [->|ND].
    - cbn [orb] in E. set (d0 := ModelTask.trials _ _ _ _ _ _ _ _ true max_epoch k _) in E.
      destruct (run (sd_out d0) files) as [fs r] eqn:ER. injection E as <- _ E. destruct (sd_exn d0) as [x|] eqn:X; [discriminate|]. subst r.
      destruct (@trials_tied max_epoch k (mkstudy w st [] [] None) eq_refl I (Forall2_nil _) X) as [I' F]. fold d0 in I', F. split; auto. split; auto.
      assert (OK : forall t, In t (sd_out d0) -> match fst t with EDone sc _ => sc <> NaN | EPruned => True | EFail _ _ => False end).
      { clear - F. induction F as [|r t h l T F IH]; intros u U; [destruct U|]. destruct U as [<-|U]; [|exact (IH u U)].
        destruct t as [[|x sv|sc m] [s|]]; cbn in *; try tauto. destruct T as (_ & _ & A & _). intros ->. inversion A. }
      destruct (@run_best M (option S) (sd_out d0) files m s sc DO OK) as (b & Eb & B); [rewrite ER; auto|].
      assert (TI : forall h l j t, Forall2 tied h l -> nth_error l j = Some t -> exists r, In r h /\ tied r t).
      { clear. intros h l j t F. revert j. induction F as [|r u h l T F IH]; intros [|j]; cbn; try discriminate; [injection 1 as <-; eauto|].
        intros E. destruct (IH j E) as (r' & I & T'). eauto. }
      destruct (TI _ _ _ _ F Eb) as (r & IR & T). cbn [tied] in T. destruct s as [s|]; [|tauto]. destruct T as (TV & V & A & IN & MX).
      split; auto. split; [discriminate|]. split; auto. split; [exists r; auto|].
      intros r' v IR' NV IV AB.
      assert (TR : forall h l q, Forall2 tied h l -> In q h -> exists j t, nth_error l j = Some t /\ tied q t).
      { clear. intros h l q F I. induction F as [|r u h l T F IH]; [destruct I|]. destruct I as [<-|I]; [exists 0%nat, u; auto|].
        destruct (IH I) as (j & t & E & T'). exists (Datatypes.S j), t. auto. }
      destruct (TR _ _ _ F IR') as (j & [[|x sv|sc' m'] [s'|]] & Ej & T); cbn [tied] in T; try tauto.
      destruct T as (_ & _ & A' & IN' & MX'). destruct (B _ _ _ _ Ej) as [NB _].
      assert (NN : sc' <> NaN) by (intros ->; inversion A'). assert (NN2 : sc <> NaN) by (intros ->; inversion A).
      apply (MX' v IV). destruct (above_total NN NN2 NB) as [C|C]; [eapply above_trans; eauto|rewrite C; auto].
    - destruct (String.eqb_spec direction "minimize") as [->|ND2]; [|discriminate]. cbn [orb] in E.
      set (d0 := ModelTask.trials _ _ _ _ _ _ _ _ _ max_epoch k _) in E.
      destruct (run (sd_out d0) files) as [fs r] eqn:ER. injection E as <- _ E. destruct (sd_exn d0) as [x|] eqn:X; [discriminate|]. subst r.
      pose proof (@minimize_none max_epoch k (mkstudy w st [] [] None) eq_refl (fun t (T : In t []) => match T with end) X) as F.
      pose proof (proj2 (C129_no_result (sd_out d0) files) F) as C. rewrite C in ER. discriminate.
  Qed.
  (** what holds of model and optimizer after each number of epochs holds of the model that is kept *)
  Section Trained.
  Variable Q : P -> option S -> nat -> W -> M -> O -> Prop.
  Hypothesis Q_start : forall p st w o, tb p (mb p) = Some o -> Q p st 0 w (mb p) o.
  Hypothesis Q_epoch : forall p st e w m o w1 m1 o1 w2 v, Q p st e w m o -> train st w m o = (w1, Ok (m1, o1)) -> validate st w1 m1 = (w2, Ok v) ->
    Q p st (Datatypes.S e) w2 m1 (sched o1).
  Lemma loop_trained hist st p n : forall e vals best w m o w' vals' sc b, Q p st e w m o -> length vals = e ->
    loop true n hist st vals best w m o = (w', vals', LDone (sc, b)) ->
    (exists new, vals' = vals ++ new) /\
    ((sc, b) = best \/ exists m' e' w2 o2, b = Some m' /\ (e < e' <= e + n)%nat /\ nth_error vals' (e' - 1) = Some sc /\ Q p st e' w2 m' o2).
  Proof using Q_epoch.
    induction n as [|n IH]; intros e vals best w m o w' vals' sc b HQ LV E; cbn [ModelTask.loop] in E.
    - injection E as <- <- <-. split; auto. exists []. rewrite app_nil_r. auto.
    - destruct (train st w m o) as [w1 [[m1 o1]|x]] eqn:ET; [|discriminate]. destruct (validate st w1 m1) as [w2 [v|x]] eqn:EV; [|discriminate].
      cbv zeta in E. destruct (prune hist (vals ++ [v])); [discriminate|].
      pose proof (Q_epoch HQ ET EV) as HQ1.
      assert (LV1 : length (vals ++ [v]) = Datatypes.S e) by (rewrite app_length; cbn; lia).
      destruct (IH (Datatypes.S e) _ _ _ _ _ _ _ _ _ HQ1 LV1 E) as ((new & ->) & C).
      rewrite <- app_assoc in *. split; [eexists; reflexivity|].
      destruct C as [C|(m' & e' & w3 & o2 & -> & L & NE & HQ2)]; [|right; exists m', e', w3, o2; repeat split; auto; lia].
      destruct (fgt v (fst best)); [|auto]. injection C as -> ->. right. exists m1, (Datatypes.S e), w2, (sched o1). split; auto. split; [lia|]. split; auto.
      cbn [Nat.sub]. rewrite Nat.sub_0_r, nth_error_app2, LV, Nat.sub_diag by lia. reflexivity.
  Qed.
  Variable st0 : option S.
  Definition built (p : P) : option S := match sb with Some f => Some (f p) | None => st0 end.
  Definition made (n : nat) (r : trec P) (t : eres M * option S) : Prop :=
    match t with
    | (EDone sc m, s) => s = built (t_params r) /\ exists e w o, (1 <= e <= n)%nat /\ nth_error (t_vals r) (e - 1) = Some sc /\ Q (t_params r) s e w m o
    | _ => True
    end.
  Lemma trials_made n k : forall d : study P M S W, sd_exn d = None -> (sb = None -> sd_st d = st0) -> Forall2 (made n) (sd_hist d) (sd_out d) ->
    let d' := ModelTask.trials sb mb tb sched suggest prune train validate true n k d in
    sd_exn d' = None -> Forall2 (made n) (sd_hist d') (sd_out d').
  Proof using Q_start Q_epoch.
    induction k as [|k IH]; intros d X I F; cbn [ModelTask.trials]; auto. cbv zeta.
    match goal with |- context [trial ?a ?b ?c ?e ?f ?g ?h ?i ?j ?l ?q] => set (d1 := trial a b c e f g h i j l q) end.
    assert (H : sd_exn d1 = None -> (sb = None -> sd_st d1 = st0) /\ Forall2 (made n) (sd_hist d1) (sd_out d1)).
    { unfold d1, trial. cbv zeta. set (p := suggest (sd_hist d)).
      assert (ST : match sb with Some f => Some (f p) | None => sd_st d end = built p) by (unfold built; destruct sb; auto). rewrite ST.
      assert (SB : sb = None -> built p = st0) by (unfold built; intros ->; auto).
      destruct (tb p (mb p)) as [o|] eqn:EO; [|discriminate].
      destruct (loop true n (sd_hist d) (built p) [] (NInf, None) (sd_w d) (mb p) o) as [[w vals] r] eqn:E.
      destruct r as [x| |[sc b]]; [discriminate| |].
      - cbn [sd_exn sd_st sd_hist sd_out]. intros _. split; auto. apply Forall2_app; auto. constructor; [exact Logic.I|constructor].
      - destruct (@loop_trained (sd_hist d) (built p) p n 0%nat [] _ _ _ _ _ _ _ _ (@Q_start p (built p) (sd_w d) o EO) eq_refl E) as (_ & C).
        destruct b as [m|]; [|discriminate]. destruct (built p) as [s|] eqn:ES; [|discriminate].
        cbn [sd_exn sd_st sd_hist sd_out]. intros _. split; auto. apply Forall2_app; auto. constructor; [|constructor].
        destruct C as [C|(m' & e' & w2 & o2 & B & L & NE & HQ)]; [discriminate|]. injection B as <-. cbn [made t_params t_vals]. split; auto.
        exists e', w2, o2. repeat split; auto; lia. }
    destruct (sd_exn d1) as [x|] eqn:X1; [congruence|]. destruct (H eq_refl) as [H1 H2]. apply IH; auto.
  Qed.
  Lemma task_run_made max_epoch k w files d files' m s sc : dict_ok files -> Inv w ->
    task_run "maximize" max_epoch k st0 w files = (d, files', Ok (m, s, sc)) ->
    exists r e w' o, In r (sd_hist d) /\ t_value r = Some sc /\ s = built (t_params r) /\ (1 <= e <= max_epoch)%nat /\ nth_error (t_vals r) (e - 1) = Some sc /\
      Q (t_params r) s e w' m o.
  Proof using inv_train inv_validate Q_start Q_epoch.
    intros DO I E. unfold ModelTask.task_run in E. cbv zeta in E. cbn [String.eqb Ascii.eqb Bool.eqb orb] in E.
    set (d0 := ModelTask.trials _ _ _ _ _ _ _ _ true max_epoch k _) in E.
    destruct (run (sd_out d0) files) as [fs r] eqn:ER. injection E as <- _ E. destruct (sd_exn d0) as [x|] eqn:X; [discriminate|]. subst r.
    destruct (@trials_tied max_epoch k (mkstudy w st0 [] [] None) eq_refl I (Forall2_nil _) X) as [_ F].
    pose proof (@trials_made max_epoch k (mkstudy w st0 [] [] None) eq_refl (fun _ => eq_refl) (Forall2_nil _) X) as F2. cbv zeta in F2. fold d0 in F, F2.
    assert (OK : forall t, In t (sd_out d0) -> match fst t with EDone sc _ => sc <> NaN | EPruned => True | EFail _ _ => False end).
    { clear - F. induction F as [|r t h l T F IH]; intros u U; [destruct U|]. destruct U as [<-|U]; [|exact (IH u U)].
      destruct t as [[|x sv|sc m] [s|]]; cbn in *; try tauto. destruct T as (_ & _ & A & _). intros ->. inversion A. }
    destruct (@run_best M (option S) (sd_out d0) files m s sc DO OK) as (b & Eb & B); [rewrite ER; auto|].
    assert (TI : forall h l j t, Forall2 tied h l -> Forall2 (made max_epoch) h l -> nth_error l j = Some t -> exists r, In r h /\ tied r t /\ made max_epoch r t).
    { clear. intros h l j t F. revert j. induction F as [|r u h l T F IH]; intros [|j] F2; cbn; try discriminate; inversion F2; subst; [injection 1 as <-; eauto|].
      intros E. destruct (IH j ltac:(auto) E) as (r' & I & T'). eauto. }
    destruct (TI _ _ _ _ F F2 Eb) as (r & IR & T & (ES & e & w' & o & L & NE & HQ)). cbn [tied] in T. destruct s as [s|]; [|tauto]. destruct T as (TV & _).
    exists r, e, w', o. repeat (split; [assumption|]). assumption.
  Qed.
  End Trained.
  End One.

  (** the tasks use [train] and [validate] only by calling them *)
  Lemma task_run_ext train train' validate validate' : (forall st (w : W) m o, train st w m o = train' st w m o) -> (forall st w m, validate st w m = validate' st w m) ->
    forall direction max_epoch k st w files,
    task_run sb mb tb sched suggest prune train validate direction max_epoch k st w files = task_run sb mb tb sched suggest prune train' validate' direction max_epoch k st w files.
  Proof.
    intros ET EV direction max_epoch k st w files. unfold task_run. cbv zeta.
    assert (L : forall mx n hist st vals best w m o, loop sched prune train validate mx n hist st vals best w m o = loop sched prune train' validate' mx n hist st vals best w m o).
    { clear - ET EV. intros mx n. induction n as [|n IH]; intros; cbn [loop]; auto. rewrite ET. destruct (train' st w m o) as [w1 [[m1 o1]|x]]; auto.
      rewrite EV. destruct (validate' st w1 m1) as [w2 [v|x]]; auto. cbv zeta. destruct (prune hist (vals ++ [v])); auto. }
    assert (T : forall mx n k d, ModelTask.trials sb mb tb sched suggest prune train validate mx n k d = ModelTask.trials sb mb tb sched suggest prune train' validate' mx n k d).
    { clear - L. intros mx n k. induction k as [|k IH]; intros d; cbn [ModelTask.trials]; auto. unfold trial. cbv zeta. rewrite !IH.
      destruct (tb _ _); auto. rewrite L. reflexivity. }
    rewrite T. reflexivity.
  Qed.
End Study.

(** * Vertex classification *)
(** the positions that a mask chooses *)
Definition chosen (mask : list bool) : list nat := filter (fun i => nth i mask false) (seq 0 (length mask)).
Lemma masked_spec {A} (dft : A) mask l : masked mask l = if Nat.eqb (length mask) (length l) then Ok (map (fun i => nth i l dft) (chosen mask)) else Err IndexError.
Proof.
  unfold masked. destruct (Nat.eqb_spec (length mask) (length l)) as [L|]; auto. f_equal. unfold chosen.
  revert l L. induction mask as [|b mask IH]; intros [|a l] L; cbn [length] in L; try discriminate; auto.
  injection L as L. cbn [combine]. change (seq 0 (length (b :: mask))) with (0%nat :: seq 1 (length mask)). rewrite <- seq_shift.
  assert (SH : forall (g : nat -> bool) n, filter g (map Datatypes.S n) = map Datatypes.S (filter (fun i => g (Datatypes.S i)) n)).
  { intros g. induction n as [|i n IHn]; cbn [map filter]; auto. rewrite IHn. destruct (g (Datatypes.S i)); auto. }
  cbn [filter]. rewrite SH. cbn [fst nth]. destruct b; cbn [map snd nth]; rewrite map_map; cbn [nth]; [f_equal|]; apply IH; auto.
Qed.
Lemma chosen_in mask i : In i (chosen mask) <-> nth i mask false = true.
Proof.
  unfold chosen. rewrite filter_In, in_seq. split; [tauto|]. intros E. split; auto. split; [lia|].
  destruct (Nat.lt_ge_cases i (length mask)); auto. rewrite nth_overflow in E by auto. discriminate.
Qed.

(** ** C189: labels that are not chosen by the masks of training and validation have no influence on what is trained and selected *)
Theorem C189_blind : forall (M O S X P : Type) (forward : M -> X -> S -> list (list R)) (update : S -> M -> O -> X -> list bool -> list Z -> M * O)
    (data data' : vdata X) evaluator sb mb tb sched (suggest : list (trec P) -> P) prune direction max_epoch k st files,
  vd_x data = vd_x data' -> vd_train data = vd_train data' -> vd_val data = vd_val data' -> length (vd_labels data) = length (vd_labels data') ->
  (forall i, nth i (vd_train data) false = true \/ nth i (vd_val data) false = true -> nth i (vd_labels data) 0 = nth i (vd_labels data') 0) ->
  vc_run forward update data evaluator sb mb tb sched suggest prune direction max_epoch k st files =
  vc_run forward update data' evaluator sb mb tb sched suggest prune direction max_epoch k st files.
Proof.
  intros M O S X P forward update data data' evaluator sb mb tb sched suggest prune direction max_epoch k st files EX ET EV EL A.
  assert (MK : forall mask, (forall i, nth i mask false = true -> nth i (vd_labels data) 0 = nth i (vd_labels data') 0) ->
    masked mask (vd_labels data) = masked mask (vd_labels data')).
  { intros mask H. rewrite !(masked_spec 0), EL. destruct (Nat.eqb _ _); auto. f_equal. apply map_ext_in. intros i I. apply H. apply chosen_in. auto. }
  assert (M1 : masked (vd_train data) (vd_labels data) = masked (vd_train data) (vd_labels data')) by (apply MK; auto).
  assert (M2 : masked (vd_val data) (vd_labels data) = masked (vd_val data) (vd_labels data')) by (apply MK; auto).
  unfold vc_run. apply task_run_ext.
  - intros s w m o. unfold vc_train. rewrite <- EX, <- ET, M1. reflexivity.
  - intros s w m. unfold vc_validate. rewrite <- EX, <- EV, M2. reflexivity.
Qed.
(** and the test looks at the labels of its own mask only *)
Theorem C189_test : forall (M S X : Type) (forward : M -> X -> S -> list (list R)) (data data' : vdata X) evaluator s m,
  vd_x data = vd_x data' -> vd_test data = vd_test data' -> length (vd_labels data) = length (vd_labels data') ->
  (forall i, nth i (vd_test data) false = true -> nth i (vd_labels data) 0 = nth i (vd_labels data') 0) ->
  vc_test forward data evaluator s m = vc_test forward data' evaluator s m.
Proof.
  intros M S X forward data data' evaluator s m EX ET EL A. unfold vc_test. rewrite <- EX, <- ET, !(masked_spec 0), EL.
  destruct (Nat.eqb _ _); auto. cbn [rbind]. erewrite map_ext_in; [reflexivity|]. intros i I. apply A. apply chosen_in. auto.
Qed.

(** ** C190: the value reported for the best trial is the validation score of the model and the structure that are kept *)
Theorem C190_reported : forall (M O S X P : Type) (forward : M -> X -> S -> list (list R)) (update : S -> M -> O -> X -> list bool -> list Z -> M * O)
    (data : vdata X) evaluator sb mb tb sched (suggest : list (trec P) -> P) prune direction max_epoch k st files d files' m s sc,
  dict_ok files ->
  vc_run forward update data evaluator sb mb tb sched suggest prune direction max_epoch k st files = (d, files', Ok (m, s, sc)) ->
  exists s0, s = Some s0 /\
    let out := forward m (vd_x data) s0 in
    let val := chosen (vd_val data) in
    validate (map (fun i => nth i (vd_labels data) 0) val, PScores (map (fun i => nth i out []) val)) evaluator = Ok (MScal sc) /\
    (* some complete trial reported it, and none reported more *)
    (exists r, In r (sd_hist d) /\ t_value r = Some sc /\ In sc (t_vals r)) /\
    (forall r v, In r (sd_hist d) -> t_value r <> None -> In v (t_vals r) -> ~ above v sc).
Proof.
  intros M O S X P forward update data evaluator sb mb tb sched suggest prune direction max_epoch k st files d files' m s sc DO E.
  apply (@task_run_ok P M O S unit sb mb tb sched suggest prune _ _ (fun _ => True)) in E; auto.
  destruct E as (_ & _ & (w1 & w2 & _ & V) & NS & _ & EX & MX). destruct s as [s|]; [|congruence]. exists s. split; auto. cbv zeta. split; auto.
  unfold vc_validate in V. injection V as _ V. rewrite (masked_spec 0), (masked_spec []) in V.
  destruct (Nat.eqb _ _); [|discriminate]. cbn [rbind] in V. destruct (Nat.eqb _ _); [|discriminate]. cbn [rbind] in V.
  destruct (validate _ evaluator) as [[v| | | |]|]; try discriminate. injection V as ->. auto.
Qed.

(** the fraction of the chosen vertices whose highest score is that of their label *)
Definition accuracy_on (argmax : list R -> Z) (out : list (list R)) (labels : list Z) (idx : list nat) : R :=
  (INR (length (filter (fun i => (argmax (nth i out []) =? nth i labels 0)%Z) idx)) / INR (length idx))%R.
Lemma accuracy_chosen argmax out labels idx : idx <> [] ->
  accuracy argmax (map (fun i => nth i labels 0) idx) (PScores (map (fun i => nth i out []) idx)) = Ok (Fin (accuracy_on argmax out labels idx)).
Proof.
  intros NE. pose proof (C60_accuracy argmax (map (fun i => nth i labels 0) idx) (PScores (map (fun i => nth i out []) idx))) as [_ H].
  cbn [pred_labels] in H. rewrite !map_length in H. destruct H as [H _]; auto; [destruct idx; [congruence|discriminate]|]. rewrite H. unfold accuracy_on. do 4 f_equal.
  unfold matches. rewrite map_map. clear. induction idx as [|i idx IH]; cbn [map combine filter]; auto. cbn [fst snd].
  rewrite Z.eqb_sym. destruct (_ =? _); cbn [length]; auto.
Qed.
Lemma test_get {T D} (e : ev T D) (d : D) t name f : NoDup (map fst (ev_fns e)) -> test d e = Ok t -> In (name, f) (ev_fns e) ->
  exists o, f d false = Ok o /\ dget name t = Some o.
Proof.
  intros ND E I. unfold test in E. match type of E with rbind ?x _ = _ => destruct x as [l|] eqn:L end; [|discriminate]. cbn [rbind] in E. injection E as <-.
  assert (G : forall fns l acc, NoDup (map fst fns) -> map_res (fun m : string * metric T D => rbind (snd m d false) (fun o => Ok (fst m, o))) fns = Ok l ->
    (forall nm, ~ In nm (map fst fns) -> dget nm (fold_left (fun acc no => dset (fst no) (snd no) acc) l acc) = dget nm acc) /\
    (In (name, f) fns -> exists o, f d false = Ok o /\ dget name (fold_left (fun acc no => dset (fst no) (snd no) acc) l acc) = Some o)).
  { clear. induction fns as [|[n g] fns IH]; intros l acc ND E; cbn [map_res] in E; [injection E as <-; split; [auto|intros []]|].
    cbn [fst snd] in E. destruct (g d false) as [o|] eqn:Eg; [|discriminate]. cbn [rbind] in E. match type of E with rbind ?x _ = _ => destruct x as [l'|] eqn:El end; [|discriminate].
    cbn [rbind] in E. injection E as <-. inversion ND as [|? ? N1 N2]; subst. cbn [fold_left fst snd].
    destruct (IH l' (dset n o acc) N2 eq_refl) as [H1 H2]. split.
    - intros nm N. rewrite H1 by (intros J; apply N; right; auto). apply dget_dset_other. intros <-. apply N. left. auto.
    - intros [I|I]; auto. injection I as <- <-. exists o. split; auto. rewrite H1 by auto. apply dget_dset_same. }
  apply (G (ev_fns e) l []); auto.
Qed.
(** for accuracy: what is reported is a fraction of the validation vertices, what the test returns a fraction of the test vertices *)
Theorem C190_accuracy : forall (M O S X P : Type) (forward : M -> X -> S -> list (list R)) (update : S -> M -> O -> X -> list bool -> list Z -> M * O)
    (data : vdata X) argmax f1 confs index evaluator sb mb tb sched (suggest : list (trec P) -> P) prune direction max_epoch k st files d files' m s sc t,
  ev_new (classification_impl argmax f1) "classification" confs index = Ok evaluator -> nth_error confs (Z.to_nat index) = Some (CName "accuracy") ->
  NoDup (map fst (ev_fns evaluator)) -> chosen (vd_val data) <> [] -> chosen (vd_test data) <> [] -> dict_ok files ->
  vc_run forward update data evaluator sb mb tb sched suggest prune direction max_epoch k st files = (d, files', Ok (m, Some s, sc)) ->
  vc_test forward data evaluator s m = Ok t ->
  let out := forward m (vd_x data) s in
  sc = Fin (accuracy_on argmax out (vd_labels data) (chosen (vd_val data))) /\
  dget "accuracy" t = Some (MScal (Fin (accuracy_on argmax out (vd_labels data) (chosen (vd_test data))))).
Proof.
  intros M O S X P forward update data argmax f1 confs index evaluator sb mb tb sched suggest prune direction max_epoch k st files d files' m s sc t
    N C ND NV NT DO E T. cbv zeta.
  destruct (C190_reported _ _ _ _ _ _ _ _ _ _ _ _ _ _ DO E) as (s0 & ES & V & _). injection ES as <-. cbv zeta in V.
  destruct (ev_new_state _ _ _ _ N) as (_ & _ & _ & _ & IX & RG & ms & FM & FN).
  assert (F : nth_error (ev_fns evaluator) (Z.to_nat index) = Some ("accuracy", classification_impl argmax f1 "accuracy" [])).
  { unfold format_metric_configs in FM. cbn [available lower lower_ascii String.eqb Ascii.eqb Bool.eqb] in FM. cbn in FM. apply map_res_inv in FM.
    assert (G : forall i, nth_error confs i = Some (CName "accuracy") -> exists q, nth_error ms i = Some q /\ format_one ["accuracy"; "f1_score"; "confusion_matrix"] (CName "accuracy") = Ok q).
    { clear - FM. induction FM as [|a b l m E F IH]; intros [|i]; cbn [nth_error]; try discriminate; auto. injection 1 as ->. eauto. }
    destruct (G _ C) as (q & Q & FO). cbn in FO. injection FO as <-. rewrite FN, nth_error_map, Q. reflexivity. }
  assert (VF : vfn evaluator = Ok (classification_impl argmax f1 "accuracy" [])) by (unfold vfn; rewrite IX, F; reflexivity).
  assert (CI : forall y p, classification_impl argmax f1 "accuracy" [] (y, p) false = rbind (accuracy argmax y p) (fun x => Ok (MScal x))) by reflexivity.
  split.
  - unfold validate in V. rewrite VF in V. cbn [rbind] in V. rewrite CI, accuracy_chosen in V by auto. cbn [rbind] in V. congruence.
  - unfold vc_test in T. rewrite (masked_spec 0), (masked_spec []) in T.
    destruct (Nat.eqb _ _); [|discriminate]. cbn [rbind] in T. destruct (Nat.eqb _ _); [|discriminate]. cbn [rbind] in T.
    destruct (@test_get R _ evaluator _ t _ _ ND T (nth_error_In _ _ F)) as (o & EO & G). rewrite G. rewrite CI, accuracy_chosen in EO by auto. cbn [rbind] in EO. congruence.
Qed.

(** a task on three vertices, one for training, one for validation, one for testing; a model is the number of its updates *)
Definition vc_ex (y : list Z) : vdata unit := mkvd tt y [true; false; false] [false; true; false] [false; false; true].
Definition vc_ex_forward (m : nat) (_ : unit) (s : bool) : list (list R) := repeat [INR m; if s then 1%R else 0%R] 3.
Definition vc_ex_update (_ : bool) (m : nat) (o : unit) (_ : unit) (_ : list bool) (y : list Z) : nat * unit := (m + length y, o)%nat.
Definition vc_ex_ev : ev R (list Z * preds (T := R)) :=
  match ev_new (classification_impl (fun _ => 0) (fun _ _ _ => Err ValueError)) "classification" [CName "accuracy"] 0 with Ok e => e | Err _ => mkev [] 0 [] None [] [] end.
Definition vc_ex_run (y : list Z) :=
  vc_run vc_ex_forward vc_ex_update (vc_ex y) vc_ex_ev (Some (fun _ : nat => true)) (fun p => p) (fun _ _ => Some tt) (fun o => o) (fun _ => 7%nat) (fun _ _ => false) "maximize" 1 1 None [].
Lemma vc_ex_validate y : length y = 3%nat ->
  vc_validate vc_ex_forward (vc_ex y) vc_ex_ev (Some true) tt 8%nat =
  (tt, Ok (Fin (accuracy_on (fun _ => 0) (vc_ex_forward 8 tt true) y (chosen [false; true; false])))).
Proof.
  intros L. unfold vc_validate. rewrite (masked_spec 0), (masked_spec []). cbn [vc_ex vd_val vd_labels vd_x]. rewrite L.
  cbn [length vc_ex_forward repeat Nat.eqb rbind]. unfold validate. change (vfn vc_ex_ev) with (@Ok (metric R (list Z * preds (T := R))) (classification_impl (fun _ => 0) (fun _ _ _ => Err ValueError) "accuracy" [])).
  cbn [rbind].
  assert (CI : forall y (p : preds (T := R)), classification_impl (fun _ => 0) (fun _ _ _ => Err ValueError) "accuracy" [] (y, p) false = rbind (accuracy (fun _ => 0) y p) (fun x => Ok (MScal x)))
    by reflexivity.
  rewrite CI, (accuracy_chosen (fun _ => 0)) by discriminate. reflexivity.
Qed.
Lemma vc_ex_result y : length y = 3%nat -> exists d f, vc_ex_run y =
  (d, f, Ok (8%nat, Some true, Fin (accuracy_on (fun _ => 0) (vc_ex_forward 8 tt true) y (chosen [false; true; false])))).
Proof.
  intros L. destruct y as [|a [|b [|c [|]]]]; try discriminate L. pose proof (vc_ex_validate [a; b; c] eq_refl) as V.
  unfold vc_ex_run, vc_run, task_run. cbn -[vc_validate accuracy_on chosen run vc_ex_ev INR]. rewrite V. cbn -[accuracy_on chosen run INR].
  set (x := accuracy_on _ _ _ _). do 2 eexists. reflexivity.
Qed.
Lemma vc_ex_new : ev_new (classification_impl (fun _ => 0) (fun _ _ _ => Err ValueError)) "classification" [CName "accuracy"] 0 = Ok vc_ex_ev.
Proof. reflexivity. Qed.
(** the label of the test vertex is not looked at, that of the validation vertex is *)
Example C189_blind_ex : vc_ex_run [0; 0; 0] = vc_ex_run [0; 0; 1] /\ snd (vc_ex_run [0; 0; 0]) <> snd (vc_ex_run [0; 1; 0]).
Proof.
  split.
  - unfold vc_ex_run. apply C189_blind; auto. intros [|[|[|]]]; cbn; intros [|]; auto; discriminate.
  - destruct (@vc_ex_result [0; 0; 0] eq_refl) as (d & f & ->). destruct (@vc_ex_result [0; 1; 0] eq_refl) as (d' & f' & ->). cbn [snd].
    intros E. injection E as E. unfold accuracy_on in E. cbn in E. lra.
Qed.
Example C190_accuracy_ex : exists d f sc t,
  vc_ex_run [0; 0; 1] = (d, f, Ok (8%nat, Some true, sc)) /\ vc_test vc_ex_forward (vc_ex [0; 0; 1]) vc_ex_ev true 8%nat = Ok t /\
  sc = Fin 1%R /\ dget "accuracy" t = Some (MScal (Fin 0%R)).
Proof.
  destruct (@vc_ex_result [0; 0; 1] eq_refl) as (d & f & E).
  assert (T : exists t, vc_test vc_ex_forward (vc_ex [0; 0; 1]) vc_ex_ev true 8%nat = Ok t).
  { unfold vc_test. rewrite (masked_spec 0), (masked_spec []). cbn [vc_ex vd_test vd_labels vd_x length vc_ex_forward repeat Nat.eqb rbind]. unfold test.
    change (ev_fns vc_ex_ev) with [("accuracy"%string, classification_impl (fun _ : list R => 0) (fun _ _ _ => Err ValueError) "accuracy" [])].
    assert (CI : forall y (p : preds (T := R)), classification_impl (fun _ => 0) (fun _ _ _ => Err ValueError) "accuracy" [] (y, p) false = rbind (accuracy (fun _ => 0) y p) (fun x => Ok (MScal x)))
      by reflexivity.
    cbn [map_res snd fst]. rewrite CI, (accuracy_chosen (fun _ => 0)) by discriminate. cbn [rbind]. eauto. }
  destruct T as [t T]. exists d, f. do 2 eexists. split; [exact E|]. split; [exact T|].
  unfold vc_ex_run in E.
  edestruct (@C190_accuracy nat unit bool unit nat) as [H1 H2]; [exact vc_ex_new|reflexivity| | | | |exact E|exact T|]; try discriminate.
  - cbn. repeat constructor. intros [].
  - constructor.
  - split; [|rewrite H2; do 3 f_equal]; [f_equal|]; unfold accuracy_on; cbn; lra.
Qed.

(** ** C197: a task that asks for a confusion matrix ends with an exception after the search *)
(** the function that a configuration asks for *)
Definition asks (c : config) : option string := match c with CName s => Some s | CDict [(s, _)] => Some s | _ => None end.
Lemma in_dset {V} (k : string) (v : V) (d : dict string V) k' v' : In (k', v') (dset k v d) -> (k' = k /\ v' = v) \/ In (k', v') d.
Proof.
  induction d as [|[a b] d IH]; cbn [dset].
  - intros [E|[]]. injection E as <- <-. auto.
  - destruct (eqb k a) eqn:EK; intros [E|I]; try (right; right; assumption).
    + injection E as <- <-. apply eqb_eq in EK. auto.
    + right. left. auto.
    + destruct (IH I) as [J|J]; auto. right. right. auto.
Qed.
Lemma in_keys_dset {V} (k : string) (v : V) (d : dict string V) k' : k' = k \/ In k' (map fst d) -> In k' (map fst (dset k v d)).
Proof.
  induction d as [|[a b] d IH]; cbn [dset map].
  - intros [->|[]]. left. auto.
  - destruct (eqb k a) eqn:EK; cbn [map fst In]; intros [->|[<-|I]]; auto. apply eqb_eq in EK. auto.
Qed.
Lemma test_values {T D} (e : ev T D) (d : D) t : test d e = Ok t ->
  (forall name o, In (name, o) t -> exists f, In (name, f) (ev_fns e) /\ f d false = Ok o) /\
  (forall name f, In (name, f) (ev_fns e) -> exists o, In (name, o) t).
Proof.
  intros E. unfold test in E. match type of E with rbind ?x _ = _ => destruct x as [l|] eqn:L end; [|discriminate]. cbn [rbind] in E. injection E as <-.
  assert (G : forall l (acc : dict string (mout T)),
    (forall nm o, In (nm, o) (fold_left (fun acc no => dset (fst no) (snd no) acc) l acc) -> In (nm, o) acc \/ In (nm, o) l) /\
    (forall nm, In nm (map fst acc) \/ In nm (map fst l) -> In nm (map fst (fold_left (fun acc no => dset (fst no) (snd no) acc) l acc)))).
  { clear. induction l as [|[n v] l IH]; intros acc; cbn [fold_left map]; [split; [auto|intros nm [I|[]]; auto]|]. destruct (IH (dset n v acc)) as [H1 H2]. cbn [fst snd] in *. split.
    - intros nm o I. destruct (H1 _ _ I) as [J|J]; [|right; right; auto]. apply in_dset in J. destruct J as [[-> ->]|J]; [right; left; auto|left; auto].
    - intros nm I. apply H2. destruct I as [I|[<-|I]]; auto; left; apply in_keys_dset; auto. }
  pose proof (map_res_inv _ _ L) as FA. clear L. destruct (G l []) as [H1 H2]. split.
  - intros nm o I. destruct (H1 _ _ I) as [[]|J]. clear - FA J. induction FA as [|[n f] y fns l E F IH]; [destruct J|]. cbn [fst snd] in E.
    destruct (f d false) as [x|] eqn:EF; [|discriminate]. cbn [rbind] in E. injection E as <-. destruct J as [J|J].
    + injection J as <- <-. exists f. split; [left|]; auto.
    + destruct (IH J) as (g & I & EG). exists g. split; [right|]; auto.
  - intros nm f I. assert (J : In nm (map fst l)).
    { clear - FA I. induction FA as [|[n g] y fns l E F IH]; [destruct I|]. cbn [fst snd] in E. destruct (g d false); [|discriminate]. cbn [rbind] in E. injection E as <-.
      destruct I as [I|I]; [injection I as -> ->; left; auto|right; auto]. }
    pose proof (H2 nm (or_intror J)) as K. apply in_map_iff in K. destruct K as ([n o] & EN & K). cbn in EN. subst. eauto.
Qed.
Lemma report_ok t : vc_report t = Ok tt <-> (forall name o, In (name, o) t -> exists v, o = MScal v).
Proof.
  induction t as [|[n o] t IH]; cbn [vc_report]; [split; auto; intros _ ? ? []|]. split.
  - destruct o; try discriminate. intros E nm o [I|I]; [injection I as <- <-; eauto|]. apply IH in I; auto.
  - intros A. destruct (A n o (or_introl eq_refl)) as [v ->]. apply IH. intros nm o I. apply (A nm). right. auto.
Qed.
Lemma report_err t : vc_report t <> Ok tt -> vc_report t = Err TypeError.
Proof. induction t as [|[n o] t IH]; cbn [vc_report]; [congruence|]. destruct o; auto. Qed.
Theorem C197_actual : forall (M O S X P : Type) (forward : M -> X -> S -> list (list R)) (update : S -> M -> O -> X -> list bool -> list Z -> M * O)
    (data : vdata X) argmax f1 confs index evaluator sb mb tb sched (suggest : list (trec P) -> P) prune direction max_epoch k st files d files' m s sc t,
  ev_new (classification_impl argmax f1) "classification" confs index = Ok evaluator ->
  (* the search ends well, and so does the test *)
  vc_run forward update data evaluator sb mb tb sched suggest prune direction max_epoch k st files = (d, files', Ok (m, Some s, sc)) ->
  vc_test forward data evaluator s m = Ok t ->
  vc_task forward update data evaluator sb mb tb sched suggest prune direction max_epoch k st files =
  if existsb (fun c => match asks c with Some n => String.eqb n "confusion_matrix" | None => false end) confs then Err TypeError else Ok (m, Some s, sc, t).
Proof.
  intros M O S X P forward update data argmax f1 confs index evaluator sb mb tb sched suggest prune direction max_epoch k st files d files' m s sc t N E T.
  unfold vc_task. rewrite E. cbn [rbind]. rewrite T. cbn [rbind].
  destruct (ev_new_state _ _ _ _ N) as (_ & _ & _ & _ & IX & RG & ms & FM & FN).
  unfold format_metric_configs in FM. cbn [available lower lower_ascii String.eqb Ascii.eqb Bool.eqb] in FM. cbn in FM. apply map_res_inv in FM.
  assert (TT : exists y p, test (y, PScores p) evaluator = Ok t).
  { unfold vc_test in T. destruct (masked _ _) as [y|]; [|discriminate]. cbn [rbind] in T. destruct (masked _ _) as [p|]; [|discriminate]. eauto. }
  clear E T N IX RG. destruct TT as (y & p & T). destruct (test_values _ _ T) as [V1 V2]. rewrite FN in V1, V2.
  (* what a configuration asks for is told by the first letter of its marker, and decides on the form of the result *)
  assert (G : forall mk nm ps o, In (mk, (nm, ps)) ms -> classification_impl argmax f1 nm ps (y, PScores p) false = Ok o ->
    (exists r, mk = String.append "c" r) /\ (exists q, o = MMat q) /\ nm = "confusion_matrix"%string \/
    (~ exists r, mk = String.append "c" r) /\ (exists v, o = MScal v) /\ nm <> "confusion_matrix"%string).
  { intros mk nm ps o I EO.
    assert (C : exists c, format_one ["accuracy"; "f1_score"; "confusion_matrix"] c = Ok (mk, (nm, ps))).
    { clear - FM I. induction FM as [|a b l m0 E F IH]; [destruct I|]. destruct I as [->|I]; eauto. }
    assert (K : In nm ["accuracy"; "f1_score"; "confusion_matrix"]%string /\ exists r, mk = String.append nm r).
    { destruct C as [[s0|[|[s0 ps0] [|]]|] C]; cbn [format_one] in C; try discriminate; destruct (str_in s0 _) eqn:SI; try discriminate; injection C as <- <- _;
        (split; [unfold str_in in SI; apply existsb_exists in SI; destruct SI as (z & IZ & EZ); apply String.eqb_eq in EZ; subst; exact IZ|]);
        [exists ""%string; clear; induction s0 as [|z s0 IH]; cbn; congruence|unfold marker_of; eexists; reflexivity]. }
    destruct K as [[<-|[<-|[<-|[]]]] [r ->]].
    - right. unfold classification_impl in EO. cbn [String.eqb Ascii.eqb Bool.eqb] in EO. destruct (kw_only _ _); [|discriminate]. destruct (accuracy _ _ _); [|discriminate]. cbn [rbind] in EO.
      injection EO as <-. split; [intros [r' Q]; discriminate Q|]. split; [eauto|discriminate].
    - right. unfold classification_impl in EO. cbn [String.eqb Ascii.eqb Bool.eqb] in EO. destruct (kw_only _ _); [|discriminate]. destruct (format_classes _ _ _) as [[y1 p1]|]; [|discriminate]. cbn [rbind] in EO.
      destruct (f1 _ _ _); [|discriminate]. cbn [rbind] in EO.
      injection EO as <-. split; [intros [r' Q]; discriminate Q|]. split; [eauto|discriminate].
    - left. unfold classification_impl in EO. cbn [String.eqb Ascii.eqb Bool.eqb] in EO. destruct (kw_only _ _); [|discriminate]. destruct (confusion_matrix _ _ _); [|discriminate]. cbn [rbind] in EO.
      injection EO as <-. split; [eexists; reflexivity|]. split; [eauto|reflexivity]. }
  assert (V1' : forall mk o, In (mk, o) t -> exists nm ps, In (mk, (nm, ps)) ms /\ classification_impl argmax f1 nm ps (y, PScores p) false = Ok o).
  { intros mk o I. destruct (V1 _ _ I) as (f & J & EF). apply in_map_iff in J. destruct J as ([mk' [nm ps]] & EQ & J). injection EQ as -> <-. eauto. }
  assert (FO : forall c q, format_one ["accuracy"; "f1_score"; "confusion_matrix"] c = Ok q -> asks c = Some (fst (snd q))).
  { intros [s0|[|[s0 ps0] [|]]|] q C; cbn [format_one] in C; try discriminate; destruct (str_in s0 _); try discriminate; injection C as <-; reflexivity. }
  destruct (existsb _ confs) eqn:EX.
  - rewrite report_err; auto. intros OK. apply existsb_exists in EX. destruct EX as (c & IC & EC).
    assert (I : exists mk ps, In (mk, ("confusion_matrix"%string, ps)) ms).
    { clear - FM FO IC EC. induction FM as [|a b l m0 E F IH]; [destruct IC|]. destruct IC as [->|IC].
      - rewrite (FO _ _ E) in EC. apply String.eqb_eq in EC. destruct b as [mk [nm ps]]. cbn in EC. subst. exists mk, ps. left. auto.
      - destruct (IH IC) as (mk & ps & I). exists mk, ps. right. auto. }
    destruct I as (mk & ps & I). destruct (V2 mk (classification_impl argmax f1 "confusion_matrix" ps)) as [o J].
    { apply in_map_iff. exists (mk, ("confusion_matrix"%string, ps)). auto. }
    destruct (V1' _ _ J) as (nm' & ps' & I' & EO). destruct (proj1 (report_ok t) OK _ _ J) as [v ->].
    destruct (G _ _ _ _ I' EO) as [(_ & (q & ?) & _)|(NC & _ & _)]; [discriminate|]. apply NC.
    clear - FM I.
    assert (C : exists c, format_one ["accuracy"; "f1_score"; "confusion_matrix"] c = Ok (mk, ("confusion_matrix"%string, ps))).
    { induction FM as [|? ? l m0 E F IH]; [destruct I|]. destruct I as [->|I]; eauto. }
    destruct C as [[s0|[|[s0 ps0] [|]]|] C]; cbn [format_one] in C; try discriminate; destruct (str_in s0 _); try discriminate; injection C; intros; subst; eexists; reflexivity.
  - rewrite (proj2 (report_ok t)); [reflexivity|]. intros mk o J. destruct (V1' _ _ J) as (nm & ps & I & EO).
    destruct (G _ _ _ _ I EO) as [(_ & _ & ->)|(_ & V & _)]; auto. exfalso.
    clear - FM FO EX I. induction FM as [|a b l m0 E F IH]; [destruct I|]. cbn [existsb] in EX. apply Bool.orb_false_iff in EX. destruct EX as [EA EX]. destruct I as [->|I]; auto.
    rewrite (FO _ _ E) in EA. discriminate.
Qed.

(** the task of the examples above, asked for its accuracy and for the confusion matrix *)
Definition vc_cm_ev : ev R (list Z * preds (T := R)) :=
  match ev_new (classification_impl (fun _ => 0) (fun _ _ _ => Err ValueError)) "classification" [CName "accuracy"; CName "confusion_matrix"] 0 with Ok e => e | Err _ => mkev [] 0 [] None [] [] end.
Definition vc_ex_task (e : ev R (list Z * preds (T := R))) (y : list Z) :=
  vc_task vc_ex_forward vc_ex_update (vc_ex y) e (Some (fun _ : nat => true)) (fun p => p) (fun _ _ => Some tt) (fun o => o) (fun _ => 7%nat) (fun _ _ => false) "maximize" 1 1 None [].
Example C197_ex : vc_ex_task vc_cm_ev [0; 0; 1] = Err TypeError /\ (exists sc t, vc_ex_task vc_ex_ev [0; 0; 1] = Ok (8%nat, Some true, sc, t)).
Proof.
  assert (CI : forall y (p : preds (T := R)), classification_impl (fun _ => 0) (fun _ _ _ => Err ValueError) "accuracy" [] (y, p) false = rbind (accuracy (fun _ => 0) y p) (fun x => Ok (MScal x)))
    by reflexivity.
  assert (CM : forall y (p : preds (T := R)), classification_impl (fun _ => 0) (fun _ _ _ => Err ValueError) "confusion_matrix" [] (y, p) false =
    rbind (confusion_matrix (fun _ => 0) y p) (fun m => Ok (MMat (map (map (fun z => Fin (nofZ z))) m)))) by reflexivity.
  split.
  - assert (V : vc_validate vc_ex_forward (vc_ex [0; 0; 1]) vc_cm_ev (Some true) tt 8%nat = vc_validate vc_ex_forward (vc_ex [0; 0; 1]) vc_ex_ev (Some true) tt 8%nat) by reflexivity.
    rewrite vc_ex_validate in V by reflexivity.
    assert (E : exists d f sc, vc_run vc_ex_forward vc_ex_update (vc_ex [0; 0; 1]) vc_cm_ev (Some (fun _ : nat => true)) (fun p => p) (fun _ _ => Some tt) (fun o => o) (fun _ => 7%nat) (fun _ _ => false) "maximize" 1 1 None []
      = (d, f, Ok (8%nat, Some true, sc))).
    { unfold vc_run, task_run. cbn -[vc_validate accuracy_on chosen run vc_cm_ev INR]. rewrite V. cbn -[accuracy_on chosen run INR].
      set (x := accuracy_on _ _ _ _). do 3 eexists. reflexivity. }
    destruct E as (d & f & sc & E).
    assert (T : exists t, vc_test vc_ex_forward (vc_ex [0; 0; 1]) vc_cm_ev true 8%nat = Ok t).
    { unfold vc_test. rewrite (masked_spec 0), (masked_spec []). cbn [vc_ex vd_test vd_labels vd_x length vc_ex_forward repeat Nat.eqb rbind]. unfold test.
      change (ev_fns vc_cm_ev) with [("accuracy"%string, classification_impl (fun _ : list R => 0) (fun _ _ _ => Err ValueError) "accuracy" []);
        ("confusion_matrix"%string, classification_impl (fun _ : list R => 0) (fun _ _ _ => Err ValueError) "confusion_matrix" [])].
      cbn [map_res snd fst]. rewrite CI, CM, (accuracy_chosen (fun _ => 0)) by discriminate. cbn [rbind].
      assert (C : exists q, confusion_matrix (fun _ : list R => 0) (map (fun i => nth i [0; 0; 1] 0) (chosen [false; false; true])) (PScores (map (fun i => nth i (repeat [INR 8; 1%R] 3) []) (chosen [false; false; true]))) = Ok q)
        by (eexists; cbv -[INR]; reflexivity).
      destruct C as [q C]. cbn [repeat] in C. cbn [repeat]. rewrite C. cbn [rbind]. eauto. }
    destruct T as [t T]. unfold vc_ex_task.
    assert (N : ev_new (classification_impl (fun _ => 0) (fun _ _ _ => Err ValueError)) "classification" [CName "accuracy"; CName "confusion_matrix"] 0 = Ok vc_cm_ev) by reflexivity.
    eapply eq_trans; [eapply C197_actual; [exact N|exact E|exact T]|reflexivity].
  - destruct (@vc_ex_result [0; 0; 1] eq_refl) as (d & f & E). unfold vc_ex_run in E.
    assert (T : exists t, vc_test vc_ex_forward (vc_ex [0; 0; 1]) vc_ex_ev true 8%nat = Ok t).
    { destruct C190_accuracy_ex as (? & ? & ? & t & _ & T & _). eauto. }
    destruct T as [t T]. do 2 eexists. unfold vc_ex_task.
    eapply eq_trans; [eapply C197_actual; [exact vc_ex_new|exact E|exact T]|reflexivity].
Qed.

(** * Recommendation *)
(** a sample of a test set: user, row of the mask, true ratings; a batch of samples for [n] items *)
Definition rsample := (Z * list (fl R) * list R)%type.
Definition user_of (s : rsample) : Z := fst (fst s).
Definition mask_of (s : rsample) : list (fl R) := snd (fst s).
Definition true_of (s : rsample) : list R := snd s.
Definition b_of (n : nat) (p : list rsample) : rbatch := mkrb (map user_of p) (map mask_of p) (V2 n (map true_of p)).
(** samples for [n] items *)
Definition wf_samples (n : nat) (users : list rsample) : Prop :=
  forall s, In s users -> 0 <= user_of s /\ length (mask_of s) = n /\ length (true_of s) = n.
(** a pass over a loader: batches, none of them empty, that hold the samples in any order *)
Definition pass (n : nat) (users : list rsample) (l : list rbatch) : Prop :=
  exists parts, parts <> [] /\ (forall p, In p parts -> p <> []) /\ l = map (b_of n) parts /\ Permutation (concat parts) users.
(** the inner product *)
Definition inner (a b : list R) : R := fold_right Rplus 0%R (map (fun k => (nth k a 0 * nth k b 0)%R) (seq 0 (length a))).
Lemma dot_inner a : forall b, dot a b = inner a b.
Proof.
  unfold dot, inner. induction a as [|x a IH]; intros b; auto. cbn [length seq map fold_right]. rewrite <- seq_shift, map_map. destruct b as [|y b].
  - cbn [combine sumf nth]. replace (fold_right Rplus 0%R _) with 0%R; [cbn; lra|]. clear. induction (seq 0 (length a)) as [|i l IH]; auto. cbn [map fold_right]. rewrite <- IH.
    destruct i; cbn; lra.
  - cbn [combine sumf nth]. rewrite IH. reflexivity.
Qed.
(** the scores of a user for all items: inner products of the embeddings plus the mask *)
Definition user_scores (emb : list (list R) * list (list R)) (s : rsample) : list (fl R) :=
  map (fun i => fadd (Fin (inner (nth (Z.to_nat (user_of s)) (fst emb) []) (nth i (snd emb) []))) (nth i (mask_of s) NaN)) (seq 0 (length (snd emb))).
Definition row (emb : list (list R) * list (list R)) (s : rsample) : list R * list (fl R) := (true_of s, user_scores emb s).

Lemma fadd_left_comm (a b c : fl R) : fadd a (fadd b c) = fadd b (fadd a c).
Proof. destruct a, b, c; cbn; auto. f_equal. ring. Qed.
Lemma fmean_perm (l l' : list (fl R)) : Permutation l l' -> fmean l = fmean l'.
Proof.
  intros PM. unfold fmean. rewrite (Permutation_length PM). replace (fold_right fadd (Fin nz) l') with (fold_right fadd (Fin nz) l); auto.
  induction PM; cbn [fold_right]; auto; [congruence|apply fadd_left_comm|congruence].
Qed.
Lemma check_perm (l l' : list R) : Permutation l l' -> check_binary l = Ok tt -> check_binary l' = Ok tt.
Proof.
  intros PM E. pose proof (check_binary_spec l) as H. rewrite E in H. destruct H as [I U]. apply check_binary_ok.
  - intros x X. apply U. apply Permutation_in with l'; auto. apply Permutation_sym; auto.
  - apply Permutation_in with l; auto.
Qed.
Lemma concat_perm {A} (l l' : list (list A)) : Permutation l l' -> Permutation (concat l) (concat l').
Proof.
  induction 1; cbn [concat]; auto; [apply Permutation_app_head; auto| |econstructor; eauto].
  rewrite !app_assoc. apply Permutation_app_tail, Permutation_app_comm.
Qed.
(** the metrics of the task "recommender": a check that does not depend on the order of the samples, and a number per sample *)
Lemma recommender_rows {P} (argsort : list P -> list nat) name ps :
  exists (chk : list (list R * list P) -> res unit) (h : nat -> list R * list P -> fl R),
    (forall n rows rb, samples n rows -> recommender_impl argsort name ps (batch n rows) rb = rbind (chk rows) (fun _ => Ok (pack rb (map (h n) rows)))) /\
    (forall rows rows', Permutation rows rows' -> chk rows = Ok tt -> chk rows' = Ok tt).
Proof.
  Local Ltac bad := eexists (fun _ => Err _), (fun _ _ => NaN); split; [intros; reflexivity|discriminate].
  unfold recommender_impl.
  destruct (String.eqb name "precision"); [|destruct (String.eqb name "recall"); [|destruct (String.eqb name "ndcg"); [|bad]]];
    (destruct (kw_only _ ps); [|bad]); (destruct (kw_k ps) as [k|x]; [|bad]);
    (destruct (kw_ratio ps) as [[r|]|x]; [exists (fun _ => Err NameError), (fun _ _ => NaN); split; [|discriminate]| |bad]).
  1, 3, 5 : intros n rows rb SM; cbn [batch rbind]; unfold precision_rc, recall_rc, ndcg_rc; destruct (format_batch k (Some r) SM) as [_ ->]; reflexivity.
  1 : eexists (fun rows => check_binary (concat (map fst rows))), (fun n => _). 
  2 : eexists (fun rows => check_binary (concat (map fst rows))), (fun n => _). 
  3 : eexists (fun rows => Ok tt), (fun n => _). 
  all : split; [|intros; auto; try (eapply check_perm; [|eassumption]; apply concat_perm, Permutation_map; auto)].
  all : intros n rows rb SM; cbn [batch rbind]; unfold precision_rc, recall_rc, ndcg_rc; destruct (format_batch k None SM) as [_ ->];
    unfold precision_of, recall_of, ndcg_of; cbn [rbind]; reflexivity.
Qed.

Lemma np_index_nth {A} (l : list A) dft i x : 0 <= i -> np_index l i = Ok x -> (Z.to_nat i < length l)%nat /\ x = nth (Z.to_nat i) l dft.
Proof.
  intros G E. unfold np_index in E. destruct (Z.ltb_spec i 0); [lia|]. destruct (Z.ltb_spec i 0); [lia|].
  destruct (nth_error l (Z.to_nat i)) as [y|] eqn:N; [|discriminate]. injection E as ->. split; [apply nth_error_Some; congruence|].
  symmetry. apply nth_error_nth; auto.
Qed.
Lemma mask_row (ei : list (list R)) (u : list R) (mask : list (fl R)) : length mask = length ei ->
  map (fun '(i, x) => fadd (Fin (dot u i)) x) (combine ei mask) =
  map (fun i => fadd (Fin (inner u (nth i ei []))) (nth i mask NaN)) (seq 0 (length ei)).
Proof.
  revert mask. induction ei as [|i ei IH]; intros [|x mask] L; cbn [length] in L; try discriminate; auto.
  cbn [combine map length seq]. rewrite <- seq_shift, map_map. f_equal; [rewrite dot_inner; reflexivity|]. rewrite IH by lia. reflexivity.
Qed.
Lemma scores_ok dev mdev emb n p t : wf_samples n p -> p <> [] -> scores dev mdev emb (b_of n p) = Ok t ->
  dev = mdev /\ length (snd emb) = n /\ (forall s, In s p -> (Z.to_nat (user_of s) < length (fst emb))%nat) /\ t = V2 n (map (user_scores emb) p).
Proof.
  intros WF NE E. unfold scores in E. cbn [b_of b_users b_mask] in E.
  destruct (map_res (np_index (fst emb)) (map user_of p)) as [rows|] eqn:ER; [|discriminate]. cbn [rbind] in E.
  destruct (device_eqb dev mdev) eqn:DV; [|discriminate]. cbn [negb] in E.
  destruct (_ && _)%bool eqn:B; [|discriminate]. cbn [negb] in E. injection E as <-. apply andb_true_iff in B as [_ B].
  assert (L : length (snd emb) = n).
  { destruct p as [|s p]; [tauto|]. cbn [map forallb] in B. apply andb_true_iff in B as [B _]. apply Nat.eqb_eq in B.
    destruct (WF s (or_introl eq_refl)) as (_ & M & _). lia. }
  rewrite L. split; [destruct dev, mdev; cbn in DV; congruence|]. split; auto. clear B NE.
  assert (G : forall p rows, wf_samples n p -> map_res (np_index (fst emb)) (map user_of p) = Ok rows ->
    (forall s, In s p -> (Z.to_nat (user_of s) < length (fst emb))%nat) /\
    map (fun '(u, mask) => map (fun '(i, x) => fadd (Fin (dot u i)) x) (combine (snd emb) mask)) (combine rows (map mask_of p)) = map (user_scores emb) p).
  { clear - L. induction p as [|s p IH]; intros rows WF E; cbn [map map_res] in E; [injection E as <-; cbn; split; auto; intros s []|].
    destruct (np_index (fst emb) (user_of s)) as [u|] eqn:EU; [|discriminate]. cbn [rbind] in E.
    destruct (map_res _ (map user_of p)) as [us|] eqn:EP; [|discriminate]. cbn [rbind] in E. injection E as <-.
    destruct (IH us) as [I1 I2]; auto; [intros z Z1; apply WF; right; auto|]. destruct (WF s (or_introl eq_refl)) as (U & M & _).
    destruct (np_index_nth _ [] U EU) as [R1 R2]. split; [intros z [<-|Z1]; auto|]. cbn [map combine]. f_equal; auto.
    unfold user_scores. rewrite mask_row by lia. subst u. auto. }
  destruct (G _ _ WF ER) as [G1 G2]. split; auto. f_equal. exact G2.
Qed.
Lemma batch_rows emb n p : (V2 n (map true_of p), V2 n (map (user_scores emb) p)) = batch n (map (row emb) p).
Proof. unfold batch. rewrite !map_map. reflexivity. Qed.
(** batches added in turn *)
Fixpoint feed_all {D} (add : D -> ev R D -> ev R D * res unit) (ds : list D) (e : ev R D) : ev R D * res unit :=
  match ds with [] => (e, Ok tt) | d :: r => match add d e with (e, Err x) => (e, Err x) | (e, Ok _) => feed_all add r e end end.
(** a successful pass: every batch was scored and added *)
Lemma feed_ok dev mdev emb n add parts : (forall p, In p parts -> wf_samples n p) -> (forall p, In p parts -> p <> []) -> parts <> [] ->
  forall e e' u, feed dev add mdev emb (map (b_of n) parts) e = (e', Ok u) ->
  dev = mdev /\ length (snd emb) = n /\ (forall s, In s (concat parts) -> (Z.to_nat (user_of s) < length (fst emb))%nat) /\
  feed_all add (map (fun p => batch n (map (row emb) p)) parts) e = (e', Ok tt).
Proof.
  intros WF NE NP e e' u. revert e. induction parts as [|p parts IH]; [tauto|]. intros e E. cbn [map feed] in E.
  destruct (scores dev mdev emb (b_of n p)) as [t|] eqn:ES; [|discriminate].
  destruct (@scores_ok dev mdev emb n p t) as (D1 & D2 & D3 & ->); auto; [apply WF; left; auto|apply NE; left; auto|].
  cbn [b_of b_true] in E. rewrite batch_rows in E. cbn [feed_all map]. destruct (add (batch n (map (row emb) p)) e) as [e1 [v|]]; [|discriminate].
  split; auto. split; auto. destruct parts as [|q parts].
  - cbn in E. injection E as -> _. split; auto. cbn [concat]. rewrite app_nil_r. auto.
  - destruct (IH ltac:(intros; apply WF; right; auto) ltac:(intros; apply NE; right; auto) ltac:(discriminate) e1 E) as (_ & _ & I3 & I4). split; auto.
    cbn [concat]. intros s I. apply in_app_or in I as [I|I]; auto.
Qed.

Definition numbers {D} (f : metric R D) (d : D) : list (fl R) := match f d true with Ok (MList l) => l | _ => [] end.
Definition same_but_val {D} (e e' : ev R D) : Prop :=
  ev_fns e' = ev_fns e /\ ev_index e' = ev_index e /\ ev_test e' = ev_test e /\ ev_last e' = ev_last e.
Lemma feed_validate {D} (f : metric R D) (NU : forall d, (exists l, f d true = Ok (MList l)) \/ (exists x, f d true = Err x)) ds : forall e e',
  vfn e = Ok f -> feed_all validate_add_batch ds e = (e', Ok tt) ->
  same_but_val e e' /\ ev_val e' = ev_val e ++ val_store (numbers f) ds /\ forall d, In d ds -> f d true = Ok (MList (numbers f d)).
Proof.
  induction ds as [|d ds IH]; intros e e' V E; cbn [feed_all] in E.
  - injection E as <-. cbn [val_store map]. rewrite app_nil_r. repeat split; auto. intros d [].
  - unfold validate_add_batch at 1 in E. rewrite V in E. cbn [rbind] in E. destruct (NU d) as [(l & EF)|(x & EF)]; rewrite EF in E; [|discriminate].
    apply IH in E; [|exact V]. destruct E as ((E1 & E2 & E3 & E4) & EV & EA). cbn [ev_fns ev_index ev_test ev_last ev_val] in *.
    split; [repeat split; auto|]. split.
    + rewrite EV, <- app_assoc. f_equal. cbn [val_store map app]. unfold numbers at 2. rewrite EF. reflexivity.
    + intros z [<-|Z1]; auto. unfold numbers. rewrite EF. auto.
Qed.
Lemma add_all_ok {D} (fns : list (string * metric R D)) d : forall t t', add_all fns d t = (t', Ok tt) -> forall nf, In nf fns -> exists o, snd nf d true = Ok o.
Proof.
  induction fns as [|[name f] fns IH]; intros t t' E nf I; [destruct I|]. cbn [add_all] in E.
  destruct (f d true) as [o|] eqn:EF; [|discriminate]. cbn [rbind] in E. destruct (add_result o (tget name t)) as [l|]; [|discriminate].
  destruct I as [<-|I]; eauto.
Qed.
Lemma feed_test {D} ds : forall (e : ev R D) e', feed_all test_add_batch ds e = (e', Ok tt) ->
  e' = ev_run (map ETestAdd ds) e /\ forall d nf, In d ds -> In nf (ev_fns e) -> exists o, snd nf d true = Ok o.
Proof.
  induction ds as [|d ds IH]; intros e e' E; cbn [feed_all] in E.
  - injection E as <-. split; auto. intros d nf [].
  - destruct (test_add_batch d e) as [e1 [u|]] eqn:EA; [|discriminate]. destruct (IH _ _ E) as [I1 I2]. split.
    + rewrite I1. unfold ev_run. cbn [map fold_left ev_step]. rewrite EA. auto.
    + unfold test_add_batch in EA. destruct (add_all (ev_fns e) d (ev_test e)) as [t r] eqn:AA. injection EA as <- ->. destruct u.
      intros z nf [<-|Z1] I; [eapply add_all_ok; eauto|]. apply (I2 z nf); auto.
Qed.
Lemma test_batches_add {D} (ds : list D) : forall cur last, test_batches (map ETestAdd ds) cur last = (cur ++ ds, last).
Proof. induction ds as [|d ds IH]; intros cur last; cbn [map test_batches]; [rewrite app_nil_r|rewrite IH, <- app_assoc]; auto. Qed.

Section Rec.
  Variables M S : Type.
  Variable forward : M -> option S -> list (list R) * list (list R).
  Variables (test_loader : nat -> list rbatch) (dev : device).
  Variable argsort : list (fl R) -> list nat.
  Variables (confs : list config) (index : Z) (e0 : ev R (tensor R * tensor (fl R))).
  Hypothesis NEW : ev_new (recommender_impl argsort) "recommender" confs index = Ok e0.
  Variables (n : nat) (users : list rsample).
  Hypothesis WF : wf_samples n users.
  Hypothesis PASS : forall i, pass n users (test_loader i).
  Local Notation D := (tensor R * tensor (fl R))%type.

  Definition idle (w : @rstate) : Prop :=
    let '(e, _, _) := w in ev_fns e = ev_fns e0 /\ ev_index e = ev_index e0 /\ ev_val e = [] /\ ev_test e = [] /\ ev_last e = [].
  Lemma fns_impl nf : In nf (ev_fns e0) -> exists name ps, snd nf = recommender_impl argsort name ps.
  Proof using NEW.
    destruct (ev_new_state _ _ _ _ NEW) as (_ & _ & _ & _ & _ & _ & ms & _ & ->). intros I. apply in_map_iff in I as ([mk [name ps]] & <- & _). cbn. eauto.
  Qed.
  Lemma fresh_idle i j : idle (e0, i, j).
  Proof using NEW. destruct (ev_new_state _ _ _ _ NEW) as (V & _ & T & L & _). cbn. auto. Qed.
  Lemma marked : exists mk name ps, nth_error (ev_fns e0) (Z.to_nat index) = Some (mk, recommender_impl argsort name ps) /\ vfn e0 = Ok (recommender_impl argsort name ps).
  Proof using NEW.
    destruct (ev_new_state _ _ _ _ NEW) as (_ & _ & _ & _ & IX & RG & _). destruct (nth_error (ev_fns e0) (Z.to_nat index)) as [[mk f]|] eqn:E.
    - destruct (fns_impl _ (nth_error_In _ _ E)) as (name & ps & EF). cbn in EF. subst f. exists mk, name, ps. split; auto. unfold vfn. rewrite IX, E. auto.
    - apply nth_error_None in E. lia.
  Qed.
  Lemma parts_of i : exists parts, parts <> [] /\ (forall p, In p parts -> p <> []) /\ (forall p, In p parts -> wf_samples n p) /\
    test_loader i = map (b_of n) parts /\ Permutation (concat parts) users.
  Proof using WF PASS.
    destruct (PASS i) as (parts & N1 & N2 & E & PM). exists parts. repeat split; auto;
      (apply WF; apply Permutation_in with (concat parts); auto; apply in_concat; eauto).
  Qed.
  Lemma samples_row emb p : length (snd emb) = n -> wf_samples n p -> samples n (map (row emb) p).
  Proof using Type.
    intros L W r I. apply in_map_iff in I as (s & <- & I). destruct (W s I) as (_ & _ & T). cbn. split; auto. unfold user_scores. rewrite map_length, seq_length. auto.
  Qed.

  Lemma rec_validate_ok st w m w' sc : idle w -> rec_validate forward test_loader dev st w m = (w', Ok sc) ->
    idle w' /\ length (snd (forward m st)) = n /\ (forall s, In s users -> (Z.to_nat (user_of s) < length (fst (forward m st)))%nat) /\
    ModelEval.validate (batch n (map (row (forward m st)) users)) e0 = Ok (MScal sc).
  Proof using NEW WF PASS.
    destruct w as [[e i] j]. intros (F1 & F2 & F3 & F4 & F5) E. unfold rec_validate in E.
    destruct (parts_of i) as (parts & N1 & N2 & W & EL & PM). rewrite EL in E. set (emb := forward m st) in *.
    destruct (feed dev validate_add_batch dev emb (map (b_of n) parts) e) as [e1 [u|x]] eqn:EF; [|discriminate].
    destruct (@feed_ok dev dev emb n validate_add_batch parts W N2 N1 e e1 u EF) as (_ & L & RG & FA). destruct marked as (mk & name & ps & _ & V).
    assert (Ve : vfn e = Ok (recommender_impl argsort name ps)) by (unfold vfn in *; rewrite F1, F2; auto).
    set (f := recommender_impl argsort name ps) in *.
    destruct (@feed_validate D f (recommender_numeric argsort name ps) _ _ _ Ve FA) as ((B1 & B2 & B3 & B4) & BV & BO).
    rewrite F3 in BV. cbn [app] in BV. set (ds := map (fun p => batch n (map (row emb) p)) parts) in *.
    assert (ND : ds <> []) by (unfold ds; destruct parts; [tauto|discriminate]).
    assert (VE : exists e2, validate_epoch_res e1 = (e2, Ok (fmean (concat (map (numbers f) ds)))) /\ same_but_val e1 e2 /\ ev_val e2 = []).
    { unfold validate_epoch_res. rewrite BV. pose proof (@val_mean R _ _ D (numbers f) ds ND) as VM. clear - ND VM B1.
      clearbody ds. destruct ds as [|d0 ds]; [tauto|]. cbn [val_store map] in VM |- *. rewrite VM. eexists. split; [reflexivity|]. split; [repeat split|]; auto. }
    destruct VE as (e2 & VE & (C1 & C2 & C3 & C4) & CV). rewrite VE in E. injection E as <- <-.
    split; [cbn; repeat split; congruence|]. split; auto. split.
    { intros s I. apply RG. apply Permutation_in with users; auto. apply Permutation_sym; auto. }
    destruct (recommender_rows argsort name ps) as (chk & h & RH & RP). fold f in RH.
    assert (AC : forall p, In p parts -> chk (map (row emb) p) = Ok tt /\ numbers f (batch n (map (row emb) p)) = map (h n) (map (row emb) p)).
    { intros p I. pose proof (BO (batch n (map (row emb) p)) ltac:(apply in_map_iff; eauto)) as EO. rewrite RH in EO by (apply samples_row; auto).
      destruct (chk (map (row emb) p)) as [[]|]; [|discriminate]. cbn [rbind pack] in EO. split; auto. congruence. }
    assert (WC : wf_samples n (concat parts)) by (intros s I; apply WF; apply Permutation_in with (concat parts); auto).
    assert (EN : concat (map (numbers f) ds) = map (h n) (map (row emb) (concat parts))).
    { unfold ds. rewrite (map_map (fun p => batch n (map (row emb) p))), (map_map (row emb) (h n)), concat_map. f_equal. apply map_ext_in. intros p I.
      destruct (AC p I) as [_ ->]. apply map_map. }
    assert (CK : chk (map (row emb) (concat parts)) = Ok tt).
    { destruct (@recommender_rowwise _ argsort name ps n (map (map (row emb)) parts) (map (h n))) as [RW _].
      - destruct parts; [tauto|discriminate].
      - intros b I. apply in_map_iff in I as (p & <- & I). apply samples_row; auto.
      - intros b I. apply in_map_iff in I as (p & <- & I). fold f. rewrite RH by (apply samples_row; auto). destruct (AC p I) as [-> _]. reflexivity.
      - fold f in RW. rewrite <- concat_map in RW. rewrite RH in RW by (apply samples_row; auto). destruct (chk _) as [[]|]; [auto|discriminate]. }
    unfold ModelEval.validate. rewrite V. cbn [rbind]. rewrite RH by (apply samples_row; auto).
    rewrite (RP _ _ (Permutation_map (row emb) PM) CK). cbn [rbind pack]. do 2 f_equal. rewrite EN. apply fmean_perm.
    apply Permutation_map, Permutation_map, Permutation_sym. auto.
  Qed.
  Lemma rec_test_ok st w m w' t : idle w -> NoDup (map fst (ev_fns e0)) -> rec_test forward test_loader dev st w m = (w', Ok t) ->
    dev = Cpu /\ length (snd (forward m st)) = n /\
    forall mk f, In (mk, f) (ev_fns e0) -> exists x, dget mk t = Some (OScal x) /\
      forall y, f (batch n (map (row (forward m st)) users)) false = Ok (MScal y) -> y = x.
  Proof using NEW WF PASS.
    destruct w as [[e i] j]. intros (F1 & F2 & F3 & F4 & F5) ND E. unfold rec_test in E.
    destruct (parts_of i) as (parts & N1 & N2 & W & EL & PM). rewrite EL in E. set (emb := forward m st) in *.
    destruct (feed dev test_add_batch Cpu emb (map (b_of n) parts) e) as [e1 [u|x]] eqn:EF; [|discriminate].
    destruct (@feed_ok dev Cpu emb n test_add_batch parts W N2 N1 e e1 u EF) as (DV & L & RG & FA). split; auto. split; auto.
    set (ds := map (fun p => batch n (map (row emb) p)) parts) in *.
    destruct (@feed_test D ds e e1 FA) as [-> FO]. rewrite F1 in FO.
    set (ms := map (fun nf => (fst nf, VNum (numbers (snd nf)))) (ev_fns e0) : list (string * vals R D)).
    assert (NM : NoDup (map fst ms)) by (unfold ms; rewrite map_map; cbn [fst]; auto).
    assert (NE : ms <> []).
    { destruct marked as (mk & name & ps & EI & _). unfold ms. destruct (ev_fns e0); [destruct (Z.to_nat index); discriminate|discriminate]. }
    assert (RL : forall d, In d ds -> realises (ev_fns e0) ms d).
    { intros d I. unfold realises, ms.
      assert (G : forall l, (forall nf, In nf l -> In nf (ev_fns e0)) -> Forall2 (fun (f : string * metric R D) m => fst f = fst m /\ yields (snd f) (snd m) d) l
        (map (fun nf => (fst nf, VNum (numbers (snd nf)))) l)).
      { induction l as [|nf l IH]; intros HI; cbn [map]; constructor; [|apply IH; intros; apply HI; right; auto]. cbn [fst snd]. split; auto.
        destruct (FO d nf I (HI _ (or_introl eq_refl))) as (o & EO). destruct (fns_impl nf (HI _ (or_introl eq_refl))) as (name & ps & EI).
        cbn [yields]. unfold numbers. destruct (recommender_numeric argsort name ps d) as [(l0 & El)|(x & El)]; rewrite <- EI in El; rewrite El; congruence. }
      apply G; auto. }
    pose proof (@test_history R _ _ D ms NM NE (map ETestAdd ds) e [] None) as TH. cbv zeta in TH. rewrite test_batches_add in TH. cbn [app] in TH. rewrite F1 in TH.
    destruct TH as (T1 & T2 & T3 & T4); auto; [intros d []|intros d I; apply RL; apply in_map_iff in I as (z & EZ & I); congruence|].
    destruct (@test_result R _ _ D ms NM NE (ev_run (map ETestAdd ds) e) ds None) as [TR _]; auto; [rewrite T1; auto|].
    destruct (test_epoch_res (ev_run (map ETestAdd ds) e)) as [e2 r]. cbn [snd] in TR. subst r. injection E as _ <-.
    assert (NDS : ds <> []) by (unfold ds; destruct parts; [tauto|discriminate]).
    intros mk f I. unfold current. cbn [fst snd]. destruct ds as [|d0 ds'] eqn:DS; [tauto|]. rewrite <- DS in *. cbn [test_last].
    exists (fmean (concat (map (numbers f) ds))). split.
    { assert (G : forall l, NoDup (map fst l) -> In (mk, f) l -> dget mk (map (fun m : string * vals R D => (fst m, epoch_val (snd m) ds))
        (map (fun nf : string * metric R D => (fst nf, VNum (numbers (snd nf)))) l)) = Some (OScal (fmean (concat (map (numbers f) ds))))).
      { clear. induction l as [|[k g] l IH]; intros ND I; [destruct I|]. cbn [map fst snd dget]. cbn [map fst] in ND. inversion ND as [|? ? A B]; subst.
        destruct (eqb_spec mk k) as [->|NK].
        - destruct I as [I|I]; [injection I as ->; auto|]. exfalso. apply A. apply in_map_iff. exists (k, f). auto.
        - destruct I as [I|I]; [injection I; intros; subst; tauto|]. apply IH; auto. }
      apply G; auto. }
    intros y EY. destruct (fns_impl _ I) as (name & ps & EI). cbn [snd] in EI. subst f.
    destruct (recommender_rows argsort name ps) as (chk & h & RH & RP). rewrite RH in EY by (apply samples_row; auto).
    destruct (chk _) as [[]|]; [|discriminate]. cbn [rbind pack] in EY. injection EY as <-.
    assert (EN : concat (map (numbers (recommender_impl argsort name ps)) ds) = map (h n) (map (row emb) (concat parts))).
    { unfold ds. rewrite (map_map (fun p => batch n (map (row emb) p))), (map_map (row emb) (h n)), concat_map. f_equal. apply map_ext_in. intros p J. rewrite <- (map_map (row emb) (h n)).
      destruct (FO (batch n (map (row emb) p)) _ ltac:(apply in_map_iff; eauto) I) as (o & EO). cbn [snd] in EO.
      assert (SR : samples n (map (row emb) p)) by (apply samples_row; auto). unfold numbers. rewrite (RH n _ true SR) in EO |- *.
      destruct (chk (map (row emb) p)); [|discriminate]. reflexivity. }
    rewrite EN. apply fmean_perm. apply Permutation_map, Permutation_map, Permutation_sym. auto.
  Qed.
End Rec.

(** ** C186: the value that a task of recommendation reports and maximises is its metric over all users *)
Theorem C186_reported : forall (M O S P : Type) (forward : M -> option S -> list (list R) * list (list R)) (update : option S -> M -> O -> list (Z * Z * Z) -> M * O)
    train_loader test_loader dev argsort confs index e0 n users sb mb tb sched (suggest : list (trec P) -> P) prune direction max_epoch k st i j files d files' m s sc,
  ev_new (recommender_impl argsort) "recommender" confs index = Ok e0 ->
  wf_samples n users -> (forall i, pass n users (test_loader i)) -> dict_ok files ->
  rec_run forward update train_loader test_loader dev sb mb tb sched suggest prune direction max_epoch k st (e0, i, j) files = (d, files', Ok (m, s, sc)) ->
  length (snd (forward m s)) = n /\ (forall u, In u users -> (Z.to_nat (user_of u) < length (fst (forward m s)))%nat) /\
  (* whatever the batches are *)
  validate (V2 n (map true_of users), V2 n (map (user_scores (forward m s)) users)) e0 = Ok (MScal sc) /\
  (* some complete trial reported it, and none reported more *)
  (exists r, In r (sd_hist d) /\ t_value r = Some sc /\ In sc (t_vals r)) /\
  (forall r v, In r (sd_hist d) -> t_value r <> None -> In v (t_vals r) -> ~ above v sc).
Proof.
  intros M O S P forward update train_loader test_loader dev argsort confs index e0 n users sb mb tb sched suggest prune direction max_epoch k st i j files d files' m s sc
    N W PS DO E.
  apply (@task_run_ok P M O S _ sb mb tb sched suggest prune _ _ (idle e0)) in E; auto.
  - destruct E as (_ & _ & (w1 & w2 & I1 & V) & _ & _ & EX & MX).
    destruct (@rec_validate_ok M S forward test_loader dev argsort confs index e0 N n users W PS _ _ _ _ _ I1 V) as (_ & L & RG & VV). rewrite <- batch_rows in VV. auto.
  - intros s1 [[e a] b] m1 o I1 w' r T. cbn [rec_train] in T. injection T as <- _. exact I1.
  - intros s1 w m1 I1 w' r V. apply (@rec_validate_ok M S forward test_loader dev argsort confs index e0 N n users W PS _ _ _ _ _ I1 V).
  - eapply fresh_idle; eauto.
Qed.

(** ** C192: the model that a search returns is the one that its trial builds, trained for as many epochs as it took to report its value,
    on the training data only *)
(** an epoch: one step with the labels of the training vertices, then the scheduler *)
Definition vc_epoch {M O S X} (update : S -> M -> O -> X -> list bool -> list Z -> M * O) (sched : O -> O) (data : vdata X) (s : S) (mo : M * O) : M * O :=
  let m' := update s (fst mo) (snd mo) (vd_x data) (vd_train data) (map (fun i => nth i (vd_labels data) 0) (chosen (vd_train data))) in
  (fst m', sched (snd m')).
Theorem C192_classification : forall (M O S X P : Type) (forward : M -> X -> S -> list (list R)) (update : S -> M -> O -> X -> list bool -> list Z -> M * O)
    (data : vdata X) evaluator sb mb tb sched (suggest : list (trec P) -> P) prune direction max_epoch k st files d files' m s sc,
  dict_ok files ->
  vc_run forward update data evaluator sb mb tb sched suggest prune direction max_epoch k st files = (d, files', Ok (m, s, sc)) ->
  exists r e s0 o, In r (sd_hist d) /\ t_value r = Some sc /\ (1 <= e <= max_epoch)%nat /\ nth_error (t_vals r) (e - 1) = Some sc /\
    s = Some s0 /\ match sb with Some f => s0 = f (t_params r) | None => st = Some s0 end /\
    tb (t_params r) (mb (t_params r)) = Some o /\
    m = fst (Nat.iter e (vc_epoch update sched data s0) (mb (t_params r), o)).
Proof.
  intros M O S X P forward update data evaluator sb mb tb sched suggest prune direction max_epoch k st files d files' m s sc DO E. unfold vc_run in E.
  assert (D : direction = "maximize"%string /\ s <> None).
  { pose proof E as E1. apply (@task_run_ok P M O S unit sb mb tb sched suggest prune _ _ (fun _ => True)) in E1; auto.
    destruct E1 as (DI & _ & _ & SN & _). auto. }
  destruct D as [-> NS].
  apply (@task_run_made P M O S unit sb mb tb sched suggest prune _ _ (fun _ => True)) with
    (Q := fun p s e _ m o => exists o0, tb p (mb p) = Some o0 /\ forall s0, s = Some s0 -> (m, o) = Nat.iter e (vc_epoch update sched data s0) (mb p, o0)) in E; auto.
  - destruct E as (r & e & w' & o & IR & TV & ES & L & NE & o0 & EO & HM). destruct s as [s0|]; [|congruence].
    exists r, e, s0, o0. do 5 (split; [assumption || reflexivity|]). split; [|split; [assumption|]].
    + unfold built in ES. destruct sb; congruence.
    + rewrite <- (HM s0 eq_refl). reflexivity.
  - intros p s1 _ o EO. exists o. split; auto.
  - intros p s1 e w0 m1 o1 w1 m2 o2 w2 v (o0 & EO & HM) T _. exists o0. split; auto. intros s0 ->. unfold vc_train in T. apply (f_equal snd) in T. cbn [snd] in T.
    destruct (masked (vd_train data) (forward m1 (vd_x data) s0)); [|discriminate]. cbn [rbind] in T.
    rewrite (masked_spec 0) in T. destruct (Nat.eqb _ _); [|discriminate]. cbn [rbind] in T. injection T as T.
    cbn [Nat.iter nat_rect]. change (nat_rect _ _ _ e) with (Nat.iter e (vc_epoch update sched data s0) (mb p, o0)). rewrite <- (HM s0 eq_refl).
    unfold vc_epoch. cbn [fst snd]. rewrite T. reflexivity.
Qed.
(** one pass over the training loader: a step for each batch, in turn, then the scheduler *)
Definition rec_epoch {M O S} (update : option S -> M -> O -> list (Z * Z * Z) -> M * O) (sched : O -> O) (s : option S) (mo : M * O) (batches : list (list (Z * Z * Z))) : M * O :=
  let m' := fold_left (fun mo b => update s (fst mo) (snd mo) b) batches mo in (fst m', sched (snd m')).
Theorem C192_recommender : forall (M O S P : Type) (forward : M -> option S -> list (list R) * list (list R)) (update : option S -> M -> O -> list (Z * Z * Z) -> M * O)
    train_loader test_loader dev sb mb tb sched (suggest : list (trec P) -> P) prune direction max_epoch k st w files d files' m s sc,
  dict_ok files ->
  rec_run forward update train_loader test_loader dev sb mb tb sched suggest prune direction max_epoch k st w files = (d, files', Ok (m, s, sc)) ->
  exists r e s0 o j, In r (sd_hist d) /\ t_value r = Some sc /\ (1 <= e <= max_epoch)%nat /\ nth_error (t_vals r) (e - 1) = Some sc /\
    s = Some s0 /\ match sb with Some f => s0 = f (t_params r) | None => st = Some s0 end /\
    tb (t_params r) (mb (t_params r)) = Some o /\
    (* consecutive passes of the loader, whose batches may differ *)
    m = fst (fold_left (rec_epoch update sched s) (map train_loader (seq j e)) (mb (t_params r), o)).
Proof.
  intros M O S P forward update train_loader test_loader dev sb mb tb sched suggest prune direction max_epoch k st w files d files' m s sc DO E. unfold rec_run in E.
  assert (D : direction = "maximize"%string /\ s <> None).
  { pose proof E as E1. apply (@task_run_ok P M O S _ sb mb tb sched suggest prune _ _ (fun _ => True)) in E1; auto.
    destruct E1 as (DI & _ & _ & SN & _). auto. }
  destruct D as [-> NS].
  apply (@task_run_made P M O S _ sb mb tb sched suggest prune _ _ (fun _ => True)) with
    (Q := fun p s e w m o => exists o0 j, tb p (mb p) = Some o0 /\ snd w = (j + e)%nat /\ (m, o) = fold_left (rec_epoch update sched s) (map train_loader (seq j e)) (mb p, o0)) in E; auto.
  - destruct E as (r & e & w' & o & IR & TV & ES & L & NE & o0 & j & EO & _ & HM). destruct s as [s0|]; [|congruence].
    exists r, e, s0, o0, j. do 5 (split; [assumption || reflexivity|]). split; [|split; [assumption|]].
    + unfold built in ES. destruct sb; congruence.
    + rewrite <- HM. reflexivity.
  - intros p s1 w1 o EO. exists o, (snd w1). repeat split; auto.
  - intros p s1 e [[ev i] j'] m1 o1 w1 m2 o2 w2 v (o0 & j & EO & EJ & HM) T V. exists o0, j. split; auto. cbn [rec_train] in T. injection T as <- T.
    cbn [snd] in EJ. split.
    + unfold rec_validate in V. destruct (feed _ _ _ _ _) as [ev1 [u|x]]; [|discriminate]. destruct (validate_epoch_res ev1) as [ev2 y]. injection V as <- _. cbn [snd]. lia.
    + rewrite seq_S, map_app, fold_left_app, <- HM. cbn [map fold_left]. unfold rec_epoch. rewrite EJ in T.
      assert (FE : forall l mo, fold_left (fun '(m, o) b => update s1 m o b) l mo = fold_left (fun mo b => update s1 (fst mo) (snd mo) b) l mo).
      { induction l as [|b l IH]; intros [a c]; cbn [fold_left fst snd]; auto. }
      rewrite FE in T. rewrite T. reflexivity.
Qed.

(** ** C188: the validation of a task of recommendation runs over the test set: the test result is the number that was maximised over all
    epochs and trials *)
Theorem C188_actual : forall (M O S P : Type) (forward : M -> option S -> list (list R) * list (list R)) (update : option S -> M -> O -> list (Z * Z * Z) -> M * O)
    train_loader test_loader dev argsort confs index e0 n users sb mb tb sched (suggest : list (trec P) -> P) prune direction max_epoch k st i j files m s sc t,
  ev_new (recommender_impl argsort) "recommender" confs index = Ok e0 -> NoDup (map fst (ev_fns e0)) ->
  wf_samples n users -> (forall i, pass n users (test_loader i)) -> dict_ok files ->
  rec_task forward update train_loader test_loader dev sb mb tb sched suggest prune direction max_epoch k st (e0, i, j) files = Ok (m, s, sc, t) ->
  exists marker f, nth_error (ev_fns e0) (Z.to_nat index) = Some (marker, f) /\ dget marker t = Some (OScal sc).
Proof.
  intros M O S P forward update train_loader test_loader dev argsort confs index e0 n users sb mb tb sched suggest prune direction max_epoch k st i j files m s sc t
    N ND W PS DO E. unfold rec_task in E.
  destruct (rec_run _ _ _ _ _ _ _ _ _ _ _ _ _ _ _ _) as [[d fs] [[[m1 s1] sc1]|x]] eqn:ER; [|discriminate]. cbn [rbind] in E.
  destruct (rec_test forward test_loader dev s1 (sd_w d) m1) as [w' [t1|x]] eqn:ET; [|discriminate]. cbn [snd rbind] in E. injection E as -> -> -> ->.
  assert (V := ER). eapply C186_reported in V; eauto. destruct V as (_ & _ & V & _). rewrite batch_rows in V.
  apply (@task_run_ok P M O S _ sb mb tb sched suggest prune _ _ (idle e0)) in ER; auto.
  - destruct ER as (_ & IE & _). destruct (@rec_test_ok M S forward test_loader dev argsort confs index e0 N n users W PS _ _ _ _ _ IE ND ET) as (_ & _ & G).
    destruct (@marked argsort confs index e0 N) as (mk & name & ps & NE & VF). exists mk, (recommender_impl argsort name ps). split; auto.
    destruct (G _ _ (nth_error_In _ _ NE)) as (x & EG & U). unfold validate in V. rewrite VF in V. cbn [rbind] in V. rewrite (U _ V). auto.
  - intros s2 [[e a] b] m2 o I1 w2 r T. cbn [rec_train] in T. injection T as <- _. exact I1.
  - intros s2 w m2 I1 w2 r V2. apply (@rec_validate_ok M S forward test_loader dev argsort confs index e0 N n users W PS _ _ _ _ _ I1 V2).
  - eapply fresh_idle; eauto.
Qed.

(** ** C191: away from the CPU no task of recommendation reaches a test result: the masks of the test are not moved to the device *)
Theorem C191_actual : forall (M O S P : Type) (forward : M -> option S -> list (list R) * list (list R)) (update : option S -> M -> O -> list (Z * Z * Z) -> M * O)
    train_loader test_loader argsort confs index e0 n users sb mb tb sched (suggest : list (trec P) -> P) prune direction max_epoch k st i j files d files' m s sc,
  ev_new (recommender_impl argsort) "recommender" confs index = Ok e0 ->
  wf_samples n users -> (forall i, pass n users (test_loader i)) -> dict_ok files ->
  rec_run forward update train_loader test_loader Gpu sb mb tb sched suggest prune direction max_epoch k st (e0, i, j) files = (d, files', Ok (m, s, sc)) ->
  rec_task forward update train_loader test_loader Gpu sb mb tb sched suggest prune direction max_epoch k st (e0, i, j) files = Err RuntimeError.
Proof.
  intros M O S P forward update train_loader test_loader argsort confs index e0 n users sb mb tb sched suggest prune direction max_epoch k st i j files d files' m s sc
    N W PS DO E. unfold rec_task. rewrite E. cbn [rbind].
  eapply C186_reported in E; eauto. destruct E as (_ & RG & _).
  destruct (sd_w d) as [[e a] b]. unfold rec_test. destruct (PS a) as (parts & N1 & N2 & -> & PM).
  destruct parts as [|p parts]; [tauto|]. cbn [map feed].
  assert (SE : scores Gpu Cpu (forward m s) (b_of n p) = Err RuntimeError).
  { unfold scores. cbn [b_of b_users].
    assert (G : exists rows, map_res (np_index (fst (forward m s))) (map user_of p) = Ok rows).
    { assert (IP : forall z, In z p -> 0 <= user_of z /\ (Z.to_nat (user_of z) < length (fst (forward m s)))%nat).
      { intros z Z1. assert (In z users) by (apply Permutation_in with (concat (p :: parts)); auto; cbn [concat]; apply in_or_app; auto). split; [apply W; auto|auto]. }
      clear - IP. induction p as [|z p IH]; cbn [map map_res]; eauto. destruct (IP z (or_introl eq_refl)) as [A B].
      destruct IH as [rows ->]; [intros; apply IP; right; auto|]. unfold np_index. destruct (Z.ltb_spec (user_of z) 0); [lia|]. destruct (Z.ltb_spec (user_of z) 0); [lia|].
      destruct (nth_error _ _) as [x|] eqn:EN; [|apply nth_error_None in EN; lia]. cbn [rbind]. eauto. }
    destruct G as [rows ->]. reflexivity. }
  rewrite SE. reflexivity.
Qed.

(** ** C187: items of the training set rank below all others *)
(** a possible [torch.argsort(descending=True)] of floats without nan; nothing is said about equal scores *)
Definition sorts_fl (argsort : list (fl R) -> list nat) : Prop := forall p, (forall x, In x p -> x <> NaN) ->
  Permutation (argsort p) (seq 0 (length p)) /\ StronglySorted (fun i j => ~ above (nth j p NaN) (nth i p NaN)) (argsort p).
Definition to_R (x : fl Z) : fl R := match x with Fin z => Fin (IZR z) | PInf => PInf | NInf => NInf | NaN => NaN end.

Lemma sorted_split (ord : list nat) (low : nat -> bool) (rel : nat -> nat -> Prop) :
  StronglySorted rel ord -> (forall i j, In i ord -> In j ord -> rel i j -> low i = true -> low j = true) ->
  ord = filter (fun i => negb (low i)) ord ++ filter low ord.
Proof.
  induction ord as [|i ord IH]; intros SS H; auto. inversion SS as [|? ? S1 S2]; subst. cbn [filter].
  assert (E : ord = filter (fun i => negb (low i)) ord ++ filter low ord) by (apply IH; auto; intros; eapply H; eauto; right; auto).
  destruct (low i) eqn:L; cbn [negb].
  - assert (A : forall j, In j ord -> low j = true).
    { intros j J. rewrite Forall_forall in S2. apply (H i j); auto; [left; auto|right; auto]. }
    assert (N : filter (fun j => negb (low j)) ord = []).
    { clear - A. induction ord as [|j ord IH]; auto. cbn [filter]. rewrite (A j (or_introl eq_refl)). apply IH. intros; apply A; right; auto. }
    rewrite N in *. cbn [app] in *. congruence.
  - cbn [app]. congruence.
Qed.
Lemma sorted_filter {A} (rel : A -> A -> Prop) (p : A -> bool) l : StronglySorted rel l -> StronglySorted rel (filter p l).
Proof.
  induction 1 as [|a l S1 IH F]; cbn [filter]; [constructor|]. destruct (p a); auto. constructor; auto.
  rewrite Forall_forall in *. intros x I. apply filter_In in I as [I _]. auto.
Qed.
Lemma sorted_weaken {A} (r1 r2 : A -> A -> Prop) l : (forall x y, In x l -> In y l -> r1 x y -> r2 x y) -> StronglySorted r1 l -> StronglySorted r2 l.
Proof.
  intros H S1. induction S1 as [|a l S1 IH F]; constructor.
  - apply IH. intros; apply H; auto; right; auto.
  - rewrite Forall_forall in *. intros x I. apply H; auto; [left; auto|right; auto].
Qed.

Lemma nth_map_seq {A} (g : nat -> A) n i dft : (i < n)%nat -> nth i (map g (seq 0 n)) dft = g i.
Proof.
  intros L. apply nth_error_nth. rewrite nth_error_map. replace (nth_error (seq 0 n) i) with (Some i); auto.
  symmetry. rewrite (nth_error_nth' _ 0%nat), seq_nth by (try rewrite seq_length; lia). auto.
Qed.
Theorem C187_unseen_first : forall nu ni l t strict ds ri ru rc fuel u mask rating emb y argsort,
  uid_new nu ni l (Some t) strict "test" = Ok ds -> (forall u i, In (u, i) l \/ In (u, i) t -> 0 <= i < ni) -> 0 <= ni ->
  uid_get ri ru rc fuel ds u = Some (Ok (GRow u mask rating)) -> length (snd emb) = Z.to_nat ni -> sorts_fl argsort ->
  let product i := inner (nth (Z.to_nat u) (fst emb) []) (nth i (snd emb) []) in
  exists top rest, argsort (user_scores emb (u, map to_R mask, y)) = top ++ rest /\ NoDup (top ++ rest) /\
    (forall i, In i top <-> (i < Z.to_nat ni)%nat /\ ~ In (u, Z.of_nat i) t) /\
    (forall i, In i rest <-> (i < Z.to_nat ni)%nat /\ In (u, Z.of_nat i) t) /\
    StronglySorted (fun i j => (product j <= product i)%R) top.
Proof.
  intros nu ni l t strict ds ri ru rc fuel u mask rating emb y argsort D IR NN G LE AS product.
  destruct (@C61_test _ _ _ _ _ _ D IR NN ri ru rc fuel u) as (mask' & rating' & G' & LM & _ & MV). rewrite G in G'. injection G' as <- <-.
  set (s := (u, map to_R mask, y)). set (sc := user_scores emb s).
  assert (LS : length sc = Z.to_nat ni) by (unfold sc, user_scores; rewrite map_length, seq_length; auto).
  set (seen := fun i : nat => existsb (fun p => eqb p (u, Z.of_nat i)) t).
  assert (SN : forall i, seen i = true <-> In (u, Z.of_nat i) t).
  { intros i. unfold seen. rewrite existsb_exists. split; [intros (x & I & E); apply eqb_eq in E; subst; auto|intros I; exists (u, Z.of_nat i); split; auto; apply eqb_refl]. }
  assert (NV : forall i, (i < Z.to_nat ni)%nat -> nth i sc NaN = if seen i then NInf else Fin (product i)).
  { intros i I. destruct (MV (Z.of_nat i)) as (A & B & _); [lia|]. rewrite Nat2Z.id in A, B. unfold sc, user_scores.
    rewrite nth_map_seq by lia. cbn [user_of mask_of s fst snd]. fold (product i).
    rewrite nth_indep with (d' := to_R NaN) by (rewrite map_length; lia). rewrite map_nth.
    destruct (seen i) eqn:E.
    - apply SN in E. rewrite (nth_error_nth _ _ _ (A E)). reflexivity.
    - assert (N : ~ In (u, Z.of_nat i) t) by (intros J; apply SN in J; congruence). rewrite (nth_error_nth _ _ _ (B N)). cbn. f_equal. ring. }
  destruct (AS sc) as [PM SS].
  { intros x I E. subst x. apply In_nth with (d := NaN) in I as (i & I & E). rewrite LS in I. rewrite NV in E by auto. destruct (seen i); discriminate. }
  set (ord := argsort sc) in *.
  assert (RG : forall i, In i ord <-> (i < Z.to_nat ni)%nat).
  { intros i. split; intros I.
    - apply (Permutation_in _ PM) in I. apply in_seq in I. lia.
    - apply (Permutation_in _ (Permutation_sym PM)). apply in_seq. lia. }
  assert (SP : ord = filter (fun i => negb (seen i)) ord ++ filter seen ord).
  { eapply sorted_split; [exact SS|]. cbn. intros i j I J NA Si. destruct (seen j) eqn:Sj; auto. exfalso. apply NA.
    rewrite !NV by (apply RG; auto). rewrite Si, Sj. constructor. }
  exists (filter (fun i => negb (seen i)) ord), (filter seen ord). split; auto. split.
  { rewrite <- SP. eapply Permutation_NoDup; [apply Permutation_sym; exact PM|apply seq_NoDup]. }
  split; [|split].
  - intros i. rewrite filter_In, RG, negb_true_iff. rewrite <- SN. destruct (seen i); intuition congruence.
  - intros i. rewrite filter_In, RG, SN. tauto.
  - eapply sorted_weaken; [|apply sorted_filter; exact SS]. cbn. intros i j I J NA. apply filter_In in I as [I Si]. apply filter_In in J as [J Sj].
    rewrite !NV in NA by (apply RG; auto). apply negb_true_iff in Si, Sj. rewrite Si, Sj in NA. destruct (Rle_dec (product j) (product i)); auto.
    exfalso. apply NA. constructor. lra.
Qed.
(** so that precision@k of a user is the fraction of the k best unseen items that the test set holds *)
Definition rating_R (x : fl Z) : R := match x with Fin z => IZR z | _ => 0%R end.
Definition in_set (l : list (Z * Z)) (u : Z) (i : nat) : bool := existsb (fun p => eqb p (u, Z.of_nat i)) l.
Theorem C187_precision : forall nu ni l t strict ds ri ru rc fuel u mask rating emb argsort k,
  uid_new nu ni l (Some t) strict "test" = Ok ds -> (forall u i, In (u, i) l \/ In (u, i) t -> 0 <= i < ni) -> 0 <= ni ->
  uid_get ri ru rc fuel ds u = Some (Ok (GRow u mask rating)) -> length (snd emb) = Z.to_nat ni -> sorts_fl argsort ->
  (exists i, In (u, i) l) -> (1 <= k)%nat -> (k <= length (filter (fun i => negb (in_set t u i)) (seq 0 (Z.to_nat ni))))%nat ->
  let product i := inner (nth (Z.to_nat u) (fst emb) []) (nth i (snd emb) []) in
  let y := map rating_R rating in
  exists best, length best = k /\ NoDup best /\
    (forall i, In i best -> (i < Z.to_nat ni)%nat /\ in_set t u i = false) /\
    (forall i j, In i best -> (j < Z.to_nat ni)%nat -> in_set t u j = false -> ~ In j best -> (product j <= product i)%R) /\
    precision_rc argsort (V2 (Z.to_nat ni) [y]) (V2 (Z.to_nat ni) [user_scores emb (u, map to_R mask, y)]) (Some (Z.of_nat k)) None true =
    Ok (MList [Fin (INR (length (filter (in_set l u) best)) / INR k)%R]).
Proof.
  intros nu ni l t strict ds ri ru rc fuel u mask rating emb argsort k D IR NN G LE AS (i0 & I0) K1 K2 product y.
  destruct (@C187_unseen_first nu ni l t strict ds ri ru rc fuel u mask rating emb y argsort D IR NN G LE AS) as (top & rest & EO & ND & IT & IRS & SS).
  assert (IS : forall l i, in_set l u i = true <-> In (u, Z.of_nat i) l).
  { clear. intros l i. unfold in_set. rewrite existsb_exists. split; [intros (x & I & E); apply eqb_eq in E; subst; auto|intros I; exists (u, Z.of_nat i); split; auto; apply eqb_refl]. }
  assert (IN : forall l i, in_set l u i = false <-> ~ In (u, Z.of_nat i) l).
  { intros l1 i. rewrite <- IS. destruct (in_set l1 u i); intuition congruence. }
  assert (NT : NoDup top) by (clear - ND; induction top as [|i top IH]; [constructor|]; cbn [app] in ND; inversion ND; subst; constructor; auto; intros J; apply H1, in_or_app; auto).
  assert (LT : (k <= length top)%nat).
  { etransitivity; [exact K2|]. apply NoDup_incl_length; [apply NoDup_filter, seq_NoDup|]. intros i I. apply filter_In in I as [I N]. apply in_seq in I.
    apply IT. split; [lia|]. apply IN. apply negb_true_iff. auto. }
  destruct (@C61_test _ _ _ _ _ _ D IR NN ri ru rc fuel u) as (mask' & rating' & G' & LM & LR & MV). rewrite G in G'. injection G' as <- <-.
  assert (YV : forall i, (i < Z.to_nat ni)%nat -> nth i y 0%R = if in_set l u i then 1%R else 0%R).
  { intros i I. destruct (MV (Z.of_nat i)) as (_ & _ & A & B); [lia|]. rewrite Nat2Z.id in A, B. unfold y. change 0%R with (rating_R NaN) at 1. rewrite map_nth.
    destruct (in_set l u i) eqn:E.
    - apply IS in E. rewrite (nth_error_nth _ _ _ (A E)). reflexivity.
    - apply IN in E. rewrite (nth_error_nth _ _ _ (B E)). reflexivity. }
  assert (BY : binary y).
  { intros x I. apply In_nth with (d := 0%R) in I as (i & I & <-). unfold y in I. rewrite map_length, LR in I. rewrite YV by auto. destruct (in_set l u i); auto. }
  exists (firstn k top). split; [rewrite firstn_length; lia|].
  assert (FI : forall i, In i (firstn k top) -> In i top) by (intros i I; rewrite <- (firstn_skipn k top); apply in_or_app; auto).
  split; [rewrite <- (firstn_skipn k top) in NT; clear - NT; induction (firstn k top) as [|i b IH]; [constructor|]; cbn [app] in NT; inversion NT; subst; constructor; auto; intros J; apply H1, in_or_app; auto|].
  split; [intros i I; apply FI, IT in I as [A B]; split; auto; apply IN; auto|]. split.
  { intros i j I J1 J2 J3. assert (J : In j top) by (apply IT; split; auto; apply IN; auto). rewrite <- (firstn_skipn k top) in J. apply in_app_or in J as [J|J]; [tauto|].
    clear - SS I J. rewrite <- (firstn_skipn k top) in SS. induction (firstn k top) as [|a b IH]; [destruct I|]. cbn [app] in SS. inversion SS as [|? ? S1 S2]; subst.
    destruct I as [<-|I]; auto. rewrite Forall_forall in S2. apply S2. apply in_or_app; auto. }
  set (sc := user_scores emb (u, map to_R mask, y)) in *.
  assert (LS : length sc = Z.to_nat ni) by (unfold sc, user_scores; rewrite map_length, seq_length; auto).
  assert (SM : samples (Z.to_nat ni) [(y, sc)]) by (intros r [<-|[]]; cbn [fst snd]; split; auto; unfold y; rewrite map_length; auto).
  unfold precision_rc. destruct (format_batch (Some (Z.of_nat k)) None SM) as [_ FB]. cbn [map fst snd] in FB. rewrite FB. clear FB. unfold precision_of. cbn [rbind map concat fst].
  assert (LK : (length top <= Z.to_nat ni)%nat).
  { rewrite <- (seq_length (Z.to_nat ni) 0). apply NoDup_incl_length; auto. intros i I. apply IT in I as [I _]. apply in_seq. lia. }
  rewrite app_nil_r, check_binary_ok.
  - cbn [rbind pack map]. unfold top_k. rewrite Z.min_l by lia. rewrite pref_nat.
    assert (ER : firstn k (ranked argsort (y, sc)) = map (fun i => nth i y 0%R) (firstn k top)).
    { unfold ranked. cbn [fst snd]. rewrite EO, map_app, firstn_app, map_length. replace (k - length top)%nat with 0%nat by lia. cbn [firstn]. rewrite app_nil_r. apply firstn_map. }
    rewrite ER, binary_sum.
    + assert (EH : relevant (map (fun i => nth i y 0%R) (firstn k top)) = length (filter (in_set l u) (firstn k top))).
      { unfold relevant. clear - FI IT YV. induction (firstn k top) as [|i b IH]; auto. cbn [map filter]. rewrite YV by (apply IT, FI; left; auto).
        assert (IH' := IH ltac:(intros; apply FI; right; auto)). unfold is_one at 1.
        destruct (in_set l u i); destruct (Req_EM_T _ _); try lra; cbn [length]; auto. }
      rewrite EH. change (nofZ (Z.of_nat k)) with (IZR (Z.of_nat k)). rewrite <- INR_IZR_INZ. rewrite fdiv_ne; auto.
      apply not_0_INR. lia.
    + intros x I. apply in_map_iff in I as (i & <- & I). apply FI, IT in I as [I _]. rewrite YV by auto. destruct (in_set l u i); auto.
  - intros x I. destruct (BY x I); lra.
  - pose proof (IR u i0 (or_introl I0)) as R0. replace 1%R with (nth (Z.to_nat i0) y 0%R).
    + apply nth_In. unfold y. rewrite map_length. lia.
    + rewrite YV by lia. replace (in_set l u (Z.to_nat i0)) with true; auto. symmetry. apply IS. rewrite Z2Nat.id by lia. auto.
Qed.

(** a sorting of floats *)
Fixpoint ins_fl (p : list (fl R)) (i : nat) (l : list nat) : list nat :=
  match l with [] => [i] | j :: r => if fgt (nth j p NaN) (nth i p NaN) then j :: ins_fl p i r else i :: l end.
Definition argsort_fl (p : list (fl R)) : list nat := fold_right (ins_fl p) [] (seq 0 (length p)).
Lemma not_above_trans (a b c : fl R) : b <> NaN -> ~ above a b -> ~ above b c -> ~ above a c.
Proof.
  intros NB H1 H2 H3. inversion H3; subst; destruct b; try congruence; try (apply H1; constructor; fail); try (apply H2; constructor; fail).
  assert (~ (x0 < x)%R) by (intros L; apply H1; constructor; auto). assert (~ (y < x0)%R) by (intros L; apply H2; constructor; auto). lra.
Qed.
Lemma argsort_fl_sorts : sorts_fl argsort_fl.
Proof.
  intros p NN.
  assert (G : forall is, (forall i, In i is -> (i < length p)%nat) -> Permutation (fold_right (ins_fl p) [] is) is /\
    StronglySorted (fun i j => ~ above (nth j p NaN) (nth i p NaN)) (fold_right (ins_fl p) [] is)).
  { induction is as [|i is IH]; intros L; cbn [fold_right]; [split; constructor|]. destruct IH as [PM SS]; [intros; apply L; right; auto|].
    assert (PI : forall l, Permutation (ins_fl p i l) (i :: l)).
    { induction l as [|j l IHl]; cbn [ins_fl]; auto. destruct (fgt _ _); auto. rewrite IHl. apply perm_swap. }
    split; [rewrite PI; auto|].
    assert (LL : forall j, In j (fold_right (ins_fl p) [] is) -> (j < length p)%nat) by (intros j J; apply L; right; apply (Permutation_in _ PM J)).
    revert SS LL. generalize (fold_right (ins_fl p) [] is). clear PM. induction l as [|j l IHl]; intros SS LL; cbn [ins_fl]; [repeat constructor|].
    inversion SS as [|? ? S1 S2]; subst. rewrite Forall_forall in S2. destruct (fgt (nth j p NaN) (nth i p NaN)) eqn:F.
    - apply fgt_above in F. constructor; [apply IHl; auto; intros; apply LL; right; auto|]. rewrite Forall_forall. intros x X.
      apply (Permutation_in _ (PI l)) in X as [<-|X]; auto. intros A. exact (above_irrefl (above_trans A F)).
    - assert (NA : ~ above (nth j p NaN) (nth i p NaN)) by (intros A; apply fgt_above in A; congruence).
      constructor; auto. rewrite Forall_forall. intros x [<-|X]; auto. apply not_above_trans with (nth j p NaN); auto.
      apply NN, nth_In, LL. left; auto. }
  destruct (G (seq 0 (length p))) as [G1 G2]; [intros i I; apply in_seq in I; lia|]. auto.
Qed.
(** three items, the best of which was seen in training *)
Example C187_ex : exists ds mask rating, uid_new 1 3 [(0, 1)] (Some [(0, 2)]) true "test" = Ok ds /\
  uid_get (fun _ => 0) 0 (fun _ => 0%nat) 0 ds 0 = Some (Ok (GRow 0 mask rating)) /\
  (exists i, In (0, i) [(0, 1)]) /\ length (filter (fun i => negb (in_set [(0, 2)] 0 i)) (seq 0 3)) = 2%nat /\
  let emb := ([[1%R]], [[1%R]; [2%R]; [3%R]]) in
  argsort_fl (user_scores emb (0, map to_R mask, map rating_R rating)) = [1; 0; 2]%nat.
Proof.
  do 3 eexists. split; [reflexivity|]. split; [vm_compute; reflexivity|]. split; [exists 1; left; auto|]. split; [reflexivity|].
  unfold user_scores, argsort_fl, inner. cbn. repeat (destruct (Rlt_dec _ _); try lra); reflexivity.
Qed.

(** a task with one user and two items; a model is the number of its updates *)
Definition rec_ex_sample : rsample := (0, [Fin 0%R; Fin 0%R], [1%R; 0%R]).
Definition rec_ex_forward (m : nat) (_ : option bool) : list (list R) * list (list R) := ([[1%R]], [[INR m]; [1%R]]).
Definition rec_ex_update (_ : option bool) (m : nat) (o : unit) (b : list (Z * Z * Z)) : nat * unit := (m + length b, o)%nat.
Definition rec_ex_ev : ev R (tensor R * tensor (fl R)) :=
  match ev_new (recommender_impl argsort_fl) "recommender" [CDict [("precision", [("k", PInt 1)])]] 0 with Ok e => e | Err _ => mkev [] 0 [] None [] [] end.
Definition rec_ex_run (dev : device) :=
  rec_run rec_ex_forward rec_ex_update (fun _ => [[(0, 0, 1)]]) (fun _ => [b_of 2 [rec_ex_sample]]) dev (Some (fun _ : nat => true)) (fun p => p) (fun _ _ => Some tt)
    (fun o => o) (fun _ => 7%nat) (fun _ _ => false) "maximize" 1 1 None (rec_ex_ev, 0%nat, 0%nat) [].
Definition rec_ex_task (dev : device) :=
  rec_task rec_ex_forward rec_ex_update (fun _ => [[(0, 0, 1)]]) (fun _ => [b_of 2 [rec_ex_sample]]) dev (Some (fun _ : nat => true)) (fun p => p) (fun _ _ => Some tt)
    (fun o => o) (fun _ => 7%nat) (fun _ _ => false) "maximize" 1 1 None (rec_ex_ev, 0%nat, 0%nat) [].
Lemma rec_ex_pass : forall i : nat, pass 2 [rec_ex_sample] ((fun _ => [b_of 2 [rec_ex_sample]]) i).
Proof. intros i. exists [[rec_ex_sample]]. repeat split; auto; try discriminate. intros p [<-|[]]. discriminate. Qed.
Lemma rec_ex_wf : wf_samples 2 [rec_ex_sample].
Proof. intros s [<-|[]]. cbn. repeat split; auto; lia. Qed.
Lemma rec_ex_new : ev_new (recommender_impl argsort_fl) "recommender" [CDict [("precision", [("k", PInt 1)])]] 0 = Ok rec_ex_ev.
Proof. reflexivity. Qed.
Lemma rec_ex_metric : let d := batch 2 (map (row (rec_ex_forward 8 (Some true))) [rec_ex_sample]) in
  precision_rc argsort_fl (fst d) (snd d) (Some 1) None true = Ok (MList [Fin 1%R]).
Proof.
  cbv zeta. unfold precision_rc, precision_of.
  assert (E : argsort_fl (user_scores (rec_ex_forward 8 (Some true)) rec_ex_sample) = [0; 1]%nat).
  { unfold user_scores, argsort_fl, inner. cbn. repeat (destruct (Rlt_dec _ _); try lra); reflexivity. }
  unfold batch. cbn [map fst snd row]. unfold format_inputs_rc. cbn [shape dim12 length eqb negb rows_of cols_of combine]. cbn [negb].
  replace (eqb [1%nat; 2%nat] [1%nat; 2%nat]) with true by reflexivity. cbn [negb rbind map concat app fst].
  rewrite check_binary_ok; [|cbn; intros; intuition lra|left; reflexivity]. cbn [rbind pack map]. unfold ranked. cbn [snd fst]. rewrite E. cbn [map nth true_of rec_ex_sample snd].
  change (top_k (Z.of_nat 2) (Some 1) None) with 1. change 1 with (Z.of_nat 1). rewrite pref_nat. cbn [firstn nsum sumf]. rewrite fdiv_ne; [|cbn; lra].
  do 4 f_equal. cbn. lra.
Qed.
Lemma rec_ex_mean : fmean [Fin 1%R] = Fin 1%R.
Proof. unfold fmean. cbn [fold_right fadd length]. rewrite fdiv_ne; [|cbn; lra]. f_equal. cbn. lra. Qed.
Lemma rec_ex_validate dev : rec_validate rec_ex_forward (fun _ => [b_of 2 [rec_ex_sample]]) dev (Some true) (rec_ex_ev, 0%nat, 1%nat) 8%nat =
  ((mkev (ev_fns rec_ex_ev) 0 [] (Some (Fin 1%R)) [] [], 1%nat, 1%nat), Ok (Fin 1%R)).
Proof.
  unfold rec_validate. cbn [feed].
  assert (E : scores dev dev (rec_ex_forward 8 (Some true)) (b_of 2 [rec_ex_sample]) = Ok (V2 2 [user_scores (rec_ex_forward 8 (Some true)) rec_ex_sample])) by (destruct dev; reflexivity).
  rewrite E. unfold validate_add_batch. change (b_true (b_of 2 [rec_ex_sample])) with (V2 2 [true_of rec_ex_sample]).
  change (vfn rec_ex_ev) with (@Ok (metric R (tensor R * tensor (fl R))) (recommender_impl argsort_fl "precision" [("k", PInt 1)])). cbn [rbind].
  change (recommender_impl argsort_fl "precision" [("k", PInt 1)] (V2 2 [true_of rec_ex_sample], V2 2 [user_scores (rec_ex_forward 8 (Some true)) rec_ex_sample]) true)
    with (let d := batch 2 (map (row (rec_ex_forward 8 (Some true))) [rec_ex_sample]) in precision_rc argsort_fl (fst d) (snd d) (Some 1) None true).
  pose proof rec_ex_metric as EM. cbv zeta in EM |- *. rewrite EM. cbn [feed]. rewrite <- rec_ex_mean at 2 3. reflexivity.
Qed.
Lemma rec_ex_result dev : exists d f, rec_ex_run dev = (d, f, Ok (8%nat, Some true, Fin 1%R)) /\
  sd_w d = (mkev (ev_fns rec_ex_ev) 0 [] (Some (Fin 1%R)) [] [], 1%nat, 1%nat).
Proof.
  pose proof (rec_ex_validate dev) as V. unfold rec_ex_run, rec_run, task_run. cbn -[rec_validate run rec_ex_ev INR fmean rec_ex_sample b_of]. rewrite V.
  cbn -[run INR fmean rec_ex_ev]. do 2 eexists. split; reflexivity.
Qed.
(** on the CPU the task ends with the test result 1, on another device it fails after the same search *)
Example C186_ex : (exists d f, rec_ex_run Cpu = (d, f, Ok (8%nat, Some true, Fin 1%R))) /\
  validate (V2 2 [[1%R; 0%R]], V2 2 [user_scores (rec_ex_forward 8 (Some true)) rec_ex_sample]) rec_ex_ev = Ok (MScal (Fin 1%R)).
Proof.
  destruct (rec_ex_result Cpu) as (d & f & E & _). split; [eauto|]. unfold rec_ex_run in E.
  eapply C186_reported with (n := 2%nat) (users := [rec_ex_sample]) in E; [|exact rec_ex_new|exact rec_ex_wf|exact rec_ex_pass|constructor].
  destruct E as (_ & _ & V & _). exact V.
Qed.
Example C188_ex : exists t, rec_ex_task Cpu = Ok (8%nat, Some true, Fin 1%R, t) /\ dget "precision -> k@1" t = Some (OScal (Fin 1%R)).
Proof.
  destruct (rec_ex_result Cpu) as (d & f & E & EW).
  assert (T : exists t, rec_ex_task Cpu = Ok (8%nat, Some true, Fin 1%R, t)).
  { unfold rec_ex_task, rec_task. unfold rec_ex_run in E. rewrite E. cbn [rbind]. rewrite EW. unfold rec_test. cbn [feed].
    assert (ES : scores Cpu Cpu (rec_ex_forward 8 (Some true)) (b_of 2 [rec_ex_sample]) = Ok (V2 2 [user_scores (rec_ex_forward 8 (Some true)) rec_ex_sample])) by reflexivity.
    rewrite ES. unfold test_add_batch. change (b_true (b_of 2 [rec_ex_sample])) with (V2 2 [true_of rec_ex_sample]). cbn [ev_fns].
    change (ev_fns rec_ex_ev) with [("precision -> k@1"%string, recommender_impl (T := R) argsort_fl "precision" [("k", PInt 1)])]. cbn [add_all].
    change (recommender_impl argsort_fl "precision" [("k", PInt 1)] (V2 2 [true_of rec_ex_sample], V2 2 [user_scores (rec_ex_forward 8 (Some true)) rec_ex_sample]) true)
      with (let d := batch 2 (map (row (rec_ex_forward 8 (Some true))) [rec_ex_sample]) in precision_rc argsort_fl (fst d) (snd d) (Some 1) None true).
    pose proof rec_ex_metric as EM. cbv zeta in EM |- *. rewrite EM. cbn -[rec_ex_forward]. eauto. }
  destruct T as [t T]. exists t. split; auto. unfold rec_ex_task in T.
  eapply C188_actual with (n := 2%nat) (users := [rec_ex_sample]) in T; [|exact rec_ex_new|cbn; repeat constructor; intros []|exact rec_ex_wf|exact rec_ex_pass|constructor].
  destruct T as (mk & g & EN & G). cbn in EN. injection EN as <- _. exact G.
Qed.
Example C191_ex : (exists d f, rec_ex_run Gpu = (d, f, Ok (8%nat, Some true, Fin 1%R))) /\ rec_ex_task Gpu = Err RuntimeError.
Proof.
  destruct (rec_ex_result Gpu) as (d & f & E & _). split; [eauto|]. unfold rec_ex_run in E. unfold rec_ex_task.
  eapply C191_actual with (n := 2%nat) (users := [rec_ex_sample]); [exact rec_ex_new|exact rec_ex_wf|exact rec_ex_pass|constructor|exact E].
Qed.
(** a trial with parameter 7 builds the model 7; the one epoch counts the one training vertex, or the one training batch *)
Example C192_ex :
  (exists d f sc, vc_ex_run [0; 0; 1] = (d, f, Ok (8%nat, Some true, sc)) /\
     exists r, In r (sd_hist d) /\ t_params r = 7%nat /\
       8%nat = fst (Nat.iter 1 (vc_epoch vc_ex_update (fun o => o) (vc_ex [0; 0; 1]) true) (7%nat, tt))) /\
  (exists d f, rec_ex_run Cpu = (d, f, Ok (8%nat, Some true, Fin 1%R)) /\
     exists r, In r (sd_hist d) /\ t_value r = Some (Fin 1%R) /\
       8%nat = fst (fold_left (rec_epoch rec_ex_update (fun o => o) (Some true)) (map (fun _ => [[(0, 0, 1)]]) (seq 0 1)) (t_params r, tt))).
Proof.
  split.
  - destruct (@vc_ex_result [0; 0; 1] eq_refl) as (d & f & E). do 3 eexists. split; [exact E|]. unfold vc_ex_run in E.
    apply C192_classification in E; [|constructor]. destruct E as (r & e & s0 & o & IR & _ & L & _ & ES & _ & _ & EM). injection ES as <-.
    assert (e = 1%nat) as -> by lia. exists r. split; auto. destruct o. cbn in EM. split; [lia|reflexivity].
  - destruct (rec_ex_result Cpu) as (d & f & E & _). do 2 eexists. split; [exact E|]. unfold rec_ex_run in E.
    apply C192_recommender in E; [|constructor]. destruct E as (r & e & s0 & o & j & IR & TV & L & _ & ES & _ & _ & EM).
    assert (e = 1%nat) as -> by lia. exists r. destruct o. repeat (split; [assumption|]). cbn in EM |- *. exact EM.
Qed.
