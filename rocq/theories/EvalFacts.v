(** Facts about the evaluators: the state after any history. *)
From Coq Require Import String.
From Verif Require Import Num PyDict PyDictFacts ModelBase ModelConv ModelUtils UtilFacts ModelMetrics ModelEval SpecEval.
Set Implicit Arguments.
Local Open Scope list_scope.
Local Open Scope Z_scope.

Lemma map_res_pure {A B} (f : A -> res B) (g : A -> B) l : (forall a, In a l -> f a = Ok (g a)) -> map_res f l = Ok (map g l).
Proof.
  induction l as [|a l IH]; intros X; cbn [map_res map]; auto.
  rewrite (X a (or_introl eq_refl)), IH by (intros; apply X; right; auto). reflexivity.
Qed.
Lemma concat_map_map {A B C} (f : B -> C) (g : A -> list B) l : concat (map (fun a => map f (g a)) l) = map f (concat (map g l)).
Proof. induction l as [|a l IH]; cbn [map concat]; auto. rewrite map_app, IH. auto. Qed.
Lemma dset_skip {K V} `{EqB K} (k : K) (v : V) l1 l2 : ~ In k (dkeys l1) -> dset k v (l1 ++ l2) = l1 ++ dset k v l2.
Proof.
  unfold dkeys. induction l1 as [|[k' v'] l1 IH]; cbn [map In fst app dset]; intros N; auto.
  destruct (eqb_spec k k'); [subst; tauto|]. rewrite IH by tauto. auto.
Qed.
Lemma dget_skip {K V} `{EqB K} (k : K) (l1 l2 : dict K V) : ~ In k (dkeys l1) -> dget k (l1 ++ l2) = dget k l2.
Proof.
  unfold dkeys. induction l1 as [|[k' v'] l1 IH]; cbn [map In fst app dget]; intros N; auto.
  destruct (eqb_spec k k'); [subst; tauto|]. apply IH. tauto.
Qed.

Section Eval.
  Context {T : Type} {NT : Num T} {ET : Ext T} {D : Type}.
  Notation column l := (map (fun x : fl T => [x]) l).

  Lemma vstack2_same w (l : list (list (list (fl T)))) : l <> [] -> vstack2 (map (fun r => (w, r)) l) = Ok (w, concat l).
  Proof.
    intros NE. destruct l as [|r l]; [tauto|]. unfold vstack2. cbn [map].
    match goal with |- context [forallb ?p ?q] => replace (forallb p q) with true end.
    - f_equal. f_equal. cbn [map snd]. rewrite map_map. cbn [snd]. rewrite map_id. auto.
    - symmetry. apply forallb_forall. intros x [<-|I]; [apply Nat.eqb_refl|].
      apply in_map_iff in I as (y & <- & _). apply Nat.eqb_refl.
  Qed.
  Lemma col_column (l : list (fl T)) : col 0 (column l) = l.
  Proof. unfold col. rewrite map_map. cbn [nth]. apply map_id. Qed.

  (** * validation *)
  Section Val.
    Variables (f : metric T D) (ok : D -> bool) (g : D -> list (fl T)).
    Hypothesis F : forall d, if ok d then f d true = Ok (MList (g d)) else exists x, f d true = Err x.
    Definition val_store (ds : list D) : list (arr T) := map (fun d => A2 1 (column (g d))) ds.
    Lemma val_mean ds : ds <> [] -> rbind (vstack (val_store ds)) (fun a => item (mean0 a)) = Ok (fmean (concat (map g ds))).
    Proof.
      intros NE. assert (V : vstack (val_store ds) = Ok (A2 1 (column (concat (map g ds))))).
      { unfold val_store. destruct ds as [|d ds]; [tauto|]. unfold vstack. cbn [map].
        rewrite <- (map_cons (fun d => A2 1 (column (g d)))).
        rewrite map_res_map, map_res_pure with (g := fun d => (1%nat, column (g d))) by auto. cbn [rbind].
        rewrite <- (map_map (fun d => column (g d)) (fun r => (1%nat, r))), vstack2_same by discriminate. cbn [rbind].
        rewrite concat_map_map. auto. }
      rewrite V. cbn [rbind mean0 seq map item]. rewrite col_column. auto.
    Qed.
    Lemma val_store_nil ds : val_store ds = [] <-> ds = [].
    Proof. destruct ds; cbn; split; congruence. Qed.

    Definition val_last (l : option (list D)) : option (fl T) :=
      match l with Some ds => Some (fmean (concat (map g ds))) | None => None end.
    Lemma val_history cs : forall e cur last,
      vfn e = Ok f -> ev_val e = val_store cur -> ev_lastv e = val_last last ->
      let e' := ev_run cs e in let (cur', last') := val_batches ok cs cur last in
      vfn e' = Ok f /\ ev_val e' = val_store cur' /\ ev_lastv e' = val_last last'.
    Proof.
      induction cs as [|c cs IH]; intros e cur last V S L; cbn [ev_run fold_left val_batches]; [auto|].
      change (fold_left (fun e0 c0 => ev_step c0 e0) cs (ev_step c e)) with (ev_run cs (ev_step c e)).
      destruct c as [d| |d|]; cbn [ev_step].
      - apply IH; unfold validate_add_batch; rewrite V; cbn [rbind]; pose proof (F d) as Fd; destruct (ok d).
        + rewrite Fd. auto.
        + destruct Fd as (x & ->). auto.
        + rewrite Fd. cbn [fst ev_val]. rewrite S. unfold val_store. rewrite map_app. auto.
        + destruct Fd as (x & ->). auto.
        + rewrite Fd. auto.
        + destruct Fd as (x & ->). auto.
      - unfold validate_epoch_res. rewrite S. destruct cur as [|d cur].
        + cbn [val_store map]. apply IH; destruct (ev_lastv e) eqn:EL; cbn [fst]; congruence.
        + pose proof (@val_mean (d :: cur) ltac:(discriminate)) as E. cbn [val_store map] in *. rewrite E. apply IH; auto.
      - apply IH; unfold test_add_batch; destruct (add_all _ _ _); auto.
      - apply IH; unfold test_epoch_res; destruct (ev_test e); auto; destruct (summarise_all _ _) as [? []]; auto.
    Qed.
    Lemma val_result (e : ev T D) cur last : ev_val e = val_store cur -> ev_lastv e = val_last last ->
      snd (validate_epoch_res e) = match current (cur, last) with Some ds => Ok (fmean (concat (map g ds))) | None => Err AssertionError end.
    Proof.
      intros S L. unfold validate_epoch_res, current. cbn [fst snd]. rewrite S. destruct cur as [|d cur].
      - cbn [val_store map]. rewrite L. destruct last; auto.
      - pose proof (@val_mean (d :: cur) ltac:(discriminate)) as E. cbn [val_store map] in *. rewrite E. auto.
    Qed.
  End Val.

  (** * testing *)
  Definition items (v : vals T D) (ds : list D) : list (titem T) :=
    match v with
    | VNum g => map (fun d => IArr 1 (column (g d))) ds
    | VCurve n p r => match ds with [] => [] | _ => [ILst (map (fun d => (n, p d)) ds); ILst (map (fun d => (n, r d)) ds)] end
    end.
  Lemma width_all n (l : list (list (fl T))) : l <> [] -> (forall x, In x l -> length x = n) -> width l = n.
  Proof. destruct l as [|x l]; [tauto|]. intros _ H. apply H. left; auto. Qed.
  Lemma add_items f v ds d : yields f v d -> rbind (f d true) (fun o => add_result o (items v ds)) = Ok (items v (ds ++ [d])).
  Proof.
    destruct v as [g|n p r]; cbn [yields items].
    - intros ->. cbn [rbind add_result]. rewrite map_app. auto.
    - intros (-> & NP & NR & W). cbn [rbind add_result].
      assert (WP : match p d with [] => as_rows [] | _ :: _ => (width (p d), p d) end = (n, p d)).
      { rewrite (@width_all n) by auto. destruct (p d); [tauto|auto]. }
      assert (WR : match r d with [] => as_rows [] | _ :: _ => (width (r d), r d) end = (n, r d)).
      { rewrite (@width_all n) by auto. destruct (r d); [tauto|auto]. }
      rewrite WP, WR. destruct ds as [|d0 ds]; cbn [append_at rbind app map]; auto. rewrite !map_app. auto.
  Qed.
  Lemma sum_items f v ds : ds <> [] -> (forall d, In d ds -> yields f v d) -> summarise (items v ds) = Ok (epoch_val v ds).
  Proof.
    intros NE Y. destruct v as [g|n p r]; cbn [items epoch_val].
    - destruct ds as [|d0 ds]; [tauto|]. unfold summarise. cbn [map].
      rewrite <- (map_cons (fun d => IArr 1 (column (g d)))).
      rewrite map_res_map, map_res_pure with (g := fun d => (1%nat, column (g d))) by auto. cbn [rbind].
      rewrite <- (map_map (fun d => column (g d)) (fun r => (1%nat, r))), vstack2_same by discriminate. cbn [rbind].
      rewrite concat_map_map. cbn [mean0 seq map squeeze]. rewrite col_column. auto.
    - assert (S : forall q : D -> list (list (fl T)), vstack2 (map (fun d => (n, q d)) ds) = Ok (n, concat (map q ds))).
      { intros q. rewrite <- (map_map q (fun r => (n, r))), vstack2_same; auto. destruct ds; [tauto|discriminate]. }
      assert (E : items (VCurve n p r) ds = [ILst (map (fun d => (n, p d)) ds); ILst (map (fun d => (n, r d)) ds)]) by (destruct ds; [tauto|auto]).
      cbn [items] in E. rewrite E. cbn [summarise map_res]. rewrite !S. cbn [rbind]. auto.
  Qed.

  Definition test_store (ms : list (string * vals T D)) (ds : list D) : dict string (list (titem T)) :=
    match ds with [] => [] | _ => map (fun m => (fst m, items (snd m) ds)) ms end.
  Lemma keys_map {V} (h : string * vals T D -> V) ms : dkeys (map (fun m => (fst m, h m)) ms) = map fst ms.
  Proof. unfold dkeys. rewrite map_map. auto. Qed.
  Lemma add_all_store d ds ms : forall fns, NoDup (map fst ms) -> realises fns ms d ->
    add_all fns d (test_store ms ds) = (test_store ms (ds ++ [d]), Ok tt).
  Proof.
    assert (G : forall rest done fns, NoDup (map fst (done ++ rest)) -> realises fns rest d ->
      add_all fns d (map (fun m => (fst m, items (snd m) (ds ++ [d]))) done ++ test_store rest ds) =
      (map (fun m => (fst m, items (snd m) (ds ++ [d]))) (done ++ rest), Ok tt)).
    { induction rest as [|m rest IH]; intros done fns N R; inversion R as [|f ? fns' ? [E Y] R']; subst.
      - cbn [add_all]. rewrite app_nil_r. unfold test_store. destruct ds; cbn [map]; rewrite app_nil_r; auto.
      - destruct f as [name f]. cbn [fst snd] in *. subst name. cbn [add_all].
        assert (NI : ~ In (fst m) (dkeys (map (fun m => (fst m, items (snd m) (ds ++ [d]))) done))).
        { rewrite keys_map. rewrite map_app in N. apply NoDup_remove_2 in N. intros I. apply N, in_or_app; auto. }
        assert (GET : tget (fst m) (map (fun m => (fst m, items (snd m) (ds ++ [d]))) done ++ test_store (m :: rest) ds) = items (snd m) ds).
        { unfold tget. rewrite (@dget_skip _ _ _ _ _ _ NI). unfold test_store. destruct ds as [|d0 ds0].
          - cbn [dget]. destruct (snd m); auto.
          - cbn [map dget]. rewrite eqb_refl. auto. }
        rewrite GET, (@add_items f (snd m) ds d) by auto. cbn [rbind].
        rewrite (@dset_skip _ _ _ _ _ _ _ NI).
        assert (SET : dset (fst m) (items (snd m) (ds ++ [d])) (test_store (m :: rest) ds) =
                      (fst m, items (snd m) (ds ++ [d])) :: test_store rest ds).
        { unfold test_store. destruct ds as [|d0 ds0]; [reflexivity|]. cbn [map dset]. rewrite eqb_refl. auto. }
        rewrite SET.
        replace (map (fun m => (fst m, items (snd m) (ds ++ [d]))) done ++ (fst m, items (snd m) (ds ++ [d])) :: test_store rest ds)
          with (map (fun m => (fst m, items (snd m) (ds ++ [d]))) (done ++ [m]) ++ test_store rest ds)
          by (rewrite map_app, <- app_assoc; auto).
        rewrite IH; auto.
        + rewrite <- app_assoc. auto.
        + rewrite <- app_assoc. auto. }
    intros fns N R. specialize (G ms [] fns N R). cbn [app map] in G. rewrite G.
    unfold test_store. destruct (ds ++ [d]) eqn:E; auto. destruct ds; discriminate.
  Qed.
  Lemma sum_all_store ds ms : forall fns last, ds <> [] -> NoDup (map fst ms) -> (forall d, In d ds -> realises fns ms d) ->
    (last = [] \/ exists l, last = test_last ms (Some l)) ->
    summarise_all (test_store ms ds) last = (test_last ms (Some ds), Ok tt).
  Proof.
    assert (NE0 : forall (rest : list (string * vals T D)), ds <> [] -> test_store rest ds = map (fun m => (fst m, items (snd m) ds)) rest)
      by (destruct ds; [tauto|auto]).
    assert (G : forall rest done fns last, ds <> [] -> NoDup (map fst (done ++ rest)) -> (forall d, In d ds -> realises fns rest d) ->
      (last = [] \/ exists l, last = test_last rest (Some l)) ->
      summarise_all (test_store rest ds) (test_last done (Some ds) ++ last) = (test_last (done ++ rest) (Some ds), Ok tt)).
    { induction rest as [|m rest IH]; intros done fns last NE N R L.
      - rewrite NE0 by auto. cbn [map summarise_all]. rewrite app_nil_r. destruct L as [->|(l & ->)]; cbn; rewrite app_nil_r; auto.
      - rewrite NE0 by auto. cbn [map summarise_all]. rewrite <- NE0 by auto.
        destruct fns as [|f fns]; [destruct ds as [|d0 ds0]; [tauto|]; specialize (R d0 (or_introl eq_refl)); inversion R|].
        rewrite (@sum_items (snd f) (snd m) ds NE) by (intros d I; specialize (R d I); inversion R; subst; tauto).
        assert (NI : ~ In (fst m) (dkeys (test_last done (Some ds)))).
        { unfold test_last. rewrite keys_map. rewrite map_app in N. apply NoDup_remove_2 in N. intros I. apply N, in_or_app; auto. }
        rewrite (@dset_skip _ _ _ _ _ _ _ NI).
        assert (SET : exists last', dset (fst m) (epoch_val (snd m) ds) last = (fst m, epoch_val (snd m) ds) :: last' /\
                      (last' = [] \/ exists l, last' = test_last rest (Some l))).
        { destruct L as [->|(l & ->)]; [exists []; auto|]. cbn [test_last map dset]. rewrite eqb_refl. eexists; split; [reflexivity|]. right; exists l; auto. }
        destruct SET as (last' & -> & L').
        replace (test_last done (Some ds) ++ (fst m, epoch_val (snd m) ds) :: last') with (test_last (done ++ [m]) (Some ds) ++ last')
          by (unfold test_last; rewrite map_app, <- app_assoc; auto).
        rewrite (IH (done ++ [m]) fns last'); auto; [rewrite <- app_assoc; auto|rewrite <- app_assoc; auto|].
        intros d I. specialize (R d I). inversion R; auto. }
    intros fns last NE N R L. apply (G ms [] fns last); auto.
  Qed.

  Variable ms : list (string * vals T D).
  Hypothesis NM : NoDup (map fst ms).
  Hypothesis NEM : ms <> [].
  Lemma test_store_nil ds : test_store ms ds = [] <-> ds = [].
  Proof using NM NEM. destruct ds; cbn; [tauto|]. destruct ms; [tauto|]. split; discriminate. Qed.
  Lemma test_history cs : forall e cur last,
    (forall d, In d cur -> realises (ev_fns e) ms d) -> (forall d, In (ETestAdd d) cs -> realises (ev_fns e) ms d) ->
    ev_test e = test_store ms cur -> ev_last e = test_last ms last ->
    let e' := ev_run cs e in let (cur', last') := test_batches cs cur last in
    ev_fns e' = ev_fns e /\ (forall d, In d cur' -> realises (ev_fns e) ms d) /\ ev_test e' = test_store ms cur' /\ ev_last e' = test_last ms last'.
  Proof using NM NEM.
    induction cs as [|c cs IH]; intros e cur last R1 R2 S L; cbn [ev_run fold_left test_batches]; [auto|].
    change (fold_left (fun e0 c0 => ev_step c0 e0) cs (ev_step c e)) with (ev_run cs (ev_step c e)).
    assert (R2' : forall d, In (ETestAdd d) cs -> realises (ev_fns e) ms d) by (intros; apply R2; right; auto).
    destruct c as [d| |d|]; cbn [ev_step].
    - assert (E : ev_fns (fst (validate_add_batch d e)) = ev_fns e /\ ev_test (fst (validate_add_batch d e)) = ev_test e /\ ev_last (fst (validate_add_batch d e)) = ev_last e).
      { unfold validate_add_batch. destruct (rbind _ _); auto. }
      destruct E as (E1 & E2 & E3). specialize (IH (fst (validate_add_batch d e)) cur last). rewrite E1, E2, E3 in IH. exact (IH R1 R2' S L).
    - assert (E : ev_fns (fst (validate_epoch_res e)) = ev_fns e /\ ev_test (fst (validate_epoch_res e)) = ev_test e /\ ev_last (fst (validate_epoch_res e)) = ev_last e).
      { unfold validate_epoch_res. destruct (ev_val e); [destruct (ev_lastv e); auto|]. destruct (rbind _ _); auto. }
      destruct E as (E1 & E2 & E3). specialize (IH (fst (validate_epoch_res e)) cur last). rewrite E1, E2, E3 in IH. exact (IH R1 R2' S L).
    - assert (R : realises (ev_fns e) ms d) by (apply R2; left; auto).
      assert (E : fst (test_add_batch d e) = set_test e (test_store ms (cur ++ [d]))).
      { unfold test_add_batch. rewrite S, (@add_all_store d cur ms (ev_fns e)) by auto. auto. }
      rewrite E. specialize (IH (set_test e (test_store ms (cur ++ [d]))) (cur ++ [d]) last).
      cbn [set_test ev_fns ev_test ev_last] in IH. apply IH; auto.
      intros x I. apply in_app_or in I as [I|[<-|[]]]; auto.
    - destruct cur as [|d cur].
      + assert (E : fst (test_epoch_res e) = e) by (unfold test_epoch_res; rewrite S; auto). rewrite E. apply IH; auto.
      + assert (E : fst (test_epoch_res e) = mkev (ev_fns e) (ev_index e) (ev_val e) (ev_lastv e) [] (test_last ms (Some (d :: cur)))).
        { unfold test_epoch_res. destruct (ev_test e) as [|x t] eqn:ET'.
          - symmetry in S. apply test_store_nil in S. discriminate.
          - rewrite S. rewrite (@sum_all_store (d :: cur) ms (ev_fns e)); auto; [discriminate|].
            rewrite L. destruct last; [right; eauto|left; auto]. }
        rewrite E. specialize (IH (fst (test_epoch_res e)) [] (Some (d :: cur))). rewrite E in IH. cbn [ev_fns ev_test ev_last] in IH.
        apply IH; auto. intros x [].
  Qed.
  Lemma test_result (e : ev T D) cur last : (forall d, In d cur -> realises (ev_fns e) ms d) -> ev_test e = test_store ms cur -> ev_last e = test_last ms last ->
    snd (test_epoch_res e) = Ok (test_last ms (current (cur, last))) /\ ev_last (fst (test_epoch_res e)) = test_last ms (current (cur, last)).
  Proof using NM NEM.
    intros R S L. unfold test_epoch_res, current. cbn [fst snd]. destruct (ev_test e) as [|x t] eqn:ET'.
    - symmetry in S. apply test_store_nil in S. subst cur. cbn [snd fst]. rewrite L. auto.
    - rewrite S. destruct cur as [|d cur]; [discriminate|].
      rewrite (@sum_all_store (d :: cur) ms (ev_fns e)); auto; [discriminate|].
      rewrite L. destruct last; [right; eauto|left; auto].
  Qed.
End Eval.
