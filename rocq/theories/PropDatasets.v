(** Properties C61, C62 and defects: lazy datasets and the user-item dataset. *)
From Coq Require Import String Ascii.
From Verif Require Import Num PyDict PyDictFacts ModelBase ModelConv ModelUtils UtilFacts ModelMetrics ModelData PropUtils.
Set Implicit Arguments.
Local Open Scope string_scope.
Local Open Scope list_scope.
Local Open Scope Z_scope.

(** * C62: lazy loading *)
Section Lazy.
  Context {V F : Type}.
  Variable fetch : nat -> list F -> res unit.
  Variable load : nat -> string -> larg F -> res (option V).
  Variable items : dict string (content V F).
  Notation get := (bd_get fetch load items).
  Notation raw := (bd_rawget fetch load items).
  Notation run := (bd_run fetch load items).
  (** the calls of the loader of [k] that gave a value, in the order of the calls *)
  Definition loaded (k : string) (s : bd V F) : list V :=
    flat_map (fun e => match e with (k', _, Ok (Some v)) => if String.eqb k' k then [v] else [] | _ => [] end) (b_loads s).
  Definition names (c : bcall) : string := match c with BGet k => k | BRaw k => k end.
  (** the value an item with configuration [c] has for the raw value [x] *)
  Definition piped (c : cfg V F) (x : option V) : res (option V) := match c_pipes c with Some ps => compose_pipes ps x | None => Ok x end.

  (** the state after an access to [key] *)
  Definition ext (key : string) (s s' : bd V F) : Prop :=
    (b_fetched s' = b_fetched s /\ b_loads s' = b_loads s) \/
    exists c, dget key items = Some (CCfg c) /\ c_upon c <> [] /\ loaded key s = [] /\ b_fetched s' = b_fetched s ++ [(key, c_upon c)] /\
      (b_loads s' = b_loads s \/ exists r, b_loads s' = b_loads s ++ [(key, larg_of (c_upon c), r)]).
  Record Inv (s : bd V F) : Prop := {
    i_raw : forall k, match dget k (b_raw s) with Some (Some v) => loaded k s = [v] | _ => loaded k s = [] end;
    i_cache : forall k v, dget k (b_cache s) = Some (Some v) -> exists c x, dget k items = Some (CCfg c) /\ piped c x = Ok (Some v) /\
                (c_upon c = [] /\ x = None \/ exists a, In (k, a, Ok x) (b_loads s)) }.
  Lemma loaded_app k s s' e : b_loads s' = b_loads s ++ [e] ->
    loaded k s' = loaded k s ++ match e with (k', _, Ok (Some v)) => if String.eqb k' k then [v] else [] | _ => [] end.
  Proof. intros E. unfold loaded. rewrite E, flat_map_app. cbn [flat_map]. rewrite app_nil_r. auto. Qed.
  Lemma loaded_same k (s s' : bd V F) : b_loads s' = b_loads s -> loaded k s' = loaded k s.
  Proof. intros E. unfold loaded. rewrite E. auto. Qed.

  Lemma raw_spec key s : Inv s -> let (s', r) := raw key s in Inv s' /\ ext key s s' /\ b_cache s' = b_cache s /\
    (forall k v, dget k (b_raw s) = Some (Some v) -> dget k (b_raw s') = Some (Some v)) /\
    match dget key items with
    | None => s' = s /\ r = Err AssertionError
    | Some (CVal v) => s' = s /\ r = Ok v
    | Some (CCfg c) =>
        (forall v, r = Ok (Some v) -> dget key (b_raw s') = Some (Some v)) /\
        (forall x, r = Ok x -> c_upon c = [] /\ x = None \/ exists a, In (key, a, Ok x) (b_loads s'))
    end.
  Proof.
    intros I. unfold bd_rawget. destruct (dget key items) as [[v|c]|] eqn:IT; [split; [auto|split; [left; auto|auto]]| |split; [auto|split; [left; auto|auto]]].
    pose proof (i_raw I key) as R.
    assert (W : match dget key (b_raw s) with Some (Some v) => True | _ => loaded key s = [] end) by (destruct (dget key (b_raw s)) as [[v|]|]; auto).
    assert (MISS : loaded key s = [] -> (forall v, dget key (b_raw s) <> Some (Some v)) -> let (s', r) := match c_upon c with
            | [] => (s, Ok None)
            | l =>
                let s1 := mkbd (b_raw s) (b_cache s) (b_fetched s ++ [(key, l)]) (b_loads s) in
                match fetch (length (b_fetched s)) l with
                | Err x => (s1, Err x)
                | Ok _ =>
                    let r := load (length (b_loads s)) key (larg_of l) in
                    let lg := b_loads s ++ [(key, larg_of l, r)] in
                    match r with
                    | Err x => (mkbd (b_raw s) (b_cache s) (b_fetched s1) lg, Err x)
                    | Ok v => (mkbd (dset key v (b_raw s)) (b_cache s) (b_fetched s1) lg, Ok v)
                    end
                end
            end in Inv s' /\ ext key s s' /\ b_cache s' = b_cache s /\
              (forall k v, dget k (b_raw s) = Some (Some v) -> dget k (b_raw s') = Some (Some v)) /\
              (forall v, r = Ok (Some v) -> dget key (b_raw s') = Some (Some v)) /\
              (forall x, r = Ok x -> c_upon c = [] /\ x = None \/ exists a, In (key, a, Ok x) (b_loads s'))).
    { intros L NR. destruct (c_upon c) as [|f l] eqn:U.
      - split; auto. split; [left; auto|]. split; auto. split; auto. split; [discriminate|]. intros x [= <-]. auto.
      - set (fs := f :: l) in *. cbv zeta. destruct (fetch (length (b_fetched s)) fs) as [[]|x] eqn:FE.
        2: { split; [constructor; [exact (i_raw I)|exact (i_cache I)]|]. split; [right; exists c; rewrite U; repeat split; auto; discriminate|].
             split; auto. split; auto. split; discriminate. }
        set (a := larg_of fs). destruct (load (length (b_loads s)) key a) as [v|x] eqn:LO.
        + set (s' := mkbd (dset key v (b_raw s)) (b_cache s) (b_fetched s ++ [(key, fs)]) (b_loads s ++ [(key, a, Ok v)])).
          assert (LA : forall k, loaded k s' = loaded k s ++ match v with Some w => if String.eqb key k then [w] else [] | None => [] end) by (intros k; rewrite (loaded_app k s s' (key, a, Ok v)) by auto; destruct v; auto).
          split; [constructor|].
          * intros k. rewrite LA. cbn [b_raw s']. destruct (String.eqb_spec key k) as [<-|N].
            -- rewrite dget_dset_same, L. destruct v; auto.
            -- rewrite dget_dset_other by auto. pose proof (i_raw I k) as Q. destruct v; rewrite ?app_nil_r; auto.
          * intros k w H. cbn [b_cache s'] in H. destruct (i_cache I k H) as (c' & x & A1 & A2 & A3). exists c', x. split; auto. split; auto.
            destruct A3 as [A3|(a' & A3)]; auto. right. exists a'. cbn [b_loads s']. apply in_or_app. auto.
          * split; [right; exists c; rewrite U; split; [auto|]; split; [discriminate|]; split; [auto|]; split; [auto|right; exists (Ok v); auto]|].
            split; auto. split; [intros k w H; cbn [b_raw s']; destruct (String.eqb_spec k key) as [->|N]; [exfalso; eapply NR; eauto|rewrite dget_dset_other; auto]|].
            split; [intros w [= ->]; apply dget_dset_same|]. intros x [= <-]. right. exists a. cbn [b_loads s']. apply in_or_app. right. left. auto.
        + set (s' := mkbd (b_raw s) (b_cache s) (b_fetched s ++ [(key, fs)]) (b_loads s ++ [(key, a, Err x)])).
          assert (LA : forall k, loaded k s' = loaded k s) by (intros k; rewrite (loaded_app k s s' (key, a, Err x)) by auto; apply app_nil_r).
          split; [constructor|].
          * intros k. rewrite LA. apply (i_raw I).
          * intros k w H. destruct (i_cache I k H) as (c' & y & A1 & A2 & A3). exists c', y. split; auto. split; auto.
            destruct A3 as [A3|(a' & A3)]; auto. right. exists a'. cbn [b_loads s']. apply in_or_app. auto.
          * split; [right; exists c; rewrite U; split; [auto|]; split; [discriminate|]; split; [auto|]; split; [auto|right; exists (Err x); auto]|].
            split; auto. split; auto. split; discriminate. }
    destruct (dget key (b_raw s)) as [[v|]|] eqn:G.
    - split; auto. split; [left; auto|]. split; auto. split; auto. split; [intros w [= <-]; auto|]. intros x [= <-]. right.
      unfold loaded in R. clear - R. induction (b_loads s) as [|[[k' a'] r'] ls IH]; [discriminate|]. cbn [flat_map] in R.
      destruct r' as [[w|]|e]; try (destruct (IH R) as (a & ?); exists a; right; auto; fail).
      destruct (String.eqb_spec k' key) as [->|N]; [|destruct (IH R) as (a & ?); exists a; right; auto].
      injection R as -> _. exists a'. left. auto.
    - apply MISS; auto. congruence.
    - apply MISS; auto. congruence.
  Qed.
  Lemma get_spec key s : Inv s -> let (s', r) := get key s in Inv s' /\ ext key s s' /\
    (forall k v, dget k (b_raw s) = Some (Some v) -> dget k (b_raw s') = Some (Some v)) /\
    (forall k v, dget k (b_cache s) = Some (Some v) -> dget k (b_cache s') = Some (Some v)) /\
    match dget key items with
    | None => s' = s /\ r = Err AssertionError
    | Some (CVal v) => s' = s /\ r = Ok v
    | Some (CCfg c) =>
        (forall v, r = Ok (Some v) -> dget key (b_cache s') = Some (Some v)) /\
        (forall v, r = Ok v -> exists x, piped c x = Ok v /\ (c_upon c = [] /\ x = None \/ exists a, In (key, a, Ok x) (b_loads s')))
    end.
  Proof.
    intros I. unfold bd_get. destruct (dget key items) as [[v|c]|] eqn:IT; [split; [auto|split; [left; auto|auto]]| |split; [auto|split; [left; auto|auto]]].
    assert (MISS : (forall v, dget key (b_cache s) <> Some (Some v)) -> let (s', r) := match raw key s with
            | (s, Err x) => (s, Err x)
            | (s, Ok item) =>
                match piped c item with
                | Err x => (s, Err x)
                | Ok v => (mkbd (b_raw s) (dset key v (b_cache s)) (b_fetched s) (b_loads s), Ok v)
                end
            end in Inv s' /\ ext key s s' /\
    (forall k v, dget k (b_raw s) = Some (Some v) -> dget k (b_raw s') = Some (Some v)) /\
    (forall k v, dget k (b_cache s) = Some (Some v) -> dget k (b_cache s') = Some (Some v)) /\
        (forall v, r = Ok (Some v) -> dget key (b_cache s') = Some (Some v)) /\
        (forall v, r = Ok v -> exists x, piped c x = Ok v /\ (c_upon c = [] /\ x = None \/ exists a, In (key, a, Ok x) (b_loads s')))).
    { intros NC. pose proof (raw_spec key I) as R. destruct (raw key s) as [s1 r1]. rewrite IT in R. destruct R as (I1 & E1 & C1 & M1 & _ & X1).
      destruct r1 as [x|x].
      - specialize (X1 x eq_refl). destruct (piped c x) as [v|e] eqn:P.
        + split; [constructor; [exact (i_raw I1)|]|].
          * intros k w. cbn [b_cache b_loads]. destruct (String.eqb_spec k key) as [->|N].
            -- rewrite dget_dset_same. intros [= ->]. exists c, x. auto.
            -- rewrite dget_dset_other by auto. apply (i_cache I1).
          * split; [exact E1|]. split; [exact M1|]. cbn [b_cache b_loads].
            split; [intros k w H; destruct (String.eqb_spec k key) as [->|N]; [exfalso; eapply NC; eauto|rewrite dget_dset_other, C1; auto]|].
            split; [intros w [= ->]; apply dget_dset_same|]. intros w [= <-]. exists x. auto.
        + split; auto. split; auto. split; auto. split; [intros k w; rewrite C1; auto|]. split; discriminate.
      - split; auto. split; auto. split; auto. split; [intros k w; rewrite C1; auto|]. split; discriminate. }
    destruct (dget key (b_cache s)) as [[v|]|] eqn:G.
    - split; auto. split; [left; auto|]. split; auto. split; auto. split; [intros w [= <-]; auto|]. intros w [= <-].
      destruct (i_cache I key G) as (c' & x & A1 & A2 & A3). rewrite IT in A1. injection A1 as <-. exists x. auto.
    - apply MISS. congruence.
    - apply MISS. congruence.
  Qed.
  Lemma step_spec s c : Inv s -> let s' := bd_step fetch load items s c in Inv s' /\ ext (names c) s s' /\
    (forall k v, dget k (b_raw s) = Some (Some v) -> dget k (b_raw s') = Some (Some v)) /\
    (forall k v, dget k (b_cache s) = Some (Some v) -> dget k (b_cache s') = Some (Some v)).
  Proof.
    intros I. destruct c as [k|k]; cbn [bd_step names].
    - pose proof (get_spec k I) as H. destruct (get k s) as [s' r]. cbn [fst]. tauto.
    - pose proof (raw_spec k I) as H. destruct (raw k s) as [s' r]. cbn [fst]. destruct H as (A & B & C & D & _). split; [auto|]. split; [auto|]. split; [auto|]. intros k0 v. rewrite C. auto.
  Qed.
  Lemma run_spec cs : forall s, Inv s -> Inv (run cs s) /\
    (forall k v, dget k (b_raw s) = Some (Some v) -> dget k (b_raw (run cs s)) = Some (Some v)) /\
    (forall k v, dget k (b_cache s) = Some (Some v) -> dget k (b_cache (run cs s)) = Some (Some v)).
  Proof.
    induction cs as [|c cs IH]; intros s I; [repeat split; auto; apply I|]. unfold bd_run. cbn [fold_left]. fold (run cs).
    destruct (step_spec c I) as (A & _ & B & C). destruct (IH _ A) as (D & E & G). unfold bd_run in *. split; auto.
  Qed.
  Lemma new_inv : Inv (@bd_new V F).
  Proof. constructor; cbn; [auto|discriminate]. Qed.

  (** in every sequence of accesses the loader of an item gives a value at most once *)
  Theorem C62_once : forall cs k, (length (loaded k (run cs (@bd_new V F))) <= 1)%nat.
  Proof.
    intros cs k. destruct (run_spec cs new_inv) as (I & _). pose proof (i_raw I k) as R. destruct (dget k _) as [[v|]|]; rewrite R; cbn; lia.
  Qed.
  (** a value once returned is returned again by every later access, without fetching files or calling a loader *)
  Theorem C62_stable : forall cs cs' k v, let s := run cs (@bd_new V F) in
    (let (s1, r) := get k s in r = Ok (Some v) -> let s2 := run cs' s1 in get k s2 = (s2, Ok (Some v))) /\
    (let (s1, r) := raw k s in r = Ok (Some v) -> let s2 := run cs' s1 in raw k s2 = (s2, Ok (Some v))).
  Proof.
    intros cs cs' k v s. assert (I : Inv s) by apply (run_spec cs new_inv). clearbody s. split.
    - pose proof (get_spec k I) as H. destruct (get k s) as [s1 r]. intros ->. destruct H as (I1 & _ & _ & _ & H).
      destruct (run_spec cs' I1) as (_ & _ & C). cbv zeta. set (s2 := run cs' s1) in *. unfold bd_get. destruct (dget k items) as [[w|c]|].
      + destruct H as [_ [= <-]]. auto.
      + destruct H as [H _]. rewrite (C _ _ (H v eq_refl)). auto.
      + destruct H; discriminate.
    - pose proof (raw_spec k I) as H. destruct (raw k s) as [s1 r]. intros ->. destruct H as (I1 & _ & _ & _ & H).
      destruct (run_spec cs' I1) as (_ & C & _). cbv zeta. set (s2 := run cs' s1) in *. unfold bd_rawget. destruct (dget k items) as [[w|c]|].
      + destruct H as [_ [= <-]]. auto.
      + destruct H as [H _]. rewrite (C _ _ (H v eq_refl)). auto.
      + destruct H; discriminate.
  Qed.
  (** after any sequence of accesses, the value of an item is a result of its loader sent through the steps of the item (or None sent
      through them when the item has no files); plain values are returned as they are, unknown names refused *)
  Theorem C62_piped : forall cs k, let s := run cs (@bd_new V F) in let (s', r) := get k s in
    match dget k items with
    | None => s' = s /\ r = Err AssertionError
    | Some (CVal v) => s' = s /\ r = Ok v
    | Some (CCfg c) => forall v, r = Ok v -> exists x, piped c x = Ok v /\ (c_upon c = [] /\ x = None \/ exists a, In (k, a, Ok x) (b_loads s'))
    end.
  Proof.
    intros cs k s. assert (I : Inv s) by apply (run_spec cs new_inv). clearbody s. pose proof (get_spec k I) as H. destruct (get k s) as [s' r].
    destruct (dget k items) as [[w|c]|]; tauto.
  Qed.
  (** files are fetched and loaders called only for the items that were asked for, with the files of the item *)
  Theorem C62_only_requested : forall cs, let s := run cs (@bd_new V F) in
    (forall k l, In (k, l) (b_fetched s) -> (exists c, In c cs /\ names c = k) /\ exists c, dget k items = Some (CCfg c) /\ l = c_upon c /\ l <> []) /\
    (forall k a r, In (k, a, r) (b_loads s) -> (exists c, In c cs /\ names c = k) /\ exists c, dget k items = Some (CCfg c) /\
       match c_upon c with [] => False | [f] => a = LOne f | l => a = LMany l end).
  Proof.
    intros cs. induction cs as [|c cs IH] using rev_ind; [split; cbn; tauto|]. cbv zeta. unfold bd_run. rewrite fold_left_app. cbn [fold_left]. fold (run cs).
    set (s := fold_left (bd_step fetch load items) cs (@bd_new V F)) in *.
    assert (I : Inv s) by apply (run_spec cs new_inv). destruct IH as [IH1 IH2]. change (run cs (@bd_new V F)) with s in *.
    assert (UP : forall k, (exists c0, In c0 cs /\ names c0 = k) -> exists c0, In c0 (cs ++ [c]) /\ names c0 = k) by (intros k (c0 & A & B); exists c0; split; auto; apply in_or_app; auto).
    assert (ME : exists c0, In c0 (cs ++ [c]) /\ names c0 = names c) by (exists c; split; auto; apply in_or_app; right; left; auto).
    destruct (step_spec c I) as (_ & E & _). destruct E as [[E1 E2]|(cf & A1 & A2 & A3 & A4 & A5)].
    - rewrite E1, E2. split; intros; [destruct (IH1 k l)|destruct (IH2 k a r)]; auto.
    - assert (ARG : match c_upon cf with [] => False | [f] => larg_of (c_upon cf) = LOne f | l => larg_of (c_upon cf) = LMany l end) by (destruct (c_upon cf) as [|f [|g l]]; cbn; auto).
      rewrite A4. split.
      + intros k l J. apply in_app_or in J as [J|[J|[]]]; [destruct (IH1 k l J); auto|]. injection J as <- <-. split; auto. exists cf. auto.
      + intros k a r J. destruct A5 as [A5|(r0 & A5)]; rewrite A5 in J; [destruct (IH2 k a r J); auto|].
        apply in_app_or in J as [J|[J|[]]]; [destruct (IH2 k a r J); auto|]. injection J as <- <- <-. split; auto. exists cf. auto.
  Qed.
  (** as long as the loader of an item has not given a value, each access to the raw item fetches its files and, if that succeeds, calls the
      loader: a failure, or a loader that returns None, is not remembered *)
  Theorem C62_reload : forall cs k c, let s := run cs (@bd_new V F) in dget k items = Some (CCfg c) -> c_upon c <> [] -> loaded k s = [] ->
    let (s', r) := raw k s in b_fetched s' = b_fetched s ++ [(k, c_upon c)] /\
    match fetch (length (b_fetched s)) (c_upon c) with
    | Err x => r = Err x /\ b_loads s' = b_loads s
    | Ok _ => exists a, r = load (length (b_loads s)) k a /\ b_loads s' = b_loads s ++ [(k, a, r)]
    end.
  Proof.
    intros cs k c s IT U L. assert (I : Inv s) by apply (run_spec cs new_inv). clearbody s. unfold bd_rawget. rewrite IT.
    pose proof (i_raw I k) as R. 
    assert (G : let (s', r) := match c_upon c with
            | [] => (s, Ok None)
            | l =>
                let s1 := mkbd (b_raw s) (b_cache s) (b_fetched s ++ [(k, l)]) (b_loads s) in
                match fetch (length (b_fetched s)) l with
                | Err x => (s1, Err x)
                | Ok _ =>
                    let r := load (length (b_loads s)) k (larg_of l) in
                    let lg := b_loads s ++ [(k, larg_of l, r)] in
                    match r with
                    | Err x => (mkbd (b_raw s) (b_cache s) (b_fetched s1) lg, Err x)
                    | Ok v => (mkbd (dset k v (b_raw s)) (b_cache s) (b_fetched s1) lg, Ok v)
                    end
                end
            end in b_fetched s' = b_fetched s ++ [(k, c_upon c)] /\
    match fetch (length (b_fetched s)) (c_upon c) with
    | Err x => r = Err x /\ b_loads s' = b_loads s
    | Ok _ => exists a, r = load (length (b_loads s)) k a /\ b_loads s' = b_loads s ++ [(k, a, r)]
    end).
    { destruct (c_upon c) as [|f l]; [tauto|]. set (fs := f :: l). cbv zeta. destruct (fetch (length (b_fetched s)) fs) as [[]|x]; [|auto].
      destruct (load (length (b_loads s)) k (larg_of fs)) as [v|x] eqn:E; cbn [b_fetched b_loads]; split; auto; exists (larg_of fs); auto. }
    destruct (dget k (b_raw s)) as [[v|]|]; auto. rewrite L in R. discriminate.
  Qed.
End Lazy.
(** compose_pipes applies the steps from left to right and stops at the first exception *)
Theorem C62_compose : forall A (ps : list (A -> res A)) p x,
  compose_pipes [] x = Ok x /\
  compose_pipes (ps ++ [p]) x = match compose_pipes ps x with Ok y => p y | Err e => Err e end.
Proof.
  intros A ps p x. split; auto. revert x. induction ps as [|f ps IH]; intros x; cbn [app compose_pipes].
  - unfold rbind. destruct (p x); auto.
  - unfold rbind. destruct (f x) as [y|e]; auto.
Qed.

(** * C61: the user-item dataset *)
Lemma own_items u l x : In x (ddget u (edge_list_to_adj_dict l)) <-> In (u, x) l.
Proof.
  unfold ddget. destruct (C43_adj_dict _ l) as (_ & H & _). rewrite H.
  assert (E : In x (map snd (filter (fun e : Z * Z => eqb u (fst e)) l)) <-> In (u, x) l).
  { rewrite in_map_iff. split.
    - intros ([a b] & <- & J). apply filter_In in J as [J E]. cbn in E. apply Z.eqb_eq in E. subst. auto.
    - intros J. exists (u, x). split; auto. apply filter_In. split; auto. apply Z.eqb_refl. }
  destruct (map snd (filter (fun e : Z * Z => eqb u (fst e)) l)); auto.
Qed.
Lemma existsb_own n own : existsb (Z.eqb n) own = true <-> In n own.
Proof. rewrite existsb_exists. split; [intros (x & J & E); apply Z.eqb_eq in E; subst; auto|intros J; exists n; split; auto; apply Z.eqb_refl]. Qed.
Lemma neg_loop_some ri own n : forall fuel i, neg_loop ri fuel i own = Some n -> ~ In n own /\ exists j, n = ri j.
Proof.
  induction fuel as [|f IH]; intros i; cbn [neg_loop]; [discriminate|]. destruct (existsb (Z.eqb (ri i)) own) eqn:E; [apply IH|].
  intros [= <-]. split; [|eauto]. intros J. apply existsb_own in J. congruence.
Qed.
Lemma neg_loop_finds ri own : forall k fuel i, (k < fuel)%nat -> (forall j, (j < k)%nat -> In (ri (i + j)%nat) own) -> ~ In (ri (i + k)%nat) own ->
  neg_loop ri fuel i own = Some (ri (i + k)%nat).
Proof.
  induction k as [|k IH]; intros fuel i L A N; (destruct fuel as [|f]; [lia|]); cbn [neg_loop].
  - rewrite Nat.add_0_r in *. destruct (existsb (Z.eqb (ri i)) own) eqn:E; auto. apply existsb_own in E. tauto.
  - assert (E : existsb (Z.eqb (ri i)) own = true) by (apply existsb_own; rewrite <- (Nat.add_0_r i); apply A; lia). rewrite E.
    replace (i + S k)%nat with (S i + k)%nat in * by lia. apply IH; auto; [lia|]. intros j J. replace (S i + j)%nat with (i + S j)%nat by lia. apply A. lia.
Qed.
Lemma neg_loop_stuck ri own : (forall j, In (ri j) own) -> forall fuel i, neg_loop ri fuel i own = None.
Proof. intros A. induction fuel as [|f IH]; intros i; cbn [neg_loop]; auto. rewrite (proj2 (existsb_own (ri i) own)) by auto. apply IH. Qed.

(** [l] at a Python index *)
Definition at_index {A} (l : list A) (i : Z) (x : A) : Prop :=
  exists k, nth_error l k = Some x /\ (i = Z.of_nat k \/ i = Z.of_nat k - Z.of_nat (length l)).
Lemma np_index_at {A} (l : list A) i x : np_index l i = Ok x -> at_index l i x.
Proof.
  unfold np_index. destruct (Z.ltb_spec i 0).
  - destruct (Z.ltb_spec (i + Z.of_nat (length l)) 0); [discriminate|]. destruct (nth_error l _) as [y|] eqn:E; [|discriminate]. intros [= <-].
    exists (Z.to_nat (i + Z.of_nat (length l))). split; auto. right. lia.
  - destruct (Z.ltb_spec i 0); [lia|]. destruct (nth_error l _) as [y|] eqn:E; [|discriminate]. intros [= <-]. exists (Z.to_nat i). split; auto. left. lia.
Qed.
Lemma np_index_nth {A} (l : list A) k x : nth_error l k = Some x -> np_index l (Z.of_nat k) = Ok x.
Proof. intros E. unfold np_index. destruct (Z.ltb_spec (Z.of_nat k) 0); [lia|]. rewrite Nat2Z.id, E. destruct (Z.ltb_spec (Z.of_nat k) 0); [lia|auto]. Qed.

(** every triplet of the training phase: the interaction is the one at the index (strict) or one of the drawn user (not strict), and the
    negative item is a drawn item that is none of the user's *)
Theorem C61_negative : forall nu ni l strict d, uid_new nu ni l None strict "train" = Ok d ->
  forall ri ru rc fuel index g, (forall n, (0 < n)%nat -> (rc n < n)%nat) -> (forall i, 0 <= ri i < ni) ->
  uid_get ri ru rc fuel d index = Some (Ok g) ->
  exists u p n, g = GTriplet u p n /\ In (u, p) l /\ (if strict then at_index l index (u, p) else u = ru) /\ ~ In (u, n) l /\ 0 <= n < ni.
Proof.
  intros nu ni l strict d D ri ru rc fuel index g RC RI. cbn in D. injection D as <-. unfold uid_get. cbn [u_train u_strict u_list u_adj].
  assert (SN : forall u n, sample_neg_item ri fuel (mkuid true nu ni l (edge_list_to_adj_dict l) strict []) u = Some (Ok n) -> ~ In (u, n) l /\ 0 <= n < ni).
  { intros u n. unfold sample_neg_item. cbn [u_ni u_adj]. destruct (ni <=? 0); [discriminate|].
    destruct (neg_loop ri fuel 0 _) as [x|] eqn:E; [|discriminate]. intros [= <-]. apply neg_loop_some in E as [E (j & ->)]. rewrite own_items in E. auto. }
  destruct strict.
  - destruct (np_index l index) as [[u p]|x] eqn:E; [|discriminate]. apply np_index_at in E.
    destruct (sample_neg_item ri fuel _ u) as [[n|x]|] eqn:S; [|discriminate|discriminate]. intros [= <-]. apply SN in S.
    exists u, p, n. split; auto. split; [destruct E as (k & E & _); apply nth_error_In in E; auto|]. split; auto.
  - unfold sample_triplet. cbn [u_nu u_adj]. destruct (nu <=? 0); [discriminate|]. set (own := ddget ru (edge_list_to_adj_dict l)).
    destruct (Nat.eqb_spec (length own) 0) as [E|E]; [discriminate|].
    destruct (sample_neg_item ri fuel _ ru) as [[n|x]|] eqn:S; [|discriminate|discriminate]. intros [= <-]. apply SN in S.
    exists ru, (nth (rc (length own)) own 0), n. split; auto. split; auto. apply own_items. apply nth_In. apply RC. fold own. lia.
Qed.
(** the first drawn item that is none of the user's is the one returned *)
Theorem C61_terminates : forall nu ni l d, uid_new nu ni l None true "train" = Ok d ->
  forall ri ru rc k u p i, nth_error l k = Some (u, p) -> 0 < ni ->
  (forall j, (j < i)%nat -> In (u, ri j) l) -> ~ In (u, ri i) l ->
  forall fuel, (i < fuel)%nat -> uid_get ri ru rc fuel d (Z.of_nat k) = Some (Ok (GTriplet u p (ri i))).
Proof.
  intros nu ni l d D ri ru rc k u p i E P A N fuel L. cbn in D. injection D as <-. unfold uid_get. cbn [u_train u_strict u_list u_adj].
  rewrite (np_index_nth _ _ E). unfold sample_neg_item. cbn [u_ni u_adj]. destruct (Z.leb_spec ni 0); [lia|].
  rewrite (neg_loop_finds ri (ddget u (edge_list_to_adj_dict l)) 0 L); auto; intros; rewrite own_items; auto.
Qed.
(** the value at each place of a vector after [x[items] = v] *)
Lemma set_nth_nth {A} (v : A) : forall j x k, (j < length x)%nat ->
  nth_error (firstn j x ++ v :: skipn (S j) x) k = if Nat.eqb k j then Some v else nth_error x k.
Proof.
  induction j as [|j IH]; intros [|a x] k L; cbn [length] in L; try lia.
  - destruct k; cbn; auto.
  - destruct k as [|k]; cbn [firstn app nth_error Nat.eqb]; auto. rewrite <- (IH x k) by lia. auto.
Qed.
Lemma assign_at_ok v : forall its x, (forall i, In i its -> 0 <= i < Z.of_nat (length x)) ->
  exists y, assign_at its v x = Ok y /\ length y = length x /\
    forall k, nth_error y k = if existsb (Z.eqb (Z.of_nat k)) its && (k <? length x)%nat then Some v else nth_error x k.
Proof.
  induction its as [|i its IH]; intros x A; cbn [assign_at existsb].
  - exists x. auto.
  - pose proof (A i (or_introl eq_refl)) as I. destruct (Z.ltb_spec i (- Z.of_nat (length x))); [lia|]. destruct (Z.leb_spec (Z.of_nat (length x)) i); [lia|]. cbn [orb].
    destruct (Z.ltb_spec i 0); [lia|]. set (x' := firstn (Z.to_nat i) x ++ v :: skipn (S (Z.to_nat i)) x).
    assert (LX : length x' = length x) by (unfold x'; rewrite app_length, firstn_length; cbn [length]; rewrite skipn_length; lia).
    destruct (IH x') as (y & E & L & P); [intros j J; rewrite LX; apply A; right; auto|]. exists y. split; auto. split; [lia|].
    intros k. rewrite P, LX. unfold x'. rewrite set_nth_nth by lia.
    destruct (Z.eqb_spec (Z.of_nat k) i) as [<-|N]; cbn [orb].
    + destruct (Nat.eqb_spec k (Z.to_nat (Z.of_nat k))); [|lia]. destruct (Nat.ltb_spec k (length x)); [|lia]. cbn [andb]. destruct (_ && _); auto.
    + destruct (Nat.eqb_spec k (Z.to_nat i)); [lia|]. auto.
Qed.
Lemma existsb_own' l u n : existsb (Z.eqb n) (ddget u (edge_list_to_adj_dict l)) = true <-> In (u, n) l.
Proof. rewrite existsb_own. apply own_items. Qed.
(** test phase: the mask is minus infinity at the training items of the user and 0 elsewhere, the rating 1 at the test items and 0 elsewhere *)
Theorem C61_test : forall nu ni l t strict d, uid_new nu ni l (Some t) strict "test" = Ok d ->
  (forall u i, In (u, i) l \/ In (u, i) t -> 0 <= i < ni) -> 0 <= ni ->
  forall ri ru rc fuel u, exists mask rating, uid_get ri ru rc fuel d u = Some (Ok (GRow u mask rating)) /\
    length mask = Z.to_nat ni /\ length rating = Z.to_nat ni /\
    forall i, 0 <= i < ni ->
      (In (u, i) t -> nth_error mask (Z.to_nat i) = Some NInf) /\ (~ In (u, i) t -> nth_error mask (Z.to_nat i) = Some (Fin 0)) /\
      (In (u, i) l -> nth_error rating (Z.to_nat i) = Some (Fin 1)) /\ (~ In (u, i) l -> nth_error rating (Z.to_nat i) = Some (Fin 0)).
Proof.
  intros nu ni l t strict d D IR NN ri ru rc fuel u. cbn in D. injection D as <-. unfold uid_get. cbn [u_train u_ni u_tadj u_adj].
  destruct (Z.ltb_spec ni 0); [lia|]. set (zeros := map (fun _ : Z => Fin 0) (range ni)).
  assert (LZ : length zeros = Z.to_nat ni) by (unfold zeros, range; rewrite !map_length, seq_length; auto).
  assert (NZ : forall k, (k < Z.to_nat ni)%nat -> nth_error zeros k = Some (Fin 0)).
  { intros k K. destruct (nth_error zeros k) as [z|] eqn:E; [|apply nth_error_None in E; lia]. apply nth_error_In, in_map_iff in E as (? & <- & _). auto. }
  destruct (@assign_at_ok NInf (ddget u (edge_list_to_adj_dict t)) zeros) as (mask & E1 & L1 & P1); [intros i J; apply own_items in J; rewrite LZ; specialize (IR u i (or_intror J)); lia|].
  destruct (@assign_at_ok (Fin 1) (ddget u (edge_list_to_adj_dict l)) zeros) as (rating & E2 & L2 & P2); [intros i J; apply own_items in J; rewrite LZ; specialize (IR u i (or_introl J)); lia|].
  exists mask, rating. rewrite E1, E2. split; [auto|]. split; [lia|]. split; [lia|]. intros i I. rewrite P1, P2, LZ, Z2Nat.id by lia.
  destruct (Nat.ltb_spec (Z.to_nat i) (Z.to_nat ni)); [|lia]. rewrite !andb_true_r, NZ by auto.
  split; [|split; [|split]]; intros J.
  - rewrite (proj2 (existsb_own' t u i)); auto.
  - destruct (existsb (Z.eqb i) (ddget u (edge_list_to_adj_dict t))) eqn:E; auto. apply existsb_own' in E. tauto.
  - rewrite (proj2 (existsb_own' l u i)); auto.
  - destruct (existsb (Z.eqb i) (ddget u (edge_list_to_adj_dict l))) eqn:E; auto. apply existsb_own' in E. tauto.
Qed.
(** a user with an item number outside of [-ni, ni) has no row: IndexError *)
Lemma assign_at_err v : forall its x, (exists i, In i its /\ (i < - Z.of_nat (length x) \/ Z.of_nat (length x) <= i)) -> assign_at its v x = Err IndexError.
Proof.
  induction its as [|i its IH]; intros x (j & J & B); [destruct J|]. cbn [assign_at].
  destruct (Z.ltb_spec i (- Z.of_nat (length x))); auto. destruct (Z.leb_spec (Z.of_nat (length x)) i); auto. cbn [orb].
  destruct J as [->|J]; [lia|]. apply IH. exists j. split; auto. rewrite app_length, firstn_length. cbn [length]. rewrite skipn_length. destruct (i <? 0) eqn:N; [apply Z.ltb_lt in N|apply Z.ltb_ge in N]; lia.
Qed.
Lemma assign_at_dec v : forall its x, (exists y, assign_at its v x = Ok y) \/ assign_at its v x = Err IndexError.
Proof. induction its as [|i its IH]; intros x; cbn [assign_at]; eauto. destruct (_ || _); auto. Qed.
Theorem C61_range : forall nu ni l t strict d, uid_new nu ni l (Some t) strict "test" = Ok d -> 0 <= ni ->
  forall ri ru rc fuel u i, In (u, i) l \/ In (u, i) t -> i < - ni \/ ni <= i -> uid_get ri ru rc fuel d u = Some (Err IndexError).
Proof.
  intros nu ni l t strict d D NN ri ru rc fuel u i I B. cbn in D. injection D as <-. unfold uid_get. cbn [u_train u_ni u_tadj u_adj].
  destruct (Z.ltb_spec ni 0); [lia|]. set (zeros := map (fun _ : Z => Fin 0) (range ni)).
  assert (LZ : Z.of_nat (length zeros) = ni) by (unfold zeros, range; rewrite !map_length, seq_length; lia).
  destruct I as [I|I]; apply own_items in I.
  - rewrite (@assign_at_err (Fin 1) (ddget u (edge_list_to_adj_dict l)) zeros) by (exists i; rewrite LZ; auto).
    destruct (@assign_at_dec NInf (ddget u (edge_list_to_adj_dict t)) zeros) as [[y ->]| ->]; reflexivity.
  - rewrite (@assign_at_err NInf (ddget u (edge_list_to_adj_dict t)) zeros) by (exists i; rewrite LZ; auto). reflexivity.
Qed.
Example C61_range_ex : exists d, uid_new 1 2 [(0, 2)] (Some [(0, 1)]) true "test" = Ok d /\
  uid_get (fun _ => 0) 0 (fun _ => 0%nat) 1 d 0 = Some (Err IndexError).
Proof.
  eexists. split; [reflexivity|]. apply (@C61_range 1 2 [(0, 2)] [(0, 1)] true _ eq_refl) with (i := 2); [lia|left; left; auto|lia].
Qed.
(** the number of samples, and the phases and arguments that are refused *)
Theorem C61_new : forall nu ni l t strict phase,
  match uid_new nu ni l t strict phase with
  | Ok d => (phase = "train" \/ phase = "test" /\ t <> None) /\ uid_len d = if String.eqb phase "train" then Z.of_nat (length l) else nu
  | Err x => x = AssertionError /\ phase <> "train" /\ (phase = "test" -> t = None)
  end.
Proof.
  intros nu ni l t strict phase. unfold uid_new. destruct (String.eqb_spec phase "train") as [->|N]; [split; auto; left; auto|].
  destruct (String.eqb_spec phase "test") as [->|N2]; [|split; auto; split; auto; tauto]. destruct t; cbn; [split; auto; right; split; auto; discriminate|].
  split; auto.
Qed.

(** ** Defects *)
(** C117: the interaction of a user who holds every item can never be sampled: the search for a negative item does not end *)
Theorem C117_all_items_actual : forall nu ni l d, uid_new nu ni l None true "train" = Ok d -> 0 < ni ->
  forall k u p, nth_error l k = Some (u, p) -> (forall i, 0 <= i < ni -> In (u, i) l) ->
  forall ri ru rc, (forall i, 0 <= ri i < ni) -> forall fuel, uid_get ri ru rc fuel d (Z.of_nat k) = None.
Proof.
  intros nu ni l d D P k u p E A ri ru rc RI fuel. cbn in D. injection D as <-. unfold uid_get. cbn [u_train u_strict u_list u_adj].
  rewrite (np_index_nth _ _ E). unfold sample_neg_item. cbn [u_ni u_adj]. destruct (Z.leb_spec ni 0); [lia|].
  rewrite neg_loop_stuck; auto. intros j. apply own_items. apply A. auto.
Qed.
(** C118: an index at or beyond the length does not raise IndexError, so a loop over the dataset does not end: in the test phase every index
    gives a row; in the training phase without strict_link the index plays no role *)
Theorem C118_no_end_actual : forall nu ni l strict,
  (forall t d, uid_new nu ni l (Some t) strict "test" = Ok d -> 0 <= ni -> (forall u i, In (u, i) l \/ In (u, i) t -> 0 <= u < nu) ->
   forall ri ru rc fuel index, uid_len d <= index ->
   uid_get ri ru rc fuel d index = Some (Ok (GRow index (map (fun _ => Fin 0) (range ni)) (map (fun _ => Fin 0) (range ni))))) /\
  (forall d, uid_new nu ni l None false "train" = Ok d -> forall ri ru rc fuel index index', uid_get ri ru rc fuel d index = uid_get ri ru rc fuel d index').
Proof.
  intros nu ni l strict. split.
  - intros t d D NN A ri ru rc fuel index I. cbn in D. injection D as <-. cbn [uid_len u_train u_nu] in I. unfold uid_get. cbn [u_train u_ni u_tadj u_adj].
    destruct (Z.ltb_spec ni 0); [lia|].
    assert (N : forall l', (forall u i, In (u, i) l' -> 0 <= u < nu) -> ddget index (edge_list_to_adj_dict l') = []).
    { intros l' B. destruct (ddget index (edge_list_to_adj_dict l')) as [|x r] eqn:E; auto. exfalso.
      assert (J : In (index, x) l') by (apply own_items; rewrite E; left; auto). apply B in J. lia. }
    rewrite (N t), (N l); auto; intros u i J; apply (A u i); auto.
  - intros d D ri ru rc fuel i i'. cbn in D. injection D as <-. auto.
Qed.
(** C119: without strict_link the draw of a user who has no interaction raises AssertionError *)
Theorem C119_idle_user_actual : forall nu ni l d, uid_new nu ni l None false "train" = Ok d -> 0 < nu ->
  forall ri ru rc fuel index, (forall i, ~ In (ru, i) l) -> uid_get ri ru rc fuel d index = Some (Err AssertionError).
Proof.
  intros nu ni l d D P ri ru rc fuel index A. cbn in D. injection D as <-. unfold uid_get. cbn [u_train u_strict]. unfold sample_triplet. cbn [u_nu u_adj].
  destruct (Z.leb_spec nu 0); [lia|]. destruct (ddget ru (edge_list_to_adj_dict l)) as [|x r] eqn:E; auto.
  exfalso. apply (A x). apply own_items. rewrite E. left. auto.
Qed.

(** ** Instances *)
Definition ex_items : dict string (content Z string) :=
  [("num", CVal (Some 7)); ("x", CCfg (mkcfg ["x.pkl"] (Some [fun v => Ok (option_map (Z.add 1) v); fun v => Ok (option_map (Z.mul 2) v)])));
   ("y", CCfg (mkcfg ["a"; "b"] None)); ("none", CCfg (mkcfg [] None))].
Definition ex_fetch (i : nat) (_ : list string) : res unit := match i with 0%nat => Err ValueError | _ => Ok tt end.
Definition ex_load (i : nat) (_ : string) (a : larg string) : res (option Z) := match a with LOne _ => Ok (Some 10) | LMany _ => Ok (if (i =? 1)%nat then None else Some 3) end.
Definition ex_run (cs : list bcall) : bd Z string := bd_run ex_fetch ex_load ex_items cs (@bd_new Z string).
(** the first fetch fails; x is then loaded once; y gives None at first and is loaded again *)
Example C62_run : let s := ex_run [BGet "x"; BGet "x"; BRaw "y"; BGet "x"; BGet "num"; BRaw "x"; BGet "y"; BGet "y"; BGet "nope"; BGet "none"] in
  b_fetched s = [("x", ["x.pkl"]); ("x", ["x.pkl"]); ("y", ["a"; "b"]); ("y", ["a"; "b"])] /\
  b_loads s = [("x", LOne "x.pkl", Ok (Some 10)); ("y", LMany ["a"; "b"], Ok None); ("y", LMany ["a"; "b"], Ok (Some 3))] /\
  loaded "x" s = [10] /\ loaded "y" s = [3] /\
  snd (bd_get ex_fetch ex_load ex_items "x" s) = Ok (Some 22) /\ snd (bd_rawget ex_fetch ex_load ex_items "x" s) = Ok (Some 10) /\
  snd (bd_get ex_fetch ex_load ex_items "num" s) = Ok (Some 7) /\ snd (bd_get ex_fetch ex_load ex_items "nope" s) = Err AssertionError.
Proof. vm_compute. repeat split; reflexivity. Qed.
(** C62_reload meets its hypotheses after a failed fetch *)
Example C62_reload_hyps : let s := ex_run [BGet "x"] in loaded "x" s = [] /\ b_fetched s = [("x", ["x.pkl"])] /\
  b_loads (fst (bd_rawget ex_fetch ex_load ex_items "x" s)) = [("x", LOne "x.pkl", Ok (Some 10))].
Proof. vm_compute. repeat split; reflexivity. Qed.

Definition ex_l : list (Z * Z) := [(0, 1); (0, 2); (2, 0); (0, 0)].
(** draws 1, 2, 0, 3, ... *)
Definition ex_ri (i : nat) : Z := match i with 0%nat => 1 | 1%nat => 2 | 2%nat => 0 | _ => 3 end.
Definition ex_uid (ni : Z) (strict : bool) : uid := mkuid true 3 ni ex_l (edge_list_to_adj_dict ex_l) strict [].
Example C61_negative_run : uid_new 3 4 ex_l None true "train" = Ok (ex_uid 4 true) /\ (forall i, 0 <= ex_ri i < 4) /\
  uid_get ex_ri 0 (fun _ => 0%nat) 10 (ex_uid 4 true) 1 = Some (Ok (GTriplet 0 2 3)) /\
  uid_get ex_ri 0 (fun _ => 0%nat) 10 (ex_uid 4 true) (-2) = Some (Ok (GTriplet 2 0 1)) /\
  uid_get ex_ri 0 (fun _ => 0%nat) 10 (ex_uid 4 false) 5 = Some (Ok (GTriplet 0 1 3)) /\
  uid_get ex_ri 0 (fun _ => 0%nat) 10 (ex_uid 4 true) 4 = Some (Err IndexError).
Proof. split; [reflexivity|]. split; [intros [|[|[|i]]]; cbn; lia|]. vm_compute. repeat split; reflexivity. Qed.
Example C61_test_run : let d := mkuid false 3 4 ex_l (edge_list_to_adj_dict ex_l) true (edge_list_to_adj_dict [(0, 3); (1, 1)]) in
  uid_new 3 4 ex_l (Some [(0, 3); (1, 1)]) true "test" = Ok d /\
  uid_get ex_ri 0 (fun _ => 0%nat) 0 d 0 = Some (Ok (GRow 0 [Fin 0; Fin 0; Fin 0; NInf] [Fin 1; Fin 1; Fin 1; Fin 0])) /\
  (** C118 *) uid_len d = 3 /\ uid_get ex_ri 0 (fun _ => 0%nat) 0 d 3 = Some (Ok (GRow 3 [Fin 0; Fin 0; Fin 0; Fin 0] [Fin 0; Fin 0; Fin 0; Fin 0])).
Proof. vm_compute. repeat split; reflexivity. Qed.
(** C117 for user 0, who holds the items 0, 1, 2 of 3; C119 for user 1 *)
Example C117_hyps : nth_error ex_l 1 = Some (0, 2) /\ (forall i, 0 <= i < 3 -> In (0, i) ex_l) /\
  uid_get (fun i => Z.of_nat i mod 3) 0 (fun _ => 0%nat) 100 (ex_uid 3 true) 1 = None.
Proof. split; [auto|]. split; [|vm_compute; auto]. intros i I. assert (i = 0 \/ i = 1 \/ i = 2) as [->|[->| ->]] by lia; cbn; auto. Qed.
Example C119_run : uid_get ex_ri 1 (fun _ => 0%nat) 10 (ex_uid 4 false) 0 = Some (Err AssertionError) /\ (forall i, ~ In (1, i) ex_l).
Proof. split; [vm_compute; auto|]. intros i [H|[H|[H|[H|[]]]]]; discriminate. Qed.
