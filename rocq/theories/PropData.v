(** Properties C61-C64 and defects: downloads, datasets, scaling, text files. *)
From Coq Require Import String Ascii Reals Lra Permutation.
From Verif Require Import Num PyDict PyDictFacts ModelBase ModelConv ModelUtils UtilFacts RealFacts ModelMetrics MetricFacts ModelData.
Set Implicit Arguments.
Local Open Scope string_scope.
Local Open Scope list_scope.
Local Open Scope Z_scope.

(** * C63: downloads *)
Section Download.
  Variables (home cache_root : path) (remote backup : string) (server : nat -> string -> resp) (digest : bytes -> string).
  Notation attempt := (attempt home cache_root remote backup server digest).
  Notation download := (download_and_check home cache_root remote backup server digest).
  (** the file the legacy cache holds for [p] *)
  Definition legacy (p : path) : option path := match relative_to p cache_root with Some r => Some (home ++ ".dhg" :: r) | None => None end.
  (** the requests of one attempt *)
  Definition tries (url : string) (l : list string) : Prop :=
    l = [] \/ l = [url] \/ (String.prefix remote url = true /\ l = [url; backup_url remote backup url]).

  Lemma put_same p v d : put p v d p = v.
  Proof. unfold put. rewrite eqb_refl. auto. Qed.
  Lemma put_other p v d q : q <> p -> put p v d q = d q.
  Proof. intros N. unfold put. apply eqb_neq in N. rewrite N. auto. Qed.
  Lemma dk_same p v s : dk (set_file p v s) p = v.
  Proof. apply put_same. Qed.
  Lemma file_spec url p s : let (s', r) := download_file server url p s in
    rq s' = rq s ++ [url] /\ (forall q, q <> p -> dk s' q = dk s q) /\
    match server (length (rq s)) url with
    | RFail => r = DErr XRequest /\ dk s' p = dk s p
    | RStatus => r = DErr XHttp /\ dk s' p = dk s p
    | RBody b true => r = DOk /\ dk s' p = Some b
    | RBody b false => r = DErr XRequest /\ dk s' p = Some b
    end.
  Proof.
    unfold download_file. destruct (server (length (rq s)) url) as [| |b [|]]; cbn [rq dk set_file]; repeat split; auto; intros; apply put_other || apply put_same; auto.
  Qed.

  (** the outcome of one attempt *)
  Definition outcome (url : string) (p : path) (md5 : string) (s s' : dst) (r : dres) : Prop :=
    (exists l, rq s' = rq s ++ l /\ tries url l) /\
    (forall q, q <> p -> legacy p <> Some q -> dk s' q = dk s q) /\
    match r with
    | DOk => exists b, dk s' p = Some b /\ digest b = md5
    | DErr x => x <> XNotFound /\ (dk s' p = None \/ exists b i u, dk s' p = Some b /\ nth_error (rq s') i = Some u /\ (length (rq s) <= i)%nat /\ server i u = RBody b false)
    end.
  Lemma nth_mid (l : list string) k u r : nth_error (l ++ k) (length l) = Some u -> nth_error (l ++ k ++ r) (length l) = Some u.
  Proof. rewrite app_assoc. intros H. rewrite nth_error_app1; auto. apply nth_error_Some. congruence. Qed.
  Lemma nth_end (l : list string) u : nth_error (l ++ [u]) (length l) = Some u.
  Proof. rewrite nth_error_app2, Nat.sub_diag; auto. Qed.

  (** after the part of the attempt that fetches the file *)
  Definition fetched (url : string) (p : path) (s s' : dst) (r : dres) : Prop :=
    (exists l, rq s' = rq s ++ l /\ tries url l) /\ (forall q, q <> p -> dk s' q = dk s q) /\
    match r with
    | DOk => dk s' p <> None
    | DErr x => x <> XNotFound /\ (dk s' p = None \/ exists b i u, dk s' p = Some b /\ nth_error (rq s') i = Some u /\ (length (rq s) <= i)%nat /\ server i u = RBody b false)
    end.
  Lemma fetch_spec url p s : dk s p = None ->
    let (s', r) := match download_file server url p s with
                   | (s, DOk) => (s, DOk)
                   | (s, DErr x) => if String.prefix remote url then download_file server (backup_url remote backup url) p s else (s, DErr x)
                   end in fetched url p s s' r.
  Proof.
    intros N. pose proof (file_spec url p s) as H. destruct (download_file server url p s) as [s1 r1]. destruct H as (R1 & O1 & H1).
    assert (ONE : exists l, rq s1 = rq s ++ l /\ tries url l) by (exists [url]; split; auto; right; left; auto).
    assert (E1 : nth_error (rq s1) (length (rq s)) = Some url) by (rewrite R1; apply nth_end).
    assert (F1 : forall x, r1 = DErr x -> x <> XNotFound /\ (dk s1 p = None \/ exists b, dk s1 p = Some b /\ server (length (rq s)) url = RBody b false)).
    { intros x E. destruct (server (length (rq s)) url) as [| |b [|]]; destruct H1 as [-> H1]; inversion E; subst; split; try discriminate; rewrite ?H1; eauto. }
    destruct r1 as [|x].
    - split; auto. split; auto. destruct (server (length (rq s)) url) as [| |b [|]]; destruct H1 as [? ->]; discriminate.
    - destruct (F1 x eq_refl) as [NX K1]. destruct (String.prefix remote url) eqn:PR.
      2: { split; auto. split; auto. split; auto. destruct K1 as [K1|(b & K1 & K2)]; auto. right. exists b, (length (rq s)), url. auto. }
      pose proof (file_spec (backup_url remote backup url) p s1) as H. destruct (download_file server (backup_url remote backup url) p s1) as [s2 r2].
      destruct H as (R2 & O2 & H2).
      split; [exists [url; backup_url remote backup url]; split; [rewrite R2, R1, <- app_assoc; auto|right; right; auto]|].
      split; [intros q Q; rewrite O2, O1; auto|].
      assert (E2 : nth_error (rq s2) (length (rq s1)) = Some (backup_url remote backup url)) by (rewrite R2; apply nth_end).
      assert (LE : (length (rq s) <= length (rq s1))%nat) by (rewrite R1, app_length; lia).
      assert (OLD : dk s2 p = dk s1 p -> dk s2 p = None \/ exists b i u, dk s2 p = Some b /\ nth_error (rq s2) i = Some u /\ (length (rq s) <= i)%nat /\ server i u = RBody b false).
      { intros ->. destruct K1 as [K1|(b & K1 & K2)]; auto. right. exists b, (length (rq s)), url. repeat split; auto.
        rewrite R2, nth_error_app1; auto. apply nth_error_Some. congruence. }
      destruct (server (length (rq s1)) (backup_url remote backup url)) as [| |b [|]] eqn:SV; destruct H2 as [-> H2].
      + split; [discriminate|]. auto.
      + split; [discriminate|]. auto.
      + rewrite H2. discriminate.
      + split; [discriminate|]. right. exists b, (length (rq s1)), (backup_url remote backup url). auto.
  Qed.
  Lemma attempt_outcome url p md5 s : let (s', r) := attempt url p md5 s in outcome url p md5 s s' r.
  Proof.
    unfold ModelData.attempt.
    assert (MI : match (match dk s p with Some _ => Some s | None => migrate home cache_root p s end) with
      | None => dk s p = None
      | Some s1 => rq s1 = rq s /\ (forall q, q <> p -> legacy p <> Some q -> dk s1 q = dk s q) /\ (dk s p <> None -> s1 = s) end).
    { destruct (dk s p) as [b|] eqn:E; [auto|]. unfold migrate, legacy. destruct (relative_to p cache_root) as [r|]; auto.
      destruct (dk s (home ++ ".dhg" :: r)) as [b|]; [|split; [auto|split; [auto|tauto]]]. split; auto. split; [|tauto].
      intros q Q L. cbn [set_file dk]. rewrite put_other by auto. cbn [set_file dk]. rewrite put_other; auto. intros ->. apply L. auto. }
    destruct (match dk s p with Some _ => Some s | None => migrate home cache_root p s end) as [s1|].
    2: { split; [exists []; rewrite app_nil_r; split; auto; left; auto|]. split; auto. split; [discriminate|auto]. }
    destruct MI as (R1 & O1 & _).
    assert (FE : let (s', r) := match dk s1 p with Some _ => (s1, DOk) | None => match download_file server url p s1 with
                   | (s, DOk) => (s, DOk)
                   | (s, DErr x) => if String.prefix remote url then download_file server (backup_url remote backup url) p s else (s, DErr x)
                   end end in fetched url p s1 s' r).
    { destruct (dk s1 p) as [b|] eqn:E; [|apply fetch_spec; auto]. split; [exists []; rewrite app_nil_r; split; auto; left; auto|]. split; auto. congruence. }
    destruct (match dk s1 p with Some _ => (s1, DOk) | None => _ end) as [s2 r]. destruct FE as (R2 & O2 & H2). rewrite R1 in R2, H2.
    assert (O : forall q, q <> p -> legacy p <> Some q -> dk s2 q = dk s q) by (intros q Q L; rewrite O2, O1; auto).
    destruct r as [|x]; [|split; auto].
    destruct (dk s2 p) as [b|] eqn:E; [|tauto]. destruct (String.eqb_spec (digest b) md5).
    - split; auto. split; auto. eauto.
    - split; auto. split; [intros q Q L; cbn [set_file dk]; rewrite put_other; auto|]. split; [discriminate|]. left. cbn [set_file dk]. apply put_same.
  Qed.

  Lemma retry_spec n url p md5 : forall s, let (s', r) := retry n (attempt url p md5) s in
    (exists l, rq s' = rq s ++ l /\ (length l <= 2 * (n + 1))%nat /\ forall u, In u l -> u = url \/ String.prefix remote url = true /\ u = backup_url remote backup url) /\
    (forall q, q <> p -> legacy p <> Some q -> dk s' q = dk s q) /\
    match r with
    | DOk => exists b, dk s' p = Some b /\ digest b = md5
    | DErr x => x <> XNotFound /\ (dk s' p = None \/ exists b i u, dk s' p = Some b /\ nth_error (rq s') i = Some u /\ (length (rq s) <= i)%nat /\ server i u = RBody b false)
    end.
  Proof.
    assert (TR : forall l, tries url l -> (length l <= 2)%nat /\ forall u, In u l -> u = url \/ String.prefix remote url = true /\ u = backup_url remote backup url).
    { intros l [->|[->|[P ->]]]; cbn; split; auto; intros u; intuition. }
    assert (G : forall s s' r n, outcome url p md5 s s' r -> 
      (exists l, rq s' = rq s ++ l /\ (length l <= 2 * (n + 1))%nat /\ forall u, In u l -> u = url \/ String.prefix remote url = true /\ u = backup_url remote backup url) /\
      (forall q, q <> p -> legacy p <> Some q -> dk s' q = dk s q) /\
      match r with DOk => exists b, dk s' p = Some b /\ digest b = md5
      | DErr x => x <> XNotFound /\ (dk s' p = None \/ exists b i u, dk s' p = Some b /\ nth_error (rq s') i = Some u /\ (length (rq s) <= i)%nat /\ server i u = RBody b false) end).
    { intros s s' r m ((l & R & T) & O & H). destruct (TR l T) as [L I]. split; auto. exists l. split; auto. split; auto. lia. }
    induction n as [|n IH]; intros s; cbn [retry]; pose proof (attempt_outcome url p md5 s) as A; destruct (attempt url p md5 s) as [s1 r1].
    - apply (G _ _ _ 0%nat A).
    - destruct r1 as [|[| | |]]; try exact (G _ _ _ (S n) A).
      specialize (IH s1). destruct (retry n (attempt url p md5) s1) as [s2 r2]. destruct IH as ((l2 & R2 & L2 & I2) & O2 & H2).
      destruct A as ((l1 & R1 & T1) & O1 & _). destruct (TR l1 T1) as [L1 I1].
      split; [exists (l1 ++ l2); split; [rewrite R2, R1, app_assoc; auto|]; split; [rewrite app_length; lia|intros u J; apply in_app_or in J as [J|J]; auto]|].
      split; [intros q Q L; rewrite O2, O1; auto|].
      destruct r2 as [|x]; auto. destruct H2 as [NX [H2|(b & i & u & F & E & LE & SV)]]; split; auto.
      right. exists b, i, u. split; auto. split; auto. split; auto. rewrite R1, app_length in LE. lia.
  Qed.

  (** a call that returns leaves a file with the expected digest at the path; there are at most six requests, all to the url or to its
      backup; no other file changes, except that the file of the legacy cache may be moved; a call that raises leaves no file at the path,
      or the bytes of a transfer that broke off (see C116) *)
  Theorem C63_verified : forall url p md5 s, let (s', r) := download url p md5 s in
    (exists l, rq s' = rq s ++ l /\ (length l <= 6)%nat /\ forall u, In u l -> u = url \/ String.prefix remote url = true /\ u = backup_url remote backup url) /\
    (forall q, q <> p -> legacy p <> Some q -> dk s' q = dk s q) /\
    match r with
    | DOk => exists b, dk s' p = Some b /\ digest b = md5
    | DErr x => x <> XNotFound /\ (dk s' p = None \/ exists b i u, dk s' p = Some b /\ nth_error (rq s') i = Some u /\ (length (rq s) <= i)%nat /\ server i u = RBody b false)
    end.
  Proof. intros url p md5 s. exact (retry_spec 2 url p md5 s). Qed.

  (** a good file at the path: no request, nothing changes.  A good file in the legacy cache is moved to the path, without a request.  A
      file with another digest is removed, without a request. *)
  Theorem C63_local : forall url p md5 s b,
    (dk s p = Some b -> digest b = md5 -> download url p md5 s = (s, DOk)) /\
    (dk s p = Some b -> digest b <> md5 -> let (s', r) := download url p md5 s in r = DErr XValue /\ rq s' = rq s /\ dk s' p = None) /\
    (forall old, dk s p = None -> legacy p = Some old -> old <> p -> dk s old = Some b -> digest b = md5 ->
     let (s', r) := download url p md5 s in r = DOk /\ rq s' = rq s /\ dk s' p = Some b /\ dk s' old = None).
  Proof.
    intros url p md5 s b. unfold download_and_check. cbn [retry]. split; [|split].
    - intros E D. assert (A : attempt url p md5 s = (s, DOk)). { unfold ModelData.attempt. rewrite E. cbv iota. rewrite E. cbv iota beta. rewrite E, D, String.eqb_refl. auto. }
      rewrite A. auto.
    - intros E D. assert (A : attempt url p md5 s = (set_file p None s, DErr XValue)).
      { unfold ModelData.attempt. rewrite E. cbv iota. rewrite E. cbv iota beta. rewrite E. destruct (String.eqb_spec (digest b) md5); [tauto|]. auto. }
      rewrite A. cbn [rq set_file dk]. rewrite put_same. auto.
    - intros old E L N O D. assert (A : attempt url p md5 s = (set_file p (Some b) (set_file old None s), DOk)).
      { unfold legacy in L. unfold ModelData.attempt, migrate. rewrite E. destruct (relative_to p cache_root) as [r|]; [|discriminate]. injection L as L.
        rewrite L, O. cbv iota. rewrite dk_same. cbv iota beta. rewrite dk_same, D, String.eqb_refl. auto. }
      rewrite A. cbn [rq set_file dk]. rewrite put_same, put_other, put_same by auto. auto.
  Qed.

  (** requests answered with a status other than 200 are repeated, at the backup and up to three times, and a good file delivered by any of
      these six requests is stored *)
  Theorem C63_recovers : forall url p md5 s b k, (k <= 2)%nat -> String.prefix remote url = true ->
    dk s p = None -> (forall old, legacy p = Some old -> dk s old = None) -> legacy p <> None -> digest b = md5 ->
    (forall i, (i < 2 * k)%nat -> forall u, server (length (rq s) + i) u = RStatus) ->
    server (length (rq s) + 2 * k) url = RBody b true \/
    ((server (length (rq s) + 2 * k) url = RFail \/ server (length (rq s) + 2 * k) url = RStatus \/ exists b', server (length (rq s) + 2 * k) url = RBody b' false) /\
     server (length (rq s) + 2 * k + 1) (backup_url remote backup url) = RBody b true) ->
    let (s', r) := download url p md5 s in r = DOk /\ dk s' p = Some b.
  Proof.
    intros url p md5 s b k K PR NP NL LG DG ST FIN. unfold download_and_check.
    assert (M : forall s, dk s p = None -> (forall old, legacy p = Some old -> dk s old = None) -> migrate home cache_root p s = Some s).
    { intros t _ H. unfold migrate. unfold legacy in *. destruct (relative_to p cache_root); [|tauto]. rewrite (H _ eq_refl). auto. }
    (* the final attempt *)
    assert (LAST : forall s, dk s p = None -> (forall old, legacy p = Some old -> dk s old = None) ->
      (server (length (rq s)) url = RBody b true \/
       (server (length (rq s)) url = RFail \/ server (length (rq s)) url = RStatus \/ exists b', server (length (rq s)) url = RBody b' false) /\
       server (length (rq s) + 1) (backup_url remote backup url) = RBody b true) ->
      exists s', attempt url p md5 s = (s', DOk) /\ dk s' p = Some b).
    { intros t T1 T2 F. unfold ModelData.attempt. rewrite T1, (M t T1 T2), T1.
      assert (OKF : forall t t' : dst, dk t' p = Some b -> exists s', (match dk t' p with None => (t', DErr XNotFound) | Some b => if String.eqb (digest b) md5 then (t', DOk) else (set_file p None t', DErr XValue) end) = (s', DOk) /\ dk s' p = Some b).
      { intros _ t' E. rewrite E, DG, String.eqb_refl. eauto. }
      destruct F as [F|[F G]].
      - pose proof (file_spec url p t) as H. destruct (download_file server url p t) as [t' r]. rewrite F in H. destruct H as (_ & _ & -> & H). apply OKF; auto.
      - pose proof (file_spec url p t) as H. destruct (download_file server url p t) as [t' r]. destruct H as (R & _ & H).
        assert (ER : exists x, r = DErr x) by (destruct F as [F|[F|(b' & F)]]; rewrite F in H; destruct H as [-> _]; eauto).
        destruct ER as (x & ->). rewrite PR.
        pose proof (file_spec (backup_url remote backup url) p t') as H2. destruct (download_file server (backup_url remote backup url) p t') as [t2 r2].
        destruct H2 as (_ & _ & H2). rewrite R, app_length in H2. cbn [length] in H2. rewrite G in H2. destruct H2 as [-> H2]. apply OKF; auto. }
    (* an attempt in which both answers are a status *)
    assert (STEP : forall s, dk s p = None -> (forall old, legacy p = Some old -> dk s old = None) ->
      (forall i, (i < 2)%nat -> forall u, server (length (rq s) + i) u = RStatus) ->
      exists s', attempt url p md5 s = (s', DErr XHttp) /\ dk s' p = None /\ (forall old, legacy p = Some old -> dk s' old = None) /\ length (rq s') = (length (rq s) + 2)%nat).
    { intros t T1 T2 F. unfold ModelData.attempt. rewrite T1, (M t T1 T2), T1.
      pose proof (file_spec url p t) as H. destruct (download_file server url p t) as [t' r]. destruct H as (R & O & H).
      pose proof (F 0%nat ltac:(lia) url) as F0. rewrite Nat.add_0_r in F0. rewrite F0 in H. destruct H as [-> H]. rewrite PR.
      pose proof (file_spec (backup_url remote backup url) p t') as H2. destruct (download_file server (backup_url remote backup url) p t') as [t2 r2].
      destruct H2 as (R2 & O2 & H2). rewrite R, app_length in H2. cbn [length] in H2. rewrite (F 1%nat) in H2 by lia. destruct H2 as [-> H2].
      exists t2. split; auto. split; [congruence|]. split; [|rewrite R2, R, !app_length; cbn; lia].
      intros old L. destruct (eqb_spec old p) as [->|N]; [congruence|]. rewrite O2, O by auto. auto. }
    assert (G : forall n k s, (k <= n)%nat -> dk s p = None -> (forall old, legacy p = Some old -> dk s old = None) ->
      (forall i, (i < 2 * k)%nat -> forall u, server (length (rq s) + i) u = RStatus) ->
      (server (length (rq s) + 2 * k) url = RBody b true \/
       (server (length (rq s) + 2 * k) url = RFail \/ server (length (rq s) + 2 * k) url = RStatus \/ exists b', server (length (rq s) + 2 * k) url = RBody b' false) /\
       server (length (rq s) + 2 * k + 1) (backup_url remote backup url) = RBody b true) ->
      exists s', retry n (attempt url p md5) s = (s', DOk) /\ dk s' p = Some b).
    { induction n as [|n IH]; intros k' t KN T1 T2 T3 T4.
      - replace k' with 0%nat in * by lia. cbn [Nat.mul] in T4. rewrite Nat.add_0_r in T4. cbn [retry]. apply LAST; auto.
      - cbn [retry]. destruct k' as [|k'].
        + cbn [Nat.mul] in T4. rewrite Nat.add_0_r in T4. destruct (LAST t T1 T2 T4) as (s' & E & F). rewrite E. eauto.
        + destruct (STEP t T1 T2) as (s' & E & E1 & E2 & E3); [intros i I; apply T3; lia|]. rewrite E. apply (IH k'); auto; try lia.
          * intros i I u. rewrite E3. replace (length (rq t) + 2 + i)%nat with (length (rq t) + (2 + i))%nat by lia. apply T3. lia.
          * rewrite E3. replace (length (rq t) + 2 + 2 * k')%nat with (length (rq t) + 2 * S k')%nat by lia. auto. }
    destruct (G 2%nat k s K NP NL ST FIN) as (s' & E & F). rewrite E. auto.
  Qed.

  (** ** Defects *)
  (** C114: for a path outside the cache root, a missing file raises ValueError without any request, whatever the server has *)
  Theorem C114_outside_cache_actual : forall url p md5 s, dk s p = None -> (forall r, p <> cache_root ++ r) ->
    download url p md5 s = (s, DErr XValue).
  Proof.
    intros url p md5 s E N. unfold download_and_check. cbn [retry]. unfold ModelData.attempt. rewrite E. unfold migrate.
    assert (R : forall root p r, relative_to p root = Some r -> p = root ++ r).
    { clear. induction root as [|a root IH]; intros [|b p] r; cbn [relative_to]; try discriminate; try (intros [= <-]; auto; fail).
      destruct (String.eqb_spec a b); [|discriminate]. intros H. apply IH in H. subst. auto. }
    destruct (relative_to p cache_root) as [r|] eqn:Q; auto. exfalso. apply (N r). apply R; auto.
  Qed.
  (** C115: a complete download with a wrong digest is not repeated, although the message says so: ValueError after one request *)
  Theorem C115_corrupt_actual : forall url p md5 s b,
    dk s p = None -> (forall old, legacy p = Some old -> dk s old = None) -> legacy p <> None ->
    server (length (rq s)) url = RBody b true -> digest b <> md5 ->
    let (s', r) := download url p md5 s in r = DErr XValue /\ rq s' = rq s ++ [url] /\ dk s' p = None.
  Proof.
    intros url p md5 s b E NL LG SV DG. unfold download_and_check. cbn [retry]. unfold ModelData.attempt. rewrite E.
    assert (M : migrate home cache_root p s = Some s).
    { unfold migrate. unfold legacy in *. destruct (relative_to p cache_root); [|tauto]. rewrite (NL _ eq_refl). auto. }
    rewrite M, E. unfold download_file. rewrite SV. cbn [set_file dk rq]. rewrite put_same. destruct (String.eqb_spec (digest b) md5); [tauto|].
    cbn [set_file dk rq]. rewrite put_same. auto.
  Qed.
  (** C116: a transfer that breaks off is not repeated and leaves the bytes at the path when the url is not below the remote root, or the
      backup cannot be reached; unless they happen to have the right digest, the next call then fails without any request *)
  Theorem C116_interrupted_actual : forall url p md5 s b,
    dk s p = None -> (forall old, legacy p = Some old -> dk s old = None) -> legacy p <> None ->
    server (length (rq s)) url = RBody b false -> digest b <> md5 ->
    String.prefix remote url = false \/ server (length (rq s) + 1) (backup_url remote backup url) = RFail ->
    let (s', r) := download url p md5 s in r = DErr XRequest /\ dk s' p = Some b /\ (length (rq s') <= length (rq s) + 2)%nat /\
    let (s'', r') := download url p md5 s' in r' = DErr XValue /\ rq s'' = rq s'.
  Proof.
    intros url p md5 s b E NL LG SV DG BK.
    assert (A : exists s', download url p md5 s = (s', DErr XRequest) /\ dk s' p = Some b /\ (length (rq s') <= length (rq s) + 2)%nat).
    { unfold download_and_check. cbn [retry]. unfold ModelData.attempt. rewrite E.
      assert (M : migrate home cache_root p s = Some s).
      { unfold migrate. unfold legacy in *. destruct (relative_to p cache_root); [|tauto]. rewrite (NL _ eq_refl). auto. }
      rewrite M, E. unfold download_file at 1. rewrite SV. destruct BK as [->|BK].
      - eexists. split; [reflexivity|]. cbn [set_file dk rq]. rewrite put_same, app_length. cbn. split; auto. lia.
      - destruct (String.prefix remote url).
        + unfold download_file. cbn [set_file dk rq]. rewrite app_length. cbn [length]. rewrite BK. eexists. split; [reflexivity|]. cbn [dk rq].
          rewrite put_same, !app_length. cbn. split; auto. lia.
        + eexists. split; [reflexivity|]. cbn [set_file dk rq]. rewrite put_same, app_length. cbn. split; auto. lia. }
    destruct A as (s' & -> & F & L). repeat split; auto.
    destruct (C63_local url p md5 s' b) as (_ & H & _). specialize (H F DG). destruct (download url p md5 s') as [s'' r']. tauto.
  Qed.
End Download.

(** ** Instances *)
(** the digest of these examples is the content itself *)
Definition dg (b : bytes) : string := string_of_list_ascii b.
Definition good : bytes := list_ascii_of_string "good".
Definition croot : path := ["h"; ".cache"; "dhg"].
Definition tgt : path := croot ++ ["datasets"; "cora"; "x"].
Definition empty_disk : dst := mkdst (fun _ => None) [].
Definition dl (server : nat -> string -> resp) (url : string) (p : path) (s : dst) : dst * dres := download_and_check ["h"] croot "r/" "b/" server dg url p "good" s.
Definition seen (x : dst * dres) (p : path) : dres * option bytes * list string := (snd x, dk (fst x) p, rq (fst x)).
(** C63_recovers with k = 1: two answers with a status, a refused connection, then the file from the backup *)
Definition flaky (i : nat) (_ : string) : resp := match i with 0%nat => RStatus | 1%nat => RStatus | 2%nat => RFail | _ => RBody good true end.
Example C63_recovers_run : seen (dl flaky "r/cora/x" tgt empty_disk) tgt = (DOk, Some good, ["r/cora/x"; "b/cora/x"; "r/cora/x"; "b/cora/x"]).
Proof. vm_compute. reflexivity. Qed.
Example C63_recovers_hyps : (1 <= 2)%nat /\ String.prefix "r/" "r/cora/x" = true /\ dk empty_disk tgt = None /\
  legacy ["h"] croot tgt = Some ["h"; ".dhg"; "datasets"; "cora"; "x"] /\ dg good = "good" /\
  (forall i, (i < 2 * 1)%nat -> forall u, flaky (length (rq empty_disk) + i) u = RStatus) /\
  flaky (length (rq empty_disk) + 2 * 1) "r/cora/x" = RFail /\ flaky (length (rq empty_disk) + 2 * 1 + 1) (backup_url "r/" "b/" "r/cora/x") = RBody good true.
Proof. repeat split; auto. intros i I u. destruct i as [|[|i]]; auto. lia. Qed.
(** six requests in vain *)
Example C63_bounded_run : seen (dl (fun _ _ => RStatus) "r/cora/x" tgt empty_disk) tgt =
  (DErr XHttp, None, ["r/cora/x"; "b/cora/x"; "r/cora/x"; "b/cora/x"; "r/cora/x"; "b/cora/x"]).
Proof. vm_compute. reflexivity. Qed.
(** a file in the legacy cache *)
Definition old_disk : dst := set_file ["h"; ".dhg"; "datasets"; "cora"; "x"] (Some good) empty_disk.
Example C63_local_run : seen (dl (fun _ _ => RFail) "r/cora/x" tgt old_disk) tgt = (DOk, Some good, []) /\
  seen (dl (fun _ _ => RFail) "r/cora/x" tgt old_disk) ["h"; ".dhg"; "datasets"; "cora"; "x"] = (DOk, None, []).
Proof. vm_compute. split; reflexivity. Qed.
(** C114: a dataset kept in another directory, and a server that would deliver the file *)
Example C114_run : seen (dl (fun _ _ => RBody good true) "r/cora/x" ["data"; "cora"; "x"] empty_disk) ["data"; "cora"; "x"] = (DErr XValue, None, []) /\
  (forall r, ["data"; "cora"; "x"] <> croot ++ r).
Proof. split; [vm_compute; reflexivity|discriminate]. Qed.
(** C115: the first answer is corrupt; the second would be good *)
Definition corrupt_once (i : nat) (_ : string) : resp := match i with 0%nat => RBody [] true | _ => RBody good true end.
Example C115_run : seen (dl corrupt_once "r/cora/x" tgt empty_disk) tgt = (DErr XValue, None, ["r/cora/x"]).
Proof. vm_compute. reflexivity. Qed.
(** C116: the transfer breaks off; a second call would get the good file but only removes the partial one; a third call succeeds *)
Definition broken_once (i : nat) (_ : string) : resp := match i with 0%nat => RBody (firstn 2 good) false | 1%nat => RFail | _ => RBody good true end.
Example C116_run : let r1 := dl broken_once "r/cora/x" tgt empty_disk in let r2 := dl broken_once "r/cora/x" tgt (fst r1) in
  seen r1 tgt = (DErr XRequest, Some (firstn 2 good), ["r/cora/x"; "b/cora/x"]) /\
  seen r2 tgt = (DErr XValue, None, ["r/cora/x"; "b/cora/x"]) /\
  seen (dl broken_once "r/cora/x" tgt (fst r2)) tgt = (DOk, Some good, ["r/cora/x"; "b/cora/x"; "r/cora/x"]).
Proof. vm_compute. repeat split; reflexivity. Qed.
