(** Generic reasoning about memoised getters. *)
From Verif Require Import Num PyDict PyDictFacts Coo ModelBase.
Set Implicit Arguments.

Section CacheFacts.
  Context {T : Type} `{Num T} {R : Type}.
  Variable spec : ckey -> R -> res (cval T).

  (** every cached value is what would be computed from the raw part now *)
  Definition coh (s : st T R) : Prop :=
    forall k v, dget k (st_cache s) = Some v -> spec k (st_raw s) = Ok v.

  (** [g] answers [f raw] on every coherent object and only touches the cache *)
  Definition good {A} (g : M T R A) (f : R -> res A) : Prop :=
    forall s, coh s -> exists c, g s = (mkSt (st_raw s) c, f (st_raw s)) /\ coh (mkSt (st_raw s) c).

  Lemma coh_empty (r : R) : coh (mkSt r []).
  Proof. intros k v; cbn; discriminate. Qed.

  Lemma st_eta (s : st T R) : mkSt (st_raw s) (st_cache s) = s.
  Proof. destruct s; reflexivity. Qed.

  Lemma good_ret {A} (a : A) : good (ret a) (fun _ => Ok a).
  Proof. intros s C. exists (st_cache s). rewrite st_eta. split; auto. Qed.
  Lemma good_raise {A} e : good (@raise T R A e) (fun _ => Err e).
  Proof. intros s C. exists (st_cache s). rewrite st_eta. split; auto. Qed.
  Lemma good_lift {A} (x : res A) : good (lift x) (fun _ => x).
  Proof. intros s C. exists (st_cache s). rewrite st_eta. split; auto. Qed.
  Lemma good_ask : good ask (fun r => Ok r).
  Proof. intros s C. exists (st_cache s). rewrite st_eta. split; auto. Qed.

  Lemma good_bind {A B} (g : M T R A) (f : R -> res A) (h : A -> M T R B) (k : A -> R -> res B) :
    good g f -> (forall a, good (h a) (k a)) ->
    good (bind g h) (fun r => res_bind (f r) (fun a => k a r)).
  Proof.
    intros Hg Hh s C. destruct (Hg s C) as (c & E & C1). unfold bind. rewrite E.
    destruct (f (st_raw s)) as [a|e]; cbn.
    - destruct (Hh a _ C1) as (c2 & E2 & C2). rewrite E2. cbn in *. exists c2; auto.
    - exists c; auto.
  Qed.

  Lemma good_ext {A} (g : M T R A) f f' : good g f -> (forall r, f r = f' r) -> good g f'.
  Proof.
    intros G E s C. destruct (G s C) as (c & E1 & C1). exists c. rewrite <- E; auto.
  Qed.

  Lemma good_memo {A} (inj : A -> cval T) (prj : cval T -> option A) k (g : M T R A) f :
    (forall a, prj (inj a) = Some a) ->
    good g f ->
    (forall r, spec k r = match f r with Ok a => Ok (inj a) | Err e => Err e end) ->
    good (memo inj prj k g) f.
  Proof.
    intros PI G SP s C. unfold memo. destruct (dget k (st_cache s)) as [v|] eqn:E.
    - pose proof (C _ _ E) as E1. rewrite SP in E1.
      destruct (f (st_raw s)) as [a|e]; [|discriminate].
      injection E1 as <-. rewrite PI. exists (st_cache s). rewrite st_eta; auto.
    - destruct (G s C) as (c & E1 & C1). rewrite E1.
      destruct (f (st_raw s)) as [a|e] eqn:Ef; cbn.
      + eexists; split; [reflexivity|]. intros k' v'; cbn.
        destruct (ckey_dec k' k) as [->|N].
        * rewrite dget_dset_same. intros X; injection X as <-. rewrite SP, Ef; reflexivity.
        * rewrite dget_dset_other by auto. apply C1.
      + exists c; auto.
  Qed.
  Lemma good_memoE k (g : M T R _) f :
    good g f ->
    (forall r, spec k r = match f r with Ok a => Ok (injE a) | Err e => Err e end) ->
    good (memoE k g) f.
  Proof. apply good_memo. intros [a b]; reflexivity. Qed.
  Lemma good_memoHE k (g : M T R _) f :
    good g f ->
    (forall r, spec k r = match f r with Ok a => Ok (injHE a) | Err e => Err e end) ->
    good (memoHE k g) f.
  Proof. apply good_memo. intros [a b]; reflexivity. Qed.
  Lemma good_memoM k (g : M T R _) f :
    good g f ->
    (forall r, spec k r = match f r with Ok a => Ok (VM a) | Err e => Err e end) ->
    good (memoM k g) f.
  Proof. apply good_memo. reflexivity. Qed.

  Lemma good_if {A} (b : bool) (g h : M T R A) f k :
    good g f -> good h k -> good (if b then g else h) (fun r => if b then f r else k r).
  Proof. destruct b; auto. Qed.
  Lemma good_if_raw {A} (p : R -> bool) (g h : R -> M T R A) f k :
    (forall r, good (g r) (f r)) -> (forall r, good (h r) (k r)) ->
    good (bind ask (fun r => if p r then g r else h r))
         (fun r => if p r then f r r else k r r).
  Proof.
    intros G K. eapply good_ext; [apply good_bind; [apply good_ask|]|].
    - intros r. apply (good_if (p r) (G r) (K r)).
    - intros r; cbn. reflexivity.
  Qed.

  (** the answer does not depend on the cache *)
  Lemma good_answer {A} (g : M T R A) f s : good g f -> coh s -> snd (g s) = f (st_raw s).
  Proof. intros G C. destruct (G s C) as (c & E & _). rewrite E; reflexivity. Qed.
  Lemma good_raw {A} (g : M T R A) f s : good g f -> coh s -> st_raw (fst (g s)) = st_raw s.
  Proof. intros G C. destruct (G s C) as (c & E & _). rewrite E; reflexivity. Qed.
  Lemma good_coh {A} (g : M T R A) f s : good g f -> coh s -> coh (fst (g s)).
  Proof. intros G C. destruct (G s C) as (c & E & C'). rewrite E; exact C'. Qed.

  (** mutators *)
  Definition keeps_coh {A} (g : M T R A) : Prop := forall s, coh s -> coh (fst (g s)).
  Lemma keeps_good {A} (g : M T R A) f : good g f -> keeps_coh g.
  Proof. intros G s C. eapply good_coh; eauto. Qed.
  Lemma keeps_bind {A B} (g : M T R A) (h : A -> M T R B) :
    keeps_coh g -> (forall a, keeps_coh (h a)) -> keeps_coh (bind g h).
  Proof.
    intros G K s C. unfold bind. specialize (G s C). destruct (g s) as [s1 [a|e]]; cbn in *; auto.
    apply K; auto.
  Qed.
  Lemma keeps_for_each {A} (f : A -> M T R unit) l : (forall a, keeps_coh (f a)) -> keeps_coh (for_each f l).
  Proof.
    intros F. induction l as [|a l IH]; cbn.
    - intros s C; exact C.
    - apply keeps_bind; auto.
  Qed.
  Lemma keeps_wipe : keeps_coh wipe_cache.
  Proof. intros s C. apply coh_empty. Qed.
  Lemma keeps_lift {A} (x : res A) : keeps_coh (lift x).
  Proof. intros s C; exact C. Qed.
  Lemma keeps_ret {A} (x : A) : keeps_coh (ret x).
  Proof. intros s C; exact C. Qed.
End CacheFacts.
