(** What every Hypergraph query computes from the raw part, and cache coherence. *)
From Coq Require Import String.
From Verif Require Import Num PyDict PyDictFacts Coo ModelBase CacheFacts ModelGraph ModelHyper.
Set Implicit Arguments.

Section Pure.
  Context {T : Type} `{Num T}.
  Implicit Types (r : hraw T) (sc : option string) (g : string).

  Fixpoint rmapM {A B} (f : A -> res B) (l : list A) : res (list B) :=
    match l with
    | [] => Ok []
    | a :: r => res_bind (f a) (fun b => res_bind (rmapM f r) (fun bs => Ok (b :: bs)))
    end.
  Definition p_group {A} r g (f : dict (list Z) T -> res A) : res A :=
    match dget g (h_gr r) with Some d => f d | None => Err AssertionError end.
  Definition p_groups {A B} r (f : string -> res A) (k : list A -> res B) : res B :=
    res_bind (rmapM f (dkeys (h_gr r))) k.
  Definition p_sc {A} r sc (x : res A) : res A := match sc with None => x | Some g => p_group r g (fun _ => x) end.
  Definition rmap {A B} (f : A -> B) (x : res A) : res B := match x with Ok a => Ok (f a) | Err e => Err e end.

  Definition hp_ne sc r : res Z :=
    match sc with None => Ok (raw_ne r) | Some g => p_group r g (fun d => Ok (Z.of_nat (length d))) end.
  Definition hp_e_g g r := p_group r g (fun d => Ok (dkeys d, dvals d)).
  Definition hp_e sc r : res (list (list Z) * list T) :=
    match sc with
    | Some g => hp_e_g g r
    | None => p_groups r (fun g => hp_e_g g r) (fun l => Ok (concat (map fst l), concat (map snd l)))
    end.
  Definition hp_H_g g r := p_group r g (fun d => fetch_H (h_nv r) d).
  Definition hp_H sc r : res (coo T) :=
    match sc with
    | Some g => hp_H_g g r
    | None => p_groups r (fun g => hp_H_g g r) (fun l =>
        match l with [] => Err RuntimeError | _ => Ok (hcat 0 (combine (raw_sizes r) l)) end)
    end.
  Definition hp_HT sc r : res (coo T) := rmap (@ctrans T) (hp_H sc r).
  Definition hp_Wv r : res (coo T) := match h_vw r with None => Err TypeError | Some l => Ok (diag_of l) end.
  Definition hp_We_g g r := p_group r g (fun d => Ok (diag_of (dvals d))).
  Definition hp_We sc r : res (coo T) :=
    match sc with
    | Some g => hp_We_g g r
    | None => p_groups r (fun g => hp_We_g g r) (fun l =>
        match l with [] => Err RuntimeError | _ => Ok (diag_of (concat (map (@vals T) l))) end)
    end.
  Definition hp_Dv_g g r : res (coo T) :=
    res_bind (hp_H_g g r) (fun Hm => res_bind (hp_We_g g r) (fun W =>
      Ok (diag_rowsum (h_nv r) (weigh_cols (vals W) Hm)))).
  Definition hp_Dv sc r : res (coo T) :=
    match sc with
    | Some g => hp_Dv_g g r
    | None => p_groups r (fun g => hp_Dv_g g r) (fun l =>
        match l with
        | [] => Err RuntimeError
        | _ => Ok (coalesce (diag (h_nv r) (fun i => sumf l (fun D => zn (vals D) i))))
        end)
    end.
  Definition hp_Dv1 sc r := rmap (@inv_vals T _) (hp_Dv sc r).
  Definition hp_Dv12 sc r := rmap (@isq_vals T _) (hp_Dv sc r).
  Definition hp_De_g g r : res (coo T) :=
    p_group r g (fun d => res_bind (hp_HT (Some g) r) (fun HT => Ok (diag_rowsum (Z.of_nat (length d)) HT))).
  Definition hp_De sc r : res (coo T) :=
    match sc with
    | Some g => hp_De_g g r
    | None => p_groups r (fun g => hp_De_g g r) (fun l =>
        match l with [] => Err RuntimeError | _ => Ok (diag_of (concat (map (@vals T) l))) end)
    end.
  Definition hp_De1 sc r := rmap (@inv_vals T _) (hp_De sc r).
  Definition hp_Ne_g (v : Z) g r : res (list Z) :=
    p_group r g (fun _ => if v <? h_nv r then
      res_bind (hp_H_g g r) (fun m => res_bind (py_index (h_nv r) v) (fun i => Ok (row_idx m i)))
      else Err AssertionError).
  Definition hp_Ne sc (v : Z) r : res (list Z) :=
    match sc with
    | Some g => hp_Ne_g v g r
    | None => if v <? h_nv r then p_groups r (fun g => hp_Ne_g v g r) (fun l =>
        match l with [] => Err RuntimeError | _ => Ok (shift_cat 0 (combine (raw_sizes r) l)) end)
        else Err AssertionError
    end.
  Definition hp_Nv_g (e : Z) g r : res (list Z) :=
    p_group r g (fun d => if e <? Z.of_nat (length d) then
      res_bind (hp_HT (Some g) r) (fun m => res_bind (py_index (Z.of_nat (length d)) e) (fun i => Ok (row_idx m i)))
      else Err AssertionError).
  Fixpoint p_walk (e : Z) (l : list (string * Z)) r : res (list Z) :=
    match l with
    | [] => Err AttributeError
    | (g, n) :: q => if e <? n then hp_Nv_g e g r else p_walk (e - n) q r
    end.
  Definition hp_Nv sc (e : Z) r : res (list Z) :=
    match sc with
    | Some g => hp_Nv_g e g r
    | None => if e <? raw_ne r then p_walk e (combine (dkeys (h_gr r)) (raw_sizes r)) r else Err AssertionError
    end.
  Definition hp_Lhgnn sc r : res (coo T) :=
    res_bind (hp_Dv12 sc r) (fun D => res_bind (hp_H sc r) (fun Hm => res_bind (hp_We sc r) (fun W =>
    res_bind (hp_De1 sc r) (fun E => res_bind (hp_HT sc r) (fun HT =>
      Ok (coalesce (spmm (spmm (spmm (spmm (spmm D Hm) W) E) HT) D))))))).
  Definition p_sub_id r (m : coo T) : coo T := coalesce (ident (h_nv r) ++ cmap nopp m).
  Definition hp_Lsym sc r := rmap (p_sub_id r) (hp_Lhgnn sc r).
  Definition hp_Lrw sc r := rmap (p_sub_id r)
    (res_bind (hp_Dv1 sc r) (fun D => res_bind (hp_H sc r) (fun Hm => res_bind (hp_We sc r) (fun W =>
     res_bind (hp_De1 sc r) (fun E => res_bind (hp_HT sc r) (fun HT =>
      Ok (spmm (spmm (spmm (spmm D Hm) W) E) HT))))))).
  Definition hp_hgnn sc X keep r : res (list T) :=
    rmap (fun L => map (spmv (cdrop_opt keep L) X) (range (h_nv r))) (hp_Lhgnn sc r).
  Definition p_aggregate (P0 D1 : res (coo T)) (n : res Z) (X : Z -> T) (a : aggr)
      (w : option (list T)) (keep : option (nat -> bool)) : res (list T) :=
    if aggr_ok a then
      match w with
      | None => res_bind P0 (fun A => let P := cdrop_opt keep A in res_bind n (fun k =>
          match a with
          | AggrMean => res_bind D1 (fun D => Ok (map (spmv D (spmv P X)) (range k)))
          | AggrSum => Ok (map (spmv P X) (range k))
          | _ => Ok (map (spmv (csoftmax (coalesce P)) X) (range k))
          end))
      | Some wl => res_bind P0 (fun A =>
          if Nat.eqb (length wl) (length A) then
            let P := cdrop_opt keep (with_vals A wl) in res_bind n (fun k =>
            match a with
            | AggrMean => Ok (map (mean_weighted P X) (range k))
            | AggrSum => Ok (map (spmv P X) (range k))
            | _ => Ok (map (spmv (csoftmax (coalesce P)) X) (range k))
            end)
          else Err AssertionError)
      end
    else Err AssertionError.
  Definition hp_v2e_agg sc X a w keep r := p_sc r sc (p_aggregate (hp_HT sc r) (hp_De1 sc r) (hp_ne sc r) X a w keep).
  Definition hp_e2v_agg sc X a w keep r := p_sc r sc (p_aggregate (hp_H sc r) (hp_Dv1 sc r) (Ok (h_nv r)) X a w keep).
  Definition hp_v2e_upd sc (X : Z -> T) ew r : res (list T) :=
    p_sc r sc (match ew with
    | None => res_bind (hp_We sc r) (fun W => res_bind (hp_ne sc r) (fun k => Ok (map (spmv W X) (range k))))
    | Some w => res_bind (hp_ne sc r) (fun k =>
        if Nat.eqb (length w) (Z.to_nat k) then Ok (map (fun i => nmul (zn w i) (X i)) (range k))
        else Err AssertionError)
    end).
  Definition hp_v2e sc X a w ew keep r :=
    p_sc r sc (res_bind (hp_v2e_agg sc X a w keep r) (fun y => hp_v2e_upd sc (zn y) ew r)).
  Definition hp_e2v sc X a w keep r := p_sc r sc (hp_e2v_agg sc X a w keep r).
  Definition or_else {B} (o : option B) (x : B) := match o with Some y => y | None => x end.
  Definition hp_v2v sc X a dr a1 w1 dr1 ew a2 w2 dr2 (k1 k2 : nat -> bool) r :=
    p_sc r sc
      (res_bind (hp_v2e sc X (or_else a1 a) w1 ew (if or_else dr1 dr : bool then Some k1 else None) r)
         (fun y => hp_e2v sc (zn y) (or_else a2 a) w2 (if or_else dr2 dr : bool then Some k2 else None) r)).

  Definition hp_query (q : hquery T) r : res (out T) :=
    match q with
    | hqE sc => rmap (fun x => OHE (fst x) (snd x)) (hp_e sc r)
    | hqNumE sc => rmap (fun n => OZ n) (hp_ne sc r)
    | hqNames => Ok (ONames (dkeys (h_gr r)))
    | hqVw => Ok (match h_vw r with Some l => OVals l | None => OUnit end)
    | hqH sc => rmap (@OM T) (hp_H sc r) | hqHdir _ sc => rmap (@OM T) (hp_H sc r) | hqHT sc => rmap (@OM T) (hp_HT sc r) | hqWv => rmap (@OM T) (hp_Wv r)
    | hqWe sc => rmap (@OM T) (hp_We sc r)
    | hqDv sc => rmap (@OM T) (hp_Dv sc r) | hqDv1 sc => rmap (@OM T) (hp_Dv1 sc r) | hqDv12 sc => rmap (@OM T) (hp_Dv12 sc r)
    | hqDe sc => rmap (@OM T) (hp_De sc r) | hqDe1 sc => rmap (@OM T) (hp_De1 sc r)
    | hqDegV sc => rmap (fun m => OVals (vals m)) (hp_Dv sc r)
    | hqDegE sc => rmap (fun m => OVals (vals m)) (hp_De sc r)
    | hqNe sc v => rmap (@OIdx T) (hp_Ne sc v r) | hqNv sc e => rmap (@OIdx T) (hp_Nv sc e r)
    | hqLsym sc => rmap (@OM T) (hp_Lsym sc r) | hqLrw sc => rmap (@OM T) (hp_Lrw sc r)
    | hqLhgnn sc => rmap (@OM T) (hp_Lhgnn sc r)
    | hqV2eSrc sc => rmap (fun m => OIdx (cols m)) (hp_HT sc r)
    | hqV2eDst sc => rmap (fun m => OIdx (rows m)) (hp_HT sc r)
    | hqV2eW sc => rmap (fun m => OVals (vals m)) (hp_HT sc r)
    | hqE2vSrc sc => rmap (fun m => OIdx (cols m)) (hp_H sc r)
    | hqE2vDst sc => rmap (fun m => OIdx (rows m)) (hp_H sc r)
    | hqE2vW sc => rmap (fun m => OVals (vals m)) (hp_H sc r)
    | hqHgnn sc X keep => rmap (@OVals T) (hp_hgnn sc X keep r)
    | hqV2eAgg sc X a w keep => rmap (@OVals T) (hp_v2e_agg sc X a w keep r)
    | hqV2eUpd sc X ew => rmap (@OVals T) (hp_v2e_upd sc X ew r)
    | hqV2e sc X a w ew keep => rmap (@OVals T) (hp_v2e sc X a w ew keep r)
    | hqE2v sc X a w keep => rmap (@OVals T) (hp_e2v sc X a w keep r)
    | hqV2v sc X a dr a1 w1 dr1 ew a2 w2 dr2 k1 k2 =>
        rmap (@OVals T) (hp_v2v sc X a dr a1 w1 dr1 ew a2 w2 dr2 k1 k2 r)
    end.

  (** what each cache entry must be.  [fz]: if [Some v], the entry "W_v" is frozen at [v] (a clone keeps the
      cached W_v of the original although its own vertex weights are 1). *)
  Variable fz : option (cval T).
  Definition hspec (k : ckey) r : res (cval T) :=
    match k with
    | KH sc k' =>
        match k' with
        | HKe => rmap (@injHE T) (hp_e sc r)
        | HKHv2e => rmap (@VM T) (hp_H sc r)
        | HKHe2v => rmap (@VM T) (hp_H sc r)
        | HKH => rmap (@VM T) (hp_H sc r)
        | HKHT => rmap (@VM T) (hp_HT sc r)
        | HKWv => match sc, fz with
                  | None, Some v => Ok v
                  | None, None => rmap (@VM T) (hp_Wv r)
                  | _, _ => Err TypeError
                  end
        | HKWe => rmap (@VM T) (hp_We sc r)
        | HKDv => rmap (@VM T) (hp_Dv sc r)
        | HKDv1 => rmap (@VM T) (hp_Dv1 sc r)
        | HKDv12 => rmap (@VM T) (hp_Dv12 sc r)
        | HKDe => rmap (@VM T) (hp_De sc r)
        | HKDe1 => rmap (@VM T) (hp_De1 sc r)
        | HKLsym => rmap (@VM T) (hp_Lsym sc r)
        | HKLrw => rmap (@VM T) (hp_Lrw sc r)
        | HKLhgnn => rmap (@VM T) (hp_Lhgnn sc r)
        end
    | _ => Err TypeError
    end.
  Notation hgood := (good hspec).

  Lemma good_mapM {A B} (f : A -> M T (hraw T) B) (p : A -> hraw T -> res B) l :
    (forall a, hgood (f a) (p a)) -> hgood (mapM f l) (fun r => rmapM (fun a => p a r) l).
  Proof.
    intros G. induction l as [|a l IH]; cbn [mapM rmapM]; [apply good_ret|].
    eapply good_ext; [eapply good_bind; [apply G|intros b; eapply good_bind; [exact IH|intros bs; apply good_ret]]|].
    intros r; reflexivity.
  Qed.
  Lemma good_with_group {A} g (f : dict (list Z) T -> M T (hraw T) A) k :
    (forall d, hgood (f d) (k d)) -> hgood (with_group g f) (fun r => p_group r g (fun d => k d r)).
  Proof.
    intros G. unfold with_group. intros s C. unfold bind, ask. unfold p_group.
    destruct (dget g (h_gr (st_raw s))) as [d|] eqn:E.
    - destruct (G d s C) as (c & E1 & C1). exists c. auto.
    - exists (st_cache s). rewrite st_eta. auto.
  Qed.
  Lemma good_group_memo {A} (inj : A -> cval T) (prj : cval T -> option A) key g (body : dict (list Z) T -> M T (hraw T) A) fb :
    (forall a, prj (inj a) = Some a) ->
    (forall d, hgood (body d) (fb d)) ->
    (forall r, hspec key r = rmap inj (p_group r g (fun d => fb d r))) ->
    hgood (with_group g (fun d => memo inj prj key (body d))) (fun r => p_group r g (fun d => fb d r)).
  Proof.
    intros PI G SP s C. unfold with_group, bind, ask, memo. specialize (SP (st_raw s)). unfold p_group in *.
    destruct (dget g (h_gr (st_raw s))) as [d|] eqn:ED.
    - destruct (dget key (st_cache s)) as [v|] eqn:E.
      + pose proof (C _ _ E) as E1. rewrite SP in E1.
        destruct (fb d (st_raw s)) as [a|e]; [|discriminate].
        injection E1 as <-. rewrite PI. exists (st_cache s). rewrite st_eta; auto.
      + destruct (G d s C) as (c & E1 & C1). rewrite E1.
        destruct (fb d (st_raw s)) as [a|e] eqn:Ef; cbn.
        * eexists; split; [reflexivity|]. intros k' v'; cbn.
          destruct (ckey_dec k' key) as [->|N].
          -- rewrite dget_dset_same. intros X; injection X as <-. rewrite SP; reflexivity.
          -- rewrite dget_dset_other by auto. apply C1.
        * exists c; auto.
    - exists (st_cache s). rewrite st_eta. auto.
  Qed.
  Lemma good_on_groups {A B} (f : string -> M T (hraw T) A) p (k : list A -> M T (hraw T) B) kp :
    (forall g, hgood (f g) (p g)) -> (forall l, hgood (k l) (kp l)) ->
    hgood (on_groups f k) (fun r => p_groups r (fun g => p g r) (fun l => kp l r)).
  Proof.
    intros G K. unfold on_groups.
    eapply good_ext; [eapply good_bind; [apply good_ask|intros r; eapply good_bind; [apply good_mapM, G|apply K]]|].
    intros r; reflexivity.
  Qed.
  Lemma good_memo_plain {A} (inj : A -> cval T) (prj : cval T -> option A) key (g : M T (hraw T) A) f :
    (forall a, prj (inj a) = Some a) -> hgood g f -> (forall r, hspec key r = rmap inj (f r)) -> hgood (memo inj prj key g) f.
  Proof. intros PI G SP. apply good_memo; auto. Qed.
  Lemma good_memo_sc sc k (f : M T (hraw T) (coo T)) p :
    hgood f p -> (forall r, hspec (KH sc k) r = rmap (@VM T) (p_sc r sc (p r))) ->
    hgood (memo_sc sc k f) (fun r => p_sc r sc (p r)).
  Proof.
    intros G SP. destruct sc as [g|]; cbn [memo_sc p_sc] in *.
    - apply good_group_memo with (fb := fun _ => p); auto.
    - apply good_memo_plain; auto.
  Qed.
  Lemma good_check_sc {A} sc (f : M T (hraw T) A) p : hgood f p -> hgood (check_sc sc f) (fun r => p_sc r sc (p r)).
  Proof.
    intros G. destruct sc as [g|]; cbn [check_sc p_sc]; auto.
    apply good_with_group with (k := fun _ => p); auto.
  Qed.
  (** a check that the body repeats changes nothing *)
  Lemma p_group_bind {A} r g (f : dict (list Z) T -> res A) : p_group r g (fun _ => p_group r g f) = p_group r g f.
  Proof. unfold p_group. destruct (dget g (h_gr r)); auto. Qed.
  Lemma p_sc_idem {A} r sc (x : res A) : p_sc r sc (p_sc r sc x) = p_sc r sc x.
  Proof. destruct sc; cbn; auto. apply p_group_bind. Qed.
  Lemma p_group_rmap {A B} r g (f : A -> B) (k : dict (list Z) T -> res A) : rmap f (p_group r g k) = p_group r g (fun d => rmap f (k d)).
  Proof. unfold p_group. destruct (dget g (h_gr r)); auto. Qed.
  Lemma p_group_res_bind {A B} r g (k : dict (list Z) T -> res A) (f : A -> res B) :
    res_bind (p_group r g k) f = p_group r g (fun d => res_bind (k d) f).
  Proof. unfold p_group. destruct (dget g (h_gr r)); auto. Qed.
  Lemma p_group_ext {A} r g (k k' : dict (list Z) T -> res A) : (forall d, dget g (h_gr r) = Some d -> k d = k' d) -> p_group r g k = p_group r g k'.
  Proof. unfold p_group. destruct (dget g (h_gr r)); auto. Qed.

  Lemma hgood_ne sc : hgood (get_ne sc) (hp_ne sc).
  Proof.
    destruct sc as [g|]; unfold get_ne, hp_ne.
    - apply good_with_group with (k := fun d _ => Ok (Z.of_nat (length d))). intros d; apply good_ret.
    - eapply good_ext; [eapply good_bind; [apply good_ask|intros ?; apply good_ret]|]; reflexivity.
  Qed.
  Lemma hgood_e_g g : hgood (get_he_g g) (hp_e_g g).
  Proof.
    unfold get_he_g, hp_e_g. apply good_group_memo with (fb := fun d _ => Ok (dkeys d, dvals d)).
    - intros [a b]; reflexivity.
    - intros d; apply good_ret.
    - intros r; reflexivity.
  Qed.
  Lemma hgood_e sc : hgood (get_he sc) (hp_e sc).
  Proof.
    destruct sc as [g|]; [apply hgood_e_g|]. unfold get_he. apply good_memo_plain.
    - intros [a b]; reflexivity.
    - eapply good_ext; [eapply good_on_groups; [apply hgood_e_g|intros l; apply good_ret]|]. reflexivity.
    - reflexivity.
  Qed.
  Lemma hgood_Hv2e_g g : hgood (get_Hv2e_g g) (hp_H_g g).
  Proof.
    unfold get_Hv2e_g, hp_H_g. apply good_group_memo with (fb := fun d r => fetch_H (h_nv r) d).
    - reflexivity.
    - intros d. eapply good_ext; [eapply good_bind; [apply good_ask|intros a; exact (@good_lift _ _ _ _ (fetch_H (h_nv a) d))]|]. reflexivity.
    - reflexivity.
  Qed.
  Lemma hgood_H_g g : hgood (get_H_g g) (hp_H_g g).
  Proof.
    unfold get_H_g. eapply good_ext.
    - apply good_group_memo with (fb := fun _ => hp_H_g g); [reflexivity|intros ?; apply hgood_Hv2e_g|].
      intros r. cbn [hspec hp_H]. unfold hp_H_g. rewrite p_group_bind; reflexivity.
    - intros r. unfold hp_H_g. apply p_group_bind.
  Qed.
  Lemma hgood_HT_g g : hgood (get_HT_g g) (hp_HT (Some g)).
  Proof.
    assert (E : forall r, p_group r g (fun _ => hp_HT (Some g) r) = hp_HT (Some g) r).
    { intros r. unfold hp_HT, hp_H, hp_H_g. rewrite p_group_rmap. apply p_group_bind. }
    unfold get_HT_g. eapply good_ext.
    - apply good_group_memo with (fb := fun _ => hp_HT (Some g)); [reflexivity| |].
      + intros d. eapply good_ext; [eapply good_bind; [apply hgood_H_g|intros ?; apply good_ret]|].
        intros r. unfold hp_HT. cbn. destruct (hp_H_g g r); reflexivity.
      + intros r. cbn [hspec]. rewrite E. reflexivity.
    - exact E.
  Qed.
  Lemma good_match_nil {A B} (l : list A) (x : M T (hraw T) B) (y : A -> list A -> M T (hraw T) B) p q :
    hgood x p -> (forall a t, hgood (y a t) (q a t)) ->
    hgood (match l with [] => x | a :: t => y a t end) (fun rw => match l with [] => p rw | a :: t => q a t rw end).
  Proof. destruct l; auto. Qed.
  Lemma hgood_Hv2e : hgood get_Hv2e (hp_H None).
  Proof.
    unfold get_Hv2e. apply good_memo_plain; [reflexivity| |reflexivity].
    eapply good_ext; [eapply good_on_groups; [apply hgood_Hv2e_g|]|].
    - intros l. eapply good_bind; [apply good_ask|]. intros r. apply good_match_nil; [apply good_raise|intros ? ?; apply good_ret].
    - intros r; unfold hp_H, p_groups. destruct (rmapM _ _) as [[|a l]|e]; reflexivity.
  Qed.
  Lemma hgood_He2v_g g : hgood (get_He2v_g g) (hp_H_g g).
  Proof.
    unfold get_He2v_g, hp_H_g. apply good_group_memo with (fb := fun d r => fetch_H (h_nv r) d).
    - reflexivity.
    - intros d. eapply good_ext; [eapply good_bind; [apply good_ask|intros a; exact (@good_lift _ _ _ _ (fetch_H (h_nv a) d))]|]. reflexivity.
    - reflexivity.
  Qed.
  Lemma hgood_He2v : hgood get_He2v (hp_H None).
  Proof.
    unfold get_He2v. apply good_memo_plain; [reflexivity| |reflexivity].
    eapply good_ext; [eapply good_on_groups; [apply hgood_He2v_g|]|].
    - intros l. eapply good_bind; [apply good_ask|]. intros r. apply good_match_nil; [apply good_raise|intros ? ?; apply good_ret].
    - intros r; unfold hp_H, p_groups. destruct (rmapM _ _) as [[|a l]|e]; reflexivity.
  Qed.
  Lemma hgood_Hdir b sc : hgood (get_Hdir b sc) (hp_H sc).
  Proof. destruct sc as [g|], b; [apply hgood_Hv2e_g|apply hgood_He2v_g|apply hgood_Hv2e|apply hgood_He2v]. Qed.
  Lemma hgood_H sc : hgood (get_H sc) (hp_H sc).
  Proof.
    destruct sc as [g|]; [apply hgood_H_g|]. unfold get_H. apply good_memo_plain; [reflexivity|apply hgood_Hv2e|reflexivity].
  Qed.
  Lemma hgood_HT sc : hgood (get_HT sc) (hp_HT sc).
  Proof.
    destruct sc as [g|]; [apply hgood_HT_g|]. unfold get_HT. apply good_memo_plain; [reflexivity| |reflexivity].
    eapply good_ext; [eapply good_bind; [apply hgood_H|intros ?; apply good_ret]|].
    intros r. unfold hp_HT. destruct (hp_H None r); reflexivity.
  Qed.
  Lemma hgood_We_g g : hgood (get_We_g g) (hp_We_g g).
  Proof.
    unfold get_We_g, hp_We_g. apply good_group_memo with (fb := fun d _ => Ok (diag_of (dvals d))); [reflexivity| |reflexivity].
    intros ?; apply good_ret.
  Qed.
  Lemma hgood_We sc : hgood (get_We sc) (hp_We sc).
  Proof.
    destruct sc as [g|]; [apply hgood_We_g|]. unfold get_We. apply good_memo_plain; [reflexivity| |reflexivity].
    eapply good_ext; [eapply good_on_groups; [apply hgood_We_g|]|].
    - intros l. apply good_match_nil; [apply good_raise|intros ? ?; apply good_ret].
    - intros r; unfold hp_We, p_groups. destruct (rmapM _ _) as [[|a l]|e]; reflexivity.
  Qed.
  Lemma hgood_Dv_g g : hgood (get_Dv_g g) (hp_Dv_g g).
  Proof.
    assert (E : forall r, p_group r g (fun _ => hp_Dv_g g r) = hp_Dv_g g r).
    { intros r. unfold hp_Dv_g, hp_H_g. rewrite p_group_res_bind. apply p_group_bind. }
    unfold get_Dv_g. eapply good_ext.
    - apply good_group_memo with (fb := fun _ => hp_Dv_g g); [reflexivity| |].
      + intros d. eapply good_ext; [eapply good_bind; [apply hgood_H_g|intros Hm; eapply good_bind; [apply hgood_We_g|
          intros W; eapply good_bind; [apply good_ask|intros r; apply good_ret]]]|]. reflexivity.
      + intros r. cbn [hspec hp_Dv]. rewrite E. reflexivity.
    - exact E.
  Qed.
  Lemma hgood_Dv sc : hgood (get_Dv sc) (hp_Dv sc).
  Proof.
    destruct sc as [g|]; [apply hgood_Dv_g|]. unfold get_Dv. apply good_memo_plain; [reflexivity| |reflexivity].
    eapply good_ext; [eapply good_on_groups; [apply hgood_Dv_g|]|].
    - intros l. eapply good_bind; [apply good_ask|]. intros r. apply good_match_nil; [apply good_raise|intros ? ?; apply good_ret].
    - intros r; unfold hp_Dv, p_groups. destruct (rmapM _ _) as [[|a l]|e]; reflexivity.
  Qed.
  Lemma bind_rmap {A B} (x : res A) (f : A -> B) : res_bind x (fun a => Ok (f a)) = rmap f x.
  Proof. destruct x; reflexivity. Qed.
  Lemma hgood_rmap {A B} (x : M T (hraw T) A) p (f : A -> B) : hgood x p -> hgood (bind x (fun a => ret (f a))) (fun r => rmap f (p r)).
  Proof.
    intros G. eapply good_ext; [eapply good_bind; [exact G|intros ?; apply good_ret]|]. intros r. exact (bind_rmap (p r) f).
  Qed.
  Lemma hgood_rmap2 {A B D} (x : M T (hraw T) A) p (f : A -> B) (h : B -> D) : hgood x p ->
    hgood (bind (bind x (fun a => ret (f a))) (fun b => ret (h b))) (fun r => rmap (fun a => h (f a)) (p r)).
  Proof.
    intros G. eapply good_ext; [apply hgood_rmap, hgood_rmap, G|]. intros r. cbv beta. destruct (p r); reflexivity.
  Qed.
  Lemma p_sc_Dv sc r : p_sc r sc (hp_Dv sc r) = hp_Dv sc r.
  Proof.
    destruct sc as [g|]; auto. cbn. unfold hp_Dv_g, hp_H_g. rewrite p_group_res_bind. apply p_group_bind.
  Qed.
  Lemma p_sc_H sc r : p_sc r sc (hp_H sc r) = hp_H sc r.
  Proof. destruct sc as [g|]; auto. cbn. unfold hp_H_g. apply p_group_bind. Qed.
  Lemma p_sc_De sc r : p_sc r sc (hp_De sc r) = hp_De sc r.
  Proof. destruct sc as [g|]; auto. cbn. unfold hp_De_g. apply p_group_bind. Qed.
  Lemma p_sc_rmap {A B} sc r (f : A -> B) x : p_sc r sc (rmap f x) = rmap f (p_sc r sc x).
  Proof. destruct sc; auto. cbn. rewrite p_group_rmap; reflexivity. Qed.
  Lemma p_sc_bind {A B} sc r (x : res A) (f : A -> res B) : p_sc r sc (res_bind x f) = res_bind (p_sc r sc x) f.
  Proof. destruct sc; auto. cbn. rewrite p_group_res_bind; reflexivity. Qed.
  Lemma good_memo_sc' sc k (f : M T (hraw T) (coo T)) p :
    hgood f p -> (forall r, p_sc r sc (p r) = p r) -> (forall r, hspec (KH sc k) r = rmap (@VM T) (p r)) ->
    hgood (memo_sc sc k f) p.
  Proof.
    intros G E SP. eapply good_ext; [apply good_memo_sc; [exact G|]|exact E]. intros r. rewrite E. apply SP.
  Qed.
  Lemma hgood_Dv1 sc : hgood (get_Dv1 sc) (hp_Dv1 sc).
  Proof.
    apply good_memo_sc'; [apply hgood_rmap, hgood_Dv| |reflexivity].
    intros r. unfold hp_Dv1. rewrite p_sc_rmap, p_sc_Dv; reflexivity.
  Qed.
  Lemma hgood_Dv12 sc : hgood (get_Dv12 sc) (hp_Dv12 sc).
  Proof.
    apply good_memo_sc'; [apply hgood_rmap, hgood_Dv| |reflexivity].
    intros r. unfold hp_Dv12. rewrite p_sc_rmap, p_sc_Dv; reflexivity.
  Qed.
  Lemma hgood_De_g g : hgood (get_De_g g) (hp_De_g g).
  Proof.
    unfold get_De_g, hp_De_g.
    apply good_group_memo with (fb := fun d r => res_bind (hp_HT (Some g) r) (fun HT => Ok (diag_rowsum (Z.of_nat (length d)) HT)));
      [reflexivity| |reflexivity].
    intros d. eapply good_bind; [apply (hgood_HT_g g)|]. intros ?; apply good_ret.
  Qed.
  Lemma hgood_De sc : hgood (get_De sc) (hp_De sc).
  Proof.
    destruct sc as [g|]; [apply hgood_De_g|]. unfold get_De. apply good_memo_plain; [reflexivity| |reflexivity].
    eapply good_ext; [eapply good_on_groups; [apply hgood_De_g|]|].
    - intros l. apply good_match_nil; [apply good_raise|intros ? ?; apply good_ret].
    - intros r; unfold hp_De, p_groups. destruct (rmapM _ _) as [[|a l]|e]; reflexivity.
  Qed.
  Lemma hgood_De1 sc : hgood (get_De1 sc) (hp_De1 sc).
  Proof.
    apply good_memo_sc'; [apply hgood_rmap, hgood_De| |reflexivity].
    intros r. unfold hp_De1. rewrite p_sc_rmap, p_sc_De; reflexivity.
  Qed.
  Lemma hgood_Ne_g v g : hgood (get_Ne_g v g) (hp_Ne_g v g).
  Proof.
    unfold get_Ne_g, hp_Ne_g.
    eapply good_with_group with (k := fun _ r => if v <? h_nv r then
      res_bind (hp_H_g g r) (fun m => res_bind (py_index (h_nv r) v) (fun i => Ok (row_idx m i))) else Err AssertionError).
    intros d. eapply good_ext; [eapply good_bind; [apply good_ask|intros r]|].
    - apply good_if; [|apply good_raise]. eapply good_bind; [apply hgood_H_g|intros m].
      eapply good_bind; [apply good_lift|intros i; apply good_ret].
    - reflexivity.
  Qed.
  Lemma hgood_Ne sc v : hgood (get_Ne sc v) (hp_Ne sc v).
  Proof.
    destruct sc as [g|]; [apply hgood_Ne_g|]. unfold get_Ne.
    eapply good_ext; [eapply good_bind; [apply good_ask|intros r]|].
    - apply good_if; [|apply good_raise]. eapply good_on_groups; [apply hgood_Ne_g|]. intros l.
      apply good_match_nil; [apply good_raise|intros ? ?; apply good_ret].
    - intros r; unfold hp_Ne, p_groups. cbn [res_bind]. destruct (v <? h_nv r); auto. 
  Qed.
  Lemma hgood_Nv_g e g : hgood (get_Nv_g e g) (hp_Nv_g e g).
  Proof.
    unfold get_Nv_g, hp_Nv_g.
    eapply good_with_group with (k := fun d r => if e <? Z.of_nat (length d) then
      res_bind (hp_HT (Some g) r) (fun m => res_bind (py_index (Z.of_nat (length d)) e) (fun i => Ok (row_idx m i))) else Err AssertionError).
    intros d. apply good_if; [|apply good_raise]. eapply good_bind; [apply (hgood_HT_g g)|intros m].
    eapply good_bind; [apply good_lift|intros i; apply good_ret].
  Qed.
  Lemma hgood_walk e l : hgood (walk_Nv e l) (p_walk e l).
  Proof.
    revert e. induction l as [|[g n] l IH]; intros e; cbn [walk_Nv p_walk]; [apply good_raise|].
    apply good_if; [apply hgood_Nv_g|apply IH].
  Qed.
  Lemma hgood_Nv sc e : hgood (get_Nv sc e) (hp_Nv sc e).
  Proof.
    destruct sc as [g|]; [apply hgood_Nv_g|]. unfold get_Nv.
    eapply good_ext; [eapply good_bind; [apply good_ask|intros r]|].
    - apply good_if; [|apply good_raise]. apply hgood_walk.
    - reflexivity.
  Qed.
  Lemma hgood_Lhgnn sc : hgood (get_Lhgnn sc) (hp_Lhgnn sc).
  Proof.
    apply good_memo_sc'; [| |reflexivity].
    - eapply good_bind; [apply hgood_Dv12|intros D]. eapply good_bind; [apply hgood_H|intros Hm].
      eapply good_bind; [apply hgood_We|intros W]. eapply good_bind; [apply hgood_De1|intros E].
      eapply good_bind; [apply hgood_HT|intros HT]. apply good_ret.
    - intros r. unfold hp_Lhgnn. rewrite p_sc_bind. unfold hp_Dv12. rewrite p_sc_rmap, p_sc_Dv. reflexivity.
  Qed.
  Lemma hgood_sub_id sc m : hgood (hsub_id sc m) (fun r => Ok (p_sub_id r m)).
  Proof. unfold hsub_id. eapply good_ext; [eapply good_bind; [apply good_ask|intros ?; apply good_ret]|]. reflexivity. Qed.
  Lemma hgood_Lsym sc : hgood (get_hLsym sc) (hp_Lsym sc).
  Proof.
    apply good_memo_sc'; [| |reflexivity].
    - eapply good_ext; [eapply good_bind; [apply hgood_Lhgnn|intros m; apply hgood_sub_id]|]. intros r. apply bind_rmap.
    - intros r. unfold hp_Lsym. rewrite p_sc_rmap. f_equal. unfold hp_Lhgnn. rewrite p_sc_bind. unfold hp_Dv12. rewrite p_sc_rmap, p_sc_Dv. reflexivity.
  Qed.
  Lemma hgood_Lrw sc : hgood (get_hLrw sc) (hp_Lrw sc).
  Proof.
    apply good_memo_sc'; [| |reflexivity].
    - eapply good_ext; [eapply good_bind; [|intros m; apply hgood_sub_id]|].
      + eapply good_bind; [apply hgood_Dv1|intros D]. eapply good_bind; [apply hgood_H|intros Hm].
        eapply good_bind; [apply hgood_We|intros W]. eapply good_bind; [apply hgood_De1|intros E].
        eapply good_bind; [apply hgood_HT|intros HT]. apply good_ret.
      + intros r. apply bind_rmap.
    - intros r. unfold hp_Lrw. rewrite p_sc_rmap, p_sc_bind. unfold hp_Dv1. rewrite p_sc_rmap, p_sc_Dv. reflexivity.
  Qed.
  Lemma hgood_hgnn sc X keep : hgood (hgnn_smooth sc X keep) (hp_hgnn sc X keep).
  Proof.
    unfold hgnn_smooth. eapply good_ext; [eapply good_bind; [apply hgood_Lhgnn|intros L]|].
    - eapply good_bind; [apply good_ask|intros r; apply good_ret].
    - intros r. unfold hp_hgnn. destruct (hp_Lhgnn sc r); reflexivity.
  Qed.
  Lemma hgood_aggregate P0 D1 n X a w keep p d k : hgood P0 p -> hgood D1 d -> hgood n k ->
    hgood (aggregate P0 D1 n X a w keep) (fun r => p_aggregate (p r) (d r) (k r) X a w keep).
  Proof.
    intros GP GD GN. unfold aggregate, p_aggregate. destruct (aggr_ok a); [|apply good_raise].
    destruct w as [wl|].
    - eapply good_bind; [exact GP|intros A]. apply good_if; [|apply good_raise].
      cbv zeta. eapply good_bind; [exact GN|intros m]. destruct a; apply good_ret.
    - eapply good_bind; [exact GP|intros A]. cbv zeta. eapply good_bind; [exact GN|intros m].
      destruct a; try apply good_ret. eapply good_bind; [exact GD|intros D]. apply good_ret.
  Qed.
  Lemma hgood_nv : hgood (bind ask (fun r => ret (h_nv r))) (fun r => Ok (h_nv r)).
  Proof. eapply good_ext; [eapply good_bind; [apply good_ask|intros ?; apply good_ret]|]. reflexivity. Qed.
  Lemma hgood_v2e_agg sc X a w keep : hgood (v2e_aggregation sc X a w keep) (hp_v2e_agg sc X a w keep).
  Proof. apply good_check_sc, hgood_aggregate; [apply hgood_HT|apply hgood_De1|apply hgood_ne]. Qed.
  Lemma hgood_e2v_agg sc X a w keep : hgood (e2v_aggregation sc X a w keep) (hp_e2v_agg sc X a w keep).
  Proof.
    apply good_check_sc. apply (@hgood_aggregate (get_H sc) (get_Dv1 sc) (bind ask (fun r => ret (h_nv r)))
      X a w keep (hp_H sc) (hp_Dv1 sc) (fun r => Ok (h_nv r))); [apply hgood_H|apply hgood_Dv1|apply hgood_nv].
  Qed.
  Lemma hgood_v2e_upd sc X ew : hgood (v2e_update sc X ew) (hp_v2e_upd sc X ew).
  Proof.
    unfold v2e_update, hp_v2e_upd. apply good_check_sc with (p := fun r => match ew with
    | None => res_bind (hp_We sc r) (fun W => res_bind (hp_ne sc r) (fun k => Ok (map (spmv W X) (range k))))
    | Some w => res_bind (hp_ne sc r) (fun k =>
        if Nat.eqb (length w) (Z.to_nat k) then Ok (map (fun i => nmul (zn w i) (X i)) (range k)) else Err AssertionError)
    end).
    destruct ew as [w|].
    - eapply good_bind; [apply hgood_ne|intros k]. apply good_if; [apply good_ret|apply good_raise].
    - eapply good_bind; [apply hgood_We|intros W]. eapply good_bind; [apply hgood_ne|intros k]. apply good_ret.
  Qed.
  Lemma hgood_v2e sc X a w ew keep : hgood (h_v2e sc X a w ew keep) (hp_v2e sc X a w ew keep).
  Proof.
    unfold h_v2e, hp_v2e. apply good_check_sc with (p := fun r => res_bind (hp_v2e_agg sc X a w keep r) (fun y => hp_v2e_upd sc (zn y) ew r)).
    eapply good_bind; [apply hgood_v2e_agg|intros y; apply hgood_v2e_upd].
  Qed.
  Lemma hgood_e2v sc X a w keep : hgood (h_e2v sc X a w keep) (hp_e2v sc X a w keep).
  Proof. apply good_check_sc, hgood_e2v_agg. Qed.
  Lemma hgood_v2v sc X a dr a1 w1 dr1 ew a2 w2 dr2 k1 k2 :
    hgood (h_v2v sc X a dr a1 w1 dr1 ew a2 w2 dr2 k1 k2) (hp_v2v sc X a dr a1 w1 dr1 ew a2 w2 dr2 k1 k2).
  Proof.
    unfold h_v2v, hp_v2v. apply good_check_sc with (p := fun r =>
      res_bind (hp_v2e sc X (or_else a1 a) w1 ew (if or_else dr1 dr then Some k1 else None) r)
         (fun y => hp_e2v sc (zn y) (or_else a2 a) w2 (if or_else dr2 dr then Some k2 else None) r)).
    cbv zeta. eapply good_bind; [apply hgood_v2e|intros y; apply hgood_e2v].
  Qed.
  Definition is_Wv (q : hquery T) : bool := match q with hqWv => true | _ => false end.
  Lemma hgood_query q : (fz = None \/ is_Wv q = false) -> hgood (h_query q) (hp_query q).
  Proof.
    intros NW. destruct q; cbn [h_query hp_query]; unfold oM, oV, oI;
      try (apply hgood_rmap; first [apply hgood_e|apply hgood_ne|apply hgood_H|apply hgood_HT|apply hgood_Hdir|apply hgood_We|apply hgood_Dv|
        apply hgood_Dv1|apply hgood_Dv12|apply hgood_De|apply hgood_De1|apply hgood_Ne|apply hgood_Nv|apply hgood_Lsym|
        apply hgood_Lrw|apply hgood_Lhgnn|apply hgood_hgnn|apply hgood_v2e_agg|apply hgood_v2e_upd|apply hgood_v2e|
        apply hgood_e2v|apply hgood_v2v]);
      try (eapply good_ext; [eapply good_bind; [apply good_ask|intros ?; apply good_ret]|reflexivity]);
      try (apply hgood_rmap2; first [apply hgood_H|apply hgood_HT|apply hgood_Dv|apply hgood_De]).
    (* W_v *)
    destruct NW as [NW|NW]; [|discriminate]. apply hgood_rmap. unfold get_Wv. apply good_memo_plain; [reflexivity| |].
    - eapply good_ext; [eapply good_bind; [apply good_ask|]|].
      + intros r. instantiate (1 := fun r _ => match h_vw r with None => Err TypeError | Some l => Ok (diag_of l) end).
        cbn. destruct (h_vw r); [apply good_ret|apply good_raise].
      + reflexivity.
    - intros r. cbn [hspec]. rewrite NW. reflexivity.
  Qed.
End Pure.
