(** Facts about ModelUtils. *)
From Coq Require Import String OrderedTypeEx Permutation Sorted Reals Lra QArith.
From Verif Require Import Num PyDict PyDictFacts Coo CooFacts ModelBase ModelBiGraph ModelConv ModelUtils SpecUtils.
Set Implicit Arguments.
Local Open Scope list_scope.
Local Open Scope Z_scope.

Section Adj.
  Context {A : Type} `{EqB A}.
  Implicit Types (l : list (A * A)).

  Lemma firsts_In (x : A) (l : list A) : In x (firsts l) <-> In x l.
  Proof.
    induction l as [|y l IH]; cbn; [tauto|]. rewrite filter_In, IH. destruct (eqb y x) eqn:E.
    - apply eqb_eq in E. subst. cbn. intuition congruence.
    - cbn. intuition.
  Qed.
  Lemma firsts_NoDup (l : list A) : NoDup (firsts l).
  Proof.
    induction l as [|y l IH]; cbn; constructor.
    - rewrite filter_In. intros [_ E]. rewrite eqb_refl in E. discriminate.
    - apply NoDup_filter; auto.
  Qed.
  Lemma firsts_app (l : list A) x : firsts (l ++ [x]) = if existsb (eqb x) l then firsts l else firsts l ++ [x].
  Proof.
    induction l as [|y l IH]; cbn; auto. rewrite IH. destruct (eqb x y) eqn:E.
    - apply eqb_eq in E. subst. cbn. destruct (existsb (eqb y) l); auto.
      rewrite filter_app. cbn. rewrite eqb_refl. cbn. rewrite app_nil_r. auto.
    - cbn. destruct (existsb (eqb x) l); auto. rewrite filter_app. cbn.
      destruct (eqb y x) eqn:E2; [apply eqb_eq in E2; subst; rewrite eqb_refl in E; discriminate|]. reflexivity.
  Qed.

  (** the destinations of [s], in order *)
  Definition dsts l (s : A) : list A := map snd (filter (fun e => eqb s (fst e)) l).
  Definition graph_of {V} (f : A -> V) (L : list A) : dict A V := map (fun s => (s, f s)) L.
  Lemma dget_graph_of {V} (f : A -> V) L s : dget s (graph_of f L) = if existsb (eqb s) L then Some (f s) else None.
  Proof.
    induction L as [|x L IH]; cbn; auto. destruct (eqb s x) eqn:E; auto. apply eqb_eq in E. subst. reflexivity.
  Qed.
  Lemma dset_graph_of {V} (f : A -> V) L s v : NoDup L ->
    dset s v (graph_of f L) =
    if existsb (eqb s) L then graph_of (fun x => if eqb s x then v else f x) L else graph_of f L ++ [(s, v)].
  Proof.
    induction L as [|x L IH]; cbn; auto. intros ND. apply NoDup_cons_iff in ND as [NI ND]. destruct (eqb s x) eqn:E; cbn.
    - apply eqb_eq in E. subst. f_equal. unfold graph_of. apply map_ext_in. intros y I.
      destruct (eqb x y) eqn:E2; auto. apply eqb_eq in E2. subst. contradiction.
    - unfold graph_of in *. rewrite (IH ND). destruct (existsb (eqb s) L); reflexivity.
  Qed.
  Lemma dsts_app l e s : dsts (l ++ [e]) s = if eqb s (fst e) then dsts l s ++ [snd e] else dsts l s.
  Proof.
    unfold dsts. rewrite filter_app, map_app. cbn. destruct (eqb s (fst e)); cbn; auto. apply app_nil_r.
  Qed.
  Lemma adj_dict_eq l : edge_list_to_adj_dict l = graph_of (dsts l) (firsts (map fst l)).
  Proof.
    induction l as [|e l IH] using rev_ind; auto.
    unfold edge_list_to_adj_dict in *. rewrite fold_left_app. cbn [fold_left]. rewrite IH. unfold adj_append.
    rewrite dset_graph_of by apply firsts_NoDup. rewrite dget_graph_of.
    rewrite map_app. cbn [map]. rewrite firsts_app.
    assert (EX : existsb (eqb (fst e)) (firsts (map fst l)) = existsb (eqb (fst e)) (map fst l)).
    { apply eq_true_iff_eq. rewrite !existsb_exists. split; intros (x & I & E); exists x; split; auto; apply firsts_In; auto. }
    rewrite EX. destruct (existsb (eqb (fst e)) (map fst l)) eqn:X.
    - unfold graph_of. apply map_ext. intros s. rewrite dsts_app. destruct (eqb (fst e) s) eqn:E.
      + apply eqb_eq in E. subst. rewrite eqb_refl. reflexivity.
      + destruct (eqb s (fst e)) eqn:E2; [apply eqb_eq in E2; subst; rewrite eqb_refl in E; discriminate|reflexivity].
    - unfold graph_of. rewrite map_app. cbn [map]. f_equal.
      + apply map_ext_in. intros s I. rewrite dsts_app. destruct (eqb s (fst e)) eqn:E; auto. apply eqb_eq in E. subst.
        apply (proj1 (firsts_In _ _)) in I. rewrite <- not_true_iff_false in X. destruct X. apply existsb_exists. exists (fst e); split; auto. apply eqb_refl.
      + rewrite dsts_app, eqb_refl. unfold dsts. replace (filter (fun e0 => eqb (fst e) (fst e0)) l) with (@nil (A * A)); auto.
        symmetry. clear -X. induction l as [|a l IH]; cbn in *; auto. destruct (eqb (fst e) (fst a)); [discriminate|auto].
  Qed.

  Definition has_src (s : A) l := filter (fun e => eqb s (fst e)) l.
  Lemma round_trip l : adj_list_to_edge_list (edge_list_to_adj_list l) = flat_map (fun s => has_src s l) (firsts (map fst l)).
  Proof.
    unfold adj_list_to_edge_list, edge_list_to_adj_list. rewrite adj_dict_eq. unfold graph_of. rewrite map_map. cbn.
    assert (IN : forall s, In s (firsts (map fst l)) -> In s (map fst l)) by (intros; apply firsts_In; auto).
    induction (firsts (map fst l)) as [|s L IH]; cbn; auto. rewrite IH by (intros; apply IN; right; auto). f_equal.
    destruct (dsts l s) as [|d r] eqn:E.
    - exfalso. specialize (IN s (or_introl eq_refl)). apply in_map_iff in IN as (e & <- & I).
      assert (J : In (snd e) (dsts l (fst e))) by (apply in_map, filter_In; rewrite eqb_refl; auto). rewrite E in J. destruct J.
    - cbn. change ((s, d) :: map (fun d0 => (s, d0)) r) with (map (fun d0 => (s, d0)) (d :: r)). rewrite <- E.
      unfold dsts, has_src. rewrite map_map. rewrite <- (map_id (filter _ l)) at 2. apply map_ext_in.
      intros [a b] I. apply filter_In in I as [_ I]. apply eqb_eq in I. cbn in *. subst. reflexivity.
  Qed.
  Lemma group_perm l L : NoDup L -> (forall e, In e l -> In (fst e) L) -> Permutation (flat_map (fun s => has_src s l) L) l.
  Proof.
    revert l. induction L as [|s L IH]; cbn; intros l ND IN.
    - destruct l as [|e l]; auto. destruct (IN e); left; auto.
    - apply NoDup_cons_iff in ND as [NI ND].
      set (rest := filter (fun e => negb (eqb s (fst e))) l).
      assert (E : flat_map (fun s0 => has_src s0 l) L = flat_map (fun s0 => has_src s0 rest) L).
      { clear -NI. induction L as [|t L IH]; cbn; auto. rewrite IH by (intros X; apply NI; right; auto). f_equal.
        unfold has_src, rest. assert (NE : t <> s) by (intros ->; apply NI; left; auto). clear -NE. induction l as [|e l IH]; cbn; auto.
        destruct (eqb s (fst e)) eqn:E1; cbn; destruct (eqb t (fst e)) eqn:E2; try rewrite IH; auto.
        apply eqb_eq in E1, E2. congruence. }
      rewrite E. transitivity (has_src s l ++ rest).
      + apply Permutation_app_head. apply IH; auto. intros e I. apply filter_In in I as [I J]. destruct (IN e I) as [X|X]; auto.
        subst s. rewrite eqb_refl in J. discriminate.
      + unfold has_src, rest. clear. induction l as [|e l IH]; cbn; auto. destruct (eqb s (fst e)); cbn.
        * constructor; auto.
        * symmetry. apply Permutation_cons_app. symmetry. auto.
  Qed.
End Adj.

(** * sorted sets of strings *)
Definition slt (a b : string) : Prop := String.compare a b = Lt.
Lemma slt_trans a b c : slt a b -> slt b c -> slt a c.
Proof. unfold slt. intros X Y. apply String_as_OT.cmp_lt in X, Y. apply String_as_OT.cmp_lt. eapply String_as_OT.lt_trans; eauto. Qed.
Lemma scmp_eq a b : String.compare a b = Eq <-> a = b.
Proof. apply String_as_OT.cmp_eq. Qed.
Lemma slt_irrefl a : ~ slt a a.
Proof. unfold slt. rewrite (proj2 (scmp_eq a a) eq_refl). discriminate. Qed.
Lemma scmp_gt a b : String.compare a b = Gt -> slt b a.
Proof. unfold slt. intros X. rewrite String.compare_antisym, X. reflexivity. Qed.
Lemma sset_ins_In x l y : In y (sset_ins x l) <-> y = x \/ In y l.
Proof.
  induction l as [|z l IH]; cbn; [intuition|]. destruct (String.compare x z) eqn:E; cbn.
  - apply scmp_eq in E. subst. intuition.
  - intuition.
  - rewrite IH. intuition.
Qed.
Lemma sset_ins_sorted x l : StronglySorted slt l -> StronglySorted slt (sset_ins x l).
Proof.
  induction l as [|z l IH]; cbn; intros S; [repeat constructor|]. apply StronglySorted_inv in S as [S F].
  destruct (String.compare x z) eqn:E.
  - constructor; auto.
  - constructor; [constructor; auto|]. constructor; auto. eapply Forall_impl; [|exact F]. intros y. apply slt_trans. exact E.
  - constructor; auto. apply Forall_forall. intros y I. apply sset_ins_In in I as [->|I]; [apply scmp_gt; auto|].
    rewrite Forall_forall in F. auto.
Qed.
Lemma sorted_set_In l x : In x (sorted_set l) <-> In x l.
Proof.
  unfold sorted_set. assert (G : forall acc, In x (fold_left (fun acc x => sset_ins x acc) l acc) <-> In x acc \/ In x l).
  { induction l as [|y l IH]; cbn; intros acc; [tauto|]. rewrite IH, sset_ins_In. intuition. }
  rewrite G. cbn. tauto.
Qed.
Lemma sorted_set_sorted l : StronglySorted slt (sorted_set l).
Proof.
  unfold sorted_set. assert (G : forall acc, StronglySorted slt acc -> StronglySorted slt (fold_left (fun acc x => sset_ins x acc) l acc)).
  { induction l as [|y l IH]; cbn; intros acc S; auto. apply IH, sset_ins_sorted, S. }
  apply G. constructor.
Qed.
Lemma sorted_nodup l : StronglySorted slt l -> NoDup l.
Proof.
  induction 1 as [|x l S IH F]; constructor; auto. intros I. rewrite Forall_forall in F. apply (slt_irrefl (F _ I)).
Qed.

(** * enumerate *)
Lemma range_length n : length (range n) = Z.to_nat n.
Proof. unfold range. rewrite map_length, seq_length. reflexivity. Qed.
Definition enum_from (k : nat) (l : list string) : dict string Z := combine l (map Z.of_nat (seq k (length l))).
Lemma enum_map_from l : enum_map l = enum_from 0 l.
Proof. unfold enum_map, enum_from, range. rewrite Nat2Z.id. reflexivity. Qed.
Lemma enum_from_keys k l : dkeys (enum_from k l) = l.
Proof.
  unfold enum_from, dkeys. revert k; induction l as [|x l IH]; intros k; cbn; auto. f_equal. apply IH.
Qed.
Lemma enum_from_vals k l : dvals (enum_from k l) = map Z.of_nat (seq k (length l)).
Proof.
  unfold enum_from, dvals. revert k; induction l as [|x l IH]; intros k; cbn; auto. f_equal. apply IH.
Qed.
Lemma enum_from_bound k l a i : dget a (enum_from k l) = Some i -> Z.of_nat k <= i /\ In a l.
Proof.
  unfold enum_from. revert k; induction l as [|x l IH]; intros k; cbn; [discriminate|].
  destruct (eqb a x) eqn:E; intros Q.
  - injection Q as <-. apply eqb_eq in E. auto with zarith.
  - apply IH in Q. intuition lia.
Qed.
Lemma enum_from_order k l a b i j : StronglySorted slt l -> dget a (enum_from k l) = Some i -> dget b (enum_from k l) = Some j ->
  (i < j <-> slt a b).
Proof.
  revert k; induction l as [|x l IH]; intros k S; [discriminate|]. apply StronglySorted_inv in S as [S F].
  unfold enum_from. cbn [length seq map combine dget]. fold (enum_from (Datatypes.S k) l). rewrite Forall_forall in F.
  destruct (eqb a x) eqn:E1, (eqb b x) eqn:E2; intros P Q.
  - apply eqb_eq in E1, E2. subst. injection P as <-. injection Q as <-. split; [lia|]. intros X. apply slt_irrefl in X as [].
  - apply eqb_eq in E1. subst. injection P as <-. apply enum_from_bound in Q as [Q I]. split; [intros _; auto|lia].
  - apply eqb_eq in E2. subst. injection Q as <-. apply enum_from_bound in P as [P I]. split; [lia|].
    intros X. exfalso. apply (slt_irrefl (slt_trans X (F _ I))).
  - apply (IH (Datatypes.S k)); auto.
Qed.
Lemma enum_numbers ms : numbers ms (enum_map (sorted_set ms)).
Proof.
  rewrite enum_map_from. unfold numbers, dict_ok. rewrite enum_from_keys, enum_from_vals. split; [|split; [|split]].
  - apply sorted_nodup, sorted_set_sorted.
  - intros k. apply sorted_set_In.
  - unfold range. rewrite Nat2Z.id. do 2 f_equal. pose proof (f_equal (@length _) (enum_from_keys 0 (sorted_set ms))) as L.
    unfold dkeys in L. rewrite map_length in L. auto.
  - intros a b i j. apply enum_from_order, sorted_set_sorted.
Qed.
Lemma numbers_same ms ms' m : (forall k, In k ms <-> In k ms') -> numbers ms m -> numbers ms' m.
Proof. intros E (X & Y & Z & W). split; [auto|]. split; [|auto]. intros k. rewrite Y. auto. Qed.

Lemma key_get_ok m k i : key_get m k = Ok i <-> dget k m = Some i.
Proof. unfold key_get. destruct (dget k m); split; congruence. Qed.
Lemma dget_keys {K V} `{EqB K} (d : dict K V) k : In k (dkeys d) -> exists v, dget k d = Some v.
Proof.
  unfold dkeys. induction d as [|[k' v'] d IH]; cbn [map In fst dget]; [intros []|]. intros [<-|I].
  - rewrite eqb_refl. eauto.
  - destruct (eqb k k'); eauto.
Qed.

(** * comprehensions that may raise *)
Lemma map_res_ok {A B} (f : A -> res B) l (P : A -> B -> Prop) :
  (forall a, In a l -> exists b, f a = Ok b /\ P a b) -> exists out, map_res f l = Ok out /\ Forall2 P l out.
Proof.
  induction l as [|a l IH]; cbn; intros X; [exists []; auto|].
  destruct (X a) as (b & E & Q); auto. destruct IH as (out & E2 & F); [auto|]. rewrite E, E2. cbn. exists (b :: out). auto.
Qed.
Lemma map_res_inv {A B} (f : A -> res B) l out : map_res f l = Ok out -> Forall2 (fun a b => f a = Ok b) l out.
Proof.
  revert out; induction l as [|a l IH]; cbn; intros out Q; [injection Q as <-; auto|].
  destruct (f a) eqn:E; cbn in Q; [|discriminate]. destruct (map_res f l) eqn:E2; cbn in Q; [|discriminate]. injection Q as <-. auto.
Qed.
Lemma map_res_err {A B} (f : A -> res B) l a x : In a l -> f a = Err x -> exists y, map_res f l = Err y /\ exists b, In b l /\ f b = Err y.
Proof.
  induction l as [|b l IH]; cbn; [tauto|]. intros I E. destruct (f b) as [c|y] eqn:F; cbn.
  - destruct I as [->|I]; [congruence|]. destruct (IH I E) as (y & Q & z & J & G). rewrite Q. cbn. exists y. split; auto. exists z. auto.
  - exists y. split; auto. exists b. auto.
Qed.
Lemma Forall2_map_l {A A' B} (P : A' -> B -> Prop) (f : A -> A') l out : Forall2 P (map f l) out -> Forall2 (fun a b => P (f a) b) l out.
Proof.
  revert out; induction l as [|a l IH]; cbn; intros out X; inversion X; subst; auto.
Qed.

Section RemapFacts.
  Context {A : Type}.
  Variable str : A -> string.

  Lemma numbers_get ms m k : numbers ms m -> In k ms -> exists i, key_get m k = Ok i /\ dget k m = Some i.
  Proof.
    intros (_ & K & _) I. apply K in I. apply dget_keys in I as [i E]. exists i. split; auto. apply key_get_ok; auto.
  Qed.
  Lemma numbers_none ms m k : numbers ms m -> ~ In k ms -> key_get m k = Err KeyError.
  Proof.
    intros (_ & K & _) I. unfold key_get. destruct (dget k m) eqn:E; auto. destruct I. apply K.
    apply dget_In in E. apply (in_map fst) in E. exact E.
  Qed.
  Arguments numbers_get {ms m k}.
  Arguments numbers_none {ms m k}.
  (** one line / edge through one map *)
  Lemma row_ok ms m e : numbers ms m -> (forall v, In v e -> In (str v) ms) ->
    exists out, map_res (key_get m) (map str e) = Ok out /\ renamed str m e out.
  Proof.
    intros N I. destruct (map_res_ok (key_get m) (map str e) (fun k i => dget k m = Some i)) as (out & E & F).
    - intros k K. apply in_map_iff in K as (v & <- & K). apply (numbers_get N); auto.
    - exists out. split; auto. apply Forall2_map_l in F. exact F.
  Qed.
  Lemma rows_ok ms m es : numbers ms m -> (forall e v, In e es -> In v e -> In (str v) ms) ->
    exists out, map_res (map_res (key_get m)) (map (map str) es) = Ok out /\ Forall2 (renamed str m) es out.
  Proof.
    intros N I.
    destruct (map_res_ok (fun e => map_res (key_get m) (map str e)) es (renamed str m)) as (out & E & F).
    - intros e J. apply (row_ok e N). eauto.
    - exists out. split; auto. rewrite <- E. clear. induction es as [|e es IH]; cbn; auto. rewrite IH. reflexivity.
  Qed.
  Lemma map_res_map {B C D} (f : C -> res D) (g : B -> C) l : map_res f (map g l) = map_res (fun x => f (g x)) l.
  Proof. induction l as [|x l IH]; cbn; auto. rewrite IH. reflexivity. Qed.

  Lemma remap_edge_ok es : exists out m,
    remap_edge_list str false es = Ok (out, [m]) /\ numbers (map str (concat es)) m /\ Forall2 (renamed str m) es out.
  Proof.
    unfold remap_edge_list. set (m := enum_map (sorted_set (concat (map (map str) es)))).
    assert (N : numbers (map str (concat es)) m) by (rewrite concat_map; apply enum_numbers).
    destruct (rows_ok es N) as (out & E & F).
    - intros e v I J. apply in_map, in_concat. eauto.
    - rewrite E. cbn. exists out, m. auto.
  Qed.
  Lemma remap_edges_ok ls : exists out m,
    remap_edge_lists str false ls = Ok (out, [m]) /\ numbers (map str (concat (concat ls))) m /\ Forall2 (Forall2 (renamed str m)) ls out.
  Proof.
    unfold remap_edge_lists. set (m := enum_map _).
    assert (N : numbers (map str (concat (concat ls))) m).
    { rewrite concat_map, concat_map. apply enum_numbers. }
    rewrite map_res_map.
    destruct (map_res_ok (fun es => map_res (map_res (key_get m)) (map (map str) es)) ls (Forall2 (renamed str m))) as (out & E & F).
    - intros es J. apply (rows_ok es N). intros e v I K. apply in_map, in_concat. exists e. split; auto. apply in_concat. eauto.
    - rewrite E. cbn. exists out, m. auto.
  Qed.

  (** bipartite edges *)
  Definition firsts_of (es : list (list A)) : list string := map str (flat_map (firstn 1) es).
  Definition rests_of (es : list (list A)) : list string := map str (flat_map (@tl _) es).
  Lemma unpack_ok es : Forall (fun e => length e = 2%nat) es ->
    exists ps, map_res unpack2 (map (map str) es) = Ok ps /\ Forall2 (fun e p => map str e = [fst p; snd p]) es ps.
  Proof.
    intros F. rewrite map_res_map. destruct (map_res_ok (fun e => unpack2 (map str e)) es (fun e p => map str e = [fst p; snd p])) as (ps & E & Q); eauto.
    intros e I. rewrite Forall_forall in F. apply F in I. destruct e as [|u [|v [|]]]; try discriminate. cbn. eauto.
  Qed.
  Lemma pairs_firsts es ps : Forall2 (fun e p => map str e = [fst p; snd p]) es ps -> map fst ps = firsts_of es /\ map snd ps = rests_of es.
  Proof.
    unfold firsts_of, rests_of. induction 1 as [|e p es ps E _ [IH1 IH2]]; cbn; auto.
    destruct e as [|u [|v [|]]]; try discriminate. cbn in *. injection E as E1 E2. split; f_equal; auto.
  Qed.
  Definition rename_pair (um vm : dict string Z) (p : string * string) : res (list Z) :=
    rbind (key_get um (fst p)) (fun i => rbind (key_get vm (snd p)) (fun j => Ok [i; j])).
  Lemma pair_rows_ok ms1 ms2 um vm es ps : numbers ms1 um -> numbers ms2 vm ->
    Forall2 (fun e p => map str e = [fst p; snd p]) es ps -> (forall p, In p ps -> In (fst p) ms1 /\ In (snd p) ms2) ->
    exists out, map_res (rename_pair um vm) ps = Ok out /\ Forall2 (renamed2 str um vm) es out.
  Proof.
    intros N1 N2 F. induction F as [|e p es ps E _ IH]; cbn; intros I; [exists []; auto|].
    destruct (I p) as [I1 I2]; [auto|]. destruct (numbers_get N1 I1) as (i & E1 & G1). destruct (numbers_get N2 I2) as (j & E2 & G2).
    unfold rename_pair at 1. rewrite E1. cbn. rewrite E2. cbn. destruct IH as (out & Q & F); [auto|]. rewrite Q. cbn.
    eexists; split; [reflexivity|]. constructor; auto. destruct e as [|u [|v [|]]]; try discriminate. injection E as E3 E4. rewrite <- E3 in G1. rewrite <- E4 in G2.
    exists u, [v], i, [j]. repeat split; auto. constructor; auto.
  Qed.
  Lemma remap_edge_bip_ok es : Forall (fun e => length e = 2%nat) es -> exists out um vm,
    remap_edge_list str true es = Ok (out, [um; vm]) /\ numbers (firsts_of es) um /\ numbers (rests_of es) vm /\
    Forall2 (renamed2 str um vm) es out.
  Proof.
    intros L. unfold remap_edge_list. destruct (unpack_ok L) as (ps & E & F). rewrite E. cbn [rbind].
    destruct (pairs_firsts F) as [Q1 Q2]. set (um := enum_map (sorted_set (map fst ps))). set (vm := enum_map (sorted_set (map snd ps))).
    destruct (pair_rows_ok (enum_numbers (map fst ps)) (enum_numbers (map snd ps)) F) as (out & R & G).
    { intros p I. split; apply in_map; auto. }
    match goal with |- context [map_res ?f ps] => change f with (rename_pair um vm) end. fold um vm in R, G. rewrite R. cbn.
    exists out, um, vm. split; auto. rewrite <- Q1, <- Q2. split; [apply enum_numbers|]. split; [apply enum_numbers|auto].
  Qed.
  Lemma remap_edge_bip_bad es : (exists e, In e es /\ length e <> 2%nat) -> remap_edge_list str true es = Err ValueError.
  Proof.
    intros (e & I & L). unfold remap_edge_list. rewrite map_res_map.
    destruct (map_res_err (fun e => unpack2 (map str e)) es e (x := ValueError)) as (y & E & b & _ & G); auto.
    - destruct e as [|u [|v [|]]]; cbn in *; congruence.
    - rewrite E. cbn. f_equal. destruct b as [|u [|v [|]]]; cbn in G; congruence.
  Qed.
  Lemma unpacks_ok ls : Forall (Forall (fun e => length e = 2%nat)) ls ->
    exists ps, map_res (map_res unpack2) (map (map (map str)) ls) = Ok ps /\ Forall2 (Forall2 (fun e p => map str e = [fst p; snd p])) ls ps.
  Proof.
    intros F. rewrite map_res_map. apply map_res_ok. intros es I. apply unpack_ok. rewrite Forall_forall in F. auto.
  Qed.
  Lemma Forall2_concat {B C} (P : B -> C -> Prop) ls ms : Forall2 (Forall2 P) ls ms -> Forall2 P (concat ls) (concat ms).
  Proof. induction 1; cbn; auto. apply Forall2_app; auto. Qed.
  Lemma remap_edges_bip_ok ls : Forall (Forall (fun e => length e = 2%nat)) ls -> exists out um vm,
    remap_edge_lists str true ls = Ok (out, [um; vm]) /\ numbers (firsts_of (concat ls)) um /\ numbers (rests_of (concat ls)) vm /\
    Forall2 (Forall2 (renamed2 str um vm)) ls out.
  Proof.
    intros L. unfold remap_edge_lists. destruct (unpacks_ok L) as (ps & E & F). rewrite E. cbn [rbind].
    destruct (pairs_firsts (Forall2_concat F)) as [Q1 Q2].
    set (um := enum_map (sorted_set (map fst (concat ps)))). set (vm := enum_map (sorted_set (map snd (concat ps)))).
    match goal with |- context [map_res (map_res ?f) ps] => change f with (rename_pair um vm) end.
    assert (R : exists out, map_res (map_res (rename_pair um vm)) ps = Ok out /\ Forall2 (Forall2 (renamed2 str um vm)) ls out).
    { assert (S : forall p, In p (concat ps) -> In (fst p) (map fst (concat ps)) /\ In (snd p) (map snd (concat ps))) by (intros; split; apply in_map; auto).
      pose proof (enum_numbers (map fst (concat ps))) as N1. pose proof (enum_numbers (map snd (concat ps))) as N2. fold um in N1. fold vm in N2.
      revert N1 N2 S. generalize (map fst (concat ps)) as m1, (map snd (concat ps)) as m2. clearbody um vm. clear Q1 Q2 E L.
      induction F as [|es p ls ps F _ IH]; cbn; intros m1 m2 N1 N2 S; [exists []; auto|].
      destruct (pair_rows_ok N1 N2 F) as (o & X & Y). { intros q I. apply S, in_app_iff. auto. }
      destruct (IH m1 m2 N1 N2) as (out & Z & W). { intros q I. apply S, in_app_iff. auto. }
      rewrite X, Z. cbn. exists (o :: out). auto. }
    destruct R as (out & R & G). rewrite R. cbn. exists out, um, vm. split; auto. rewrite <- Q1, <- Q2.
    split; [apply enum_numbers|]. split; [apply enum_numbers|auto].
  Qed.

  (** adjacency lists *)
  Lemma long_map (l : list A) : long (map str l) = long l.
  Proof. destruct l as [|a [|b r]]; reflexivity. Qed.
  Lemma filter_long_map (al : list (list A)) : filter long (map (map str) al) = map (map str) (filter long al).
  Proof. induction al as [|l al IH]; cbn; auto. rewrite long_map, IH. destruct (long l); reflexivity. Qed.
  Definition long_marks (al : list (list A)) : list string := map str (concat (filter long al)).
  Lemma long_marks_In al k : In k (long_marks al) <-> exists line v, In line al /\ (1 < length line)%nat /\ In v line /\ k = str v.
  Proof.
    unfold long_marks. rewrite in_map_iff. split.
    - intros (v & <- & I). apply in_concat in I as (line & I & J). apply filter_In in I as [I L].
      exists line, v. repeat split; auto. destruct line as [|a [|b r]]; cbn in *; try discriminate; lia.
    - intros (line & v & I & L & J & ->). exists v. split; auto. apply in_concat. exists line. split; auto. apply filter_In. split; auto.
      destruct line as [|a [|b r]]; cbn in *; try lia; auto.
  Qed.
  Lemma remap_adj_ok al : (forall x, In [x] al -> In (str x) (long_marks al)) -> exists out m,
    remap_adj_list str false al = Ok (out, [m]) /\ numbers (long_marks al) m /\ Forall2 (renamed str m) al out.
  Proof.
    intros C. unfold remap_adj_list. rewrite filter_long_map. set (m := enum_map _).
    assert (N : numbers (long_marks al) m) by (unfold long_marks; rewrite concat_map; apply enum_numbers).
    destruct (rows_ok al N) as (out & E & F).
    - intros e v I J. destruct e as [|a [|b r]]; [destruct J|destruct J as [->|[]]; auto|].
      apply long_marks_In. exists (a :: b :: r), v. cbn. repeat split; auto. lia.
    - rewrite E. cbn. exists out, m. auto.
  Qed.
  Lemma remap_adj_bad al x : In [x] al -> ~ In (str x) (long_marks al) -> remap_adj_list str false al = Err KeyError.
  Proof.
    intros I C. unfold remap_adj_list. rewrite filter_long_map. set (m := enum_map _).
    assert (N : numbers (long_marks al) m) by (unfold long_marks; rewrite concat_map; apply enum_numbers).
    rewrite map_res_map.
    destruct (map_res_err (fun e => map_res (key_get m) (map str e)) al [x] (x := KeyError)) as (y & E & b & _ & G); auto.
    - cbn. rewrite (numbers_none N C). reflexivity.
    - rewrite E. cbn. f_equal. clear -G. induction (map str b) as [|k l IH]; cbn in *; [discriminate|].
      unfold key_get in G at 1. destruct (dget k m); cbn in G; [|congruence]. destruct (map_res (key_get m) l); cbn in G; [discriminate|]. apply IH. congruence.
  Qed.
  Lemma filter_concat {B} (p : B -> bool) (ls : list (list B)) : flat_map (filter p) ls = filter p (concat ls).
  Proof. induction ls as [|l ls IH]; cbn; auto. rewrite IH, filter_app. reflexivity. Qed.
  Lemma remap_adjs_ok ls : (forall x, In [x] (concat ls) -> In (str x) (long_marks (concat ls))) -> exists out m,
    remap_adj_lists str false ls = Ok (out, [m]) /\ numbers (long_marks (concat ls)) m /\ Forall2 (Forall2 (renamed str m)) ls out.
  Proof.
    intros C. unfold remap_adj_lists. rewrite filter_concat, <- concat_map, filter_long_map. set (m := enum_map _).
    assert (N : numbers (long_marks (concat ls)) m) by (unfold long_marks; rewrite concat_map; apply enum_numbers).
    rewrite map_res_map.
    destruct (map_res_ok (fun es => map_res (map_res (key_get m)) (map (map str) es)) ls (Forall2 (renamed str m))) as (out & E & F).
    - intros es J. apply (rows_ok es N). intros e v I K.
      assert (IC : In e (concat ls)) by (apply in_concat; eauto).
      destruct e as [|a [|b r]]; [destruct K|destruct K as [->|[]]; auto|].
      apply long_marks_In. exists (a :: b :: r), v. cbn [length In] in *. repeat split; auto. lia.
    - rewrite E. cbn. exists out, m. auto.
  Qed.

  Definition long_heads (al : list (list A)) : list string := firsts_of (filter long al).
  Definition long_tails (al : list (list A)) : list string := rests_of (filter long al).
  Lemma heads_map (al : list (list A)) : flat_map (firstn 1) (map (map str) al) = firsts_of al.
  Proof. unfold firsts_of. induction al as [|l al IH]; cbn [flat_map map]; auto. rewrite map_app, IH. destruct l; reflexivity. Qed.
  Lemma tails_map (al : list (list A)) : flat_map (@tl _) (map (map str) al) = rests_of al.
  Proof. unfold rests_of. induction al as [|l al IH]; cbn [flat_map map]; auto. rewrite map_app, IH. destruct l; reflexivity. Qed.
  Lemma line_ok m1 m2 um vm u vs : numbers m1 um -> numbers m2 vm -> In (str u) m1 -> (forall v, In v vs -> In (str v) m2) ->
    exists out, remap_line um vm (map str (u :: vs)) = Ok out /\ renamed2 str um vm (u :: vs) out.
  Proof.
    intros N1 N2 I J. cbn. destruct (numbers_get N1 I) as (i & E & G). rewrite E. cbn.
    destruct (row_ok vs N2 J) as (js & Q & F). rewrite Q. cbn. eexists; split; [reflexivity|]. exists u, vs, i, js. auto.
  Qed.
  Lemma long_line_marks al u v vs : In (u :: v :: vs) al -> In (str u) (long_heads al) /\ (forall x, In x (v :: vs) -> In (str x) (long_tails al)).
  Proof.
    intros I. assert (J : In (u :: v :: vs) (filter long al)) by (apply filter_In; auto). split.
    - apply in_map, in_flat_map. exists (u :: v :: vs). split; auto. left; auto.
    - intros x K. apply in_map, in_flat_map. exists (u :: v :: vs). split; auto.
  Qed.
  Lemma remap_adj_bip_ok al : ~ In [] al -> (forall x, In [x] al -> In (str x) (long_heads al)) -> exists out um vm,
    remap_adj_list str true al = Ok (out, [um; vm]) /\ numbers (long_heads al) um /\ numbers (long_tails al) vm /\
    Forall2 (renamed2 str um vm) al out.
  Proof.
    intros NE C. unfold remap_adj_list. rewrite filter_long_map, heads_map, tails_map. fold (long_heads al) (long_tails al).
    set (um := enum_map (sorted_set (long_heads al))). set (vm := enum_map (sorted_set (long_tails al))).
    rewrite map_res_map.
    destruct (map_res_ok (fun e => remap_line um vm (map str e)) al (renamed2 str um vm)) as (out & E & F).
    - intros e I. destruct e as [|u [|v vs]]; [contradiction| |].
      + apply (line_ok u [] (enum_numbers (long_heads al)) (enum_numbers (long_tails al))); auto. intros v [].
      + destruct (long_line_marks _ _ _ _ I). apply (line_ok u (v :: vs) (enum_numbers (long_heads al)) (enum_numbers (long_tails al))); auto.
    - rewrite E. cbn. exists out, um, vm. split; auto. split; [apply enum_numbers|]. split; [apply enum_numbers|auto].
  Qed.
  Lemma remap_adjs_bip_ok ls : ~ In [] (concat ls) -> (forall x, In [x] (concat ls) -> In (str x) (long_heads (concat ls))) -> exists out um vm,
    remap_adj_lists str true ls = Ok (out, [um; vm]) /\ numbers (long_heads (concat ls)) um /\ numbers (long_tails (concat ls)) vm /\
    Forall2 (Forall2 (renamed2 str um vm)) ls out.
  Proof.
    intros NE C. unfold remap_adj_lists. rewrite filter_concat, <- concat_map, filter_long_map, heads_map, tails_map.
    fold (long_heads (concat ls)) (long_tails (concat ls)).
    set (um := enum_map (sorted_set (long_heads (concat ls)))). set (vm := enum_map (sorted_set (long_tails (concat ls)))).
    rewrite map_res_map.
    destruct (map_res_ok (fun al => map_res (remap_line um vm) (map (map str) al)) ls (Forall2 (renamed2 str um vm))) as (out & E & F).
    - intros al J. rewrite map_res_map. apply map_res_ok. intros e I.
      assert (IC : In e (concat ls)) by (apply in_concat; eauto).
      destruct e as [|u [|v vs]]; [contradiction| |].
      + apply (line_ok u [] (enum_numbers (long_heads (concat ls))) (enum_numbers (long_tails (concat ls)))); auto. intros v [].
      + destruct (long_line_marks _ _ _ _ IC). apply (line_ok u (v :: vs) (enum_numbers (long_heads (concat ls))) (enum_numbers (long_tails (concat ls)))); auto.
    - rewrite E. cbn. exists out, um, vm. split; auto. split; [apply enum_numbers|]. split; [apply enum_numbers|auto].
  Qed.
  Lemma remap_adj_bip_bad al : In [] al \/ (exists x, In [x] al /\ ~ In (str x) (long_heads al)) ->
    exists x, remap_adj_list str true al = Err x.
  Proof.
    intros B. unfold remap_adj_list. rewrite filter_long_map, heads_map, tails_map. fold (long_heads al) (long_tails al).
    rewrite map_res_map.
    assert (X : exists e x, In e al /\ remap_line (enum_map (sorted_set (long_heads al))) (enum_map (sorted_set (long_tails al))) (map str e) = Err x).
    { destruct B as [B|(x & I & N)]; [exists [], IndexError; auto|]. exists [x], KeyError. split; auto. cbn.
      rewrite (numbers_none (enum_numbers (long_heads al)) N). reflexivity. }
    destruct X as (e & x & I & E).
    destruct (map_res_err (fun e => remap_line (enum_map (sorted_set (long_heads al))) (enum_map (sorted_set (long_tails al))) (map str e)) al e I E) as (y & Q & _).
    rewrite Q. cbn. eauto.
  Qed.
End RemapFacts.
