(** C182, C183: which hyperedges can be drawn as outlines, and a drawing of an ordinary graph that cannot.
    Statements use [SpecVis]. *)
From Coq Require Import String Reals Lra Psatz Permutation.
From Verif Require Import Num PyDict ModelBase ModelConv ModelUtils ModelMetrics ModelVis ModelDraw RealFacts CooFacts UtilFacts MetricFacts SpecVis VisFacts PropVis PropForce PropLayout PropDraw.
Set Implicit Arguments.
Local Open Scope string_scope.
Local Open Scope list_scope.
Local Open Scope Z_scope.
Local Open Scope R_scope.

(** neither of the circles around [a] and [b] contains the other one: they have an outer tangent *)
Definition apart (pos : Z -> R * R) (radius : Z -> R) (a b : Z) : Prop :=
  pos a <> pos b /\ Rabs (radius a - radius b) <= norm (vec (pos a) (pos b)).
Definition swallowed (pos : Z -> R * R) (radius : Z -> R) (a b : Z) : Prop := norm (vec (pos a) (pos b)) < Rabs (radius a - radius b).
(** the vertices that the outline of [e] goes around: both of two, otherwise those on the hull that scipy finds *)
Definition corners_of (hull : list (R * R) -> res (list nat)) (pos : Z -> R * R) (e ix : list Z) : Prop :=
  length e <> 1%nat /\ ((length e = 2%nat /\ ix = e) \/ (length e <> 2%nat /\ exists hx, hull (map pos e) = Ok hx /\ ix = map (fun i => nth i e 0%Z) hx)).
Definition drawable hull (pos : Z -> R * R) (radius : Z -> R) (e : list Z) : Prop :=
  length e = 1%nat \/ exists ix, corners_of hull pos e ix /\ forall k, (k < length ix)%nat -> apart pos radius (cyc 0%Z ix k) (cyc 0%Z ix (k + 1)).
Definition undrawable hull (pos : Z -> R * R) (radius : Z -> R) (e : list Z) : Prop :=
  exists ix, corners_of hull pos e ix /\ exists k, (k < length ix)%nat /\ swallowed pos radius (cyc 0%Z ix k) (cyc 0%Z ix (k + 1)).

Lemma vlen_vec a b : vlen (psub b a) = norm (vec a b).
Proof. apply vlen_norm. Qed.
Lemma norm_nonneg q : 0 <= norm q.
Proof. apply sqrt_pos. Qed.
Lemma norm_0 a b : norm (vec a b) = 0 -> a = b.
Proof. intros E. symmetry. apply dist_0. unfold dist. rewrite vlen_vec. exact E. Qed.
Lemma tangent_ok r1 r2 d : 0 < d -> Rabs (r1 - r2) <= d -> exists a, common_tangent_radian r1 r2 d = Ok a.
Proof.
  intros D L. unfold common_tangent_radian. destruct (Req_EM_T d 0) as [->|_]; [lra|]. rewrite Rabs_minus_sym in L.
  destruct (Rlt_dec 1 (Rabs (r2 - r1) / d)) as [C|_]; [|eauto]. exfalso.
  apply (Rmult_lt_compat_r d) in C; [|exact D]. unfold Rdiv in C. rewrite Rmult_assoc, Rinv_l in C by lra. lra.
Qed.
Lemma tangent_bad r1 r2 d : 0 <= d -> d < Rabs (r1 - r2) -> common_tangent_radian r1 r2 d = Err ValueError.
Proof.
  intros D L. unfold common_tangent_radian. destruct (Req_EM_T d 0) as [->|N]; [reflexivity|]. rewrite Rabs_minus_sym in L.
  destruct (Rlt_dec 1 (Rabs (r2 - r1) / d)) as [_|C]; [reflexivity|]. exfalso. apply C.
  apply (Rmult_lt_reg_r d); [lra|]. unfold Rdiv. rewrite Rmult_assoc, Rinv_l by lra. lra.
Qed.
Lemma tangent_err r1 r2 d x : common_tangent_radian r1 r2 d = Err x -> x = ValueError.
Proof. unfold common_tangent_radian. destruct (Req_EM_T d 0); [congruence|]. destruct (Rlt_dec _ _); congruence. Qed.

Lemma pairs_nth (ix : list Z) k : (k < length ix)%nat -> nth_error (combine ix (tl ix ++ firstn 1 ix)) k = Some (cyc 0%Z ix k, cyc 0%Z ix (k + 1)).
Proof.
  intros L. assert (LL : length (tl ix ++ firstn 1 ix) = length ix). { destruct ix; [reflexivity|]. cbn [tl firstn]. rewrite app_length. cbn. lia. }
  rewrite nth_error_nth' with (d := (0, 0)%Z) by (rewrite combine_length, LL; lia).
  rewrite combine_nth by (symmetry; exact LL). rewrite nth_next, (@cyc_small _ 0%Z ix k L) by exact L. reflexivity.
Qed.
Lemma pairs_in (ix : list Z) a b : In (a, b) (combine ix (tl ix ++ firstn 1 ix)) -> exists k, (k < length ix)%nat /\ a = cyc 0%Z ix k /\ b = cyc 0%Z ix (k + 1).
Proof.
  intros I. destruct (In_nth_error _ _ I) as (k & E). assert (L : (k < length ix)%nat).
  { assert (k < length (combine ix (tl ix ++ firstn 1 ix)))%nat by (apply nth_error_Some; congruence). rewrite combine_length in H. lia. }
  exists k. rewrite pairs_nth in E by exact L. injection E as <- <-. auto.
Qed.
Lemma tangents_ok pos radius ix : (forall k, (k < length ix)%nat -> apart pos radius (cyc 0%Z ix k) (cyc 0%Z ix (k + 1))) ->
  exists ls, tangents pos radius ix = Ok ls.
Proof.
  intros A. unfold tangents. match goal with |- exists ls, map_res ?f ?l = Ok ls => destruct (@map_res_ok _ _ f l (fun _ _ => True)) as (out & E & _) end; [|eauto].
  intros [a b] I. destruct (pairs_in _ _ _ I) as (k & L & -> & ->). destruct (A k L) as [N D]. cbn zeta. rewrite vlen_vec.
  destruct (@tangent_ok (radius (cyc 0%Z ix k)) (radius (cyc 0%Z ix (k + 1))) (norm (vec (pos (cyc 0%Z ix k)) (pos (cyc 0%Z ix (k + 1)))))) as (al & ->); [|exact D|].
  - destruct (norm_nonneg (vec (pos (cyc 0%Z ix k)) (pos (cyc 0%Z ix (k + 1))))) as [P|P]; [exact P|]. exfalso. apply N. apply norm_0. auto.
  - cbn [rbind]. eauto.
Qed.
Lemma tangents_bad pos radius ix k : (k < length ix)%nat -> swallowed pos radius (cyc 0%Z ix k) (cyc 0%Z ix (k + 1)) ->
  tangents pos radius ix = Err ValueError.
Proof.
  intros L W. unfold tangents.
  match goal with |- map_res ?f ?l = _ => destruct (@map_res_err _ _ f l (cyc 0%Z ix k, cyc 0%Z ix (k + 1)) ValueError) as (y & -> & [a b] & _ & Q) end.
  - eapply nth_error_In. apply pairs_nth. exact L.
  - cbn zeta. rewrite vlen_vec, tangent_bad; [reflexivity|apply norm_nonneg|exact W].
  - cbn zeta in Q. destruct (common_tangent_radian _ _ _) as [al|x] eqn:T; cbn [rbind] in Q; [discriminate Q|]. injection Q as ->. f_equal. eapply tangent_err; exact T.
Qed.
Lemma corners_ok hull n pos e ix : hull_indices hull -> (forall v, In v e -> (0 <= v < n)%Z) -> corners_of hull pos e ix -> corners hull n pos e = Ok ix.
Proof.
  intros HI B (_ & [(L & ->)|(L & hx & E & ->)]); unfold corners.
  - rewrite L, row_id by exact B. reflexivity.
  - destruct (Nat.eqb_spec (length e) 2) as [C|_]; [contradiction|].
    replace (map (fun v => pos (row_of n v)) e) with (map pos e).
    + rewrite E. cbn [rbind]. f_equal. apply map_ext_in. intros i I. assert (Bi : (0 <= nth i e 0 < n)%Z).
      { apply B, nth_In. specialize (HI _ _ E i I). rewrite map_length in HI. exact HI. }
      unfold row_of. destruct (Z.ltb_spec (nth i e 0%Z) 0); [lia|reflexivity].
    + rewrite <- (row_id e B) at 1. rewrite map_map. reflexivity.
Qed.
Lemma drawable_ok hull n pos radius e : hull_indices hull -> (forall v, In v e -> (0 <= v < n)%Z) -> drawable hull pos radius e ->
  exists o, edge_outline hull n pos radius e = Ok o.
Proof.
  intros HI B [L|(ix & C & A)].
  - destruct e as [|v [|w e]]; try discriminate L. cbn [edge_outline]. eauto.
  - assert (X : exists o, rbind (corners hull n pos e) (fun ix => rbind (tangents pos radius ix) (fun ls => Ok (map fst ls, arcs pos radius ix (map snd ls)))) = Ok o).
    { rewrite (corners_ok HI B C). cbn [rbind]. destruct (@tangents_ok pos radius ix A) as (ls & ->). cbn [rbind]. eauto. }
    destruct C as (N1 & _). destruct e as [|v [|w e]]; [exact X|contradiction (N1 eq_refl)|exact X].
Qed.
Lemma undrawable_err hull n pos radius e : hull_indices hull -> (forall v, In v e -> (0 <= v < n)%Z) -> undrawable hull pos radius e ->
  edge_outline hull n pos radius e = Err ValueError.
Proof.
  intros HI B (ix & C & k & L & W).
  assert (X : rbind (corners hull n pos e) (fun ix => rbind (tangents pos radius ix) (fun ls => Ok (map fst ls, arcs pos radius ix (map snd ls)))) = Err ValueError).
  { rewrite (corners_ok HI B C). cbn [rbind]. rewrite (@tangents_bad pos radius ix k L W). reflexivity. }
  destruct C as (N1 & _). destruct e as [|v [|w e]]; [exact X|contradiction (N1 eq_refl)|exact X].
Qed.
Lemma edge_outline_ext hull n pos r r' e : (forall v, r v = r' v) -> edge_outline hull n pos r e = edge_outline hull n pos r' e.
Proof.
  intros E. assert (T : forall ix, tangents pos r ix = tangents pos r' ix).
  { intros ix. unfold tangents. generalize (combine ix (tl ix ++ firstn 1 ix)). intros l. induction l as [|[a b] l IH]; cbn [map_res]; [reflexivity|]. rewrite !E, IH. reflexivity. }
  assert (A : forall ix th, arcs pos r ix th = arcs pos r' ix th). { intros ix th. unfold arcs. apply map_ext. intros [i [t1 t2]]. rewrite E. reflexivity. }
  assert (X : rbind (corners hull n pos e) (fun ix => rbind (tangents pos r ix) (fun ls => Ok (map fst ls, arcs pos r ix (map snd ls)))) =
              rbind (corners hull n pos e) (fun ix => rbind (tangents pos r' ix) (fun ls => Ok (map fst ls, arcs pos r' ix (map snd ls))))).
  { destruct (corners hull n pos e) as [ix|]; [|reflexivity]. cbn [rbind]. rewrite T. destruct (tangents pos r' ix); [|reflexivity]. cbn [rbind]. rewrite A. reflexivity. }
  destruct e as [|v [|w e]]; [exact X| |exact X]. cbn [edge_outline]. rewrite E. reflexivity.
Qed.

(** the loop over the edges, with the radii of [outline_radius] *)
Lemma loop_radius hull n pos e_list size order : vertices_in n e_list ->
  forall todo done radius, order = done ++ todo -> (forall v, radius v = outline_radius e_list order size (length done) v) ->
  let loop := hull_loop hull n pos (fun v => size v * (3 / 10)) radius (map (fun i => (i, nth i e_list [])) todo) in
  ((forall k i, nth_error todo k = Some i -> exists o, edge_outline hull n pos (outline_radius e_list order size (length done + k)) (nth i e_list []) = Ok o) -> exists out, loop = Ok out) /\
  forall k i x, nth_error todo k = Some i -> edge_outline hull n pos (outline_radius e_list order size (length done + k)) (nth i e_list []) = Err x ->
    exists y, loop = Err y /\ exists k' i', nth_error todo k' = Some i' /\ edge_outline hull n pos (outline_radius e_list order size (length done + k')) (nth i' e_list []) = Err y.
Proof.
  intros V. induction todo as [|i todo IH]; intros done radius EO ER; cbn [map hull_loop]; cbn zeta.
  - split; [eauto|]. intros [|k] i x E; discriminate E.
  - destruct (IH (done ++ [i]) (grow n (fun v => size v * (3 / 10)) radius (nth i e_list []))) as [I1 I2].
    + rewrite EO, <- app_assoc. reflexivity.
    + intros v. unfold grow. rewrite ER. unfold outline_radius, earlier. rewrite app_length. cbn [length]. rewrite EO.
      rewrite firstn_app, Nat.sub_diag, firstn_all, firstn_O, app_nil_r.
      replace (firstn (length done + 1) (done ++ i :: todo)) with (done ++ [i]).
      2:{ rewrite firstn_app, firstn_all2 by lia. replace (length done + 1 - length done)%nat with 1%nat by lia. reflexivity. }
      rewrite filter_app, app_length. cbn [filter].
      replace (existsb (fun w => Z.eqb (row_of n w) v) (nth i e_list [])) with (existsb (Z.eqb v) (nth i e_list [])).
      * destruct (existsb (Z.eqb v) (nth i e_list [])); cbn [length]; rewrite plus_INR; cbn [INR]; ring.
      * assert (VB : forall v, In v (nth i e_list []) -> (0 <= v < n)%Z).
        { intros w I. destruct (nth_in_or_default i e_list []) as [J|J]; [apply (V _ _ J I)|rewrite J in I; destruct I]. }
        revert VB. generalize (nth i e_list []). clear. induction l as [|w l IH]; cbn; intros VB; auto.
        rewrite IH by auto. f_equal. unfold row_of. destruct (Z.ltb_spec w 0); [specialize (VB w (or_introl eq_refl)); lia|]. apply Z.eqb_sym.
    + rewrite app_length in I1, I2. cbn [length] in I1, I2. cbn zeta in I1, I2. rewrite (@edge_outline_ext hull n pos radius _ _ ER). split.
      * intros A. destruct (A 0%nat i eq_refl) as (o & Eo). rewrite Nat.add_0_r in Eo. rewrite Eo. cbn [rbind].
        destruct I1 as (out & ->). { intros k j E. replace (length done + 1 + k)%nat with (length done + S k)%nat by lia. apply A. exact E. }
        cbn [rbind]. eauto.
      * intros [|k] j x E X; cbn [nth_error] in E.
        -- injection E as <-. rewrite Nat.add_0_r in X. rewrite X. cbn [rbind]. exists x. split; [reflexivity|]. exists 0%nat, i. rewrite Nat.add_0_r. auto.
        -- destruct (edge_outline hull n pos (outline_radius e_list order size (length done)) (nth i e_list [])) as [o|y] eqn:O; cbn [rbind].
           ++ destruct (I2 k j x E) as (y & -> & k' & i' & E' & X'). { replace (length done + 1 + k)%nat with (length done + S k)%nat by lia. exact X. }
              exists y. split; [reflexivity|]. exists (S k'), i'. split; [exact E'|]. replace (length done + S k')%nat with (length done + 1 + k')%nat by lia. exact X'.
           ++ exists y. split; [reflexivity|]. exists 0%nat, i. rewrite Nat.add_0_r. auto.
Qed.
Lemma layout_loop hull n pos e_list size order : vertices_in n e_list ->
  ((forall k i, nth_error order k = Some i -> exists o, edge_outline hull n pos (outline_radius e_list order size k) (nth i e_list []) = Ok o) ->
   exists out, hull_layout hull n pos e_list size order = Ok out) /\
  forall k i x, nth_error order k = Some i -> edge_outline hull n pos (outline_radius e_list order size k) (nth i e_list []) = Err x ->
    exists y, hull_layout hull n pos e_list size order = Err y /\ exists k' i', nth_error order k' = Some i' /\ edge_outline hull n pos (outline_radius e_list order size k') (nth i' e_list []) = Err y.
Proof.
  intros V. unfold hull_layout. cbv zeta.
  destruct (@loop_radius hull n pos e_list size order V order [] (fun v => size v + size v * (3 / 10)) eq_refl) as [A B].
  - intros v. unfold outline_radius, earlier. cbn [length firstn filter INR]. lra.
  - split; [exact A|exact B].
Qed.

(** * C182: outlines exist iff no circle swallows the next one *)
Lemma edge_bounds n e_list i : vertices_in n e_list -> forall v, In v (nth i e_list []) -> (0 <= v < n)%Z.
Proof. intros V w I. destruct (nth_in_or_default i e_list []) as [J|J]; [apply (V _ _ J I)|rewrite J in I; destruct I]. Qed.
Theorem C182_outlines hull n pos e_list size order : hull_indices hull -> vertices_in n e_list ->
  (forall k i, nth_error order k = Some i -> drawable hull pos (outline_radius e_list order size k) (nth i e_list [])) ->
  exists out, hull_layout hull n pos e_list size order = Ok out.
Proof.
  intros HI V A. apply (layout_loop hull pos size order V). intros k i E. apply drawable_ok; auto. apply edge_bounds; exact V.
Qed.
Theorem C182_refused hull n pos e_list size order k i : hull_indices hull -> vertices_in n e_list -> nth_error order k = Some i ->
  undrawable hull pos (outline_radius e_list order size k) (nth i e_list []) ->
  (forall out, hull_layout hull n pos e_list size order <> Ok out) /\
  ((forall e, In e e_list -> length e = 1%nat \/ exists ix, corners_of hull pos e ix) -> (forall k i, nth_error order k = Some i -> (i < length e_list)%nat) ->
   hull_layout hull n pos e_list size order = Err ValueError).
Proof.
  intros HI V E U. pose proof (@undrawable_err hull n _ _ _ HI (@edge_bounds n e_list i V) U) as X.
  destruct (proj2 (layout_loop hull pos size order V) k i _ E X) as (y & -> & k' & i' & E' & X'). split; [discriminate|].
  intros CO LT. f_equal. specialize (LT k' i' E'). specialize (CO _ (nth_In _ [] LT)). pose proof (@edge_bounds n e_list i' V) as B.
  revert CO B X'. generalize (nth i' e_list []). intros e CO B X'.
  assert (Y : rbind (corners hull n pos e) (fun ix => rbind (tangents pos (outline_radius e_list order size k') ix) (fun ls => Ok (map fst ls, arcs pos (outline_radius e_list order size k') ix (map snd ls)))) = Err y -> y = ValueError).
  { destruct CO as [L|(ix & C)].
    - destruct e as [|v [|w e]]; discriminate L || discriminate X'.
    - rewrite (corners_ok HI B C). cbn [rbind]. destruct (tangents pos _ ix) as [ls|z] eqn:T; cbn [rbind]; [discriminate|]. intros Q. injection Q as <-.
      unfold tangents in T. revert T. generalize (combine ix (tl ix ++ firstn 1 ix)). intros l. induction l as [|[a b] l IH]; cbn [map_res]; [discriminate|].
      cbn zeta. destruct (common_tangent_radian _ _ _) as [al|x] eqn:CT; cbn [rbind].
      + match goal with |- context [map_res ?f l] => destruct (map_res f l) eqn:M end; cbn [rbind]; [discriminate|]. exact IH.
      + intros Q. injection Q as <-. eapply tangent_err; exact CT. }
  destruct e as [|v [|w e]]; [apply Y; exact X'|discriminate X'|apply Y; exact X'].
Qed.

(** ** drawings that succeed *)
(** the number of hyperedges that contain [v] *)
Definition memberships (hs : list (list Z)) (v : Z) : nat := length (filter (fun e => existsb (Z.eqb v) e) hs).
(** the vertices of every hyperedge are far enough apart for the circles that grow around them *)
Definition spaced (hs : list (list Z)) (pos : Z -> R * R) (rad : Z -> R) : Prop :=
  forall e a b, In e hs -> In a e -> In b e -> a <> b ->
    pos a <> pos b /\ rad a * (1 + 3 / 10 * INR (memberships hs a)) - rad b * (13 / 10) <= norm (vec (pos a) (pos b)).
(** scipy finds a hull with at least two corners for every hyperedge of three or more vertices *)
Definition hulls_exist (hull : list (R * R) -> res (list nat)) (hs : list (list Z)) (pos : Z -> R * R) : Prop :=
  forall e, In e hs -> (2 < length e)%nat -> exists hx, hull (map pos e) = Ok hx /\ NoDup hx /\ (2 <= length hx)%nat.

Lemma filter_perm_length (A : Type) (t : A -> bool) l m : Permutation l m -> length (filter t l) = length (filter t m).
Proof. induction 1; cbn; auto; repeat match goal with |- context [if ?b then _ else _] => destruct b end; cbn; try congruence; lia. Qed.
Lemma seq_pick (hs : list (list Z)) (t : list Z -> bool) : length (filter (fun i => t (nth i hs [])) (seq 0 (length hs))) = length (filter t hs).
Proof.
  assert (G : forall l1, length (filter (fun i => t (nth i (l1 ++ hs) [])) (seq (length l1) (length hs))) = length (filter t hs)).
  { induction hs as [|e l IH]; intros l1; cbn [length seq filter]; [reflexivity|].
    rewrite app_nth2, Nat.sub_diag by lia. cbn [nth]. specialize (IH (l1 ++ [e])). rewrite <- app_assoc, app_length in IH. cbn [app length] in IH.
    replace (length l1 + 1)%nat with (S (length l1)) in IH by lia. destruct (t e); cbn [length]; rewrite IH; reflexivity. }
  exact (G []).
Qed.
Lemma total_members hs order v : Permutation order (seq 0 (length hs)) ->
  length (filter (fun i => existsb (Z.eqb v) (nth i hs [])) order) = memberships hs v.
Proof. intros P. rewrite (filter_perm_length _ P). apply (seq_pick hs (fun e => existsb (Z.eqb v) e)). Qed.
Lemma earlier_lt hs order k i v : Permutation order (seq 0 (length hs)) -> nth_error order k = Some i -> In v (nth i hs []) ->
  (earlier hs order k v + 1 <= memberships hs v)%nat.
Proof.
  intros P E I. rewrite <- (total_members _ v P). unfold earlier. destruct (nth_error_split _ _ E) as (l1 & l2 & -> & <-).
  rewrite firstn_app, Nat.sub_diag, firstn_all, firstn_O, app_nil_r, filter_app, app_length. cbn [filter].
  replace (existsb (Z.eqb v) (nth i hs [])) with true; [cbn [length]; lia|]. symmetry. apply existsb_exists. exists v. split; [exact I|apply Z.eqb_refl].
Qed.
Lemma cyc_in (A : Type) (d : A) l k : l <> [] -> In (cyc d l k) l.
Proof. intros N. unfold cyc. apply nth_In. apply Nat.mod_upper_bound. destruct l; [congruence|discriminate]. Qed.
Lemma cyc_next (A : Type) (d : A) l k : NoDup l -> (2 <= length l)%nat -> (k < length l)%nat -> cyc d l k <> cyc d l (k + 1).
Proof.
  intros N L K E. unfold cyc in E. rewrite Nat.mod_small in E by exact K.
  assert (M : ((k + 1) mod length l < length l)%nat) by (apply Nat.mod_upper_bound; lia).
  apply (proj1 (NoDup_nth l d) N) in E; [|exact K|exact M].
  destruct (Nat.eq_dec (k + 1) (length l)) as [C|C]; [rewrite C, Nat.mod_same in E by lia; lia|]. rewrite Nat.mod_small in E by lia. lia.
Qed.
Lemma spaced_apart hs pos rad order k i a b : Permutation order (seq 0 (length hs)) -> nth_error order k = Some i -> (forall v, 0 <= rad v) -> spaced hs pos rad ->
  In a (nth i hs []) -> In b (nth i hs []) -> a <> b -> apart pos (outline_radius hs order rad k) a b.
Proof.
  intros P E RP SP Ia Ib D. assert (Li : (i < length hs)%nat).
  { assert (I : In i (seq 0 (length hs))) by (eapply Permutation_in; [exact P|eapply nth_error_In; exact E]). apply in_seq in I. lia. }
  pose proof (nth_In hs [] Li) as Ie. destruct (SP _ a b Ie Ia Ib D) as [N1 D1]. destruct (SP _ b a Ie Ib Ia (not_eq_sym D)) as [_ D2].
  split; [exact N1|].
  assert (SY : norm (vec (pos b) (pos a)) = norm (vec (pos a) (pos b))) by (unfold norm, dot, vec; cbn; f_equal; ring). rewrite SY in D2.
  assert (X : forall v w d, In v (nth i hs []) -> rad v * (1 + 3 / 10 * INR (memberships hs v)) - rad w * (13 / 10) <= d -> outline_radius hs order rad k v - outline_radius hs order rad k w <= d).
  { intros v w d Iv Q. unfold outline_radius. pose proof (earlier_lt _ _ v P E Iv) as LE. apply le_INR in LE. rewrite plus_INR in LE. cbn [INR] in LE.
    pose proof (pos_INR (earlier hs order k w)). pose proof (RP v). pose proof (RP w). nra. }
  apply Rabs_le. pose proof (X a b _ Ia D1). pose proof (X b a _ Ib D2). lra.
Qed.
Lemma spaced_drawable hull hs pos rad order k i : hull_indices hull -> Permutation order (seq 0 (length hs)) -> (forall v, 0 <= rad v) -> spaced hs pos rad -> hulls_exist hull hs pos ->
  (forall e, In e hs -> e <> [] /\ NoDup e) -> nth_error order k = Some i -> drawable hull pos (outline_radius hs order rad k) (nth i hs []).
Proof.
  intros HI P RP SP HE ND E. assert (Li : (i < length hs)%nat).
  { assert (I : In i (seq 0 (length hs))) by (eapply Permutation_in; [exact P|eapply nth_error_In; exact E]). apply in_seq in I. lia. }
  pose proof (nth_In hs [] Li) as Ie. destruct (ND _ Ie) as [NE NDe]. pose proof (fun a b => @spaced_apart hs pos rad order k i a b P E RP SP) as A.
  revert Ie NE NDe A. generalize (nth i hs []). intros e Ie NE NDe A.
  destruct (Nat.eq_dec (length e) 1) as [L1|L1]; [left; exact L1|]. right.
  assert (L0 : (2 <= length e)%nat) by (destruct e as [|x [|y e]]; [congruence|contradiction (L1 eq_refl)|cbn; lia]).
  destruct (Nat.eq_dec (length e) 2) as [L2|L2].
  - exists e. split; [split; [exact L1|left; auto]|]. intros j Lj. apply A; [apply cyc_in; exact NE|apply cyc_in; exact NE|]. apply cyc_next; auto.
  - destruct (HE e Ie ltac:(lia)) as (hx & EH & NH & LH). exists (map (fun i => nth i e 0%Z) hx). split; [split; [exact L1|right; split; [exact L2|exists hx; auto]]|].
    pose proof (HI _ _ EH) as BH. rewrite map_length in BH.
    assert (NX : NoDup (map (fun i => nth i e 0%Z) hx)).
    { clear EH LH. induction hx as [|x hx IH]; cbn [map]; [constructor|]. inversion NH as [|? ? NI NH']. subst. constructor.
      - intros C. apply in_map_iff in C as (y & Q & Iy). apply (proj1 (NoDup_nth e 0%Z) NDe) in Q; [congruence|apply BH; right; exact Iy|apply BH; left; reflexivity].
      - apply IH; auto. intros j Ij. apply BH. right. exact Ij. }
    assert (IX : forall v, In v (map (fun i => nth i e 0%Z) hx) -> In v e). { intros v I. apply in_map_iff in I as (j & <- & Ij). apply nth_In. apply BH. exact Ij. }
    intros j Lj. assert (NE' : map (fun i => nth i e 0%Z) hx <> []) by (destruct hx; [cbn in LH; lia|discriminate]).
    apply A; [apply IX, cyc_in; exact NE'|apply IX, cyc_in; exact NE'|]. apply cyc_next; auto. rewrite map_length. exact LH.
Qed.
Lemma size_radius n k sz : (0 <= n)%Z -> length sz = Z.to_nat n -> (forall i, (i < Z.to_nat n)%nat -> nth i sz 0 = radius n k i) ->
  forall v, (0 <= v < n)%Z -> size_of sz v = radius n k (Z.to_nat v).
Proof. intros Hn L V v B. apply V. lia. Qed.
Lemma drawable_ext hull pos r r' e : (forall v, r v = r' v) -> drawable hull pos r e -> drawable hull pos r' e.
Proof.
  intros E [L|(ix & C & A)]; [left; exact L|]. right. exists ix. split; [exact C|]. intros k L. destruct (A k L) as [N D]. split; [exact N|]. rewrite <- !E. exact D.
Qed.
Lemma circle_edges_ok hull argsort n coor sz hs ec fc elw out : Permutation (argsort (map (@length Z) hs)) (seq 0 (length hs)) ->
  (forall v, (0 <= v < n)%Z -> exists p, coor v = lift_pt p) -> hull_layout hull n (pos_of coor) hs (size_of sz) (argsort (map (@length Z) hs)) = Ok out ->
  map fst out = argsort (map (@length Z) hs) -> (length hs <= length ec)%nat -> (length hs <= length fc)%nat -> length elw = length hs ->
  exists shs, draw_circle_edge hull argsort n coor sz hs ec fc elw = Ok shs.
Proof.
  intros P FP HL MO LE LF LW. unfold draw_circle_edge.
  replace (forallb (fun v => match fin_pt (coor v) with Some _ => true | None => false end) (range n)) with true.
  2:{ symmetry. apply forallb_forall. intros v I. apply (in_vs n) in I. destruct (FP v I) as ([x y] & ->). reflexivity. }
  cbn [negb]. rewrite HL. cbn [rbind].
  match goal with |- exists s, map_res ?f ?l = Ok s => destruct (@map_res_ok _ _ f l (fun _ _ => True)) as (o & -> & _) end; [|eauto].
  intros i I. assert (Li : (i < length hs)%nat) by (apply in_seq in I; lia).
  assert (IO : In i (map fst out)) by (rewrite MO; eapply Permutation_in; [apply Permutation_sym; exact P|exact I]).
  destruct (find (fun o => Nat.eqb (fst o) i) out) as [o|] eqn:F.
  - cbn [rbind]. unfold at_index. destruct (nth_error elw i) eqn:E1; [|apply nth_error_None in E1; lia]. destruct (nth_error fc i) eqn:E2; [|apply nth_error_None in E2; lia].
    destruct (nth_error ec i) eqn:E3; [|apply nth_error_None in E3; lia]. cbn [rbind]. eauto.
  - exfalso. apply in_map_iff in IO as (o & Eo & Io). apply (find_none _ _ F) in Io. rewrite Eo, Nat.eqb_refl in Io. discriminate Io.
Qed.
(** [draw_hypergraph] and [draw_graph] with circles draw every layout that is spaced enough; what they draw is C160 *)
Theorem C182_draw hull argsort rnd js n hs k coor pos : (0 <= n)%Z -> hs <> [] -> vertices_in n hs -> (forall e, In e hs -> e <> [] /\ NoDup e) ->
  hull_indices hull -> sorts_sizes argsort (map (@length Z) hs) -> lk_style k = "circle" -> fine n (length hs) k -> enough (lk_ecolor k) (length hs) -> enough (lk_fill k) (length hs) ->
  (forall v, (0 <= v < n)%Z -> coor v = lift_pt (pos v)) -> hulls_exist hull hs pos -> spaced hs pos (fun v => radius n k (Z.to_nat v)) ->
  (hyper_layout n hs k rnd js = Ok coor -> exists d, draw_hypergraph hull argsort rnd js n hs k = Ok d) /\
  (forall es, hs = map (fun e => [fst e; snd e]) es -> graph_layout n es k rnd js = Ok coor -> exists d, draw_graph hull argsort rnd js n es k = Ok d).
Proof.
  intros Hn NE V ND HI [PM SO] S F EN1 EN2 FP HE SP. rewrite map_length in PM.
  destruct (common_parts Hn F) as (vc & ec & fc & sz & lw & elw & E1 & E2 & E3 & E4 & L1 & L2 & SZ & V1 & V2 & C1 & C2 & C3 & N2 & N3 & CI).
  destruct (CI coor) as (cs & ls & E5 & _).
  assert (PO : forall v, (0 <= v < n)%Z -> pos_of coor v = pos v) by (intros v B; unfold pos_of; rewrite FP by exact B; destruct (pos v); reflexivity).
  assert (NN : forall v, 0 <= size_of sz v).
  { intros v. unfold size_of. destruct (nth_in_or_default (Z.to_nat v) sz 0) as [I|E0]; [auto|]. rewrite E0. lra. }
  assert (SP' : spaced hs (pos_of coor) (size_of sz)).
  { intros e a b Ie Ia Ib D. rewrite !PO by (eapply V; eauto). rewrite !(@size_radius n k sz Hn L1 V1) by (eapply V; eauto). apply (SP e); auto. }
  assert (HE' : hulls_exist hull hs (pos_of coor)).
  { intros e Ie Le. replace (map (pos_of coor) e) with (map pos e); [apply HE; auto|]. apply map_ext_in. intros v I. symmetry. apply PO. eapply V; eauto. }
  destruct (@C182_outlines hull n (pos_of coor) hs (size_of sz) (argsort (map (@length Z) hs)) HI V) as (out & HL).
  { intros j i E. apply spaced_drawable; auto. }
  destruct (@C131_outlines hull n (pos_of coor) hs (size_of sz) _ out HI V NN HL) as [MO _].
  destruct (@circle_edges_ok hull argsort n coor sz hs ec fc elw out PM) as (shs & DC); auto.
  { intros v B. exists (pos v). auto. }
  split.
  - intros LY. rewrite hyper_layout_eq in LY. unfold draw_hypergraph. rewrite S, (not_empty NE). cbn [negb one_of existsb String.eqb Ascii.eqb Bool.eqb orb].
    rewrite E1, E2, E3. cbn [rbind]. rewrite E4. cbn [rbind]. rewrite LY. cbn [rbind]. rewrite E5, DC. cbn [rbind]. eauto.
  - intros es Eh LY. rewrite graph_layout_eq in LY. change (map pair_of es) with (map (fun e : Z * Z => [fst e; snd e]) es) in LY. rewrite <- Eh in LY.
    assert (LH : length es = length hs) by (rewrite Eh, map_length; reflexivity).
    assert (NE' : es <> []) by (intros ->; apply NE; exact Eh).
    unfold draw_graph. rewrite S, (not_empty NE'). cbn [negb one_of existsb String.eqb Ascii.eqb Bool.eqb orb].
    rewrite LH, E1, E2, E3. cbn [rbind]. rewrite E4. cbn [rbind]. change (map pair_of es) with (map (fun e : Z * Z => [fst e; snd e]) es). rewrite <- Eh, LY. cbn [rbind]. rewrite E5, DC. cbn [rbind]. eauto.
Qed.

(** * C183: a graph drawn with circles whose hub cannot be drawn *)
Definition degree_of (es : list (Z * Z)) (v : Z) : nat := length (filter (fun e => Z.eqb v (fst e) || Z.eqb v (snd e))%bool es).
Lemma last_such (A : Type) (t : A -> bool) l : (exists x, In x l /\ t x = true) -> exists l1 x l2, l = l1 ++ x :: l2 /\ t x = true /\ filter t l2 = [].
Proof.
  induction l as [|a l IH]; intros (x & I & T); [destruct I|].
  destruct (existsb t l) eqn:EX.
  - apply existsb_exists in EX. destruct (IH EX) as (l1 & y & l2 & -> & T' & F). exists (a :: l1), y, l2. auto.
  - exists [], a, l. assert (N : forall y, In y l -> t y = false). { intros y Iy. destruct (t y) eqn:Ty; [|reflexivity]. rewrite <- EX. symmetry. apply existsb_exists. exists y. auto. }
    destruct I as [->|I]; [|rewrite (N x I) in T; discriminate T]. split; [reflexivity|]. split; [exact T|].
    clear - N. induction l as [|y l IH]; [reflexivity|]. cbn [filter]. rewrite N by (left; reflexivity). apply IH. intros z Iz. apply N. right. exact Iz.
Qed.
Lemma members_degree es v : memberships (map (fun e : Z * Z => [fst e; snd e]) es) v = degree_of es v.
Proof.
  unfold memberships, degree_of. induction es as [|[a b] es IH]; [reflexivity|]. cbn [map filter existsb fst snd]. rewrite Bool.orb_false_r.
  destruct (Z.eqb v a || Z.eqb v b)%bool; cbn [length]; rewrite IH; reflexivity.
Qed.
Lemma box_far p q : 1 / 10 <= fst p <= 9 / 10 -> 1 / 10 <= snd p <= 9 / 10 -> 1 / 10 <= fst q <= 9 / 10 -> 1 / 10 <= snd q <= 9 / 10 ->
  norm (vec p q) <= 8 / 10 * sqrt 2.
Proof.
  intros A B C D. unfold norm, dot, vec. cbn [fst snd]. replace (8 / 10 * sqrt 2) with (sqrt (64 / 100 * 2)).
  - apply sqrt_le_1_alt. nra.
  - rewrite sqrt_mult by lra. replace (64 / 100) with (8 / 10 * (8 / 10)) by lra. rewrite sqrt_square by lra. reflexivity.
Qed.
(** Vertex [v] is a hub: after its last edge its circle would exceed those of all its neighbours by more than the diagonal of the picture. *)
Theorem C183_hub_actual hull argsort rnd js n es k coor v : (0 < n)%Z -> (forall a b, In (a, b) es -> (0 <= a < n)%Z /\ (0 <= b < n)%Z) -> uniform n rnd ->
  hull_indices hull -> sorts_sizes argsort (map (fun _ => 2%nat) es) -> lk_style k = "circle" -> fine n (length es) k ->
  graph_layout n es k rnd js = Ok coor -> (forall v, (0 <= v < n)%Z -> exists p, coor v = lift_pt p) ->
  let grown w := radius n k (Z.to_nat w) * (1 + 3 / 10 * INR (degree_of es w)) in
  (exists w, In (v, w) es \/ In (w, v) es) -> (forall w, In (v, w) es \/ In (w, v) es -> grown v - grown w > 8 / 10 * sqrt 2) ->
  draw_graph hull argsort rnd js n es k = Err ValueError.
Proof.
  intros Hn B U HI SO S F LY FP grown (w0 & EX) HUB. assert (Hn' : (0 <= n)%Z) by lia.
  set (hs := map (fun e : Z * Z => [fst e; snd e]) es).
  assert (NE : es <> []) by (intros ->; destruct EX as [[]|[]]).
  assert (V : vertices_in n hs).
  { intros e u Ie Iu. unfold hs in Ie. apply in_map_iff in Ie as ([a b] & <- & I). destruct (B a b I). cbn in Iu. destruct Iu as [<-|[<-|[]]]; assumption. }
  assert (LH : length hs = length es) by (unfold hs; apply map_length).
  assert (LS : map (@length Z) hs = map (fun _ => 2%nat) es) by (unfold hs; rewrite map_map; reflexivity). rewrite <- LS in SO. destruct SO as [PM _]. rewrite map_length in PM.
  destruct (common_parts Hn' F) as (vc & ec & fc & sz & lw & elw & E1 & E2 & E3 & E4 & L1 & L2 & SZ & V1 & V2 & C1 & C2 & C3 & _ & _ & CI).
  destruct (CI coor) as (cs & ls & E5 & _).
  rewrite graph_layout_eq in LY. change (map pair_of es) with hs in LY.
  unfold draw_graph. rewrite S, (not_empty NE). cbn [negb one_of existsb String.eqb Ascii.eqb Bool.eqb orb].
  rewrite E1, E2, E3. cbn [rbind]. rewrite E4. cbn [rbind]. change (map pair_of es) with hs. rewrite LY. cbn [rbind]. rewrite E5.
  enough (X : draw_circle_edge hull argsort n coor sz hs ec fc elw = Err ValueError) by (rewrite X; reflexivity).
  destruct (@C72_force_layout _ _ _ _ _ _ _ _ _ Hn V U LY) as (q & _ & BX & BY).
  assert (BOX : forall u, (0 <= u < n)%Z -> 1 / 10 <= fst (pos_of coor u) <= 9 / 10 /\ 1 / 10 <= snd (pos_of coor u) <= 9 / 10).
  { intros u Bu. destruct (FP u Bu) as ([x y] & Ex). unfold pos_of. rewrite Ex. cbn [lift_pt fin_pt fin_of fst snd].
    destruct BX as [[C _]|[C _]]; specialize (C u Bu); rewrite Ex in C; cbn [lift_pt fst] in C; [discriminate C|]. destruct C as (a & Ea & Ba). injection Ea as <-.
    destruct BY as [[C _]|[C _]]; specialize (C u Bu); rewrite Ex in C; cbn [lift_pt snd] in C; [discriminate C|]. destruct C as (b & Eb & Bb). injection Eb as <-. auto. }
  unfold draw_circle_edge.
  replace (forallb (fun v => match fin_pt (coor v) with Some _ => true | None => false end) (range n)) with true.
  2:{ symmetry. apply forallb_forall. intros u I. apply (in_vs n) in I. destruct (FP u I) as ([x y] & ->). reflexivity. }
  cbn [negb]. set (order := argsort (map (@length Z) hs)) in *.
  enough (X : hull_layout hull n (pos_of coor) hs (size_of sz) order = Err ValueError) by (rewrite X; reflexivity).
  destruct (@last_such _ (fun i => existsb (Z.eqb v) (nth i hs [])) order) as (l1 & i & l2 & EO & Ti & F2).
  { destruct EX as [I|I]; apply (in_map (fun e : Z * Z => [fst e; snd e])) in I; fold hs in I; cbn [fst snd] in I;
      destruct (In_nth _ _ [] I) as (i & Li & Ei); exists i; (split; [eapply Permutation_in; [apply Permutation_sym; exact PM|apply in_seq; lia]|rewrite Ei; cbn; rewrite Z.eqb_refl, ?Bool.orb_true_r; reflexivity]). }
  assert (Ek : nth_error order (length l1) = Some i) by (rewrite EO, nth_error_app2, Nat.sub_diag by lia; reflexivity).
  assert (ORD : forall k i, nth_error order k = Some i -> (i < length hs)%nat).
  { intros k' i' E'. assert (I : In i' (seq 0 (length hs))) by (eapply Permutation_in; [exact PM|eapply nth_error_In; exact E']). apply in_seq in I. lia. }
  assert (EV : (earlier hs order (length l1) v + 1)%nat = memberships hs v).
  { rewrite <- (total_members _ v PM), EO. unfold earlier. rewrite firstn_app, Nat.sub_diag, firstn_all, firstn_O, app_nil_r, filter_app, app_length. cbn [filter].
    rewrite Ti, F2. reflexivity. }
  assert (PAIR : exists a b, nth i hs [] = [a; b] /\ In (a, b) es).
  { pose proof (nth_In hs [] (ORD _ _ Ek)) as I. unfold hs in I at 2. apply in_map_iff in I as ([a b] & Q & I). exists a, b. split; [symmetry; exact Q|exact I]. }
  destruct PAIR as (a & b & Ee & Iab). destruct (B a b Iab) as [Ba Bb].
  assert (SW : forall w, In w (nth i hs []) -> (0 <= w < n)%Z -> (0 <= v < n)%Z -> grown v - grown w > 8 / 10 * sqrt 2 ->
            8 / 10 * sqrt 2 < outline_radius hs order (size_of sz) (length l1) v - outline_radius hs order (size_of sz) (length l1) w).
  { intros w Iw Bw Bv G. unfold outline_radius. pose proof (@earlier_lt hs order (length l1) i w PM Ek Iw) as LE. apply le_INR in LE. apply (f_equal INR) in EV.
    rewrite plus_INR in LE, EV. cbn [INR] in LE, EV. unfold grown in G. rewrite <- !members_degree in G. fold hs in G. rewrite <- !(@size_radius n k sz Hn' L1 V1) in G by assumption. rewrite <- EV in G.
    assert (0 <= size_of sz w). { unfold size_of. destruct (nth_in_or_default (Z.to_nat w) sz 0) as [J|E0]; [auto|]. rewrite E0. lra. } nra. }
  apply (@C182_refused hull n (pos_of coor) hs (size_of sz) order (length l1) i HI V Ek); [|intros e Ie; right; exists e|exact ORD].
  2:{ unfold hs in Ie. apply in_map_iff in Ie as ([x y] & <- & _). split; [discriminate|left; split; reflexivity]. }
  exists [a; b]. rewrite Ee. split; [split; [discriminate|left; split; reflexivity]|]. rewrite Ee in SW, Ti. cbn [existsb] in Ti. rewrite Bool.orb_false_r in Ti.
  destruct (Z.eqb_spec v a) as [->|Na]; [|destruct (Z.eqb_spec v b) as [->|Nb]; [|discriminate Ti]].
  - exists 0%nat. split; [cbn; lia|]. unfold swallowed, cyc. cbn [length]. change (nth (0 mod 2) [a; b] 0%Z) with a. change (nth ((0 + 1) mod 2) [a; b] 0%Z) with b.
    pose proof (SW b ltac:(cbn; auto) Bb Ba ltac:(apply HUB; left; exact Iab)) as D.
    destruct (BOX a Ba), (BOX b Bb). pose proof (@box_far (pos_of coor a) (pos_of coor b) ltac:(assumption) ltac:(assumption) ltac:(assumption) ltac:(assumption)).
    eapply Rle_lt_trans; [eassumption|]. eapply Rlt_le_trans; [exact D|apply Rle_abs].
  - exists 1%nat. split; [cbn; lia|]. unfold swallowed, cyc. cbn [length]. change (nth (1 mod 2) [a; b] 0%Z) with b. change (nth ((1 + 1) mod 2) [a; b] 0%Z) with a.
    pose proof (SW a ltac:(cbn; auto) Ba Bb ltac:(apply HUB; right; exact Iab)) as D.
    destruct (BOX a Ba), (BOX b Bb). pose proof (@box_far (pos_of coor b) (pos_of coor a) ltac:(assumption) ltac:(assumption) ltac:(assumption) ltac:(assumption)).
    eapply Rle_lt_trans; [eassumption|]. eapply Rlt_le_trans; [exact D|apply Rle_abs].
Qed.

(** the star with [m] leaves, and the default sizes: from 1436 leaves on there is no drawing *)
Definition star (m : nat) : list (Z * Z) := map (fun i => (0%Z, Z.of_nat i)) (seq 1 m).
Lemma star_in m a b : In (a, b) (star m) -> a = 0%Z /\ (1 <= b <= Z.of_nat m)%Z.
Proof. intros I. apply in_map_iff in I as (i & Q & I). apply in_seq in I. injection Q as <- <-. lia. Qed.
Lemma star_hub m : degree_of (star m) 0 = m.
Proof.
  unfold degree_of, star. rewrite <- (seq_length m 1) at 2. generalize (seq 1 m). intros l. induction l as [|i l IH]; [reflexivity|]. cbn. f_equal. exact IH.
Qed.
Lemma star_leaf m w : (1 <= w <= Z.of_nat m)%Z -> degree_of (star m) w = 1%nat.
Proof.
  intros B. unfold degree_of, star.
  assert (G : forall l, NoDup l -> length (filter (fun e => Z.eqb w (fst e) || Z.eqb w (snd e))%bool (map (fun i => (0%Z, Z.of_nat i)) l)) = if existsb (Nat.eqb (Z.to_nat w)) l then 1%nat else 0%nat).
  { induction l as [|i l IH]; intros N; [reflexivity|]. inversion N as [|? ? NI N']. subst. specialize (IH N'). cbn [map filter fst snd existsb].
    destruct (Z.eqb_spec w 0) as [C|_]; [lia|]. cbn [orb]. destruct (Z.eqb_spec w (Z.of_nat i)) as [E|E].
    - destruct (Nat.eqb_spec (Z.to_nat w) i) as [_|C]; [|lia]. cbn [orb length]. rewrite IH. destruct (existsb (Nat.eqb (Z.to_nat w)) l) eqn:X; [|reflexivity].
      exfalso. apply existsb_exists in X as (j & Ij & Ej). apply Nat.eqb_eq in Ej. apply NI. replace i with j by lia. exact Ij.
    - destruct (Nat.eqb_spec (Z.to_nat w) i) as [C|_]; [lia|]. cbn [orb]. exact IH. }
  rewrite G by apply seq_NoDup. replace (existsb (Nat.eqb (Z.to_nat w)) (seq 1 m)) with true; [reflexivity|].
  symmetry. apply existsb_exists. exists (Z.to_nat w). split; [apply in_seq; lia|apply Nat.eqb_refl].
Qed.
Theorem C183_star_actual hull argsort rnd js m k coor : (1436 <= m)%nat -> let n := Z.of_nat (m + 1) in uniform n rnd ->
  hull_indices hull -> sorts_sizes argsort (repeat 2%nat m) -> lk_style k = "circle" -> lk_size k = SNum 1 -> fine n m k ->
  graph_layout n (star m) k rnd js = Ok coor -> (forall v, (0 <= v < n)%Z -> exists p, coor v = lift_pt p) ->
  draw_graph hull argsort rnd js n (star m) k = Err ValueError.
Proof.
  intros M n U HI SO S SZ F LY FP.
  assert (LS : length (star m) = m) by (unfold star; rewrite map_length, seq_length; reflexivity).
  apply C183_hub_actual with (coor := coor) (v := 0%Z); auto.
  - unfold n. lia.
  - intros a b I. apply star_in in I. unfold n. lia.
  - replace (map (fun _ : Z * Z => 2%nat) (star m)) with (repeat 2%nat m); [exact SO|].
    rewrite <- LS at 1. generalize (star m). intros l. induction l as [|x l IH]; [reflexivity|]. cbn. f_equal. exact IH.
  - rewrite LS. exact F.
  - exists 1%Z. left. unfold star. apply in_map_iff. exists 1%nat. split; [reflexivity|]. apply in_seq. lia.
  - intros w I. assert (Bw : (1 <= w <= Z.of_nat m)%Z). { destruct I as [I|I]; apply star_in in I; lia. }
    rewrite star_hub, star_leaf by exact Bw. unfold radius. rewrite SZ. cbn [scale_of INR].
    assert (MR : 1436 <= INR m). { apply le_INR in M. replace (INR 1436) with 1436 in M by (rewrite INR_IZR_INZ; reflexivity). exact M. }
    assert (EN : IZR n + 10 = INR m + 11). { unfold n. rewrite <- INR_IZR_INZ, plus_INR. cbn [INR]. ring. } rewrite EN.
    set (x := INR m) in *. assert (SX : 0 < sqrt (x + 11)) by (apply sqrt_lt_R0; lra).
    assert (K : 80 * sqrt 2 * sqrt (x + 11) < 3 * (x - 1)).
    { replace (80 * sqrt 2 * sqrt (x + 11)) with (sqrt (12800 * (x + 11))).
      - rewrite <- (sqrt_square (3 * (x - 1))) by lra. apply sqrt_lt_1_alt. nra.
      - replace 12800 with (80 * 80 * 2) by lra. rewrite sqrt_mult, sqrt_mult, sqrt_square by lra. reflexivity. }
    apply Rlt_gt. apply (Rmult_lt_reg_r (10 * sqrt (x + 11))); [lra|].
    replace ((1 / (10 * sqrt (x + 11)) * (1 + 3 / 10 * x) - 1 / (10 * sqrt (x + 11)) * (1 + 3 / 10 * 1)) * (10 * sqrt (x + 11))) with (3 / 10 * (x - 1)) by (field; lra).
    nra.
Qed.

(** ** the hypotheses can be met *)
Definition all_corners (l : list (R * R)) : res (list nat) := Ok (seq 0 (length l)).
Lemma all_corners_ok : hull_indices all_corners.
Proof. intros l ix E i I. injection E as <-. apply in_seq in I. lia. Qed.
(** three hyperedges over the corners of a triangle: drawable; a large circle next to a small one: not *)
Definition triangle (v : Z) : R * R := if Z.eqb v 0 then (0, 0) else if Z.eqb v 1 then (1, 0) else (0, 1).
Example C182_case : let hs := [[2]; [0; 1]; [0; 1; 2]]%Z in let rad (v : Z) := 1 / 100 in
  spaced hs triangle rad /\ hulls_exist all_corners hs triangle /\
  (exists out, hull_layout all_corners 3 triangle hs rad [0; 1; 2]%nat = Ok out) /\
  undrawable all_corners triangle (outline_radius hs [0; 1; 2]%nat (fun v => if Z.eqb v 0 then 1 else 1 / 100) 1) [0; 1]%Z.
Proof.
  intros hs rad.
  assert (N1 : forall a b, (a = 0 \/ a = 1 \/ a = 2)%Z -> (b = 0 \/ b = 1 \/ b = 2)%Z -> a <> b -> triangle a <> triangle b /\ 1 <= norm (vec (triangle a) (triangle b))).
  { intros a b Ia Ib D. split.
    - destruct Ia as [->|[->| ->]], Ib as [->|[->| ->]]; try congruence; unfold triangle; cbn; intros E; injection E; intros; lra.
    - unfold norm. rewrite <- sqrt_1. apply sqrt_le_1_alt. destruct Ia as [->|[->| ->]], Ib as [->|[->| ->]]; try congruence; unfold triangle, dot, vec; cbn; lra. }
  assert (IH : forall e v, In e hs -> In v e -> (v = 0 \/ v = 1 \/ v = 2)%Z).
  { intros e v Ie Iv. cbn in Ie. destruct Ie as [<-|[<-|[<-|[]]]]; cbn in Iv; lia. }
  assert (SP : spaced hs triangle rad).
  { intros e a b Ie Ia Ib D. pose proof (IH e a Ie Ia) as A. pose proof (IH e b Ie Ib) as B. destruct (N1 a b A B D) as [X Y]. split; [exact X|]. eapply Rle_trans; [|exact Y].
    assert (M : (memberships hs a <= 3)%nat) by (clear - A; destruct A as [A|[A|A]]; subst a; vm_compute; repeat constructor). apply le_INR in M. change (INR 3) with (1 + 1 + 1) in M. unfold rad. lra. }
  assert (HE : hulls_exist all_corners hs triangle).
  { intros e Ie Le. exists (seq 0 (length (map triangle e))). split; [reflexivity|]. split; [apply seq_NoDup|]. rewrite seq_length, map_length. lia. }
  split; [exact SP|]. split; [exact HE|]. split.
  - apply C182_outlines; [exact all_corners_ok|intros e v Ie Iv; specialize (IH e v Ie Iv); lia|].
    intros k i E. apply spaced_drawable; auto; [exact all_corners_ok|unfold rad; intros v; lra|].
    intros e Ie. cbn in Ie. destruct Ie as [<-|[<-|[<-|[]]]]; (split; [discriminate|]); repeat constructor; cbn; intros C; repeat destruct C as [C|C]; try discriminate C; exact C.
  - exists [0; 1]%Z. split; [split; [discriminate|left; split; reflexivity]|]. exists 0%nat. split; [cbn; lia|]. unfold swallowed. change (cyc 0%Z [0; 1]%Z 0) with 0%Z. change (cyc 0%Z [0; 1]%Z (0 + 1)) with 1%Z.
    unfold outline_radius, earlier. cbn. unfold norm, dot, vec, triangle. cbn. replace ((1 - 0) * (1 - 0) + (0 - 0) * (0 - 0)) with 1 by ring. rewrite sqrt_1.
    rewrite Rabs_right; lra.
Qed.
(** a whole drawing *)
Example C182_draw_case js : let k := plain "circle" None KNone (KOne "k") (SNum 1) in let argsort (l : list nat) := seq 0 (length l) in
  fine 2 1 k /\ enough (lk_ecolor k) 1 /\ enough (lk_fill k) 1 /\ exists d, draw_hypergraph all_corners argsort two_draws js 2 [[0; 1]%Z] k = Ok d.
Proof.
  intros k argsort. assert (F : fine 2 1 k) by (apply plain_fine; [split; discriminate|split; discriminate|left; reflexivity|intros l E; discriminate E]).
  assert (E1 : enough (lk_ecolor k) 1) by (intros l E; discriminate E). assert (E2 : enough (lk_fill k) 1) by (intros l E; discriminate E).
  split; [exact F|]. split; [exact E1|]. split; [exact E2|].
  destruct (@C163_two (1 * (6 / 1000)) (Some (1 * (8 / 1000))) (1 * (7 / 1000)) (1 * (1 / 1000)) js) as (coor & LY & C0 & C1); [lra..|].
  set (pos := fun v : Z => if Z.eqb v 0 then (9 / 10, 9 / 10) else (1 / 10, 1 / 10)).
  destruct (@C182_draw all_corners argsort two_draws js 2 [[0; 1]%Z] k coor pos) as [D _]; auto.
  - lia.
  - discriminate.
  - intros e v [<-|[]] [<-|[<-|[]]]; lia.
  - intros e [<-|[]]. split; [discriminate|]. repeat constructor; cbn; intros C; repeat destruct C as [C|C]; try discriminate C; exact C.
  - exact all_corners_ok.
  - split; [reflexivity|]. intros a b [A B]. cbn in B. lia.
  - intros v B. assert (Q : v = 0%Z \/ v = 1%Z) by lia. destruct Q as [-> | ->]; [exact C0|exact C1].
  - intros e [<-|[]] L. cbn in L. lia.
  - intros e a b [<-|[]] Ia Ib D. unfold radius. change (scale_of (lk_size k) (Z.to_nat a)) with 1. change (scale_of (lk_size k) (Z.to_nat b)) with 1.
    replace (memberships [[0; 1]%Z] a) with 1%nat by (destruct Ia as [<-|[<-|[]]]; reflexivity). split.
    + unfold pos. destruct Ia as [<-|[<-|[]]], Ib as [<-|[<-|[]]]; try congruence; cbn; intros C; injection C; lra.
    + cbn [INR]. pose proof (norm_nonneg (vec (pos a) (pos b))). lra.
Qed.
(** two vertices, one of them 60 times as large: the only edge is refused *)
Example C183_hub_case js : let k := plain "circle" None KNone (KOne "k") (SList [60; 1]) in let argsort (l : list nat) := seq 0 (length l) in
  (exists coor, graph_layout 2 [(0, 1)%Z] k two_draws js = Ok coor /\ forall v, (0 <= v < 2)%Z -> exists p, coor v = lift_pt p) /\
  draw_graph all_corners argsort two_draws js 2 [(0, 1)%Z] k = Err ValueError.
Proof.
  intros k argsort.
  destruct (@C163_two (1 * (6 / 1000)) None (1 * (45 / 1000)) (1 * (1 / 100)) js) as (coor & LY & C0 & C1); [lra..|].
  assert (FP : forall v, (0 <= v < 2)%Z -> exists p, coor v = lift_pt p).
  { intros v B. assert (Q : v = 0%Z \/ v = 1%Z) by lia. destruct Q as [-> | ->]; [exists (9 / 10, 9 / 10); exact C0|exists (1 / 10, 1 / 10); exact C1]. }
  split; [exists coor; split; [exact LY|exact FP]|].
  apply C183_hub_actual with (coor := coor) (v := 0%Z); auto.
  - lia.
  - intros a b [E|[]]. injection E as <- <-. lia.
  - intros v Bv. unfold two_draws. destruct (Z.eqb v 0); cbn; lra.
  - exact all_corners_ok.
  - split; [reflexivity|]. intros a b [A B]. cbn in B. lia.
  - split; [split; discriminate|]. split; [split; discriminate|]. split; [split; discriminate|]. split; [|split].
    + split; [|split; intros l C; discriminate C]. intros l E. injection E as <-. reflexivity.
    + intros i I. cbn. destruct i as [|[|[|i]]]; cbn; lra.
    + intros l E. discriminate E.
  - exists 1%Z. left. left. reflexivity.
  - intros w I. assert (W : w = 1%Z). { destruct I as [[E|[]]|[E|[]]]; injection E; intros; congruence. } subst w.
    change (degree_of [(0, 1)%Z] 0) with 1%nat. change (degree_of [(0, 1)%Z] 1) with 1%nat. unfold radius. cbn [k plain lk_size]. change (scale_of (SList [60; 1]) (Z.to_nat 0)) with 60. change (scale_of (SList [60; 1]) (Z.to_nat 1)) with 1.
    cbn [INR]. assert (S12 : sqrt (2 + 10) <= 4). { replace 4 with (sqrt (4 * 4)) by (apply sqrt_square; lra). apply sqrt_le_1_alt. lra. }
    assert (S12' : 0 < sqrt (2 + 10)) by (apply sqrt_lt_R0; lra).
    assert (S2 : sqrt 2 <= 2). { replace 2 with (sqrt (2 * 2)) at 2 by (apply sqrt_square; lra). apply sqrt_le_1_alt. lra. }
    apply Rlt_gt. apply Rle_lt_trans with (16 / 10); [lra|]. apply (Rmult_lt_reg_r (10 * sqrt (2 + 10))); [lra|].
    replace ((60 / (10 * sqrt (2 + 10)) * (1 + 3 / 10 * 1) - 1 / (10 * sqrt (2 + 10)) * (1 + 3 / 10 * 1)) * (10 * sqrt (2 + 10))) with (59 * (13 / 10)) by (field; lra). lra.
Qed.
