(** C158-C162: what the drawing functions draw and refuse.  Statements use [SpecVis]. *)
From Coq Require Import String Reals Lra Psatz Permutation.
From Verif Require Import Num PyDict ModelBase ModelConv ModelUtils ModelMetrics ModelVis ModelDraw RealFacts CooFacts UtilFacts MetricFacts SpecVis VisFacts PropVis PropForce PropLayout.
Set Implicit Arguments.
Local Open Scope string_scope.
Local Open Scope list_scope.
Local Open Scope Z_scope.
Local Open Scope R_scope.

(** the colour of element [i], its scale factor, and the inputs that are accepted *)
Definition colour_of (c : colours) (default : string) (i : nat) : option colour :=
  match c with
  | KNone => Some (CName default) | KOne s => Some (CName s) | KNums x l => Some (CRgb (x :: l)) | KList l => nth_error l i | KOther => None
  end.
Definition usable (c : colours) : Prop := c <> KOther /\ c <> KList [].
Definition enough (c : colours) (n : nat) : Prop := forall l, c = KList l -> (n <= length l)%nat.
Definition scale_of (s : scales) (i : nat) : R := match s with SNone => 1 | SNum x => x | SList l => nth i l 0 end.
Definition fits (s : scales) (n : nat) : Prop := forall l, s = SList l -> length l = n.

Lemma fill_color_ok c d n : usable c -> exists l, fill_color c d n = Ok l /\ (forall i, (i < n)%nat -> nth_error l i = colour_of c d i) /\
  (enough c n -> (n <= length l)%nat).
Proof.
  intros [U1 U2].
  assert (RP : forall x : colour, (forall i, (i < n)%nat -> nth_error (repeat x n) i = Some x) /\ (n <= length (repeat x n))%nat).
  { intros x. split; [|rewrite repeat_length; lia]. intros i L. apply nth_error_repeat. exact L. }
  destruct c as [|s|l|x l|]; cbn [fill_color colour_of].
  - eexists; split; [reflexivity|]. destruct (RP (CName d)); auto.
  - eexists; split; [reflexivity|]. destruct (RP (CName s)); auto.
  - destruct l as [|x l]; [congruence|]. eexists; split; [reflexivity|]. split; auto.
  - eexists; split; [reflexivity|]. destruct (RP (CRgb (x :: l))); auto.
  - congruence.
Qed.
Lemma nth_repeat_lt (A : Type) (a d : A) n i : (i < n)%nat -> nth i (repeat a n) d = a.
Proof. revert i. induction n as [|n IH]; intros i L; [lia|]. destruct i; cbn; auto. apply IH. lia. Qed.
Lemma fill_sizes_ok s d n : fits s n -> exists l, fill_sizes s d n = Ok l /\ length l = n /\ forall i, (i < n)%nat -> nth i l 0 = d * scale_of s i.
Proof.
  intros F. destruct s as [|x|l]; cbn [fill_sizes scale_of].
  - eexists; split; [reflexivity|]. split; [apply repeat_length|]. intros i L. rewrite nth_repeat_lt by auto. ring.
  - eexists; split; [reflexivity|]. split; [apply repeat_length|]. intros i L. rewrite nth_repeat_lt by auto. ring.
  - rewrite (F l eq_refl), Nat.eqb_refl. eexists; split; [reflexivity|]. split; [rewrite map_length; auto|]. intros i L.
    rewrite nth_indep with (d' := d * 0) by (rewrite map_length, (F l eq_refl); auto). apply map_nth.
Qed.
Lemma fill_sizes_cases s d n : fits s n \/ fill_sizes s d n = Err AssertionError.
Proof.
  destruct s as [|x|l]; cbn [fill_sizes]; [left; intros l E; discriminate E|left; intros l E; discriminate E|].
  destruct (Nat.eqb_spec (length l) n) as [E|E]; [left|right; reflexivity]. intros l' E'. injection E' as <-. exact E.
Qed.
Lemma default_size_ok n m a b c f : fits a (Z.to_nat n) -> fits b (Z.to_nat n) -> fits c m -> exists sz lw elw,
  default_size n m a b c (Some f) = Ok (sz, lw, elw, f * (20 * exp (- IZR n / 100))) /\
  length sz = Z.to_nat n /\ length lw = Z.to_nat n /\ length elw = m /\
  (forall i, (i < Z.to_nat n)%nat -> nth i sz 0 = scale_of a i / (10 * sqrt (IZR n + 10))) /\
  (forall i, (i < m)%nat -> nth i elw 0 = exp (- INR m / 120) * scale_of c i).
Proof.
  intros A B C. unfold default_size. cbv zeta.
  destruct (@fill_sizes_ok a (1 / sqrt (IZR n + 10) * (1 / 10)) _ A) as (sz & -> & L1 & N1).
  destruct (@fill_sizes_ok b (exp (- IZR n / 50)) _ B) as (lw & -> & L2 & N2).
  destruct (@fill_sizes_ok c (exp (- INR m / 120)) _ C) as (elw & -> & L3 & N3).
  cbn [rbind]. exists sz, lw, elw. split; [reflexivity|]. repeat (split; [assumption|]). split; [|exact N3].
  intros i L. rewrite N1 by auto.
  assert (P : 0 < sqrt (IZR n + 10)).
  { apply sqrt_lt_R0. assert (0 <= IZR n) by (apply IZR_le; lia). lra. }
  field. lra.
Qed.
Lemma default_size_bad n m a b c f : ~ (fits a (Z.to_nat n) /\ fits b (Z.to_nat n) /\ fits c m) ->
  default_size n m a b c f = Err AssertionError.
Proof.
  intros F. unfold default_size. cbv zeta.
  destruct (fill_sizes_cases a (1 / sqrt (IZR n + 10) * (1 / 10)) (Z.to_nat n)) as [A| ->]; [|reflexivity].
  destruct (@fill_sizes_ok a (1 / sqrt (IZR n + 10) * (1 / 10)) _ A) as (sz & -> & _). cbn [rbind].
  destruct (fill_sizes_cases b (exp (- IZR n / 50)) (Z.to_nat n)) as [B| ->]; [|reflexivity].
  destruct (@fill_sizes_ok b (exp (- IZR n / 50)) _ B) as (lw & -> & _). cbn [rbind].
  destruct (fill_sizes_cases c (exp (- INR m / 120)) m) as [C| ->]; [|reflexivity].
  exfalso. apply F. split; [exact A|]. split; [exact B|exact C].
Qed.

(** * C158: what the drawing functions refuse *)
Theorem C158_style hull argsort rnd rnd' js n m (es : list (Z * Z)) (hs : list (list Z)) k b :
  (lk_style k <> "line" /\ lk_style k <> "circle" \/ es = [] -> draw_graph hull argsort rnd js n es k = Err AssertionError) /\
  (lk_style k <> "line" \/ es = [] -> draw_digraph rnd js n es k = Err AssertionError) /\
  (bk_style b <> "line" \/ es = [] -> draw_bigraph rnd rnd' js n m es b = Err AssertionError) /\
  (lk_style k <> "circle" \/ hs = [] -> draw_hypergraph hull argsort rnd js n hs k = Err AssertionError).
Proof.
  assert (NO : forall s t, s <> t -> String.eqb s t = false) by (intros s t N; apply String.eqb_neq; exact N).
  split; [|split; [|split]].
  - intros [[A B]|E]; unfold draw_graph, one_of.
    + cbn [existsb]. rewrite (NO _ _ A), (NO _ _ B). reflexivity.
    + subst es. destruct (negb _); reflexivity.
  - intros [A|E]; unfold draw_digraph, one_of.
    + cbn [existsb]. rewrite (NO _ _ A). reflexivity.
    + subst es. destruct (negb _); reflexivity.
  - intros [A|E]; unfold draw_bigraph, one_of.
    + cbn [existsb]. rewrite (NO _ _ A). reflexivity.
    + subst es. destruct (negb _); reflexivity.
  - intros [A|E]; unfold draw_hypergraph, one_of.
    + cbn [existsb]. rewrite (NO _ _ A). reflexivity.
    + subst hs. destruct (negb _); reflexivity.
Qed.
(** a list of sizes or line widths whose length is not the number of vertices or edges *)
Definition sizes_fit (k : look) (n : Z) (m : nat) : Prop :=
  fits (lk_size k) (Z.to_nat n) /\ fits (lk_lw k) (Z.to_nat n) /\ fits (lk_elw k) m.
Definition bsizes_fit (b : blook) (nu nv : Z) (m : nat) : Prop :=
  fits (bk_usize b) (Z.to_nat nu) /\ fits (bk_ulw b) (Z.to_nat nu) /\ fits (bk_vsize b) (Z.to_nat nv) /\ fits (bk_vlw b) (Z.to_nat nv) /\ fits (bk_elw b) m.
Lemma not_empty {A} (l : list A) : l <> [] -> Nat.eqb (length l) 0 = false.
Proof. destruct l; [congruence|reflexivity]. Qed.
Theorem C158_sizes hull argsort rnd rnd' js n m (es : list (Z * Z)) (hs : list (list Z)) k b :
  usable (lk_vcolor k) -> usable (lk_ecolor k) -> usable (lk_fill k) -> usable (bk_ucolor b) -> usable (bk_vcolor b) -> usable (bk_ecolor b) ->
  (~ sizes_fit k n (length es) -> draw_graph hull argsort rnd js n es k = Err AssertionError /\ draw_digraph rnd js n es k = Err AssertionError) /\
  (~ bsizes_fit b n m (length es) -> draw_bigraph rnd rnd' js n m es b = Err AssertionError) /\
  (~ sizes_fit k n (length hs) -> draw_hypergraph hull argsort rnd js n hs k = Err AssertionError).
Proof.
  intros U1 U2 U3 U4 U5 U6. split; [|split].
  - intros F. destruct (@fill_color_ok _ "r" (Z.to_nat n) U1) as (vc & E1 & _). destruct (@fill_color_ok _ "gray" (length es) U2) as (ec & E2 & _).
    destruct (@fill_color_ok _ "whitesmoke" (length es) U3) as (fc & E3 & _).
    unfold draw_graph, draw_digraph. rewrite E1, E2, E3. cbn [rbind]. rewrite (@default_size_bad n (length es)) by exact F. cbn [rbind].
    split; repeat (match goal with |- (if ?x then _ else _) = _ => destruct x; [reflexivity|] end); reflexivity.
  - intros F. destruct (@fill_color_ok _ "m" (Z.to_nat n) U4) as (uc & E1 & _). destruct (@fill_color_ok _ "r" (Z.to_nat m) U5) as (vc & E2 & _).
    destruct (@fill_color_ok _ "gray" (length es) U6) as (ec & E3 & _).
    unfold draw_bigraph. rewrite E1, E2, E3. cbn [rbind].
    replace (default_bipartite_size n m (length es) b) with (@Err (list R * list R * list R * list R * list R * R * R) AssertionError).
    + cbn [rbind]. repeat (match goal with |- (if ?x then _ else _) = _ => destruct x; [reflexivity|] end); reflexivity.
    + symmetry. unfold default_bipartite_size. cbv zeta.
      repeat match goal with |- rbind (fill_sizes ?s ?d ?l) _ = _ =>
        let A := fresh "A" in destruct (fill_sizes_cases s d l) as [A| ->]; [|reflexivity];
        let E := fresh "E" in destruct (@fill_sizes_ok s d l A) as (? & E & _); rewrite E; clear E; cbn [rbind] end.
      exfalso. apply F. unfold bsizes_fit. repeat (split; [assumption|]). assumption.
  - intros F. destruct (@fill_color_ok _ "r" (Z.to_nat n) U1) as (vc & E1 & _). destruct (@fill_color_ok _ "gray" (length hs) U2) as (ec & E2 & _).
    destruct (@fill_color_ok _ "whitesmoke" (length hs) U3) as (fc & E3 & _).
    unfold draw_hypergraph. rewrite E1, E2, E3. cbn [rbind]. rewrite (@default_size_bad n (length hs)) by exact F. cbn [rbind].
    repeat (match goal with |- (if ?x then _ else _) = _ => destruct x; [reflexivity|] end); reflexivity.
Qed.
(** an empty list of colours is an IndexError, a value of another type a ValueError *)
Definition refuses (c : colours) (e : exn) : Prop := c = KList [] /\ e = IndexError \/ c = KOther /\ e = ValueError.
Lemma refuses_fill c e d n : refuses c e -> fill_color c d n = Err e.
Proof. intros [[-> ->]|[-> ->]]; reflexivity. Qed.
Theorem C158_colours hull argsort rnd rnd' js n m (es : list (Z * Z)) (hs : list (list Z)) k b e : es <> [] -> hs <> [] ->
  let V := refuses (lk_vcolor k) e in let E := usable (lk_vcolor k) /\ refuses (lk_ecolor k) e in
  let F := usable (lk_vcolor k) /\ usable (lk_ecolor k) /\ refuses (lk_fill k) e in
  (lk_style k = "line" \/ lk_style k = "circle" -> V \/ E \/ F -> draw_graph hull argsort rnd js n es k = Err e) /\
  (lk_style k = "line" -> V \/ E -> draw_digraph rnd js n es k = Err e) /\
  (lk_style k = "circle" -> V \/ E \/ F -> draw_hypergraph hull argsort rnd js n hs k = Err e) /\
  (bk_style b = "line" -> refuses (bk_ucolor b) e \/ usable (bk_ucolor b) /\ refuses (bk_vcolor b) e \/
                          usable (bk_ucolor b) /\ usable (bk_vcolor b) /\ refuses (bk_ecolor b) e -> draw_bigraph rnd rnd' js n m es b = Err e).
Proof.
  intros N1 N2 V E F.
  assert (ONE : forall c d l, usable c -> exists x, fill_color c d l = Ok x) by (intros c d l U; destruct (fill_color_ok d l U) as (x & X & _); eauto).
  split; [|split; [|split]].
  - intros S H. unfold draw_graph. replace (one_of (lk_style k) ["line"; "circle"]) with true by (destruct S as [-> | ->]; reflexivity).
    rewrite (not_empty N1). cbn [negb]. destruct H as [H|[[U H]|(U & U' & H)]].
    + rewrite (refuses_fill _ _ H). reflexivity.
    + destruct (ONE _ "r" (Z.to_nat n) U) as (x & ->). cbn [rbind]. rewrite (refuses_fill _ _ H). reflexivity.
    + destruct (ONE _ "r" (Z.to_nat n) U) as (x & ->). destruct (ONE _ "gray" (length es) U') as (y & ->). cbn [rbind]. rewrite (refuses_fill _ _ H). reflexivity.
  - intros S H. unfold draw_digraph. rewrite S, (not_empty N1). cbn [negb one_of existsb String.eqb Ascii.eqb Bool.eqb orb]. destruct H as [H|[U H]].
    + rewrite (refuses_fill _ _ H). reflexivity.
    + destruct (ONE _ "r" (Z.to_nat n) U) as (x & ->). cbn [rbind]. rewrite (refuses_fill _ _ H). reflexivity.
  - intros S H. unfold draw_hypergraph. rewrite S, (not_empty N2). cbn [negb one_of existsb String.eqb Ascii.eqb Bool.eqb orb]. destruct H as [H|[[U H]|(U & U' & H)]].
    + rewrite (refuses_fill _ _ H). reflexivity.
    + destruct (ONE _ "r" (Z.to_nat n) U) as (x & ->). cbn [rbind]. rewrite (refuses_fill _ _ H). reflexivity.
    + destruct (ONE _ "r" (Z.to_nat n) U) as (x & ->). destruct (ONE _ "gray" (length hs) U') as (y & ->). cbn [rbind]. rewrite (refuses_fill _ _ H). reflexivity.
  - intros S H. unfold draw_bigraph. rewrite S, (not_empty N1). cbn [negb one_of existsb String.eqb Ascii.eqb Bool.eqb orb]. destruct H as [H|[[U H]|(U & U' & H)]].
    + rewrite (refuses_fill _ _ H). reflexivity.
    + destruct (ONE _ "m" (Z.to_nat n) U) as (x & ->). cbn [rbind]. rewrite (refuses_fill _ _ H). reflexivity.
    + destruct (ONE _ "m" (Z.to_nat n) U) as (x & ->). destruct (ONE _ "r" (Z.to_nat m) U') as (y & ->). cbn [rbind]. rewrite (refuses_fill _ _ H). reflexivity.
Qed.

(** * C159: what is drawn *)
Lemma nth_error_combine {A B} (l : list A) : forall (m : list B) i a b, nth_error (combine l m) i = Some (a, b) <-> nth_error l i = Some a /\ nth_error m i = Some b.
Proof.
  induction l as [|x l IH]; intros m i a b.
  - cbn [combine]. destruct i; cbn; split; [discriminate|intros [E _]; discriminate E|discriminate|intros [E _]; discriminate E].
  - destruct m as [|y m]; cbn [combine].
    + destruct i; cbn; split; [discriminate|intros [_ E]; discriminate E|discriminate|intros [_ E]; discriminate E].
    + destruct i; cbn [nth_error]; [|apply IH]. split.
      * intros E. injection E as -> ->. auto.
      * intros [E F]. injection E as ->. injection F as ->. reflexivity.
Qed.
Definition nowhere : fpt := (NaN, NaN).
Lemma circles_ok coor labels size lw N : length coor = N -> length size = N -> length lw = N -> (forall l, labels = Some l -> (N <= length l)%nat) ->
  exists c t, draw_circles coor labels size lw = (c, t) /\ length c = N /\
  (forall i, (i < N)%nat -> nth_error c i = Some (nth i coor nowhere, nth i size 0)) /\
  forall p s, In (p, s) t <-> s <> "" /\ exists i ls, (i < N)%nat /\ labels = Some ls /\ nth_error ls i = Some s /\
    p = (fst (nth i coor nowhere), fadd (snd (nth i coor nowhere)) (Fin (- (13 / 10) * nth i size 0))).
Proof.
  intros L1 L2 L3 L4. unfold draw_circles, draw_vertex. cbv zeta.
  set (lab := match labels with Some l => l | None => map (fun _ => "") coor end).
  assert (LL : (N <= length lab)%nat) by (unfold lab; destruct labels as [l|]; [auto|rewrite map_length; lia]).
  set (z := combine (combine (combine coor lab) size) lw).
  assert (LZ : length z = N) by (unfold z; rewrite !combine_length; lia).
  assert (NZ : forall i, (i < N)%nat -> exists l w, nth_error z i = Some (nth i coor nowhere, l, nth i size 0, w) /\ nth_error lab i = Some l).
  { intros i L. destruct (nth_error lab i) as [l|] eqn:El; [|apply nth_error_None in El; lia].
    exists l, (nth i lw 0). split; [|reflexivity]. unfold z. apply nth_error_combine. split; [|apply nth_error_nth'; lia].
    apply nth_error_combine. split; [|apply nth_error_nth'; lia]. apply nth_error_combine. split; [apply nth_error_nth'; lia|exact El]. }
  eexists _, _. split; [reflexivity|]. split; [rewrite !map_length; exact LZ|]. split.
  - intros i L. destruct (NZ i L) as (l & w & E & _). rewrite !nth_error_map, E. reflexivity.
  - intros p s. rewrite in_flat_map. split.
    + intros ([[[c l] r] w] & I & J). destruct (String.eqb_spec l "") as [->|NE]; [destruct J|]. destruct J as [J|[]].
      injection J as <- <-. split; [exact NE|]. apply In_nth_error in I as (i & E0). assert (E : nth_error z i = Some (c, l, r, w)) by exact E0. clear E0.
      assert (L : (i < N)%nat) by (rewrite <- LZ; apply nth_error_Some; intros X; rewrite X in E; discriminate E).
      destruct (NZ i L) as (l' & w' & E' & El). rewrite E in E'. injection E' as -> -> -> ->.
      unfold lab in El. destruct labels as [ls|].
      * exists i, ls. split; [exact L|]. split; [reflexivity|]. split; [exact El|reflexivity].
      * exfalso. apply NE. rewrite nth_error_map in El. destruct (nth_error coor i); cbn in El; congruence.
    + intros (NE & i & ls & L & E & El & ->). destruct (NZ i L) as (l & w & Ez & El'). exists (nth i coor nowhere, l, nth i size 0, w).
      split; [eapply nth_error_In; exact Ez|]. unfold lab in El'. rewrite E in El'. rewrite El in El'. injection El' as <-.
      apply String.eqb_neq in NE. rewrite NE. left. reflexivity.
Qed.

(** the segment from [s] over [d] runs straight from the rim of one circle to the rim of the other; it is missing if they
    have the same centre *)
Definition connects (pa pb : R * R) (ra rb : R) (arrow : option ((R * R) * (R * R))) : Prop :=
  match arrow with
  | None => pa = pb
  | Some (s, d) => let t := (fst s + fst d, snd s + snd d) in
      norm (vec pa s) = ra /\ norm (vec t pb) = rb /\
      exists u, dot u u = 1 /\ vec pa pb = (norm (vec pa pb) * fst u, norm (vec pa pb) * snd u) /\
        vec pa s = (ra * fst u, ra * snd u) /\ vec t pb = (rb * fst u, rb * snd u) /\
        (ra + rb <= norm (vec pa pb) -> exists q, 0 <= q /\ d = (q * fst u, q * snd u))
  end.
Lemma line_edges_ok n coor sz es arrow ec elw : length sz = Z.to_nat n -> (forall x, In x sz -> 0 <= x) -> length elw = length es -> (length es <= length ec)%nat ->
  (forall a b, In (a, b) es -> (0 <= a < n)%Z /\ (0 <= b < n)%Z) ->
  exists ls, draw_line_edge n coor sz es arrow ec elw = Ok ls /\ length ls = length es /\
  forall i a b, nth_error es i = Some (a, b) -> exists c l, nth_error ec i = Some c /\ nth_error ls i = Some l /\
    li_color l = c /\ li_width l = nth i elw 0 /\ li_head l = (if arrow then 15 / 1000 * nth i elw 0 else 0) /\
    forall pa pb, coor a = lift_pt pa -> coor b = lift_pt pb -> connects pa pb (nth (Z.to_nat a) sz 0) (nth (Z.to_nat b) sz 0) (li_arrow l).
Proof.
  intros LS SP LW LC B. unfold draw_line_edge.
  set (A := fun e : Z * Z => match fin_pt (coor (row_of n (fst e))), fin_pt (coor (row_of n (snd e))) with
             | Some _, Some _ => line_edge n (pos_of coor) (size_of sz) (fst e) (snd e) | _, _ => None end).
  rewrite map_res_fn with (g := fun ie : nat * (Z * Z) => mkLine (A (snd ie)) (if arrow then 15 / 1000 * nth (fst ie) elw 0 else 0) (nth (fst ie) ec (CName "")) (nth (fst ie) elw 0)).
  - eexists. split; [reflexivity|]. split; [rewrite map_length, combine_length, seq_length; lia|]. intros i a b E.
    assert (L : (i < length es)%nat) by (apply nth_error_Some; congruence).
    assert (Ei : nth_error (combine (seq 0 (length es)) es) i = Some (i, (a, b))).
    { apply nth_error_combine. split; [|exact E]. rewrite nth_error_nth' with (d := 0%nat) by (rewrite seq_length; exact L). rewrite seq_nth by exact L. reflexivity. }
    exists (nth i ec (CName "")). eexists. split; [apply nth_error_nth'; lia|]. rewrite nth_error_map, Ei. split; [reflexivity|].
    cbn [li_color li_width li_head li_arrow fst snd]. repeat (split; [reflexivity|]).
    intros pa pb Ca Cb. apply nth_error_In in E. destruct (B a b E) as [Ba Bb]. unfold A. cbn [fst snd].
    replace (row_of n a) with a by (unfold row_of; destruct (Z.ltb_spec a 0); lia).
    replace (row_of n b) with b by (unfold row_of; destruct (Z.ltb_spec b 0); lia).
    assert (FP : forall q, fin_pt (lift_pt q) = Some q) by (intros [u v]; reflexivity).
    rewrite Ca, Cb, !FP.
    assert (NN : forall v, 0 <= size_of sz v).
    { intros v. unfold size_of. destruct (nth_in_or_default (Z.to_nat v) sz 0) as [I|E0]; [auto|]. rewrite E0. lra. }
    pose proof (@C132_line_edge n (pos_of coor) (size_of sz) a b Ba Bb (NN a) (NN b)) as LE.
    assert (Pa : pos_of coor a = pa) by (unfold pos_of; rewrite Ca, FP; reflexivity).
    assert (Pb : pos_of coor b = pb) by (unfold pos_of; rewrite Cb, FP; reflexivity).
    rewrite Pa, Pb in LE. fold (size_of sz a). fold (size_of sz b). unfold connects.
    destruct (line_edge n (pos_of coor) (size_of sz) a b) as [[s d]|]; [|exact LE]. cbv zeta in LE |- *.
    destruct LE as (u & H1 & H2 & H3 & H4 & H5 & H6 & H7). split; [exact H5|]. split; [exact H6|]. exists u. repeat (split; [assumption|]). exact H7.
  - intros [i e] I. apply in_combine_l in I. apply in_seq in I. unfold at_index. cbn [fst snd].
    rewrite nth_error_nth' with (d := 0) by lia. rewrite nth_error_nth' with (d := CName "") by lia. cbn [rbind]. reflexivity.
Qed.
Lemma line_edges_short n coor sz es arrow ec elw : length elw = length es -> (length ec < length es)%nat ->
  draw_line_edge n coor sz es arrow ec elw = Err IndexError.
Proof.
  intros LW LC. unfold draw_line_edge.
  match goal with |- map_res ?f ?l = _ => assert (X : exists y, map_res f l = Err y /\ exists b, In b l /\ f b = Err y) end.
  - destruct (nth_error es (length ec)) as [e|] eqn:E; [|apply nth_error_None in E; lia].
    apply map_res_err with (a := (length ec, e)) (x := IndexError).
    + apply nth_error_In with (n := length ec). apply nth_error_combine. split; [|exact E].
      rewrite nth_error_nth' with (d := 0%nat) by (rewrite seq_length; exact LC). rewrite seq_nth by exact LC. reflexivity.
    + unfold at_index. rewrite nth_error_nth' with (d := 0) by lia. cbn [rbind]. replace (nth_error ec (length ec)) with (@None colour); [reflexivity|].
      symmetry. apply nth_error_None. lia.
  - destruct X as (y & -> & [i e] & I & F). f_equal. unfold at_index in F. destruct (nth_error elw i); cbn [rbind] in F; [|congruence].
    destruct (nth_error ec i); cbn [rbind] in F; congruence.
Qed.

(** the vertices: circles with centre, radius and colour; every label that is not empty is written 1.3 radii below its vertex *)
Definition shows_vertices (N : nat) (coor : nat -> fpt) (rad : nat -> R) (col : nat -> option colour) (lab : option (list string)) (d : drawing) : Prop :=
  length (dr_circles d) = N /\
  (forall i, (i < N)%nat -> nth_error (dr_circles d) i = Some (coor i, rad i) /\ nth_error (dr_faces d) i = col i) /\
  forall p s, In (p, s) (dr_labels d) <-> s <> "" /\ exists i ls, (i < N)%nat /\ lab = Some ls /\ nth_error ls i = Some s /\
    p = (fst (coor i), fadd (snd (coor i)) (Fin (- (13 / 10) * rad i))).
(** the edges: straight lines between the rims of their ends, each with its colour, its line width and its arrow head *)
Definition shows_lines (es : list (Z * Z)) (coor : Z -> fpt) (rad : nat -> R) (col : nat -> option colour) (wid : nat -> R) (head : R) (d : drawing) : Prop :=
  length (dr_lines d) = length es /\ dr_shapes d = [] /\
  forall i a b, nth_error es i = Some (a, b) -> exists l, nth_error (dr_lines d) i = Some l /\
    col i = Some (li_color l) /\ li_width l = wid i /\ li_head l = head * wid i /\
    forall pa pb, coor a = lift_pt pa -> coor b = lift_pt pb -> connects pa pb (rad (Z.to_nat a)) (rad (Z.to_nat b)) (li_arrow l).

(** radius and line width: the scale factor of the caller times the default *)
Definition radius (n : Z) (k : look) (i : nat) : R := scale_of (lk_size k) i / (10 * sqrt (IZR n + 10)).
Definition width (m : nat) (k : look) (i : nat) : R := exp (- INR m / 120) * scale_of (lk_elw k) i.
(** settings under which everything can be drawn *)
Definition fine (n : Z) (m : nat) (k : look) : Prop :=
  usable (lk_vcolor k) /\ usable (lk_ecolor k) /\ usable (lk_fill k) /\ sizes_fit k n m /\
  (forall i, (i < Z.to_nat n)%nat -> 0 <= scale_of (lk_size k) i) /\ (forall ls, lk_label k = Some ls -> (Z.to_nat n <= length ls)%nat).
Definition graph_layout (n : Z) (es : list (Z * Z)) (k : look) rnd js : res (Z -> fpt) :=
  force_layout n (map (fun e => [fst e; snd e]) es) (match lk_push_v k with Some x => x * (6 / 1000) | None => 6 / 1000 end) None
    (match lk_pull_e k with Some x => x * (45 / 1000) | None => 45 / 1000 end)
    (match lk_pull_c k with Some x => x * (1 / 100) | None => 1 / 100 end) rnd js.
Lemma graph_layout_eq n es k rnd js : graph_layout n es k rnd js =
  force_layout n (map pair_of es) (fill_strength (lk_push_v k) (6 / 1000)) None (fill_strength (lk_pull_e k) (45 / 1000)) (fill_strength (lk_pull_c k) (1 / 100)) rnd js.
Proof. reflexivity. Qed.

Lemma radius_pos n k i : (0 <= n)%Z -> (forall i, (i < Z.to_nat n)%nat -> 0 <= scale_of (lk_size k) i) -> (i < Z.to_nat n)%nat -> 0 <= radius n k i.
Proof.
  intros Hn H L. unfold radius. assert (0 < sqrt (IZR n + 10)) by (apply sqrt_lt_R0; assert (0 <= IZR n) by (apply IZR_le; lia); lra).
  apply Rmult_le_pos; [apply H; exact L|]. left. apply Rinv_0_lt_compat. lra.
Qed.
Lemma nth_range_map (A : Type) (f : Z -> A) n i d : (i < Z.to_nat n)%nat -> nth i (map f (range n)) d = f (Z.of_nat i).
Proof.
  intros L. unfold range. rewrite map_map. rewrite nth_indep with (d' := f (Z.of_nat 0)) by (rewrite map_length, seq_length; exact L).
  rewrite (map_nth (fun x => f (Z.of_nat x))), seq_nth by exact L. reflexivity.
Qed.
(** what all the drawing functions have in common *)
Lemma common_parts n m k : (0 <= n)%Z -> fine n m k -> exists vc ec fc sz lw elw,
  fill_color (lk_vcolor k) "r" (Z.to_nat n) = Ok vc /\ fill_color (lk_ecolor k) "gray" m = Ok ec /\ fill_color (lk_fill k) "whitesmoke" m = Ok fc /\
  default_size n m (lk_size k) (lk_lw k) (lk_elw k) (Some 1) = Ok (sz, lw, elw, 1 * (20 * exp (- IZR n / 100))) /\
  length sz = Z.to_nat n /\ length elw = m /\ (forall x, In x sz -> 0 <= x) /\
  (forall i, (i < Z.to_nat n)%nat -> nth i sz 0 = radius n k i) /\ (forall i, (i < m)%nat -> nth i elw 0 = width m k i) /\
  (forall i, (i < Z.to_nat n)%nat -> nth_error vc i = colour_of (lk_vcolor k) "r" i) /\
  (forall i, (i < m)%nat -> nth_error ec i = colour_of (lk_ecolor k) "gray" i) /\ (forall i, (i < m)%nat -> nth_error fc i = colour_of (lk_fill k) "whitesmoke" i) /\
  (enough (lk_ecolor k) m -> (m <= length ec)%nat) /\ (enough (lk_fill k) m -> (m <= length fc)%nat) /\
  forall coor, exists cs ls, draw_circles (map coor (range n)) (lk_label k) sz lw = (cs, ls) /\
    forall es shs f, shows_vertices (Z.to_nat n) (fun i => coor (Z.of_nat i)) (radius n k) (colour_of (lk_vcolor k) "r") (lk_label k) (mkDrawing cs vc es shs ls f).
Proof.
  intros Hn (U1 & U2 & U3 & (F1 & F2 & F3) & SP & LB).
  destruct (@fill_color_ok _ "r" (Z.to_nat n) U1) as (vc & E1 & C1 & _). destruct (@fill_color_ok _ "gray" m U2) as (ec & E2 & C2 & N2).
  destruct (@fill_color_ok _ "whitesmoke" m U3) as (fc & E3 & C3 & N3).
  destruct (@default_size_ok n m _ _ _ 1 F1 F2 F3) as (sz & lw & elw & E4 & L1 & L2 & L3 & V1 & V3).
  exists vc, ec, fc, sz, lw, elw. repeat (split; [assumption|]).
  split. { intros x I. destruct (In_nth _ _ 0 I) as (i & L & <-). rewrite V1 by lia. apply radius_pos; auto. lia. }
  split; [exact V1|]. repeat (split; [assumption|]).
  intros coor. destruct (@circles_ok (map coor (range n)) (lk_label k) sz lw (Z.to_nat n)) as (cs & ls & E & LC & NC & LL); auto.
  { unfold range. rewrite !map_length, seq_length. reflexivity. }
  exists cs, ls. split; [exact E|]. intros es shs f. split; [exact LC|]. cbn [dr_circles dr_faces dr_labels]. split.
  - intros i L. split; [|apply C1; exact L]. rewrite NC by exact L. rewrite nth_range_map, V1 by exact L. reflexivity.
  - intros p s. rewrite LL. split; intros (NE & i & l & L & H1 & H2 & H3); (split; [exact NE|]); exists i, l; (split; [exact L|]); (split; [exact H1|]); (split; [exact H2|]).
    + rewrite H3, nth_range_map, V1 by exact L. reflexivity.
    + rewrite H3, nth_range_map, V1 by exact L. reflexivity.
Qed.

(** draw_graph and draw_digraph with straight lines; digraphs get arrow heads *)
Theorem C159_lines hull argsort rnd js n es k coor : (0 <= n)%Z -> es <> [] -> (forall a b, In (a, b) es -> (0 <= a < n)%Z /\ (0 <= b < n)%Z) ->
  lk_style k = "line" -> fine n (length es) k -> enough (lk_ecolor k) (length es) -> graph_layout n es k rnd js = Ok coor ->
  exists d d', draw_graph hull argsort rnd js n es k = Ok d /\ draw_digraph rnd js n es k = Ok d' /\
    shows_vertices (Z.to_nat n) (fun i => coor (Z.of_nat i)) (radius n k) (colour_of (lk_vcolor k) "r") (lk_label k) d /\
    shows_vertices (Z.to_nat n) (fun i => coor (Z.of_nat i)) (radius n k) (colour_of (lk_vcolor k) "r") (lk_label k) d' /\
    shows_lines es coor (radius n k) (colour_of (lk_ecolor k) "gray") (width (length es) k) 0 d /\
    shows_lines es coor (radius n k) (colour_of (lk_ecolor k) "gray") (width (length es) k) (15 / 1000) d'.
Proof.
  intros Hn NE B S F EN LY. rewrite graph_layout_eq in LY.
  destruct (common_parts Hn F) as (vc & ec & fc & sz & lw & elw & E1 & E2 & E3 & E4 & L1 & L2 & SP & V1 & V2 & C1 & C2 & C3 & N2 & _ & CI).
  destruct (CI coor) as (cs & ls & E5 & SV).
  unfold draw_graph, draw_digraph. rewrite S, (not_empty NE). cbn [negb one_of existsb String.eqb Ascii.eqb Bool.eqb orb].
  rewrite E1, E2, E3. cbn [rbind]. rewrite E4. cbn [rbind]. rewrite LY. cbn [rbind]. rewrite E5.
  destruct (@line_edges_ok n coor sz es false ec elw) as (l1 & -> & A1 & A2); auto.
  destruct (@line_edges_ok n coor sz es true ec elw) as (l2 & -> & B1 & B2); auto.
  cbn [rbind]. eexists _, _. split; [reflexivity|]. split; [reflexivity|]. split; [apply SV|]. split; [apply SV|].
  split; (split; [assumption|]); (split; [reflexivity|]); intros i a b E; assert (L : (i < length es)%nat) by (apply nth_error_Some; congruence);
    assert (I : In (a, b) es) by (eapply nth_error_In; exact E); destruct (B a b I) as [Ba Bb]; cbn [dr_lines].
  - destruct (A2 i a b E) as (c & l & H1 & H2 & H3 & H4 & H5 & H6). exists l. split; [exact H2|]. rewrite <- C2, H1, H3 by exact L. split; [reflexivity|].
    rewrite H4, H5, V2 by exact L. split; [reflexivity|]. split; [ring|]. intros pa pb Ca Cb. rewrite <- !V1 by lia. apply H6; assumption.
  - destruct (B2 i a b E) as (c & l & H1 & H2 & H3 & H4 & H5 & H6). exists l. split; [exact H2|]. rewrite <- C2, H1, H3 by exact L. split; [reflexivity|].
    rewrite H4, H5, V2 by exact L. split; [reflexivity|]. split; [reflexivity|]. intros pa pb Ca Cb. rewrite <- !V1 by lia. apply H6; assumption.
Qed.
(** a list with fewer colours than edges is an IndexError, after the layout has been computed *)
Theorem C159_short hull argsort rnd js n es k coor l : (0 <= n)%Z -> es <> [] -> lk_style k = "line" -> fine n (length es) k ->
  lk_ecolor k = KList l -> (length l < length es)%nat -> graph_layout n es k rnd js = Ok coor ->
  draw_graph hull argsort rnd js n es k = Err IndexError /\ draw_digraph rnd js n es k = Err IndexError.
Proof.
  intros Hn NE S F EL LT LY. rewrite graph_layout_eq in LY.
  destruct (common_parts Hn F) as (vc & ec & fc & sz & lw & elw & E1 & E2 & E3 & E4 & L1 & L2 & SP & V1 & V2 & C1 & C2 & C3 & N2 & _ & CI).
  destruct (CI coor) as (cs & ls & E5 & SV).
  assert (EC : ec = l). { rewrite EL in E2. destruct F as (_ & (_ & U) & _). rewrite EL in U. destruct l; [congruence|]. cbn in E2. congruence. }
  unfold draw_graph, draw_digraph. rewrite S, (not_empty NE). cbn [negb one_of existsb String.eqb Ascii.eqb Bool.eqb orb].
  rewrite E1, E2, E3. cbn [rbind]. rewrite E4. cbn [rbind]. rewrite LY. cbn [rbind]. rewrite E5.
  rewrite !line_edges_short by (rewrite ?EC; auto). split; reflexivity.
Qed.

(** * C160: hyperedges as outlines *)
(** edge i has an outline of its own (see C131) with its colours and its line width *)
Definition shows_shapes (hs : list (list Z)) (order : list nat) (pos : Z -> R * R) (rad : nat -> R) (col fill : nat -> option colour) (wid : nat -> R) (d : drawing) : Prop :=
  length (dr_shapes d) = length hs /\ dr_lines d = [] /\
  exists size, (forall v, 0 <= size v) /\ (forall e v, In e hs -> In v e -> size v = rad (Z.to_nat v)) /\
  forall j i, nth_error order j = Some i -> exists s, nth_error (dr_shapes d) i = Some s /\
    col i = Some (sh_color s) /\ fill i = Some (sh_fill s) /\ sh_width s = wid i /\
    goes_around pos (outline_radius hs order size j) (nth i hs []) (sh_outline s).
Definition hyper_layout (n : Z) (hs : list (list Z)) (k : look) rnd js : res (Z -> fpt) :=
  force_layout n hs (match lk_push_v k with Some x => x * (6 / 1000) | None => 6 / 1000 end)
    (Some (match lk_push_e k with Some x => x * (8 / 1000) | None => 8 / 1000 end))
    (match lk_pull_e k with Some x => x * (7 / 1000) | None => 7 / 1000 end)
    (match lk_pull_c k with Some x => x * (1 / 1000) | None => 1 / 1000 end) rnd js.
Lemma hyper_layout_eq n hs k rnd js : hyper_layout n hs k rnd js =
  force_layout n hs (fill_strength (lk_push_v k) (6 / 1000)) (Some (fill_strength (lk_push_e k) (8 / 1000)))
    (fill_strength (lk_pull_e k) (7 / 1000)) (fill_strength (lk_pull_c k) (1 / 1000)) rnd js.
Proof. reflexivity. Qed.

Lemma find_order (A : Type) (out : list (nat * A)) j i o : NoDup (map fst out) -> nth_error out j = Some (i, o) -> find (fun x => Nat.eqb (fst x) i) out = Some (i, o).
Proof.
  revert j. induction out as [|[i' o'] out IH]; intros j ND E; [destruct j; discriminate|]. cbn [map fst] in ND. inversion ND as [|x l NI ND' Eq]. subst.
  cbn [find fst]. destruct j as [|j]; cbn [nth_error] in E.
  - injection E as -> ->. rewrite Nat.eqb_refl. reflexivity.
  - destruct (Nat.eqb_spec i' i) as [->|N]; [|eapply IH; eauto]. exfalso. apply NI. apply in_map_iff. exists (i, o). split; [reflexivity|]. eapply nth_error_In; exact E.
Qed.
(** sorts the edges by size *)
Definition sorts_sizes (argsort : list nat -> list nat) (l : list nat) : Prop :=
  Permutation (argsort l) (seq 0 (length l)) /\ forall a b, (a < b < length l)%nat -> (nth (nth a (argsort l) 0%nat) l 0 <= nth (nth b (argsort l) 0%nat) l 0)%nat.
Definition hull_indices (hull : list (R * R) -> res (list nat)) : Prop := forall l ix, hull l = Ok ix -> forall i, In i ix -> (i < length l)%nat.

Lemma circle_edges_cases hull argsort n coor sz hs ec fc elw : hull_indices hull -> sorts_sizes argsort (map (@length Z) hs) -> vertices_in n hs ->
  length sz = Z.to_nat n -> (forall x, In x sz -> 0 <= x) -> length elw = length hs ->
  forall shs, draw_circle_edge hull argsort n coor sz hs ec fc elw = Ok shs ->
  (forall v, (0 <= v < n)%Z -> exists p, coor v = lift_pt p /\ pos_of coor v = p) /\
  length shs = length hs /\ forall j i, nth_error (argsort (map (@length Z) hs)) j = Some i -> exists s, nth_error shs i = Some s /\
    nth_error ec i = Some (sh_color s) /\ nth_error fc i = Some (sh_fill s) /\ sh_width s = nth i elw 0 /\
    goes_around (pos_of coor) (outline_radius hs (argsort (map (@length Z) hs)) (size_of sz) j) (nth i hs []) (sh_outline s).
Proof.
  intros HI [PM _] V LS SP LW shs D. unfold draw_circle_edge in D.
  destruct (forallb (fun v => match fin_pt (coor v) with Some _ => true | None => false end) (range n)) eqn:FA; [|discriminate D]. cbn [negb] in D.
  split.
  { intros v Bv. rewrite forallb_forall in FA. specialize (FA v ltac:(apply (in_vs n); exact Bv)).
    unfold pos_of. unfold fin_pt in *. destruct (coor v) as [[x| | |] [y| | |]]; cbn in *; try discriminate FA. exists (x, y). split; reflexivity. }
  set (order := argsort (map (@length Z) hs)) in *.
  destruct (hull_layout hull n (pos_of coor) hs (size_of sz) order) as [out|] eqn:HL; [|discriminate D]. cbn [rbind] in D.
  assert (NN : forall v, 0 <= size_of sz v).
  { intros v. unfold size_of. destruct (nth_in_or_default (Z.to_nat v) sz 0) as [I|E0]; [auto|]. rewrite E0. lra. }
  destruct (@C131_outlines hull n (pos_of coor) hs (size_of sz) order out HI V NN HL) as [MO GO].
  rewrite map_length in PM.
  assert (ND : NoDup (map fst out)).
  { rewrite MO. eapply Permutation_NoDup; [apply Permutation_sym; exact PM|apply seq_NoDup]. }
  pose proof (map_res_inv _ _ D) as FI.
  assert (LEN : length shs = length hs) by (rewrite <- (Forall2_len FI), seq_length; reflexivity).
  split; [exact LEN|]. intros j i E.
  assert (Li : (i < length hs)%nat).
  { assert (In i (seq 0 (length hs))) as I by (eapply Permutation_in; [exact PM|eapply nth_error_In; exact E]). apply in_seq in I. lia. }
  assert (Eo : exists o, nth_error out j = Some (i, o)).
  { rewrite <- MO, nth_error_map in E. destruct (nth_error out j) as [[i' o]|]; [|discriminate E]. cbn in E. injection E as ->. eauto. }
  destruct Eo as (o & Eo).
  assert (NF : forall (l : list nat) (l' : list shape) f i x, Forall2 (fun a b => f a = Ok b) l l' -> nth_error l i = Some x -> exists y, nth_error l' i = Some y /\ f x = Ok y).
  { clear. intros l l' f i x F. revert i. induction F as [|a b l l' H F IH]; intros [|i] E; try discriminate.
    - injection E as <-. exists b. split; [reflexivity|exact H].
    - apply (IH i E). }
  destruct (NF _ _ _ i i FI) as (s & Es & Hs).
  { rewrite nth_error_nth' with (d := 0%nat) by (rewrite seq_length; exact Li). rewrite seq_nth by exact Li. reflexivity. }
  exists s. split; [exact Es|]. cbv beta in Hs.
  rewrite (@find_order _ out j i o ND Eo) in Hs. cbn [rbind snd] in Hs. unfold at_index in Hs.
  rewrite nth_error_nth' with (d := 0) (l := elw) in Hs by lia. cbn [rbind] in Hs.
  destruct (nth_error fc i) as [f|] eqn:Ef; [|discriminate Hs]. cbn [rbind] in Hs. destruct (nth_error ec i) as [c|] eqn:Ec; [|discriminate Hs]. cbn [rbind] in Hs.
  injection Hs as <-. cbn [sh_color sh_fill sh_width sh_outline]. repeat (split; [reflexivity|]). apply GO. exact Eo.
Qed.
Lemma shapes_ok hull argsort n hs k vc ec fc sz elw cs ls f coor : (0 <= n)%Z -> hull_indices hull -> sorts_sizes argsort (map (@length Z) hs) -> vertices_in n hs ->
  length sz = Z.to_nat n -> (forall x, In x sz -> 0 <= x) -> length elw = length hs ->
  (forall i, (i < Z.to_nat n)%nat -> nth i sz 0 = radius n k i) -> (forall i, (i < length hs)%nat -> nth i elw 0 = width (length hs) k i) ->
  (forall i, (i < length hs)%nat -> nth_error ec i = colour_of (lk_ecolor k) "gray" i) -> (forall i, (i < length hs)%nat -> nth_error fc i = colour_of (lk_fill k) "whitesmoke" i) ->
  forall d, rbind (draw_circle_edge hull argsort n coor sz hs ec fc elw) (fun es => Ok (mkDrawing cs vc [] es ls f)) = Ok d ->
  exists shs, d = mkDrawing cs vc [] shs ls f /\
    exists pos, (forall v, (0 <= v < n)%Z -> coor v = lift_pt (pos v)) /\
    shows_shapes hs (argsort (map (@length Z) hs)) pos (radius n k) (colour_of (lk_ecolor k) "gray") (colour_of (lk_fill k) "whitesmoke") (width (length hs) k) d.
Proof.
  intros Hn HI SO V L1 SP L2 V1 V2 C2 C3 d D.
  destruct (draw_circle_edge hull argsort n coor sz hs ec fc elw) as [shs|] eqn:E; [|discriminate D]. cbn [rbind] in D. injection D as <-.
  destruct (@circle_edges_cases _ _ _ _ _ _ _ _ _ HI SO V L1 SP L2 _ E) as (FP & LS & SH). exists shs. split; [reflexivity|].
  exists (pos_of coor). split; [intros v Bv; destruct (FP v Bv) as (p & -> & ->); reflexivity|].
  split; [exact LS|]. split; [reflexivity|]. exists (size_of sz). split.
  { intros v. unfold size_of. destruct (nth_in_or_default (Z.to_nat v) sz 0) as [I|E0]; [auto|]. rewrite E0. lra. }
  split. { intros e v Ie Iv. unfold size_of. apply V1. specialize (V e v Ie Iv). lia. }
  intros j i Ej. destruct (SH j i Ej) as (s & Es & H1 & H2 & H3 & H4). exists s. split; [exact Es|].
  assert (Li : (i < length hs)%nat) by (rewrite <- LS; apply nth_error_Some; cbn [dr_shapes] in Es; congruence).
  rewrite <- C2, <- C3, H3, V2 by exact Li. repeat (split; [assumption || reflexivity|]). exact H4.
Qed.
(** draw_hypergraph, and draw_graph with e_style='circle' *)
Theorem C160_hypergraph hull argsort rnd js n hs k coor d : (0 <= n)%Z -> hs <> [] -> vertices_in n hs -> hull_indices hull -> sorts_sizes argsort (map (@length Z) hs) ->
  lk_style k = "circle" -> fine n (length hs) k -> hyper_layout n hs k rnd js = Ok coor -> draw_hypergraph hull argsort rnd js n hs k = Ok d ->
  shows_vertices (Z.to_nat n) (fun i => coor (Z.of_nat i)) (radius n k) (colour_of (lk_vcolor k) "r") (lk_label k) d /\
  exists pos, (forall v, (0 <= v < n)%Z -> coor v = lift_pt (pos v)) /\
    shows_shapes hs (argsort (map (@length Z) hs)) pos (radius n k) (colour_of (lk_ecolor k) "gray") (colour_of (lk_fill k) "whitesmoke") (width (length hs) k) d.
Proof.
  intros Hn NE V HI SO S F LY D. rewrite hyper_layout_eq in LY.
  destruct (common_parts Hn F) as (vc & ec & fc & sz & lw & elw & E1 & E2 & E3 & E4 & L1 & L2 & SP & V1 & V2 & C1 & C2 & C3 & _ & _ & CI).
  destruct (CI coor) as (cs & ls & E5 & SV).
  unfold draw_hypergraph in D. rewrite S, (not_empty NE) in D. cbn [negb one_of existsb String.eqb Ascii.eqb Bool.eqb orb] in D.
  rewrite E1, E2, E3 in D. cbn [rbind] in D. rewrite E4 in D. cbn [rbind] in D. rewrite LY in D. cbn [rbind] in D. rewrite E5 in D.
  destruct (@shapes_ok _ _ n hs k vc ec fc sz elw cs ls _ coor Hn HI SO V L1 SP L2 V1 V2 C2 C3 d D) as (shs & Ed & P & Q). split; [|exists P; exact Q].
  rewrite Ed. apply SV.
Qed.
Theorem C160_graph hull argsort rnd js n es k coor d : (0 <= n)%Z -> es <> [] -> (forall a b, In (a, b) es -> (0 <= a < n)%Z /\ (0 <= b < n)%Z) ->
  hull_indices hull -> let hs := map (fun e => [fst e; snd e]) es in sorts_sizes argsort (map (@length Z) hs) ->
  lk_style k = "circle" -> fine n (length es) k -> graph_layout n es k rnd js = Ok coor -> draw_graph hull argsort rnd js n es k = Ok d ->
  shows_vertices (Z.to_nat n) (fun i => coor (Z.of_nat i)) (radius n k) (colour_of (lk_vcolor k) "r") (lk_label k) d /\
  exists pos, (forall v, (0 <= v < n)%Z -> coor v = lift_pt (pos v)) /\
    shows_shapes hs (argsort (map (@length Z) hs)) pos (radius n k) (colour_of (lk_ecolor k) "gray") (colour_of (lk_fill k) "whitesmoke") (width (length es) k) d.
Proof.
  intros Hn NE B HI hs SO S F LY D. rewrite graph_layout_eq in LY. change (map pair_of es) with hs in LY.
  assert (LH : length hs = length es) by (unfold hs; apply map_length). rewrite <- LH in F |- *.
  assert (V : vertices_in n hs).
  { intros e v Ie Iv. unfold hs in Ie. apply in_map_iff in Ie as ([a b] & <- & I). destruct (B a b I). cbn in Iv. destruct Iv as [<-|[<-|[]]]; assumption. }
  destruct (common_parts Hn F) as (vc & ec & fc & sz & lw & elw & E1 & E2 & E3 & E4 & L1 & L2 & SP & V1 & V2 & C1 & C2 & C3 & _ & _ & CI).
  destruct (CI coor) as (cs & ls & E5 & SV).
  unfold draw_graph in D. rewrite S, (not_empty NE) in D. cbn [negb one_of existsb String.eqb Ascii.eqb Bool.eqb orb] in D.
  rewrite <- LH, E1, E2, E3 in D. cbn [rbind] in D. rewrite E4 in D. cbn [rbind] in D. change (map pair_of es) with hs in D. rewrite LY in D. cbn [rbind] in D. rewrite E5 in D.
  destruct (@shapes_ok _ _ n hs k vc ec fc sz elw cs ls _ coor Hn HI SO V L1 SP L2 V1 V2 C2 C3 d D) as (shs & Ed & P & Q). split; [|exists P; exact Q].
  rewrite Ed. apply SV.
Qed.

(** * C161: bipartite graphs *)
(** vertex i of the drawing: those of U first, then those of V *)
Definition side {A : Type} (nu : nat) (f g : nat -> A) (i : nat) : A := if Nat.ltb i nu then f i else g (i - nu)%nat.
Definition bradius (n : Z) (s : scales) (i : nat) : R := 8 / 100 * scale_of s i / sqrt (IZR n + 12).
Definition bwidth (m : nat) (b : blook) (i : nat) : R := exp (- INR m / 50) * scale_of (bk_elw b) i.
Definition bi_layout nu nv (es : list (Z * Z)) (b : blook) rnd_u rnd_v js : res (Z -> fpt) :=
  let str o x := match o with Some y => y * x | None => x end in
  bipartite_force_layout nu nv (map (fun e => [fst e; snd e]) es) (str (bk_push_u b) (5 / 1000)) (str (bk_push_v b) (5 / 1000)) None
    (str (bk_pull_e b) (3 / 100)) (str (bk_pull_u b) (4 / 100)) (str (bk_pull_v b) (4 / 100)) rnd_u rnd_v js.
Definition bfine (nu nv : Z) (m : nat) (b : blook) : Prop :=
  usable (bk_ucolor b) /\ usable (bk_vcolor b) /\ usable (bk_ecolor b) /\ bsizes_fit b nu nv m /\
  (forall i, (i < Z.to_nat nu)%nat -> 0 <= scale_of (bk_usize b) i) /\ (forall i, (i < Z.to_nat nv)%nat -> 0 <= scale_of (bk_vsize b) i) /\
  (forall l, bk_ucolor b = KList l -> length l = Z.to_nat nu) /\
  (forall l, bk_ulabel b = Some l -> length l = Z.to_nat nu) /\ (forall l, bk_vlabel b = Some l -> (Z.to_nat nv <= length l)%nat).
Definition bfont (nu nv x y : Z) (o : option R) : R :=
  match o with Some s => s | None => 1 end * (12 * exp (- (Rpower (IZR x / IZR y) (3 / 10)) * (IZR nu + IZR nv) / 100)).

Lemma side_nth (A : Type) (l m : list A) d i : nth i (l ++ m) d = side (length l) (fun i => nth i l d) (fun i => nth i m d) i.
Proof.
  unfold side. destruct (Nat.ltb_spec i (length l)); [apply app_nth1; assumption|apply app_nth2; lia].
Qed.
Lemma bi_parts nu nv m b : (0 <= nu)%Z -> (0 <= nv)%Z -> bfine nu nv m b -> exists uc vc ec us ul vs vl elw,
  fill_color (bk_ucolor b) "m" (Z.to_nat nu) = Ok uc /\ fill_color (bk_vcolor b) "r" (Z.to_nat nv) = Ok vc /\ fill_color (bk_ecolor b) "gray" m = Ok ec /\
  default_bipartite_size nu nv m b = Ok (us, ul, vs, vl, elw, bfont nu nv nu nv (bk_ufont b), bfont nu nv nv nu (bk_vfont b)) /\
  length us = Z.to_nat nu /\ length vs = Z.to_nat nv /\ length ul = Z.to_nat nu /\ length vl = Z.to_nat nv /\ length elw = m /\
  (forall x, In x (us ++ vs) -> 0 <= x) /\
  (forall i, (i < Z.to_nat (nu + nv))%nat -> nth i (us ++ vs) 0 = side (Z.to_nat nu) (bradius nu (bk_usize b)) (bradius nv (bk_vsize b)) i) /\
  (forall i, (i < m)%nat -> nth i elw 0 = bwidth m b i) /\
  (forall i, (i < Z.to_nat (nu + nv))%nat -> nth_error (uc ++ vc) i = side (Z.to_nat nu) (colour_of (bk_ucolor b) "m") (colour_of (bk_vcolor b) "r") i) /\
  (forall i, (i < m)%nat -> nth_error ec i = colour_of (bk_ecolor b) "gray" i) /\ (enough (bk_ecolor b) m -> (m <= length ec)%nat).
Proof.
  intros Hu Hv (U1 & U2 & U3 & (F1 & F2 & F3 & F4 & F5) & S1 & S2 & CU & _ & _).
  destruct (@fill_color_ok _ "m" (Z.to_nat nu) U1) as (uc & E1 & C1 & N1). destruct (@fill_color_ok _ "r" (Z.to_nat nv) U2) as (vc & E2 & C2 & _).
  destruct (@fill_color_ok _ "gray" m U3) as (ec & E3 & C3 & N3).
  unfold default_bipartite_size. cbv zeta.
  destruct (@fill_sizes_ok _ (1 / sqrt (IZR nu + 12) * (8 / 100)) _ F1) as (us & -> & L1 & V1).
  destruct (@fill_sizes_ok _ (exp (- IZR nu / 50)) _ F2) as (ul & -> & L2 & V2).
  destruct (@fill_sizes_ok _ (1 / sqrt (IZR nv + 12) * (8 / 100)) _ F3) as (vs & -> & L3 & V3).
  destruct (@fill_sizes_ok _ (exp (- IZR nv / 50)) _ F4) as (vl & -> & L4 & V4).
  destruct (@fill_sizes_ok _ (exp (- INR m / 50)) _ F5) as (elw & -> & L5 & V5).
  cbn [rbind]. exists uc, vc, ec, us, ul, vs, vl, elw. do 3 (split; [assumption|]).
  split. { unfold bfont, fill_strength. destruct (bk_ufont b), (bk_vfont b); rewrite ?Rmult_1_l; reflexivity. }
  do 5 (split; [assumption|]).
  assert (SQ : forall x, (0 <= x)%Z -> 0 < sqrt (IZR x + 12)) by (intros x X; apply sqrt_lt_R0; assert (0 <= IZR x) by (apply IZR_le; lia); lra).
  assert (BR : forall x s, (0 <= x)%Z -> 0 <= s -> 0 <= 1 / sqrt (IZR x + 12) * (8 / 100) * s).
  { intros x s X P. specialize (SQ x X). apply Rmult_le_pos; [|exact P]. unfold Rdiv. rewrite Rmult_1_l. apply Rmult_le_pos; [|lra]. left. apply Rinv_0_lt_compat. exact SQ. }
  split. { intros x I. apply in_app_or in I. destruct I as [I|I]; destruct (In_nth _ _ 0 I) as (i & L & <-).
           - rewrite V1 by lia. apply BR; [exact Hu|apply S1; lia].
           - rewrite V3 by lia. apply BR; [exact Hv|apply S2; lia]. }
  split. { intros i L. rewrite side_nth, L1. unfold side. pose proof (SQ nu Hu). pose proof (SQ nv Hv). destruct (Nat.ltb_spec i (Z.to_nat nu)).
           - rewrite V1 by lia. unfold bradius. field. lra.
           - rewrite V3 by lia. unfold bradius. field. lra. }
  split; [exact V5|]. split; [|split; [exact C3|exact N3]].
  assert (LU : length uc = Z.to_nat nu).
  { destruct (bk_ucolor b) as [|s|l|x l|]; cbn [fill_color] in E1; try (injection E1 as <-; apply repeat_length); [|discriminate E1].
    destruct l as [|x l]; [discriminate E1|]. injection E1 as <-. apply CU. reflexivity. }
  intros i L. unfold side. destruct (Nat.ltb_spec i (Z.to_nat nu)).
  - rewrite nth_error_app1 by lia. apply C1. lia.
  - rewrite nth_error_app2 by lia. rewrite LU. apply C2. lia.
Qed.
(** the labels that are drawn: those of both sides, if both are given *)
Definition both_labels (b : blook) : option (list string) :=
  match bk_ulabel b, bk_vlabel b with Some a, Some c => Some (a ++ c) | _, _ => None end.
Theorem C161_bigraph rnd_u rnd_v js nu nv es b coor : (0 <= nu)%Z -> (0 <= nv)%Z -> es <> [] -> (forall u v, In (u, v) es -> (0 <= u < nu)%Z /\ (0 <= v < nv)%Z) ->
  bk_style b = "line" -> bfine nu nv (length es) b -> enough (bk_ecolor b) (length es) -> bi_layout nu nv es b rnd_u rnd_v js = Ok coor ->
  exists d, draw_bigraph rnd_u rnd_v js nu nv es b = Ok d /\
    shows_vertices (Z.to_nat (nu + nv)) (fun i => coor (Z.of_nat i)) (side (Z.to_nat nu) (bradius nu (bk_usize b)) (bradius nv (bk_vsize b)))
      (side (Z.to_nat nu) (colour_of (bk_ucolor b) "m") (colour_of (bk_vcolor b) "r")) (both_labels b) d /\
    shows_lines (map (fun e => (fst e, (nu + snd e)%Z)) es) coor (side (Z.to_nat nu) (bradius nu (bk_usize b)) (bradius nv (bk_vsize b)))
      (colour_of (bk_ecolor b) "gray") (bwidth (length es) b) 0 d /\
    dr_font d = bfont nu nv nu nv (bk_ufont b) + bfont nu nv nv nu (bk_vfont b).
Proof.
  intros Hu Hv NE B S F EN LY.
  destruct (bi_parts Hu Hv F) as (uc & vc & ec & us & ul & vs & vl & elw & E1 & E2 & E3 & E4 & L1 & L2 & L3 & L4 & L5 & SP & V1 & V2 & C1 & C2 & N2).
  unfold draw_bigraph. rewrite S, (not_empty NE). cbn [negb one_of existsb String.eqb Ascii.eqb Bool.eqb orb].
  rewrite E1, E2, E3. cbn [rbind]. rewrite E4. cbn [rbind].
  change (bipartite_force_layout nu nv (map pair_of es) (fill_strength (bk_push_u b) (5 / 1000)) (fill_strength (bk_push_v b) (5 / 1000)) None
             (fill_strength (bk_pull_e b) (3 / 100)) (fill_strength (bk_pull_u b) (4 / 100)) (fill_strength (bk_pull_v b) (4 / 100)) rnd_u rnd_v js)
    with (bi_layout nu nv es b rnd_u rnd_v js). rewrite LY. cbn [rbind].
  fold (both_labels b).
  destruct F as (_ & _ & _ & _ & _ & _ & _ & LU & LV).
  destruct (@circles_ok (map coor (range (nu + nv))) (both_labels b) (us ++ vs) (ul ++ vl) (Z.to_nat (nu + nv))) as (cs & ls & E5 & LC & NC & LL).
  { unfold range. rewrite !map_length, seq_length. reflexivity. }
  { rewrite app_length. lia. }
  { rewrite app_length. lia. }
  { intros l E. unfold both_labels in E. destruct (bk_ulabel b) as [x|]; [|discriminate E]. destruct (bk_vlabel b) as [y|]; [|discriminate E].
    injection E as <-. rewrite app_length, (LU x eq_refl). specialize (LV y eq_refl). lia. }
  rewrite E5.
  replace (map (fun e : Z * Z => (fst e, (snd e + nu)%Z)) es) with (map (fun e : Z * Z => (fst e, (nu + snd e)%Z)) es)
    by (apply map_ext; intros [x y]; cbn [fst snd]; f_equal; lia).
  set (es' := map (fun e : Z * Z => (fst e, (nu + snd e)%Z)) es).
  assert (LE : length es' = length es) by (unfold es'; apply map_length).
  assert (B' : forall a c, In (a, c) es' -> (0 <= a < nu + nv)%Z /\ (0 <= c < nu + nv)%Z).
  { intros a c I. unfold es' in I. apply in_map_iff in I as ([u v] & Eq & I). cbn [fst snd] in Eq. injection Eq as <- <-. destruct (B u v I). lia. }
  destruct (@line_edges_ok (nu + nv) coor (us ++ vs) es' false ec elw) as (l1 & -> & A1 & A2); auto.
  { rewrite app_length. lia. }
  { lia. }
  { rewrite LE. auto. }
  cbn [rbind]. eexists. split; [reflexivity|]. split; [|split; [|reflexivity]].
  - split; [exact LC|]. cbn [dr_circles dr_faces dr_labels]. split.
    + intros i L. split; [|apply C1; exact L]. rewrite NC by exact L. rewrite nth_range_map, V1 by exact L. reflexivity.
    + intros p s. rewrite LL. split; intros (NE' & i & l & L & H1 & H2 & H3); (split; [exact NE'|]); exists i, l; (split; [exact L|]); (split; [exact H1|]); (split; [exact H2|]).
      * rewrite H3, nth_range_map, V1 by exact L. reflexivity.
      * rewrite H3, nth_range_map, V1 by exact L. reflexivity.
  - split; [exact A1|]. split; [reflexivity|]. intros i a c E. cbn [dr_lines].
    assert (L : (i < length es)%nat) by (rewrite <- LE; apply nth_error_Some; congruence).
    assert (I : In (a, c) es') by (eapply nth_error_In; exact E). destruct (B' a c I) as [Ba Bc].
    destruct (A2 i a c E) as (q & l & H1 & H2 & H3 & H4 & H5 & H6). exists l. split; [exact H2|]. rewrite <- C2, H1, H3 by exact L. split; [reflexivity|].
    rewrite H4, H5, V2 by exact L. split; [reflexivity|]. split; [ring|]. intros pa pb Ca Cb. rewrite <- !V1 by lia. apply H6; assumption.
Qed.

(** * C162: labels and colours of bipartite graphs *)
(** Labels for only one of the sides are not written at all.  With fewer colours than vertices in U the first vertices of V
    lend theirs: the first vertex of U without a colour gets the colour of the first vertex of V. *)
Theorem C162_bigraph_actual rnd_u rnd_v js nu nv es b d : draw_bigraph rnd_u rnd_v js nu nv es b = Ok d ->
  (bk_ulabel b = None \/ bk_vlabel b = None -> dr_labels d = []) /\
  (forall l, bk_ucolor b = KList l -> (0 < nv)%Z -> nth_error (dr_faces d) (length l) = colour_of (bk_vcolor b) "r" 0).
Proof.
  intros D. unfold draw_bigraph in D. destruct (negb _); [discriminate D|]. destruct (Nat.eqb (length es) 0); [discriminate D|].
  destruct (fill_color (bk_ucolor b) "m" (Z.to_nat nu)) as [uc|] eqn:E1; [|discriminate D]. cbn [rbind] in D.
  destruct (fill_color (bk_vcolor b) "r" (Z.to_nat nv)) as [vc|] eqn:E2; [|discriminate D]. cbn [rbind] in D.
  destruct (fill_color (bk_ecolor b) "gray" (length es)) as [ec|] eqn:E3; [|discriminate D]. cbn [rbind] in D.
  destruct (default_bipartite_size nu nv (length es) b) as [[[[[[[us ul] vs] vl] elw] uf] vf]|]; [|discriminate D]. cbn [rbind] in D.
  match type of D with rbind ?x _ = _ => destruct x as [coor|]; [|discriminate D] end. cbn [rbind] in D.
  match type of D with (let (_, _) := draw_circles ?c ?l ?s ?w in _) = _ => destruct (draw_circles c l s w) as [cs ls] eqn:E4 end.
  match type of D with rbind ?x _ = _ => destruct x as [lns|]; [|discriminate D] end. cbn [rbind] in D. injection D as <-. cbn [dr_labels dr_faces].
  split.
  - intros N. assert (NL : match bk_ulabel b, bk_vlabel b with Some a, Some b => Some (a ++ b) | _, _ => None end = None)
      by (destruct N as [-> | ->]; [reflexivity|destruct (bk_ulabel b); reflexivity]).
    rewrite NL in E4. unfold draw_circles, draw_vertex in E4. cbv zeta in E4. injection E4 as _ <-.
    assert (NO : forall z : list (fpt * string * R * R), (forall c l s w, In (c, l, s, w) z -> l = "") ->
      flat_map (fun '(c, l, s, _) => if String.eqb l "" then [] else [((fst c, fadd (snd c) (Fin (- (13 / 10) * s))), l)]) z = []).
    { induction z as [|[[[c l] s] w] z IH]; intros A; [reflexivity|]. cbn [flat_map]. rewrite (A c l s w (or_introl eq_refl)). cbn [String.eqb app].
      apply IH. intros c' l' s' w' I. apply (A c' l' s' w'). right. exact I. }
    apply NO. intros c l s w I. apply in_combine_l in I. apply in_combine_l in I. apply in_combine_r in I. apply in_map_iff in I as (x & <- & _). reflexivity.
  - intros l EU Hv. rewrite EU in E1. destruct l as [|c l]; [discriminate E1|]. injection E1 as <-.
    rewrite nth_error_app2 by lia. rewrite Nat.sub_diag.
    assert (UV : usable (bk_vcolor b)) by (split; intros X; rewrite X in E2; discriminate E2).
    destruct (@fill_color_ok _ "r" (Z.to_nat nv) UV) as (vc' & E2' & C2 & _). rewrite E2 in E2'. injection E2' as <-. apply C2. lia.
Qed.
(** The label size of [draw_hypergraph], like that of [draw_graph] (C133), does not depend on the argument [font_size]. *)
Theorem C162_font_actual hull argsort rnd js n hs k x :
  draw_hypergraph hull argsort rnd js n hs k =
  draw_hypergraph hull argsort rnd js n hs (mkLook (lk_style k) (lk_label k) (lk_size k) (lk_vcolor k) (lk_lw k) (lk_ecolor k) (lk_fill k) (lk_elw k) x
    (lk_push_v k) (lk_push_e k) (lk_pull_e k) (lk_pull_c k)).
Proof. reflexivity. Qed.

(** ** cases *)
Definition plain (style : string) (labels : option (list string)) (vc ec : colours) (sz : scales) : look :=
  mkLook style labels sz vc (SNum 1) ec KNone (SNum 1) 1 (Some 1) (Some 1) (Some 1) (Some 1).
Definition bplain (ul vl : option (list string)) (uc vc : colours) : blook :=
  mkBlook "line" ul (SNum 1) uc (SNum 1) vl (SNum 2) vc (SNum 1) KNone (SNum 1) (Some 1) (Some 1) (Some 1) (Some 1) (Some 1) (Some 1) (Some 1).
Lemma plain_fine style labels vc ec sz m : usable vc -> usable ec -> sz = SNum 1 \/ sz = SList [1; 2] -> (forall l, labels = Some l -> (2 <= length l)%nat) ->
  fine 2 m (plain style labels vc ec sz).
Proof.
  intros V E S L. split; [exact V|]. split; [exact E|]. split; [split; discriminate|]. split; [|split; [|exact L]].
  - split; [|split; intros l C; discriminate C]. cbn [lk_size plain]. intros l ->. destruct S as [C|C]; [discriminate C|]. injection C as ->. reflexivity.
  - intros i I. cbn [lk_size plain]. destruct S as [-> | ->]; cbn [scale_of]; [lra|]. destruct i as [|[|[|i]]]; cbn; lra.
Qed.
(** the drawing of two vertices joined by an edge, with labels and a list of colours: a circle in each of two corners *)
Example C159_case hull argsort js : let k := plain "line" (Some ["a"; ""]) (KList [CName "b"; CRgb [1; 0; 0]]) (KOne "k") (SList [1; 2]) in
  exists d d', draw_graph hull argsort two_draws js 2 [(0, 1)%Z] k = Ok d /\ draw_digraph two_draws js 2 [(0, 1)%Z] k = Ok d' /\
    nth_error (dr_circles d) 1 = Some (lift_pt (1 / 10, 1 / 10), 2 / (10 * sqrt (2 + 10))) /\
    nth_error (dr_faces d) 1 = Some (CRgb [1; 0; 0]) /\ map snd (dr_labels d) = ["a"] /\
    exists l, dr_lines d' = [l] /\ li_color l = CName "k" /\ exists a, li_arrow l = Some a /\ connects (9 / 10, 9 / 10) (1 / 10, 1 / 10) (1 / (10 * sqrt 12)) (2 / (10 * sqrt 12)) (Some a).
Proof.
  intros k. destruct (@C163_two (1 * (6 / 1000)) None (1 * (45 / 1000)) (1 * (1 / 100)) js) as (coor & LY & C0 & C1); [lra..|].
  destruct (@C159_lines hull argsort two_draws js 2 [(0, 1)%Z] k coor) as (d & d' & D & D' & (LC & SC & SL) & _ & _ & (LL & _ & SE)).
  - lia.
  - discriminate.
  - intros a b [E|[]]. injection E as <- <-. lia.
  - reflexivity.
  - apply plain_fine; [split; discriminate|split; discriminate|right; reflexivity|]. intros l E. injection E as <-. cbn; lia.
  - intros l E. discriminate E.
  - exact LY.
  - exists d, d'. split; [exact D|]. split; [exact D'|]. destruct (SC 1%nat) as [S1 S2]; [cbn; lia|].
    split. { rewrite S1. change (Z.of_nat 1) with 1%Z. rewrite C1. reflexivity. }
    split; [rewrite S2; reflexivity|]. split.
    + unfold draw_graph in D. cbn [k plain lk_style one_of existsb String.eqb Ascii.eqb Bool.eqb orb negb length Nat.eqb lk_vcolor lk_ecolor lk_fill fill_color rbind lk_size lk_lw lk_elw] in D.
      unfold default_size in D. change (Z.to_nat 2) with 2%nat in D. cbn [fill_sizes length Nat.eqb rbind] in D. cbn [k plain lk_push_v lk_pull_e lk_pull_c fill_strength] in D.
      change (map pair_of [(0, 1)%Z]) with [[0; 1]%Z] in D. rewrite LY in D. cbn [rbind k plain lk_label] in D.
      unfold draw_circles, draw_vertex in D. cbn [repeat] in D.
      match type of D with context [draw_line_edge ?a ?b ?c ?d ?e ?f ?g] => destruct (draw_line_edge a b c d e f g); [|discriminate D] end.
      cbn [rbind] in D. injection D as <-. reflexivity.
    + destruct (SE 0%nat 0%Z 1%Z eq_refl) as (l & E & CO & _ & _ & CN). exists l. cbn [length] in LL.
      destruct (dr_lines d') as [|l' [|l'' r]]; try discriminate LL. injection E as ->. split; [reflexivity|].
      cbn [colour_of lk_ecolor k plain] in CO. injection CO as <-. split; [reflexivity|].
      specialize (CN (9 / 10, 9 / 10) (1 / 10, 1 / 10) C0 C1). unfold radius in CN. cbn [scale_of lk_size k plain nth Z.to_nat Pos.to_nat Pos.iter_op Nat.add] in CN.
      replace (IZR 2 + 10) with 12 in CN by lra. destruct (li_arrow l) as [a|] eqn:Ea; [exists a; split; [reflexivity|exact CN]|]. cbn in CN. injection CN as CN _. lra.
Qed.
Example C158_case hull argsort js : let k := plain "curve" None KNone KNone (SNum 1) in let k' := plain "circle" None (KList []) KNone (SNum 1) in
  draw_graph hull argsort two_draws js 2 [(0, 1)%Z] k = Err AssertionError /\ draw_hypergraph hull argsort two_draws js 2 [[0; 1]%Z] k' = Err IndexError /\
  draw_graph hull argsort two_draws js 2 [(0, 1)%Z] (plain "line" None KNone KOther (SNum 1)) = Err ValueError /\
  ~ sizes_fit (plain "line" None KNone KNone (SList [1; 2; 3])) 2 1.
Proof.
  split; [reflexivity|]. split; [reflexivity|]. split; [reflexivity|]. intros [C _]. specialize (C [1; 2; 3] eq_refl). cbn in C. discriminate C.
Qed.
Example C159_short_case : let k := plain "line" None KNone (KList [CName "k"]) (SNum 1) in let es := [(0, 1); (1, 0)]%Z in
  (1 < length es)%nat /\ fine 2 (length es) k /\ lk_ecolor k = KList [CName "k"].
Proof. split; [cbn; lia|]. split; [|reflexivity]. apply plain_fine; [split; discriminate|split; discriminate|left; reflexivity|intros l E; discriminate E]. Qed.
(** the same two vertices as a hyperedge *)
Lemma two_far : vlen (psub (1 / 10, 1 / 10) (9 / 10, 9 / 10)) <> 0 /\ vlen (psub (9 / 10, 9 / 10) (1 / 10, 1 / 10)) <> 0.
Proof. split; intros E; apply vlen_0 in E; unfold psub in E; cbn [fst snd] in E; injection E; lra. Qed.
Example C160_case js : let k := plain "circle" (Some ["a"; "b"]) KNone (KOne "k") (SNum 1) in
  let hull (l : list (R * R)) := Ok (seq 0 (length l)) in let argsort (l : list nat) := seq 0 (length l) in
  hull_indices hull /\ sorts_sizes argsort (map (@length Z) [[0; 1]%Z]) /\
  exists coor d, hyper_layout 2 [[0; 1]%Z] k two_draws js = Ok coor /\ draw_hypergraph hull argsort two_draws js 2 [[0; 1]%Z] k = Ok d /\ length (dr_shapes d) = 1%nat /\ length (dr_labels d) = 2%nat.
Proof.
  intros k hull argsort. split; [|split].
  - intros l ix E i I. injection E as <-. apply in_seq in I. lia.
  - split; [reflexivity|]. intros a b [A B]. cbn in B. lia.
  - destruct (@C163_two (1 * (6 / 1000)) (Some (1 * (8 / 1000))) (1 * (7 / 1000)) (1 * (1 / 1000)) js) as (coor & LY & C0 & C1); [lra..|].
    exists coor. destruct two_far as [T1 T2].
    assert (SH : forall sz ec fc elw, exists s, draw_circle_edge hull argsort 2 coor (repeat sz 2) [[0; 1]%Z] (repeat ec 1) (repeat fc 1) (repeat elw 1) = Ok [s]).
    { intros sz ec fc elw. unfold draw_circle_edge. change (range 2) with [0%Z; 1%Z]. cbn [forallb]. rewrite C0, C1. cbn [fin_pt fin_of andb negb].
      unfold hull_layout. cbn [map length argsort seq nth hull_loop edge_outline]. unfold corners. cbn [length Nat.eqb map rbind].
      change (row_of 2 0) with 0%Z. change (row_of 2 1) with 1%Z. unfold tangents. cbn [tl firstn app combine map_res]. unfold pos_of. rewrite C0, C1. cbn [fin_pt fin_of].
      change (size_of (repeat sz 2) 0) with sz. change (size_of (repeat sz 2) 1) with sz.
      assert (CT : forall r d, d <> 0 -> exists a, common_tangent_radian r r d = Ok a).
      { intros r d N. unfold common_tangent_radian. destruct (Req_EM_T d 0); [contradiction|]. replace (r - r) with 0 by ring. rewrite Rabs_R0. unfold Rdiv. rewrite Rmult_0_l.
        destruct (Rlt_dec 1 0); [lra|]. eauto. }
      change (fin_pt (Fin (9 / 10), Fin (9 / 10))) with (Some (9 / 10, 9 / 10)). change (fin_pt (Fin (1 / 10), Fin (1 / 10))) with (Some (1 / 10, 1 / 10)). cbv iota.
      destruct (CT (sz + sz * (3 / 10)) _ T1) as (a1 & ->). destruct (CT (sz + sz * (3 / 10)) _ T2) as (a2 & ->). cbn [rbind].
      cbn [find fst Nat.eqb snd rbind]. eexists. reflexivity. }
    unfold draw_hypergraph. cbn [k plain lk_style one_of existsb String.eqb Ascii.eqb Bool.eqb orb negb length Nat.eqb lk_vcolor lk_ecolor lk_fill fill_color rbind lk_size lk_lw lk_elw].
    unfold default_size. cbn [fill_sizes length Nat.eqb rbind]. cbn [k plain lk_push_v lk_push_e lk_pull_e lk_pull_c fill_strength].
    rewrite LY. cbn [rbind k plain lk_label]. change (Z.to_nat 2) with 2%nat.
    match goal with |- context [draw_circle_edge hull argsort 2 coor (repeat ?a 2) ?h (repeat ?b 1) (repeat ?c 1) (repeat ?e 1)] => destruct (SH a b c e) as (s & ES) end.
    unfold draw_circles, draw_vertex. cbn [map range Z.to_nat Pos.to_nat Pos.iter_op Nat.add seq Z.of_nat repeat combine flat_map String.eqb Ascii.eqb Bool.eqb app]. cbn [repeat] in ES. rewrite ES. cbn [rbind].
    eexists. split; [exact LY|]. split; [reflexivity|]. split; reflexivity.
Qed.
(** one vertex on each side: both labels are drawn, or neither *)
Lemma bplain_fine ul vl uc vc : usable uc -> usable vc -> (forall l, uc = KList l -> length l = 1%nat) -> (forall l, ul = Some l -> length l = 1%nat) -> (forall l, vl = Some l -> length l = 1%nat) ->
  bfine 1 1 1 (bplain ul vl uc vc).
Proof.
  intros U V L A B. split; [exact U|]. split; [exact V|]. split; [split; discriminate|]. split; [|split; [|split; [|split; [exact L|split; [exact A|]]]]].
  - repeat split; intros l C; discriminate C.
  - intros i _. cbn. lra.
  - intros i _. cbn. lra.
  - intros l E. rewrite (B l E). reflexivity.
Qed.
Example C161_case js : let b := bplain (Some ["u"]) (Some ["v"]) KNone KNone in let b' := bplain (Some ["u"]) None KNone KNone in
  bfine 1 1 1 b /\ bfine 1 1 1 b' /\
  (exists coor, bi_layout 1 1 [(0, 0)%Z] b (fun _ => (1 / 2, 3 / 4)) (fun _ => (1 / 2, 1 / 4)) js = Ok coor) /\
  exists d d', draw_bigraph (fun _ => (1 / 2, 3 / 4)) (fun _ => (1 / 2, 1 / 4)) js 1 1 [(0, 0)%Z] b = Ok d /\ draw_bigraph (fun _ => (1 / 2, 3 / 4)) (fun _ => (1 / 2, 1 / 4)) js 1 1 [(0, 0)%Z] b' = Ok d' /\
    length (dr_circles d) = 2%nat /\ In (lift_pt (1 / 10, 1 / 10 + - (13 / 10) * (8 / 100 * 2 / sqrt (1 + 12))), "v") (dr_labels d) /\ dr_labels d' = [].
Proof.
  intros b b'.
  assert (F : bfine 1 1 1 b) by (apply bplain_fine; try (split; discriminate); intros l E; try discriminate E; injection E as <-; reflexivity).
  assert (F' : bfine 1 1 1 b') by (apply bplain_fine; try (split; discriminate); intros l E; try discriminate E; injection E as <-; reflexivity).
  destruct (@C163_two_bipartite [0; 0]%Z (1 * (5 / 1000)) None (1 * (3 / 100)) (1 * (4 / 100)) js) as (coor & LY & C0 & C1); [right; reflexivity|lra..|].
  split; [exact F|]. split; [exact F'|]. split; [exists coor; exact LY|].
  assert (IN : forall u v, In (u, v) [(0, 0)%Z] -> (0 <= u < 1)%Z /\ (0 <= v < 1)%Z) by (intros u v [E|[]]; injection E as <- <-; lia).
  destruct (@C161_bigraph (fun _ => (1 / 2, 3 / 4)) (fun _ => (1 / 2, 1 / 4)) js 1 1 [(0, 0)%Z] b coor) as (d & D & (LC & SC & SL) & _); auto; try lia; try discriminate.
  destruct (@C161_bigraph (fun _ => (1 / 2, 3 / 4)) (fun _ => (1 / 2, 1 / 4)) js 1 1 [(0, 0)%Z] b' coor) as (d' & D' & _); auto; try lia; try discriminate.
  exists d, d'. split; [exact D|]. split; [exact D'|]. split; [exact LC|]. split.
  - apply SL. split; [discriminate|]. exists 1%nat, ["u"; "v"]. split; [cbn; lia|]. split; [reflexivity|]. split; [reflexivity|]. change (Z.of_nat 1) with 1%Z. rewrite C1. reflexivity.
  - apply (C162_bigraph_actual _ _ _ _ _ _ _ D'). right. reflexivity.
Qed.
(** Three vertices that no force moves, two of them in U and only one colour for U: the second vertex of U gets the green of V. *)
Definition still (l : list colour) : blook :=
  mkBlook "line" None (SNum 1) (KList l) (SNum 1) None (SNum 1) (KOne "g") (SNum 1) KNone (SNum 1) (Some 1) (Some 1) (Some 0) (Some 0) (Some 0) (Some 0) (Some 0).
Lemma still_any rnd_u rnd_v js l1 l2 d : draw_bigraph rnd_u rnd_v js 2 1 [(0, 0)%Z] (still l1) = Ok d -> l2 <> [] ->
  exists d', draw_bigraph rnd_u rnd_v js 2 1 [(0, 0)%Z] (still l2) = Ok d'.
Proof.
  intros D N. destruct l2 as [|c2 l2]; [congruence|]. destruct l1 as [|c1 l1]; [discriminate D|].
  assert (G : forall c l, draw_bigraph rnd_u rnd_v js 2 1 [(0, 0)%Z] (still (c :: l)) =
    rbind (default_bipartite_size 2 1 1 (still [])) (fun '(us, ul, vs, vl, elw, uf, vf) =>
    rbind (bi_layout 2 1 [(0, 0)%Z] (still []) rnd_u rnd_v js) (fun coor =>
    let (cs, ls) := draw_circles (map coor (range 3)) None (us ++ vs) (ul ++ vl) in
    rbind (draw_line_edge 3 coor (us ++ vs) [(0, 2)%Z] false [CName "gray"] elw) (fun es =>
    Ok (mkDrawing cs ((c :: l) ++ [CName "g"]) es [] ls (uf + vf)))))) by (intros; reflexivity).
  rewrite G in D |- *. clear G.
  destruct (default_bipartite_size 2 1 1 (still [])) as [[[[[[[us ul] vs] vl] elw] uf] vf]|]; [|discriminate D]. cbn [rbind] in *.
  destruct (bi_layout 2 1 [(0, 0)%Z] (still []) rnd_u rnd_v js) as [coor|]; [|discriminate D]. cbn [rbind] in *.
  destruct (draw_circles _ _ _ _) as [cs ls]. destruct (draw_line_edge _ _ _ _ _ _ _) as [es|]; [|discriminate D]. cbn [rbind]. eauto.
Qed.
Example C162_case js : exists d, draw_bigraph (fun v => if (v =? 0)%Z then (1 / 4, 1 / 4) else (3 / 4, 3 / 4)) (fun _ => (1 / 2, 1 / 2)) js 2 1 [(0, 0)%Z] (still [CName "m"]) = Ok d /\
  nth_error (dr_faces d) 1 = Some (CName "g").
Proof.
  assert (LY : exists coor, bi_layout 2 1 [(0, 0)%Z] (still [CName "m"; CName "m"]) (fun v => if (v =? 0)%Z then (1 / 4, 1 / 4) else (3 / 4, 3 / 4)) (fun _ => (1 / 2, 1 / 2)) js = Ok coor).
  { unfold bi_layout. cbn [map fst snd still bk_push_u bk_push_v bk_pull_e bk_pull_u bk_pull_v]. rewrite !Rmult_0_l.
    match goal with |- exists c, bipartite_force_layout ?nu ?nv ?E ?pu ?pv ?pe ?pl ?gu ?gv ?ru ?rv ?j = Ok c => pose proof (@C163_layout_bipartite nu nv E pu pv pe pl gu gv ru rv j) as G end.
    edestruct G as (coor & EQ & _); [lia| | | | |exists coor; exact EQ].
    - intros e v [<-|[]] [<-|[<-|[]]]; cbn; lia.
    - discriminate.
    - intros [C|[]]. discriminate C.
    - assert (S0 : forall v, (if (v <? 2)%Z then 0 else 0) = 0) by (intros v; destruct (v <? 2)%Z; reflexivity).
      assert (T0 : forall c p v, total c 3 [[0; 0]%Z] p 0 (fun v => if (v <? 2)%Z then 0 else 0) None (fun v => if (v <? 2)%Z then (5, 0) else (-5, 0)) (fun v => if (v <? 2)%Z then 0 else 0) v = 0)
        by (intros c p v; unfold total; rewrite S0; ring).
      apply RunCalm.
      + split; [|left; reflexivity]. intros u v U V N. assert (CASES : forall z, (0 <= z < 3)%Z -> z = 0%Z \/ z = 1%Z \/ z = 2%Z) by (intros; lia).
        destruct (CASES u U) as [-> |[-> | ->]], (CASES v V) as [-> |[-> | ->]]; try congruence; cbn; intros C; injection C; lra.
      + unfold calm, shift. change (2 + 1)%Z with 3%Z.
        match goal with |- sqrt (sumf _ ?f) < _ => assert (SZ : forall v, f v = 0) end.
        { intros v. cbn [fst snd map]. rewrite !T0. rewrite !Rmult_0_r. unfold limited. rewrite Rmax_left by lra. rewrite Rmin_left by lra. ring. }
        rewrite (sumf_ext _ _ _ SZ). change (sumf (range 3) (fun _ => 0)) with (0 + (0 + (0 + 0))). replace (0 + (0 + (0 + 0))) with 0 by ring. rewrite sqrt_0. lra. }
  destruct LY as (coor & LY).
  assert (D0 : exists d, draw_bigraph (fun v => if (v =? 0)%Z then (1 / 4, 1 / 4) else (3 / 4, 3 / 4)) (fun _ => (1 / 2, 1 / 2)) js 2 1 [(0, 0)%Z] (still [CName "m"]) = Ok d).
  { destruct (@C161_bigraph (fun v => if (v =? 0)%Z then (1 / 4, 1 / 4) else (3 / 4, 3 / 4)) (fun _ => (1 / 2, 1 / 2)) js 2 1 [(0, 0)%Z] (still [CName "m"; CName "m"]) coor) as (d & D & _).
    - lia.
    - lia.
    - discriminate.
    - intros u v [E|[]]. injection E as <- <-. lia.
    - reflexivity.
    - split; [split; discriminate|]. split; [split; discriminate|]. split; [split; discriminate|]. split; [repeat split; intros l C; discriminate C|].
      split; [intros i _; cbn; lra|]. split; [intros i _; cbn; lra|]. split; [intros l E; injection E as <-; reflexivity|]. split; intros l E; discriminate E.
    - intros l E. discriminate E.
    - exact LY.
    - apply (@still_any _ _ _ _ _ _ D). discriminate. }
  destruct D0 as (d & D). exists d. split; [exact D|]. destruct (C162_bigraph_actual _ _ _ _ _ _ _ D) as [_ H]. apply (H [CName "m"] eq_refl). lia.
Qed.
