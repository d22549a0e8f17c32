(** Markers of metric configurations can be read back. *)
From Coq Require Import String Ascii QArith Qround Qabs DecimalString DecimalZ DecimalPos DecimalN DecimalFacts Lqa.
From Verif Require Import Num PyDict ModelBase ModelConv ModelUtils ModelMetrics ModelEval SpecEval.
Set Implicit Arguments.
Local Open Scope list_scope.
Local Open Scope Z_scope.
Notation "a +++ b" := (String.append a b) (at level 60, right associativity).

Lemma str_app_assoc a b c : (a +++ b) +++ c = a +++ (b +++ c).
Proof. induction a as [|x a IH]; cbn; auto. rewrite IH; auto. Qed.
Lemma str_app_nil a : a +++ "" = a.
Proof. induction a as [|x a IH]; cbn; auto. rewrite IH; auto. Qed.
(** [c] does not occur in [s] *)
Definition free (c : ascii) (s : string) : Prop := all_chars (fun x => negb (Ascii.eqb x c)) s = true.
Lemma free_cons c x s : free c (String x s) <-> x <> c /\ free c s.
Proof.
  unfold free. cbn [all_chars]. rewrite andb_true_iff, negb_true_iff, Ascii.eqb_neq. tauto.
Qed.
Lemma free_app c a b : free c (a +++ b) <-> free c a /\ free c b.
Proof. induction a as [|x a IH]; cbn [String.append]; [unfold free at 2; cbn; tauto|]. rewrite !free_cons, IH. tauto. Qed.
Lemma split_at c a b r s : free c a -> free c b -> a +++ String c r = b +++ String c s -> a = b /\ r = s.
Proof.
  revert b; induction a as [|x a IH]; intros [|y b] A B E; cbn [String.append] in E.
  - injection E as <-; auto.
  - injection E as <- E. apply free_cons in B. tauto.
  - injection E as -> E. apply free_cons in A. tauto.
  - injection E as <- E. apply free_cons in A, B. destruct (IH b) as [-> ->]; tauto.
Qed.
Lemma split_none c a b s : free c a -> a = b +++ String c s -> False.
Proof. intros A E. rewrite E in A. apply free_app in A as [_ A]. apply free_cons in A. tauto. Qed.
Lemma all_free p c s : all_chars p s = true -> p c = false -> free c s.
Proof.
  intros A P. induction s as [|x s IH]; [reflexivity|]. cbn [all_chars] in A. apply andb_true_iff in A as [A1 A2].
  apply free_cons. split; auto. intros ->. congruence.
Qed.
Lemma all_app p a b : all_chars p (a +++ b) = (all_chars p a && all_chars p b)%bool.
Proof. induction a as [|x a IH]; cbn [String.append all_chars]; auto. rewrite IH, andb_assoc. auto. Qed.
Lemma identifier_all s : identifier s -> all_chars word_char s = true.
Proof. destruct s as [|c r]; cbn; [tauto|]. intros (-> & _ & ->). auto. Qed.
Lemma identifier_free c s : identifier s -> word_char c = false -> free c s.
Proof. intros I W. eapply all_free; eauto. apply identifier_all; auto. Qed.

(** * numerals *)
Lemma uint_digits d : all_chars digit_char (NilEmpty.string_of_uint d) = true.
Proof. induction d; cbn [NilEmpty.string_of_uint all_chars]; auto; rewrite IHd; reflexivity. Qed.
Lemma uint0_digits d : all_chars digit_char (NilZero.string_of_uint d) = true /\ NilZero.string_of_uint d <> EmptyString.
Proof.
  unfold NilZero.string_of_uint. destruct d; split; try discriminate; try reflexivity; apply (uint_digits (Decimal.D0 _)) ||
  apply (uint_digits (Decimal.D1 _)) || apply (uint_digits (Decimal.D2 _)) || apply (uint_digits (Decimal.D3 _)) || apply (uint_digits (Decimal.D4 _)) ||
  apply (uint_digits (Decimal.D5 _)) || apply (uint_digits (Decimal.D6 _)) || apply (uint_digits (Decimal.D7 _)) || apply (uint_digits (Decimal.D8 _)) ||
  apply (uint_digits (Decimal.D9 _)).
Qed.
Lemma str_int_shape z : (0 <= z -> all_chars digit_char (str_int z) = true) /\
  (z < 0 -> exists d, str_int z = String "-" d /\ all_chars digit_char d = true) /\
  exists c r, str_int z = String c r /\ (digit_char c = true \/ c = "-"%char).
Proof.
  unfold str_int, Z.to_int. destruct z as [|p|p]; cbn [NilZero.string_of_int].
  - split; [reflexivity|]. split; [lia|]. exists "0"%char, EmptyString. auto.
  - destruct (uint0_digits (Pos.to_uint p)) as [A B]. split; auto. split; [lia|].
    destruct (NilZero.string_of_uint (Pos.to_uint p)) as [|c r]; [tauto|]. exists c, r. split; auto. left. cbn in A. apply andb_true_iff in A. tauto.
  - destruct (uint0_digits (Pos.to_uint p)) as [A B]. split; [lia|]. split; [eauto|]. eexists _, _. split; [reflexivity|auto].
Qed.
Lemma str_int_inj a b : str_int a = str_int b -> a = b.
Proof.
  unfold str_int. intros E. assert (N : forall z, Z.to_int z <> Decimal.Pos Decimal.Nil /\ Z.to_int z <> Decimal.Neg Decimal.Nil).
  { intros z. unfold Z.to_int. destruct z as [|p|p]; split; try discriminate; intros H; injection H as H;
      apply (f_equal Pos.of_uint) in H; pose proof (DecimalPos.Unsigned.of_to p) as O; rewrite H in O; discriminate. }
  apply DecimalZ.to_int_inj. apply (f_equal NilZero.int_of_string) in E.
  rewrite (NilZero.isi _ (proj1 (N a)) (proj2 (N a))), (NilZero.isi _ (proj1 (N b)) (proj2 (N b))) in E. injection E; auto.
Qed.
(** four digits *)
Lemma str_int_head z : 0 < z -> exists c r, str_int z = String c r /\ c <> "0"%char.
Proof.
  destruct z as [|p|p]; try lia. intros _. unfold str_int, Z.to_int. cbn [NilZero.string_of_int].
  assert (H : forall d, Pos.to_uint p <> Decimal.D0 d).
  { intros d E. pose proof (DecimalN.Unsigned.to_of (Pos.to_uint p)) as U. pose proof (DecimalN.Unsigned.of_to (Npos p)) as O.
    cbn [N.to_uint] in O. rewrite O in U. cbn [N.to_uint] in U. unfold Decimal.unorm in U.
    destruct (Decimal.nzhead (Pos.to_uint p)) as [|w|w|w|w|w|w|w|w|w|w] eqn:Z0; rewrite E in U; try discriminate.
    - pose proof (DecimalPos.Unsigned.of_to p) as Q. rewrite E in Q. rewrite U in Q. discriminate.
    - apply (DecimalFacts.nzhead_nonzero (Pos.to_uint p) w). auto. }
  unfold NilZero.string_of_uint. destruct (Pos.to_uint p) as [|w|w|w|w|w|w|w|w|w|w] eqn:E;
    try (eexists _, _; split; [reflexivity|discriminate]).
  - pose proof (DecimalPos.Unsigned.of_to p) as Q. rewrite E in Q. discriminate.
  - exfalso. apply (H w). auto.
Qed.
Lemma pad4_inj a b : 0 <= a < 10000 -> 0 <= b < 10000 -> pad4 a = pad4 b -> a = b.
Proof.
  intros A B. unfold pad4.
  assert (HD : forall z r, 0 < z -> str_int z = String "0" r -> False).
  { intros z r H E. destruct (str_int_head H) as (c & r' & E' & N). rewrite E in E'. injection E' as <- _. auto. }
  destruct (Z.ltb_spec a 10), (Z.ltb_spec b 10); cbn [String.append]; intros E;
    try (injection E as E; apply str_int_inj; exact E); revert E;
  destruct (Z.ltb_spec a 100), (Z.ltb_spec b 100); cbn [String.append]; intros E; try lia;
    try (injection E as E; apply str_int_inj; exact E);
    try (exfalso; injection E as E; apply (HD a) in E; lia || auto; fail); try (exfalso; injection E as E; symmetry in E; apply (HD b) in E; lia || auto; fail); revert E;
  destruct (Z.ltb_spec a 1000), (Z.ltb_spec b 1000); cbn [String.append]; intros E; try lia;
    try (injection E as E; apply str_int_inj; exact E); try (apply str_int_inj; exact E);
    try (exfalso; injection E as E; apply (HD a) in E; lia || auto; fail); try (exfalso; injection E as E; symmetry in E; apply (HD b) in E; lia || auto; fail);
    try (exfalso; apply (HD a) in E; lia || auto; fail); try (exfalso; symmetry in E; apply (HD b) in E; lia || auto; fail).
Qed.
Lemma pad4_digits z : 0 <= z -> all_chars digit_char (pad4 z) = true.
Proof.
  intros H. destruct (str_int_shape z) as [A _]. specialize (A H). unfold pad4.
  destruct (z <? 10); [|destruct (z <? 100); [|destruct (z <? 1000)]]; rewrite ?all_app, A; auto.
Qed.
(** rounding *)
Lemma round_even_near q : (Qabs (q - inject_Z (round_even q)) <= 1 # 2)%Q.
Proof.
  unfold round_even. set (f := Qfloor q). pose proof (Qfloor_le q) as F1. pose proof (Qlt_floor q) as F2. fold f in F1, F2.
  rewrite inject_Z_plus in F2. change (inject_Z 1) with 1%Q in F2.
  assert (UP : (inject_Z (f + 1) == inject_Z f + 1)%Q) by (rewrite inject_Z_plus; reflexivity).
  destruct (Qle_bool (q - inject_Z f) (1 # 2)) eqn:L.
  - apply Qle_bool_iff in L. destruct (Qeq_bool (q - inject_Z f) (1 # 2)) eqn:E.
    + apply Qeq_bool_iff in E. destruct (Z.even f); apply Qabs_Qle_condition; [split; lra|]. rewrite UP. split; lra.
    + apply Qabs_Qle_condition. split; lra.
  - assert (G : ~ (q - inject_Z f <= 1 # 2)%Q) by (intros G; apply Qle_bool_iff in G; congruence).
    apply Qnot_le_lt in G. apply Qabs_Qle_condition. rewrite UP. split; lra.
Qed.
Lemma round_even_nonneg q : (0 <= q)%Q -> 0 <= round_even q.
Proof.
  intros H. assert (0 <= Qfloor q) by (change 0 with (Qfloor (inject_Z 0)); apply Qfloor_resp_le; auto).
  unfold round_even. destruct (Qle_bool _ _); [destruct (Qeq_bool _ _); [destruct (Z.even _)|]|]; lia.
Qed.
Definition units (q : Q) : Z := round_even (Qabs q * 10000)%Q.
Lemma units_nonneg q : 0 <= units q.
Proof. apply round_even_nonneg. pose proof (Qabs_nonneg q). lra. Qed.
Definition sign_str (q : Q) : string := if Qle_bool 0 q then EmptyString else "-"%string.
Lemma str_float_eq q : str_float q = sign_str q +++ (str_int (units q / 10000) +++ String "." (pad4 (units q mod 10000))).
Proof. reflexivity. Qed.
Lemma digits_free c s : all_chars digit_char s = true -> digit_char c = false -> free c s.
Proof. apply all_free. Qed.
Lemma str_float_shape q : exists c r, str_float q = String c r /\ (digit_char c = true \/ c = "-"%char).
Proof.
  rewrite str_float_eq. unfold sign_str. destruct (Qle_bool 0 q).
  - cbn [String.append]. destruct (str_int_shape (units q / 10000)) as (_ & _ & c & r & -> & H). eexists _, _. split; [reflexivity|auto].
  - eexists _, _. split; [reflexivity|auto].
Qed.
Lemma str_float_close a b : str_float a = str_float b -> (Qabs (a - b) <= 1 # 10000)%Q.
Proof.
  rewrite !str_float_eq. pose proof (units_nonneg a) as UA. pose proof (units_nonneg b) as UB.
  assert (NN : forall u, 0 <= u -> 0 <= u / 10000 /\ 0 <= u mod 10000 < 10000)
    by (intros u U; split; [apply Z.div_pos; lia|apply Z.mod_pos_bound; lia]).
  destruct (NN _ UA) as [DA MA]. destruct (NN _ UB) as [DB MB].
  destruct (str_int_shape (units a / 10000)) as (SA & _ & ca & ra & EA & CA). destruct (str_int_shape (units b / 10000)) as (SB & _ & cb & rb & EB & CB).
  specialize (SA DA). specialize (SB DB).
  assert (MN : forall c r, String c r = str_int (units a / 10000) \/ String c r = str_int (units b / 10000) -> c <> "-"%char).
  { intros c r [H|H] ->; rewrite <- H in *; cbn in *; discriminate. }
  intros E.
  assert (S : Qle_bool 0 a = Qle_bool 0 b /\ units a = units b).
  { assert (K : forall x y : string, str_int (units a / 10000) +++ String "." (pad4 (units a mod 10000)) = str_int (units b / 10000) +++ String "." (pad4 (units b mod 10000)) -> units a = units b).
    { intros _ _ H. apply split_at in H as [H1 H2]; [|apply digits_free; auto..]. apply str_int_inj in H1. apply pad4_inj in H2; auto.
      rewrite (Z.div_mod (units a) 10000), (Z.div_mod (units b) 10000) by lia. congruence. }
    unfold sign_str in E. destruct (Qle_bool 0 a) eqn:LA, (Qle_bool 0 b) eqn:LB; cbn [String.append] in E.
    - split; [reflexivity|apply (K ""%string ""%string E)].
    - exfalso. rewrite EA in E. cbn in E. injection E as H _. apply (MN ca ra); auto.
    - exfalso. rewrite EB in E. cbn in E. injection E as H _. apply (MN cb rb); auto.
    - split; [reflexivity|]. injection E as E. apply (K ""%string ""%string E). }
  destruct S as [S U]. pose proof (round_even_near (Qabs a * 10000)) as RA. pose proof (round_even_near (Qabs b * 10000)) as RB.
  fold (units a) in RA. fold (units b) in RB. rewrite U in RA. apply Qabs_Qle_condition in RA, RB.
  apply Qabs_Qle_condition.
  destruct (Qle_bool 0 a) eqn:LA.
  - symmetry in S. apply Qle_bool_iff in LA, S. rewrite (Qabs_pos a) in RA by auto. rewrite (Qabs_pos b) in RB by auto. split; lra.
  - symmetry in S. assert (A0 : (a <= 0)%Q) by (apply Qlt_le_weak, Qnot_le_lt; intros H; apply Qle_bool_iff in H; congruence).
    assert (B0 : (b <= 0)%Q) by (apply Qlt_le_weak, Qnot_le_lt; intros H; apply Qle_bool_iff in H; congruence).
    rewrite (Qabs_neg a) in RA by auto. rewrite (Qabs_neg b) in RB by auto. split; lra.
Qed.

(** * values *)
Definition val_char (c : ascii) : bool := (word_char c || Ascii.eqb c "-" || Ascii.eqb c ".")%bool.
Lemma all_weaken p q s : (forall c, p c = true -> q c = true) -> all_chars p s = true -> all_chars q s = true.
Proof. intros H. induction s as [|c s IH]; cbn; auto. rewrite !andb_true_iff. intros [A B]. auto. Qed.
Lemma word_val c : word_char c = true -> val_char c = true.
Proof. unfold val_char. intros ->. auto. Qed.
Lemma digit_word c : digit_char c = true -> word_char c = true.
Proof. unfold digit_char, word_char. cbn zeta. intros ->. auto. Qed.
Lemma digits_val s : all_chars digit_char s = true -> all_chars val_char s = true.
Proof. apply all_weaken. intros c H. apply word_val, digit_word; auto. Qed.
Lemma str_int_val z : all_chars val_char (str_int z) = true.
Proof.
  destruct (str_int_shape z) as (A & B & _). destruct (Z_lt_le_dec z 0) as [H|H]; [|apply digits_val; auto].
  destruct (B H) as (d & -> & D). cbn [all_chars]. rewrite (digits_val _ D). reflexivity.
Qed.
Lemma show_val_chars v : plain_val v -> all_chars val_char (show_val v) = true.
Proof.
  destruct v as [s|z|b|q|l|s]; cbn [plain_val show_val]; try tauto; intros P.
  - eapply all_weaken; [apply word_val|]. apply identifier_all; auto.
  - apply str_int_val.
  - rewrite str_float_eq, all_app, all_app. cbn [all_chars]. rewrite str_int_val.
    rewrite (digits_val (pad4 _)) by (apply pad4_digits, Z.mod_pos_bound; lia). unfold sign_str. destruct (Qle_bool 0 q); reflexivity.
Qed.
Lemma show_val_inj a b : plain_val a -> plain_val b -> show_val a = show_val b -> close_val a b.
Proof.
  assert (NS : forall s t, identifier s -> (exists c' r', t = String c' r' /\ (digit_char c' = true \/ c' = "-"%char)) -> s = t -> False).
  { intros s t I (c' & r' & -> & H) ->. cbn in I. destruct I as (W & D & _). destruct H as [H| ->]; [congruence|discriminate]. }
  assert (IF : forall z q, str_int z = str_float q -> False).
  { intros z q E. rewrite str_float_eq, <- str_app_assoc in E. revert E. apply split_none.
    destruct (str_int_shape z) as (A & B & _). destruct (Z_lt_le_dec z 0) as [H|H]; [|apply digits_free; auto].
    destruct (B H) as (d & -> & D). apply free_cons. split; [discriminate|]. apply digits_free; auto. }
  destruct a as [s|z|b0|q|l|s], b as [t|y|b1|r|m|t]; cbn [plain_val show_val close_val]; try tauto; intros A B E.
  - congruence.
  - exfalso. apply (NS s (str_int y)); auto. apply str_int_shape.
  - exfalso. apply (NS s (str_float r)); auto. apply str_float_shape.
  - exfalso. apply (NS t (str_int z)); auto. apply str_int_shape.
  - f_equal. apply str_int_inj; auto.
  - exfalso. eauto.
  - exfalso. apply (NS t (str_float q)); auto. apply str_float_shape.
  - exfalso. eauto.
  - apply str_float_close; auto.
Qed.

(** * markers *)
Lemma item_free k v : identifier k -> plain_val v -> free " " (show_item (k, v)).
Proof.
  intros I P. unfold show_item. cbn [fst snd]. apply free_app. split; [apply identifier_free; auto|].
  apply free_app. split; [reflexivity|]. eapply all_free; [apply show_val_chars; auto|reflexivity].
Qed.
Lemma item_inj k v k' v' : identifier k -> identifier k' -> plain_val v -> plain_val v' -> show_item (k, v) = show_item (k', v') -> k = k' /\ close_val v v'.
Proof.
  intros I I' P P' E. unfold show_item in E. cbn [fst snd] in E.
  apply split_at in E as [-> E]; [|apply identifier_free; auto..]. split; auto. apply show_val_inj; auto.
Qed.
Lemma item_nonempty x : show_item x <> EmptyString.
Proof. destruct x as [[|c k] v]; unfold show_item; cbn; discriminate. Qed.
Lemma join_inj ps qs : plain_params ps -> plain_params qs -> join " | " (map show_item ps) = join " | " (map show_item qs) -> close_params ps qs.
Proof.
  assert (C : forall x y r, join " | " (map show_item (x :: y :: r)) = show_item x +++ String " " ("| " +++ join " | " (map show_item (y :: r)))) by reflexivity.
  revert qs; induction ps as [|[k v] ps IH]; intros [|[k' v'] qs] P Q E.
  - constructor.
  - exfalso. symmetry in E. cbn [map] in E. destruct qs as [|y qs].
    + cbn [map join] in E. apply (item_nonempty _ E).
    + change (show_item (k', v') :: map show_item (y :: qs)) with (map show_item ((k', v') :: y :: qs)) in E. rewrite C in E.
      cbn in E. unfold show_item in E. cbn in E. destruct k'; discriminate.
  - exfalso. cbn [map] in E. destruct ps as [|y ps].
    + cbn [map join] in E. apply (item_nonempty _ E).
    + change (show_item (k, v) :: map show_item (y :: ps)) with (map show_item ((k, v) :: y :: ps)) in E. rewrite C in E.
      cbn in E. unfold show_item in E. cbn in E. destruct k; discriminate.
  - destruct (P k v (or_introl eq_refl)) as [I1 V1]. destruct (Q k' v' (or_introl eq_refl)) as [I2 V2].
    assert (F1 : free " " (show_item (k, v))) by (apply item_free; auto). assert (F2 : free " " (show_item (k', v'))) by (apply item_free; auto).
    destruct ps as [|y ps], qs as [|y' qs].
    + cbn [map join] in E. constructor; [apply item_inj; auto|constructor].
    + exfalso. rewrite C in E. cbn [map join] in E. eapply split_none; [exact F1|exact E].
    + exfalso. rewrite C in E. cbn [map join] in E. symmetry in E. eapply split_none; [exact F2|exact E].
    + rewrite !C in E. apply split_at in E as [E1 E2]; auto. constructor; [apply item_inj; auto|].
      apply IH; [intros a b H; apply P; right; auto|intros a b H; apply Q; right; auto|]. injection E2; auto.
Qed.
Lemma marker_inj n ps m qs : identifier n -> identifier m -> plain_params ps -> plain_params qs ->
  marker_of n ps = marker_of m qs -> n = m /\ close_params ps qs.
Proof.
  intros N M P Q E. unfold marker_of in E.
  change (" -> " +++ join " | " (map show_item ps)) with (String " " ("-> " +++ join " | " (map show_item ps))) in E.
  change (" -> " +++ join " | " (map show_item qs)) with (String " " ("-> " +++ join " | " (map show_item qs))) in E.
  apply split_at in E as [-> E]; [|apply identifier_free; auto..]. split; auto. injection E as E. apply join_inj; auto.
Qed.
Lemma marker_not_name n ps m : identifier m -> m = marker_of n ps -> False.
Proof.
  intros M E. unfold marker_of in E.
  change (" -> " +++ join " | " (map show_item ps)) with (String " " ("-> " +++ join " | " (map show_item ps))) in E.
  eapply split_none; [|exact E]. apply identifier_free; auto.
Qed.
