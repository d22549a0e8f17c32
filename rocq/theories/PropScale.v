(** Properties C64, C120: feature scaling, text tables. *)
From Coq Require Import String Ascii Reals Lra.
From Verif Require Import Num ModelBase ModelConv ModelUtils RealFacts ModelMetrics MetricFacts ModelData.
From Coq Require Import Psatz.
Set Implicit Arguments.
Local Open Scope R_scope.

(** * C64: min-max scaling *)
Lemma lmin_fold (l : list R) : forall x, let m := fold_left lmin l x in (m = x \/ In m l) /\ m <= x /\ forall y, In y l -> m <= y.
Proof.
  induction l as [|a l IH]; intros x; cbn [fold_left]; [repeat split; auto; try lra; intros y []|].
  destruct (IH (lmin x a)) as (A & B & C). cbv zeta in *. set (m := fold_left lmin l (lmin x a)) in *.
  assert (D : (lmin x a = x /\ x <= a) \/ (lmin x a = a /\ a < x)).
  { unfold lmin. destruct (nleb x a) eqn:E; [apply nleb_true in E|apply nleb_false in E]; auto. }
  cbn [In]. split; [destruct A as [A|A]; auto; destruct D as [[D _]|[D _]]; rewrite D in A; auto|].
  split; [lra|]. intros y [<-|I]; auto. lra.
Qed.
Lemma lmax_fold (l : list R) : forall x, let m := fold_left lmax l x in (m = x \/ In m l) /\ x <= m /\ forall y, In y l -> y <= m.
Proof.
  induction l as [|a l IH]; intros x; cbn [fold_left]; [repeat split; auto; try lra; intros y []|].
  destruct (IH (lmax x a)) as (A & B & C). cbv zeta in *. set (m := fold_left lmax l (lmax x a)) in *.
  assert (D : (lmax x a = a /\ x <= a) \/ (lmax x a = x /\ a < x)).
  { unfold lmax. destruct (nleb x a) eqn:E; [apply nleb_true in E|apply nleb_false in E]; auto. }
  cbn [In]. split; [destruct A as [A|A]; auto; destruct D as [[D _]|[D _]]; rewrite D in A; auto|].
  split; [lra|]. intros y [<-|I]; auto. lra.
Qed.
(** [m] is the least and [M] the greatest entry *)
Definition bounds (X : list (list R)) (m M : R) : Prop := In m (concat X) /\ In M (concat X) /\ forall x, In x (concat X) -> m <= x <= M.
Lemma extremes (X : list (list R)) : concat X <> [] -> exists m M, extreme lmin (concat X) = Ok m /\ extreme lmax (concat X) = Ok M /\ bounds X m M.
Proof.
  unfold extreme, bounds. destruct (concat X) as [|x l]; [tauto|]. intros _. destruct (lmin_fold l x) as (A & B & C). destruct (lmax_fold l x) as (D & E & F).
  exists (fold_left lmin l x), (fold_left lmax l x). cbn [In]. repeat split; auto.
  - destruct A; auto.
  - destruct D; auto.
  - destruct H as [<-|I]; auto.
  - destruct H as [<-|I]; auto.
Qed.
(** a matrix that is not constant is mapped linearly so that its least entry becomes ft_min and its greatest ft_max *)
Theorem C64_min_max : forall (X : list (list R)) lo hi x y, In x (concat X) -> In y (concat X) -> x <> y -> lo < hi ->
  exists m M f, bounds X m M /\ min_max_scaler X lo hi = Ok (map (map f) X) /\
    (forall x, f x = lo + (x - m) / (M - m) * (hi - lo)) /\ f m = lo /\ f M = hi /\
    (forall x, In x (concat X) -> lo <= f x <= hi) /\ (forall x y, x < y -> f x < f y).
Proof.
  intros X lo hi x y JX JY N L. destruct (@extremes X) as (m & M & E1 & E2 & B); [intros E; rewrite E in JX; auto|].
  unfold min_max_scaler. rewrite E1, E2. cbn [rbind].
  assert (LT : nltb lo hi = true) by (apply nltb_true; auto). rewrite LT. unfold rbind.
  pose proof B as (_ & _ & H). pose proof (H x JX). pose proof (H y JY). assert (LM : m < M) by lra.
  destruct (neqb (nsub M m) nz) eqn:Q; [apply neqb_true in Q; cbn in Q; lra|].
  set (f := fun z => lo + (z - m) / (M - m) * (hi - lo)).
  assert (INC : forall a b, a < b -> f a < f b).
  { intros a b AB. unfold f. apply Rplus_lt_compat_l, Rmult_lt_compat_r; [lra|]. unfold Rdiv. apply Rmult_lt_compat_r; [apply Rinv_0_lt_compat; lra|lra]. }
  assert (F1 : f m = lo) by (unfold f; field; lra). assert (F2 : f M = hi) by (unfold f; field; lra).
  exists m, M, f. split; [auto|]. split; [|split; [auto|]; split; [auto|]; split; [auto|]; split; [|auto]].
  - f_equal. apply map_ext. intros r. apply map_ext. intros a. unfold f. cbn [nadd nmul nsub ninv Num_R]. rewrite Rinv0_ne by lra. field. lra.
  - intros z J. destruct (H z J) as [A1 A2]. split.
    + destruct A1 as [A1|A1]; [apply INC in A1; lra|rewrite <- A1; lra].
    + destruct A2 as [A2|A2]; [apply INC in A2; lra|rewrite A2; lra].
Qed.
(** the refused arguments; a constant matrix is one of them *)
Theorem C64_refused : forall (X : list (list R)) lo hi,
  (hi <= lo -> min_max_scaler X lo hi = Err AssertionError) /\
  (lo < hi -> concat X = [] -> min_max_scaler X lo hi = Err RuntimeError) /\
  (forall c, lo < hi -> concat X <> [] -> (forall x, In x (concat X) -> x = c) -> min_max_scaler X lo hi = Err ZeroDivisionError).
Proof.
  intros X lo hi. unfold min_max_scaler. split; [|split].
  - intros L. assert (E : nltb lo hi = false) by (apply nltb_false; auto). rewrite E. auto.
  - intros L E. assert (Q : nltb lo hi = true) by (apply nltb_true; auto). rewrite Q, E. auto.
  - intros c L NE A. assert (Q : nltb lo hi = true) by (apply nltb_true; auto). rewrite Q.
    destruct (extremes X NE) as (m & M & E1 & E2 & B1 & B2 & _). rewrite E1, E2. cbn [rbind].
    assert (Z : neqb (nsub M m) (nz : R) = true) by (apply neqb_true; cbn; rewrite (A m), (A M) by auto; lra). rewrite Z. auto.
Qed.

(** * C64: norms *)
Lemma abs_pow_nonneg x p : 0 <= abs_pow x p.
Proof. unfold abs_pow. destruct (Req_EM_T x 0); [lra|]. unfold Rpower. left. apply exp_pos. Qed.
Lemma abs_pow_pos x p : x <> 0 -> 0 < abs_pow x p.
Proof. intros N. unfold abs_pow. destruct (Req_EM_T x 0); [tauto|]. apply exp_pos. Qed.
Lemma abs_pow_mul x y p : abs_pow (x * y) p = abs_pow x p * abs_pow y p.
Proof.
  unfold abs_pow. destruct (Req_EM_T x 0) as [->|NX]; [destruct (Req_EM_T (0 * y) 0); lra|].
  destruct (Req_EM_T y 0) as [->|NY]; [destruct (Req_EM_T (x * 0) 0); lra|].
  destruct (Req_EM_T (x * y) 0) as [E|_]; [apply Rmult_integral in E; tauto|]. rewrite Rabs_mult. symmetry. apply Rpower_mult_distr; apply Rabs_pos_lt; auto.
Qed.
Lemma abs_pow_inv x p : 0 <= x -> 0 < p -> abs_pow (abs_pow x p) (/ p) = x.
Proof.
  intros P Q. unfold abs_pow at 2. destruct (Req_EM_T x 0) as [->|N]; [unfold abs_pow; destruct (Req_EM_T 0 0); lra|].
  assert (E : 0 < Rpower (Rabs x) p) by apply exp_pos. unfold abs_pow. destruct (Req_EM_T (Rpower (Rabs x) p) 0); [lra|].
  rewrite (Rabs_right (Rpower _ _)) by lra. rewrite Rpower_mult, Rinv_r by lra. rewrite Rabs_right by lra. apply Rpower_1. lra.
Qed.
Definition rsum (f : R -> R) (x : list R) : R := fold_right Rplus 0 (map f x).
Lemma rsum_pos f x : (forall a, 0 <= f a) -> (forall a, a <> 0 -> 0 < f a) -> 0 <= rsum f x /\ ((exists a, In a x /\ a <> 0) -> 0 < rsum f x).
Proof.
  intros A B. induction x as [|b x [IH1 IH2]]; unfold rsum in *; cbn [map fold_right].
  - split; [lra|]. intros (a & [] & _).
  - pose proof (A b). split; [lra|]. intros (a & [->|J] & N); [pose proof (B a N); lra|]. assert (0 < fold_right Rplus 0 (map f x)) by (apply IH2; eauto). lra.
Qed.
Lemma rsum_scale f k x : rsum (fun a => f a * k) x = rsum f x * k.
Proof. induction x as [|b x IH]; unfold rsum in *; cbn [map fold_right]; [lra|]. rewrite IH. lra. Qed.
Lemma rsum_ext f g x : (forall a, f a = g a) -> rsum f x = rsum g x.
Proof. intros E. unfold rsum. f_equal. apply map_ext. auto. Qed.
Lemma rmax_pos x : 0 <= fold_right Rmax 0 (map Rabs x) /\ ((exists a, In a x /\ a <> 0) -> 0 < fold_right Rmax 0 (map Rabs x)).
Proof.
  induction x as [|b x [IH1 IH2]]; cbn [map fold_right]; [split; [lra|intros (a & [] & _)]|].
  pose proof (Rmax_l (Rabs b) (fold_right Rmax 0 (map Rabs x))). pose proof (Rmax_r (Rabs b) (fold_right Rmax 0 (map Rabs x))).
  split; [lra|]. intros (a & [->|J] & N).
  - pose proof (Rabs_pos_lt a N). lra.
  - assert (0 < fold_right Rmax 0 (map Rabs x)) by (apply IH2; eauto). lra.
Qed.
Definition ord_ok (o : nord) : Prop := match o with OPow p => 0 < p | _ => True end.
Lemma vnorm_scale o x f : ord_ok o -> 0 <= f -> vnorm o (map (fun a => a * f) x) = vnorm o x * f.
Proof.
  intros O F. destruct o as [|p|]; cbn [vnorm ord_ok] in *.
  - rewrite map_map. fold (rsum (fun a => a * f * (a * f)) x). fold (rsum (fun a => a * a) x).
    rewrite (rsum_ext _ (fun a => a * a * (f * f))) by (intros; ring). rewrite rsum_scale, sqrt_mult_alt, sqrt_square; auto.
    apply (@rsum_pos (fun a => a * a)); intros; [nra|nra].
  - rewrite map_map. fold (rsum (fun a => abs_pow (a * f) p) x). fold (rsum (fun a => abs_pow a p) x).
    rewrite (rsum_ext _ (fun a => abs_pow a p * abs_pow f p)) by (intros; apply abs_pow_mul). rewrite rsum_scale, abs_pow_mul, abs_pow_inv; auto.
  - induction x as [|b x IH]; cbn [map fold_right]; [lra|]. rewrite IH, Rabs_mult, (Rabs_right f) by lra.
    rewrite (Rmult_comm (Rmax _ _)). rewrite <- RmaxRmult by auto. f_equal; ring.
Qed.
Lemma vnorm_pos o x : ord_ok o -> (exists a, In a x /\ a <> 0) -> 0 < vnorm o x.
Proof.
  intros O H. destruct o as [|p|]; cbn [vnorm].
  - apply sqrt_lt_R0. apply (@rsum_pos (fun a => a * a)); auto; intros; nra.
  - apply abs_pow_pos. assert (0 < rsum (fun a => abs_pow a p) x); [|unfold rsum in *; lra].
    apply rsum_pos; auto; intros; [apply abs_pow_nonneg|apply abs_pow_pos; auto].
  - apply rmax_pos. auto.
Qed.
(** every row with a non-zero entry is multiplied by a positive number and gets norm 1; a row of zeros stays as it is *)
Theorem C64_norm : forall o (X : list (list R)), ord_ok o ->
  Forall2 (fun x y => ((exists a, In a x /\ a <> 0) -> vnorm o y = 1 /\ exists c, 0 < c /\ y = map (Rmult c) x) /\
                      ((forall a, In a x -> a = 0) -> y = x)) X (norm_ft o X).
Proof.
  intros o X O. unfold norm_ft. induction X as [|x X IH]; cbn [map]; constructor; auto. clear IH. unfold norm_row. split.
  - intros H. pose proof (vnorm_pos o x O H) as P. destruct (Req_EM_T (vnorm o x) 0); [lra|]. assert (0 < / vnorm o x) by (apply Rinv_0_lt_compat; auto).
    split; [rewrite vnorm_scale by (auto; lra); field; lra|]. exists (/ vnorm o x). split; auto. apply map_ext. intros; ring.
  - intros A. set (f := if Req_EM_T (vnorm o x) 0 then 0 else / vnorm o x). clearbody f. induction x as [|b x IH]; cbn [map]; auto.
    rewrite (A b) by (left; auto). rewrite IH by (intros; apply A; right; auto). f_equal. ring.
Qed.
(** the norms are the usual ones *)
Theorem C64_norms : forall x p, 0 < p -> x <> [] ->
  vnorm ONone x * vnorm ONone x = fold_right Rplus 0 (map (fun a => a * a) x) /\
  abs_pow (vnorm (OPow p) x) p = fold_right Rplus 0 (map (fun a => abs_pow a p) x) /\
  (In (vnorm OInf x) (map Rabs x) /\ forall a, In a x -> Rabs a <= vnorm OInf x).
Proof.
  intros x p P NE. cbn [vnorm]. split; [|split; [|split]].
  - apply sqrt_sqrt. apply (@rsum_pos (fun a => a * a)); intros; nra.
  - pose proof (@abs_pow_inv (rsum (fun a => abs_pow a p) x) (/ p)) as H. rewrite Rinv_inv in H. apply H; [|apply Rinv_0_lt_compat; auto].
    apply (@rsum_pos (fun a => abs_pow a p)); intros; [apply abs_pow_nonneg|apply abs_pow_pos; auto].
  - destruct x as [|a x]; [tauto|]. clear NE. revert a. induction x as [|b x IH]; intros a; cbn [map fold_right].
    + left. rewrite Rmax_left; auto. pose proof (Rabs_pos a). lra.
    + specialize (IH b). cbn [map fold_right] in IH. destruct (Rmax_case_strong (Rabs a) (Rmax (Rabs b) (fold_right Rmax 0 (map Rabs x)))
        (fun m => m = Rabs a \/ m = Rmax (Rabs b) (fold_right Rmax 0 (map Rabs x)))) as [E|E]; auto; rewrite E; [left; auto|right; auto].
  - intros a J. induction x as [|b x IH]; [destruct J|]. cbn [map fold_right]. destruct J as [->|J]; [apply Rmax_l|].
    destruct x as [|c x]; [destruct J|]. eapply Rle_trans; [apply IH; auto; discriminate|apply Rmax_r].
Qed.
Example C64_min_max_run : exists f, min_max_scaler [[1; 3]; [2; 5]] (-1) 1 = Ok (map (map f) [[1; 3]; [2; 5]]) /\ f 1 = -1 /\ f 5 = 1 /\ f 3 = 0 /\ f 2 = - (1 / 2).
Proof.
  destruct (@C64_min_max [[1; 3]; [2; 5]] (-1) 1 1 5) as (m & M & f & B & E & F & F1 & F2 & _); [cbn; tauto|cbn; tauto|lra|lra|].
  destruct B as (B1 & B2 & B3). pose proof (B3 1 ltac:(cbn; tauto)). pose proof (B3 5 ltac:(cbn; tauto)). cbn in B1, B2.
  assert (m = 1) by lra. assert (M = 5) by lra. subst. exists f. split; auto. rewrite !F. repeat split; field.
Qed.
Example C64_norm_run : norm_ft ONone [[3; 4]; [0; 0]] = [[3 / 5; 4 / 5]; [0; 0]].
Proof.
  unfold norm_ft, norm_row. cbn [map vnorm fold_right].
  assert (S : sqrt (3 * 3 + (4 * 4 + 0)) = 5) by (replace (3 * 3 + (4 * 4 + 0)) with (5 * 5) by ring; apply sqrt_square; lra). rewrite S.
  destruct (Req_EM_T 5 0); [lra|]. assert (Z : forall f, 0 * f = 0) by (intros; ring). rewrite !Z. repeat f_equal; field.
Qed.

(** * C120: text tables *)
Local Open Scope string_scope.
Local Open Scope list_scope.
Fixpoint all_char (P : ascii -> Prop) (s : string) : Prop := match s with EmptyString => True | String c r => P c /\ all_char P r end.
Definition spaces0 (s : string) : Prop := all_char (fun c => is_space c = true) s.
(** a cell: not empty, without white space and without separators *)
Definition cell0 (sep : ascii -> bool) (s : string) : Prop := s <> "" /\ all_char (fun c => is_space c = false /\ sep c = false) s.
(** the cells with one separator between two of them *)
Definition joined (c : ascii) (ws : list string) : string := String.concat (String c "") ws.
Lemma app_str_nil s : String.append s "" = s.
Proof. induction s as [|c s IH]; cbn; congruence. Qed.
Lemma app_str_assoc a b c : String.append a (String.append b c) = String.append (String.append a b) c.
Proof. induction a as [|x a IH]; cbn; congruence. Qed.
Lemma joined_cons c w ws : joined c (w :: ws) = match ws with [] => w | _ => String.append w (String c (joined c ws)) end.
Proof. destruct ws; auto. Qed.
Lemma rstrip_spaces s : spaces0 s -> rstrip s = "".
Proof. induction s as [|c s IH]; cbn; auto. intros [H1 H2]. rewrite IH, H1; auto. Qed.
Lemma rstrip_app a b : spaces0 b -> rstrip (String.append a b) = rstrip a.
Proof. intros H. induction a as [|c a IH]; cbn; [apply rstrip_spaces; auto|]. rewrite IH. auto. Qed.
Lemma rstrip_keep a b : rstrip b = b -> b <> "" -> rstrip (String.append a b) = String.append a b.
Proof. intros E N. induction a as [|c a IH]; cbn; auto. rewrite IH. destruct (String.append a b) eqn:Q; auto. destruct a; cbn in Q; [tauto|discriminate]. Qed.
Lemma rstrip_cell sep w : cell0 sep w -> rstrip w = w.
Proof.
  intros [N A]. clear N. induction w as [|c w IH]; cbn; auto. destruct A as [[A1 _] A2]. rewrite IH by auto. destruct w; auto. rewrite A1. auto.
Qed.
Lemma rstrip_joined sep c ws : ws <> [] -> Forall (cell0 sep) ws -> rstrip (joined c ws) = joined c ws /\ joined c ws <> "".
Proof.
  intros N A. induction A as [|w ws W A IH]; [tauto|]. rewrite joined_cons. destruct ws as [|v ws]; [split; [eapply rstrip_cell; eauto|apply W]|].
  destruct IH as [E Q]; [discriminate|]. split.
  - apply rstrip_keep; [|discriminate]. apply (rstrip_keep (String c "")); auto.
  - destruct w; [destruct W; tauto|discriminate].
Qed.
Lemma lstrip_app a b : spaces0 a -> (forall c r, b = String c r -> is_space c = false) -> lstrip (String.append a b) = b.
Proof. intros A B. induction a as [|c a IH]; cbn; [destruct b; cbn; auto; rewrite (B _ _ eq_refl); auto|]. destruct A as [A1 A2]. rewrite A1. auto. Qed.
Lemma joined_head sep c ws x r : Forall (cell0 sep) ws -> joined c ws = String x r -> is_space x = false.
Proof.
  intros A. destruct A as [|w ws [N W] A]; [discriminate|]. rewrite joined_cons. destruct w as [|y w]; [tauto|]. destruct W as [[W _] _]. destruct ws; cbn; intros [= <- _]; auto.
Qed.
Lemma split_ne sep s : split_str sep s <> [].
Proof. induction s as [|c s IH]; cbn; [discriminate|]. destruct (split_str sep s); [tauto|]. destruct (sep c); discriminate. Qed.
Lemma split_app sep w c s : all_char (fun x => is_space x = false /\ sep x = false) w -> sep c = true -> split_str sep (String.append w (String c s)) = w :: split_str sep s.
Proof.
  intros A S. induction w as [|x w IH]; cbn.
  - destruct (split_str sep s) eqn:E; [destruct (split_ne sep s E)|]. rewrite S. auto.
  - destruct A as [[_ A1] A2]. rewrite IH by auto. rewrite A1. auto.
Qed.
Lemma split_cell sep w : all_char (fun x => is_space x = false /\ sep x = false) w -> split_str sep w = [w].
Proof. intros A. induction w as [|x w IH]; cbn; auto. destruct A as [[_ A1] A2]. rewrite IH by auto. rewrite A1. auto. Qed.
Lemma split_joined sep c ws : sep c = true -> ws <> [] -> Forall (cell0 sep) ws -> split_str sep (joined c ws) = ws.
Proof.
  intros S N A. induction A as [|w ws [_ W] A IH]; [tauto|]. rewrite joined_cons. destruct ws as [|v ws]; [apply split_cell; auto|].
  rewrite split_app by auto. f_equal. apply IH. discriminate.
Qed.
(** The same with the white space of [str.strip] for ASCII text spelled out: tab, line feed, vertical tab, form feed, carriage return,
    the four separators 28 to 31 and the space. *)
Definition whites : list ascii := ["009"; "010"; "011"; "012"; "013"; "028"; "029"; "030"; "031"; " "]%char.
Definition spaces (s : string) : Prop := all_char (fun c => In c whites) s.
Definition cell (sep : ascii -> bool) (s : string) : Prop := s <> "" /\ all_char (fun c => ~ In c whites /\ sep c = false) s.
Lemma white_is c : is_space c = true <-> In c whites.
Proof.
  split.
  - intros H. destruct c as [[] [] [] [] [] [] [] []]; try discriminate H; cbn; tauto.
  - intros H. repeat (destruct H as [<-|H]; [reflexivity|]). destruct H.
Qed.
Lemma all_char_impl (P Q : ascii -> Prop) s : (forall c, P c -> Q c) -> all_char P s -> all_char Q s.
Proof. intros I. induction s as [|c s IH]; cbn; intuition. Qed.
Lemma spaces_0 s : spaces s -> spaces0 s.
Proof. apply all_char_impl. intros c. apply white_is. Qed.
Lemma cell_0 sep s : cell sep s -> cell0 sep s.
Proof.
  intros [N A]. split; auto. revert A. apply all_char_impl. intros c [C S]. split; auto. apply not_true_is_false. rewrite white_is. exact C.
Qed.
(** [line] shows the cells [ws]: separated by one separator character, with any white space before and after *)
Definition shows (sep : ascii -> bool) (ws : list string) (line : string) : Prop :=
  exists c pre post, sep c = true /\ spaces pre /\ spaces post /\ line = String.append pre (String.append (joined c ws) post).
(** a table written this way, after [h] header lines of any form, is read back cell by cell *)
Theorem C120_table : forall (A : Type) (cast : string -> res A) sep h headers table lines,
  length headers = h -> Forall (fun ws => ws <> [] /\ Forall (cell sep) ws) table -> Forall2 (shows sep) table lines ->
  load_from_txt cast sep h (headers ++ lines) = map_res (map_res cast) table.
Proof.
  intros A cast sep h headers table lines H T L. unfold load_from_txt. rewrite skipn_app, skipn_all2 by lia. rewrite H, Nat.sub_diag. cbn [skipn app].
  induction L as [|ws line table lines S L IH]; auto. inversion T as [|? ? [N C] T']; subst. cbn [map_res]. rewrite IH by auto.
  destruct S as (c & pre & post & S1 & S2 & S3 & ->). apply spaces_0 in S2, S3. assert (C0 : Forall (cell0 sep) ws) by (revert C; apply Forall_impl; intros; apply cell_0; auto). clear C. rename C0 into C. destruct (rstrip_joined c N C) as [E1 E2].
  rewrite app_str_assoc, rstrip_app by auto. rewrite rstrip_keep by auto. rewrite lstrip_app by (auto; intros; eapply joined_head; eauto).
  rewrite split_joined by auto. auto.
Qed.
(** two separators in a row, or a blank line, give an empty cell, which is cast like any other *)
Theorem C120_empty_cell : forall (A : Type) (cast : string -> res A) sep line c w,
  (spaces line -> load_from_txt cast sep 0 [line] = rbind (cast "") (fun v => Ok [[v]])) /\
  (sep c = true -> cell sep w -> load_from_txt cast sep 0 [String.append w (String c (String c w))] =
     rbind (cast w) (fun v => rbind (cast "") (fun e => Ok [[v; e; v]]))).
Proof.
  intros A cast sep line c w. unfold load_from_txt. cbn [skipn map_res]. split.
  - intros S. apply spaces_0 in S. rewrite rstrip_spaces by auto. cbn. destruct (cast ""); auto.
  - intros S W. apply cell_0 in W. pose proof W as [W1 W2]. pose proof (rstrip_cell W) as R. rewrite rstrip_keep; [|apply (rstrip_keep (String c (String c ""))); auto|discriminate].
    assert (LS : forall s, lstrip (String.append w s) = String.append w s).
    { intros s. destruct w as [|x w]; [tauto|]. destruct W2 as [[E _] _]. cbn. rewrite E. auto. }
    rewrite LS, split_app by auto. pose proof (split_app sep "" c w I S) as SP. cbn [String.append] in SP. rewrite SP. rewrite split_cell by auto. cbn [map_res].
    unfold rbind. destruct (cast w) as [v|x]; auto. destruct (cast "") as [e|x]; auto.
Qed.
Definition comma_space_tab (c : ascii) : bool := existsb (Ascii.eqb c) [","%char; " "%char; "009"%char].
Example C120_run : load_from_txt (fun s => Ok s) comma_space_tab 1 ["# header, any"; " 1,22,3  "; String "004" (String "009" "5")] =
  Ok [["1"; "22"; "3"]; [String "004" ""; "5"]].
Proof. vm_compute. reflexivity. Qed.
