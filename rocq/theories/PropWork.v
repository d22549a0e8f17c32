(** The directories and log files of tasks (ModelWork.v): C193-C196. *)
From Coq Require Import String Ascii.
From Verif Require Import Num PyDict PyDictFacts ModelBase ModelData ModelWork.
Set Implicit Arguments.
Open Scope Z_scope.
Open Scope list_scope.

(** * What is at a path *)
Definition at_ (w : world) (p : path) : option node := match p with [] => Some NDir | _ => dget p (w_nodes w) end.
Definition under (a p : path) : Prop := exists r, p = a ++ r.
(** a tree of directories in which files have no second name, and open files *)
Definition wf (w : world) : Prop :=
  (forall p c, at_ w (p ++ [c]) <> None -> at_ w p = Some NDir) /\
  (forall p i, at_ w p = Some (NFile i) -> (i < length (w_data w))%nat) /\
  (forall p q i, at_ w p = Some (NFile i) -> at_ w q = Some (NFile i) -> p = q) /\
  (forall i, In i (w_handlers w) -> (i < length (w_data w))%nat).
(** nothing, a directory, or the lines of a file *)
Inductive sight := Nothing | Dir | Lines (l : list string).
Definition look (w : world) (p : path) : sight :=
  match at_ w p with None => Nothing | Some NDir => Dir | Some (NFile i) => Lines (nth i (w_data w) []) end.
(** a file that no handler has open *)
Definition closed (w : world) (p : path) : Prop := forall i, at_ w p = Some (NFile i) -> ~ In i (w_handlers w).

Lemma present_at w p : present w p = match at_ w p with None => false | _ => true end.
Proof. destruct p; auto. Qed.
Lemma is_dir_at w p : is_dir w p = match at_ w p with Some NDir => true | _ => false end.
Proof. destruct p; auto. Qed.
Lemma is_dir_iff w p : is_dir w p = true <-> at_ w p = Some NDir.
Proof. rewrite is_dir_at. destruct (at_ w p) as [[]|]; split; congruence. Qed.
Lemma is_prefix_iff a p : is_prefix a p = true <-> under a p.
Proof.
  unfold is_prefix. rewrite eqb_eq. split.
  - intros E. exists (skipn (length a) p). rewrite <- E at 1. symmetry. apply firstn_skipn.
  - intros [r ->]. rewrite firstn_app, Nat.sub_diag, firstn_all, firstn_O, app_nil_r. reflexivity.
Qed.
Lemma under_refl a : under a a.
Proof. exists []. rewrite app_nil_r. auto. Qed.
Lemma snoc_ne (a : path) c : a ++ [c] <> a.
Proof. intros E. apply (f_equal (@length string)) in E. rewrite app_length in E. cbn in E. lia. Qed.
Lemma above_dir w a r : wf w -> r <> [] -> at_ w (a ++ r) <> None -> at_ w a = Some NDir.
Proof.
  intros (C & _). induction r as [|c r IH] using rev_ind; intros NE; [congruence|]. rewrite app_assoc. intros H. apply C in H.
  destruct r as [|x r]; [rewrite app_nil_r in H; auto|]. apply IH; [discriminate|congruence].
Qed.
Lemma dget_filter_path (f : path -> bool) (d : dict path node) k : dget k (filter (fun x => f (fst x)) d) = if f k then dget k d else None.
Proof.
  induction d as [|[k' v] d IH]; cbn [filter dget fst]; [destruct (f k); auto|].
  destruct (f k') eqn:F; cbn [dget]; [rewrite IH; destruct (eqb k k') eqn:E; auto; apply eqb_eq in E; subst; rewrite F; auto|].
  rewrite IH. destruct (eqb k k') eqn:E; auto. apply eqb_eq in E. subst. rewrite F. auto.
Qed.
Lemma at_dset w p n d h q : p <> [] -> at_ (mkworld (dset p n (w_nodes w)) d h) q = if eqb q p then Some n else at_ w q.
Proof.
  intros NE. destruct (eqb q p) eqn:E.
  - apply eqb_eq in E. subst. destruct p; [congruence|]. cbn [at_ w_nodes]. apply dget_dset_same.
  - assert (q <> p) by (intros ->; rewrite (proj2 (eqb_eq p p)) in E; congruence). destruct q; auto. cbn [at_ w_nodes]. apply dget_dset_other; auto.
Qed.

(** * The steps *)
Lemma rmtree_spec p w w' : wf w -> at_ w p <> None -> rmtree p w = (w', true) ->
  p <> [] /\ at_ w p = Some NDir /\ w_data w' = w_data w /\ w_handlers w' = w_handlers w /\
  (forall q, under p q -> at_ w' q = None) /\ (forall q, ~ under p q -> at_ w' q = at_ w q) /\ wf w'.
Proof.
  intros W N E. unfold rmtree in E. destruct (is_dir w p) eqn:D; [|discriminate]. apply is_dir_iff in D.
  destruct p as [|c p]; [discriminate|]. injection E as <-. set (P := c :: p) in *. set (w' := mkworld _ _ _).
  assert (A : forall q, under P q -> at_ w' q = None).
  { intros q U. destruct q as [|x q]; [destruct U; discriminate|]. cbn [at_ w' w_nodes]. rewrite (dget_filter_path (fun f => negb (is_prefix P f))).
    rewrite (proj2 (is_prefix_iff _ _) U). auto. }
  assert (B : forall q, ~ under P q -> at_ w' q = at_ w q).
  { intros q U. destruct q as [|x q]; auto. cbn [at_ w' w_nodes]. rewrite (dget_filter_path (fun f => negb (is_prefix P f))).
    destruct (is_prefix P (x :: q)) eqn:E; auto. apply is_prefix_iff in E. tauto. }
  repeat (split; [solve [auto | discriminate]|]).
  assert (S : forall q n, at_ w' q = Some n -> at_ w q = Some n /\ ~ under P q).
  { intros q n E. destruct (is_prefix P q) eqn:EP; [apply is_prefix_iff in EP; rewrite A in E by auto; discriminate|].
    assert (~ under P q) by (intros U; apply is_prefix_iff in U; congruence). rewrite B in E by auto. auto. }
  destruct W as (W1 & W2 & W3 & W4). split; [|split; [|split]].
  - intros q x H. destruct (at_ w' (q ++ [x])) as [n|] eqn:E; [|congruence]. apply S in E as [E U]. rewrite B; [apply (W1 q x); congruence|].
    intros [r ->]. apply U. exists (r ++ [x]). apply app_assoc_reverse.
  - intros q i E. apply S in E as [E _]. eauto.
  - intros q q' i E E'. apply S in E as [E _]. apply S in E' as [E' _]. eauto.
  - exact W4.
Qed.
Lemma mkdir_spec p w w' ok : wf w -> mkdir p w = (w', ok) ->
  w_data w' = w_data w /\ w_handlers w' = w_handlers w /\ wf w' /\ (forall q, q <> p -> at_ w' q = at_ w q) /\
  (ok = true -> at_ w' p = Some NDir /\ at_ w (removelast p) = Some NDir /\ (at_ w p = None \/ at_ w p = Some NDir)) /\ (ok = false -> w' = w).
Proof.
  intros W E. unfold mkdir in E. destruct (is_dir w (removelast p)) eqn:D; cbn [negb] in E.
  2:{ injection E as <- <-. repeat (split; auto; try discriminate). }
  apply is_dir_iff in D. rewrite present_at, is_dir_at in E. destruct (at_ w p) as [n|] eqn:EA.
  - injection E as <- <-. repeat (split; [solve [auto]|]). split; auto. destruct n; [|discriminate]. auto.
  - assert (NE : p <> []) by (intros ->; discriminate). injection E as <- <-. pose proof W as (W1 & W2 & W3 & W4).
    assert (A : forall q, at_ (mkworld (dset p NDir (w_nodes w)) (w_data w) (w_handlers w)) q = if eqb q p then Some NDir else at_ w q) by (intros; apply at_dset; auto).
    split; auto. split; auto. split; [|split; [|split; [|discriminate]]].
    + split; [|split; [|split]]; auto.
      * intros q c. rewrite !A. match goal with |- (if ?b then _ else _) <> None -> _ => destruct b eqn:E1 end.
        -- apply eqb_eq in E1. subst p. rewrite removelast_last in D. intros _. match goal with |- (if ?b then _ else _) = _ => destruct b eqn:E2 end; auto.
        -- intros H. apply W1 in H. rewrite H. match goal with |- (if ?b then _ else _) = _ => destruct b end; auto.
      * intros q i. rewrite A. destruct (eqb q p); [discriminate|]. apply W2.
      * intros q q' i. rewrite !A. destruct (eqb q p), (eqb q' p); try discriminate. apply W3.
    + intros q NQ. rewrite A. destruct (eqb q p) eqn:E1; auto. apply eqb_eq in E1. congruence.
    + intros _. rewrite A, (proj2 (eqb_eq p p)) by auto. auto.
Qed.
Lemma open_spec p w w' i : wf w -> p <> [] -> open_append p w = (w', Some i) ->
  w_handlers w' = w_handlers w /\ wf w' /\ (forall q, q <> p -> at_ w' q = at_ w q) /\ at_ w' p = Some (NFile i) /\
  ((at_ w p = Some (NFile i) /\ w' = w) \/ (at_ w p = None /\ i = length (w_data w) /\ w_data w' = w_data w ++ [[]])).
Proof.
  intros W NE E. unfold open_append in E. destruct (is_dir w (removelast p)) eqn:D; cbn [negb] in E; [|discriminate]. apply is_dir_iff in D.
  assert (EA : at_ w p = dget p (w_nodes w)) by (destruct p; [congruence|reflexivity]). rewrite <- EA in E. destruct (at_ w p) as [[|j]|] eqn:E0; [discriminate| |].
  - injection E as <- <-. repeat (split; [solve [auto]|]). auto.
  - injection E as <- <-. pose proof W as (W1 & W2 & W3 & W4). set (k := length (w_data w)).
    assert (A : forall q, at_ (mkworld (dset p (NFile k) (w_nodes w)) (w_data w ++ [[]]) (w_handlers w)) q = if eqb q p then Some (NFile k) else at_ w q)
      by (intros; apply at_dset; auto).
    split; auto. split; [|split; [|split]].
    + assert (L : length (w_data w ++ [[]]) = S k) by (rewrite app_length; cbn; lia).
      split; [|split; [|split]]; cbn [w_data w_handlers]; rewrite ?L.
      * intros q c. rewrite !A. match goal with |- (if ?b then _ else _) <> None -> _ => destruct b eqn:E1 end.
        -- apply eqb_eq in E1. subst p. rewrite removelast_last in D. intros _. match goal with |- (if ?b then _ else _) = _ => destruct b eqn:E2 end; auto.
           apply eqb_eq in E2. symmetry in E2. apply snoc_ne in E2. tauto.
        -- intros H. apply W1 in H. match goal with |- (if ?b then _ else _) = _ => destruct b eqn:E2 end; auto. apply eqb_eq in E2. congruence.
      * intros q i. rewrite A. destruct (eqb q p); [injection 1 as <-; lia|]. intros H. apply W2 in H. lia.
      * intros q q' i. rewrite !A. destruct (eqb q p) eqn:E1, (eqb q' p) eqn:E2.
        -- apply eqb_eq in E1, E2. congruence.
        -- injection 1 as <-. intros H. apply W2 in H. lia.
        -- intros H. injection 1 as <-. apply W2 in H. lia.
        -- apply W3.
      * intros i I. apply W4 in I. lia.
    + intros q NQ. rewrite A. destruct (eqb q p) eqn:E1; auto. apply eqb_eq in E1. congruence.
    + rewrite A, (proj2 (eqb_eq p p)) by auto. auto.
    + right. auto.
Qed.
Lemma write_length i m d : length (write i m d) = length d.
Proof. revert i. induction d as [|l d IH]; intros [|i]; cbn; auto. Qed.
Lemma write_nth m d : forall i j, (j < length d)%nat -> nth j (write i m d) [] = nth j d [] ++ (if Nat.eq_dec i j then [m] else []).
Proof.
  induction d as [|l d IH]; intros [|i] [|j] L; cbn [length write nth] in *; try lia.
  - destruct (Nat.eq_dec 0 0); congruence.
  - destruct (Nat.eq_dec 0 (S j)); [discriminate|]. rewrite app_nil_r. auto.
  - destruct (Nat.eq_dec (S i) 0); [discriminate|]. rewrite app_nil_r. auto.
  - rewrite IH by lia. destruct (Nat.eq_dec i j), (Nat.eq_dec (S i) (S j)); auto; lia.
Qed.
Lemma info_spec m w : w_nodes (info m w) = w_nodes w /\ w_handlers (info m w) = w_handlers w /\ length (w_data (info m w)) = length (w_data w) /\
  forall j, (j < length (w_data w))%nat -> nth j (w_data (info m w)) [] = nth j (w_data w) [] ++ repeat m (count_occ Nat.eq_dec (w_handlers w) j).
Proof.
  split; auto. split; auto. cbn [info w_data]. generalize (w_handlers w) (w_data w). intros h. induction h as [|i h IH]; intros d; cbn [fold_left count_occ].
  - split; auto. intros. rewrite app_nil_r. auto.
  - destruct (IH (write i m d)) as [L N]. rewrite write_length in L, N. split; auto. intros j J. rewrite N, write_nth by auto.
    rewrite <- app_assoc. f_equal. destruct (Nat.eq_dec i j); cbn [repeat app]; auto.
Qed.
Lemma info_at m w p : at_ (info m w) p = at_ w p.
Proof. reflexivity. Qed.
Lemma info_wf m w : wf w -> wf (info m w).
Proof.
  destruct (info_spec m w) as (E1 & E2 & E3 & _). intros (W1 & W2 & W3 & W4). split; [|split; [|split]]; rewrite ?E2, ?E3; auto.
Qed.

(** * A new task *)
Definition greeting (root : path) : list string := [("Logs will be saved to " ++ show (log_of root))%string; ("Files in training will be saved in " ++ show root)%string].
Definition gone (ow : bool) (root q : path) : Prop := ow = true /\ under root q.
Lemma gone_dec ow root q : gone ow root q \/ ~ gone ow root q.
Proof.
  unfold gone. destruct ow; [|right; intros [E _]; discriminate]. destruct (is_prefix root q) eqn:E; [left; split; auto; apply is_prefix_iff; auto|].
  right. intros [_ U]. apply is_prefix_iff in U. congruence.
Qed.
Lemma rmtree_wf p w w' ok : wf w -> rmtree p w = (w', ok) -> wf w' /\ w_data w' = w_data w /\ w_handlers w' = w_handlers w /\ (forall q, ~ under p q -> at_ w' q = at_ w q).
Proof.
  intros W E. unfold rmtree in E. destruct (is_dir w p) eqn:D; [|injection E as <- <-; auto].
  destruct p as [|c p].
  - injection E as <- <-. assert (A : forall q, at_ (mkworld (filter (fun f : path * node => negb (is_prefix [] (fst f))) (w_nodes w)) (w_data w) (w_handlers w)) q = match q with [] => Some NDir | _ => None end).
    { intros [|x q]; auto. cbn [at_ w_nodes]. rewrite (dget_filter_path (fun f => negb (is_prefix [] f))).
      reflexivity. }
    destruct W as (W1 & W2 & W3 & W4). split; [|split; [|split]]; auto.
    + split; [|split; [|split]]; auto.
      * intros q x. rewrite !A. destruct q; cbn [app]; congruence.
      * intros q i. rewrite A. destruct q; discriminate.
      * intros q q' i. rewrite !A. destruct q; discriminate.
    + intros q U. destruct U. exists q. auto.
  - assert (E1 : rmtree (c :: p) w = (w', true)) by (unfold rmtree; rewrite D; injection E as <- _; auto).
    apply is_dir_iff in D. destruct (@rmtree_spec (c :: p) w w' W ltac:(congruence) E1) as (_ & _ & ED & EH & _ & B & W'). auto.
Qed.
Lemma clear_spec ow root w w' ok : wf w -> (if ow && present w root then rmtree root w else (w, true)) = (w', ok) ->
  wf w' /\ w_data w' = w_data w /\ w_handlers w' = w_handlers w /\ (forall q, ~ gone ow root q -> at_ w' q = at_ w q) /\
  (ok = true -> forall q, gone ow root q -> at_ w' q = None).
Proof.
  intros W E. destruct ow; cbn [andb] in E.
  - rewrite present_at in E. destruct (at_ w root) as [n|] eqn:EA.
    + destruct (rmtree_wf _ W E) as (W' & ED & EH & B). repeat (split; [solve [auto]|]). split.
      * intros q NG. apply B. intros U. apply NG. split; auto.
      * intros -> q [_ U]. destruct (@rmtree_spec root w w' W ltac:(congruence) E) as (_ & _ & _ & _ & A & _). auto.
    + injection E as <- <-. repeat (split; [solve [auto]|]). intros _ q [_ [r ->]].
      destruct r as [|c r]; [rewrite app_nil_r; auto|]. destruct (at_ w (root ++ c :: r)) as [n|] eqn:E; auto.
      assert (H : at_ w root = Some NDir) by (apply (@above_dir w root (c :: r)); congruence). congruence.
  - injection E as <- <-. repeat (split; [solve [auto]|]). intros _ q [X _]. discriminate.
Qed.
Lemma work_spec work w w' r : wf w ->
  (if present w work then (w, None) else if present w (removelast work) then let (w, ok) := mkdir work w in (w, if ok then None else Some OsError) else (w, Some NoWorkRoot)) = (w', r) ->
  wf w' /\ w_data w' = w_data w /\ w_handlers w' = w_handlers w /\ (forall q, at_ w q <> None -> at_ w' q = at_ w q) /\ (forall q, q <> work -> at_ w' q = at_ w q) /\
  (r = None -> at_ w' work <> None /\ (at_ w work = None -> at_ w' work = Some NDir /\ at_ w (removelast work) = Some NDir)) /\
  (r = Some NoWorkRoot <-> at_ w work = None /\ at_ w (removelast work) = None) /\ (r = Some NoWorkRoot -> w' = w).
Proof.
  intros W E. rewrite !present_at in E. destruct (at_ w work) as [n|] eqn:EW.
  - injection E as <- <-. repeat (split; [solve [auto]|]). split; [split; congruence|]. split; [|discriminate]. split; [discriminate|]. intros []. congruence.
  - destruct (at_ w (removelast work)) as [n|] eqn:ER.
    + destruct (mkdir work w) as [w1 ok] eqn:EM. injection E as <- <-. destruct (mkdir_spec _ W EM) as (ED & EH & W1 & A & K & F).
      repeat (split; [solve [auto]|]). split; [intros q Q; apply A; congruence|]. split; auto. split.
      * destruct ok; [|discriminate]. intros _. destruct (K eq_refl) as (K1 & K2 & _). split; [congruence|]. rewrite ER in K2. auto.
      * destruct ok; (split; [split; [discriminate|intros []; congruence]|discriminate]).
    + injection E as <- <-. repeat (split; [solve [auto]|]). split; [discriminate|]. split; auto. split; auto.
Qed.
Lemma create_spec work name ow w w' r : wf w -> create work name ow w = (w', r) -> let root := join work name in
  wf w' /\ (forall q i, at_ w q = Some (NFile i) -> ~ gone ow root q -> at_ w' q = Some (NFile i)) /\
  (length (w_data w) <= length (w_data w'))%nat /\
  (exists hs, w_handlers w' = w_handlers w ++ hs) /\
  (forall j, (j < length (w_data w))%nat -> exists l, nth j (w_data w') [] = nth j (w_data w) [] ++ l) /\
  match r with
  | Created root' => root' = root /\ at_ w' root = Some NDir /\ at_ w' (cache_of root) = Some NDir /\ at_ w' work <> None /\
      (forall q, q <> work -> q <> root -> q <> cache_of root -> q <> log_of root -> ~ gone ow root q -> at_ w' q = at_ w q) /\
      (forall q, q <> root -> q <> cache_of root -> q <> log_of root -> gone ow root q -> at_ w' q = None) /\
      (forall q n, at_ w q = Some n -> ~ gone ow root q -> at_ w' q = Some n) /\
      (exists i, at_ w' (log_of root) = Some (NFile i) /\ w_handlers w' = w_handlers w ++ [i] /\
         ((at_ w (log_of root) = Some (NFile i) /\ ow = false /\ length (w_data w') = length (w_data w)) \/
          (i = length (w_data w) /\ length (w_data w') = S (length (w_data w)))) /\
         (forall j, (j < length (w_data w'))%nat -> let k := count_occ Nat.eq_dec (w_handlers w') j in
            nth j (w_data w') [] = nth j (w_data w) [] ++ repeat (nth 0 (greeting root) EmptyString) k ++ repeat (nth 1 (greeting root) EmptyString) k))
  | NoWorkRoot => (forall q, ~ gone ow root q -> at_ w' q = at_ w q) /\ at_ w' work = None /\ at_ w' (removelast work) = None
  | OsError => True
  end.
Proof.
  intros W E root. unfold create in E. fold root in E.
  destruct (if ow && present w root then rmtree root w else (w, true)) as [w1 ok1] eqn:E1.
  destruct (clear_spec _ _ W E1) as (W1 & D1 & H1 & A1 & B1).
  assert (T1 : (forall q i, at_ w q = Some (NFile i) -> ~ gone ow root q -> at_ w1 q = Some (NFile i))) by (intros; rewrite A1; auto).
  assert (TR : forall wx, w_data wx = w_data w -> w_handlers wx = w_handlers w -> (length (w_data w) <= length (w_data wx))%nat /\ (exists hs, w_handlers wx = w_handlers w ++ hs) /\
    (forall j, (j < length (w_data w))%nat -> exists l, nth j (w_data wx) [] = nth j (w_data w) [] ++ l)).
  { intros wx EX EH. rewrite EX, EH. split; auto. split; [exists []; rewrite app_nil_r; auto|]. intros j _. exists []. rewrite app_nil_r. auto. }
  destruct ok1; cbn [negb] in E; [|injection E as <- <-; destruct (TR w1 D1 H1) as (? & ? & ?); auto 10].
  specialize (B1 eq_refl).
  match type of E with context [if present w1 work then ?a else ?b] => destruct (if present w1 work then a else b) as [w2 r2] eqn:E2 end.
  destruct (work_spec _ W1 E2) as (W2 & D2 & H2 & K2 & A2 & R2 & NR & NS).
  assert (T2 : (forall q i, at_ w q = Some (NFile i) -> ~ gone ow root q -> at_ w2 q = Some (NFile i))).
  { intros q i Q G. pose proof (T1 _ _ Q G) as X. rewrite K2; auto. congruence. }
  destruct (TR w2 ltac:(congruence) ltac:(congruence)) as (TA & TB & TC).
  destruct r2 as [r2|].
  { injection E as <- <-. split; auto. split; auto. split; auto. split; auto. split; auto. destruct r2; auto.
    - exfalso. revert E2. destruct (present w1 work); [discriminate|]. destruct (present w1 (removelast work)); [|discriminate]. destruct (mkdir work w1) as [? []]; discriminate.
    - destruct NR as [NR _]. destruct (NR eq_refl). rewrite (NS eq_refl) in *. auto. }
  destruct (R2 eq_refl) as [PW NW]. clear R2 NR NS.
  destruct (mkdir root w2) as [w3 ok3] eqn:E3. destruct (mkdir_spec _ W2 E3) as (D3 & H3 & W3 & A3 & B3 & C3).
  assert (F3 : forall q i, at_ w q = Some (NFile i) -> ~ gone ow root q -> at_ w3 q = Some (NFile i)).
  { intros q i Q G. destruct ok3; [|rewrite (C3 eq_refl); auto]. destruct (B3 eq_refl) as (_ & _ & X). pose proof (T2 _ _ Q G) as Y. rewrite A3; auto. intros ->. destruct X; congruence. }
  destruct ok3; cbn [negb] in E.
  2:{ injection E as <- <-. destruct (TR w3 ltac:(congruence) ltac:(congruence)) as (? & ? & ?). auto 10. }
  destruct (B3 eq_refl) as (R3 & PR & O3). clear B3 C3.
  destruct (mkdir (cache_of root) w3) as [w4 ok4] eqn:E4. destruct (mkdir_spec _ W3 E4) as (D4 & H4 & W4 & A4 & B4 & C4).
  assert (F4 : forall q i, at_ w q = Some (NFile i) -> ~ gone ow root q -> at_ w4 q = Some (NFile i)).
  { intros q i Q G. destruct ok4; [|rewrite (C4 eq_refl); auto]. destruct (B4 eq_refl) as (_ & _ & X). pose proof (F3 _ _ Q G) as Y. rewrite A4; auto. intros ->. destruct X; congruence. }
  destruct ok4; cbn [negb] in E.
  2:{ injection E as <- <-. destruct (TR w4 ltac:(congruence) ltac:(congruence)) as (? & ? & ?). auto 10. }
  destruct (B4 eq_refl) as (R4 & _ & O4). clear B4 C4.
  destruct (open_append (log_of root) w4) as [w5 [i|]] eqn:E5.
  2:{ assert (w5 = w4). { unfold open_append in E5. destruct (negb _); [congruence|]. destruct (dget _ _) as [[]|]; congruence. }
      subst w5. injection E as <- <-. destruct (TR w4 ltac:(congruence) ltac:(congruence)) as (? & ? & ?). auto 10. }
  assert (NL : log_of root <> []) by (unfold log_of; destruct root; discriminate).
  destruct (open_spec W4 NL E5) as (H5 & W5 & A5 & R5 & O5).
  set (w6 := mkworld (w_nodes w5) (w_data w5) (w_handlers w5 ++ [i])) in E.
  assert (W6 : wf w6).
  { destruct W5 as (a & b & c & d). split; [exact a|]. split; [exact b|]. split; [exact c|]. intros j J. cbn [w6 w_handlers] in J. apply in_app_or in J as [J|[<-|[]]]; [apply d; auto|].
    apply (b (log_of root)); auto. }
  set (m1 := nth 0 (greeting root) EmptyString). set (m2 := nth 1 (greeting root) EmptyString).
  change ("Logs will be saved to " ++ show (log_of root))%string with m1 in E. change ("Files in training will be saved in " ++ show root)%string with m2 in E.
  injection E as <- <-. pose proof (info_spec m1 w6) as (_ & I1 & I2 & I3). pose proof (info_spec m2 (info m1 w6)) as (_ & J1 & J2 & J3).
  assert (DATA : forall j, (j < length (w_data w5))%nat -> nth j (w_data (info m2 (info m1 w6))) [] =
    nth j (w_data w5) [] ++ repeat m1 (count_occ Nat.eq_dec (w_handlers w6) j) ++ repeat m2 (count_occ Nat.eq_dec (w_handlers w6) j)).
  { intros j L. rewrite J3 by (rewrite I2; exact L). rewrite I3 by exact L. rewrite I1, <- app_assoc. reflexivity. }
  assert (LEN : length (w_data (info m2 (info m1 w6))) = length (w_data w5)) by (rewrite J2, I2; reflexivity).
  assert (HS : w_handlers w6 = w_handlers w ++ [i]) by (cbn [w6 w_handlers]; congruence).
  assert (AT : forall q, at_ (info m2 (info m1 w6)) q = at_ w5 q) by reflexivity.
  assert (D5 : w_data w4 = w_data w) by congruence.
  assert (L5 : (length (w_data w) <= length (w_data w5))%nat) by (destruct O5 as [[_ ->]|(_ & _ & ->)]; rewrite ?app_length, D5; lia).
  assert (N5 : forall j, nth j (w_data w5) [] = nth j (w_data w) []).
  { intros j. destruct O5 as [[_ ->]|(_ & _ & ->)]; rewrite ?D5; auto. destruct (Nat.lt_ge_cases j (length (w_data w))) as [L|L].
    - rewrite app_nth1; auto.
    - rewrite app_nth2, (nth_overflow (w_data w)) by auto. destruct (j - length (w_data w))%nat as [|[|]]; auto. }
  assert (KEEP : forall q n, at_ w q = Some n -> ~ gone ow root q -> at_ w5 q = Some n).
  { intros q n Q G.
    assert (X1 : at_ w1 q = Some n) by (rewrite A1; auto). assert (X2 : at_ w2 q = Some n) by (rewrite K2; congruence).
    assert (X3 : at_ w3 q = Some n). { destruct (list_eq_dec string_dec q root) as [->|NQ]; [destruct O3; congruence|]. rewrite A3; auto. }
    assert (X4 : at_ w4 q = Some n). { destruct (list_eq_dec string_dec q (cache_of root)) as [->|NQ]; [destruct O4; congruence|]. rewrite A4; auto. }
    destruct (list_eq_dec string_dec q (log_of root)) as [->|NQ]; [destruct O5 as [[O5 _]|[O5 _]]; congruence|]. rewrite A5; auto. }
  split; [apply info_wf, info_wf; auto|]. split; [intros; rewrite AT; apply KEEP; auto|]. split; [rewrite LEN; auto|].
  split; [exists [i]; rewrite J1, I1; auto|]. split.
  { intros j L. rewrite DATA by lia. rewrite N5. eauto. }
  assert (CR : cache_of root <> root) by apply snoc_ne. assert (LR : log_of root <> root) by apply snoc_ne.
  assert (CL : cache_of root <> log_of root) by (unfold cache_of, log_of; intros X; apply app_inv_head in X; discriminate).
  rewrite !AT. split; auto. split; [rewrite A5, A4; auto|]. split; [rewrite A5; auto|]. split.
  { destruct (list_eq_dec string_dec work (log_of root)) as [EW|N1]; [rewrite EW, ?A5, ?A4 by auto; congruence|]. rewrite A5 by auto.
    destruct (list_eq_dec string_dec work (cache_of root)) as [EW|N2]; [rewrite EW, ?A5, ?A4 by auto; congruence|]. rewrite A4 by auto.
    destruct (list_eq_dec string_dec work root) as [EW|N3]; [rewrite EW, ?A5, ?A4 by auto; congruence|]. rewrite A3 by auto. auto. }
  split; [intros q Q1 Q2 Q3 Q4 G; rewrite AT, A5, A4, A3, A2 by auto; auto|]. split.
  { intros q Q2 Q3 Q4 G. rewrite AT, A5, A4, A3 by auto. destruct (list_eq_dec string_dec q work) as [->|NQ]; [|rewrite A2 by auto; auto].
    exfalso. destruct G as [-> [rr X]]. destruct rr as [|c rr] using rev_ind; [rewrite app_nil_r in X; congruence|]. clear IHrr.
    assert (G1 : at_ w1 work = None) by (apply B1; split; auto; exists (rr ++ [c]); auto).
    destruct (NW G1) as [_ P1]. rewrite X, app_assoc, removelast_last in P1. rewrite B1 in P1; [discriminate|]. split; auto. exists rr. auto. }
  split; [intros; rewrite AT; apply KEEP; auto|].
  exists i. split; auto. split; [rewrite J1, I1; auto|]. split.
  - rewrite LEN. destruct O5 as [[X Y]|(X & Y & Y')].
    + left. subst w5. rewrite A4, A3 in X by auto. destruct (gone_dec ow root (log_of root)) as [G|G].
      * exfalso. destruct (list_eq_dec string_dec (log_of root) work) as [EW|NE]; [|rewrite A2, B1 in X by auto; discriminate].
        rewrite EW in *. destruct G as [-> G]. assert (at_ w1 work = None) by (apply B1; split; auto). destruct (NW H) as [X' _]. congruence.
      * split; [|split; [|congruence]].
        -- destruct (list_eq_dec string_dec (log_of root) work) as [EW|NE]; [|rewrite A2, A1 in X by auto; auto].
           rewrite EW in *. destruct (at_ w1 work) as [n|] eqn:Z; [rewrite K2, Z in X by congruence; rewrite <- A1 by auto; congruence|]. destruct (NW eq_refl) as [X' _]. congruence.
        -- destruct ow; auto. exfalso. apply G. split; auto. exists ["log.txt"%string]. auto.
    + right. rewrite Y', app_length, D5. cbn. split; [congruence|lia].
  - rewrite LEN. intros j L. rewrite DATA by auto. rewrite N5, J1, I1. reflexivity.
Qed.

(** a name of one component *)
Definition plain (name : string) : Prop := name <> EmptyString /\ name <> "."%string /\ name <> ".."%string /\ forall i, String.get i name <> Some "/"%char.
Lemma split_plain name : (forall i, String.get i name <> Some "/"%char) -> split_str (Ascii.eqb "/") name = [name].
Proof.
  induction name as [|c s IH]; intros H; cbn [split_str]; auto. rewrite IH by (intros i; apply (H (S i))).
  destruct (Ascii.eqb_spec "/" c) as [<-|]; auto. exfalso. apply (H 0%nat). reflexivity.
Qed.
Lemma join_plain work name : plain name -> join work name = work ++ [name].
Proof.
  intros (N1 & N2 & _ & N3). unfold join, parse. rewrite split_plain by auto. cbn [filter].
  rewrite (proj2 (String.eqb_neq name "") N1), (proj2 (String.eqb_neq name ".") N2). cbn [orb negb].
  destruct name as [|c s]; [congruence|]. destruct (Ascii.eqb_spec c "/") as [->|]; auto. exfalso. apply (N3 0%nat). reflexivity.
Qed.
Lemma look_at w p : (look w p = Nothing <-> at_ w p = None) /\ (look w p = Dir <-> at_ w p = Some NDir).
Proof. unfold look. destruct (at_ w p) as [[]|]; split; split; congruence. Qed.
Lemma cut_absent (w : world) p c : wf w -> at_ w p = None -> at_ w (p ++ [c]) = None.
Proof. intros (W & _) E. destruct (at_ w (p ++ [c])) as [n|] eqn:X; auto. assert (at_ w p = Some NDir) by (apply (W p c); congruence). congruence. Qed.

(** what the rest of the disk looks like after a task was made *)
Lemma create_elsewhere work name ow w w' root q : wf w -> create work name ow w = (w', Created root) -> ~ gone ow root q -> q <> work -> q <> root -> q <> cache_of root -> q <> log_of root ->
  closed w q -> look w' q = look w q.
Proof.
  intros W E G Q1 Q2 Q3 Q4 C. destruct (create_spec _ _ _ W E) as (W' & _ & _ & _ & _ & -> & _ & _ & _ & A & _ & _ & i & EI & EH & O & DA).
  unfold look. rewrite A by auto. destruct (at_ w q) as [[|j]|] eqn:EQ; auto. f_equal. pose proof W as (_ & W2 & W3 & _). pose proof (W2 _ _ EQ) as L.
  assert (L' : (j < length (w_data w'))%nat) by (destruct O as [(_ & _ & X)|(_ & X)]; lia). rewrite DA by auto. rewrite EH, count_occ_app.
  assert (NI : ~ In j (w_handlers w)) by (apply C; auto). apply (count_occ_not_In Nat.eq_dec) in NI. rewrite NI. cbn [count_occ].
  destruct (Nat.eq_dec i j) as [<-|]; cbn [repeat Nat.add app]; rewrite ?app_nil_r; auto.
  exfalso. destruct O as [(X & _)|(X & _)]; [|lia]. apply Q4. eapply W3; eauto.
Qed.

(** * C193: a task keeps to its study directory *)
Theorem C193_overwrite : forall work name w w' root, wf w -> plain name -> create work name true w = (w', Created root) ->
  root = work ++ [name] /\ look w' root = Dir /\ look w' (root ++ ["cache"%string]) = Dir /\ look w' (root ++ ["log.txt"%string]) = Lines (greeting root) /\
  (* nothing else is left of an older study of that name *)
  (forall q, under root q -> q <> root -> q <> root ++ ["cache"%string] -> q <> root ++ ["log.txt"%string] -> look w' q = Nothing) /\
  (* the rest of the disk is as before, up to the lines that go to log files that are open already *)
  (forall q, ~ under root q -> q <> work -> closed w q -> look w' q = look w q) /\
  (forall q, ~ under root q -> look w q = Dir -> look w' q = Dir).
Proof.
  intros work name w w' root W PL E. pose proof (create_spec _ _ _ W E) as (W' & _ & _ & _ & _ & ER & R1 & R2 & _ & A & G & K & i & EI & EH & O & DA).
  rewrite (join_plain _ PL) in *. subst root. set (root := work ++ [name]) in *. split; auto. split; [apply look_at; auto|]. split; [apply look_at; auto|].
  assert (UL : forall r, under root (root ++ r)) by (intros r; exists r; auto). split; [|split; [|split]].
  - unfold look. change (root ++ ["log.txt"%string]) with (log_of root). rewrite EI. destruct O as [(_ & X & _)|[X Y]]; [discriminate|]. rewrite DA by lia. rewrite nth_overflow by lia.
    assert (NI : ~ In i (w_handlers w)) by (intros I; destruct W as (_ & _ & _ & W4); apply W4 in I; lia).
    apply (count_occ_not_In Nat.eq_dec) in NI. rewrite EH, count_occ_app, NI. cbn [count_occ]. destruct (Nat.eq_dec i i); [|congruence]. reflexivity.
  - intros q U Q1 Q2 Q3. apply look_at. apply G; auto. split; auto.
  - intros q U QW C. eapply create_elsewhere; eauto; [intros [_ X]; auto|intros ->; apply U, under_refl|intros ->; apply U, UL|intros ->; apply U, UL].
  - intros q U D. apply look_at. apply look_at in D. apply K; auto. intros [_ X]. tauto.
Qed.
Theorem C193_keeps : forall work name w w' root, wf w -> plain name -> create work name false w = (w', Created root) ->
  root = work ++ [name] /\ look w' root = Dir /\ look w' (root ++ ["cache"%string]) = Dir /\
  (forall q, look w q = Dir -> look w' q = Dir) /\
  (forall q, q <> root ++ ["log.txt"%string] -> closed w q -> look w q <> Nothing -> look w' q = look w q) /\
  (closed w (root ++ ["log.txt"%string]) ->
   look w' (root ++ ["log.txt"%string]) = Lines (match look w (root ++ ["log.txt"%string]) with Lines l => l ++ greeting root | _ => greeting root end)).
Proof.
  intros work name w w' root W PL E. pose proof (create_spec _ _ _ W E) as (W' & _ & _ & _ & _ & ER & R1 & R2 & _ & A & G & K & i & EI & EH & O & DA).
  rewrite (join_plain _ PL) in *. subst root. set (root := work ++ [name]) in *. assert (NG : forall q, ~ gone false root q) by (intros q [X _]; discriminate).
  split; auto. split; [apply look_at; auto|]. split; [apply look_at; auto|]. split; [|split].
  - intros q D. apply look_at. apply look_at in D. auto.
  - intros q Q C N. destruct (at_ w q) as [[|j]|] eqn:EQ; [|unfold look at 1; rewrite (K _ _ EQ (NG q))|exfalso; apply N; apply look_at; auto].
    + assert (D : look w q = Dir) by (apply look_at; auto). rewrite D. apply look_at. auto.
    + unfold look. rewrite EQ. f_equal. pose proof W as (_ & W2 & W3 & _). pose proof (W2 _ _ EQ) as L.
      assert (L' : (j < length (w_data w'))%nat) by (destruct O as [(_ & _ & X)|(_ & X)]; lia). rewrite DA by auto. rewrite EH, count_occ_app.
      assert (NI : ~ In j (w_handlers w)) by (apply C; auto). apply (count_occ_not_In Nat.eq_dec) in NI. rewrite NI. cbn [count_occ].
      destruct (Nat.eq_dec i j) as [<-|]; cbn [repeat Nat.add app]; rewrite ?app_nil_r; auto.
      exfalso. destruct O as [(X & _)|(X & _)]; [|lia]. apply Q. eapply W3; eauto.
  - intros C. change (root ++ ["log.txt"%string]) with (log_of root) in *. unfold look at 1. rewrite EI. f_equal.
    destruct O as [(X & _ & Y)|[X Y]].
    + unfold look. rewrite X. pose proof W as (_ & W2 & _). pose proof (W2 _ _ X) as L. rewrite DA by lia. rewrite EH, count_occ_app.
      assert (NI : ~ In i (w_handlers w)) by (apply C; auto). apply (count_occ_not_In Nat.eq_dec) in NI. rewrite NI. cbn [count_occ]. destruct (Nat.eq_dec i i); [|congruence]. reflexivity.
    + assert (NL : look w (log_of root) = Nothing \/ exists l, look w (log_of root) = Lines l /\ l = []).
      { unfold look. destruct (at_ w (log_of root)) as [[|j]|] eqn:EQ; auto; exfalso; pose proof (K _ _ EQ (NG _)) as Z; rewrite EI in Z; [discriminate|].
        injection Z as <-. destruct W as (_ & W2 & _). apply W2 in EQ. lia. }
      rewrite DA by lia. rewrite nth_overflow by lia. assert (NI : ~ In i (w_handlers w)) by (intros I; destruct W as (_ & _ & _ & W4); apply W4 in I; lia).
      apply (count_occ_not_In Nat.eq_dec) in NI. rewrite EH, count_occ_app, NI. cbn [count_occ]. destruct (Nat.eq_dec i i); [|congruence].
      destruct NL as [->|(l & -> & ->)]; reflexivity.
Qed.

Lemma mkdir_ok p w : at_ w (removelast p) = Some NDir -> at_ w p = None \/ at_ w p = Some NDir -> exists w', mkdir p w = (w', true).
Proof. intros E O. unfold mkdir. rewrite (proj2 (is_dir_iff _ _) E), present_at, is_dir_at. destruct O as [->| ->]; cbn; eauto. Qed.
Lemma create_runs work name ow w w1 w2 : wf w -> let root := join work name in root <> [] ->
  (if ow && present w root then rmtree root w else (w, true)) = (w1, true) ->
  (if present w1 work then (w1, None) else if present w1 (removelast work) then let (w, ok) := mkdir work w1 in (w, if ok then None else Some OsError) else (w1, Some NoWorkRoot)) = (w2, None) ->
  at_ w2 (removelast root) = Some NDir -> at_ w2 root = None \/ at_ w2 root = Some NDir ->
  at_ w2 (cache_of root) = None \/ at_ w2 (cache_of root) = Some NDir -> at_ w2 (log_of root) <> Some NDir ->
  exists w', create work name ow w = (w', Created root).
Proof.
  intros W root NR E1 E2 P O OC OL. destruct (clear_spec _ _ W E1) as (W1 & _). destruct (work_spec _ W1 E2) as (W2 & _).
  unfold create. fold root. rewrite E1. cbn [negb]. rewrite E2.
  destruct (@mkdir_ok root w2 P O) as [w3 E3]. rewrite E3. cbn [negb]. destruct (mkdir_spec _ W2 E3) as (_ & _ & W3 & A3 & B3 & _). destruct (B3 eq_refl) as (R3 & _).
  assert (RC : removelast (cache_of root) = root) by apply removelast_last. assert (RL : removelast (log_of root) = root) by apply removelast_last.
  assert (CR : cache_of root <> root) by apply snoc_ne. assert (LR : log_of root <> root) by apply snoc_ne.
  assert (LC : log_of root <> cache_of root) by (unfold cache_of, log_of; intros X; apply app_inv_head in X; discriminate).
  destruct (@mkdir_ok (cache_of root) w3) as [w4 E4]; [rewrite RC; auto|rewrite A3; auto|]. rewrite E4. cbn [negb].
  destruct (mkdir_spec _ W3 E4) as (_ & _ & W4 & A4 & _).
  assert (OP : exists w5 i, open_append (log_of root) w4 = (w5, Some i)).
  { unfold open_append. rewrite RL, (proj2 (is_dir_iff _ _)) by (rewrite A4; auto). cbn [negb].
    assert (EA : at_ w4 (log_of root) = dget (log_of root) (w_nodes w4)) by (unfold log_of; destruct root; reflexivity). rewrite <- EA, A4, A3 by auto.
    destruct (at_ w2 (log_of root)) as [[|j]|]; [congruence|eauto|eauto]. }
  destruct OP as (w5 & i & E5). rewrite E5. eauto.
Qed.
Lemma rmtree_ok p w : p <> [] -> at_ w p = Some NDir -> exists w', rmtree p w = (w', true).
Proof. intros N E. unfold rmtree. rewrite (proj2 (is_dir_iff _ _) E). destruct p; [congruence|eauto]. Qed.
(** a new task can be made whenever there is a place for it *)
Theorem C193_possible : forall work name w, wf w -> plain name ->
  look w work = Dir \/ (look w work = Nothing /\ look w (removelast work) = Dir) ->
  look w (work ++ [name]) = Nothing \/ look w (work ++ [name]) = Dir ->
  exists w', create work name true w = (w', Created (work ++ [name])).
Proof.
  intros work name w W PL OW OR. rewrite <- (join_plain work PL) in *. set (root := join work name) in *. assert (ER : root = work ++ [name]) by (apply join_plain; auto).
  assert (NR : root <> []) by (rewrite ER; destruct work; discriminate).
  assert (C : exists w1, (if true && present w root then rmtree root w else (w, true)) = (w1, true)).
  { cbn [andb]. rewrite present_at. destruct OR as [OR|OR]; apply look_at in OR; rewrite OR; eauto. apply rmtree_ok; auto. }
  destruct C as [w1 E1]. destruct (clear_spec _ _ W E1) as (W1 & _ & _ & A1 & B1). specialize (B1 eq_refl).
  assert (NU : forall q, under root q -> q <> work /\ q <> removelast work).
  { intros q [r ->]. rewrite ER, <- app_assoc. split; intros X; apply (f_equal (@length string)) in X; rewrite app_length in X; cbn in X; [lia|].
    destruct work as [|c wk] using rev_ind; [cbn in X; lia|]. rewrite removelast_last, !app_length in X. cbn in X. lia. }
  assert (NW : ~ gone true root work) by (intros [_ X]; apply NU in X; destruct X; congruence).
  assert (NP : ~ gone true root (removelast work)) by (intros [_ X]; apply NU in X; destruct X; congruence).
  assert (C2 : exists w2, (if present w1 work then (w1, None) else if present w1 (removelast work) then let (w, ok) := mkdir work w1 in (w, if ok then None else Some OsError) else (w1, Some NoWorkRoot)) = (w2, None)
     /\ at_ w2 work = Some NDir).
  { rewrite !present_at, !A1 by auto. destruct OW as [OW|[OW OP]]; apply look_at in OW; rewrite OW.
    - exists w1. split; auto. rewrite A1; auto.
    - apply look_at in OP. rewrite OP. destruct (@mkdir_ok work w1) as [w2 E2]; [rewrite A1; auto|rewrite A1; auto|]. rewrite E2. exists w2. split; auto.
      destruct (mkdir_spec _ W1 E2) as (_ & _ & _ & _ & B & _). apply B; auto. }
  destruct C2 as (w2 & E2 & EW). destruct (work_spec _ W1 E2) as (W2 & _ & _ & _ & A2 & _).
  assert (U : forall r, at_ w2 (root ++ r) = None).
  { intros r. assert (X : under root (root ++ r)) by (exists r; auto). rewrite A2 by (apply NU in X; tauto). apply B1. split; auto. }
  apply (@create_runs work name true w w1 w2 W NR E1 E2); fold root.
  - rewrite ER, removelast_last. auto.
  - left. rewrite <- (app_nil_r root). apply U.
  - left. apply U.
  - unfold log_of. rewrite U. discriminate.
Qed.

(** * C194: without work_root and its parent directory no task is made, and nothing is touched *)
Theorem C194_missing : forall work name ow w w' r, wf w -> plain name -> create work name ow w = (w', r) ->
  (r = NoWorkRoot <-> look w work = Nothing /\ look w (removelast work) = Nothing) /\ (r = NoWorkRoot -> forall q, look w' q = look w q).
Proof.
  intros work name ow w w' r W PL E. unfold create in E. rewrite (join_plain _ PL) in E. set (root := work ++ [name]) in *.
  destruct (if ow && present w root then rmtree root w else (w, true)) as [w1 ok1] eqn:E1.
  destruct (clear_spec _ _ W E1) as (W1 & D1 & _ & A1 & _).
  assert (NW : ~ gone ow root work). { intros [_ [x X]]. unfold root in X. apply (f_equal (@length string)) in X. rewrite !app_length in X. cbn in X. lia. }
  assert (NP : ~ gone ow root (removelast work)).
  { intros [_ [x X]]. apply (f_equal (@length string)) in X. unfold root in X. destruct work as [|c wk] using rev_ind; [cbn in X; lia|].
    rewrite removelast_last, !app_length in X. cbn in X. lia. }
  assert (NONE : at_ w work = None -> w1 = w /\ ok1 = true).
  { intros N. assert (X : at_ w root = None) by (apply cut_absent; auto). rewrite present_at, X, andb_false_r in E1. injection E1 as <- <-. auto. }
  destruct ok1; cbn [negb] in E.
  2:{ injection E as <- <-. split; [|discriminate]. split; [discriminate|]. intros [X _]. apply look_at in X. apply NONE in X as [_ X]. discriminate. }
  match type of E with context [if present w1 work then ?a else ?b] => destruct (if present w1 work then a else b) as [w2 r2] eqn:E2 end.
  destruct (work_spec _ W1 E2) as (W2 & D2 & H2 & K2 & A2 & R2 & NR & NS). rewrite !A1 in NR by auto.
  assert (IFF : look w work = Nothing /\ look w (removelast work) = Nothing <-> r2 = Some NoWorkRoot).
  { rewrite NR. split; intros [X Y]; split; try (apply look_at; assumption). }
  destruct r2 as [r2|].
  - injection E as <- <-. split; [rewrite IFF; split; congruence|]. intros ->. rewrite (NS eq_refl). destruct (proj1 NR eq_refl) as [X _]. destruct (NONE X) as [-> _]. auto.
  - assert (NN : r <> NoWorkRoot).
    { revert E. destruct (mkdir root w2) as [w3 []]; cbn [negb]; [|congruence]. destruct (mkdir (cache_of root) w3) as [w4 []]; cbn [negb]; [|congruence].
      destruct (open_append (log_of root) w4) as [w5 [i|]]; congruence. }
    split; [|congruence]. rewrite IFF. split; congruence.
Qed.

(** * C195: a study name is a path: an empty one, or ".", stands for work_root itself, and with overwrite (the default) all studies
    there are removed; an absolute one ignores work_root *)
Theorem C195_everything_actual : forall work name w, wf w -> name = EmptyString \/ name = "."%string -> work <> [] -> look w work = Dir ->
  exists w', create work name true w = (w', Created work) /\
  forall q, under work q -> q <> work -> q <> work ++ ["cache"%string] -> q <> work ++ ["log.txt"%string] -> look w' q = Nothing.
Proof.
  intros work name w W PN NW D. apply look_at in D. assert (ER : join work name = work) by (destruct PN as [-> | ->]; apply app_nil_r).
  assert (C : exists w', create work name true w = (w', Created (join work name))).
  { destruct (@rmtree_ok work w NW D) as [w1 E1]. destruct (@rmtree_spec work w w1 W ltac:(congruence) E1) as (_ & _ & _ & _ & A & B & W1).
    assert (X : at_ w (removelast work) = Some NDir).
    { destruct work as [|c wk] using rev_ind; [congruence|]. rewrite removelast_last. destruct W as (C & _). apply (C wk c). congruence. }
    assert (NU : ~ under work (removelast work)).
    { intros [r Y]. apply (f_equal (@length string)) in Y. destruct work as [|c wk] using rev_ind; [congruence|]. rewrite removelast_last, !app_length in Y. cbn in Y. lia. }
    assert (X1 : at_ w1 (removelast work) = Some NDir) by (rewrite B; auto). assert (N1 : at_ w1 work = None) by (apply A, under_refl).
    destruct (@mkdir_ok work w1) as [w2 E2]; auto. destruct (mkdir_spec _ W1 E2) as (_ & _ & W2 & A2 & B2 & _). destruct (B2 eq_refl) as (R2 & _).
    apply create_runs with (w1 := w1) (w2 := w2); rewrite ?ER; auto.
    - cbn [andb]. rewrite present_at, D. auto.
    - rewrite !present_at, N1, X1, E2. auto.
    - rewrite A2; auto. intros Y. apply NU. rewrite Y. apply under_refl.
    - left. rewrite A2 by apply snoc_ne. apply A. eexists; reflexivity.
    - rewrite A2 by apply snoc_ne. rewrite A by (eexists; reflexivity). discriminate. }
  destruct C as [w' E]. rewrite ER in E. exists w'. split; auto. intros q U Q1 Q2 Q3. apply look_at.
  destruct (create_spec _ _ _ W E) as (_ & _ & _ & _ & _ & _ & _ & _ & _ & _ & G & _). rewrite ER in G. apply G; auto. split; auto.
Qed.
Lemma join_absolute work n : plain n -> join work ("/" ++ n)%string = [n].
Proof.
  intros (N1 & N2 & _ & N3). unfold join, parse. cbn [String.append split_str]. rewrite split_plain by auto. cbn [filter Ascii.eqb Bool.eqb String.eqb orb negb].
  rewrite (proj2 (String.eqb_neq n "") N1), (proj2 (String.eqb_neq n ".") N2). reflexivity.
Qed.
Theorem C195_absolute_actual : forall work n w w' root, wf w -> plain n -> create work ("/" ++ n)%string true w = (w', Created root) ->
  root = [n] /\ (forall q, under [n] q -> q <> [n] -> q <> [n; "cache"%string] -> q <> [n; "log.txt"%string] -> look w' q = Nothing) /\
  look w' [n; "log.txt"%string] <> Nothing.
Proof.
  intros work n w w' root W PN E. pose proof (join_absolute work PN) as ER.
  destruct (create_spec _ _ _ W E) as (_ & _ & _ & _ & _ & R0 & _ & _ & _ & _ & G & _ & i & EI & _). rewrite ER in *. split; auto. split.
  - intros q U Q1 Q2 Q3. apply look_at. apply G; auto. split; auto.
  - unfold look. change [n; "log.txt"%string] with (log_of [n]). rewrite EI. discriminate.
Qed.

(** * C196: all tasks of a process log to all files *)
Lemma wstep_wf w o : wf w -> wf (wstep w o).
Proof.
  intros W. destruct o as [r n ow|m]; cbn [wstep]; [|apply info_wf; auto].
  destruct (create r n ow w) as [w' x] eqn:E. apply (create_spec _ _ _ W) in E. tauto.
Qed.
Lemma history_log p i ops : forall w, wf w -> at_ w p = Some (NFile i) -> In i (w_handlers w) ->
  (forall r n, In (WCreate r n true) ops -> ~ under (join r n) p) ->
  exists blocks, Forall2 (fun op b => match op with WInfo m => exists k, b = repeat m (S k) | WCreate _ _ _ => True end) ops blocks /\
    let w' := fold_left wstep ops w in at_ w' p = Some (NFile i) /\ nth i (w_data w') [] = nth i (w_data w) [] ++ concat blocks.
Proof.
  induction ops as [|o ops IH]; intros w W A I OK; cbn [fold_left].
  - exists []. split; [constructor|]. split; auto. cbn. rewrite app_nil_r. auto.
  - pose proof W as (_ & W2 & _). pose proof (W2 _ _ A) as L.
    assert (S : exists b, match o with WInfo m => exists k, b = repeat m (S k) | WCreate _ _ _ => True end /\ nth i (w_data (wstep w o)) [] = nth i (w_data w) [] ++ b /\
              at_ (wstep w o) p = Some (NFile i) /\ In i (w_handlers (wstep w o))).
    { destruct o as [r n ow|m]; cbn [wstep].
      - destruct (create r n ow w) as [w' x] eqn:E. destruct (create_spec _ _ _ W E) as (_ & B & _ & (hs & H) & N & _). destruct (N i L) as [l EL]. cbn [fst].
        exists l. repeat split; auto; [|rewrite H; apply in_or_app; auto]. apply B; auto. intros [-> U]. apply (OK r n); [left; auto|auto].
      - destruct (info_spec m w) as (_ & H & _ & N). rewrite N by auto. eexists. split; [|split; [reflexivity|split; [auto|rewrite H; auto]]].
        apply (count_occ_In Nat.eq_dec) in I. destruct (count_occ Nat.eq_dec (w_handlers w) i) as [|k]; [lia|]. eauto. }
    destruct S as (b & SB & ND & A' & I'). destruct (IH (wstep w o) (wstep_wf o W) A' I') as (bs & F & AE & NE); [intros r n X; apply OK; right; auto|].
    exists (b :: bs). split; [constructor; auto|]. cbv zeta. split; auto. rewrite NE, ND, <- app_assoc. reflexivity.
Qed.
(** whatever is logged after a task was made goes to its log file too, whichever task (or optuna) logs it *)
Theorem C196_shared_actual : forall work name ow w w1 root ops, wf w -> create work name ow w = (w1, Created root) ->
  (forall r n, In (WCreate r n true) ops -> plain n /\ ~ under (r ++ [n]) (root ++ ["log.txt"%string])) ->
  exists before blocks, look w1 (root ++ ["log.txt"%string]) = Lines before /\
    look (fold_left wstep ops w1) (root ++ ["log.txt"%string]) = Lines (before ++ concat blocks) /\
    Forall2 (fun op b => match op with WInfo m => exists k, b = repeat m (S k) | WCreate _ _ _ => True end) ops blocks.
Proof.
  intros work name ow w w1 root ops W E OK. destruct (create_spec _ _ _ W E) as (W1 & _ & _ & _ & _ & -> & _ & _ & _ & _ & _ & _ & i & EI & EH & _).
  destruct (@history_log _ i ops w1 W1 EI) as (bs & F & A & N).
  - rewrite EH. apply in_or_app. right. left. auto.
  - intros r n X. destruct (OK r n X) as [PL U]. rewrite (join_plain _ PL). exact U.
  - exists (nth i (w_data w1) []), bs. unfold look. change (join work name ++ ["log.txt"%string]) with (log_of (join work name)). cbv zeta in A, N. rewrite EI, A, N. auto.
Qed.
(** a study opened n more times without overwriting: every line is written n + 1 times *)
Lemma reopen work name w i : wf w -> let root := join work name in at_ w work <> None -> at_ w root = Some NDir -> at_ w (cache_of root) = Some NDir -> at_ w (log_of root) = Some (NFile i) ->
  root <> [] -> exists w', create work name false w = (w', Created root) /\ w_handlers w' = w_handlers w ++ [i] /\ at_ w' work <> None /\ at_ w' root = Some NDir /\
    at_ w' (cache_of root) = Some NDir /\ at_ w' (log_of root) = Some (NFile i) /\ wf w'.
Proof.
  intros W root PW R C L NR.
  assert (X : exists w', create work name false w = (w', Created root)).
  { apply create_runs with (w1 := w) (w2 := w); fold root; auto.
    - rewrite present_at. destruct (at_ w work); congruence.
    - revert NR R. clear - W. generalize root. intros q. destruct q as [|c r] using rev_ind; [congruence|]. rewrite removelast_last. destruct W as (Y & _). intros _ X. apply (Y r c). congruence.
    - rewrite L. discriminate. }
  destruct X as [w' E]. exists w'. split; auto. destruct (create_spec _ _ _ W E) as (W' & B & _ & _ & _ & _ & R1 & R2 & R3 & _ & _ & _ & j & EJ & EH & _). fold root in B, R1, R2, EJ.
  rewrite (B (log_of root) i L) in EJ by (intros [Y _]; discriminate). injection EJ as <-. repeat (split; auto). apply B; auto. intros [Y _]. discriminate.
Qed.
Lemma reopen_many work name i n : forall w, wf w -> let root := join work name in at_ w work <> None -> at_ w root = Some NDir -> at_ w (cache_of root) = Some NDir -> at_ w (log_of root) = Some (NFile i) ->
  root <> [] -> let w2 := fold_left wstep (repeat (WCreate work name false) n) w in w_handlers w2 = w_handlers w ++ repeat i n /\ at_ w2 (log_of root) = Some (NFile i) /\ wf w2.
Proof.
  induction n as [|n IH]; intros w W root PW R C L NR; cbn [repeat fold_left]; [rewrite app_nil_r; auto|].
  destruct (@reopen work name w i W PW R C L NR) as (w' & E & H & P' & R' & C' & L' & W'). cbn [wstep]. rewrite E. cbn [fst].
  destruct (IH w' W' P' R' C' L' NR) as (H2 & L2 & W2). cbv zeta. rewrite H2, H, <- app_assoc. auto.
Qed.
Theorem C196_repeated_actual : forall work name w w1 root n m, wf w -> plain name -> create work name true w = (w1, Created root) ->
  let w2 := fold_left wstep (repeat (WCreate work name false) n) w1 in
  exists lines, look w2 (root ++ ["log.txt"%string]) = Lines lines /\ look (info m w2) (root ++ ["log.txt"%string]) = Lines (lines ++ repeat m (S n)).
Proof.
  intros work name w w1 root n m W PL E. destruct (create_spec _ _ _ W E) as (W1 & _ & _ & _ & _ & -> & R1 & R2 & R3 & _ & _ & _ & i & EI & EH & O & _).
  set (root := join work name) in *. assert (NR : root <> []) by (unfold root; rewrite (join_plain _ PL); destruct work; discriminate).
  destruct (@reopen_many work name i n w1 W1 R3 R1 R2 EI NR) as (H & L & W2). fold root in H, L, W2. cbv zeta.
  set (w2 := fold_left wstep (repeat (WCreate work name false) n) w1) in *.
  change (root ++ ["log.txt"%string]) with (log_of root). unfold look. rewrite info_at, L. eexists. split; [reflexivity|].
  destruct (info_spec m w2) as (_ & _ & _ & N). pose proof W2 as (_ & LT & _). rewrite N by (eapply LT; eauto). f_equal. f_equal. f_equal.
  rewrite H, EH, !count_occ_app. assert (NI : ~ In i (w_handlers w)).
  { intros I. destruct W as (_ & _ & _ & W4). apply W4 in I. destruct O as [(_ & X & _)|[X _]]; [discriminate|lia]. }
  apply (count_occ_not_In Nat.eq_dec) in NI. rewrite NI. cbn [count_occ Nat.add]. destruct (Nat.eq_dec i i); [|congruence].
  clear. induction n as [|n IH]; cbn [repeat count_occ]; auto. destruct (Nat.eq_dec i i); [|congruence]. cbn in *. lia.
Qed.

(** a disk with /tmp; a task in /tmp/work/a, one in /tmp/work/b *)
Open Scope string_scope.
Open Scope list_scope.
Definition disk0 : world := mkworld [(["tmp"], NDir)] [] [].
Definition disk1 : world := fst (create ["tmp"; "work"] "a" true disk0).
Definition disk2 : world := fst (create ["tmp"; "work"] "b" true disk1).
Lemma disk0_wf : wf disk0.
Proof.
  assert (A : forall p n, at_ disk0 p = Some n -> n = NDir /\ (p = [] \/ p = ["tmp"])).
  { intros [|c p] n E; cbn [at_] in E; [injection E as <-; auto|]. cbn [disk0 w_nodes dget] in E. destruct (eqb (c :: p) ["tmp"]) eqn:X; [|discriminate].
    apply eqb_eq in X. injection E as <-. auto. }
  split; [|split; [|split]].
  - intros p c N. destruct (at_ disk0 (p ++ [c])) as [n|] eqn:E; [|congruence]. apply A in E as [_ [E|E]]; [destruct p; discriminate|].
    apply (app_inj_tail p [] c "tmp") in E as [-> _]. auto.
  - intros p i E. apply A in E as [E _]. discriminate.
  - intros p q i E. apply A in E as [E _]. discriminate.
  - intros i [].
Qed.
Lemma disk1_wf : wf disk1.
Proof. exact (wstep_wf (WCreate ["tmp"; "work"] "a" true) disk0_wf). Qed.
Lemma disk2_wf : wf disk2.
Proof. exact (wstep_wf (WCreate ["tmp"; "work"] "b" true) disk1_wf). Qed.
Lemma plain_a : plain "a".
Proof. repeat split; try discriminate. intros [|[|i]]; discriminate. Qed.
Example C193_ex : greeting ["tmp"; "work"; "a"] = ["Logs will be saved to /tmp/work/a/log.txt"; "Files in training will be saved in /tmp/work/a"] /\
  snd (create ["tmp"; "work"] "a" true disk0) = Created ["tmp"; "work"; "a"] /\ look disk1 ["tmp"; "work"; "a"; "cache"] = Dir /\
  (* again, with and without the first study *)
  snd (create ["tmp"; "work"] "a" true disk2) = Created ["tmp"; "work"; "a"] /\ snd (create ["tmp"; "work"] "a" false disk2) = Created ["tmp"; "work"; "a"] /\
  look (fst (create ["tmp"; "work"] "a" true disk2)) ["tmp"; "work"; "b"; "cache"] = Dir.
Proof. repeat split. Qed.
Example C194_ex : snd (create ["home"; "work"] "a" true disk2) = NoWorkRoot /\ snd (create ["home"] "a" true disk2) = Created ["home"; "a"].
Proof. split; reflexivity. Qed.
Example C195_ex :
  look disk2 ["tmp"; "work"; "a"; "log.txt"] <> Nothing /\
  snd (create ["tmp"; "work"] "" true disk2) = Created ["tmp"; "work"] /\ look (fst (create ["tmp"; "work"] "" true disk2)) ["tmp"; "work"; "a"] = Nothing /\
  snd (create ["home"] "/tmp" true disk2) = Created ["tmp"] /\ look (fst (create ["home"] "/tmp" true disk2)) ["tmp"; "work"] = Nothing.
Proof. repeat split; try reflexivity. discriminate. Qed.
Example C196_ex : let w := fold_left wstep [WInfo "best value 0.9 (b)"] disk2 in
  look w ["tmp"; "work"; "a"; "log.txt"] = Lines (greeting ["tmp"; "work"; "a"] ++ greeting ["tmp"; "work"; "b"] ++ ["best value 0.9 (b)"]) /\
  let w := fold_left wstep [WCreate ["tmp"; "work"] "a" false; WInfo "x"] disk1 in
  look w ["tmp"; "work"; "a"; "log.txt"] =
    Lines (greeting ["tmp"; "work"; "a"] ++ flat_map (fun m => [m; m]) (greeting ["tmp"; "work"; "a"]) ++ ["x"; "x"]).
Proof. split; reflexivity. Qed.
