(** Model of dhg/experiments/recommender.py ("rec"), dhg/experiments/vertex_classification.py ("vc") and of the trials of
    dhg/experiments/base.py ("exp") that they are run in.  The files that the trials leave are in ModelRun.v.
    The Graph and Hypergraph versions of the classification task (experiments/graphs/graph.py, experiments/hypergraphs/hypergraph.py)
    only pass their arguments on. *)
From Coq Require Import String Reals.
From Verif Require Import Num PyDict ModelBase ModelConv ModelUtils RealFacts ModelMetrics ModelEval ModelNN ModelRun.
Set Implicit Arguments.
Open Scope Z_scope.
Open Scope list_scope.

(** * A study *)
(** how the epochs of a trial end *)
Inductive lres (M : Type) := LRaise (x : exn) | LPruned | LDone (best : fl R * option M).
Arguments LRaise {M} x. Arguments LPruned {M}. Arguments LDone {M} best.
(** what optuna keeps of a trial: its parameters, the values reported, and the result of a complete trial *)
Record trec (P : Type) := mktrec { t_params : P; t_vals : list (fl R); t_value : option (fl R) }.

Section Study.
  (** [P]: the parameters of a trial; [M]: models; [O]: optimizer, criterion and scheduler of a trial with their state;
      [S]: structures; [W]: what else the task keeps between calls (evaluator, loaders) *)
  Context {P M O S W : Type}.
  (** the functions given by the user; without "optimizer" or "criterion" the last one is [None] *)
  Variables (structure_builder : option (P -> S)) (model_builder : P -> M) (train_builder : P -> M -> option O).
  (** [scheduler.step()], if there is a scheduler *)
  Variable sched : O -> O.
  (** optuna's sampler and pruner: they see the former trials and, for the pruner, the values reported so far *)
  Variables (suggest : list (trec P) -> P) (prune : list (trec P) -> list (fl R) -> bool).
  (** [train] and [validate] of the task; the first argument is [data["structure"]] *)
  Variables (train : option S -> W -> M -> O -> W * res (M * O)) (validate : option S -> W -> M -> W * res (fl R)).

  (** exp:101-112, [n] more epochs *)
  Fixpoint loop (mx : bool) (n : nat) (hist : list (trec P)) (st : option S) (vals : list (fl R)) (best : fl R * option M)
      (w : W) (m : M) (o : O) : W * list (fl R) * lres M :=
    match n with
    | 0%nat => (w, vals, LDone best)
    | Datatypes.S n =>
        match train st w m o with
        | (w, Err x) => (w, vals, LRaise x)
        | (w, Ok (m, o)) =>
            match validate st w m with
            | (w, Err x) => (w, vals, LRaise x)
            | (w, Ok v) =>
                let vals := vals ++ [v] in
                if prune hist vals then (w, vals, LPruned)
                else loop mx n hist st vals (if mx then if fgt v (fst best) then (v, Some m) else best else best) w m (sched o)
            end
        end
    end.

  (** a study under way: the task's state, [data["structure"]], the former trials, what they returned (for [ModelRun.run]), and an
      exception that left a trial before line 113 *)
  Record study := mkstudy { sd_w : W; sd_st : option S; sd_hist : list (trec P); sd_out : list (eres M * option S); sd_exn : option exn }.
  (** exp:86-116 (the files written at lines 113-115 are in ModelRun.v) *)
  Definition trial (mx : bool) (max_epoch : nat) (d : study) : study :=
    let p := suggest (sd_hist d) in
    let st := match structure_builder with Some f => Some (f p) | None => sd_st d end in
    let m := model_builder p in
    match train_builder p m with
    | None => mkstudy (sd_w d) st (sd_hist d) (sd_out d) (Some AssertionError)
    | Some o =>
        match loop mx max_epoch (sd_hist d) st [] (if mx then NInf else PInf, None) (sd_w d) m o with
        | (w, vals, LRaise x) => mkstudy w st (sd_hist d) (sd_out d) (Some x)
        | (w, vals, LPruned) => mkstudy w st (sd_hist d ++ [mktrec p vals None]) (sd_out d ++ [(EPruned, st)]) None
        | (w, vals, LDone (sc, b)) =>
            match b, st with
            | Some m, Some _ => mkstudy w st (sd_hist d ++ [mktrec p vals (Some sc)]) (sd_out d ++ [(EDone sc m, st)]) None
            | Some m, None => mkstudy w st (sd_hist d) (sd_out d ++ [(EFail KeyError (Some m), st)]) (Some KeyError)
            | None, _ => mkstudy w st (sd_hist d) (sd_out d ++ [(EFail AttributeError None, st)]) (Some AttributeError)
            end
        end
    end.
  (** exp:138: trials in turn; an exception ends the study.  (The limit of 600 seconds makes [k] smaller.) *)
  Fixpoint trials (mx : bool) (max_epoch k : nat) (d : study) : study :=
    match k with
    | 0%nat => d
    | Datatypes.S k => let d := trial mx max_epoch d in match sd_exn d with Some _ => d | None => trials mx max_epoch k d end
    end.
  (** exp:134-148: the study, the files in the cache directory, and [best_model], [best_structure], [best_trial.value].
      [create_study] knows two directions. *)
  Definition task_run (direction : string) (max_epoch k : nat) (st : option S) (w : W) (files : dict string (content M (option S)))
      : study * dict string (content M (option S)) * res (M * option S * fl R) :=
    let d := mkstudy w st [] [] None in
    if String.eqb direction "maximize" || String.eqb direction "minimize" then
      let d := trials (String.eqb direction "maximize") max_epoch k d in
      let (files, r) := run (sd_out d) files in
      (d, match sd_exn d with None => files | Some _ => fst (optimize 0 (sd_out d) files None) end,
       match sd_exn d with None => r | Some x => Err x end)
    else (d, files, Err ValueError).
End Study.
Arguments study : clear implicits.

(** * Recommendation *)
Inductive device := Cpu | Gpu.
Definition device_eqb (a b : device) : bool := match a, b with Cpu, Cpu | Gpu, Gpu => true | _, _ => false end.
(** a batch of a test loader (its tensors are on the CPU): users, one row of the mask per user, the true ratings *)
Record rbatch := mkrb { b_users : list Z; b_mask : list (list (fl R)); b_true : tensor R }.
Section Recommender.
  Context {M O S : Type}.
  Local Notation D := (tensor R * tensor (fl R))%type.
  (** the model in evaluation mode: embeddings of users and items.  Embeddings are finite numbers, of one dimension. *)
  Variable forward : M -> option S -> list (list R) * list (list R).
  (** one step of the optimizer (rec:107-117) for a batch of users, positive and negative items *)
  Variable update : option S -> M -> O -> list (Z * Z * Z) -> M * O.
  (** the batches of the i-th pass over the two loaders *)
  Variables (train_loader : nat -> list (list (Z * Z * Z))) (test_loader : nat -> list rbatch).
  Variable dev : device.

  Definition dot (a b : list R) : R := sumf (combine a b) (fun '(x, y) => (x * y)%R).
  (** rec:138-139 = rec:171-172; [mdev] is the device of the mask.  (Simplified: a mask of another shape is refused, where torch
      would repeat a single row or column.) *)
  Definition scores (mdev : device) (e : list (list R) * list (list R)) (b : rbatch) : res (tensor (fl R)) :=
    rbind (map_res (np_index (fst e)) (b_users b)) (fun rows =>
    if negb (device_eqb dev mdev) then Err RuntimeError
    else if negb (Nat.eqb (length (b_mask b)) (length rows) && forallb (fun r => Nat.eqb (length r) (length (snd e))) (b_mask b)) then Err RuntimeError
    else Ok (V2 (length (snd e))
               (map (fun '(u, mask) => map (fun '(i, x) => fadd (Fin (dot u i)) x) (combine (snd e) mask)) (combine rows (b_mask b))))).

  (** evaluator, passes over the test loader so far, passes over the training loader so far *)
  Definition rstate := (ev R D * nat * nat)%type.
  (** rec:103-117 *)
  Definition rec_train (st : option S) (w : rstate) (m : M) (o : O) : rstate * res (M * O) :=
    let '(e, i, j) := w in
    ((e, i, Datatypes.S j), Ok (fold_left (fun '(m, o) b => update st m o b) (train_loader j) (m, o))).
  (** rec:130-140 / rec:164-173 *)
  Fixpoint feed (add : D -> ev R D -> ev R D * res unit) (mdev : device) (emb : list (list R) * list (list R)) (l : list rbatch)
      (e : ev R D) : ev R D * res unit :=
    match l with
    | [] => (e, Ok tt)
    | b :: r => match scores mdev emb b with
                | Err x => (e, Err x)
                | Ok p => match add (b_true b, p) e with
                          | (e, Err x) => (e, Err x)
                          | (e, Ok _) => feed add mdev emb r e
                          end
                end
    end.
  (** rec:127-142: the masks are moved to the device.  The batches are those of the test loader. *)
  Definition rec_validate (st : option S) (w : rstate) (m : M) : rstate * res (fl R) :=
    let '(e, i, j) := w in
    match feed validate_add_batch dev (forward m st) (test_loader i) e with
    | (e, Err x) => ((e, Datatypes.S i, j), Err x)
    | (e, Ok _) => let (e, r) := validate_epoch_res e in ((e, Datatypes.S i, j), r)
    end.
  (** rec:152-175: the masks stay where they are *)
  Definition rec_test (st : option S) (w : rstate) (m : M) : rstate * res (dict string (tout R)) :=
    let '(e, i, j) := w in
    match feed test_add_batch Cpu (forward m st) (test_loader i) e with
    | (e, Err x) => ((e, Datatypes.S i, j), Err x)
    | (e, Ok _) => let (e, r) := test_epoch_res e in ((e, Datatypes.S i, j), r)
    end.

  Context {P : Type}.
  Variables (structure_builder : option (P -> S)) (model_builder : P -> M) (train_builder : P -> M -> option O) (sched : O -> O).
  Variables (suggest : list (trec P) -> P) (prune : list (trec P) -> list (fl R) -> bool).
  Definition rec_run (direction : string) (max_epoch k : nat) (st : option S) (w : rstate) files :=
    task_run structure_builder model_builder train_builder sched suggest prune rec_train rec_validate direction max_epoch k st w files.
  (** exp:153: [run] ends with a test of [best_model] on [best_structure] *)
  Definition rec_task (direction : string) (max_epoch k : nat) (st : option S) (w : rstate) files : res (M * option S * fl R * dict string (tout R)) :=
    let '(d, _, r) := rec_run direction max_epoch k st w files in
    rbind r (fun '(m, s, sc) => rbind (snd (rec_test s (sd_w d) m)) (fun t => Ok (m, s, sc, t))).
End Recommender.

(** * Vertex classification *)
(** [l[mask]] for a boolean mask *)
Definition masked {A} (mask : list bool) (l : list A) : res (list A) :=
  if Nat.eqb (length mask) (length l) then Ok (map snd (filter fst (combine mask l))) else Err IndexError.
(** the data of the task, apart from the structure; masks are boolean *)
Record vdata (X : Type) := mkvd { vd_x : X; vd_labels : list Z; vd_train : list bool; vd_val : list bool; vd_test : list bool }.
Section Classification.
  Context {M O S X : Type}.
  Local Notation D := (list Z * preds (T := R))%type.
  (** the model in evaluation mode: one row of class scores per vertex *)
  Variable forward : M -> X -> S -> list (list R).
  (** one step of the optimizer (vc:112-117): it sees the labels [labels[train_mask]] *)
  Variable update : S -> M -> O -> X -> list bool -> list Z -> M * O.
  Variables (data : vdata X) (evaluator : ev R D).

  (** vc:110-117; without data["structure"] KeyError *)
  Definition vc_train (st : option S) (w : unit) (m : M) (o : O) : unit * res (M * O) :=
    (w, match st with
        | None => Err KeyError
        | Some s => rbind (masked (vd_train data) (forward m (vd_x data) s)) (fun _ =>
                    rbind (masked (vd_train data) (vd_labels data)) (fun y =>
                    Ok (update s m o (vd_x data) (vd_train data) y)))
        end).
  (** vc:127-132, with exp:104 (a value that is not a number cannot be reported).  [validate] of an evaluator changes nothing.
      (Simplified: a confusion matrix of a single entry, which [float] takes, is refused as well.) *)
  Definition vc_validate (st : option S) (w : unit) (m : M) : unit * res (fl R) :=
    (w, match st with
        | None => Err KeyError
        | Some s => rbind (masked (vd_val data) (vd_labels data)) (fun y =>
                    rbind (masked (vd_val data) (forward m (vd_x data) s)) (fun p =>
                    rbind (validate (y, PScores p) evaluator) (fun o => match o with MScal v => Ok v | _ => Err TypeError end)))
        end).
  (** vc:142-160 without arguments: [s] is [best_structure], [m] is [best_model] *)
  Definition vc_test (s : S) (m : M) : res (dict string (mout R)) :=
    rbind (masked (vd_test data) (vd_labels data)) (fun y =>
    rbind (masked (vd_test data) (forward m (vd_x data) s)) (fun p =>
    test (y, PScores p) evaluator)).

  Context {P : Type}.
  Variables (structure_builder : option (P -> S)) (model_builder : P -> M) (train_builder : P -> M -> option O) (sched : O -> O).
  Variables (suggest : list (trec P) -> P) (prune : list (trec P) -> list (fl R) -> bool).
  Definition vc_run (direction : string) (max_epoch k : nat) (st : option S) files :=
    task_run structure_builder model_builder train_builder sched suggest prune vc_train vc_validate direction max_epoch k st tt files.
  (** exp:155-156: the results of the test, one line each; [f"{value:.3f}"] is defined for numbers and not for numpy matrices or lists *)
  Fixpoint vc_report (t : dict string (mout R)) : res unit :=
    match t with
    | [] => Ok tt
    | (_, MScal _) :: r => vc_report r
    | _ :: _ => Err TypeError
    end.
  (** exp:134-156: the search, the test of [best_model] on [best_structure], the report ([best_structure] is there: without a
      structure the trials raise) *)
  Definition vc_task (direction : string) (max_epoch k : nat) (st : option S) files : res (M * option S * fl R * dict string (mout R)) :=
    let '(_, _, r) := vc_run direction max_epoch k st files in
    rbind r (fun '(m, s, sc) =>
    match s with
    | None => Err AttributeError
    | Some s => rbind (vc_test s m) (fun t => rbind (vc_report t) (fun _ => Ok (m, Some s, sc, t)))
    end).
End Classification.
