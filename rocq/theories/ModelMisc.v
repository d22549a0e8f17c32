(** Model of f1_score in dhg/metrics/classification.py ("cl"), dhg/random/feature.py ("fe"), dhg/random/_seed.py ("sd") and
    [simple_stdout2file] of dhg/utils/logging.py ("lg"). *)
From Coq Require Import String Reals.
From Verif Require Import Num PyDict ModelBase ModelConv ModelUtils ModelMetrics.
Set Implicit Arguments.
Local Open Scope list_scope.
Local Open Scope Z_scope.

(** * F1 score *)
Section F1.
  Context {T : Type} {NT : Num T} {ET : Ext T}.
  (** number of elements that pass a test *)
  Definition tally {A} (t : A -> bool) (l : list A) : Z := Z.of_nat (length (filter t l)).
  (** 2 tp / (2 tp + fp + fn), which is 0 for 0 / 0 (sklearn's [zero_division="warn"]) *)
  Definition f1_ratio (tp true_n pred_n : Z) : T := if true_n + pred_n =? 0 then nz else nmul (nofZ (2 * tp)) (ninv (nofZ (true_n + pred_n))).
  (** sklearn's [f1_score(y, p, average=...)] for integer labels.  [other] answers for an average that is none of the three documented
      ones and for a sample without elements (sklearn's answer to the latter depends on its version). *)
  Definition sk_f1 (other : list Z -> list Z -> string -> res (fl T)) (y p : list Z) (average : string) : res (fl T) :=
    let c := combine y p in
    let ls := labels_of y p in
    let tp a := tally (fun q => (fst q =? a) && (snd q =? a)) c in
    let tr a := tally (fun q => fst q =? a) c in
    let pr a := tally (fun q => snd q =? a) c in
    let sum f := fold_right Z.add 0 (map f ls) in
    match y with
    | [] => other y p average
    | _ =>
      if String.eqb average "macro" then Ok (fmean (map (fun a => Fin (f1_ratio (tp a) (tr a) (pr a))) ls))
      else if String.eqb average "micro" then Ok (Fin (f1_ratio (sum tp) (sum tr) (sum pr)))
      else if String.eqb average "weighted" then
        Ok (fdiv (sumf ls (fun a => nmul (nofZ (tr a)) (f1_ratio (tp a) (tr a) (pr a)))) (nofZ (sum tr)))
      else other y p average
    end.
  (** cl:71-97 *)
  Definition f1_score (argmax : list T -> Z) other (yt : list Z) (yp : preds (T := T)) (average : string) : res (fl T) :=
    rbind (format_classes argmax yt yp) (fun '(y, p) => sk_f1 other y p average).
End F1.

(** * Random features *)
(** the label argument: a list of integers, an array or tensor given by its shape and its integers, or something else *)
Inductive labels_arg := FList (l : list Z) | FArray (shape : list nat) (l : list Z) | FBad.
Section Features.
  Context {T : Type} {NT : Num T} {ET : Ext T}.
  (** first position of [x] ([list.index]); the length when there is none *)
  Fixpoint index_of (x : Z) (l : list Z) : nat := match l with [] => O | y :: r => if x =? y then O else S (index_of x r) end.
  (** fe:6-40.  [draw i c]: the standard normal number drawn for row [i] and column [c] ([np.random.normal] is centre + scale times it and
      refuses a negative scale).  Without labels the index array of fe:36 has dtype float64, so line fe:38 raises IndexError. *)
  Definition normal_features (draw : nat -> nat -> T) (labels : labels_arg) (noise : T) : res (list (list T)) :=
    let go (l : list Z) :=
      let ls := labels_of l [] in
      match l with
      | [] => Err IndexError
      | _ =>
        if negb (nleb nz noise) then Err ValueError
        else Ok (map (fun i => map (fun c => nadd (if Nat.eqb (index_of (nth i l 0) ls) c then n1 else nz) (nmul noise (draw i c)))
                   (seq 0 (length ls))) (seq 0 (length l)))
      end in
    match labels with
    | FBad => Err TypeError
    | FList l => go l
    | FArray [_] l => go l
    | FArray _ _ => Err AssertionError
    end.
End Features.

(** * Seeds *)
Section Seeds.
  (** generator states of random, numpy and torch, their seeding and one draw of each *)
  Variables (G1 G2 G3 V : Type).
  Variables (init1 : Z -> G1) (init2 : Z -> G2) (init3 : Z -> G3).
  Variables (next1 : G1 -> V * G1) (next2 : G2 -> V * G2) (next3 : G3 -> V * G3).
  (** the module variable [_MANUAL_SEED] (sd:7) and the three global generators *)
  Record seeds := mkSeeds { manual : option Z; gen1 : G1; gen2 : G2; gen3 : G3 }.
  (** sd:10-17; [now]: [int(time.time())] *)
  Definition seed (st : seeds) (now : Z) : Z := match manual st with Some s => s | None => now end.
  (** sd:20-33, statement by statement; [np.random.seed] refuses what is not in 0 .. 2^32 - 1 *)
  Definition set_seed (st : seeds) (s : Z) : seeds * res unit :=
    let st1 := mkSeeds (Some s) (init1 s) (gen2 st) (gen3 st) in
    if (0 <=? s) && (s <? 2 ^ 32) then (mkSeeds (Some s) (init1 s) (init2 s) (init3 s), Ok tt) else (st1, Err ValueError).
  (** what a program can do with them; [OSeed now]: ask for the seed at time [now] *)
  Inductive sop := SSet (s : Z) | SAsk (now : Z) | SDraw1 | SDraw2 | SDraw3.
  Inductive sout := SDone (r : res unit) | SSeed (s : Z) | SVal (v : V).
  Definition sstep (st : seeds) (o : sop) : seeds * sout :=
    match o with
    | SSet s => let (st', r) := set_seed st s in (st', SDone r)
    | SAsk now => (st, SSeed (seed st now))
    | SDraw1 => let (v, g) := next1 (gen1 st) in (mkSeeds (manual st) g (gen2 st) (gen3 st), SVal v)
    | SDraw2 => let (v, g) := next2 (gen2 st) in (mkSeeds (manual st) (gen1 st) g (gen3 st), SVal v)
    | SDraw3 => let (v, g) := next3 (gen3 st) in (mkSeeds (manual st) (gen1 st) (gen2 st) g, SVal v)
    end.
  Fixpoint srun (st : seeds) (os : list sop) : seeds * list sout :=
    match os with [] => (st, []) | o :: r => let (st1, x) := sstep st o in let (st2, xs) := srun st1 r in (st2, x :: xs) end.
End Seeds.

(** * Copying standard output to files *)
(** [sys.stdout]: the terminal, or a SimpleLogger on a file around what was there before (lg:21-29) *)
Inductive stdout := Terminal | Logger (file : string) (inner : stdout).
(** files and their text (None: no such file), the directories, the terminal's text, and [sys.stdout] *)
Record console := mkCons { files : string -> option string; dir_ok : string -> bool; screen : string; out : stdout }.
Definition fset (f : string -> option string) (p : string) (v : string) : string -> option string := fun q => if String.eqb q p then Some v else f q.
Definition text (o : option string) : string := match o with Some s => s | None => "" end.
(** lg:31-38: the inner stream first, then the file; every write is flushed *)
Fixpoint put (o : stdout) (m : string) (c : (string -> option string) * string) : (string -> option string) * string :=
  match o with
  | Terminal => (fst c, String.append (snd c) m)
  | Logger p inner => let c1 := put inner m c in (fset (fst c1) p (String.append (text (fst c1 p)) m), snd c1)
  end.
(** [sys.stdout.write(m)] *)
Definition print (c : console) (m : string) : console :=
  let (f, s) := put (out c) m (files c, screen c) in mkCons f (dir_ok c) s (out c).
(** lg:14-41; [dir_ok p]: the parent directory of the absolute path [p] exists.  Opening for appending creates the file.
    That [p] is itself a directory or may not be written is not modelled. *)
Definition stdout2file (c : console) (p : string) : console * res unit :=
  if dir_ok c p then
    (mkCons (fset (files c) p (text (files c p))) (dir_ok c) (screen c) (Logger p (out c)), Ok tt)
  else (c, Err AssertionError).
(** a program that prints and installs loggers *)
Inductive cop := CPrint (m : string) | CLog (p : string).
Definition cstep (c : console) (o : cop) : console * res unit :=
  match o with CPrint m => (print c m, Ok tt) | CLog p => stdout2file c p end.
Definition crun (c : console) (os : list cop) : console := fold_left (fun c o => fst (cstep c o)) os c.
