(** Model of dhg/experiments/base.py ("exp") around a single trial: [run] and [_remove_cached_data].
    A single trial ([experiment]) is in ModelNN.v. *)
From Coq Require Import String Ascii Reals.
From Verif Require Import Num PyDict ModelBase ModelMetrics ModelEval ModelData ModelNN.
Set Implicit Arguments.
Open Scope Z_scope.
Open Scope list_scope.

(** [str.rfind] for one character *)
Fixpoint rfind (c : ascii) (s : string) : option nat :=
  match s with
  | EmptyString => None
  | String a r => match rfind c r with
                  | Some i => Some (S i)
                  | None => if Ascii.eqb a c then Some 0%nat else None
                  end
  end.
(** [pathlib.PurePath.stem] *)
Definition stem (name : string) : string :=
  match rfind "." name with
  | Some i => if (Nat.ltb 0 i && Nat.ltb i (String.length name - 1))%bool then String.substring 0 i name else name
  | None => name
  end.
(** exp:123 [filename.stem.split("_")[0]] *)
Definition file_number (name : string) : string := hd EmptyString (split_str (Ascii.eqb "_") (stem name)).

Section Run.
  Context {M S : Type}.
  (** a file holds a state dict or a structure, or nothing *)
  Inductive content := FModel (m : M) | FStruct (s : S) | FEmpty.
  (** exp:113, 115: file names *)
  Definition model_file (n : nat) : string := (str_int (Z.of_nat n) ++ "_model.pth")%string.
  Definition struct_file (n : nat) : string := (str_int (Z.of_nat n) ++ "_structure.dhg")%string.

  (** exp:138 [study.optimize]: the trials run in turn (trial numbers count from 0; [l] is what they do: the result of
      [experiment], with the structure in [self.data] at the end of the trial; the 600 second limit only shortens [l]).
      A pruned trial is recorded without value, any other exception leaves [optimize] (optuna's default [catch=()]) after
      whatever was written (line 113 opens the model's file before line 114 finds that there is no model; exceptions of the
      user's functions before that line are not modelled).  [best] is optuna's [best_trial]: the first complete trial whose value none exceeds. *)
  Fixpoint optimize (n : nat) (l : list (eres M * S)) (files : dict string content) (best : option (nat * fl R))
      : dict string content * res (option (nat * fl R)) :=
    match l with
    | [] => (files, Ok best)
    | (EPruned, _) :: r => optimize (Datatypes.S n) r files best
    | (EFail x None, _) :: _ => (dset (model_file n) FEmpty files, Err x)
    | (EFail x (Some m), _) :: _ => (dset (model_file n) (FModel m) files, Err x)
    | (EDone sc m, s) :: r =>
        optimize (Datatypes.S n) r (dset (struct_file n) (FStruct s) (dset (model_file n) (FModel m) files))
          (match best with Some (_, b) => if fgt sc b then Some (n, sc) else best | None => Some (n, sc) end)
    end.
  (** exp:118-124 *)
  Definition remove_cached (best : nat) (files : dict string content) : dict string content :=
    filter (fun f => String.eqb (file_number (fst f)) (str_int (Z.of_nat best))) files.
  (** exp:126-148: files in the cache directory afterwards, and [best_model], [best_structure], [best_trial.value].
      [best_trial] of a study without complete trials raises ValueError.  [torch.load] and [load_structure] return what was
      saved (for structures: C09, C32); loading a file of the other kind does not arise. *)
  Definition run (l : list (eres M * S)) (files : dict string content) : dict string content * res (M * S * fl R) :=
    match optimize 0 l files None with
    | (files, Err x) => (files, Err x)
    | (files, Ok None) => (files, Err ValueError)
    | (files, Ok (Some (n, sc))) =>
        let files := remove_cached n files in
        (files, match dget (model_file n) files, dget (struct_file n) files with
                | Some (FModel m), Some (FStruct s) => Ok (m, s, sc)
                | _, _ => Err RuntimeError
                end)
    end.
End Run.
Arguments content : clear implicits.
