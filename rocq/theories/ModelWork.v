(** Model of the directories and log files that dhg/experiments/base.py ("exp") makes: [BaseTask.__init__] and the logger.
    The file system is a map from absolute paths to directories and files.  Files have an inode, so that a file which is open
    can be written to after it was removed.  Not modelled: symbolic links, permissions, other processes; [..] in a path is taken for
    a name like any other, and the theorems are about names without it. *)
From Coq Require Import String Ascii.
From Verif Require Import Num PyDict ModelBase ModelData.
Set Implicit Arguments.
Open Scope Z_scope.
Open Scope list_scope.

(** [pathlib.PurePosixPath(s)]: whether it is absolute, and its components; empty ones and "." are dropped *)
Notation path := (list string).
Definition parse (s : string) : bool * path :=
  (match s with String c _ => Ascii.eqb c "/" | EmptyString => false end,
   filter (fun c => negb (String.eqb c "" || String.eqb c ".")) (split_str (Ascii.eqb "/") s)).
(** [work_root / name] (exp:59): an absolute name replaces the directory it is joined to *)
Definition join (work : path) (name : string) : path := let (abs, c) := parse name in if abs then c else work ++ c.
(** [str] of an absolute path *)
Definition show (p : path) : string := match p with [] => "/" | _ => String.concat "" (map (fun c => ("/" ++ c)%string) p) end.
Definition is_prefix (a p : path) : bool := eqb (firstn (length a) p) a.

Inductive node := NDir | NFile (inode : nat).
(** [w_nodes]: everything below the root directory; [w_data]: the lines in each inode; [w_handlers]: the files that the handlers of
    the logger "optuna" have open (the logger is the same for all tasks of the process, exp:72) *)
Record world := mkworld { w_nodes : dict path node; w_data : list (list string); w_handlers : list nat }.
(** [Path.exists], [Path.is_dir] *)
Definition present (w : world) (p : path) : bool := match p with [] => true | _ => dhas p (w_nodes w) end.
Definition is_dir (w : world) (p : path) : bool := match p with [] => true | _ => match dget p (w_nodes w) with Some NDir => true | _ => false end end.
(** [shutil.rmtree] of a path that exists, and whether it raises nothing: a file is refused, the root directory is emptied but cannot
    be removed *)
Definition rmtree (p : path) (w : world) : world * bool :=
  if is_dir w p then (mkworld (filter (fun f => negb (is_prefix p (fst f))) (w_nodes w)) (w_data w) (w_handlers w), match p with [] => false | _ => true end)
  else (w, false).
(** [Path.mkdir(exist_ok=True)] *)
Definition mkdir (p : path) (w : world) : world * bool :=
  if negb (is_dir w (removelast p)) then (w, false)
  else if present w p then (w, is_dir w p)
  else (mkworld (dset p NDir (w_nodes w)) (w_data w) (w_handlers w), true).
(** [open(p, "a")]: the inode *)
Definition open_append (p : path) (w : world) : world * option nat :=
  if negb (is_dir w (removelast p)) then (w, None)
  else match dget p (w_nodes w) with
       | Some (NFile i) => (w, Some i)
       | Some NDir => (w, None)
       | None => (mkworld (dset p (NFile (length (w_data w))) (w_nodes w)) (w_data w ++ [[]]) (w_handlers w), Some (length (w_data w)))
       end.
(** [logger.info]: every handler writes the line.  (The format of exp:75, level and time, is left out.) *)
Fixpoint write (i : nat) (m : string) (d : list (list string)) : list (list string) :=
  match d, i with
  | [], _ => []
  | l :: d, 0%nat => (l ++ [m]) :: d
  | l :: d, S i => l :: write i m d
  end.
Definition info (m : string) (w : world) : world := mkworld (w_nodes w) (fold_left (fun d i => write i m d) (w_handlers w) (w_data w)) (w_handlers w).

(** exp:62-63 *)
Definition log_of (root : path) : path := root ++ ["log.txt"%string].
Definition cache_of (root : path) : path := root ++ ["cache"%string].

(** [Created root]: the task exists and its [study_root] is [root]; [NoWorkRoot]: ValueError of exp:68; [OsError]: any OSError *)
Inductive cres := Created (root : path) | NoWorkRoot | OsError.
(** exp:58-78; [name] is [self.study_name], [work] an absolute [work_root] *)
Definition create (work : path) (name : string) (overwrite : bool) (w : world) : world * cres :=
  let root := join work name in
  let '(w, ok) := if overwrite && present w root then rmtree root w else (w, true) in
  if negb ok then (w, OsError) else
  let '(w, r) := if present w work then (w, None)
                 else if present w (removelast work) then let (w, ok) := mkdir work w in (w, if ok then None else Some OsError)
                 else (w, Some NoWorkRoot) in
  match r with
  | Some r => (w, r)
  | None =>
      let (w, ok) := mkdir root w in
      if negb ok then (w, OsError) else
      let (w, ok) := mkdir (cache_of root) w in
      if negb ok then (w, OsError) else
      match open_append (log_of root) w with
      | (w, None) => (w, OsError)
      | (w, Some i) =>
          let w := mkworld (w_nodes w) (w_data w) (w_handlers w ++ [i]) in
          let w := info (("Logs will be saved to " ++ show (log_of root))%string) w in
          (info ("Files in training will be saved in " ++ show root)%string w, Created root)
      end
  end.

(** what a process does: make tasks, and log messages with one of them (or with optuna) *)
Inductive wop := WCreate (work : path) (name : string) (overwrite : bool) | WInfo (m : string).
Definition wstep (w : world) (o : wop) : world := match o with WCreate r n ow => fst (create r n ow w) | WInfo m => info m w end.
