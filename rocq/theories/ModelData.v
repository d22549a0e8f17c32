(** Model of dhg/utils/download.py ("dl"), dhg/data/base.py ("db"), dhg/utils/dataset_wrapers.py ("dw"), dhg/datapipe/common.py ("dc"),
    dhg/datapipe/normalize.py ("dn") and load_from_txt of dhg/datapipe/loader.py ("lo").  The server, the random source, loaders and
    pipes are arguments. *)
From Coq Require Import String Ascii Reals.
From Verif Require Import Num PyDict ModelBase ModelConv ModelUtils ModelMetrics.
Set Implicit Arguments.
Local Open Scope string_scope.
Local Open Scope list_scope.
Local Open Scope Z_scope.

(** * Downloads *)
(** paths are lists of components, absolute and without ".." *)
Definition path := list string.
Definition bytes := list ascii.
(** what happens to a request: no connection (a RequestException that is no HTTPError), a status other than 200, or a body; [false]:
    the transfer breaks after these bytes, which also raises a RequestException *)
Inductive resp := RFail | RStatus | RBody (b : bytes) (complete : bool).
Inductive dexn := XHttp | XRequest | XValue | XNotFound.
Inductive dres := DOk | DErr (x : dexn).
(** contents of the files, and the requests made so far.  Directories are created on demand and otherwise ignored; disk errors are not
    modelled. *)
Record dst := mkdst { dk : path -> option bytes; rq : list string }.
Definition put (p : path) (v : option bytes) (d : path -> option bytes) : path -> option bytes := fun q => if eqb q p then v else d q.
Definition set_file (p : path) (v : option bytes) (s : dst) : dst := mkdst (put p v (dk s)) (rq s).

Section Download.
  (** dhg/_global.py:12-16 *)
  Variables (home cache_root : path) (remote backup : string).
  (** the answer to the i-th request *)
  Variable server : nat -> string -> resp.
  Variable digest : bytes -> string.

  (** dl:9-23 *)
  Definition download_file (url : string) (p : path) (s : dst) : dst * dres :=
    let s1 := mkdst (dk s) (rq s ++ [url]) in
    match server (length (rq s)) url with
    | RFail => (s1, DErr XRequest)
    | RStatus => (s1, DErr XHttp)
    | RBody b true => (set_file p (Some b) s1, DOk)
    | RBody b false => (set_file p (Some b) s1, DErr XRequest)
    end.
  (** [Path.relative_to]: None when [p] is not below [root] (ValueError) *)
  Fixpoint relative_to (p root : path) : option path :=
    match root, p with
    | [], _ => Some p
    | a :: root', b :: p' => if String.eqb a b then relative_to p' root' else None
    | _ :: _, [] => None
    end.
  (** dl:67-79; [None]: ValueError *)
  Definition migrate (p : path) (s : dst) : option dst :=
    match relative_to p cache_root with
    | None => None
    | Some r => let old := home ++ ".dhg" :: r in
                match dk s old with
                | None => Some s
                | Some b => Some (set_file p (Some b) (set_file old None s))
                end
    end.
  (** [url.replace(remote, backup, 1)] for a url that starts with [remote] *)
  Definition backup_url (url : string) : string := String.append backup (substring (String.length remote) (String.length url - String.length remote) url).
  (** dl:83-108 without the decorator *)
  Definition attempt (url : string) (p : path) (md5 : string) (s : dst) : dst * dres :=
    match (match dk s p with Some _ => Some s | None => migrate p s end) with
    | None => (s, DErr XValue)
    | Some s =>
        let (s, r) :=
          match dk s p with
          | Some _ => (s, DOk)
          | None => match download_file url p s with
                    | (s, DOk) => (s, DOk)
                    | (s, DErr x) => if String.prefix remote url then download_file (backup_url url) p s else (s, DErr x)
                    end
          end in
        match r with
        | DErr x => (s, DErr x)
        | DOk => match dk s p with
                 | None => (s, DErr XNotFound)
                 | Some b => if String.eqb (digest b) md5 then (s, DOk) else (set_file p None s, DErr XValue)
                 end
        end
    end.
  (** dl:45-64: [n - 1] calls with HTTPError caught, one call without *)
  Fixpoint retry (n : nat) (f : dst -> dst * dres) (s : dst) : dst * dres :=
    match n with
    | O => f s
    | S n => match f s with (s, DErr XHttp) => retry n f s | r => r end
    end.
  (** dl:82-108 *)
  Definition download_and_check (url : string) (p : path) (md5 : string) (s : dst) : dst * dres := retry 2 (attempt url p md5) s.
End Download.

(** * Pipes and datasets *)
(** dc:90-102 *)
Fixpoint compose_pipes {A} (ps : list (A -> res A)) (x : A) : res A := match ps with [] => Ok x | p :: r => rbind (p x) (compose_pipes r) end.

Section Base.
  (** Python values; [None] is Python's None *)
  Context {V F : Type}.
  (** argument of a loader: one file or several *)
  Inductive larg := LOne (f : F) | LMany (l : list F).
  Record cfg := mkcfg { c_upon : list F; c_pipes : option (list (option V -> res (option V))) }.
  Inductive content := CVal (v : option V) | CCfg (c : cfg).
  (** the i-th call of fetch_files and of a loader (of the item [key]) *)
  Variable fetch : nat -> list F -> res unit.
  Variable load : nat -> string -> larg -> res (option V).
  Variable items : dict string content.
  (** [_raw], the "cache" entries, and the calls of fetch_files and of the loaders with their results *)
  Record bd := mkbd { b_raw : dict string (option V); b_cache : dict string (option V); b_fetched : list (string * list F); b_loads : list (string * larg * res (option V)) }.
  (** db:28-38 *)
  Definition bd_new : bd := mkbd [] [] [] [].
  Definition larg_of (l : list F) : larg := match l with [f] => LOne f | _ => LMany l end.
  (** db:82-100 *)
  Definition bd_rawget (key : string) (s : bd) : bd * res (option V) :=
    match dget key items with
    | None => (s, Err AssertionError)
    | Some (CVal v) => (s, Ok v)
    | Some (CCfg c) =>
        match dget key (b_raw s) with
        | Some (Some v) => (s, Ok (Some v))
        | _ =>
            match c_upon c with
            | [] => (s, Ok None)
            | l =>
                let s1 := mkbd (b_raw s) (b_cache s) (b_fetched s ++ [(key, l)]) (b_loads s) in
                match fetch (length (b_fetched s)) l with
                | Err x => (s1, Err x)
                | Ok _ =>
                    let r := load (length (b_loads s)) key (larg_of l) in
                    let lg := b_loads s ++ [(key, larg_of l, r)] in
                    match r with
                    | Err x => (mkbd (b_raw s) (b_cache s) (b_fetched s1) lg, Err x)
                    | Ok v => (mkbd (dset key v (b_raw s)) (b_cache s) (b_fetched s1) lg, Ok v)
                    end
                end
            end
        end
    end.
  (** db:66-80 *)
  Definition bd_get (key : string) (s : bd) : bd * res (option V) :=
    match dget key items with
    | None => (s, Err AssertionError)
    | Some (CVal v) => (s, Ok v)
    | Some (CCfg c) =>
        match dget key (b_cache s) with
        | Some (Some v) => (s, Ok (Some v))
        | _ =>
            match bd_rawget key s with
            | (s, Err x) => (s, Err x)
            | (s, Ok item) =>
                match (match c_pipes c with Some ps => compose_pipes ps item | None => Ok item end) with
                | Err x => (s, Err x)
                | Ok v => (mkbd (b_raw s) (dset key v (b_cache s)) (b_fetched s) (b_loads s), Ok v)
                end
            end
        end
    end.
  Inductive bcall := BGet (k : string) | BRaw (k : string).
  Definition bd_step (s : bd) (c : bcall) : bd := match c with BGet k => fst (bd_get k s) | BRaw k => fst (bd_rawget k s) end.
  Definition bd_run (cs : list bcall) (s : bd) : bd := fold_left bd_step cs s.
End Base.
Arguments content : clear implicits.
Arguments cfg : clear implicits.
Arguments larg : clear implicits.
Arguments bd : clear implicits.

(** * UserItemDataset *)
Record uid := mkuid { u_train : bool; u_nu : Z; u_ni : Z; u_list : list (Z * Z); u_adj : dict Z (list Z); u_strict : bool; u_tadj : dict Z (list Z) }.
(** dw:22-42; in the training phase there is no train_adj_dict, here an empty one *)
Definition uid_new (nu ni : Z) (l : list (Z * Z)) (tl : option (list (Z * Z))) (strict : bool) (phase : string) : res uid :=
  if String.eqb phase "train" then Ok (mkuid true nu ni l (edge_list_to_adj_dict l) strict [])
  else if String.eqb phase "test" then
    match tl with
    | None => Err AssertionError
    | Some t => Ok (mkuid false nu ni l (edge_list_to_adj_dict l) strict (edge_list_to_adj_dict t))
    end
  else Err AssertionError.
(** indexing a defaultdict(list); the empty list it inserts has no visible effect *)
Definition ddget (k : Z) (d : dict Z (list Z)) : list Z := match dget k d with Some l => l | None => [] end.
Section Sampling.
  (** the i-th draw: [ri i] of randrange(num_items), [ru] of randrange(num_users), [rc n] of choice among n positions *)
  Variables (ri : nat -> Z) (ru : Z) (rc : nat -> nat).
  (** dw:53-62, from the i-th draw on *)
  Fixpoint neg_loop (fuel : nat) (i : nat) (own : list Z) : option Z :=
    match fuel with
    | O => None
    | S f => if existsb (Z.eqb (ri i)) own then neg_loop f (S i) own else Some (ri i)
    end.
  Definition sample_neg_item (fuel : nat) (d : uid) (user : Z) : option (res Z) :=
    if u_ni d <=? 0 then Some (Err ValueError)
    else match neg_loop fuel 0 (ddget user (u_adj d)) with None => None | Some x => Some (Ok x) end.
  (** dw:44-51 *)
  Definition sample_triplet (fuel : nat) (d : uid) : option (res (Z * Z * Z)) :=
    if u_nu d <=? 0 then Some (Err ValueError)
    else let own := ddget ru (u_adj d) in
         if Nat.eqb (length own) 0 then Some (Err AssertionError)
         else match sample_neg_item fuel d ru with
              | None => None
              | Some (Err x) => Some (Err x)
              | Some (Ok n) => Some (Ok (ru, nth (rc (length own)) own 0, n))
              end.
  (** [x[items] = v] for a vector [x]: negative positions count from the end *)
  Fixpoint assign_at (items : list Z) (v : fl Z) (x : list (fl Z)) : res (list (fl Z)) :=
    match items with
    | [] => Ok x
    | i :: r => let n := Z.of_nat (length x) in
                if (i <? - n) || (n <=? i) then Err IndexError
                else let j := Z.to_nat (if i <? 0 then i + n else i) in
                     assign_at r v (firstn j x ++ v :: skipn (S j) x)
    end.
  Inductive gout := GTriplet (u p n : Z) | GRow (i : Z) (mask rating : list (fl Z)).
  (** dw:64-85 *)
  Definition uid_get (fuel : nat) (d : uid) (index : Z) : option (res gout) :=
    if u_train d then
      if u_strict d then
        match np_index (u_list d) index with
        | Err x => Some (Err x)
        | Ok (user, pos) => match sample_neg_item fuel d user with
                            | None => None
                            | Some (Err x) => Some (Err x)
                            | Some (Ok n) => Some (Ok (GTriplet user pos n))
                            end
        end
      else match sample_triplet fuel d with
           | None => None
           | Some (Err x) => Some (Err x)
           | Some (Ok (u, p, n)) => Some (Ok (GTriplet u p n))
           end
    else if u_ni d <? 0 then Some (Err RuntimeError)
    else let zeros := map (fun _ => Fin 0) (range (u_ni d)) in
         Some (rbind (assign_at (ddget index (u_tadj d)) NInf zeros) (fun mask =>
               rbind (assign_at (ddget index (u_adj d)) (Fin 1) zeros) (fun rating =>
               Ok (GRow index mask rating)))).
End Sampling.
(** dw:87-93 *)
Definition uid_len (d : uid) : Z := if u_train d then Z.of_nat (length (u_list d)) else u_nu d.

(** * Scaling *)
Section Scaler.
  Context {T : Type} {NT : Num T} {ET : Ext T}.
  Definition lmin (a b : T) : T := if nleb a b then a else b.
  Definition lmax (a b : T) : T := if nleb a b then b else a.
  (** [X.min()], [X.max()]: RuntimeError without elements *)
  Definition extreme (f : T -> T -> T) (l : list T) : res T := match l with [] => Err RuntimeError | x :: r => Ok (fold_left f r x) end.
  (** dn:42-69; a matrix as a list of rows.  The division is Python's (both numbers come from [item()]). *)
  Definition min_max_scaler (X : list (list T)) (ft_min ft_max : T) : res (list (list T)) :=
    if nltb ft_min ft_max then
      rbind (extreme lmin (concat X)) (fun x_min =>
      rbind (extreme lmax (concat X)) (fun x_max =>
      let range := nsub x_max x_min in
      if neqb range nz then Err ZeroDivisionError else
      let scale := nmul (nsub ft_max ft_min) (ninv range) in
      let off := nsub ft_min (nmul x_min scale) in
      Ok (map (map (fun x => nadd (nmul x scale) off)) X)))
    else Err AssertionError.
End Scaler.
Section Norms.
  Local Open Scope R_scope.
  (** |x|^p *)
  Definition abs_pow (x p : R) : R := if Req_EM_T x 0 then 0 else Rpower (Rabs x) p.
  (** argument ord: None, a positive number, or inf *)
  Inductive nord := ONone | OPow (p : R) | OInf.
  (** [torch.linalg.norm] of a vector *)
  Definition vnorm (o : nord) (x : list R) : R :=
    match o with
    | ONone => sqrt (fold_right Rplus 0 (map (fun a => a * a) x))
    | OPow p => abs_pow (fold_right Rplus 0 (map (fun a => abs_pow a p) x)) (/ p)
    | OInf => fold_right Rmax 0 (map Rabs x)
    end.
  (** dn:28-35, one vector or one row: 1 / norm, infinity replaced by 0 *)
  Definition norm_row (o : nord) (x : list R) : list R :=
    let n := vnorm o x in
    let f := if Req_EM_T n 0 then 0 else / n in
    map (fun a => a * f) x.
  (** dn:5-39 for a matrix *)
  Definition norm_ft (o : nord) (X : list (list R)) : list (list R) := map (norm_row o) X.
End Norms.

(** * Text files *)
(** [re.split] with an alternation of single characters (the default separator is comma, space, tab) *)
Fixpoint split_str (sep : ascii -> bool) (s : string) : list string :=
  match s with
  | EmptyString => [EmptyString]
  | String c r => match split_str sep r with
                  | w :: ws => if sep c then EmptyString :: w :: ws else String c w :: ws
                  | [] => []
                  end
  end.
Definition is_space (c : ascii) : bool := let n := nat_of_ascii c in (Nat.eqb n 32 || (Nat.leb 9 n && Nat.leb n 13) || (Nat.leb 28 n && Nat.leb n 31))%bool.
Fixpoint lstrip (s : string) : string := match s with String c r => if is_space c then lstrip r else s | EmptyString => s end.
Fixpoint rstrip (s : string) : string :=
  match s with
  | EmptyString => EmptyString
  | String c r => match rstrip r with
                  | EmptyString => if is_space c then EmptyString else String c EmptyString
                  | r' => String c r'
                  end
  end.
(** lo:39-61; [lines] are the lines of the file (ASCII, with their line ends), [cast] the cast function *)
Definition load_from_txt {A} (cast : string -> res A) (sep : ascii -> bool) (ignore_header : nat) (lines : list string) : res (list (list A)) :=
  map_res (fun line => map_res cast (split_str sep (lstrip (rstrip line)))) (skipn ignore_header lines).
