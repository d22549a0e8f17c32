(** Model of dhg/metrics/base.py ("b"): [format_metric_configs] and [BaseEvaluator]. *)
From Coq Require Import String Ascii QArith Qround DecimalString.
From Verif Require Import Num PyDict ModelBase ModelConv ModelUtils ModelMetrics.
Set Implicit Arguments.
Local Open Scope list_scope.
Local Open Scope Z_scope.

(** * Markers *)
(** A parameter value.  Of a list, tuple or set only the [str] of its items matters, of any other value only its [str].
    A float is finite, so a rational. *)
Inductive pval := PStr (s : string) | PInt (z : Z) | PBool (b : bool) | PFloat (q : Q) | PSeq (l : list string) | POther (s : string).
Definition params := list (string * pval).
(** a metric configuration: a name, a dict (any number of names with their parameters), or something else *)
Inductive config := CName (s : string) | CDict (l : list (string * params)) | CBad.

(** [str(z)] *)
Definition str_int (z : Z) : string := NilZero.string_of_int (Z.to_int z).
(** nearest integer, ties to even *)
Definition round_even (q : Q) : Z :=
  let f := Qfloor q in
  let r := (q - inject_Z f)%Q in
  if Qle_bool r (1 # 2) then (if Qeq_bool r (1 # 2) then (if Z.even f then f else f + 1) else f) else f + 1.
(** [z] with four digits (0 <= z < 10000) *)
Definition pad4 (z : Z) : string :=
  let s := str_int z in
  if z <? 10 then String.append "000" s else if z <? 100 then String.append "00" s else if z <? 1000 then String.append "0" s else s.
(** [f"{v:.4f}"] *)
Definition str_float (q : Q) : string :=
  let u := round_even (Qabs.Qabs q * 10000)%Q in
  String.append (if Qle_bool 0 q then "" else "-")
    (String.append (str_int (u / 10000)) (String.append "." (pad4 (u mod 10000)))).
(** [sep.join(l)] *)
Fixpoint join (sep : string) (l : list string) : string :=
  match l with [] => "" | [x] => x | x :: r => String.append x (String.append sep (join sep r)) end.
(** b:52-63 *)
Definition show_val (v : pval) : string :=
  match v with
  | PStr s => s
  | PInt z => str_int z
  | PBool true => "True"
  | PBool false => "False"
  | PFloat q => str_float q
  | PSeq l => join "_" l
  | POther s => s
  end.
Definition show_item (kv : string * pval) : string := String.append (fst kv) (String.append "@" (show_val (snd kv))).
(** b:65 *)
Definition marker_of (name : string) (ps : params) : string :=
  String.append name (String.append " -> " (join " | " (map show_item ps))).

(** [s.lower()] for ASCII *)
Definition lower_ascii (c : ascii) : ascii :=
  let n := Ascii.nat_of_ascii c in
  if (Nat.leb 65 n && Nat.leb n 90)%bool then Ascii.ascii_of_nat (n + 32) else c.
Fixpoint lower (s : string) : string := match s with EmptyString => EmptyString | String c r => String (lower_ascii c) (lower r) end.
(** b:19-33, with cl:17-22, rt:9-14, rc:16-21 *)
Definition available (task : string) : res (list string) :=
  let t := lower task in
  if String.eqb t "classification" then Ok ["accuracy"; "f1_score"; "confusion_matrix"]%string
  else if String.eqb t "retrieval" then Ok ["precision"; "recall"; "map"; "ndcg"; "mrr"; "pr_curve"]%string
  else if String.eqb t "recommender" then Ok ["precision"; "recall"; "ndcg"]%string
  else Err ValueError.
Definition str_in (s : string) (l : list string) : bool := existsb (String.eqb s) l.
(** b:35-68, one configuration: marker, function name and parameters *)
Definition format_one (avail : list string) (c : config) : res (string * (string * params)) :=
  match c with
  | CName s => if str_in s avail then Ok (s, (s, [])) else Err AssertionError
  | CDict [(s, ps)] => if str_in s avail then Ok (marker_of s ps, (s, ps)) else Err AssertionError
  | CDict _ => Err AssertionError
  | CBad => Err ValueError
  end.
Definition format_metric_configs (task : string) (cs : list config) : res (list (string * (string * params))) :=
  rbind (available task) (fun av => map_res (format_one av) cs).

(** * Evaluator.  [D] is the type of a batch (a pair of y_true and y_pred); a metric is applied with [ret_batch=True]
    ([true]) or without the argument ([false]). *)
Section Evaluator.
  Context {T : Type} {NT : Num T} {ET : Ext T} {D : Type}.
  Definition metric := D -> bool -> res (mout T).

  (** numpy arrays with two axes ([A2 width rows]) or three ([A3 height width planes]) *)
  Inductive arr := A2 (w : nat) (rows : list (list (fl T))) | A3 (h w : nat) (planes : list (list (list (fl T)))).
  (** the value of the dict of test results: a list whose items are arrays or lists of arrays *)
  Inductive titem := IArr (w : nat) (rows : list (list (fl T))) | ILst (l : list (nat * list (list (fl T)))).
  (** what [tolist()] gives *)
  Inductive tout := OScal (x : fl T) | OVec (l : list (fl T)) | OTup (l : list tout).

  Record ev := mkev {
    ev_fns : list (string * metric);                  (* marker_list and func_list *)
    ev_index : Z;                                     (* validate_index *)
    ev_val : list arr;                                (* validate_res *)
    ev_lastv : option (fl T);                         (* last_validate_res *)
    ev_test : dict string (list titem);               (* test_res_dict *)
    ev_last : dict string tout                        (* last_test_res *)
  }.

  (** b:81-96; [impl name params] is the function of the task's module with the parameters bound *)
  Definition ev_new (impl : string -> params -> metric) (task : string) (cs : list config) (index : Z) : res ev :=
    rbind (format_metric_configs task cs) (fun ms =>
    if (0 <=? index) && (index <? Z.of_nat (length ms)) then
      Ok (mkev (map (fun m => (fst m, impl (fst (snd m)) (snd (snd m)))) ms) index [] None [] [])
    else Err AssertionError).

  Definition width (l : list (list (fl T))) : nat := match l with [] => 0%nat | r :: _ => length r end.
  (** b:111-113: [np.array(batch_res)], one-dimensional results become a column.  (A 0-dimensional array is turned into one row
      by the later vstack.) *)
  Definition as_array (o : mout T) : arr :=
    match o with
    | MScal x => A2 1 [[x]]
    | MList l => A2 1 (map (fun x => [x]) l)
    | MCurve p r => A2 (length p) [p; r]
    | MCurves [] r => A2 0 [[]; []]
    | MCurves p r => A3 (length p) (width p) [p; r]
    | MMat m => A2 (length m) m
    end.
  (** [np.vstack] *)
  Definition vstack2 (l : list (nat * list (list (fl T)))) : res (nat * list (list (fl T))) :=
    match l with
    | [] => Err ValueError
    | (w, _) :: _ => if forallb (fun a => Nat.eqb (fst a) w) l then Ok (w, concat (map snd l)) else Err ValueError
    end.
  Definition vstack (l : list arr) : res arr :=
    match l with
    | [] => Err ValueError
    | A2 w _ :: _ =>
        rbind (map_res (fun a => match a with A2 w rows => Ok (w, rows) | A3 _ _ _ => Err ValueError end) l) (fun l =>
        rbind (vstack2 l) (fun '(w, rows) => Ok (A2 w rows)))
    | A3 h w _ :: _ =>
        rbind (map_res (fun a => match a with A3 h' w' ps => if Nat.eqb h h' && Nat.eqb w w' then Ok ps else Err ValueError
                                            | A2 _ _ => Err ValueError end) l) (fun l =>
        Ok (A3 h w (concat l)))
    end.
  (** [a.mean(0)], flattened *)
  Definition col (j : nat) (rows : list (list (fl T))) : list (fl T) := map (fun r => nth j r NaN) rows.
  Definition mean0 (a : arr) : list (fl T) :=
    match a with
    | A2 w rows => map (fun j => fmean (col j rows)) (seq 0 w)
    | A3 h w ps => flat_map (fun i => map (fun j => fmean (map (fun p => nth j (nth i p []) NaN) ps)) (seq 0 w)) (seq 0 h)
    end.
  (** [.item()]: only for one element *)
  Definition item (l : list (fl T)) : res (fl T) := match l with [x] => Ok x | _ => Err ValueError end.
  (** [.squeeze().tolist()] of a vector *)
  Definition squeeze (l : list (fl T)) : tout := match l with [x] => OScal x | _ => OVec l end.

  (** [self.func_list[self.validate_index]] *)
  Definition vfn (e : ev) : res metric :=
    match nth_error (ev_fns e) (Z.to_nat (ev_index e)) with Some m => Ok (snd m) | None => Err IndexError end.
  (** b:103-114 *)
  Definition validate_add_batch (d : D) (e : ev) : ev * res unit :=
    match rbind (vfn e) (fun f => f d true) with
    | Err x => (e, Err x)
    | Ok o => (mkev (ev_fns e) (ev_index e) (ev_val e ++ [as_array o]) (ev_lastv e) (ev_test e) (ev_last e), Ok tt)
    end.
  (** b:116-125 *)
  Definition validate_epoch_res (e : ev) : ev * res (fl T) :=
    match ev_val e, ev_lastv e with
    | [], Some x => (e, Ok x)
    | [], None => (e, Err AssertionError)
    | l, _ => match rbind (vstack l) (fun a => item (mean0 a)) with
              | Err x => (e, Err x)
              | Ok v => (mkev (ev_fns e) (ev_index e) [] (Some v) (ev_test e) (ev_last e), Ok v)
              end
    end.

  (** [column] of b:138-139 / b:146-147 *)
  Definition as_rows (l : list (fl T)) : nat * list (list (fl T)) := (1%nat, map (fun x => [x]) l).
  Definition tget (name : string) (d : dict string (list titem)) : list titem :=
    match dget name d with Some l => l | None => [] end.
  (** [l[idx].append(a)] *)
  Fixpoint append_at (idx : nat) (a : nat * list (list (fl T))) (l : list titem) : res (list titem) :=
    match l, idx with
    | [], _ => Err IndexError
    | ILst x :: r, O => Ok (ILst (x ++ [a]) :: r)
    | IArr _ _ :: _, O => Err AttributeError
    | x :: r, S i => rbind (append_at i a r) (fun r' => Ok (x :: r'))
    end.
  (** b:135-148, one metric: the new list of the marker *)
  Definition add_result (o : mout T) (l : list titem) : res (list titem) :=
    let sub a b := let l := match l with [] => [ILst []; ILst []] | _ => l end in
                   rbind (append_at 0 a l) (fun l => append_at 1 b l) in
    match o with
    | MScal x => Ok (l ++ [IArr 1 [[x]]])
    | MList xs => Ok (l ++ [IArr 1 (map (fun x => [x]) xs)])
    | MCurve p r => sub (as_rows p) (as_rows r)
    | MCurves p r => sub (match p with [] => as_rows [] | _ => (width p, p) end) (match r with [] => as_rows [] | _ => (width r, r) end)
    | MMat m => Ok (l ++ [IArr (length m) m])
    end.
  Definition set_test (e : ev) (t : dict string (list titem)) : ev := mkev (ev_fns e) (ev_index e) (ev_val e) (ev_lastv e) t (ev_last e).
  Fixpoint add_all (fns : list (string * metric)) (d : D) (t : dict string (list titem)) : dict string (list titem) * res unit :=
    match fns with
    | [] => (t, Ok tt)
    | (name, f) :: r =>
        match rbind (f d true) (fun o => add_result o (tget name t)) with
        | Err x => (t, Err x)
        | Ok l => add_all r d (dset name l t)
        end
    end.
  (** b:127-148.  When a metric raises, the results of the metrics before it stay. *)
  Definition test_add_batch (d : D) (e : ev) : ev * res unit :=
    let (t, r) := add_all (ev_fns e) d (ev_test e) in (set_test e t, r).

  (** b:156-162, one marker *)
  Definition summarise (l : list titem) : res tout :=
    match l with
    | [] => Err IndexError
    | IArr _ _ :: _ =>
        rbind (map_res (fun i => match i with IArr w rows => Ok (w, rows) | ILst _ => Err ValueError end) l) (fun l =>
        rbind (vstack2 l) (fun '(w, rows) => Ok (squeeze (mean0 (A2 w rows)))))
    | ILst _ :: _ =>
        rbind (map_res (fun i => match i with
                                 | ILst s => rbind (vstack2 s) (fun '(w, rows) => Ok (squeeze (mean0 (A2 w rows))))
                                 | IArr _ _ => Err ValueError
                                 end) l) (fun l => Ok (OTup l))
    end.
  Fixpoint summarise_all (t : dict string (list titem)) (last : dict string tout) : dict string tout * res unit :=
    match t with
    | [] => (last, Ok tt)
    | (name, l) :: r => match summarise l with
                        | Err x => (last, Err x)
                        | Ok o => summarise_all r (dset name o last)
                        end
    end.
  (** b:150-165.  [last_test_res] is the dict [{}] from the start, so the assertion of line 155 is never reached.  The
      dict itself is returned, not a copy: its content at any time is [ev_last]. *)
  Definition test_epoch_res (e : ev) : ev * res (dict string tout) :=
    match ev_test e with
    | [] => (e, Ok (ev_last e))
    | t => match summarise_all t (ev_last e) with
           | (last, Err x) => (mkev (ev_fns e) (ev_index e) (ev_val e) (ev_lastv e) (ev_test e) last, Err x)
           | (last, Ok _) => (mkev (ev_fns e) (ev_index e) (ev_val e) (ev_lastv e) [] last, Ok last)
           end
    end.
  (** b:167-174 *)
  Definition validate (d : D) (e : ev) : res (mout T) := rbind (vfn e) (fun f => f d false).
  (** b:176-183 *)
  Definition test (d : D) (e : ev) : res (dict string (mout T)) :=
    rbind (map_res (fun m => rbind (snd m d false) (fun o => Ok (fst m, o))) (ev_fns e)) (fun l =>
    Ok (fold_left (fun acc no => dset (fst no) (snd no) acc) l [])).

  (** calls on an evaluator *)
  Inductive ecall := EValAdd (d : D) | EValRes | ETestAdd (d : D) | ETestRes.
  Definition ev_step (c : ecall) (e : ev) : ev :=
    match c with
    | EValAdd d => fst (validate_add_batch d e)
    | EValRes => fst (validate_epoch_res e)
    | ETestAdd d => fst (test_add_batch d e)
    | ETestRes => fst (test_epoch_res e)
    end.
  Definition ev_run (cs : list ecall) (e : ev) : ev := fold_left (fun e c => ev_step c e) cs e.
End Evaluator.
Arguments ev : clear implicits.
Arguments arr : clear implicits.
Arguments titem : clear implicits.
Arguments tout : clear implicits.
Arguments metric : clear implicits.
Arguments ecall : clear implicits.

(** * The metrics as the evaluators see them *)
Section Impl.
  Context {T P : Type} {NT : Num T} {ET : Ext T}.
  Variable argsort : list P -> list nat.
  Definition pget (k : string) (ps : params) : option pval := dget k ps.
  Definition nofQ (q : Q) : T := nmul (nofZ (Qnum q)) (ninv (nofZ (Zpos (Qden q)))).
  (** the keyword arguments k and ratio; a value of another type raises TypeError on use, and so does an unknown keyword.
      (Passing ret_batch itself in a configuration is not modelled.  Simplified: the code looks at the shapes of the data before it
      looks at the values, a k of another type is ignored when a ratio is given, and a k that is a float not below the number of
      targets or a ratio that is a boolean is accepted.) *)
  Definition kw_k (ps : params) : res (option Z) :=
    match pget "k" ps with None => Ok None | Some (PInt z) => Ok (Some z) | Some (PBool b) => Ok (Some (if b then 1 else 0)) | Some _ => Err TypeError end.
  Definition kw_ratio (ps : params) : res (option T) :=
    match pget "ratio" ps with None => Ok None | Some (PFloat q) => Ok (Some (nofQ q)) | Some (PInt z) => Ok (Some (nofZ z)) | Some _ => Err TypeError end.
  Definition kw_method (ps : params) : res string :=
    match pget "method" ps with None => Ok "pascal_voc"%string | Some (PStr s) => Ok s | Some _ => Err AssertionError end.
  Definition kw_points (ps : params) : res Z :=
    match pget "n_points" ps with None => Ok 11 | Some (PInt z) => Ok z | Some _ => Err TypeError end.
  Definition kw_only (names : list string) (ps : params) : bool := forallb (fun kv => str_in (fst kv) names) ps.

  (** rt: the functions by name *)
  Definition retrieval_impl (name : string) (ps : params) : metric T (tensor T * tensor P) := fun d rb =>
    let (yt, yp) := d in
    let kr (names : list string) (f : option Z -> option T -> res (mout T)) :=
      if kw_only names ps then rbind (kw_k ps) (fun k => rbind (kw_ratio ps) (fun r => f k r)) else Err TypeError in
    if String.eqb name "precision" then kr ["k"; "ratio"]%string (fun k r => precision argsort yt yp k r rb)
    else if String.eqb name "recall" then kr ["k"; "ratio"]%string (fun k r => recall argsort yt yp k r rb)
    else if String.eqb name "ndcg" then kr ["k"; "ratio"]%string (fun k r => ndcg argsort yt yp k r rb)
    else if String.eqb name "map" then kr ["k"; "ratio"; "method"]%string (fun k r => rbind (kw_method ps) (fun m => map_score argsort yt yp k r m rb))
    else if String.eqb name "mrr" then kr ["k"; "ratio"]%string (fun k r => mrr argsort yt yp k r rb)
    else if String.eqb name "pr_curve" then kr ["k"; "ratio"; "method"; "n_points"]%string (fun k r => rbind (kw_method ps) (fun m => rbind (kw_points ps) (fun n => pr_curve argsort yt yp k r m n rb)))
    else Err AttributeError.
  (** rc: the functions by name *)
  Definition recommender_impl (name : string) (ps : params) : metric T (tensor T * tensor P) := fun d rb =>
    let (yt, yp) := d in
    let kr (f : option Z -> option T -> res (mout T)) :=
      if kw_only ["k"; "ratio"]%string ps then rbind (kw_k ps) (fun k => rbind (kw_ratio ps) (fun r => f k r)) else Err TypeError in
    if String.eqb name "precision" then kr (fun k r => precision_rc argsort yt yp k r rb)
    else if String.eqb name "recall" then kr (fun k r => recall_rc argsort yt yp k r rb)
    else if String.eqb name "ndcg" then kr (fun k r => ndcg_rc argsort yt yp k r rb)
    else Err AttributeError.
  (** cl: none of the functions has a parameter [ret_batch] (cl:42, cl:71, cl:100), so passing it raises TypeError.
      [f1] stands for sklearn's f1_score. *)
  Definition classification_impl (argmax : list T -> Z) (f1 : list Z -> list Z -> string -> res (fl T))
    (name : string) (ps : params) : metric T (list Z * preds (T := T)) := fun d rb =>
    if rb then Err TypeError
    else if String.eqb name "accuracy" then (if kw_only [] ps then rbind (accuracy argmax (fst d) (snd d)) (fun x => Ok (MScal x)) else Err TypeError)
    else if String.eqb name "f1_score" then
      (if kw_only ["average"]%string ps then
         rbind (format_classes argmax (fst d) (snd d)) (fun '(y, p) =>
         rbind (f1 y p (match pget "average" ps with Some (PStr s) => s | _ => "macro"%string end)) (fun x => Ok (MScal x)))
       else Err TypeError)
    else if String.eqb name "confusion_matrix" then (if kw_only [] ps then rbind (confusion_matrix argmax (fst d) (snd d)) (fun m => Ok (MMat (map (map (fun z => Fin (nofZ z))) m))) else Err TypeError)
    else Err NotImplementedErr.
End Impl.
