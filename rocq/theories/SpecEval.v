(** Small specifications for the evaluators. *)
From Coq Require Import String Ascii QArith.
From Verif Require Import Num PyDict ModelBase ModelMetrics ModelEval.
Set Implicit Arguments.
Local Open Scope list_scope.

(** * Histories.  The batches of the running validation epoch after the calls [cs], and those of the last finished epoch that had any.
    [ok d]: the metric accepts the batch. *)
Section Histories.
  Context {D : Type}.
  Variable ok : D -> bool.
  Fixpoint val_batches (cs : list (ecall D)) (cur : list D) (last : option (list D)) : list D * option (list D) :=
    match cs with
    | [] => (cur, last)
    | EValAdd d :: r => val_batches r (if ok d then cur ++ [d] else cur) last
    | EValRes :: r => val_batches r [] (match cur with [] => last | _ => Some cur end)
    | _ :: r => val_batches r cur last
    end.
  (** the same for testing *)
  Fixpoint test_batches (cs : list (ecall D)) (cur : list D) (last : option (list D)) : list D * option (list D) :=
    match cs with
    | [] => (cur, last)
    | ETestAdd d :: r => test_batches r (cur ++ [d]) last
    | ETestRes :: r => test_batches r [] (match cur with [] => last | _ => Some cur end)
    | _ :: r => test_batches r cur last
    end.
  Definition current (p : list D * option (list D)) : option (list D) := match fst p with [] => snd p | l => Some l end.
End Histories.

(** * Values *)
Section Values.
  Context {T : Type} {NT : Num T} {ET : Ext T} {D : Type}.
  (** what a metric yields for a batch: a number per sample, or a curve of [n] points per sample *)
  Inductive vals := VNum (g : D -> list (fl T)) | VCurve (n : nat) (p r : D -> list (list (fl T))).
  Definition yields (f : metric T D) (v : vals) (d : D) : Prop :=
    match v with
    | VNum g => f d true = Ok (MList (g d))
    | VCurve n p r => f d true = Ok (MCurves (p d) (r d)) /\ p d <> [] /\ r d <> [] /\ forall x, In x (p d) \/ In x (r d) -> length x = n
    end.
  (** column means over all samples *)
  Definition means (n : nat) (rows : list (list (fl T))) : tout T :=
    squeeze (map (fun j => fmean (map (fun row => nth j row NaN) rows)) (seq 0 n)).
  Definition epoch_val (v : vals) (ds : list D) : tout T :=
    match v with
    | VNum g => OScal (fmean (concat (map g ds)))
    | VCurve n p r => OTup [means n (concat (map p ds)); means n (concat (map r ds))]
    end.
  (** the dict of results after an epoch with the batches [ds] *)
  Definition test_last (ms : list (string * vals)) (l : option (list D)) : dict string (tout T) :=
    match l with None => [] | Some ds => map (fun m => (fst m, epoch_val (snd m) ds)) ms end.
  (** the metrics yield, under their markers, the values [ms] for the batch [d] *)
  Definition realises (fns : list (string * metric T D)) (ms : list (string * vals)) (d : D) : Prop :=
    Forall2 (fun f m => fst f = fst m /\ yields (snd f) (snd m) d) fns ms.
End Values.
Arguments vals : clear implicits.

(** * Markers *)
Definition word_char (c : ascii) : bool :=
  let n := nat_of_ascii c in
  (Nat.leb 48 n && Nat.leb n 57) || (Nat.leb 65 n && Nat.leb n 90) || (Nat.eqb n 95) || (Nat.leb 97 n && Nat.leb n 122).
Definition digit_char (c : ascii) : bool := let n := nat_of_ascii c in Nat.leb 48 n && Nat.leb n 57.
Fixpoint all_chars (p : ascii -> bool) (s : string) : bool :=
  match s with EmptyString => true | String c r => p c && all_chars p r end.
(** letters, digits and underscores, not empty, not starting with a digit *)
Definition identifier (s : string) : Prop :=
  match s with EmptyString => False | String c r => word_char c = true /\ digit_char c = false /\ all_chars word_char r = true end.
(** parameter values of the metrics: integers, identifiers, floats *)
Definition plain_val (v : pval) : Prop := match v with PInt _ | PFloat _ => True | PStr s => identifier s | _ => False end.
Definition plain_params (ps : params) : Prop := forall k v, In (k, v) ps -> identifier k /\ plain_val v.
Definition plain_config (c : config) : Prop :=
  match c with CName s => identifier s | CDict [(s, ps)] => identifier s /\ plain_params ps | _ => False end.
(** equal, or two floats that differ by at most 1/10000 *)
Definition close_val (a b : pval) : Prop :=
  match a, b with
  | PFloat x, PFloat y => (Qabs.Qabs (x - y) <= 1 # 10000)%Q
  | _, _ => a = b
  end.
Definition close_params (a b : params) : Prop := Forall2 (fun x y => fst x = fst y /\ close_val (snd x) (snd y)) a b.
Definition close_config (a b : config) : Prop :=
  match a, b with
  | CName s, CName t => s = t
  | CDict [(s, p)], CDict [(t, q)] => s = t /\ close_params p q
  | _, _ => False
  end.
