(** Independent specification of the hyperedge store: group names in order of creation and a function from
    group name and vertex multiset to an optional weight.  No sorting, no dict, no cache. *)
From Coq Require Import String Permutation Sorted.
From Verif Require Import Num Coo ModelBase SpecGraph ModelHyper.
Set Implicit Arguments.

(** two written hyperedges denote the same one: every vertex occurs equally often in both *)
Definition occurs (v : Z) (e : list Z) : nat := count_occ Z.eq_dec e v.
Definition same_edge (e e' : list Z) : bool :=
  forallb (fun v => Nat.eqb (occurs v e) (occurs v e')) (e ++ e').
Definition same_name (g g' : string) : bool := if string_dec g g' then true else false.
Definition has_name (g : string) (l : list string) : bool := existsb (same_name g) l.

Section SpecH.
  Context {T : Type} `{Num T}.

  Record ahyper := mkAH {
    ah_names : list string;
    ah_w : string -> list Z -> option T;
    ah_vw : option (list T)
  }.

  (** what the arguments of a call mean *)
  Definition hedges_of (e : harg) : list (list Z) :=
    match e with HOne [] => [] | HOne l => [l] | HMany l => l end.
  Definition hpairs_of (e : harg) (w : warg T) : option (list (list Z * T)) :=
    match w with
    | WNone => Some (map (fun x => (x, n1)) (hedges_of e))
    | WNum c => Some (map (fun x => (x, c)) (hedges_of e))
    | WList ws => if Nat.eqb (length ws) (length (hedges_of e)) then Some (combine (hedges_of e) ws) else None
    end.

  Definition ah_add1 (m : mop) (g : string) (x : list Z * T) (A : ahyper) : ahyper :=
    mkAH (if has_name g (ah_names A) then ah_names A else ah_names A ++ [g])
         (fun g' e => if same_name g g' && same_edge (fst x) e
                      then Some (match ah_w A g' e with Some old => merged m old (snd x) | None => snd x end)
                      else ah_w A g' e)
         (ah_vw A).
  (** a rejected call (number of weights differs from number of hyperedges) changes nothing *)
  Definition ah_add (e : harg) (w : warg T) (m : mop) (g : string) (A : ahyper) : ahyper :=
    match hpairs_of e w with
    | Some ps => fold_left (fun A x => ah_add1 m g x A) ps A
    | None => A
    end.
  (** removal from one group (an unknown group is rejected) or from all groups *)
  Definition ah_remove (e : harg) (g : option string) (A : ahyper) : ahyper :=
    if match g with None => true | Some n => has_name n (ah_names A) end
    then mkAH (ah_names A)
              (fun g' e' => if match g with None => true | Some n => same_name n g' end && existsb (fun x => same_edge x e') (hedges_of e)
                            then None else ah_w A g' e')
              (ah_vw A)
    else A.
  Definition ah_remove_group (g : string) (A : ahyper) : ahyper :=
    mkAH (filter (fun n => negb (same_name g n)) (ah_names A))
         (fun g' e => if same_name g g' then None else ah_w A g' e) (ah_vw A).
  Definition ah_clear : ahyper := mkAH [] (fun _ _ => None) None.

  Definition ah_step (A : ahyper) (o : hop T) : ahyper :=
    match o with
    | HAdd e w m g => ah_add e w m g A
    | HRemove e g => ah_remove e g A
    | HRemoveGroup g => ah_remove_group g A
    | HClear => ah_clear
    | HQuery _ => A
    end.
  Definition ah_new (nv : Z) (e : option harg) (w : warg T) (vw : option (list T)) (m : mop) : ahyper :=
    let A0 := mkAH [] (fun _ _ => None) (Some (match vw with Some l => l | None => repeat n1 (Z.to_nat nv) end)) in
    match e with None => A0 | Some ea => ah_add ea w m "main" A0 end.
  Definition h_spec (nv : Z) (e : option harg) (w : warg T) (vw : option (list T)) (m : mop) (ops : list (hop T)) : ahyper :=
    fold_left ah_step ops (ah_new nv e w vw m).

  Definition h_reach (nv : Z) (e : option harg) (w : warg T) (vw : option (list T)) (m : mop) (ops : list (hop T)) (s : hypergraph T) : Prop :=
    exists s0, h_new nv e w vw m = Ok s0 /\ s = fst (h_run ops s0).

  (** histories whose merge operators are the documented ones *)
  Definition doc_op (o : hop T) : Prop := match o with HAdd _ _ m _ => m <> MOther | _ => True end.
  (** histories that only add hyperedges without repeated vertices, inside [0, nv) *)
  Definition clean_edge (nv : Z) (e : list Z) : Prop := NoDup e /\ Forall (fun v => 0 <= v < nv) e.
  Definition clean_harg (nv : Z) (e : harg) : Prop := Forall (clean_edge nv) (hedges_of e).
  Definition clean_op (nv : Z) (o : hop T) : Prop := match o with HAdd e _ _ _ => clean_harg nv e | _ => True end.
  Definition clean_new (nv : Z) (e : option harg) : Prop := match e with None => True | Some ea => clean_harg nv ea end.

  (** which group(s) a query is about: [Some (Some g)] one group, [Some None] all of them, [None] neither *)
  Definition q_scope (q : hquery T) : option (option string) :=
    match q with
    | hqNames | hqVw | hqWv => None
    | hqE sc | hqNumE sc | hqH sc | hqHT sc | hqHdir _ sc | hqWe sc | hqDv sc | hqDv1 sc | hqDv12 sc | hqDe sc | hqDe1 sc
    | hqDegV sc | hqDegE sc | hqNe sc _ | hqNv sc _ | hqLsym sc | hqLrw sc | hqLhgnn sc
    | hqV2eSrc sc | hqV2eDst sc | hqV2eW sc | hqE2vSrc sc | hqE2vDst sc | hqE2vW sc
    | hqHgnn sc _ _ | hqV2eAgg sc _ _ _ _ | hqV2eUpd sc _ _ | hqV2e sc _ _ _ _ _ | hqE2v sc _ _ _ _
    | hqV2v sc _ _ _ _ _ _ _ _ _ _ _ _ => Some sc
    end.
  (** queries reading the vertex weights *)
  Definition reads_vw (q : hquery T) : bool := match q with hqVw | hqWv => true | _ => false end.
  Definition no_vw (o : hop T) : Prop := match o with HQuery q => reads_vw q = false | _ => True end.
  (** the group an operation works on *)
  Definition op_group (o : hop T) : option string :=
    match o with HAdd _ _ _ g => Some g | HRemove _ (Some g) => Some g | HRemoveGroup g => Some g | _ => None end.

  (** building a hypergraph from what another one reports *)
  Definition rebuild_group (x : string * (list (list Z) * list T)) : list (hop T) :=
    match fst (snd x) with
    | [] => [HAdd (HMany [[0]]) WNone MMean (fst x); HRemove (HMany [[0]]) (Some (fst x))]
    | es => [HAdd (HMany es) (WList (snd (snd x))) MMean (fst x)]
    end.
  Definition rebuild (vw : option (list T)) (gs : list (string * (list (list Z) * list T))) : list (hop T) :=
    (match vw with None => [HClear] | Some _ => [] end) ++ flat_map rebuild_group gs.

  (** what the object reports: its group names and the content of each group *)
  Definition h_parts (s : hypergraph T) (gs : list (string * (list (list Z) * list T))) : Prop :=
    snd (h_query hqNames s) = Ok (ONames (map fst gs)) /\
    Forall (fun x => snd (h_query (hqE (Some (fst x))) s) = Ok (OHE (fst (snd x)) (snd (snd x)))) gs.
  (** all hyperedges with group and weight, in order *)
  Definition flat (gs : list (string * (list (list Z) * list T))) : list (string * (list Z * T)) :=
    flat_map (fun x => map (pair (fst x)) (combine (fst (snd x)) (snd (snd x)))) gs.

  (** reached by documented calls adding only duplicate-free in-range hyperedges *)
  Definition h_clean_reach nv e w vw m ops s : Prop :=
    h_reach nv e w vw m ops s /\ m <> MOther /\ Forall doc_op ops /\ clean_new nv e /\ Forall (clean_op nv) ops.
  (** [es], [ws] is what scope [sc] of the object reports; the whole object must have at least one group *)
  Definition h_reports (s : hypergraph T) (sc : option string) (es : list (list Z)) (ws : list T) : Prop :=
    snd (h_query (hqE sc) s) = Ok (OHE es ws) /\ (sc = None -> snd (h_query hqNames s) <> Ok (ONames [])).
End SpecH.
Arguments ahyper T : clear implicits.

(** incidence, sizes and degrees of a list of hyperedges with weights *)
Definition zmem (v : Z) (e : list Z) : bool := existsb (Z.eqb v) e.
(** hyperedge number [i] *)
Definition nthe (es : list (list Z)) (i : Z) : list Z := nth (Z.to_nat i) es [].
(** [e'] is hyperedge [e] cut down to the vertices [vl] (increasing) and renumbered; at least [k] different vertices left *)
Definition cut_to (vl : list Z) (k : nat) (e e' : list Z) : Prop :=
  let rest := filter (fun v => zmem v vl) e in
  StronglySorted Z.le e' /\ Permutation (map (fun i => nth (Z.to_nat i) vl 0) e') rest /\
  Forall (fun i => 0 <= i < Z.of_nat (length vl)) e' /\
  exists us, NoDup us /\ length us = k /\ forall u, In u us -> In u rest.
Section SpecDeg.
  Context {T : Type} `{N : Num T}.
  (** weight number [i] *)
  Definition nthw (ws : list T) (i : Z) : T := nth (Z.to_nat i) ws nz.
  Definition hcard (e : list Z) : T := sumf e (fun _ => n1).
  Definition hdeg (es : list (list Z)) (ws : list T) (v : Z) : T :=
    sumf (combine es ws) (fun ew => if zmem v (fst ew) then snd ew else nz).
  (** what [u] and [v] share: every hyperedge containing both contributes weight / size *)
  Definition hshare (es : list (list Z)) (ws : list T) (u v : Z) : T :=
    sumf (combine es ws) (fun ew => if zmem u (fst ew) && zmem v (fst ew) then nmul (snd ew) (ninv (hcard (fst ew))) else nz).
End SpecDeg.
