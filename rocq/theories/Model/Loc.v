(** Locations, states and transitions.  Models
    src/TransitionSystems/location_id.rs, location_tree.rs, transition_id.rs,
    src/ModelObjects/location.rs, edge.rs, component.rs (data types), state.rs, transition.rs. *)
From Coq Require Import List String ZArith Bool Arith.
From Verif Require Import Fed.Zone Model.Base Model.Expr Model.Guard.
Import ListNotations.
Local Open Scope string_scope.

(** specifics.rs:277-280 [SpecialLocation]. *)
Inductive special := SUniversal | SError.

(** location_id.rs:5-15. *)
Inductive locid :=
| LConj (l r : locid)
| LComp (l r : locid)
| LQuot (l r : locid)
| LSimple (s : string)
| LSpecial (s : special)
| LAny.

Definition special_eqb (a b : special) : bool :=
  match a, b with SUniversal, SUniversal | SError, SError => true | _, _ => false end.
(** Derived [PartialEq] of [LocationID].  location_id.rs:5. *)
Fixpoint locid_eqb (a b : locid) : bool :=
  match a, b with
  | LConj l r, LConj l' r' | LComp l r, LComp l' r' | LQuot l r, LQuot l' r' => locid_eqb l l' && locid_eqb r r'
  | LSimple s, LSimple t => String.eqb s t
  | LSpecial s, LSpecial t => special_eqb s t
  | LAny, LAny => true
  | _, _ => false
  end.

(** location_id.rs:30-41 [is_partial_location]. *)
Fixpoint is_partial (i : locid) : bool :=
  match i with
  | LConj l r | LComp l r | LQuot l r => is_partial l || is_partial r
  | LSimple _ | LSpecial _ => false
  | LAny => true
  end.

(** specifics.rs:282-289 [Display] of [SpecialLocation]. *)
Definition special_str (s : special) : string :=
  match s with SUniversal => "[Universal]" | SError => "[Error]" end.

(** location_id.rs:43-58 [get_unique_string]. *)
Fixpoint unique_string (i : locid) : string :=
  match i with
  | LComp a b => "(" ++ unique_string a ++ "||" ++ unique_string b ++ ")"
  | LConj a b => "(" ++ unique_string a ++ "&&" ++ unique_string b ++ ")"
  | LQuot a b => "(" ++ unique_string a ++ "\" ++ unique_string b ++ ")"
  | LAny => "_"
  | LSimple s => s
  | LSpecial s => special_str s
  end.

(** location_id.rs:78-126 [Display] of [LocationID]: the parts that are put in parentheses
    depend on the operator. *)
Fixpoint id_string (i : locid) : string :=
  let wrap (bare : bool) (t : string) := if bare then t else "(" ++ t ++ ")" in
  match i with
  | LConj a b =>
      wrap (match a with LConj _ _ | LSimple _ => true | _ => false end) (id_string a) ++ "&&" ++
      wrap (match b with LConj _ _ | LSimple _ => true | _ => false end) (id_string b)
  | LComp a b =>
      wrap (match a with LComp _ _ | LSimple _ => true | _ => false end) (id_string a) ++ "||" ++
      wrap (match b with LComp _ _ | LSimple _ => true | _ => false end) (id_string b)
  | LQuot a b =>
      wrap (match a with LSimple _ => true | _ => false end) (id_string a) ++ "\\" ++
      wrap (match b with LSimple _ => true | _ => false end) (id_string b)
  | LSimple s => s
  | LAny => "_"
  | LSpecial s => special_str s
  end.

(** location.rs:5-12. *)
Inductive loctype := Normal | Initial | Universal | Inconsistent | AnyType.
Definition loctype_eqb (a b : loctype) : bool :=
  match a, b with
  | Normal, Normal | Initial, Initial | Universal, Universal
  | Inconsistent, Inconsistent | AnyType, AnyType => true
  | _, _ => false
  end.
(** location.rs:15-20 [combine]. *)
Definition combine_type (a b : loctype) : loctype :=
  match a, b with Initial, Initial => Initial | _, _ => Normal end.

(** location_tree.rs:16-24.  [left]/[right] are both present or both absent, so the model
    has leaves and nodes. *)
Inductive loctree :=
| LLeaf (id : locid) (inv : option fed) (ty : loctype)
| LNode (id : locid) (inv : option fed) (ty : loctype) (l r : loctree).

Definition lt_id (t : loctree) : locid := match t with LLeaf i _ _ | LNode i _ _ _ _ => i end.
Definition lt_inv (t : loctree) : option fed := match t with LLeaf _ v _ | LNode _ v _ _ _ => v end.
Definition lt_type (t : loctree) : loctype := match t with LLeaf _ _ y | LNode _ _ y _ _ => y end.

(** location_tree.rs:144-146 [get_left], 148-150 [get_right]: unwrap. *)
Definition lt_left (t : loctree) : res loctree := match t with LNode _ _ _ l _ => Ok l | _ => Panic end.
Definition lt_right (t : loctree) : res loctree := match t with LNode _ _ _ _ r => Ok r | _ => Panic end.

(** location_tree.rs:26-30: equality looks at the id and the type only. *)
Definition lt_eqb (a b : loctree) : bool := locid_eqb (lt_id a) (lt_id b) && loctype_eqb (lt_type a) (lt_type b).

(** location_tree.rs:33-41, 43-53, 75-83. *)
Definition lt_universal : loctree := LLeaf (LSpecial SUniversal) None Universal.
Definition lt_error (qclock : nat) : loctree :=
  LLeaf (LSpecial SError) (Some (fcon_eq qclock 0 0 funiv)) Inconsistent.
Definition lt_any : loctree := LLeaf LAny None AnyType.

(** location_tree.rs:86-98 [merge_as_quotient]: no invariant. *)
Definition lt_quotient (l r : loctree) : loctree :=
  LNode (LQuot (lt_id l) (lt_id r)) None (combine_type (lt_type l) (lt_type r)) l r.

(** location_tree.rs:9-14. *)
Inductive comptype := CConj | CComp | CQuot | CSimple.

(** location_tree.rs:112-120: intersection of two optional invariants. *)
Definition inv_inter (dim : nat) (a b : option fed) : option fed :=
  match a, b with
  | Some x, Some y => Some (finter dim x y)
  | Some x, None => Some x
  | None, y => y
  end.

(** location_tree.rs:101-131 [compose]; panics on another composition type. *)
Definition lt_compose (dim : nat) (l r : loctree) (c : comptype) : res loctree :=
  do i <- match c with
          | CConj => Ok (LConj (lt_id l) (lt_id r))
          | CComp => Ok (LComp (lt_id l) (lt_id r))
          | _ => Panic
          end;
  Ok (LNode i (inv_inter dim (lt_inv l) (lt_inv r)) (combine_type (lt_type l) (lt_type r)) l r).

(** location_tree.rs:137-142 [apply_invariants]. *)
Definition apply_inv (dim : nat) (t : loctree) (f : fed) : fed :=
  match lt_inv t with Some i => finter dim f i | None => f end.

(** location_tree.rs:152-162. *)
Definition is_initial (t : loctree) := loctype_eqb (lt_type t) Initial.
Definition is_universal (t : loctree) := loctype_eqb (lt_type t) Universal.
Definition is_inconsistent (t : loctree) := loctype_eqb (lt_type t) Inconsistent.

(** location_tree.rs:165-181 [compare_partial_locations]: [get_left]/[get_right] unwrap. *)
Fixpoint compare_partial (a b : loctree) : res bool :=
  let both :=
    match a, b with
    | LNode _ _ _ l r, LNode _ _ _ l' r' =>
        do x <- compare_partial l l'; if x then compare_partial r r' else Ok false
    | _, _ => Panic
    end in
  match lt_id a, lt_id b with
  | LComp _ _, LComp _ _ | LConj _ _, LConj _ _ | LQuot _ _, LQuot _ _ => both
  | LAny, LSimple _ | LSimple _, LAny | LAny, LAny => Ok true
  | LSimple s, LSimple t => Ok (String.eqb s t)
  | _, _ => Ok false
  end.

(** transition_id.rs:7-13. *)
Inductive transid :=
| TIConj (l r : transid)
| TIComp (l r : transid)
| TIQuot (l r : list transid)
| TISimple (s : string)
| TINone.

(** transition.rs:13-19. *)
Record transition := mkT { t_id : transid; t_guard : fed; t_target : loctree; t_updates : list cupdate }.

(** transition.rs:23-30 [without_id]. *)
Definition t_without_id (t : loctree) : transition := mkT TINone funiv t [].

(** transition.rs:147-149 [apply_guards]. *)
Definition apply_guards (dim : nat) (t : transition) (f : fed) : fed := finter dim f (t_guard t).

(** transition.rs:138-145 [get_allowed_federation]. *)
Definition allowed_fed (dim : nat) (t : transition) : fed :=
  let f := match lt_inv (t_target t) with Some i => i | None => funiv end in
  apply_guards dim t (inverse_apply_updates dim (t_updates t) f).

(** state.rs:10-13; the [Option] around the zone is only a borrow-checker device. *)
Record state := mkS { s_loc : loctree; s_zone : fed }.

(** transition.rs:56-70 [use_transition]; the mutated state is returned as well. *)
Definition use_transition (dim : nat) (t : transition) (s : state) : bool * state :=
  let z := apply_guards dim t (s_zone s) in
  if fempty dim z then (false, mkS (s_loc s) z)
  else
    let z := fup dim (apply_updates dim (t_updates t) z) in
    let z := apply_inv dim (t_target t) z in
    (negb (fempty dim z), mkS (t_target t) z).

(** transition.rs:73-79 [use_transition_alt]. *)
Definition use_transition_alt (dim : nat) (t : transition) (s : state) : option state :=
  let (b, s') := use_transition dim t s in if b then Some s' else None.

(** transition.rs:81-117 [combinations]. *)
Definition combine_ids (c : comptype) (a b : transid) : res transid :=
  match c with CConj => Ok (TIConj a b) | CComp => Ok (TIComp a b) | _ => Panic end.
Definition combine_pair (dim : nat) (c : comptype) (l r : transition) : res transition :=
  do tgt <- lt_compose dim (t_target l) (t_target r) c;
  do i <- combine_ids c (t_id l) (t_id r);
  Ok (mkT i (finter dim (t_guard l) (t_guard r)) tgt (t_updates l ++ t_updates r)).
Definition combinations (dim : nat) (ls rs : list transition) (c : comptype) : res (list transition) :=
  mapM (fun p => combine_pair dim c (fst p) (snd p)) (list_prod ls rs).

(** state.rs:27-42 [from_location]. *)
Definition state_from_location (dim : nat) (l : loctree) : option state :=
  let f := apply_inv dim l (finit dim) in
  if fempty dim f then None else Some (mkS l f).

(** state.rs:68-74 [is_subset_of]; 23-25 [is_contained_in_list]. *)
Definition state_subset (dim : nat) (a b : state) : bool :=
  lt_eqb (s_loc a) (s_loc b) && fsubset dim (s_zone a) (s_zone b).
Definition state_in_list (dim : nat) (a : state) (l : list state) : bool := existsb (state_subset dim a) l.
