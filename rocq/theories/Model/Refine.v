(** The refinement check.  Models src/System/refine.rs. *)
From Coq Require Import List String ZArith Bool Arith.
From Verif Require Import Fed.Zone Model.Base Model.Expr Model.Guard Model.Loc Model.Component Model.TS Model.Search Model.PairList.
Import ListNotations.

(** query_failures.rs: the outcomes of a refinement query, without their texts. *)
Inductive outcome :=
| RSuccess
| RPrecheck                              (* determinism or consistency of an operand *)
| RNotDisjoint                           (* ActionFailure::not_disjoint *)
| RNotSubset                             (* ActionFailure::not_subset *)
| REmptyChild (left : bool)              (* RefinementFailure::empty_child *)
| REmptyInitial                          (* RefinementFailure::empty_initial *)
| RCannotMatch (a : string) (p : pair)   (* RefinementFailure::cannot_match *)
| RCutsDelays (a : string) (p : pair).   (* RefinementFailure::cuts_delays *)

Section Refine.
Variable dim : nat.
(** Extrapolation in the prechecks, and of pairs (statepair.rs:68-77). *)
Variable ext : ts -> loctree -> fed -> fed.
Variable pext : loctree -> loctree -> fed -> fed.
(** Iteration orders of the hash sets of actions. *)
Variable ord : list state -> list string -> list string.
Variable aord : pair -> list string -> list string.
Variables s1 s2 : ts.

(** refine.rs:425-454 [check_preconditions]; [None] is [Ok(())]. *)
Definition action_precheck : option outcome :=
  if negb (disjoint (ts_inputs s1) (ts_outputs s2)) then Some RNotDisjoint
  else if negb (disjoint (ts_inputs s2) (ts_outputs s1)) then Some RNotDisjoint
  else if negb (forallb (fun a => sin a (ts_inputs s2)) (ts_inputs s1)) then Some RNotSubset
  else if negb (forallb (fun a => sin a (ts_outputs s1)) (ts_outputs s2)) then Some RNotSubset
  else None.
Definition check_preconditions (fuel : nat) : res (option outcome) :=
  do a <- precheck dim ext ord fuel s1;
  if negb a then Ok (Some RPrecheck) else
  do b <- precheck dim ext ord fuel s2;
  if negb b then Ok (Some RPrecheck) else Ok action_precheck.

(** refine.rs:41-51 [common_actions], 53-70 [extra_actions]. *)
Definition extra_output (a : string) : bool := sin a (ts_outputs s1) && negb (sin a (ts_outputs s2)).
Definition extra_input (a : string) : bool := sin a (ts_inputs s2) && negb (sin a (ts_inputs s1)).

(** refine.rs:272-303 [get_guard_fed_for_sides]: one side. *)
Definition guard_fed (ts : list transition) (z : fed) : fed :=
  finter dim (fold_left (fun f t => funion f (allowed_fed dim t)) ts fnone) z.

Definition ctx := (plist * wlist)%type.

(** refine.rs:331-408 [build_state_pair]; [None] is [BuildResult::Failure]. *)
Definition build_pair (t1 t2 : transition) (cur : pair) (is1 : bool) (c : ctx) : option ctx :=
  let z := apply_guards dim t2 (apply_guards dim t1 (p_zone cur)) in
  if fempty dim z then Some c
  else
    let z := fup dim (apply_updates dim (t_updates t2) (apply_updates dim (t_updates t1) z)) in
    let l1 := if is1 then t_target t1 else t_target t2 in
    let l2 := if is1 then t_target t2 else t_target t1 in
    let s_inv := apply_inv dim l1 z in
    let z := apply_inv dim l2 s_inv in
    if fempty dim z || fempty dim s_inv then Some c
    else if negb (fsubset dim s_inv (fdown z)) then None
    else
      let p := mkP l1 l2 (pext l1 l2 z) in
      if negb (passed_has dim p (fst c)) && negb (waiting_has dim p (snd c))
      then Some (fst c, waiting_put p (snd c)) else Some c.

(** refine.rs:311-329 [try_create_new_state_pairs]. *)
Fixpoint build_pairs (ps : list (transition * transition)) (cur : pair) (is1 : bool) (c : ctx) : option ctx :=
  match ps with
  | [] => Some c
  | (t1, t2) :: ps' => match build_pair t1 t2 cur is1 c with None => None | Some c' => build_pairs ps' cur is1 c' end
  end.

(** refine.rs:236-270 [has_valid_state_pairs] followed by [check] (20-38). *)
Definition valid_pairs (a : string) (ts1 ts2 : list transition) (cur : pair) (is1 : bool) (c : ctx) : ctx + outcome :=
  let f1 := guard_fed ts1 (p_zone cur) in
  let f2 := guard_fed ts2 (p_zone cur) in
  if fempty dim f1 then inl c
  else if fempty dim f2 then inr (RCannotMatch a cur)
  else if negb (fempty dim (fsub dim f1 f2)) then inr (RCannotMatch a cur)
  else match build_pairs (list_prod ts1 ts2) cur is1 c with Some c' => inl c' | None => inr (RCutsDelays a cur) end.

(** refine.rs:152-175: one output; [next_outputs] is [next_transitions]. *)
Definition output_step (cur : pair) (a : string) (c : ctx) : res (ctx + outcome) :=
  do t1 <- next_transitions dim s1 (p_l1 cur) a;
  do t2 <- if extra_output a then Ok [t_without_id (p_l2 cur)] else next_transitions dim s2 (p_l2 cur) a;
  Ok (valid_pairs a t1 t2 cur true c).
(** refine.rs:177-200: one input. *)
Definition input_step (cur : pair) (a : string) (c : ctx) : res (ctx + outcome) :=
  do t1 <- if extra_input a then Ok [t_without_id (p_l1 cur)] else next_transitions dim s1 (p_l1 cur) a;
  do t2 <- next_transitions dim s2 (p_l2 cur) a;
  Ok (valid_pairs a t2 t1 cur false c).

(** refine.rs:147-201: the main loop. *)
Fixpoint refine_loop (fuel : nat) (c : ctx) : res outcome :=
  match fuel with
  | O => NoFuel
  | S f =>
      do o <- waiting_pop (snd c);
      match o with
      | None => Ok RSuccess
      | Some (cur, w) =>
          do x <- loopM (output_step cur) (aord cur (ts_outputs s1)) (passed_put cur (fst c), w);
          match x with
          | inr r => Ok r
          | inl c =>
              do y <- loopM (input_step cur) (aord cur (ts_inputs s2)) c;
              match y with inr r => Ok r | inl c => refine_loop f c end
          end
      end
  end.

(** refine.rs:90-213 [check_refinement], with 410-422 [prepare_init_state]: after the preconditions. *)
Definition explore (fuel : nat) : res outcome :=
  match initial_location dim s1, initial_location dim s2 with
  | None, None => Ok RSuccess
  | None, Some _ => Ok (REmptyChild true)
  | Some _, None => Ok (REmptyChild false)
  | Some l1, Some l2 =>
      let z := apply_inv dim l2 (apply_inv dim l1 (p_zone (pair_from_locations dim l1 l2))) in
      if fempty dim z then Ok REmptyInitial
      else refine_loop fuel ([], waiting_put (mkP l1 l2 (pext l1 l2 z)) waiting_new)
  end.
Definition check_refinement (fuel : nat) : res outcome :=
  do pre <- check_preconditions fuel;
  match pre with
  | Some r => Ok r
  | None => explore fuel
  end.
End Refine.
