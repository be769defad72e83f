(** What the lines below a verdict on the command line should say. *)
From Coq Require Import List String ZArith QArith Bool Arith.
From Verif Require Import Fed.Zone Model.Base Model.Expr Model.Guard Model.Loc Model.Component Model.TS Model.Peg Model.Search
  Spec.StepSpec Spec.SystemSpec Spec.RunSpec Spec.ReachSpec Spec.RefineSpec Spec.ConsistencySpec Spec.WireSpec Spec.FailureSpec Spec.BoundSpec.
Import ListNotations.
Local Open Scope string_scope.

(** A location as it is written: the location of every component, put together as the system is. *)
Fixpoint place (s : ts) (l : loctree) : string :=
  let both (op : string) (a b : ts) :=
    match lt_left l, lt_right l with Ok x, Ok y => "(" ++ place a x ++ op ++ place b y ++ ")" | _, _ => "" end in
  match s with
  | TSimple c => match lt_id l with LSimple n => cc_name c ++ "." ++ n | _ => "" end
  | TConj a b _ _ => both "&&" a b
  | TComp a b _ _ _ _ _ => both "||" a b
  | TQuot a b _ _ _ _ =>
      match l with
      | LLeaf (LSpecial SUniversal) _ _ => "[Universal]"
      | LLeaf (LSpecial SError) _ _ => "[Error]"
      | _ => both "\\" a b
      end
  end.
(** An action as it is written. *)
Inductive act_shown (inputs : string -> Prop) (a : string) : string -> Prop :=
| as_in : inputs a -> act_shown inputs a ("Input """ ++ a ++ """")
| as_out : ~ inputs a -> act_shown inputs a ("Output """ ++ a ++ """").
(** A set of actions of [s] as it is written; [show] writes the set itself. *)
Inductive set_shown (show : list string -> string) (s : ts) (A : list string) : string -> Prop :=
| ss_in : (forall a, In a A <-> is_input s a) -> set_shown show s A ("Input set " ++ show A ++ " in system '" ++ system_text s ++ "'")
| ss_out : ~ (forall a, In a A <-> is_input s a) -> set_shown show s A ("Output set " ++ show A ++ " in system '" ++ system_text s ++ "'").

(** A sentence that is true of component [c]: it has no state to begin with; or inputs lead to the location named, which is inconsistent or
    in which the component is stuck; or two of its transitions for the action named overlap in the location named. *)
Inductive fault (acc : accuracy) (dim : nat) (c : ts) : string -> Prop :=
| ft_start : (forall l0 v, initial_location dim c = Some l0 -> ~ at_start dim l0 v) ->
    fault acc dim c ("The system '" ++ system_text c ++ "' is inconsistent because it has no initial state")
| ft_state st l0 : initial_location dim c = Some l0 -> leads acc dim c (is_input c) l0 (at_start dim l0) st -> is_inconsistent (s_loc st) = true \/ stuck acc dim c st ->
    fault acc dim c ("The system '" ++ system_text c ++ "' is inconsistent because there are no saving outputs from state (" ++ place c (s_loc st) ++ ")")
| ft_choice st l0 a ts i j t u v w : initial_location dim c = Some l0 -> leads acc dim c (is_action c) l0 (val_ok dim) st -> is_action c a ->
    next_transitions dim c (s_loc st) a = Ok ts -> i <> j -> nth_error ts i = Some t -> nth_error ts j = Some u -> able dim (s_loc st) t v -> able dim (s_loc st) u v ->
    act_shown (is_input c) a w ->
    fault acc dim c ("The system '" ++ system_text c ++ "' is not deterministic in state (" ++ place c (s_loc st) ++ ") for " ++ w).

(** A sentence that is true of the refinement of [s2] by [s1]. *)
Inductive reason (acc : accuracy) (show : list string -> string) (dim : nat) (s1 s2 : ts) : string -> Prop :=
| rs_unmatched a l1 l2 v w : together dim s1 s2 l1 l2 v -> unmatched dim s1 s2 a l1 l2 v -> act_shown (fun a => is_input s1 a \/ is_input s2 a) a w ->
    reason acc show dim s1 s2 ("The refinement '" ++ system_text s1 ++ " <= " ++ system_text s2 ++ "' fails in state ((" ++ place s1 l1 ++ "<=" ++ place s2 l2 ++ ")) because " ++ w ++ " cannot be matched")
| rs_cut a l1 l2 v w : together dim s1 s2 l1 l2 v -> (enters_inside dim s2 -> cuts_delay dim s1 s2 a l1 l2 v) -> act_shown (fun a => is_input s1 a \/ is_input s2 a) a w ->
    reason acc show dim s1 s2 ("The refinement '" ++ system_text s1 ++ " <= " ++ system_text s2 ++ "' fails because delay solutions are cut in state ((" ++ place s1 l1 ++ "<=" ++ place s2 l2 ++ ")) for " ++ w)
| rs_left : initial_location dim s1 = None -> initial_location dim s2 <> None ->
    reason acc show dim s1 s2 ("The refinement '" ++ system_text s1 ++ " <= " ++ system_text s2 ++ "' fails because '" ++ system_text s1 ++ "' is empty")
| rs_right : initial_location dim s2 = None -> initial_location dim s1 <> None ->
    reason acc show dim s1 s2 ("The refinement '" ++ system_text s1 ++ " <= " ++ system_text s2 ++ "' fails because '" ++ system_text s2 ++ "' is empty")
| rs_start : (forall l1 l2 v, initial_location dim s1 = Some l1 -> initial_location dim s2 = Some l2 -> ~ (at_start dim l1 v /\ at_start dim l2 v)) ->
    reason acc show dim s1 s2 ("The refinement '" ++ system_text s1 ++ " <= " ++ system_text s2 ++ "' fails because it has no initial state")
| rs_part c t : part_of c s1 \/ part_of c s2 -> fault acc dim c t ->
    reason acc show dim s1 s2 ("The refinement '" ++ system_text s1 ++ " <= " ++ system_text s2 ++ "' fails because of inconsistent system: " ++ t)
| rs_clash s s' x v w : (s = s1 /\ s' = s2) \/ (s = s2 /\ s' = s1) -> is_input s x -> is_output s' x -> set_shown show s (ts_inputs s) v -> set_shown show s' (ts_outputs s') w ->
    reason acc show dim s1 s2 ("The refinement '" ++ system_text s1 ++ " <= " ++ system_text s2 ++ "' fails based on actions: " ++ v ++ " are not disjoint from " ++ w)
| rs_inputs x v w : is_input s1 x -> ~ is_input s2 x -> set_shown show s1 (ts_inputs s1) v -> set_shown show s2 (ts_inputs s2) w ->
    reason acc show dim s1 s2 ("The refinement '" ++ system_text s1 ++ " <= " ++ system_text s2 ++ "' fails based on actions: " ++ v ++ " are not a subset of " ++ w)
| rs_outputs x v w : is_output s2 x -> ~ is_output s1 x -> set_shown show s2 (ts_outputs s2) v -> set_shown show s1 (ts_outputs s1) w ->
    reason acc show dim s1 s2 ("The refinement '" ++ system_text s1 ++ " <= " ++ system_text s2 ++ "' fails based on actions: " ++ v ++ " are not a subset of " ++ w).

(** The locations in which the steps of a run from [l] are taken, with their actions. *)
Fixpoint stops (l : loctree) (steps : list (transition * string)) : list (loctree * string) :=
  match steps with [] => [] | (t, a) :: rest => (l, a) :: stops (t_target t) rest end.
Definition stop_line (s : ts) (x : loctree * string) : text := txt (snd x ++ " from (" ++ place s (fst x) ++ ")").
