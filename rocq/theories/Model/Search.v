(** Searches over one system: determinism, consistency (System/local_consistency.rs) and
    reachability (System/reachability.rs). *)
From Coq Require Import List String ZArith Bool Arith.
From Verif Require Import Fed.Zone Model.Base Model.Expr Model.Guard Model.Loc Model.Component Model.TS.
Import ListNotations.

(** A [for] loop whose body may leave the function with a result ([inr]).  local_consistency.rs:80-175. *)
Fixpoint loopM {A S R} (body : A -> S -> res (S + R)) (l : list A) (s : S) : res (S + R) :=
  match l with
  | [] => Ok (inl s)
  | a :: l' => do x <- body a s; match x with inl s' => loopM body l' s' | inr r => Ok (inr r) end
  end.

Section Search.
Variable dim : nat.
(** edbm [extrapolate_max_bounds] with the local bounds of a location of a system
    (state.rs:80-83); only its effect on the zone matters. *)
Variable ext : ts -> loctree -> fed -> fed.
(** Iteration order of a [HashSet] of actions; it may differ from call to call. *)
Variable ord : list state -> list string -> list string.

(** state.rs:80-83 [extrapolate_max_bounds]. *)
Definition extrapolate (s : ts) (st : state) : state := mkS (s_loc st) (ext s (s_loc st) (s_zone st)).

(** ** Determinism *)

(** local_consistency.rs:23-67.  The result is the failing action and state, if any, and
    the passed list. *)
Definition det_body (s : ts) (rec : state -> list state -> res (option (string * state) * list state))
    (st : state) (a : string) (t : transition) (acc : list state * fed)
    : res ((list state * fed) + (option (string * state) * list state)) :=
  let (passed, lf) := acc in
  let (ok, ns) := use_transition dim t st in
  if ok then
    let al := apply_inv dim (s_loc st) (allowed_fed dim t) in
    if fmeets dim al lf then Ok (inr (Some (a, st), passed))
    else
      do (r, p) <- rec (extrapolate s ns) passed;
      match r with
      | None => Ok (inl (p, funion lf al))
      | Some e => Ok (inr (Some e, p))
      end
  else Ok (inl (passed, lf)).

Definition det_action (s : ts) (rec : state -> list state -> res (option (string * state) * list state))
    (st : state) (a : string) (passed : list state) : res (list state + (option (string * state) * list state)) :=
  do ts <- next_transitions dim s (s_loc st) a;
  do x <- loopM (det_body s rec st a) ts (passed, fnone);
  match x with inl (p, _) => Ok (inl p) | inr r => Ok (inr r) end.

Fixpoint det_helper (fuel : nat) (s : ts) (st : state) (passed : list state)
    : res (option (string * state) * list state) :=
  match fuel with
  | O => NoFuel
  | S f =>
      if state_in_list dim st passed then Ok (None, passed)
      else
        let passed := passed ++ [st] in
        do x <- loopM (det_action s (det_helper f s) st) (ord passed (ts_actions s)) passed;
        match x with inl p => Ok (None, p) | inr r => Ok r end
  end.

(** local_consistency.rs:23-32 [check_determinism] on one system: the zone of the initial
    state is replaced by the universe. *)
Definition det_search (fuel : nat) (s : ts) : res (option (string * state)) :=
  match initial_state dim s with
  | None => Ok None
  | Some st => do (r, _) <- det_helper fuel s (mkS (s_loc st) funiv) []; Ok r
  end.

(** compiled_component.rs:175-177, common.rs:105-109, quotient.rs:362-365
    [check_determinism]: only components are searched. *)
Fixpoint check_determinism (fuel : nat) (s : ts) : res (option (string * state)) :=
  match s with
  | TSimple _ => det_search fuel s
  | TConj l r _ _ | TComp l r _ _ _ _ _ | TQuot l r _ _ _ _ =>
      do x <- check_determinism fuel l;
      match x with None => check_determinism fuel r | Some e => Ok (Some e) end
  end.

(** ** Consistency *)

(** local_consistency.rs:91-100: one transition of an input. *)
Definition input_body (s : ts) (rec : state -> list state -> res (bool * list state))
    (st : state) (t : transition) (passed : list state) : res (list state + (bool * list state)) :=
  let (ok, ns) := use_transition dim t st in
  if ok then do (r, p) <- rec (extrapolate s ns) passed; if r : bool then Ok (inl p) else Ok (inr (false, p))
  else Ok (inl passed).
(** local_consistency.rs:106-116: one transition of an output. *)
Definition output_body (s : ts) (rec : state -> list state -> res (bool * list state))
    (st : state) (t : transition) (passed : list state) : res (list state + (bool * list state)) :=
  let (ok, ns) := use_transition dim t st in
  if ok then do (r, p) <- rec (extrapolate s ns) passed; if r : bool then Ok (inr (true, p)) else Ok (inl p)
  else Ok (inl passed).
Definition each_transition {A} (s : ts) (body : transition -> list state -> res (list state + A))
    (st : state) (a : string) (passed : list state) : res (list state + A) :=
  do ts <- next_transitions dim s (s_loc st) a; loopM body ts passed.

(** local_consistency.rs:80-125 [consistency_least_helper]; [true] is [Ok(())]. *)
Fixpoint least_helper (fuel : nat) (s : ts) (st : state) (passed : list state) : res (bool * list state) :=
  match fuel with
  | O => NoFuel
  | S f =>
      if state_in_list dim st passed then Ok (true, passed)
      else if is_universal (s_loc st) then Ok (true, passed)
      else if is_inconsistent (s_loc st) then Ok (false, passed)
      else
        let passed := passed ++ [st] in
        do x <- loopM (each_transition s (input_body s (least_helper f s) st) st) (ord passed (ts_inputs s)) passed;
        match x with
        | inr r => Ok r
        | inl passed =>
            if fcan_delay dim (s_zone st) then Ok (true, passed)
            else
              do y <- loopM (each_transition s (output_body s (least_helper f s) st) st) (ord passed (ts_outputs s)) passed;
              match y with inr r => Ok r | inl p => Ok (false, p) end
        end
  end.

(** local_consistency.rs:11-20 [is_least_consistent]. *)
Definition is_least_consistent (fuel : nat) (s : ts) : res bool :=
  match initial_state dim s with
  | Some st => do (r, _) <- least_helper fuel s (extrapolate s st) []; Ok r
  | None => Ok false
  end.

(** compiled_component.rs:179-181, common.rs:111-115, quotient.rs:367-370
    [check_local_consistency]; a quotient checks its divisor first. *)
Fixpoint check_local_consistency (fuel : nat) (s : ts) : res bool :=
  match s with
  | TSimple _ => is_least_consistent fuel s
  | TConj l r _ _ | TComp l r _ _ _ _ _ =>
      do x <- check_local_consistency fuel l;
      if x then check_local_consistency fuel r else Ok false
  | TQuot t d _ _ _ _ =>
      do x <- check_local_consistency fuel d;
      if x then check_local_consistency fuel t else Ok false
  end.

(** transition_system.rs:122-125 [precheck_sys_rep]. *)
Definition precheck (fuel : nat) (s : ts) : res bool :=
  do d <- check_determinism fuel s;
  match d with None => check_local_consistency fuel s | Some _ => Ok false end.

(** local_consistency.rs:127-175 [consistency_fully_helper]. *)
Definition full_input_body (s : ts) (rec : state -> list state -> res (bool * list state))
    (st : state) (t : transition) (passed : list state) : res (list state + (bool * list state)) :=
  let (ok, ns) := use_transition dim t st in
  if ok then
    let ns := extrapolate s ns in
    if state_subset dim ns st then Ok (inl passed)
    else do (r, p) <- rec ns passed; if r : bool then Ok (inl p) else Ok (inr (false, p))
  else Ok (inl passed).
Definition full_output_body (s : ts) (rec : state -> list state -> res (bool * list state))
    (st : state) (t : transition) (acc : list state * bool) : res ((list state * bool) + (bool * list state)) :=
  let (passed, existed) := acc in
  let (ok, ns) := use_transition dim t st in
  if ok then
    let ns := extrapolate s ns in
    if state_subset dim ns st then Ok (inl acc)
    else do (r, p) <- rec ns passed; if r : bool then Ok (inl (p, true)) else Ok (inr (false, p))
  else Ok (inl acc).

Fixpoint full_helper (fuel : nat) (s : ts) (st : state) (passed : list state) : res (bool * list state) :=
  match fuel with
  | O => NoFuel
  | S f =>
      if state_in_list dim st passed then Ok (true, passed)
      else
        let passed := passed ++ [st] in
        do x <- loopM (each_transition s (full_input_body s (full_helper f s) st) st) (ord passed (ts_inputs s)) passed;
        match x with
        | inr r => Ok r
        | inl passed =>
            do y <- loopM (fun a acc => do ts <- next_transitions dim s (s_loc st) a;
                                        loopM (full_output_body s (full_helper f s) st) ts acc)
                          (ord passed (ts_outputs s)) (passed, false);
            match y with
            | inr r => Ok r
            | inl (p, true) => Ok (true, p)
            | inl (p, false) =>
                (* passed_list.last().unwrap() *)
                Ok (fcan_delay dim (s_zone (last p st)), p)
            end
        end
  end.

(** local_consistency.rs:70-78 [is_fully_consistent]. *)
Definition is_fully_consistent (fuel : nat) (s : ts) : res bool :=
  match initial_state dim s with
  | None => Ok false
  | Some st => do (r, _) <- full_helper fuel s st []; Ok r
  end.

(** ** Reachability *)

(** reachability.rs:21-25 [SubPath]. *)
Inductive subpath :=
| PStart (st : state)
| PStep (prev : subpath) (st : state) (t : transition) (a : string).
Definition sp_state (p : subpath) : state := match p with PStart s => s | PStep _ s _ _ => s end.

(** decision.rs:6-11 [Decision]. *)
Record decision := mkD { d_state : state; d_action : string; d_trans : transition; d_next : state }.

(** decision.rs:37-60 [from_state_transition]. *)
Definition from_state_transition (st : state) (t : transition) (a : string) : res (option decision) :=
  let st := mkS (s_loc st) (finter dim (s_zone st) (allowed_fed dim t)) in
  if negb (fempty dim (s_zone st)) then
    do n <- unwrap (use_transition_alt dim t st); Ok (Some (mkD st a t n))
  else Ok None.

(** reachability.rs:28-42 [is_trivially_unreachable]. *)
Definition trivially_unreachable (start target : state) : bool :=
  fempty dim (s_zone start) || fempty dim (s_zone target) ||
  match lt_inv (s_loc target) with Some i => negb (fmeets dim (s_zone target) i) | None => false end.

(** reachability.rs:157-162 [reached_end_state]. *)
Definition reached_end (cur target : state) : res bool :=
  do b <- compare_partial (s_loc cur) (s_loc target);
  Ok (b && fmeets dim (s_zone cur) (s_zone target)).

(** The map [visited_states].  reachability.rs:108. *)
Definition visited := list (locid * list fed).
Definition zones_of (v : visited) (i : locid) : list fed :=
  match assoc_loc i v with Some z => z | None => [] end.
Definition set_zones (v : visited) (i : locid) (z : list fed) : visited :=
  (i, z) :: filter (fun p => negb (locid_eqb i (fst p))) v.

(** reachability.rs:164-197 [take_transition], with 199-214. *)
Definition take_transition (s : ts) (xext : loctree -> fed -> fed) (sp : subpath) (a : string) (t : transition)
    (acc : list subpath * visited) : list subpath * visited :=
  let (frontier, vis) := acc in
  let (ok, ns) := use_transition dim t (sp_state sp) in
  if ok then
    let ns := mkS (s_loc ns) (xext (s_loc ns) (s_zone ns)) in
    let i := lt_id (s_loc ns) in
    let existing := zones_of vis i in
    if existsb (fsubset dim (s_zone ns)) existing then acc
    else
      let kept := filter (fun z => negb (fsubset dim z (s_zone ns))) existing in
      (frontier ++ [PStep sp ns t a], set_zones vis i (kept ++ [s_zone ns]))
  else acc.

(** One round of the loop of reachability.rs:136-150, for one action. *)
Definition expand_action (s : ts) (xext : loctree -> fed -> fed) (sp : subpath) (acc : list subpath * visited) (a : string)
    : res (list subpath * visited) :=
  do ts <- next_transitions dim s (s_loc (sp_state sp)) a;
  Ok (fold_left (fun acc t => take_transition s xext sp a t acc) ts acc).
Fixpoint expand (s : ts) (xext : loctree -> fed -> fed) (sp : subpath) (acts : list string) (acc : list subpath * visited)
    : res (list subpath * visited) :=
  match acts with
  | [] => Ok acc
  | a :: acts' => do acc' <- expand_action s xext sp acc a; expand s xext sp acts' acc'
  end.

(** reachability.rs:216-240 [make_path]. *)
Fixpoint sp_steps (p : subpath) (acc : list (transition * string)) : list (transition * string) :=
  match p with PStart _ => acc | PStep prev _ t a => sp_steps prev ((t, a) :: acc) end.
Fixpoint decisions (st : state) (steps : list (transition * string)) : res (list decision) :=
  match steps with
  | [] => Ok []
  | (t, a) :: rest =>
      do o <- from_state_transition st t a;
      do d <- unwrap o; (* expect *)
      do ds <- decisions (snd (use_transition dim t st)) rest;
      Ok (d :: ds)
  end.
(** reachability.rs:216-240. *)
Definition make_path (p : subpath) (start : state) : res (list decision) := decisions start (sp_steps p []).

(** reachability.rs:130-154: the loop; [None] is [Err(Unreachable)]. *)
Fixpoint search_loop (fuel : nat) (s : ts) (xext : loctree -> fed -> fed) (acts : list string) (start target : state)
    (frontier : list subpath) (vis : visited) : res (option (list decision)) :=
  match fuel with
  | O => NoFuel
  | S f =>
      match frontier with
      | [] => Ok None
      | sp :: rest =>
          do b <- reached_end (sp_state sp) target;
          if b : bool then do p <- make_path sp start; Ok (Some p)
          else
            do acc <- expand s xext sp acts (rest, vis);
            search_loop f s xext acts start target (fst acc) (snd acc)
      end
  end.

(** String order of [actions.sort()].  reachability.rs:113-114. *)
Fixpoint insert_str (a : string) (l : list string) : list string :=
  match l with
  | [] => [a]
  | b :: l' => match String.compare a b with Gt => b :: insert_str a l' | _ => a :: l end
  end.
Definition sort_str (l : list string) : list string := fold_right insert_str [] l.

(** reachability.rs:98-155 [reachability_search].  [acts] are the actions of the system in the order in which the hash set lists them (113).
    [xext] is [extrapolate_max_bounds_with_extra_bounds] with the bounds of the target zone. *)
Definition find_listed (acts : list string) (fuel : nat) (s : ts) (xext : loctree -> fed -> fed) (start target : state) : res (option (list decision)) :=
  if trivially_unreachable start target then Ok None
  else
    let start := mkS (s_loc start) (apply_inv dim (s_loc start) (s_zone start)) in
    search_loop fuel s xext (sort_str acts) start target
      [PStart start] [(lt_id (s_loc start), [s_zone start])].
(** reachability.rs:74-84 [find_path]; the order of the list does not matter (C70). *)
Definition find_path (fuel : nat) (s : ts) (xext : loctree -> fed -> fed) (start target : state) : res (option (list decision)) :=
  find_listed (ts_actions s) fuel s xext start target.
End Search.
