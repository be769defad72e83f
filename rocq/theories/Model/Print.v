(** All that a command line prints: the results of queries with their descriptions.  Models [print_result] and [print_path] of
    src/System/executable_query.rs, the texts of src/System/query_failures.rs and src/System/specifics.rs that they contain, and the loop of
    src/main.rs.  Model/Cli.v has the first line of each result only. *)
From Coq Require Import List String Ascii ZArith Bool Arith.
From Verif Require Import Fed.Zone Model.Base Model.Expr Model.Guard Model.Loc Model.Component Model.TS Model.ParseQuery Model.Peg Model.Files
  Model.Recipe Model.Reduce Model.PairList Model.Search Model.Refine Model.Query Model.Wire Model.Exec Model.Failure Model.Loader Model.Cli.
Import ListNotations.
Local Open Scope string_scope.

(** ** Texts *)

(** specifics.rs:261-274 and 282-289 [Display] of locations. *)
Fixpoint loc_text (l : specloc) : res string :=
  match l with
  | SLComp c n => Ok (sc_name c ++ "." ++ n)
  | SLBranch a b op =>
      do o <- match op with OpSimple => Panic (* unreachable! *) | _ => Ok (op_text op) end;
      do x <- loc_text a;
      do y <- loc_text b;
      Ok ("(" ++ x ++ o ++ y ++ ")")
  | SLSpecial SUniversal => Ok "[Universal]"
  | SLSpecial SError => Ok "[Error]"
  end.
(** specifics.rs:324-332: the constraints are not shown. *)
Definition state_text (st : specstate) : res string := do l <- loc_text (ss_loc st); Ok ("(" ++ l ++ ")").
(** query_failures.rs:121-129, how an [Action] is displayed. *)
Definition action_text (a : string) (input : bool) : string :=
  if input then "Input """ ++ a ++ """" else "Output """ ++ a ++ """".

Section Texts.
(** How a set of strings is shown with [{:?}]. *)
Variable show_set : list string -> string.
(** query_failures.rs:99-109, how an [ActionSet] is displayed. *)
Definition aset_text (a : aset) : string :=
  (if as_input a then "Input" else "Output") ++ " set " ++ show_set (as_actions a) ++ " in system '" ++ as_system a ++ "'".
(** query_failures.rs:598-609. *)
Definition afail_text (f : afail) : string :=
  match f with
  | NotSubset a b => aset_text a ++ " are not a subset of " ++ aset_text b
  | NotDisjoint a b => aset_text a ++ " are not disjoint from " ++ aset_text b
  end.
(** query_failures.rs:524-532. *)
Definition detfail_text (f : detfail) : res string :=
  do s <- state_text (df_state f);
  Ok ("The system '" ++ df_system f ++ "' is not deterministic in state " ++ s ++ " for " ++ action_text (df_action f) (df_input f)).
(** query_failures.rs:560-577. *)
Definition cfail_text (f : cfail) : res string :=
  match f with
  | NoInitialState s => Ok ("The system '" ++ s ++ "' is inconsistent because it has no initial state")
  | NotDeterministic d => detfail_text d
  | InconsistentLoc s st | InconsistentFrom s st =>
      do t <- state_text st; Ok ("The system '" ++ s ++ "' is inconsistent because there are no saving outputs from state " ++ t)
  end.
(** query_failures.rs:534-558 and 617-645. *)
Definition rfail_text (f : rfail) : res string :=
  match f with
  | CutsDelaySolutions s a i st =>
      do t <- state_text st; Ok ("The refinement '" ++ sn_name s ++ "' fails because delay solutions are cut in state " ++ t ++ " for " ++ action_text a i)
  | CannotMatch s a i st =>
      do t <- state_text st; Ok ("The refinement '" ++ sn_name s ++ "' fails in state " ++ t ++ " because " ++ action_text a i ++ " cannot be matched")
  | EmptyChild c s => Ok ("The refinement '" ++ sn_name s ++ "' fails because '" ++ c ++ "' is empty")
  | EmptyInitialState s => Ok ("The refinement '" ++ sn_name s ++ "' fails because it has no initial state")
  | InconsistentChild c s => do t <- cfail_text c; Ok ("The refinement '" ++ sn_name s ++ "' fails because of inconsistent system: " ++ t)
  | ActionMismatch a s => Ok ("The refinement '" ++ sn_name s ++ "' fails based on actions: " ++ afail_text a)
  end.

(** query_failures.rs:138-155 [QueryResult]: [answer] of Model/Exec.v with the descriptions.  Custom errors and the failures of recipes end
    the command line and are not printed. *)
Inductive result :=
| ResRefinement (f : option rfail)
| ResReachability (p : option (list specdecision))
| ResConsistency (f : option cfail)
| ResDeterminism (f : option detfail)
| ResComponent (c : component).

(** executable_query.rs:47-53. *)
Definition satisfied_line (q : text) : text := (q ++ txt " -- Property is satisfied")%list.
Definition not_satisfied_line (q : text) : text := (q ++ txt " -- Property is NOT satisfied")%list.
(** executable_query.rs:55-65 [print_path]. *)
Definition edge_line (d : specdecision) : res text := do s <- state_text (sd_source d); Ok (txt (sd_action d ++ " from " ++ s)).
Definition path_lines (ds : list specdecision) : res (list text) :=
  do ls <- mapM edge_line ds; Ok (txt "Edges that have been taken:" :: ls).
(** executable_query.rs:14-45 [print_result]: the lines. *)
Definition result_lines (q : text) (r : result) : res (list text) :=
  match r with
  | ResRefinement None | ResConsistency None | ResDeterminism None => Ok [satisfied_line q]
  | ResRefinement (Some f) => do t <- rfail_text f; Ok [not_satisfied_line q; []; txt ("Got failure: " ++ t)]
  | ResReachability (Some ds) => do ls <- path_lines ds; Ok (satisfied_line q :: ls)
  | ResReachability None | ResConsistency (Some _) | ResDeterminism (Some _) => Ok [not_satisfied_line q]
  | ResComponent _ => Ok [(q ++ txt " -- Component succesfully created")%list]
  end.
End Texts.

(** ** Results *)
Section Results.
Variable ch : choices.
Variable reduce : bool.
Variable load : string -> option component.

(** extract_system_rep.rs:42-172 followed by [execute] (executable_query.rs:75-137): [run_query] of Model/Exec.v with the descriptions, which the
    checks make where they fail (Model/Failure.v) and reachability.rs:86-92 [find_specific_path] makes of the path. *)
Definition query_result (q : query) : res result :=
  match q with
  | QRefinement e f =>
      do (p, dim) <- two_systems ch reduce load e f;
      let d := dim + 1 in
      do o <- refinement_report d (ch_ext ch d) (ch_sord ch) (ch_minc ch d) (ch_kord ch) (ch_pext ch d (fst p) (snd p)) (ch_aord ch) (ch_fuel ch) (fst p) (snd p);
      Ok (ResRefinement o)
  | QReachability e from to =>
      do (p, target) <- reach_query (the_least ch) (the_pre ch) load e from to;
      let '(d, s, start) := p in
      do o <- find_path d (ch_fuel ch) s (ch_xext ch d s (s_zone target)) start target;
      match o with
      | None => Ok (ResReachability None)
      | Some ds => do ps <- mapM (specific_decision (ch_minc ch d) (ch_kord ch) s) ds; Ok (ResReachability (Some ps))
      end
  | QConsistency e => do (s, dim) <- one_system ch reduce load e; do o <- the_pre_report ch (dim + 1) s; Ok (ResConsistency o)
  | QDeterminism e =>
      do (s, dim) <- one_system ch reduce load e;
      let d := dim + 1 in
      do o <- determinism_report d (ch_ext ch d) (ch_sord ch) (ch_minc ch d) (ch_kord ch) (ch_fuel ch) s;
      Ok (ResDeterminism o)
  | QGetComponent _ _ | QPrune _ _ =>
      do a <- run_query ch reduce load q;
      match a with AComponent c => Ok (ResComponent c) | _ => Panic (* not reached *) end
  | QImplementation _ | QSpecification _ | QBisim _ _ => Err
  end.
End Results.

(** ** The command line *)

(** main.rs:34-47 as [run_all] of Model/Cli.v. *)
Fixpoint run_results (chs : nat -> choices) (minc : nat -> fed -> fed) (reduce : bool) (p : any_loader) (i : nat) (qs : list (option query)) : res (list result * any_loader) :=
  match qs with
  | [] => Ok ([], p)
  | q :: qs' =>
      do q <- unwrap q;
      do r <- (match query_result (chs i) reduce (looked_up minc p) q with Err => Panic | r => r end);
      do p' <- (match r with ResComponent c => Loader.save_component p c | _ => Ok p end);
      do (rest, p2) <- run_results chs minc reduce p' (S i) qs';
      Ok (r :: rest, p2)
  end.
(** main.rs:49-53: the lines of each result. *)
Definition print_all (show_set : list string -> string) (qs : list (option query)) (rs : list result) : res (list (list text)) :=
  mapM (fun x => do q <- unwrap (fst x); result_lines show_set (print_query q) (snd x)) (combine qs rs).
(** main.rs:16-54 for the query command: the lines printed after the empty line and the heading "Query results:", those of each query apart, and the project afterwards. *)
Definition command_output (show_set : list string -> string) (chs : nat -> choices) (minc : nat -> fed -> fed) (a : args) (dk : disk) : res (list (list text) * any_loader) :=
  do _ <- query_check (ag_query a);
  do (p, qs) <- parse_args minc a dk;
  do (rs, p') <- run_results chs minc (ag_reduce a) p 0 qs;
  do bs <- print_all show_set qs rs;
  Ok (bs, p').
