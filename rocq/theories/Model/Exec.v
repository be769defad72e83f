(** Answering a query: from the parsed query to its result.  Models src/System/extract_system_rep.rs
    [create_executable_query], src/System/executable_query.rs, the loop of src/main.rs over the queries of a command line
    and the component loaders of src/DataReader/component_loader.rs as far as queries use them. *)
From Coq Require Import List String ZArith Bool Arith.
From Verif Require Import Fed.Zone Model.Base Model.Expr Model.Guard Model.Loc Model.Component Model.TS Model.ParseQuery Model.Recipe Model.Reduce Model.PairList
  Model.Search Model.Refine Model.Query Model.Save Model.Prune.
Import ListNotations.
Local Open Scope string_scope.

(** What the code leaves open: the fuel of the searches, the effect of extrapolation (Model/Search.v, Model/Refine.v), the
    minimal constraints and the timed predecessors of the zone library (Model/Reduce.v, Model/Prune.v), each for the
    dimension in use, and the iteration orders of hash sets and maps.  The [HashSet]s and [HashMap]s of transition_system.rs:193-263, extract_system_rep.rs:353-429 and save_component.rs:73-202. *)
Record choices := mkChoices {
  ch_fuel : nat;
  ch_ext : nat -> ts -> loctree -> fed -> fed;
  ch_pext : nat -> ts -> ts -> loctree -> loctree -> fed -> fed;
  ch_xext : nat -> ts -> fed -> loctree -> fed -> fed;
  ch_minc : nat -> fed -> fed;
  ch_predt : nat -> fed -> fed -> fed;
  ch_sord : list state -> list string -> list string;
  ch_aord : pair -> list string -> list string;
  ch_ord : list string -> list string;
  ch_kord : list (string * nat) -> list (string * nat);
  ch_cord : list nat -> list nat;
  ch_gord : list (list nat) -> list (list nat) }.

(** query_failures.rs [QueryResult], without the details of failures. *)
Inductive answer :=
| ARefinement (o : outcome)
| AReachability (p : option (list decision))
| AConsistency (b : bool)
| ADeterminism (o : option (string * state))
| AComponent (c : component).

(** component_loader.rs: the loader of a JSON project (215-240), of an XML project (305-325) and of the server (123-143). *)
Inductive loader := JsonLoader | XmlLoader | ServerLoader.

Section Exec.
Variable ch : choices.
(** [!get_settings().disable_clock_reduction]. *)
Variable reduce : bool.
Variable load : string -> option component.

(** local_consistency.rs:11-20, as called in conjunction.rs:69 and compiled_component.rs:180. *)
Definition the_least (d : nat) (s : ts) : res bool := is_least_consistent d (ch_ext ch d) (ch_sord ch) (ch_fuel ch) s.
(** transition_system.rs:122-125 [precheck_sys_rep]. *)
Definition the_pre (d : nat) (s : ts) : res bool := precheck d (ch_ext ch d) (ch_sord ch) (ch_fuel ch) s.
(** transition_system.rs:237-239 [find_redundant_clocks], as called in extract_system_rep.rs:375-385. *)
Definition the_redundant (d : nat) (s : ts) : res (list instr) :=
  find_redundant_clocks d (ch_minc ch d) (ch_ord ch) (ch_cord ch) (ch_gord ch) (ch_fuel ch) s.

(** extract_system_rep.rs:48-66: the recipes of both sides, which share the clock counter and the quotient clock. *)
Definition two_recipes (e f : sysx) : res (recipe * recipe * nat) :=
  do (l, st) <- get_system_recipe load e (0, None);
  do (r, st') <- get_system_recipe load f st;
  let '(dim, q) := st' in
  if reduce then
    do (p, dim') <- clock_reduce the_least the_pre the_redundant l (Some r) dim q;
    do r' <- unwrap (snd p);
    Ok (fst p, r', dim')
  else Ok (l, r, dim).
(** extract_system_rep.rs:68-73. *)
Definition two_systems (e f : sysx) : res (ts * ts * nat) :=
  do (p, dim) <- two_recipes e f;
  do (s, t) <- compile_two the_least the_pre dim (fst p) (snd p);
  Ok (s, t, dim).
(** extract_system_rep.rs:107-121, and again 123-135, 137-144 and 152-159: a query about one system. *)
Definition one_system (e : sysx) : res (ts * nat) :=
  do (r, st) <- get_system_recipe load e (0, None);
  let '(dim, q) := st in
  do (r', dim') <- (if reduce then do (p, d) <- clock_reduce the_least the_pre the_redundant r None dim q; Ok (fst p, d) else Ok (r, dim));
  do s <- compile the_least the_pre dim' r';
  Ok (s, dim').

(** [name.clone().unwrap_or("Unnamed".to_string())].  extract_system_rep.rs:147, 162. *)
Definition result_name (n : option string) : string := match n with Some n => n | None => "Unnamed" end.

(** extract_system_rep.rs:42-172 [create_executable_query] followed by [execute] (executable_query.rs:71-139).  The queries
    it is not set up for are rejected.  Storing the component is [save_component] below. *)
Definition run_query (q : query) : res answer :=
  match q with
  | QRefinement e f =>
      do (p, dim) <- two_systems e f;
      let d := dim + 1 in
      do o <- check_refinement d (ch_ext ch d) (ch_pext ch d (fst p) (snd p)) (ch_sord ch) (ch_aord ch) (fst p) (snd p) (ch_fuel ch);
      Ok (ARefinement o)
  | QReachability e from to =>
      do (p, target) <- reach_query the_least the_pre load e from to;
      let '(d, s, start) := p in
      do o <- find_path d (ch_fuel ch) s (ch_xext ch d s (s_zone target)) start target;
      Ok (AReachability o)
  | QConsistency e => do (s, dim) <- one_system e; do b <- the_pre (dim + 1) s; Ok (AConsistency b)
  | QDeterminism e =>
      do (s, dim) <- one_system e;
      do o <- check_determinism (dim + 1) (ch_ext ch (dim + 1)) (ch_sord ch) (ch_fuel ch) s;
      Ok (ADeterminism o)
  | QGetComponent e n =>
      do (s, dim) <- one_system e;
      do c <- get_component (dim + 1) (ch_minc ch (dim + 1)) (ch_ord ch) (ch_kord ch) (ch_fuel ch) s (result_name n);
      Ok (AComponent c)
  | QPrune e n =>
      do (s, dim) <- one_system e;
      do p <- prune_system (dim + 1) dim (ch_minc ch (dim + 1)) (ch_predt ch dim) (ch_ext ch (dim + 1)) (ch_sord ch) (ch_ord ch) (ch_kord ch) (ch_fuel ch) s;
      do c <- get_component dim (ch_minc ch dim) (ch_ord ch) (ch_kord ch) (ch_fuel ch) (TSimple p) (result_name n);
      Ok (AComponent c)
  | QImplementation _ | QSpecification _ | QBisim _ _ => Err
  end.

(** executable_query.rs:14-44 [print_result] and send_query.rs:86-110: whether the property is reported as satisfied. *)
Definition satisfied (a : answer) : bool :=
  match a with
  | ARefinement RSuccess => true
  | AReachability (Some _) => true
  | AConsistency b => b
  | ADeterminism None => true
  | AComponent _ => true
  | _ => false
  end.
End Exec.

(** [save_component] of the loaders; writing the file of a JSON project is Model/Files.v.  component_loader.rs:132-134 (a server), 228-232 (JSON), 315-317 (XML). *)
Definition save_component (k : loader) (load : string -> option component) (c : component) : res (string -> option component) :=
  match k with
  | JsonLoader => Ok (fun n => if String.eqb n (c_name c) then Some c else load n)
  | XmlLoader => Panic
  | ServerLoader => Ok load
  end.
(** [GetComponentExecutor::execute], executable_query.rs:107-118. *)
Definition after_answer (k : loader) (load : string -> option component) (a : answer) : res (string -> option component) :=
  match a with AComponent c => save_component k load c | _ => Ok load end.

(** main.rs:34-56 [start_using_cli]: the queries of a command line are answered one after the other with the same loader;
    an error ends the program before anything is printed.  The choices may differ from query to query. *)
Fixpoint run_queries (chs : nat -> choices) (reduce : bool) (k : loader) (load : string -> option component) (i : nat) (qs : list query) : res (list answer) :=
  match qs with
  | [] => Ok []
  | q :: qs' =>
      do a <- (match run_query (chs i) reduce load q with Err => Panic | r => r end);
      do load' <- after_answer k load a;
      do rest <- run_queries chs reduce k load' (S i) qs';
      Ok (a :: rest)
  end.
