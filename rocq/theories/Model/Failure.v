(** What is reported when a check fails: the failures of src/System/query_failures.rs as the checks build them, and the reply
    that ProtobufServer sends for a query (src/ProtobufServer/proto_conversions.rs,
    src/ProtobufServer/ecdar_requests/send_query.rs).  The texts of [Display] are in Model/Print.v; log messages are not modelled. *)
From Coq Require Import List String ZArith Bool Arith.
From Verif Require Import Fed.Zone Model.Base Model.Expr Model.Guard Model.Loc Model.Component Model.TS Model.ParseQuery Model.Recipe Model.Reduce Model.PairList
  Model.Search Model.Refine Model.Query Model.Save Model.Prune Model.Sim Model.Wire Model.Exec.
Import ListNotations.
Local Open Scope string_scope.

(** A [Result] whose error is reported: [inr].  extract_system_rep.rs:42-172, where [?] passes failures on. *)
Definition andthen {A B F} (m : res (A + F)) (k : A -> res (B + F)) : res (B + F) :=
  do x <- m; match x with inl a => k a | inr f => Ok (inr f) end.
Notation "'attempt' x <- m ; k" := (andthen m (fun x => k)) (at level 200, x name, m at level 100, k at level 200).

(** transition_system.rs:144-156 and compiled_component.rs [to_string]. *)
Fixpoint ts_name (s : ts) : string :=
  match s with
  | TSimple c => cc_name c
  | TConj l r _ _ => "(" ++ ts_name l ++ " && " ++ ts_name r ++ ")"
  | TComp l r _ _ _ _ _ => "(" ++ ts_name l ++ " || " ++ ts_name r ++ ")"
  | TQuot t d _ _ _ _ => "(" ++ ts_name t ++ " \\ " ++ ts_name d ++ ")"
  end.

(** query_failures.rs:51-54 [System]. *)
Record system := mkSys { sn_name : string; sn_type : sysop }.
(** query_failures.rs:25-34 [operator]; not called for [Simple]. *)
Definition op_text (o : sysop) : string :=
  match o with OpQuot => "\\" | OpRefine => "<=" | OpComp => "||" | OpConj => "&&" | OpSimple => "" end.
(** query_failures.rs:57-87. *)
Definition sys_refinement (s1 s2 : ts) : system := mkSys (ts_name s1 ++ " <= " ++ ts_name s2) OpRefine.
Definition ts_type (s : ts) : sysop :=
  match s with TSimple _ => OpSimple | TConj _ _ _ _ => OpConj | TComp _ _ _ _ _ _ _ => OpComp | TQuot _ _ _ _ _ _ => OpQuot end.
Definition sys_from (s : ts) : system := mkSys (ts_name s) (ts_type s).
Definition sys_composite (s1 s2 : ts) (o : sysop) : system := mkSys (ts_name s1 ++ " " ++ op_text o ++ " " ++ ts_name s2) o.

(** query_failures.rs:93-98 [ActionSet]; the actions are a [HashSet]. *)
Record aset := mkAS { as_system : string; as_actions : list string; as_input : bool }.
(** query_failures.rs:270-275 [ActionFailure]. *)
Inductive afail := NotSubset (a b : aset) | NotDisjoint (a b : aset).
(** Equality of hash sets.  query_failures.rs:278-346, which compares sets of actions. *)
Definition same_set (a b : list string) : bool := forallb (fun x => sin x b) a && forallb (fun x => sin x a) b.
(** query_failures.rs:278-300 [not_disjoint] and 324-346 [not_subset]: whether a set is one of inputs is decided by comparing. *)
Definition action_set (s : ts) (acts : list string) : aset := mkAS (ts_name s) acts (same_set (ts_inputs s) acts).
Definition not_disjoint (s1 : ts) (a1 : list string) (s2 : ts) (a2 : list string) : afail := NotDisjoint (action_set s1 a1) (action_set s2 a2).
Definition not_subset (s1 : ts) (a1 : list string) (s2 : ts) (a2 : list string) : afail := NotSubset (action_set s1 a1) (action_set s2 a2).
(** query_failures.rs:303-321 [not_disjoint_IO]. *)
Definition not_disjoint_io (n : string) (ins outs : list string) : afail := NotDisjoint (mkAS n ins true) (mkAS n outs false).

(** query_failures.rs:497-501 [DeterminismFailure] with its [Action]. *)
Record detfail := mkDF { df_system : string; df_action : string; df_input : bool; df_state : specstate }.
(** query_failures.rs:424-440 [ConsistencyFailure]. *)
Inductive cfail :=
| NoInitialState (system : string)
| NotDeterministic (d : detfail)
| InconsistentLoc (system : string) (st : specstate)
| InconsistentFrom (system : string) (st : specstate).
(** query_failures.rs:173-190 [RefinementFailure] with 192-203 [RefinementPrecondition]. *)
Inductive rfail :=
| CutsDelaySolutions (s : system) (a : string) (input : bool) (st : specstate)
| CannotMatch (s : system) (a : string) (input : bool) (st : specstate)
| EmptyChild (child : string) (s : system)
| EmptyInitialState (s : system)
| InconsistentChild (c : cfail) (s : system)
| ActionMismatch (a : afail) (s : system).
(** query_failures.rs:411-416 [SystemRecipeFailure]. *)
Inductive recfail := RecAction (a : afail) (s : system) | RecInconsistent (c : cfail) (s : system).

(** ** The checks *)
Section Checks.
Variable dim : nat.
Variable ext : ts -> loctree -> fed -> fed.
Variable ord : list state -> list string -> list string.
(** edbm [minimal_constraints] and the iteration order of clock declarations. *)
Variable minc : fed -> fed.
Variable cord : list (string * nat) -> list (string * nat).

(** query_failures.rs:505-517 [from_system_and_action]. *)
Definition det_failure (s : ts) (a : string) (st : state) : res detfail :=
  do x <- specific_state minc cord s st;
  Ok (mkDF (ts_name s) a (sin a (ts_inputs s)) x).
(** [check_determinism] of Model/Search.v with what it reports: the failure is made where it is found
    (local_consistency.rs:51-57) and handed on. *)
Fixpoint determinism_report (fuel : nat) (s : ts) : res (option detfail) :=
  match s with
  | TSimple _ =>
      do r <- det_search dim ext ord fuel s;
      match r with None => Ok None | Some (a, st) => do f <- det_failure s a st; Ok (Some f) end
  | TConj l r _ _ | TComp l r _ _ _ _ _ | TQuot l r _ _ _ _ =>
      do x <- determinism_report fuel l;
      match x with None => determinism_report fuel r | Some f => Ok (Some f) end
  end.

(** local_consistency.rs:91-100 and 106-116 with the failures; one of an output is dropped. *)
Definition report := (option cfail * list state)%type.
Definition input_report (s : ts) (rec : state -> list state -> res report) (st : state) (t : transition) (passed : list state) : res (list state + report) :=
  let (ok, ns) := use_transition dim t st in
  if ok then do (r, p) <- rec (extrapolate ext s ns) passed; match r with None => Ok (inl p) | Some f => Ok (inr (Some f, p)) end
  else Ok (inl passed).
Definition output_report (s : ts) (rec : state -> list state -> res report) (st : state) (t : transition) (passed : list state) : res (list state + report) :=
  let (ok, ns) := use_transition dim t st in
  if ok then do (r, p) <- rec (extrapolate ext s ns) passed; match r with None => Ok (inr (None, p)) | Some _ => Ok (inl p) end
  else Ok (inl passed).
(** local_consistency.rs:80-125 [consistency_least_helper] with query_failures.rs:450-470. *)
Fixpoint least_report (fuel : nat) (s : ts) (st : state) (passed : list state) : res report :=
  match fuel with
  | O => NoFuel
  | S f =>
      if state_in_list dim st passed then Ok (None, passed)
      else if is_universal (s_loc st) then Ok (None, passed)
      else if is_inconsistent (s_loc st) then do x <- specific_state minc cord s st; Ok (Some (InconsistentLoc (ts_name s) x), passed)
      else
        let passed := (passed ++ [st])%list in
        do x <- loopM (each_transition dim s (input_report s (least_report f s) st) st) (ord passed (ts_inputs s)) passed;
        match x with
        | inr r => Ok r
        | inl passed =>
            if fcan_delay dim (s_zone st) then Ok (None, passed)
            else
              do y <- loopM (each_transition dim s (output_report s (least_report f s) st) st) (ord passed (ts_outputs s)) passed;
              match y with
              | inr r => Ok r
              | inl p => do x <- specific_state minc cord s st; Ok (Some (InconsistentFrom (ts_name s) x), p)
              end
        end
  end.
(** local_consistency.rs:11-20 [is_least_consistent]. *)
Definition consistent_report (fuel : nat) (s : ts) : res (option cfail) :=
  match initial_state dim s with
  | Some st => do (r, _) <- least_report fuel s (extrapolate ext s st) []; Ok r
  | None => Ok (Some (NoInitialState (ts_name s)))
  end.
(** compiled_component.rs:179-181, common.rs:111-115, quotient.rs:367-370 [check_local_consistency]. *)
Fixpoint local_report (fuel : nat) (s : ts) : res (option cfail) :=
  match s with
  | TSimple _ => consistent_report fuel s
  | TConj l r _ _ | TComp l r _ _ _ _ _ =>
      do x <- local_report fuel l;
      match x with None => local_report fuel r | Some f => Ok (Some f) end
  | TQuot t d _ _ _ _ =>
      do x <- local_report fuel d;
      match x with None => local_report fuel t | Some f => Ok (Some f) end
  end.
(** transition_system.rs:122-125 [precheck_sys_rep]. *)
Definition precheck_report (fuel : nat) (s : ts) : res (option cfail) :=
  do d <- determinism_report fuel s;
  match d with None => local_report fuel s | Some f => Ok (Some (NotDeterministic f)) end.

(** refine.rs:436-453: the actions. *)
Definition action_report (s1 s2 : ts) : option afail :=
  if negb (disjoint (ts_inputs s1) (ts_outputs s2)) then Some (not_disjoint s1 (ts_inputs s1) s2 (ts_outputs s2))
  else if negb (disjoint (ts_inputs s2) (ts_outputs s1)) then Some (not_disjoint s2 (ts_inputs s2) s1 (ts_outputs s1))
  else if negb (forallb (fun a => sin a (ts_inputs s2)) (ts_inputs s1)) then Some (not_subset s1 (ts_inputs s1) s2 (ts_inputs s2))
  else if negb (forallb (fun a => sin a (ts_outputs s1)) (ts_outputs s2)) then Some (not_subset s2 (ts_outputs s2) s1 (ts_outputs s1))
  else None.
(** refine.rs:425-454 [check_preconditions]. *)
Definition preconditions_report (fuel : nat) (s1 s2 : ts) : res (option rfail) :=
  do a <- precheck_report fuel s1;
  match a with
  | Some c => Ok (Some (InconsistentChild c (sys_refinement s1 s2)))
  | None =>
      do b <- precheck_report fuel s2;
      match b with
      | Some c => Ok (Some (InconsistentChild c (sys_refinement s1 s2)))
      | None => Ok (option_map (fun a => ActionMismatch a (sys_refinement s1 s2)) (action_report s1 s2))
      end
  end.

(** specifics.rs:306-321 [from_state_pair] with 369-376 [specific_clock_comp_map_composite] and 379-387
    [state_pair_specific_location]. *)
Definition specific_pair (s1 s2 : ts) (p : pair) : res specstate :=
  do l <- specific_location (lt_id (p_l1 p)) s1;
  do r <- specific_location (lt_id (p_l2 p)) s2;
  Ok (mkSS (SLBranch l r OpRefine) (map (map (specific_con (clock_comp_map cord s1 ++ clock_comp_map cord s2)%list)) (minc (p_zone p)))).

(** refine.rs:90-213 [check_refinement] with the constructors of query_failures.rs:205-266; [explore] is the part after
    the preconditions and has no other outcomes. *)
Definition refinement_report (pext : loctree -> loctree -> fed -> fed) (aord : pair -> list string -> list string) (fuel : nat) (s1 s2 : ts) : res (option rfail) :=
  do pre <- preconditions_report fuel s1 s2;
  match pre with
  | Some f => Ok (Some f)
  | None =>
      do o <- explore dim pext aord s1 s2 fuel;
      let sys := sys_refinement s1 s2 in
      match o with
      | RSuccess => Ok None
      | REmptyChild lf => Ok (Some (EmptyChild (if lf then ts_name s1 else ts_name s2) sys))
      | REmptyInitial => Ok (Some (EmptyInitialState sys))
      | RCannotMatch a p => do x <- specific_pair s1 s2 p; Ok (Some (CannotMatch sys a (sin a (ts_inputs s1) || sin a (ts_inputs s2)) x))
      | RCutsDelays a p => do x <- specific_pair s1 s2 p; Ok (Some (CutsDelaySolutions sys a (sin a (ts_inputs s1) || sin a (ts_inputs s2)) x))
      | RPrecheck | RNotDisjoint | RNotSubset => Panic
      end
  end.
End Checks.

(** ** Putting systems together (Model/Recipe.v and Model/Reduce.v with what they report) *)
Section Compile.
Variable least : nat -> ts -> res (option cfail).
Variable pre : nat -> ts -> res (option cfail).

(** compiled_component.rs:39-50. *)
Definition component_report (dim : nat) (c : component) (k : nat) : res (ts + recfail) :=
  if negb (disjoint (input_actions c) (output_actions c))
  then Ok (inr (RecAction (not_disjoint_io (c_name c) (input_actions c) (output_actions c)) (mkSys (c_name c) OpSimple)))
  else do cc <- compile_component dim c k; Ok (inl (TSimple cc)).
(** composition.rs:26-47. *)
Definition composition_report (l r : ts) : res (ts + recfail) :=
  if negb (disjoint (ts_outputs l) (ts_outputs r))
  then Ok (inr (RecAction (not_disjoint l (ts_outputs l) r (ts_outputs r)) (sys_composite l r OpComp)))
  else do s <- composition_new l r; Ok (inl s).
(** conjunction.rs:24-72. *)
Definition conjunction_report (dim : nat) (l r : ts) : res (ts + recfail) :=
  if negb (disjoint (ts_inputs l) (ts_outputs r))
  then Ok (inr (RecAction (not_disjoint l (ts_inputs l) r (ts_outputs r)) (sys_composite l r OpConj)))
  else if negb (disjoint (ts_outputs l) (ts_inputs r))
  then Ok (inr (RecAction (not_disjoint l (ts_outputs l) r (ts_inputs r)) (sys_composite l r OpConj)))
  else
    do s <- conjunction_new l r;
    do b <- least dim s;
    match b with None => Ok (inl s) | Some f => Ok (inr (RecInconsistent f (sys_from s))) end.
(** quotient.rs:36-52. *)
Definition quotient_report (dim : nat) (t s : ts) (q : nat) : res (ts + recfail) :=
  if negb (disjoint (ts_outputs s) (ts_inputs t))
  then Ok (inr (RecAction (not_disjoint s (ts_outputs s) t (ts_inputs t)) (sys_composite t s OpQuot)))
  else
    do a <- pre dim t;
    match a with
    | Some f => Ok (inr (RecInconsistent f (sys_composite t s OpQuot)))
    | None =>
        do b <- pre dim s;
        match b with
        | Some f => Ok (inr (RecInconsistent f (sys_composite t s OpQuot)))
        | None => do x <- quotient_new t s q; Ok (inl x)
        end
    end.

(** extract_system_rep.rs:197-224 [_compile]. *)
Fixpoint compile_at_report (dim : nat) (r : recipe) (k : nat) : res ((ts * nat) + recfail) :=
  match r with
  | RSimple c => attempt s <- component_report dim c k; Ok (inl (s, S k))
  | RComp l r =>
      attempt a <- compile_at_report dim l k;
      attempt b <- compile_at_report dim r (snd a);
      attempt s <- composition_report (fst a) (fst b);
      Ok (inl (s, snd b))
  | RConj l r =>
      attempt a <- compile_at_report dim l k;
      attempt b <- compile_at_report dim r (snd a);
      attempt s <- conjunction_report dim (fst a) (fst b);
      Ok (inl (s, snd b))
  | RQuot l r q =>
      attempt a <- compile_at_report dim l k;
      attempt b <- compile_at_report dim r (snd a);
      attempt s <- quotient_report dim (fst a) (fst b) q;
      Ok (inl (s, snd b))
  end.
Definition compile_report (dim : nat) (r : recipe) : res (ts + recfail) :=
  attempt p <- compile_at_report (dim + 1) r 0; Ok (inl (fst p)).
(** extract_system_rep.rs:68-73. *)
Definition compile_two_report (dim : nat) (l r : recipe) : res ((ts * ts) + recfail) :=
  attempt a <- compile_at_report (dim + 1) l 0;
  attempt b <- compile_at_report (dim + 1) r (snd a);
  Ok (inl (fst a, fst b)).

(** extract_system_rep.rs:361-401 [clock_reduce], 403-429 [clock_reduce_single]: compiling for the search of redundant clocks may
    fail and then ends the query; otherwise Model/Reduce.v. *)
Variable blind_least : nat -> ts -> res bool.
Variable blind_pre : nat -> ts -> res bool.
Variable redundant : nat -> ts -> res (list instr).
Definition reduce_report (l : recipe) (r : option recipe) (dim : nat) (q : option nat) : res ((recipe * option recipe * nat) + recfail) :=
  if Nat.eqb dim 0 then Ok (inl (l, r, dim))
  else match r with
  | None =>
      attempt s <- compile_report dim l;
      do x <- clock_reduce blind_least blind_pre redundant l None dim q; Ok (inl x)
  | Some r =>
      attempt s <- compile_report dim l;
      do xl <- redundant (dim + 1) s;
      attempt t <- compile_report dim r;
      do x <- clock_reduce blind_least blind_pre redundant l (Some r) dim q; Ok (inl x)
  end.
End Compile.

(** ** The reply (the messages are named after their fields in proto_conversions.rs) *)
Record pactions := mkPA { pa_actions : list string; pa_system : string; pa_input : bool }.
Record pafail := mkPAF { paf_kind : Z; paf_sets : list pactions }.
Record pstateaction := mkPSA { psa_state : option pstate; psa_action : string }.
Record pdetfail := mkPDF { pdf_system : string; pdf_state : option pstateaction }.
Inductive pcreason := PNoInitialState (n : Z) | PDeterminism (d : pdetfail) | PFailureState (s : pstate).
Record pcfail := mkPCF { pcf_system : string; pcf_failure : option pcreason }.
Inductive prreason :=
| PEmptySystem (child : string)
| PNoInitial (n : Z)
| PInconsistentChild (c : pcfail)
| PActionMismatch (a : pafail)
| PRefinementState (unmatched : Z) (st : option pstateaction).
Record prfail := mkPRF { prf_system : string; prf_failure : option prreason }.
Inductive pmreason := PModelActions (a : pafail) | PInconsistentConjunction (c : pcfail).
Record pmfail := mkPMF { pmf_system : string; pmf_failure : option pmreason }.
Inductive reply :=
| PSuccess
| PReachabilityPath (ds : list pdecision)
| PComponent (c : component)
| PReachabilityFailure (n : Z)
| PRefinementFailure (f : prfail)
| PConsistencyFailure (f : pcfail)
| PDeterminismFailure (f : pdetfail)
| PModelFailure (f : pmfail).

(** proto_conversions.rs:173-178. *)
Definition state_action_to_proto (st : specstate) (a : string) : res pstateaction :=
  do s <- state_to_proto st; Ok (mkPSA (Some s) a).
(** proto_conversions.rs:180-206. *)
Definition aset_to_proto (a : aset) : pactions := mkPA (as_actions a) (as_system a) (as_input a).
Definition afail_to_proto (f : afail) : pafail :=
  match f with
  | NotSubset a b => mkPAF 0 [aset_to_proto a; aset_to_proto b]
  | NotDisjoint a b => mkPAF 1 [aset_to_proto a; aset_to_proto b]
  end.
(** proto_conversions.rs:208-215. *)
Definition detfail_to_proto (f : detfail) : res pdetfail :=
  do x <- state_action_to_proto (df_state f) (df_action f); Ok (mkPDF (df_system f) (Some x)).
(** proto_conversions.rs:217-241. *)
Definition cfail_to_proto (f : cfail) : res pcfail :=
  match f with
  | NoInitialState s => Ok (mkPCF s (Some (PNoInitialState 0)))
  | NotDeterministic d => do x <- detfail_to_proto d; Ok (mkPCF (pdf_system x) (Some (PDeterminism x)))
  | InconsistentLoc s st | InconsistentFrom s st => do x <- state_to_proto st; Ok (mkPCF s (Some (PFailureState x)))
  end.
(** proto_conversions.rs:243-296. *)
Definition rfail_to_proto (f : rfail) : res prfail :=
  match f with
  | CutsDelaySolutions s a _ st => do x <- state_action_to_proto st a; Ok (mkPRF (sn_name s) (Some (PRefinementState 1 (Some x))))
  | CannotMatch s a _ st => do x <- state_action_to_proto st a; Ok (mkPRF (sn_name s) (Some (PRefinementState 0 (Some x))))
  | EmptyChild c s => Ok (mkPRF (sn_name s) (Some (PEmptySystem c)))
  | EmptyInitialState s => Ok (mkPRF (sn_name s) (Some (PNoInitial 0)))
  | InconsistentChild c s => do x <- cfail_to_proto c; Ok (mkPRF (sn_name s) (Some (PInconsistentChild x)))
  | ActionMismatch a s => Ok (mkPRF (sn_name s) (Some (PActionMismatch (afail_to_proto a))))
  end.
(** proto_conversions.rs:298-312. *)
Definition recfail_to_proto (f : recfail) : res pmfail :=
  match f with
  | RecAction a s => Ok (mkPMF (sn_name s) (Some (PModelActions (afail_to_proto a))))
  | RecInconsistent c s => do x <- cfail_to_proto c; Ok (mkPMF (sn_name s) (Some (PInconsistentConjunction x)))
  end.

Section Reply.
Variable ch : choices.
Variable reduce : bool.
Variable load : string -> option component.

Definition the_least_report (d : nat) (s : ts) : res (option cfail) := consistent_report d (ch_ext ch d) (ch_sord ch) (ch_minc ch d) (ch_kord ch) (ch_fuel ch) s.
Definition the_pre_report (d : nat) (s : ts) : res (option cfail) := precheck_report d (ch_ext ch d) (ch_sord ch) (ch_minc ch d) (ch_kord ch) (ch_fuel ch) s.
Definition the_reduce_report := reduce_report the_least_report the_pre_report (the_least ch) (the_pre ch) (the_redundant ch).

(** extract_system_rep.rs:48-73. *)
Definition two_systems_report (e f : sysx) : res ((ts * ts * nat) + recfail) :=
  do (l, st) <- get_system_recipe load e (0, None);
  do (r, st') <- get_system_recipe load f st;
  let '(dim, q) := st' in
  attempt p <- (if reduce then the_reduce_report l (Some r) dim q else Ok (inl (l, Some r, dim)));
  do r' <- unwrap (snd (fst p));
  attempt c <- compile_two_report the_least_report the_pre_report (snd p) (fst (fst p)) r';
  Ok (inl (c, snd p)).
(** extract_system_rep.rs:107-121, 123-135, 137-144, 152-159. *)
Definition one_system_report (e : sysx) : res ((ts * nat) + recfail) :=
  do (r, st) <- get_system_recipe load e (0, None);
  let '(dim, q) := st in
  attempt p <- (if reduce then the_reduce_report r None dim q else Ok (inl (r, None, dim)));
  attempt s <- compile_report the_least_report the_pre_report (snd p) (fst (fst p));
  Ok (inl (s, snd p)).

(** A recipe failure is the whole reply (send_query.rs:57-65). *)
Definition or_model {A} (m : res (A + recfail)) (k : A -> res reply) : res reply :=
  do x <- m;
  match x with inl a => k a | inr f => do p <- recfail_to_proto f; Ok (PModelFailure p) end.

(** send_query.rs:32-73 [handle_send_query] and 86-140, from the parsed query on; a custom error is [Err].  In a reachability
    query the system is compiled once; compiling it again in [reach_query] gives the same system. *)
Definition answer_query (q : query) : res reply :=
  match q with
  | QRefinement e f =>
      or_model (two_systems_report e f) (fun p =>
        let d := snd p + 1 in
        do o <- refinement_report d (ch_ext ch d) (ch_sord ch) (ch_minc ch d) (ch_kord ch) (ch_pext ch d (fst (fst p)) (snd (fst p))) (ch_aord ch) (ch_fuel ch) (fst (fst p)) (snd (fst p));
        match o with None => Ok PSuccess | Some x => do m <- rfail_to_proto x; Ok (PRefinementFailure m) end)
  | QReachability e from to =>
      do (r, st) <- get_system_recipe load e (0, None);
      or_model (compile_report the_least_report the_pre_report (fst st) r) (fun _ =>
        do (p, target) <- reach_query (the_least ch) (the_pre ch) load e from to;
        let '(d, s, start) := p in
        do o <- find_path d (ch_fuel ch) s (ch_xext ch d s (s_zone target)) start target;
        match o with
        | None => Ok (PReachabilityFailure 0)
        | Some ds => do ps <- mapM (write_decision (ch_minc ch d) (ch_kord ch) s) ds; Ok (PReachabilityPath ps)
        end)
  | QConsistency e =>
      or_model (one_system_report e) (fun p =>
        do o <- the_pre_report (snd p + 1) (fst p);
        match o with None => Ok PSuccess | Some x => do m <- cfail_to_proto x; Ok (PConsistencyFailure m) end)
  | QDeterminism e =>
      or_model (one_system_report e) (fun p =>
        let d := snd p + 1 in
        do o <- determinism_report d (ch_ext ch d) (ch_sord ch) (ch_minc ch d) (ch_kord ch) (ch_fuel ch) (fst p);
        match o with None => Ok PSuccess | Some x => do m <- detfail_to_proto x; Ok (PDeterminismFailure m) end)
  | QGetComponent e _ | QPrune e _ =>
      or_model (one_system_report e) (fun _ =>
        do a <- run_query ch reduce load q;
        match a with AComponent c => Ok (PComponent c) | _ => Panic (* not reached *) end)
  | QImplementation _ | QSpecification _ | QBisim _ _ => Err
  end.
End Reply.
