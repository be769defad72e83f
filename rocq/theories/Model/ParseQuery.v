(** Queries as text: src/DataReader/parse_queries.rs, src/DataReader/grammars/query_grammar.pest
    and the printers of src/ModelObjects/Expressions/{query,state}_expression.rs. *)
From Coq Require Import List String Ascii ZArith Bool Arith.
From Verif Require Import Model.Base Model.Peg.
Import ListNotations.
Local Open Scope string_scope.

(** ** Syntax *)

(** query_expression.rs:28-36 [SystemExpression]. *)
Inductive sysx :=
| XComp (name : string) (id : option string)
| XQuot (l r : sysx)
| XPar (l r : sysx)
| XConj (l r : sysx).
(** state_expression.rs:26-34 [ComponentVariable]. *)
Record cvar := mkVar { v_comp : string; v_id : option string; v_name : string }.
(** state_expression.rs:18-24 [OperandExpression]. *)
Inductive operand := ONum (k : Z) | OClk (x : cvar) | ODiff (l r : operand) | OSum (l r : operand).
Inductive rel := RLe | RGe | REq | RLt | RGt.
(** state_expression.rs:4-16 [StateExpression]; the five comparisons share a constructor. *)
Inductive stx :=
| SCmp (o : rel) (l r : operand)
| SAnd (l : list stx)
| SOr (l : list stx)
| SLoc (x : cvar)
| SNot (e : stx)
| SBool (b : bool).
(** query_expression.rs:5-20, 22-26 [QueryExpression], [SaveExpression]. *)
Inductive query :=
| QRefinement (l r : sysx)
| QConsistency (s : sysx)
| QReachability (s : sysx) (from : option stx) (to : stx)
| QImplementation (s : sysx)
| QDeterminism (s : sysx)
| QSpecification (s : sysx)
| QGetComponent (s : sysx) (name : option string)
| QPrune (s : sysx) (name : option string)
| QBisim (s : sysx) (name : option string).

(** ** Printing *)

(** query_expression.rs:38-59. *)
Definition id_text (id : option string) : text := match id with Some i => txt "[" ++ txt i ++ txt "]" | None => [] end%list.
(** query_expression.rs:38-59. *)
Fixpoint print_sys (e : sysx) : text :=
  match e with
  | XComp n id => txt n ++ id_text id
  | XQuot l r => txt "(" ++ print_sys l ++ txt " \\ " ++ print_sys r ++ txt ")"
  | XPar l r => txt "(" ++ print_sys l ++ txt " || " ++ print_sys r ++ txt ")"
  | XConj l r => txt "(" ++ print_sys l ++ txt " && " ++ print_sys r ++ txt ")"
  end%list.
(** query_expression.rs:61-68: the name comes first. *)
Definition print_save (s : sysx) (name : option string) : text :=
  match name with Some n => txt n ++ txt " save-as " ++ print_sys s | None => print_sys s end%list.
(** state_expression.rs:36-43. *)
Definition print_var (x : cvar) : text := (txt (v_comp x) ++ id_text (v_id x) ++ txt "." ++ txt (v_name x))%list.
(** state_expression.rs:82-93. *)
Fixpoint print_operand (o : operand) : text :=
  match o with
  | ONum k => int_text k
  | OClk x => print_var x
  | ODiff l r => print_operand l ++ txt " - " ++ print_operand r
  | OSum l r => print_operand l ++ txt " + " ++ print_operand r
  end%list.
Definition rel_text (o : rel) : text := match o with RLe => txt "<=" | RGe => txt ">=" | REq => txt "==" | RLt => txt "<" | RGt => txt ">" end.
(** [a " && " b " && " ...].  query_expression.rs, state_expression.rs: how conditions are displayed. *)
Fixpoint joined (sep : text) (l : list text) : text := match l with [] => [] | [a] => a | a :: l' => a ++ sep ++ joined sep l' end%list.
(** state_expression.rs:156-191. *)
Fixpoint print_state (e : stx) : text :=
  match e with
  | SCmp o l r => print_operand l ++ txt " " ++ rel_text o ++ txt " " ++ print_operand r
  | SAnd l => txt "(" ++ joined (txt " && ") (map print_state l) ++ txt ")"
  | SOr l => txt "(" ++ joined (txt " || ") (map print_state l) ++ txt ")"
  | SLoc x => print_var x
  | SNot e' => txt "!(" ++ print_state e' ++ txt ")"
  | SBool b => if b then txt "true" else txt "false"
  end%list.
(** query_expression.rs:70-111. *)
Definition print_query (q : query) : text :=
  match q with
  | QRefinement l r => txt "refinement: " ++ print_sys l ++ txt " <= " ++ print_sys r
  | QReachability s from to => txt "reachability: " ++ print_sys s ++ txt " @ " ++
      (match from with Some e => print_state e | None => txt "init" end) ++ txt " -> " ++ print_state to
  | QConsistency s => txt "consistency: " ++ print_sys s
  | QGetComponent s n => txt "get-component: " ++ print_save s n
  | QPrune s n => txt "prune: " ++ print_save s n
  | QBisim s n => txt "bisim-minim: " ++ print_save s n
  | QImplementation s => txt "implementation: " ++ print_sys s
  | QDeterminism s => txt "determinism: " ++ print_sys s
  | QSpecification s => txt "specification: " ++ print_sys s
  end%list.

(** ** Reading system expressions *)

(** query_grammar.pest:82 [variable_name]. *)
Definition p_qname : parser string := fun s =>
  do (n, s') <- p_name s;
  match s' with c :: _ => if Ascii.eqb c "-" then Err else Ok (n, s') | [] => Ok (n, s') end.
(** query_grammar.pest:84 [identifier]. *)
Definition not_bracket (c : ascii) : bool := negb (Ascii.eqb c "[") && negb (Ascii.eqb c "]").
Definition p_identifier : parser string := fun s =>
  match span not_bracket s with ([], _) => Err | (a, s') => Ok (string_of_list_ascii a, s') end.
(** An optional match.  query_grammar.pest ([?]). *)
Definition popt {A} (p : parser A) : parser (option A) := fun s =>
  match p s with Ok (a, s') => Ok (Some a, s') | Err => Ok (None, s) | Panic => Panic | NoFuel => NoFuel end.
(** query_grammar.pest:34 [component]. *)
Definition p_component : parser (string * option string) := fun s =>
  do (n, s1) <- p_qname s;
  do (i, s2) <- popt (fun s => do s1 <- lit "[" s; do (i, s2) <- p_identifier (skip s1); do s3 <- lit "]" (skip s2); Ok (i, s3)) (skip s1);
  Ok (n, i, s2).
(** query_grammar.pest:97-101. *)
Inductive sop := OQuot | OConj | OPar.
Definition p_sop : parser sop :=
  let l w o := fun s => do s' <- lit w s; Ok (o, s') in
  alt (alt (l "//" OQuot) (l "\\" OQuot)) (alt (l "&&" OConj) (l "||" OPar)).
(** parse_queries.rs:16-21. *)
Definition sop_prec (o : sop) : nat := match o with OQuot => 1 | OPar => 2 | OConj => 3 end.
(** parse_queries.rs:39-48. *)
Definition sop_mk (o : sop) : sysx -> sysx -> sysx := match o with OQuot => XQuot | OPar => XPar | OConj => XConj end.
(** query_grammar.pest:30-34 [term]; parse_queries.rs:28-36. *)
Definition p_sterm (rec : parser (res sysx)) : parser (res sysx) :=
  alt (fun s => do (c, s') <- p_component s; Ok (Ok (XComp (fst c) (snd c)), s'))
      (fun s => do s1 <- lit "(" s; do (a, s2) <- rec (skip s1); do s3 <- lit ")" (skip s2); Ok (a, s3)).
Definition p_sop_term (rec : parser (res sysx)) : parser (sop * res sysx) := fun s =>
  do (o, s1) <- p_sop s; do (t, s2) <- p_sterm rec (skip s1); Ok (o, t, s2).
(** query_grammar.pest:28 [expr]; parse_queries.rs:26-50 [parse_system]. *)
Fixpoint p_sys (fuel : nat) : parser (res sysx) :=
  match fuel with
  | O => fun _ => NoFuel
  | S f => fun s =>
      do (x, s1) <- p_sterm (p_sys f) s;
      do (xs, s2) <- many f (p_sop_term (p_sys f)) (skip s1);
      Ok (pratt_res sop_prec sop_mk x xs, s2)
  end.
Definition sys_text : parser (res sysx) := fun s => p_sys (S (List.length s)) s.
(** parse_queries.rs:244-253 [parse_to_system_expr]: whatever follows the expression is ignored. *)
Definition parse_to_system_expr (s : text) : res sysx := do (r, _) <- sys_text s; r.

(** ** Reading states *)

(** query_grammar.pest:71 [variable]. *)
Definition p_variable : parser cvar := fun s =>
  do (c, s1) <- p_component s;
  do s2 <- lit "." (skip s1);
  do (n, s3) <- p_qname (skip s2);
  Ok (mkVar (fst c) (snd c) n, s3).
(** query_grammar.pest:69, 74, 86 [boolTerm]; parse_queries.rs:54-55: a number that is no [i32] panics. *)
Definition p_qterm : parser (res operand) :=
  alt (fun s => do (k, s') <- p_int s; Ok (rmap ONum (i32_of k), s')) (fun s => do (x, s') <- p_variable s; Ok (Ok (OClk x), s')).
Definition p_qop : parser bool :=
  alt (fun s => do s' <- lit "-" s; Ok (false, s')) (fun s => do s' <- lit "+" s; Ok (true, s')).
Definition p_qop_term : parser (bool * res operand) := fun s =>
  do (o, s1) <- p_qop s; do (t, s2) <- p_qterm (skip s1); Ok (o, t, s2).
(** parse_queries.rs:56-77. *)
Definition operands (x : res operand) (xs : list (bool * res operand)) : res operand :=
  fold_left (fun acc p => do a <- acc; do b <- snd p; Ok (if fst p : bool then OSum a b else ODiff a b)) xs x.
(** query_grammar.pest:67 [boolDiff]. *)
Definition p_diff : parser (res operand) := fun s =>
  do (x, s1) <- p_qterm s;
  do (xs, s2) <- many (List.length s) p_qop_term (skip s1);
  Ok (operands x xs, s2).
(** query_grammar.pest:88-94 [operator]. *)
Definition p_rel : parser rel :=
  let l w o := fun s => do s' <- lit w s; Ok (o, s') in
  alt (l "<=" RLe) (alt (l ">=" RGe) (alt (l "<" RLt) (alt (l ">" RGt) (l "==" REq)))).

(** The parse tree below [state]: the pairs for [andExpr], [orExpr], [notExpr], [compExpr],
    [locExpr], [bool_true] and [bool_false]; the other rules are silent.  parse_queries.rs:82-127. *)
Inductive pair :=
| PAnd (l : list pair)
| POr (l : list pair)
| PNot (p : pair)
| PComp (o : rel) (l r : res operand)
| PLoc (x : cvar)
| PBool (b : bool).

(** query_grammar.pest:57-65 [subExpr] and its alternatives, in order. *)
Definition p_sub (rec : parser pair) : parser pair :=
  alt (fun s => do s1 <- lit "(" s; do (a, s2) <- rec (skip s1); do s3 <- lit ")" (skip s2); Ok (a, s3))
  (alt (fun s => do s1 <- alt (fun s => do s' <- lit "not" s; Ok (tt, s')) (fun s => do s' <- lit "!" s; Ok (tt, s')) s;
                 do (a, s2) <- rec (skip (snd s1)); Ok (PNot a, s2))
  (alt (fun s => do (l, s1) <- p_diff s; do (o, s2) <- p_rel (skip s1); do (r, s3) <- p_diff (skip s2); Ok (PComp o l r, s3))
  (alt (fun s => do (x, s') <- p_variable s; Ok (PLoc x, s'))
  (alt (fun s => do s' <- lit "true" s; Ok (PBool true, s'))
       (fun s => do s' <- lit "false" s; Ok (PBool false, s')))))).
Definition p_word (w1 w2 : string) : parser unit :=
  alt (fun s => do s' <- lit w1 s; Ok (tt, s')) (fun s => do s' <- lit w2 s; Ok (tt, s')).
(** query_grammar.pest:55 [orExpr]. *)
Definition p_or (f : nat) (rec : parser pair) : parser pair := fun s =>
  do (x, s1) <- p_sub rec s;
  do (xs, s2) <- many f (fun s => do (_, s1) <- p_word "||" "or" s; p_sub rec (skip s1)) (skip s1);
  Ok (POr (x :: xs), s2).
(** query_grammar.pest:53 [andExpr]. *)
Fixpoint p_and (fuel : nat) : parser pair :=
  match fuel with
  | O => fun _ => NoFuel
  | S f => fun s =>
      do (x, s1) <- p_or f (p_and f) s;
      do (xs, s2) <- many f (fun s => do (_, s1) <- p_word "&&" "and" s; p_or f (p_and f) (skip s1)) (skip s1);
      Ok (PAnd (x :: xs), s2)
  end.
Definition state_text : parser pair := fun s => p_and (S (List.length s)) s.

(** parse_queries.rs:82-127 [parse_state].  The function runs the operator-precedence parser on the children
    of the pair it is given; none of them is an operator, so that parser calls [primary] on the
    only child, and panics if there is no child or more than one (pest/src/pratt_parser.rs:
    "Pratt parsing expects non-empty Pairs", "Expected postfix or infix expression"). *)
Definition only_child {A} (primary : pair -> res A) (p : pair) : res A :=
  match p with
  | PAnd [x] | POr [x] | PNot x => primary x
  | _ => Panic
  end.
(** [inner.map(parse_state).collect()].  parse_queries.rs:82-127. *)
Definition each {A} (f : pair -> res A) : list pair -> res (list A) :=
  fix go l := match l with [] => Ok [] | x :: l' => do e <- f x; do es <- go l'; Ok (e :: es) end.
(** parse_queries.rs:84-125, the closure given to [map_primary].  [only_child primary] is
    [parse_state]; the children of comparisons, locations and constants are
    pairs for which the closure panics. *)
Fixpoint primary (p : pair) : res stx :=
  match p with
  | PAnd l => match l with [x] => only_child primary x | _ => do es <- each (fun x => only_child primary x) l; Ok (SAnd es) end
  | POr l => match l with [x] => only_child primary x | _ => do es <- each (fun x => only_child primary x) l; Ok (SOr es) end
  | PNot x => do e <- only_child primary x; Ok (SNot e)
  | PComp o l r => do a <- l; do b <- r; Ok (SCmp o a b)
  | PLoc x => Ok (SLoc x)
  | PBool b => Ok (SBool b)
  end.
(** parse_queries.rs:255-264 [parse_to_state_expr]; the [state] pair has the [andExpr] as its only child. *)
Definition parse_to_state_expr (s : text) : res stx := do (p, _) <- state_text s; primary p.

(** ** Reading queries *)

(** query_grammar.pest:8-26, in the order of [query]; parse_queries.rs:143-204 [parse_query]. *)
Definition p_one (w : string) (mk : sysx -> query) : parser (res query) := fun s =>
  do s1 <- lit w s; do (e, s2) <- sys_text (skip s1); Ok ((do x <- e; Ok (mk x)), s2).
Definition p_refinement : parser (res query) := fun s =>
  do s1 <- lit "refinement:" s; do (l, s2) <- sys_text (skip s1); do s3 <- lit "<=" (skip s2); do (r, s4) <- sys_text (skip s3);
  Ok ((do x <- l; do y <- r; Ok (QRefinement x y)), s4).
Definition p_reachability : parser (res query) := fun s =>
  do s1 <- lit "reachability:" s; do (e, s2) <- sys_text (skip s1); do s3 <- lit "@" (skip s2);
  do (from, s4) <- alt (fun s => do (p, s') <- state_text s; Ok (Some p, s')) (fun s => do s' <- lit "init" s; Ok (None, s')) (skip s3);
  do s5 <- lit "->" (skip s4); do (to, s6) <- state_text (skip s5);
  Ok ((do x <- e; do t <- primary to; do f <- (match from with Some p => rmap Some (primary p) | None => Ok None end); Ok (QReachability x f t)), s6).
Definition p_save (w : string) (mk : sysx -> option string -> query) : parser (res query) := fun s =>
  do s1 <- lit w s; do (e, s2) <- sys_text (skip s1);
  do (n, s3) <- popt (fun s => do s' <- lit "save-as" s; p_qname (skip s')) (skip s2);
  Ok ((do x <- e; Ok (mk x n)), s3).
Definition p_query : parser (res query) :=
  alt p_refinement (alt (p_one "consistency:" QConsistency) (alt p_reachability (alt (p_one "implementation:" QImplementation)
  (alt (p_one "determinism:" QDeterminism) (alt (p_one "specification:" QSpecification) (alt (p_save "get-component:" QGetComponent)
  (alt (p_save "prune:" QPrune) (p_save "bisim-minim:" QBisim)))))))).
(** query_grammar.pest:1-3 [queries]; parse_queries.rs:206-214, 233-242 [parse_to_expression_tree]. *)
Definition parse_queries (s : text) : res (list query) :=
  do (q, s1) <- p_query (skip s);
  do (qs, s2) <- many (List.length s) (fun s => do s1 <- lit ";" s; p_query (skip s1)) (skip s1);
  match skip s2 with [] => mapM (fun r => r) (q :: qs) | _ => Err end.
