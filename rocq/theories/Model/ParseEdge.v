(** Guards and updates as text: src/DataReader/parse_edge.rs,
    src/DataReader/grammars/edge_grammar.pest and the encoders of
    src/ModelObjects/Expressions and src/DataReader/serialization.rs.
    Parsing runs the grammar first and builds the expression from the parse tree
    afterwards; a parser here returns what that second step does, a [res arith]. *)
From Coq Require Import List String Ascii ZArith Bool Arith.
From Verif Require Import Fed.Zone Model.Base Model.Expr Model.Guard Model.Peg.
Import ListNotations.
Local Open Scope string_scope.

(** ** Encoding *)

(** arith_expression.rs:58-79 [encode_expr]. *)
Fixpoint encode_arith (e : arith) : text :=
  match e with
  | ADifference l r => encode_arith l ++ txt "-" ++ encode_arith r
  | AAddition l r => encode_arith l ++ txt "+" ++ encode_arith r
  | AMultiplication l r => encode_arith l ++ txt "*" ++ encode_arith r
  | ADivision l r => encode_arith l ++ txt "/" ++ encode_arith r
  | AModulo l r => encode_arith l ++ txt "%" ++ encode_arith r
  | AClock _ => txt "??"
  | AVar s => txt s
  | AInt k => int_text k
  end%list.
(** bool_expression.rs:63-94 [encode_expr]. *)
Fixpoint encode_bool (b : bexpr) : text :=
  match b with
  | BAnd l r => encode_bool l ++ txt " && " ++ encode_bool r
  | BOr l r => encode_bool l ++ txt " || " ++ encode_bool r
  | BLessEQ l r => encode_arith l ++ txt "<=" ++ encode_arith r
  | BGreatEQ l r => encode_arith l ++ txt ">=" ++ encode_arith r
  | BLessT l r => encode_arith l ++ txt "<" ++ encode_arith r
  | BGreatT l r => encode_arith l ++ txt ">" ++ encode_arith r
  | BEQ l r => encode_arith l ++ txt "==" ++ encode_arith r
  | BBool true => txt "true"
  | BBool false => txt "false"
  end%list.
(** serialization.rs:368-380 [encode_opt_boolexpr]. *)
Definition encode_opt_bool (o : option bexpr) : text := match o with Some b => encode_bool b | None => [] end.
(** serialization.rs:402-429 [encode_opt_updates]. *)
Fixpoint encode_updates (us : list (string * arith)) : text :=
  match us with
  | [] => []
  | [(x, e)] => txt x ++ txt "=" ++ encode_arith e
  | (x, e) :: us' => txt x ++ txt "=" ++ encode_arith e ++ txt ", " ++ encode_updates us'
  end%list.
Definition encode_opt_updates (o : option (list (string * arith))) : text := match o with Some us => encode_updates us | None => [] end.

(** ** Arithmetic expressions *)

(** edge_grammar.pest:34-39. *)
Inductive aop := OAdd | OSub | OMul | ODiv | OMod.
Definition p_aop : parser aop := fun s =>
  match s with
  | c :: s' => if Ascii.eqb c "+" then Ok (OAdd, s') else if Ascii.eqb c "-" then Ok (OSub, s')
      else if Ascii.eqb c "*" then Ok (OMul, s') else if Ascii.eqb c "/" then Ok (ODiv, s')
      else if Ascii.eqb c "%" then Ok (OMod, s') else Err
  | [] => Err
  end.
(** parse_edge.rs:21-28: precedences (pest counts 10, 20, ...; only the order matters). *)
Definition aop_prec (o : aop) : nat := match o with OAdd | OSub => 1 | OMul | ODiv | OMod => 2 end.
(** parse_edge.rs:180-187. *)
Definition aop_mk (o : aop) : arith -> arith -> arith :=
  match o with OAdd => AAddition | OSub => ADifference | OMul => AMultiplication | ODiv => ADivision | OMod => AModulo end.

(** edge_grammar.pest:26-28, 56 [arithTerm], [term]; parse_edge.rs:170-174. *)
Definition p_term (rec : parser (res arith)) : parser (res arith) :=
  alt (fun s => do s1 <- lit "(" s; do (a, s2) <- rec (skip s1); do s3 <- lit ")" (skip s2); Ok (a, s3))
  (alt (fun s => do (k, s') <- p_int s; Ok (rmap AInt (i32_of k), s'))
       (fun s => do (n, s') <- p_name s; Ok (Ok (AVar n), s'))).
Definition p_aop_term (rec : parser (res arith)) : parser (aop * res arith) := fun s =>
  do (o, s1) <- p_aop s; do (t, s2) <- p_term rec (skip s1); Ok (o, t, s2).
(** edge_grammar.pest:24 [arithExpr]; parse_edge.rs:167-188 [parse_arith_expr]. *)
Fixpoint p_arith (fuel : nat) : parser (res arith) :=
  match fuel with
  | O => fun _ => NoFuel
  | S f => fun s =>
      do (x, s1) <- p_term (p_arith f) s;
      do (xs, s2) <- many f (p_aop_term (p_arith f)) (skip s1);
      Ok (pratt_res aop_prec aop_mk x xs, s2)
  end.
(** Every nested call works on a shorter text (Proofs/ParseFacts.v).  edge_grammar.pest:24. *)
Definition arith_text : parser (res arith) := fun s => p_arith (S (List.length s)) s.

(** ** Guards *)

(** edge_grammar.pest:41-46, in the order of the choice. *)
Inductive cop := CGe | CLe | CEq | CLt | CGt.
Definition p_cop : parser cop :=
  let l w o := fun s => do s' <- lit w s; Ok (o, s') in
  alt (l ">=" CGe) (alt (l "<=" CLe) (alt (l "==" CEq) (alt (l "<" CLt) (l ">" CGt)))).
(** parse_edge.rs:158-165. *)
Definition cop_mk (o : cop) : arith -> arith -> bexpr :=
  match o with CGe => BGreatEQ | CLe => BLessEQ | CEq => BEQ | CLt => BLessT | CGt => BGreatT end.
(** edge_grammar.pest:19 [comparison]; parse_edge.rs:149-166 [parse_comparison]. *)
Definition p_comparison : parser (res bexpr) := fun s =>
  do (l, s1) <- arith_text s;
  do (o, s2) <- p_cop (skip s1);
  do (r, s3) <- arith_text (skip s2);
  Ok ((do x <- l; do y <- r; Ok (cop_mk o x y)), s3).

Inductive bop := OAnd | OOr.
(** edge_grammar.pest:30-32. *)
Definition p_bop : parser bop :=
  alt (fun s => do s' <- lit "&&" s; Ok (OAnd, s')) (fun s => do s' <- lit "||" s; Ok (OOr, s')).
(** parse_edge.rs:21-28: [or] is declared after [and] and binds tighter. *)
Definition bop_prec (o : bop) : nat := match o with OAnd => 3 | OOr => 4 end.
Definition bop_mk (o : bop) : bexpr -> bexpr -> bexpr := match o with OAnd => BAnd | OOr => BOr end.

(** edge_grammar.pest:17, 21 [boolTerm]; parse_edge.rs:133-140. *)
Definition p_bterm (rec : parser (res bexpr)) : parser (res bexpr) :=
  alt p_comparison
  (alt (fun s => do s' <- lit "true" s; Ok (Ok (BBool true), s'))
  (alt (fun s => do s' <- lit "false" s; Ok (Ok (BBool false), s'))
       (fun s => do s1 <- lit "(" s; do (b, s2) <- rec (skip s1); do s3 <- lit ")" (skip s2); Ok (b, s3)))).
Definition p_bop_term (rec : parser (res bexpr)) : parser (bop * res bexpr) := fun s =>
  do (o, s1) <- p_bop s; do (t, s2) <- p_bterm rec (skip s1); Ok (o, t, s2).
(** edge_grammar.pest:14 [boolExpr]; parse_edge.rs:131-147 [parse_bool_expr]. *)
Fixpoint p_bool (fuel : nat) : parser (res bexpr) :=
  match fuel with
  | O => fun _ => NoFuel
  | S f => fun s =>
      do (x, s1) <- p_bterm (p_bool f) s;
      do (xs, s2) <- many f (p_bop_term (p_bool f)) (skip s1);
      Ok (pratt_res bop_prec bop_mk x xs, s2)
  end.
Definition bool_text : parser (res bexpr) := fun s => p_bool (S (List.length s)) s.

(** An optional match.  edge_grammar.pest ([?]). *)
Definition opt {A} (p : parser A) : parser (option A) := fun s =>
  match p s with Ok (a, s') => Ok (Some a, s') | Err => Ok (None, s) | Panic => Panic | NoFuel => NoFuel end.
(** edge_grammar.pest (a literal). *)
Definition p_lit (w : string) : parser unit := fun s => do s' <- lit w s; Ok (tt, s').
(** edge_grammar.pest ([EOI]). *)
Definition eoi (s : text) : res unit := match s with [] => Ok tt | _ => Err end.

(** edge_grammar.pest:1 [guard]; parse_edge.rs:76-92 [parse_guard]. *)
Definition parse_guard (s : text) : res bexpr :=
  do (b, s1) <- opt bool_text (skip s);
  do (_, s2) <- opt (p_lit ";") (skip s1);
  do _ <- eoi (skip s2);
  match b with Some r => r | None => Ok (BBool true) end.
(** serialization.rs:231-244 [decode_guard]; [decode_invariant] (262-276) panics where this
    returns an error. *)
Definition decode_guard (s : text) : res (option bexpr) :=
  match s with [] => Ok None | _ => rmap Some (parse_guard s) end.

(** ** Updates *)

(** edge_grammar.pest:9 [assignment]; parse_edge.rs:118-129 [parse_update]: the expression is
    simplified, and a failure to do so panics. *)
Definition p_assignment : parser (res (string * arith)) := fun s =>
  do (x, s1) <- p_name s;
  do (_, s2) <- alt (p_lit "=") (p_lit ":=") (skip s1);
  do (e, s3) <- arith_text (skip s2);
  Ok ((do a <- e; do a' <- expect (simplify a); Ok (x, a')), s3).
(** edge_grammar.pest:6 [assignments]. *)
Definition p_assignments : parser (list (res (string * arith))) := fun s =>
  do (a, s1) <- p_assignment s;
  do (l, s2) <- many (List.length s) (fun s => do (_, s') <- p_lit "," s; p_assignment (skip s')) (skip s1);
  do (_, s3) <- opt (p_lit ",") (skip s2);
  Ok (a :: l, s3).
(** edge_grammar.pest:3 [update]; parse_edge.rs:94-116 [parse_updates]. *)
Definition parse_updates (s : text) : res (list (string * arith)) :=
  do (us, s1) <- opt p_assignments (skip s);
  do _ <- eoi (skip s1);
  match us with Some l => mapM (fun r => r) l | None => Ok [] end.
(** serialization.rs:246-259 [decode_update]. *)
Definition decode_update (s : text) : res (option (list (string * arith))) :=
  match s with [] => Ok None | _ => rmap Some (parse_updates s) end.
