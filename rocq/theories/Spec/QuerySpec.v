(** Which queries have a text that can be read. *)
From Coq Require Import List String Ascii ZArith Bool Arith.
From Verif Require Import Model.Base Model.Peg Model.ParseQuery Spec.TextSpec.
Import ListNotations.
Local Open Scope string_scope.

(** The text between the brackets of a component: not empty, without brackets, not starting with white space. *)
Definition good_id (i : string) : Prop :=
  exists c a, list_ascii_of_string i = c :: a /\ (forall x, In x (c :: a) -> x <> "["%char /\ x <> "]"%char) /\
    is_blank c = false /\ (c = ascii_of_nat 13 -> forall b, a <> ascii_of_nat 10 :: b).
Definition good_opt_id (o : option string) : Prop := match o with Some i => good_id i | None => True end.

(** Every name and every bracketed text in the expression is proper. *)
Fixpoint sys_legible (e : sysx) : Prop :=
  match e with
  | XComp n id => good_name n /\ good_opt_id id
  | XQuot l r | XPar l r | XConj l r => sys_legible l /\ sys_legible r
  end.

(** States: comparisons between sums written from left to right, locations and constants,
    and conjunctions and disjunctions of at least two of them.  A component must not be called "not...". *)
Definition no_not (n : string) : Prop := forall m, n <> "not" ++ m.
Definition var_legible (x : cvar) : Prop := good_name (v_comp x) /\ no_not (v_comp x) /\ good_opt_id (v_id x) /\ good_name (v_name x).
Definition term_legible (o : operand) : Prop :=
  match o with ONum k => (0 <= k <= 2147483647)%Z | OClk x => var_legible x | _ => False end.
Fixpoint operand_legible (o : operand) : Prop :=
  match o with
  | ODiff l r | OSum l r => operand_legible l /\ term_legible r
  | _ => term_legible o
  end.
Fixpoint state_legible (e : stx) : Prop :=
  match e with
  | SCmp _ l r => operand_legible l /\ operand_legible r
  | SAnd l | SOr l => 2 <= List.length l /\ fold_right (fun x P => state_legible x /\ P) True l
  | SLoc x => var_legible x
  | SBool _ => True
  | SNot _ => False
  end.
(** No disjunction occurs. *)
Fixpoint no_or (e : stx) : bool :=
  match e with SAnd l => forallb no_or l | SOr _ => false | SNot e' => no_or e' | _ => true end.

(** Queries without "save-as". *)
Definition query_legible (q : query) : Prop :=
  match q with
  | QRefinement l r => sys_legible l /\ sys_legible r
  | QConsistency s | QImplementation s | QDeterminism s | QSpecification s => sys_legible s
  | QGetComponent s n | QPrune s n | QBisim s n => sys_legible s /\ n = None
  | QReachability s from to => sys_legible s /\ (forall f, from = Some f -> state_legible f /\ no_or f = true) /\ state_legible to /\ no_or to = true
  end.

(** A system expression with as few parentheses as possible: conjunction binds tighter than
    composition, composition tighter than quotient, and all three associate to the left. *)
Definition sys_rank (e : sysx) : nat := match e with XQuot _ _ => 1 | XPar _ _ => 2 | XConj _ _ => 3 | XComp _ _ => 4 end.
Definition parens (b : bool) (t : text) : text := (if b then txt "(" ++ t ++ txt ")" else t)%list.
Fixpoint print_min (e : sysx) : text :=
  let node l (o : text) r k := (parens (Nat.ltb (sys_rank l) k) (print_min l) ++ o ++ parens (Nat.leb (sys_rank r) k) (print_min r))%list in
  match e with
  | XComp _ _ => print_sys e
  | XQuot l r => node l (txt " \\ ") r 1
  | XPar l r => node l (txt " || ") r 2
  | XConj l r => node l (txt " && ") r 3
  end.
