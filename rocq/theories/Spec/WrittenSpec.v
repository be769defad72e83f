(** How a user may write arithmetic expressions and guards. *)
From Coq Require Import List String Ascii ZArith.
From Verif Require Import Model.Base Model.Expr Model.Peg Spec.SpacingSpec.
Import ListNotations.
Local Open Scope list_scope.

(** Arithmetic: numbers that fit 32 bits, names, parentheses around any part; "*", "/" and "%" bind tighter than "+" and "-", and operators that bind
    equally tight are grouped to the left.  White space may be around every operator and inside every pair of parentheses.  The number says how tight
    the outermost operator has to bind. *)
Definition arith_signs : list (nat * string * (arith -> arith -> arith)) :=
  [(1, "+"%string, AAddition); (1, "-"%string, ADifference); (2, "*"%string, AMultiplication); (2, "/"%string, ADivision); (2, "%"%string, AModulo)].
Inductive arith_written : nat -> text -> arith -> Prop :=
| aw_number k n : (0 <= n <= 2147483647)%Z -> arith_written k (int_text n) (AInt n)
| aw_name k x : a_name x -> arith_written k (txt x) (AVar x)
| aw_parentheses k w t w' e : blank w -> blank w' -> arith_written 1 t e -> arith_written k (txt "(" ++ w ++ t ++ w' ++ txt ")") e
| aw_operator k p c mk tl w w' tr l r : In (p, c, mk) arith_signs -> k <= p -> blank w -> blank w' -> arith_written p tl l -> arith_written (S p) tr r ->
    arith_written k (tl ++ w ++ txt c ++ w' ++ tr) (mk l r).

(** Guards: comparisons, "true", "false", parentheses around any part; "||" binds tighter than "&&" (the reader has it so), both are grouped to the left. *)
Definition comparison_signs : list (string * (arith -> arith -> bexpr)) :=
  [(">="%string, BGreatEQ); ("<="%string, BLessEQ); ("=="%string, BEQ); ("<"%string, BLessT); (">"%string, BGreatT)].
Definition guard_signs : list (nat * string * (bexpr -> bexpr -> bexpr)) := [(1, "&&"%string, BAnd); (2, "||"%string, BOr)].
Inductive guard_written : nat -> text -> bexpr -> Prop :=
| gw_comparison k c mk tl w w' tr l r : In (c, mk) comparison_signs -> blank w -> blank w' -> arith_written 1 tl l -> arith_written 1 tr r ->
    guard_written k (tl ++ w ++ txt c ++ w' ++ tr) (mk l r)
| gw_true k : guard_written k (txt "true") (BBool true)
| gw_false k : guard_written k (txt "false") (BBool false)
| gw_parentheses k w t w' g : blank w -> blank w' -> guard_written 1 t g -> guard_written k (txt "(" ++ w ++ t ++ w' ++ txt ")") g
| gw_operator k p c mk tl w w' tr l r : In (p, c, mk) guard_signs -> k <= p -> blank w -> blank w' -> guard_written p tl l -> guard_written (S p) tr r ->
    guard_written k (tl ++ w ++ txt c ++ w' ++ tr) (mk l r).

(** An update as written: the name, "=" or ":=", the expression, with white space around each of them. *)
Record written_update := mkWU { wu_0 : text; wu_name : string; wu_1 : text; wu_colon : bool; wu_2 : text; wu_text : text; wu_3 : text; wu_expr : arith }.
Definition wu_ok (u : written_update) : Prop := blank (wu_0 u) /\ a_name (wu_name u) /\ blank (wu_1 u) /\ blank (wu_2 u) /\ arith_written 1 (wu_text u) (wu_expr u) /\ blank (wu_3 u).
Definition wu_all (u : written_update) : text :=
  wu_0 u ++ txt (wu_name u) ++ wu_1 u ++ (if wu_colon u then txt ":=" else txt "=") ++ wu_2 u ++ wu_text u ++ wu_3 u.
(** Updates are separated by commas; the last one may be followed by one. *)
Definition updates_written (u : written_update) (us : list written_update) (comma : option text) : text :=
  wu_all u ++ flat_map (fun x => txt "," ++ wu_all x) us ++ match comma with Some w => txt "," ++ w | None => [] end.
