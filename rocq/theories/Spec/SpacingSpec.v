(** How a user may write names, guards, updates and queries: which characters a name has, what white space is and where it may be. *)
From Coq Require Import List String Ascii ZArith Bool Arith.
From Verif Require Import Model.Base Model.Expr Model.Peg Model.ParseEdge Model.ParseQuery Spec.TextSpec Spec.QuerySpec.
Import ListNotations.
Local Open Scope list_scope.

(** Letters, digits and underscores. *)
Definition letters : text := txt "ABCDEFGHIJKLMNOPQRSTUVWXYZabcdefghijklmnopqrstuvwxyz".
Definition later_characters : text := letters ++ txt "0123456789_".
Definition a_name (n : string) : Prop := exists c a, txt n = c :: a /\ In c letters /\ forall x, In x a -> In x later_characters.

(** White space: spaces, tabulators, line feeds, and carriage returns before line feeds. *)
Inductive blank : text -> Prop :=
| blank_end : blank []
| blank_space w : blank w -> blank (" "%char :: w)
| blank_tab w : blank w -> blank (ascii_of_nat 9 :: w)
| blank_newline w : blank w -> blank (ascii_of_nat 10 :: w)
| blank_crlf w : blank w -> blank (ascii_of_nat 13 :: ascii_of_nat 10 :: w).

(** An update as written: the name, "=" or ":=", the expression, with white space around each of them. *)
Record put_update := mkPU { pu_0 : text; pu_name : string; pu_1 : text; pu_colon : bool; pu_2 : text; pu_expr : arith; pu_3 : text }.
Definition pu_blank (u : put_update) : Prop := blank (pu_0 u) /\ blank (pu_1 u) /\ blank (pu_2 u) /\ blank (pu_3 u).
Definition pu_text (u : put_update) : text :=
  pu_0 u ++ txt (pu_name u) ++ pu_1 u ++ (if pu_colon u then txt ":=" else txt "=") ++ pu_2 u ++ encode_arith (pu_expr u) ++ pu_3 u.
Definition pu_means (u : put_update) : string * arith := (pu_name u, pu_expr u).
(** Updates are separated by commas; the last one may be followed by one. *)
Definition updates_put (u : put_update) (us : list put_update) (comma : option text) : text :=
  pu_text u ++ flat_map (fun x => txt "," ++ pu_text x) us ++ match comma with Some w => txt "," ++ w | None => [] end.

(** A query as written, with white space around it; queries are separated by semicolons. *)
Record put_query := mkPQ { pq_0 : text; pq_query : query; pq_1 : text }.
Definition pq_blank (q : put_query) : Prop := blank (pq_0 q) /\ blank (pq_1 q).
Definition pq_text (q : put_query) : text := pq_0 q ++ print_query (pq_query q) ++ pq_1 q.
Definition queries_put (q : put_query) (qs : list put_query) : text := pq_text q ++ flat_map (fun x => txt ";" ++ pq_text x) qs.

(** The ways to write a system expression: "&&" binds tighter than "||" and that tighter than the quotient, which is written "//" or "\\";
    operators of the same kind are grouped to the left, parentheses may be put around every part, and white space around every operator and
    inside every pair of parentheses.  The number says how tight the outermost operator has to bind. *)
Definition quotient_signs : list text := [txt "//"; txt "\\"].
Inductive written : nat -> text -> sysx -> Prop :=
| wr_component k n id : written k (txt n ++ id_text id) (XComp n id)
| wr_parentheses k w t w' e : blank w -> blank w' -> written 1 t e -> written k (txt "(" ++ w ++ t ++ w' ++ txt ")") e
| wr_quotient k tl w o w' tr l r : k <= 1 -> blank w -> In o quotient_signs -> blank w' -> written 1 tl l -> written 2 tr r -> written k (tl ++ w ++ o ++ w' ++ tr) (XQuot l r)
| wr_composition k tl w w' tr l r : k <= 2 -> blank w -> blank w' -> written 2 tl l -> written 3 tr r -> written k (tl ++ w ++ txt "||" ++ w' ++ tr) (XPar l r)
| wr_conjunction k tl w w' tr l r : k <= 3 -> blank w -> blank w' -> written 3 tl l -> written 4 tr r -> written k (tl ++ w ++ txt "&&" ++ w' ++ tr) (XConj l r).

(** The ways to write the states of a reachability query.  Numbers and clocks are added and subtracted from left to right; there must be some white
    space before a minus, because a dash may not follow a name. *)
Inductive operand_written : text -> operand -> Prop :=
| ow_number k : (0 <= k <= 2147483647)%Z -> operand_written (int_text k) (ONum k)
| ow_clock x : var_legible x -> operand_written (print_var x) (OClk x)
| ow_sum tl w w' r l : operand_written tl l -> blank w -> blank w' -> term_legible r -> operand_written (tl ++ w ++ txt "+" ++ w' ++ print_operand r) (OSum l r)
| ow_difference tl w w' r l : operand_written tl l -> blank w -> w <> [] -> blank w' -> term_legible r -> operand_written (tl ++ w ++ txt "-" ++ w' ++ print_operand r) (ODiff l r).
(** A condition is a list of conditions that are all to hold: comparisons, locations, "true", "false" and conditions in parentheses, with "&&" or "and"
    between them and white space around each; there must be some before "and". *)
Definition relation_signs : list (string * rel) := [("<="%string, RLe); (">="%string, RGe); ("=="%string, REq); ("<"%string, RLt); (">"%string, RGt)].
Definition all_of (l : list stx) : stx := match l with [e] => e | _ => SAnd l end.
Inductive condition_written : text -> list stx -> Prop :=
| cw_comparison c o tl w w' tr l r : In (c, o) relation_signs -> blank w -> blank w' -> operand_written tl l -> operand_written tr r ->
    condition_written (tl ++ w ++ txt c ++ w' ++ tr) [SCmp o l r]
| cw_location x : var_legible x -> condition_written (print_var x) [SLoc x]
| cw_true : condition_written (txt "true") [SBool true]
| cw_false : condition_written (txt "false") [SBool false]
| cw_parentheses w t w' l : blank w -> blank w' -> condition_written t l -> condition_written (txt "(" ++ w ++ t ++ w' ++ txt ")") [all_of l]
| cw_and tl w c w' tr l e : blank w -> blank w' -> c = "&&"%string \/ (c = "and"%string /\ w <> []) -> condition_written tl l -> condition_written tr [e] ->
    condition_written (tl ++ w ++ txt c ++ w' ++ tr) (l ++ [e]).
Inductive start_written : text -> option stx -> Prop :=
| sw_initial : start_written (txt "init") None
| sw_condition t l : condition_written t l -> start_written t (Some (all_of l)).

(** The ways to write a query: the word for its kind, the systems, and for those that create a component possibly "save-as" and a name.
    There must be some white space before "save-as" and before "->", because a dash may not follow a name. *)
Inductive query_written : text -> query -> Prop :=
| qw_refinement w tl w1 w2 tr l r : blank w -> blank w1 -> blank w2 -> written 1 tl l -> written 1 tr r -> sys_legible l -> sys_legible r ->
    query_written (txt "refinement:" ++ w ++ tl ++ w1 ++ txt "<=" ++ w2 ++ tr) (QRefinement l r)
| qw_one k mk w t e : In (k, mk) [("consistency:"%string, QConsistency); ("implementation:"%string, QImplementation); ("determinism:"%string, QDeterminism); ("specification:"%string, QSpecification)] ->
    blank w -> written 1 t e -> sys_legible e -> query_written (txt k ++ w ++ t) (mk e)
| qw_unnamed k mk w t e : In (k, mk) [("get-component:"%string, QGetComponent); ("prune:"%string, QPrune); ("bisim-minim:"%string, QBisim)] ->
    blank w -> written 1 t e -> sys_legible e -> query_written (txt k ++ w ++ t) (mk e None)
| qw_named k mk w t w1 w2 n e : In (k, mk) [("get-component:"%string, QGetComponent); ("prune:"%string, QPrune); ("bisim-minim:"%string, QBisim)] ->
    blank w -> written 1 t e -> sys_legible e -> blank w1 -> w1 <> [] -> blank w2 -> a_name n -> query_written (txt k ++ w ++ t ++ w1 ++ txt "save-as" ++ w2 ++ txt n) (mk e (Some n))
| qw_reachability w t w1 w2 tf from w3 w4 tt l e : blank w -> blank w1 -> blank w2 -> blank w3 -> w3 <> [] -> blank w4 -> written 1 t e -> sys_legible e ->
    start_written tf from -> condition_written tt l ->
    query_written (txt "reachability:" ++ w ++ t ++ w1 ++ txt "@" ++ w2 ++ tf ++ w3 ++ txt "->" ++ w4 ++ tt) (QReachability e from (all_of l)).
(** Queries are separated by semicolons, with white space around each. *)
Record written_query := mkWQ { wq_0 : text; wq_text : text; wq_1 : text; wq_query : query }.
Definition wq_ok (q : written_query) : Prop := blank (wq_0 q) /\ query_written (wq_text q) (wq_query q) /\ blank (wq_1 q).
Definition wq_all (q : written_query) : text := wq_0 q ++ wq_text q ++ wq_1 q.
Definition queries_written (q : written_query) (qs : list written_query) : text := wq_all q ++ flat_map (fun x => txt ";" ++ wq_all x) qs.
