(** Which expressions are written to text in a way the reader understands. *)
From Coq Require Import List String Ascii ZArith Bool Arith.
From Verif Require Import Fed.Zone Model.Base Model.Expr Model.Peg.
Import ListNotations.

(** A name: a letter followed by letters, digits and underscores. *)
Definition good_name (n : string) : Prop :=
  exists c a, list_ascii_of_string n = c :: a /\ is_alpha c = true /\ forall x, In x a -> is_name_char x = true.

(** Names are names, numbers are non-negative [i32]s, and no clock is without a name. *)
Fixpoint a_legible (e : arith) : Prop :=
  match e with
  | ADifference l r | AAddition l r | AMultiplication l r | ADivision l r | AModulo l r => a_legible l /\ a_legible r
  | AClock _ => False
  | AVar s => good_name s
  | AInt k => (0 <= k <= 2147483647)%Z
  end.
Fixpoint b_legible (b : bexpr) : Prop :=
  match b with
  | BAnd l r | BOr l r => b_legible l /\ b_legible r
  | BLessEQ l r | BGreatEQ l r | BLessT l r | BGreatT l r | BEQ l r => a_legible l /\ a_legible r
  | BBool _ => True
  end.

(** How tight the outermost operator binds: for the reader, products over sums, and "or" over "and". *)
Definition a_rank (e : arith) : nat :=
  match e with AAddition _ _ | ADifference _ _ => 1 | AMultiplication _ _ | ADivision _ _ | AModulo _ _ => 2 | _ => 3 end.
Definition b_rank (b : bexpr) : nat := match b with BAnd _ _ => 1 | BOr _ _ => 2 | _ => 3 end.

(** No parentheses are needed anywhere: operands bind at least as tight as the operator,
    right operands tighter. *)
Fixpoint a_plain (e : arith) : Prop :=
  match e with
  | ADifference l r | AAddition l r => 1 <= a_rank l /\ 1 < a_rank r /\ a_plain l /\ a_plain r
  | AMultiplication l r | ADivision l r | AModulo l r => 2 <= a_rank l /\ 2 < a_rank r /\ a_plain l /\ a_plain r
  | _ => True
  end.
Fixpoint b_plain (b : bexpr) : Prop :=
  match b with
  | BAnd l r => 1 <= b_rank l /\ 1 < b_rank r /\ b_plain l /\ b_plain r
  | BOr l r => 2 <= b_rank l /\ 2 < b_rank r /\ b_plain l /\ b_plain r
  | BLessEQ l r | BGreatEQ l r | BLessT l r | BGreatT l r | BEQ l r => a_plain l /\ a_plain r
  | BBool _ => True
  end.

(** The sides of all comparisons need no parentheses. *)
Fixpoint sides_plain (b : bexpr) : Prop :=
  match b with
  | BAnd l r | BOr l r => sides_plain l /\ sides_plain r
  | BLessEQ l r | BGreatEQ l r | BLessT l r | BGreatT l r | BEQ l r => a_plain l /\ a_plain r
  | BBool _ => True
  end.
(** "and" only, "or" only. *)
Fixpoint and_only (b : bexpr) : bool := match b with BAnd l r => and_only l && and_only r | BOr _ _ => false | _ => true end.
Fixpoint or_only (b : bexpr) : bool := match b with BOr l r => or_only l && or_only r | BAnd _ _ => false | _ => true end.

(** A set of clock valuations that can be saved: the clocks have proper names, the printed
    constants (negated in lower bounds) are non-negative [i32]s, and the zones are a single
    one, or of one constraint each. *)
Definition savable (nm : naming) (f : fed) : Prop :=
  (forall i n, nm i = Some n -> good_name n) /\
  (forall z c, In z f -> In c z -> let k := if Nat.eqb (ci c) 0 then (- cc c)%Z else cc c in (0 <= k <= 2147483647)%Z) /\
  (List.length f <= 1 \/ forall z, In z f -> List.length z <= 1).

(** An update that can be saved: proper names, no parentheses needed and no constant
    subexpression left to fold. *)
Definition update_savable (u : string * arith) : Prop :=
  good_name (fst u) /\ a_legible (snd u) /\ a_plain (snd u) /\ simplify (snd u) = Ok (snd u).
