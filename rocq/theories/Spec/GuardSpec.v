(** Independent meaning of guards: what a user reads in the model file. *)
From Coq Require Import List String ZArith QArith Bool Arith.
From Verif Require Import Fed.Zone Model.Base Model.Expr.
Import ListNotations.
Local Open Scope Q_scope.

(** Value of an expression that mentions integers and constants only.  Undefined when a
    clock or an unknown name occurs or when a divisor is zero. *)
Fixpoint ieval (d : decls) (e : arith) : option Z :=
  let bin (f : Z -> Z -> option Z) a b :=
    match a, b with Some x, Some y => f x y | _, _ => None end in
  match e with
  | AInt k => Some k
  | AClock _ => None
  | AVar s => match assoc s (d_clocks d) with Some _ => None | None => assoc s (d_ints d) end
  | AAddition l r => bin (fun x y => Some (x + y)%Z) (ieval d l) (ieval d r)
  | ADifference l r => bin (fun x y => Some (x - y)%Z) (ieval d l) (ieval d r)
  | AMultiplication l r => bin (fun x y => Some (x * y)%Z) (ieval d l) (ieval d r)
  | ADivision l r => bin (fun x y => if Z.eqb y 0 then None else Some (Z.quot x y)) (ieval d l) (ieval d r)
  | AModulo l r => bin (fun x y => if Z.eqb y 0 then None else Some (Z.rem x y)) (ieval d l) (ieval d r)
  end.

(** Value of an arithmetic expression in a clock valuation.  Division and modulo are
    integer operations and only defined on clock-free operands. *)
Fixpoint aev (d : decls) (v : val) (e : arith) : option Q :=
  let bin (f : Q -> Q -> Q) a b :=
    match a, b with Some x, Some y => Some (f x y) | _, _ => None end in
  match e with
  | AInt k => Some (inject_Z k)
  | AClock i => Some (v i)
  | AVar s => match assoc s (d_clocks d) with
              | Some i => Some (v i)
              | None => match assoc s (d_ints d) with Some k => Some (inject_Z k) | None => None end
              end
  | AAddition l r => bin Qplus (aev d v l) (aev d v r)
  | ADifference l r => bin Qminus (aev d v l) (aev d v r)
  | AMultiplication l r => bin Qmult (aev d v l) (aev d v r)
  | ADivision _ _ | AModulo _ _ =>
      match ieval d e with Some k => Some (inject_Z k) | None => None end
  end.

(** [cmp R l r]: both sides have a value and the values are related. *)
Definition cmp (d : decls) (v : val) (R : Q -> Q -> Prop) (l r : arith) : Prop :=
  exists a b, aev d v l = Some a /\ aev d v r = Some b /\ R a b.

(** A valuation satisfies a guard. *)
Fixpoint bsat (d : decls) (v : val) (g : bexpr) : Prop :=
  match g with
  | BAnd l r => bsat d v l /\ bsat d v r
  | BOr l r => bsat d v l \/ bsat d v r
  | BLessEQ l r => cmp d v Qle l r
  | BGreatEQ l r => cmp d v (fun a b => b <= a) l r
  | BLessT l r => cmp d v Qlt l r
  | BGreatT l r => cmp d v (fun a b => b < a) l r
  | BEQ l r => cmp d v Qeq l r
  | BBool b => b = true
  end.

(** ** The fragment of arithmetic on which the constraint translation is right *)

Definition is_const (d : decls) (e : arith) : bool :=
  match ieval d e with Some _ => true | None => false end.

Definition is_clk (d : decls) (e : arith) : bool :=
  match e with
  | AClock _ => true
  | AVar s => match assoc s (d_clocks d) with Some _ => true | None => false end
  | _ => false
  end.

(** Sums of clocks and constant expressions, arbitrarily nested. *)
Fixpoint pure_sum (d : decls) (e : arith) : bool :=
  is_const d e || is_clk d e ||
  match e with AAddition l r => pure_sum d l && pure_sum d r | _ => false end.

(** The same with summands "constant - clock". *)
Fixpoint lin_sum (d : decls) (e : arith) : bool :=
  is_const d e || is_clk d e ||
  match e with
  | AAddition l r => lin_sum d l && lin_sum d r
  | ADifference l r => is_const d l && is_clk d r
  | _ => false
  end.

(** One side of a comparison: a linear sum, "clock - sum", or "linear sum - constant". *)
Definition simple_side (d : decls) (e : arith) : bool :=
  lin_sum d e ||
  match e with
  | ADifference l r => (is_clk d l && pure_sum d r) || (lin_sum d l && is_const d r)
  | _ => false
  end.

(** A guard all of whose comparisons have simple sides. *)
Fixpoint simple_guard (d : decls) (g : bexpr) : bool :=
  match g with
  | BAnd l r | BOr l r => simple_guard d l && simple_guard d r
  | BLessEQ l r | BGreatEQ l r | BLessT l r | BGreatT l r | BEQ l r =>
      simple_side d l && simple_side d r
  | BBool _ => true
  end.

(** Comparisons of the shapes the tool is documented to support: a clock against a
    constant, or two clocks (or a difference of clocks) against a constant offset. *)
Definition is_diff (d : decls) (e : arith) : bool :=
  match e with ADifference l r => is_clk d l && is_clk d r | _ => false end.
Definition basic_cmp (d : decls) (l r : arith) : bool :=
  (is_clk d l && is_const d r) || (is_const d l && is_clk d r) ||
  (is_clk d l && is_clk d r) ||
  (is_diff d l && is_const d r) || (is_const d l && is_diff d r).
Fixpoint basic_guard (d : decls) (g : bexpr) : bool :=
  match g with
  | BAnd l r | BOr l r => basic_guard d l && basic_guard d r
  | BLessEQ l r | BGreatEQ l r | BLessT l r | BGreatT l r | BEQ l r => basic_cmp d l r
  | BBool _ => true
  end.

(** ** Fragments for the simplifier itself (names already replaced) *)

(** Sums of clocks and integer literals. *)
Fixpoint plain_sum (e : arith) : bool :=
  match e with
  | AInt _ | AClock _ => true
  | AAddition l r => plain_sum l && plain_sum r
  | _ => false
  end.
(** The same with summands "literal - clock". *)
Fixpoint plain_lin (e : arith) : bool :=
  match e with
  | AInt _ | AClock _ => true
  | AAddition l r => plain_lin l && plain_lin r
  | ADifference (AInt _) (AClock _) => true
  | _ => false
  end.
(** A linear sum, "clock - sum" or "linear sum - literal". *)
Definition plain_side (e : arith) : bool :=
  plain_lin e ||
  match e with
  | ADifference (AClock _) r => plain_sum r
  | ADifference l (AInt _) => plain_lin l
  | _ => false
  end.
(** No clock and no name occurs. *)
Fixpoint closed_expr (e : arith) : bool :=
  match e with
  | AInt _ => true
  | AClock _ | AVar _ => false
  | AAddition l r | ADifference l r | AMultiplication l r | ADivision l r | AModulo l r =>
      closed_expr l && closed_expr r
  end.
(** No names are declared. *)
Definition no_names : decls := mkDecls [] [].

(** The two expressions have the same value in every valuation in which the first has one. *)
Definition same_value (d : decls) (e r : arith) : Prop :=
  forall v q, aev d v e = Some q -> exists q', aev d v r = Some q' /\ q' == q.
