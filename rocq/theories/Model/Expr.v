(** Arithmetic and boolean expressions.
    Models src/ModelObjects/Expressions/arith_expression.rs and bool_expression.rs. *)
From Coq Require Import List String ZArith Bool Arith.
From Verif Require Import Fed.Zone Model.Base.
Import ListNotations.

(** arith_expression.rs:10-19.  [i32] is modelled by [Z] (no overflow). *)
Inductive arith : Type :=
| ADifference (l r : arith)
| AAddition (l r : arith)
| AMultiplication (l r : arith)
| ADivision (l r : arith)
| AModulo (l r : arith)
| AClock (i : nat)
| AVar (s : string)
| AInt (k : Z).

(** bool_expression.rs:13-22. *)
Inductive bexpr : Type :=
| BAnd (l r : bexpr)
| BOr (l r : bexpr)
| BLessEQ (l r : arith)
| BGreatEQ (l r : arith)
| BLessT (l r : arith)
| BGreatT (l r : arith)
| BEQ (l r : arith)
| BBool (b : bool).

(** component.rs:186-189 [Declarations].  The maps are association lists. *)
Record decls := mkDecls { d_clocks : list (string * nat); d_ints : list (string * Z) }.

(** ** Smart constructors: arith_expression.rs:449-515 *)

(** arith_expression.rs:449-461 [ADif]. *)
Definition mk_dif (l r : arith) : arith :=
  match r with
  | AInt 0 => l
  | _ => match l, r with AInt i, AInt j => AInt (i - j) | _, _ => ADifference l r end
  end.

(** arith_expression.rs:463-477 [AAdd]. *)
Definition mk_add (l r : arith) : arith :=
  match r with
  | AInt 0 => l
  | _ => match l with
         | AInt 0 => r
         | _ => match l, r with AInt i, AInt j => AInt (i + j) | _, _ => AAddition l r end
         end
  end.

Definition is_zero (a : arith) : bool := match a with AInt 0 => true | _ => false end.

(** arith_expression.rs:479-491 [AMul]. *)
Definition mk_mul (l r : arith) : arith :=
  if is_zero r || is_zero l then AInt 0
  else match l, r with AInt i, AInt j => AInt (i * j) | _, _ => AMultiplication l r end.

(** arith_expression.rs:493-505 [ADiv]: a zero divisor yields 0 as well.
    [i32] division truncates: [Z.quot]. *)
Definition mk_div (l r : arith) : arith :=
  if is_zero r || is_zero l then AInt 0
  else match l, r with AInt i, AInt j => AInt (Z.quot i j) | _, _ => ADivision l r end.

(** arith_expression.rs:507-515 [AMod]; [i % 0] panics in Rust. *)
Definition mk_mod (l r : arith) : res arith :=
  match l, r with
  | AInt i, AInt j => if Z.eqb j 0 then Panic else Ok (AInt (Z.rem i j))
  | _, _ => Ok (AModulo l r)
  end.

(** arith_expression.rs:432-443 [clock_var_count]. *)
Fixpoint clock_var_count (e : arith) : nat :=
  match e with
  | AClock _ | AVar _ => 1
  | ADifference l r | AAddition l r | AMultiplication l r | ADivision l r | AModulo l r =>
      clock_var_count l + clock_var_count r
  | AInt _ => 0
  end.

(** ** Simplification *)

(** arith_expression.rs:552-559 [Operation]; the flag says the clock was on the right. *)
Inductive operation := ODif (right : bool) | OAdd (right : bool) | OMul (right : bool)
                     | ODiv (right : bool) | OMod (right : bool) | ONone.

(** arith_expression.rs:324-340 [clone_expr]; [err] says an error message was supplied. *)
Definition clone_expr (checker cloner : arith) (err : bool) : res (option arith) :=
  match checker with
  | AClock _ => if err then Err else Ok (Some cloner)
  | AVar _ => Ok (Some cloner)
  | _ => Ok None
  end.

(** arith_expression.rs:228-322 [move_clock_and_vars].  [&mut self] becomes the second
    component of the result.  [mk] rebuilds the node when no [switch] happens. *)
Fixpoint move_clock_and_vars (e : arith) (prev : operation) : res (option (arith * operation) * arith) :=
  let node (l r : arith) (err : bool) (op : bool -> operation) (mk : arith -> arith -> arith)
           (ml mr : operation -> res (option (arith * operation) * arith)) :=
    if Nat.ltb 0 (clock_var_count l) then
      do sw <- clone_expr l r err;
      do (o, l') <- ml (op false);
      Ok (o, match sw with Some x => x | None => mk l' r end)
    else if Nat.ltb 0 (clock_var_count r) then
      do sw <- clone_expr r l err;
      do (o, r') <- mr (op true);
      Ok (o, match sw with Some x => x | None => mk l r' end)
    else Ok (None, mk l r) in
  match e with
  | AClock x => Ok (Some (AClock x, prev), AInt 0)
  | AVar s => Ok (Some (AVar s, prev), AInt 0)
  | AInt k => Ok (None, AInt k)
  | ADifference l r =>
      node l r false ODif ADifference (move_clock_and_vars l) (move_clock_and_vars r)
  | AAddition l r =>
      node l r false OAdd AAddition (move_clock_and_vars l) (move_clock_and_vars r)
  | AMultiplication l r =>
      node l r true OMul AMultiplication (move_clock_and_vars l) (move_clock_and_vars r)
  | ADivision l r =>
      node l r true ODiv ADivision (move_clock_and_vars l) (move_clock_and_vars r)
  | AModulo l r =>
      node l r true OMod AModulo (move_clock_and_vars l) (move_clock_and_vars r)
  end.

(** arith_expression.rs:185-188: the [while let] loop.  Each iteration removes one clock
    or variable, so [clock_var_count] iterations suffice. *)
Fixpoint pull_all (fuel : nat) (out : arith) (op : operation) : res (list (arith * operation) * arith) :=
  match fuel with
  | O => NoFuel
  | S fuel' =>
      do (o, out') <- move_clock_and_vars out op;
      match o with
      | None => Ok ([], out')
      | Some (val, op') =>
          do (ds, fin) <- pull_all fuel' out' op';
          Ok ((val, op') :: ds, fin)
      end
  end.

(** arith_expression.rs:190-222: one step of the rebuilding loop. *)
Definition rebuild_step (val : arith) (op : operation) (out : arith) : res arith :=
  match op with
  | ODif true => Ok (mk_dif out val)
  | ODif false => Ok (mk_dif val out)
  | OAdd true => Ok (mk_add out val)
  | OAdd false => Ok (mk_add val out)
  | OMul true => Ok (mk_mul out val)
  | OMul false => Ok (mk_mul val out)
  | ODiv true => Ok (mk_div out val)
  | ODiv false => Ok (mk_div val out)
  | OMod true => mk_mod out val
  | OMod false => mk_mod val out
  | ONone => Ok val
  end.

(** arith_expression.rs:189-223: [diffs.pop()] takes the last pulled first. *)
Fixpoint rebuild (ds : list (arith * operation)) (out : arith) : res arith :=
  match ds with
  | [] => Ok out
  | (val, op) :: ds' => do r <- rebuild ds' out; rebuild_step val op r
  end.

(** arith_expression.rs:342-392 [simplify_helper].  Returns the new expression and
    [changed]; division and modulo by zero panic. *)
Fixpoint simplify_helper (e : arith) : res (arith * bool) :=
  let node (l r : arith) (rl rr : res (arith * bool)) (mk : arith -> arith -> arith)
           (f : Z -> Z -> res Z) :=
    do (l', cl) <- rl;
    do (r', cr) <- rr;
    match l', r' with
    | AInt x, AInt y => do k <- f x y; Ok (AInt k, true)
    | _, _ => Ok (mk l' r', cl || cr)
    end in
  match e with
  | ADifference l r => node l r (simplify_helper l) (simplify_helper r) ADifference (fun x y => Ok (x - y)%Z)
  | AAddition l r => node l r (simplify_helper l) (simplify_helper r) AAddition (fun x y => Ok (x + y)%Z)
  | AMultiplication l r => node l r (simplify_helper l) (simplify_helper r) AMultiplication (fun x y => Ok (x * y)%Z)
  | ADivision l r => node l r (simplify_helper l) (simplify_helper r) ADivision
      (fun x y => if Z.eqb y 0 then Panic else Ok (Z.quot x y))
  | AModulo l r => node l r (simplify_helper l) (simplify_helper r) AModulo
      (fun x y => if Z.eqb y 0 then Panic else Ok (Z.rem x y))
  | AClock _ | AVar _ | AInt _ => Ok (e, false)
  end.

Fixpoint asize (e : arith) : nat :=
  match e with
  | ADifference l r | AAddition l r | AMultiplication l r | ADivision l r | AModulo l r =>
      S (asize l + asize r)
  | _ => 1
  end.

(** arith_expression.rs:224: [while out.simplify_helper() {}]. *)
Fixpoint simplify_loop (fuel : nat) (e : arith) : res arith :=
  match fuel with
  | O => NoFuel
  | S fuel' =>
      do (e', changed) <- simplify_helper e;
      if changed then simplify_loop fuel' e' else Ok e'
  end.

(** arith_expression.rs:181-226 [simplify]. *)
Definition simplify (e : arith) : res arith :=
  do (ds, out) <- pull_all (S (clock_var_count e)) e ONone;
  do out' <- rebuild ds out;
  simplify_loop (S (asize out')) out'.

(** ** Other helpers *)

(** arith_expression.rs:130-163 [get_constant]. *)
Definition get_constant (l r : arith) (clock : nat) (name : string) : Z :=
  match l with
  | AClock i => if Nat.eqb i clock then match r with AInt k => k | _ => 0 end else 0
  | AVar s => if String.eqb s name then match r with AInt k => k | _ => 0 end else 0
  | AInt k => match r with
              | AClock i => if Nat.eqb i clock then k else 0
              | AVar s => if String.eqb s name then k else 0
              | _ => 0
              end
  | _ => 0
  end%Z.

(** bool_expression.rs:283-303 [iterate_constraints]: the list of visited pairs. *)
Fixpoint constraints (b : bexpr) : list (arith * arith) :=
  match b with
  | BAnd l r | BOr l r => constraints l ++ constraints r
  | BLessEQ l r | BGreatEQ l r | BLessT l r | BGreatT l r | BEQ l r => [(l, r)]
  | BBool _ => []
  end.

(** bool_expression.rs:217-230 [get_max_constant]: maximum, starting from 0. *)
Definition get_max_constant (b : bexpr) (clock : nat) (name : string) : Z :=
  fold_left (fun m '(l, r) =>
    let k := get_constant l r clock name in if Z.ltb m k then k else m)
    (constraints b) 0%Z.

(** arith_expression.rs:395-405 and bool_expression.rs:399-411 [has_varname]. *)
Fixpoint a_has_var (e : arith) (n : string) : bool :=
  match e with
  | ADifference l r | AAddition l r | AMultiplication l r | ADivision l r | AModulo l r =>
      a_has_var l n || a_has_var r n
  | AClock _ | AInt _ => false
  | AVar s => String.eqb n s
  end.
Fixpoint b_has_var (b : bexpr) (n : string) : bool :=
  match b with
  | BAnd l r | BOr l r => b_has_var l n || b_has_var r n
  | BLessEQ l r | BGreatEQ l r | BLessT l r | BGreatT l r | BEQ l r => a_has_var l n || a_has_var r n
  | BBool _ => false
  end.

(** bool_expression.rs:266-281 [conjunction]: guards are popped from the back. *)
Fixpoint conj_rev (gs : list bexpr) : bexpr :=
  match gs with
  | [] => BBool false
  | [g] => g
  | g :: gs' => BAnd g (conj_rev gs')
  end.
Definition conjunction (gs : list bexpr) : bexpr := conj_rev (rev gs).

(** ** Conversion of constraints to expressions: bool_expression.rs:96-215 *)

(** Clock index to name map (bool_expression.rs:100-103 inverts the given map). *)
Definition naming := nat -> option string.

(** bool_expression.rs:463-470 [var_from_naming]: unwraps the lookup. *)
Definition var_of (nm : naming) (i : nat) : res arith := do s <- unwrap (nm i); Ok (AVar s).

(** bool_expression.rs:154-215 [from_constraint]. *)
Definition from_constraint (c : dcon) (nm : naming) : res bexpr :=
  let strict := cs c in
  let bound := cc c in
  match ci c, cj c with
  | O, O => Panic
  | O, j => do x <- var_of nm j;
            Ok (if strict then BGreatT x (AInt (- bound)) else BGreatEQ x (AInt (- bound)))
  | i, O => do x <- var_of nm i;
            Ok (if strict then BLessT x (AInt bound) else BLessEQ x (AInt bound))
  | i, j => do x <- var_of nm i;
            do y <- var_of nm j;
            if Z.eqb bound 0
            then Ok (if strict then BLessT x y else BLessEQ x y)
            else Ok (if strict then BLessT (ADifference x y) (AInt bound)
                     else BLessEQ (ADifference x y) (AInt bound))
  end.

(** The accumulation loops bool_expression.rs:111-119 and 140-148. *)
Definition fold_opt {A} (op : A -> A -> A) (l : list A) : option A :=
  fold_left (fun acc e => match acc with None => Some e | Some r => Some (op r e) end) l None.

(** bool_expression.rs:125-152 [from_conjunction]; [None] stands for "true". *)
Definition from_conjunction (z : zone) (nm : naming) : res (option bexpr) :=
  match z with
  | [] => Ok None
  | [c] => do e <- from_constraint c nm; Ok (Some e)
  | _ => do es <- mapM (fun c => from_constraint c nm) z; Ok (fold_opt BAnd es)
  end.

(** bool_expression.rs:111-121: the loop over conjunctions with early return on "true". *)
Fixpoint from_disj_loop (f : fed) (nm : naming) (acc : option bexpr) : res (option bexpr) :=
  match f with
  | [] => Ok acc
  | z :: f' =>
      do oe <- from_conjunction z nm;
      match oe with
      | None => Ok None
      | Some e => from_disj_loop f' nm (Some (match acc with None => e | Some r => BOr r e end))
      end
  end.

(** bool_expression.rs:96-123 [from_disjunction].  The edbm type [Disjunction] (a list of
    conjunctions of constraints) is the representation of a federation. *)
Definition from_disjunction (f : fed) (nm : naming) : res (option bexpr) :=
  match f with
  | [] => Ok (Some (BBool false))
  | [z] => from_conjunction z nm
  | _ => from_disj_loop f nm None
  end.
