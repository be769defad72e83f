(** Applying guards to zones.  Models src/EdgeEval/constraint_applyer.rs and
    src/EdgeEval/updater.rs. *)
From Coq Require Import List String ZArith Bool Arith.
From Verif Require Import Fed.Zone Model.Base Model.Expr.
Import ListNotations.

(** constraint_applyer.rs:132-167 [replace_vars]: names become clocks or constants;
    clock names win over integer names. *)
Fixpoint replace_vars (e : arith) (d : decls) : res arith :=
  match e with
  | ADifference l r => do l' <- replace_vars l d; do r' <- replace_vars r d; Ok (mk_dif l' r')
  | AAddition l r => do l' <- replace_vars l d; do r' <- replace_vars r d; Ok (mk_add l' r')
  | AMultiplication l r => do l' <- replace_vars l d; do r' <- replace_vars r d; Ok (mk_mul l' r')
  | ADivision l r => do l' <- replace_vars l d; do r' <- replace_vars r d; Ok (mk_div l' r')
  | AModulo l r => do l' <- replace_vars l d; do r' <- replace_vars r d; mk_mod l' r'
  | AClock x => Ok (AClock x)
  | AVar s => match assoc s (d_clocks d) with
              | Some x => Ok (AClock x)
              | None => match assoc s (d_ints d) with Some k => Ok (AInt k) | None => Err end
              end
  | AInt k => Ok (AInt k)
  end.

(** constraint_applyer.rs:169-180 [get_const]; division by zero panics. *)
Fixpoint get_const (e : arith) (d : decls) : res Z :=
  match e with
  | AInt k => Ok k
  | AClock _ => Ok 0%Z
  | AVar s => Ok (match assoc s (d_ints d) with Some k => k | None => 0%Z end)
  | ADifference l r => do a <- get_const l d; do b <- get_const r d; Ok (a - b)%Z
  | AAddition l r => do a <- get_const l d; do b <- get_const r d; Ok (a + b)%Z
  | AMultiplication l r => do a <- get_const l d; do b <- get_const r d; Ok (a * b)%Z
  | ADivision l r => do a <- get_const l d; do b <- get_const r d;
                     if Z.eqb b 0 then Panic else Ok (Z.quot a b)
  | AModulo l r => do a <- get_const l d; do b <- get_const r d;
                   if Z.eqb b 0 then Panic else Ok (Z.rem a b)
  end.

(** arith_expression.rs:561-591 [Clock]: index and sign. *)
Record sclock := mkSC { sc_value : nat; sc_neg : bool }.

(** constraint_applyer.rs:182-195 [combine_clocks]. *)
Definition combine_clocks (c1 c2 : sclock) (k : Z) (same_sign : bool) : res (nat * nat * Z) :=
  if (same_sign && negb (Bool.eqb (sc_neg c1) (sc_neg c2)))
     || (negb same_sign && Bool.eqb (sc_neg c1) (sc_neg c2)) then Err
  else if negb (sc_neg c1) then Ok (sc_value c1, sc_value c2, k)
  else Ok (sc_value c2, sc_value c1, k).

(** constraint_applyer.rs:197-245: the clock found at this level and where to look next
    ([nxt_expr], [nxt_negated]). *)
Definition clock_here (e : arith) (negated : bool) : res (sclock * option (arith * bool)) :=
  match e with
  | ADifference (AClock x) r => Ok (mkSC x false, Some (r, true))
  | ADifference l (AClock x) => Ok (mkSC x true, Some (l, false))
  | AAddition (AClock x) r => Ok (mkSC x false, Some (r, false))
  | AAddition l (AClock x) => Ok (mkSC x false, Some (l, false))
  | AClock x => Ok (mkSC x negated, None)
  | _ => Err
  end.

(** constraint_applyer.rs:197-245 [get_clock_val] for [count = 1]: only the first clock. *)
Definition get_clock_val1 (e : arith) : res sclock := do (c, _) <- clock_here e false; Ok c.

(** ... and for [count = 2]: [nxt_expr.unwrap()] panics on a bare clock.  constraint_applyer.rs:197-245. *)
Definition get_clock_val2 (e : arith) : res (sclock * sclock) :=
  do (c, nxt) <- clock_here e false;
  do (e', neg) <- unwrap nxt;
  do (c', _) <- clock_here e' neg;
  Ok (c, c').

(** arith_expression.rs:588-590 [invert]. *)
Definition sc_invert (c : sclock) : sclock := mkSC (sc_value c) (negb (sc_neg c)).

(** constraint_applyer.rs:72-130 [get_indices]: [left <?= right] as [i - j <?= c]. *)
Definition get_indices (left right : arith) (d : decls) : res (nat * nat * Z) :=
  do l0 <- replace_vars left d; do l <- simplify l0;
  do r0 <- replace_vars right d; do r <- simplify r0;
  let cl := clock_var_count l in
  let cr := clock_var_count r in
  if Nat.eqb (cl + cr) 0 then Err
  else if Nat.ltb 2 (cl + cr) then Err
  else
    do lk <- get_const l d; do rk <- get_const r d;
    let k := (rk - lk)%Z in
    match cl, cr with
    | 1, 1 => do c1 <- get_clock_val1 l; do c2 <- get_clock_val1 r; combine_clocks c1 c2 k true
    | 2, 0 => do (c1, c2) <- get_clock_val2 l; combine_clocks c1 c2 k false
    | 0, 2 => do (c1, c2) <- get_clock_val2 r; combine_clocks (sc_invert c1) (sc_invert c2) k false
    | 1, 0 => do c <- get_clock_val1 l;
              Ok (if sc_neg c then (0, sc_value c, k) else (sc_value c, 0, k))
    | 0, 1 => do c <- get_clock_val1 r;
              Ok (if negb (sc_neg c) then (0, sc_value c, k) else (sc_value c, 0, k))
    | _, _ => Panic
    end.

(** constraint_applyer.rs:15-69 [apply_constraints_to_state_helper]. *)
Fixpoint apply_constraints (dim : nat) (g : bexpr) (d : decls) (f : fed) : res fed :=
  if fempty dim f then Ok f
  else match g with
  | BAnd l r => do f' <- apply_constraints dim l d f; apply_constraints dim r d f'
  | BOr l r => do f1 <- apply_constraints dim l d f; do f2 <- apply_constraints dim r d f;
               Ok (funion f1 f2)
  | BLessEQ l r => do (i, j, c) <- get_indices l r d; Ok (fcon (mkC i j false c) f)
  | BGreatEQ l r => do (i, j, c) <- get_indices r l d; Ok (fcon (mkC i j false c) f)
  | BEQ l r => do (i, j, c) <- get_indices l r d;
               Ok (fcon (mkC j i false (- c)%Z) (fcon (mkC i j false c) f))
  | BLessT l r => do (i, j, c) <- get_indices l r d; Ok (fcon (mkC i j true c) f)
  | BGreatT l r => do (i, j, c) <- get_indices r l d; Ok (fcon (mkC i j true c) f)
  | BBool b => Ok (if b then f else fnone)
  end.

(** ** Updates: src/EdgeEval/updater.rs *)

(** updater.rs:11-15 [CompiledUpdate]. *)
Record cupdate := mkU { u_clock : nat; u_value : Z }.

(** updater.rs:29-49 [compile]: only [clock := Int] is accepted, anything else panics.
    parse_edge::Update is a (variable, expression) pair. *)
Definition compile_update (u : string * arith) (d : decls) : res cupdate :=
  match snd u with
  | AInt k => do i <- unwrap (assoc (fst u) (d_clocks d)); Ok (mkU i k)
  | _ => Panic
  end.

(** updater.rs:51-53 [apply]; transition.rs:119-125 [apply_updates]. *)
Definition apply_update (dim : nat) (u : cupdate) (f : fed) : fed := fassign dim (u_clock u) (u_value u) f.
Definition apply_updates (dim : nat) (us : list cupdate) (f : fed) : fed :=
  fold_left (fun f u => apply_update dim u f) us f.

(** updater.rs:64-66 [apply_as_free], 68-70 [apply_as_guard]. *)
Definition apply_as_free (dim : nat) (u : cupdate) (f : fed) : fed := ffree dim (u_clock u) f.
Definition apply_as_guard (u : cupdate) (f : fed) : fed := fcon_eq (u_clock u) 0 (u_value u) f.

(** transition.rs:127-136 [inverse_apply_updates]: first all guards, then all frees. *)
Definition inverse_apply_updates (dim : nat) (us : list cupdate) (f : fed) : fed :=
  fold_left (fun f u => apply_as_free dim u f) us
    (fold_left (fun f u => apply_as_guard u f) us f).
