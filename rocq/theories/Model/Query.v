(** From a reachability query to its start and target states.  Models src/System/extract_state.rs, the conversions of
    src/ModelObjects/Expressions/state_expression.rs and the reachability part of
    src/System/extract_system_rep.rs. *)
From Coq Require Import List String ZArith Bool Arith.
From Verif Require Import Fed.Zone Model.Base Model.Expr Model.Guard Model.Loc Model.Component Model.TS Model.ParseQuery Model.Recipe Model.Search.
Import ListNotations.
Local Open Scope string_scope.
Local Open Scope list_scope.

(** Derived [PartialEq] of [Component] (component.rs:15-28, 185-189).  The clock and integer tables are compared as
    lists; two tables with the same entries in another order count as different here. *)
Definition component_eq_dec : forall a b : component, {a = b} + {a <> b}.
Proof.
  assert (S : forall a b : string, {a = b} + {a <> b}) by (exact String.string_dec).
  assert (N : forall a b : nat, {a = b} + {a <> b}) by (exact Nat.eq_dec).
  assert (Zd : forall a b : Z, {a = b} + {a <> b}) by (exact Z.eq_dec).
  assert (A : forall a b : arith, {a = b} + {a <> b}) by (decide equality).
  assert (B : forall a b : bexpr, {a = b} + {a <> b}) by (decide equality; apply Bool.bool_dec).
  assert (D : forall a b : decls, {a = b} + {a <> b}) by (decide equality; apply list_eq_dec; decide equality).
  assert (T : forall a b : loctype, {a = b} + {a <> b}) by (decide equality).
  assert (Y : forall a b : synctype, {a = b} + {a <> b}) by (decide equality).
  assert (OB : forall a b : option bexpr, {a = b} + {a <> b}) by (decide equality).
  assert (OU : forall a b : option (list (string * arith)), {a = b} + {a <> b}) by (decide equality; apply list_eq_dec; decide equality).
  assert (OS : forall a b : option string, {a = b} + {a <> b}) by (decide equality).
  assert (L : forall a b : location, {a = b} + {a <> b}) by (decide equality).
  assert (E : forall a b : edge, {a = b} + {a <> b}) by (decide equality).
  decide equality; apply list_eq_dec; assumption.
Defined.
Definition component_eqb (a b : component) : bool := if component_eq_dec a b then true else false.
Definition opt_eqb (a b : option string) : bool :=
  match a, b with Some x, Some y => String.eqb x y | None, None => true | _, _ => false end.
(** Derived [PartialEq] of [ComponentVariable] (state_expression.rs:26-34). *)
Definition cvar_eqb (a b : cvar) : bool :=
  String.eqb (v_comp a) (v_comp b) && opt_eqb (v_id a) (v_id b) && String.eqb (v_name a) (v_name b).

(** [c.name == component && c.special_id == special_id], used three times.  state_expression.rs:56, extract_state.rs:27, 140. *)
Definition is_named (x : cvar) (c : component) : bool := String.eqb (c_name c) (v_comp x) && opt_eqb (c_special c) (v_id x).

(** state_expression.rs:47-79 [to_arith_expression]. *)
Fixpoint to_arith (cs : list component) (o : operand) : res arith :=
  match o with
  | ONum k => Ok (AInt k)
  | OClk x =>
      do c <- ok_or (find (is_named x) cs);
      do i <- ok_or (assoc (v_name x) (d_clocks (c_decls c)));
      Ok (AClock i)
  | ODiff l r => do a <- to_arith cs l; do b <- to_arith cs r; Ok (ADifference a b)
  | OSum l r => do a <- to_arith cs l; do b <- to_arith cs r; Ok (AAddition a b)
  end.
Definition rel_mk (o : rel) : arith -> arith -> bexpr :=
  match o with RLe => BLessEQ | RGe => BGreatEQ | REq => BEQ | RLt => BLessT | RGt => BGreatT end.
(** The folds of state_expression.rs:121-143; an empty list panics. *)
Definition fold_ops (mk : bexpr -> bexpr -> bexpr) (l : list bexpr) : res bexpr :=
  match l with [] => Panic | b :: bs => Ok (fold_left mk bs b) end.
(** state_expression.rs:97-153 [to_bool_expression]. *)
Fixpoint to_bool (cs : list component) (e : stx) : res bexpr :=
  let all := fix all (l : list stx) : res (list bexpr) :=
    match l with [] => Ok [] | x :: l' => do b <- to_bool cs x; do bs <- all l'; Ok (b :: bs) end in
  match e with
  | SCmp o l r => do a <- to_arith cs l; do b <- to_arith cs r; Ok (rel_mk o a b)
  | SAnd l => do bs <- all l; fold_ops BAnd bs
  | SOr l => do bs <- all l; fold_ops BOr bs
  | SNot _ => Panic (* unimplemented! *)
  | SLoc _ => Ok (BBool true)
  | SBool b => Ok (BBool b)
  end.

(** extract_state.rs:61-98 [get_locations]. *)
Fixpoint get_locations (e : stx) : res (list cvar) :=
  let all := fix all (l : list stx) : res (list cvar) :=
    match l with [] => Ok [] | x :: l' => do a <- get_locations x; do b <- all l'; Ok (a ++ b) end in
  match e with
  | SAnd l => all l
  | SOr l => do res <- all l; if Nat.eqb (List.length res) 1 then Ok res else Err
  | SLoc x => Ok [x]
  | SNot e' => do ls <- get_locations e'; match ls with [] => Ok [] | _ => Err end
  | SCmp _ _ _ | SBool _ => Ok []
  end.
(** [Vec::dedup]: of equal neighbours only the first is kept.  extract_state.rs:38. *)
Fixpoint dedup (l : list cvar) : list cvar :=
  match l with
  | a :: l' =>
      match dedup l' with
      | b :: l'' => if cvar_eqb a b then a :: l'' else a :: b :: l''
      | [] => [a]
      end
  | [] => []
  end.

(** extract_state.rs:109-152 [construct_location_tree].  [get_children] of a component is unreachable!. *)
Fixpoint construct_tree (dim : nat) (locs : list cvar) (r : recipe) (s : ts) : res loctree :=
  match r with
  | RComp l r' =>
      match s with
      | TComp sl sr _ _ _ _ _ | TConj sl sr _ _ | TQuot sl sr _ _ _ _ =>
          do a <- construct_tree dim locs l sl; do b <- construct_tree dim locs r' sr; lt_compose dim a b CComp
      | TSimple _ => Panic
      end
  | RConj l r' =>
      match s with
      | TComp sl sr _ _ _ _ _ | TConj sl sr _ _ | TQuot sl sr _ _ _ _ =>
          do a <- construct_tree dim locs l sl; do b <- construct_tree dim locs r' sr; lt_compose dim a b CConj
      | TSimple _ => Panic
      end
  | RQuot l r' _ =>
      match s with
      | TComp sl sr _ _ _ _ _ | TConj sl sr _ _ | TQuot sl sr _ _ _ _ =>
          do a <- construct_tree dim locs l sl; do b <- construct_tree dim locs r' sr; Ok (lt_quotient a b)
      | TSimple _ => Panic
      end
  | RSimple c =>
      match find (fun x => is_named x c) locs with
      | None => Ok lt_any
      | Some x => ok_or (find (fun t => locid_eqb (lt_id t) (LSimple (v_name x))) (all_locations dim s))
      end
  end.

(** extract_state.rs:24-34: two different components with the same name and identifier. *)
Definition ambiguous_component (cs : list component) : bool :=
  existsb (fun p => negb (component_eqb (fst p) (snd p)) && String.eqb (c_name (fst p)) (c_name (snd p)) && opt_eqb (c_special (fst p)) (c_special (snd p)))
    (list_prod cs cs).
(** extract_state.rs:41-46. *)
Definition ambiguous_location (ls : list cvar) : bool :=
  existsb (fun p => negb (cvar_eqb (fst p) (snd p)) && String.eqb (v_comp (fst p)) (v_comp (snd p)) && opt_eqb (v_id (fst p)) (v_id (snd p)))
    (list_prod ls ls).

(** extract_state.rs:16-58 [get_state], with 102-109 [create_zone_given_constraints]. *)
Definition get_state (dim : nat) (e : stx) (r : recipe) (s : ts) : res state :=
  let cs := components r in
  if ambiguous_component cs then Err
  else
    do ls <- get_locations e;
    let ls := dedup ls in
    if ambiguous_location ls then Err
    else
      do t <- construct_tree dim ls r s;
      do b <- to_bool cs e;
      do z <- apply_constraints dim b (mkDecls [] []) funiv;
      Ok (mkS t z).

(** extract_system_rep.rs:74-104: the states of a reachability query.  The clocks are not reduced. *)
Definition reach_query (least pre : nat -> ts -> res bool) (load : string -> option component) (e : sysx) (from : option stx) (to : stx)
    : res (nat * ts * state * state) :=
  do (r, st) <- get_system_recipe load e (0, None);
  let dim := fst st in
  do s <- compile least pre dim r;
  do start <- match from with
              | Some f => do x <- get_state (dim + 1) f r s; if is_partial (lt_id (s_loc x)) then Err else Ok x
              | None => ok_or (initial_state (dim + 1) s)
              end;
  do target <- get_state (dim + 1) to r s;
  Ok (dim + 1, s, start, target).
(** executable_query.rs:94-99: a reachability query is answered by the search. *)
Definition run_reach (least pre : nat -> ts -> res bool) (fuel : nat) (xext : nat -> ts -> fed -> loctree -> fed -> fed) (load : string -> option component) (e : sysx) (from : option stx) (to : stx)
    : res (option (list decision)) :=
  do (p, target) <- reach_query least pre load e from to;
  let '(dim, s, start) := p in
  find_path dim fuel s (xext dim s (s_zone target)) start target.
