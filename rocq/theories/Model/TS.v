(** Transition systems: compiled components and their conjunction, composition and
    quotient.  Models src/TransitionSystems/{compiled_component,common,conjunction,
    composition,quotient,transition_system}.rs. *)
From Coq Require Import List String ZArith Bool Arith.
From Verif Require Import Fed.Zone Model.Base Model.Expr Model.Guard Model.Loc Model.Component.
Import ListNotations.
Local Open Scope string_scope.

(** Sets of actions are lists read through membership.  composition.rs:33-71, conjunction.rs:52-58, quotient.rs:55-80. *)
Definition sunion (a b : list string) : list string := a ++ filter (fun x => negb (sin x a)) b.
Definition sinter (a b : list string) : list string := filter (fun x => sin x b) a.
Definition sdiff (a b : list string) : list string := filter (fun x => negb (sin x b)) a.

(** The implementors of the trait [TransitionSystem].  The cached action sets are fields,
    as in Rust (conjunction.rs:14-20, composition.rs:12-22, quotient.rs:20-32).  Every
    system in one query has the same [dim], which is a parameter of the functions below. *)
Inductive ts :=
| TSimple (c : ccomp)
| TConj (l r : ts) (ins outs : list string)
| TComp (l r : ts) (ins outs lonly ronly common : list string)
| TQuot (t s : ts) (ins outs : list string) (new_input : string) (qclock : nat).

Definition ts_inputs (s : ts) : list string :=
  match s with TSimple c => cc_inputs c | TConj _ _ i _ => i | TComp _ _ i _ _ _ _ => i | TQuot _ _ i _ _ _ => i end.
Definition ts_outputs (s : ts) : list string :=
  match s with TSimple c => cc_outputs c | TConj _ _ _ o => o | TComp _ _ _ o _ _ _ => o | TQuot _ _ _ o _ _ => o end.
(** common.rs:64-69, compiled_component.rs:159-161, quotient.rs:326-328 [get_actions]. *)
Definition ts_actions (s : ts) : list string := sunion (ts_inputs s) (ts_outputs s).
Definition has_action (s : ts) (a : string) : bool := sin a (ts_actions s).

(** common.rs:71-77, compiled_component.rs:163-165, quotient.rs:329-335. *)
Fixpoint initial_location (dim : nat) (s : ts) : option loctree :=
  let compose c l r :=
    match initial_location dim l, initial_location dim r with
    | Some a, Some b => match lt_compose dim a b c with Ok t => Some t | _ => None end
    | _, _ => None
    end in
  match s with
  | TSimple c => cc_init c
  | TConj l r _ _ => compose CConj l r
  | TComp l r _ _ _ _ _ => compose CComp l r
  | TQuot t s _ _ _ _ =>
      match initial_location dim t, initial_location dim s with
      | Some a, Some b => Some (lt_quotient a b)
      | _, _ => None
      end
  end.

(** quotient.rs:408-411 [get_allowed_fed], 413-418 [get_invariant]. *)
Definition q_allowed (dim : nat) (from : loctree) (t : transition) : fed := apply_inv dim from (allowed_fed dim t).
Definition q_inv (t : loctree) : fed := match lt_inv t with Some i => i | None => funiv end.

(** quotient.rs:167-313: the transitions of a quotient location, rule by rule.  [tts] and
    [sss] are the transitions of the two operands for [action] ([] when the operand does
    not have the action).  The filter of lines 315-318 is applied at the end. *)
Definition quotient_rules (dim : nat) (T S : ts) (new_input : string) (q : nat)
    (lt ls : loctree) (tts sss : list transition) (action : string) : list transition :=
  let sA := has_action S action in
  let tA := has_action T action in
  let sO := sin action (ts_outputs S) in
  let tO := sin action (ts_outputs T) in
  let inv_s := apply_inv dim ls funiv in
  let reset := [mkU q 0] in
  let r1 := if sA && tA then
      map (fun p => let t := fst p in let s := snd p in
        mkT (TIQuot [t_id t] [t_id s]) (finter dim (q_allowed dim lt t) (q_allowed dim ls s))
            (lt_quotient (t_target t) (t_target s)) (t_updates t ++ t_updates s)) (list_prod tts sss)
    else [] in
  let r2 := if sA && negb tA then
      map (fun s => mkT (TIQuot [] [t_id s]) (q_allowed dim ls s) (lt_quotient lt (t_target s)) (t_updates s)) sss
    else [] in
  let r35 := if sO then
      let g_s := fold_left (fun g s => funion g (q_allowed dim ls s)) sss fnone in
      [mkT (TIQuot [] (map t_id sss)) (funion (fcompl dim inv_s) (fcompl dim g_s)) lt_universal []]
    else [mkT TINone (fcompl dim inv_s) lt_universal []] in
  let r6 := if sO && tO then
      let g_t := fold_left (fun g t => funion g (q_allowed dim lt t)) tts fnone in
      map (fun s => mkT (TIQuot (map t_id tts) [t_id s]) (finter dim (q_allowed dim ls s) (fcompl dim g_t))
                        (lt_error q) reset) sss
    else [] in
  let r7 := if String.eqb action new_input then
      [mkT TINone (finter dim (fcompl dim (q_inv lt)) (q_inv ls)) (lt_error q) reset]
    else [] in
  let r8 := if tA && negb sA then
      map (fun t => mkT (TIQuot [t_id t] []) (apply_inv dim ls (q_allowed dim lt t))
                        (lt_quotient (t_target t) ls) (t_updates t)) tts
    else [] in
  filter (fun t => negb (fempty dim (t_guard t))) (r1 ++ r2 ++ r35 ++ r6 ++ r7 ++ r8).

(** [next_transitions] of all implementors: compiled_component.rs:127-149,
    conjunction.rs:76-86, composition.rs:78-109, quotient.rs:137-319. *)
Fixpoint next_transitions (dim : nat) (s : ts) (loc : loctree) (a : string) : res (list transition) :=
  if negb (has_action s a) then Panic (* assert!(self.actions_contain(action)) *)
  else match s with
  | TSimple c =>
      if is_universal loc then Ok [t_without_id loc]
      else if is_inconsistent loc && sin a (cc_inputs c) then Ok [t_without_id loc]
      else
        do es <- unwrap (assoc_loc (lt_id loc) (cc_edges c));
        Ok (map snd (filter (fun p => String.eqb (fst p) a) es))
  | TConj l r _ _ =>
      do ll <- lt_left loc; do lr <- lt_right loc;
      do tl <- next_transitions dim l ll a;
      do tr <- next_transitions dim r lr a;
      combinations dim tl tr CConj
  | TComp l r _ _ lonly ronly common =>
      do ll <- lt_left loc; do lr <- lt_right loc;
      if sin a common then
        do tl <- next_transitions dim l ll a;
        do tr <- next_transitions dim r lr a;
        combinations dim tl tr CComp
      else if sin a lonly then
        do tl <- next_transitions dim l ll a;
        combinations dim tl [t_without_id lr] CComp
      else if sin a ronly then
        do tr <- next_transitions dim r lr a;
        combinations dim [t_without_id ll] tr CComp
      else Panic (* unreachable!() *)
  | TQuot t s ins _ new_input q =>
      if is_inconsistent loc then
        Ok (if sin a ins then [mkT TINone (fcon_eq q 0 0 funiv) loc []] else [])
      else if is_universal loc then Ok [t_without_id loc]
      else
        do lt <- lt_left loc; do ls <- lt_right loc;
        do tts <- (if has_action t a then next_transitions dim t lt a else Ok []);
        do sss <- (if has_action s a then next_transitions dim s ls a else Ok []);
        Ok (quotient_rules dim t s new_input q lt ls tts sss a)
  end.

(** transition_system.rs:64-74 [next_transitions_if_available]. *)
Definition next_if_available (dim : nat) (s : ts) (loc : loctree) (a : string) : res (list transition) :=
  if has_action s a then next_transitions dim s loc a else Ok [].

(** common.rs:117-127, compiled_component.rs:183-187, quotient.rs:372-376. *)
Definition initial_state (dim : nat) (s : ts) : option state :=
  match initial_location dim s with
  | None => None
  | Some l =>
      match s with
      | TQuot _ _ _ _ _ _ => Some (mkS l (finit dim))
      | _ => state_from_location dim l
      end
  end.

(** common.rs:79-94, compiled_component.rs:167-169, quotient.rs:337-353. *)
Fixpoint all_locations (dim : nat) (s : ts) : list loctree :=
  let compose c l r :=
    flat_map (fun p => match lt_compose dim (fst p) (snd p) c with Ok t => [t] | _ => [] end)
      (list_prod (all_locations dim l) (all_locations dim r)) in
  match s with
  | TSimple c => cc_locs c
  | TConj l r _ _ => compose CConj l r
  | TComp l r _ _ _ _ _ => compose CComp l r
  | TQuot t s _ _ _ q =>
      map (fun p => lt_quotient (fst p) (snd p)) (list_prod (all_locations dim t) (all_locations dim s))
      ++ [lt_error q; lt_universal]
  end.

(** common.rs:40-48, compiled_component.rs:115-121, quotient.rs:116-131. *)
Fixpoint local_bounds (s : ts) (loc : loctree) : res bounds :=
  match s with
  | TSimple c => Ok (if is_universal loc || is_inconsistent loc then bounds_new else cc_bounds c)
  | TConj l r _ _ | TComp l r _ _ _ _ _ =>
      do ll <- lt_left loc; do lr <- lt_right loc;
      do a <- local_bounds l ll; do b <- local_bounds r lr; Ok (bounds_join a b)
  | TQuot t s _ _ _ q =>
      if is_universal loc || is_inconsistent loc then Ok (bounds_add bounds_new q 0)
      else
        do ll <- lt_left loc; do lr <- lt_right loc;
        do a <- local_bounds t ll; do b <- local_bounds s lr;
        Ok (bounds_add (bounds_join a b) q 0)
  end.

(** ** Constructors with their action checks *)

(** composition.rs:26-74 [new_ts]. *)
Definition composition_new (l r : ts) : res ts :=
  let li := ts_inputs l in let lo := ts_outputs l in
  let ri := ts_inputs r in let ro := ts_outputs r in
  let la := sunion li lo in let ra := sunion ri ro in
  if negb (disjoint lo ro) then Err
  else Ok (TComp l r (sunion (sdiff li ro) (sdiff ri lo)) (sunion lo ro)
                 (sdiff la ra) (sdiff ra la) (sinter la ra)).

(** conjunction.rs:24-72 [new_ts] without the final consistency check (lines 69-70),
    which is [is_least_consistent] of Model/Search.v. *)
Definition conjunction_new (l r : ts) : res ts :=
  let li := ts_inputs l in let lo := ts_outputs l in
  let ri := ts_inputs r in let ro := ts_outputs r in
  if negb (disjoint li ro) then Err
  else if negb (disjoint lo ri) then Err
  else Ok (TConj l r (sinter li ri) (sinter lo ro)).

(** Decimal digits of a natural number, most significant first.  quotient.rs:60, save_component.rs:73-90 ([format!]). *)
Definition digit (n : nat) : string :=
  match n with
  | 0 => "0" | 1 => "1" | 2 => "2" | 3 => "3" | 4 => "4"
  | 5 => "5" | 6 => "6" | 7 => "7" | 8 => "8" | _ => "9"
  end.
Fixpoint nat_str_aux (fuel n : nat) (acc : string) : string :=
  match fuel with
  | O => acc
  | S f =>
      let acc' := digit (Nat.modulo n 10) ++ acc in
      match Nat.div n 10 with O => acc' | m => nat_str_aux f m acc' end
  end.
Definition nat_str (n : nat) : string := nat_str_aux (S n) n "".

(** quotient.rs:58-65: the first unused name; [List.length ins + 1] attempts suffice
    because the tried names are pairwise distinct (Proofs/QuotientFacts.v). *)
Fixpoint fresh_input (fuel i : nat) (ins : list string) : res string :=
  match fuel with
  | O => NoFuel
  | S f =>
      let test := "quotient_new_input" ++ nat_str i in
      if negb (sin test ins) then Ok test else fresh_input f (S i) ins
  end.

(** quotient.rs:36-112 [new_ts] without the prechecks of lines 50-51 (determinism and local
    consistency of both operands: Model/Search.v). *)
Definition quotient_new (t s : ts) (qclock : nat) : res ts :=
  if negb (disjoint (ts_outputs s) (ts_inputs t)) then Err
  else
    let ins := sunion (ts_inputs t) (ts_outputs s) in
    do n <- fresh_input (S (List.length ins)) 0 ins;
    let outs := sunion (sdiff (ts_outputs t) (ts_outputs s)) (sdiff (ts_inputs s) (ts_inputs t)) in
    Ok (TQuot t s (sunion ins [n]) outs n qclock).
