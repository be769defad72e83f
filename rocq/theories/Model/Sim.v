(** The simulator's decisions (Simulation/decision.rs). *)
From Coq Require Import List String ZArith Bool Arith.
From Verif Require Import Fed.Zone Model.Base Model.Expr Model.Guard Model.Loc Model.Component Model.TS Model.Search.
Import ListNotations.

Section Sim.
Variable dim : nat.

(** decision.rs:69-74, the inner loop over the transitions of one action. *)
Fixpoint decisions_for (st : state) (a : string) (ts : list transition) : res (list decision) :=
  match ts with
  | [] => Ok []
  | t :: ts' =>
      do o <- from_state_transition dim st t a;
      do ds <- decisions_for st a ts';
      Ok (match o with Some d => d :: ds | None => ds end)
  end.

(** decision.rs:64-78 [get_decisions_from_state].  [acts] is the set [get_actions] in the
    order it happens to be iterated. *)
Fixpoint get_decisions (acts : list string) (s : ts) (st : state) : res (list decision) :=
  match acts with
  | [] => Ok []
  | a :: acts' =>
      do ts <- next_transitions dim s (s_loc st) a;
      do ds <- decisions_for st a ts;
      do es <- get_decisions acts' s st;
      Ok (ds ++ es)
  end.

(** decision.rs:80-87 [get_initial_decisions]. *)
Definition initial_decisions (acts : list string) (s : ts) : res (list decision) :=
  match initial_state dim s with
  | None => Panic (* expect: Expected system to have initial state *)
  | Some st => get_decisions acts s st
  end.

(** Rust's [filter_map].  decision.rs:22. *)
Fixpoint filter_map {A B} (f : A -> option B) (l : list A) : list B :=
  match l with
  | [] => []
  | a :: l' => match f a with Some b => b :: filter_map f l' | None => filter_map f l' end
  end.

(** decision.rs:18-36 [resolve]; the two assertions are panics. *)
Definition resolve (acts : list string) (s : ts) (d : decision) : res (list decision) :=
  do ts <- next_transitions dim s (s_loc (d_state d)) (d_action d);
  match filter_map (fun t => use_transition_alt dim t (d_state d)) ts with
  | [] => Panic (* assert_ne *)
  | [st] => get_decisions acts s st
  | _ => Panic (* assert_eq *)
  end.
End Sim.
