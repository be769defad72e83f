(** When two systems behave the same: a timed bisimulation that also matches the names of locations. *)
From Coq Require Import List String ZArith QArith Bool Arith.
From Verif Require Import Fed.Zone Model.Base Model.Expr Model.Guard Model.Loc Model.Component Model.TS Spec.StepSpec Spec.SystemSpec Spec.RunSpec.
Import ListNotations.

(** A state: a location and the values of the clocks (of the system the location belongs to). *)
Definition at_state : Type := (loctree * val)%type.

Record bisimulation (dim : nat) (s : ts) (dim' : nat) (s' : ts) (R : at_state -> at_state -> Prop) : Prop := {
  (** related states have the same name, the same kind and the same invariant; *)
  bs_loc : forall l v l' v', R (l, v) (l', v') -> lt_id l' = lt_id l /\ lt_type l' = lt_type l /\ (inv_at dim l v <-> inv_at dim' l' v');
  (** they stay related when time passes; *)
  bs_delay : forall l v l' v' d, R (l, v) (l', v') -> (0 <= d)%Q -> R (l, vdelay v d) (l', vdelay v' d);
  (** whatever one can do, the other can do as well. *)
  bs_forth : forall l v l' v' a t, R (l, v) (l', v') -> offered dim s l a t -> able dim l t v ->
    exists t', offered dim' s' l' a t' /\ able dim' l' t' v' /\ R (t_target t, run_updates (t_updates t) v) (t_target t', run_updates (t_updates t') v');
  bs_back : forall l v l' v' a t', R (l, v) (l', v') -> offered dim' s' l' a t' -> able dim' l' t' v' ->
    exists t, offered dim s l a t /\ able dim l t v /\ R (t_target t, run_updates (t_updates t) v) (t_target t', run_updates (t_updates t') v');
  (** and they have the same choices: their transitions correspond one to one, in the same order, with the same identifiers. *)
  bs_list : forall l v l' v' a ts, R (l, v) (l', v') -> is_action s a -> next_transitions dim s l a = Ok ts ->
    exists ts', next_transitions dim' s' l' a = Ok ts' /\ Forall2 (fun t t' => t_id t' = t_id t /\ (able dim l t v <-> able dim' l' t' v')) ts ts';
  bs_tsil : forall l v l' v' a ts', R (l, v) (l', v') -> is_action s' a -> next_transitions dim' s' l' a = Ok ts' ->
    exists ts, next_transitions dim s l a = Ok ts /\ Forall2 (fun t t' => t_id t' = t_id t /\ (able dim l t v <-> able dim' l' t' v')) ts ts' }.

Definition same_behaviour (dim : nat) (s : ts) (dim' : nat) (s' : ts) : Prop :=
  (forall a, is_input s' a <-> is_input s a) /\ (forall a, is_output s' a <-> is_output s a) /\
  exists R, bisimulation dim s dim' s' R /\
    match initial_location dim s, initial_location dim' s' with
    | Some l, Some l' => R (l, zero_val) (l', zero_val)
    | None, None => True
    | _, _ => False
    end.
