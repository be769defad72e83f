(** What the path in the reply to a reachability query shows. *)
From Coq Require Import List String ZArith QArith Bool Arith.
From Verif Require Import Fed.Zone Model.Base Model.Loc Model.Component Model.TS Model.Search Model.Wire Spec.StepSpec Spec.SystemSpec Spec.SimSpec Spec.WireSpec Spec.FailureSpec.
Import ListNotations.

(** The message shows the step: its action, the edges that are taken, the states it is taken in and the states it leads to. *)
Definition step_shown (dim : nat) (s : ts) (d : decision) (p : pdecision) : Prop :=
  pd_action p = d_action d /\ edges_shown s d p /\
  (exists x, pd_source p = Some x /\ state_shown dim s (d_state d) x) /\
  (exists y, pd_dest p = Some y /\ state_shown dim s (d_next d) y).

(** Each step is one out of the states its predecessor leads to, the first one out of [st]. *)
Fixpoint steps_from (dim : nat) (s : ts) (st : state) (ds : list decision) : Prop :=
  match ds with [] => True | d :: ds' => decision_for dim s st d /\ steps_from dim s (d_next d) ds' end.
