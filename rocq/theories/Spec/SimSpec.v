(** What a simulation session means. *)
From Coq Require Import List String ZArith QArith Bool Arith.
From Verif Require Import Fed.Zone Model.Base Model.Expr Model.Guard Model.Loc Model.Component Model.TS Model.Search
  Spec.StepSpec Spec.SystemSpec Spec.RunSpec.
Import ListNotations.
Local Open Scope Q_scope.

(** [decision_for s st d]: [d] describes exactly one step out of the symbolic state [st].
    Its source zone holds the states of [st] from which the transition can be taken, its
    next zone the states one then can wait in. *)
Definition decision_for (dim : nat) (s : ts) (st : state) (d : decision) : Prop :=
  offered dim s (s_loc st) (d_action d) (d_trans d) /\
  s_loc (d_state d) = s_loc st /\
  (forall v, fsem dim (s_zone (d_state d)) v <-> fsem dim (s_zone st) v /\ exists v', t_fires dim (d_trans d) v v') /\
  (exists v, fsem dim (s_zone (d_state d)) v) /\
  s_loc (d_next d) = t_target (d_trans d) /\
  (forall w, fsem dim (s_zone (d_next d)) w <->
     exists v d', fsem dim (s_zone (d_state d)) v /\ 0 <= d' /\
       veq w (vdelay (run_updates (t_updates (d_trans d)) v) d') /\ inv_at dim (t_target (d_trans d)) w).

(** Every step possible from [st] is described by some decision in [ds]. *)
Definition decisions_complete (dim : nat) (s : ts) (st : state) (ds : list decision) : Prop :=
  forall a t v v', offered dim s (s_loc st) a t -> fsem dim (s_zone st) v -> t_fires dim t v v' ->
    exists d, In d ds /\ d_action d = a /\ d_trans d = t /\ fsem dim (s_zone (d_state d)) v.

(** The symbolic states a user can visit: the initial state, then the next state of a
    decision for the state at hand. *)
Inductive session (dim : nat) (s : ts) : state -> Prop :=
| session_init st : initial_state dim s = Some st -> session dim s st
| session_step st d : session dim s st -> decision_for dim s st d -> session dim s (d_next d).
