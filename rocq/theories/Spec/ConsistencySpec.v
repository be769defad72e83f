(** Consistency, stated over symbolic states (a location and a set of clock values) and,
    for the refutations, over single states. *)
From Coq Require Import List String ZArith QArith Bool Arith.
From Verif Require Import Fed.Zone Model.Base Model.Expr Model.Guard Model.Loc Model.Component Model.TS Spec.StepSpec Spec.SystemSpec Spec.RunSpec.
Import ListNotations.
Local Open Scope Q_scope.

(** [v] can be reached from the symbolic state [x] by taking [t] and then waiting. *)
Definition moves (dim : nat) (x : state) (t : transition) (v : val) : Prop :=
  exists w d, fsem dim (s_zone x) w /\ fsem dim (t_guard t) w /\ 0 <= d /\
    veq v (vdelay (run_updates (t_updates t) w) d) /\ inv_at dim (t_target t) v.
Definition possible (dim : nat) (x : state) (t : transition) : Prop := exists v, moves dim x t v.

(** Everything [t] can do from [x] stays inside the collection [W]. *)
Definition into (dim : nat) (W : list state) (x : state) (t : transition) : Prop :=
  is_universal (t_target t) = true \/
  exists y, In y W /\ s_loc y = t_target t /\ forall v, moves dim x t v -> fsem dim (s_zone y) v.

(** Some clock values of [x] let time pass forever without leaving it. *)
Definition can_wait (dim : nat) (x : state) : Prop :=
  exists v, forall d, 0 <= d -> fsem dim (s_zone x) (vdelay v d).

(** A collection of symbolic states in which the system survives every input: no state is
    inconsistent, inputs stay inside, and time can pass forever or an output stays inside. *)
Definition survives (dim : nat) (s : ts) (W : list state) : Prop :=
  forall x, In x W ->
    is_inconsistent (s_loc x) = false /\
    (forall a t, is_input s a -> offered dim s (s_loc x) a t -> possible dim x t -> into dim W x t) /\
    (can_wait dim x \/
     exists a t, is_output s a /\ offered dim s (s_loc x) a t /\ possible dim x t /\ into dim W x t).

(** All states reachable from the start of the system, before any action. *)
Definition starts_in (dim : nat) (s : ts) (W : list state) : Prop :=
  exists l0, initial_location dim s = Some l0 /\
    (is_universal l0 = true \/
     exists y, In y W /\ s_loc y = l0 /\ forall d, 0 <= d -> inv_at dim l0 (vdelay zero_val d) -> fsem dim (s_zone y) (vdelay zero_val d)).

(** A location offers at most one output transition in all. *)
Definition single_output (dim : nat) (s : ts) : Prop :=
  forall l, In l (all_locations dim s) -> forall a ts, is_output s a -> next_transitions dim s l a = Ok ts ->
    ts = [] \/ (exists t, ts = [t]) /\ forall b, is_output s b -> b <> a -> next_transitions dim s l b = Ok [].

(** A strategy for single states when no input arrives: wait forever, or wait and produce an output that leads to a state with a
    strategy again.  Inputs are not considered. *)
Definition strategy (dim : nat) (s : ts) (R : loctree -> val -> Prop) : Prop :=
  forall l v, R l v -> is_universal l = true \/
    is_inconsistent l = false /\ inv_at dim l v /\
    ((forall d, 0 <= d -> inv_at dim l (vdelay v d)) \/
     exists d a t, 0 <= d /\ (forall e, 0 <= e -> e <= d -> inv_at dim l (vdelay v e)) /\
       is_output s a /\ offered dim s l a t /\ able dim l t (vdelay v d) /\
       R (t_target t) (run_updates (t_updates t) (vdelay v d))).
