(** What is asked of specifications by the laws of refinement. *)
From Coq Require Import List String ZArith QArith Bool Arith.
From Verif Require Import Fed.Zone Model.Base Model.Expr Model.Guard Model.Loc Model.Component Model.TS Spec.StepSpec Spec.SystemSpec Spec.RunSpec Spec.RefineSpec.
Import ListNotations.
Local Open Scope Q_scope.

(** Whatever happened before, every input can be received. *)
Definition accepting (dim : nat) (s : ts) : Prop :=
  forall l v a, reachable dim s l v -> is_input s a -> exists t, offered dim s l a t /\ able dim l t v.

(** Whatever happened before, time can pass, or one of the given outputs can be sent. *)
Definition lively (dim : nat) (s : ts) (outs : string -> Prop) : Prop :=
  forall l v, reachable dim s l v ->
    (exists d, 0 < d /\ forall e, 0 <= e -> e <= d -> inv_at dim l (vdelay v e)) \/
    (exists a t, outs a /\ is_output s a /\ offered dim s l a t /\ able dim l t v).

(** The system can be in its initial state. *)
Definition can_start (dim : nat) (s : ts) : Prop :=
  exists l, initial_location dim s = Some l /\ inv_at dim l zero_val.

(** A system as the tool builds it from compiled components: its guards and invariants read, and its updates set, only its own clocks. *)
Record good (dim : nat) (s : ts) : Prop := {
  g_built : built dim s;
  g_reads : reads_ok s;
  g_clocks : exists q, clocks_ok dim q s }.
