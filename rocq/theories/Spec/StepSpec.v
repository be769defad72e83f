(** Concrete (valuation-level) semantics of updates, transitions and systems. *)
From Coq Require Import List String ZArith QArith Bool Arith.
From Verif Require Import Fed.Zone Model.Base Model.Expr Model.Guard Model.Loc Model.Component Model.TS.
Import ListNotations.
Local Open Scope Q_scope.

(** Assignments executed from left to right. *)
Definition run_updates (us : list cupdate) (v : val) : val :=
  fold_left (fun v u => vset v (u_clock u) (inject_Z (u_value u))) us v.

(** Updates only touch real clocks of the system and assign natural numbers. *)
Definition updates_ok (dim : nat) (us : list cupdate) : Prop :=
  forall u, In u us -> u_clock u <> 0%nat /\ (u_clock u < dim)%nat /\ (0 <= u_value u)%Z.

(** No clock is assigned two different values by one transition. *)
Definition no_conflict (us : list cupdate) : Prop :=
  forall u w, In u us -> In w us -> u_clock u = u_clock w -> u_value u = u_value w.

(** The invariant of a location, as a predicate. *)
Definition inv_at (dim : nat) (l : loctree) (v : val) : Prop :=
  match lt_inv l with Some f => fsem dim f v | None => val_ok dim v end.

(** Invariants that cannot become true by waiting (upper bounds only). *)
Definition past_closed (dim : nat) (l : loctree) : Prop :=
  forall v d, val_ok dim v -> 0 <= d -> inv_at dim l (vdelay v d) -> inv_at dim l v.

(** A transition can be taken from [v] and leads to [v']. *)
Definition t_fires (dim : nat) (t : transition) (v v' : val) : Prop :=
  fsem dim (t_guard t) v /\ veq v' (run_updates (t_updates t) v) /\ inv_at dim (t_target t) v'.
