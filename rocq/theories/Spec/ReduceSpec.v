(** What the clock analysis may rely on and what it must deliver. *)
From Coq Require Import List String ZArith QArith Bool Arith Permutation.
From Verif Require Import Fed.Zone Model.Base Model.Expr Model.Guard Model.Loc Model.Component Model.TS Model.Reduce
  Spec.StepSpec Spec.SystemSpec Spec.RunSpec Spec.RefineSpec.
Import ListNotations.

(** The truth of [P] does not depend on the value of clock [i]. *)
Definition ignores (dim i : nat) (P : val -> Prop) : Prop :=
  forall v w, val_ok dim v -> val_ok dim w -> (forall j, j <> i -> (v j == w j)%Q) -> P v -> P w.

(** All clocks of the system are below its dimension. *)
Definition clocks_below (dim : nat) (s : ts) : Prop := forall x, In x (sys_clocks s) -> (x < dim)%nat.

(** The values assigned by the edges of the components fit 32 bits. *)
Fixpoint small_values (s : ts) : Prop :=
  match s with
  | TSimple c => forall i es a t u, In (i, es) (cc_edges c) -> In (a, t) es -> In u (t_updates t) -> (u_value u < 4294967296)%Z
  | TConj l r _ _ | TComp l r _ _ _ _ _ => small_values l /\ small_values r
  | TQuot t d _ _ _ _ => small_values t /\ small_values d
  end.

(** Iteration orders: the same elements. *)
Definition same_elements {A} (f : list A -> list A) : Prop := forall l x, In x (f l) <-> In x l.
Definition reorders {A} (f : list A -> list A) : Prop := forall l, Permutation (f l) l.

(** [minimal_constraints] says nothing about the set of all valuations. *)
Definition silent (dim : nat) (minc : fed -> fed) : Prop :=
  forall f, (forall v, val_ok dim v -> fsem dim f v) -> con_clocks (minc f) = [].

(** [minimal_constraints] only mentions clocks the set depends on. *)
Definition confined (dim : nat) (minc : fed -> fed) : Prop :=
  forall xs f, (forall v w, val_ok dim v -> val_ok dim w -> (forall i, In i xs -> (v i == w i)%Q) -> fsem dim f v -> fsem dim f w) ->
  forall z c, In z (minc f) -> In c z -> (ci c = 0%nat \/ In (ci c) xs) /\ (cj c = 0%nat \/ In (cj c) xs).
