(** Which systems a query may ask for. *)
From Coq Require Import List String ZArith QArith Bool Arith.
From Verif Require Import Fed.Zone Model.Base Model.Expr Model.Guard Model.Loc Model.Component Model.TS
  Spec.StepSpec Spec.SystemSpec Spec.RunSpec Spec.ConsistencySpec.
Import ListNotations.

(** How a system was made from which operands. *)
Inductive made_by := Composition | Conjunction | Quotient.
Definition operands (s : ts) : option (made_by * ts * ts) :=
  match s with
  | TSimple _ => None
  | TComp l r _ _ _ _ _ => Some (Composition, l, r)
  | TConj l r _ _ => Some (Conjunction, l, r)
  | TQuot t d _ _ _ _ => Some (Quotient, t, d)
  end.
(** [inside p s]: [p] is [s] or one of the systems [s] was made from, at any depth. *)
Inductive inside (p : ts) : ts -> Prop :=
| in_self : inside p p
| in_left s k l r : operands s = Some (k, l, r) -> inside p l -> inside p s
| in_right s k l r : operands s = Some (k, l, r) -> inside p r -> inside p s.

(** The actions of the two operands do not clash. *)
Definition compatible (k : made_by) (l r : ts) : Prop :=
  match k with
  | Composition => forall a, ~ (is_output l a /\ is_output r a)
  | Conjunction => forall a, ~ (is_input l a /\ is_output r a) /\ ~ (is_output l a /\ is_input r a)
  | Quotient => forall a, ~ (is_output r a /\ is_input l a)
  end.

(** A component of the system can survive every environment: see Spec/ConsistencySpec.v. *)
Definition survivable (dim : nat) (c : ts) : Prop := exists W, starts_in dim c W /\ survives dim c W.
