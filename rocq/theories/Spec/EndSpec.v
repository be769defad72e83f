(** Searches that end. *)
From Coq Require Import List String ZArith QArith Bool Arith.
From Verif Require Import Fed.Zone Model.Base Model.Expr Model.Guard Model.Loc Model.Component Model.TS Model.PairList Model.Exec.
Import ListNotations.
Local Open Scope nat_scope.

(** After [n] steps the search has ended, with the answer it gives for every larger number of steps: there is nothing left to do. *)
Definition ended_at {A} (F : nat -> res A) (n : nat) : Prop := F n <> NoFuel /\ forall m, n <= m -> F m = F n.
(** It has ended with an answer: neither aborted nor refused. *)
Definition answered_at {A} (F : nat -> res A) (n : nat) : Prop := exists a, forall m, n <= m -> F m = Ok a.

(** [F] yields finitely many sets of valuations. *)
Definition few (dim : nat) (F : fed -> fed) : Prop :=
  exists zs, forall f, exists z, In z zs /\ forall v, fsem dim (F f) v <-> fsem dim z v.

(** Only actions that are there are looked at. *)
Definition listed (ord : list state -> list string -> list string) : Prop := forall p l a, In a (ord p l) -> In a l.
Definition pair_listed (aord : pair -> list string -> list string) : Prop := forall p l a, In a (aord p l) -> In a l.

(** The choices with another number of steps for the searches. *)
Definition with_fuel (n : nat) (ch : choices) : choices :=
  mkChoices n (ch_ext ch) (ch_pext ch) (ch_xext ch) (ch_minc ch) (ch_predt ch) (ch_sord ch) (ch_aord ch) (ch_ord ch) (ch_kord ch) (ch_cord ch) (ch_gord ch).

(** Extrapolation leaves finitely many zones for each location, or pair of locations, of the systems that are explored. *)
Definition few_zones (ch : choices) : Prop :=
  (forall d s l, 0 < d -> few d (ch_ext ch d s l)) /\ (forall d s t l m, 0 < d -> few d (ch_pext ch d s t l m)) /\ (forall d s z l, 0 < d -> few d (ch_xext ch d s z l)).
(** Hash sets and maps list what is in them. *)
Definition only_members (ch : choices) : Prop :=
  listed (ch_sord ch) /\ pair_listed (ch_aord ch).
