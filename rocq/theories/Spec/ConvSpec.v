(** Writing sets of clock valuations as guard expressions. *)
From Coq Require Import List String ZArith QArith Bool Arith.
From Verif Require Import Fed.Zone Model.Base Model.Expr Spec.GuardSpec.
Import ListNotations.

(** [None] is the guard that is left out, which is true. *)
Definition osat (d : decls) (v : val) (g : option bexpr) : Prop := match g with Some b => bsat d v b | None => True end.

(** Every name the naming hands out is a declared clock with that number. *)
Definition names_declared (d : decls) (nm : naming) : Prop :=
  forall i s, nm i = Some s -> assoc s (d_clocks d) = Some i.

(** Every clock that occurs has a name, and no constraint is about the reference clock only. *)
Definition nameable (nm : naming) (f : fed) : Prop :=
  forall z c, In z f -> In c z ->
    (ci c <> 0%nat \/ cj c <> 0%nat) /\
    (ci c <> 0%nat -> nm (ci c) <> None) /\ (cj c <> 0%nat -> nm (cj c) <> None).
