(** What is said about the answers to several queries. *)
From Coq Require Import List String ZArith QArith Bool Arith.
From Verif Require Import Fed.Zone Model.Base Model.Expr Model.Guard Model.Loc Model.Component Model.TS Model.ParseQuery Model.Recipe Model.Reduce Model.Search Model.Refine Model.Query Model.Exec
  Spec.BoundSpec Spec.StepSpec Spec.SystemSpec Spec.RunSpec Spec.ReachSpec Spec.RefineSpec Spec.EnableSpec Spec.RecipeSpec Spec.ReduceSpec Spec.SameSpec Spec.ExecSpec.
Import ListNotations.

(** The query "refinement: e <= f" is answered with "satisfied". *)
Definition yes (ch : choices) (reduce : bool) (load : string -> option component) (e f : sysx) : Prop :=
  exists a, run_query ch reduce load (QRefinement e f) = Ok a /\ satisfied a = true.
(** It is answered with a behaviour of e that f does not have (or the other way round for inputs). *)
Definition no (ch : choices) (reduce : bool) (load : string -> option component) (e f : sysx) : Prop :=
  exists o, run_query ch reduce load (QRefinement e f) = Ok (ARefinement o) /\
    match o with RCannotMatch _ _ | RCutsDelays _ _ | REmptyChild _ | REmptyInitial => True | _ => False end.

(** What is assumed of a query for its answer "satisfied" to be right (C50), and for the answer that names a behaviour. *)
Record trusted_yes (ch : choices) (reduce : bool) (load : string -> option component) (e f : sysx) (d : nat) (s t : ts) : Prop := {
  ty_fair : fair ch;
  ty_names : names_two load e f d s t;
  ty_small : (Z.of_nat d < 4294967295)%Z;
  ty_quot : has_quotient e && has_quotient f = false;
  ty_drop : reduce = true -> dropped_unmentioned_two (the_redundant ch) load e f;
  ty_gaps : no_gaps d t;
  ty_start : starts_together d s t }.
Record trusted_no (ch : choices) (reduce : bool) (load : string -> option component) (e f : sysx) (d : nat) (s t : ts) : Prop := {
  tn_fair : fair ch;
  tn_names : names_two load e f d s t;
  tn_small : (Z.of_nat d < 4294967295)%Z;
  tn_quot : has_quotient e && has_quotient f = false;
  tn_drop : reduce = true -> dropped_unmentioned_two (the_redundant ch) load e f;
  tn_explores : exists acc, explores_pairs acc ch load;
  tn_upper : upper_invariants d s /\ upper_invariants d t;
  tn_inside : enters_inside d t;
  tn_plain : no_reserved s = true /\ no_reserved t = true /\ plain_divisors s = true /\ plain_divisors t = true }.
