(** What is said about components that queries create. *)
From Coq Require Import List String ZArith QArith Bool Arith.
From Verif Require Import Fed.Zone Model.Base Model.Expr Model.Guard Model.Loc Model.Component Model.TS Model.ParseQuery Model.Recipe Model.Reduce Model.Search Model.Refine Model.Query Model.Exec
  Spec.BoundSpec Spec.StepSpec Spec.SystemSpec Spec.RunSpec Spec.RefineSpec Spec.EnableSpec Spec.RecipeSpec Spec.ReduceSpec Spec.SameSpec Spec.ExecSpec.
Import ListNotations.

(** The project with the component [c] stored under the name [m]. *)
Definition storing (m : string) (c : component) (load : string -> option component) : string -> option component :=
  fun n => if String.eqb n m then Some c else load n.

(** The expression mentions a component named [m]. *)
Fixpoint mentions (m : string) (e : sysx) : Prop :=
  match e with
  | XComp n _ => n = m
  | XPar a b | XConj a b | XQuot a b => mentions m a \/ mentions m b
  end.
Fixpoint quotients (e : sysx) : nat :=
  match e with
  | XComp _ _ => 0
  | XPar a b | XConj a b => quotients a + quotients b
  | XQuot a b => S (quotients a + quotients b)
  end.

(** Every action of the system can happen. *)
Definition actions_happen (dim : nat) (s : ts) : Prop :=
  forall a, is_action s a -> a <> "*"%string /\ exists l v t, reachable dim s l v /\ offered dim s l a t /\ able dim l t v.

(** The query "get-component: e save-as m" is answered with the component [c]; [s] is the system [e] names. *)
Record created (ch : choices) (reduce : bool) (load : string -> option component) (e : sysx) (m : string) (d : nat) (s : ts) (c : component) : Prop := {
  cr_fair : fair ch;
  cr_names : names_one load e d s;
  cr_small : (Z.of_nat d < 4294967295)%Z;
  cr_drop : reduce = true -> dropped_unmentioned (the_redundant ch) load e /\ nothing_merged (the_redundant ch) load e;
  (** the names can be told apart when they are put together; there is one quotient at most *)
  cr_saveable : forall r st, get_system_recipe load e (0, None)%nat = Ok (r, st) -> saveable_names r;
  cr_quotients : (quotients e <= 1)%nat;
  cr_new : ~ mentions m e;
  (** no action is an input and an output, and every action can happen *)
  cr_io : io_disjoint s;
  cr_happen : actions_happen d s;
  cr_fuel : (List.length (all_locations d s) <= ch_fuel ch)%nat;
  cr_answer : run_query ch reduce load (QGetComponent e (Some m)) = Ok (AComponent c) }.
