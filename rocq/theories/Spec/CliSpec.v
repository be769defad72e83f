(** What a command line should print and leave on disk. *)
From Coq Require Import List String Ascii ZArith Bool Arith.
From Verif Require Import Fed.Zone Model.Base Model.Expr Model.Component Model.ParseQuery Model.Peg Model.Files Model.Refine Model.Exec Model.Loader Spec.ExecSpec.
Import ListNotations.
Local Open Scope string_scope.
Local Open Scope list_scope.

(** The line for a query and its answer. *)
Inductive says (q : query) : answer -> text -> Prop :=
| says_refines : says q (ARefinement RSuccess) (print_query q ++ txt " -- Property is satisfied")
| says_not_refines o : o <> RSuccess -> says q (ARefinement o) (print_query q ++ txt " -- Property is NOT satisfied")
| says_reachable ds : says q (AReachability (Some ds)) (print_query q ++ txt " -- Property is satisfied")
| says_unreachable : says q (AReachability None) (print_query q ++ txt " -- Property is NOT satisfied")
| says_consistent : says q (AConsistency true) (print_query q ++ txt " -- Property is satisfied")
| says_inconsistent : says q (AConsistency false) (print_query q ++ txt " -- Property is NOT satisfied")
| says_deterministic : says q (ADeterminism None) (print_query q ++ txt " -- Property is satisfied")
| says_nondeterministic o : says q (ADeterminism (Some o)) (print_query q ++ txt " -- Property is NOT satisfied")
| says_component c : says q (AComponent c) (print_query q ++ txt " -- Component succesfully created").

(** The answers to the queries, each over the project together with the components saved for earlier ones. *)
Definition answered (chs : nat -> choices) (reduce : bool) (k : loader) (load : string -> option component) (qs : list query) (as_ : list answer) : Prop :=
  List.length as_ = List.length qs /\
  (forall i q a, nth_error qs i = Some q -> nth_error as_ i = Some a -> run_query (chs i) reduce (visible k load (firstn i as_)) q = Ok a) /\
  (k = XmlLoader -> forall c, ~ In (AComponent c) as_).
(** The files afterwards: those of the components that were answered last under their names, and otherwise those before. *)
Definition left_on_disk (before after : folder) (as_ : list answer) : Prop :=
  forall n, match find (saved_under n) (rev as_) with
            | Some (AComponent c) => exists f, encode_component c = Ok f /\ after n = Some f
            | _ => after n = before n
            end.
