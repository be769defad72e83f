(** The lines a command line prints about the components on disk. *)
From Coq Require Import List String Ascii ZArith Bool.
From Verif Require Import Fed.Zone Model.Base Model.Component Model.ParseQuery Model.Peg Model.Files Model.Xml Model.Loader Model.Exec Model.Cli Spec.FileSpec Spec.LoaderSpec.
Import ListNotations.
Local Open Scope string_scope.
Local Open Scope list_scope.

(** Queries that create components. *)
Definition creates (q : query) : bool := match q with QGetComponent _ _ | QPrune _ _ => true | _ => false end.

(** [l] is the line printed for [q], the query at place [i] of the text, and no component has been created before it. *)
Definition told (chs : nat -> choices) (minc : nat -> fed -> fed) (a : args) (dk : disk) (i : nat) (q : query) (l : text) : Prop :=
  exists qs ls p', parse_queries (ag_query a) = Ok qs /\ command_line chs minc a dk = Ok (ls, p') /\
    nth_error qs i = Some q /\ nth_error ls i = Some l /\ forall x, In x (firstn i qs) -> creates x = false.

(** The components of a folder, as queries see them: the files declare every clock once and assign natural numbers. *)
Definition on_disk (minc : nat -> fed -> fed) (a : args) (dk : disk) (load : string -> option component) : Prop :=
  project_kind (ag_input a) = JsonProject /\ (forall n x, dk_components dk n = Some x -> sound_file x) /\
  exists sp, (forall x, dk_system dk = Some x -> decode_system x = Ok sp) /\ load = looked_up minc (AJson (json_new (dk_components dk) sp)).

Definition holds_line (q : query) : text := print_query q ++ txt " -- Property is satisfied".
Definition fails_line (q : query) : text := print_query q ++ txt " -- Property is NOT satisfied".
