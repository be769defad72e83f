(** What a command that is interrupted may leave behind. *)
From Coq Require Import List String Ascii ZArith Bool Arith.
From Verif Require Import Fed.Zone Model.Base Model.Expr Model.Component Model.ParseQuery Model.Files Model.Recipe Model.Exec Model.Loader Model.Crash Spec.ExecSpec Spec.CliSpec Spec.StandSpec.
Import ListNotations.

(** The folder contains just these files, in full. *)
Definition intact (m : contents) (fs : folder) : Prop := forall n, m n = match fs n with Some f => Some (Whole f) | None => None end.
(** All but the file of [x], which is of no use. *)
Definition intact_but (x : string) (m : contents) (fs : folder) : Prop :=
  m x = Some Cut /\ forall n, n <> x -> m n = match fs n with Some f => Some (Whole f) | None => None end.
(** The query is about the component [x], perhaps among others. *)
Definition asks (x : string) (q : query) : Prop :=
  match q with
  | QRefinement e f => mentions x e \/ mentions x f
  | QReachability e _ _ | QConsistency e | QDeterminism e | QGetComponent e _ | QPrune e _ | QBisim e _ | QImplementation e | QSpecification e => mentions x e
  end.
(** The query makes a component that is saved under the name [x]. *)
Definition makes (x : string) (q : query) : Prop :=
  match q with QGetComponent _ n | QPrune _ n => match n with Some n => n = x | None => x = "Unnamed"%string end | _ => False end.
(** What a run of the queries leaves when it ends after any part of its work: after some of the queries were answered, the files there are
    then, in full; or, while the component that the next query made is being written, those without the file of that component. *)
Definition part_done (chs : nat -> choices) (reduce : bool) (load : string -> option component) (before : folder) (qs : list query) (m : contents) : Prop :=
  exists k as_ fs, k <= List.length qs /\ answered chs reduce JsonLoader load (firstn k qs) as_ /\ left_on_disk before fs as_ /\
    (intact m fs \/ exists c, k < List.length qs /\ answered chs reduce JsonLoader load (firstn (S k) qs) (as_ ++ [AComponent c]) /\ intact_but (c_name c) m fs).
