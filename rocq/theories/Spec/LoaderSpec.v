(** What a loader should return, in terms of the files of the project and what has been saved. *)
From Coq Require Import List String Ascii ZArith Bool Arith.
From Verif Require Import Fed.Zone Model.Base Model.Expr Model.Guard Model.Loc Model.Component Model.Enable Model.Peg Model.ParseEdge Model.Files Model.Server Model.Loader
  Spec.LayoutSpec Spec.FileSpec Spec.EnableSpec Spec.RecipeSpec.
Import ListNotations.
Local Open Scope string_scope.

(** The last component saved under a name. *)
Definition last_saved (n : string) (ops : list op) : option component :=
  fold_left (fun o x => match x with OSave c => if String.eqb (c_name c) n then Some c else o | OGet _ => o end) ops None.

Section LoaderSpec.
Variable minc : nat -> fed -> fed.
Variable files : folder.
Variable sp : sysspec.
(** The component, made to accept its declared inputs everywhere if any are declared. *)
Definition prepared (c0 c : component) : Prop :=
  match assoc (c_name c0) (sp_ins sp) with
  | Some ins => make_input_enabled (minc (comp_dim c0)) c0 ins = Ok c
  | None => c = c0
  end.
(** The component of a file: the file can be read and the component has the name of the file. *)
Definition in_file (n : string) (c : component) : Prop :=
  exists f c0, files n = Some f /\ decode_component f = Ok c0 /\ c_name c0 = n /\ prepared c0 c.
(** The component of that name after the given operations. *)
Definition provides (before : list op) (n : string) (c : component) : Prop :=
  match last_saved n before with Some c' => c = c' | None => in_file n c end.
(** No location is the wildcard of the program's own, which has no text, and the edges are between the locations. *)
Definition storable (c : component) : Prop := (forall l, In l (c_locs c) -> l_type l <> AnyType) /\ connected c.
(** The components that should be returned by the operations, after those before. *)
Inductive answers : list op -> list op -> list component -> Prop :=
| ans_done before : answers before [] []
| ans_get before n ops c cs : provides before n c -> answers (before ++ [OGet n]) ops cs -> answers before (OGet n :: ops) (c :: cs)
| ans_save before c ops cs : storable c -> answers (before ++ [OSave c]) ops cs -> answers before (OSave c :: ops) cs.

(** The last component of that name in a list, prepared. *)
Definition last_named (n : string) (cs : list component) (c : component) : Prop :=
  exists pre post, cs = (pre ++ c :: post)%list /\ c_name c = n /\ forall c', In c' post -> c_name c' <> n.
End LoaderSpec.

(** Files whose declarations list every clock once, and whose updates assign natural numbers, each clock one at most. *)
Definition sound_file (f : file_comp) : Prop :=
  (exists ls, fc_decls f = decl_text ls /\ (forall l, In l ls -> dline_ok l) /\ NoDup (declared ls)) /\
  forall c, decode_component f = Ok c -> good_resets c.
