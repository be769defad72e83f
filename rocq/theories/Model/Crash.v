(** What is on disk while a command line runs.  Models src/DataReader/json_writer.rs 4-13 [component_to_json_file] in its two steps, opening
    (which empties the file) and writing, as they occur in the runs of src/main.rs 34-54.  Not modelled: what a file contains while
    it is being written, other than that it cannot be read (a proper beginning of the JSON text of a record is not the text of a record). *)
From Coq Require Import List String Ascii ZArith Bool Arith.
From Verif Require Import Fed.Zone Model.Base Model.Expr Model.Component Model.ParseQuery Model.Peg Model.ParseEdge Model.Files Model.Xml Model.Server Model.Recipe Model.Exec Model.Loader Model.Cli.
Import ListNotations.

(** A file that was written to its end, and one that was not.  json_writer.rs:4-13: [File::create] empties the file before it is written. *)
Inductive stored := Whole (f : file_comp) | Cut.
(** The folder Components.  json_writer.rs:4-8: where the files are. *)
Definition contents := string -> option stored.
(** json_writer.rs:4-13, finished. *)
Definition whole (fs : folder) : contents := fun n => match fs n with Some f => Some (Whole f) | None => None end.
(** json_reader.rs:42-58 [read_json]: a file that is no JSON text panics like a missing one. *)
Definition readable (m : contents) : folder := fun n => match m n with Some (Whole f) => Some f | _ => None end.
(** json_writer.rs:10 [File::create]. *)
Definition emptied (x : string) (m : contents) : contents := fun n => if String.eqb n x then Some Cut else m n.

(** main.rs:34-47, with component_loader.rs:229-233 [save_component] and json_writer.rs:4-13: all the contents the folder has one after the
    other while the queries are answered, up to the end or to the first query that panics.  Answering reads files only. *)
Fixpoint moments (chs : nat -> choices) (minc : nat -> fed -> fed) (reduce : bool) (j : json_project) (i : nat) (qs : list (option query)) : list contents :=
  whole (jp_files j) ::
  match qs with
  | Some q :: qs' =>
      match run_query (chs i) reduce (looked_up minc (AJson j)) q with
      | Ok (AComponent c) =>
          emptied (c_name c) (whole (jp_files j)) ::
          match json_save j c with Ok j' => moments chs minc reduce j' (S i) qs' | _ => [] end
      | Ok _ => moments chs minc reduce j (S i) qs'
      | _ => []
      end
  | _ => []
  end.
(** The whole command on a JSON project, before which nothing is written: main.rs:16-32, 56-87. *)
Definition command_moments (chs : nat -> choices) (minc : nat -> fed -> fed) (a : args) (dk : disk) : list contents :=
  match query_check (ag_query a), parse_args minc a dk with
  | Ok _, Ok (AJson j, qs) => moments chs minc (ag_reduce a) j 0 qs
  | _, _ => [whole (dk_components dk)]
  end.
