(** The command line.  Models src/main.rs, the query command of src/cli.rs, the queries of src/ModelObjects/queries.rs, the projects of
    src/DataReader/{component_loader,json_reader}.rs and the lines of src/System/executable_query.rs.  The option parser (clap), JSON
    and the file system are not modelled: a file is its record of fields, and a missing one is [None]. *)
From Coq Require Import List String Ascii ZArith Bool Arith.
From Verif Require Import Fed.Zone Model.Base Model.Expr Model.Guard Model.Loc Model.Component Model.Enable Model.ParseQuery Model.Peg Model.ParseEdge Model.Files
  Model.Xml Model.Server Model.Recipe Model.Refine Model.Exec Model.Loader.
Import ListNotations.
Local Open Scope string_scope.

(** cli.rs:36-55 (the [Query] command): the query, the input folder, and whether clocks are reduced and refinement relations saved. *)
Record args := mkArgs { ag_query : text; ag_input : list string; ag_reduce : bool; ag_save : bool }.
(** What is at the input folder: SystemDeclarations.json, the query texts of Queries.json and the folder Components, or an XML document.  component_loader.rs:262-276, 347-371; json_reader.rs. *)
Record disk := mkDisk { dk_system : option text; dk_queries : option (list text); dk_components : folder; dk_xml : option elem }.

(** queries.rs:20-39 [decode_query]: an empty text is no query; a text that is not a single query panics. *)
Definition decode_query (s : text) : res (option query) :=
  match s with
  | [] => Ok None
  | _ => do qs <- expect (parse_queries s); match qs with [q] => Ok (Some q) | _ => Panic end
  end.
(** json_reader.rs:67-83 [read_queries], 7-22 [read_system_declarations]; component_loader.rs:262-276 [JsonProjectLoader::new_loader]. *)
Definition open_json (dk : disk) : res (any_loader * list (option query)) :=
  do s <- unwrap (dk_system dk); do sp <- expect (decode_system s);
  do ts <- unwrap (dk_queries dk); do qs <- mapM decode_query ts;
  Ok (AJson (json_new (dk_components dk) sp), qs).
(** main.rs:89-98 [get_project_loader]; an XML project has no queries. *)
Definition open_project (minc : nat -> fed -> fed) (path : list string) (dk : disk) : res (any_loader * list (option query)) :=
  match project_kind path with
  | XmlProject => do root <- unwrap (dk_xml dk); do p <- xml_new minc root; Ok (p, [])
  | JsonProject => open_json dk
  end.

(** cli.rs:60-62 [query_check]: clap rejects the command line (an error) if the text is no list of queries. *)
Definition query_check (s : text) : res unit := do _ <- parse_queries s; Ok tt.
(** main.rs:58-87 [parse_args]; parse_queries.rs:222-231 [parse_to_query]. *)
Definition parse_args (minc : nat -> fed -> fed) (a : args) (dk : disk) : res (any_loader * list (option query)) :=
  if ag_save a then Panic
  else
    do (p, qs) <- open_project minc (ag_input a) dk;
    match ag_query a with
    | [] => Ok (p, qs)
    | s => do qs <- expect (parse_queries s); Ok (p, map Some qs)
    end.

(** executable_query.rs:14-44 [print_result], the first line; the failure of a refinement and the edges of a path that follow are left
    out. *)
Definition result_line (q : text) (a : answer) : text :=
  (q ++ match a with
        | AComponent _ => txt " -- Component succesfully created"
        | _ => if satisfied a then txt " -- Property is satisfied" else txt " -- Property is NOT satisfied"
        end)%list.

(** main.rs:34-47: the queries one after the other, with the loader that components are saved into.  Looking components up leaves what
    is found as it is (C52), so the loader changes by saving only.  A missing query and a rejected one panic. *)
Fixpoint run_all (chs : nat -> choices) (minc : nat -> fed -> fed) (reduce : bool) (p : any_loader) (i : nat) (qs : list (option query)) : res (list answer * any_loader) :=
  match qs with
  | [] => Ok ([], p)
  | q :: qs' =>
      do q <- unwrap q;
      do a <- (match run_query (chs i) reduce (looked_up minc p) q with Err => Panic | r => r end);
      do p' <- (match a with AComponent c => Loader.save_component p c | _ => Ok p end);
      do (rest, p2) <- run_all chs minc reduce p' (S i) qs';
      Ok (a :: rest, p2)
  end.
(** main.rs:49-53. *)
Definition print_results (qs : list (option query)) (as_ : list answer) : res (list text) :=
  mapM (fun x => do q <- unwrap (fst x); Ok (result_line (print_query q) (snd x))) (combine qs as_).

(** main.rs:16-32, 34-54 [main] for the query command: the printed lines and the project afterwards. *)
Definition command_line (chs : nat -> choices) (minc : nat -> fed -> fed) (a : args) (dk : disk) : res (list text * any_loader) :=
  do _ <- query_check (ag_query a);
  do (p, qs) <- parse_args minc a dk;
  do (as_, p') <- run_all chs minc (ag_reduce a) p 0 qs;
  do ls <- print_results qs as_;
  Ok (ls, p').
