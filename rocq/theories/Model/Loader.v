(** Component loaders.  Models src/DataReader/component_loader.rs 110-378 and the reading and writing of component files
    in src/DataReader/{json_reader,json_writer}.rs; a file is its record of fields (Model/Files.v), a folder a partial map
    from component names to files. *)
From Coq Require Import List String Ascii ZArith Bool Arith.
From Verif Require Import Fed.Zone Model.Base Model.Expr Model.Guard Model.Loc Model.Component Model.Enable Model.ParseQuery Model.Peg Model.ParseEdge Model.Files
  Model.Xml Model.Server Model.Recipe.
Import ListNotations.
Local Open Scope string_scope.

Definition folder := string -> option file_comp.
(** The folder Components, the system declarations (which are read once) and the components loaded or saved so far.  component_loader.rs:206-212 [JsonProjectLoader]. *)
Record json_project := mkJson { jp_files : folder; jp_spec : sysspec; jp_loaded : cmap }.
(** The three kinds of [ComponentLoader].  component_loader.rs:110-317. *)
Inductive any_loader := AJson (p : json_project) | AXml (m : cmap) | AServer (m : cmap).

Section Loader.
(** edbm [minimal_constraints], for zones of every dimension. *)
Variable minc : nat -> fed -> fed.

(** component_loader.rs:283-288, 357-361: input enabling with the declared inputs, if there are any. *)
Definition enable_declared (sp : sysspec) (c : component) : res component :=
  match assoc (c_name c) (sp_ins sp) with
  | Some ins => make_input_enabled (minc (comp_dim c)) c ins
  | None => Ok c
  end.
(** component_loader.rs:262-276 [JsonProjectLoader::new_loader]. *)
Definition json_new (files : folder) (sp : sysspec) : json_project := mkJson files sp [].
(** json_reader.rs:24-40 [read_json_component]: a missing or unreadable file panics. *)
Definition read_json_component (files : folder) (n : string) : res component :=
  match files n with Some f => expect (decode_component f) | None => Panic end.
(** component_loader.rs:278-290 [load_component]: stored under the name asked for. *)
Definition load_component (p : json_project) (n : string) : res json_project :=
  do c <- read_json_component (jp_files p) n;
  do c' <- enable_declared (jp_spec p) c;
  Ok (mkJson (jp_files p) (jp_spec p) (map_insert n c' (jp_loaded p))).
(** component_loader.rs:124-130, 221-226, 308-313: look up; the component must have the name asked for. *)
Definition get_loaded (m : cmap) (n : string) : res component :=
  match assoc n m with Some c => if String.eqb n (c_name c) then Ok c else Panic | None => Panic end.
(** component_loader.rs:216-227 [JsonProjectLoader::get_component]. *)
Definition json_get (p : json_project) (n : string) : res (component * json_project) :=
  do p' <- match assoc n (jp_loaded p) with Some _ => Ok p | None => load_component p n end;
  do c <- get_loaded (jp_loaded p') n;
  Ok (c, p').
(** component_loader.rs:229-233 [save_component], json_writer.rs:4-13. *)
Definition json_save (p : json_project) (c : component) : res json_project :=
  do f <- encode_component c;
  Ok (mkJson (fun n => if String.eqb n (c_name c) then Some f else jp_files p n) (jp_spec p) (map_insert (c_name c) c (jp_loaded p))).

(** component_loader.rs:347-371 [XmlProjectLoader::new_loader]. *)
Fixpoint xml_map (sp : sysspec) (cs : list component) (m : cmap) : res cmap :=
  match cs with
  | [] => Ok m
  | c :: cs' => do c' <- enable_declared sp c; xml_map sp cs' (map_insert (c_name c') c' m)
  end.
Definition xml_new (root : elem) : res any_loader :=
  do (cs, sp) <- parse_xml root; do m <- xml_map sp cs []; Ok (AXml m).
(** component_loader.rs:157-168 [From<Vec<Component>> for ComponentContainer]. *)
Fixpoint container (cs : list component) (m : cmap) : res cmap :=
  match cs with
  | [] => Ok m
  | c :: cs' => do c' <- make_input_enabled (minc (comp_dim c)) c (input_actions c); container cs' (map_insert (c_name c') c' m)
  end.
Definition server_new (cs : list component) : res any_loader := do m <- container cs []; Ok (AServer m).

(** [ComponentLoader::get_component] and [save_component] of the three: component_loader.rs:123-134, 215-233, 306-318. *)
Definition get_component (p : any_loader) (n : string) : res (component * any_loader) :=
  match p with
  | AJson j => do (c, j') <- json_get j n; Ok (c, AJson j')
  | AXml m | AServer m => do c <- get_loaded m n; Ok (c, p)
  end.
Definition save_component (p : any_loader) (c : component) : res any_loader :=
  match p with
  | AJson j => do j' <- json_save j c; Ok (AJson j')
  | AXml _ => Panic
  | AServer _ => Ok p
  end.

(** What a loader finds under a name.  component_loader.rs:111 [get_component]. *)
Definition looked_up (p : any_loader) (n : string) : option component := match get_component p n with Ok (c, _) => Some c | _ => None end.

(** extract_system_rep.rs:306-348 [get_system_recipe], with the loader it changes as it goes. *)
Fixpoint recipe_with (e : sysx) (p : any_loader) (st : nat * option nat) : res (recipe * any_loader * (nat * option nat)) :=
  match e with
  | XPar l r =>
      do (l', p1, st1) <- recipe_with l p st; do (r', p2, st2) <- recipe_with r p1 st1; Ok (RComp l' r', p2, st2)
  | XConj l r =>
      do (l', p1, st1) <- recipe_with l p st; do (r', p2, st2) <- recipe_with r p1 st1; Ok (RConj l' r', p2, st2)
  | XQuot l r =>
      do (l', p1, st1) <- recipe_with l p st; do (r', p2, st2) <- recipe_with r p1 st1;
      match snd st2 with
      | Some q => Ok (RQuot l' r' q, p2, st2)
      | None => let q := S (fst st2) in Ok (RQuot l' r' q, p2, (q, Some q))
      end
  | XComp n id =>
      do (c, p') <- get_component p n;
      Ok (RSimple (instantiate c id (fst st)), p', (fst st + clock_count c, snd st))
  end.

(** What is done with a loader.  component_loader.rs:110-115 [ComponentLoader]. *)
Inductive op := OGet (n : string) | OSave (c : component).
(** The components returned, in order.  component_loader.rs:110-115. *)
Fixpoint run_ops (ops : list op) (p : any_loader) : res (list component * any_loader) :=
  match ops with
  | [] => Ok ([], p)
  | OGet n :: ops' => do (c, p1) <- get_component p n; do (cs, p2) <- run_ops ops' p1; Ok (c :: cs, p2)
  | OSave c :: ops' => do p1 <- save_component p c; run_ops ops' p1
  end.
End Loader.
