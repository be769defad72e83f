(** XML models: src/DataReader/xml_parser.rs, and how a project is recognised as XML (src/main.rs).
    The XML text itself (crate elementtree) is not modelled: a document is its tree of elements.  Texts are ASCII. *)
From Coq Require Import List String Ascii ZArith Bool Arith.
From Verif Require Import Fed.Zone Model.Base Model.Expr Model.Guard Model.Loc Model.Component Model.Peg Model.ParseEdge Model.Files.
Import ListNotations.
Local Open Scope string_scope.

(** elementtree [Element]: tag, attributes, the text before the first child, children.  xml_parser.rs:37. *)
Inductive elem := Elem (tag : string) (attrs : list (string * string)) (body : text) (kids : list elem).
Definition el_tag (e : elem) : string := let 'Elem t _ _ _ := e in t.
Definition el_text (e : elem) : text := let 'Elem _ _ b _ := e in b.
(** [find_all], [find] and [get_attr].  xml_parser.rs:42-60. *)
Definition find_all (t : string) (e : elem) : list elem := let 'Elem _ _ _ ks := e in filter (fun k => String.eqb (el_tag k) t) ks.
Definition find_first (t : string) (e : elem) : option elem := hd_error (find_all t e).
Definition get_attr (a : string) (e : elem) : option string := let 'Elem _ l _ _ := e in assoc a l.

(** ** Which projects are XML *)

(** A path is its list of components.  xml_parser.rs:15-17 [is_xml_project]: [Path::ends_with] compares whole components. *)
Definition is_xml_project (path : list string) : bool := match rev path with c :: _ => String.eqb c ".xml" | [] => false end.
(** main.rs:89-98 [get_project_loader]. *)
Inductive project := XmlProject | JsonProject.
Definition project_kind (path : list string) : project := if is_xml_project path then XmlProject else JsonProject.

(** ** Declarations  xml_parser.rs:163. *)
Definition cr : ascii := ascii_of_nat 13.
(** xml_parser.rs:155-193: one line; unlike serialization.rs carriage returns are dropped. *)
Definition xml_decl_line (st : decls * nat) (s : text) : res (decls * nat) :=
  match s with
  | [] => Ok st
  | _ => if starts "//" s then Ok st else foldM (fun st d => decode_decl st (without cr d)) (split_on ";" s) st
  end.
(** xml_parser.rs:149-196 [parse_declarations]. *)
Definition parse_declarations (s : text) : res decls :=
  do st <- foldM xml_decl_line (split_on newline s) (mkDecls [] [], 1); Ok (fst st).

(** ** System declarations *)

(** [char::is_whitespace] for ASCII; [str::trim] leaves nothing of a text of whitespace only.  xml_parser.rs:213, 219. *)
Definition is_space (c : ascii) : bool := existsb (Ascii.eqb c) (map ascii_of_nat [9; 10; 11; 12; 13; 32]).
Definition blank (s : text) : bool := forallb is_space s.
Definition no_space (s : text) : text := filter (fun c => negb (is_space c)) s.
(** xml_parser.rs:241-248: the words after the component name. *)
Definition xml_actions (words : list text) : list text :=
  flat_map (fun w => split_on "," (without "}" (without newline (without cr (without "{" w))))) words.
(** xml_parser.rs:237-275: an IO line. *)
Definition xml_io (names : list text) (sp : sysspec) (s : text) : res sysspec :=
  match split_on " " s with
  | io :: words =>
      if String.eqb (str io) "IO" then
        match words with
        | n :: words' =>
            if existsb (fun m => String.eqb (str m) (str n)) names
            then foldM (decode_action (str n)) (xml_actions words') sp
            else Panic
        | [] => Panic
        end
      else Ok sp
  | [] => Panic
  end.
(** xml_parser.rs:207-277: one line; [None] until the first line has been read. *)
Definition xml_sys_line (st : option (list text) * sysspec) (s : text) : res (option (list text) * sysspec) :=
  match s with
  | [] => Ok st
  | _ =>
      if starts "//" s then Ok st
      else if blank s then Ok st
      else
        do (names, sp) <-
          match fst st with
          | Some names => Ok (names, snd st)
          | None =>
              match map no_space (split_on " " s) with
              | first :: words =>
                  if String.eqb (str first) "system" then
                    let ns := map (fun w => without ";" (without "," w)) words in
                    Ok (first :: ns, mkSpec (sp_comps (snd st) ++ map str ns)%list (sp_ins (snd st)) (sp_outs (snd st)))
                  else Panic
              | [] => Panic
              end
          end;
        do sp' <- xml_io names sp s;
        Ok (Some names, sp')
  end.
(** xml_parser.rs:198-283 [decode_sync_type]. *)
Definition xml_system (s : text) : res sysspec :=
  do st <- foldM xml_sys_line (split_on newline s) (None, mkSpec [] [] []); Ok (snd st).

(** ** Components *)

(** xml_parser.rs:73-95 [collect_locations]: the first label is the invariant. *)
Definition xml_location (init : string) (l : elem) : res location :=
  do i <- unwrap (get_attr "id" l);
  do inv <- match find_first "label" l with Some x => do g <- expect (parse_guard (el_text x)); Ok (Some g) | None => Ok None end;
  Ok (mkL i inv (if String.eqb i init then Initial else Normal) "").
(** xml_parser.rs:103-120: the labels of an edge, later ones replace earlier ones of the same kind. *)
Definition edge_labels := (option bexpr * option (list (string * arith)) * text)%type.
Definition xml_label (st : edge_labels) (x : elem) : res edge_labels :=
  let '(g, u, s) := st in
  do k <- unwrap (get_attr "kind" x);
  if String.eqb k "guard" then do g' <- expect (parse_guard (el_text x)); Ok (Some g', u, s)
  else if String.eqb k "synchronisation" then Ok (g, u, el_text x)
  else if String.eqb k "assignment" then do u' <- expect (parse_updates (el_text x)); Ok (g, Some u', s)
  else Ok st.
(** xml_parser.rs:97-147 [collect_edges]: all edges have the same id. *)
Definition xml_edge (e : elem) : res edge :=
  do (gu, s) <- foldM xml_label (find_all "label" e) (None, None, []);
  do src <- unwrap (find_first "source" e); do src <- unwrap (get_attr "ref" src);
  do tgt <- unwrap (find_first "target" e); do tgt <- unwrap (get_attr "ref" tgt);
  Ok (mkE "NotImplemented" src tgt (if existsb (Ascii.eqb "?") s then SInput else SOutput) (fst gu) (snd gu) (str (without "?" (without "!" s)))).
(** xml_parser.rs:42-63: a template. *)
Definition xml_component (x : elem) : res component :=
  do d <- parse_declarations (match find_first "declaration" x with Some e => el_text e | None => [] end);
  do es <- mapM xml_edge (find_all "transition" x);
  do n <- unwrap (find_first "name" x);
  do i <- unwrap (find_first "init" x); do i <- unwrap (get_attr "ref" i);
  do ls <- mapM (xml_location i) (find_all "location" x);
  Ok (mkComp (str (el_text n)) d ls es None).
(** xml_parser.rs:36-71 [parse_xml]; no queries are read. *)
Definition parse_xml (root : elem) : res (list component * sysspec) :=
  do cs <- mapM xml_component (find_all "template" root);
  do s <- unwrap (find_first "system" root);
  do sp <- xml_system (el_text s);
  Ok (cs, sp).
