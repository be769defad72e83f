(** How a model is written as an XML document, as the UPPAAL and Ecdar editors do. *)
From Coq Require Import List String Ascii ZArith Bool Arith.
From Verif Require Import Fed.Zone Model.Base Model.Expr Model.Guard Model.Loc Model.Component Model.Peg Model.ParseEdge Model.Xml Spec.TextSpec Spec.FileSpec.
Import ListNotations.
Local Open Scope string_scope.

(** The same text with Windows line ends. *)
Definition crlf (s : text) : text := flat_map (fun c => if Ascii.eqb c eol then [ascii_of_nat 13; eol] else [c]) s.
(** No tabs, form feeds or carriage returns: the only white space is spaces and line ends. *)
Definition plain_spaces (s : text) : Prop := forall c, In c s -> ~ In (nat_of_ascii c) [9; 11; 12; 13].

(** The children with the given tag are exactly these, in this order; there may be any others. *)
Definition shows (t : string) (e : elem) (ks : list elem) : Prop :=
  let 'Elem _ _ _ kids := e in filter (fun k => String.eqb (el_tag k) t) kids = ks.
Definition tagged (t : string) (e : elem) : Prop := el_tag e = t.
Definition has_attr (a v : string) (e : elem) : Prop := get_attr a e = Some v.
Definition has_text (s : text) (e : elem) : Prop := el_text e = s.
Definition is_label (kind : string) (s : text) (e : elem) : Prop := tagged "label" e /\ has_attr "kind" kind e /\ has_text s e.

(** A location element: its id and, if there is an invariant, a label with it. *)
Definition location_elem (l : location) (x : elem) : Prop :=
  tagged "location" x /\ has_attr "id" (l_id l) x /\
  match l_inv l with
  | Some g => exists lab, shows "label" x [lab] /\ is_label "invariant" (encode_bool g) lab
  | None => shows "label" x []
  end.
(** A transition element: source and target, and labels for what there is of guard, synchronisation and updates. *)
Definition sync_text (e : edge) : text := (txt (e_sync e) ++ txt (match e_type e with SInput => "?" | SOutput => "!" end))%list.
Definition guard_label (e : edge) (ls : list elem) : Prop :=
  match e_guard e with Some g => exists x, ls = [x] /\ is_label "guard" (encode_bool g) x | None => ls = [] end.
Definition update_label (e : edge) (ls : list elem) : Prop :=
  match e_update e with Some us => exists x, ls = [x] /\ is_label "assignment" (encode_updates us) x | None => ls = [] end.
Definition of_kind (k : string) (ls : list elem) : list elem := filter (fun x => match get_attr "kind" x with Some k' => String.eqb k' k | None => false end) ls.
Definition transition_elem (e : edge) (x : elem) : Prop :=
  tagged "transition" x /\
  (exists src, shows "source" x [src] /\ has_attr "ref" (e_src e) src) /\
  (exists tgt, shows "target" x [tgt] /\ has_attr "ref" (e_tgt e) tgt) /\
  exists ls, shows "label" x ls /\ (forall y, In y ls -> exists k, has_attr "kind" k y) /\
    guard_label e (of_kind "guard" ls) /\ update_label e (of_kind "assignment" ls) /\
    exists sy, of_kind "synchronisation" ls = [sy] /\ is_label "synchronisation" (sync_text e) sy.
(** A template element: name, declarations, locations, the initial location, transitions. *)
Definition template_elem (init : string) (decls : text) (c : component) (x : elem) : Prop :=
  tagged "template" x /\
  (exists nm, shows "name" x [nm] /\ has_text (txt (c_name c)) nm) /\
  (exists dc, shows "declaration" x [dc] /\ has_text decls dc) /\
  (exists ls, shows "location" x ls /\ Forall2 location_elem (c_locs c) ls) /\
  (exists it, shows "init" x [it] /\ has_attr "ref" init it) /\
  (exists es, shows "transition" x es /\ Forall2 transition_elem (c_edges c) es).
(** Either kind of line ends. *)
Definition with_ends (s s' : text) : Prop := s' = s \/ s' = crlf s.
(** A template as someone writes it: the component, the initial location and the lines of the declarations
    (which, and not the clocks of the component, are what is written). *)
Record template := mkT { t_comp : component; t_init : string; t_decls : list dline }.
Definition written (t : template) (x : elem) : Prop := exists s, with_ends (decl_text (t_decls t)) s /\ template_elem (t_init t) s (t_comp t) x.
(** A document: templates and the system declarations. *)
Definition document (ts : list template) (ns : list string) (ls : list sysline) (x : elem) : Prop :=
  (exists xs, shows "template" x xs /\ Forall2 written ts xs) /\
  exists s sys, shows "system" x [s] /\ with_ends (system_text ns ls) sys /\ has_text sys s.

(** Guards, invariants, updates and names that can be written as text, as for component files. *)
Record template_ok (t : template) : Prop := {
  tk_lines : forall l, In l (t_decls t) -> dline_ok l;
  tk_nodup : NoDup (declared (t_decls t));
  tk_plain : plain_spaces (decl_text (t_decls t));
  tk_locs : forall l, In l (c_locs (t_comp t)) -> guard_writable (l_inv l);
  tk_edges : forall e, In e (c_edges (t_comp t)) -> guard_writable (e_guard e) /\ updates_writable (e_update e) /\
    forall a, In a (list_ascii_of_string (e_sync e)) -> a <> "!"%char /\ a <> "?"%char }.

(** What should be read: everything except what an XML document does not say, the ids of the edges and the urgencies. *)
Definition in_xml (init : string) (c : component) (d : decls) : component :=
  mkComp (c_name c) d (map (fun l => mkL (l_id l) (l_inv l) (if String.eqb (l_id l) init then Initial else Normal) "") (c_locs c))
    (map (fun e => mkE "NotImplemented" (e_src e) (e_tgt e) (e_type e) (e_guard e) (e_update e) (e_sync e)) (c_edges c)) None.
Definition numbered (ns : list string) : decls := mkDecls (combine ns (seq 1 (List.length ns))) [].
Definition as_read (t : template) : component := in_xml (t_init t) (t_comp t) (numbered (declared (t_decls t))).
