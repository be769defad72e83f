(** Declarations, system declarations and components as they are written to and read from
    files: src/DataReader/serialization.rs and src/ModelObjects/system_declarations.rs.
    JSON itself (serde_json) is not modelled: a file is the record of its text fields. *)
From Coq Require Import List String Ascii ZArith Bool Arith.
From Verif Require Import Fed.Zone Model.Base Model.Expr Model.Guard Model.Loc Model.Component Model.Layout Model.Peg Model.ParseEdge.
Import ListNotations.
Local Open Scope string_scope.

(** ** Strings and maps *)

(** [str::split] at a character: the pieces between its occurrences, at least one.  serialization.rs:185-198, system_declarations.rs:63-148. *)
Fixpoint split_on (c : ascii) (s : text) : list text :=
  match s with
  | [] => [[]]
  | x :: s' =>
      if Ascii.eqb x c then [] :: split_on c s'
      else match split_on c s' with [] => [[x]] | p :: ps => (x :: p) :: ps end
  end.
(** [str::replace] of a character by nothing.  serialization.rs:301-315. *)
Definition without (c : ascii) (s : text) : text := filter (fun x => negb (Ascii.eqb x c)) s.
(** [str::starts_with], [str::ends_with].  serialization.rs:191, system_declarations.rs:63-148. *)
Definition starts (w : string) (s : text) : bool := match strip (txt w) s with Some _ => true | None => false end.
Definition ends_with (c : ascii) (s : text) : bool := match rev s with x :: _ => Ascii.eqb x c | [] => false end.
(** serialization.rs:183 (a [String]). *)
Definition str (s : text) : string := string_of_list_ascii s.
(** serialization.rs:185. *)
Definition newline : ascii := ascii_of_nat 10.
(** [HashMap::insert]: the old entry goes.  serialization.rs:207, 217. *)
Definition put {V} (k : string) (v : V) (m : list (string * V)) : list (string * V) :=
  (filter (fun p => negb (String.eqb k (fst p))) m ++ [(k, v)])%list.
(** A loop that may panic.  serialization.rs:189-225. *)
Fixpoint foldM {A S} (f : S -> A -> res S) (l : list A) (s : S) : res S :=
  match l with [] => Ok s | a :: l' => do s' <- f s a; foldM f l' s' end.

(** ** Declarations *)

(** serialization.rs:350-367 [encode_declarations]: clocks in iteration order, integers are not written. *)
Definition encode_declarations (d : decls) : text :=
  match map fst (d_clocks d) with
  | [] => []
  | n :: ns => (txt "clock " ++ txt n ++ flat_map (fun m => txt ", " ++ txt m) ns ++ txt ";")%list
  end.

(** serialization.rs:201-212, 213-221: the names after the type word. *)
Definition add_clock (st : list (string * nat) * nat) (v : text) : list (string * nat) * nat :=
  match v with [] => st | _ => (put (str v) (snd st) (fst st), S (snd st)) end.
Definition add_int (m : list (string * Z)) (v : text) : list (string * Z) := put (str v) 0%Z m.
Definition decl_vars (words : list text) : list text := flat_map (split_on ",") words.
(** serialization.rs:195-225: one declaration. *)
Definition decode_decl (st : decls * nat) (s : text) : res (decls * nat) :=
  match s with
  | [] => Ok st
  | _ =>
      let (d, k) := st in
      match split_on " " s with
      | [] => Panic
      | ty :: words =>
          if String.eqb (str ty) "clock" then
            let (cl, k') := fold_left add_clock (decl_vars words) (d_clocks d, k) in Ok (mkDecls cl (d_ints d), k')
          else if String.eqb (str ty) "int" then
            Ok (mkDecls (d_clocks d) (fold_left add_int (decl_vars words) (d_ints d)), k)
          else Panic
      end
  end.
(** serialization.rs:188-226: one line. *)
Definition decode_line (st : decls * nat) (s : text) : res (decls * nat) :=
  match s with
  | [] => Ok st
  | _ => if starts "//" s then Ok st else foldM decode_decl (split_on ";" s) st
  end.
(** serialization.rs:178-229 [decode_declarations]. *)
Definition decode_declarations (s : text) : res decls :=
  do st <- foldM decode_line (split_on newline s) (mkDecls [] [], 1); Ok (fst st).

(** ** System declarations *)

(** system_declarations.rs:36-41. *)
Record sysspec := mkSpec { sp_comps : list string; sp_ins : list (string * list string); sp_outs : list (string * list string) }.
(** system_declarations.rs:113-119, 122-128: append to the entry of the component. *)
Definition push (k v : string) (m : list (string * list string)) : list (string * list string) :=
  put k (match assoc k m with Some l => (l ++ [v])%list | None => [v] end) m.
(** system_declarations.rs:107-132: one action. *)
Definition decode_action (n : string) (sp : sysspec) (a : text) : res sysspec :=
  match a with
  | [] => Ok sp
  | _ =>
      if ends_with "?" a then Ok (mkSpec (sp_comps sp) (push n (str (without "?" a)) (sp_ins sp)) (sp_outs sp))
      else if ends_with "!" a then Ok (mkSpec (sp_comps sp) (sp_ins sp) (push n (str (without "!" a)) (sp_outs sp)))
      else Panic
  end.
(** system_declarations.rs:103-133: the words after the component name. *)
Definition io_actions (words : list text) : list text :=
  flat_map (fun w => split_on "," (without "}" (without "{" w))) words.
(** system_declarations.rs:97-139: an IO line. *)
Definition decode_io (names : list text) (sp : sysspec) (s : text) : res sysspec :=
  match split_on " " s with
  | io :: words =>
      if String.eqb (str io) "IO" then
        match words with
        | n :: words' =>
            if existsb (fun m => String.eqb (str m) (str n)) names
            then foldM (decode_action (str n)) (io_actions words') sp
            else Panic
        | [] => Panic
        end
      else Ok sp
  | [] => Panic
  end.
(** system_declarations.rs:75-141: one line; [None] until the first line has been read. *)
Definition decode_sys_line (st : option (list text) * sysspec) (s : text) : res (option (list text) * sysspec) :=
  match s with
  | [] => Ok st
  | _ =>
      if starts "//" s then Ok st
      else
        do (names, sp) <-
          match fst st with
          | Some names => Ok (names, snd st)
          | None =>
              match split_on " " s with
              | first :: words =>
                  if String.eqb (str first) "system" then
                    let ns := map (fun w => without ";" (without "," w)) words in
                    Ok (first :: ns, mkSpec (sp_comps (snd st) ++ map str ns)%list (sp_ins (snd st)) (sp_outs (snd st)))
                  else Panic
              | [] => Panic
              end
          end;
        do sp' <- decode_io names sp s;
        Ok (Some names, sp')
  end.
(** system_declarations.rs:63-148 [decode_sync_type]. *)
Definition decode_system (s : text) : res sysspec :=
  do st <- foldM decode_sys_line (split_on newline s) (None, mkSpec [] [] []); Ok (snd st).

(** ** Components *)

(** serialization.rs:134-157 [DummyLocation], 30-55 [DummyEdge], 89-108 [DummyComponent]; the
    layout fields are not modelled. *)
Record file_loc := mkFL { fl_id : text; fl_inv : text; fl_type : text; fl_urgency : text }.
Record file_edge := mkFE { fe_id : text; fe_src : text; fe_tgt : text; fe_status : text; fe_guard : text; fe_update : text; fe_sync : text }.
Record file_comp := mkFC { fc_name : text; fc_decls : text; fc_locs : list file_loc; fc_edges : list file_edge }.

(** serialization.rs:333-348 [encode_location_type]: [unreachable!] for the wildcard. *)
Definition encode_type (t : loctype) : res text :=
  match t with
  | Normal => Ok (txt "NORMAL") | Initial => Ok (txt "INITIAL") | Universal => Ok (txt "UNIVERSAL")
  | Inconsistent => Ok (txt "INCONSISTENT") | AnyType => Panic
  end.
(** serialization.rs:317-330 [decode_location_type]. *)
Definition decode_type (s : text) : res loctype :=
  if String.eqb (str s) "NORMAL" then Ok Normal else if String.eqb (str s) "INITIAL" then Ok Initial
  else if String.eqb (str s) "UNIVERSAL" then Ok Universal else if String.eqb (str s) "INCONSISTENT" then Ok Inconsistent else Panic.
(** serialization.rs:291-299 [encode_sync_type], 279-289 [decode_sync_type]. *)
Definition encode_status (t : synctype) : text := match t with SInput => txt "INPUT" | SOutput => txt "OUTPUT" end.
Definition decode_status (s : text) : res synctype :=
  if String.eqb (str s) "INPUT" then Ok SInput else if String.eqb (str s) "OUTPUT" then Ok SOutput else Panic.
(** serialization.rs:301-315 [decode_sync]. *)
Definition decode_sync (s : text) : text :=
  if existsb (Ascii.eqb "!") s then without "!" s else if existsb (Ascii.eqb "?") s then without "?" s else s.
(** serialization.rs:262-276 [decode_invariant]: panics where the guard reader returns an error. *)
Definition decode_invariant (s : text) : res (option bexpr) := expect (decode_guard s).

(** serialization.rs:160-176, 57-87, 110-130: what is written for a component; the places of locations and nails (Model/Layout.v) are
    left out, but not the abort if an edge has no location. *)
Definition encode_loc (l : location) : res file_loc :=
  do t <- encode_type (l_type l); Ok (mkFL (txt (l_id l)) (encode_opt_bool (l_inv l)) t (txt (l_urgency l))).
Definition encode_edge (e : edge) : file_edge :=
  mkFE (txt (e_id e)) (txt (e_src e)) (txt (e_tgt e)) (encode_status (e_type e)) (encode_opt_bool (e_guard e)) (encode_opt_updates (e_update e)) (txt (e_sync e)).
Definition encode_component (c : component) : res file_comp :=
  do _ <- connect c; do ls <- mapM encode_loc (c_locs c);
  Ok (mkFC (txt (c_name c)) (encode_declarations (c_decls c)) ls (map encode_edge (c_edges c))).
(** component.rs:17-28, location.rs:24-39, edge.rs:14-39: what is read; the special id is not in the file. *)
Definition decode_loc (f : file_loc) : res location :=
  do i <- decode_invariant (fl_inv f); do t <- decode_type (fl_type f); Ok (mkL (str (fl_id f)) i t (str (fl_urgency f))).
Definition decode_edge (f : file_edge) : res edge :=
  do t <- decode_status (fe_status f); do g <- decode_guard (fe_guard f); do u <- decode_update (fe_update f);
  Ok (mkE (str (fe_id f)) (str (fe_src f)) (str (fe_tgt f)) t g u (str (decode_sync (fe_sync f)))).
Definition decode_component (f : file_comp) : res component :=
  do d <- decode_declarations (fc_decls f); do ls <- mapM decode_loc (fc_locs f); do es <- mapM decode_edge (fc_edges f);
  Ok (mkComp (str (fc_name f)) d ls es None).
