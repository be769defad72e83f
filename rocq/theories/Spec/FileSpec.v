(** What declaration and system texts say, and which components can be written to a file. *)
From Coq Require Import List String Ascii ZArith Bool Arith.
From Verif Require Import Fed.Zone Model.Base Model.Expr Model.Guard Model.Loc Model.Component Model.Peg Spec.TextSpec Spec.LayoutSpec.
Import ListNotations.
Local Open Scope string_scope.

(** A word: at least one character, none of them from the list. *)
Definition word (seps : list ascii) (n : string) : Prop :=
  n <> "" /\ forall c, In c (list_ascii_of_string n) -> ~ In c seps.
Definition eol : ascii := ascii_of_nat 10.

(** Clock names as in a declaration: not empty, and without the characters that end a name. *)
Definition clock_name : string -> Prop := word [" "; ","; ";"; eol]%char.

(** ** Declarations *)
(** A line: one or more clocks, nothing or a comment. *)
Inductive dline := DClocks (n : string) (ns : list string) | DBlank | DComment (s : text).
Definition dline_text (l : dline) : text :=
  match l with
  | DClocks n ns => (txt "clock " ++ txt n ++ flat_map (fun m => txt ", " ++ txt m) ns ++ txt ";")%list
  | DBlank => []
  | DComment s => (txt "//" ++ s)%list
  end.
Definition decl_text (ls : list dline) : text :=
  match ls with [] => [] | l :: ls' => (dline_text l ++ flat_map (fun l => eol :: dline_text l) ls')%list end.
Definition declared (ls : list dline) : list string := flat_map (fun l => match l with DClocks n ns => n :: ns | _ => [] end) ls.
Definition dline_ok (l : dline) : Prop := match l with DClocks n ns => forall x, In x (n :: ns) -> clock_name x | DBlank => True | DComment s => ~ In eol s end.

(** ** System declarations *)
(** A line after the first: the actions of a component, an empty line or a comment.
    An action is an input or an output, and may be followed by a space after its comma. *)
Record io := mkIO { io_name : string; io_input : bool; io_space : bool }.
Inductive sysline := LIO (comp : string) (acts : list io) | LBlank | LComment (s : text).

Definition sep_comps : list ascii := [" "; ","; ";"; eol]%char.
Definition sep_acts : list ascii := [" "; ","; "{"; "}"; "?"; "!"; eol]%char.

(** system A, B, C; *)
Fixpoint comps_text (ns : list string) : text :=
  match ns with [] => [] | [n] => txt n | n :: ns' => (txt n ++ txt ", " ++ comps_text ns')%list end.
Definition io_text (a : io) : text := (txt (io_name a) ++ txt (if io_input a then "?" else "!"))%list.
(** a?, b!,c? *)
Fixpoint acts_text (l : list io) : text :=
  match l with [] => [] | [a] => io_text a | a :: l' => (io_text a ++ txt (if io_space a then ", " else ",") ++ acts_text l')%list end.
Definition line_text (l : sysline) : text :=
  match l with
  | LIO n acts => (txt "IO " ++ txt n ++ txt " {" ++ acts_text acts ++ txt "}")%list
  | LBlank => []
  | LComment s => (txt "//" ++ s)%list
  end.
Definition system_text (ns : list string) (ls : list sysline) : text :=
  (txt "system " ++ comps_text ns ++ txt ";" ++ flat_map (fun l => eol :: line_text l) ls)%list.

(** The lines that are accepted: they speak of listed components. *)
Definition line_ok (ns : list string) (l : sysline) : Prop :=
  match l with
  | LIO n acts => In n ns /\ forall a, In a acts -> word sep_acts (io_name a)
  | LBlank => True
  | LComment s => ~ In eol s
  end.
(** The inputs (or outputs) listed for a component, in order. *)
Definition listed (input : bool) (ls : list sysline) (n : string) : list string :=
  flat_map (fun l => match l with LIO m acts => if String.eqb m n then map io_name (filter (fun a => Bool.eqb (io_input a) input) acts) else [] | _ => [] end) ls.

(** ** Component files *)
(** What can be written so that it is read back unchanged. *)
Definition guard_writable (o : option bexpr) : Prop := match o with Some g => b_legible g /\ b_plain g | None => True end.
Definition updates_writable (o : option (list (string * arith))) : Prop :=
  match o with Some us => us <> [] /\ forall u, In u us -> update_savable u | None => True end.
Record writable (c : component) : Prop := {
  wr_clocks : forall x, In x (map fst (d_clocks (c_decls c))) -> clock_name x;
  wr_nodup : NoDup (map fst (d_clocks (c_decls c)));
  wr_locs : forall l, In l (c_locs c) -> guard_writable (l_inv l) /\ l_type l <> AnyType;
  wr_edges : forall e, In e (c_edges c) -> guard_writable (e_guard e) /\ updates_writable (e_update e) /\
    forall a, In a (list_ascii_of_string (e_sync e)) -> a <> "!"%char /\ a <> "?"%char;
  wr_connected : connected c }.
(** For a component that was read from a file: no guard or invariant needs parentheses, updates
    and action names are of the kind that can be saved, and the edges are between its locations. *)
Definition tidy (c : component) : Prop :=
  (forall l, In l (c_locs c) -> match l_inv l with Some g => b_plain g | None => True end) /\
  (forall e, In e (c_edges c) -> match e_guard e with Some g => b_plain g | None => True end /\ updates_writable (e_update e) /\
    forall a, In a (list_ascii_of_string (e_sync e)) -> a <> "!"%char /\ a <> "?"%char) /\
  connected c.
