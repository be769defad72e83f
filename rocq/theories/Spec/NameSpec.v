(** What a client can tell from the identifier of an edge. *)
From Coq Require Import List String Ascii.
From Verif Require Import Model.Base Model.Expr Model.Loc Model.Component Model.TS Spec.WireSpec.
Import ListNotations.

(** No two edges of the component share an identifier. *)
Definition edges_apart (c : component) : Prop := NoDup (map e_id (c_edges c)).
Definition locations_apart (c : component) : Prop := NoDup (map l_id (c_locs c)).
Definition has_char (x : ascii) (n : string) : Prop := In x (list_ascii_of_string n).
Definition no_underscore (n : string) : Prop := ~ has_char "_"%char n.
(** An identifier a user gave to an edge, not of the kind the program makes up. *)
Definition own_name (n : string) : Prop := forall m, n <> ("input_" ++ m)%string.

(** A system of components, joined by && and ||, in each of which the edges are named apart. *)
Inductive parts_apart (dim : nat) : ts -> Prop :=
| pa_simple c ins outs id cc : compile_with_actions dim c ins outs id = Ok cc -> edges_apart c -> parts_apart dim (TSimple cc)
| pa_conj l r s : parts_apart dim l -> parts_apart dim r -> conjunction_new l r = Ok s -> parts_apart dim s
| pa_comp l r s : parts_apart dim l -> parts_apart dim r -> composition_new l r = Ok s -> parts_apart dim s.
(** A location made of locations of the user, none of them universal or inconsistent. *)
Fixpoint ordinary (l : loctree) : Prop :=
  lt_type l <> Universal /\ lt_type l <> Inconsistent /\ match l with LLeaf _ _ _ => True | LNode _ _ _ a b => ordinary a /\ ordinary b end.
(** The component instances of a system, as a client knows them. *)
Fixpoint instance_names (s : ts) : list (string * nat) :=
  match s with
  | TSimple c => [(cc_name c, cc_id c)]
  | TConj l r _ _ | TComp l r _ _ _ _ _ | TQuot l r _ _ _ _ => instance_names l ++ instance_names r
  end.
(** What a client is shown of a step: which instance takes which edge. *)
Definition shown (s : ts) (i : transid) (k : string * nat) (e : string) : Prop := exists c, takes_edge i s c e /\ k = (cc_name c, cc_id c).
(** The actions and transitions of a walk from location [l]. *)
Fixpoint walk (dim : nat) (s : ts) (l : loctree) (w : list (string * transition)) : Prop :=
  match w with
  | [] => True
  | (a, t) :: w' => (exists ts, next_transitions dim s l a = Ok ts /\ In t ts) /\ walk dim s (t_target t) w'
  end.
(** Two walks look alike: step by step the same instances take the same edges. *)
Definition look_alike (s : ts) (w w' : list (string * transition)) : Prop :=
  Forall2 (fun x y => forall k e, shown s (t_id (snd x)) k e <-> shown s (t_id (snd y)) k e) w w'.
