(** Location names that can be told apart in a longer text. *)
From Coq Require Import List String Ascii ZArith Bool Arith.
From Verif Require Import Fed.Zone Model.Base Model.Expr Model.Guard Model.Loc Model.Component Model.TS.
Import ListNotations.
Local Open Scope string_scope.

(** The characters used to put location names together. *)
Definition marks : list ascii := ["("; ")"; "|"; "&"; "\"; "["; "]"]%char.
(** A name without any of them, other than the wildcard. *)
Definition plain_name (n : string) : Prop := (forall c, In c (list_ascii_of_string n) -> ~ In c marks) /\ n <> "_".

Fixpoint plain_id (i : locid) : Prop :=
  match i with
  | LConj a b | LComp a b | LQuot a b => plain_id a /\ plain_id b
  | LSimple n => plain_name n
  | LSpecial _ | LAny => True
  end.

(** All locations of the components of a system have plain names. *)
Fixpoint plain_names (s : ts) : Prop :=
  match s with
  | TSimple c => forall l, In l (cc_locs c) -> plain_id (lt_id l)
  | TConj l r _ _ | TComp l r _ _ _ _ _ => plain_names l /\ plain_names r
  | TQuot t d _ _ _ _ => plain_names t /\ plain_names d
  end.
