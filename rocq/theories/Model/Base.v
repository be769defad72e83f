(** Common result type of the model. *)
From Coq Require Import List String.
Import ListNotations.

(** Outcome of a Rust call: a value, a returned [Err(_)] (messages are not
    modelled), or a panic ([unwrap], [expect], [panic!], index out of bounds,
    integer division by zero, ...).  [NoFuel] is used only by fuelled loops of
    the model: it means "not finished yet" and corresponds to no Rust outcome.  Used by every definition that models a Rust function; e.g. executable_query.rs:68 [execute], parse_edge.rs:77 [parse_guard]. *)
Inductive res (A : Type) : Type :=
| Ok (a : A)
| Err
| Panic
| NoFuel.
Arguments Ok {A} a.
Arguments Err {A}.
Arguments Panic {A}.
Arguments NoFuel {A}.

(** The [?] operator and sequencing.  E.g. extract_system_rep.rs:42-172. *)
Definition bind {A B} (r : res A) (f : A -> res B) : res B :=
  match r with Ok a => f a | Err => Err | Panic => Panic | NoFuel => NoFuel end.

Notation "'do' x <- r ; k" := (bind r (fun x => k))
  (at level 200, x pattern, r at level 100, k at level 200, right associativity).

(** [Result::map], e.g. serialization.rs:241. *)
Definition rmap {A B} (f : A -> B) (r : res A) : res B := bind r (fun a => Ok (f a)).

(** [Option::unwrap] / [Option::ok_or].  E.g. xml_parser.rs:37-57 and local_consistency.rs:80-125. *)
Definition unwrap {A} (o : option A) : res A := match o with Some a => Ok a | None => Panic end.
Definition ok_or {A} (o : option A) : res A := match o with Some a => Ok a | None => Err end.
(** [Result::unwrap] / [Result::expect]: an error becomes a panic.  E.g. json_writer.rs:10-12, main.rs:34-56. *)
Definition expect {A} (r : res A) : res A := match r with Err => Panic | _ => r end.

(** [iter().map(f).collect::<Result<_,_>>()], and a [map] whose closure may panic.  E.g. component_loader.rs:185-192. *)
Fixpoint mapM {A B} (f : A -> res B) (l : list A) : res (list B) :=
  match l with
  | [] => Ok []
  | a :: l' => do b <- f a; do bs <- mapM f l'; Ok (b :: bs)
  end.

(** Association lists stand for [HashMap]s (keys are unique in Rust; lookups take
    the first entry).  E.g. the tables of component.rs:11-18 and system_declarations.rs:36-41. *)
Fixpoint assoc {V} (k : string) (m : list (string * V)) : option V :=
  match m with
  | [] => None
  | (k', v) :: m' => if String.eqb k k' then Some v else assoc k m'
  end.
