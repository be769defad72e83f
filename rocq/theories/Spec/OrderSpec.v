(** Lists of the actions of a system, and their alphabetical order.  A hash set gives its elements in any order; std sorts texts byte by byte. *)
From Coq Require Import List String Sorted.
From Verif Require Import Model.TS.
Import ListNotations.

(** Every action of the system once. *)
Definition listing (s : ts) (acts : list string) : Prop := NoDup acts /\ forall a, In a acts <-> In a (ts_inputs s) \/ In a (ts_outputs s).
(** The first byte in which two texts differ decides; a text comes after its beginnings. *)
Definition before (a b : string) : Prop := String.compare a b = Lt.
Definition alphabetical (acts : list string) : Prop := StronglySorted before acts.
