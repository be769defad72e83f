(** What building a system from a query must do with the clocks. *)
From Coq Require Import List String ZArith Bool Arith Permutation.
From Verif Require Import Fed.Zone Model.Base Model.Expr Model.Guard Model.Loc Model.Component Model.TS Model.ParseQuery Model.Recipe
  Spec.EnableSpec.
Import ListNotations.

(** The clock numbers of a component, and the clocks of the quotients of a recipe. *)
Definition numbers (c : component) : list nat := map snd (d_clocks (c_decls c)).
Fixpoint quotient_clocks (r : recipe) : list nat :=
  match r with
  | RSimple _ => []
  | RComp l r | RConj l r => quotient_clocks l ++ quotient_clocks r
  | RQuot l r q => q :: quotient_clocks l ++ quotient_clocks r
  end.

(** The same component up to the numbers of its clocks. *)
Definition renumbered (c c' : component) : Prop :=
  c_name c' = c_name c /\ c_locs c' = c_locs c /\ c_edges c' = c_edges c /\ d_ints (c_decls c') = d_ints (c_decls c) /\
  map fst (d_clocks (c_decls c')) = map fst (d_clocks (c_decls c)).

(** The recipe is the expression with every component name replaced by an instance of the component. *)
Fixpoint instance_of (load : string -> option component) (e : sysx) (r : recipe) : Prop :=
  match e, r with
  | XComp n id, RSimple c' => (exists c, load n = Some c /\ renumbered c c') /\ c_special c' = id
  | XPar a b, RComp l r => instance_of load a l /\ instance_of load b r
  | XConj a b, RConj l r => instance_of load a l /\ instance_of load b r
  | XQuot a b, RQuot l r _ => instance_of load a l /\ instance_of load b r
  | _, _ => False
  end.

(** All clock numbers of a system: one block after the other, then nothing else. *)
Definition all_numbers (r : recipe) : list nat := flat_map numbers (components r).
Definition opt_clock (q : option nat) : list nat := match q with Some q => [q] | None => [] end.

(** The clock numbers are consecutive. *)
Definition block (l : list nat) : Prop := exists start, Permutation l (seq start (List.length l)).

(** Edges assign natural numbers, and no edge assigns different numbers to one clock. *)
Definition good_resets (c : component) : Prop :=
  forall e us, In e (c_edges c) -> e_update e = Some us ->
    (forall x k, In (x, AInt k) us -> (0 <= k)%Z) /\ (forall x a b, In (x, a) us -> In (x, b) us -> a = b).
(** Guards and invariants mention clocks by name, as they do when they are read from a file. *)
Definition named_guards (c : component) : Prop :=
  (forall l g, In l (c_locs c) -> l_inv l = Some g -> g_by_name g = true) /\
  (forall e g, In e (c_edges c) -> e_guard e = Some g -> g_by_name g = true).
