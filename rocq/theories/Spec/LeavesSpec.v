(** Which edges of which component a transition identifier names. *)
From Coq Require Import List String ZArith Bool Arith.
From Verif Require Import Fed.Zone Model.Base Model.Loc Model.Component Model.TS.
Import ListNotations.

(** The number of components of a system. *)
Fixpoint ncomp (s : ts) : nat :=
  match s with
  | TSimple _ => 1
  | TConj l r _ _ | TComp l r _ _ _ _ _ => ncomp l + ncomp r
  | TQuot t d _ _ _ _ => ncomp t + ncomp d
  end.

(** The identifier says something about every component of the system. *)
Fixpoint covers (s : ts) (id : transid) : Prop :=
  match s with
  | TSimple _ => id = TINone \/ exists e, id = TISimple e
  | TConj l r _ _ => exists a b, id = TIConj a b /\ covers l a /\ covers r b
  | TComp l r _ _ _ _ _ => exists a b, id = TIComp a b /\ covers l a /\ covers r b
  | TQuot t d _ _ _ _ => exists ls rs, id = TIQuot ls rs /\ ls <> [] /\ rs <> [] /\
      (forall a, In a ls -> covers t a) /\ (forall b, In b rs -> covers d b)
  end.

(** Component-wise concatenation of lists of edges. *)
Fixpoint merge {A} (a b : list (list A)) : list (list A) :=
  match a, b with
  | [], _ => b
  | _, [] => a
  | x :: a', y :: b' => (x ++ y) :: merge a' b'
  end.

(** The edges of every component, in the order of the components. *)
Fixpoint edges_of (s : ts) (id : transid) : list (list transid) :=
  match s, id with
  | TSimple _, _ => [[id]]
  | TConj l r _ _, TIConj a b => edges_of l a ++ edges_of r b
  | TComp l r _ _ _ _ _, TIComp a b => edges_of l a ++ edges_of r b
  | TQuot t d _ _ _ _, TIQuot ls rs => fold_right merge [] (map (edges_of t) ls) ++ fold_right merge [] (map (edges_of d) rs)
  | _, _ => []
  end.

(** Every part of the system that is itself composed takes part in the action. *)
Fixpoint all_take_part (s : ts) (a : string) : Prop :=
  match s with
  | TSimple _ => True
  | TConj l r _ _ => all_take_part l a /\ all_take_part r a
  | TComp l r _ _ _ _ _ =>
      (has_action l a = true /\ all_take_part l a \/ exists c, l = TSimple c) /\
      (has_action r a = true /\ all_take_part r a \/ exists c, r = TSimple c)
  | TQuot _ _ _ _ _ _ => False
  end.

(** [took s loc a id]: reading [id] against the system, every component named took one of
    its own edges for [a] leaving its part of [loc]; it took none only if it has no such
    action or is in a universal or inconsistent location. *)
Fixpoint took (s : ts) (loc : loctree) (a : string) (id : transid) : Prop :=
  match s with
  | TSimple c =>
      id = TINone /\ (has_action s a = false \/ is_universal loc = true \/ is_inconsistent loc = true) \/
      exists es t e, assoc_loc (lt_id loc) (cc_edges c) = Some es /\ In (a, t) es /\ t_id t = id /\ id = TISimple e
  | TConj l r _ _ => exists x y ll lr, id = TIConj x y /\ lt_left loc = Ok ll /\ lt_right loc = Ok lr /\ took l ll a x /\ took r lr a y
  | TComp l r _ _ _ _ _ => exists x y ll lr, id = TIComp x y /\ lt_left loc = Ok ll /\ lt_right loc = Ok lr /\ took l ll a x /\ took r lr a y
  | TQuot _ _ _ _ _ _ => False
  end.
