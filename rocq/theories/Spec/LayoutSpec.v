(** What a drawing of a component should be. *)
From Coq Require Import List String ZArith QArith Bool Arith.
From Verif Require Import Model.Base Model.Expr Model.Guard Model.Component Model.Layout.
Import ListNotations.
Local Open Scope Q_scope.

(** Every edge leads from a location of the component to a location of the component. *)
Definition connected (c : component) : Prop :=
  forall e, In e (c_edges c) -> (exists l, In l (c_locs c) /\ l_id l = e_src e) /\ (exists l, In l (c_locs c) /\ l_id l = e_tgt e).

(** The place is a point in the frame of the drawing, with a margin on all sides. *)
Definition inside (margin : Q) (d : drawing) (p : option Q * option Q) : Prop :=
  exists x y, p = (Some x, Some y) /\ margin <= x /\ x <= dr_width d - margin /\ margin <= y /\ y <= dr_height d - margin.
(** Not all of the first nodes have the same coordinate. *)
Definition spread (p : nat -> Q) (n : nat) : Prop := exists i j, (i < n)%nat /\ (j < n)%nat /\ ~ p i == p j.
(** The places of a drawing in the order of the nodes: locations first, then the labels of the edges. *)
Definition places (d : drawing) : list (option Q * option Q) := (dr_locs d ++ List.concat (dr_nails d))%list.
(** The labels an edge has: its guard and its update if there are any, and its action. *)
Definition labelled (e : edge) (k : string) : Prop :=
  k = "SYNCHRONIZATION"%string \/ (k = "GUARD"%string /\ e_guard e <> None) \/ (k = "UPDATE"%string /\ e_update e <> None) \/
  (k = "NONE"%string /\ e_guard e = None /\ e_update e = None /\ e_src e = e_tgt e).
