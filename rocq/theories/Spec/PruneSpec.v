(** What pruning has to keep: the states of a component that need never become inconsistent. *)
From Coq Require Import List String ZArith QArith Bool Arith.
From Verif Require Import Fed.Zone Model.Base Model.Expr Model.Guard Model.Loc Model.Component Spec.GuardSpec Spec.ConvSpec Spec.StepSpec Spec.EnableSpec.
Import ListNotations.
Local Open Scope Q_scope.

(** ** By edges alone *)

(** An inconsistent location can be reached along edges, whatever the guards say. *)
Inductive can_fail (c : component) : string -> Prop :=
| cf_here : forall l, In l (c_locs c) -> l_type l = Inconsistent -> can_fail c (l_id l)
| cf_edge : forall e, In e (c_edges c) -> can_fail c (e_tgt e) -> can_fail c (e_src e).

(** The same edge up to its guard. *)
Definition same_but_guard (e e' : edge) : Prop :=
  e_id e' = e_id e /\ e_src e' = e_src e /\ e_tgt e' = e_tgt e /\ e_type e' = e_type e /\ e_update e' = e_update e /\ e_sync e' = e_sync e.

(** ** By clock values *)

Section Consistent.
Variables (dim : nat) (c : component).
Let d := c_decls c.

(** With clock values [v], an output edge of location [n] leads into [K]. *)
Definition escapes (K : string -> val -> Prop) (n : string) (v : val) : Prop :=
  (forall l, the_location c n l -> osat d v (l_inv l)) /\
  exists e us, In e (c_edges c) /\ e_type e = SOutput /\ e_src e = n /\ osat d v (e_guard e) /\
    updates_of c e = Some us /\ K (e_tgt e) (run_updates us v).

(** From the states in [K] the component can always go on inside [K]: the location is not an inconsistent one and its
    invariant holds; and however long one waits, either an output into [K] was possible on the way, or the
    invariant still holds and every input that is possible then leads into [K]. *)
Record goes_on (K : string -> val -> Prop) : Prop := {
  go_legal : forall n v, K n v ->
    val_ok dim v /\ exists l, the_location c n l /\ l_type l <> Inconsistent /\ osat d v (l_inv l);
  go_time : forall n v t, K n v -> 0 <= t ->
    (exists t', 0 <= t' <= t /\ escapes K n (vdelay v t')) \/
    ((forall l, the_location c n l -> osat d (vdelay v t) (l_inv l)) /\
     forall e us, In e (c_edges c) -> e_type e = SInput -> e_src e = n -> edge_enabled c e (vdelay v t) ->
       updates_of c e = Some us -> K (e_tgt e) (run_updates us (vdelay v t))) }.

(** A state that need never become inconsistent, whatever the inputs. *)
Definition consistent (n : string) (v : val) : Prop := exists K, goes_on K /\ K n v.
End Consistent.

(** [c'] is [c] with nothing added and nothing taken from its consistent states. *)
Record keeps_consistent (dim : nat) (c c' : component) : Prop := {
  kc_decls : c_decls c' = c_decls c;
  kc_locs : Forall2 (fun l l' => l_id l' = l_id l /\ l_type l' = l_type l /\
      (forall v, consistent dim c (l_id l) v -> osat (c_decls c) v (l_inv l')) /\
      (forall v, val_ok dim v -> osat (c_decls c) v (l_inv l') -> osat (c_decls c) v (l_inv l))) (c_locs c) (c_locs c');
  kc_edges : forall e us v, In e (c_edges c) -> updates_of c e = Some us -> consistent dim c (e_src e) v ->
      osat (c_decls c) v (e_guard e) -> consistent dim c (e_tgt e) (run_updates us v) ->
      exists e', In e' (c_edges c') /\ same_but_guard e e' /\ osat (c_decls c) v (e_guard e');
  kc_back : forall e', In e' (c_edges c') -> exists e, In e (c_edges c) /\ same_but_guard e e' /\
      forall v, val_ok dim v -> osat (c_decls c) v (e_guard e') -> osat (c_decls c) v (e_guard e) }.

(** What is assumed of edbm's [predt] (states that can reach a set by waiting while avoiding another): it only
    contains states that can reach the set by waiting, and says nothing about clocks that do not exist. *)
Definition only_clocks (dim : nat) (f : fed) : Prop :=
  forall v w, val_ok dim v -> val_ok dim w -> (forall i, (i < dim)%nat -> v i == w i) -> fsem dim f v -> fsem dim f w.
Definition timed_pred (dim : nat) (predt : fed -> fed -> fed) : Prop :=
  (forall f g, only_clocks dim f -> only_clocks dim g -> only_clocks dim (predt f g)) /\
  forall f g v, fsem dim (predt f g) v -> exists t, 0 <= t /\ fsem dim f (vdelay v t).

(** A location from which an input may lead on towards an inconsistent location has no outputs. *)
Definition bad_inputs_alone (c : component) : Prop :=
  forall e o, In e (c_edges c) -> In o (c_edges c) -> e_type e = SInput -> can_fail c (e_tgt e) -> e_src o = e_src e -> e_type o = SInput.

(** All constraints are about clocks below [dim]. *)
Definition within (dim : nat) (f : fed) : Prop := forall z x, In z f -> In x z -> (ci x < dim)%nat /\ (cj x < dim)%nat.
