(** What a saved system has to keep. *)
From Coq Require Import List String Ascii ZArith QArith Bool Arith.
From Verif Require Import Fed.Zone Model.Base Model.Expr Model.Guard Model.Loc Model.Component Model.TS Model.Save Spec.GuardSpec Spec.ConvSpec Spec.StepSpec Spec.SystemSpec Spec.RunSpec Spec.EnableSpec Spec.RefineSpec Spec.IdSpec.
Import ListNotations.
Local Open Scope string_scope.

(** ** Clock names *)

(** Part [k] of a system calls the clock number [i] by the name [x]. *)
Definition clock_of (parts : list (list (string * nat))) (k : nat) (x : string) (i : nat) : Prop :=
  exists d, nth_error parts k = Some d /\ In (x, i) d.

Definition digit_chars : list ascii := ["0"; "1"; "2"; "3"; "4"; "5"; "6"; "7"; "8"; "9"]%char.
(** A non-empty text of digits. *)
Definition digits (s : string) : Prop := s <> "" /\ forall c, In c (list_ascii_of_string s) -> In c digit_chars.

(** No clock is called like another clock with a number appended. *)
Definition no_numbered_names (parts : list (list (string * nat))) : Prop :=
  forall k x i k' x' i' n, clock_of parts k x i -> clock_of parts k' x' i' -> digits n -> x' <> x ++ n.

(** The table [m] has one name of its own for every clock of every part, and no other names. *)
Definition separate_names (parts : list (list (string * nat))) (m : list (string * nat)) : Prop :=
  NoDup (map fst m) /\
  exists name : nat -> string -> string,
    (forall k x i, clock_of parts k x i -> In (name k x, i) m) /\
    (forall k x i k' x' i', clock_of parts k x i -> clock_of parts k' x' i' -> name k x = name k' x' -> k = k' /\ x = x') /\
    (forall n i, In (n, i) m -> exists k x, clock_of parts k x i /\ n = name k x).

(** ** Saved locations and edges *)

(** The saved location is the location: same name, initial exactly if it is, same invariant. *)
Definition saved_location (dim : nat) (d : decls) (l : loctree) (x : location) : Prop :=
  l_id x = id_string (lt_id l) /\ (l_type x = Initial <-> lt_type l = Initial) /\
  forall v, val_ok dim v -> (osat d v (l_inv x) <-> inv_at dim l v).

(** The saved edge is the transition [t] that [l] offers for [a]: same ends, guard and updates. *)
Definition saved_edge (dim : nat) (c : component) (l : loctree) (a : string) (t : transition) (e : edge) : Prop :=
  e_src e = id_string (lt_id l) /\ e_tgt e = id_string (lt_id (t_target t)) /\ e_sync e = a /\
  updates_of c e = Some (t_updates t) /\
  forall v, val_ok dim v -> (osat (c_decls c) v (e_guard e) <-> fsem dim (t_guard t) v).

(** The action of a saved edge is on the side its kind says. *)
Definition on_side (s : ts) (a : string) (ty : synctype) : Prop :=
  match ty with SInput => is_input s a | SOutput => is_output s a end.

(** [c] is the system [s] restricted to the locations [ls]: nothing is missing that can ever happen, nothing is added. *)
Definition saved_as (dim : nat) (s : ts) (ls : list loctree) (c : component) : Prop :=
  corresponds (saved_location dim (c_decls c)) ls (c_locs c) /\
  NoDup (map l_id (c_locs c)) /\
  (forall l a t ty, In l ls -> offered dim s l a t -> on_side s a ty -> (exists v, fsem dim (t_guard t) v) ->
     exists e, In e (c_edges c) /\ e_type e = ty /\ saved_edge dim c l a t e) /\
  (forall e, In e (c_edges c) -> exists l a t, In l ls /\ offered dim s l a t /\ on_side s a (e_type e) /\ saved_edge dim c l a t e).

(** No component has two initial locations. *)
Fixpoint single_initials (s : ts) : Prop :=
  match s with
  | TSimple c => forall a b, In a (cc_locs c) -> In b (cc_locs c) -> lt_type a = Initial -> lt_type b = Initial -> a = b
  | TConj l r _ _ | TComp l r _ _ _ _ _ => single_initials l /\ single_initials r
  | TQuot t d _ _ _ _ => single_initials t /\ single_initials d
  end.

(** ** The same behaviour under other location names *)

(** Same guard and same updates. *)
Definition same_step (dim : nat) (t t' : transition) : Prop :=
  (forall v, fsem dim (t_guard t') v <-> fsem dim (t_guard t) v) /\ t_updates t' = t_updates t.

(** Locations related by [R] have the same invariants and offer the same steps to related locations.
    (A transition whose guard holds for no valuation may be missing.) *)
Record mirrors (dim : nat) (s s' : ts) (R : loctree -> loctree -> Prop) : Prop := {
  mi_inv : forall l l', R l l' -> forall v, inv_at dim l' v <-> inv_at dim l v;
  mi_forth : forall l l' a t, R l l' -> offered dim s l a t -> (exists v, fsem dim (t_guard t) v) ->
    exists t', offered dim s' l' a t' /\ same_step dim t t' /\ R (t_target t) (t_target t');
  mi_back : forall l l' a t', R l l' -> offered dim s' l' a t' ->
    exists t, offered dim s l a t /\ same_step dim t t' /\ R (t_target t) (t_target t') }.

(** The location of a saved component that stands for [l]. *)
Definition stands_for (ls : list loctree) (s' : ts) (l l' : loctree) : Prop :=
  In l ls /\ lt_id l' = LSimple (id_string (lt_id l)) /\ match s' with TSimple cc => In l' (cc_locs cc) | _ => False end.

Definition behaves_as (dim : nat) (s : ts) (ls : list loctree) (s' : ts) : Prop :=
  (forall a, is_input s' a <-> is_input s a) /\ (forall a, is_output s' a <-> is_output s a) /\
  mirrors dim s s' (stands_for ls s') /\
  match initial_location dim s, initial_location dim s' with
  | Some l, Some l' => stands_for ls s' l l'
  | None, None => True
  | _, _ => False
  end.

(** What has to hold of a system for saving it to work. *)
Record saveable (dim : nat) (s : ts) : Prop := {
  sv_built : built dim s;
  (** Guards, invariants and updates are about declared clocks, numbered 1, ..., dim - 1. *)
  sv_reads : reads_ok s;
  sv_ok : exists q, clocks_ok dim q s;
  sv_clocks : forall i, In i (sys_clocks s) <-> (0 < i < dim)%nat;
  (** Location names can be told apart when put together, and clock names when numbered. *)
  sv_plain : plain_names s;
  sv_keys : forall d, In d (ts_decls s) -> NoDup (map fst d);
  sv_names : no_numbered_names (ts_decls s) }.

(** The locations that are saved. *)
Definition to_save (dim : nat) (s : ts) (st : strategy) (l : loctree) : Prop :=
  match st with Reachable => edge_reach dim s l | NoPruning => In l (all_locations dim s) end.

(** Every action occurs on a transition of a reached location that is possible for some clock values. *)
Definition actions_used (dim : nat) (s : ts) : Prop :=
  forall a, is_action s a -> a <> "*" /\ exists l t, edge_reach dim s l /\ offered dim s l a t /\ exists v, fsem dim (t_guard t) v.
