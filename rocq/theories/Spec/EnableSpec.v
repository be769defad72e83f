(** Input-enabled components, in terms of the guards and invariants a user writes. *)
From Coq Require Import List String ZArith QArith Bool Arith.
From Verif Require Import Fed.Zone Model.Base Model.Expr Model.Guard Model.Loc Model.Component Model.TS Spec.GuardSpec Spec.ConvSpec Spec.StepSpec.
Import ListNotations.
Local Open Scope string_scope.


(** The location a name refers to is unambiguous. *)
Definition the_location (c : component) (n : string) (l : location) : Prop :=
  In l (c_locs c) /\ l_id l = n /\ forall l', In l' (c_locs c) -> l_id l' = n -> l' = l.

(** What the updates of an edge do; only "clock := number" is an update. *)
Fixpoint edge_updates (d : decls) (us : list (string * arith)) : option (list cupdate) :=
  match us with
  | [] => Some []
  | (x, AInt k) :: us' =>
      match assoc x (d_clocks d), edge_updates d us' with Some i, Some r => Some (mkU i k :: r) | _, _ => None end
  | _ => None
  end.
Definition updates_of (c : component) (e : edge) : option (list cupdate) :=
  edge_updates (c_decls c) (match e_update e with Some us => us | None => [] end).

(** The edge can be taken with clock values [v]: its guard holds, and after its updates the
    invariant of its target holds. *)
Definition edge_enabled (c : component) (e : edge) (v : val) : Prop :=
  osat (c_decls c) v (e_guard e) /\
  exists us l, updates_of c e = Some us /\ the_location c (e_tgt e) l /\ osat (c_decls c) (run_updates us v) (l_inv l).

(** The edge leaves [l] on input [a]. *)
Definition listens (l : location) (a : string) (e : edge) : Prop :=
  e_type e = SInput /\ e_src e = l_id l /\ e_sync e = a.
(** ... or on the wildcard. *)
Definition listens_any (l : location) (a : string) (e : edge) : Prop :=
  e_type e = SInput /\ e_src e = l_id l /\ (e_sync e = a \/ e_sync e = "*").

(** Declared clocks are numbered 1, ..., n in some order, one number per name. *)
Definition clocks_numbered (d : decls) : Prop :=
  NoDup (map fst (d_clocks d)) /\ NoDup (map snd (d_clocks d)) /\
  forall x i, In (x, i) (d_clocks d) -> (1 <= i <= List.length (d_clocks d))%nat.

(** Guards and invariants are in the fragment for which guard application is right (C01),
    and mention clocks by name. *)
Fixpoint by_name (e : arith) : bool :=
  match e with
  | AClock _ => false
  | AVar _ | AInt _ => true
  | ADifference l r | AAddition l r | AMultiplication l r | ADivision l r | AModulo l r => by_name l && by_name r
  end.
Fixpoint g_by_name (g : bexpr) : bool :=
  match g with
  | BAnd l r | BOr l r => g_by_name l && g_by_name r
  | BLessEQ l r | BGreatEQ l r | BLessT l r | BGreatT l r | BEQ l r => by_name l && by_name r
  | BBool _ => true
  end.
Definition plain_component (c : component) : Prop :=
  (forall l g, In l (c_locs c) -> l_inv l = Some g -> simple_guard (c_decls c) g = true /\ g_by_name g = true) /\
  (forall e g, In e (c_edges c) -> e_guard e = Some g -> simple_guard (c_decls c) g = true /\ g_by_name g = true).

(** Updates assign natural numbers, and one clock at most one of them. *)
Definition sane_updates (dim : nat) (c : component) : Prop :=
  forall e us, In e (c_edges c) -> updates_of c e = Some us -> updates_ok dim us /\ no_conflict us.

(** A description of a federation by constraints: for sets that depend on the clocks below
    [dim] only, it denotes the same set, and uses neither unknown clocks nor constraints on
    the reference clock alone. *)
Definition describes (dim : nat) (minc : fed -> fed) : Prop :=
  forall f,
    (forall v w, val_ok dim v -> val_ok dim w -> (forall i, (i < dim)%nat -> (v i == w i)%Q) -> fsem dim f v -> fsem dim f w) ->
    (forall v, fsem dim (minc f) v <-> fsem dim f v) /\
    forall z c, In z (minc f) -> In c z -> (ci c < dim)%nat /\ (cj c < dim)%nat /\ (ci c <> 0%nat \/ cj c <> 0%nat).

(** Nothing makes the tool give up: supported guards, existing targets, plain resets. *)
Definition supported_component (c : component) : Prop :=
  (forall l g, In l (c_locs c) -> l_inv l = Some g -> basic_guard (c_decls c) g = true) /\
  (forall e g, In e (c_edges c) -> e_guard e = Some g -> basic_guard (c_decls c) g = true) /\
  (forall e, In e (c_edges c) -> exists us, updates_of c e = Some us) /\
  (forall e, In e (c_edges c) -> exists l, In l (c_locs c) /\ l_id l = e_tgt e).

(** Guards and invariants are in the fragment for which guard application is right (C01). *)
Definition simple_component (c : component) : Prop :=
  (forall l g, In l (c_locs c) -> l_inv l = Some g -> simple_guard (c_decls c) g = true) /\
  (forall e g, In e (c_edges c) -> e_guard e = Some g -> simple_guard (c_decls c) g = true).

(** Taking an edge: guard, updates, target invariant, as written in the model file. *)
Definition edge_fires (dim : nat) (c : component) (e : edge) (v v' : val) : Prop :=
  val_ok dim v /\ val_ok dim v' /\ osat (c_decls c) v (e_guard e) /\
  exists us l, updates_of c e = Some us /\ veq v' (run_updates us v) /\
    the_location c (e_tgt e) l /\ osat (c_decls c) v' (l_inv l).

(** The transition is the edge: same name, target and effect. *)
Definition is_edge (dim : nat) (c : component) (e : edge) (t : transition) : Prop :=
  t_id t = TISimple (e_id e) /\ lt_id (t_target t) = LSimple (e_tgt e) /\
  forall v v', t_fires dim t v v' <-> edge_fires dim c e v v'.
