(** What the maximum bounds of a component are for. *)
From Coq Require Import List String ZArith QArith Bool Arith.
From Verif Require Import Fed.Zone Model.Base Model.Expr Model.Guard Model.Loc Model.Component Model.TS Spec.GuardSpec Spec.StepSpec Spec.SystemSpec Spec.RunSpec Spec.PruneSpec.
From Verif Require Spec.RefineSpec.
Import ListNotations.
Local Open Scope Q_scope.

(** [atom g l r]: the guard [g] contains a comparison between [l] and [r]. *)
Inductive atom : bexpr -> arith -> arith -> Prop :=
| at_le l r : atom (BLessEQ l r) l r
| at_ge l r : atom (BGreatEQ l r) l r
| at_lt l r : atom (BLessT l r) l r
| at_gt l r : atom (BGreatT l r) l r
| at_eq l r : atom (BEQ l r) l r
| at_and_l a b l r : atom a l r -> atom (BAnd a b) l r
| at_and_r a b l r : atom b l r -> atom (BAnd a b) l r
| at_or_l a b l r : atom a l r -> atom (BOr a b) l r
| at_or_r a b l r : atom b l r -> atom (BOr a b) l r.

(** The expression is the declared clock with index [i]. *)
Definition the_clock (d : decls) (e : arith) (i : nat) : Prop :=
  In i (map snd (d_clocks d)) /\ (e = AClock i \/ exists s, e = AVar s /\ assoc s (d_clocks d) = Some i).

(** The guards and invariants of a component. *)
Definition condition (c : component) (g : bexpr) : Prop :=
  (exists e, In e (c_edges c) /\ e_guard e = Some g) \/ (exists l, In l (c_locs c) /\ l_inv l = Some g).

(** Somewhere in the component, clock [i] is compared with an expression of constant value [k]. *)
Definition compared (c : component) (i : nat) (k : Z) : Prop :=
  exists g l r, condition c g /\ atom g l r /\
    (the_clock (c_decls c) l i /\ ieval (c_decls c) r = Some k \/ the_clock (c_decls c) r i /\ ieval (c_decls c) l = Some k).
(** The same, with the constant written as a number. *)
Definition compared_literal (c : component) (i : nat) (k : Z) : Prop :=
  exists g l r, condition c g /\ atom g l r /\
    (the_clock (c_decls c) l i /\ r = AInt k \/ the_clock (c_decls c) r i /\ l = AInt k).

(** [g] compares nothing but clocks with numbers. *)
Definition literal_guard (d : decls) (g : bexpr) : Prop :=
  forall l r, atom g l r -> exists i k, (the_clock d l i /\ r = AInt k) \/ (the_clock d r i /\ l = AInt k).

(** Two valuations which differ only in clocks that are beyond their bound in both. *)
Definition alike (b : bounds) (v w : val) : Prop :=
  forall i k, b i = Some k -> v i == w i \/ (inject_Z k < v i /\ inject_Z k < w i).

(** [part s loc c l]: component [c] of the system [s] is in location [l] when [s] is in [loc]. *)
Inductive part : ts -> loctree -> ccomp -> loctree -> Prop :=
| part_simple c l : part (TSimple c) l c l
| part_conj_l l r i o loc ll c x : lt_left loc = Ok ll -> part l ll c x -> part (TConj l r i o) loc c x
| part_conj_r l r i o loc lr c x : lt_right loc = Ok lr -> part r lr c x -> part (TConj l r i o) loc c x
| part_comp_l l r i o a b m loc ll c x : lt_left loc = Ok ll -> part l ll c x -> part (TComp l r i o a b m) loc c x
| part_comp_r l r i o a b m loc lr c x : lt_right loc = Ok lr -> part r lr c x -> part (TComp l r i o a b m) loc c x
| part_quot_l l r i o n q loc ll c x : is_universal loc = false -> is_inconsistent loc = false ->
    lt_left loc = Ok ll -> part l ll c x -> part (TQuot l r i o n q) loc c x
| part_quot_r l r i o n q loc lr c x : is_universal loc = false -> is_inconsistent loc = false ->
    lt_right loc = Ok lr -> part r lr c x -> part (TQuot l r i o n q) loc c x.

(** ** Extrapolation *)

(** [g] has all valuations of [f], each of its valuations is alike one of [f], and it does not depend on clocks that do not exist. *)
Definition loosened (dim : nat) (b : bounds) (f g : fed) : Prop :=
  (forall v, fsem dim f v -> fsem dim g v) /\ (forall v, fsem dim g v -> exists w, fsem dim f w /\ alike b v w) /\
  (only_clocks dim f -> only_clocks dim g).
(** Bounds of clocks that exist. *)
Definition bounds_below (dim : nat) (b : bounds) : Prop := forall i k, b i = Some k -> (i < dim)%nat.
(** Zones are enlarged beyond the bounds only: of a system in one of its locations ... *)
Definition within_bounds (dim : nat) (ext : ts -> loctree -> fed -> fed) (s : ts) : Prop :=
  forall l b f, local_bounds s l = Ok b -> bounds_below dim b -> loosened dim b f (ext s l f).
(** ... and of two systems, whose bounds are put together. *)
Definition pair_within_bounds (dim : nat) (pext : loctree -> loctree -> fed -> fed) (s1 s2 : ts) : Prop :=
  forall l1 l2 b1 b2 f, local_bounds s1 l1 = Ok b1 -> local_bounds s2 l2 = Ok b2 -> bounds_below dim b1 -> bounds_below dim b2 ->
    loosened dim (bounds_join b1 b2) f (pext l1 l2 f).

(** The conditions of the components do not tell apart valuations which are alike. In universal and inconsistent locations, where the
    bounds are forgotten, there are no invariants, and no outputs are drawn from inconsistent ones. *)
Fixpoint bounds_suffice (dim : nat) (s : ts) : Prop :=
  match s with
  | TSimple c =>
      (forall l v w, In l (cc_locs c) -> val_ok dim v -> val_ok dim w -> alike (cc_bounds c) v w -> inv_at dim l v -> inv_at dim l w) /\
      (forall i es a t v w, In (i, es) (cc_edges c) -> In (a, t) es -> val_ok dim v -> val_ok dim w -> alike (cc_bounds c) v w ->
         fsem dim (t_guard t) v -> fsem dim (t_guard t) w) /\
      (forall l v, In l (cc_locs c) -> is_universal l = true \/ is_inconsistent l = true -> val_ok dim v -> inv_at dim l v) /\
      (forall l es a t, In l (cc_locs c) -> is_inconsistent l = true -> assoc_loc (lt_id l) (cc_edges c) = Some es -> In (a, t) es -> In a (cc_inputs c))
  | TConj l r _ _ | TComp l r _ _ _ _ _ => bounds_suffice dim l /\ bounds_suffice dim r
  | TQuot t s _ _ _ _ => bounds_suffice dim t /\ bounds_suffice dim s
  end.

(** A component of which this is true as it is written: conditions compare clocks with numbers, universal and inconsistent locations have
    no invariants, and only inputs are drawn from inconsistent ones. *)
Definition literal_condition (d : decls) (g : bexpr) : Prop :=
  forall l r, atom g l r -> exists x k, In x (map fst (d_clocks d)) /\ (l = AVar x /\ r = AInt k \/ r = AVar x /\ l = AInt k).
Definition literal_component (c : component) : Prop :=
  (forall g, condition c g -> literal_condition (c_decls c) g) /\
  (forall l, In l (c_locs c) -> l_type l = Universal \/ l_type l = Inconsistent -> l_inv l = None) /\
  (forall l e, In l (c_locs c) -> l_type l = Inconsistent -> In e (c_edges c) -> e_src e = l_id l -> e_type e = SInput /\ e_sync e <> "*"%string).

(** ** Valuations that cannot be told apart *)

(** Whatever the system can do in location [l] with [v] it can do with [w], with the same delays, and ends again with valuations of this kind;
    and the other way round. *)
Definition indistinct (dim : nat) (s : ts) (l : loctree) (v w : val) : Prop :=
  exists R : loctree -> val -> val -> Prop, R l v w /\
    (forall l v w, R l v w -> R l w v) /\
    (forall l v w, R l v w -> inv_at dim l v -> inv_at dim l w) /\
    (forall l v w d, R l v w -> 0 <= d -> R l (vdelay v d) (vdelay w d)) /\
    (forall l a t v w, R l v w -> offered dim s l a t ->
       (fsem dim (t_guard t) v -> fsem dim (t_guard t) w) /\ R (t_target t) (run_updates (t_updates t) v) (run_updates (t_updates t) w)).
(** How exactly zones are known: as they are, or up to valuations that cannot be told apart. *)
Inductive accuracy := Exact | Bounded.
Definition taken_for (acc : accuracy) (dim : nat) (s : ts) (l : loctree) (v w : val) : Prop :=
  match acc with Exact => veq v w | Bounded => indistinct dim s l v w end.
(** [Q] has all valuations of [P], and nothing else up to that accuracy. *)
Definition renders (acc : accuracy) (dim : nat) (s : ts) (l : loctree) (P Q : val -> Prop) : Prop :=
  (forall v, P v -> Q v) /\ forall v, Q v -> exists w, P w /\ taken_for acc dim s l v w.

(** How pairs are explored: zones are as they are, or enlarged beyond the bounds only, in systems for which these suffice. *)
Definition pair_accurate (acc : accuracy) (dim : nat) (pext : loctree -> loctree -> fed -> fed) (s1 s2 : ts) : Prop :=
  match acc with
  | Exact => forall l1 l2 f v, fsem dim (pext l1 l2 f) v <-> fsem dim f v
  | Bounded => bounds_suffice dim s1 /\ bounds_suffice dim s2 /\ pair_within_bounds dim pext s1 s2
  end.

(** A set of valuations which does not tell apart valuations that are alike. *)
Definition decided_by (dim : nat) (b : bounds) (f : fed) : Prop :=
  forall v w, val_ok dim v -> val_ok dim w -> alike b v w -> fsem dim f v -> fsem dim f w.
(** Zones are enlarged beyond the bounds of a system and of the zone [target] searched for only. *)
Definition search_within (dim : nat) (xext : loctree -> fed -> fed) (s : ts) (target : fed) : Prop :=
  exists tb, bounds_below dim tb /\ decided_by dim tb target /\
    forall l b f, local_bounds s l = Ok b -> bounds_below dim b -> loosened dim (bounds_join b tb) f (xext l f).
(** How states are explored in search of [target]: zones are as they are, or enlarged beyond these bounds only, in a system for which
    they suffice. *)
Definition search_accurate (acc : accuracy) (dim : nat) (xext : loctree -> fed -> fed) (s : ts) (target : fed) : Prop :=
  match acc with
  | Exact => forall l f v, fsem dim (xext l f) v <-> fsem dim f v
  | Bounded => bounds_suffice dim s /\ (forall x, In x (RefineSpec.sys_clocks s) -> (x < dim)%nat) /\ search_within dim xext s target
  end.
(** Clocks are compared with numbers only, not with each other. *)
Definition no_differences (dim : nat) (f : fed) : Prop :=
  forall z c, In z f -> In c z -> (ci c < dim)%nat /\ (cj c < dim)%nat /\ (ci c = 0%nat \/ cj c = 0%nat).
