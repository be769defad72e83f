(** Partial locations, paths and what reaching a target means. *)
From Coq Require Import List String ZArith QArith Bool Arith.
From Verif Require Import Fed.Zone Model.Base Model.Expr Model.Guard Model.Loc Model.Component Model.TS Model.Search
  Spec.StepSpec Spec.SystemSpec Spec.RunSpec.
Import ListNotations.
Local Open Scope Q_scope.

(** Two location names fit: same operators, and at each component the same location unless
    one side is the wildcard. *)
Inductive fits : locid -> locid -> Prop :=
| fit_same n : fits (LSimple n) (LSimple n)
| fit_any_l n : fits LAny (LSimple n)
| fit_any_r n : fits (LSimple n) LAny
| fit_any : fits LAny LAny
| fit_conj a b c d : fits a c -> fits b d -> fits (LConj a b) (LConj c d)
| fit_comp a b c d : fits a c -> fits b d -> fits (LComp a b) (LComp c d)
| fit_quot a b c d : fits a c -> fits b d -> fits (LQuot a b) (LQuot c d).

(** The name of a location tells the names of its parts. *)
Fixpoint named (t : loctree) : Prop :=
  match t with
  | LLeaf (LSimple _) _ _ | LLeaf (LSpecial _) _ _ | LLeaf LAny _ _ => True
  | LLeaf _ _ _ => False
  | LNode i _ _ l r => (i = LConj (lt_id l) (lt_id r) \/ i = LComp (lt_id l) (lt_id r) \/ i = LQuot (lt_id l) (lt_id r)) /\ named l /\ named r
  end.

(** No universal or error location of a quotient occurs in the name. *)
Fixpoint no_special (i : locid) : Prop :=
  match i with
  | LConj a b | LComp a b | LQuot a b => no_special a /\ no_special b
  | LSpecial _ => False
  | _ => True
  end.

(** Locations a query can ask for: one location or a wildcard per component, put together
    as the system is. *)
Fixpoint pattern (dim : nat) (s : ts) (p : loctree) : Prop :=
  match s with
  | TSimple c => p = lt_any \/ In p (cc_locs c)
  | TConj l r _ _ => exists a b, pattern dim l a /\ pattern dim r b /\ lt_compose dim a b CConj = Ok p
  | TComp l r _ _ _ _ _ => exists a b, pattern dim l a /\ pattern dim r b /\ lt_compose dim a b CComp = Ok p
  | TQuot t d _ _ _ _ => exists a b, pattern dim t a /\ pattern dim d b /\ p = lt_quotient a b
  end.

(** The concrete state [(l, v)] is one the target describes. *)
Definition hits (dim : nat) (target : state) (l : loctree) (v : val) : Prop :=
  fits (lt_id l) (lt_id (s_loc target)) /\ fsem dim (s_zone target) v.

(** Taking the listed transitions one after the other, waiting after each of them. *)
Inductive path_run (dim : nat) (s : ts) : loctree -> val -> list (transition * string) -> loctree -> val -> Prop :=
| pr_end l v : path_run dim s l v [] l v
| pr_step l v t a d rest l' v' : offered dim s l a t -> able dim l t v -> 0 <= d ->
    (forall e, 0 <= e -> e <= d -> inv_at dim (t_target t) (vdelay (run_updates (t_updates t) v) e)) ->
    path_run dim s (t_target t) (vdelay (run_updates (t_updates t) v) d) rest l' v' ->
    path_run dim s l v ((t, a) :: rest) l' v'.

(** What a reported decision says to do. *)
Definition taken (d : decision) : transition * string := (d_trans d, d_action d).

(** A start zone that already contains what waiting leads to. *)
Definition waits (dim : nat) (st : state) : Prop :=
  forall v d, fsem dim (s_zone st) v -> 0 <= d -> inv_at dim (s_loc st) v -> inv_at dim (s_loc st) (vdelay v d) ->
    fsem dim (s_zone st) (vdelay v d).

(** All invariants bound the clocks from above only. *)
Definition upper_invariants (dim : nat) (s : ts) : Prop :=
  forall l, In l (all_locations dim s) -> past_closed dim l.
