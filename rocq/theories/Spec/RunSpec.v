(** Timed runs of a system: letting time pass and taking offered transitions. *)
From Coq Require Import List String ZArith QArith Bool Arith.
From Verif Require Import Fed.Zone Model.Base Model.Expr Model.Guard Model.Loc Model.Component Model.TS Spec.StepSpec Spec.SystemSpec.
Import ListNotations.
Local Open Scope Q_scope.

(** [offered s l a t]: in location [l] the system offers [t] for its action [a]. *)
Definition offered (dim : nat) (s : ts) (l : loctree) (a : string) (t : transition) : Prop :=
  is_action s a /\ exists ts, next_transitions dim s l a = Ok ts /\ In t ts.

(** Runs.  Time may pass as long as the invariant holds all the while; a transition needs
    its guard, and the invariant of its target after its updates. *)
Inductive run (dim : nat) (s : ts) (l : loctree) (v : val) : loctree -> val -> Prop :=
| run_nil : run dim s l v l v
| run_delay l' v' d : run dim s l v l' v' -> 0 <= d ->
    (forall e, 0 <= e -> e <= d -> inv_at dim l' (vdelay v' e)) ->
    run dim s l v l' (vdelay v' d)
| run_act l' v' a t : run dim s l v l' v' -> offered dim s l' a t -> able dim l' t v' ->
    run dim s l v (t_target t) (run_updates (t_updates t) v').

Definition zero_val : val := fun _ => 0.

(** States reached by some run from the initial location with all clocks 0. *)
Definition reachable (dim : nat) (s : ts) (l : loctree) (v : val) : Prop :=
  exists l0, initial_location dim s = Some l0 /\ inv_at dim l0 zero_val /\ run dim s l0 zero_val l v.

(** No two transitions at different positions of the offered list are possible together. *)
Definition exclusive (dim : nat) (l : loctree) (v : val) (ts : list transition) : Prop :=
  forall i j t u, i <> j -> nth_error ts i = Some t -> nth_error ts j = Some u ->
    ~ (able dim l t v /\ able dim l u v).

Definition deterministic (dim : nat) (s : ts) : Prop :=
  forall l v a ts, reachable dim s l v -> is_action s a -> next_transitions dim s l a = Ok ts -> exclusive dim l v ts.

(** The constraints of a federation mention only the given clocks. *)
Definition fclocks_in (xs : list nat) (f : fed) : Prop :=
  forall z c, In z f -> In c z -> (ci c = 0%nat \/ In (ci c) xs) /\ (cj c = 0%nat \/ In (cj c) xs).

(** Guards and invariants of a component read only its own clocks. *)
Fixpoint reads_ok (s : ts) : Prop :=
  match s with
  | TSimple c =>
      (forall l f, In l (cc_locs c) -> lt_inv l = Some f -> fclocks_in (comp_clocks s) f) /\
      (forall i es a t, In (i, es) (cc_edges c) -> In (a, t) es -> fclocks_in (comp_clocks s) (t_guard t))
  | TConj l r _ _ | TComp l r _ _ _ _ _ => reads_ok l /\ reads_ok r
  | TQuot t s _ _ _ _ => reads_ok t /\ reads_ok s
  end.

(** Locations reached from the initial one by following offered transitions, whatever the clocks are. *)
Inductive edge_reach (dim : nat) (s : ts) : loctree -> Prop :=
| er_init l : initial_location dim s = Some l -> edge_reach dim s l
| er_step l a t : edge_reach dim s l -> offered dim s l a t -> edge_reach dim s (t_target t).

(** The components a system is built from. *)
Fixpoint part_of (c : ts) (s : ts) : Prop :=
  match s with
  | TSimple _ => c = s
  | TConj l r _ _ | TComp l r _ _ _ _ _ => part_of c l \/ part_of c r
  | TQuot t d _ _ _ _ => part_of c t \/ part_of c d
  end.
