(** Refinement between timed systems, and the lists a refinement search works with. *)
From Coq Require Import List String ZArith QArith Bool Arith.
From Verif Require Import Fed.Zone Model.Base Model.Expr Model.Guard Model.Loc Model.Component Model.TS Model.PairList
  Spec.StepSpec Spec.SystemSpec Spec.RunSpec.
Import ListNotations.
Local Open Scope Q_scope.

(** A refinement relation between the concrete states of two systems: whenever it holds,
    - the right can do every output of the left (outputs the right does not have leave it alone),
    - the left can do every input of the right (inputs the left does not have leave it alone),
    - the right can wait whenever the left can,
    and the relation holds again afterwards. *)
Definition refinement (dim : nat) (s1 s2 : ts) (R : loctree -> val -> loctree -> val -> Prop) : Prop :=
  forall l1 v1 l2 v2, R l1 v1 l2 v2 ->
    inv_at dim l1 v1 /\ inv_at dim l2 v2 /\
    (forall a t1, is_output s1 a -> offered dim s1 l1 a t1 -> able dim l1 t1 v1 ->
       (is_output s2 a -> exists t2, offered dim s2 l2 a t2 /\ able dim l2 t2 v2 /\
          R (t_target t1) (run_updates (t_updates t1) v1) (t_target t2) (run_updates (t_updates t2) v2)) /\
       (~ is_output s2 a -> R (t_target t1) (run_updates (t_updates t1) v1) l2 v2)) /\
    (forall a t2, is_input s2 a -> offered dim s2 l2 a t2 -> able dim l2 t2 v2 ->
       (is_input s1 a -> exists t1, offered dim s1 l1 a t1 /\ able dim l1 t1 v1 /\
          R (t_target t1) (run_updates (t_updates t1) v1) (t_target t2) (run_updates (t_updates t2) v2)) /\
       (~ is_input s1 a -> R l1 v1 (t_target t2) (run_updates (t_updates t2) v2))) /\
    (forall d, 0 <= d -> (forall e, 0 <= e -> e <= d -> inv_at dim l1 (vdelay v1 e)) -> R l1 (vdelay v1 d) l2 (vdelay v2 d)).

(** Refinement of the initial states; two systems without initial state refine each other. *)
Definition refines (dim : nat) (s1 s2 : ts) : Prop :=
  match initial_location dim s1, initial_location dim s2 with
  | Some l1, Some l2 => exists R, refinement dim s1 s2 R /\ R l1 zero_val l2 zero_val
  | None, None => True
  | _, _ => False
  end.

(** Clocks a system reads or resets: those of its components and the quotients' clock. *)
Fixpoint sys_clocks (s : ts) : list nat :=
  match s with
  | TSimple _ => comp_clocks s
  | TConj l r _ _ | TComp l r _ _ _ _ _ => sys_clocks l ++ sys_clocks r
  | TQuot t d _ _ _ q => q :: sys_clocks t ++ sys_clocks d
  end.
Definition separate (s1 s2 : ts) : Prop := forall x, In x (sys_clocks s1) -> ~ In x (sys_clocks s2).

(** Invariants that hold now and later also hold in between. *)
Definition no_gaps (dim : nat) (s : ts) : Prop :=
  forall l v d e, In l (all_locations dim s) -> 0 <= d -> 0 <= e -> inv_at dim l v -> inv_at dim l (vdelay v (d + e)) -> inv_at dim l (vdelay v d).

(** In the beginning the right can wait as long as the left. *)
Definition starts_together (dim : nat) (s1 s2 : ts) : Prop :=
  forall l1 l2, initial_location dim s1 = Some l1 -> initial_location dim s2 = Some l2 ->
    inv_at dim l1 zero_val /\ inv_at dim l2 zero_val /\
    forall d, 0 <= d -> (forall e, 0 <= e -> e <= d -> inv_at dim l1 (vdelay zero_val e)) -> inv_at dim l2 (vdelay zero_val d).

(** Moving both systems together over their separate clocks: what the check explores. *)
Inductive together (dim : nat) (s1 s2 : ts) : loctree -> loctree -> val -> Prop :=
| tg_init l1 l2 : initial_location dim s1 = Some l1 -> initial_location dim s2 = Some l2 ->
    inv_at dim l1 zero_val -> inv_at dim l2 zero_val -> together dim s1 s2 l1 l2 zero_val
| tg_wait l1 l2 v d : together dim s1 s2 l1 l2 v -> 0 <= d ->
    (forall e, 0 <= e -> e <= d -> inv_at dim l1 (vdelay v e) /\ inv_at dim l2 (vdelay v e)) -> together dim s1 s2 l1 l2 (vdelay v d)
| tg_both l1 l2 v a t1 t2 : together dim s1 s2 l1 l2 v -> is_output s1 a /\ is_output s2 a \/ is_input s1 a /\ is_input s2 a ->
    offered dim s1 l1 a t1 -> offered dim s2 l2 a t2 -> able dim l1 t1 v -> able dim l2 t2 v ->
    together dim s1 s2 (t_target t1) (t_target t2) (run_updates (t_updates t1 ++ t_updates t2) v)
| tg_left l1 l2 v a t1 : together dim s1 s2 l1 l2 v -> is_output s1 a -> ~ is_output s2 a ->
    offered dim s1 l1 a t1 -> able dim l1 t1 v -> together dim s1 s2 (t_target t1) l2 (run_updates (t_updates t1) v)
| tg_right l1 l2 v a t2 : together dim s1 s2 l1 l2 v -> is_input s2 a -> ~ is_input s1 a ->
    offered dim s2 l2 a t2 -> able dim l2 t2 v -> together dim s1 s2 l1 (t_target t2) (run_updates (t_updates t2) v).

(** The left can output, or the right can receive, an action the other side cannot do. *)
Definition unmatched (dim : nat) (s1 s2 : ts) (a : string) (l1 l2 : loctree) (v : val) : Prop :=
  (is_output s1 a /\ is_output s2 a /\ (exists t1, offered dim s1 l1 a t1 /\ able dim l1 t1 v) /\
     forall t2, offered dim s2 l2 a t2 -> ~ able dim l2 t2 v) \/
  (is_input s2 a /\ is_input s1 a /\ (exists t2, offered dim s2 l2 a t2 /\ able dim l2 t2 v) /\
     forall t1, offered dim s1 l1 a t1 -> ~ able dim l1 t1 v).

(** Both sides move together (or one of them alone), and then the left can wait longer than
    the right. *)
Definition outlasts (dim : nat) (l1 l2 : loctree) (w : val) : Prop :=
  exists d, 0 <= d /\ (forall e, 0 <= e -> e <= d -> inv_at dim l1 (vdelay w e)) /\ ~ inv_at dim l2 (vdelay w d).
Definition cuts_delay (dim : nat) (s1 s2 : ts) (a : string) (l1 l2 : loctree) (v : val) : Prop :=
  (exists t1 t2, (is_output s1 a /\ is_output s2 a \/ is_input s1 a /\ is_input s2 a) /\ offered dim s1 l1 a t1 /\ offered dim s2 l2 a t2 /\
     able dim l1 t1 v /\ able dim l2 t2 v /\ outlasts dim (t_target t1) (t_target t2) (run_updates (t_updates t1 ++ t_updates t2) v)) \/
  (exists t1, is_output s1 a /\ ~ is_output s2 a /\ offered dim s1 l1 a t1 /\ able dim l1 t1 v /\
     outlasts dim (t_target t1) l2 (run_updates (t_updates t1) v)) \/
  (exists t2, is_input s2 a /\ ~ is_input s1 a /\ offered dim s2 l2 a t2 /\ able dim l2 t2 v /\
     outlasts dim l1 (t_target t2) (run_updates (t_updates t2) v)).

(** Guards are strong enough: taking a transition never violates the invariant entered. *)
Definition enters_inside (dim : nat) (s : ts) : Prop :=
  forall l a t v, In l (all_locations dim s) -> offered dim s l a t -> fsem dim (t_guard t) v -> inv_at dim (t_target t) (run_updates (t_updates t) v).

(** What the alphabets of the two sides must satisfy. *)
Definition alphabets_fit (s1 s2 : ts) : Prop :=
  (forall a, is_input s1 a -> ~ is_output s2 a) /\ (forall a, is_input s2 a -> ~ is_output s1 a) /\
  (forall a, is_input s1 a -> is_input s2 a) /\ (forall a, is_output s2 a -> is_output s1 a).

(** *** Lists *)
Inductive list_op := OPut (p : pair) | OPop.
(** A stack: its contents and what the pops returned. *)
Fixpoint stack_run (ops : list list_op) (st : list pair) : list (option pair) * list pair :=
  match ops with
  | [] => ([], st)
  | OPut p :: r => stack_run r (p :: st)
  | OPop :: r =>
      match st with
      | [] => let (o, st') := stack_run r [] in (None :: o, st')
      | p :: q => let (o, st') := stack_run r q in (Some p :: o, st')
      end
  end.
Fixpoint waiting_run (ops : list list_op) (w : wlist) : res (list (option pair) * wlist) :=
  match ops with
  | [] => Ok ([], w)
  | OPut p :: r => waiting_run r (waiting_put p w)
  | OPop :: r =>
      do o <- waiting_pop w;
      match o with
      | None => do (os, w') <- waiting_run r w; Ok (None :: os, w')
      | Some (p, w1) => do (os, w') <- waiting_run r w1; Ok (Some p :: os, w')
      end
  end.
Definition same_locations (p x : pair) : Prop := lt_id (p_l1 p) = lt_id (p_l1 x) /\ lt_id (p_l2 p) = lt_id (p_l2 x).
Definition zone_within (dim : nat) (p x : pair) : Prop := forall v, fsem dim (p_zone p) v -> fsem dim (p_zone x) v.
