(** What it means that states survive being sent to a client and back. *)
From Coq Require Import List String ZArith QArith Bool Arith.
From Verif Require Import Fed.Zone Model.Base Model.Expr Model.Guard Model.Loc Model.Component Model.TS Model.Search Model.Wire Spec.StepSpec.
Import ListNotations.

(** Same location, and zones with the same valuations. *)
Definition same_state (dim : nat) (a b : state) : Prop :=
  s_loc a = s_loc b /\ forall v, fsem dim (s_zone a) v <-> fsem dim (s_zone b) v.
Definition same_decision (dim : nat) (a b : decision) : Prop :=
  same_state dim (d_state a) (d_state b) /\ d_action a = d_action b /\ same_state dim (d_next a) (d_next b).

(** The component instances of a system. *)
Fixpoint instances (s : ts) : list ccomp :=
  match s with
  | TSimple c => [c]
  | TConj l r _ _ | TComp l r _ _ _ _ _ => instances l ++ instances r
  | TQuot t d _ _ _ _ => instances t ++ instances d
  end.
(** Instances have numbers of their own, and no component declares two clocks of one name. *)
Definition distinct_instances (s : ts) : Prop := NoDup (map cc_id (instances s)).
Definition distinct_clock_names (s : ts) : Prop :=
  forall c, In c (instances s) -> NoDup (map fst (d_clocks (cc_decls c))).
(** Clock indices fit in 32 bits. *)
Definition fits_u32 (dim : nat) : Prop := (Z.of_nat dim <= 4294967296)%Z.

(** What the client sees of a location: the name, number and location of every component
    instance, or that a quotient is in one of its special locations. *)
Fixpoint shows_location (s : ts) (l : loctree) (x : specloc) : Prop :=
  match s with
  | TSimple c => exists n, lt_id l = LSimple n /\ x = SLComp (mkSC (cc_name c) (cc_id c)) n
  | TConj l1 r1 _ _ => exists a b y z, lt_left l = Ok a /\ lt_right l = Ok b /\ shows_location l1 a y /\ shows_location r1 b z /\ x = SLBranch y z OpConj
  | TComp l1 r1 _ _ _ _ _ => exists a b y z, lt_left l = Ok a /\ lt_right l = Ok b /\ shows_location l1 a y /\ shows_location r1 b z /\ x = SLBranch y z OpComp
  | TQuot t d _ _ _ q =>
      (l = lt_universal /\ x = SLSpecial SUniversal) \/ (l = lt_error q /\ x = SLSpecial SError) \/
      exists a b y z, lt_left l = Ok a /\ lt_right l = Ok b /\ shows_location t a y /\ shows_location d b z /\ x = SLBranch y z OpQuot
  end.

(** What the client sees of a clock. *)
Definition shows_clock (s : ts) (x : nat) (k : specclock) : Prop :=
  match k with
  | SCZero => x = 0%nat
  | SCComp n c => exists i, In i (instances s) /\ c = mkSC (cc_name i) (cc_id i) /\ In (n, x) (d_clocks (cc_decls i))
  | SCSystem y => y = x /\ forall i n, In i (instances s) -> ~ In (n, x) (d_clocks (cc_decls i))
  end.
Definition shows_constraint (s : ts) (c : dcon) (k : speccon) : Prop :=
  shows_clock s (ci c) (sk_i k) /\ shows_clock s (cj c) (sk_j k) /\ sk_strict k = cs c /\ sk_c k = cc c.

(** The component instance [c] takes its edge [e] in the transition called [id]. *)
Fixpoint takes_edge (id : transid) (s : ts) (c : ccomp) (e : string) {struct id} : Prop :=
  match id, s with
  | TISimple e', TSimple c' => c' = c /\ e' = e
  | TIConj a b, TConj l r _ _ => takes_edge a l c e \/ takes_edge b r c e
  | TIComp a b, TComp l r _ _ _ _ _ => takes_edge a l c e \/ takes_edge b r c e
  | TIQuot ls rs, TQuot t d _ _ _ _ =>
      (fix any l := match l with [] => False | i :: l' => takes_edge i t c e \/ any l' end) ls \/
      (fix any l := match l with [] => False | i :: l' => takes_edge i d c e \/ any l' end) rs
  | _, _ => False
  end.

(** The edges listed in the message are those that component instances take. *)
Definition edges_shown (s : ts) (d : decision) (p : pdecision) : Prop :=
  forall e, In e (pd_edges p) <-> exists c, takes_edge (t_id (d_trans d)) s c (pe_id e) /\ pe_comp e = Some (mkPC (cc_name c) (cc_id c)).

(** The messages describe the decisions, one by one: the right edges are listed, and what is
    read from the message is the same decision. *)
Definition answers (dim : nat) (s : ts) (ds : list decision) (ps : list pdecision) : Prop :=
  Forall2 (fun d p => edges_shown s d p /\ exists d', read_decision dim s p = Ok d' /\ same_decision dim d' d) ds ps.

(** Same outcome: both succeed with related results, or both fail alike. *)
Definition same_res {A B} (R : A -> B -> Prop) (x : res A) (y : res B) : Prop :=
  match x, y with Ok a, Ok b => R a b | Err, Err => True | Panic, Panic => True | NoFuel, NoFuel => True | _, _ => False end.
