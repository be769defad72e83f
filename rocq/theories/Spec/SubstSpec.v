(** Systems that can be exchanged for one another as parts of larger systems. *)
From Coq Require Import List String ZArith QArith Bool Arith.
From Verif Require Import Fed.Zone Model.Base Model.Expr Model.Guard Model.Loc Model.Component Model.TS Model.ParseQuery Model.Recipe
  Spec.StepSpec Spec.SystemSpec Spec.RunSpec Spec.ExecSpec.
Import ListNotations.

(** In location [l] with clocks [v], [s] can do [a] and is then in [l'] with clocks [v']. *)
Definition moves (dim : nat) (s : ts) (l : loctree) (v : val) (a : string) (l' : loctree) (v' : val) : Prop :=
  exists t, offered dim s l a t /\ able dim l t v /\ l' = t_target t /\ v' = run_updates (t_updates t) v.

(** A timed bisimulation: related states have invariants that hold or not together, stay related when time passes, and can do the same. *)
Record timed_bisimulation (d : nat) (s : ts) (d' : nat) (s' : ts) (R : loctree -> val -> loctree -> val -> Prop) : Prop := {
  tb_inv : forall l v l' v', R l v l' v' -> (inv_at d l v <-> inv_at d' l' v');
  tb_delay : forall l v l' v' x, R l v l' v' -> (0 <= x)%Q -> R l (vdelay v x) l' (vdelay v' x);
  tb_forth : forall l v l' v' a p w, R l v l' v' -> moves d s l v a p w -> exists p' w', moves d' s' l' v' a p' w' /\ R p w p' w';
  tb_back : forall l v l' v' a p' w', R l v l' v' -> moves d' s' l' v' a p' w' -> exists p w, moves d s l v a p w /\ R p w p' w' }.

(** The systems have the same actions and their initial states are related. *)
Definition bisimilar (d : nat) (s : ts) (d' : nat) (s' : ts) : Prop :=
  (forall a, is_input s' a <-> is_input s a) /\ (forall a, is_output s' a <-> is_output s a) /\
  exists R, timed_bisimulation d s d' s' R /\
    match initial_location d s, initial_location d' s' with
    | Some l, Some l' => R l zero_val l' zero_val
    | None, None => True
    | _, _ => False
    end.

(** [f] with [e] in the place of the component [m]. *)
Fixpoint put (m : string) (e : sysx) (f : sysx) : sysx :=
  match f with
  | XComp n None => if String.eqb n m then e else f
  | XComp _ _ => f
  | XPar a b => XPar (put m e a) (put m e b)
  | XConj a b => XConj (put m e a) (put m e b)
  | XQuot a b => XQuot (put m e a) (put m e b)
  end.

(** No two operands of an operator both contain quotients (which would use one clock). *)
Fixpoint quotients_apart (e : sysx) : bool :=
  match e with
  | XComp _ _ => true
  | XPar a b | XConj a b | XQuot a b => negb (has_quotient a && has_quotient b) && quotients_apart a && quotients_apart b
  end.

(** [e'] is [e] with operands of conjunctions and compositions in another order or grouped in another way. Where several
    steps are taken, the expressions in between are legal as well. *)
Inductive rearranged (load : string -> option component) : sysx -> sysx -> Prop :=
  | ra_refl e : rearranged load e e
  | ra_sym e f : rearranged load e f -> rearranged load f e
  | ra_trans e f g : rearranged load e f -> (exists d s, names_one load f d s) -> rearranged load f g -> rearranged load e g
  | ra_conj_order a b : rearranged load (XConj a b) (XConj b a)
  | ra_comp_order a b : rearranged load (XPar a b) (XPar b a)
  | ra_conj_group a b c : rearranged load (XConj (XConj a b) c) (XConj a (XConj b c))
  | ra_comp_group a b c : rearranged load (XPar (XPar a b) c) (XPar a (XPar b c))
  | ra_conj a b a' b' : rearranged load a a' -> rearranged load b b' -> rearranged load (XConj a b) (XConj a' b')
  | ra_comp a b a' b' : rearranged load a a' -> rearranged load b b' -> rearranged load (XPar a b) (XPar a' b')
  | ra_quot a b a' b' : rearranged load a a' -> rearranged load b b' -> rearranged load (XQuot a b) (XQuot a' b').
