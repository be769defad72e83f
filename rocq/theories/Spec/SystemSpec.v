(** What the operators on systems are supposed to do, in terms of the offered transitions
    and the valuations that can take them. *)
From Coq Require Import List String ZArith QArith Bool Arith.
From Verif Require Import Fed.Zone Model.Base Model.Expr Model.Guard Model.Loc Model.Component Model.TS Spec.StepSpec.
Import ListNotations.

(** [p] is the location pairing [a] and [b]; being there means being in both. *)
Definition pair_loc (dim : nat) (mk : locid -> locid -> locid) (a b p : loctree) : Prop :=
  lt_id p = mk (lt_id a) (lt_id b) /\ lt_left p = Ok a /\ lt_right p = Ok b /\
  forall v, inv_at dim p v <-> inv_at dim a v /\ inv_at dim b v.

(** [t] is [t1] and [t2] taken together. *)
Definition joint (dim : nat) (mk : locid -> locid -> locid) (t1 t2 t : transition) : Prop :=
  (forall v, fsem dim (t_guard t) v <-> fsem dim (t_guard t1) v /\ fsem dim (t_guard t2) v) /\
  t_updates t = t_updates t1 ++ t_updates t2 /\
  pair_loc dim mk (t_target t1) (t_target t2) (t_target t).

(** [t] is [t1] taken by the left part while the right part stays in [lr]. *)
Definition left_alone (dim : nat) (mk : locid -> locid -> locid) (t1 : transition) (lr : loctree) (t : transition) : Prop :=
  (forall v, fsem dim (t_guard t) v <-> fsem dim (t_guard t1) v) /\
  t_updates t = t_updates t1 /\ pair_loc dim mk (t_target t1) lr (t_target t).
Definition right_alone (dim : nat) (mk : locid -> locid -> locid) (ll : loctree) (t2 : transition) (t : transition) : Prop :=
  (forall v, fsem dim (t_guard t) v <-> fsem dim (t_guard t2) v) /\
  t_updates t = t_updates t2 /\ pair_loc dim mk ll (t_target t2) (t_target t).

(** The two lists contain the same things up to [R]. *)
Definition corresponds {A B} (R : A -> B -> Prop) (xs : list A) (ys : list B) : Prop :=
  (forall x, In x xs -> exists y, In y ys /\ R x y) /\ (forall y, In y ys -> exists x, In x xs /\ R x y).

(** Systems the tool builds: compiled components and the three operators.  (The operators'
    consistency and determinism prechecks only reject more systems.) *)
Inductive built (dim : nat) : ts -> Prop :=
| b_simple c ins outs id cc : compile_with_actions dim c ins outs id = Ok cc -> built dim (TSimple cc)
| b_conj l r s : built dim l -> built dim r -> conjunction_new l r = Ok s -> built dim s
| b_comp l r s : built dim l -> built dim r -> composition_new l r = Ok s -> built dim s
| b_quot t s q r : built dim t -> built dim s -> quotient_new t s q = Ok r -> built dim r.

(** An action of a system. *)
Definition is_input (s : ts) (a : string) : Prop := In a (ts_inputs s).
Definition is_output (s : ts) (a : string) : Prop := In a (ts_outputs s).
Definition is_action (s : ts) (a : string) : Prop := is_input s a \/ is_output s a.
Definition io_disjoint (s : ts) : Prop := forall a, is_input s a -> ~ is_output s a.

(** The quotient operator does not occur. *)
Fixpoint quotient_free (s : ts) : bool :=
  match s with
  | TSimple _ => true
  | TConj l r _ _ | TComp l r _ _ _ _ _ => quotient_free l && quotient_free r
  | TQuot _ _ _ _ _ _ => false
  end.
(** No quotient occurs inside the divisor of a quotient. *)
Fixpoint plain_divisors (s : ts) : bool :=
  match s with
  | TSimple _ => true
  | TConj l r _ _ | TComp l r _ _ _ _ _ => plain_divisors l && plain_divisors r
  | TQuot t s _ _ _ _ => plain_divisors t && quotient_free s
  end.
(** No component uses an action name reserved for quotients. *)
Definition reserved (a : string) : bool := String.prefix "quotient_new_input" a.
Fixpoint no_reserved (s : ts) : bool :=
  match s with
  | TSimple c => forallb (fun a => negb (reserved a)) (cc_inputs c ++ cc_outputs c)
  | TConj l r _ _ | TComp l r _ _ _ _ _ => no_reserved l && no_reserved r
  | TQuot t s _ _ _ _ => no_reserved t && no_reserved s
  end.

(** ** Quotient rules, at the level of valuations *)

(** The transition [t] leaving [l] is possible now: source invariant, guard, and target
    invariant after the updates. *)
Definition able (dim : nat) (l : loctree) (t : transition) (v : val) : Prop :=
  inv_at dim l v /\ fsem dim (t_guard t) v /\ inv_at dim (t_target t) (run_updates (t_updates t) v).

Inductive qstep (dim : nat) (T S : ts) (new_input : string) (q : nat) (lt ls : loctree)
    (tts sss : list transition) (a : string) (v : val) : loctree -> list cupdate -> Prop :=
(** both know the action and both can do it *)
| q_both t s : is_action T a -> is_action S a -> In t tts -> In s sss -> able dim lt t v -> able dim ls s v ->
    qstep dim T S new_input q lt ls tts sss a v (lt_quotient (t_target t) (t_target s)) (t_updates t ++ t_updates s)
(** only S knows the action *)
| q_s s : ~ is_action T a -> is_action S a -> In s sss -> able dim ls s v ->
    qstep dim T S new_input q lt ls tts sss a v (lt_quotient lt (t_target s)) (t_updates s)
(** only T knows the action *)
| q_t t : is_action T a -> ~ is_action S a -> In t tts -> able dim lt t v -> inv_at dim ls v ->
    qstep dim T S new_input q lt ls tts sss a v (lt_quotient (t_target t) ls) (t_updates t)
(** S cannot be here at all, or it cannot produce this output: anything may follow *)
| q_univ_inv : val_ok dim v -> ~ inv_at dim ls v ->
    qstep dim T S new_input q lt ls tts sss a v lt_universal []
| q_univ_out : val_ok dim v -> is_output S a -> (forall s, In s sss -> ~ able dim ls s v) ->
    qstep dim T S new_input q lt ls tts sss a v lt_universal []
(** S produces an output that T forbids: error *)
| q_err_out s : is_output S a -> is_output T a -> In s sss -> able dim ls s v ->
    (forall t, In t tts -> ~ able dim lt t v) ->
    qstep dim T S new_input q lt ls tts sss a v (lt_error q) [mkU q 0]
(** T's invariant is violated while S's holds: the new input reports the error *)
| q_err_inv : a = new_input -> inv_at dim ls v -> ~ inv_at dim lt v ->
    qstep dim T S new_input q lt ls tts sss a v (lt_error q) [mkU q 0].

(** The offered transitions [ts] behave as the step relation [R]. *)
Definition offers (dim : nat) (ts : list transition) (R : val -> loctree -> list cupdate -> Prop) : Prop :=
  forall v l us, (exists t, In t ts /\ fsem dim (t_guard t) v /\ t_target t = l /\ t_updates t = us) <-> R v l us.

(** ** Clock discipline *)

(** Clocks declared by the components of a system. *)
Fixpoint comp_clocks (s : ts) : list nat :=
  match s with
  | TSimple c => map snd (d_clocks (cc_decls c))
  | TConj l r _ _ | TComp l r _ _ _ _ _ => comp_clocks l ++ comp_clocks r
  | TQuot t s _ _ _ _ => comp_clocks t ++ comp_clocks s
  end.

(** Components have separate clocks below [dim], all quotients use the clock [q] that no
    component has, and the edges of a component assign naturals to its own clocks and do
    not assign one clock two different values. *)
Fixpoint clocks_ok (dim q : nat) (s : ts) : Prop :=
  match s with
  | TSimple c =>
      ~ In q (comp_clocks s) /\
      forall i es a t, In (i, es) (cc_edges c) -> In (a, t) es ->
        updates_ok dim (t_updates t) /\ no_conflict (t_updates t) /\
        forall u, In u (t_updates t) -> In (u_clock u) (comp_clocks s)
  | TConj l r _ _ | TComp l r _ _ _ _ _ =>
      clocks_ok dim q l /\ clocks_ok dim q r /\ (forall x, In x (comp_clocks l) -> ~ In x (comp_clocks r))
  | TQuot t s _ _ _ q' =>
      clocks_ok dim q t /\ clocks_ok dim q s /\ (forall x, In x (comp_clocks t) -> ~ In x (comp_clocks s)) /\
      q' = q /\ q <> 0%nat /\ (q < dim)%nat
  end.
