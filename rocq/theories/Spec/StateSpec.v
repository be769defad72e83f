(** What a state written in a query means. *)
From Coq Require Import List String ZArith QArith Bool Arith.
From Verif Require Import Fed.Zone Model.Base Model.Expr Model.Loc Model.Component Model.ParseQuery Model.Recipe Spec.GuardSpec.
Import ListNotations.
Local Open Scope Q_scope.

(** The variable is written with the name and the bracketed text of the component. *)
Definition names_comp (x : cvar) (c : component) : Prop := c_name c = v_comp x /\ c_special c = v_id x.

(** In the location called [i] of the system, the component that [x] names is in the location that [x] names. *)
Inductive at_loc (x : cvar) : recipe -> locid -> Prop :=
| at_here c : names_comp x c -> at_loc x (RSimple c) (LSimple (v_name x))
| at_comp_l l r a b : at_loc x l a -> at_loc x (RComp l r) (LComp a b)
| at_comp_r l r a b : at_loc x r b -> at_loc x (RComp l r) (LComp a b)
| at_conj_l l r a b : at_loc x l a -> at_loc x (RConj l r) (LConj a b)
| at_conj_r l r a b : at_loc x r b -> at_loc x (RConj l r) (LConj a b)
| at_quot_l l r q a b : at_loc x l a -> at_loc x (RQuot l r q) (LQuot a b)
| at_quot_r l r q a b : at_loc x r b -> at_loc x (RQuot l r q) (LQuot a b).

(** The value of a sum of clocks and numbers. *)
Inductive operand_val (cs : list component) (v : val) : operand -> Q -> Prop :=
| ov_num k : operand_val cs v (ONum k) (inject_Z k)
| ov_clk x c i : In c cs -> names_comp x c -> assoc (v_name x) (d_clocks (c_decls c)) = Some i -> operand_val cs v (OClk x) (v i)
| ov_diff l r a b : operand_val cs v l a -> operand_val cs v r b -> operand_val cs v (ODiff l r) (a - b)
| ov_sum l r a b : operand_val cs v l a -> operand_val cs v r b -> operand_val cs v (OSum l r) (a + b).

Definition rel_holds (o : rel) (a b : Q) : Prop :=
  match o with RLe => a <= b | RGe => b <= a | REq => a == b | RLt => a < b | RGt => b < a end.

(** The state [(i, v)] satisfies the expression. *)
Fixpoint holds (r : recipe) (i : locid) (v : val) (e : stx) : Prop :=
  match e with
  | SCmp o x y => exists a b, operand_val (components r) v x a /\ operand_val (components r) v y b /\ rel_holds o a b
  | SAnd l => fold_right (fun x P => holds r i v x /\ P) True l
  | SOr l => fold_right (fun x P => holds r i v x \/ P) False l
  | SLoc x => at_loc x r i
  | SNot e' => ~ holds r i v e'
  | SBool b => b = true
  end.

(** The locations an expression mentions. *)
Fixpoint mentions (e : stx) (x : cvar) : Prop :=
  match e with
  | SAnd l | SOr l => fold_right (fun e P => mentions e x \/ P) False l
  | SNot e' => mentions e' x
  | SLoc y => y = x
  | SCmp _ _ _ | SBool _ => False
  end.
(** Every mentioned location belongs to a component of the system. *)
Definition known (r : recipe) (e : stx) : Prop :=
  forall x, mentions e x -> exists c, In c (components r) /\ names_comp x c.
(** No two components of the system are written the same way. *)
Definition distinct_names (r : recipe) : Prop :=
  NoDup (map (fun c => (c_name c, c_special c)) (components r)).

(** The shapes of comparisons that are translated faithfully (Spec/GuardSpec.v); which clock is meant does not matter. *)
Fixpoint shape (o : operand) : arith :=
  match o with
  | ONum k => AInt k
  | OClk _ => AClock 0
  | ODiff l r => ADifference (shape l) (shape r)
  | OSum l r => AAddition (shape l) (shape r)
  end.
Fixpoint simple_state (e : stx) : bool :=
  match e with
  | SCmp _ l r => simple_side no_names (shape l) && simple_side no_names (shape r)
  | SAnd l | SOr l => forallb simple_state l
  | SNot e' => simple_state e'
  | _ => true
  end.
Fixpoint basic_state (e : stx) : bool :=
  match e with
  | SCmp _ l r => basic_cmp no_names (shape l) (shape r)
  | SAnd l | SOr l => forallb basic_state l
  | SNot e' => basic_state e'
  | _ => true
  end.
(** No negation, and something in every conjunction. *)
Fixpoint plain_state (e : stx) : bool :=
  match e with
  | SAnd l => negb (match l with [] => true | _ => false end) && forallb plain_state l
  | SOr _ | SNot _ => false
  | _ => true
  end.
(** All clocks of the expression are declared in the components they are said to be in. *)
Fixpoint clocks_known (r : recipe) (o : operand) : Prop :=
  match o with
  | ONum _ => True
  | OClk x => exists c i, In c (components r) /\ names_comp x c /\ assoc (v_name x) (d_clocks (c_decls c)) = Some i
  | ODiff a b | OSum a b => clocks_known r a /\ clocks_known r b
  end.
Fixpoint state_clocks (r : recipe) (e : stx) : Prop :=
  match e with
  | SCmp _ a b => clocks_known r a /\ clocks_known r b
  | SAnd l | SOr l => fold_right (fun x P => state_clocks r x /\ P) True l
  | SNot e' => state_clocks r e'
  | _ => True
  end.
(** What makes a state acceptable: the mentioned locations exist, no component is said to be in two places, and all clocks are declared. *)
Definition acceptable (r : recipe) (e : stx) : Prop :=
  (forall x c, mentions e x -> In c (components r) -> names_comp x c -> exists l, In l (c_locs c) /\ l_id l = v_name x) /\
  (forall x y, mentions e x -> mentions e y -> v_comp x = v_comp y -> v_id x = v_id y -> v_name x = v_name y) /\
  state_clocks r e.
(** All comparisons are between a clock and a number. *)
Fixpoint number_state (e : stx) : bool :=
  match e with
  | SCmp _ (OClk _) (ONum _) | SCmp _ (ONum _) (OClk _) => true
  | SCmp _ _ _ => false
  | SAnd l | SOr l => forallb number_state l
  | SNot e' => number_state e'
  | _ => true
  end.
