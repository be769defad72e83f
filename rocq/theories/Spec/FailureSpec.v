(** What a client can rely on when it reads that a check failed. *)
From Coq Require Import List String ZArith QArith Bool Arith.
From Verif Require Import Fed.Zone Model.Base Model.Expr Model.Guard Model.Loc Model.Component Model.TS Model.ParseQuery Model.Recipe Model.Reduce Model.Refine Model.PairList Model.Exec Model.Wire Model.Failure
  Spec.StepSpec Spec.SystemSpec Spec.RunSpec Spec.RefineSpec Spec.ConsistencySpec Spec.WireSpec Spec.BoundSpec.
Import ListNotations.
Local Open Scope string_scope.

(** ** Names *)

(** An expression as it is written in messages: every operation in brackets, without the texts that tell apart instances of
    one component. *)
Fixpoint text_of (e : sysx) : string :=
  match e with
  | XComp n _ => n
  | XPar l r => "(" ++ text_of l ++ " || " ++ text_of r ++ ")"
  | XConj l r => "(" ++ text_of l ++ " && " ++ text_of r ++ ")"
  | XQuot l r => "(" ++ text_of l ++ " \\ " ++ text_of r ++ ")"
  end.
(** The same for a system and for a recipe. *)
Fixpoint system_text (s : ts) : string :=
  match s with
  | TSimple c => cc_name c
  | TComp l r _ _ _ _ _ => "(" ++ system_text l ++ " || " ++ system_text r ++ ")"
  | TConj l r _ _ => "(" ++ system_text l ++ " && " ++ system_text r ++ ")"
  | TQuot l r _ _ _ _ => "(" ++ system_text l ++ " \\ " ++ system_text r ++ ")"
  end.

(** ** States in messages *)

(** The message shows location [l] of the system: the location of every component instance, or that a quotient is in one
    of its special locations. *)
Fixpoint tree_shown (s : ts) (l : loctree) (p : ptree) : Prop :=
  match s with
  | TSimple c => exists n, lt_id l = LSimple n /\ p = PLeaf n (Some (mkPC (cc_name c) (cc_id c)))
  | TConj l1 r1 _ _ => exists a b y z, lt_left l = Ok a /\ lt_right l = Ok b /\ tree_shown l1 a y /\ tree_shown r1 b z /\ p = PBin (Some y) (Some z) 0
  | TComp l1 r1 _ _ _ _ _ => exists a b y z, lt_left l = Ok a /\ lt_right l = Ok b /\ tree_shown l1 a y /\ tree_shown r1 b z /\ p = PBin (Some y) (Some z) 1
  | TQuot t d _ _ _ q =>
      (l = lt_universal /\ p = PSpecial 0) \/ (l = lt_error q /\ p = PSpecial 1) \/
      exists a b y z, lt_left l = Ok a /\ lt_right l = Ok b /\ tree_shown t a y /\ tree_shown d b z /\ p = PBin (Some y) (Some z) 2
  end.

(** The clock of the message is clock [x], where [cs] are the component instances of the system. *)
Definition clock_means (cs : list ccomp) (x : nat) (k : option pclock) : Prop :=
  match k with
  | Some PCZero => x = 0%nat
  | Some (PCComp (Some i) n) => exists c, In c cs /\ i = mkPC (cc_name c) (cc_id c) /\ In (n, x) (d_clocks (cc_decls c))
  | Some (PCSystem y) => y = x /\ forall c n, In c cs -> ~ In (n, x) (d_clocks (cc_decls c))
  | _ => False
  end.
Definition con_means (cs : list ccomp) (c : dcon) (k : pcon) : Prop :=
  clock_means cs (ci c) (pk_x k) /\ clock_means cs (cj c) (pk_y k) /\ pk_strict k = Zone.cs c /\ pk_c k = cc c.
(** The constraints of the message are satisfied by exactly the valuations in [P]. *)
Definition zone_shown (dim : nat) (cs : list ccomp) (z : list (list pcon)) (P : val -> Prop) : Prop :=
  exists f, Forall2 (Forall2 (con_means cs)) f z /\ forall v, fsem dim f v <-> P v.

Definition state_shown (dim : nat) (s : ts) (st : state) (p : pstate) : Prop :=
  exists t z, p = mkPS (Some t) (Some z) /\ tree_shown s (s_loc st) t /\ zone_shown dim (instances s) z (fsem dim (s_zone st)).
(** Both sides of a refinement: two locations and one zone over the clocks of both. *)
Definition pair_shown (dim : nat) (s1 s2 : ts) (pr : pair) (p : pstate) : Prop :=
  exists t u z, p = mkPS (Some (PBin (Some t) (Some u) 3)) (Some z) /\ tree_shown s1 (p_l1 pr) t /\ tree_shown s2 (p_l2 pr) u /\
    zone_shown dim (instances s1 ++ instances s2) z (fsem dim (p_zone pr)).

(** ** Symbolic states *)

(** [y] is what [t] makes of [x]. *)
Definition after (acc : accuracy) (dim : nat) (s : ts) (x : state) (t : transition) (y : state) : Prop :=
  s_loc y = t_target t /\ renders acc dim s (s_loc y) (moves dim x t) (fsem dim (s_zone y)).
(** What can be reached from location [l0] with the valuations [Z] by actions in [P]. *)
Inductive leads (acc : accuracy) (dim : nat) (s : ts) (P : string -> Prop) (l0 : loctree) (Z : val -> Prop) : state -> Prop :=
| ld_start x : s_loc x = l0 -> renders acc dim s l0 Z (fsem dim (s_zone x)) -> leads acc dim s P l0 Z x
| ld_step x a t y : leads acc dim s P l0 Z x -> P a -> offered dim s (s_loc x) a t -> possible dim x t -> after acc dim s x t y -> leads acc dim s P l0 Z y.
(** All clocks have the same value, and the invariant of [l] holds. *)
Definition at_start (dim : nat) (l : loctree) (v : val) : Prop :=
  (exists d, 0 <= d /\ v 0%nat == 0 /\ forall i, i <> 0%nat -> (i < dim)%nat -> v i == d)%Q /\ inv_at dim l v.

(** A symbolic state that ends in an inconsistent one whatever outputs are chosen: it is inconsistent itself, or some input leads to
    such a state, or it cannot wait forever and every possible output leads to such a state. *)
Inductive doomed (acc : accuracy) (dim : nat) (s : ts) : state -> Prop :=
| dm_here x : is_inconsistent (s_loc x) = true -> doomed acc dim s x
| dm_input x a t y : is_input s a -> offered dim s (s_loc x) a t -> possible dim x t -> after acc dim s x t y -> doomed acc dim s y -> doomed acc dim s x
| dm_output x : ~ can_wait dim x ->
    (forall a t, is_output s a -> offered dim s (s_loc x) a t -> possible dim x t -> exists y, after acc dim s x t y /\ doomed acc dim s y) -> doomed acc dim s x.
Definition stuck (acc : accuracy) (dim : nat) (s : ts) (x : state) : Prop :=
  ~ can_wait dim x /\
  forall a t, is_output s a -> offered dim s (s_loc x) a t -> possible dim x t -> exists y, after acc dim s x t y /\ doomed acc dim s y.

(** ** What the messages say *)

(** Two transitions of the named component overlap, for the named action, in the location that is shown; the zone is the one with which the
    location is reached when all clock values are allowed in the beginning. *)
Definition det_true (acc : accuracy) (dim : nat) (c : ts) (m : pdetfail) : Prop :=
  exists p a st l0, m = mkPDF (system_text c) (Some (mkPSA (Some p) a)) /\ state_shown dim c st p /\ is_action c a /\
    initial_location dim c = Some l0 /\ leads acc dim c (is_action c) l0 (val_ok dim) st /\
    exists ts i j t u v, next_transitions dim c (s_loc st) a = Ok ts /\ i <> j /\
      nth_error ts i = Some t /\ nth_error ts j = Some u /\ able dim (s_loc st) t v /\ able dim (s_loc st) u v.

(** The named system has no state to begin with; or inputs lead from its beginning to the state that is shown, and that is inconsistent or stuck. *)
Definition con_true (acc : accuracy) (dim : nat) (c : ts) (m : pcfail) : Prop :=
  (m = mkPCF (system_text c) (Some (PNoInitialState 0)) /\ forall l0 v, initial_location dim c = Some l0 -> ~ at_start dim l0 v) \/
  exists p st l0, m = mkPCF (system_text c) (Some (PFailureState p)) /\ state_shown dim c st p /\
    initial_location dim c = Some l0 /\ leads acc dim c (is_input c) l0 (at_start dim l0) st /\
    (is_inconsistent (s_loc st) = true \/ stuck acc dim c st).

(** Some component of [s] is not deterministic or not consistent. *)
Definition pre_true (acc : accuracy) (dim : nat) (s : ts) (m : pcfail) : Prop :=
  exists c, part_of c s /\
    (con_true acc dim c m \/ exists d, m = mkPCF (system_text c) (Some (PDeterminism d)) /\ det_true acc dim c d).

(** Sets of actions with the names of their systems. *)
Definition clash_true (a : pafail) (A : list string) (n : string) (B : list string) (m : string) : Prop :=
  exists i j, a = mkPAF 1 [mkPA A n i; mkPA B m j] /\ exists x, In x A /\ In x B.
Definition surplus_true (a : pafail) (A : list string) (n : string) (B : list string) (m : string) : Prop :=
  exists i j, a = mkPAF 0 [mkPA A n i; mkPA B m j] /\ exists x, In x A /\ ~ In x B.
Definition mismatch_true (s1 s2 : ts) (a : pafail) : Prop :=
  clash_true a (ts_inputs s1) (system_text s1) (ts_outputs s2) (system_text s2) \/
  clash_true a (ts_inputs s2) (system_text s2) (ts_outputs s1) (system_text s1) \/
  surplus_true a (ts_inputs s1) (system_text s1) (ts_inputs s2) (system_text s2) \/
  surplus_true a (ts_outputs s2) (system_text s2) (ts_outputs s1) (system_text s1).
(** Sets of inputs are marked as such, sets of outputs as the opposite. *)
Definition marked (s1 s2 : ts) (p : pactions) : Prop :=
  exists s, (s = s1 \/ s = s2) /\ pa_system p = system_text s /\
    (pa_actions p = ts_inputs s /\ pa_input p = true \/ pa_actions p = ts_outputs s /\ pa_input p = false).

(** A valuation in the zone that is shown has, for the clocks of both systems, the values of [v]. *)
Definition in_pair (dim : nat) (s1 s2 : ts) (pr : pair) (v : val) : Prop :=
  exists w, fsem dim (p_zone pr) w /\ forall x, In x (sys_clocks s1 ++ sys_clocks s2) -> (w x == v x)%Q.

Definition ref_true (acc : accuracy) (dim : nat) (s1 s2 : ts) (m : prfail) : Prop :=
  prf_system m = system_text s1 ++ " <= " ++ system_text s2 /\
  match prf_failure m with
  | Some (PEmptySystem n) =>
      initial_location dim s1 = None /\ initial_location dim s2 <> None /\ n = system_text s1 \/
      initial_location dim s2 = None /\ initial_location dim s1 <> None /\ n = system_text s2
  | Some (PNoInitial k) => k = 0%Z /\ forall l1 l2 v, initial_location dim s1 = Some l1 -> initial_location dim s2 = Some l2 -> ~ (at_start dim l1 v /\ at_start dim l2 v)
  | Some (PInconsistentChild c) => pre_true acc dim s1 c \/ pre_true acc dim s2 c
  | Some (PActionMismatch a) => mismatch_true s1 s2 a
  | Some (PRefinementState k (Some (mkPSA (Some p) a))) =>
      exists pr v, pair_shown dim s1 s2 pr p /\ together dim s1 s2 (p_l1 pr) (p_l2 pr) v /\ in_pair dim s1 s2 pr v /\
        (k = 0%Z /\ unmatched dim s1 s2 a (p_l1 pr) (p_l2 pr) v \/ k = 1%Z /\ (enters_inside dim s2 -> cuts_delay dim s1 s2 a (p_l1 pr) (p_l2 pr) v))
  | _ => False
  end.

(** ** Systems that cannot be put together *)

(** Parts of a recipe. *)
Fixpoint subrecipe (x r : recipe) : Prop :=
  x = r \/ match r with RSimple _ => False | RComp a b | RConj a b | RQuot a b _ => subrecipe x a \/ subrecipe x b end.
(** [s] is the system of the recipe, its parts not being checked. *)
Definition makes (dim : nat) (r : recipe) (s : ts) : Prop :=
  exists k k', compile_at (fun _ _ => Ok true) (fun _ _ => Ok true) dim r k = Ok (s, k').

(** The message is about a part [x] of the recipe that cannot be made. *)
Definition part_true (acc : accuracy) (dim : nat) (x : recipe) (m : pmfail) : Prop :=
  match x with
  | RSimple c => exists a, m = mkPMF (c_name c) (Some (PModelActions a)) /\ clash_true a (input_actions c) (c_name c) (output_actions c) (c_name c)
  | RComp a b => exists l r f, makes dim a l /\ makes dim b r /\
      m = mkPMF (system_text l ++ " || " ++ system_text r) (Some (PModelActions f)) /\ clash_true f (ts_outputs l) (system_text l) (ts_outputs r) (system_text r)
  | RConj a b => exists l r, makes dim a l /\ makes dim b r /\
      ((exists f, m = mkPMF (system_text l ++ " && " ++ system_text r) (Some (PModelActions f)) /\
          (clash_true f (ts_inputs l) (system_text l) (ts_outputs r) (system_text r) \/ clash_true f (ts_outputs l) (system_text l) (ts_inputs r) (system_text r))) \/
       exists s f, makes dim x s /\ m = mkPMF (system_text s) (Some (PInconsistentConjunction f)) /\ con_true acc dim s f)
  | RQuot a b _ => exists l r, makes dim a l /\ makes dim b r /\
      ((exists f, m = mkPMF (system_text l ++ " \\ " ++ system_text r) (Some (PModelActions f)) /\ clash_true f (ts_outputs r) (system_text r) (ts_inputs l) (system_text l)) \/
       exists f, m = mkPMF (system_text l ++ " \\ " ++ system_text r) (Some (PInconsistentConjunction f)) /\ (pre_true acc dim l f \/ pre_true acc dim r f))
  end.
Definition model_true (acc : accuracy) (dim : nat) (r : recipe) (m : pmfail) : Prop := exists x, subrecipe x r /\ part_true acc dim x m.

(** ** Agreement with the answer *)
Definition favourable (p : reply) : bool :=
  match p with PSuccess | PReachabilityPath _ | PComponent _ => true | _ => false end.

(** ** Assumptions *)

(** The component that is loaded has the name it is asked for. *)
Definition named_load (load : string -> option component) : Prop := forall n c, load n = Some c -> c_name c = n.
(** The recipes a query compiles: that of its expression, and with clock reduction also what the reduction makes of it. *)
Definition compiles_one (ch : choices) (reduce : bool) (load : string -> option component) (e : sysx) (r : recipe) (d : nat) : Prop :=
  exists r0 dim q, get_system_recipe load e (0%nat, None) = Ok (r0, (dim, q)) /\
    (r = r0 /\ d = (dim + 1)%nat \/
     reduce = true /\ exists o d', clock_reduce (the_least ch) (the_pre ch) (the_redundant ch) r0 None dim q = Ok (r, o, d') /\ d = (d' + 1)%nat).
Definition compiles_two (ch : choices) (reduce : bool) (load : string -> option component) (e f : sysx) (x : recipe) (d : nat) : Prop :=
  exists l st r dim q, get_system_recipe load e (0%nat, None) = Ok (l, st) /\ get_system_recipe load f st = Ok (r, (dim, q)) /\
    ((x = l \/ x = r) /\ d = (dim + 1)%nat \/
     reduce = true /\ exists l' r' d', clock_reduce (the_least ch) (the_pre ch) (the_redundant ch) l (Some r) dim q = Ok (l', Some r', d') /\ (x = l' \/ x = r') /\ d = (d' + 1)%nat).
(** The number of clocks is that of a 32-bit number. *)
Definition few_clocks (load : string -> option component) (e : sysx) : Prop :=
  forall r dim q, get_system_recipe load e (0%nat, None) = Ok (r, (dim, q)) -> (Z.of_nat (dim + 1) < 4294967295)%Z.
Definition few_clocks_two (load : string -> option component) (e f : sysx) : Prop :=
  forall l st r dim q, get_system_recipe load e (0%nat, None) = Ok (l, st) -> get_system_recipe load f st = Ok (r, (dim, q)) -> (Z.of_nat (dim + 1) < 4294967295)%Z.
(** The expression of a query about one system. *)
Definition subject (q : query) : option sysx :=
  match q with
  | QConsistency e | QDeterminism e | QGetComponent e _ | QPrune e _ | QReachability e _ _ => Some e
  | _ => None
  end.
