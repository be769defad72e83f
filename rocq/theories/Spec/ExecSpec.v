(** What a query is about: the systems its expressions name, as they are before any reduction of their clocks. *)
From Coq Require Import List String ZArith QArith Bool Arith.
From Verif Require Import Fed.Zone Model.Base Model.Expr Model.Guard Model.Loc Model.Component Model.TS Model.ParseQuery Model.Recipe Model.Reduce Model.Exec
  Spec.StepSpec Spec.SystemSpec Spec.RunSpec Spec.EnableSpec Spec.RecipeSpec Spec.ReduceSpec Spec.IdSpec Spec.SaveSpec Spec.BoundSpec.
From Verif Require Spec.StateSpec.
Import ListNotations.
Local Open Scope nat_scope.

(** Putting systems together without asking whether the parts are consistent. *)
Definition unchecked (d : nat) (s : ts) : res bool := Ok true.
(** The system of an expression, and the dimension of its zones. *)
Definition names_one (load : string -> option component) (e : sysx) (d : nat) (s : ts) : Prop :=
  exists r dim q, get_system_recipe load e (0, None) = Ok (r, (dim, q)) /\ compile unchecked unchecked dim r = Ok s /\ d = dim + 1.
(** The two systems of a refinement; their clocks are numbered together. *)
Definition names_two (load : string -> option component) (e f : sysx) (d : nat) (s t : ts) : Prop :=
  exists l st r dim q, get_system_recipe load e (0, None) = Ok (l, st) /\ get_system_recipe load f st = Ok (r, (dim, q)) /\
    compile_two unchecked unchecked dim l r = Ok (s, t) /\ d = dim + 1.

(** The expression contains a quotient. *)
Fixpoint has_quotient (e : sysx) : bool :=
  match e with
  | XPar l r | XConj l r => has_quotient l || has_quotient r
  | XQuot _ _ => true
  | XComp _ _ => false
  end.

(** No guard and no invariant of a component mentions a clock that is reported as unused for all the given systems.
    [red] reports the redundant clocks of a system. *)
Definition idle_unmentioned (red : nat -> ts -> res (list instr)) (dim : nat) (rs : list recipe) : Prop :=
  forall c n i, In c (flat_map components rs) -> In (n, i) (d_clocks (c_decls c)) ->
    (forall r s xs, In r rs -> compile unchecked unchecked dim r = Ok s -> red (dim + 1) s = Ok xs -> In (RemoveClock i) xs) ->
    (forall l g, In l (c_locs c) -> l_inv l = Some g -> b_has_var g n = false) /\
    (forall e g, In e (c_edges c) -> e_guard e = Some g -> b_has_var g n = false).
(** No two clocks are reported as always equal. *)
Definition no_merges (red : nat -> ts -> res (list instr)) (dim : nat) (r : recipe) : Prop :=
  forall s xs i o, compile unchecked unchecked dim r = Ok s -> red (dim + 1) s = Ok xs -> ~ In (ReplaceClocks i o) xs.

(** The assumption above for a query about one system and for a refinement. *)
Definition dropped_unmentioned (red : nat -> ts -> res (list instr)) (load : string -> option component) (e : sysx) : Prop :=
  forall r dim q, get_system_recipe load e (0, None) = Ok (r, (dim, q)) -> idle_unmentioned red dim [r].
Definition dropped_unmentioned_two (red : nat -> ts -> res (list instr)) (load : string -> option component) (e f : sysx) : Prop :=
  forall l st r dim q, get_system_recipe load e (0, None) = Ok (l, st) -> get_system_recipe load f st = Ok (r, (dim, q)) -> idle_unmentioned red dim [l; r].
Definition nothing_merged (red : nat -> ts -> res (list instr)) (load : string -> option component) (e : sysx) : Prop :=
  forall r dim q, get_system_recipe load e (0, None) = Ok (r, (dim, q)) -> no_merges red dim r.

(** Components as the loaders provide them (C28): numbered clocks, resets to values, guards and invariants over known names. *)
Definition loadable (load : string -> option component) : Prop :=
  forall n c, load n = Some c -> clocks_numbered (c_decls c) /\ good_resets c /\ named_guards c.

(** What is assumed of the choices the code leaves open: extrapolation only adds valuations, hash sets are iterated over
    completely, the minimal constraints describe the set they are taken of. *)
Record fair (ch : choices) : Prop := {
  fair_ext : forall d s l f v, fsem d f v -> fsem d (ch_ext ch d s l f) v;
  fair_pext : forall d s t l m f v, fsem d f v -> fsem d (ch_pext ch d s t l m f) v;
  fair_sord : forall p l a, In a (ch_sord ch p l) <-> In a l;
  fair_once : forall p l, NoDup (ch_sord ch p l);
  fair_aord : forall p l a, In a (ch_aord ch p l) <-> In a l;
  fair_minc : forall d, 0 < d -> describes d (ch_minc ch d) /\ confined d (ch_minc ch d);
  fair_ord : same_elements (ch_ord ch);
  fair_cord : reorders (ch_cord ch);
  fair_gord : reorders (ch_gord ch);
  fair_kord : reorders (ch_kord ch) }.

(** How zones are explored: they are not enlarged at all, or not beyond the bounds of the clocks, and then components are such that
    these bounds suffice.  First for pairs of states, then also for states. *)
Definition explores_pairs (acc : accuracy) (ch : choices) (load : string -> option component) : Prop :=
  match acc with
  | Exact => forall d s t l m f v, fsem d (ch_pext ch d s t l m f) v <-> fsem d f v
  | Bounded => (forall d s t, pair_within_bounds d (ch_pext ch d s t) s t) /\ forall n c, load n = Some c -> literal_component c
  end.
Definition explores (acc : accuracy) (ch : choices) (load : string -> option component) : Prop :=
  explores_pairs acc ch load /\
  match acc with
  | Exact => forall d s l f v, fsem d (ch_ext ch d s l f) v <-> fsem d f v
  | Bounded => forall d s, within_bounds d (ch_ext ch d) s
  end.
(** How states are searched for the target of a reachability query.  If zones are enlarged, the target compares clocks with numbers. *)
Definition searches (acc : accuracy) (ch : choices) (load : string -> option component) (to : stx) : Prop :=
  match acc with
  | Exact => forall d s z l f v, fsem d (ch_xext ch d s z l f) v <-> fsem d f v
  | Bounded => (forall d s z, no_differences d z -> search_within d (ch_xext ch d s z) s z) /\ StateSpec.number_state to = true /\
      forall n c, load n = Some c -> literal_component c
  end.

(** The names a saved component needs: location names without the characters that join names, at most one initial location
    in a component, and no clock name that is another one followed by digits. *)
Definition clock_named (r : recipe) (x : string) : Prop :=
  (exists c i, In c (components r) /\ In (x, i) (d_clocks (c_decls c))) \/ (quotient_clocks r <> [] /\ x = "quotient_xnew"%string).
Definition saveable_names (r : recipe) : Prop :=
  (forall c l, In c (components r) -> In l (c_locs c) -> plain_name (l_id l)) /\
  (forall c l m, In c (components r) -> In l (c_locs c) -> In m (c_locs c) -> l_type l = Initial -> l_type m = Initial -> l = m) /\
  (forall x y n, clock_named r x -> clock_named r y -> digits n -> y <> (x ++ n)%string).

(** What the loader finds under a name after the given answers: a JSON project keeps the components that were saved, the
    last one under each name. *)
Definition saved_under (n : string) (a : answer) : bool := match a with AComponent c => String.eqb (c_name c) n | _ => false end.
Definition visible (k : loader) (load : string -> option component) (before : list answer) (n : string) : option component :=
  match k, find (saved_under n) (rev before) with
  | JsonLoader, Some (AComponent c) => Some c
  | _, _ => load n
  end.
