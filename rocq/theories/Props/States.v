(** C40: the states written in queries, and reachability queries as a whole. *)
From Coq Require Import List String ZArith QArith Bool Arith Lia Lqa Permutation.
From Verif Require Import Fed.Zone Fed.ZoneFacts Fed.Check Model.Base Model.Expr Model.Guard Model.Loc Model.Component Model.TS Model.Search Model.ParseQuery Model.Recipe Model.Query
  Spec.GuardSpec Spec.StepSpec Spec.SystemSpec Spec.RunSpec Spec.ReachSpec Spec.EnableSpec Spec.RecipeSpec Spec.QuerySpec Spec.BoundSpec Spec.StateSpec
  Proofs.GuardFacts Proofs.StepFacts Proofs.SystemFacts Proofs.WfFacts Proofs.RunFacts Proofs.ConsFacts Proofs.ReachFacts Proofs.RecipeFacts Proofs.StateFacts Proofs.TargetFacts Props.Examples Props.Recipes Props.Reachability Props.Reduction.
Import ListNotations.
Local Open Scope string_scope.
Local Open Scope list_scope.
Local Open Scope nat_scope.

(** C40.  The decoded state contains exactly the states the expression describes; it has a wildcard exactly
    where no location is given.  The expression is without disjunctions, mentions only components of the system, and
    compares simple sums; states in the special locations of a quotient are left out. *)
Theorem C40_decoded_partial : forall least pre dim r s e st,
  compile least pre dim r = Ok s -> distinct_names r -> no_or e = true -> simple_state e = true -> known r e ->
  get_state (dim + 1) e r s = Ok st ->
  (forall l v, In l (all_locations (dim + 1) s) -> no_special (lt_id l) -> val_ok (dim + 1) v ->
     (hits (dim + 1) st l v <-> holds r (lt_id l) v e)) /\
  pattern (dim + 1) s (s_loc st) /\
  (is_partial (lt_id (s_loc st)) = false <-> forall c, In c (components r) -> exists x, mentions e x /\ names_comp x c) /\
  (is_partial (lt_id (s_loc st)) = false -> In (s_loc st) (all_locations (dim + 1) s)).
Proof.
  intros least pre dim r s e st C N O S K E. destruct (get_state_sound least pre dim r s e st C N O S E) as (H & P & A & B & D).
  split; [|auto]. intros l v Hl Sl Hv. rewrite (H l v Hl Sl Hv), (holds_split _ _ _ _ P).
  split; intros [X Y]; (split; [|exact Y]); auto.
Qed.
Print Assumptions C40_decoded_partial.

(** C40, errors.  A state without disjunctions and negations, comparing clocks and constants, is rejected exactly when a
    mentioned location does not exist, two locations are given for one component, or a clock is not declared; it never aborts. *)
Theorem C40_errors_partial : forall least pre dim r s e,
  compile least pre dim r = Ok s -> distinct_names r -> plain_state e = true -> basic_state e = true ->
  (acceptable r e /\ exists st, get_state (dim + 1) e r s = Ok st) \/ (~ acceptable r e /\ get_state (dim + 1) e r s = Err).
Proof. exact get_state_total. Qed.
Print Assumptions C40_errors_partial.

(** Two different components that are written the same way are reported. *)
Theorem C40_ambiguous : forall dim e r s c c',
  In c (components r) -> In c' (components r) -> c <> c' -> c_name c = c_name c' -> c_special c = c_special c' -> get_state dim e r s = Err.
Proof.
  intros dim e r s c c' Hc Hc' D E1 E2. unfold get_state.
  assert (ambiguous_component (components r) = true) as ->; [|reflexivity].
  apply existsb_exists. exists (c, c'). split; [apply in_prod; assumption|]. cbn [fst snd]. rewrite !andb_true_iff. repeat split.
  - apply negb_true_iff, not_true_iff_false. rewrite component_eqb_eq. exact D.
  - apply String.eqb_eq, E1.
  - apply opt_eqb_eq, E2.
Qed.
Print Assumptions C40_ambiguous.

(** ** Reachability queries from the text to the answer *)

Lemma fits_plain a b : fits a b -> no_special a.
Proof. induction 1; cbn [no_special]; auto. Qed.
Lemma pattern_plain dim s : built dim s -> forall p, pattern dim s p -> no_special (lt_id p).
Proof.
  induction 1 as [c ins outs id cc E|x y s Bx IHx By IHy E|x y s Bx IHx By IHy E|x y q s Bx IHx By IHy E]; intros p Hp.
  - destruct Hp as [->|Hp]; [exact I|]. destruct (compile_inv _ _ _ _ _ _ E) as (ls & es & E1 & _ & E2 & _). rewrite E2 in Hp. apply keep_last_in in Hp.
    destruct (mapM_in _ _ _ E1) as [_ M]. destruct (M _ Hp) as (u & _ & Eu). destruct (lt_simple_id _ _ _ _ Eu) as [-> _]. exact I.
  - apply conjunction_new_inv in E. destruct E as (-> & _ & _). destruct Hp as (a & b & A & B & Ep). rewrite (lt_compose_id _ _ _ _ _ Ep). cbn [no_special]. auto.
  - apply composition_new_inv in E. destruct E as (_ & i & o & lo & ro & co & -> & _). destruct Hp as (a & b & A & B & Ep). rewrite (lt_compose_id _ _ _ _ _ Ep). cbn [no_special]. auto.
  - apply quotient_new_inv in E. destruct E as (n & i & o & -> & _). destruct Hp as (a & b & A & B & ->). cbn [lt_quotient lt_id no_special]. auto.
Qed.

(** A state in which the query starts: one described by the given state, or the initial location after some time. *)
Definition starts (dim : nat) (s : ts) (r : recipe) (from : option stx) (l : loctree) (v : val) : Prop :=
  match from with
  | Some f => In l (all_locations dim s) /\ holds r (lt_id l) v f
  | None => initial_location dim s = Some l /\ exists d, (0 <= d)%Q /\ (v 0%nat == 0)%Q /\ forall i, i <> 0 -> i < dim -> (v i == d)%Q
  end.
(** The states of the query are ones C40_decoded_partial speaks about. *)
Definition fair_state (r : recipe) (e : stx) : Prop := no_or e = true /\ simple_state e = true /\ known r e.
Definition fair_query (r : recipe) (from : option stx) (to : stx) : Prop :=
  (forall f, from = Some f -> fair_state r f) /\ fair_state r to.

Lemma run_reach_inv least pre fuel xext load e from to r dim q s x :
  get_system_recipe load e (0, None) = Ok (r, (dim, q)) -> compile least pre dim r = Ok s ->
  run_reach least pre fuel xext load e from to = x ->
  (forall y, x = Ok y -> exists start target, find_path (dim + 1) fuel s (xext (dim + 1) s (s_zone target)) start target = Ok y /\ get_state (dim + 1) to r s = Ok target /\
    match from with Some f => get_state (dim + 1) f r s = Ok start /\ is_partial (lt_id (s_loc start)) = false | None => initial_state (dim + 1) s = Some start end).
Proof.
  intros Er Ec Ex y ->. unfold run_reach, reach_query in Ex. rewrite Er in Ex. cbn [bind fst] in Ex. rewrite Ec in Ex. cbn [bind] in Ex.
  apply bind_ok in Ex. destruct Ex as ([[[d s'] start] target] & E1 & E2). apply bind_ok in E1. destruct E1 as (st & Es & E1).
  apply bind_ok in E1. destruct E1 as (tg & Et & E1). injection E1 as <- <- <- <-. exists st, tg. split; [exact E2|]. split; [exact Et|].
  destruct from as [f|].
  - apply bind_ok in Es. destruct Es as (st' & E3 & E4). destruct (is_partial _) eqn:P; [discriminate|]. injection E4 as <-. auto.
  - unfold ok_or in Es. destruct (initial_state _ _); [|discriminate]. injection Es as <-. reflexivity.
Qed.

Lemma path_from_start least pre fuel xext load e from to r dim q s ds :
  (forall n c, load n = Some c -> clocks_numbered (c_decls c) /\ good_resets c /\ named_guards c) ->
  get_system_recipe load e (0, None) = Ok (r, (dim, q)) -> compile least pre dim r = Ok s ->
  upper_invariants (dim + 1) s -> distinct_names r -> fair_query r from to ->
  run_reach least pre fuel xext load e from to = Ok (Some ds) ->
  exists start target v l' v', find_path (dim + 1) fuel s (xext (dim + 1) s (s_zone target)) start target = Ok (Some ds) /\ In (s_loc start) (all_locations (dim + 1) s) /\
    starts (dim + 1) s r from (s_loc start) v /\ inv_at (dim + 1) (s_loc start) v /\ path_run (dim + 1) s (s_loc start) v (map taken ds) l' v' /\
    (forall x, mentions to x -> at_loc x r (lt_id l')) /\
    (forall acc, (forall target, get_state (dim + 1) to r s = Ok target -> search_accurate acc (dim + 1) (xext (dim + 1) s (s_zone target)) s (s_zone target)) ->
       holds r (lt_id l') v' to).
Proof.
  intros L Er Ec U N [Ff (O & S & K)] R.
  destruct (C29_compiled least pre load e r dim q s L Er Ec) as (B & _ & Ck & _).
  destruct (run_reach_inv _ _ _ _ _ _ _ _ _ _ _ _ _ Er Ec R _ eq_refl) as (start & target & Ef & Et & Es).
  destruct (C40_decoded_partial least pre dim r s to target Ec N O S K Et) as (Ht & Pt & _ & _).
  destruct (get_state_sound least pre dim r s to target Ec N O S Et) as (Ht' & Pl & _).
  assert (X : In (s_loc start) (all_locations (dim + 1) s) /\ forall v, fsem (dim + 1) (s_zone start) v -> inv_at (dim + 1) (s_loc start) v -> starts (dim + 1) s r from (s_loc start) v).
  { destruct from as [f|].
    - destruct Es as [Es Pa]. destruct (Ff f eq_refl) as (O' & S' & K'). destruct (C40_decoded_partial least pre dim r s f start Ec N O' S' K' Es) as (Hs & Ps & _ & Is).
      split; [auto|]. intros v Hv Iv. split; [auto|]. pose proof (pattern_plain _ _ B _ Ps) as Sp. apply Hs; auto; [eapply fsem_ok; exact Hv|].
      split; [apply fits_refl, Sp|exact Hv].
    - destruct (initial_state_spec _ _ _ B Ck start Es) as (l0 & El & El' & Hin & _). rewrite El' in *. split; [exact Hin|]. intros v Hv Iv. split; [exact El|].
      assert (Z : fsem (dim + 1) (finit (dim + 1)) v).
      { clear - Es Hv El. unfold initial_state in Es. rewrite El in Es. unfold state_from_location in Es.
        destruct s; try (destruct (fempty _ _); [discriminate|]); injection Es as <-; cbn [s_zone] in Hv; try (apply apply_inv_sem in Hv; tauto). exact Hv. }
      apply finit_sem in Z. exact Z. }
  destruct X as [Xi Xs]. destruct (C11_path_is_run_partial (dim + 1) _ (xext (dim + 1) s (s_zone target)) fuel s start target ds B Ck U Xi Pt Ef) as (v & l' & v' & Hv & Iv & P & F & H).
  assert (R' : run (dim + 1) s (s_loc start) v l' v') by (apply C11_paths_are_runs in P; exact P).
  assert (Hl' : In l' (all_locations (dim + 1) s)).
  { eapply run_wf; eauto. }
  exists start, target, v, l', v'. split; [exact Ef|]. split; [exact Xi|]. split; [auto|]. split; [exact Iv|]. split; [exact P|]. pose proof (fits_plain _ _ F) as Sl. split.
  - apply get_state_inv in Et. destruct Et as (ls & b & t & z & A & El & Al & Ett & Eb & Ez & ->). cbn [s_loc] in F. destruct (compile_at_of _ _ _ _ _ Ec) as [k Ck'].
    apply (tree_spec least pre (dim + 1) (dedup ls) (unambiguous _ Al) r _ _ _ _ Ck' N Ett l' Hl' Sl) in F.
    intros x Hx. apply F; [|apply K, Hx]. rewrite dedup_in. apply (get_locations_spec _ _ El), Hx.
  - intros acc Hx. specialize (H acc (Hx target Et)). apply Ht; auto. destruct H as [_ H]. eapply fsem_ok; exact H.
Qed.
(** A path that is reported is a run from a state the query starts in; if zones are exact, or enlarged
    only beyond the bounds of the system and of the target, it ends in a state the query asks for. *)
Theorem C40_path_partial : forall least pre fuel xext load e from to r dim q s ds,
  (forall n c, load n = Some c -> clocks_numbered (c_decls c) /\ good_resets c /\ named_guards c) ->
  get_system_recipe load e (0, None) = Ok (r, (dim, q)) -> compile least pre dim r = Ok s ->
  upper_invariants (dim + 1) s -> distinct_names r -> fair_query r from to ->
  run_reach least pre fuel xext load e from to = Ok (Some ds) ->
  exists l v l' v', starts (dim + 1) s r from l v /\ inv_at (dim + 1) l v /\ path_run (dim + 1) s l v (map taken ds) l' v' /\
    (forall x, mentions to x -> at_loc x r (lt_id l')) /\
    (forall acc, (forall target, get_state (dim + 1) to r s = Ok target -> search_accurate acc (dim + 1) (xext (dim + 1) s (s_zone target)) s (s_zone target)) ->
       holds r (lt_id l') v' to).
Proof.
  intros least pre fuel xext load e from to r dim q s ds L Er Ec U N Fq R.
  destruct (path_from_start least pre fuel xext load e from to r dim q s ds L Er Ec U N Fq R) as (start & target & v & l' & v' & _ & _ & H). exists (s_loc start), v, l', v'. exact H.
Qed.
Print Assumptions C40_path_partial.
(** A state which compares clocks with numbers becomes a zone that does so. *)
Theorem C40_numbers : forall load e r dim q s to target,
  (forall n c, load n = Some c -> clocks_numbered (c_decls c) /\ good_resets c /\ named_guards c) ->
  get_system_recipe load e (0, None) = Ok (r, (dim, q)) -> number_state to = true -> get_state (dim + 1) to r s = Ok target ->
  no_differences (dim + 1) (s_zone target).
Proof.
  intros load e r dim q s to target L Er N Et. destruct (C29_numbering load e r dim q (fun n c H => proj1 (L n c H)) Er) as (I & B & P & Q & Nb).
  refine (target_numbers (dim + 1) to r s target _ N Et). intros c i Hc Hi. pose proof (component_numbers r c Hc i Hi) as H.
  pose proof (Permutation_in _ P (in_or_app _ _ _ (or_introl H))) as H'. apply in_seq in H'. lia.
Qed.
Print Assumptions C40_numbers.

(** "Unreachable" without a start state: no reachable state, the special locations of quotients left out, satisfies the target. *)
Theorem C40_unreachable_partial : forall least pre fuel xext load e to r dim q s,
  (forall n c, load n = Some c -> clocks_numbered (c_decls c) /\ good_resets c /\ named_guards c) ->
  get_system_recipe load e (0, None) = Ok (r, (dim, q)) -> compile least pre dim r = Ok s ->
  (forall z l f v, fsem (dim + 1) f v -> fsem (dim + 1) (xext (dim + 1) s z l f) v) -> distinct_names r -> fair_query r None to ->
  run_reach least pre fuel xext load e None to = Ok None ->
  forall l v, reachable (dim + 1) s l v -> no_special (lt_id l) -> ~ holds r (lt_id l) v to.
Proof.
  intros least pre fuel xext load e to r dim q s L Er Ec X N [_ (O & S & K)] R l v Rl Sl H.
  destruct (C29_compiled least pre load e r dim q s L Er Ec) as (B & _ & Ck & _).
  destruct (run_reach_inv _ _ _ _ _ _ _ _ _ _ _ _ _ Er Ec R _ eq_refl) as (start & target & Ef & Et & Es).
  destruct (C40_decoded_partial least pre dim r s to target Ec N O S K Et) as (Ht & Pt & _ & _).
  refine (C12_from_initial (dim + 1) _ (xext (dim + 1) s (s_zone target)) fuel s start target (X _) B Ck Es Pt Ef l v Rl _).
  destruct Rl as (l0 & E0 & I0 & Rl). apply Ht; auto.
  - eapply run_wf; eauto. eapply initial_wf; eauto.
  - eapply inv_at_ok, run_inv; eauto.
Qed.
Print Assumptions C40_unreachable_partial.

(** Non-vacuity: M || N, "M.L1 && M.x >= 3". *)
Definition var (c x : string) : cvar := mkVar c None x.
Definition mn_query : sysx := XPar (XComp "M" None) (XComp "N" None).
Definition mn_recipe : recipe := fst (get (no_recipe, (0, None)) (get_system_recipe ex_load mn_query (0, None))).
Definition mn_ts : ts := get ts_m (compile no_check no_check 2 mn_recipe).
Definition mn_late : stx := SAnd [SLoc (var "M" "L1"); SCmp RGe (OClk (var "M" "x")) (ONum 3)].
Definition mn_from : stx := SAnd [SLoc (var "M" "L1"); SLoc (var "N" "K0"); SCmp RLe (OClk (var "M" "x")) (OSum (OClk (var "N" "y")) (ONum 1))].
Definition mn_to : stx := SAnd [SLoc (var "N" "K1"); SCmp RLt (ODiff (OClk (var "N" "y")) (OClk (var "M" "x"))) (ONum 0)].
Lemma mn_ok : get_system_recipe ex_load mn_query (0, None) = Ok (mn_recipe, (2, None)) /\ compile no_check no_check 2 mn_recipe = Ok mn_ts /\
  distinct_names mn_recipe /\ upper_invariants 3 mn_ts.
Proof.
  split; [vm_compute; reflexivity|]. split; [vm_compute; reflexivity|]. split.
  - unfold distinct_names. vm_compute. constructor; [intros [[=]|[]]|]. constructor; [intros []|constructor].
  - apply upper_check. vm_compute. reflexivity.
Qed.
Lemma mn_known c x n : In (c, None) (map (fun c => (c_name c, c_special c)) (components mn_recipe)) -> x = mkVar c None n -> exists k, In k (components mn_recipe) /\ names_comp x k.
Proof. intros H ->. apply in_map_iff in H. destruct H as (k & Ek & Hk). injection Ek as E1 E2. exists k. split; [exact Hk|split; cbn; congruence]. Qed.
Lemma mn_fair : fair_query mn_recipe None mn_late /\ fair_query mn_recipe (Some mn_from) mn_to.
Proof.
  assert (KM : forall n, exists k, In k (components mn_recipe) /\ names_comp (var "M" n) k) by (intros n; apply (mn_known "M" _ n); [vm_compute; tauto|reflexivity]).
  assert (KN : forall n, exists k, In k (components mn_recipe) /\ names_comp (var "N" n) k) by (intros n; apply (mn_known "N" _ n); [vm_compute; tauto|reflexivity]).
  repeat split; try discriminate; try (match goal with H : Some _ = Some _ |- _ => injection H as <- end); try reflexivity;
  intros x Hx; cbn in Hx; repeat (destruct Hx as [<-|Hx]; [apply KM || apply KN|]); try destruct Hx as [[]|Hx]; try destruct Hx.
Qed.
Definition answer (x : res (option (list decision))) : option (option nat) :=
  match x with Ok (Some ds) => Some (Some (List.length ds)) | Ok None => Some None | _ => None end.
Example C40_nonvacuous : (exists st, get_state 3 mn_late mn_recipe mn_ts = Ok st /\ is_partial (lt_id (s_loc st)) = true) /\
  answer (run_reach no_check no_check 9 (fun _ _ _ => id_ext) ex_load mn_query None mn_late) = Some (Some 1) /\
  answer (run_reach no_check no_check 9 (fun _ _ _ => id_ext) ex_load mn_query (Some mn_from) mn_to) = Some (Some 1) /\
  answer (run_reach no_check no_check 9 (fun _ _ _ => id_ext) ex_load mn_query None (SAnd [SLoc (var "M" "L1"); SCmp RGt (OClk (var "M" "x")) (ONum 5)])) = Some None.
Proof. split; [eexists; split; vm_compute; reflexivity|]. repeat split; vm_compute; reflexivity. Qed.
Example C40_errors_nonvacuous :
  get_state 3 (SLoc (var "M" "K1")) mn_recipe mn_ts = Err /\
  get_state 3 (SAnd [SLoc (var "M" "L0"); SLoc (var "M" "L1")]) mn_recipe mn_ts = Err /\
  get_state 3 (SCmp RLe (OClk (var "M" "y")) (ONum 3)) mn_recipe mn_ts = Err /\
  exists st, get_state 3 (SAnd [SLoc (var "M" "L0"); SLoc (var "M" "L0")]) mn_recipe mn_ts = Ok st.
Proof. repeat split; try (vm_compute; reflexivity). eexists. vm_compute. reflexivity. Qed.

(** Finding: a location of a component that is not in the system is silently ignored. *)
Theorem C40_unknown_component_refuted : exists load e r dim s x st l v,
  get_system_recipe load e (0, None) = Ok (r, (dim, None)) /\ compile no_check no_check dim r = Ok s /\
  (forall c, In c (components r) -> ~ names_comp x c) /\
  get_state (dim + 1) (SLoc x) r s = Ok st /\ In l (all_locations (dim + 1) s) /\ hits (dim + 1) st l v /\ ~ holds r (lt_id l) v (SLoc x).
Proof.
  exists ex_load, mn_query, mn_recipe, 2, mn_ts, (var "Z" "L9").
  destruct (get_state 3 (SLoc (var "Z" "L9")) mn_recipe mn_ts) as [st| | |] eqn:E; try (vm_compute in E; discriminate).
  exists st, (nth 0 (all_locations 3 mn_ts) lt_any), zero_val. destruct mn_ok as (A & B & _).
  assert (K : forall c, In c (components mn_recipe) -> ~ names_comp (var "Z" "L9") c).
  { intros c Hc [H _]. vm_compute in Hc. destruct Hc as [<-|[<-|[]]]; discriminate H. }
  split; [exact A|]. split; [exact B|]. split; [exact K|]. split; [exact E|]. split; [vm_compute; tauto|]. vm_compute in E. injection E as <-. split.
  - split; [vm_compute; repeat constructor|]. apply fsem_yes. vm_compute. reflexivity.
  - intros H. destruct (at_loc_known _ _ _ H) as (c & Hc & Nc). exact (K c Hc Nc).
Qed.
Print Assumptions C40_unknown_component_refuted.

(** Finding: sums with more than two summands are translated wrongly: M.x - 5 + 3 <= 10 contains x = 15. *)
Theorem C40_sums_refuted : exists e st l v, state_legible e /\ no_or e = true /\ known mn_recipe e /\
  get_state 3 e mn_recipe mn_ts = Ok st /\ In l (all_locations 3 mn_ts) /\ val_ok 3 v /\ hits 3 st l v /\ ~ holds mn_recipe (lt_id l) v e.
Proof.
  pose (e := SCmp RLe (OSum (ODiff (OClk (var "M" "x")) (ONum 5)) (ONum 3)) (ONum 10)). exists e.
  destruct (get_state 3 e mn_recipe mn_ts) as [st| | |] eqn:E; try (vm_compute in E; discriminate).
  exists st, (nth 0 (all_locations 3 mn_ts) lt_any), (mkval [15%Q]).
  split; [|split; [reflexivity|split; [intros x []|split; [reflexivity|split; [vm_compute; tauto|]]]]].
  - cbn. unfold var_legible, no_not. cbn.
    assert (G : forall n, n = "M" \/ n = "x" -> Spec.TextSpec.good_name n).
    { intros n [->| ->]; unfold Spec.TextSpec.good_name; vm_compute; repeat split; auto; try (eexists _, _; split; [reflexivity|]; repeat split; auto). }
    repeat split; auto; try lia. intros m Hm. discriminate Hm.
  - vm_compute in E. injection E as <-. split; [apply val_okb_spec; vm_compute; reflexivity|]. split.
    + split; [vm_compute; repeat constructor|]. apply fsem_yes. vm_compute. reflexivity.
    + intros (a & b & A & B & R). cbn in R. inversion B; subst. inversion A as [| | |? ? p q P Q]; subst. inversion Q; subst. inversion P as [| |? ? p1 p2 P1 P2|]; subst. inversion P2; subst.
      inversion P1 as [|x c i Hc Nc Ei| |]; subst. vm_compute in Hc. destruct Hc as [<-|[<-|[]]]; [|destruct Nc as [Nc _]; discriminate Nc].
      cbn in Ei. injection Ei as <-. revert R. vm_compute. intros R. apply R. reflexivity.
Qed.
Print Assumptions C40_sums_refuted.

(** Finding: a disjunction that contains one location is read as if the location always had to be taken (such a state cannot be
    written in a query, since disjunctions abort the parser, C45; it can be passed to the library). *)
Theorem C40_or_refuted : exists e st l v, known mn_recipe e /\ simple_state e = true /\
  get_state 3 e mn_recipe mn_ts = Ok st /\ In l (all_locations 3 mn_ts) /\ val_ok 3 v /\ ~ hits 3 st l v /\ holds mn_recipe (lt_id l) v e.
Proof.
  pose (e := SOr [SLoc (var "M" "L1"); SCmp RGe (OClk (var "M" "x")) (ONum 3)]). exists e.
  destruct (get_state 3 e mn_recipe mn_ts) as [st| | |] eqn:E; try (vm_compute in E; discriminate).
  exists st, (nth 0 (all_locations 3 mn_ts) lt_any), (mkval [5%Q]).
  split; [intros x [<-|[[]|[]]]; apply (mn_known "M" _ "L1"); [vm_compute; tauto|reflexivity]|]. split; [reflexivity|]. split; [reflexivity|]. split; [vm_compute; tauto|].
  split; [apply val_okb_spec; vm_compute; reflexivity|]. split.
  - intros [F _]. vm_compute in E. injection E as <-. vm_compute in F. inversion F as [| | | | |? ? ? ? F1 F2|]; subst. inversion F1.
  - right. left. exists 5%Q, 3%Q. split; [|split; [constructor|cbn; lra]].
    refine (ov_clk _ (mkval [5%Q]) (var "M" "x") (instantiate (comp_m 1) None 0) 1 _ _ _); [left; vm_compute; reflexivity|split; reflexivity|reflexivity].
Qed.
Print Assumptions C40_or_refuted.

(** Finding: the special locations of a quotient match no state, not even "true", although they are reachable. *)
Definition qq_query : sysx := XQuot (XComp "M" None) (XComp "M" (Some "2")).
Definition qq_recipe : recipe := fst (get (no_recipe, (0, None)) (get_system_recipe ex_load qq_query (0, None))).
Definition qq_ts : ts := get ts_m (compile no_check no_check 3 qq_recipe).
Theorem C40_special_refuted : exists st l v,
  get_system_recipe ex_load qq_query (0, None) = Ok (qq_recipe, (3, Some 3)) /\ compile no_check no_check 3 qq_recipe = Ok qq_ts /\ distinct_names qq_recipe /\
  get_state 4 (SBool true) qq_recipe qq_ts = Ok st /\ In l (all_locations 4 qq_ts) /\ val_ok 4 v /\ ~ hits 4 st l v /\ holds qq_recipe (lt_id l) v (SBool true).
Proof.
  destruct (get_state 4 (SBool true) qq_recipe qq_ts) as [st| | |] eqn:E; try (vm_compute in E; discriminate).
  exists st, lt_universal, zero_val. split; [vm_compute; reflexivity|]. split; [vm_compute; reflexivity|].
  split; [unfold distinct_names; vm_compute; constructor; [intros [[=]|[]]|constructor; [intros []|constructor]]|].
  split; [reflexivity|]. split; [vm_compute; tauto|]. split; [apply val_okb_spec; vm_compute; reflexivity|]. split; [|reflexivity].
  intros [F _]. cbn in F. inversion F.
Qed.
Print Assumptions C40_special_refuted.

(** Finding: two copies of a component without clocks are not recognised as ambiguous, and both are meant. *)
Definition comp_p : component :=
  mkComp "P" (mkDecls [] []) [mkL "P0" None Initial "NORMAL"; mkL "P1" None Normal "NORMAL"] [mkE "E0" "P0" "P1" SInput None None "i"; mkE "E1" "P0" "P0" SInput None None "i"] None.
Definition pp_recipe : recipe := RConj (RSimple comp_p) (RSimple comp_p).
Definition pp_ts : ts := get ts_m (compile no_check no_check 0 pp_recipe).
Theorem C40_copies_refuted : exists st l,
  get_system_recipe (fun _ => Some comp_p) (XConj (XComp "P" None) (XComp "P" None)) (0, None) = Ok (pp_recipe, (0, None)) /\ compile no_check no_check 0 pp_recipe = Ok pp_ts /\
  ~ distinct_names pp_recipe /\ get_state 1 (SLoc (var "P" "P1")) pp_recipe pp_ts = Ok st /\ reachable 1 pp_ts l zero_val /\
  holds pp_recipe (lt_id l) zero_val (SLoc (var "P" "P1")) /\ ~ hits 1 st l zero_val.
Proof.
  destruct (get_state 1 (SLoc (var "P" "P1")) pp_recipe pp_ts) as [st| | |] eqn:E; try (vm_compute in E; discriminate). exists st.
  destruct (next_transitions 1 pp_ts (nth 0 (all_locations 1 pp_ts) lt_any) "i") as [ts| | |] eqn:En; try (vm_compute in En; discriminate).
  exists (t_target (nth 1 ts (mkT TINone fnone lt_any []))).
  split; [vm_compute; reflexivity|]. split; [vm_compute; reflexivity|].
  split; [unfold distinct_names; vm_compute; intros N; inversion N as [|? ? X _]; apply X; left; reflexivity|]. split; [reflexivity|]. split; [|split].
  - exists (nth 0 (all_locations 1 pp_ts) lt_any). split; [vm_compute; reflexivity|]. split; [apply inv_atb_spec; vm_compute; reflexivity|].
    assert (Z : run_updates (t_updates (nth 1 ts (mkT TINone fnone lt_any []))) zero_val = zero_val) by (vm_compute in En; injection En as <-; reflexivity).
    rewrite <- Z at 2. eapply run_act; [constructor| |].
    + split; [left; vm_compute; tauto|]. exists ts. split; [exact En|]. vm_compute in En. injection En as <-. vm_compute. tauto.
    + apply able_yes. vm_compute in En. injection En as <-. vm_compute. reflexivity.
  - vm_compute in En. injection En as <-. apply at_conj_l, (at_here (var "P" "P1")). split; reflexivity.
  - intros [F _]. vm_compute in En. injection En as <-. vm_compute in E. injection E as <-. vm_compute in F. inversion F as [| | | |? ? ? ? F1 F2| |]; subst. inversion F2.
Qed.
Print Assumptions C40_copies_refuted.
