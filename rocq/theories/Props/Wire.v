(** C30: locations, zones and decisions survive being sent to a client and back. *)
From Coq Require Import List String ZArith QArith Bool Arith Lia Permutation.
From Verif Require Import Fed.Zone Fed.ZoneFacts Fed.Check Model.Base Model.Expr Model.Guard Model.Loc Model.Component Model.TS Model.Search Model.Sim
  Model.ParseQuery Model.Peg Model.Files Model.Recipe Model.Wire
  Spec.StepSpec Spec.SystemSpec Spec.RunSpec Spec.ReachSpec Spec.RefineSpec Spec.SimSpec Spec.ReduceSpec Spec.EnableSpec Spec.PruneSpec Spec.RecipeSpec Spec.WireSpec
  Proofs.WfFacts Proofs.RunFacts Proofs.SimFacts Proofs.RecipeFacts Proofs.WireFacts Proofs.WireStep
  Props.Examples Props.Determinism Props.Reachability Props.Enabling Props.Recipes Props.Simulation.
Import ListNotations.
Local Open Scope string_scope.
Local Open Scope list_scope.

(** Every location of a system is sent with the name, number and location of each component
    instance, and is read back as the location it was. *)
Theorem C30_location : forall dim s l, built dim s -> In l (all_locations dim s) ->
  exists x p, specific_location (lt_id l) s = Ok x /\ shows_location s l x /\
    loc_to_proto x = Ok p /\ loc_from_proto p = Ok x /\ tree_from_proto dim s p = Ok l.
Proof.
  intros dim s l B Hl. destruct (location_round dim s B l Hl) as (x & p & X1 & X2 & X3 & X4 & X5). exists x, p.
  repeat (split; [assumption|]). unfold tree_from_proto. rewrite X4. cbn. rewrite X5. reflexivity.
Qed.
Print Assumptions C30_location.

(** Every zone is sent constraint by constraint, the clocks by name, and is read back as a
    zone with the same valuations. *)
Theorem C30_zone : forall dim s minc cord f,
  describes dim minc -> same_elements cord -> distinct_instances s -> distinct_clock_names s -> fits_u32 dim -> only_clocks dim f ->
  exists p f', zone_to_proto (map (map (specific_con (clock_comp_map cord s))) (minc f)) = Ok p /\
    Forall2 (Forall2 (shows_constraint s)) (minc f) (map (map (specific_con (clock_comp_map cord s))) (minc f)) /\
    zone_from_proto dim s p = Ok f' /\ forall v, fsem dim f' v <-> fsem dim f v.
Proof.
  intros dim s minc cord f M Co Di Dn F32 O. destruct (M f O) as [M1 M2].
  destruct (zone_round dim s cord Di Dn F32 Co (minc f)) as (Sh & p & P1 & P2); [intros z c Hz Hc; destruct (M2 z c Hz Hc) as (A & B & _); auto|].
  exists p, (minc f). auto.
Qed.
Print Assumptions C30_zone.

(** Every state inside its invariant is read back as it was. *)
Theorem C30_state : forall dim s minc cord st,
  built dim s -> describes dim minc -> same_elements cord -> distinct_instances s -> distinct_clock_names s -> fits_u32 dim ->
  In (s_loc st) (all_locations dim s) -> (forall v, fsem dim (s_zone st) v -> inv_at dim (s_loc st) v) -> only_clocks dim (s_zone st) ->
  exists p st', write_state minc cord s st = Ok p /\ read_state dim s p = Ok st' /\ same_state dim st' st.
Proof.
  intros dim s minc cord st B M Co Di Dn F32 Hl Hi O.
  destruct (state_round dim s B minc cord M Co Di Dn F32 st) as (_ & p & _ & _ & W & st' & R); [split; [|split]; assumption|]. exists p, st'. tauto.
Qed.
Print Assumptions C30_state.

(** Systems made from queries meet the conditions on names and numbers. *)
Theorem C30_compiled : forall least pre load e r dim q s,
  (forall n c, load n = Some c -> clocks_numbered (c_decls c) /\ good_resets c /\ named_guards c) ->
  get_system_recipe load e (0%nat, None) = Ok (r, (dim, q)) -> compile least pre dim r = Ok s ->
  built (dim + 1) s /\ reads_ok s /\ clocks_ok (dim + 1) (match q with Some q => q | None => 0%nat end) s /\
  (forall x, In x (sys_clocks s) -> (x < dim + 1)%nat) /\ distinct_instances s /\ distinct_clock_names s.
Proof.
  intros least pre load e r dim q s L E C. destruct (C29_compiled least pre load e r dim q s L E C) as (B & Cc & K & R).
  destruct (C29_numbering load e r dim q (fun n c H => proj1 (L n c H)) E) as (I & Bl & P & _).
  unfold compile in C. destruct (compile_at least pre (dim + 1) r 0) as [[s' k]| | |] eqn:Cs; try discriminate. injection C as ->.
  split; [exact B|]. split; [exact R|]. split; [exact K|]. split; [|split].
  - apply (sys_clocks_below _ _ _ K). intros x Hx. rewrite Cc in Hx. assert (In x (seq 1 dim)) as Y by (apply (Permutation_in _ P); apply in_or_app; left; exact Hx).
    apply in_seq in Y. lia.
  - destruct (compile_ids _ _ _ _ _ _ _ Cs) as [_ Ei]. unfold distinct_instances. rewrite Ei. apply seq_NoDup.
  - intros c Hc. apply (in_map cc_decls) in Hc. rewrite (compile_instances _ _ _ _ _ _ _ Cs) in Hc. apply in_map_iff in Hc. destruct Hc as (c' & <- & Hc').
    destruct (instance_component _ _ _ I _ Hc') as (n & c0 & Ln & (_ & _ & _ & _ & Ef)). rewrite Ef. apply (L n c0 Ln).
Qed.
Print Assumptions C30_compiled.

(** The first response of a simulation shows the initial state and its decisions.  Missing
    here and below: actions with the empty name, with which the claim is false. *)
Theorem C30_start_partial : forall dim q s minc cord acts st,
  built dim s -> clocks_ok dim q s -> reads_ok s -> (forall x, In x (sys_clocks s) -> (x < dim)%nat) ->
  describes dim minc -> same_elements cord -> distinct_instances s -> distinct_clock_names s -> fits_u32 dim ->
  ~ is_action s "" -> (forall a, In a acts <-> is_action s a) -> initial_state dim s = Some st ->
  exists ds r p st', get_decisions dim acts s st = Ok ds /\ start_simulation dim minc cord acts s = Ok r /\
    pr_state r = Some p /\ read_state dim s p = Ok st' /\ same_state dim st' st /\ answers dim s ds (pr_decisions r).
Proof.
  intros dim q s minc cord acts st B K R X M Co Di Dn F32 N Ha E.
  apply (start_round dim q s B K R X minc cord M Co Di Dn F32 acts st N (fun a => proj1 (Ha a)) E).
Qed.
Print Assumptions C30_start_partial.

(** Taking a step with a decision as the client received it does what taking it with the
    decision itself does: both abort, or the response shows the decisions of the next state. *)
Theorem C30_step_partial : forall dim q s minc cord acts acts' st ds d,
  built dim s -> clocks_ok dim q s -> reads_ok s -> (forall x, In x (sys_clocks s) -> (x < dim)%nat) ->
  describes dim minc -> same_elements cord -> distinct_instances s -> distinct_clock_names s -> fits_u32 dim ->
  ~ is_action s "" -> (forall a, In a acts <-> is_action s a) -> (forall a, In a acts' <-> is_action s a) ->
  session dim s st -> get_decisions dim acts s st = Ok ds -> In d ds ->
  exists p, write_decision minc cord s d = Ok p /\
    same_res (fun r ds' => pr_state r = pd_dest p /\ answers dim s ds' (pr_decisions r))
      (take_step dim minc cord acts' s p) (resolve dim acts' s d).
Proof.
  intros dim q s minc cord acts acts' st ds d B K R X M Co Di Dn F32 N Ha Ha' S E Hd.
  apply (step_round dim q s B K R X minc cord M Co Di Dn F32 acts acts' st ds d N (fun a => proj1 (Ha a)) (fun a => proj1 (Ha' a))); auto.
  apply (session_proper dim q); assumption.
Qed.
Print Assumptions C30_step_partial.

(** In a deterministic system with upper bounds as invariants a step through the wire format
    never aborts: the response shows the next state of the decision, and its decisions. *)
Theorem C30_continues_partial : forall dim q s minc cord acts acts' st ds d,
  built dim s -> clocks_ok dim q s -> reads_ok s -> (forall x, In x (sys_clocks s) -> (x < dim)%nat) ->
  describes dim minc -> same_elements cord -> distinct_instances s -> distinct_clock_names s -> fits_u32 dim ->
  upper_invariants dim s -> deterministic dim s ->
  ~ is_action s "" -> (forall a, In a acts <-> is_action s a) -> (forall a, In a acts' <-> is_action s a) ->
  session dim s st -> get_decisions dim acts s st = Ok ds -> In d ds ->
  exists p r full st' ds', write_decision minc cord s d = Ok p /\ take_step dim minc cord acts' s p = Ok r /\
    pr_state r = Some full /\ read_state dim s full = Ok st' /\ same_state dim st' (d_next d) /\
    get_decisions dim acts' s (d_next d) = Ok ds' /\ answers dim s ds' (pr_decisions r).
Proof.
  intros dim q s minc cord acts acts' st ds d B K R X M Co Di Dn F32 Up D N Ha Ha' S E Hd.
  pose proof (session_proper dim q s B K R X st S) as P.
  destruct (proper_decisions dim q s B K R X acts st ds d (fun a => proj1 (Ha a)) P E Hd) as (P1 & P2 & P3 & _).
  destruct (decision_round dim s B minc cord M Co Di Dn F32 d P1 P2 P3) as (p & W & _ & _ & _ & (py & nx & D1 & D2 & D3 & D4) & _).
  destruct (C30_step_partial dim q s minc cord acts acts' st ds d B K R X M Co Di Dn F32 N Ha Ha' S E Hd) as (p' & W' & SR).
  rewrite W in W'. injection W' as <-.
  destruct (C36_resolve_partial dim q s acts acts' st ds d B K R X Up D Ha Ha' S E Hd) as (ds' & Rs & _).
  pose proof (session_resolves dim s q B K R X Up acts acts' st ds d D Ha S E Hd) as Rn.
  rewrite Rs in SR. destruct (take_step dim minc cord acts' s p) as [r| | |] eqn:Et; cbn in SR; try contradiction. destruct SR as [Ef An].
  exists p, r, py, nx, ds'. rewrite Ef, D1. rewrite <- Rn. auto 10.
Qed.
Print Assumptions C30_continues_partial.

(** Finding: an edge without a synchronisation, as in the sample AutomatonTestReachability,
    gives an action with the empty name.  Its decision is offered to the client; sending it
    back aborts, although the decision itself can be resolved. *)
Definition comp_unnamed := mkComp "U" (mkDecls [("x", 1%nat)] [])
  [mkL "U0" None Initial "NORMAL"; mkL "U1" None Normal "NORMAL"] [mkE "E1" "U0" "U1" SOutput None None ""] None.
Definition cc_unnamed := Eval vm_compute in get no_cc (compile_component 2 comp_unnamed 0).
Definition ts_unnamed := TSimple cc_unnamed.
Theorem C30_unnamed_refuted : exists dim s minc cord acts d ds p ds', built dim s /\ clocks_ok dim 0 s /\ reads_ok s /\
  (forall x, In x (sys_clocks s) -> (x < dim)%nat) /\ upper_invariants dim s /\
  describes dim minc /\ same_elements cord /\ distinct_instances s /\ distinct_clock_names s /\ fits_u32 dim /\ (forall a, In a acts <-> is_action s a) /\
  initial_decisions dim acts s = Ok (d :: ds) /\ write_decision minc cord s d = Ok p /\
  resolve dim acts s d = Ok ds' /\ take_step dim minc cord acts s p = Panic.
Proof.
  exists 2%nat, ts_unnamed, (min_desc 2), (fun l => l), [""].
  eexists _, _, _, _.
  split; [eapply (b_simple 2 comp_unnamed (input_actions comp_unnamed) (output_actions comp_unnamed) 0 cc_unnamed); vm_compute; reflexivity|].
  split. { split; [intros [H|[]]; discriminate|]. intros i es a t [H|[H|[]]] Ht; injection H as <- <-; [|destruct Ht]. destruct Ht as [Ht|[]]. injection Ht as <- <-.
    split; [intros u []|]. split; [intros u w []|intros u []]. }
  split. { split; [intros l f [H|[H|[]]]; subst l; discriminate|]. intros i es a t [H|[H|[]]] Ht; injection H as <- <-; [|destruct Ht]. destruct Ht as [Ht|[]]. injection Ht as <- <-.
    intros z c Hz Hc. vm_compute in Hz. destruct Hz as [<-|[]]. destruct Hc. }
  split; [intros x Hx; vm_compute in Hx; destruct Hx as [<-|[]]; vm_compute; lia|]. split; [apply upper_check; vm_compute; reflexivity|]. split; [apply min_desc_describes; lia|].
  split; [intros l x; reflexivity|]. split; [repeat constructor; intros []|]. split; [intros c [<-|[]]; repeat constructor; intros []|].
  split; [unfold fits_u32; cbn; lia|]. split. { intros a. vm_compute. split; intros H; repeat destruct H as [H|H]; subst; auto 6; destruct H. }
  split; [vm_compute; reflexivity|]. split; [vm_compute; reflexivity|]. split; vm_compute; reflexivity.
Qed.
Print Assumptions C30_unnamed_refuted.

(** Non-vacuity: the quotient M \\ M of a query, its initial state, a decision, its
    message and the step it leads to. *)
Definition wire_query : sysx := XQuot (XComp "M" None) (XComp "M" (Some "2")).
Definition wire_recipe : recipe := Eval vm_compute in
  match get_system_recipe ex_load wire_query (0%nat, None) with Ok (r, _) => r | _ => RSimple comp_unnamed end.
Definition wire_sys : ts := Eval vm_compute in
  match compile (fun _ _ => Ok true) (fun _ _ => Ok true) 3 wire_recipe with Ok s => s | _ => TSimple no_cc end.
Definition wire_acts : list string := Eval vm_compute in nodup string_dec (ts_actions wire_sys).
Example C30_nonvacuous :
  get_system_recipe ex_load wire_query (0%nat, None) = Ok (wire_recipe, (3%nat, Some 3%nat)) /\
  compile (fun _ _ => Ok true) (fun _ _ => Ok true) 3 wire_recipe = Ok wire_sys /\
  describes 4 (min_desc 4) /\ same_elements (fun l : list (string * nat) => l) /\ fits_u32 4 /\ ~ is_action wire_sys "" /\
  (forall a, In a wire_acts <-> is_action wire_sys a) /\
  exists st d ds p r, initial_state 4 wire_sys = Some st /\ get_decisions 4 wire_acts wire_sys st = Ok (d :: ds) /\
    write_decision (min_desc 4) (fun l => l) wire_sys d = Ok p /\ (0 < List.length (pd_edges p))%nat /\
    take_step 4 (min_desc 4) (fun l => l) wire_acts wire_sys p = Ok r /\ pr_decisions r <> [].
Proof.
  split; [vm_compute; reflexivity|]. split; [vm_compute; reflexivity|]. split; [apply min_desc_describes; lia|]. split; [intros l x; reflexivity|]. split; [unfold fits_u32; cbn; lia|].
  split. { intros H. vm_compute in H. repeat destruct H as [H|H]; try discriminate; destruct H. }
  split. { intros a. vm_compute. split; intros H; repeat destruct H as [H|H]; subst; auto 12; destruct H. }
  eexists _, _, _, _, _. split; [vm_compute; reflexivity|]. split; [vm_compute; reflexivity|]. split; [vm_compute; reflexivity|].
  split; [vm_compute; lia|]. split; [vm_compute; reflexivity|]. discriminate.
Qed.
