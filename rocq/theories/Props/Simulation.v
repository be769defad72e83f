(** C36: decisions of the simulator. *)
From Coq Require Import List String ZArith QArith Bool Arith Lia Lqa.
From Verif Require Import Fed.Zone Fed.ZoneFacts Fed.Check Model.Base Model.Expr Model.Guard Model.Loc Model.Component Model.TS Model.Search Model.Sim
  Spec.StepSpec Spec.SystemSpec Spec.RunSpec Spec.ReachSpec Spec.RefineSpec Spec.SimSpec
  Proofs.WfFacts Proofs.RunFacts Proofs.SimFacts Props.Examples Props.Determinism Props.Reachability.
Import ListNotations.
Local Open Scope string_scope.
Local Open Scope Q_scope.

(** The decisions offered from a state are exact and complete, and computing them never
    aborts. *)
Theorem C36_decisions_exact : forall dim q s acts st,
  built dim s -> clocks_ok dim q s -> (forall a, In a acts <-> is_action s a) -> In (s_loc st) (all_locations dim s) ->
  exists ds, get_decisions dim acts s st = Ok ds /\ (forall d, In d ds -> decision_for dim s st d) /\ decisions_complete dim s st ds.
Proof. intros dim q s acts st B K Ha Hl. exact (decisions_exact dim s q B K acts st Ha Hl). Qed.
Print Assumptions C36_decisions_exact.

(** In a simulation of a deterministic system with upper bounds as invariants every
    decision resolves, to the decisions of its next state.  Missing: nondeterministic
    systems and invariants with lower bounds, where it is false (below). *)
Theorem C36_resolve_partial : forall dim q s acts acts' st ds d,
  built dim s -> clocks_ok dim q s -> reads_ok s -> (forall x, In x (sys_clocks s) -> (x < dim)%nat) ->
  upper_invariants dim s -> deterministic dim s ->
  (forall a, In a acts <-> is_action s a) -> (forall a, In a acts' <-> is_action s a) ->
  session dim s st -> get_decisions dim acts s st = Ok ds -> In d ds ->
  exists ds', resolve dim acts' s d = Ok ds' /\ session dim s (d_next d) /\
    (forall d', In d' ds' -> decision_for dim s (d_next d) d') /\ decisions_complete dim s (d_next d) ds'.
Proof.
  intros dim q s acts acts' st ds d B K R X Up D Ha Ha' S E Hd.
  rewrite (session_resolves dim s q B K R X Up acts acts' st ds d D Ha S E Hd).
  destruct (session_inv dim s q B K R X Up st S) as (Hl & _).
  destruct (decisions_exact dim s q B K acts st Ha Hl) as (ds0 & E0 & P0 & _). rewrite E in E0. injection E0 as <-.
  assert (S' : session dim s (d_next d)) by (eapply session_step; eauto).
  destruct (session_inv dim s q B K R X Up _ S') as (Hl' & _).
  destruct (decisions_exact dim s q B K acts' (d_next d) Ha' Hl') as (ds' & E' & P' & C'). exists ds'. auto.
Qed.
Print Assumptions C36_resolve_partial.

(** Every state shown in a session is real: the system reaches it by a run, up to clocks
    that are none of its own. *)
Theorem C36_session_real : forall dim q s st v,
  built dim s -> clocks_ok dim q s -> reads_ok s -> (forall x, In x (sys_clocks s) -> (x < dim)%nat) -> upper_invariants dim s ->
  session dim s st -> fsem dim (s_zone st) v ->
  exists w, reachable dim s (s_loc st) w /\ forall x, In x (sys_clocks s) -> v x == w x.
Proof. intros dim q s st v B K R X Up S Hv. exact (proj2 (proj2 (session_inv dim s q B K R X Up st S)) v Hv). Qed.
Print Assumptions C36_session_real.

(** A quotient, its initial decisions and one of them resolved. *)
Definition quot_acts := ["i"; "quotient_new_input0"; "o"].
Definition quot_start : state := Eval vm_compute in match initial_state ex_dim ts_quot with Some st => st | None => mkS lt_any fnone end.
Example C36_nonvacuous :
  built ex_dim ts_quot /\ clocks_ok ex_dim 3 ts_quot /\ reads_ok ts_quot /\ (forall x, In x (sys_clocks ts_quot) -> (x < ex_dim)%nat) /\
  upper_invariants ex_dim ts_quot /\ deterministic ex_dim ts_quot /\ (forall a, In a quot_acts <-> is_action ts_quot a) /\
  session ex_dim ts_quot quot_start /\
  exists d ds, initial_decisions ex_dim quot_acts ts_quot = Ok (d :: ds) /\ d_action d = "i".
Proof.
  split; [exact built_quot|]. split; [exact clocks_quot|]. split; [split; [exact reads_m|exact reads_m2]|].
  split; [intros x Hx; vm_compute in Hx; vm_compute; intuition lia|]. split; [apply upper_check; vm_compute; reflexivity|].
  destruct C16_nonvacuous as (B & K & R & N & P & E & _).
  split; [apply (C16_determinism_sound_partial ex_dim 3 no_ext same_ord 50 ts_quot); auto; reflexivity|].
  split. { intros a. vm_compute. split; intros H; repeat destruct H as [H|H]; subst; auto 6; destruct H. }
  split; [apply session_init; vm_compute; reflexivity|].
  eexists _, _. split; [vm_compute; reflexivity|reflexivity].
Qed.

(** Finding: two outputs of one name enabled together.  Both are offered as decisions, and
    resolving either aborts. *)
Definition comp_amb := mkComp "Amb" (mkDecls [("x", 1%nat)] [])
  [mkL "A0" None Initial "NORMAL"; mkL "A1" None Normal "NORMAL"; mkL "A2" None Normal "NORMAL"]
  [mkE "E1" "A0" "A1" SOutput None None "a"; mkE "E2" "A0" "A2" SOutput None None "a"] None.
Definition cc_amb := Eval vm_compute in get no_cc (compile_component 2 comp_amb 1).
Definition ts_amb := TSimple cc_amb.
Theorem C36_ambiguous_refuted : exists dim s acts d ds, built dim s /\ clocks_ok dim 3 s /\ reads_ok s /\ upper_invariants dim s /\
  (forall a, In a acts <-> is_action s a) /\ initial_decisions dim acts s = Ok (d :: ds) /\ resolve dim acts s d = Panic.
Proof.
  exists 2%nat, ts_amb, ["a"]. eexists _, _.
  split; [apply (b_simple 2 comp_amb [] ["a"] 1); vm_compute; reflexivity|].
  split; [apply simple_clocks_okb_spec; vm_compute; reflexivity|]. split; [apply simple_readsb_spec; vm_compute; reflexivity|].
  split; [apply upper_check; vm_compute; reflexivity|]. split; [intros a; vm_compute; tauto|].
  split; [vm_compute; reflexivity|]. vm_compute. reflexivity.
Qed.
Print Assumptions C36_ambiguous_refuted.

(** Finding: an invariant with a lower bound.  The two edges below are never possible
    together and the determinism check succeeds, but resolving waits before it looks at
    the target's invariant, so it finds two successors and aborts. *)
Definition comp_low := mkComp "Low" (mkDecls [("x", 1%nat)] [])
  [mkL "A0" None Initial "NORMAL"; mkL "A1" (Some (BGreatEQ (AVar "x") (AInt 5))) Normal "NORMAL"; mkL "A2" None Normal "NORMAL"]
  [mkE "E1" "A0" "A2" SOutput (Some (BLessT (AVar "x") (AInt 5))) None "a"; mkE "E2" "A0" "A1" SOutput None None "a"] None.
Definition cc_low := Eval vm_compute in get no_cc (compile_component 2 comp_low 1).
Definition ts_low := TSimple cc_low.
Theorem C36_lower_bound_refuted : exists dim s acts d ds, built dim s /\ clocks_ok dim 3 s /\ reads_ok s /\
  deterministic dim s /\ (forall a, In a acts <-> is_action s a) /\
  initial_decisions dim acts s = Ok (d :: ds) /\ resolve dim acts s d = Panic.
Proof.
  exists 2%nat, ts_low, ["a"]. eexists _, _.
  assert (B : built 2 ts_low) by (apply (b_simple 2 comp_low [] ["a"] 1); vm_compute; reflexivity).
  assert (K : clocks_ok 2 3 ts_low) by (apply simple_clocks_okb_spec; vm_compute; reflexivity).
  assert (R : reads_ok ts_low) by (apply simple_readsb_spec; vm_compute; reflexivity).
  split; [exact B|]. split; [exact K|]. split; [exact R|].
  split; [apply (C16_determinism_sound_partial 2 3 no_ext same_ord 20 ts_low); auto; try reflexivity; vm_compute; reflexivity|].
  split; [intros a; vm_compute; tauto|].
  split; [vm_compute; reflexivity|]. vm_compute. reflexivity.
Qed.
Print Assumptions C36_lower_bound_refuted.

(** Without an initial state the initial decisions abort, and only then. *)
Theorem C36_no_initial_state : forall dim q s acts, built dim s -> clocks_ok dim q s -> (forall a, In a acts <-> is_action s a) ->
  (initial_state dim s = None <-> initial_decisions dim acts s = Panic) /\
  (initial_state dim s <> None -> exists ds, initial_decisions dim acts s = Ok ds).
Proof.
  intros dim q s acts B K Ha. unfold initial_decisions. destruct (initial_state dim s) as [st|] eqn:E.
  - assert (Hl : In (s_loc st) (all_locations dim s)).
    { unfold initial_state in E. destruct (initial_location dim s) as [l0|] eqn:El; [|discriminate].
      pose proof (initial_wf dim s B l0 El) as H. unfold state_from_location in E.
      destruct s; try (destruct (fempty _ _); [discriminate|]); injection E as <-; exact H. }
    destruct (decisions_exact dim s q B K acts st Ha Hl) as (ds & Eds & _). rewrite Eds. split; [split; discriminate|eauto].
  - split; [tauto|congruence].
Qed.
Print Assumptions C36_no_initial_state.
