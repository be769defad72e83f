(** C07-C10, C43: the operators on systems. *)
From Coq Require Import List String ZArith QArith Bool Arith.
From Verif Require Import Fed.Zone Fed.ZoneFacts Fed.Check Model.Base Model.Expr Model.Guard Model.Loc Model.Component Model.TS
  Spec.StepSpec Spec.SystemSpec Proofs.StepFacts Proofs.SystemFacts Proofs.QuotientFacts Proofs.WfFacts Props.Examples.
Import ListNotations.
Local Open Scope string_scope.

(** *** C07 *)
Theorem C07_conjunction_steps : forall dim l r ins outs loc ll lr a tl tr,
  is_action (TConj l r ins outs) a -> lt_left loc = Ok ll -> lt_right loc = Ok lr ->
  next_transitions dim l ll a = Ok tl -> next_transitions dim r lr a = Ok tr ->
  exists ts, next_transitions dim (TConj l r ins outs) loc a = Ok ts /\
    corresponds (fun p t => joint dim LConj (fst p) (snd p) t) (list_prod tl tr) ts.
Proof. exact conj_steps. Qed.
Print Assumptions C07_conjunction_steps.

(** In ts_conj the action o is offered in (L1, L1) by exactly one joint transition,
    enabled where both clocks are at least 2. *)
Definition conj_l1 : loctree := get lt_any (lt_compose ex_dim (nth 1 (cc_locs cc_m) lt_any) (nth 1 (cc_locs cc_m2) lt_any) CConj).
Example C07_nonvacuous : is_action ts_conj "o" /\
  exists t, next_transitions ex_dim ts_conj conj_l1 "o" = Ok [t] /\
    fsem ex_dim (t_guard t) (mkval [2; 3]) /\ ~ fsem ex_dim (t_guard t) (mkval [1; 3]) /\ ~ fsem ex_dim (t_guard t) (mkval [2; 1]).
Proof.
  split; [right; vm_compute; auto|]. eexists. split; [vm_compute; reflexivity|].
  split; [apply fsem_yes|split; apply fsem_no]; vm_compute; reflexivity.
Qed.

(** *** C08 *)
Theorem C08_composition_steps : forall dim l r s loc ll lr a,
  composition_new l r = Ok s -> lt_left loc = Ok ll -> lt_right loc = Ok lr ->
  (is_action s a <-> is_action l a \/ is_action r a) /\
  (forall tl tr, is_action l a -> is_action r a ->
     next_transitions dim l ll a = Ok tl -> next_transitions dim r lr a = Ok tr ->
     exists ts, next_transitions dim s loc a = Ok ts /\
       corresponds (fun p t => joint dim LComp (fst p) (snd p) t) (list_prod tl tr) ts) /\
  (forall tl, is_action l a -> ~ is_action r a -> next_transitions dim l ll a = Ok tl ->
     exists ts, next_transitions dim s loc a = Ok ts /\ corresponds (fun t1 t => left_alone dim LComp t1 lr t) tl ts) /\
  (forall tr, ~ is_action l a -> is_action r a -> next_transitions dim r lr a = Ok tr ->
     exists ts, next_transitions dim s loc a = Ok ts /\ corresponds (fun t2 t => right_alone dim LComp ll t2 t) tr ts).
Proof.
  intros dim l r s loc ll lr a E Hl Hr. split; [exact (composition_actions l r s a E)|]. split; [|split].
  - intros tl tr. exact (comp_steps_both dim l r s loc ll lr a tl tr E Hl Hr).
  - intros tl. exact (comp_steps_left dim l r s loc ll lr a tl E Hl Hr).
  - intros tr. exact (comp_steps_right dim l r s loc ll lr a tr E Hl Hr).
Qed.
Print Assumptions C08_composition_steps.

Definition comp_l1k0 : loctree := get lt_any (lt_compose ex_dim (nth 1 (cc_locs cc_m) lt_any) (nth 0 (cc_locs cc_n) lt_any) CComp).
Definition comp_l0k1 : loctree := get lt_any (lt_compose ex_dim (nth 0 (cc_locs cc_m) lt_any) (nth 1 (cc_locs cc_n) lt_any) CComp).
(** o is shared (output of M, input of N), i is private to M, p is private to N. *)
Example C08_nonvacuous : composition_new ts_m ts_n = Ok ts_comp /\
  (exists t, next_transitions ex_dim ts_comp comp_l1k0 "o" = Ok [t] /\ t_updates t = [mkU 2 0]) /\
  (exists t, next_transitions ex_dim ts_comp comp_l0k1 "i" = Ok [t] /\ t_updates t = [mkU 1 0]) /\
  (exists t, next_transitions ex_dim ts_comp comp_l0k1 "p" = Ok [t] /\ ~ fsem ex_dim (t_guard t) (mkval [5; 0])).
Proof.
  split; [exact new_comp|]. split; [|split].
  - eexists. split; vm_compute; reflexivity.
  - eexists. split; vm_compute; reflexivity.
  - eexists. split; [vm_compute; reflexivity|]. apply fsem_no. vm_compute. reflexivity.
Qed.

(** *** C09 *)
Theorem C09_composition_alphabet : forall l r,
  ((exists s, composition_new l r = Ok s) <-> (forall a, is_output l a -> ~ is_output r a)) /\
  forall s, composition_new l r = Ok s ->
    (forall a, is_output s a <-> is_output l a \/ is_output r a) /\
    (forall a, is_input s a <-> (is_input l a /\ ~ is_output r a) \/ (is_input r a /\ ~ is_output l a)) /\
    (io_disjoint l -> io_disjoint r -> io_disjoint s).
Proof.
  intros l r. split.
  - unfold composition_new, is_output. rewrite <- disjoint_spec.
    destruct (disjoint (ts_outputs l) (ts_outputs r)); cbn [negb]; split; [reflexivity|eauto|intros [s H]; discriminate|discriminate].
  - intros s E. destruct (composition_new_inv l r s E) as (_ & i & o & lo & ro & co & -> & -> & -> & _).
    unfold io_disjoint, is_input, is_output. cbn [ts_inputs ts_outputs]. split; [|split].
    + intros a. rewrite in_sunion. reflexivity.
    + intros a. rewrite in_sunion, !in_sdiff. reflexivity.
    + intros Dl Dr a. rewrite !in_sunion, !in_sdiff. intros [[H1 H2]|[H1 H2]] [H3|H3]; try tauto; [eapply Dl|eapply Dr]; eauto.
Qed.
Print Assumptions C09_composition_alphabet.

Theorem C09_conjunction_alphabet : forall l r,
  ((exists s, conjunction_new l r = Ok s) <->
     (forall a, is_input l a -> ~ is_output r a) /\ (forall a, is_output l a -> ~ is_input r a)) /\
  forall s, conjunction_new l r = Ok s ->
    (forall a, is_output s a <-> is_output l a /\ is_output r a) /\
    (forall a, is_input s a <-> is_input l a /\ is_input r a) /\
    (io_disjoint l \/ io_disjoint r -> io_disjoint s).
Proof.
  intros l r. split.
  - unfold conjunction_new, is_input, is_output. rewrite <- !disjoint_spec.
    destruct (disjoint (ts_inputs l) (ts_outputs r)); cbn [negb]; [|split; [intros [s H]; discriminate|intros [H _]; discriminate]].
    destruct (disjoint (ts_outputs l) (ts_inputs r)); cbn [negb]; split; eauto; [intros [s H]; discriminate|intros [_ H]; discriminate].
  - intros s E. apply conjunction_new_inv in E. destruct E as (-> & _ & _).
    unfold io_disjoint, is_input, is_output. cbn [ts_inputs ts_outputs]. split; [|split].
    + intros a. apply in_sinter.
    + intros a. apply in_sinter.
    + intros D a. rewrite !in_sinter. intros [H1 H2] [H3 H4]. destruct D as [D|D]; eapply D; eauto.
Qed.
Print Assumptions C09_conjunction_alphabet.

(** A quotient is accepted exactly when no output of the divisor is an input of the
    dividend; the new input always exists and is none of the old inputs. *)
Theorem C09_quotient_alphabet : forall t s q,
  ((exists r, quotient_new t s q = Ok r) <-> (forall a, is_output s a -> ~ is_input t a)) /\
  forall r, quotient_new t s q = Ok r -> exists n,
    ~ is_input t n /\ ~ is_output s n /\
    (forall a, is_input r a <-> is_input t a \/ is_output s a \/ a = n) /\
    (forall a, is_output r a <-> (is_output t a /\ ~ is_output s a) \/ (is_input s a /\ ~ is_input t a)).
Proof.
  intros t s q. split.
  - split.
    + intros [r E]. apply quotient_new_inv in E. destruct E as (n & i & o & _ & _ & _ & _ & _ & _ & D). exact D.
    + intros D. unfold quotient_new. replace (disjoint (ts_outputs s) (ts_inputs t)) with true by (symmetry; apply disjoint_spec; exact D).
      cbn [negb]. destruct (fresh_total (sunion (ts_inputs t) (ts_outputs s))) as [n ->]. cbn [bind]. eauto.
  - intros r E. apply quotient_new_inv in E. destruct E as (n & i & o & -> & Ei & Eo & N1 & N2 & _). exists n. auto.
Qed.
Print Assumptions C09_quotient_alphabet.

(** Systems built by the tool have disjoint inputs and outputs, if no component uses a
    name reserved for quotients and no divisor contains a quotient.  Missing: divisors
    with quotients, where it is false. *)
Theorem C09_nested_disjoint_partial : forall dim s,
  built dim s -> no_reserved s = true -> plain_divisors s = true -> io_disjoint s.
Proof. exact built_io_disjoint. Qed.
Print Assumptions C09_nested_disjoint_partial.

Example C09_nonvacuous : built ex_dim ts_comp /\ no_reserved ts_comp = true /\ plain_divisors ts_comp = true /\
  built ex_dim ts_quot /\ no_reserved ts_quot = true /\ plain_divisors ts_quot = true /\
  is_input ts_comp "i" /\ is_output ts_comp "o" /\ is_input ts_quot "o" /\ is_input ts_quot "quotient_new_input0".
Proof.
  split; [exact built_comp|]. split; [reflexivity|]. split; [reflexivity|]. split; [exact built_quot|].
  split; [reflexivity|]. split; [reflexivity|]. unfold is_input, is_output. vm_compute. tauto.
Qed.

(** T \ (M \ M'): the inner quotient's new input becomes an output of the outer one, and
    the outer quotient picks the same name for its own new input. *)
Theorem C09_nested_disjoint_refuted : exists dim s a,
  built dim s /\ no_reserved s = true /\ is_input s a /\ is_output s a.
Proof.
  set (t := TSimple (get no_cc (compile_component ex_dim
    (mkComp "T" (mkDecls [] []) [mkL "T0" None Initial "NORMAL"] [mkE "E5" "T0" "T0" SOutput None None "z"] None) 3))).
  assert (Bt : built ex_dim t).
  { eapply (b_simple ex_dim (mkComp "T" (mkDecls [] []) [mkL "T0" None Initial "NORMAL"] [mkE "E5" "T0" "T0" SOutput None None "z"] None) [] ["z"] 3).
    vm_compute. reflexivity. }
  exists ex_dim, (get ts_m (quotient_new t ts_quot 3)), "quotient_new_input0". split; [|split; [|split]].
  - eapply b_quot; [exact Bt|exact built_quot|]. vm_compute. reflexivity.
  - reflexivity.
  - vm_compute. tauto.
  - vm_compute. tauto.
Qed.
Print Assumptions C09_nested_disjoint_refuted.

(** *** C10 *)
(** In a pair of locations the offered transitions are exactly the steps of the quotient rules. *)
Theorem C10_quotient_rules : forall dim T S ins outs n q loc lt ls a tts sss,
  clocks_ok dim q (TQuot T S ins outs n q) ->
  is_action (TQuot T S ins outs n q) a -> loc = lt_quotient lt ls ->
  next_if_available dim T lt a = Ok tts -> next_if_available dim S ls a = Ok sss ->
  exists ts, next_transitions dim (TQuot T S ins outs n q) loc a = Ok ts /\
    offers dim ts (qstep dim T S n q lt ls tts sss a).
Proof.
  intros dim T S ins outs n q loc lt ls a tts sss K Ha -> Et Es. eexists. split.
  - apply (quotient_next dim T S ins outs n q (lt_quotient lt ls) lt ls a tts sss); auto;
    unfold is_inconsistent, is_universal; cbn [lt_type lt_quotient]; destruct (lt_type lt), (lt_type ls); reflexivity.
  - cbn [clocks_ok] in K. destruct K as (K1 & K2 & _). unfold next_if_available in *.
    apply quotient_rules_sound.
    + intros t Ht. destruct (has_action T a); [eapply (next_fine dim q T K1); eauto|injection Et as <-; destruct Ht].
    + intros s Hs. destruct (has_action S a); [eapply (next_fine dim q S K2); eauto|injection Es as <-; destruct Hs].
Qed.
Print Assumptions C10_quotient_rules.

(** The universal location offers every action without condition and stays; the error
    location offers exactly the inputs, only while the quotient clock is 0, and stays. *)
Theorem C10_special_locations : forall dim T S ins outs n q a,
  is_action (TQuot T S ins outs n q) a ->
  (exists ts, next_transitions dim (TQuot T S ins outs n q) lt_universal a = Ok ts /\
     offers dim ts (fun v l us => val_ok dim v /\ l = lt_universal /\ us = [])) /\
  (exists ts, next_transitions dim (TQuot T S ins outs n q) (lt_error q) a = Ok ts /\
     offers dim ts (fun v l us => is_input (TQuot T S ins outs n q) a /\ val_ok dim v /\ (v q == 0)%Q /\ l = lt_error q /\ us = [])).
Proof.
  intros dim T S ins outs n q a Ha. apply has_action_spec in Ha. split.
  - cbn [next_transitions]. rewrite Ha. change (is_inconsistent lt_universal) with false. change (is_universal lt_universal) with true.
    cbn [negb]. cbn iota. eexists. split; [reflexivity|]. apply offers_off. intros v l us. rewrite off_one. cbn [t_guard t_target t_updates t_without_id].
    rewrite funiv_sem. split; intros (H1 & H2 & H3); auto.
  - cbn [next_transitions]. rewrite Ha. change (is_inconsistent (lt_error q)) with true. cbn [negb]. cbn iota.
    unfold is_input. cbn [ts_inputs].
    destruct (sin a ins) eqn:Si; (eexists; split; [reflexivity|]); apply offers_off; intros v l us.
    + apply sin_In in Si. rewrite off_one. cbn [t_guard t_target t_updates]. rewrite fcon_eq_sem, funiv_sem. split.
      * intros ((H1 & H2) & <- & <-). split; [exact Si|]. split; [exact H2|]. split; [|auto].
        destruct H2 as [H0 _]. rewrite H0 in H1. rewrite <- H1. unfold inject_Z. ring.
      * intros (_ & H2 & H1 & -> & ->). split; [|auto]. split; [|exact H2]. destruct H2 as [H0 _]. rewrite H0, H1. reflexivity.
    + apply sin_false in Si. rewrite off_nil. split; [tauto|]. intros (H & _). contradiction.
Qed.
Print Assumptions C10_special_locations.

(** The quotient M \ M' in ((L1),(L1')): o is an output of both, so it is offered jointly,
    leads to the universal location where M' cannot produce it, and to the error location
    where M' can and M cannot. *)
Definition quot_l1 : loctree := lt_quotient (nth 1 (cc_locs cc_m) lt_any) (nth 1 (cc_locs cc_m2) lt_any).
Example C10_nonvacuous : clocks_ok ex_dim 3 ts_quot /\ is_action ts_quot "o" /\
  exists t1 t2 t3, next_transitions ex_dim ts_quot quot_l1 "o" = Ok [t1; t2; t3] /\
    fsem ex_dim (t_guard t1) (mkval [2; 3]) /\
    t_target t2 = lt_universal /\ fsem ex_dim (t_guard t2) (mkval [2; 1]) /\
    t_target t3 = lt_error 3 /\ fsem ex_dim (t_guard t3) (mkval [1; 2]).
Proof.
  split; [exact clocks_quot|]. split; [left; vm_compute; tauto|].
  do 3 eexists. split; [vm_compute; reflexivity|].
  split; [apply fsem_yes; vm_compute; reflexivity|]. split; [reflexivity|].
  split; [apply fsem_yes; vm_compute; reflexivity|]. split; [reflexivity|]. apply fsem_yes; vm_compute; reflexivity.
Qed.

(** *** C43 *)
(** Offering transitions never aborts and never leaves the system's locations. *)
Theorem C43_transitions_stay_inside : forall dim s, built dim s ->
  (forall l, initial_location dim s = Some l -> In l (all_locations dim s)) /\
  forall loc a, In loc (all_locations dim s) -> is_action s a ->
    exists ts, next_transitions dim s loc a = Ok ts /\ forall t, In t ts -> In (t_target t) (all_locations dim s).
Proof. intros dim s B. split; [exact (initial_wf dim s B)|exact (next_wf dim s B)]. Qed.
Print Assumptions C43_transitions_stay_inside.

Example C43_nonvacuous : built ex_dim ts_quot /\ In quot_l1 (all_locations ex_dim ts_quot) /\ is_action ts_quot "o" /\
  exists l, initial_location ex_dim ts_quot = Some l.
Proof.
  split; [exact built_quot|]. split; [vm_compute; tauto|]. split; [left; vm_compute; tauto|].
  eexists. vm_compute. reflexivity.
Qed.
