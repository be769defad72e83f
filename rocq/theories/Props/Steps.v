(** C03-C06: updates and single transitions. *)
From Coq Require Import List String ZArith QArith Bool Arith.
From Verif Require Import Fed.Zone Fed.ZoneFacts Fed.Check Model.Base Model.Expr Model.Guard Model.Loc
  Spec.StepSpec Proofs.StepFacts.
Import ListNotations.
Local Open Scope Q_scope.

(** Two clocks; an example zone 1 <= x <= 4 with y free, and updates x := 3, y := 0, x := 2. *)
Definition ex_zone : fed := fcon (mkC 1 0 false 4) (fcon (mkC 0 1 false (-1)) funiv).
Definition ex_updates : list cupdate := [mkU 1 3; mkU 2 0; mkU 1 2].

(** *** C03 *)
Theorem C03_forward_update : forall dim us, updates_ok dim us -> forall f v,
  fsem dim (apply_updates dim us f) v <-> exists w, fsem dim f w /\ veq v (run_updates us w).
Proof. exact apply_updates_sem. Qed.
Print Assumptions C03_forward_update.

Lemma ex_updates_ok : updates_ok 3 ex_updates.
Proof. intros u [<-|[<-|[<-|[]]]]; vm_compute; repeat split; auto; discriminate. Qed.
Example C03_nonvacuous : updates_ok 3 ex_updates /\
  fsem 3 (apply_updates 3 ex_updates ex_zone) (mkval [2; 0]) /\
  ~ fsem 3 (apply_updates 3 ex_updates ex_zone) (mkval [3; 0]).
Proof. split; [exact ex_updates_ok|]. split; [apply fsem_yes|apply fsem_no]; vm_compute; reflexivity. Qed.

(** *** C04 *)
(** Missing: update lists that assign one clock two different values, where it is false. *)
Theorem C04_backward_update_partial : forall dim us, updates_ok dim us -> no_conflict us -> forall f v,
  fsem dim (inverse_apply_updates dim us f) v <-> val_ok dim v /\ fsem dim f (run_updates us v).
Proof. exact inverse_updates_sem. Qed.
Print Assumptions C04_backward_update_partial.

Example C04_nonvacuous : let us := [mkU 1 3; mkU 2 0; mkU 1 3] in
  updates_ok 3 us /\ no_conflict us /\
  fsem 3 (inverse_apply_updates 3 us ex_zone) (mkval [9; 7]).
Proof.
  split; [|split].
  - intros u [<-|[<-|[<-|[]]]]; vm_compute; repeat split; auto; discriminate.
  - intros u w [<-|[<-|[<-|[]]]] [<-|[<-|[<-|[]]]]; simpl; congruence.
  - apply fsem_yes. vm_compute. reflexivity.
Qed.

(** x := 1, x := 2 ends in the universe from everywhere, but the computed set is empty. *)
Theorem C04_backward_update_refuted : exists dim us f v,
  updates_ok dim us /\ val_ok dim v /\ fsem dim f (run_updates us v) /\
  ~ fsem dim (inverse_apply_updates dim us f) v.
Proof.
  exists 2%nat, [mkU 1 1; mkU 1 2], funiv, (mkval [0]). split; [|split; [|split]].
  - intros u [<-|[<-|[]]]; vm_compute; repeat split; auto; discriminate.
  - apply val_okb_spec. reflexivity.
  - apply fsem_yes. reflexivity.
  - apply fsem_no. reflexivity.
Qed.
Print Assumptions C04_backward_update_refuted.

(** *** C05 *)
Theorem C05_allowed_exact : forall dim t, updates_ok dim (t_updates t) -> no_conflict (t_updates t) -> forall v,
  fsem dim (allowed_fed dim t) v <->
  fsem dim (t_guard t) v /\ inv_at dim (t_target t) (run_updates (t_updates t) v).
Proof. exact allowed_fed_sem. Qed.
Print Assumptions C05_allowed_exact.

(** Guard x <= 4, target invariant y <= 2, update x := 0. *)
Definition ex_t : transition :=
  mkT (TISimple "e1") (fcon (mkC 1 0 false 4) funiv)
      (LLeaf (LSimple "L1") (Some (fcon (mkC 2 0 false 2) funiv)) Normal) [mkU 1 0].
Lemma ex_t_ok : updates_ok 3 (t_updates ex_t) /\ no_conflict (t_updates ex_t).
Proof.
  split; [intros u [<-|[]]; vm_compute; repeat split; auto; discriminate|].
  intros u w [<-|[]] [<-|[]]; reflexivity.
Qed.
Example C05_nonvacuous : updates_ok 3 (t_updates ex_t) /\ no_conflict (t_updates ex_t) /\
  fsem 3 (allowed_fed 3 ex_t) (mkval [4; 2]) /\ ~ fsem 3 (allowed_fed 3 ex_t) (mkval [5; 2]) /\
  ~ fsem 3 (allowed_fed 3 ex_t) (mkval [4; 3]).
Proof.
  split; [apply ex_t_ok|]. split; [apply ex_t_ok|].
  split; [apply fsem_yes|split; apply fsem_no]; vm_compute; reflexivity.
Qed.

(** *** C06 *)
Theorem C06_successor_exact : forall dim t s b s', updates_ok dim (t_updates t) ->
  use_transition dim t s = (b, s') ->
  (b = true -> s_loc s' = t_target t) /\
  (b = true <-> exists v' v d, fsem dim (s_zone s) v /\ fsem dim (t_guard t) v /\ 0 <= d /\
        veq v' (vdelay (run_updates (t_updates t) v) d) /\ inv_at dim (t_target t) v') /\
  (b = true -> forall v', fsem dim (s_zone s') v' <->
     exists v d, fsem dim (s_zone s) v /\ fsem dim (t_guard t) v /\ 0 <= d /\
        veq v' (vdelay (run_updates (t_updates t) v) d) /\ inv_at dim (t_target t) v').
Proof. exact use_transition_zone. Qed.
Print Assumptions C06_successor_exact.

(** For invariants that only bound clocks from above, this is firing in the standard
    sense (the invariant holds on entry), followed by a delay. *)
Theorem C06_successor_standard : forall dim t s b s', updates_ok dim (t_updates t) ->
  past_closed dim (t_target t) -> use_transition dim t s = (b, s') ->
  (b = true <-> exists v v', fsem dim (s_zone s) v /\ t_fires dim t v v') /\
  (b = true -> forall v2, fsem dim (s_zone s') v2 <->
     exists v v' d, fsem dim (s_zone s) v /\ t_fires dim t v v' /\ 0 <= d /\
       veq v2 (vdelay v' d) /\ inv_at dim (t_target t) v2).
Proof. exact use_transition_standard. Qed.
Print Assumptions C06_successor_standard.

Lemma ex_t_past : past_closed 3 (t_target ex_t).
Proof.
  intros v d Hv Hd H. unfold inv_at, ex_t in *. cbn [t_target lt_inv] in *. apply fcon_sem in H. apply fcon_sem.
  destruct H as [H _]. split; [|apply funiv_sem; exact Hv].
  unfold csem, ilt in *. cbn [ci cj cs cc] in *. rewrite vdelay_S, vdelay_0 in H by discriminate.
  apply Qle_trans with (v 2%nat + d - v 0%nat); [|exact H].
  apply Qplus_le_compat; [|apply Qle_refl].
  rewrite <- (Qplus_0_r (v 2%nat)) at 1. apply Qplus_le_compat; [apply Qle_refl|exact Hd].
Qed.
Example C06_nonvacuous : let s := mkS lt_any ex_zone in
  updates_ok 3 (t_updates ex_t) /\ past_closed 3 (t_target ex_t) /\
  exists s', use_transition 3 ex_t s = (true, s') /\ fsem 3 (s_zone s') (mkval [1; 2]) /\
     ~ fsem 3 (s_zone s') (mkval [2; 1]).
Proof.
  split; [apply ex_t_ok|]. split; [exact ex_t_past|]. eexists. split; [vm_compute; reflexivity|].
  split; [apply fsem_yes|apply fsem_no]; vm_compute; reflexivity.
Qed.

(** With a lower-bound invariant the tool enters a location although no valuation may
    enter it: reset x, target invariant x >= 5. *)
Theorem C06_entry_against_invariant_refuted : exists dim t s s',
  updates_ok dim (t_updates t) /\ use_transition dim t s = (true, s') /\
  ~ exists v v', fsem dim (s_zone s) v /\ t_fires dim t v v'.
Proof.
  set (t := mkT TINone funiv (LLeaf (LSimple "L1") (Some (fcon (mkC 0 1 false (-5)) funiv)) Normal) [mkU 1 0]).
  exists 2%nat, t, (mkS lt_any funiv).
  assert (Hu : updates_ok 2 (t_updates t)) by (intros u [<-|[]]; vm_compute; repeat split; auto; discriminate).
  eexists. split; [exact Hu|]. split; [vm_compute; reflexivity|].
  intros (v & v' & Hv & Hf).
  assert (Hn : no_conflict (t_updates t)) by (intros u w [<-|[]] [<-|[]]; reflexivity).
  assert (H : fsem 2 (allowed_fed 2 t) v) by (apply allowed_fed_fires; eauto).
  revert H. apply fempty_true. vm_compute. reflexivity.
Qed.
Print Assumptions C06_entry_against_invariant_refuted.
