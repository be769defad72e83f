(** Renamed systems are bisimilar, and what bisimilarity preserves. *)
From Coq Require Import List String ZArith QArith Bool Arith Lia.
From Verif Require Import Fed.Zone Fed.ZoneFacts Model.Base Model.Expr Model.Guard Model.Loc Model.Component Model.TS
  Spec.StepSpec Spec.SystemSpec Spec.RunSpec Spec.SameSpec Proofs.GuardFacts Proofs.StepFacts Proofs.SystemFacts Proofs.WfFacts Proofs.RunFacts Proofs.RenFacts Proofs.SameFacts.
Import ListNotations.
Local Open Scope nat_scope.

Lemma zero_ok dim : val_ok dim zero_val.
Proof. split; [reflexivity|]. intros i _. apply Qle_refl. Qed.

Section Bisim.
Variable rho : nat -> option nat.
Variables dim dim' q : nat.
Variables s s' : ts.
Hypothesis RN : renames rho dim dim'.
Hypothesis S : srel rho dim dim' s s'.
Hypothesis C : clocks_ok dim q s.
Hypothesis D : 0 < dim.
Hypothesis D' : 0 < dim'.
Hypothesis QF : quotient_free s = true \/ injective rho.
Hypothesis Tog : forall l a t, edge_reach dim s l -> offered dim s l a t -> together rho (t_updates t).

Definition sim (x y : at_state) : Prop :=
  edge_reach dim s (fst x) /\ lrel rho dim dim' (fst x) (fst y) /\ agree rho (snd x) (snd y) /\ val_ok dim (snd x) /\ val_ok dim' (snd y).

Lemma action_rel a : is_action s' a <-> is_action s a.
Proof. unfold is_action, is_input, is_output. rewrite (srel_inputs _ _ _ _ _ S), (srel_outputs _ _ _ _ _ S). tauto. Qed.

Lemma sim_bisim : bisimulation dim s dim' s' sim.
Proof.
  assert (Step : forall l v l' v' a t t', sim (l, v) (l', v') -> offered dim s l a t -> trel rho dim dim' t t' ->
    (able dim l t v <-> able dim' l' t' v') /\ sim (t_target t, run_updates (t_updates t) v) (t_target t', run_updates (t_updates t') v')).
  { intros l v l' v' a t t' (E & L & A & V & V') O T. cbn [fst snd] in *.
    pose proof (Tog l a t E O) as G. destruct O as (Ha & ts & Et & Ht). destruct (next_fine dim q s C l a ts Et t Ht) as [[U _] _].
    split; [apply (able_rel rho dim dim' RN); assumption|]. unfold sim. cbn [fst snd]. rewrite (tr_updates _ _ _ _ _ T).
    split; [eapply er_step; [exact E|split; eauto]|]. split; [apply (tr_target _ _ _ _ _ T)|].
    split; [apply run_agree; assumption|]. split; [apply run_updates_ok; assumption|apply run_updates_ok; [apply (ren_ok rho dim dim' RN), U|assumption]]. }
  constructor.
  - intros l v l' v' (E & L & A & V & V'). cbn [fst snd] in *. split; [eapply lrel_id; eauto|]. split; [eapply lrel_type; eauto|]. eapply lrel_inv_at; eauto.
  - intros l v l' v' d (E & L & A & V & V') Hd. unfold sim. cbn [fst snd] in *. split; [exact E|]. split; [exact L|].
    split; [eapply delay_agree; eauto|]. split; apply vdelay_ok; assumption.
  - intros l v l' v' a t H O Ab. pose proof H as (E & L & _). pose proof O as (Ha & ts & Et & Ht). cbn [fst] in L.
    pose proof (next_rel rho dim dim' RN s s' S q C D D' QF l l' a L) as N. rewrite Et in N.
    destruct (next_transitions dim' s' l' a) as [ts'| | |] eqn:Et'; cbn in N; try contradiction.
    destruct (Forall2_in_l _ _ _ _ N Ht) as (t' & Ht' & T). destruct (Step l v l' v' a t t' H O T) as [X Y]. exists t'.
    split; [split; [apply action_rel, Ha|eauto]|]. split; [apply X, Ab|exact Y].
  - intros l v l' v' a t' H O Ab. pose proof H as (E & L & _). pose proof O as (Ha & ts' & Et' & Ht'). cbn [fst] in L.
    pose proof (next_rel rho dim dim' RN s s' S q C D D' QF l l' a L) as N. rewrite Et' in N.
    destruct (next_transitions dim s l a) as [ts| | |] eqn:Et; cbn in N; try contradiction.
    destruct (Forall2_in_r _ _ _ _ N Ht') as (t & Ht & T).
    assert (O1 : offered dim s l a t) by (split; [apply action_rel, Ha|eauto]).
    destruct (Step l v l' v' a t t' H O1 T) as [X Y]. exists t. split; [exact O1|]. split; [apply X, Ab|exact Y].
  - intros l v l' v' a ts H Ha Et. pose proof H as (E & L & _). cbn [fst] in L.
    pose proof (next_rel rho dim dim' RN s s' S q C D D' QF l l' a L) as N. rewrite Et in N.
    destruct (next_transitions dim' s' l' a) as [ts'| | |] eqn:Et'; cbn in N; try contradiction. exists ts'. split; [reflexivity|].
    assert (G : forall t, In t ts -> offered dim s l a t) by (intros t Ht; split; eauto). clear Et Et'.
    induction N as [|t t' ts ts' T N IH]; constructor; [|apply IH; intros; apply G; right; assumption].
    split; [apply (tr_id _ _ _ _ _ T)|]. apply (Step l v l' v' a t t' H (G t (or_introl eq_refl)) T).
  - intros l v l' v' a ts' H Ha Et'. apply action_rel in Ha. pose proof H as (E & L & _). cbn [fst] in L.
    pose proof (next_rel rho dim dim' RN s s' S q C D D' QF l l' a L) as N. rewrite Et' in N.
    destruct (next_transitions dim s l a) as [ts| | |] eqn:Et; cbn in N; try contradiction. exists ts. split; [reflexivity|].
    assert (G : forall t, In t ts -> offered dim s l a t) by (intros t Ht; split; eauto). clear Et Et'.
    induction N as [|t t' ts ts' T N IH]; constructor; [|apply IH; intros; apply G; right; assumption].
    split; [apply (tr_id _ _ _ _ _ T)|]. apply (Step l v l' v' a t t' H (G t (or_introl eq_refl)) T).
Qed.
Lemma sim_same : same_behaviour dim s dim' s'.
Proof.
  split; [intros a; unfold is_input; rewrite (srel_inputs _ _ _ _ _ S); tauto|]. split; [intros a; unfold is_output; rewrite (srel_outputs _ _ _ _ _ S); tauto|].
  exists sim. split; [apply sim_bisim|]. pose proof (srel_initial rho dim dim' s s' S) as I.
  destruct (initial_location dim s) as [l|] eqn:E, (initial_location dim' s') as [l'|]; cbn in I; try contradiction; auto.
  unfold sim. cbn [fst snd]. split; [constructor; exact E|]. split; [exact I|]. split; [intros i j _; reflexivity|]. split; apply zero_ok.
Qed.
End Bisim.

(** Bisimilar systems reach the same locations. *)
Lemma same_reach dim s dim' s' l v : same_behaviour dim s dim' s' -> reachable dim s l v ->
  exists l' v', reachable dim' s' l' v' /\ lt_id l' = lt_id l /\ (inv_at dim l v <-> inv_at dim' l' v').
Proof.
  intros (_ & _ & R & B & Hi) (l0 & E & I0 & Ru). rewrite E in Hi. destruct (initial_location dim' s') as [l0'|] eqn:E'; [|contradiction].
  assert (X : exists l' v', run dim' s' l0' zero_val l' v' /\ R (l, v) (l', v')).
  { induction Ru as [|l1 v1 d Ru IH Hd Hinv|l1 v1 a t Ru IH O Ab].
    - exists l0', zero_val. split; [constructor|exact Hi].
    - destruct IH as (l' & v' & Ru' & H). exists l', (vdelay v' d). split; [|eapply bs_delay; eauto].
      constructor; [exact Ru'|exact Hd|]. intros e He Hed. destruct (bs_loc _ _ _ _ _ B _ _ _ _ (bs_delay _ _ _ _ _ B _ _ _ _ e H He)) as (_ & _ & X). apply X. auto.
    - destruct IH as (l' & v' & Ru' & H). destruct (bs_forth _ _ _ _ _ B _ _ _ _ _ _ H O Ab) as (t' & O' & Ab' & H').
      exists (t_target t'), (run_updates (t_updates t') v'). split; [|exact H']. econstructor; eauto. }
  destruct X as (l' & v' & Ru' & H). exists l', v'. destruct (bs_loc _ _ _ _ _ B _ _ _ _ H) as (H1 & _ & H3).
  split; [|split; assumption]. exists l0'. split; [exact E'|]. split; [|exact Ru'].
  destruct (bs_loc _ _ _ _ _ B _ _ _ _ Hi) as (_ & _ & X). apply X, I0.
Qed.
