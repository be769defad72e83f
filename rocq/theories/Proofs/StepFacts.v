(** Proofs about updates and single transitions. *)
From Coq Require Import List String ZArith QArith Bool Arith Lia Lqa.
From Verif Require Import Fed.Zone Fed.ZoneFacts Model.Base Model.Expr Model.Guard Model.Loc Model.Component Model.TS
  Spec.StepSpec.
Import ListNotations.
Local Open Scope Q_scope.

Lemma run_updates_ext us : forall v w, veq v w -> veq (run_updates us v) (run_updates us w).
Proof.
  unfold run_updates. induction us as [|u us IH]; simpl; intros v w E; [exact E|].
  apply IH. apply vset_ext; [exact E|reflexivity].
Qed.

Lemma run_updates_app us ws v : run_updates (us ++ ws) v = run_updates ws (run_updates us v).
Proof. unfold run_updates. apply fold_left_app. Qed.

Lemma updates_ok_cons dim u us : updates_ok dim (u :: us) <->
  (u_clock u <> 0%nat /\ (u_clock u < dim)%nat /\ (0 <= u_value u)%Z) /\ updates_ok dim us.
Proof.
  unfold updates_ok. split.
  - intros H. split; [apply H; left; reflexivity|]. intros; apply H; right; assumption.
  - intros [H1 H2] w [<-|Hw]; auto.
Qed.

Lemma updates_ok_app dim us ws : updates_ok dim (us ++ ws) <-> updates_ok dim us /\ updates_ok dim ws.
Proof.
  unfold updates_ok. split.
  - intros H. split; intros u Hu; apply H; apply in_or_app; auto.
  - intros [H1 H2] u Hu. apply in_app_or in Hu. destruct Hu; auto.
Qed.

Lemma inject_nonneg k : (0 <= k)%Z -> 0 <= inject_Z k.
Proof. intros. change 0 with (inject_Z 0). rewrite <- Zle_Qle. assumption. Qed.

Lemma run_updates_ok dim us : updates_ok dim us -> forall v, val_ok dim v -> val_ok dim (run_updates us v).
Proof.
  unfold run_updates. induction us as [|u us IH]; simpl; intros Hu v Hv; [exact Hv|].
  apply updates_ok_cons in Hu. destruct Hu as [(H0 & Hd & Hk) Hu].
  apply IH; [exact Hu|]. apply vset_ok; auto. intros _. apply inject_nonneg; assumption.
Qed.

(** Value of a clock after the updates. *)
Lemma run_updates_out us : forall v i, (forall u, In u us -> u_clock u <> i) -> run_updates us v i = v i.
Proof.
  unfold run_updates. induction us as [|u us IH]; simpl; intros v i H; [reflexivity|].
  rewrite IH by auto. apply vset_neq. intros ->. eapply H; [left; reflexivity|reflexivity].
Qed.

Lemma run_updates_in us : no_conflict us -> forall u v, In u us -> run_updates us v (u_clock u) = inject_Z (u_value u).
Proof.
  intros Hc u. revert Hc. unfold run_updates.
  induction us as [|w us IH] using rev_ind; intros Hc v Hu; [destruct Hu|].
  rewrite fold_left_app; simpl. unfold vset at 1. destruct (Nat.eqb_spec (u_clock u) (u_clock w)) as [E|E].
  - rewrite (Hc u w); auto. apply in_or_app; right; left; reflexivity.
  - apply in_app_or in Hu. destruct Hu as [Hu|[->|[]]]; [|contradiction].
    apply IH; [|exact Hu]. intros a b Ha Hb. apply Hc; apply in_or_app; auto.
Qed.

Lemma in_clocks_dec us i : (exists u, In u us /\ u_clock u = i) \/ (forall u, In u us -> u_clock u <> i).
Proof.
  induction us as [|u us IH]; [right; intros ? []|].
  destruct (Nat.eq_dec (u_clock u) i) as [E|E]; [left; exists u; split; [left; reflexivity|exact E]|].
  destruct IH as [(w & Hw & E')|IH]; [left; exists w; split; [right; exact Hw|exact E']|].
  right. intros w [<-|Hw]; auto.
Qed.

Lemma run_updates_idem us v : no_conflict us -> veq (run_updates us (run_updates us v)) (run_updates us v).
Proof.
  intros Hc i. destruct (in_clocks_dec us i) as [(u & Hu & <-)|H].
  - rewrite !run_updates_in by auto. reflexivity.
  - rewrite (run_updates_out us _ i H). reflexivity.
Qed.

(** ** Forward image *)
Lemma apply_updates_sem dim us : updates_ok dim us -> forall f v,
  fsem dim (apply_updates dim us f) v <-> exists w, fsem dim f w /\ veq v (run_updates us w).
Proof.
  unfold apply_updates. induction us as [|u us IH]; simpl; intros Hu f v.
  - split; [intros H; exists v; split; [exact H|reflexivity]|intros (w & Hw & E)].
    eapply fsem_ext; [symmetry; exact E|exact Hw].
  - apply updates_ok_cons in Hu. destruct Hu as [(H0 & Hd & Hk) Hu]. rewrite (IH Hu). split.
    + intros (w & Hw & E). apply fassign_image in Hw; auto. destruct Hw as (w' & Hw' & E').
      exists w'. split; [exact Hw'|]. etransitivity; [exact E|]. apply (run_updates_ext us _ _ E').
    + intros (w & Hw & E). exists (vset w (u_clock u) (inject_Z (u_value u))). split; [|exact E].
      apply fassign_image; auto. exists w. split; [exact Hw|reflexivity].
Qed.

(** ** Backward image *)
Lemma guards_sem dim us : forall f v,
  fsem dim (fold_left (fun f u => apply_as_guard u f) us f) v <->
  fsem dim f v /\ forall u, In u us -> v (u_clock u) == inject_Z (u_value u).
Proof.
  induction us as [|u us IH]; simpl; intros f v.
  - split; [intros H; split; [exact H|intros ? []]|tauto].
  - rewrite IH. unfold apply_as_guard at 1. rewrite fcon_eq_sem. split.
    + intros ((H1 & H2) & H3). split; [exact H2|]. intros w [<-|Hw]; [|auto].
      apply fsem_ok in H2. destruct H2 as [H2 _]. lra.
    + intros (H1 & H2). split; [split; [|exact H1]|auto].
      specialize (H2 u (or_introl eq_refl)). apply fsem_ok in H1. destruct H1 as [H1 _]. lra.
Qed.

(** The set of valuations that agree with [v] outside the updated clocks. *)
Lemma frees_sem dim us : updates_ok dim us -> forall f v,
  fsem dim (fold_left (fun f u => apply_as_free dim u f) us f) v <->
  val_ok dim v /\ exists w, fsem dim f w /\ forall i, (forall u, In u us -> u_clock u <> i) -> w i == v i.
Proof.
  induction us as [|u us IH]; simpl; intros Hu f v.
  - split.
    + intros H. split; [eapply fsem_ok; eauto|]. exists v. split; [exact H|reflexivity].
    + intros (Hv & w & Hw & E). eapply fsem_ext; [|exact Hw]. intros i. apply E. intros ? [].
  - apply updates_ok_cons in Hu. destruct Hu as [(H0 & Hd & Hk) Hu]. rewrite (IH Hu). split.
    + intros (Hv & w & Hw & E). split; [exact Hv|]. unfold apply_as_free in Hw.
      apply ffree_sem in Hw; auto. destruct Hw as (Hwv & d & Hd' & Hw).
      exists (vset w (u_clock u) d). split; [exact Hw|]. intros i Hi.
      rewrite vset_neq by (intros ->; eapply Hi; [left; reflexivity|reflexivity]).
      apply E. intros x Hx. apply Hi. right; exact Hx.
    + intros (Hv & w & Hw & E). split; [exact Hv|].
      exists (vset w (u_clock u) (v (u_clock u))). split.
      * unfold apply_as_free. apply ffree_sem; auto. pose proof (fsem_ok _ _ _ Hw) as Hwv. split.
        -- apply vset_ok; auto. intros _. apply Hv; exact Hd.
        -- exists (w (u_clock u)). split; [apply Hwv; exact Hd|].
           eapply fsem_ext; [|exact Hw]. symmetry. etransitivity; [apply vset_vset|apply vset_same].
      * intros i Hi. destruct (Nat.eq_dec i (u_clock u)) as [->|Hne]; [rewrite vset_eq; reflexivity|].
        rewrite vset_neq by exact Hne. apply E. intros x [<-|Hx]; [congruence|apply Hi; exact Hx].
Qed.

Lemma inverse_updates_sem dim us : updates_ok dim us -> no_conflict us -> forall f v,
  fsem dim (inverse_apply_updates dim us f) v <-> val_ok dim v /\ fsem dim f (run_updates us v).
Proof.
  intros Hu Hc f v. unfold inverse_apply_updates. rewrite frees_sem by exact Hu. split.
  - intros (Hv & w & Hw & E). split; [exact Hv|]. apply guards_sem in Hw. destruct Hw as [Hw Hg].
    eapply fsem_ext; [|exact Hw]. intros i. destruct (in_clocks_dec us i) as [(u & Hin & <-)|H].
    + rewrite run_updates_in by auto. apply Hg; exact Hin.
    + rewrite run_updates_out by exact H. apply E; exact H.
  - intros (Hv & Hf). split; [exact Hv|]. exists (run_updates us v). split.
    + apply guards_sem. split; [exact Hf|]. intros u Hin. rewrite run_updates_in by auto. reflexivity.
    + intros i H. rewrite run_updates_out by exact H. reflexivity.
Qed.

(** ** Invariants *)
Lemma apply_inv_sem dim l f v : fsem dim (apply_inv dim l f) v <-> fsem dim f v /\ inv_at dim l v.
Proof.
  unfold apply_inv, inv_at. destruct (lt_inv l) as [i|].
  - apply finter_sem.
  - split; [intros H; split; [exact H|eapply fsem_ok; eauto]|tauto].
Qed.

Lemma inv_at_ok dim l v : inv_at dim l v -> val_ok dim v.
Proof. unfold inv_at. destruct (lt_inv l); [apply fsem_ok|auto]. Qed.

Lemma inv_at_ext dim l v w : veq v w -> inv_at dim l v -> inv_at dim l w.
Proof.
  unfold inv_at. destruct (lt_inv l); intros E; [apply fsem_ext; exact E|apply val_ok_ext; exact E].
Qed.

Lemma inv_at_dec dim l v : val_ok dim v -> inv_at dim l v \/ ~ inv_at dim l v.
Proof. unfold inv_at. destruct (lt_inv l); intros H; [apply fsem_dec; exact H|left; exact H]. Qed.

(** ** Allowed federation *)
Lemma allowed_fed_sem dim t : updates_ok dim (t_updates t) -> no_conflict (t_updates t) -> forall v,
  fsem dim (allowed_fed dim t) v <->
  fsem dim (t_guard t) v /\ inv_at dim (t_target t) (run_updates (t_updates t) v).
Proof.
  intros Hu Hc v. unfold allowed_fed, apply_guards. rewrite finter_sem, inverse_updates_sem by auto.
  unfold inv_at. destruct (lt_inv (t_target t)) as [i|].
  - split; [tauto|]. intros [H1 H2]. split; [split; [eapply fsem_ok; eauto|exact H2]|exact H1].
  - rewrite funiv_sem. split; [tauto|]. intros [H1 H2]. split; [split; [eapply fsem_ok; eauto|exact H2]|exact H1].
Qed.

Lemma allowed_fed_fires dim t : updates_ok dim (t_updates t) -> no_conflict (t_updates t) -> forall v,
  fsem dim (allowed_fed dim t) v <-> exists v', t_fires dim t v v'.
Proof.
  intros Hu Hc v. rewrite allowed_fed_sem by auto. unfold t_fires. split.
  - intros [H1 H2]. exists (run_updates (t_updates t) v). split; [exact H1|]. split; [intros i; reflexivity|exact H2].
  - intros (v' & H1 & E & H2). split; [exact H1|]. eapply inv_at_ext; [exact E|exact H2].
Qed.

(** ** Using a transition *)
Lemma use_transition_zone dim t s b s' : updates_ok dim (t_updates t) ->
  use_transition dim t s = (b, s') ->
  (b = true -> s_loc s' = t_target t) /\
  (b = true <-> exists v', exists v d, fsem dim (s_zone s) v /\ fsem dim (t_guard t) v /\ 0 <= d /\
        veq v' (vdelay (run_updates (t_updates t) v) d) /\ inv_at dim (t_target t) v') /\
  (b = true -> forall v', fsem dim (s_zone s') v' <->
     exists v d, fsem dim (s_zone s) v /\ fsem dim (t_guard t) v /\ 0 <= d /\
        veq v' (vdelay (run_updates (t_updates t) v) d) /\ inv_at dim (t_target t) v').
Proof.
  intros Hu. unfold use_transition, apply_guards.
  assert (Z : forall v', fsem dim (apply_inv dim (t_target t) (fup dim (apply_updates dim (t_updates t)
                (finter dim (s_zone s) (t_guard t))))) v' <->
     exists v d, fsem dim (s_zone s) v /\ fsem dim (t_guard t) v /\ 0 <= d /\
        veq v' (vdelay (run_updates (t_updates t) v) d) /\ inv_at dim (t_target t) v').
  { intros v'. rewrite apply_inv_sem, fup_sem'. split.
    - intros ((w & d & Hd & Hw & E) & Hi). apply apply_updates_sem in Hw; [|exact Hu].
      destruct Hw as (v & Hv & E'). apply finter_sem in Hv. exists v, d. repeat split; try apply Hv; auto.
      etransitivity; [exact E|]. apply vdelay_ext; [exact E'|reflexivity].
    - intros (v & d & Hv & Hg & Hd & E & Hi). split; [|exact Hi].
      exists (run_updates (t_updates t) v), d. split; [exact Hd|]. split; [|exact E].
      apply apply_updates_sem; [exact Hu|]. exists v. split; [apply finter_sem; auto|reflexivity]. }
  destruct (fempty dim (finter dim (s_zone s) (t_guard t))) eqn:Ee; intros E; injection E as <- <-.
  - split; [discriminate|]. split; [|discriminate]. split; [discriminate|].
    intros (v' & v & d & Hv & Hg & _). rewrite fempty_true in Ee. exfalso. apply (Ee v). apply finter_sem; auto.
  - split; [reflexivity|]. split; [|intros _; exact Z].
    rewrite negb_true_iff, fempty_false. split; intros (v' & H); exists v'; apply Z; exact H.
Qed.

(** With an invariant that only bounds from above, success means that the transition
    really fires, and the new zone is made of delays after firing inside the invariant. *)
Lemma use_transition_standard dim t s b s' : updates_ok dim (t_updates t) -> past_closed dim (t_target t) ->
  use_transition dim t s = (b, s') ->
  (b = true <-> exists v v', fsem dim (s_zone s) v /\ t_fires dim t v v') /\
  (b = true -> forall v2, fsem dim (s_zone s') v2 <->
     exists v v' d, fsem dim (s_zone s) v /\ t_fires dim t v v' /\ 0 <= d /\
       veq v2 (vdelay v' d) /\ inv_at dim (t_target t) v2).
Proof.
  intros Hu Hp E. destruct (use_transition_zone dim t s b s' Hu E) as (_ & Hb & Hz).
  assert (Back : forall v d v2, fsem dim (s_zone s) v -> fsem dim (t_guard t) v -> 0 <= d ->
     veq v2 (vdelay (run_updates (t_updates t) v) d) -> inv_at dim (t_target t) v2 ->
     t_fires dim t v (run_updates (t_updates t) v)).
  { intros v d v2 Hv Hg Hd Ev Hi. split; [exact Hg|]. split; [intros i; reflexivity|].
    apply (Hp _ d); [apply run_updates_ok; [exact Hu|eapply fsem_ok; eauto]|exact Hd|].
    eapply inv_at_ext; eauto. }
  split.
  - rewrite Hb. split.
    + intros (v2 & v & d & Hv & Hg & Hd & Ev & Hi). exists v, (run_updates (t_updates t) v). split; [exact Hv|].
      eapply Back; eauto.
    + intros (v & v' & Hv & Hg & Ev & Hi). exists v', v, 0. repeat (split; [assumption || lra|]).
      split; [|exact Hi]. etransitivity; [exact Ev|]. symmetry. apply vdelay_zero. reflexivity.
  - intros Ht v2. rewrite (Hz Ht). split.
    + intros (v & d & Hv & Hg & Hd & Ev & Hi). exists v, (run_updates (t_updates t) v), d.
      split; [exact Hv|]. split; [eapply Back; eauto|]. auto.
    + intros (v & v' & d & Hv & (Hg & E1 & _) & Hd & Ev & Hi). exists v, d.
      repeat (split; [assumption|]). split; [|exact Hi].
      etransitivity; [exact Ev|]. apply vdelay_ext; [exact E1|reflexivity].
Qed.
