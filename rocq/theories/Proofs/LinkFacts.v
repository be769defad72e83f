(** Exploration with enlarged zones: what remains true. *)
From Coq Require Import List String ZArith QArith Bool Arith Lia Lqa.
From Verif Require Import Fed.Zone Fed.ZoneFacts Model.Base Model.Expr Model.Guard Model.Loc Model.Component Model.TS Model.Search Model.Refine
  Spec.GuardSpec Spec.StepSpec Spec.SystemSpec Spec.RunSpec Spec.RefineSpec Spec.ReduceSpec Spec.EnableSpec Spec.PruneSpec Spec.BoundSpec
  Proofs.GuardFacts Proofs.StepFacts Proofs.SystemFacts Proofs.WfFacts Proofs.RunFacts Proofs.ReadsFacts Proofs.BoundFacts Proofs.NearFacts Proofs.RefineFail.
Import ListNotations.
Local Open Scope Q_scope.

(** The bounds of a system are about its clocks. *)
Lemma own_below dim s l b : built dim s -> clocks_below dim s -> In l (all_locations dim s) -> local_bounds s l = Ok b -> bounds_below dim b.
Proof. intros B D H E i k Ei. apply D. eapply bounds_own; eauto. Qed.

(** ** Pairs of systems *)
Section Link.
Variables (dim q1 q2 : nat) (pext : loctree -> loctree -> fed -> fed) (s1 s2 : ts).
Hypothesis B1 : built dim s1.
Hypothesis B2 : built dim s2.
Hypothesis K1 : clocks_ok dim q1 s1.
Hypothesis K2 : clocks_ok dim q2 s2.

Lemma offered_in s q l a t : built dim s -> clocks_ok dim q s -> In l (all_locations dim s) -> offered dim s l a t -> updates_ok dim (t_updates t) /\ In (t_target t) (all_locations dim s).
Proof.
  intros B K Hl [Ha (ts & Ets & Ht)]. destruct (next_fine dim q s K l a ts Ets t Ht) as [[U _] _]. split; [exact U|].
  destruct (next_wf dim s B l a Hl Ha) as (ts' & E' & W). rewrite Ets in E'. injection E' as <-. auto.
Qed.

Definition same_clocks (l1 l2 : loctree) (v w : val) : Prop := val_ok dim v /\ val_ok dim w /\ agree (sys_clocks s1 ++ sys_clocks s2) v w.
Lemma link_exact : reads_ok s1 -> reads_ok s2 -> (forall l1 l2 f v, fsem dim (pext l1 l2 f) v <-> fsem dim f v) -> linked dim s1 s2 pext same_clocks.
Proof.
  intros R1 R2 Hext.
  assert (L : forall v w, agree (sys_clocks s1 ++ sys_clocks s2) v w -> agree (sys_clocks s1) v w /\ agree (sys_clocks s2) v w).
  { intros v w A. split; intros x Hx; apply A, in_or_app; auto. }
  constructor; unfold same_clocks.
  - tauto.
  - auto.
  - intros l1 l2 v w (V & W & A). split; [exact W|]. split; [exact V|]. intros x Hx. symmetry. apply A, Hx.
  - intros l1 l2 u v w (U & _ & A) (_ & W & B). split; [exact U|]. split; [exact W|]. intros x Hx. rewrite (A x Hx). apply B, Hx.
  - intros l1 l2 v w d Hd (V & W & A). split; [apply vdelay_ok; assumption|]. split; [apply vdelay_ok; assumption|]. apply agree_delay; [|exact A]. right. rewrite (proj1 V), (proj1 W). reflexivity.
  - intros l1 l2 v w Hl (V & W & A). apply (locations_dep dim s1 B1 R1 l1 Hl v w V W). apply L, A.
  - intros l1 l2 v w Hl (V & W & A). apply (locations_dep dim s2 B2 R2 l2 Hl v w V W). apply L, A.
  - intros l1 l2 a t v w Hl O (V & W & A). apply (offered_dep dim q1 s1 l1 a t B1 R1 K1 Hl O); auto. apply L, A.
  - intros l1 l2 a t v w Hl O (V & W & A). apply (offered_dep dim q2 s2 l2 a t B2 R2 K2 Hl O); auto. apply L, A.
  - intros l1 l2 a t v w Hl O (V & W & A). destruct (offered_in s1 q1 l1 a t B1 K1 Hl O) as [U _]. split; [apply run_updates_ok; assumption|]. split; [apply run_updates_ok; assumption|apply agree_updates, A].
  - intros l1 l2 a t v w Hl O (V & W & A). destruct (offered_in s2 q2 l2 a t B2 K2 Hl O) as [U _]. split; [apply run_updates_ok; assumption|]. split; [apply run_updates_ok; assumption|apply agree_updates, A].
  - intros l1 l2 f v _ _ H. exact (proj2 (Hext l1 l2 f v) H).
  - intros l1 l2 f v _ _ H. apply (proj1 (Hext l1 l2 f v)) in H. exists v. split; [exact H|]. pose proof (fsem_ok _ _ _ H). split; [assumption|]. split; [assumption|]. intros x _. reflexivity.
Qed.

Definition both_near (l1 l2 : loctree) (v w : val) : Prop := near dim s1 l1 v w /\ near dim s2 l2 v w.
Lemma link_bounds : bounds_suffice dim s1 -> bounds_suffice dim s2 -> clocks_below dim s1 -> clocks_below dim s2 ->
  pair_within_bounds dim pext s1 s2 -> linked dim s1 s2 pext both_near.
Proof.
  intros F1 F2 D1 D2 W. constructor; unfold both_near.
  - intros l1 l2 v w [(V & X & _) _]. auto.
  - intros l1 l2 v w H1 H2 V X A. split; apply agree_near; auto; intros x Hx; apply A, in_or_app; auto.
  - intros l1 l2 v w [A B]. split; apply near_sym; assumption.
  - intros l1 l2 u v w [A B] [C D]. split; eapply near_trans; eassumption.
  - intros l1 l2 v w d Hd [A B]. split; apply near_delay; assumption.
  - intros l1 l2 v w Hl [A _]. apply (near_inv dim s1 B1 F1 l1 Hl v w A).
  - intros l1 l2 v w Hl [_ A]. apply (near_inv dim s2 B2 F2 l2 Hl v w A).
  - intros l1 l2 a t v w Hl O [A _]. apply (near_able dim s1 B1 F1 q1 l1 a t K1 Hl O); exact A.
  - intros l1 l2 a t v w Hl O [_ A]. apply (near_able dim s2 B2 F2 q2 l2 a t K2 Hl O); exact A.
  - intros l1 l2 a t v w Hl O [A B]. split; [eapply near_step; eauto|]. apply near_updates; [|exact B]. apply (offered_in s1 q1 l1 a t B1 K1 Hl O).
  - intros l1 l2 a t v w Hl O [A B]. split; [|eapply near_step; eauto]. apply near_updates; [|exact A]. apply (offered_in s2 q2 l2 a t B2 K2 Hl O).
  - intros l1 l2 f v H1 H2 H. destruct (local_bounds_total dim s1 B1 l1 H1) as (b1 & E1). destruct (local_bounds_total dim s2 B2 l2 H2) as (b2 & E2).
    exact (proj1 (W l1 l2 b1 b2 f E1 E2 (own_below _ _ _ _ B1 D1 H1 E1) (own_below _ _ _ _ B2 D2 H2 E2)) v H).
  - intros l1 l2 f v H1 H2 H. destruct (local_bounds_total dim s1 B1 l1 H1) as (b1 & E1). destruct (local_bounds_total dim s2 B2 l2 H2) as (b2 & E2).
    destruct (W l1 l2 b1 b2 f E1 E2 (own_below _ _ _ _ B1 D1 H1 E1) (own_below _ _ _ _ B2 D2 H2 E2)) as (_ & D & _). destruct (D v H) as (w & Hw & A). exists w. split; [exact Hw|].
    pose proof (fsem_ok _ _ _ H). pose proof (fsem_ok _ _ _ Hw).
    split; (split; [assumption|]; split; [assumption|]); eexists; (split; [eassumption|]); eapply below_alike; [|exact A| |exact A]; [apply below_join_l|apply below_join_r].
Qed.
End Link.

(** ** Valuations that cannot be told apart *)
Lemma indistinct_veq dim s l v w : veq v w -> indistinct dim s l v w.
Proof.
  intros E. exists (fun _ => veq). split; [exact E|]. split; [|split; [|split]].
  - intros _ x y H i. symmetry. apply H.
  - intros l' x y H I. eapply inv_at_ext; [exact H|exact I].
  - intros _ x y d H _. apply vdelay_ext; [exact H|reflexivity].
  - intros l' a t x y H _. split; [apply fsem_ext; exact H|apply run_updates_ext; exact H].
Qed.
Lemma indistinct_trans dim s l u v w : indistinct dim s l u v -> indistinct dim s l v w -> indistinct dim s l u w.
Proof.
  intros (R & R0 & R1 & R2 & R3 & R4) (Q & Q0 & Q1 & Q2 & Q3 & Q4).
  exists (fun l x z => exists y, (R l x y /\ Q l y z) \/ (Q l x y /\ R l y z)). split; [|split; [|split; [|split]]].
  - exists v. auto.
  - intros l' x z (y & [[A B]|[A B]]); exists y; auto.
  - intros l' x z (y & [[A B]|[A B]]) I; eauto.
  - intros l' x z d (y & [[A B]|[A B]]) Hd; exists (vdelay y d); auto.
  - intros l' a t x z (y & [[A B]|[A B]]) O.
    + destruct (R4 _ _ _ _ _ A O), (Q4 _ _ _ _ _ B O). split; [auto|]. eexists. eauto.
    + destruct (Q4 _ _ _ _ _ A O), (R4 _ _ _ _ _ B O). split; [auto|]. eexists. eauto.
Qed.
Lemma near_indistinct dim q s l v w : built dim s -> clocks_ok dim q s -> bounds_suffice dim s -> In l (all_locations dim s) -> near dim s l v w -> indistinct dim s l v w.
Proof.
  intros B K F Hl N. exists (fun l v w => In l (all_locations dim s) /\ near dim s l v w). split; [auto|]. split; [|split; [|split]].
  - intros l' x y [H X]. split; [exact H|apply near_sym, X].
  - intros l' x y [H X]. apply (near_inv dim s B F l' H x y X).
  - intros l' x y d [H X] Hd. split; [exact H|apply near_delay; assumption].
  - intros l' a t x y [H X] O. split; [apply (near_able dim s B F q l' a t K H O); exact X|]. split; [apply (offered_in dim s q l' a t B K H O)|eapply near_step; eauto].
Qed.

Lemma taken_refl acc dim s l v w : veq v w -> taken_for acc dim s l v w.
Proof. destruct acc; cbn; [auto|apply indistinct_veq]. Qed.
Lemma taken_trans acc dim s l u v w : taken_for acc dim s l u v -> taken_for acc dim s l v w -> taken_for acc dim s l u w.
Proof. destruct acc; cbn; [intros A B i; rewrite (A i); apply B|apply indistinct_trans]. Qed.
Lemma renders_iff acc dim s l (P Q : val -> Prop) : (forall v, Q v <-> P v) -> renders acc dim s l P Q.
Proof. intros H. split; intros v Hv; [apply H, Hv|]. exists v. split; [apply H, Hv|apply taken_refl; intros i; reflexivity]. Qed.
Lemma renders_trans acc dim s l (P Q R : val -> Prop) : renders acc dim s l P Q -> renders acc dim s l Q R -> renders acc dim s l P R.
Proof.
  intros [A1 A2] [B1 B2]. split; [auto|]. intros v Hv. destruct (B2 v Hv) as (w & Hw & E). destruct (A2 w Hw) as (u & Hu & F). exists u. split; [exact Hu|eapply taken_trans; eassumption].
Qed.
Lemma renders_from acc dim s l (P Q R : val -> Prop) : (forall v, P v <-> Q v) -> renders acc dim s l P R -> renders acc dim s l Q R.
Proof. intros H [A1 A2]. split; [intros v Hv; apply A1, H, Hv|]. intros v Hv. destruct (A2 v Hv) as (w & Hw & E). exists w. split; [apply H, Hw|exact E]. Qed.

(** ** Systems whose exploration is accurate *)
Definition accurate (acc : accuracy) (dim : nat) (ext : ts -> loctree -> fed -> fed) (s : ts) : Prop :=
  match acc with Exact => forall l f v, fsem dim (ext s l f) v <-> fsem dim f v | Bounded => bounds_suffice dim s /\ within_bounds dim ext s end.
Lemma accurate_renders acc dim q ext s l f : built dim s -> clocks_ok dim q s -> clocks_below dim s -> accurate acc dim ext s -> In l (all_locations dim s) ->
  renders acc dim s l (fsem dim f) (fsem dim (ext s l f)) /\ (only_clocks dim f -> only_clocks dim (ext s l f)).
Proof.
  intros B K Dm A Hl. destruct acc; cbn [accurate] in A.
  - split; [apply renders_iff, A|]. intros O v w Hv Hw H Hs. apply (proj2 (A _ _ _)). apply (proj1 (A _ _ _)) in Hs. exact (O v w Hv Hw H Hs).
  - destruct A as [F W]. destruct (local_bounds_total dim s B l Hl) as (b & Eb). destruct (W l b f Eb (own_below _ _ _ _ B Dm Hl Eb)) as (U & D & O). split; [|exact O]. split; [exact U|].
    intros v Hv. destruct (D v Hv) as (w & Hw & X). exists w. split; [exact Hw|]. cbn. eapply near_indistinct; eauto.
    split; [eapply fsem_ok; exact Hv|]. split; [eapply fsem_ok; exact Hw|]. eauto.
Qed.
Lemma accurate_linked acc dim q1 q2 pext s1 s2 : built dim s1 -> built dim s2 -> clocks_ok dim q1 s1 -> clocks_ok dim q2 s2 -> reads_ok s1 -> reads_ok s2 ->
  clocks_below dim s1 -> clocks_below dim s2 -> pair_accurate acc dim pext s1 s2 -> exists N, linked dim s1 s2 pext N.
Proof.
  intros B1 B2 K1 K2 R1 R2 D1 D2 A. destruct acc; cbn in A.
  - eexists. eapply link_exact; eauto.
  - destruct A as (F1 & F2 & W). eexists. eapply link_bounds; eauto.
Qed.
Lemma pair_accurate_only acc dim pext s1 s2 l1 l2 f : built dim s1 -> built dim s2 -> clocks_below dim s1 -> clocks_below dim s2 -> pair_accurate acc dim pext s1 s2 ->
  In l1 (all_locations dim s1) -> In l2 (all_locations dim s2) -> only_clocks dim f -> only_clocks dim (pext l1 l2 f).
Proof.
  intros B1 B2 D1 D2 A H1 H2. destruct acc; cbn in A.
  - intros O v w Hv Hw H Hs. apply (proj2 (A _ _ _ _)). apply (proj1 (A _ _ _ _)) in Hs. exact (O v w Hv Hw H Hs).
  - destruct A as (F1 & F2 & W). destruct (local_bounds_total dim s1 B1 l1 H1) as (b1 & E1). destruct (local_bounds_total dim s2 B2 l2 H2) as (b2 & E2). exact (proj2 (proj2 (W l1 l2 b1 b2 f E1 E2 (own_below _ _ _ _ B1 D1 H1 E1) (own_below _ _ _ _ B2 D2 H2 E2)))).
Qed.

Definition mild (acc : accuracy) (dim : nat) (s : ts) : Prop := match acc with Exact => True | Bounded => bounds_suffice dim s end.
Definition explored (acc : accuracy) (dim : nat) (ext : ts -> loctree -> fed -> fed) : Prop :=
  match acc with Exact => forall s l f v, fsem dim (ext s l f) v <-> fsem dim f v | Bounded => forall s, within_bounds dim ext s end.
Definition pair_explored (acc : accuracy) (dim : nat) (pext : loctree -> loctree -> fed -> fed) (s1 s2 : ts) : Prop :=
  match acc with Exact => forall l1 l2 f v, fsem dim (pext l1 l2 f) v <-> fsem dim f v | Bounded => pair_within_bounds dim pext s1 s2 end.
Lemma mild_accurate acc dim ext s : explored acc dim ext -> mild acc dim s -> accurate acc dim ext s.
Proof. destruct acc; cbn; auto. Qed.
Lemma mild_pair acc dim pext s1 s2 : pair_explored acc dim pext s1 s2 -> mild acc dim s1 -> mild acc dim s2 -> pair_accurate acc dim pext s1 s2.
Proof. destruct acc; cbn; auto. Qed.
Lemma mild_conj acc dim l r i o : mild acc dim (TConj l r i o) <-> mild acc dim l /\ mild acc dim r.
Proof. destruct acc; cbn; tauto. Qed.
Lemma mild_comp acc dim l r i o a b c : mild acc dim (TComp l r i o a b c) <-> mild acc dim l /\ mild acc dim r.
Proof. destruct acc; cbn; tauto. Qed.
Lemma mild_quot acc dim l r i o n q : mild acc dim (TQuot l r i o n q) <-> mild acc dim l /\ mild acc dim r.
Proof. destruct acc; cbn; tauto. Qed.
