(** Refinement between systems of different queries. *)
From Coq Require Import List String ZArith QArith Bool Arith Lia Lqa.
From Verif Require Import Fed.Zone Fed.ZoneFacts Model.Base Model.Expr Model.Guard Model.Loc Model.Component Model.TS Model.ParseQuery Model.Recipe
  Spec.StepSpec Spec.SystemSpec Spec.RunSpec Spec.EnableSpec Spec.RecipeSpec Spec.RefineSpec Spec.SameSpec Spec.ExecSpec Spec.LawSpec
  Proofs.GuardFacts Proofs.StepFacts Proofs.SystemFacts Proofs.WfFacts Proofs.RunFacts Proofs.RenFacts Proofs.SameFacts Proofs.BisimFacts Proofs.TwoFacts Proofs.ExecFacts Proofs.LawFacts Proofs.LawProofs Proofs.LawQuot Proofs.LawSym Proofs.LawMore Proofs.PlaceFacts.
Import ListNotations.
Local Open Scope Q_scope.

(** ** Refinement between systems whose clocks are numbered separately *)
Definition hrefinement (d1 : nat) (s1 : ts) (d2 : nat) (s2 : ts) (R : loctree -> val -> loctree -> val -> Prop) : Prop :=
  forall l1 v1 l2 v2, R l1 v1 l2 v2 ->
    inv_at d1 l1 v1 /\ inv_at d2 l2 v2 /\
    (forall a l1' v1', is_output s1 a -> can d1 s1 l1 v1 a l1' v1' ->
       (is_output s2 a -> exists l2' v2', can d2 s2 l2 v2 a l2' v2' /\ R l1' v1' l2' v2') /\ (~ is_output s2 a -> R l1' v1' l2 v2)) /\
    (forall a l2' v2', is_input s2 a -> can d2 s2 l2 v2 a l2' v2' ->
       (is_input s1 a -> exists l1' v1', can d1 s1 l1 v1 a l1' v1' /\ R l1' v1' l2' v2') /\ (~ is_input s1 a -> R l1 v1 l2' v2')) /\
    (forall d, 0 <= d -> (forall e, 0 <= e -> e <= d -> inv_at d1 l1 (vdelay v1 e)) -> R l1 (vdelay v1 d) l2 (vdelay v2 d)).
Definition hrefines (d1 : nat) (s1 : ts) (d2 : nat) (s2 : ts) : Prop :=
  match initial_location d1 s1, initial_location d2 s2 with
  | Some l1, Some l2 => exists R, hrefinement d1 s1 d2 s2 R /\ R l1 zero_val l2 zero_val
  | None, None => True
  | _, _ => False
  end.
Lemma hrefines_one d s t : hrefines d s d t <-> refines d s t.
Proof.
  unfold hrefines, refines. destruct (initial_location d s), (initial_location d t); try tauto. split; intros (R & H & R0); exists R; (split; [|exact R0]); [exact (proj2 (refinement_can d s t R) H)|exact (proj1 (refinement_can d s t R) H)].
Qed.
Lemma hrefines_trans d1 s1 d2 s2 d3 s3 : (forall a, is_output s1 a -> is_output s3 a -> is_output s2 a) -> (forall a, is_input s1 a -> is_input s3 a -> is_input s2 a) ->
  hrefines d1 s1 d2 s2 -> hrefines d2 s2 d3 s3 -> hrefines d1 s1 d3 s3.
Proof.
  intros Ho Hi. unfold hrefines.
  destruct (initial_location d1 s1) as [l1|], (initial_location d2 s2) as [l2|], (initial_location d3 s3) as [l3|]; try tauto.
  intros (R & HR & R0) (Q & HQ & Q0). exists (fun l1 v1 l3 v3 => exists l2 v2, R l1 v1 l2 v2 /\ Q l2 v2 l3 v3). split; [|eauto].
  intros p1 v1 p3 v3 (p2 & v2 & H1 & H2). destruct (HR _ _ _ _ H1) as (I1 & I2 & A1 & B1 & C1). destruct (HQ _ _ _ _ H2) as (_ & I3 & A2 & B2 & C2).
  split; [exact I1|]. split; [exact I3|]. split; [|split].
  - intros a p1' v1' Oa C. destruct (A1 a p1' v1' Oa C) as [X Y]. split.
    + intros O3. destruct (X (Ho a Oa O3)) as (p2' & v2' & C' & R'). destruct (proj1 (A2 a p2' v2' (Ho a Oa O3) C') O3) as (p3' & v3' & C'' & Q'). eauto 8.
    + intros N3. destruct (in_dec string_dec a (ts_outputs s2)) as [O2|N2].
      * destruct (X O2) as (p2' & v2' & C' & R'). pose proof (proj2 (A2 a p2' v2' O2 C') N3). eauto.
      * pose proof (Y N2). eauto.
  - intros a p3' v3' Ia C. destruct (B2 a p3' v3' Ia C) as [X Y]. split.
    + intros Ia1. destruct (X (Hi a Ia1 Ia)) as (p2' & v2' & C' & Q'). destruct (proj1 (B1 a p2' v2' (Hi a Ia1 Ia) C') Ia1) as (p1' & v1' & C'' & R'). eauto 8.
    + intros N1. destruct (in_dec string_dec a (ts_inputs s2)) as [I2'|N2].
      * destruct (X I2') as (p2' & v2' & C' & Q'). pose proof (proj2 (B1 a p2' v2' I2' C') N1). eauto.
      * pose proof (Y N2). eauto.
  - intros d Hd Hw. pose proof (C1 d Hd Hw) as R'. assert (W : forall e, 0 <= e -> e <= d -> inv_at d2 p2 (vdelay v2 e)).
    { intros e He Hed. assert (R'' : R p1 (vdelay v1 e) p2 (vdelay v2 e)) by (apply C1; [exact He|]; intros; apply Hw; lra). apply (HR _ _ _ _ R''). }
    exists p2, (vdelay v2 d). split; [exact R'|]. apply C2; assumption.
Qed.
(** Systems that behave the same refine each other. *)
Lemma same_hrefines d s d' s' : same_behaviour d s d' s' -> (forall l, initial_location d s = Some l -> inv_at d l zero_val) -> hrefines d s d' s'.
Proof.
  intros (Hi & Ho & R & B & I) H0. unfold hrefines. destruct (initial_location d s) as [l|], (initial_location d' s') as [l'|]; try contradiction; auto.
  exists (fun l v l' v' => R (l, v) (l', v') /\ inv_at d l v). split; [|auto]. clear H0 I. intros l1 v1 l2 v2 [H I1]. destruct B as [B1 B2 B3 B4 _ _].
  split; [exact I1|]. split; [apply (B1 _ _ _ _ H), I1|]. split; [|split].
  - intros a p v Oa (t & O & A & -> & ->). split; [|intros N; exfalso; apply N, Ho, Oa]. intros _. destruct (B3 _ _ _ _ _ _ H O A) as (t' & O' & A' & R').
    exists (t_target t'), (run_updates (t_updates t') v2). split; [exists t'; auto|]. split; [exact R'|apply A].
  - intros a p v Ia (t & O & A & -> & ->). split; [|intros N; exfalso; apply N, Hi, Ia]. intros _. destruct (B4 _ _ _ _ _ _ H O A) as (t' & O' & A' & R').
    exists (t_target t'), (run_updates (t_updates t') v1). split; [exists t'; auto|]. split; [exact R'|apply A'].
  - intros e He Hw. split; [apply B2; assumption|apply Hw; lra].
Qed.
Lemma same_start d s d' s' : same_behaviour d s d' s' -> can_start d s -> can_start d' s'.
Proof.
  intros (_ & _ & R & B & I) (l & E & H). rewrite E in I. destruct (initial_location d' s') as [l'|] eqn:E'; [|contradiction]. exists l'. split; [exact E'|]. apply (bs_loc _ _ _ _ _ B _ _ _ _ I), H.
Qed.
Lemma same_at d s d' s' l' v' : same_behaviour d s d' s' -> reachable d' s' l' v' -> exists R l v, bisimulation d s d' s' R /\ reachable d s l v /\ R (l, v) (l', v').
Proof.
  intros Sm Re. pose proof (same_sym _ _ _ _ Sm) as (_ & _ & T & C & K). destruct Re as (l0' & E' & I0 & Ru). rewrite E' in K. destruct (initial_location d s) as [l0|] eqn:E; [|contradiction].
  destruct (same_run _ _ _ _ _ _ _ _ _ C _ _ Ru K) as (l & v & Ru' & H). exists (fun x y => T y x), l, v. split; [|split; [|exact H]].
  - destruct C as [B1 B2 B3 B4 B5 B6]. constructor.
    + intros ? ? ? ? X. destruct (B1 _ _ _ _ X) as (Y1 & Y2 & Y3). split; [congruence|]. split; [congruence|]. symmetry. exact Y3.
    + intros. apply B2; assumption.
    + intros ? ? ? ? a t X O A. destruct (B4 _ _ _ _ _ _ X O A) as (t0 & Y1 & Y2 & Y3). eauto.
    + intros ? ? ? ? a t X O A. destruct (B3 _ _ _ _ _ _ X O A) as (t0 & Y1 & Y2 & Y3). eauto.
    + intros ? ? ? ? a ts X Ha Et. destruct (B6 _ _ _ _ _ _ X Ha Et) as (ts0 & Y1 & Y2). exists ts0. split; [exact Y1|].
      clear - Y2. induction Y2 as [|t t' m m' [T1 T2] Y IH]; constructor; auto. split; [congruence|]. symmetry. exact T2.
    + intros ? ? ? ? a ts X Ha Et. destruct (B5 _ _ _ _ _ _ X Ha Et) as (ts0 & Y1 & Y2). exists ts0. split; [exact Y1|].
      clear - Y2. induction Y2 as [|t t' m m' [T1 T2] Y IH]; constructor; auto. split; [congruence|]. symmetry. exact T2.
  - exists l0. split; [exact E|]. split; [|exact Ru']. apply (bs_loc _ _ _ _ _ C _ _ _ _ K), I0.
Qed.
Lemma same_accepting d s d' s' : same_behaviour d s d' s' -> accepting d s -> accepting d' s'.
Proof.
  intros Sm A l' v' a Re Ia. destruct (same_at _ _ _ _ _ _ Sm Re) as (R & l & v & B & Re0 & H). destruct (A l v a Re0 (proj1 (proj1 Sm a) Ia)) as (t & O & Ab).
  destruct (bs_forth _ _ _ _ _ B _ _ _ _ _ _ H O Ab) as (t' & O' & Ab' & _). eauto.
Qed.
Lemma same_lively d s d' s' outs outs' : same_behaviour d s d' s' -> (forall a, outs a <-> outs' a) -> lively d s outs -> lively d' s' outs'.
Proof.
  intros Sm Eo A l' v' Re. destruct (same_at _ _ _ _ _ _ Sm Re) as (R & l & v & B & Re0 & H). destruct (A l v Re0) as [(e & He & W)|(a & t & Oa & Os & O & Ab)].
  - left. exists e. split; [exact He|]. intros x Hx Hxe. apply (bs_loc _ _ _ _ _ B _ _ _ _ (bs_delay _ _ _ _ _ B _ _ _ _ x H Hx)), W; assumption.
  - right. destruct (bs_forth _ _ _ _ _ B _ _ _ _ _ _ H O Ab) as (t' & O' & Ab' & _). exists a, t'. split; [apply Eo, Oa|]. split; [apply Sm, Os|]. auto.
Qed.
Lemma same_trans d1 s1 d2 s2 d3 s3 : same_behaviour d1 s1 d2 s2 -> same_behaviour d2 s2 d3 s3 -> (forall a, is_input s3 a <-> is_input s1 a) /\ (forall a, is_output s3 a <-> is_output s1 a).
Proof. intros (A & B & _) (C & D & _). split; intros a; [rewrite C; apply A|rewrite D; apply B]. Qed.

(** ** The laws between queries *)
Section Laws.
Variable load : string -> option component.
Hypothesis Ld : loadable load.
Notation placed := (placed load). Notation beside := (beside load).
Let GD e d s : placed e d s -> good d s := placed_good load e d s Ld.
Let SM e d s d' s' : placed e d s -> placed e d' s' -> same_behaviour d s d' s' := placed_same load e d s d' s' Ld.

Theorem across_reflexive e d s t : beside e e d s t -> can_start d s -> refines d s t.
Proof.
  intros B St. destruct (beside_placed _ _ _ _ _ _ B) as [P P']. apply hrefines_one, same_hrefines; [apply (SM e); assumption|]. apply start_able, St.
Qed.
Lemma refines_starts d s t : refines d s t -> forall l, initial_location d s = Some l -> inv_at d l zero_val.
Proof. unfold refines. intros H l E. rewrite E in H. destruct (initial_location d t) as [m|]; [|contradiction]. destruct H as (R & HR & R0). apply (HR _ _ _ _ R0). Qed.
Lemma refines_ends d s t : refines d s t -> forall l, initial_location d t = Some l -> inv_at d l zero_val.
Proof. unfold refines. intros H l E. rewrite E in H. destruct (initial_location d s) as [m|]; [|contradiction]. destruct H as (R & HR & R0). apply (HR _ _ _ _ R0). Qed.
Lemma same_startable d s d' s' : same_behaviour d s d' s' -> (forall l, initial_location d s = Some l -> inv_at d l zero_val) -> forall l, initial_location d' s' = Some l -> inv_at d' l zero_val.
Proof. intros (_ & _ & R & B & I) H l E. rewrite E in I. destruct (initial_location d s) as [m|] eqn:Em; [|contradiction]. apply (bs_loc _ _ _ _ _ B _ _ _ _ I), H. reflexivity. Qed.

Theorem across_transitive e f g d1 s1 t1 d2 t2 u2 d3 s3 u3 : beside e f d1 s1 t1 -> beside f g d2 t2 u2 -> beside e g d3 s3 u3 ->
  (forall a, is_output s1 a -> is_output u2 a -> is_output t1 a) -> (forall a, is_input s1 a -> is_input u2 a -> is_input t1 a) ->
  refines d1 s1 t1 -> refines d2 t2 u2 -> refines d3 s3 u3.
Proof.
  intros B1 B2 B3 Ho Hi R1 R2. destruct (beside_placed _ _ _ _ _ _ B1) as [P1 Q1]. destruct (beside_placed _ _ _ _ _ _ B2) as [P2 Q2]. destruct (beside_placed _ _ _ _ _ _ B3) as [P3 Q3].
  pose proof (SM e _ _ _ _ P3 P1) as S1. pose proof (SM f _ _ _ _ Q1 P2) as S2. pose proof (SM g _ _ _ _ Q2 Q3) as S3.
  pose proof S1 as (I1 & O1 & _). pose proof S2 as (I2 & O2 & _). pose proof S3 as (I3 & O3 & _).
  apply hrefines_one. apply hrefines_one in R1 as H1. apply hrefines_one in R2 as H2.
  assert (X1 : hrefines d3 s3 d1 s1) by (apply same_hrefines; [exact S1|]; eapply same_startable; [apply same_sym, S1|apply (refines_starts _ _ _ R1)]).
  assert (X2 : hrefines d1 t1 d2 t2) by (apply same_hrefines; [exact S2|apply (refines_ends _ _ _ R1)]).
  assert (X3 : hrefines d2 u2 d3 u3) by (apply same_hrefines; [exact S3|apply (refines_ends _ _ _ R2)]).
  apply (hrefines_trans d3 s3 d1 s1 d3 u3); [intros a H _; apply O1, H|intros a H _; apply I1, H|exact X1|].
  apply (hrefines_trans d1 s1 d1 t1 d3 u3); [intros a H H'; apply (Ho a H), O3, H'|intros a H H'; apply (Hi a H), I3, H'|exact H1|].
  apply (hrefines_trans d1 t1 d2 t2 d3 u3); [intros a H _; apply O2, H|intros a H _; apply I2, H|exact X2|].
  apply (hrefines_trans d2 t2 d2 u2 d3 u3); [intros a _ H; apply O3, H|intros a _ H; apply I3, H|exact H2|exact X3].
Qed.

(** Conjunction: X <= A, X <= B and X <= A && B. *)
Theorem across_conjunction x a b d1 x1 a1 d2 x2 b2 d3 x3 c3 : beside x a d1 x1 a1 -> beside x b d2 x2 b2 -> beside x (XConj a b) d3 x3 c3 -> has_quotient a && has_quotient b = false ->
  deterministic d1 x1 -> accepting d1 a1 -> accepting d2 b2 -> can_start d3 c3 ->
  (forall k, is_output a1 k <-> is_output b2 k) -> (forall k, is_input a1 k <-> is_input b2 k) -> (forall k, is_input x1 k -> is_input a1 k) ->
  (refines d3 x3 c3 <-> refines d1 x1 a1 /\ refines d2 x2 b2).
Proof.
  intros B1 B2 B3 Hq De Aa Ab St Ho Hi Hx. destruct (beside_placed _ _ _ _ _ _ B1) as [Px1 Pa1]. destruct (beside_placed _ _ _ _ _ _ B2) as [Px2 Pb2]. destruct (beside_placed _ _ _ _ _ _ B3) as [Px3 _].
  destruct (beside_conj _ _ _ _ _ _ _ B3) as (a3 & b3 & C1 & C2 & C3 & E). destruct (beside_placed _ _ _ _ _ _ C3) as [Pa3 Pb3]. pose proof (beside_separate _ _ _ _ _ _ C3 Hq) as Sp.
  pose proof (SM x _ _ _ _ Px1 Px3) as Sx. pose proof (SM x _ _ _ _ Px2 Px3) as Sx'. pose proof (SM a _ _ _ _ Pa1 Pa3) as Sa. pose proof (SM b _ _ _ _ Pb2 Pb3) as Sb.
  rewrite (same_refines _ _ _ _ _ _ Sx Sa), (same_refines _ _ _ _ _ _ Sx' Sb).
  pose proof Sx as (I1 & O1 & _). pose proof Sa as (I2 & O2 & _). pose proof Sb as (I3 & O3 & _).
  assert (Ho' : forall k, is_output a3 k <-> is_output b3 k) by (intros k; rewrite O2, O3; apply Ho). assert (Hi' : forall k, is_input a3 k <-> is_input b3 k) by (intros k; rewrite I2, I3; apply Hi).
  assert (Hx' : forall k, is_input x3 k -> is_input a3 k) by (intros k; rewrite I1, I2; apply Hx).
  assert (Os : forall k, is_output c3 k <-> is_output a3 k /\ is_output b3 k) by (intros k; apply (conj_alphabet a3 b3 c3 E k)).
  assert (Is : forall k, is_input c3 k <-> is_input a3 k /\ is_input b3 k) by (intros k; apply (conj_alphabet a3 b3 c3 E k)).
  pose proof (same_accepting _ _ _ _ Sa Aa) as Aa'. pose proof (same_accepting _ _ _ _ Sb Ab) as Ab'.
  split.
  - intros R. split.
    + apply (trans_refines d3 x3 c3 a3); [intros k _ H; apply Os; split; [exact H|apply Ho', H]|intros k _ H; apply Is; split; [exact H|apply Hi', H]|exact R|].
      apply (conj_below d3 a3 b3 c3); eauto. apply Hi'.
    + apply (trans_refines d3 x3 c3 b3); [intros k _ H; apply Os; split; [apply Ho', H|exact H]|intros k _ H; apply Is; split; [apply Hi', H|exact H]|exact R|].
      apply (conj_below_right d3 a3 b3 c3); eauto. apply Hi'.
  - intros [RA RB]. apply (conj_above d3 x3 a3 b3 c3); eauto.
    + eapply same_deterministic; [apply same_sym, Sx|exact De].
    + intros k H. apply Is. split; [apply Hx', H|apply Hi', Hx', H].
Qed.

(** Composition: A1 <= A2, B1 <= B2 and A1 || B1 <= A2 || B2. *)
Theorem across_composition ea1 ea2 eb1 eb2 d1 a1 a2 d2 b1 b2 d3 s3 t3 : beside ea1 ea2 d1 a1 a2 -> beside eb1 eb2 d2 b1 b2 -> beside (XPar ea1 eb1) (XPar ea2 eb2) d3 s3 t3 ->
  (has_quotient ea1 || has_quotient ea2) && (has_quotient eb1 || has_quotient eb2) = false ->
  io_disjoint a1 -> io_disjoint a2 -> io_disjoint b1 -> io_disjoint b2 -> alphabets_fit a1 a2 -> alphabets_fit b1 b2 ->
  (forall k, is_output a1 k -> ~ is_output a2 k -> ~ is_action b1 k) -> (forall k, is_output b1 k -> ~ is_output b2 k -> ~ is_action a2 k) ->
  deterministic d1 a1 -> deterministic d2 b1 -> accepting d1 a2 -> accepting d2 b2 -> can_start d1 a2 -> can_start d2 b1 -> can_start d2 b2 ->
  refines d1 a1 a2 -> refines d2 b1 b2 -> refines d3 s3 t3.
Proof.
  intros B1 B2 B3 Hq IA1 IA2 IB1 IB2 FA FB CA CB DA DB AA AB TA TB1 TB2 RA RB.
  destruct (beside_placed _ _ _ _ _ _ B1) as [Pa1 Pa2]. destruct (beside_placed _ _ _ _ _ _ B2) as [Pb1 Pb2].
  destruct (beside_comp _ _ _ _ _ _ _ B3) as (a4 & b4 & C1 & C2 & C3 & E). apply beside_sym in C1. destruct (beside_comp _ _ _ _ _ _ _ C1) as (a3 & b3 & D1 & D2 & D3 & E').
  destruct (beside_placed _ _ _ _ _ _ C3) as [Pa4 Pb4]. destruct (beside_placed _ _ _ _ _ _ D3) as [Pa3 Pb3].
  pose proof (SM ea1 _ _ _ _ Pa1 Pa3) as S1. pose proof (SM ea2 _ _ _ _ Pa2 Pa4) as S2. pose proof (SM eb1 _ _ _ _ Pb1 Pb3) as S3. pose proof (SM eb2 _ _ _ _ Pb2 Pb4) as S4.
  rewrite (same_refines _ _ _ _ _ _ S1 S2) in RA. rewrite (same_refines _ _ _ _ _ _ S3 S4) in RB.
  assert (IO : forall d u d' u', same_behaviour d u d' u' -> io_disjoint u -> io_disjoint u') by (intros d u d' u' (I & O & _) X k Hk Hk'; apply (X k); [apply I, Hk|apply O, Hk']).
  assert (AF : forall d u d' u' e v e' v', same_behaviour d u d' u' -> same_behaviour e v e' v' -> alphabets_fit u v -> alphabets_fit u' v').
  { intros d u d' u' e v e' v' (I & O & _) (J & P & _) (X1 & X2 & X3 & X4). repeat split; intros k; rewrite ?I, ?O, ?J, ?P; auto. }
  destruct (orb_false_elim (has_quotient ea1 && has_quotient eb1) (has_quotient ea2 && has_quotient eb1 || has_quotient ea2 && has_quotient eb2)) as [Q1 Q23].
  { destruct (has_quotient ea1), (has_quotient ea2), (has_quotient eb1), (has_quotient eb2); cbn in *; congruence. }
  apply orb_false_elim in Q23. destruct Q23 as [Q2 Q3].
  assert (Sp1 : separate a3 b3) by (eapply beside_separate; eauto). assert (Sp3 : separate a4 b4) by (eapply beside_separate; eauto).
  assert (Sp2 : separate a4 b3). { destruct D2 as (q & l & r & X). apply (beside_separate load ea2 eb1 d3 a4 b3); [|exact Q2]. exists q, l, r. exact X. }
  pose proof S1 as (I1 & O1 & _). pose proof S2 as (I2 & O2 & _). pose proof S3 as (I3 & O3 & _). pose proof S4 as (I4 & O4 & _).
  apply (comp_monotone_both d3 a3 a4 b3 b4 s3 t3); eauto.
  - intros k. unfold is_action. rewrite O1, O2, I3, O3. apply CA.
  - intros k. unfold is_action. rewrite O3, O4, I2, O2. apply CB.
  - eapply same_deterministic; [apply same_sym, S1|exact DA].
  - eapply same_deterministic; [apply same_sym, S3|exact DB].
  - eapply same_accepting; eauto.
  - eapply same_accepting; eauto.
  - eapply same_start; eauto.
  - eapply same_start; eauto.
  - eapply same_start; eauto.
Qed.

(** Quotient: X <= T \\ S and S || X <= T. *)
Theorem across_quotient x t s d1 x1 q1 d2 c2 t2 d3 s3 : beside x (XQuot t s) d1 x1 q1 -> beside (XPar s x) t d2 c2 t2 -> placed s d3 s3 ->
  has_quotient t && has_quotient s = false -> has_quotient s && has_quotient x = false -> alphabets_fit x1 q1 -> (forall k, is_input x1 k -> is_input t2 k \/ is_output s3 k) ->
  deterministic d3 s3 -> accepting d3 s3 -> can_start d3 s3 -> deterministic d1 x1 ->
  (lively d1 x1 (is_output q1) -> refines d1 x1 q1 -> refines d2 c2 t2) /\
  (no_gaps d3 s3 -> deterministic d2 t2 -> accepting d1 x1 -> can_start d1 x1 -> io_disjoint q1 -> refines d2 c2 t2 -> refines d1 x1 q1).
Proof.
  intros B1 B2 P3 Hq Hq' Fit Hx DS AS CS DX. destruct (beside_placed _ _ _ _ _ _ B1) as [Px Pq]. destruct (beside_placed _ _ _ _ _ _ B2) as [Pc Pt].
  destruct (beside_quot _ _ _ _ _ _ _ B1) as (t1 & s1 & q & C1 & C2 & C3 & E). destruct (beside_placed _ _ _ _ _ _ C3) as [Pt1 Ps1].
  destruct (placed_comp _ _ _ _ _ Pc) as (s2 & x2 & D & Ec). destruct (beside_placed _ _ _ _ _ _ D) as [Ps2 Px2].
  pose proof (SM s _ _ _ _ P3 Ps1) as Ss. pose proof (SM t _ _ _ _ Pt Pt1) as St. pose proof (SM s _ _ _ _ Ps2 Ps1) as Ss2. pose proof (SM x _ _ _ _ Px2 Px) as Sx2.
  assert (Ex : exists c1, composition_new s1 x1 = Ok c1).
  { apply comp_total. intros k [H1 H2]. assert (N : ~ (is_output s2 k /\ is_output x2 k)) by apply (comp_alphabet s2 x2 c2 Ec k). apply N. split; [apply Ss2, H1|apply Sx2, H2]. }
  destruct Ex as [c1 Ec1]. pose proof (beside_sym _ _ _ _ _ _ C2) as C2'. pose proof (comp_placed _ _ _ _ _ _ _ C2' Ec1) as Pc1.
  pose proof (SM (XPar s x) _ _ _ _ Pc Pc1) as Sc. pose proof (beside_separate _ _ _ _ _ _ C3 Hq) as Sp. pose proof (beside_separate _ _ _ _ _ _ C2' Hq') as Sp'.
  rewrite (same_refines _ _ _ _ _ _ Sc St). pose proof (quotient_new_inv t1 s1 q q1 E) as (n & i & o & Eq & _ & _ & Nt & Ns & _ & _). subst q1.
  assert (DS' : deterministic d1 s1) by (eapply same_deterministic; [apply same_sym, Ss|exact DS]). assert (AS' : accepting d1 s1) by exact (same_accepting _ _ _ _ Ss AS). assert (CS' : can_start d1 s1) by exact (same_start _ _ _ _ Ss CS).
  split.
  - intros Lv R. apply (quot_to_comp d1 t1 s1 i o n q (GD _ _ _ Pt1) (GD _ _ _ Ps1) (GD _ _ _ Pq) Sp E x1 c1 (GD _ _ _ Px) Sp' Ec1 Fit DS' AS' CS' DX Lv); [|exact R].
    intros H. destruct (Hx n H) as [H1|H1]; [apply Nt; apply (proj1 St n), H1|apply Ns; apply (proj1 (proj2 Ss) n), H1].
  - intros NG DT AX CX IQ R.
    assert (NS : no_gaps d1 s1). { destruct (placed_rel load s d3 s3 d1 s1 Ld P3 Ps1) as (rho & q0 & RN & J & S & C & D3 & D1). eapply gaps_rel; eauto. }
    apply (comp_to_quot d1 t1 s1 i o n q (GD _ _ _ Pt1) (GD _ _ _ Ps1) (GD _ _ _ Pq) Sp E x1 c1 (GD _ _ _ Px) Sp' Ec1 Fit DS' AS' NS); auto.
    eapply same_deterministic; [apply same_sym, St|exact DT].
Qed.

(** Order and grouping. *)
Theorem across_conj_order a b d s t : beside (XConj a b) (XConj b a) d s t -> has_quotient a && has_quotient b = false -> can_start d s -> refines d s t.
Proof.
  intros B Hq St. destruct (beside_placed _ _ _ _ _ _ B) as [Ps Pt]. destruct (placed_conj _ _ _ _ _ Ps) as (a1 & b1 & C & E). destruct (beside_placed _ _ _ _ _ _ C) as [Pa Pb].
  destruct (conj_total a1 b1 s E) as [t' E']. pose proof (beside_separate _ _ _ _ _ _ C Hq) as Sp. pose proof (conj_placed _ _ _ _ _ _ _ (beside_sym _ _ _ _ _ _ C) E') as Pt'.
  apply (same_refines _ _ _ _ _ _ (same_refl d s) (SM _ _ _ _ _ Pt' Pt)). apply (conj_comm d a1 b1 s t'); eauto. apply start_able, St.
Qed.
Theorem across_comp_order a b d s t : beside (XPar a b) (XPar b a) d s t -> has_quotient a && has_quotient b = false -> can_start d s -> refines d s t.
Proof.
  intros B Hq St. destruct (beside_placed _ _ _ _ _ _ B) as [Ps Pt]. destruct (placed_comp _ _ _ _ _ Ps) as (a1 & b1 & C & E). destruct (beside_placed _ _ _ _ _ _ C) as [Pa Pb].
  destruct (comp_total b1 a1) as [t' E']; [intros k [H1 H2]; assert (N : ~ (is_output a1 k /\ is_output b1 k)) by apply (comp_alphabet a1 b1 s E k); apply N; auto|].
  pose proof (beside_separate _ _ _ _ _ _ C Hq) as Sp. pose proof (comp_placed _ _ _ _ _ _ _ (beside_sym _ _ _ _ _ _ C) E') as Pt'.
  apply (same_refines _ _ _ _ _ _ (same_refl d s) (SM _ _ _ _ _ Pt' Pt)). apply (comp_comm d a1 b1 s t'); eauto. apply start_able, St.
Qed.

Lemma conj3 a b c d s : placed (XConj (XConj a b) c) d s -> exists a1 b1 c1 ab, beside a b d a1 b1 /\ beside a c d a1 c1 /\ beside b c d b1 c1 /\ conjunction_new a1 b1 = Ok ab /\ conjunction_new ab c1 = Ok s /\ placed (XConj a b) d ab /\
  (forall bc, conjunction_new b1 c1 = Ok bc -> placed (XConj b c) d bc) /\ (forall bc s2, conjunction_new b1 c1 = Ok bc -> conjunction_new a1 bc = Ok s2 -> placed (XConj a (XConj b c)) d s2).
Proof.
  intros (q & r & D & P & A). destruct r as [x|l r|l r|l r p]; pose proof (pl_inst _ _ _ _ _ P) as I; cbn [instance_of] in I; try contradiction. destruct I as [I1 I2].
  destruct (place_part load (XConj a b) c d q l r (RConj l r) _ eq_refl (fun p H => H) I1 I2 P) as (P1 & P2 & Dj). apply assembled_inv in A. destruct A as (ab & c1 & Al & Ac & E).
  destruct l as [x|l m|l m|l m p]; cbn [instance_of] in I1; try contradiction. destruct I1 as [Ia Ib].
  destruct (place_part load a b d q l m (RConj l m) _ eq_refl (fun p H => H) Ia Ib P1) as (Pa & Pb & Dj'). apply assembled_inv in Al. destruct Al as (a1 & b1 & Aa & Ab & E').
  unfold all_numbers in Dj. cbn [components] in Dj. rewrite flat_map_app in Dj.
  assert (D1 : forall x, In x (all_numbers l) -> ~ In x (all_numbers r)) by (intros x Hx; apply Dj, in_or_app; left; exact Hx). assert (D2 : forall x, In x (all_numbers m) -> ~ In x (all_numbers r)) by (intros x Hx; apply Dj, in_or_app; right; exact Hx).
  assert (Bbc : beside b c d b1 c1) by (exists q, m, r; auto 10). assert (Bab : beside a b d a1 b1) by (exists q, l, m; auto 10).
  exists a1, b1, c1, ab. split; [exact Bab|]. split; [exists q, l, r; auto 10|]. split; [exact Bbc|]. split; [exact E'|]. split; [exact E|].
  split; [eapply conj_placed; eauto|]. split; [intros bc Eb; eapply conj_placed; eauto|].
  intros bc s2 Eb Es. eapply conj_placed; [|exact Es]. exists q, l, (RConj m r). split; [exact D|]. split; [exact Pa|]. split; [|split; [|split; [exact Aa|econstructor; eauto]]].
  - eapply place_op; [exact Pb|exact P2|exact D2| |reflexivity|]; [split; assumption|]. intros p Hp. apply in_app_or in Hp. destruct Hp; [apply Pb|apply P2]; assumption.
  - intros x Hx Hy. unfold all_numbers in Hy. cbn [components] in Hy. rewrite flat_map_app in Hy. apply in_app_or in Hy. destruct Hy as [Hy|Hy]; [apply (Dj' x Hx Hy)|apply (D1 x Hx Hy)].
Qed.

Lemma comp3 a b c d s : placed (XPar (XPar a b) c) d s -> exists a1 b1 c1 ab, beside a b d a1 b1 /\ beside a c d a1 c1 /\ beside b c d b1 c1 /\ composition_new a1 b1 = Ok ab /\ composition_new ab c1 = Ok s /\ placed (XPar a b) d ab /\
  (forall bc, composition_new b1 c1 = Ok bc -> placed (XPar b c) d bc) /\ (forall bc s2, composition_new b1 c1 = Ok bc -> composition_new a1 bc = Ok s2 -> placed (XPar a (XPar b c)) d s2).
Proof.
  intros (q & r & D & P & A). destruct r as [x|l r|l r|l r p]; pose proof (pl_inst _ _ _ _ _ P) as I; cbn [instance_of] in I; try contradiction. destruct I as [I1 I2].
  destruct (place_part load (XPar a b) c d q l r (RComp l r) _ eq_refl (fun p H => H) I1 I2 P) as (P1 & P2 & Dj). apply assembled_inv in A. destruct A as (ab & c1 & Al & Ac & E).
  destruct l as [x|l m|l m|l m p]; cbn [instance_of] in I1; try contradiction. destruct I1 as [Ia Ib].
  destruct (place_part load a b d q l m (RComp l m) _ eq_refl (fun p H => H) Ia Ib P1) as (Pa & Pb & Dj'). apply assembled_inv in Al. destruct Al as (a1 & b1 & Aa & Ab & E').
  unfold all_numbers in Dj. cbn [components] in Dj. rewrite flat_map_app in Dj.
  assert (D1 : forall x, In x (all_numbers l) -> ~ In x (all_numbers r)) by (intros x Hx; apply Dj, in_or_app; left; exact Hx). assert (D2 : forall x, In x (all_numbers m) -> ~ In x (all_numbers r)) by (intros x Hx; apply Dj, in_or_app; right; exact Hx).
  assert (Bbc : beside b c d b1 c1) by (exists q, m, r; auto 10). assert (Bab : beside a b d a1 b1) by (exists q, l, m; auto 10).
  exists a1, b1, c1, ab. split; [exact Bab|]. split; [exists q, l, r; auto 10|]. split; [exact Bbc|]. split; [exact E'|]. split; [exact E|].
  split; [eapply comp_placed; eauto|]. split; [intros bc Eb; eapply comp_placed; eauto|].
  intros bc s2 Eb Es. eapply comp_placed; [|exact Es]. exists q, l, (RComp m r). split; [exact D|]. split; [exact Pa|]. split; [|split; [|split; [exact Aa|econstructor; eauto]]].
  - eapply place_op; [exact Pb|exact P2|exact D2| |reflexivity|]; [split; assumption|]. intros p Hp. apply in_app_or in Hp. destruct Hp; [apply Pb|apply P2]; assumption.
  - intros x Hx Hy. unfold all_numbers in Hy. cbn [components] in Hy. rewrite flat_map_app in Hy. apply in_app_or in Hy. destruct Hy as [Hy|Hy]; [apply (Dj' x Hx Hy)|apply (D1 x Hx Hy)].
Qed.

Lemma conj_total_iff A B : (forall k, is_input A k -> ~ is_output B k) -> (forall k, is_output A k -> ~ is_input B k) -> exists s, conjunction_new A B = Ok s.
Proof.
  intros H1 H2. unfold conjunction_new. replace (disjoint (ts_inputs A) (ts_outputs B)) with true by (symmetry; apply disjoint_spec; intros k X Y; apply (H1 k X Y)).
  replace (disjoint (ts_outputs A) (ts_inputs B)) with true by (symmetry; apply disjoint_spec; intros k X Y; apply (H2 k X Y)). eexists. reflexivity.
Qed.
Theorem across_conj_grouping a b c d s t : beside (XConj (XConj a b) c) (XConj a (XConj b c)) d s t ->
  has_quotient a && has_quotient b = false -> has_quotient a && has_quotient c = false -> has_quotient b && has_quotient c = false ->
  can_start d s -> refines d s t /\ refines d t s.
Proof.
  intros B Q1 Q2 Q3 St. destruct (beside_placed _ _ _ _ _ _ B) as [Ps Pt]. destruct (conj3 _ _ _ _ _ Ps) as (a1 & b1 & c1 & ab & B1 & B2 & B3 & E1 & E2 & Pab & Hbc & Hs).
  destruct (beside_placed _ _ _ _ _ _ B1) as [Pa Pb]. destruct (beside_placed _ _ _ _ _ _ B3) as [_ Pc].
  destruct (placed_conj _ _ _ _ _ Pt) as (a2 & bc2 & C1 & F1). destruct (beside_placed _ _ _ _ _ _ C1) as [Pa2 Pbc2]. destruct (placed_conj _ _ _ _ _ Pbc2) as (b2 & c2 & C2 & F2). destruct (beside_placed _ _ _ _ _ _ C2) as [Pb2 Pc2].
  pose proof (SM _ _ _ _ _ Pa2 Pa) as (Ia & Oa & _). pose proof (SM _ _ _ _ _ Pb2 Pb) as (Ib & Ob & _). pose proof (SM _ _ _ _ _ Pc2 Pc) as (Ic & Oc & _).
  destruct (conj_total_iff b1 c1) as [bc Eb].
  { intros k. rewrite Ib, Oc. apply (conjunction_new_inv b2 c2 bc2 F2). } { intros k. rewrite Ob, Ic. apply (conjunction_new_inv b2 c2 bc2 F2). }
  destruct (conj_total_iff a1 bc) as [s2 Es].
  { intros k Hk Hb. apply (conj_alphabet b1 c1 bc Eb) in Hb. destruct (conjunction_new_inv a1 b1 ab E1) as (_ & X & _). apply (X k Hk), Hb. }
  { intros k Hk Hb. apply (conj_alphabet b1 c1 bc Eb) in Hb. destruct (conjunction_new_inv a1 b1 ab E1) as (_ & _ & X). apply (X k Hk), Hb. }
  pose proof (beside_separate _ _ _ _ _ _ B1 Q1) as S1. pose proof (beside_separate _ _ _ _ _ _ B2 Q2) as S2. pose proof (beside_separate _ _ _ _ _ _ B3 Q3) as S3.
  pose proof (proj1 (conjunction_new_inv _ _ _ E1)) as Xab. pose proof (proj1 (conjunction_new_inv _ _ _ Eb)) as Xbc.
  assert (R : refines d s s2 /\ refines d s2 s).
  { apply (conj_assoc d a1 b1 c1 ab bc); eauto.
    - rewrite Xab. intros x Hx. cbn [sys_clocks] in Hx. apply in_app_or in Hx. destruct Hx; auto.
    - rewrite Xbc. intros x Hx Hc. cbn [sys_clocks] in Hc. apply in_app_or in Hc. destruct Hc; [eapply S1|eapply S2]; eauto.
    - rewrite Xab. cbn [sys_clocks]. split; intros; apply in_or_app; auto.
    - rewrite Xbc. cbn [sys_clocks]. split; intros; apply in_or_app; auto.
    - apply start_able, St. }
  pose proof (SM _ _ _ _ _ (Hs bc s2 Eb Es) Pt) as S. split; [apply (same_refines _ _ _ _ _ _ (same_refl d s) S), R|]. apply (same_refines _ _ _ _ _ _ S (same_refl d s)), R.
Qed.
Theorem across_comp_grouping a b c d s t : beside (XPar (XPar a b) c) (XPar a (XPar b c)) d s t ->
  has_quotient a && has_quotient b = false -> has_quotient a && has_quotient c = false -> has_quotient b && has_quotient c = false ->
  can_start d s -> refines d s t /\ refines d t s.
Proof.
  intros B Q1 Q2 Q3 St. destruct (beside_placed _ _ _ _ _ _ B) as [Ps Pt]. destruct (comp3 _ _ _ _ _ Ps) as (a1 & b1 & c1 & ab & B1 & B2 & B3 & E1 & E2 & Pab & Hbc & Hs).
  destruct (beside_placed _ _ _ _ _ _ B1) as [Pa Pb]. destruct (beside_placed _ _ _ _ _ _ B3) as [_ Pc].
  assert (N1 : forall k, ~ (is_output a1 k /\ is_output b1 k)) by (intros k; apply (comp_alphabet a1 b1 ab E1 k)).
  assert (N2 : forall k, ~ ((is_output a1 k \/ is_output b1 k) /\ is_output c1 k)).
  { intros k [H1 H2]. assert (N : ~ (is_output ab k /\ is_output c1 k)) by apply (comp_alphabet ab c1 s E2 k). apply N. split; [|exact H2]. apply (comp_alphabet a1 b1 ab E1 k), H1. }
  destruct (comp_total b1 c1) as [bc Eb]; [intros k [H1 H2]; apply (N2 k); auto|].
  destruct (comp_total a1 bc) as [s2 Es]. { intros k [H1 H2]. apply (comp_alphabet b1 c1 bc Eb k) in H2. destruct H2 as [H2|H2]; [apply (N1 k); auto|apply (N2 k); auto]. }
  pose proof (beside_separate _ _ _ _ _ _ B1 Q1) as S1. pose proof (beside_separate _ _ _ _ _ _ B2 Q2) as S2. pose proof (beside_separate _ _ _ _ _ _ B3 Q3) as S3.
  pose proof (composition_new_inv _ _ _ E1) as (_ & ? & ? & ? & ? & ? & Xab & _). pose proof (composition_new_inv _ _ _ Eb) as (_ & ? & ? & ? & ? & ? & Xbc & _).
  assert (R : refines d s s2 /\ refines d s2 s).
  { apply (comp_assoc d a1 b1 c1 ab bc); eauto.
    - rewrite Xab. intros y Hx. cbn [sys_clocks] in Hx. apply in_app_or in Hx. destruct Hx; auto.
    - rewrite Xbc. intros y Hx Hc. cbn [sys_clocks] in Hc. apply in_app_or in Hc. destruct Hc; [eapply S1|eapply S2]; eauto.
    - rewrite Xab. cbn [sys_clocks]. split; intros; apply in_or_app; auto.
    - rewrite Xbc. cbn [sys_clocks]. split; intros; apply in_or_app; auto.
    - apply start_able, St. }
  pose proof (SM _ _ _ _ _ (Hs bc s2 Eb Es) Pt) as S. split; [apply (same_refines _ _ _ _ _ _ (same_refl d s) S), R|]. apply (same_refines _ _ _ _ _ _ S (same_refl d s)), R.
Qed.
End Laws.
