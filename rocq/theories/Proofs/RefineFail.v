(** The refinement check: what a failure report means. *)
From Coq Require Import List String ZArith QArith Bool Arith Lia Lqa.
From Verif Require Import Fed.Zone Fed.ZoneFacts Model.Base Model.Expr Model.Guard Model.Loc Model.Component Model.TS Model.Search Model.PairList Model.Refine
  Spec.StepSpec Spec.SystemSpec Spec.RunSpec Spec.ReachSpec Spec.RefineSpec
  Proofs.GuardFacts Proofs.StepFacts Proofs.SystemFacts Proofs.QuotientFacts Proofs.WfFacts Proofs.RunFacts Proofs.DetFacts Proofs.PairListFacts Proofs.ReadsFacts
  Proofs.RefineFacts.
Import ListNotations.
Local Open Scope Q_scope.

Lemma run_updates_swap us ws v : (forall u w, In u us -> In w ws -> u_clock u <> u_clock w) ->
  veq (run_updates us (run_updates ws v)) (run_updates ws (run_updates us v)).
Proof.
  intros D i. destruct (in_clocks_dec us i) as [(u & Hu & <-)|H].
  - rewrite (run_updates_out ws (run_updates us v)) by (intros w Hw E; apply (D u w Hu Hw); auto).
    assert (A : agree [u_clock u] (run_updates us (run_updates ws v)) (run_updates us v)).
    { apply agree_updates. intros x [<-|[]]. rewrite run_updates_out; [reflexivity|]. intros w Hw E. apply (D u w Hu Hw); auto. }
    apply A. left. reflexivity.
  - rewrite (run_updates_out us (run_updates ws v)) by exact H.
    assert (A : agree [i] (run_updates ws (run_updates us v)) (run_updates ws v)).
    { apply agree_updates. intros x [<-|[]]. rewrite run_updates_out; [reflexivity|exact H]. }
    symmetry. apply A. left. reflexivity.
Qed.

(** [N l1 l2] relates valuations with which the two systems, being in [l1] and [l2], can do the same; zones are enlarged by related
    valuations only. *)
Record linked (dim : nat) (s1 s2 : ts) (pext : loctree -> loctree -> fed -> fed) (N : loctree -> loctree -> val -> val -> Prop) : Prop := {
  lk_ok : forall l1 l2 v w, N l1 l2 v w -> val_ok dim v /\ val_ok dim w;
  lk_agree : forall l1 l2 v w, In l1 (all_locations dim s1) -> In l2 (all_locations dim s2) -> val_ok dim v -> val_ok dim w ->
    agree (sys_clocks s1 ++ sys_clocks s2) v w -> N l1 l2 v w;
  lk_sym : forall l1 l2 v w, N l1 l2 v w -> N l1 l2 w v;
  lk_trans : forall l1 l2 u v w, N l1 l2 u v -> N l1 l2 v w -> N l1 l2 u w;
  lk_delay : forall l1 l2 v w d, 0 <= d -> N l1 l2 v w -> N l1 l2 (vdelay v d) (vdelay w d);
  lk_inv1 : forall l1 l2 v w, In l1 (all_locations dim s1) -> N l1 l2 v w -> inv_at dim l1 v -> inv_at dim l1 w;
  lk_inv2 : forall l1 l2 v w, In l2 (all_locations dim s2) -> N l1 l2 v w -> inv_at dim l2 v -> inv_at dim l2 w;
  lk_guard1 : forall l1 l2 a t v w, In l1 (all_locations dim s1) -> offered dim s1 l1 a t -> N l1 l2 v w -> fsem dim (t_guard t) v -> fsem dim (t_guard t) w;
  lk_guard2 : forall l1 l2 a t v w, In l2 (all_locations dim s2) -> offered dim s2 l2 a t -> N l1 l2 v w -> fsem dim (t_guard t) v -> fsem dim (t_guard t) w;
  lk_left : forall l1 l2 a t v w, In l1 (all_locations dim s1) -> offered dim s1 l1 a t -> N l1 l2 v w ->
    N (t_target t) l2 (run_updates (t_updates t) v) (run_updates (t_updates t) w);
  lk_right : forall l1 l2 a t v w, In l2 (all_locations dim s2) -> offered dim s2 l2 a t -> N l1 l2 v w ->
    N l1 (t_target t) (run_updates (t_updates t) v) (run_updates (t_updates t) w);
  lk_up : forall l1 l2 f v, In l1 (all_locations dim s1) -> In l2 (all_locations dim s2) -> fsem dim f v -> fsem dim (pext l1 l2 f) v;
  lk_down : forall l1 l2 f v, In l1 (all_locations dim s1) -> In l2 (all_locations dim s2) -> fsem dim (pext l1 l2 f) v -> exists w, fsem dim f w /\ N l1 l2 v w }.

Section Fail.
Variable dim : nat.
Variable pext : loctree -> loctree -> fed -> fed.
Variables s1 s2 : ts.
Variable N : loctree -> loctree -> val -> val -> Prop.
Hypothesis HN : linked dim s1 s2 pext N.
Hypothesis B1 : built dim s1.
Hypothesis B2 : built dim s2.
Variables q1 q2 : nat.
Hypothesis K1 : clocks_ok dim q1 s1.
Hypothesis K2 : clocks_ok dim q2 s2.
Hypothesis R1 : reads_ok s1.
Hypothesis R2 : reads_ok s2.
Hypothesis Sep : separate s1 s2.
Hypothesis Up1 : upper_invariants dim s1.
Hypothesis Up2 : upper_invariants dim s2.

Hypothesis In1 : forall x, In x (sys_clocks s1) -> (x < dim)%nat.
Hypothesis In2 : forall x, In x (sys_clocks s2) -> (x < dim)%nat.

(** Valuations that agree on all clocks of both systems. *)
Definition ag (v w : val) : Prop := val_ok dim v /\ val_ok dim w /\ agree (sys_clocks s1 ++ sys_clocks s2) v w.
Lemma ag_sym v w : ag v w -> ag w v. Proof. intros (A & B & C). split; [exact B|]. split; [exact A|]. apply agree_sym. exact C. Qed.
Lemma ag_1 v w : ag v w -> agree (sys_clocks s1) v w. Proof. intros (_ & _ & C). apply agree_app in C. apply C. Qed.
Lemma ag_2 v w : ag v w -> agree (sys_clocks s2) v w. Proof. intros (_ & _ & C). apply agree_app in C. apply C. Qed.
Lemma ag_veq u v w : veq u v -> ag v w -> ag u w.
Proof. intros E (A & B & C). split; [eapply val_ok_ext; [symmetry; exact E|exact A]|]. split; [exact B|]. intros x Hx. rewrite (E x). auto. Qed.
Lemma ag_inv1 l v w : In l (all_locations dim s1) -> ag v w -> inv_at dim l v -> inv_at dim l w.
Proof. intros L A. apply (locations_dep dim s1 B1 R1 l L v w); try apply A. apply ag_1. exact A. Qed.
Lemma ag_inv2 l v w : In l (all_locations dim s2) -> ag v w -> inv_at dim l v -> inv_at dim l w.
Proof. intros L A. apply (locations_dep dim s2 B2 R2 l L v w); try apply A. apply ag_2. exact A. Qed.
Lemma ag_delay v w d : 0 <= d -> ag v w -> ag (vdelay v d) (vdelay w d).
Proof.
  intros Hd (A & B & C). split; [apply vdelay_ok; assumption|]. split; [apply vdelay_ok; assumption|]. apply agree_delay; [|exact C].
  right. destruct A as [A _], B as [B _]. rewrite A, B. reflexivity.
Qed.
Lemma ag_updates us v w : updates_ok dim us -> ag v w -> ag (run_updates us v) (run_updates us w).
Proof. intros U (A & B & C). split; [apply run_updates_ok; assumption|]. split; [apply run_updates_ok; assumption|]. apply agree_updates. exact C. Qed.

Lemma ag_N l1 l2 v w : In l1 (all_locations dim s1) -> In l2 (all_locations dim s2) -> ag v w -> N l1 l2 v w.
Proof. intros L1 L2 (A & B & C). apply (lk_agree _ _ _ _ _ HN); assumption. Qed.
Lemma N_veq l1 l2 u v w : In l1 (all_locations dim s1) -> In l2 (all_locations dim s2) -> veq u v -> N l1 l2 v w -> N l1 l2 u w.
Proof.
  intros L1 L2 E H. destruct (lk_ok _ _ _ _ _ HN _ _ _ _ H) as [V _]. apply (lk_trans _ _ _ _ _ HN _ _ u v w); [|exact H].
  apply (lk_agree _ _ _ _ _ HN); auto; [eapply val_ok_ext; [symmetry; exact E|exact V]|]. intros x _. apply E.
Qed.
(** A valuation in the zone of the pair agrees with [v]. *)
Definition seen (p : pair) (v : val) : Prop := exists w, fsem dim (p_zone p) w /\ agree (sys_clocks s1 ++ sys_clocks s2) w v.
Definition real (p : pair) : Prop := in_range dim s1 s2 p /\
  forall v, fsem dim (p_zone p) v -> exists v', N (p_l1 p) (p_l2 p) v v' /\ together dim s1 s2 (p_l1 p) (p_l2 p) v' /\ seen p v'.

Lemma past l w d e : past_closed dim l -> val_ok dim w -> 0 <= e -> e <= d -> inv_at dim l (vdelay w d) -> inv_at dim l (vdelay w e).
Proof.
  intros P V He Hd H. apply (P (vdelay w e) (d - e)); [apply vdelay_ok; assumption|lra|].
  eapply inv_at_ext; [|exact H]. rewrite vdelay_add. apply vdelay_ext; [apply veq_refl|ring].
Qed.

(** How a pair of moves came about. *)
Inductive moves (a : string) (l1 l2 : loctree) (v : val) : loctree -> loctree -> val -> Prop :=
| mv_both t1 t2 : is_output s1 a /\ is_output s2 a \/ is_input s1 a /\ is_input s2 a -> offered dim s1 l1 a t1 -> offered dim s2 l2 a t2 ->
    fsem dim (t_guard t1) v -> fsem dim (t_guard t2) v ->
    moves a l1 l2 v (t_target t1) (t_target t2) (run_updates (t_updates t1 ++ t_updates t2) v)
| mv_left t1 : is_output s1 a -> ~ is_output s2 a -> offered dim s1 l1 a t1 -> fsem dim (t_guard t1) v ->
    moves a l1 l2 v (t_target t1) l2 (run_updates (t_updates t1) v)
| mv_right t2 : is_input s2 a -> ~ is_input s1 a -> offered dim s2 l2 a t2 -> fsem dim (t_guard t2) v ->
    moves a l1 l2 v l1 (t_target t2) (run_updates (t_updates t2) v).

Lemma foreign1 t v : touches (sys_clocks s1) t -> agree (sys_clocks s2) (run_updates (t_updates t) v) v.
Proof. intros T. apply agree_foreign. intros u Hu C. exact (Sep _ (T u Hu) C). Qed.
Lemma foreign2 t v : touches (sys_clocks s2) t -> agree (sys_clocks s1) (run_updates (t_updates t) v) v.
Proof. intros T. apply agree_foreign. intros u Hu C. exact (Sep _ C (T u Hu)). Qed.

Lemma together_range l1 l2 v : together dim s1 s2 l1 l2 v ->
  In l1 (all_locations dim s1) /\ In l2 (all_locations dim s2) /\ inv_at dim l1 v /\ inv_at dim l2 v.
Proof.
  induction 1 as [l1 l2 E1 E2 I1 I2|l1 l2 v d T IH Hd Hi|l1 l2 v a t1 t2 T IH Ac O1 O2 Ab1 Ab2|l1 l2 v a t1 T IH Ao No O1 Ab1|l1 l2 v a t2 T IH Ai Ni O2 Ab2].
  - split; [apply (initial_wf dim s1 B1); exact E1|]. split; [apply (initial_wf dim s2 B2); exact E2|]. auto.
  - destruct IH as (L1 & L2 & _). split; [exact L1|]. split; [exact L2|]. apply Hi; [exact Hd|apply Qle_refl].
  - destruct IH as (L1 & L2 & I1 & I2). pose proof (inv_at_ok _ _ _ I1) as V.
    destruct (offered_dep dim q1 s1 l1 a t1 B1 R1 K1 L1 O1) as ([U1 C1] & T1 & Tch1 & _).
    destruct (offered_dep dim q2 s2 l2 a t2 B2 R2 K2 L2 O2) as ([U2 C2] & T2 & Tch2 & _).
    rewrite run_updates_app. set (w := run_updates (t_updates t2) (run_updates (t_updates t1) v)).
    assert (Wok : val_ok dim w) by (apply run_updates_ok; [exact U2|apply run_updates_ok; assumption]).
    split; [exact T1|]. split; [exact T2|]. split.
    + apply (locations_dep dim s1 B1 R1 _ T1 (run_updates (t_updates t1) v) w); [apply run_updates_ok; assumption|exact Wok|apply agree_sym, foreign2; exact Tch2|apply Ab1].
    + apply (locations_dep dim s2 B2 R2 _ T2 (run_updates (t_updates t2) v) w); [apply run_updates_ok; assumption|exact Wok|apply agree_updates, agree_sym, foreign1; exact Tch1|apply Ab2].
  - destruct IH as (L1 & L2 & I1 & I2). pose proof (inv_at_ok _ _ _ I1) as V.
    destruct (offered_dep dim q1 s1 l1 a t1 B1 R1 K1 L1 O1) as ([U1 C1] & T1 & Tch1 & _).
    split; [exact T1|]. split; [exact L2|]. split; [apply Ab1|].
    apply (locations_dep dim s2 B2 R2 _ L2 v); [exact V|apply run_updates_ok; assumption|apply agree_sym, foreign1; exact Tch1|exact I2].
  - destruct IH as (L1 & L2 & I1 & I2). pose proof (inv_at_ok _ _ _ I1) as V.
    destruct (offered_dep dim q2 s2 l2 a t2 B2 R2 K2 L2 O2) as ([U2 C2] & T2 & Tch2 & _).
    split; [exact L1|]. split; [exact T2|]. split; [|apply Ab2].
    apply (locations_dep dim s1 B1 R1 _ L1 v); [exact V|apply run_updates_ok; assumption|apply agree_sym, foreign2; exact Tch2|exact I1].
Qed.
Lemma together_inv l1 l2 v : together dim s1 s2 l1 l2 v -> inv_at dim l1 v /\ inv_at dim l2 v.
Proof. intros T. apply (together_range l1 l2 v T). Qed.

Lemma moves_able a l1 l2 v l1' l2' w : In l1 (all_locations dim s1) -> In l2 (all_locations dim s2) ->
  inv_at dim l1 v -> inv_at dim l2 v -> moves a l1 l2 v l1' l2' w ->
  val_ok dim w /\ In l1' (all_locations dim s1) /\ In l2' (all_locations dim s2) /\
  (inv_at dim l1' w -> inv_at dim l2' w -> together dim s1 s2 l1 l2 v -> together dim s1 s2 l1' l2' w) /\
  (enters_inside dim s2 -> inv_at dim l2' w) /\
  (inv_at dim l1' w -> inv_at dim l2' w -> outlasts dim l1' l2' w -> cuts_delay dim s1 s2 a l1 l2 v).
Proof.
  intros L1 L2 I1 I2 M. pose proof (inv_at_ok _ _ _ I1) as V. destruct M as [t1 t2 Ac O1 O2 G1 G2|t1 A1 A2 O1 G1|t2 A2 A1 O2 G2].
  - destruct (offered_dep dim q1 s1 l1 a t1 B1 R1 K1 L1 O1) as ([U1 C1] & T1 & Tch1 & _ & Dep1).
    destruct (offered_dep dim q2 s2 l2 a t2 B2 R2 K2 L2 O2) as ([U2 C2] & T2 & Tch2 & _ & Dep2).
    rewrite run_updates_app. set (w := run_updates (t_updates t2) (run_updates (t_updates t1) v)).
    assert (Wok : val_ok dim w) by (apply run_updates_ok; [exact U2|apply run_updates_ok; assumption]).
    assert (W1 : agree (sys_clocks s1) w (run_updates (t_updates t1) v)) by (apply foreign2; exact Tch2).
    assert (W2 : agree (sys_clocks s2) w (run_updates (t_updates t2) v)) by (apply agree_updates, foreign1; exact Tch1).
    pose proof (locations_dep dim s1 B1 R1 _ T1) as J1. pose proof (locations_dep dim s2 B2 R2 _ T2) as J2.
    assert (X1 : inv_at dim (t_target t1) w -> able dim l1 t1 v).
    { intros H. split; [exact I1|]. split; [exact G1|]. apply (J1 w); auto using run_updates_ok. }
    assert (X2 : inv_at dim (t_target t2) w -> able dim l2 t2 v).
    { intros H. split; [exact I2|]. split; [exact G2|]. apply (J2 w); auto using run_updates_ok. }
    split; [exact Wok|]. split; [exact T1|]. split; [exact T2|]. split; [|split].
    + intros H1 H2 Tg. unfold w. rewrite <- run_updates_app. apply (tg_both dim s1 s2 l1 l2 v a t1 t2); auto.
    + intros En. apply (J2 (run_updates (t_updates t2) v)); [apply run_updates_ok; assumption|exact Wok|apply agree_sym; exact W2|]. apply (En l2 a t2 v L2 O2 G2).
    + intros H1 H2 Ol. left. exists t1, t2. rewrite run_updates_app. auto 10.
  - destruct (offered_dep dim q1 s1 l1 a t1 B1 R1 K1 L1 O1) as ([U1 C1] & T1 & Tch1 & _ & Dep1).
    set (w := run_updates (t_updates t1) v). assert (Wok : val_ok dim w) by (apply run_updates_ok; assumption).
    assert (I2w : inv_at dim l2 w).
    { apply (locations_dep dim s2 B2 R2 l2 L2 v w); auto. apply agree_sym, foreign1. exact Tch1. }
    assert (X1 : inv_at dim (t_target t1) w -> able dim l1 t1 v) by (intros H; split; [exact I1|split; [exact G1|exact H]]).
    split; [exact Wok|]. split; [exact T1|]. split; [exact L2|]. split; [|split].
    + intros H1 H2 Tg. apply (tg_left dim s1 s2 l1 l2 v a t1); auto.
    + intros _. exact I2w.
    + intros H1 H2 Ol. right; left. exists t1. auto 10.
  - destruct (offered_dep dim q2 s2 l2 a t2 B2 R2 K2 L2 O2) as ([U2 C2] & T2 & Tch2 & _ & Dep2).
    set (w := run_updates (t_updates t2) v). assert (Wok : val_ok dim w) by (apply run_updates_ok; assumption).
    assert (I1w : inv_at dim l1 w).
    { apply (locations_dep dim s1 B1 R1 l1 L1 v w); auto. apply agree_sym, foreign2. exact Tch2. }
    assert (X2 : inv_at dim (t_target t2) w -> able dim l2 t2 v) by (intros H; split; [exact I2|split; [exact G2|exact H]]).
    split; [exact Wok|]. split; [exact L1|]. split; [exact T2|]. split; [|split].
    + intros H1 H2 Tg. apply (tg_right dim s1 s2 l1 l2 v a t2); auto.
    + intros En. apply (En l2 a t2 v L2 O2 G2).
    + intros H1 H2 Ol. right; right. exists t2. auto 10.
Qed.

(** *** Building pairs *)
Definition cut_at (a : string) (cur : pair) : Prop :=
  exists v, together dim s1 s2 (p_l1 cur) (p_l2 cur) v /\ seen cur v /\ (enters_inside dim s2 -> cuts_delay dim s1 s2 a (p_l1 cur) (p_l2 cur) v).

(** What is needed of the two transitions with which the next pair is made. *)
Definition good_moves (a : string) (cur : pair) (is1 : bool) (t1 t2 : transition) : Prop :=
  let l1 := if is1 then t_target t1 else t_target t2 in let l2 := if is1 then t_target t2 else t_target t1 in
  updates_ok dim (t_updates t1) /\ updates_ok dim (t_updates t2) /\
  In l1 (all_locations dim s1) /\ In l2 (all_locations dim s2) /\
  (forall v w, N (p_l1 cur) (p_l2 cur) v w -> fsem dim (t_guard t1) v -> fsem dim (t_guard t1) w) /\
  (forall v w, N (p_l1 cur) (p_l2 cur) v w -> fsem dim (t_guard t2) v -> fsem dim (t_guard t2) w) /\
  (forall v w, N (p_l1 cur) (p_l2 cur) v w ->
     N l1 l2 (run_updates (t_updates t2) (run_updates (t_updates t1) v)) (run_updates (t_updates t2) (run_updates (t_updates t1) w))) /\
  (forall v, fsem dim (t_guard t1) v -> fsem dim (t_guard t2) v ->
    exists w, veq w (run_updates (t_updates t2) (run_updates (t_updates t1) v)) /\ moves a (p_l1 cur) (p_l2 cur) v l1 l2 w).

Lemma build_pair_real a t1 t2 (cur : pair) (is1 : bool) (c : ctx) : real cur -> good_moves a cur is1 t1 t2 ->
  match build_pair dim pext t1 t2 cur is1 c with
  | Some c' => forall p, In p (w_queue (snd c')) -> In p (w_queue (snd c)) \/ real p
  | None => cut_at a cur
  end.
Proof.
  intros [[Rg1 Rg2] Re] Gm. unfold good_moves in Gm. unfold build_pair.
  set (l1 := if is1 then t_target t1 else t_target t2) in *. set (l2 := if is1 then t_target t2 else t_target t1) in *.
  destruct Gm as (U1 & U2 & T1 & T2 & Gd1 & Gd2 & Upd & Mv).
  set (z0 := apply_guards dim t2 (apply_guards dim t1 (p_zone cur))).
  set (zu := fup dim (apply_updates dim (t_updates t2) (apply_updates dim (t_updates t1) z0))).
  assert (ZU : forall u, fsem dim zu u -> exists v w d, inv_at dim (p_l1 cur) v /\ inv_at dim (p_l2 cur) v /\ (together dim s1 s2 (p_l1 cur) (p_l2 cur) v /\ seen cur v) /\
     moves a (p_l1 cur) (p_l2 cur) v l1 l2 w /\ 0 <= d /\ N l1 l2 u (vdelay w d) /\ exists u', fsem dim zu u' /\ ag u' (vdelay w d)).
  { intros u Hu. apply fup_sem' in Hu. destruct Hu as (w0 & d & Hd & Hw & Eu).
    apply apply_updates_sem in Hw; [|exact U2]. destruct Hw as (w1 & Hw & E1).
    apply apply_updates_sem in Hw; [|exact U1]. destruct Hw as (v & Hv & E2).
    unfold z0 in Hv. rewrite !apply_guards_sem in Hv. destruct Hv as (G2 & G1 & Z).
    destruct (Re v Z) as (v' & Ev & T & v2 & Z2 & A2). destruct (lk_ok _ _ _ _ _ HN _ _ _ _ Ev) as [Vok Vok'].
    pose proof (Gd1 v v' Ev G1) as G1'. pose proof (Gd2 v v' Ev G2) as G2'.
    assert (Ag2 : ag v2 v') by (split; [eapply fsem_ok; exact Z2|split; [exact Vok'|exact A2]]).
    pose proof (ag_N _ _ _ _ Rg1 Rg2 (ag_sym _ _ Ag2)) as N2.
    destruct (Mv v' G1' G2') as (w & Ew & M). destruct (together_inv _ _ _ T) as [I1 I2].
    exists v', w, d. split; [exact I1|]. split; [exact I2|]. split; [split; [exact T|exists v2; auto]|]. split; [exact M|]. split; [exact Hd|].
    assert (Wok : val_ok dim w).
    { eapply val_ok_ext; [symmetry; exact Ew|]. apply run_updates_ok; [exact U2|]. apply run_updates_ok; assumption. }
    split.
    - assert (X : veq u (vdelay (run_updates (t_updates t2) (run_updates (t_updates t1) v)) d)).
      { rewrite Eu. apply vdelay_ext; [|reflexivity]. rewrite E1. apply run_updates_ext. exact E2. }
      apply (N_veq l1 l2 u _ _ T1 T2 X). apply (lk_delay _ _ _ _ _ HN); [exact Hd|].
      apply (lk_sym _ _ _ _ _ HN). apply (N_veq l1 l2 w _ _ T1 T2 Ew). apply (lk_sym _ _ _ _ _ HN). apply Upd. exact Ev.
    - exists (vdelay (run_updates (t_updates t2) (run_updates (t_updates t1) v2)) d). split.
      + apply fup_sem'. exists (run_updates (t_updates t2) (run_updates (t_updates t1) v2)), d. split; [exact Hd|]. split; [|apply veq_refl].
        apply apply_updates_sem; [exact U2|]. exists (run_updates (t_updates t1) v2). split; [|apply veq_refl].
        apply apply_updates_sem; [exact U1|]. exists v2. split; [|apply veq_refl]. unfold z0. rewrite !apply_guards_sem.
        split; [apply (Gd2 v' v2 N2 G2')|]. split; [apply (Gd1 v' v2 N2 G1')|exact Z2].
      + apply ag_delay; [exact Hd|]. apply ag_sym. apply (ag_veq w (run_updates (t_updates t2) (run_updates (t_updates t1) v'))); [exact Ew|].
        apply ag_updates; [exact U2|]. apply ag_updates; [exact U1|]. apply ag_sym. exact Ag2. }
  destruct (fempty dim z0); [auto|].
  destruct (fempty dim (apply_inv dim l2 (apply_inv dim l1 zu)) || fempty dim (apply_inv dim l1 zu)); [auto|].
  destruct (fsubset dim (apply_inv dim l1 zu) (fdown (apply_inv dim l2 (apply_inv dim l1 zu)))) eqn:E2; cbn [negb].
  - set (p := mkP l1 l2 (pext l1 l2 (apply_inv dim l2 (apply_inv dim l1 zu)))).
    destruct (negb (passed_has dim p (fst c)) && negb (waiting_has dim p (snd c))); [|auto].
    cbn [snd waiting_put w_queue]. intros x [<-|Hx]; [|auto]. right.
    split; [split; assumption|]. cbn [p_l1 p_l2 p_zone p]. intros u0 Hu0. destruct (lk_down _ _ _ _ _ HN l1 l2 _ u0 T1 T2 Hu0) as (u & Hu & Nu).
    apply apply_inv_sem in Hu. destruct Hu as [Hu I2]. apply apply_inv_sem in Hu. destruct Hu as [Hu I1].
    destruct (ZU u Hu) as (v & w & d & J1 & J2 & [T _] & M & Hd & Eu & u' & Hu' & Au').
    destruct (moves_able a _ _ _ _ _ _ Rg1 Rg2 J1 J2 M) as (Wok & _ & _ & Tg & _ & _).
    pose proof (lk_inv1 _ _ _ _ _ HN l1 l2 _ _ T1 Eu I1) as Iw1. pose proof (lk_inv2 _ _ _ _ _ HN l1 l2 _ _ T2 Eu I2) as Iw2.
    assert (D1 : forall e, 0 <= e -> e <= d -> inv_at dim l1 (vdelay w e)) by (intros e H0 H1; apply (past l1 w d e); auto).
    assert (D2 : forall e, 0 <= e -> e <= d -> inv_at dim l2 (vdelay w e)) by (intros e H0 H1; apply (past l2 w d e); auto).
    exists (vdelay w d). split; [eapply (lk_trans _ _ _ _ _ HN); eauto|]. split.
    + apply tg_wait; [|exact Hd|auto].
      assert (Z0 : 0 <= 0) by lra. apply Tg; [| |exact T]; (eapply inv_at_ext; [apply vdelay_zero; reflexivity|]); auto.
    + exists u'. split; [|apply Au']. cbn [p p_zone]. apply (lk_up _ _ _ _ _ HN); [exact T1|exact T2|]. apply apply_inv_sem. split; [apply apply_inv_sem; split; [exact Hu'|]|].
      * eapply ag_inv1; [exact T1|apply ag_sym; exact Au'|exact Iw1].
      * eapply ag_inv2; [exact T2|apply ag_sym; exact Au'|exact Iw2].
  - assert (X : exists u, fsem dim (apply_inv dim l1 zu) u /\ ~ fsem dim (fdown (apply_inv dim l2 (apply_inv dim l1 zu))) u).
    { apply fsubset_false. exact E2. }
    destruct X as (u & Hu & Nd). apply apply_inv_sem in Hu. destruct Hu as [Hu I1].
    destruct (ZU u Hu) as (v & w & d & J1 & J2 & [T Sn] & M & Hd & Eu & _). exists v. split; [exact T|]. split; [exact Sn|]. intros En.
    destruct (moves_able a _ _ _ _ _ _ Rg1 Rg2 J1 J2 M) as (Wok & _ & _ & Tg & Ei & Cu).
    pose proof (lk_inv1 _ _ _ _ _ HN l1 l2 _ _ T1 Eu I1) as Iw1.
    assert (D1 : forall e, 0 <= e -> e <= d -> inv_at dim l1 (vdelay w e)) by (intros e H0 H1; apply (past l1 w d e); auto).
    assert (Z0 : 0 <= 0) by lra.
    apply Cu; [eapply inv_at_ext; [apply vdelay_zero; reflexivity|]; auto|apply Ei; exact En|].
    exists d. split; [exact Hd|]. split; [exact D1|]. intros C. apply Nd. apply fdown_sem.
    split; [eapply inv_at_ok; exact I1|]. exists 0. split; [exact Z0|].
    eapply fsem_ext; [symmetry; apply vdelay_zero; reflexivity|]. apply apply_inv_sem. split; [apply apply_inv_sem; split; assumption|].
    apply (lk_inv2 _ _ _ _ _ HN l1 l2 (vdelay w d) u T2); [apply (lk_sym _ _ _ _ _ HN); exact Eu|exact C].
Qed.

Lemma build_pairs_real a (cur : pair) (is1 : bool) : real cur -> forall ps (c : ctx),
  (forall t1 t2, In (t1, t2) ps -> good_moves a cur is1 t1 t2) ->
  match build_pairs dim pext ps cur is1 c with
  | Some c' => forall p, In p (w_queue (snd c')) -> In p (w_queue (snd c)) \/ real p
  | None => cut_at a cur
  end.
Proof.
  intros Rc. induction ps as [|[t1 t2] ps IH]; intros c H; cbn [build_pairs]; [auto|].
  pose proof (build_pair_real a t1 t2 cur is1 c Rc (H t1 t2 (or_introl eq_refl))) as X.
  destruct (build_pair dim pext t1 t2 cur is1 c) as [c1|]; [|exact X].
  specialize (IH c1 (fun x y Hxy => H x y (or_intror Hxy))). destruct (build_pairs dim pext ps cur is1 c1) as [c2|]; [|exact IH].
  intros p Hp. destruct (IH p Hp) as [Hp'|Hp']; auto.
Qed.

(** What a result of the search tells. *)
Definition told (r : outcome) : Prop :=
  match r with
  | RCannotMatch a p => exists v, together dim s1 s2 (p_l1 p) (p_l2 p) v /\ seen p v /\ unmatched dim s1 s2 a (p_l1 p) (p_l2 p) v
  | RCutsDelays a p => cut_at a p
  | RSuccess => True
  | _ => False
  end.

Lemma valid_pairs_real a ts1 ts2 (cur : pair) (is1 : bool) (c : ctx) : real cur ->
  (forall t, In t ts1 \/ In t ts2 -> forall v v', N (p_l1 cur) (p_l2 cur) v v' -> fsem dim (allowed_fed dim t) v -> fsem dim (allowed_fed dim t) v') ->
  (forall t1 t2, In t1 ts1 -> In t2 ts2 -> good_moves a cur is1 t1 t2) ->
  (forall v, together dim s1 s2 (p_l1 cur) (p_l2 cur) v -> inv_at dim (p_l1 cur) v -> inv_at dim (p_l2 cur) v ->
     (exists t, In t ts1 /\ fsem dim (allowed_fed dim t) v) -> (forall t, In t ts2 -> ~ fsem dim (allowed_fed dim t) v) ->
     unmatched dim s1 s2 a (p_l1 cur) (p_l2 cur) v) ->
  match valid_pairs dim pext a ts1 ts2 cur is1 c with
  | inl c' => forall p, In p (w_queue (snd c')) -> In p (w_queue (snd c)) \/ real p
  | inr r => told r
  end.
Proof.
  intros Rc Hd Hm Hu. unfold valid_pairs.
  assert (Bad : (exists v, fsem dim (guard_fed dim ts1 (p_zone cur)) v /\ ~ fsem dim (guard_fed dim ts2 (p_zone cur)) v) -> told (RCannotMatch a cur)).
  { intros (v & H1 & H2). apply guard_fed_sem in H1. destruct H1 as [(t & Ht & A) Z]. destruct Rc as [[Rg1 Rg2] Re].
    destruct (Re v Z) as (v' & Ev & T & Sn). exists v'. split; [exact T|]. split; [exact Sn|]. destruct (together_inv _ _ _ T) as [I1 I2].
    apply Hu; [exact T|exact I1|exact I2| |].
    - exists t. split; [exact Ht|]. apply (Hd t (or_introl Ht) v v'); assumption.
    - intros t2 Ht2 C. apply H2. apply guard_fed_sem. split; [|exact Z]. exists t2. split; [exact Ht2|].
      apply (Hd t2 (or_intror Ht2) v' v); [apply (lk_sym _ _ _ _ _ HN); exact Ev|exact C]. }
  destruct (fempty dim (guard_fed dim ts1 (p_zone cur))) eqn:E1; [auto|].
  destruct (fempty dim (guard_fed dim ts2 (p_zone cur))) eqn:E2.
  { apply Bad. rewrite fempty_false in E1. destruct E1 as (v & Hv). exists v. split; [exact Hv|]. rewrite fempty_true in E2. apply E2. }
  destruct (fempty dim (fsub dim (guard_fed dim ts1 (p_zone cur)) (guard_fed dim ts2 (p_zone cur)))) eqn:E3; cbn [negb].
  - pose proof (build_pairs_real a cur is1 Rc (list_prod ts1 ts2) c) as X.
    destruct (build_pairs dim pext (list_prod ts1 ts2) cur is1 c) as [c'|]; apply X; clear X;
    (intros t1 t2 Hp; apply in_prod_iff in Hp; destruct Hp as [P1 P2]; exact (Hm t1 t2 P1 P2)).
  - apply Bad. rewrite fempty_false in E3. destruct E3 as (v & Hv). apply fsub_sem in Hv. exists v. exact Hv.
Qed.

Lemma allowed_N1 l l2 a t : In l (all_locations dim s1) -> offered dim s1 l a t ->
  forall v v', N l l2 v v' -> fsem dim (allowed_fed dim t) v -> fsem dim (allowed_fed dim t) v'.
Proof.
  intros L O v v' A H. destruct (offered_dep dim q1 s1 l a t B1 R1 K1 L O) as ([U C] & T & _ & _ & _).
  apply (allowed_fed_sem dim t U C) in H. apply (allowed_fed_sem dim t U C). destruct H as [G I]. split.
  - exact (lk_guard1 _ _ _ _ _ HN _ _ _ _ _ _ L O A G).
  - exact (lk_inv1 _ _ _ _ _ HN _ _ _ _ T (lk_left _ _ _ _ _ HN _ _ _ _ _ _ L O A) I).
Qed.
Lemma allowed_N2 l1 l a t : In l (all_locations dim s2) -> offered dim s2 l a t ->
  forall v v', N l1 l v v' -> fsem dim (allowed_fed dim t) v -> fsem dim (allowed_fed dim t) v'.
Proof.
  intros L O v v' A H. destruct (offered_dep dim q2 s2 l a t B2 R2 K2 L O) as ([U C] & T & _ & _ & _).
  apply (allowed_fed_sem dim t U C) in H. apply (allowed_fed_sem dim t U C). destruct H as [G I]. split.
  - exact (lk_guard2 _ _ _ _ _ HN _ _ _ _ _ _ L O A G).
  - exact (lk_inv2 _ _ _ _ _ HN _ _ _ _ T (lk_right _ _ _ _ _ HN _ _ _ _ _ _ L O A) I).
Qed.
Lemma without_N1 l l2 : In l (all_locations dim s1) -> forall v v', N l l2 v v' -> fsem dim (allowed_fed dim (t_without_id l)) v -> fsem dim (allowed_fed dim (t_without_id l)) v'.
Proof.
  intros L v v' A H. destruct (without_fine dim q1 s1 l) as [[U C] _]. apply (allowed_fed_sem dim _ U C) in H. apply (allowed_fed_sem dim _ U C).
  split; [apply funiv_sem; apply (lk_ok _ _ _ _ _ HN _ _ _ _ A)|]. exact (lk_inv1 _ _ _ _ _ HN _ _ _ _ L A (proj2 H)).
Qed.
Lemma without_N2 l1 l : In l (all_locations dim s2) -> forall v v', N l1 l v v' -> fsem dim (allowed_fed dim (t_without_id l)) v -> fsem dim (allowed_fed dim (t_without_id l)) v'.
Proof.
  intros L v v' A H. destruct (without_fine dim q1 s1 l) as [[U C] _]. apply (allowed_fed_sem dim _ U C) in H. apply (allowed_fed_sem dim _ U C).
  split; [apply funiv_sem; apply (lk_ok _ _ _ _ _ HN _ _ _ _ A)|]. exact (lk_inv2 _ _ _ _ _ HN _ _ _ _ L A (proj2 H)).
Qed.
Lemma univ_N l1 l2 l v w : N l1 l2 v w -> fsem dim (t_guard (t_without_id l)) v -> fsem dim (t_guard (t_without_id l)) w.
Proof. intros A _. apply funiv_sem. apply (lk_ok _ _ _ _ _ HN _ _ _ _ A). Qed.

Lemma output_step_real (cur : pair) a (c : ctx) x : real cur -> is_output s1 a -> output_step dim pext s1 s2 cur a c = Ok x ->
  match x with inl c' => forall p, In p (w_queue (snd c')) -> In p (w_queue (snd c)) \/ real p | inr r => told r end.
Proof.
  intros Rc Ha E. pose proof Rc as [[Rg1 Rg2] Re]. unfold output_step in E. inv_bind E. inv_bind E.
  assert (Ex : x = valid_pairs dim pext a a0 a1 cur true c) by congruence. rewrite Ex. clear E Ex.
  destruct (next_all dim s1 q1 (p_l1 cur) a a0 B1 K1 Rg1 H) as [A1 F1].
  assert (O1 : forall t, In t a0 -> offered dim s1 (p_l1 cur) a t) by (intros t Ht; split; [exact A1|eauto]).
  unfold extra_output in H0. rewrite (proj2 (sin_In a (ts_outputs s1)) Ha) in H0. cbn [andb] in H0.
  destruct (sin a (ts_outputs s2)) eqn:S2; cbn [negb] in H0.
  - apply sin_In in S2. destruct (next_all dim s2 q2 (p_l2 cur) a a1 B2 K2 Rg2 H0) as [A2 F2].
    assert (O2 : forall t, In t a1 -> offered dim s2 (p_l2 cur) a t) by (intros t Ht; split; [exact A2|eauto]).
    apply valid_pairs_real; [exact Rc| | |].
    + intros t [Ht|Ht]; [apply (allowed_N1 (p_l1 cur) _ a)|apply (allowed_N2 _ (p_l2 cur) a)]; auto.
    + intros t1 t2 Ht1 Ht2. destruct (F1 t1 Ht1) as [[U1 _] T1], (F2 t2 Ht2) as [[U2 _] T2].
      split; [exact U1|]. split; [exact U2|]. split; [exact T1|]. split; [exact T2|].
      split; [intros v w; apply (lk_guard1 _ _ _ _ _ HN _ _ a); auto|]. split; [intros v w; apply (lk_guard2 _ _ _ _ _ HN _ _ a); auto|]. split.
      * intros v w A. apply (lk_right _ _ _ _ _ HN (t_target t1) (p_l2 cur) a); auto. apply (lk_left _ _ _ _ _ HN (p_l1 cur) (p_l2 cur) a); auto.
      * intros v G1 G2. eexists. split; [|apply (mv_both a _ _ v t1 t2); auto]. rewrite run_updates_app. reflexivity.
    + intros v T I1 I2 (t & Ht & A) Nt. left. split; [exact Ha|]. split; [exact S2|]. destruct (F1 t Ht) as [[U C] _].
      apply (allowed_fed_sem dim t U C) in A. split.
      * exists t. split; [auto|]. split; [exact I1|exact A].
      * intros t2 [_ (ts & Ets & Ht2)] Ab. rewrite H0 in Ets. injection Ets as <-. destruct (F2 t2 Ht2) as [[U2 C2] _].
        apply (Nt t2 Ht2). apply (allowed_fed_sem dim t2 U2 C2). apply Ab.
  - assert (NS : ~ is_output s2 a) by (intros C; apply sin_In in C; congruence). injection H0 as <-.
    apply valid_pairs_real; [exact Rc| | |].
    + intros t [Ht|[<-|[]]]; [apply (allowed_N1 (p_l1 cur) _ a); auto|apply without_N2; assumption].
    + intros t1 t2 Ht1 [<-|[]]. destruct (F1 t1 Ht1) as [[U1 _] T1]. destruct (without_fine dim q2 s2 (p_l2 cur)) as [[U2 _] _].
      split; [exact U1|]. split; [exact U2|]. split; [exact T1|]. split; [exact Rg2|].
      split; [intros v w; apply (lk_guard1 _ _ _ _ _ HN _ _ a); auto|]. split; [intros v w; apply univ_N|]. split.
      * intros v w A. cbn [t_updates t_without_id run_updates fold_left]. apply (lk_left _ _ _ _ _ HN (p_l1 cur) (p_l2 cur) a); auto.
      * intros v G1 _. eexists. split; [|apply (mv_left a _ _ v t1); auto]. reflexivity.
    + intros v T I1 I2 _ Nt. exfalso. apply (Nt (t_without_id (p_l2 cur)) (or_introl eq_refl)).
      destruct (without_fine dim q2 s2 (p_l2 cur)) as [[U C] _]. apply (allowed_fed_sem dim _ U C).
      split; [apply funiv_sem; eapply inv_at_ok; eauto|exact I2].
Qed.

Lemma input_step_real (cur : pair) a (c : ctx) x : real cur -> is_input s2 a -> input_step dim pext s1 s2 cur a c = Ok x ->
  match x with inl c' => forall p, In p (w_queue (snd c')) -> In p (w_queue (snd c)) \/ real p | inr r => told r end.
Proof.
  intros Rc Ha E. pose proof Rc as [[Rg1 Rg2] Re]. unfold input_step in E. inv_bind E. inv_bind E.
  assert (Ex : x = valid_pairs dim pext a a1 a0 cur false c) by congruence. rewrite Ex. clear E Ex.
  destruct (next_all dim s2 q2 (p_l2 cur) a a1 B2 K2 Rg2 H0) as [A2 F2].
  assert (O2 : forall t, In t a1 -> offered dim s2 (p_l2 cur) a t) by (intros t Ht; split; [exact A2|eauto]).
  unfold extra_input in H. rewrite (proj2 (sin_In a (ts_inputs s2)) Ha) in H. cbn [andb] in H.
  destruct (sin a (ts_inputs s1)) eqn:S1; cbn [negb] in H.
  - apply sin_In in S1. destruct (next_all dim s1 q1 (p_l1 cur) a a0 B1 K1 Rg1 H) as [A1 F1].
    assert (O1 : forall t, In t a0 -> offered dim s1 (p_l1 cur) a t) by (intros t Ht; split; [exact A1|eauto]).
    apply valid_pairs_real; [exact Rc| | |].
    + intros t [Ht|Ht]; [apply (allowed_N2 _ (p_l2 cur) a)|apply (allowed_N1 (p_l1 cur) _ a)]; auto.
    + intros t2 t1 Ht2 Ht1. destruct (F1 t1 Ht1) as [[U1 _] T1], (F2 t2 Ht2) as [[U2 _] T2].
      split; [exact U2|]. split; [exact U1|]. split; [exact T1|]. split; [exact T2|].
      split; [intros v w; apply (lk_guard2 _ _ _ _ _ HN _ _ a); auto|]. split; [intros v w; apply (lk_guard1 _ _ _ _ _ HN _ _ a); auto|]. split.
      * intros v w A. apply (lk_left _ _ _ _ _ HN (p_l1 cur) (t_target t2) a); auto. apply (lk_right _ _ _ _ _ HN (p_l1 cur) (p_l2 cur) a); auto.
      * intros v G2 G1.
        destruct (offered_dep dim q1 s1 _ a t1 B1 R1 K1 Rg1 (O1 t1 Ht1)) as (_ & _ & Tch1 & _).
        destruct (offered_dep dim q2 s2 _ a t2 B2 R2 K2 Rg2 (O2 t2 Ht2)) as (_ & _ & Tch2 & _).
        eexists. split; [|apply (mv_both a _ _ v t1 t2); auto].
        rewrite run_updates_app. apply run_updates_swap. intros u w Hu Hw Eq. apply (Sep (u_clock w)); [apply Tch1; exact Hw|].
        rewrite <- Eq. apply Tch2. exact Hu.
    + intros v T I1 I2 (t & Ht & A) Nt. right. split; [exact Ha|]. split; [exact S1|]. destruct (F2 t Ht) as [[U C] _].
      apply (allowed_fed_sem dim t U C) in A. split.
      * exists t. split; [auto|]. split; [exact I2|exact A].
      * intros t1 [_ (ts & Ets & Ht1)] Ab. rewrite H in Ets. injection Ets as <-. destruct (F1 t1 Ht1) as [[U1 C1] _].
        apply (Nt t1 Ht1). apply (allowed_fed_sem dim t1 U1 C1). apply Ab.
  - assert (NS : ~ is_input s1 a) by (intros C; apply sin_In in C; congruence). injection H as <-.
    apply valid_pairs_real; [exact Rc| | |].
    + intros t [Ht|[<-|[]]]; [apply (allowed_N2 _ (p_l2 cur) a); auto|apply without_N1; assumption].
    + intros t2 t1 Ht2 [<-|[]]. destruct (F2 t2 Ht2) as [[U2 _] T2]. destruct (without_fine dim q1 s1 (p_l1 cur)) as [[U1 _] _].
      split; [exact U2|]. split; [exact U1|]. split; [exact Rg1|]. split; [exact T2|].
      split; [intros v w; apply (lk_guard2 _ _ _ _ _ HN _ _ a); auto|]. split; [intros v w; apply univ_N|]. split.
      * intros v w A. cbn [t_updates t_without_id run_updates fold_left]. apply (lk_right _ _ _ _ _ HN (p_l1 cur) (p_l2 cur) a); auto.
      * intros v G2 _. eexists. split; [|apply (mv_right a _ _ v t2); auto]. reflexivity.
    + intros v T I1 I2 _ Nt. exfalso. apply (Nt (t_without_id (p_l1 cur)) (or_introl eq_refl)).
      destruct (without_fine dim q1 s1 (p_l1 cur)) as [[U C] _]. apply (allowed_fed_sem dim _ U C).
      split; [apply funiv_sem; eapply inv_at_ok; eauto|exact I1].
Qed.

(** *** Violations exclude refinement *)
Lemma det_same s l v a t u : deterministic dim s -> reachable dim s l v -> offered dim s l a t -> offered dim s l a u ->
  able dim l t v -> able dim l u v -> t = u.
Proof.
  intros D R [Ha (ts & Ets & Ht)] [_ (us & Eus & Hu)] At Au. rewrite Ets in Eus. injection Eus as <-.
  destruct (In_nth_error _ _ Ht) as [i Ei], (In_nth_error _ _ Hu) as [j Ej].
  destruct (Nat.eq_dec i j) as [->|Nn]; [congruence|]. exfalso. apply (D l v a ts R Ha Ets i j t u Nn Ei Ej). auto.
Qed.

Section NotRefines.
Hypothesis D1 : deterministic dim s1.
Hypothesis D2 : deterministic dim s2.
Variable R : loctree -> val -> loctree -> val -> Prop.
Hypothesis HR : refinement dim s1 s2 R.
Hypothesis Hinit : forall l1 l2, initial_location dim s1 = Some l1 -> initial_location dim s2 = Some l2 -> R l1 zero_val l2 zero_val.

Definition shared (l1 l2 : loctree) (v : val) : Prop :=
  val_ok dim v /\ In l1 (all_locations dim s1) /\ In l2 (all_locations dim s2) /\
  exists v1 v2, val_ok dim v1 /\ val_ok dim v2 /\ agree (sys_clocks s1) v v1 /\ agree (sys_clocks s2) v v2 /\
    reachable dim s1 l1 v1 /\ reachable dim s2 l2 v2 /\ R l1 v1 l2 v2.

Lemma reach_act s l v a t : reachable dim s l v -> offered dim s l a t -> able dim l t v -> reachable dim s (t_target t) (run_updates (t_updates t) v).
Proof. intros (l0 & E & I0 & Rn) O A. exists l0. split; [exact E|]. split; [exact I0|]. eapply run_act; eauto. Qed.

Lemma both_related l1 l2 v a t1 t2 : shared l1 l2 v -> is_output s1 a /\ is_output s2 a \/ is_input s1 a /\ is_input s2 a ->
  offered dim s1 l1 a t1 -> offered dim s2 l2 a t2 -> able dim l1 t1 v -> able dim l2 t2 v ->
  shared (t_target t1) (t_target t2) (run_updates (t_updates t1 ++ t_updates t2) v).
Proof.
  intros (V & L1 & L2 & v1 & v2 & V1 & V2 & A1 & A2 & Q1 & Q2 & Rv) Ac O1 O2 Ab1 Ab2.
  destruct (offered_dep dim q1 s1 l1 a t1 B1 R1 K1 L1 O1) as ([U1 C1] & T1 & Tch1 & _ & Dep1).
  destruct (offered_dep dim q2 s2 l2 a t2 B2 R2 K2 L2 O2) as ([U2 C2] & T2 & Tch2 & _ & Dep2).
  assert (Ab1' : able dim l1 t1 v1) by (apply (Dep1 v); assumption). assert (Ab2' : able dim l2 t2 v2) by (apply (Dep2 v); assumption).
  destruct (HR l1 v1 l2 v2 Rv) as (_ & _ & HO & HI & _).
  split; [apply run_updates_ok; [apply updates_ok_app; auto|exact V]|]. split; [exact T1|]. split; [exact T2|].
  exists (run_updates (t_updates t1) v1), (run_updates (t_updates t2) v2).
  split; [apply run_updates_ok; assumption|]. split; [apply run_updates_ok; assumption|]. rewrite run_updates_app.
  split; [eapply agree_trans; [apply foreign2; exact Tch2|apply agree_updates; exact A1]|].
  split; [apply agree_updates; eapply agree_trans; [apply foreign1; exact Tch1|exact A2]|].
  split; [eapply reach_act; eauto|]. split; [eapply reach_act; eauto|].
  destruct Ac as [[Ao Ao2]|[Ai Ai2]].
  - destruct (proj1 (HO a t1 Ao O1 Ab1') Ao2) as (t2' & O2' & Ab' & Rn). rewrite (det_same s2 l2 v2 a t2 t2' D2 Q2 O2 O2' Ab2' Ab'). exact Rn.
  - destruct (proj1 (HI a t2 Ai2 O2 Ab2') Ai) as (t1' & O1' & Ab' & Rn). rewrite (det_same s1 l1 v1 a t1 t1' D1 Q1 O1 O1' Ab1' Ab'). exact Rn.
Qed.

Lemma left_related l1 l2 v a t1 : shared l1 l2 v -> is_output s1 a -> ~ is_output s2 a -> offered dim s1 l1 a t1 -> able dim l1 t1 v ->
  shared (t_target t1) l2 (run_updates (t_updates t1) v).
Proof.
  intros (V & L1 & L2 & v1 & v2 & V1 & V2 & A1 & A2 & Q1 & Q2 & Rv) Ao No O1 Ab1.
  destruct (offered_dep dim q1 s1 l1 a t1 B1 R1 K1 L1 O1) as ([U1 C1] & T1 & Tch1 & _ & Dep1).
  assert (Ab1' : able dim l1 t1 v1) by (apply (Dep1 v); assumption).
  destruct (HR l1 v1 l2 v2 Rv) as (_ & _ & HO & _ & _).
  split; [apply run_updates_ok; assumption|]. split; [exact T1|]. split; [exact L2|].
  exists (run_updates (t_updates t1) v1), v2. split; [apply run_updates_ok; assumption|]. split; [exact V2|].
  split; [apply agree_updates; exact A1|]. split; [eapply agree_trans; [apply foreign1; exact Tch1|exact A2]|].
  split; [eapply reach_act; eauto|]. split; [exact Q2|]. apply (HO a t1 Ao O1 Ab1'); exact No.
Qed.
Lemma right_related l1 l2 v a t2 : shared l1 l2 v -> is_input s2 a -> ~ is_input s1 a -> offered dim s2 l2 a t2 -> able dim l2 t2 v ->
  shared l1 (t_target t2) (run_updates (t_updates t2) v).
Proof.
  intros (V & L1 & L2 & v1 & v2 & V1 & V2 & A1 & A2 & Q1 & Q2 & Rv) Ai Ni O2 Ab2.
  destruct (offered_dep dim q2 s2 l2 a t2 B2 R2 K2 L2 O2) as ([U2 C2] & T2 & Tch2 & _ & Dep2).
  assert (Ab2' : able dim l2 t2 v2) by (apply (Dep2 v); assumption).
  destruct (HR l1 v1 l2 v2 Rv) as (_ & _ & _ & HI & _).
  split; [apply run_updates_ok; assumption|]. split; [exact L1|]. split; [exact T2|].
  exists v1, (run_updates (t_updates t2) v2). split; [exact V1|]. split; [apply run_updates_ok; assumption|].
  split; [eapply agree_trans; [apply foreign2; exact Tch2|exact A1]|]. split; [apply agree_updates; exact A2|].
  split; [exact Q1|]. split; [eapply reach_act; eauto|]. apply (HI a t2 Ai O2 Ab2'); exact Ni.
Qed.
Lemma delay_ag xs v w d : val_ok dim v -> val_ok dim w -> agree xs v w -> agree xs (vdelay v d) (vdelay w d).
Proof. intros [V0 _] [W0 _] A. apply agree_delay; [right; rewrite V0, W0; reflexivity|exact A]. Qed.

Lemma together_shared l1 l2 v : together dim s1 s2 l1 l2 v -> shared l1 l2 v.
Proof.
  induction 1 as [l1 l2 E1 E2 I1 I2|l1 l2 v d T IH Hd Hi|l1 l2 v a t1 t2 T IH Ac O1 O2 Ab1 Ab2|l1 l2 v a t1 T IH Ao No O1 Ab1|l1 l2 v a t2 T IH Ai Ni O2 Ab2].
  - pose proof (inv_at_ok _ _ _ I1) as V. split; [exact V|]. split; [apply (initial_wf dim s1 B1); exact E1|]. split; [apply (initial_wf dim s2 B2); exact E2|].
    exists zero_val, zero_val. split; [exact V|]. split; [exact V|]. split; [intros x _; reflexivity|]. split; [intros x _; reflexivity|].
    split; [exists l1; split; [exact E1|split; [exact I1|constructor]]|]. split; [exists l2; split; [exact E2|split; [exact I2|constructor]]|]. auto.
  - destruct IH as (V & L1 & L2 & v1 & v2 & V1 & V2 & A1 & A2 & Q1 & Q2 & Rv).
    assert (J1 : forall e, 0 <= e -> e <= d -> inv_at dim l1 (vdelay v1 e)).
    { intros e H0 H1. apply (locations_dep dim s1 B1 R1 l1 L1 (vdelay v e)); auto using vdelay_ok, delay_ag. apply Hi; assumption. }
    assert (J2 : forall e, 0 <= e -> e <= d -> inv_at dim l2 (vdelay v2 e)).
    { intros e H0 H1. apply (locations_dep dim s2 B2 R2 l2 L2 (vdelay v e)); auto using vdelay_ok, delay_ag. apply Hi; assumption. }
    split; [apply vdelay_ok; assumption|]. split; [exact L1|]. split; [exact L2|].
    exists (vdelay v1 d), (vdelay v2 d). split; [apply vdelay_ok; assumption|]. split; [apply vdelay_ok; assumption|].
    split; [apply delay_ag; assumption|]. split; [apply delay_ag; assumption|].
    destruct Q1 as (i1 & X1 & Y1 & Z1), Q2 as (i2 & X2 & Y2 & Z2).
    split; [exists i1; split; [exact X1|split; [exact Y1|apply run_delay; assumption]]|].
    split; [exists i2; split; [exact X2|split; [exact Y2|apply run_delay; assumption]]|].
    destruct (HR l1 v1 l2 v2 Rv) as (_ & _ & _ & _ & HD). apply HD; assumption.
  - eapply both_related; eauto.
  - eapply left_related; eauto.
  - eapply right_related; eauto.
Qed.

Lemma shared_no_outlast l1 l2 w : shared l1 l2 w -> ~ outlasts dim l1 l2 w.
Proof.
  intros (V & L1 & L2 & v1 & v2 & V1 & V2 & A1 & A2 & Q1 & Q2 & Rv) (d & Hd & Hi & Nn). apply Nn.
  destruct (HR l1 v1 l2 v2 Rv) as (_ & _ & _ & _ & HD).
  assert (X : R l1 (vdelay v1 d) l2 (vdelay v2 d)).
  { apply HD; [exact Hd|]. intros e H0 H1. apply (locations_dep dim s1 B1 R1 l1 L1 (vdelay w e)); auto using vdelay_ok, delay_ag. }
  destruct (HR _ _ _ _ X) as (_ & I2 & _).
  apply (locations_dep dim s2 B2 R2 l2 L2 (vdelay v2 d)); auto using vdelay_ok, delay_ag, agree_sym.
Qed.

Lemma no_unmatched a l1 l2 v : together dim s1 s2 l1 l2 v -> ~ unmatched dim s1 s2 a l1 l2 v.
Proof.
  intros T U. pose proof (together_shared _ _ _ T) as (V & L1 & L2 & v1 & v2 & V1 & V2 & A1 & A2 & Q1 & Q2 & Rv).
  destruct (HR l1 v1 l2 v2 Rv) as (_ & _ & HO & HI & _).
  destruct U as [(Ao1 & Ao2 & (t1 & O1 & Ab1) & Nn)|(Ai2 & Ai1 & (t2 & O2 & Ab2) & Nn)].
  - destruct (offered_dep dim q1 s1 l1 a t1 B1 R1 K1 L1 O1) as (_ & _ & _ & _ & Dep1).
    destruct (proj1 (HO a t1 Ao1 O1 (Dep1 v v1 V V1 A1 Ab1)) Ao2) as (t2 & O2 & Ab2 & _).
    destruct (offered_dep dim q2 s2 l2 a t2 B2 R2 K2 L2 O2) as (_ & _ & _ & _ & Dep2).
    apply (Nn t2 O2). apply (Dep2 v2 v); auto using agree_sym.
  - destruct (offered_dep dim q2 s2 l2 a t2 B2 R2 K2 L2 O2) as (_ & _ & _ & _ & Dep2).
    destruct (proj1 (HI a t2 Ai2 O2 (Dep2 v v2 V V2 A2 Ab2)) Ai1) as (t1 & O1 & Ab1 & _).
    destruct (offered_dep dim q1 s1 l1 a t1 B1 R1 K1 L1 O1) as (_ & _ & _ & _ & Dep1).
    apply (Nn t1 O1). apply (Dep1 v1 v); auto using agree_sym.
Qed.
Lemma no_cut a l1 l2 v : together dim s1 s2 l1 l2 v -> ~ cuts_delay dim s1 s2 a l1 l2 v.
Proof.
  intros T U. pose proof (together_shared _ _ _ T) as S.
  destruct U as [(t1 & t2 & Ac & O1 & O2 & Ab1 & Ab2 & Ol)|[(t1 & Ao & No & O1 & Ab1 & Ol)|(t2 & Ai & Ni & O2 & Ab2 & Ol)]];
    eapply shared_no_outlast; try exact Ol; [eapply both_related|eapply left_related|eapply right_related]; eauto.
Qed.
End NotRefines.

Variable aord : pair -> list string -> list string.
Hypothesis Hord : forall p l a, In a (aord p l) <-> In a l.

Lemma refine_loop_told fuel : forall c r, (forall p, In p (w_queue (snd c)) -> real p) ->
  refine_loop dim pext aord s1 s2 fuel c = Ok r -> told r.
Proof.
  induction fuel as [|f IH]; intros c r W E; cbn [refine_loop] in E; [discriminate|]. inv_bind E. destruct a as [[cur w]|]; [|injection E as <-; exact I].
  assert (Q : In cur (w_queue (snd c)) /\ forall p, In p (w_queue w) -> In p (w_queue (snd c))).
  { unfold waiting_pop in H. destruct (w_queue (snd c)) as [|x l]; [discriminate|].
    destruct (kget (pair_key x) (w_map (snd c))) as [[|]|]; try discriminate; injection H as <- <-; simpl; auto. }
  destruct Q as [Qc Qw]. pose proof (W cur Qc) as Rc. inv_bind E.
  pose (P := fun (_ : list string) (x : ctx) => forall p, In p (w_queue (snd x)) -> real p).
  assert (L : forall (step : pair -> string -> ctx -> res (ctx + outcome)) acts act x y,
    (forall b, In b acts -> act b) ->
    (forall b x y, act b -> step cur b x = Ok y ->
      match y with inl c' => forall p, In p (w_queue (snd c')) -> In p (w_queue (snd x)) \/ real p | inr r => told r end) ->
    P [] x -> loopM (step cur) acts x = Ok y -> match y with inl c' => P [] c' | inr r => told r end).
  { intros step acts act. induction acts as [|b acts IHa]; intros x y Ha Hs Px El; cbn [loopM] in El; [injection El as <-; exact Px|].
    inv_bind El. pose proof (Hs b x a0 (Ha b (or_introl eq_refl)) H1) as X. destruct a0 as [x'|r'].
    - eapply IHa; [intros b' Hb'; apply Ha; right; exact Hb'|exact Hs| |exact El]. intros p Hp. destruct (X p Hp); auto.
    - injection El as <-. exact X. }
  assert (P0 : P [] (passed_put cur (fst c), w)) by (intros p Hp; apply W, Qw; exact Hp).
  pose proof (L (output_step dim pext s1 s2) (aord cur (ts_outputs s1)) (is_output s1) _ a (fun b Hb => proj1 (Hord _ _ _) Hb)
    (fun b x y Hb Ey => output_step_real cur b x y Rc Hb Ey) P0 H0) as X. destruct a as [c1|r1]; [|injection E as <-; exact X].
  inv_bind E.
  pose proof (L (input_step dim pext s1 s2) (aord cur (ts_inputs s2)) (is_input s2) _ a (fun b Hb => proj1 (Hord _ _ _) Hb)
    (fun b x y Hb Ey => input_step_real cur b x y Rc Hb Ey) X H1) as Y. destruct a as [c2|r2]; [|injection E as <-; exact Y].
  eapply IH; [exact Y|exact E].
Qed.

Variable ext : ts -> loctree -> fed -> fed.
Variable ord : list state -> list string -> list string.

Definition told_all (r : outcome) : Prop :=
  match r with
  | RPrecheck | RNotDisjoint | RNotSubset => True
  | REmptyChild b => if b then initial_location dim s1 = None /\ initial_location dim s2 <> None
                          else initial_location dim s1 <> None /\ initial_location dim s2 = None
  | REmptyInitial => exists l1 l2, initial_location dim s1 = Some l1 /\ initial_location dim s2 = Some l2 /\
      forall d, 0 <= d -> ~ (inv_at dim l1 (vdelay zero_val d) /\ inv_at dim l2 (vdelay zero_val d))
  | _ => told r
  end.
Theorem check_refinement_told fuel r : check_refinement dim ext pext ord aord s1 s2 fuel = Ok r -> told_all r.
Proof.
  intros E. unfold check_refinement, explore in E. inv_bind E. destruct a as [r'|].
  { injection E as <-. unfold check_preconditions in H. inv_bind H. destruct (negb _); [injection H as <-; exact I|]. inv_bind H.
    destruct (negb _); [injection H as <-; exact I|].
    injection H as H. unfold action_precheck in H. repeat (destruct (negb _); [injection H as <-; exact I|]). discriminate. }
  destruct (initial_location dim s1) as [l1|] eqn:E1, (initial_location dim s2) as [l2|] eqn:E2.
  - set (z := apply_inv dim l2 (apply_inv dim l1 (p_zone (pair_from_locations dim l1 l2)))) in E.
    destruct (fempty dim z) eqn:Ez.
    { injection E as <-. exists l1, l2. split; [exact E1|]. split; [exact E2|]. intros d Hd [I1 I2]. rewrite fempty_true in Ez. apply (Ez (vdelay zero_val d)).
      apply apply_inv_sem. split; [|exact I2]. apply apply_inv_sem. split; [apply finit_delay; exact Hd|exact I1]. }
    assert (T : told r).
    { eapply refine_loop_told; [|exact E]. intros p [<-|[]].
      pose proof (initial_wf dim s1 B1 l1 E1) as T1. pose proof (initial_wf dim s2 B2 l2 E2) as T2.
      split; [split; assumption|]. cbn [p_l1 p_l2 p_zone]. intros v0 Hv0. destruct (lk_down _ _ _ _ _ HN l1 l2 _ v0 T1 T2 Hv0) as (v & Hv & Nv).
      pose proof Hv as Zv. apply apply_inv_sem in Hv. destruct Hv as [Hv I2].
      apply apply_inv_sem in Hv. destruct Hv as [Hv I1].
      cbn [pair_from_locations p_zone] in Hv. pose proof (fsem_ok _ _ _ Hv) as Vok. apply finit_sem in Hv. destruct Hv as (d & Hd & Z0 & Hz).
      assert (A : ag v (vdelay zero_val d)).
      { split; [exact Vok|]. split; [apply vdelay_ok; [split; [reflexivity|intros i _; unfold zero_val; lra]|exact Hd]|].
        intros x Hx. assert (Lx : (x < dim)%nat) by (apply in_app_or in Hx; destruct Hx; auto).
        destruct (Nat.eq_dec x 0) as [->|Nx]; [rewrite Z0; reflexivity|]. rewrite (Hz x Nx Lx), vdelay_S by exact Nx. unfold zero_val. ring. }
      exists (vdelay zero_val d). split; [eapply (lk_trans _ _ _ _ _ HN); [exact Nv|]; apply ag_N; assumption|].
      assert (V0 : val_ok dim zero_val) by (split; [reflexivity|intros i _; unfold zero_val; lra]).
      assert (D1 : forall e, 0 <= e -> e <= d -> inv_at dim l1 (vdelay zero_val e)).
      { intros e H0 H1. apply (past l1 zero_val d e); auto. eapply ag_inv1; eauto. }
      assert (D2 : forall e, 0 <= e -> e <= d -> inv_at dim l2 (vdelay zero_val e)).
      { intros e H0 H1. apply (past l2 zero_val d e); auto. eapply ag_inv2; eauto. }
      split; [|exists v; split; [cbn [p_zone]; apply (lk_up _ _ _ _ _ HN); assumption|apply A]].
      apply tg_wait; [|exact Hd|auto]. assert (H0 : 0 <= 0) by lra.
      apply tg_init; [exact E1|exact E2| |]; (eapply inv_at_ext; [apply vdelay_zero; reflexivity|]); auto. }
    destruct r; cbn [told] in T; try exact I; try contradiction; exact T.
  - injection E as <-. cbn [told_all]. rewrite E1, E2. split; [discriminate|reflexivity].
  - injection E as <-. cbn [told_all]. rewrite E1, E2. split; [reflexivity|discriminate].
  - injection E as <-. exact I.
Qed.

Theorem check_refinement_fails fuel r : deterministic dim s1 -> deterministic dim s2 ->
  check_refinement dim ext pext ord aord s1 s2 fuel = Ok r ->
  match r with
  | RCannotMatch _ _ | REmptyChild _ | REmptyInitial => ~ refines dim s1 s2
  | RCutsDelays _ _ => enters_inside dim s2 -> ~ refines dim s1 s2
  | _ => True
  end.
Proof.
  intros D1 D2 E. pose proof (check_refinement_told fuel r E) as T. unfold refines.
  destruct r as [| | | |b| |a p|a p]; try exact I; cbn [told_all told] in T.
  - destruct b; destruct T as [T1 T2]; destruct (initial_location dim s1), (initial_location dim s2); try congruence; auto.
  - destruct T as (l1 & l2 & E1 & E2 & Nn). rewrite E1, E2. intros (R & HR & H0). destruct (HR _ _ _ _ H0) as (I1 & I2 & _).
    apply (Nn 0); [lra|]. split; (eapply inv_at_ext; [symmetry; apply vdelay_zero; reflexivity|assumption]).
  - destruct T as (v & T & _ & U). destruct (initial_location dim s1) as [l1|] eqn:E1, (initial_location dim s2) as [l2|] eqn:E2; try tauto.
    + intros (R & HR & H0). refine (no_unmatched D1 D2 R HR _ a _ _ v T U). intros x y X Y. congruence.
    + exfalso. clear -T E1. induction T; congruence.
  - destruct T as (v & T & _ & U). intros En. specialize (U En).
    destruct (initial_location dim s1) as [l1|] eqn:E1, (initial_location dim s2) as [l2|] eqn:E2; try tauto.
    + intros (R & HR & H0). refine (no_cut D1 D2 R HR _ a _ _ v T U). intros x y X Y. congruence.
    + exfalso. clear -T E1. induction T; congruence.
Qed.
End Fail.
