(** C61, C62: what an expression means does not depend on where it stands; answers to queries fit together. *)
From Coq Require Import List String ZArith QArith Bool Arith Lia Lqa.
From Verif Require Import Fed.Zone Fed.ZoneFacts Fed.Check Model.Base Model.Expr Model.Guard Model.Loc Model.Component Model.TS Model.ParseQuery Model.Recipe Model.Reduce Model.Search Model.PairList Model.Refine Model.Query Model.Exec
  Spec.BoundSpec Spec.StepSpec Spec.SystemSpec Spec.RunSpec Spec.ReachSpec Spec.RefineSpec Spec.EnableSpec Spec.RecipeSpec Spec.ReduceSpec Spec.SameSpec Spec.ExecSpec Spec.LawSpec Spec.PlaceSpec
  Proofs.GuardFacts Proofs.StepFacts Proofs.SystemFacts Proofs.WfFacts Proofs.RunFacts Proofs.RecipeFacts Proofs.TwoFacts Proofs.ExecFacts Proofs.LawFacts Proofs.LawMore Proofs.PlaceFacts Proofs.AcrossFacts
  Props.Examples Props.Determinism Props.Reachability Props.Refinement Props.Exec Props.Laws.
Import ListNotations.
Local Open Scope string_scope.
Local Open Scope list_scope.
Local Open Scope nat_scope.

(** *** C61 *)
(** On either side of a refinement, an expression names a system that behaves like the one it names when it is checked alone. *)
Theorem C61_left : forall load e f d s d' s' t', loadable load -> names_one load e d s -> names_two load e f d' s' t' -> same_behaviour d s d' s'.
Proof. intros load e f d s d' s' t' L N N'. apply (placed_same load e); [exact L|apply names_one_placed; assumption|]. apply (beside_placed load e f d' s' t'), names_two_beside; assumption. Qed.
Print Assumptions C61_left.
Theorem C61_right : forall load e f d s d' s' t', loadable load -> names_one load e d s -> names_two load f e d' t' s' -> same_behaviour d s d' s'.
Proof. intros load e f d s d' s' t' L N N'. apply (placed_same load e); [exact L|apply names_one_placed; assumption|]. apply (beside_placed load f e d' t' s'), names_two_beside; assumption. Qed.
Print Assumptions C61_right.
(** So whether one expression refines another does not depend on anything else in the project: components with the same names
    and contents, loaded another time, give the same result. *)
Theorem C61_again : forall load load' e f d s t d' s' t', loadable load -> loadable load' -> (forall n, load' n = load n) ->
  names_two load e f d s t -> names_two load' e f d' s' t' -> same_behaviour d s d' s' /\ same_behaviour d t d' t' /\ (refines d s t <-> refines d' s' t').
Proof.
  intros load load' e f d s t d' s' t' L L' Eq N N'.
  assert (R : forall x st, get_system_recipe load' x st = get_system_recipe load x st).
  { induction x as [n i|a IHa b IHb|a IHa b IHb|a IHa b IHb]; intros st; cbn [get_system_recipe]; [rewrite Eq; reflexivity| | |].
    - rewrite IHa. destruct (get_system_recipe load a st) as [[? ?]| | |]; cbn [bind]; [rewrite IHb; reflexivity|reflexivity|reflexivity|reflexivity].
    - rewrite IHa. destruct (get_system_recipe load a st) as [[? ?]| | |]; cbn [bind]; [rewrite IHb; reflexivity|reflexivity|reflexivity|reflexivity].
    - rewrite IHa. destruct (get_system_recipe load a st) as [[? ?]| | |]; cbn [bind]; [rewrite IHb; reflexivity|reflexivity|reflexivity|reflexivity]. }
  assert (N0 : names_two load e f d' s' t'). { destruct N' as (l & st & r & dim & q & E & F & C). exists l, st, r, dim, q. rewrite R in E, F. auto. }
  destruct (beside_placed _ _ _ _ _ _ (names_two_beside _ _ _ _ _ _ L N)) as [P1 P2]. destruct (beside_placed _ _ _ _ _ _ (names_two_beside _ _ _ _ _ _ L N0)) as [Q1 Q2].
  pose proof (placed_same load e _ _ _ _ L P1 Q1) as S1. pose proof (placed_same load f _ _ _ _ L P2 Q2) as S2. split; [exact S1|]. split; [exact S2|]. apply same_refines; assumption.
Qed.
Print Assumptions C61_again.

(** *** C62 *)
(** Refinement between the systems that queries name. *)
Theorem C62_reflexive : forall load e d s t, loadable load -> names_two load e e d s t -> can_start d s -> refines d s t.
Proof. intros load e d s t L N. apply (across_reflexive load L e), names_two_beside; assumption. Qed.
Print Assumptions C62_reflexive.
Theorem C62_transitive : forall load e f g d1 s1 t1 d2 t2 u2 d3 s3 u3, loadable load ->
  names_two load e f d1 s1 t1 -> names_two load f g d2 t2 u2 -> names_two load e g d3 s3 u3 ->
  (forall a, is_output s1 a -> is_output u2 a -> is_output t1 a) -> (forall a, is_input s1 a -> is_input u2 a -> is_input t1 a) ->
  refines d1 s1 t1 -> refines d2 t2 u2 -> refines d3 s3 u3.
Proof. intros load e f g d1 s1 t1 d2 t2 u2 d3 s3 u3 L N1 N2 N3. apply (across_transitive load L e f g); apply names_two_beside; assumption. Qed.
Print Assumptions C62_transitive.
Theorem C62_conjunction : forall load x a b d1 x1 a1 d2 x2 b2 d3 x3 c3, loadable load ->
  names_two load x a d1 x1 a1 -> names_two load x b d2 x2 b2 -> names_two load x (XConj a b) d3 x3 c3 -> has_quotient a && has_quotient b = false ->
  deterministic d1 x1 -> accepting d1 a1 -> accepting d2 b2 -> can_start d3 c3 ->
  (forall k, is_output a1 k <-> is_output b2 k) -> (forall k, is_input a1 k <-> is_input b2 k) -> (forall k, is_input x1 k -> is_input a1 k) ->
  (refines d3 x3 c3 <-> refines d1 x1 a1 /\ refines d2 x2 b2).
Proof. intros load x a b d1 x1 a1 d2 x2 b2 d3 x3 c3 L N1 N2 N3. apply (across_conjunction load L x a b); apply names_two_beside; assumption. Qed.
Print Assumptions C62_conjunction.
Theorem C62_composition : forall load ea1 ea2 eb1 eb2 d1 a1 a2 d2 b1 b2 d3 s3 t3, loadable load ->
  names_two load ea1 ea2 d1 a1 a2 -> names_two load eb1 eb2 d2 b1 b2 -> names_two load (XPar ea1 eb1) (XPar ea2 eb2) d3 s3 t3 ->
  (has_quotient ea1 || has_quotient ea2) && (has_quotient eb1 || has_quotient eb2) = false ->
  io_disjoint a1 -> io_disjoint a2 -> io_disjoint b1 -> io_disjoint b2 -> alphabets_fit a1 a2 -> alphabets_fit b1 b2 ->
  (forall k, is_output a1 k -> ~ is_output a2 k -> ~ is_action b1 k) -> (forall k, is_output b1 k -> ~ is_output b2 k -> ~ is_action a2 k) ->
  deterministic d1 a1 -> deterministic d2 b1 -> accepting d1 a2 -> accepting d2 b2 -> can_start d1 a2 -> can_start d2 b1 -> can_start d2 b2 ->
  refines d1 a1 a2 -> refines d2 b1 b2 -> refines d3 s3 t3.
Proof. intros load ea1 ea2 eb1 eb2 d1 a1 a2 d2 b1 b2 d3 s3 t3 L N1 N2 N3. apply (across_composition load L ea1 ea2 eb1 eb2); apply names_two_beside; assumption. Qed.
Print Assumptions C62_composition.
Theorem C62_quotient : forall load x t s d1 x1 q1 d2 c2 t2 d3 s3, loadable load ->
  names_two load x (XQuot t s) d1 x1 q1 -> names_two load (XPar s x) t d2 c2 t2 -> names_one load s d3 s3 ->
  has_quotient t && has_quotient s = false -> has_quotient s && has_quotient x = false -> alphabets_fit x1 q1 -> (forall k, is_input x1 k -> is_input t2 k \/ is_output s3 k) ->
  deterministic d3 s3 -> accepting d3 s3 -> can_start d3 s3 -> deterministic d1 x1 ->
  (lively d1 x1 (is_output q1) -> refines d1 x1 q1 -> refines d2 c2 t2) /\
  (no_gaps d3 s3 -> deterministic d2 t2 -> accepting d1 x1 -> can_start d1 x1 -> io_disjoint q1 -> refines d2 c2 t2 -> refines d1 x1 q1).
Proof. intros load x t s d1 x1 q1 d2 c2 t2 d3 s3 L N1 N2 N3. apply (across_quotient load L x t s); [apply names_two_beside; assumption|apply names_two_beside; assumption|apply names_one_placed; assumption]. Qed.
Print Assumptions C62_quotient.
Theorem C62_order : forall load a b d s t, loadable load -> has_quotient a && has_quotient b = false -> can_start d s ->
  names_two load (XConj a b) (XConj b a) d s t \/ names_two load (XPar a b) (XPar b a) d s t -> refines d s t.
Proof. intros load a b d s t L Q St [N|N]; [apply (across_conj_order load L a b)|apply (across_comp_order load L a b)]; auto; apply names_two_beside; assumption. Qed.
Print Assumptions C62_order.
Theorem C62_grouping : forall load a b c d s t, loadable load ->
  has_quotient a && has_quotient b = false -> has_quotient a && has_quotient c = false -> has_quotient b && has_quotient c = false -> can_start d s ->
  names_two load (XConj (XConj a b) c) (XConj a (XConj b c)) d s t \/ names_two load (XPar (XPar a b) c) (XPar a (XPar b c)) d s t -> refines d s t /\ refines d t s.
Proof. intros load a b c d s t L Q1 Q2 Q3 St [N|N]; [apply (across_conj_grouping load L a b c)|apply (across_comp_grouping load L a b c)]; auto; apply names_two_beside; assumption. Qed.
Print Assumptions C62_grouping.

(** Answers. *)
Lemma yes_right ch reduce load e f d s t : loadable load -> trusted_yes ch reduce load e f d s t -> yes ch reduce load e f -> refines d s t.
Proof. intros L [] (a & E & S). eapply C50_refines_partial; eauto. Qed.
Lemma no_right ch reduce load e f d s t : loadable load -> trusted_no ch reduce load e f d s t -> refines d s t -> ~ no ch reduce load e f.
Proof.
  intros L [F N Sm Q Dr (acc & X) [U1 U2] En (P1 & P2 & P3 & P4)] R (o & E & M).
  pose proof (C50_not_refines_partial acc ch reduce load e f d s t o F X L N Sm Q Dr U1 U2 P1 P2 P3 P4 E) as H. destruct o; try contradiction; try (exact (H R)). exact (H En R).
Qed.
(** No expression is told not to refine itself. *)
Theorem C62_answers_reflexive : forall ch reduce load e d s t, loadable load -> trusted_no ch reduce load e e d s t -> can_start d s -> ~ no ch reduce load e e.
Proof. intros ch reduce load e d s t L T St. eapply no_right; eauto. eapply C62_reflexive; eauto. apply (tn_names _ _ _ _ _ _ _ _ T). Qed.
Print Assumptions C62_answers_reflexive.
(** If e <= f and f <= g are answered with "satisfied", no behaviour of e is reported that g does not have. *)
Theorem C62_answers_transitive : forall ch1 ch2 ch3 r1 r2 r3 load e f g d1 s1 t1 d2 t2 u2 d3 s3 u3, loadable load ->
  trusted_yes ch1 r1 load e f d1 s1 t1 -> trusted_yes ch2 r2 load f g d2 t2 u2 -> trusted_no ch3 r3 load e g d3 s3 u3 ->
  (forall a, is_output s1 a -> is_output u2 a -> is_output t1 a) -> (forall a, is_input s1 a -> is_input u2 a -> is_input t1 a) ->
  yes ch1 r1 load e f -> yes ch2 r2 load f g -> ~ no ch3 r3 load e g.
Proof.
  intros ch1 ch2 ch3 r1 r2 r3 load e f g d1 s1 t1 d2 t2 u2 d3 s3 u3 L T1 T2 T3 Ho Hi Y1 Y2. apply (no_right ch3 r3 load e g d3 s3 u3 L T3).
  apply (C62_transitive load e f g d1 s1 t1 d2 t2 u2 d3 s3 u3 L (ty_names _ _ _ _ _ _ _ _ T1) (ty_names _ _ _ _ _ _ _ _ T2) (tn_names _ _ _ _ _ _ _ _ T3) Ho Hi); eapply yes_right; eauto.
Qed.
Print Assumptions C62_answers_transitive.
(** The answers about A && B fit the answers about A and about B. *)
Theorem C62_answers_conjunction : forall ch1 ch2 ch3 r1 r2 r3 load x a b d1 x1 a1 d2 x2 b2 d3 x3 c3, loadable load ->
  names_two load x a d1 x1 a1 -> names_two load x b d2 x2 b2 -> names_two load x (XConj a b) d3 x3 c3 -> has_quotient a && has_quotient b = false ->
  deterministic d1 x1 -> accepting d1 a1 -> accepting d2 b2 -> can_start d3 c3 ->
  (forall k, is_output a1 k <-> is_output b2 k) -> (forall k, is_input a1 k <-> is_input b2 k) -> (forall k, is_input x1 k -> is_input a1 k) ->
  (trusted_yes ch1 r1 load x a d1 x1 a1 -> trusted_yes ch2 r2 load x b d2 x2 b2 -> trusted_no ch3 r3 load x (XConj a b) d3 x3 c3 ->
     yes ch1 r1 load x a -> yes ch2 r2 load x b -> ~ no ch3 r3 load x (XConj a b)) /\
  (trusted_no ch1 r1 load x a d1 x1 a1 -> trusted_yes ch3 r3 load x (XConj a b) d3 x3 c3 -> yes ch3 r3 load x (XConj a b) -> ~ no ch1 r1 load x a) /\
  (trusted_no ch2 r2 load x b d2 x2 b2 -> trusted_yes ch3 r3 load x (XConj a b) d3 x3 c3 -> yes ch3 r3 load x (XConj a b) -> ~ no ch2 r2 load x b).
Proof.
  intros ch1 ch2 ch3 r1 r2 r3 load x a b d1 x1 a1 d2 x2 b2 d3 x3 c3 L N1 N2 N3 Q De A1 A2 St Ho Hi Hx.
  pose proof (C62_conjunction load x a b d1 x1 a1 d2 x2 b2 d3 x3 c3 L N1 N2 N3 Q De A1 A2 St Ho Hi Hx) as I. split; [|split].
  - intros T1 T2 T3 Y1 Y2. apply (no_right _ _ _ _ _ _ _ _ L T3), I. split; eapply yes_right; eauto.
  - intros T1 T3 Y. apply (no_right _ _ _ _ _ _ _ _ L T1), I. eapply yes_right; eauto.
  - intros T2 T3 Y. apply (no_right _ _ _ _ _ _ _ _ L T2), I. eapply yes_right; eauto.
Qed.
Print Assumptions C62_answers_conjunction.

(** The answers about compositions fit the answers about their parts. *)
Theorem C62_answers_composition : forall ch1 ch2 ch3 r1 r2 r3 load ea1 ea2 eb1 eb2 d1 a1 a2 d2 b1 b2 d3 s3 t3, loadable load ->
  trusted_yes ch1 r1 load ea1 ea2 d1 a1 a2 -> trusted_yes ch2 r2 load eb1 eb2 d2 b1 b2 -> trusted_no ch3 r3 load (XPar ea1 eb1) (XPar ea2 eb2) d3 s3 t3 ->
  (has_quotient ea1 || has_quotient ea2) && (has_quotient eb1 || has_quotient eb2) = false ->
  io_disjoint a1 -> io_disjoint a2 -> io_disjoint b1 -> io_disjoint b2 -> alphabets_fit a1 a2 -> alphabets_fit b1 b2 ->
  (forall k, is_output a1 k -> ~ is_output a2 k -> ~ is_action b1 k) -> (forall k, is_output b1 k -> ~ is_output b2 k -> ~ is_action a2 k) ->
  deterministic d1 a1 -> deterministic d2 b1 -> accepting d1 a2 -> accepting d2 b2 -> can_start d1 a2 -> can_start d2 b1 -> can_start d2 b2 ->
  yes ch1 r1 load ea1 ea2 -> yes ch2 r2 load eb1 eb2 -> ~ no ch3 r3 load (XPar ea1 eb1) (XPar ea2 eb2).
Proof.
  intros ch1 ch2 ch3 r1 r2 r3 load ea1 ea2 eb1 eb2 d1 a1 a2 d2 b1 b2 d3 s3 t3 L T1 T2 T3 Q I1 I2 I3 I4 F1 F2 C1 C2 D1 D2 A1 A2 S1 S2 S3 Y1 Y2.
  apply (no_right _ _ _ _ _ _ _ _ L T3).
  apply (C62_composition load ea1 ea2 eb1 eb2 d1 a1 a2 d2 b1 b2 d3 s3 t3 L (ty_names _ _ _ _ _ _ _ _ T1) (ty_names _ _ _ _ _ _ _ _ T2) (tn_names _ _ _ _ _ _ _ _ T3)); auto; eapply yes_right; eauto.
Qed.
Print Assumptions C62_answers_composition.
(** The answers about X <= T \\ S fit the answers about S || X <= T. *)
Theorem C62_answers_quotient : forall ch1 ch2 r1 r2 load x t s d1 x1 q1 d2 c2 t2 d3 s3, loadable load ->
  names_two load x (XQuot t s) d1 x1 q1 -> names_two load (XPar s x) t d2 c2 t2 -> names_one load s d3 s3 ->
  has_quotient t && has_quotient s = false -> has_quotient s && has_quotient x = false -> alphabets_fit x1 q1 -> (forall k, is_input x1 k -> is_input t2 k \/ is_output s3 k) ->
  deterministic d3 s3 -> accepting d3 s3 -> can_start d3 s3 -> deterministic d1 x1 ->
  (lively d1 x1 (is_output q1) -> trusted_yes ch1 r1 load x (XQuot t s) d1 x1 q1 -> trusted_no ch2 r2 load (XPar s x) t d2 c2 t2 ->
     yes ch1 r1 load x (XQuot t s) -> ~ no ch2 r2 load (XPar s x) t) /\
  (no_gaps d3 s3 -> deterministic d2 t2 -> accepting d1 x1 -> can_start d1 x1 -> io_disjoint q1 ->
     trusted_no ch1 r1 load x (XQuot t s) d1 x1 q1 -> trusted_yes ch2 r2 load (XPar s x) t d2 c2 t2 ->
     yes ch2 r2 load (XPar s x) t -> ~ no ch1 r1 load x (XQuot t s)).
Proof.
  intros ch1 ch2 r1 r2 load x t s d1 x1 q1 d2 c2 t2 d3 s3 L N1 N2 N3 Q1 Q2 F Hx Ds As Cs Dx.
  destruct (C62_quotient load x t s d1 x1 q1 d2 c2 t2 d3 s3 L N1 N2 N3 Q1 Q2 F Hx Ds As Cs Dx) as [H1 H2]. split.
  - intros Lv T1 T2 Y. apply (no_right _ _ _ _ _ _ _ _ L T2), (H1 Lv). eapply yes_right; eauto.
  - intros Ng Dt Ax Cx Io T1 T2 Y. apply (no_right _ _ _ _ _ _ _ _ L T1), (H2 Ng Dt Ax Cx Io). eapply yes_right; eauto.
Qed.
Print Assumptions C62_answers_quotient.
(** Order and grouping are never reported to make a difference. *)
Theorem C62_answers_order : forall ch reduce load a b d s t e f, loadable load -> has_quotient a && has_quotient b = false -> can_start d s ->
  (e = XConj a b /\ f = XConj b a) \/ (e = XPar a b /\ f = XPar b a) -> trusted_no ch reduce load e f d s t -> ~ no ch reduce load e f.
Proof.
  intros ch reduce load a b d s t e f L Q St Sh T. apply (no_right _ _ _ _ _ _ _ _ L T). pose proof (tn_names _ _ _ _ _ _ _ _ T) as N.
  apply (C62_order load a b d s t L Q St). destruct Sh as [[-> ->]|[-> ->]]; auto.
Qed.
Print Assumptions C62_answers_order.
Theorem C62_answers_grouping : forall ch reduce load a b c d s t e f, loadable load ->
  has_quotient a && has_quotient b = false -> has_quotient a && has_quotient c = false -> has_quotient b && has_quotient c = false -> can_start d s ->
  (e = XConj (XConj a b) c /\ f = XConj a (XConj b c)) \/ (e = XPar (XPar a b) c /\ f = XPar a (XPar b c)) -> trusted_no ch reduce load e f d s t -> ~ no ch reduce load e f.
Proof.
  intros ch reduce load a b c d s t e f L Q1 Q2 Q3 St Sh T. apply (no_right _ _ _ _ _ _ _ _ L T). pose proof (tn_names _ _ _ _ _ _ _ _ T) as N.
  apply (C62_grouping load a b c d s t L Q1 Q2 Q3 St). destruct Sh as [[-> ->]|[-> ->]]; auto.
Qed.
Print Assumptions C62_answers_grouping.

(** *** Examples *)
Definition two (load : string -> option component) (e f : sysx) : res (nat * ts * ts) :=
  do (l, st) <- get_system_recipe load e (0, None); do (r, z) <- get_system_recipe load f st; do (s, t) <- compile_two unchecked unchecked (fst z) l r; Ok (fst z + 1, s, t).
Lemma two_names load e f d s t : two load e f = Ok (d, s, t) -> names_two load e f d s t.
Proof.
  unfold two. intros E. apply bind_ok in E. destruct E as ([l st] & E1 & E). apply bind_ok in E. destruct E as ([r [dim q]] & E2 & E). apply bind_ok in E. destruct E as ([s0 t0] & E3 & E).
  injection E as <- <- <-. exists l, st, r, dim, q. auto.
Qed.
Lemma ok_good load e f d s t : loadable load -> two load e f = Ok (d, s, t) -> good d s /\ good d t.
Proof.
  intros L E. destruct (beside_placed _ _ _ _ _ _ (names_two_beside _ _ _ _ _ _ L (two_names _ _ _ _ _ _ E))) as [P1 P2]. split; eapply placed_good; eauto.
Qed.
Lemma det_ok d s : good d s -> no_reserved s = true -> plain_divisors s = true -> check_determinism d no_ext same_ord 100 s = Ok None -> deterministic d s.
Proof. intros [B R (q & K)] N P H. apply (C16_determinism_sound_partial d q no_ext same_ord 100 s); auto. intros p l a. reflexivity. Qed.
Lemma start_ok d s : match initial_location d s with Some l => lt_inv l = None | None => False end -> can_start d s.
Proof. destruct (initial_location d s) as [l|] eqn:E; [|contradiction]. intros H. exists l. split; [exact E|apply no_inv_zero, H]. Qed.
Definition insideb (d : nat) (s : ts) : bool :=
  forallb (fun l => forallb (fun a => match next_transitions d s l a with Ok ts => forallb (fun t => fsubset d (t_guard t) (allowed_fed d t)) ts | _ => true end) (ts_inputs s ++ ts_outputs s)) (all_locations d s).
Lemma inside_ok d s : good d s -> insideb d s = true -> enters_inside d s.
Proof.
  intros G H l a t v Hl O Gv. unfold insideb in H. rewrite forallb_forall in H. specialize (H l Hl). rewrite forallb_forall in H.
  pose proof O as [Ha (ts & E & Ht)]. assert (Ia : In a (ts_inputs s ++ ts_outputs s)) by (apply in_or_app; destruct Ha; auto). specialize (H a Ia). rewrite E, forallb_forall in H.
  specialize (H t Ht). rewrite fsubset_true in H. specialize (H v Gv). destruct (LawFacts.offered_dep d s l a t G Hl O) as ([U C] & _). apply allowed_fed_sem in H; [|exact U|exact C]. apply H.
Qed.
Lemma yes_ok load e f d s t : loadable load -> two load e f = Ok (d, s, t) -> (Z.of_nat d <? 4294967295)%Z = true -> has_quotient e && has_quotient f = false ->
  forallb (upperb d) (all_locations d t) = true ->
  match initial_location d s, initial_location d t with Some l1, Some l2 => lt_inv l1 = None /\ lt_inv l2 = None | _, _ => False end ->
  trusted_yes (plain_choices 30) false load e f d s t.
Proof.
  intros L E Sm Q U I. constructor; [apply plain_fair|apply two_names, E|apply Z.ltb_lt, Sm|exact Q|discriminate|apply no_gaps_upper', upper_check, U|].
  destruct (initial_location d s) as [l1|] eqn:E1; [|contradiction]. destruct (initial_location d t) as [l2|] eqn:E2; [|contradiction]. destruct I as [I1 I2].
  apply starts_free; intros l El; [rewrite E1 in El|rewrite E2 in El]; injection El as <-; [apply no_inv_zero|]; assumption.
Qed.
Lemma no_ok load e f d s t : loadable load -> two load e f = Ok (d, s, t) -> (Z.of_nat d <? 4294967295)%Z = true -> has_quotient e && has_quotient f = false ->
  forallb (upperb d) (all_locations d s) = true -> forallb (upperb d) (all_locations d t) = true -> insideb d t = true ->
  no_reserved s && no_reserved t && plain_divisors s && plain_divisors t = true -> trusted_no (plain_choices 30) false load e f d s t.
Proof.
  intros L E Sm Q U1 U2 In P. apply andb_true_iff in P. destruct P as [P P4]. apply andb_true_iff in P. destruct P as [P P3]. apply andb_true_iff in P. destruct P as [P1 P2].
  constructor; [apply plain_fair|apply two_names, E|apply Z.ltb_lt, Sm|exact Q|discriminate|exists Exact; apply plain_explores|split; apply upper_check; assumption|
    apply inside_ok; [eapply ok_good; eauto|exact In]|auto].
Qed.

(** Components that answer i with o: X between 3 and 4, A between 2 and 5, B between 3 and 6, G between 1 and 7. *)
Definition replying (name : string) (lo hi : Z) : component :=
  mkComp name (mkDecls [("x", 1)] [])
    [mkL "W" None Initial "NORMAL"; mkL "A" (Some (BLessEQ (AVar "x") (AInt hi))) Normal "NORMAL"]
    [mkE "E1" "W" "A" SInput None (Some [("x", AInt 0)]) "i"; mkE "E2" "A" "W" SOutput (Some (BGreatEQ (AVar "x") (AInt lo))) None "o";
     mkE "E3" "A" "A" SInput None (Some [("x", AInt 0)]) "i"] None.
(** T answers i with o between 2 and 5; S passes i on as m between 2 and 3; R answers m with o within 1. *)
Definition shop : list component :=
  [replying "X" 3 4; replying "A" 2 5; replying "B" 3 6; replying "G" 1 7; asking "C" "x" 1 2; asking "D" "x" 1 1;
   stage "T" "x" 1 "i" "o" 2 5; stage "S" "x" 1 "i" "m" 2 3; stage "R" "x" 1 "m" "o" 0 1].
Definition shop_load (n : string) : option component := find (fun c => String.eqb (c_name c) n) shop.
Lemma shop_loadable : loadable shop_load.
Proof.
  intros n c H. apply find_some in H. destruct H as [H _]. cbn in H.
  repeat (destruct H as [<-|H]; [split; [split; [repeat constructor; cbn; intuition discriminate|split; [repeat constructor; cbn; intuition discriminate|intros x i [[= <- <-]|[]]; cbn; lia]]|];
    split; [intros e us He; cbn in He; repeat (destruct He as [<-|He]; [cbn; first [discriminate|intros [= <-]; (split; [intros x k [[= <- <-]|[]]; lia|intros x a b [[= <- <-]|[]] [[= <-]|[]]; reflexivity])]|]); destruct He|
    split; [intros l g Hl; cbn in Hl; repeat (destruct Hl as [<-|Hl]; [cbn; first [discriminate|intros [= <-]; reflexivity]|]); destruct Hl
           |intros e g He; cbn in He; repeat (destruct He as [<-|He]; [cbn; first [discriminate|intros [= <-]; reflexivity]|]); destruct He]]|]).
  destruct H.
Qed.

Definition nm (n : string) : sysx := XComp n None.
Definition none3 : nat * ts * ts := (0, ts_m, ts_m).
Definition shop_two (e f : sysx) : nat * ts * ts := get none3 (two shop_load e f).
Definition xa := Eval vm_compute in shop_two (nm "X") (nm "A").
Definition ag := Eval vm_compute in shop_two (nm "A") (nm "G").
Definition xg := Eval vm_compute in shop_two (nm "X") (nm "G").
Definition xb := Eval vm_compute in shop_two (nm "X") (nm "B").
Definition xab := Eval vm_compute in shop_two (nm "X") (XConj (nm "A") (nm "B")).
Definition aa := Eval vm_compute in shop_two (nm "A") (nm "A").
Definition abba := Eval vm_compute in shop_two (XConj (nm "A") (nm "B")) (XConj (nm "B") (nm "A")).
Definition cd := Eval vm_compute in shop_two (nm "C") (nm "D").
Definition xcad := Eval vm_compute in shop_two (XPar (nm "X") (nm "C")) (XPar (nm "A") (nm "D")).
Definition one_dim (p : nat * ts * ts) : nat := fst (fst p).
Definition one_s (p : nat * ts * ts) : ts := snd (fst p).
Definition one_t (p : nat * ts * ts) : ts := snd p.
Definition told (ch : choices) (load : string -> option component) (e f : sysx) : bool := match run_query ch false load (QRefinement e f) with Ok a => satisfied a | _ => false end.
Lemma told_yes ch load e f : told ch load e f = true -> yes ch false load e f.
Proof. unfold told, yes. destruct (run_query ch false load (QRefinement e f)) as [a| | |]; try discriminate. eauto. Qed.
Ltac two_ok := vm_compute; reflexivity.
Example C61_nonvacuous : loadable shop_load /\ (exists s, names_one shop_load (nm "A") 2 s) /\ names_two shop_load (nm "A") (nm "G") 3 (one_s ag) (one_t ag) /\ names_two shop_load (nm "X") (nm "A") 3 (one_s xa) (one_t xa) /\
  one_s ag <> one_t xa.
Proof.
  split; [exact shop_loadable|]. split; [exists (get ts_m (compile unchecked unchecked 1 (get (RSimple (replying "A" 2 5)) (rmap fst (get_system_recipe shop_load (nm "A") (0, None)))))), (get (RSimple (replying "A" 2 5)) (rmap fst (get_system_recipe shop_load (nm "A") (0, None)))), 1, None; repeat split; vm_compute; reflexivity|].
  split; [apply two_names; two_ok|]. split; [apply two_names; two_ok|]. vm_compute. discriminate.
Qed.
(** X <= A, A <= G: so X <= G is not denied. *)
Example C62_transitive_nonvacuous :
  trusted_yes (plain_choices 30) false shop_load (nm "X") (nm "A") 3 (one_s xa) (one_t xa) /\ trusted_yes (plain_choices 30) false shop_load (nm "A") (nm "G") 3 (one_s ag) (one_t ag) /\
  trusted_no (plain_choices 30) false shop_load (nm "X") (nm "G") 3 (one_s xg) (one_t xg) /\
  (forall a, is_output (one_s xa) a -> is_output (one_t ag) a -> is_output (one_t xa) a) /\ (forall a, is_input (one_s xa) a -> is_input (one_t ag) a -> is_input (one_t xa) a) /\
  yes (plain_choices 30) false shop_load (nm "X") (nm "A") /\ yes (plain_choices 30) false shop_load (nm "A") (nm "G").
Proof.
  split; [apply yes_ok; first [exact shop_loadable|two_ok|vm_compute; auto]|]. split; [apply yes_ok; first [exact shop_loadable|two_ok|vm_compute; auto]|].
  split; [apply no_ok; first [exact shop_loadable|two_ok]|]. split; [intros a; vm_compute; auto|]. split; [intros a; vm_compute; auto|].
  split; apply told_yes; vm_compute; reflexivity.
Qed.
Example C62_reflexive_nonvacuous : trusted_no (plain_choices 30) false shop_load (nm "A") (nm "A") 3 (one_s aa) (one_t aa) /\ can_start 3 (one_s aa) /\ one_s aa <> one_t aa.
Proof. split; [apply no_ok; first [exact shop_loadable|two_ok]|]. split; [apply start_ok; vm_compute; reflexivity|vm_compute; discriminate]. Qed.
(** X <= A and X <= B; both answers are "satisfied", and so is the one to X <= A && B. *)
Example C62_conjunction_nonvacuous :
  trusted_yes (plain_choices 30) false shop_load (nm "X") (nm "A") 3 (one_s xa) (one_t xa) /\ trusted_yes (plain_choices 30) false shop_load (nm "X") (nm "B") 3 (one_s xb) (one_t xb) /\
  trusted_no (plain_choices 30) false shop_load (nm "X") (XConj (nm "A") (nm "B")) 4 (one_s xab) (one_t xab) /\ trusted_yes (plain_choices 30) false shop_load (nm "X") (XConj (nm "A") (nm "B")) 4 (one_s xab) (one_t xab) /\
  has_quotient (nm "A") && has_quotient (nm "B") = false /\ deterministic 3 (one_s xa) /\ accepting 3 (one_t xa) /\ accepting 3 (one_t xb) /\ can_start 4 (one_t xab) /\
  (forall k, is_output (one_t xa) k <-> is_output (one_t xb) k) /\ (forall k, is_input (one_t xa) k <-> is_input (one_t xb) k) /\ (forall k, is_input (one_s xa) k -> is_input (one_t xa) k) /\
  yes (plain_choices 30) false shop_load (nm "X") (nm "A") /\ yes (plain_choices 30) false shop_load (nm "X") (nm "B") /\ yes (plain_choices 30) false shop_load (nm "X") (XConj (nm "A") (nm "B")).
Proof.
  destruct (ok_good shop_load (nm "X") (nm "A") 3 (one_s xa) (one_t xa) shop_loadable ltac:(two_ok)) as [G1 G2]. destruct (ok_good shop_load (nm "X") (nm "B") 3 (one_s xb) (one_t xb) shop_loadable ltac:(two_ok)) as [G3 G4].
  split; [apply yes_ok; first [exact shop_loadable|two_ok|vm_compute; auto]|]. split; [apply yes_ok; first [exact shop_loadable|two_ok|vm_compute; auto]|].
  split; [apply no_ok; first [exact shop_loadable|two_ok]|]. split; [apply yes_ok; first [exact shop_loadable|two_ok|vm_compute; auto]|]. split; [reflexivity|].
  split; [apply det_ok; first [exact G1|two_ok]|]. split; [apply accepting_check; first [exact G2|two_ok]|]. split; [apply accepting_check; first [exact G4|two_ok]|].
  split; [apply start_ok; vm_compute; reflexivity|]. do 3 (split; [intros k; vm_compute; tauto|]). repeat split; apply told_yes; vm_compute; reflexivity.
Qed.
(** X <= A and C <= D, so X || C <= A || D is not denied. *)
Example C62_composition_nonvacuous :
  trusted_yes (plain_choices 30) false shop_load (nm "X") (nm "A") 3 (one_s xa) (one_t xa) /\ trusted_yes (plain_choices 30) false shop_load (nm "C") (nm "D") 3 (one_s cd) (one_t cd) /\
  trusted_no (plain_choices 30) false shop_load (XPar (nm "X") (nm "C")) (XPar (nm "A") (nm "D")) 5 (one_s xcad) (one_t xcad) /\
  io_disjoint (one_s xa) /\ io_disjoint (one_t xa) /\ io_disjoint (one_s cd) /\ io_disjoint (one_t cd) /\ alphabets_fit (one_s xa) (one_t xa) /\ alphabets_fit (one_s cd) (one_t cd) /\
  (forall k, is_output (one_s xa) k -> ~ is_output (one_t xa) k -> ~ is_action (one_s cd) k) /\ (forall k, is_output (one_s cd) k -> ~ is_output (one_t cd) k -> ~ is_action (one_t xa) k) /\
  deterministic 3 (one_s xa) /\ deterministic 3 (one_s cd) /\ accepting 3 (one_t xa) /\ accepting 3 (one_t cd) /\ can_start 3 (one_t xa) /\ can_start 3 (one_s cd) /\ can_start 3 (one_t cd) /\
  yes (plain_choices 30) false shop_load (nm "X") (nm "A") /\ yes (plain_choices 30) false shop_load (nm "C") (nm "D").
Proof.
  destruct (ok_good shop_load (nm "X") (nm "A") 3 (one_s xa) (one_t xa) shop_loadable ltac:(two_ok)) as [G1 G2]. destruct (ok_good shop_load (nm "C") (nm "D") 3 (one_s cd) (one_t cd) shop_loadable ltac:(two_ok)) as [G3 G4].
  split; [apply yes_ok; first [exact shop_loadable|two_ok|vm_compute; auto]|]. split; [apply yes_ok; first [exact shop_loadable|two_ok|vm_compute; auto]|].
  split; [apply no_ok; first [exact shop_loadable|two_ok]|].
  assert (I : io_disjoint (one_s xa) /\ io_disjoint (one_t xa) /\ io_disjoint (one_s cd) /\ io_disjoint (one_t cd)) by (repeat split; intros k; apply apart_check; reflexivity).
  destruct I as (I1 & I2 & I3 & I4). do 4 (split; [assumption|]). do 2 (split; [apply fit_check; [reflexivity|reflexivity|assumption]|]). do 2 (split; [intros k H N; destruct (N H)|]).
  split; [apply det_ok; first [exact G1|two_ok]|]. split; [apply det_ok; first [exact G3|two_ok]|]. split; [apply accepting_check; first [exact G2|two_ok]|]. split; [apply accepting_check; first [exact G4|two_ok]|].
  do 3 (split; [apply start_ok; vm_compute; reflexivity|]). split; apply told_yes; vm_compute; reflexivity.
Qed.
Definition rq := Eval vm_compute in shop_two (nm "R") (XQuot (nm "T") (nm "S")).
Definition srt := Eval vm_compute in shop_two (XPar (nm "S") (nm "R")) (nm "T").
Definition s_recipe : recipe := Eval vm_compute in get (RSimple (replying "A" 2 5)) (rmap fst (get_system_recipe shop_load (nm "S") (0, None))).
Definition s_alone : ts := Eval vm_compute in get ts_m (compile unchecked unchecked 1 s_recipe).
(** S || R <= T is answered with "satisfied", so R <= T \\ S is not denied. *)
Example C62_quotient_nonvacuous :
  let x1 := one_s rq in let q1 := one_t rq in let c2 := one_s srt in let t2 := one_t srt in
  names_two shop_load (nm "R") (XQuot (nm "T") (nm "S")) 5 x1 q1 /\ trusted_yes (plain_choices 30) false shop_load (XPar (nm "S") (nm "R")) (nm "T") 4 c2 t2 /\ names_one shop_load (nm "S") 2 s_alone /\
  alphabets_fit x1 q1 /\ (forall k, is_input x1 k -> is_input t2 k \/ is_output s_alone k) /\
  deterministic 2 s_alone /\ accepting 2 s_alone /\ can_start 2 s_alone /\ deterministic 5 x1 /\ lively 5 x1 (is_output q1) /\
  no_gaps 2 s_alone /\ deterministic 4 t2 /\ accepting 5 x1 /\ can_start 5 x1 /\ io_disjoint q1 /\ yes (plain_choices 30) false shop_load (XPar (nm "S") (nm "R")) (nm "T") /\
  refines 4 c2 t2 /\ refines 5 x1 q1.
Proof.
  cbv zeta. destruct (ok_good shop_load (nm "R") (XQuot (nm "T") (nm "S")) 5 (one_s rq) (one_t rq) shop_loadable ltac:(two_ok)) as [G1 G2].
  destruct (ok_good shop_load (XPar (nm "S") (nm "R")) (nm "T") 4 (one_s srt) (one_t srt) shop_loadable ltac:(two_ok)) as [G3 G4].
  assert (N1 : names_two shop_load (nm "R") (XQuot (nm "T") (nm "S")) 5 (one_s rq) (one_t rq)) by (apply two_names; two_ok).
  assert (T2 : trusted_yes (plain_choices 30) false shop_load (XPar (nm "S") (nm "R")) (nm "T") 4 (one_s srt) (one_t srt)) by (apply yes_ok; first [exact shop_loadable|two_ok|vm_compute; auto]).
  assert (N3 : names_one shop_load (nm "S") 2 s_alone) by (exists s_recipe, 1, None; repeat split; vm_compute; reflexivity).
  assert (G5 : good 2 s_alone) by (apply (placed_good shop_load (nm "S")); [exact shop_loadable|apply names_one_placed; [exact shop_loadable|exact N3]]).
  assert (F : alphabets_fit (one_s rq) (one_t rq)) by (split; [|split; [|split]]; intros k; [apply apart_check|apply apart_check|apply subset_check|apply subset_check]; reflexivity).
  assert (Hx : forall k, is_input (one_s rq) k -> is_input (one_t srt) k \/ is_output s_alone k) by (intros k [<-|[]]; right; left; reflexivity).
  assert (Ds : deterministic 2 s_alone) by (apply det_ok; first [exact G5|two_ok]). assert (As : accepting 2 s_alone) by (apply accepting_check; first [exact G5|two_ok]).
  assert (Cs : can_start 2 s_alone) by (apply start_ok; vm_compute; reflexivity). assert (Dx : deterministic 5 (one_s rq)) by (apply det_ok; first [exact G1|two_ok]).
  assert (Lx : lively 5 (one_s rq) (is_output (one_t rq))) by (apply (lively_check 5 (one_s rq) (ts_outputs (one_t rq))); [exact G1|intros k; apply subset_check; reflexivity|vm_compute; reflexivity]).
  assert (Ng : no_gaps 2 s_alone) by (apply no_gaps_upper', upper_check; vm_compute; reflexivity). assert (Dt : deterministic 4 (one_t srt)) by (apply det_ok; first [exact G4|two_ok]).
  assert (Ax : accepting 5 (one_s rq)) by (apply accepting_check; first [exact G1|two_ok]). assert (Cx : can_start 5 (one_s rq)) by (apply start_ok; vm_compute; reflexivity).
  assert (Iq : io_disjoint (one_t rq)) by (intros k; apply apart_check; reflexivity).
  assert (Y : yes (plain_choices 30) false shop_load (XPar (nm "S") (nm "R")) (nm "T")) by (apply told_yes; vm_compute; reflexivity).
  assert (R : refines 4 (one_s srt) (one_t srt)) by (eapply yes_right; [exact shop_loadable|exact T2|exact Y]).
  do 17 (split; [assumption|]).
  apply (C62_quotient shop_load (nm "R") (nm "T") (nm "S") 5 (one_s rq) (one_t rq) 4 (one_s srt) (one_t srt) 2 s_alone shop_loadable N1 (ty_names _ _ _ _ _ _ _ _ T2) N3 eq_refl eq_refl F Hx Ds As Cs Dx); assumption.
Qed.
Example C62_order_nonvacuous : trusted_no (plain_choices 30) false shop_load (XConj (nm "A") (nm "B")) (XConj (nm "B") (nm "A")) 5 (one_s abba) (one_t abba) /\ can_start 5 (one_s abba).
Proof. split; [apply no_ok; first [exact shop_loadable|two_ok]|apply start_ok; vm_compute; reflexivity]. Qed.
Definition grouped := Eval vm_compute in shop_two (XConj (XConj (nm "A") (nm "B")) (nm "X")) (XConj (nm "A") (XConj (nm "B") (nm "X"))).
Example C62_grouping_nonvacuous : trusted_no (plain_choices 30) false shop_load (XConj (XConj (nm "A") (nm "B")) (nm "X")) (XConj (nm "A") (XConj (nm "B") (nm "X"))) 7 (one_s grouped) (one_t grouped) /\ can_start 7 (one_s grouped).
Proof. split; [apply no_ok; first [exact shop_loadable|two_ok]|apply start_ok; vm_compute; reflexivity]. Qed.
