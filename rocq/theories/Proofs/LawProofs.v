(** Conjunction is the greatest lower bound of its operands; composition preserves refinement. *)
From Coq Require Import List String ZArith QArith Bool Arith Lia Lqa.
From Verif Require Import Fed.Zone Fed.ZoneFacts Model.Base Model.Expr Model.Guard Model.Loc Model.Component Model.TS
  Spec.StepSpec Spec.SystemSpec Spec.RunSpec Spec.RefineSpec Spec.LawSpec
  Proofs.GuardFacts Proofs.StepFacts Proofs.SystemFacts Proofs.QuotientFacts Proofs.WfFacts Proofs.RunFacts Proofs.ReadsFacts Proofs.LawFacts.
Import ListNotations.
Local Open Scope Q_scope.

Section Laws.
Variable dim : nat.
Notation can := (can dim). Notation like := (like dim). Notation both := (both dim).
Notation good := (good dim). Notation inv_at := (inv_at dim). Notation reachable := (reachable dim). Notation part := (part dim).

Lemma zero_ok : val_ok dim zero_val.
Proof. split; [reflexivity|]. intros i _. unfold zero_val. lra. Qed.

(** *** The operands of a conjunction are above it *)
Theorem conj_below A B s : good A -> good B -> separate A B -> conjunction_new A B = Ok s ->
  accepting dim B -> (forall a, is_input A a -> is_input B a) -> can_start dim s -> refines dim s A.
Proof.
  intros GA GB Sep E Acc Hin St. pose proof (conj_start dim A B GA GB s E) as Cs. unfold refines. destruct St as (l & El & I0). rewrite El in *. destruct Cs as (lA0 & lB0 & EA & EB & Hb0). rewrite EA.
  exists (fun loc w lA vA => exists lB vB, both A B loc lA lB /\ like A w vA /\ like B w vB /\ inv_at lA vA /\ inv_at lB vB /\ reachable B lB vB). split.
  2:{ exists lB0, zero_val. split; [exact Hb0|]. split; [apply like_refl, zero_ok|]. split; [apply like_refl, zero_ok|].
      destruct Hb0 as (_ & _ & _ & _ & I). apply I in I0. split; [apply I0|]. split; [apply I0|]. apply start_reach; tauto. }
  apply refinement_can. intros loc w lA vA (lB & vB & Hb & LA & LB & IA & IB & Rb).
  assert (IW : inv_at loc w).
  { apply Hb. split; [eapply inv_like; [exact GA|apply Hb|apply like_sym, LA|exact IA]|eapply inv_like; [exact GB|apply Hb|apply like_sym, LB|exact IB]]. }
  split; [exact IW|]. split; [exact IA|]. split; [|split].
  - intros a loc' w' Oa C. destruct (conj_can dim A B GA GB Sep s E loc lA lB w a loc' w' Hb C) as (lA' & lB' & wA & wB & CA & CB & Hb' & LA' & LB').
    destruct (can_like dim A _ _ _ _ _ _ GA (proj1 Hb) LA CA) as (vA' & CA2 & LA2). destruct (can_like dim B _ _ _ _ _ _ GB (proj1 (proj2 Hb)) LB CB) as (vB' & CB2 & LB2).
    assert (G : exists lB0 vB0, both A B loc' lA' lB0 /\ like A w' vA' /\ like B w' vB0 /\ inv_at lA' vA' /\ inv_at lB0 vB0 /\ reachable B lB0 vB0).
    { exists lB', vB'. split; [exact Hb'|]. split; [eapply like_trans; eauto|]. split; [eapply like_trans; eauto|].
      split; [apply (can_in dim A _ _ _ _ _ GA (proj1 Hb) CA2)|]. split; [apply (can_in dim B _ _ _ _ _ GB (proj1 (proj2 Hb)) CB2)|]. eapply can_reach; eauto. }
    split; [intros _; exists lA', vA'; auto|]. intros N. exfalso. apply N. apply (conj_alphabet A B s E a), Oa.
  - intros a lA' vA' Ia CA. pose proof (Hin a Ia) as Ib. destruct (Acc lB vB a Rb Ib) as (t & O & Ab).
    assert (CB : can B lB vB a (t_target t) (run_updates (t_updates t) vB)) by (exists t; auto).
    assert (Is : is_input s a) by (apply (conj_alphabet A B s E a); auto).
    destruct (can_like dim A _ _ _ _ _ _ GA (proj1 Hb) (like_sym _ _ _ _ LA) CA) as (wA & CA2 & LA2). destruct (can_like dim B _ _ _ _ _ _ GB (proj1 (proj2 Hb)) (like_sym _ _ _ _ LB) CB) as (wB & CB2 & LB2).
    destruct (conj_can_join dim A B GA GB Sep s E loc lA lB w a _ _ _ _ Hb (or_introl Is) CA2 CB2) as (loc' & w' & C & Hb' & L1 & L2).
    split; [|contradiction]. intros _. exists loc', w'. split; [exact C|]. exists (t_target t), (run_updates (t_updates t) vB). split; [exact Hb'|].
    split; [eapply like_trans; [exact L1|apply like_sym, LA2]|]. split; [eapply like_trans; [exact L2|apply like_sym, LB2]|].
    split; [apply (can_in dim A _ _ _ _ _ GA (proj1 Hb) CA)|]. split; [apply (can_in dim B _ _ _ _ _ GB (proj1 (proj2 Hb)) CB)|]. eapply can_reach; eauto.
  - intros d Hd H. exists lB, (vdelay vB d). split; [exact Hb|]. split; [apply like_delay; assumption|]. split; [apply like_delay; assumption|].
    assert (X : forall e, 0 <= e -> e <= d -> inv_at lA (vdelay vA e) /\ inv_at lB (vdelay vB e)).
    { intros e He1 He2. pose proof (H e He1 He2) as I. apply Hb in I. destruct I as [I1 I2].
      split; [eapply inv_like; [exact GA|apply Hb|apply like_delay; [exact He1|exact LA]|exact I1]|eapply inv_like; [exact GB|apply Hb|apply like_delay; [exact He1|exact LB]|exact I2]]. }
    split; [apply X; lra|]. split; [apply X; lra|]. apply delay_reach; [exact Rb|exact Hd|]. intros e He1 He2. apply X; assumption.
Qed.

(** *** The conjunction is above whatever both operands are above *)
Theorem conj_above X A B s : good X -> good A -> good B -> separate A B -> conjunction_new A B = Ok s ->
  deterministic dim X -> (forall a, is_output X a -> (is_output A a <-> is_output B a)) -> (forall a, is_input X a -> is_input s a) ->
  refines dim X A -> refines dim X B -> refines dim X s.
Proof.
  intros GX GA GB Sep E D Hout Hin RA RB. pose proof (conj_start dim A B GA GB s E) as Cs. unfold refines in *.
  destruct (initial_location dim X) as [x0|] eqn:EX.
  2:{ destruct (initial_location dim A), (initial_location dim B); try contradiction. destruct (initial_location dim s); [|exact I]. destruct Cs as (? & ? & ? & _). discriminate. }
  destruct (initial_location dim A) as [a0|] eqn:EA; [|contradiction]. destruct (initial_location dim B) as [b0|] eqn:EB; [|contradiction].
  destruct (initial_location dim s) as [l|] eqn:El; [|destruct Cs; discriminate]. destruct Cs as (lA0 & lB0 & Ea & Eb & Hb0). injection Ea as <-. injection Eb as <-.
  destruct RA as (R1 & H1 & Z1), RB as (R2 & H2 & Z2). rewrite refinement_can in H1, H2.
  exists (fun lX vX loc w => exists lA vA lB vB, both A B loc lA lB /\ like A w vA /\ like B w vB /\ R1 lX vX lA vA /\ R2 lX vX lB vB /\ reachable X lX vX). split.
  2:{ exists a0, zero_val, b0, zero_val. split; [exact Hb0|]. split; [apply like_refl, zero_ok|]. split; [apply like_refl, zero_ok|]. split; [exact Z1|]. split; [exact Z2|].
      apply start_reach; [exact EX|]. apply (H1 _ _ _ _ Z1). }
  apply refinement_can. intros lX vX loc w (lA & vA & lB & vB & Hb & LA & LB & Q1 & Q2 & Rx).
  destruct (H1 _ _ _ _ Q1) as (IX & IA & O1 & I1 & D1). destruct (H2 _ _ _ _ Q2) as (_ & IB & O2 & I2 & D2).
  split; [exact IX|]. split; [|split; [|split]].
  - apply Hb. split; [eapply inv_like; [exact GA|apply Hb|apply like_sym, LA|exact IA]|eapply inv_like; [exact GB|apply Hb|apply like_sym, LB|exact IB]].
  - intros a lX' vX' Oa C. destruct (O1 a lX' vX' Oa C) as [Y1 N1]. destruct (O2 a lX' vX' Oa C) as [Y2 N2]. pose proof (can_reach dim X _ _ _ _ _ Rx C) as Rx'. split.
    + intros Os. pose proof Os as Os'. apply (conj_alphabet A B s E a) in Os'. destruct Os' as [OA OB].
      destruct (Y1 OA) as (lA' & vA' & CA & Q1'). destruct (Y2 OB) as (lB' & vB' & CB & Q2').
      destruct (can_like dim A _ _ _ _ _ _ GA (proj1 Hb) (like_sym _ _ _ _ LA) CA) as (wA & CA2 & LA2). destruct (can_like dim B _ _ _ _ _ _ GB (proj1 (proj2 Hb)) (like_sym _ _ _ _ LB) CB) as (wB & CB2 & LB2).
      destruct (conj_can_join dim A B GA GB Sep s E loc lA lB w a _ _ _ _ Hb (or_intror Os) CA2 CB2) as (loc' & w' & C' & Hb' & L1 & L2).
      exists loc', w'. split; [exact C'|]. exists lA', vA', lB', vB'. split; [exact Hb'|]. split; [eapply like_trans; [exact L1|apply like_sym, LA2]|]. split; [eapply like_trans; [exact L2|apply like_sym, LB2]|]. auto.
    + intros Ns. assert (Na : ~ is_output A a /\ ~ is_output B a).
      { pose proof (proj1 (proj2 (conj_alphabet A B s E a))) as F. specialize (Hout a Oa). tauto. }
      exists lA, vA, lB, vB. split; [exact Hb|]. split; [exact LA|]. split; [exact LB|]. split; [apply N1, Na|]. split; [apply N2, Na|exact Rx'].
  - intros a loc' w' Ia C. pose proof (proj1 (proj1 (conj_alphabet A B s E a)) Ia) as [IA' IB'].
    destruct (conj_can dim A B GA GB Sep s E loc lA lB w a loc' w' Hb C) as (lA' & lB' & wA & wB & CA & CB & Hb' & LA' & LB').
    destruct (can_like dim A _ _ _ _ _ _ GA (proj1 Hb) LA CA) as (vA' & CA2 & LA2). destruct (can_like dim B _ _ _ _ _ _ GB (proj1 (proj2 Hb)) LB CB) as (vB' & CB2 & LB2).
    destruct (I1 a lA' vA' IA' CA2) as [Y1 N1]. destruct (I2 a lB' vB' IB' CB2) as [Y2 N2]. split.
    + intros Ix. destruct (Y1 Ix) as (x1 & u1 & X1 & P1). destruct (Y2 Ix) as (x2 & u2 & X2 & P2). destruct (can_det dim X _ _ _ _ _ _ _ D Rx X1 X2) as [<- <-].
      exists x1, u1. split; [exact X1|]. exists lA', vA', lB', vB'. split; [exact Hb'|]. split; [eapply like_trans; eauto|]. split; [eapply like_trans; eauto|]. split; [exact P1|]. split; [exact P2|]. eapply can_reach; eauto.
    + intros Nx. exists lA', vA', lB', vB'. split; [exact Hb'|]. split; [eapply like_trans; eauto|]. split; [eapply like_trans; eauto|]. auto.
  - intros d Hd H. exists lA, (vdelay vA d), lB, (vdelay vB d). split; [exact Hb|]. split; [apply like_delay; assumption|]. split; [apply like_delay; assumption|].
    split; [apply D1; assumption|]. split; [apply D2; assumption|]. apply delay_reach; assumption.
Qed.

(** *** Composition preserves refinement *)
Definition clean (A1 A2 B : ts) : Prop := forall a, is_output A1 a -> ~ is_output A2 a -> ~ is_action B a.

Theorem comp_monotone A1 A2 B s1 s2 : good A1 -> good A2 -> good B -> separate A1 B -> separate A2 B -> io_disjoint A1 -> io_disjoint A2 -> io_disjoint B ->
  composition_new A1 B = Ok s1 -> composition_new A2 B = Ok s2 -> alphabets_fit A1 A2 -> clean A1 A2 B ->
  deterministic dim A1 -> accepting dim A2 -> can_start dim B -> refines dim A1 A2 -> refines dim s1 s2.
Proof.
  intros G1 G2 GB S1 S2 J1 J2 JB E1 E2 (F1 & F2 & F3 & F4) Cl D Acc (b0 & Eb & Ib0) Rf.
  pose proof (comp_start dim A1 B G1 GB s1 E1) as C1. pose proof (comp_start dim A2 B G2 GB s2 E2) as C2. unfold refines in *.
  destruct (initial_location dim A1) as [x1|] eqn:Ex1, (initial_location dim A2) as [x2|] eqn:Ex2; try contradiction.
  2:{ destruct (initial_location dim s1); [destruct C1 as (? & ? & ? & _); discriminate|]. destruct (initial_location dim s2); [destruct C2 as (? & ? & ? & _); discriminate|]. exact I. }
  rewrite Eb in *. destruct (initial_location dim s1) as [l1|]; [|destruct C1; discriminate]. destruct (initial_location dim s2) as [l2|]; [|destruct C2; discriminate].
  destruct C1 as (y1 & y2 & Z1 & Z2 & Hb1). injection Z1 as <-. injection Z2 as <-. destruct C2 as (y1 & y2 & Z1 & Z2 & Hb2). injection Z1 as <-. injection Z2 as <-.
  destruct Rf as (R & H & Z). rewrite refinement_can in H.
  exists (fun p w1 r w2 => exists l1 v1 l2 v2 lB vB, both A1 B p l1 lB /\ both A2 B r l2 lB /\ like A1 w1 v1 /\ like B w1 vB /\ like A2 w2 v2 /\ like B w2 vB /\
     inv_at lB vB /\ R l1 v1 l2 v2 /\ reachable A1 l1 v1 /\ reachable A2 l2 v2). split.
  2:{ destruct (H _ _ _ _ Z) as (I1 & I2 & _). exists x1, zero_val, x2, zero_val, b0, zero_val. split; [exact Hb1|]. split; [exact Hb2|]. repeat (split; [apply like_refl, zero_ok|]).
      split; [exact Ib0|]. split; [exact Z|]. split; apply start_reach; assumption. }
  apply refinement_can. intros p w1 r w2 (a1 & v1 & a2 & v2 & lB & vB & Hp & Hr & L1 & LB1 & L2 & LB2 & IB & Q & Ra1 & Ra2).
  destruct (H _ _ _ _ Q) as (I1 & I2 & Ho & Hi & Hd).
  assert (IP : inv_at p w1). { apply Hp. split; [eapply inv_like; [exact G1|apply Hp|apply like_sym, L1|exact I1]|eapply inv_like; [exact GB|apply Hp|apply like_sym, LB1|exact IB]]. }
  assert (IR : inv_at r w2). { apply Hr. split; [eapply inv_like; [exact G2|apply Hr|apply like_sym, L2|exact I2]|eapply inv_like; [exact GB|apply Hr|apply like_sym, LB2|exact IB]]. }
  split; [exact IP|]. split; [exact IR|].
  (* joining the steps of the parts *)
  assert (Left : forall a x u b z, is_action s1 a -> part A1 a1 v1 a x u -> part B lB vB a b z -> exists p' w1', can s1 p w1 a p' w1' /\ both A1 B p' x b /\ like A1 w1' u /\ like B w1' z).
  { intros a x u b z Ha P1 P2. destruct (part_like dim A1 _ _ w1 _ _ _ G1 (proj1 Hp) (like_sym _ _ _ _ L1) P1) as (u' & P1' & X1). destruct (part_like dim B _ _ w1 _ _ _ GB (proj1 (proj2 Hp)) (like_sym _ _ _ _ LB1) P2) as (z' & P2' & X2).
    destruct (comp_can_join dim A1 B G1 GB S1 s1 E1 p a1 lB w1 a x b u' z' Hp Ha P1' P2') as (p' & w1' & C & Hb & Y1 & Y2). exists p', w1'. split; [exact C|]. split; [exact Hb|].
    split; [eapply like_trans; [exact Y1|apply like_sym, X1]|eapply like_trans; [exact Y2|apply like_sym, X2]]. }
  assert (Right : forall a x u b z, is_action s2 a -> part A2 a2 v2 a x u -> part B lB vB a b z -> exists r' w2', can s2 r w2 a r' w2' /\ both A2 B r' x b /\ like A2 w2' u /\ like B w2' z).
  { intros a x u b z Ha P1 P2. destruct (part_like dim A2 _ _ w2 _ _ _ G2 (proj1 Hr) (like_sym _ _ _ _ L2) P1) as (u' & P1' & X1). destruct (part_like dim B _ _ w2 _ _ _ GB (proj1 (proj2 Hr)) (like_sym _ _ _ _ LB2) P2) as (z' & P2' & X2).
    destruct (comp_can_join dim A2 B G2 GB S2 s2 E2 r a2 lB w2 a x b u' z' Hr Ha P1' P2') as (p' & w1' & C & Hb & Y1 & Y2). exists p', w1'. split; [exact C|]. split; [exact Hb|].
    split; [eapply like_trans; [exact Y1|apply like_sym, X1]|eapply like_trans; [exact Y2|apply like_sym, X2]]. }
  assert (PartInv : forall b z a, part B lB vB a b z -> In b (all_locations dim B) /\ inv_at b z).
  { intros b z a [[Ha C]|(Ha & -> & -> & X)]; [destruct (can_in dim B _ _ _ _ _ GB (proj1 (proj2 Hp)) C); tauto|split; [apply Hp|exact X]]. }
  assert (Inp : forall a, is_input A2 a -> exists x u, can A2 a2 v2 a x u).
  { intros a Ia. destruct (Acc a2 v2 a Ra2 Ia) as (t & O & Ab). exists (t_target t), (run_updates (t_updates t) v2). exists t. auto. }
  pose proof (fun a => comp_alphabet A1 B s1 E1 a) as Al1. pose proof (fun a => comp_alphabet A2 B s2 E2 a) as Al2.
  split; [|split].
  - intros a p' w1' Oa C. destruct (comp_can dim A1 B G1 GB S1 s1 E1 p a1 lB w1 a p' w1' Hp C) as (x & b & u & z & P1 & PB & Hp' & Y1 & Y2).
    destruct (part_like dim A1 _ _ v1 _ _ _ G1 (proj1 Hp) L1 P1) as (u' & P1' & X1). destruct (part_like dim B _ _ vB _ _ _ GB (proj1 (proj2 Hp)) LB1 PB) as (z' & PB' & X2).
    destruct (PartInv _ _ _ PB') as [_ IB']. pose proof (part_reach dim A1 _ _ _ _ _ Ra1 P1') as Rx1.
    assert (M1 : like A1 w1' u') by (eapply like_trans; eauto). assert (M2 : like B w1' z') by (eapply like_trans; eauto).
    (* what the right part does *)
    assert (K : (is_output s2 a -> exists y k, part A2 a2 v2 a y k /\ R x u' y k) /\ (~ is_output s2 a -> ~ is_action B a /\ R x u' a2 v2)).
    { destruct (Al1 a) as (Ai & Ao & _ & Ad). destruct (Al2 a) as (Bi & Bo & _ & Bd). destruct (In_dec_s a (ts_outputs A1)) as [OA|OA]; fold (is_output A1 a) in OA.
      - assert (C1 : can A1 a1 v1 a x u'). { destruct P1' as [[_ C1]|[N _]]; [exact C1|]. exfalso. apply N. right. exact OA. }
        destruct (Ho a x u' OA C1) as [Y N]. destruct (In_dec_s a (ts_outputs A2)) as [OA2|OA2]; fold (is_output A2 a) in OA2.
        + split; [|intros Ns; exfalso; tauto]. intros _. destruct (Y OA2) as (y & k & C2 & Q'). exists y, k. split; [left; split; [right; exact OA2|exact C2]|exact Q'].
        + pose proof (Cl a OA OA2) as Nb. split; [|intros _; split; [exact Nb|apply N, OA2]]. intros Os. apply Bo in Os. destruct Os as [Os|Os]; [contradiction|]. exfalso. apply Nb. right. exact Os.
      - assert (OB : is_output B a) by tauto. split; [|intros Ns; exfalso; tauto]. intros _.
        destruct (In_dec_s a (ts_inputs A2)) as [IA2|IA2]; fold (is_input A2 a) in IA2.
        + destruct (Inp a IA2) as (y & k & C2). exists y, k. split; [left; split; [left; exact IA2|exact C2]|]. destruct (Hi a y k IA2 C2) as [Yi Ni].
          destruct (In_dec_s a (ts_inputs A1)) as [IA1|IA1]; fold (is_input A1 a) in IA1.
          * destruct (Yi IA1) as (x' & u'' & C1' & Q'). destruct P1' as [[_ C1]|[N _]]; [|exfalso; apply N; left; exact IA1].
            destruct (can_det dim A1 _ _ _ _ _ _ _ D Ra1 C1 C1') as [-> ->]. exact Q'.
          * destruct P1' as [[[N|N] _]|(_ & -> & -> & _)]; [contradiction|contradiction|]. apply Ni, IA1.
        + assert (IA1 : ~ is_input A1 a) by (intros X; apply IA2, F3, X). assert (OA2 : ~ is_output A2 a) by (intros X; apply OA, F4, X).
          exists a2, v2. split; [right; split; [intros [X|X]; contradiction|]; split; [reflexivity|]; split; [reflexivity|exact I2]|].
          destruct P1' as [[[N|N] _]|(_ & -> & -> & _)]; [contradiction|contradiction|]. exact Q. }
    destruct K as [K1 K2]. split.
    + intros Os. destruct (K1 Os) as (y & k & P2 & Q'). destruct (Right a y k b z' (or_intror Os) P2 PB') as (r' & w2' & C2 & Hr' & T1 & T2).
      exists r', w2'. split; [exact C2|]. exists x, u', y, k, b, z'. do 8 (split; [assumption|]). split; [exact Rx1|]. eapply part_reach; eauto.
    + intros Ns. destruct (K2 Ns) as [Nb Q']. destruct PB' as [[Nb' _]|(_ & -> & -> & _)]; [contradiction|]. exists x, u', a2, v2, lB, vB. do 8 (split; [assumption|]). auto.
  - intros a r' w2' Ia C. destruct (comp_can dim A2 B G2 GB S2 s2 E2 r a2 lB w2 a r' w2' Hr C) as (y & b & k & z & P2 & PB & Hr' & Y1 & Y2).
    destruct (part_like dim A2 _ _ v2 _ _ _ G2 (proj1 Hr) L2 P2) as (k' & P2' & X1). destruct (part_like dim B _ _ vB _ _ _ GB (proj1 (proj2 Hr)) LB2 PB) as (z' & PB' & X2).
    destruct (PartInv _ _ _ PB') as [_ IB']. pose proof (part_reach dim A2 _ _ _ _ _ Ra2 P2') as Rx2.
    assert (M1 : like A2 w2' k') by (eapply like_trans; eauto). assert (M2 : like B w2' z') by (eapply like_trans; eauto).
    destruct (Al1 a) as (Ai & Ao & _ & Ad). destruct (Al2 a) as (Bi & Bo & _ & Bd).
    assert (NO : ~ is_output A2 a /\ ~ is_output B a).
    { apply Bi in Ia. destruct Ia as [[X Y]|[X Y]]; [split; [apply (J2 a X)|exact Y]|split; [exact Y|apply (JB a X)]]. }
    assert (NO1 : ~ is_output A1 a).
    { intros X. destruct (In_dec_s a (ts_inputs A2)) as [IA2|IA2]; fold (is_input A2 a) in IA2; [apply (F2 a IA2 X)|]. apply (Cl a X (proj1 NO)). left. tauto. }
    assert (K : exists x u, part A1 a1 v1 a x u /\ R x u y k').
    { destruct (In_dec_s a (ts_inputs A2)) as [IA2|IA2]; fold (is_input A2 a) in IA2.
      - destruct P2' as [[_ C2]|[N _]]; [|exfalso; apply N; left; exact IA2]. destruct (Hi a y k' IA2 C2) as [Yi Ni].
        destruct (In_dec_s a (ts_inputs A1)) as [IA1|IA1]; fold (is_input A1 a) in IA1.
        + destruct (Yi IA1) as (x & u & C1 & Q'). exists x, u. split; [left; split; [left; exact IA1|exact C1]|exact Q'].
        + exists a1, v1. split; [right; split; [intros [X|X]; contradiction|auto]|apply Ni, IA1].
      - destruct P2' as [[[N|N] _]|(_ & -> & -> & _)]; [contradiction|exfalso; apply (proj1 NO N)|].
        exists a1, v1. split; [right; split; [intros [X|X]; [apply IA2, F3, X|contradiction]|auto]|exact Q]. }
    destruct K as (x & u & P1 & Q'). pose proof (part_reach dim A1 _ _ _ _ _ Ra1 P1) as Rx1. split.
    + intros Is. destruct (Left a x u b z' (or_introl Is) P1 PB') as (p' & w1' & C1 & Hp' & T1 & T2).
      exists p', w1'. split; [exact C1|]. exists x, u, y, k', b, z'. do 8 (split; [assumption|]). auto.
    + intros Ns. assert (N1 : ~ is_action A1 a) by (intros [X|X]; tauto). assert (N2 : ~ is_action B a) by (intros [X|X]; tauto).
      destruct P1 as [[X _]|(_ & -> & -> & _)]; [contradiction|]. destruct PB' as [[X _]|(_ & -> & -> & _)]; [contradiction|].
      exists a1, v1, y, k', lB, vB. do 8 (split; [assumption|]). auto.
  - intros d Hd' Hw. assert (X : forall e, 0 <= e -> e <= d -> inv_at a1 (vdelay v1 e) /\ inv_at lB (vdelay vB e)).
    { intros e He1 He2. pose proof (Hw e He1 He2) as I. apply Hp in I. destruct I as [X1 X2].
      split; [eapply inv_like; [exact G1|apply Hp|apply like_delay; [exact He1|exact L1]|exact X1]|eapply inv_like; [exact GB|apply Hp|apply like_delay; [exact He1|exact LB1]|exact X2]]. }
    assert (Y : forall e, 0 <= e -> e <= d -> R a1 (vdelay v1 e) a2 (vdelay v2 e)).
    { intros e He1 He2. apply Hd; [exact He1|]. intros f Hf1 Hf2. apply X; lra. }
    exists a1, (vdelay v1 d), a2, (vdelay v2 d), lB, (vdelay vB d). split; [exact Hp|]. split; [exact Hr|]. repeat (split; [apply like_delay; assumption|]).
    split; [apply X; lra|]. split; [apply Y; lra|]. split; (apply delay_reach; [assumption|assumption|]); intros e He1 He2; [apply X; assumption|apply (H _ _ _ _ (Y e He1 He2))].
Qed.
End Laws.
