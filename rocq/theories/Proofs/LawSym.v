(** Conjunction and composition: the order of the operands and the grouping do not matter. *)
From Coq Require Import List String ZArith QArith Bool Arith Lia Lqa.
From Verif Require Import Fed.Zone Fed.ZoneFacts Model.Base Model.Expr Model.Guard Model.Loc Model.Component Model.TS
  Spec.StepSpec Spec.SystemSpec Spec.RunSpec Spec.RefineSpec Spec.LawSpec
  Proofs.GuardFacts Proofs.StepFacts Proofs.SystemFacts Proofs.QuotientFacts Proofs.WfFacts Proofs.RunFacts Proofs.ReadsFacts Proofs.LawFacts Proofs.LawProofs.
Import ListNotations.
Local Open Scope Q_scope.

Section Sym.
Variable dim : nat.
Notation can := (can dim). Notation like := (like dim). Notation both := (both dim).
Notation good := (good dim). Notation inv_at := (inv_at dim). Notation reachable := (reachable dim). Notation part := (part dim).

Lemma both_inv A B p lA lB v w : good A -> good B -> both A B p lA lB -> like A v w -> like B v w -> inv_at p v -> inv_at lA w /\ inv_at lB w.
Proof.
  intros GA GB Hp LA LB I. pose proof (proj1 (proj2 (proj2 (proj2 (proj2 Hp))) v) I) as [X Y].
  split; [apply (inv_like dim A lA v w GA (proj1 Hp) LA X)|apply (inv_like dim B lB v w GB (proj1 (proj2 Hp)) LB Y)].
Qed.
Lemma can_inv s l v a l' v' : can s l v a l' v' -> inv_at l v /\ inv_at l' v'.
Proof. intros (t & _ & (I & _ & J) & -> & ->). auto. Qed.

(** A symmetric relation between two systems with the same actions. *)
Definition mutual (s1 s2 : ts) (R : loctree -> val -> loctree -> val -> Prop) : Prop :=
  forall p w r u, R p w r u ->
    (inv_at p w <-> inv_at r u) /\
    (forall a p' w', can s1 p w a p' w' -> exists r' u', can s2 r u a r' u' /\ R p' w' r' u') /\
    (forall a r' u', can s2 r u a r' u' -> exists p' w', can s1 p w a p' w' /\ R p' w' r' u') /\
    (forall d, 0 <= d -> R p (vdelay w d) r (vdelay u d)).
Lemma mutual_refines s1 s2 R : mutual s1 s2 R -> (forall a, is_input s1 a <-> is_input s2 a) -> (forall a, is_output s1 a <-> is_output s2 a) ->
  match initial_location dim s1, initial_location dim s2 with Some l1, Some l2 => R l1 zero_val l2 zero_val /\ inv_at l1 zero_val | None, None => True | _, _ => False end ->
  refines dim s1 s2 /\ refines dim s2 s1.
Proof.
  intros M Hi Ho H. unfold refines. destruct (initial_location dim s1) as [l1|], (initial_location dim s2) as [l2|]; try contradiction; [|auto]. destruct H as [R0 I0].
  split; [exists (fun p w r u => R p w r u /\ inv_at p w)|exists (fun r u p w => R p w r u /\ inv_at p w)]; (split; [|auto]); apply refinement_can.
  - intros p w r u [Hr Iv]. destruct (M _ _ _ _ Hr) as (I & F & B & D). split; [exact Iv|]. split; [apply I, Iv|]. split; [|split].
    + intros a p' w' Oa C. split; [|intros N; exfalso; apply N, Ho, Oa]. intros _. destruct (F a p' w' C) as (r' & u' & C' & Hr'). exists r', u'. split; [exact C'|]. split; [exact Hr'|apply (can_inv _ _ _ _ _ _ C)].
    + intros a r' u' Ia C. split; [|intros N; exfalso; apply N, Hi, Ia]. intros _. destruct (B a r' u' C) as (p' & w' & C' & Hr'). exists p', w'. split; [exact C'|]. split; [exact Hr'|apply (can_inv _ _ _ _ _ _ C')].
    + intros d Hd Hw. split; [apply D, Hd|]. apply Hw; lra.
  - intros r u p w [Hr Iv]. destruct (M _ _ _ _ Hr) as (I & F & B & D). split; [apply I, Iv|]. split; [exact Iv|]. split; [|split].
    + intros a r' u' Oa C. split; [|intros N; exfalso; apply N, Ho, Oa]. intros _. destruct (B a r' u' C) as (p' & w' & C' & Hr'). exists p', w'. split; [exact C'|]. split; [exact Hr'|apply (can_inv _ _ _ _ _ _ C')].
    + intros a p' w' Ia C. split; [|intros N; exfalso; apply N, Hi, Ia]. intros _. destruct (F a p' w' C) as (r' & u' & C' & Hr'). exists r', u'. split; [exact C'|]. split; [exact Hr'|apply (can_inv _ _ _ _ _ _ C)].
    + intros d Hd Hw. split; [apply D, Hd|]. destruct (M _ _ _ _ (D d Hd)) as (I' & _). apply I', Hw; lra.
Qed.

Definition startable (s : ts) : Prop := forall l, initial_location dim s = Some l -> inv_at l zero_val.
(** The same actions, and such a relation between the initial states. *)
Definition twins (s1 s2 : ts) : Prop :=
  (forall a, is_input s1 a <-> is_input s2 a) /\ (forall a, is_output s1 a <-> is_output s2 a) /\ exists R, mutual s1 s2 R /\
  match initial_location dim s1, initial_location dim s2 with Some l1, Some l2 => R l1 zero_val l2 zero_val | None, None => True | _, _ => False end.
Lemma twins_refines s1 s2 : twins s1 s2 -> startable s1 -> refines dim s1 s2 /\ refines dim s2 s1.
Proof.
  intros (Hi & Ho & R & M & H) St. apply (mutual_refines s1 s2 R M Hi Ho). pose proof St as St'. unfold startable in St'. destruct (initial_location dim s1) as [l1|], (initial_location dim s2) as [l2|]; auto.
Qed.

Lemma separate_sym A B : separate A B -> separate B A.
Proof. intros H x H1 H2. apply (H x H2 H1). Qed.
Lemma act_can s l v a l' v' : can s l v a l' v' -> is_action s a.
Proof. intros (t & O & _). apply O. Qed.

(** *** Order *)
Definition swapped A B p w r u : Prop := exists lA lB, both A B p lA lB /\ both B A r lB lA /\ like A w u /\ like B w u.
Lemma swapped_sym A B p w r u : swapped A B p w r u -> swapped B A r u p w.
Proof. intros (lA & lB & Hp & Hr & LA & LB). exists lB, lA. split; [exact Hr|]. split; [exact Hp|]. split; apply like_sym; assumption. Qed.
Lemma swapped_inv A B p w r u : good A -> good B -> swapped A B p w r u -> inv_at p w -> inv_at r u.
Proof. intros GA GB (lA & lB & Hp & Hr & LA & LB) I. destruct (both_inv A B p lA lB w u GA GB Hp LA LB I). apply Hr. auto. Qed.

Lemma conj_swap A B s s' p w r u a p' w' : good A -> good B -> separate A B -> conjunction_new A B = Ok s -> conjunction_new B A = Ok s' ->
  swapped A B p w r u -> can s p w a p' w' -> exists r' u', can s' r u a r' u' /\ swapped A B p' w' r' u'.
Proof.
  intros GA GB Sp E E' (lA & lB & Hp & Hr & LA & LB) C. pose proof (act_can _ _ _ _ _ _ C) as Ha.
  assert (Ha' : is_action s' a). { pose proof (conj_alphabet A B s E a). pose proof (conj_alphabet B A s' E' a). unfold is_action in *. tauto. }
  destruct (conj_can dim A B GA GB Sp s E p lA lB w a p' w' Hp C) as (lA' & lB' & vA & vB & CA & CB & Hp' & L1 & L2).
  destruct (can_like dim A _ _ _ _ _ _ GA (proj1 Hp) LA CA) as (uA & CA' & LA'). destruct (can_like dim B _ _ _ _ _ _ GB (proj1 (proj2 Hp)) LB CB) as (uB & CB' & LB').
  destruct (conj_can_join dim B A GB GA (separate_sym A B Sp) s' E' r lB lA u a lB' lA' uB uA Hr Ha' CB' CA') as (r' & u' & C' & Hr' & M1 & M2).
  exists r', u'. split; [exact C'|]. exists lA', lB'. split; [exact Hp'|]. split; [exact Hr'|].
  split; [eapply like_trans; [exact L1|]; eapply like_trans; [exact LA'|apply like_sym, M2]|eapply like_trans; [exact L2|]; eapply like_trans; [exact LB'|apply like_sym, M1]].
Qed.
Lemma comp_swap A B s s' p w r u a p' w' : good A -> good B -> separate A B -> composition_new A B = Ok s -> composition_new B A = Ok s' ->
  swapped A B p w r u -> can s p w a p' w' -> exists r' u', can s' r u a r' u' /\ swapped A B p' w' r' u'.
Proof.
  intros GA GB Sp E E' (lA & lB & Hp & Hr & LA & LB) C. pose proof (act_can _ _ _ _ _ _ C) as Ha.
  assert (Ha' : is_action s' a). { pose proof (comp_alphabet A B s E a). pose proof (comp_alphabet B A s' E' a). tauto. }
  destruct (comp_can dim A B GA GB Sp s E p lA lB w a p' w' Hp C) as (lA' & lB' & vA & vB & CA & CB & Hp' & L1 & L2).
  destruct (part_like dim A _ _ _ _ _ _ GA (proj1 Hp) LA CA) as (uA & CA' & LA'). destruct (part_like dim B _ _ _ _ _ _ GB (proj1 (proj2 Hp)) LB CB) as (uB & CB' & LB').
  destruct (comp_can_join dim B A GB GA (separate_sym A B Sp) s' E' r lB lA u a lB' lA' uB uA Hr Ha' CB' CA') as (r' & u' & C' & Hr' & M1 & M2).
  exists r', u'. split; [exact C'|]. exists lA', lB'. split; [exact Hp'|]. split; [exact Hr'|].
  split; [eapply like_trans; [exact L1|]; eapply like_trans; [exact LA'|apply like_sym, M2]|eapply like_trans; [exact L2|]; eapply like_trans; [exact LB'|apply like_sym, M1]].
Qed.

Lemma swapped_start A B s s' :
  match initial_location dim s with
  | Some l => exists lA lB, initial_location dim A = Some lA /\ initial_location dim B = Some lB /\ both A B l lA lB
  | None => initial_location dim A = None \/ initial_location dim B = None end ->
  match initial_location dim s' with
  | Some l => exists lA lB, initial_location dim B = Some lA /\ initial_location dim A = Some lB /\ both B A l lA lB
  | None => initial_location dim B = None \/ initial_location dim A = None end ->
  match initial_location dim s, initial_location dim s' with Some l1, Some l2 => swapped A B l1 zero_val l2 zero_val | None, None => True | _, _ => False end.
Proof.
  intros C C'. destruct (initial_location dim s) as [l|] eqn:El, (initial_location dim s') as [l'|].
  - destruct C as (lA & lB & Ea & Eb & Hp). destruct C' as (lB' & lA' & Eb' & Ea' & Hr). rewrite Ea in Ea'. injection Ea' as <-. rewrite Eb in Eb'. injection Eb' as <-.
    exists lA, lB. split; [exact Hp|]. split; [exact Hr|]. split; apply like_refl, zero_ok.
  - destruct C as (lA & lB & Ea & Eb & _). rewrite Ea, Eb in C'. destruct C'; discriminate.
  - destruct C' as (lB & lA & Eb & Ea & _). rewrite Ea, Eb in C. destruct C; discriminate.
  - exact I.
Qed.

Theorem conj_twins A B s s' : good A -> good B -> separate A B -> conjunction_new A B = Ok s -> conjunction_new B A = Ok s' -> twins s s'.
Proof.
  intros GA GB Sp E E'. split; [|split; [|exists (swapped A B); split]].
  - intros a. pose proof (conj_alphabet A B s E a). pose proof (conj_alphabet B A s' E' a). tauto.
  - intros a. pose proof (conj_alphabet A B s E a). pose proof (conj_alphabet B A s' E' a). tauto.
  - intros p w r u Sw. split; [split; [apply (swapped_inv A B p w r u GA GB Sw)|apply (swapped_inv B A r u p w GB GA (swapped_sym _ _ _ _ _ _ Sw))]|]. split; [|split].
    + intros a p' w' C. eapply conj_swap; eauto.
    + intros a r' u' C. destruct (conj_swap B A s' s r u p w a r' u' GB GA (separate_sym A B Sp) E' E (swapped_sym _ _ _ _ _ _ Sw) C) as (p' & w' & C' & Sw'). exists p', w'. split; [exact C'|apply swapped_sym, Sw'].
    + intros d Hd. destruct Sw as (lA & lB & Hp & Hr & LA & LB). exists lA, lB. split; [exact Hp|]. split; [exact Hr|]. split; apply like_delay; assumption.
  - apply swapped_start; [apply (conj_start dim A B GA GB s E)|apply (conj_start dim B A GB GA s' E')].
Qed.
Theorem conj_comm A B s s' : good A -> good B -> separate A B -> conjunction_new A B = Ok s -> conjunction_new B A = Ok s' -> startable s -> refines dim s s'.
Proof. intros GA GB Sp E E' H0. exact (proj1 (twins_refines s s' (conj_twins A B s s' GA GB Sp E E') H0)). Qed.
Theorem comp_twins A B s s' : good A -> good B -> separate A B -> composition_new A B = Ok s -> composition_new B A = Ok s' -> twins s s'.
Proof.
  intros GA GB Sp E E'. split; [|split; [|exists (swapped A B); split]].
  - intros a. pose proof (comp_alphabet A B s E a). pose proof (comp_alphabet B A s' E' a). tauto.
  - intros a. pose proof (comp_alphabet A B s E a). pose proof (comp_alphabet B A s' E' a). tauto.
  - intros p w r u Sw. split; [split; [apply (swapped_inv A B p w r u GA GB Sw)|apply (swapped_inv B A r u p w GB GA (swapped_sym _ _ _ _ _ _ Sw))]|]. split; [|split].
    + intros a p' w' C. eapply comp_swap; eauto.
    + intros a r' u' C. destruct (comp_swap B A s' s r u p w a r' u' GB GA (separate_sym A B Sp) E' E (swapped_sym _ _ _ _ _ _ Sw) C) as (p' & w' & C' & Sw'). exists p', w'. split; [exact C'|apply swapped_sym, Sw'].
    + intros d Hd. destruct Sw as (lA & lB & Hp & Hr & LA & LB). exists lA, lB. split; [exact Hp|]. split; [exact Hr|]. split; apply like_delay; assumption.
  - apply swapped_start; [apply (comp_start dim A B GA GB s E)|apply (comp_start dim B A GB GA s' E')].
Qed.
Theorem comp_comm A B s s' : good A -> good B -> separate A B -> composition_new A B = Ok s -> composition_new B A = Ok s' -> startable s -> refines dim s s'.
Proof. intros GA GB Sp E E' H0. exact (proj1 (twins_refines s s' (comp_twins A B s s' GA GB Sp E E') H0)). Qed.

(** *** Grouping *)
Section Three.
Variables A B C AB BC : ts.
Hypothesis GA : good A. Hypothesis GB : good B. Hypothesis GC : good C. Hypothesis GAB : good AB. Hypothesis GBC : good BC.
Hypothesis S1 : separate A B. Hypothesis S2 : separate AB C. Hypothesis S3 : separate B C. Hypothesis S4 : separate A BC.

Definition grouped p w r u : Prop := exists lA lB lC lAB lBC, both AB C p lAB lC /\ both A B lAB lA lB /\ both A BC r lA lBC /\ both B C lBC lB lC /\
  like A w u /\ like B w u /\ like C w u.
Lemma grouped_inv p w r u : grouped p w r u -> (inv_at p w <-> inv_at r u).
Proof.
  intros (lA & lB & lC & lAB & lBC & Hp & Hab & Hr & Hbc & LA & LB & LC). destruct Hp as (_ & HC & _ & _ & Ip), Hab as (HA & HB & _ & _ & Iab), Hr as (_ & _ & _ & _ & Ir), Hbc as (_ & _ & _ & _ & Ibc).
  rewrite Ip, Iab, Ir, Ibc. pose proof (inv_like dim A lA w u GA HA LA). pose proof (inv_like dim B lB w u GB HB LB). pose proof (inv_like dim C lC w u GC HC LC).
  pose proof (inv_like dim A lA u w GA HA (like_sym _ _ _ _ LA)). pose proof (inv_like dim B lB u w GB HB (like_sym _ _ _ _ LB)). pose proof (inv_like dim C lC u w GC HC (like_sym _ _ _ _ LC)). tauto.
Qed.
Lemma grouped_delay p w r u d : 0 <= d -> grouped p w r u -> grouped p (vdelay w d) r (vdelay u d).
Proof.
  intros Hd (lA & lB & lC & lAB & lBC & Hp & Hab & Hr & Hbc & LA & LB & LC). exists lA, lB, lC, lAB, lBC. do 4 (split; [assumption|]). split; [|split]; apply like_delay; assumption.
Qed.
(** The clocks of the parts are clocks of the whole. *)
Hypothesis KAB : (forall x, In x (sys_clocks A) -> In x (sys_clocks AB)) /\ (forall x, In x (sys_clocks B) -> In x (sys_clocks AB)).
Hypothesis KBC : (forall x, In x (sys_clocks B) -> In x (sys_clocks BC)) /\ (forall x, In x (sys_clocks C) -> In x (sys_clocks BC)).
Lemma like_sub X Y v w : (forall x, In x (sys_clocks X) -> In x (sys_clocks Y)) -> like Y v w -> like X v w.
Proof. intros H (V & W & Ag). split; [exact V|]. split; [exact W|]. intros x Hx. apply Ag, H, Hx. Qed.

Section Comp3.
Variables s1 s2 : ts.
Hypothesis EAB : composition_new A B = Ok AB.
Hypothesis EBC : composition_new B C = Ok BC.
Hypothesis E1 : composition_new AB C = Ok s1.
Hypothesis E2 : composition_new A BC = Ok s2.

Lemma comp3_alphabet a : (is_input s1 a <-> is_input s2 a) /\ (is_output s1 a <-> is_output s2 a) /\ (is_action s1 a <-> is_action s2 a).
Proof.
  destruct (comp_alphabet A B AB EAB a) as (I1 & O1 & A1 & _). destruct (comp_alphabet B C BC EBC a) as (I2 & O2 & A2 & _).
  destruct (comp_alphabet AB C s1 E1 a) as (I3 & O3 & A3 & _). destruct (comp_alphabet A BC s2 E2 a) as (I4 & O4 & A4 & _).
  rewrite I3, I4, O3, O4, A3, A4, I1, I2, O1, O2, A1, A2. clear. split; [|split]; tauto.
Qed.

Lemma action_dec s a : is_action s a \/ ~ is_action s a.
Proof. unfold is_action, is_input, is_output. destruct (in_dec string_dec a (ts_inputs s)), (in_dec string_dec a (ts_outputs s)); tauto. Qed.
Lemma part_split X Y XY l lX lY v a l' v' : good X -> good Y -> separate X Y -> composition_new X Y = Ok XY -> both X Y l lX lY -> part XY l v a l' v' ->
  exists lX' lY' vX vY, part X lX v a lX' vX /\ part Y lY v a lY' vY /\ both X Y l' lX' lY' /\ like X v' vX /\ like Y v' vY.
Proof.
  intros GX GY Sp E Hb [[_ Cn]|(N & -> & -> & I)].
  - apply (comp_can dim X Y GX GY Sp XY E l lX lY v a l' v' Hb Cn).
  - pose proof (comp_alphabet X Y XY E a) as (_ & _ & Ac & _). pose proof (inv_at_ok _ _ _ I) as V. apply Hb in I. exists lX, lY, v, v. split; [right; tauto|]. split; [right; tauto|]. split; [exact Hb|]. split; apply like_refl, V.
Qed.
Lemma part_join X Y XY l lX lY v a lX' lY' vX vY : good X -> good Y -> separate X Y -> composition_new X Y = Ok XY -> both X Y l lX lY -> part X lX v a lX' vX -> part Y lY v a lY' vY ->
  exists l' v', part XY l v a l' v' /\ both X Y l' lX' lY' /\ like X v' vX /\ like Y v' vY.
Proof.
  intros GX GY Sp E Hb PX PY. pose proof (comp_alphabet X Y XY E a) as (_ & _ & Ac & _).
  destruct (action_dec XY a) as [Y1|N1].
  - destruct (comp_can_join dim X Y GX GY Sp XY E l lX lY v a lX' lY' vX vY Hb Y1 PX PY) as (l' & v' & Cn & R). exists l', v'. split; [left; auto|exact R].
  - destruct PX as [[K _]|(_ & -> & -> & IX)]; [tauto|]. destruct PY as [[K _]|(_ & -> & -> & IY)]; [tauto|]. exists l, v. split; [right; split; [exact N1|]; split; [reflexivity|]; split; [reflexivity|apply Hb; auto]|].
    split; [exact Hb|]. split; apply like_refl, (inv_at_ok _ _ _ IX).
Qed.

Theorem comp_grouped : twins s1 s2.
Proof.
  split; [|split; [|exists grouped; split]].
  - intros a. apply (comp3_alphabet a).
  - intros a. apply (comp3_alphabet a).
  - intros p w r u G. split; [apply grouped_inv, G|]. split; [|split; [|intros d Hd; apply grouped_delay; assumption]].
    + intros a p' w' Cn. pose proof (proj1 (proj2 (proj2 (comp3_alphabet a))) (act_can _ _ _ _ _ _ Cn)) as Ha2.
      destruct G as (lA & lB & lC & lAB & lBC & Hp & Hab & Hr & Hbc & LA & LB & LC).
      destruct (comp_can dim AB C GAB GC S2 s1 E1 p lAB lC w a p' w' Hp Cn) as (lAB' & lC' & vAB & vC & PAB & PC & Hp' & K1 & K2).
      destruct (part_split A B AB lAB lA lB w a lAB' vAB GA GB S1 EAB Hab PAB) as (lA' & lB' & vA & vB & PA & PB & Hab' & K3 & K4).
      destruct (part_like dim A _ _ u _ _ _ GA (proj1 Hab) LA PA) as (uA & PA' & MA). destruct (part_like dim B _ _ u _ _ _ GB (proj1 (proj2 Hab)) LB PB) as (uB & PB' & MB). destruct (part_like dim C _ _ u _ _ _ GC (proj1 (proj2 Hp)) LC PC) as (uC & PC' & MC).
      destruct (part_join B C BC lBC lB lC u a lB' lC' uB uC GB GC S3 EBC Hbc PB' PC') as (lBC' & uBC & PBC & Hbc' & M3 & M4).
      destruct (comp_can_join dim A BC GA GBC S4 s2 E2 r lA lBC u a lA' lBC' uA uBC Hr Ha2 PA' PBC) as (r' & u' & Cn' & Hr' & M5 & M6).
      exists r', u'. split; [exact Cn'|]. exists lA', lB', lC', lAB', lBC'. do 4 (split; [assumption|]).
      split; [|split].
      * eapply like_trans; [apply (like_sub A AB _ _ (proj1 KAB) K1)|]. eapply like_trans; [exact K3|]. eapply like_trans; [exact MA|apply like_sym, M5].
      * eapply like_trans; [apply (like_sub B AB _ _ (proj2 KAB) K1)|]. eapply like_trans; [exact K4|]. eapply like_trans; [exact MB|]. apply like_sym. eapply like_trans; [apply (like_sub B BC _ _ (proj1 KBC) M6)|exact M3].
      * eapply like_trans; [exact K2|]. eapply like_trans; [exact MC|]. apply like_sym. eapply like_trans; [apply (like_sub C BC _ _ (proj2 KBC) M6)|exact M4].
    + intros a r' u' Cn. pose proof (proj2 (proj2 (proj2 (comp3_alphabet a))) (act_can _ _ _ _ _ _ Cn)) as Ha1.
      destruct G as (lA & lB & lC & lAB & lBC & Hp & Hab & Hr & Hbc & LA & LB & LC).
      destruct (comp_can dim A BC GA GBC S4 s2 E2 r lA lBC u a r' u' Hr Cn) as (lA' & lBC' & uA & uBC & PA & PBC & Hr' & K1 & K2).
      destruct (part_split B C BC lBC lB lC u a lBC' uBC GB GC S3 EBC Hbc PBC) as (lB' & lC' & uB & uC & PB & PC & Hbc' & K3 & K4).
      destruct (part_like dim A _ _ w _ _ _ GA (proj1 Hab) (like_sym _ _ _ _ LA) PA) as (vA & PA' & MA). destruct (part_like dim B _ _ w _ _ _ GB (proj1 (proj2 Hab)) (like_sym _ _ _ _ LB) PB) as (vB & PB' & MB). destruct (part_like dim C _ _ w _ _ _ GC (proj1 (proj2 Hp)) (like_sym _ _ _ _ LC) PC) as (vC & PC' & MC).
      destruct (part_join A B AB lAB lA lB w a lA' lB' vA vB GA GB S1 EAB Hab PA' PB') as (lAB' & vAB & PAB & Hab' & M3 & M4).
      destruct (comp_can_join dim AB C GAB GC S2 s1 E1 p lAB lC w a lAB' lC' vAB vC Hp Ha1 PAB PC') as (p' & w' & Cn' & Hp' & M5 & M6).
      exists p', w'. split; [exact Cn'|]. exists lA', lB', lC', lAB', lBC'. do 4 (split; [assumption|]).
      split; [|split]; apply like_sym.
      * eapply like_trans; [exact K1|]. eapply like_trans; [exact MA|]. apply like_sym. eapply like_trans; [apply (like_sub A AB _ _ (proj1 KAB) M5)|exact M3].
      * eapply like_trans; [apply (like_sub B BC _ _ (proj1 KBC) K2)|]. eapply like_trans; [exact K3|]. eapply like_trans; [exact MB|]. apply like_sym. eapply like_trans; [apply (like_sub B AB _ _ (proj2 KAB) M5)|exact M4].
      * eapply like_trans; [apply (like_sub C BC _ _ (proj2 KBC) K2)|]. eapply like_trans; [exact K4|]. eapply like_trans; [exact MC|apply like_sym, M6].
  - pose proof (comp_start dim A B GA GB AB EAB) as X1. pose proof (comp_start dim B C GB GC BC EBC) as X2. pose proof (comp_start dim AB C GAB GC s1 E1) as X3. pose proof (comp_start dim A BC GA GBC s2 E2) as X4.
    destruct (initial_location dim s1) as [p|] eqn:Ep.
    + destruct X3 as (lAB & lC & Y1 & Y2 & Hp). rewrite Y1 in X1. destruct X1 as (lA & lB & Y3 & Y4 & Hab). rewrite Y4, Y2 in X2. destruct (initial_location dim BC) as [lBC|]; [|destruct X2; discriminate].
      destruct X2 as (? & ? & Z1 & Z2 & Hbc). injection Z1 as <-. injection Z2 as <-. rewrite Y3 in X4. destruct (initial_location dim s2) as [r|]; [|destruct X4; discriminate]. destruct X4 as (? & ? & Z1 & Z2 & Hr). injection Z1 as <-. injection Z2 as <-.
      exists lA, lB, lC, lAB, lBC. do 4 (split; [assumption|]). split; [|split]; apply like_refl, zero_ok.
    + destruct (initial_location dim s2) as [r|]; [|exact I]. destruct X4 as (lA & lBC & Y1 & Y2 & _). rewrite Y2 in X2. destruct X2 as (lB & lC & Y3 & Y4 & _). rewrite Y1, Y3 in X1. rewrite Y4 in X3.
      destruct (initial_location dim AB); [destruct X3; discriminate|]. destruct X1; discriminate.
Qed.
Theorem comp_assoc : startable s1 -> refines dim s1 s2 /\ refines dim s2 s1.
Proof. apply twins_refines, comp_grouped. Qed.
End Comp3.

Section Conj3.
Variables s1 s2 : ts.
Hypothesis EAB : conjunction_new A B = Ok AB.
Hypothesis EBC : conjunction_new B C = Ok BC.
Hypothesis E1 : conjunction_new AB C = Ok s1.
Hypothesis E2 : conjunction_new A BC = Ok s2.

Lemma conj3_alphabet a : (is_input s1 a <-> is_input s2 a) /\ (is_output s1 a <-> is_output s2 a) /\ (is_action s1 a <-> is_action s2 a) /\
  (is_action s1 a -> is_action AB a) /\ (is_action s2 a -> is_action BC a).
Proof.
  destruct (conj_alphabet A B AB EAB a) as (I1 & O1 & _). destruct (conj_alphabet B C BC EBC a) as (I2 & O2 & _).
  destruct (conj_alphabet AB C s1 E1 a) as (I3 & O3 & A3). destruct (conj_alphabet A BC s2 E2 a) as (I4 & O4 & A4).
  split; [rewrite I3, I4, I1, I2; clear; tauto|]. split; [rewrite O3, O4, O1, O2; clear; tauto|]. split; [|split; [apply A3|apply A4]].
  unfold is_action. rewrite I3, I4, O3, O4, I1, I2, O1, O2. clear. tauto.
Qed.

Theorem conj_grouped : twins s1 s2.
Proof.
  split; [|split; [|exists grouped; split]].
  - intros a. apply (conj3_alphabet a).
  - intros a. apply (conj3_alphabet a).
  - intros p w r u G. split; [apply grouped_inv, G|]. split; [|split; [|intros d Hd; apply grouped_delay; assumption]].
    + intros a p' w' Cn. destruct (conj3_alphabet a) as (_ & _ & Q1 & Q2 & Q3). pose proof (proj1 Q1 (act_can _ _ _ _ _ _ Cn)) as Ha2.
      destruct G as (lA & lB & lC & lAB & lBC & Hp & Hab & Hr & Hbc & LA & LB & LC).
      destruct (conj_can dim AB C GAB GC S2 s1 E1 p lAB lC w a p' w' Hp Cn) as (lAB' & lC' & vAB & vC & PAB & PC & Hp' & K1 & K2).
      destruct (conj_can dim A B GA GB S1 AB EAB lAB lA lB w a lAB' vAB Hab PAB) as (lA' & lB' & vA & vB & PA & PB & Hab' & K3 & K4).
      destruct (can_like dim A _ _ u _ _ _ GA (proj1 Hab) LA PA) as (uA & PA' & MA). destruct (can_like dim B _ _ u _ _ _ GB (proj1 (proj2 Hab)) LB PB) as (uB & PB' & MB). destruct (can_like dim C _ _ u _ _ _ GC (proj1 (proj2 Hp)) LC PC) as (uC & PC' & MC).
      destruct (conj_can_join dim B C GB GC S3 BC EBC lBC lB lC u a lB' lC' uB uC Hbc (Q3 Ha2) PB' PC') as (lBC' & uBC & PBC & Hbc' & M3 & M4).
      destruct (conj_can_join dim A BC GA GBC S4 s2 E2 r lA lBC u a lA' lBC' uA uBC Hr Ha2 PA' PBC) as (r' & u' & Cn' & Hr' & M5 & M6).
      exists r', u'. split; [exact Cn'|]. exists lA', lB', lC', lAB', lBC'. do 4 (split; [assumption|]).
      split; [|split].
      * eapply like_trans; [apply (like_sub A AB _ _ (proj1 KAB) K1)|]. eapply like_trans; [exact K3|]. eapply like_trans; [exact MA|apply like_sym, M5].
      * eapply like_trans; [apply (like_sub B AB _ _ (proj2 KAB) K1)|]. eapply like_trans; [exact K4|]. eapply like_trans; [exact MB|]. apply like_sym. eapply like_trans; [apply (like_sub B BC _ _ (proj1 KBC) M6)|exact M3].
      * eapply like_trans; [exact K2|]. eapply like_trans; [exact MC|]. apply like_sym. eapply like_trans; [apply (like_sub C BC _ _ (proj2 KBC) M6)|exact M4].
    + intros a r' u' Cn. destruct (conj3_alphabet a) as (_ & _ & Q1 & Q2 & Q3). pose proof (proj2 Q1 (act_can _ _ _ _ _ _ Cn)) as Ha1.
      destruct G as (lA & lB & lC & lAB & lBC & Hp & Hab & Hr & Hbc & LA & LB & LC).
      destruct (conj_can dim A BC GA GBC S4 s2 E2 r lA lBC u a r' u' Hr Cn) as (lA' & lBC' & uA & uBC & PA & PBC & Hr' & K1 & K2).
      destruct (conj_can dim B C GB GC S3 BC EBC lBC lB lC u a lBC' uBC Hbc PBC) as (lB' & lC' & uB & uC & PB & PC & Hbc' & K3 & K4).
      destruct (can_like dim A _ _ w _ _ _ GA (proj1 Hab) (like_sym _ _ _ _ LA) PA) as (vA & PA' & MA). destruct (can_like dim B _ _ w _ _ _ GB (proj1 (proj2 Hab)) (like_sym _ _ _ _ LB) PB) as (vB & PB' & MB). destruct (can_like dim C _ _ w _ _ _ GC (proj1 (proj2 Hp)) (like_sym _ _ _ _ LC) PC) as (vC & PC' & MC).
      destruct (conj_can_join dim A B GA GB S1 AB EAB lAB lA lB w a lA' lB' vA vB Hab (Q2 Ha1) PA' PB') as (lAB' & vAB & PAB & Hab' & M3 & M4).
      destruct (conj_can_join dim AB C GAB GC S2 s1 E1 p lAB lC w a lAB' lC' vAB vC Hp Ha1 PAB PC') as (p' & w' & Cn' & Hp' & M5 & M6).
      exists p', w'. split; [exact Cn'|]. exists lA', lB', lC', lAB', lBC'. do 4 (split; [assumption|]).
      split; [|split]; apply like_sym.
      * eapply like_trans; [exact K1|]. eapply like_trans; [exact MA|]. apply like_sym. eapply like_trans; [apply (like_sub A AB _ _ (proj1 KAB) M5)|exact M3].
      * eapply like_trans; [apply (like_sub B BC _ _ (proj1 KBC) K2)|]. eapply like_trans; [exact K3|]. eapply like_trans; [exact MB|]. apply like_sym. eapply like_trans; [apply (like_sub B AB _ _ (proj2 KAB) M5)|exact M4].
      * eapply like_trans; [apply (like_sub C BC _ _ (proj2 KBC) K2)|]. eapply like_trans; [exact K4|]. eapply like_trans; [exact MC|apply like_sym, M6].
  - pose proof (conj_start dim A B GA GB AB EAB) as X1. pose proof (conj_start dim B C GB GC BC EBC) as X2. pose proof (conj_start dim AB C GAB GC s1 E1) as X3. pose proof (conj_start dim A BC GA GBC s2 E2) as X4.
    destruct (initial_location dim s1) as [p|] eqn:Ep.
    + destruct X3 as (lAB & lC & Y1 & Y2 & Hp). rewrite Y1 in X1. destruct X1 as (lA & lB & Y3 & Y4 & Hab). rewrite Y4, Y2 in X2. destruct (initial_location dim BC) as [lBC|]; [|destruct X2; discriminate].
      destruct X2 as (? & ? & Z1 & Z2 & Hbc). injection Z1 as <-. injection Z2 as <-. rewrite Y3 in X4. destruct (initial_location dim s2) as [r|]; [|destruct X4; discriminate]. destruct X4 as (? & ? & Z1 & Z2 & Hr). injection Z1 as <-. injection Z2 as <-.
      exists lA, lB, lC, lAB, lBC. do 4 (split; [assumption|]). split; [|split]; apply like_refl, zero_ok.
    + destruct (initial_location dim s2) as [r|]; [|exact I]. destruct X4 as (lA & lBC & Y1 & Y2 & _). rewrite Y2 in X2. destruct X2 as (lB & lC & Y3 & Y4 & _). rewrite Y1, Y3 in X1. rewrite Y4 in X3.
      destruct (initial_location dim AB); [destruct X3; discriminate|]. destruct X1; discriminate.
Qed.
Theorem conj_assoc : startable s1 -> refines dim s1 s2 /\ refines dim s2 s1.
Proof. apply twins_refines, conj_grouped. Qed.
End Conj3.
End Three.
End Sym.
