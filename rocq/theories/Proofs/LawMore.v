(** Consequences of the laws, and computable conditions for what they ask of systems. *)
From Coq Require Import List String ZArith QArith Bool Arith Lia Lqa.
From Verif Require Import Fed.Zone Fed.ZoneFacts Model.Base Model.Expr Model.Guard Model.Loc Model.Component Model.TS
  Spec.StepSpec Spec.SystemSpec Spec.RunSpec Spec.RefineSpec Spec.LawSpec
  Proofs.GuardFacts Proofs.StepFacts Proofs.SystemFacts Proofs.QuotientFacts Proofs.WfFacts Proofs.RunFacts Proofs.ReadsFacts Proofs.LawFacts Proofs.LawProofs Proofs.LawSym.
Import ListNotations.
Local Open Scope Q_scope.

Section More.
Variable dim : nat.
Notation good := (good dim). Notation refines := (refines dim).

Lemma reach_inv s l v : reachable dim s l v -> inv_at dim l v.
Proof. intros R. apply (reachable_entry dim s l v R). Qed.
Lemma reach_in s l v : good s -> reachable dim s l v -> In l (all_locations dim s).
Proof. intros G (l0 & E & _ & R). apply (run_wf dim s (g_built _ _ G) _ _ _ _ R), (initial_wf dim s (g_built _ _ G)), E. Qed.
Lemma start_able s : can_start dim s -> startable dim s.
Proof. intros (l & E & I) l' E'. rewrite E in E'. injection E' as <-. exact I. Qed.

Lemma trans_refines s1 s2 s3 : (forall a, is_output s1 a -> is_output s3 a -> is_output s2 a) -> (forall a, is_input s1 a -> is_input s3 a -> is_input s2 a) ->
  refines s1 s2 -> refines s2 s3 -> refines s1 s3.
Proof.
  intros Ho Hi. unfold RefineSpec.refines.
  destruct (initial_location dim s1) as [l1|], (initial_location dim s2) as [l2|], (initial_location dim s3) as [l3|]; try tauto.
  intros (R & HR & R0) (Q & HQ & Q0). exists (fun l1 v1 l3 v3 => exists l2 v2, R l1 v1 l2 v2 /\ Q l2 v2 l3 v3). split; [|eauto].
  rewrite refinement_can in *. intros p1 v1 p3 v3 (p2 & v2 & H1 & H2). destruct (HR _ _ _ _ H1) as (I1 & I2 & A1 & B1 & C1). destruct (HQ _ _ _ _ H2) as (_ & I3 & A2 & B2 & C2).
  split; [exact I1|]. split; [exact I3|]. split; [|split].
  - intros a p1' v1' Oa C. destruct (A1 a p1' v1' Oa C) as [X Y]. split.
    + intros O3. destruct (X (Ho a Oa O3)) as (p2' & v2' & C' & R'). destruct (proj1 (A2 a p2' v2' (Ho a Oa O3) C') O3) as (p3' & v3' & C'' & Q'). eauto 8.
    + intros N3. destruct (in_dec string_dec a (ts_outputs s2)) as [O2|N2].
      * destruct (X O2) as (p2' & v2' & C' & R'). pose proof (proj2 (A2 a p2' v2' O2 C') N3). eauto.
      * pose proof (Y N2). eauto.
  - intros a p3' v3' Ia C. destruct (B2 a p3' v3' Ia C) as [X Y]. split.
    + intros Ia1. destruct (X (Hi a Ia1 Ia)) as (p2' & v2' & C' & Q'). destruct (proj1 (B1 a p2' v2' (Hi a Ia1 Ia) C') Ia1) as (p1' & v1' & C'' & R'). eauto 8.
    + intros N1. destruct (in_dec string_dec a (ts_inputs s2)) as [I2'|N2].
      * destruct (X I2') as (p2' & v2' & C' & Q'). pose proof (proj2 (B1 a p2' v2' I2' C') N1). eauto.
      * pose proof (Y N2). eauto.
  - intros d Hd Hw. pose proof (C1 d Hd Hw) as R'. assert (W : forall e, 0 <= e -> e <= d -> inv_at dim p2 (vdelay v2 e)).
    { intros e He Hed. assert (R'' : R p1 (vdelay v1 e) p2 (vdelay v2 e)) by (apply C1; [exact He|]; intros; apply Hw; lra). apply (HR _ _ _ _ R''). }
    exists p2, (vdelay v2 d). split; [exact R'|]. apply C2; assumption.
Qed.

Lemma conj_total A B s : conjunction_new A B = Ok s -> exists s', conjunction_new B A = Ok s'.
Proof.
  intros E. destruct (conjunction_new_inv A B s E) as (_ & D1 & D2). unfold conjunction_new.
  replace (disjoint (ts_inputs B) (ts_outputs A)) with true; [replace (disjoint (ts_outputs B) (ts_inputs A)) with true; [eexists; reflexivity|]|]; symmetry; apply disjoint_spec; intros a H1 H2; [apply (D1 a H2 H1)|apply (D2 a H2 H1)].
Qed.
Lemma comp_total A B : (forall a, ~ (is_output A a /\ is_output B a)) -> exists s, composition_new A B = Ok s.
Proof.
  intros D. unfold composition_new. replace (disjoint (ts_outputs A) (ts_outputs B)) with true; [eexists; reflexivity|]. symmetry. apply disjoint_spec. intros a H1 H2. apply (D a). auto.
Qed.

Theorem conj_below_right A B s : good A -> good B -> separate A B -> conjunction_new A B = Ok s ->
  accepting dim A -> (forall a, is_input B a -> is_input A a) -> can_start dim s -> refines s B.
Proof.
  intros GA GB Sp E Acc Hi St. destruct (conj_total A B s E) as [s' E']. pose proof (conj_comm dim A B s s' GA GB Sp E E' (start_able s St)) as C.
  assert (St' : can_start dim s').
  { destruct St as (l & El & _). unfold RefineSpec.refines in C. rewrite El in C. destruct (initial_location dim s') as [l'|] eqn:El'; [|contradiction]. exists l'. split; [exact El'|].
    destruct C as (R & HR & R0). rewrite refinement_can in HR. apply (HR _ _ _ _ R0). }
  apply (trans_refines s s' B); [| |exact C|apply (conj_below dim B A s' GB GA (separate_sym A B Sp) E' Acc Hi St')].
  - intros a Oa _. pose proof (conj_alphabet B A s' E' a). pose proof (conj_alphabet A B s E a). tauto.
  - intros a Ia _. pose proof (conj_alphabet B A s' E' a). pose proof (conj_alphabet A B s E a). tauto.
Qed.

(** Both operands replaced. *)
Theorem comp_monotone_both A1 A2 B1 B2 s1 s2 : good A1 -> good A2 -> good B1 -> good B2 -> separate A1 B1 -> separate A2 B1 -> separate A2 B2 ->
  io_disjoint A1 -> io_disjoint A2 -> io_disjoint B1 -> io_disjoint B2 ->
  composition_new A1 B1 = Ok s1 -> composition_new A2 B2 = Ok s2 -> alphabets_fit A1 A2 -> alphabets_fit B1 B2 -> clean A1 A2 B1 -> clean B1 B2 A2 ->
  deterministic dim A1 -> deterministic dim B1 -> accepting dim A2 -> accepting dim B2 -> can_start dim A2 -> can_start dim B1 -> can_start dim B2 ->
  refines A1 A2 -> refines B1 B2 -> refines s1 s2.
Proof.
  intros GA1 GA2 GB1 GB2 S1 S2 S3 IA1 IA2 IB1 IB2 E1 E2 FA FB CA CB DA DB AA AB TA TB1 TB2 RA RB.
  destruct FA as (FA1 & FA2 & FA3 & FA4). destruct FB as (FB1 & FB2 & FB3 & FB4).
  assert (D1 : forall a, ~ (is_output A1 a /\ is_output B1 a)) by (intros a; apply (comp_alphabet A1 B1 s1 E1 a)).
  destruct (comp_total A2 B1) as [m E3]; [intros a [H1 H2]; apply (D1 a); split; [apply FA4, H1|exact H2]|].
  destruct (comp_total B1 A2) as [m' E4]; [intros a [H1 H2]; apply (D1 a); split; [apply FA4, H2|exact H1]|].
  destruct (comp_total B2 A2) as [s2' E5]; [intros a [H1 H2]; apply (D1 a); split; [apply FA4, H2|apply FB4, H1]|].
  assert (St : forall A B s, good A -> good B -> composition_new A B = Ok s -> can_start dim A -> can_start dim B -> startable dim s).
  { intros A B s GA GB E (lA & EA & IA) (lB & EB & IB) l El. pose proof (comp_start dim A B GA GB s E) as C. rewrite El in C. destruct C as (? & ? & X1 & X2 & Hb). rewrite EA in X1. rewrite EB in X2. injection X1 as <-. injection X2 as <-. apply Hb. auto. }
  pose proof (comp_monotone dim A1 A2 B1 s1 m GA1 GA2 GB1 S1 S2 IA1 IA2 IB1 E1 E3 (conj FA1 (conj FA2 (conj FA3 FA4))) CA DA AA TB1 RA) as R1.
  pose proof (comp_comm dim A2 B1 m m' GA2 GB1 S2 E3 E4 (St _ _ _ GA2 GB1 E3 TA TB1)) as R2.
  pose proof (comp_monotone dim B1 B2 A2 m' s2' GB1 GB2 GA2 (separate_sym _ _ S2) (separate_sym _ _ S3) IB1 IB2 IA2 E4 E5 (conj FB1 (conj FB2 (conj FB3 FB4))) CB DB AB TA RB) as R3.
  pose proof (comp_comm dim B2 A2 s2' s2 GB2 GA2 (separate_sym _ _ S3) E5 E2 (St _ _ _ GB2 GA2 E5 TB2 TA)) as R4.
  assert (Am : forall a, (is_input m a <-> is_input m' a) /\ (is_output m a <-> is_output m' a)).
  { intros a. destruct (comp_alphabet A2 B1 m E3 a) as (I1 & O1 & _). destruct (comp_alphabet B1 A2 m' E4 a) as (I2 & O2 & _). rewrite I1, I2, O1, O2. tauto. }
  assert (As : forall a, (is_input s2 a <-> is_input s2' a) /\ (is_output s2 a <-> is_output s2' a)).
  { intros a. destruct (comp_alphabet A2 B2 s2 E2 a) as (I1 & O1 & _). destruct (comp_alphabet B2 A2 s2' E5 a) as (I2 & O2 & _). rewrite I1, I2, O1, O2. tauto. }
  assert (I1m : forall a, is_input s1 a -> is_input m a).
  { intros a. destruct (comp_alphabet A1 B1 s1 E1 a) as (I1 & _). destruct (comp_alphabet A2 B1 m E3 a) as (I2 & _). rewrite I1, I2. specialize (FA3 a). specialize (FA4 a). clear - FA3 FA4. tauto. }
  assert (Om1 : forall a, is_output m a -> is_output s1 a).
  { intros a. destruct (comp_alphabet A1 B1 s1 E1 a) as (_ & O1 & _). destruct (comp_alphabet A2 B1 m E3 a) as (_ & O2 & _). rewrite O1, O2. specialize (FA4 a). clear - FA4. tauto. }
  assert (Imm : forall a, is_input m' a -> is_input s2' a).
  { intros a. destruct (comp_alphabet B1 A2 m' E4 a) as (I1 & _). destruct (comp_alphabet B2 A2 s2' E5 a) as (I2 & _). rewrite I1, I2. specialize (FB3 a). specialize (FB4 a). clear - FB3 FB4. tauto. }
  assert (Osm : forall a, is_output s2' a -> is_output m' a).
  { intros a. destruct (comp_alphabet B1 A2 m' E4 a) as (_ & O1 & _). destruct (comp_alphabet B2 A2 s2' E5 a) as (_ & O2 & _). rewrite O1, O2. specialize (FB4 a). clear - FB4. tauto. }
  apply (trans_refines s1 m s2); [intros a _ H; apply Am, Osm, As, H|intros a H _; apply I1m, H|exact R1|].
  apply (trans_refines m m' s2); [intros a _ H; apply Osm, As, H|intros a H _; apply Am, H|exact R2|].
  apply (trans_refines m' s2' s2); [intros a _ H; apply As, H|intros a H _; apply Imm, H|exact R3|exact R4].
Qed.

(** *** What the laws ask, by computation *)
Definition covers (s : ts) (l : loctree) (a : string) : bool :=
  match next_transitions dim s l a with
  | Ok ts => fsubset dim (apply_inv dim l funiv) (fold_left (fun g t => funion g (q_allowed dim l t)) ts fnone)
  | _ => false end.
Lemma covers_spec s l a v : good s -> In l (all_locations dim s) -> is_action s a -> covers s l a = true -> inv_at dim l v -> exists t, offered dim s l a t /\ able dim l t v.
Proof.
  intros G Hl Ha C I. unfold covers in C. destruct (next_transitions dim s l a) as [ts| | |] eqn:E; try discriminate. rewrite fsubset_true in C.
  specialize (C v (proj2 (apply_inv_sem dim l funiv v) (conj (proj2 (funiv_sem dim v) (inv_at_ok _ _ _ I)) I))). apply fold_union_sem in C. destruct C as [C|(t & Ht & C)]; [apply fnone_sem in C; contradiction|].
  assert (O : offered dim s l a t) by (split; [exact Ha|]; eauto). exists t. split; [exact O|]. apply q_allowed_sem in C; [exact C|]. apply (LawFacts.offered_dep dim s l a t G Hl O).
Qed.
Lemma accepting_check s : good s -> forallb (fun l => forallb (covers s l) (ts_inputs s)) (all_locations dim s) = true -> accepting dim s.
Proof.
  intros G H l v a R Ha. pose proof (reach_in s l v G R) as Hl. rewrite forallb_forall in H. specialize (H l Hl). rewrite forallb_forall in H.
  apply (covers_spec s l a v G Hl (or_introl Ha) (H a Ha)), (reach_inv s l v R).
Qed.
Lemma lively_check s outs : good s -> (forall a, In a outs -> is_output s a) ->
  forallb (fun l => match lt_inv l with None => true | Some _ => existsb (covers s l) outs end) (all_locations dim s) = true -> lively dim s (fun a => In a outs).
Proof.
  intros G Ho H l v R. pose proof (reach_in s l v G R) as Hl. rewrite forallb_forall in H. specialize (H l Hl). pose proof (reach_inv s l v R) as I.
  destruct (lt_inv l) as [f|] eqn:El.
  - right. apply existsb_exists in H. destruct H as (a & Ha & C). destruct (covers_spec s l a v G Hl (or_intror (Ho a Ha)) C I) as (t & O & Ab). exists a, t. auto.
  - left. exists 1. split; [lra|]. intros e He _. unfold inv_at. rewrite El. apply vdelay_ok; [apply (inv_at_ok _ _ _ I)|exact He].
Qed.
Lemma separate_check s1 s2 : forallb (fun x => negb (existsb (Nat.eqb x) (sys_clocks s2))) (sys_clocks s1) = true -> separate s1 s2.
Proof.
  intros H x Hx C. rewrite forallb_forall in H. specialize (H x Hx). apply negb_true_iff in H.
  assert (existsb (Nat.eqb x) (sys_clocks s2) = true) by (apply existsb_exists; exists x; split; [exact C|apply Nat.eqb_refl]). congruence.
Qed.
Lemma subset_check (xs ys : list string) : forallb (fun x => existsb (String.eqb x) ys) xs = true -> forall a, In a xs -> In a ys.
Proof. intros H a Ha. rewrite forallb_forall in H. specialize (H a Ha). apply existsb_exists in H. destruct H as (y & Hy & E). apply String.eqb_eq in E. subst. exact Hy. Qed.
Lemma apart_check (xs ys : list string) : forallb (fun x => negb (existsb (String.eqb x) ys)) xs = true -> forall a, In a xs -> ~ In a ys.
Proof.
  intros H a Ha C. rewrite forallb_forall in H. specialize (H a Ha). apply negb_true_iff in H.
  assert (existsb (String.eqb a) ys = true) by (apply existsb_exists; exists a; split; [exact C|apply String.eqb_refl]). congruence.
Qed.
End More.
