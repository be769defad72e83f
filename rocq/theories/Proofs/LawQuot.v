(** The quotient is the most general system that composed with the divisor refines the dividend. *)
From Coq Require Import List String ZArith QArith Bool Arith Lia Lqa.
From Verif Require Import Fed.Zone Fed.ZoneFacts Model.Base Model.Expr Model.Guard Model.Loc Model.Component Model.TS
  Spec.StepSpec Spec.SystemSpec Spec.RunSpec Spec.RefineSpec Spec.LawSpec
  Proofs.GuardFacts Proofs.StepFacts Proofs.SystemFacts Proofs.QuotientFacts Proofs.WfFacts Proofs.RunFacts Proofs.ReadsFacts Proofs.LawFacts Proofs.LawProofs.
Import ListNotations.
Local Open Scope Q_scope.

Lemma some_or_none {A} (P : A -> Prop) xs : (forall x, In x xs -> P x \/ ~ P x) -> (exists x, In x xs /\ P x) \/ (forall x, In x xs -> ~ P x).
Proof.
  induction xs as [|x xs IH]; intros H; [right; intros x []|]. destruct (H x (or_introl eq_refl)) as [Y|N]; [left; exists x; simpl; auto|].
  destruct IH as [(y & Hy & Py)|Nn]; [intros y Hy; apply H; right; exact Hy|left; exists y; simpl; auto|right; intros y [<-|Hy]; auto].
Qed.

Section Quot.
Variable dim : nat.
Notation can := (can dim). Notation like := (like dim). Notation both := (both dim).
Notation good := (good dim). Notation inv_at := (inv_at dim). Notation reachable := (reachable dim). Notation part := (part dim).
Variables T S : ts.
Variables (ins outs : list string) (n : string) (q : nat).
Let Q := TQuot T S ins outs n q.
Hypothesis GT : good T.
Hypothesis GS : good S.
Hypothesis GQ : good Q.
Hypothesis Sep : separate T S.
Hypothesis E : quotient_new T S q = Ok Q.

Lemma quot_alphabet : (forall a, is_input Q a <-> is_input T a \/ is_output S a \/ a = n) /\
  (forall a, is_output Q a <-> is_output T a /\ ~ is_output S a \/ is_input S a /\ ~ is_input T a) /\
  (forall a, is_output S a -> ~ is_input T a) /\ ~ is_input T n /\ ~ is_output S n.
Proof.
  destruct (quotient_new_inv T S q Q E) as (m & i & o & Er & Hi & Ho & Nt & Ns & _ & D). unfold Q in Er. injection Er as -> -> ->. unfold is_input, is_output, Q. cbn [ts_inputs ts_outputs]. auto.
Qed.
Lemma quot_clocks : q <> 0%nat /\ (q < dim)%nat.
Proof. destruct (g_clocks _ _ GQ) as [q' K]. cbn [clocks_ok Q] in K. unfold Q in K. cbn [clocks_ok] in K. destruct K as (_ & _ & _ & -> & A & B). auto. Qed.
Lemma quot_inv lT lS v : val_ok dim v -> inv_at (lt_quotient lT lS) v.
Proof. intros V. exact V. Qed.
Lemma quot_univ_inv v : val_ok dim v -> inv_at lt_universal v.
Proof. intros V. exact V. Qed.
Lemma quot_err_inv v : inv_at (lt_error q) v <-> val_ok dim v /\ v q == 0.
Proof.
  unfold StepSpec.inv_at. cbn [lt_inv lt_error]. rewrite fcon_eq_sem, funiv_sem. change (inject_Z 0) with 0. split.
  - intros [A B]. split; [exact B|]. destruct B as [B _]. rewrite B in A. lra.
  - intros [A B]. split; [|exact A]. destruct A as [A _]. rewrite A, B. lra.
Qed.

Lemma next_has s l a : good s -> In l (all_locations dim s) -> exists ts, next_if_available dim s l a = Ok ts /\
  (forall t, In t ts -> tr_fine dim t) /\ (forall t, In t ts -> offered dim s l a t) /\ (forall t, offered dim s l a t -> In t ts).
Proof.
  intros G Hl. unfold next_if_available. destruct (has_action s a) eqn:Ha.
  - apply has_action_spec in Ha. destruct (next_wf dim s (g_built _ _ G) l a Hl Ha) as (ts & Ets & _). exists ts. split; [exact Ets|].
    assert (O : forall t, In t ts -> offered dim s l a t) by (intros t Ht; split; [exact Ha|eauto]).
    split; [|split; [exact O|]].
    + intros t Ht. apply (LawFacts.offered_dep dim s l a t G Hl (O t Ht)).
    + intros t (_ & us & Eus & Ht). rewrite Ets in Eus. injection Eus as <-. exact Ht.
  - exists []. split; [reflexivity|]. split; [intros t []|]. split; [intros t []|]. intros t (H & _). apply has_action_spec in H. rewrite H in Ha. discriminate.
Qed.

(** The steps of the quotient in a pair of locations, by the steps of its operands. *)
Inductive qmove (lT lS : loctree) (v : val) (a : string) : loctree -> val -> Prop :=
| m_both lT' vT lS' vS v' : is_action T a -> is_action S a -> can T lT v a lT' vT -> can S lS v a lS' vS -> like T v' vT -> like S v' vS ->
    qmove lT lS v a (lt_quotient lT' lS') v'
| m_s lS' vS v' : ~ is_action T a -> is_action S a -> can S lS v a lS' vS -> like T v' v -> like S v' vS -> qmove lT lS v a (lt_quotient lT lS') v'
| m_t lT' vT v' : is_action T a -> ~ is_action S a -> inv_at lS v -> can T lT v a lT' vT -> like T v' vT -> like S v' v -> qmove lT lS v a (lt_quotient lT' lS) v'
| m_dead v' : ~ inv_at lS v -> val_ok dim v' -> qmove lT lS v a lt_universal v'
| m_out v' : is_output S a -> (forall l w, ~ can S lS v a l w) -> val_ok dim v' -> qmove lT lS v a lt_universal v'
| m_err lS' vS v' : is_output S a -> is_output T a -> can S lS v a lS' vS -> (forall l w, ~ can T lT v a l w) -> v' q == 0 -> qmove lT lS v a (lt_error q) v'
| m_new v' : a = n -> inv_at lS v -> ~ inv_at lT v -> v' q == 0 -> qmove lT lS v a (lt_error q) v'.

Section Pair.
Variables lT lS : loctree.
Hypothesis HT : In lT (all_locations dim T).
Hypothesis HS : In lS (all_locations dim S).
Variable v : val.
Hypothesis V : val_ok dim v.
Variable a : string.

Lemma quot_offers : is_action Q a -> exists ts tts sss, next_transitions dim Q (lt_quotient lT lS) a = Ok ts /\ offers dim ts (qstep dim T S n q lT lS tts sss a) /\
  (forall t, In t tts <-> offered dim T lT a t) /\ (forall t, In t sss <-> offered dim S lS a t).
Proof.
  intros Ha. destruct (next_has T lT a GT HT) as (tts & Et & Ft & Ot & It). destruct (next_has S lS a GS HS) as (sss & Es & Fs & Os & Is).
  exists (quotient_rules dim T S n q lT lS tts sss a), tts, sss. split; [|split; [apply quotient_rules_sound; assumption|split; intros t; split; auto]].
  apply quotient_next; auto; unfold is_inconsistent, is_universal; cbn [lt_type lt_quotient]; destruct (lt_type lT), (lt_type lS); reflexivity.
Qed.

Lemma upd_sep t s : tr_fine dim t -> tr_fine dim s -> touches (sys_clocks T) t -> touches (sys_clocks S) s ->
  like T (run_updates (t_updates t ++ t_updates s) v) (run_updates (t_updates t) v) /\ like S (run_updates (t_updates t ++ t_updates s) v) (run_updates (t_updates s) v).
Proof.
  intros [U1 _] [U2 _] T1 T2. assert (Eq : run_updates (t_updates t ++ t_updates s) v = run_updates (t_updates s) (run_updates (t_updates t) v)) by apply fold_left_app. rewrite Eq.
  pose proof (run_updates_ok dim _ U1 v V) as V1. pose proof (run_updates_ok dim _ U2 v V) as V2. pose proof (run_updates_ok dim _ U2 _ V1) as V12. split.
  - split; [exact V12|]. split; [exact V1|]. apply agree_foreign. intros u Hu C. apply (Sep _ C), T2, Hu.
  - split; [exact V12|]. split; [exact V2|]. apply agree_updates, agree_foreign. intros u Hu C. apply (Sep (u_clock u)); [apply T1, Hu|exact C].
Qed.
Lemma upd_T t : tr_fine dim t -> touches (sys_clocks T) t -> like T (run_updates (t_updates t) v) (run_updates (t_updates t) v) /\ like S (run_updates (t_updates t) v) v.
Proof.
  intros [U1 _] T1. pose proof (run_updates_ok dim _ U1 v V) as V1. split; [apply like_refl, V1|]. split; [exact V1|]. split; [exact V|].
  apply agree_foreign. intros u Hu C. apply (Sep (u_clock u)); [apply T1, Hu|exact C].
Qed.
Lemma upd_S s : tr_fine dim s -> touches (sys_clocks S) s -> like S (run_updates (t_updates s) v) (run_updates (t_updates s) v) /\ like T (run_updates (t_updates s) v) v.
Proof.
  intros [U1 _] T1. pose proof (run_updates_ok dim _ U1 v V) as V1. split; [apply like_refl, V1|]. split; [exact V1|]. split; [exact V|].
  apply agree_foreign. intros u Hu C. apply (Sep _ C), T1, Hu.
Qed.
Lemma reset_ok : val_ok dim (run_updates [mkU q 0] v) /\ run_updates [mkU q 0] v q == 0.
Proof.
  destruct quot_clocks as [Q1 Q2]. split.
  - apply run_updates_ok; [|exact V]. intros u [<-|[]]. cbn. split; [exact Q1|]. split; [exact Q2|lia].
  - cbn. unfold vset. rewrite Nat.eqb_refl. reflexivity.
Qed.

Lemma quot_can l' v' : can Q (lt_quotient lT lS) v a l' v' -> qmove lT lS v a l' v' /\ val_ok dim v'.
Proof.
  intros (t & O & Ab & -> & ->). split; [|apply (inv_at_ok _ _ _ (proj2 (proj2 Ab)))]. destruct O as (Ha & ts & Ets & Ht).
  destruct (quot_offers Ha) as (ts' & tts & sss & Ets' & Of & It & Is). fold Q in Ets. rewrite Ets in Ets'. injection Ets' as <-.
  assert (St : qstep dim T S n q lT lS tts sss a v (t_target t) (t_updates t)) by (apply Of; exists t; split; [exact Ht|]; split; [apply Ab|auto]).
  destruct Ab as (_ & _ & Ab). revert St Ab. generalize (t_target t) (t_updates t). intros l us St Ab.
  destruct St as [x y At As Hx Hy Ax Ay|y At As Hy Ay|x At As Hx Ax Iv|Vv Nv|Vv Os Nn|y Os Ot Hy Ay Nn|En Iv Nv].
  - apply It in Hx. apply Is in Hy. destruct (LawFacts.offered_dep dim T lT a x GT HT Hx) as (F1 & _ & T1 & _). destruct (LawFacts.offered_dep dim S lS a y GS HS Hy) as (F2 & _ & T2 & _).
    destruct (upd_sep x y F1 F2 T1 T2) as [L1 L2]. eapply m_both; [exact At|exact As|exists x; split; [exact Hx|auto]|exists y; split; [exact Hy|auto]|exact L1|exact L2].
  - apply Is in Hy. destruct (LawFacts.offered_dep dim S lS a y GS HS Hy) as (F2 & _ & T2 & _).
    destruct (upd_S y F2 T2) as [L1 L2]. eapply m_s; [exact At|exact As|exists y; split; [exact Hy|auto]|exact L2|exact L1].
  - apply It in Hx. destruct (LawFacts.offered_dep dim T lT a x GT HT Hx) as (F1 & _ & T1 & _).
    destruct (upd_T x F1 T1) as [L1 L2]. eapply m_t; [exact At|exact As|exact Iv|exists x; split; [exact Hx|auto]|exact L1|exact L2].
  - apply m_dead; assumption.
  - apply m_out; [exact Os| |exact Vv]. intros l w (y & Oy & Ay & _). apply (Nn y); [apply Is, Oy|exact Ay].
  - apply Is in Hy. eapply m_err; [exact Os|exact Ot|exists y; split; [exact Hy|auto]| |apply reset_ok].
    intros l w (x & Ox & Ax & _). apply (Nn x); [apply It, Ox|exact Ax].
  - apply m_new; [exact En|exact Iv|exact Nv|apply reset_ok].
Qed.

Lemma quot_step ts tts sss l us : is_action Q a -> next_transitions dim Q (lt_quotient lT lS) a = Ok ts -> offers dim ts (qstep dim T S n q lT lS tts sss a) ->
  qstep dim T S n q lT lS tts sss a v l us -> inv_at l (run_updates us v) -> can Q (lt_quotient lT lS) v a l (run_updates us v).
Proof.
  intros Ha Ets Of St Iv. apply Of in St. destruct St as (t & Ht & Gt & <- & <-). exists t. split; [split; [exact Ha|eauto]|]. split; [|auto].
  split; [apply quot_inv, V|]. auto.
Qed.

Lemma quot_both lT' vT lS' vS : is_action Q a -> is_action T a -> is_action S a -> can T lT v a lT' vT -> can S lS v a lS' vS ->
  exists v', can Q (lt_quotient lT lS) v a (lt_quotient lT' lS') v' /\ like T v' vT /\ like S v' vS.
Proof.
  intros Ha At As (x & Hx & Ax & -> & ->) (y & Hy & Ay & -> & ->). destruct (quot_offers Ha) as (ts & tts & sss & Ets & Of & It & Is).
  destruct (LawFacts.offered_dep dim T lT a x GT HT Hx) as (F1 & _ & T1 & _). destruct (LawFacts.offered_dep dim S lS a y GS HS Hy) as (F2 & _ & T2 & _).
  destruct (upd_sep x y F1 F2 T1 T2) as [L1 L2]. exists (run_updates (t_updates x ++ t_updates y) v). split; [|auto].
  apply (quot_step ts tts sss); try assumption; [apply q_both; [exact At|exact As|apply It, Hx|apply Is, Hy|exact Ax|exact Ay]|]. apply quot_inv, L1.
Qed.
Lemma quot_s lS' vS : is_action Q a -> ~ is_action T a -> is_action S a -> can S lS v a lS' vS ->
  exists v', can Q (lt_quotient lT lS) v a (lt_quotient lT lS') v' /\ like T v' v /\ like S v' vS.
Proof.
  intros Ha At As (y & Hy & Ay & -> & ->). destruct (quot_offers Ha) as (ts & tts & sss & Ets & Of & It & Is).
  destruct (LawFacts.offered_dep dim S lS a y GS HS Hy) as (F2 & _ & T2 & _).
  destruct (upd_S y F2 T2) as [L1 L2]. exists (run_updates (t_updates y) v). split; [|auto].
  apply (quot_step ts tts sss); try assumption; [apply q_s; [exact At|exact As|apply Is, Hy|exact Ay]|]. apply quot_inv, L1.
Qed.
Lemma quot_t lT' vT : is_action Q a -> is_action T a -> ~ is_action S a -> inv_at lS v -> can T lT v a lT' vT ->
  exists v', can Q (lt_quotient lT lS) v a (lt_quotient lT' lS) v' /\ like T v' vT /\ like S v' v.
Proof.
  intros Ha At As Iv (x & Hx & Ax & -> & ->). destruct (quot_offers Ha) as (ts & tts & sss & Ets & Of & It & Is).
  destruct (LawFacts.offered_dep dim T lT a x GT HT Hx) as (F1 & _ & T1 & _).
  destruct (upd_T x F1 T1) as [L1 L2]. exists (run_updates (t_updates x) v). split; [|auto].
  apply (quot_step ts tts sss); try assumption; [apply q_t; [exact At|exact As|apply It, Hx|exact Ax|exact Iv]|]. apply quot_inv, L1.
Qed.
Lemma quot_dead : is_action Q a -> ~ inv_at lS v -> can Q (lt_quotient lT lS) v a lt_universal v.
Proof.
  intros Ha Nv. destruct (quot_offers Ha) as (ts & tts & sss & Ets & Of & It & Is).
  refine (quot_step ts tts sss lt_universal [] Ha Ets Of _ V). apply q_univ_inv; assumption.
Qed.
Lemma quot_err lS' vS : is_output S a -> is_output T a -> can S lS v a lS' vS -> (forall l w, ~ can T lT v a l w) ->
  exists v', can Q (lt_quotient lT lS) v a (lt_error q) v'.
Proof.
  intros Os Ot (y & Hy & Ay & -> & ->) Nn. assert (Ha : is_action Q a) by (left; apply (proj1 quot_alphabet); auto).
  destruct (quot_offers Ha) as (ts & tts & sss & Ets & Of & It & Is). exists (run_updates [mkU q 0] v).
  apply (quot_step ts tts sss); try assumption; [|apply quot_err_inv, reset_ok]. apply (q_err_out dim T S n q lT lS tts sss a v y); auto; [apply Is, Hy|].
  intros t Ht At. apply (Nn (t_target t) (run_updates (t_updates t) v)). exists t. split; [apply It, Ht|auto].
Qed.
Lemma quot_new_input : a = n -> inv_at lS v -> ~ inv_at lT v -> exists v', can Q (lt_quotient lT lS) v a (lt_error q) v'.
Proof.
  intros En Iv Nv. assert (Ha : is_action Q a) by (left; apply (proj1 quot_alphabet); auto).
  destruct (quot_offers Ha) as (ts & tts & sss & Ets & Of & It & Is). exists (run_updates [mkU q 0] v).
  apply (quot_step ts tts sss); try assumption; [|apply quot_err_inv, reset_ok]. apply q_err_inv; assumption.
Qed.
End Pair.

Lemma univ_can v a : val_ok dim v -> is_action Q a -> can Q lt_universal v a lt_universal v.
Proof.
  intros V Ha. exists (t_without_id lt_universal). split; [|split; [apply without_able, V|auto]]. split; [exact Ha|]. apply has_action_spec in Ha.
  exists [t_without_id lt_universal]. unfold Q in *. cbn [next_transitions]. rewrite Ha. cbn. auto.
Qed.
Lemma univ_can_inv v a l' v' : can Q lt_universal v a l' v' -> l' = lt_universal /\ v' = v.
Proof.
  intros (t & (Ha & ts & Ets & Ht) & _ & -> & ->). apply has_action_spec in Ha. unfold Q in *. cbn [next_transitions] in Ets. rewrite Ha in Ets. cbn in Ets. injection Ets as <-. destruct Ht as [<-|[]]. auto.
Qed.
Lemma err_can_inv v a l' v' : can Q (lt_error q) v a l' v' -> is_input Q a.
Proof.
  intros (t & (Ha & ts & Ets & Ht) & _ & -> & ->). apply has_action_spec in Ha. unfold Q in *. cbn [next_transitions] in Ets. rewrite Ha in Ets. cbn in Ets. injection Ets as <-.
  destruct (sin a ins) eqn:Ei; [apply sin_In in Ei; exact Ei|destruct Ht].
Qed.

Section Law.
Variables X s : ts.
Hypothesis GX : good X.
Hypothesis SX : separate S X.
Hypothesis EC : composition_new S X = Ok s.
Hypothesis Fit : alphabets_fit X Q.

(** *** From the quotient to the composition *)
Theorem quot_to_comp : deterministic dim S -> accepting dim S -> can_start dim S -> deterministic dim X -> lively dim X (is_output Q) -> ~ is_input X n ->
  refines dim X Q -> refines dim s T.
Proof.
  intros DS AS (s0 & Es0 & Is0) DX LX NX Rf. destruct quot_alphabet as (Qi & Qo & Qd & Qn1 & Qn2). destruct Fit as (F1 & F2 & F3 & F4).
  pose proof (comp_start dim S X GS GX s EC) as C0. pose proof (fun a => comp_alphabet S X s EC a) as Al. unfold refines in *. cbn [initial_location Q] in Rf. unfold Q in Rf. cbn [initial_location] in Rf. fold Q in Rf. rewrite Es0 in *.
  destruct (initial_location dim X) as [x0|] eqn:Ex; destruct (initial_location dim T) as [t0|] eqn:Et; try contradiction.
  2:{ destruct (initial_location dim s); [destruct C0 as (? & ? & _ & ? & _); discriminate|exact I]. }
  destruct (initial_location dim s) as [p0|]; [|destruct C0; discriminate]. destruct C0 as (? & ? & Z1 & Z2 & Hp0). injection Z1 as <-. injection Z2 as <-.
  destruct Rf as (R & H & Z). rewrite refinement_can in H.
  (* the error location is never related *)
  assert (Err : forall lX vX vQ, reachable X lX vX -> R lX vX (lt_error q) vQ -> False).
  { intros lX vX vQ Rx Hr. destruct (H _ _ _ _ Hr) as (_ & IE & Ho & _ & Hd). destruct (LX lX vX Rx) as [(d & Hd1 & Hd2)|(a & t & Oa & Ox & O & Ab)].
    - pose proof (Hd d (Qlt_le_weak _ _ Hd1) Hd2) as Hr'. destruct (H _ _ _ _ Hr') as (_ & IE' & _). apply quot_err_inv in IE. apply quot_err_inv in IE'. destruct IE as [_ I1], IE' as [_ I2].
      unfold vdelay in I2. destruct quot_clocks as [Q1 _]. apply Nat.eqb_neq in Q1. rewrite Q1 in I2. lra.
    - destruct (Ho a (t_target t) (run_updates (t_updates t) vX) Ox) as [Y _]; [exists t; auto|]. destruct (Y Oa) as (l2 & v2 & C & _). apply err_can_inv in C. apply (F2 a C Ox). }
  assert (InvT : forall lX vX lT lS vQ, In lT (all_locations dim T) -> In lS (all_locations dim S) -> reachable X lX vX -> R lX vX (lt_quotient lT lS) vQ -> inv_at lS vQ -> inv_at lT vQ).
  { intros lX vX lT lS vQ HT HS Rx Hr IS. assert (V : val_ok dim vQ) by (eapply inv_at_ok; eauto). destruct (inv_at_dec dim lT vQ V) as [Y|N]; [exact Y|]. exfalso.
    destruct (quot_new_input lT lS HT HS vQ V n eq_refl IS N) as (v' & C). destruct (H _ _ _ _ Hr) as (_ & _ & _ & Hi & _).
    assert (In' : is_input Q n) by (apply Qi; auto). destruct (Hi n _ _ In' C) as [_ Y]. apply (Err lX vX v' Rx), Y, NX. }
  exists (fun p w lT vT => exists lS vS lX vX vQ, both S X p lS lX /\ In lT (all_locations dim T) /\ like S w vS /\ like X w vX /\ like T vQ vT /\ like S vQ vS /\
     inv_at lS vS /\ R lX vX (lt_quotient lT lS) vQ /\ reachable X lX vX /\ reachable S lS vS). split.
  2:{ exists s0, zero_val, x0, zero_val, zero_val. split; [exact Hp0|]. split; [apply (initial_wf dim T (g_built _ _ GT)), Et|]. repeat (split; [apply like_refl, zero_ok|]). split; [exact Is0|]. split; [exact Z|].
      split; apply start_reach; auto. apply (H _ _ _ _ Z). }
  apply refinement_can. intros p w lT vT (lS & vS & lX & vX & vQ & Hp & HT & LS & LX' & LT & LQS & IS & Hr & Rx & Rs).
  pose proof (proj1 Hp) as HS. pose proof (proj1 (proj2 Hp)) as HX. destruct (H _ _ _ _ Hr) as (IX & IQ & Ho & Hi & Hd). assert (VQ : val_ok dim vQ) by apply LT.
  assert (ISQ : inv_at lS vQ) by (eapply inv_like; [exact GS|exact HS|apply like_sym, LQS|exact IS]).
  assert (ITQ : inv_at lT vQ) by (eapply InvT; eauto).
  split. { apply Hp. split; [eapply inv_like; [exact GS|exact HS|apply like_sym, LS|exact IS]|eapply inv_like; [exact GX|exact HX|apply like_sym, LX'|exact IX]]. }
  split; [eapply inv_like; [exact GT|exact HT|exact LT|exact ITQ]|].
  assert (Join : forall a x u b z, is_action s a -> part S lS vS a x u -> part X lX vX a b z -> exists p' w', can s p w a p' w' /\ both S X p' x b /\ like S w' u /\ like X w' z).
  { intros a x u b z Ha P1 P2. destruct (part_like dim S _ _ w _ _ _ GS HS (like_sym _ _ _ _ LS) P1) as (u' & P1' & X1). destruct (part_like dim X _ _ w _ _ _ GX HX (like_sym _ _ _ _ LX') P2) as (z' & P2' & X2).
    destruct (comp_can_join dim S X GS GX SX s EC p lS lX w a x b u' z' Hp Ha P1' P2') as (p' & w' & C & Hb & Y1 & Y2). exists p', w'. split; [exact C|]. split; [exact Hb|].
    split; [eapply like_trans; [exact Y1|apply like_sym, X1]|eapply like_trans; [exact Y2|apply like_sym, X2]]. }
  split; [|split].
  - intros a p' w' Oa C. destruct (comp_can dim S X GS GX SX s EC p lS lX w a p' w' Hp C) as (lS' & lX' & u & z & P1 & P2 & Hp' & Y1 & Y2).
    destruct (part_like dim S _ _ vS _ _ _ GS HS LS P1) as (vS' & P1' & X1). destruct (part_like dim X _ _ vX _ _ _ GX HX LX' P2) as (vX' & P2' & X2).
    pose proof (part_reach dim X _ _ _ _ _ Rx P2') as Rx'. pose proof (part_reach dim S _ _ _ _ _ Rs P1') as Rs'.
    assert (M1 : like S w' vS') by (eapply like_trans; eauto). assert (M2 : like X w' vX') by (eapply like_trans; eauto).
    assert (IS' : inv_at lS' vS'). { destruct P1' as [[_ C1]|(_ & -> & -> & _)]; [apply (can_in dim S _ _ _ _ _ GS HS C1)|exact IS]. }
    destruct (Al a) as (Ai & Ao & _ & Ad). destruct (In_dec_s a (ts_outputs S)) as [OS|OS]; fold (is_output S a) in OS.
    + assert (C1 : can S lS vS a lS' vS') by (destruct P1' as [[_ C1]|[N _]]; [exact C1|exfalso; apply N; right; exact OS]).
      destruct (can_like dim S _ _ _ _ _ _ GS HS (like_sym _ _ _ _ LQS) C1) as (uS & C1q & L1q).
      assert (Iq : is_input Q a) by (apply Qi; auto). assert (Aq : is_action Q a) by (left; exact Iq). assert (OX : ~ is_output X a) by tauto.
      (* where the other side of the composition goes *)
      assert (Follow : forall lQ' vQ', can Q (lt_quotient lT lS) vQ a lQ' vQ' -> R lX' vX' lQ' vQ').
      { intros lQ' vQ' Cq. destruct (Hi a lQ' vQ' Iq Cq) as [Yi Ni]. destruct P2' as [[[IXa|OXa] C2]|(NXa & -> & -> & _)]; [|contradiction|apply Ni; intros K; apply NXa; left; exact K].
        destruct (Yi IXa) as (x' & u' & C2' & Hr'). destruct (can_det dim X _ _ _ _ _ _ _ DX Rx C2 C2') as [-> ->]. exact Hr'. }
      split.
      * intros OT. assert (CT : exists lT' vT', can T lT vQ a lT' vT').
        { destruct (next_has T lT a GT HT) as (tts & _ & Ft & Ot & It).
          assert (Dt : forall t, In t tts -> able dim lT t vQ \/ ~ able dim lT t vQ).
          { intros t Ht. pose proof (q_allowed_sem dim lT t vQ (Ft t Ht)) as Qa. destruct (fsem_dec dim (q_allowed dim lT t) vQ VQ); tauto. }
          destruct (some_or_none _ tts Dt) as [(t & Ht & Ab)|Nn].
          - exists (t_target t), (run_updates (t_updates t) vQ), t. split; [apply Ot, Ht|auto].
          - exfalso. destruct (quot_err lT lS HT HS vQ VQ a lS' uS OS OT C1q) as (v' & Cq).
            + intros l w0 (t & O & Ab & _). apply (Nn t); [apply It, O|exact Ab].
            + apply (Err lX' vX' v' Rx'), Follow, Cq. }
        destruct CT as (lT' & uT & CT). destruct (quot_both lT lS HT HS vQ VQ a lT' uT lS' uS Aq (or_intror OT) (or_intror OS) CT C1q) as (vQ' & Cq & LT' & LS').
        destruct (can_like dim T _ _ _ _ _ _ GT HT LT CT) as (vT' & CT' & LT2). exists lT', vT'. split; [exact CT'|].
        exists lS', vS', lX', vX', vQ'. split; [exact Hp'|]. split; [apply (can_in dim T _ _ _ _ _ GT HT CT)|]. split; [exact M1|]. split; [exact M2|]. split; [eapply like_trans; eauto|].
        split; [eapply like_trans; [exact LS'|apply like_sym, L1q]|]. split; [exact IS'|]. split; [apply Follow, Cq|auto].
      * intros OT. assert (NT : ~ is_action T a) by (intros [K|K]; [apply (Qd a OS K)|contradiction]).
        destruct (quot_s lT lS HT HS vQ VQ a lS' uS Aq NT (or_intror OS) C1q) as (vQ' & Cq & LT' & LS').
        exists lS', vS', lX', vX', vQ'. split; [exact Hp'|]. split; [exact HT|]. split; [exact M1|]. split; [exact M2|]. split; [eapply like_trans; eauto|].
        split; [eapply like_trans; [exact LS'|apply like_sym, L1q]|]. split; [exact IS'|]. split; [apply Follow, Cq|auto].
    + assert (OX : is_output X a) by tauto. assert (C2 : can X lX vX a lX' vX') by (destruct P2' as [[_ C2]|[N _]]; [exact C2|exfalso; apply N; right; exact OX]).
      assert (NQi : ~ is_input Q a) by (intros K; apply (F2 a K OX)). assert (NT : ~ is_input T a) by (intros K; apply NQi, Qi; auto).
      destruct (Ho a lX' vX' OX C2) as [Y N]. 
      (* the step of the quotient tells what T and S do *)
      assert (St : is_output Q a -> exists lQ' vQ', qmove lT lS vQ a lQ' vQ' /\ R lX' vX' lQ' vQ').
      { intros Oq. destruct (Y Oq) as (lQ' & vQ' & Cq & Hr'). exists lQ', vQ'. split; [apply (quot_can lT lS HT HS vQ VQ a lQ' vQ' Cq)|exact Hr']. }
      assert (SameS : forall l u', can S lS vQ a l u' -> is_action S a -> l = lS' /\ like S u' vS').
      { intros l u' Cs Sa. destruct P1' as [[_ C1]|[K _]]; [|contradiction]. destruct (can_like dim S _ _ _ _ _ _ GS HS LQS Cs) as (u2 & Cs' & Lu). destruct (can_det dim S _ _ _ _ _ _ _ DS Rs C1 Cs') as [-> ->]. auto. }
      split.
      * intros OT. assert (Oq : is_output Q a) by (apply Qo; auto). destruct (St Oq) as (lQ' & vQ' & Mv & Hr').
        destruct Mv as [lT' uT l2 u2 v' At As CT CS L1 L2|l2 u2 v' At As CS L1 L2|lT' uT v' At As _ CT L1 L2|v' Nd _|v' Os _ _|l2 u2 v' Os _ _ _ _|v' En _ _ _].
        -- destruct (SameS l2 u2 CS As) as [-> LS2]. destruct (can_like dim T _ _ _ _ _ _ GT HT LT CT) as (vT' & CT' & LT2). exists lT', vT'. split; [exact CT'|].
           exists lS', vS', lX', vX', v'. split; [exact Hp'|]. split; [apply (can_in dim T _ _ _ _ _ GT HT CT)|]. split; [exact M1|]. split; [exact M2|]. split; [eapply like_trans; eauto|]. split; [eapply like_trans; eauto|]. auto.
        -- exfalso. apply At. right. exact OT.
        -- destruct P1' as [[K _]|(_ & -> & -> & _)]; [contradiction|]. destruct (can_like dim T _ _ _ _ _ _ GT HT LT CT) as (vT' & CT' & LT2). exists lT', vT'. split; [exact CT'|].
           exists lS, vS, lX', vX', v'. split; [exact Hp'|]. split; [apply (can_in dim T _ _ _ _ _ GT HT CT)|]. split; [exact M1|]. split; [exact M2|]. split; [eapply like_trans; eauto|]. split; [eapply like_trans; eauto|]. auto.
        -- contradiction.
        -- contradiction.
        -- contradiction.
        -- exfalso. apply NQi, Qi. auto.
      * intros OT. destruct (In_dec_s a (ts_inputs S)) as [Sa|Sa]; fold (is_input S a) in Sa.
        -- assert (Oq : is_output Q a) by (apply Qo; auto). destruct (St Oq) as (lQ' & vQ' & Mv & Hr').
           destruct Mv as [lT' uT l2 u2 v' At As CT CS L1 L2|l2 u2 v' At As CS L1 L2|lT' uT v' At As _ CT L1 L2|v' Nd _|v' Os _ _|l2 u2 v' Os _ _ _ _|v' En _ _ _]; try contradiction.
           ++ destruct At; contradiction.
           ++ destruct (SameS l2 u2 CS As) as [-> LS2]. exists lS', vS', lX', vX', v'. split; [exact Hp'|]. split; [exact HT|]. split; [exact M1|]. split; [exact M2|]. split; [eapply like_trans; eauto|]. split; [eapply like_trans; eauto|]. auto.
           ++ exfalso. apply As. left. exact Sa.
           ++ exfalso. apply NQi, Qi. auto.
        -- assert (Nq : ~ is_output Q a) by (rewrite Qo; tauto). destruct P1' as [[[K|K] _]|(_ & -> & -> & _)]; [contradiction|contradiction|].
           exists lS, vS, lX', vX', vQ. split; [exact Hp'|]. split; [exact HT|]. split; [exact M1|]. split; [exact M2|]. split; [exact LT|]. split; [exact LQS|]. split; [exact IS|]. split; [apply N, Nq|auto].
  - intros a lT' vT' Ia CT. assert (OS : ~ is_output S a) by (intros K; apply (Qd a K Ia)). assert (Iq : is_input Q a) by (apply Qi; auto). assert (OX : ~ is_output X a) by (intros K; apply (F2 a Iq K)).
    assert (Aq : is_action Q a) by (left; exact Iq). destruct (can_like dim T _ _ _ _ _ _ GT HT (like_sym _ _ _ _ LT) CT) as (uT & CTq & LTq).
    destruct (Al a) as (Ai & Ao & Aa & _).
    assert (K : exists lS' vS' vQ', part S lS vS a lS' vS' /\ can Q (lt_quotient lT lS) vQ a (lt_quotient lT' lS') vQ' /\ like T vQ' vT' /\ like S vQ' vS' /\ inv_at lS' vS').
    { destruct (In_dec_s a (ts_inputs S)) as [Sa|Sa]; fold (is_input S a) in Sa.
      - destruct (AS lS vS a Rs Sa) as (t & O & Ab). assert (CS : can S lS vS a (t_target t) (run_updates (t_updates t) vS)) by (exists t; auto).
        destruct (can_like dim S _ _ _ _ _ _ GS HS (like_sym _ _ _ _ LQS) CS) as (uS & CSq & LSq).
        destruct (quot_both lT lS HT HS vQ VQ a lT' uT _ uS Aq (or_introl Ia) (or_introl Sa) CTq CSq) as (vQ' & Cq & L1 & L2).
        exists (t_target t), (run_updates (t_updates t) vS), vQ'. split; [left; split; [left; exact Sa|exact CS]|]. split; [exact Cq|]. split; [eapply like_trans; [exact L1|apply like_sym, LTq]|]. split; [eapply like_trans; [exact L2|apply like_sym, LSq]|].
        apply Ab.
      - assert (NS : ~ is_action S a) by (intros [K|K]; contradiction). destruct (quot_t lT lS HT HS vQ VQ a lT' uT Aq (or_introl Ia) NS ISQ CTq) as (vQ' & Cq & L1 & L2).
        exists lS, vS, vQ'. split; [right; auto|]. split; [exact Cq|]. split; [eapply like_trans; [exact L1|apply like_sym, LTq]|]. split; [eapply like_trans; [exact L2|exact LQS]|exact IS]. }
    destruct K as (lS' & vS' & vQ' & PS & Cq & LT' & LS' & IS'). destruct (Hi a _ _ Iq Cq) as [Yi Ni]. pose proof (part_reach dim S _ _ _ _ _ Rs PS) as Rs'.
    assert (HT' : In lT' (all_locations dim T)) by apply (can_in dim T _ _ _ _ _ GT HT CT).
    assert (K : exists lX' vX', part X lX vX a lX' vX' /\ R lX' vX' (lt_quotient lT' lS') vQ').
    { destruct (In_dec_s a (ts_inputs X)) as [Xa|Xa]; fold (is_input X a) in Xa.
      - destruct (Yi Xa) as (lX' & vX' & C2 & Hr'). exists lX', vX'. split; [left; split; [left; exact Xa|exact C2]|exact Hr'].
      - exists lX, vX. split; [right; split; [intros [K|K]; contradiction|auto]|apply Ni, Xa]. }
    destruct K as (lX' & vX' & PX & Hr'). pose proof (part_reach dim X _ _ _ _ _ Rx PX) as Rx'. split.
    + intros Is. destruct (Join a lS' vS' lX' vX' (or_introl Is) PS PX) as (p' & w' & C & Hp' & M1 & M2). exists p', w'. split; [exact C|].
      exists lS', vS', lX', vX', vQ'. do 8 (split; [assumption|]). auto.
    + intros Ns. destruct PS as [[K _]|(_ & -> & -> & _)]; [exfalso; destruct K; tauto|]. destruct PX as [[K _]|(_ & -> & -> & _)]; [exfalso; destruct K; tauto|].
      exists lS, vS, lX, vX, vQ'. do 8 (split; [assumption|]). auto.
  - intros d Hd' Hw. assert (K : forall e, 0 <= e -> e <= d -> inv_at lS (vdelay vS e) /\ inv_at lX (vdelay vX e)).
    { intros e He1 He2. pose proof (Hw e He1 He2) as I. apply Hp in I. destruct I as [X1 X2].
      split; [eapply inv_like; [exact GS|exact HS|apply like_delay; [exact He1|exact LS]|exact X1]|eapply inv_like; [exact GX|exact HX|apply like_delay; [exact He1|exact LX']|exact X2]]. }
    exists lS, (vdelay vS d), lX, (vdelay vX d), (vdelay vQ d). split; [exact Hp|]. split; [exact HT|]. repeat (split; [apply like_delay; assumption|]).
    split; [apply K; lra|]. split; [apply Hd; [exact Hd'|intros e He1 He2; apply K; assumption]|]. split; (apply delay_reach; [assumption|assumption|]); intros e He1 He2; apply K; assumption.
Qed.

(** *** From the composition to the quotient *)
Theorem comp_to_quot : deterministic dim S -> accepting dim S -> no_gaps dim S -> deterministic dim T -> accepting dim X -> io_disjoint Q ->
  refines dim s T -> can_start dim X -> can_start dim S -> refines dim X Q.
Proof.
  intros DS AS NG DT AX JQ Rf (x0 & Ex & Ix0) (s0 & Es0 & Is0). destruct quot_alphabet as (Qi & Qo & Qd & Qn1 & Qn2). destruct Fit as (F1 & F2 & F3 & F4).
  pose proof (comp_start dim S X GS GX s EC) as C0. pose proof (fun a => comp_alphabet S X s EC a) as Al. unfold refines in *. unfold Q. cbn [initial_location]. fold Q. rewrite Es0, Ex in *.
  destruct (initial_location dim s) as [p0|]; [|destruct C0; discriminate]. destruct C0 as (? & ? & Z1 & Z2 & Hp0). injection Z1 as <-. injection Z2 as <-.
  destruct (initial_location dim T) as [t0|] eqn:Et; [|contradiction].
  destruct Rf as (R & H & Z). rewrite refinement_can in H.
  exists (fun lX vX lQ vQ => inv_at lX vX /\ In lX (all_locations dim X) /\ reachable X lX vX /\ val_ok dim vQ /\
     ((exists lT lS p w vT vS, lQ = lt_quotient lT lS /\ both S X p lS lX /\ In lT (all_locations dim T) /\ like S w vS /\ like X w vX /\ like T vQ vT /\ like S vQ vS /\
         R p w lT vT /\ reachable T lT vT /\ reachable S lS vS) \/
      lQ = lt_universal \/
      (exists lT lS, lQ = lt_quotient lT lS /\ In lT (all_locations dim T) /\ In lS (all_locations dim S) /\ forall e, 0 <= e -> ~ inv_at lS (vdelay vQ e)))). split.
  2:{ destruct (H _ _ _ _ Z) as (I1 & I2 & _). split; [exact Ix0|]. split; [apply (initial_wf dim X (g_built _ _ GX)), Ex|]. split; [apply start_reach; assumption|]. split; [apply zero_ok|].
      left. exists t0, s0, p0, zero_val, zero_val, zero_val. split; [reflexivity|]. split; [exact Hp0|]. split; [apply (initial_wf dim T (g_built _ _ GT)), Et|]. repeat (split; [apply like_refl, zero_ok|]). split; [exact Z|].
      split; apply start_reach; assumption. }
  apply refinement_can. intros lX vX lQ vQ (IX & HX & Rx & VQ & Kind). split; [exact IX|].
  assert (Acc : forall a, is_input X a -> exists lX' vX', can X lX vX a lX' vX').
  { intros a Ia. destruct (AX lX vX a Rx Ia) as (t & O & Ab). exists (t_target t), (run_updates (t_updates t) vX), t. auto. }
  assert (Base : forall a lX' vX', can X lX vX a lX' vX' -> inv_at lX' vX' /\ In lX' (all_locations dim X) /\ reachable X lX' vX').
  { intros a lX' vX' C. split; [apply (can_in dim X _ _ _ _ _ GX HX C)|]. split; [apply (can_in dim X _ _ _ _ _ GX HX C)|]. eapply can_reach; eauto. }
  destruct Kind as [(lT & lS & p & w & vT & vS & -> & Hp & HT & LS & LX & LT & LQS & Hr & Rt & Rs)|[->|(lT & lS & -> & HT & HS & Dead)]].
  - (* related *)
    pose proof (proj1 Hp) as HS. destruct (H _ _ _ _ Hr) as (IP & IT & Ho & Hi & Hd).
    assert (IS : inv_at lS vS) by (apply Hp in IP; eapply inv_like; [exact GS|exact HS|exact LS|apply IP]).
    assert (ISQ : inv_at lS vQ) by (eapply inv_like; [exact GS|exact HS|apply like_sym, LQS|exact IS]).
    assert (ITQ : inv_at lT vQ) by (eapply inv_like; [exact GT|exact HT|apply like_sym, LT|exact IT]).
    assert (Join : forall a x u b z, is_action s a -> part S lS vS a x u -> part X lX vX a b z -> exists p' w', can s p w a p' w' /\ both S X p' x b /\ like S w' u /\ like X w' z).
    { intros a x u b z Ha P1 P2. destruct (part_like dim S _ _ w _ _ _ GS HS (like_sym _ _ _ _ LS) P1) as (u' & P1' & X1). destruct (part_like dim X _ _ w _ _ _ GX HX (like_sym _ _ _ _ LX) P2) as (z' & P2' & X2).
      destruct (comp_can_join dim S X GS GX SX s EC p lS lX w a x b u' z' Hp Ha P1' P2') as (p' & w' & C & Hb & Y1 & Y2). exists p', w'. split; [exact C|]. split; [exact Hb|].
      split; [eapply like_trans; [exact Y1|apply like_sym, X1]|eapply like_trans; [exact Y2|apply like_sym, X2]]. }
    split; [apply quot_inv, VQ|]. split; [|split].
    + intros a lX' vX' Oa C. pose proof (Base _ _ _ C) as (B1 & B2 & B3). destruct (Al a) as (Ai & Ao & _ & Ad). assert (OS : ~ is_output S a) by tauto.
      assert (NQi : ~ is_input Q a) by (intros K; apply (F2 a K Oa)). assert (NT : ~ is_input T a) by (intros K; apply NQi, Qi; auto). assert (Os : is_output s a) by tauto.
      assert (PX : part X lX vX a lX' vX') by (left; split; [right; exact Oa|exact C]).
      assert (K : exists lS' vS', part S lS vS a lS' vS').
      { destruct (In_dec_s a (ts_inputs S)) as [Sa|Sa]; fold (is_input S a) in Sa.
        - destruct (AS lS vS a Rs Sa) as (t & O & Ab). exists (t_target t), (run_updates (t_updates t) vS). left. split; [left; exact Sa|]. exists t. auto.
        - exists lS, vS. right. split; [intros [K|K]; contradiction|auto]. }
      destruct K as (lS' & vS' & PS). pose proof (part_reach dim S _ _ _ _ _ Rs PS) as Rs'. destruct (Join a lS' vS' lX' vX' (or_intror Os) PS PX) as (p' & w' & Cp & Hp' & M1 & M2). destruct (Ho a p' w' Os Cp) as [Y N]. split.
      * intros Oq. assert (Aq : is_action Q a) by (right; exact Oq). destruct (In_dec_s a (ts_outputs T)) as [OT|OT]; fold (is_output T a) in OT.
        -- destruct (Y OT) as (lT' & vT' & CT & Hr'). destruct (can_like dim T _ _ _ _ _ _ GT HT (like_sym _ _ _ _ LT) CT) as (uT & CTq & LTq). pose proof (can_reach dim T _ _ _ _ _ Rt CT) as Rt'.
           assert (HT' : In lT' (all_locations dim T)) by apply (can_in dim T _ _ _ _ _ GT HT CT).
           destruct PS as [[Sa CS]|(NS & -> & -> & _)].
           ++ destruct (can_like dim S _ _ _ _ _ _ GS HS (like_sym _ _ _ _ LQS) CS) as (uS & CSq & LSq).
              destruct (quot_both lT lS HT HS vQ VQ a lT' uT lS' uS Aq (or_intror OT) Sa CTq CSq) as (vQ' & Cq & L1 & L2). exists (lt_quotient lT' lS'), vQ'. split; [exact Cq|].
              split; [exact B1|]. split; [exact B2|]. split; [exact B3|]. split; [apply L1|]. left. exists lT', lS', p', w', vT', vS'. split; [reflexivity|]. split; [exact Hp'|]. split; [exact HT'|]. split; [exact M1|]. split; [exact M2|].
              split; [eapply like_trans; [exact L1|apply like_sym, LTq]|]. split; [eapply like_trans; [exact L2|apply like_sym, LSq]|]. auto.
           ++ destruct (quot_t lT lS HT HS vQ VQ a lT' uT Aq (or_intror OT) NS ISQ CTq) as (vQ' & Cq & L1 & L2). exists (lt_quotient lT' lS), vQ'. split; [exact Cq|].
              split; [exact B1|]. split; [exact B2|]. split; [exact B3|]. split; [apply L1|]. left. exists lT', lS, p', w', vT', vS. split; [reflexivity|]. split; [exact Hp'|]. split; [exact HT'|]. split; [exact M1|]. split; [exact M2|].
              split; [eapply like_trans; [exact L1|apply like_sym, LTq]|]. split; [eapply like_trans; [exact L2|exact LQS]|]. auto.
        -- assert (Sa : is_input S a) by (apply Qo in Oq; tauto). assert (NTa : ~ is_action T a) by (intros [K|K]; contradiction). destruct PS as [[_ CS]|(NS & _)]; [|exfalso; apply NS; left; exact Sa].
           destruct (can_like dim S _ _ _ _ _ _ GS HS (like_sym _ _ _ _ LQS) CS) as (uS & CSq & LSq).
           destruct (quot_s lT lS HT HS vQ VQ a lS' uS Aq NTa (or_introl Sa) CSq) as (vQ' & Cq & L1 & L2). exists (lt_quotient lT lS'), vQ'. split; [exact Cq|].
           split; [exact B1|]. split; [exact B2|]. split; [exact B3|]. split; [apply L1|]. left. exists lT, lS', p', w', vT, vS'. split; [reflexivity|]. split; [exact Hp'|]. split; [exact HT|]. split; [exact M1|]. split; [exact M2|].
           split; [eapply like_trans; [exact L1|exact LT]|]. split; [eapply like_trans; [exact L2|apply like_sym, LSq]|]. auto.
      * intros Nq. assert (OT : ~ is_output T a) by (intros K; apply Nq, Qo; auto). assert (Sa : ~ is_input S a) by (intros K; apply Nq, Qo; auto).
        destruct PS as [[[K|K] _]|(NS & -> & -> & _)]; [contradiction|contradiction|]. split; [exact B1|]. split; [exact B2|]. split; [exact B3|]. split; [exact VQ|]. left. exists lT, lS, p', w', vT, vS. split; [reflexivity|].
        do 6 (split; [assumption|]). split; [apply N, OT|auto].
    + intros a lQ' vQ' Iq Cq. destruct (quot_can lT lS HT HS vQ VQ a lQ' vQ' Cq) as [Mv V']. assert (OX : ~ is_output X a) by (intros K; apply (F2 a Iq K)). assert (NQo : ~ is_output Q a) by apply (JQ a Iq).
      destruct (Al a) as (Ai & Ao & _ & Ad).
      (* a step of the composition in which S does its output *)
      assert (Out : forall lS' vS', is_output S a -> can S lS vS a lS' vS' ->
        exists lX' vX' p' w', part X lX vX a lX' vX' /\ both S X p' lS' lX' /\ like S w' vS' /\ like X w' vX' /\ (is_output T a -> exists lT' vT', can T lT vT a lT' vT' /\ R p' w' lT' vT') /\ (~ is_output T a -> R p' w' lT vT)).
      { intros lS' vS' OS CS. assert (PX : exists lX' vX', part X lX vX a lX' vX').
        { destruct (In_dec_s a (ts_inputs X)) as [Xa|Xa]; fold (is_input X a) in Xa; [destruct (Acc a Xa) as (lX' & vX' & C); exists lX', vX'; left; split; [left; exact Xa|exact C]|].
          exists lX, vX. right. split; [intros [K|K]; contradiction|auto]. }
        destruct PX as (lX' & vX' & PX). assert (Os : is_output s a) by tauto. assert (PS : part S lS vS a lS' vS') by (left; split; [right; exact OS|exact CS]).
        destruct (Join a lS' vS' lX' vX' (or_intror Os) PS PX) as (p' & w' & Cp & Hp' & M1 & M2). destruct (Ho a p' w' Os Cp) as [Y N]. exists lX', vX', p', w'. auto 8. }
      (* the answer for X, given where it goes *)
      assert (Answer : forall (P : loctree -> val -> Prop), (exists lX' vX', part X lX vX a lX' vX' /\ P lX' vX') ->
        (is_input X a -> exists lX' vX', can X lX vX a lX' vX' /\ (inv_at lX' vX' /\ In lX' (all_locations dim X) /\ reachable X lX' vX' /\ P lX' vX')) /\
        (~ is_input X a -> inv_at lX vX /\ In lX (all_locations dim X) /\ reachable X lX vX /\ P lX vX)).
      { intros P (lX' & vX' & PX & HP). split.
        - intros Xa. destruct PX as [[_ C]|(K & _)]; [|exfalso; apply K; left; exact Xa]. exists lX', vX'. split; [exact C|]. destruct (Base _ _ _ C) as (B1 & B2 & B3). auto.
        - intros Xa. destruct PX as [[[K|K] _]|(_ & -> & -> & _)]; [contradiction|contradiction|]. auto. }
      apply (Answer (fun lX' vX' => val_ok dim vQ' /\ ((exists lT0 lS0 p1 w1 vT0 vS0, lQ' = lt_quotient lT0 lS0 /\ both S X p1 lS0 lX' /\ In lT0 (all_locations dim T) /\ like S w1 vS0 /\ like X w1 vX' /\ like T vQ' vT0 /\ like S vQ' vS0 /\
         R p1 w1 lT0 vT0 /\ reachable T lT0 vT0 /\ reachable S lS0 vS0) \/ lQ' = lt_universal \/
         (exists lT0 lS0, lQ' = lt_quotient lT0 lS0 /\ In lT0 (all_locations dim T) /\ In lS0 (all_locations dim S) /\ forall e, 0 <= e -> ~ inv_at lS0 (vdelay vQ' e))))).
      destruct Mv as [lT' uT lS' uS v' At As CT CS L1 L2|lS' uS v' At As CS L1 L2|lT' uT v' At As _ CT L1 L2|v' Nd _|v' Os Nn _|lS' uS v' Os Ot CS Nn _|v' En _ Nv _].
      * destruct (can_like dim T _ _ _ _ _ _ GT HT LT CT) as (vT' & CT' & LT2). destruct (can_like dim S _ _ _ _ _ _ GS HS LQS CS) as (vS' & CS' & LS2).
        pose proof (can_reach dim T _ _ _ _ _ Rt CT') as Rt'. pose proof (can_reach dim S _ _ _ _ _ Rs CS') as Rs'. assert (HT' : In lT' (all_locations dim T)) by apply (can_in dim T _ _ _ _ _ GT HT CT).
        assert (LT3 : like T v' vT') by (eapply like_trans; eauto). assert (LS3 : like S v' vS') by (eapply like_trans; eauto).
        destruct (In_dec_s a (ts_inputs T)) as [Ta|Ta]; fold (is_input T a) in Ta.
        -- assert (OS : ~ is_output S a) by (intros K; apply (Qd a K Ta)). assert (Sa : is_input S a) by (destruct As; tauto). assert (Is : is_input s a) by tauto.
           destruct (Hi a lT' vT' Ta CT') as [Y _]. destruct (Y Is) as (p' & w' & Cp & Hr'). destruct (comp_can dim S X GS GX SX s EC p lS lX w a p' w' Hp Cp) as (l2 & lX' & u & z & P1 & P2 & Hp' & Y1 & Y2).
           destruct (part_like dim S _ _ vS _ _ _ GS HS LS P1) as (u2 & P1' & X1). destruct (part_like dim X _ _ vX _ _ _ GX HX LX P2) as (vX' & P2' & X2).
           destruct P1' as [[_ C1]|(K & _)]; [|contradiction]. destruct (can_det dim S _ _ _ _ _ _ _ DS Rs CS' C1) as [<- <-].
           exists lX', vX'. split; [exact P2'|]. split; [exact V'|]. left. exists lT', lS', p', w', vT', vS'. split; [reflexivity|]. split; [exact Hp'|]. split; [exact HT'|]. split; [eapply like_trans; eauto|]. split; [eapply like_trans; eauto|]. auto.
        -- assert (OT : is_output T a) by (destruct At; tauto). assert (OS : is_output S a) by (destruct (In_dec_s a (ts_outputs S)) as [K|K]; [exact K|exfalso; apply NQo, Qo; auto]).
           destruct (Out lS' vS' OS CS') as (lX' & vX' & p' & w' & PX & Hp' & M1 & M2 & Y & _). destruct (Y OT) as (l2 & u2 & CT2 & Hr'). destruct (can_det dim T _ _ _ _ _ _ _ DT Rt CT' CT2) as [<- <-].
           exists lX', vX'. split; [exact PX|]. split; [exact V'|]. left. exists lT', lS', p', w', vT', vS'. split; [reflexivity|]. do 8 (split; [assumption|]). auto.
      * destruct (can_like dim S _ _ _ _ _ _ GS HS LQS CS) as (vS' & CS' & LS2). pose proof (can_reach dim S _ _ _ _ _ Rs CS') as Rs'.
        assert (OS : is_output S a). { destruct As as [Sa|OS]; [|exact OS]. exfalso. apply NQo, Qo. right. split; [exact Sa|intros K; apply At; left; exact K]. }
        destruct (Out lS' vS' OS CS') as (lX' & vX' & p' & w' & PX & Hp' & M1 & M2 & _ & N). exists lX', vX'. split; [exact PX|]. split; [exact V'|]. left. exists lT, lS', p', w', vT, vS'. split; [reflexivity|]. split; [exact Hp'|]. split; [exact HT|].
        split; [exact M1|]. split; [exact M2|]. split; [eapply like_trans; eauto|]. split; [eapply like_trans; eauto|]. split; [apply N; intros K; apply At; right; exact K|auto].
      * destruct (can_like dim T _ _ _ _ _ _ GT HT LT CT) as (vT' & CT' & LT2). pose proof (can_reach dim T _ _ _ _ _ Rt CT') as Rt'. assert (HT' : In lT' (all_locations dim T)) by apply (can_in dim T _ _ _ _ _ GT HT CT).
        assert (Ta : is_input T a). { destruct At as [Ta|OT]; [exact Ta|]. exfalso. apply NQo, Qo. left. split; [exact OT|intros K; apply As; right; exact K]. }
        assert (OS : ~ is_output S a) by (intros K; apply As; right; exact K). assert (Sa : ~ is_input S a) by (intros K; apply As; left; exact K).
        destruct (Hi a lT' vT' Ta CT') as [Y N]. destruct (In_dec_s a (ts_inputs X)) as [Xa|Xa]; fold (is_input X a) in Xa.
        -- assert (Is : is_input s a) by tauto. destruct (Y Is) as (p' & w' & Cp & Hr'). destruct (comp_can dim S X GS GX SX s EC p lS lX w a p' w' Hp Cp) as (l2 & lX' & u & z & P1 & P2 & Hp' & Y1 & Y2).
           destruct P1 as [[K _]|(_ & -> & -> & _)]; [contradiction|]. destruct (part_like dim X _ _ vX _ _ _ GX HX LX P2) as (vX' & P2' & X2).
           exists lX', vX'. split; [exact P2'|]. split; [exact V'|]. left. exists lT', lS, p', w', vT', vS. split; [reflexivity|]. split; [exact Hp'|]. split; [exact HT'|]. split; [eapply like_trans; [exact Y1|exact LS]|]. split; [eapply like_trans; eauto|].
           split; [eapply like_trans; eauto|]. split; [eapply like_trans; eauto|]. auto.
        -- exists lX, vX. split; [right; split; [intros [K|K]; contradiction|auto]|]. split; [exact V'|]. left. exists lT', lS, p, w, vT', vS. split; [reflexivity|]. split; [exact Hp|]. split; [exact HT'|]. split; [exact LS|]. split; [exact LX|].
           split; [eapply like_trans; eauto|]. split; [eapply like_trans; eauto|]. split; [apply N; tauto|auto].
      * contradiction.
      * destruct (In_dec_s a (ts_inputs X)) as [Xa|Xa]; fold (is_input X a) in Xa.
        -- destruct (Acc a Xa) as (lX' & vX' & C). exists lX', vX'. split; [left; split; [left; exact Xa|exact C]|]. auto.
        -- exists lX, vX. split; [right; split; [intros [K|K]; contradiction|auto]|]. auto.
      * exfalso. destruct (can_like dim S _ _ _ _ _ _ GS HS LQS CS) as (vS' & CS' & _). destruct (Out lS' vS' Os CS') as (lX' & vX' & p' & w' & _ & _ & _ & _ & Y & _). destruct (Y Ot) as (lT' & vT' & CT & _).
        destruct (can_like dim T _ _ _ _ _ _ GT HT (like_sym _ _ _ _ LT) CT) as (u & CTq & _). apply (Nn _ _ CTq).
      * contradiction.
    + intros d Hd' Hw. split; [apply Hw; lra|]. split; [exact HX|]. split; [apply delay_reach; assumption|]. split; [apply vdelay_ok; assumption|].
      assert (VS : val_ok dim (vdelay vS d)) by (apply vdelay_ok; [eapply inv_at_ok; eauto|exact Hd']).
      destruct (inv_at_dec dim lS (vdelay vS d) VS) as [Yd|Nd].
      * left. assert (K : forall e, 0 <= e -> e <= d -> inv_at lS (vdelay vS e)).
        { intros e He1 He2. apply (NG lS vS e (d - e) HS He1); [lra|exact IS|]. eapply inv_like; [exact GS|exact HS| |exact Yd]. apply like_veq; [exact VS|apply vdelay_ok; [apply LS|lra]|]. apply vdelay_ext; [intros x; reflexivity|ring]. }
        assert (Kp : forall e, 0 <= e -> e <= d -> inv_at p (vdelay w e)).
        { intros e He1 He2. apply Hp. split; [eapply inv_like; [exact GS|exact HS|apply like_delay; [exact He1|apply like_sym, LS]|apply K; assumption]|eapply inv_like; [exact GX|exact HX|apply like_delay; [exact He1|apply like_sym, LX]|apply Hw; assumption]]. }
        assert (Kr : forall e, 0 <= e -> e <= d -> R p (vdelay w e) lT (vdelay vT e)).
        { intros e He1 He2. apply Hd; [exact He1|]. intros f Hf1 Hf2. apply Kp; lra. }
        exists lT, lS, p, (vdelay w d), (vdelay vT d), (vdelay vS d). split; [reflexivity|]. split; [exact Hp|]. split; [exact HT|]. repeat (split; [apply like_delay; assumption|]). split; [apply Kr; lra|].
        split; (apply delay_reach; [assumption|assumption|]); intros e He1 He2; [apply (H _ _ _ _ (Kr e He1 He2))|apply K; assumption].
      * right. right. exists lT, lS. split; [reflexivity|]. split; [exact HT|]. split; [exact HS|]. intros e He1 I. apply Nd.
        apply (NG lS vS d e HS Hd' He1 IS). eapply inv_like; [exact GS|exact HS| |exact I].
        assert (L : like S (vdelay (vdelay vQ d) e) (vdelay (vdelay vS d) e)) by (apply like_delay; [exact He1|apply like_delay; assumption]).
        eapply like_trans; [exact L|]. apply like_veq; [apply L|apply vdelay_ok; [apply LQS|lra]|]. apply vdelay_add.
  - (* everything is allowed *)
    split; [apply quot_univ_inv, VQ|]. split; [|split].
    + intros a lX' vX' Oa C. destruct (Base _ _ _ C) as (B1 & B2 & B3). split.
      * intros Oq. exists lt_universal, vQ. split; [apply univ_can; [exact VQ|right; exact Oq]|]. auto 8.
      * intros _. auto 8.
    + intros a lQ' vQ' Iq C. apply univ_can_inv in C. destruct C as [-> ->]. split.
      * intros Xa. destruct (Acc a Xa) as (lX' & vX' & C). destruct (Base _ _ _ C) as (B1 & B2 & B3). exists lX', vX'. auto 9.
      * intros _. auto 8.
    + intros d Hd' Hw. split; [apply Hw; lra|]. split; [exact HX|]. split; [apply delay_reach; assumption|]. split; [apply vdelay_ok; assumption|]. auto.
  - (* the divisor cannot be here any more *)
    assert (Now : ~ inv_at lS vQ). { intros I. apply (Dead 0); [lra|]. eapply inv_like; [exact GS|exact HS| |exact I]. apply like_veq; [exact VQ|apply vdelay_ok; [exact VQ|lra]|]. intros x. symmetry. apply vdelay_zero. reflexivity. }
    split; [apply quot_inv, VQ|]. split; [|split].
    + intros a lX' vX' Oa C. destruct (Base _ _ _ C) as (B1 & B2 & B3). split.
      * intros Oq. exists lt_universal, vQ. split; [apply quot_dead; auto; right; exact Oq|]. auto 8.
      * intros _. split; [exact B1|]. split; [exact B2|]. split; [exact B3|]. split; [exact VQ|]. right. right. exists lT, lS. auto.
    + intros a lQ' vQ' Iq C. destruct (quot_can lT lS HT HS vQ VQ a lQ' vQ' C) as [Mv V'].
      assert (U : lQ' = lt_universal).
      { destruct Mv as [lT' uT lS' uS v' At As CT CS L1 L2|lS' uS v' At As CS L1 L2|lT' uT v' At As I CT L1 L2|v' Nd _|v' Os Nn _|lS' uS v' Os Ot CS Nn _|v' En I Nv _]; try reflexivity; exfalso; try contradiction;
          apply Now; apply (can_in dim S _ _ _ _ _ GS HS CS). }
      split.
      * intros Xa. destruct (Acc a Xa) as (lX' & vX' & C'). destruct (Base _ _ _ C') as (B1 & B2 & B3). exists lX', vX'. split; [exact C'|]. auto 9.
      * intros _. auto 9.
    + intros d Hd' Hw. split; [apply Hw; lra|]. split; [exact HX|]. split; [apply delay_reach; assumption|]. split; [apply vdelay_ok; assumption|].
      right. right. exists lT, lS. split; [reflexivity|]. split; [exact HT|]. split; [exact HS|]. intros e He1 I. apply (Dead (d + e)); [lra|]. eapply inv_like; [exact GS|exact HS| |exact I].
      apply like_veq; [apply vdelay_ok; [apply vdelay_ok; assumption|exact He1]|apply vdelay_ok; [exact VQ|lra]|]. apply vdelay_add.
Qed.
End Law.
End Quot.
