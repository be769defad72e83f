(** Bisimilar systems refine the same systems; expressions with bisimilar parts name bisimilar systems. *)
From Coq Require Import List String ZArith QArith Bool Arith Lia Lqa.
From Verif Require Import Fed.Zone Fed.ZoneFacts Model.Base Model.Expr Model.Guard Model.Loc Model.Component Model.TS Model.ParseQuery Model.Recipe
  Spec.StepSpec Spec.SystemSpec Spec.RunSpec Spec.RefineSpec Spec.SameSpec Spec.SaveSpec Spec.RecipeSpec Spec.ExecSpec Spec.LawSpec Spec.SubstSpec
  Proofs.GuardFacts Proofs.StepFacts Proofs.SystemFacts Proofs.QuotientFacts Proofs.WfFacts Proofs.RunFacts Proofs.ReadsFacts Proofs.RecipeFacts Proofs.TwoFacts Proofs.LawFacts Proofs.LawProofs Proofs.LawSym Proofs.LawMore Proofs.LawQuot Proofs.PlaceFacts Proofs.AcrossFacts Proofs.StandFacts Proofs.SubstFacts.
Import ListNotations.
Local Open Scope Q_scope.

Lemma bisimilar_sym d s d' s' : bisimilar d s d' s' -> bisimilar d' s' d s.
Proof.
  intros (I & O & R & B & H). split; [intros a; symmetry; apply I|]. split; [intros a; symmetry; apply O|]. exists (fun l' v' l v => R l v l' v'). split; [constructor|].
  - intros l' v' l v X. symmetry. exact (tb_inv _ _ _ _ _ B _ _ _ _ X).
  - intros l' v' l v x X Hx. exact (tb_delay _ _ _ _ _ B _ _ _ _ _ X Hx).
  - intros l' v' l v a p' w' X C. destruct (tb_back _ _ _ _ _ B _ _ _ _ _ _ _ X C) as (p & w & C' & Y). eauto.
  - intros l' v' l v a p w X C. destruct (tb_forth _ _ _ _ _ B _ _ _ _ _ _ _ X C) as (p' & w' & C' & Y). eauto.
  - destruct (initial_location d s), (initial_location d' s'); auto.
Qed.
Lemma bisimilar_trans d1 s1 d2 s2 d3 s3 : bisimilar d1 s1 d2 s2 -> bisimilar d2 s2 d3 s3 -> bisimilar d1 s1 d3 s3.
Proof.
  intros (I & O & R & B & H) (I' & O' & R' & B' & H'). split; [intros a; rewrite I'; apply I|]. split; [intros a; rewrite O'; apply O|].
  exists (fun l v n u => exists m w, R l v m w /\ R' m w n u). split; [constructor|].
  - intros l v n u (m & w & X & Y). rewrite (tb_inv _ _ _ _ _ B _ _ _ _ X). exact (tb_inv _ _ _ _ _ B' _ _ _ _ Y).
  - intros l v n u x (m & w & X & Y) Hx. exists m, (vdelay w x). split; [exact (tb_delay _ _ _ _ _ B _ _ _ _ _ X Hx)|exact (tb_delay _ _ _ _ _ B' _ _ _ _ _ Y Hx)].
  - intros l v n u a p z (m & w & X & Y) C. destruct (tb_forth _ _ _ _ _ B _ _ _ _ _ _ _ X C) as (p2 & w2 & C2 & X2). destruct (tb_forth _ _ _ _ _ B' _ _ _ _ _ _ _ Y C2) as (p3 & w3 & C3 & X3). exists p3, w3. eauto.
  - intros l v n u a p z (m & w & X & Y) C. destruct (tb_back _ _ _ _ _ B' _ _ _ _ _ _ _ Y C) as (p2 & w2 & C2 & X2). destruct (tb_back _ _ _ _ _ B _ _ _ _ _ _ _ X C2) as (p3 & w3 & C3 & X3). exists p3, w3. eauto.
  - destruct (initial_location d1 s1), (initial_location d2 s2), (initial_location d3 s3); auto; try contradiction. eauto.
Qed.
Lemma same_bisimilar d s d' s' : same_behaviour d s d' s' -> bisimilar d s d' s'.
Proof.
  intros (I & O & R & B & H). split; [exact I|]. split; [exact O|]. exists (fun l v l' v' => R (l, v) (l', v')). split; [constructor|exact H].
  - intros l v l' v' X. apply (bs_loc _ _ _ _ _ B _ _ _ _ X).
  - intros l v l' v' x X Hx. exact (bs_delay _ _ _ _ _ B _ _ _ _ _ X Hx).
  - intros l v l' v' a p w X (t & Ot & A & -> & ->). destruct (bs_forth _ _ _ _ _ B _ _ _ _ _ _ X Ot A) as (t' & Ot' & A' & Y). do 2 eexists. split; [exists t'; eauto|exact Y].
  - intros l v l' v' a p w X (t & Ot & A & -> & ->). destruct (bs_back _ _ _ _ _ B _ _ _ _ _ _ X Ot A) as (t' & Ot' & A' & Y). do 2 eexists. split; [exists t'; eauto|exact Y].
Qed.
Lemma behaves_bisimilar d s ls s' : behaves_as d s ls s' -> bisimilar d s d s'.
Proof.
  intros (Hi & Ho & M & I). split; [exact Hi|]. split; [exact Ho|]. exists (fun l v l' v' => stands_for ls s' l l' /\ v' = v). split; [constructor|].
  - intros l v l' v' [X ->]. symmetry. apply (mi_inv _ _ _ _ M _ _ X).
  - intros l v l' v' x [X ->] _. auto.
  - intros l v l' v' a p w [X ->] (t & O & (A1 & A2 & A3) & -> & ->). destruct (mi_forth _ _ _ _ M l l' a t X O (ex_intro _ v A2)) as (t' & O' & [G U] & H').
    exists (t_target t'), (run_updates (t_updates t) v). split; [|auto]. exists t'. split; [exact O'|]. split; [|split; [reflexivity|rewrite U; reflexivity]]. split; [apply (mi_inv _ _ _ _ M _ _ X), A1|]. split; [apply G, A2|]. rewrite U. apply (mi_inv _ _ _ _ M _ _ H'), A3.
  - intros l v l' v' a p w [X ->] (t' & O & (A1 & A2 & A3) & -> & ->). destruct (mi_back _ _ _ _ M l l' a t' X O) as (t & O' & [G U] & H').
    exists (t_target t), (run_updates (t_updates t') v). split; [|auto]. exists t. split; [exact O'|]. split; [|split; [reflexivity|rewrite U; reflexivity]]. split; [apply (mi_inv _ _ _ _ M _ _ X), A1|]. split; [apply G, A2|]. rewrite <- U. apply (mi_inv _ _ _ _ M _ _ H'), A3.
  - destruct (initial_location d s), (initial_location d s'); auto.
Qed.

Lemma bisimilar_startable d s d' s' : bisimilar d s d' s' -> startable d s -> startable d' s'.
Proof.
  intros (I & O & R & B & H) St l' E. rewrite E in H. destruct (initial_location d s) as [l|] eqn:El; [|contradiction]. apply (tb_inv _ _ _ _ _ B _ _ _ _ H), St, El.
Qed.
Lemma bisimilar_hrefines d s d' s' : bisimilar d s d' s' -> startable d s -> hrefines d s d' s'.
Proof.
  intros Bi St. pose proof Bi as (I & O & R & B & H). unfold hrefines. pose proof (St) as St'. unfold startable in St'. destruct (initial_location d s) as [l|], (initial_location d' s') as [l'|]; auto.
  exists (fun l v l' v' => R l v l' v' /\ inv_at d l v). split; [|split; [exact H|apply St'; reflexivity]].
  intros l1 v1 l2 v2 (X & I1). split; [exact I1|]. split; [apply (tb_inv _ _ _ _ _ B _ _ _ _ X), I1|]. split; [|split].
  - intros a p w Oa Ca. split; [|intros N; exfalso; apply N, O, Oa]. intros _. destruct (tb_forth _ _ _ _ _ B _ _ _ _ _ _ _ X Ca) as (p' & w' & C' & Y). exists p', w'. split; [exact C'|]. split; [exact Y|]. destruct Ca as (t & _ & Ab & -> & ->). apply Ab.
  - intros a p w Ia Ca. split; [|intros N; exfalso; apply N, I, Ia]. intros _. destruct (tb_back _ _ _ _ _ B _ _ _ _ _ _ _ X Ca) as (p' & w' & C' & Y). exists p', w'. split; [exact C'|]. split; [exact Y|]. destruct C' as (t & _ & Ab & -> & ->). apply Ab.
  - intros x Hx W. split; [exact (tb_delay _ _ _ _ _ B _ _ _ _ _ X Hx)|]. apply W; [exact Hx|apply Qle_refl].
Qed.
Lemma bisimilar_alike d s d' s' : bisimilar d s d' s' -> alike d s d' s'.
Proof.
  intros Bi. pose proof (bisimilar_sym _ _ _ _ Bi) as Ib. split; [apply Bi|]. split; [apply Bi|]. split; [split; apply bisimilar_startable; assumption|]. intros St. split; [apply bisimilar_hrefines; assumption|]. apply bisimilar_hrefines; [exact Ib|]. eapply bisimilar_startable; eauto.
Qed.

(** ** Inside an expression *)
Lemma placed_put load m e e' f : loadable load -> (forall d s d' s', placed load e d s -> placed load e' d' s' -> bisimilar d s d' s') ->
  quotients_apart (put m e f) = true -> quotients_apart (put m e' f) = true ->
  forall d s d' s', placed load (put m e f) d s -> placed load (put m e' f) d' s' -> bisimilar d s d' s'.
Proof.
  intros L Eq. induction f as [n [i|]|a IHa b IHb|a IHa b IHb|a IHa b IHb]; cbn [put quotients_apart]; intros Q Q' d s d' s' P P'.
  - apply same_bisimilar, (placed_same load (XComp n (Some i))); assumption.
  - destruct (String.eqb n m); [apply Eq; assumption|apply same_bisimilar, (placed_same load (XComp n None)); assumption].
  - rewrite !andb_true_iff, negb_true_iff in Q, Q'. destruct Q as [[Q1 Q2] Q3], Q' as [[Q1' Q2'] Q3']. pose proof (placed_good _ _ _ _ L P) as G. pose proof (placed_good _ _ _ _ L P') as G'.
    apply placed_quot in P. apply placed_quot in P'. destruct P as (s1 & s2 & q & Bs & E), P' as (s1' & s2' & q' & Bs' & E'). destruct (beside_placed _ _ _ _ _ _ Bs) as [P1 P2]. destruct (beside_placed _ _ _ _ _ _ Bs') as [P1' P2'].
    refine (quot_bisimilar d d' s1 s2 s1' s2' q q' s s' _ _ G _ _ G' _ _ _ _ E E'); try (eapply placed_good; eassumption); try (eapply beside_separate; eassumption); auto.
  - rewrite !andb_true_iff, negb_true_iff in Q, Q'. destruct Q as [[Q1 Q2] Q3], Q' as [[Q1' Q2'] Q3']. 
    apply placed_comp in P. apply placed_comp in P'. destruct P as (s1 & s2 & Bs & E), P' as (s1' & s2' & Bs' & E'). destruct (beside_placed _ _ _ _ _ _ Bs) as [P1 P2]. destruct (beside_placed _ _ _ _ _ _ Bs') as [P1' P2'].
    refine (comp_bisimilar d d' s1 s2 s1' s2' _ _ _ _ _ _ _ _ s s' E E'); try (eapply placed_good; eassumption); try (eapply beside_separate; eassumption); auto.
  - rewrite !andb_true_iff, negb_true_iff in Q, Q'. destruct Q as [[Q1 Q2] Q3], Q' as [[Q1' Q2'] Q3']. 
    apply placed_conj in P. apply placed_conj in P'. destruct P as (s1 & s2 & Bs & E), P' as (s1' & s2' & Bs' & E'). destruct (beside_placed _ _ _ _ _ _ Bs) as [P1 P2]. destruct (beside_placed _ _ _ _ _ _ Bs') as [P1' P2'].
    refine (conj_bisimilar d d' s1 s2 s1' s2' _ _ _ _ _ _ _ _ s s' E E'); try (eapply placed_good; eassumption); try (eapply beside_separate; eassumption); auto.
Qed.

(** ** Order and grouping *)
Lemma twins_bisimilar d s s' : twins d s s' -> bisimilar d s d s'.
Proof.
  intros (Hi & Ho & R & M & H). split; [intros a; symmetry; apply Hi|]. split; [intros a; symmetry; apply Ho|]. exists R. split; [constructor|exact H].
  - intros l v l' v' X. apply (M _ _ _ _ X).
  - intros l v l' v' x X Hx. apply (M _ _ _ _ X), Hx.
  - intros l v l' v' a p w X C. destruct (M _ _ _ _ X) as (_ & F & _). exact (F a p w C).
  - intros l v l' v' a p w X C. destruct (M _ _ _ _ X) as (_ & _ & F & _). exact (F a p w C).
Qed.

Section Rearranged.
Variable load : string -> option component.
Hypothesis L : loadable load.
Notation placed := (placed load). Notation beside := (beside load).
Let GD e d s : placed e d s -> good d s := placed_good load e d s L.
Let SM e d s d' s' : placed e d s -> placed e d' s' -> bisimilar d s d' s' := fun P P' => same_bisimilar _ _ _ _ (placed_same load e d s d' s' L P P').

Lemma placed_conj_order a b d s d' s' : has_quotient a && has_quotient b = false -> placed (XConj a b) d s -> placed (XConj b a) d' s' -> bisimilar d s d' s'.
Proof.
  intros Hq Ps Pt. destruct (placed_conj _ _ _ _ _ Ps) as (a1 & b1 & C & E). destruct (beside_placed _ _ _ _ _ _ C) as [Pa Pb].
  destruct (conj_total a1 b1 s E) as [t' E']. pose proof (beside_separate _ _ _ _ _ _ C Hq) as Sp. pose proof (conj_placed _ _ _ _ _ _ _ (beside_sym _ _ _ _ _ _ C) E') as Pt'.
  eapply bisimilar_trans; [|exact (SM _ _ _ _ _ Pt' Pt)]. apply twins_bisimilar, (conj_twins d a1 b1 s t'); eauto.
Qed.
Lemma placed_comp_order a b d s d' s' : has_quotient a && has_quotient b = false -> placed (XPar a b) d s -> placed (XPar b a) d' s' -> bisimilar d s d' s'.
Proof.
  intros Hq Ps Pt. destruct (placed_comp _ _ _ _ _ Ps) as (a1 & b1 & C & E). destruct (beside_placed _ _ _ _ _ _ C) as [Pa Pb].
  destruct (comp_total b1 a1) as [t' E']; [intros k [H1 H2]; assert (N : ~ (is_output a1 k /\ is_output b1 k)) by apply (comp_alphabet a1 b1 s E k); apply N; auto|].
  pose proof (beside_separate _ _ _ _ _ _ C Hq) as Sp. pose proof (comp_placed _ _ _ _ _ _ _ (beside_sym _ _ _ _ _ _ C) E') as Pt'.
  eapply bisimilar_trans; [|exact (SM _ _ _ _ _ Pt' Pt)]. apply twins_bisimilar, (comp_twins d a1 b1 s t'); eauto.
Qed.
Lemma placed_conj_group a b c d s d' s' : has_quotient a && has_quotient b = false -> has_quotient a && has_quotient c = false -> has_quotient b && has_quotient c = false ->
  placed (XConj (XConj a b) c) d s -> placed (XConj a (XConj b c)) d' s' -> bisimilar d s d' s'.
Proof.
  intros Q1 Q2 Q3 Ps Pt. destruct (conj3 load _ _ _ _ _ Ps) as (a1 & b1 & c1 & ab & B1 & B2 & B3 & E1 & E2 & Pab & Hbc & Hs).
  destruct (beside_placed _ _ _ _ _ _ B1) as [Pa Pb]. destruct (beside_placed _ _ _ _ _ _ B3) as [_ Pc].
  destruct (placed_conj _ _ _ _ _ Pt) as (a2 & bc2 & C1 & F1). destruct (beside_placed _ _ _ _ _ _ C1) as [Pa2 Pbc2]. destruct (placed_conj _ _ _ _ _ Pbc2) as (b2 & c2 & C2 & F2). destruct (beside_placed _ _ _ _ _ _ C2) as [Pb2 Pc2].
  pose proof (SM _ _ _ _ _ Pa2 Pa) as (Ia & Oa & _). pose proof (SM _ _ _ _ _ Pb2 Pb) as (Ib & Ob & _). pose proof (SM _ _ _ _ _ Pc2 Pc) as (Ic & Oc & _).
  destruct (conj_total_iff b1 c1) as [bc Eb].
  { intros k. rewrite Ib, Oc. apply (conjunction_new_inv b2 c2 bc2 F2). } { intros k. rewrite Ob, Ic. apply (conjunction_new_inv b2 c2 bc2 F2). }
  destruct (conj_total_iff a1 bc) as [s2 Es].
  { intros k Hk Hb. apply (conj_alphabet b1 c1 bc Eb) in Hb. destruct (conjunction_new_inv a1 b1 ab E1) as (_ & X & _). apply (X k Hk), Hb. }
  { intros k Hk Hb. apply (conj_alphabet b1 c1 bc Eb) in Hb. destruct (conjunction_new_inv a1 b1 ab E1) as (_ & _ & X). apply (X k Hk), Hb. }
  pose proof (beside_separate _ _ _ _ _ _ B1 Q1) as S1. pose proof (beside_separate _ _ _ _ _ _ B2 Q2) as S2. pose proof (beside_separate _ _ _ _ _ _ B3 Q3) as S3.
  pose proof (proj1 (conjunction_new_inv _ _ _ E1)) as Xab. pose proof (proj1 (conjunction_new_inv _ _ _ Eb)) as Xbc.
  eapply bisimilar_trans; [|exact (SM _ _ _ _ _ (Hs bc s2 Eb Es) Pt)]. apply twins_bisimilar.
  apply (conj_grouped d a1 b1 c1 ab bc); eauto.
  - rewrite Xab. intros x Hx. cbn [sys_clocks] in Hx. apply in_app_or in Hx. destruct Hx; auto.
  - rewrite Xbc. intros x Hx Hc. cbn [sys_clocks] in Hc. apply in_app_or in Hc. destruct Hc; [eapply S1|eapply S2]; eauto.
  - rewrite Xab. cbn [sys_clocks]. split; intros; apply in_or_app; auto.
  - rewrite Xbc. cbn [sys_clocks]. split; intros; apply in_or_app; auto.
Qed.
Lemma placed_comp_group a b c d s d' s' : has_quotient a && has_quotient b = false -> has_quotient a && has_quotient c = false -> has_quotient b && has_quotient c = false ->
  placed (XPar (XPar a b) c) d s -> placed (XPar a (XPar b c)) d' s' -> bisimilar d s d' s'.
Proof.
  intros Q1 Q2 Q3 Ps Pt. destruct (comp3 load _ _ _ _ _ Ps) as (a1 & b1 & c1 & ab & B1 & B2 & B3 & E1 & E2 & Pab & Hbc & Hs).
  destruct (beside_placed _ _ _ _ _ _ B1) as [Pa Pb]. destruct (beside_placed _ _ _ _ _ _ B3) as [_ Pc].
  assert (N1 : forall k, ~ (is_output a1 k /\ is_output b1 k)) by (intros k; apply (comp_alphabet a1 b1 ab E1 k)).
  assert (N2 : forall k, ~ ((is_output a1 k \/ is_output b1 k) /\ is_output c1 k)).
  { intros k [H1 H2]. assert (N : ~ (is_output ab k /\ is_output c1 k)) by apply (comp_alphabet ab c1 s E2 k). apply N. split; [|exact H2]. apply (comp_alphabet a1 b1 ab E1 k), H1. }
  destruct (comp_total b1 c1) as [bc Eb]; [intros k [H1 H2]; apply (N2 k); auto|].
  destruct (comp_total a1 bc) as [s2 Es]. { intros k [H1 H2]. apply (comp_alphabet b1 c1 bc Eb k) in H2. destruct H2 as [H2|H2]; [apply (N1 k); auto|apply (N2 k); auto]. }
  pose proof (beside_separate _ _ _ _ _ _ B1 Q1) as S1. pose proof (beside_separate _ _ _ _ _ _ B2 Q2) as S2. pose proof (beside_separate _ _ _ _ _ _ B3 Q3) as S3.
  pose proof (composition_new_inv _ _ _ E1) as (_ & ? & ? & ? & ? & ? & Xab & _). pose proof (composition_new_inv _ _ _ Eb) as (_ & ? & ? & ? & ? & ? & Xbc & _).
  eapply bisimilar_trans; [|exact (SM _ _ _ _ _ (Hs bc s2 Eb Es) Pt)]. apply twins_bisimilar.
  apply (comp_grouped d a1 b1 c1 ab bc); eauto.
  - rewrite Xab. intros y Hx. cbn [sys_clocks] in Hx. apply in_app_or in Hx. destruct Hx; auto.
  - rewrite Xbc. intros y Hx Hc. cbn [sys_clocks] in Hc. apply in_app_or in Hc. destruct Hc; [eapply S1|eapply S2]; eauto.
  - rewrite Xab. cbn [sys_clocks]. split; intros; apply in_or_app; auto.
  - rewrite Xbc. cbn [sys_clocks]. split; intros; apply in_or_app; auto.
Qed.

Lemma rearranged_quotients e f : rearranged load e f -> has_quotient f = has_quotient e /\ quotients_apart f = quotients_apart e.
Proof.
  induction 1 as [e|e f H [IH1 IH2]|e f g H1 [IH1 IH2] _ H2 [IH3 IH4]|a b|a b|a b c|a b c|a b a' b' H1 [IH1 IH2] H2 [IH3 IH4]|a b a' b' H1 [IH1 IH2] H2 [IH3 IH4]|a b a' b' H1 [IH1 IH2] H2 [IH3 IH4]];
    cbn [has_quotient quotients_apart]; try (split; congruence);
    repeat match goal with |- context [has_quotient ?x] => destruct (has_quotient x) | |- context [quotients_apart ?x] => destruct (quotients_apart x) end; split; reflexivity.
Qed.
Theorem placed_rearranged e f : rearranged load e f -> quotients_apart e = true -> forall d s d' s', placed e d s -> placed f d' s' -> bisimilar d s d' s'.
Proof.
  induction 1 as [e|e f H IH|e f g H1 IH1 Nm H2 IH2|a b|a b|a b c|a b c|a b a' b' H1 IH1 H2 IH2|a b a' b' H1 IH1 H2 IH2|a b a' b' H1 IH1 H2 IH2]; intros Q d s d' s' P P'.
  - exact (SM _ _ _ _ _ P P').
  - apply bisimilar_sym, IH; auto. rewrite <- (proj2 (rearranged_quotients _ _ H)). exact Q.
  - destruct Nm as (d1 & s1 & Nm). pose proof (names_one_placed _ _ _ _ L Nm) as P1. eapply bisimilar_trans; [apply (IH1 Q _ _ _ _ P P1)|]. apply IH2; auto. rewrite (proj2 (rearranged_quotients _ _ H1)). exact Q.
  - cbn [quotients_apart] in Q. rewrite !andb_true_iff, negb_true_iff in Q. destruct Q as [[Q _] _]. eapply placed_conj_order; eauto.
  - cbn [quotients_apart] in Q. rewrite !andb_true_iff, negb_true_iff in Q. destruct Q as [[Q _] _]. eapply placed_comp_order; eauto.
  - cbn [quotients_apart has_quotient] in Q. refine (placed_conj_group a b c d s d' s' _ _ _ P P'); destruct (has_quotient a), (has_quotient b), (has_quotient c); cbn in Q; try discriminate Q; reflexivity.
  - cbn [quotients_apart has_quotient] in Q. refine (placed_comp_group a b c d s d' s' _ _ _ P P'); destruct (has_quotient a), (has_quotient b), (has_quotient c); cbn in Q; try discriminate Q; reflexivity.
  - pose proof (rearranged_quotients _ _ (ra_conj load a b a' b' H1 H2)) as [_ Q']. rewrite Q in Q'. cbn [quotients_apart] in Q, Q'. rewrite !andb_true_iff, negb_true_iff in Q, Q'. destruct Q as [[Q1 Q2] Q3], Q' as [[Q1' Q2'] Q3'].
    apply placed_conj in P. apply placed_conj in P'. destruct P as (s1 & s2 & Bs & E), P' as (s1' & s2' & Bs' & E'). destruct (beside_placed _ _ _ _ _ _ Bs) as [P1 P2]. destruct (beside_placed _ _ _ _ _ _ Bs') as [P1' P2'].
    refine (conj_bisimilar d d' s1 s2 s1' s2' _ _ _ _ _ _ _ _ s s' E E'); try (eapply placed_good; eassumption); try (eapply beside_separate; eassumption); auto.
  - pose proof (rearranged_quotients _ _ (ra_comp load a b a' b' H1 H2)) as [_ Q']. rewrite Q in Q'. cbn [quotients_apart] in Q, Q'. rewrite !andb_true_iff, negb_true_iff in Q, Q'. destruct Q as [[Q1 Q2] Q3], Q' as [[Q1' Q2'] Q3'].
    apply placed_comp in P. apply placed_comp in P'. destruct P as (s1 & s2 & Bs & E), P' as (s1' & s2' & Bs' & E'). destruct (beside_placed _ _ _ _ _ _ Bs) as [P1 P2]. destruct (beside_placed _ _ _ _ _ _ Bs') as [P1' P2'].
    refine (comp_bisimilar d d' s1 s2 s1' s2' _ _ _ _ _ _ _ _ s s' E E'); try (eapply placed_good; eassumption); try (eapply beside_separate; eassumption); auto.
  - pose proof (rearranged_quotients _ _ (ra_quot load a b a' b' H1 H2)) as [_ Q']. rewrite Q in Q'. cbn [quotients_apart] in Q, Q'. rewrite !andb_true_iff, negb_true_iff in Q, Q'. destruct Q as [[Q1 Q2] Q3], Q' as [[Q1' Q2'] Q3'].
    pose proof (GD _ _ _ P) as G. pose proof (GD _ _ _ P') as G'. apply placed_quot in P. apply placed_quot in P'. destruct P as (s1 & s2 & q & Bs & E), P' as (s1' & s2' & q' & Bs' & E'). destruct (beside_placed _ _ _ _ _ _ Bs) as [P1 P2]. destruct (beside_placed _ _ _ _ _ _ Bs') as [P1' P2'].
    refine (quot_bisimilar d d' s1 s2 s1' s2' q q' s s' _ _ G _ _ G' _ _ _ _ E E'); try (eapply placed_good; eassumption); try (eapply beside_separate; eassumption); auto.
Qed.
End Rearranged.
