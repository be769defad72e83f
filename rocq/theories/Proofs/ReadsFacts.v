(** Guards and invariants of a system depend only on its own clocks, and its updates touch
    only those. *)
From Coq Require Import List String ZArith QArith Bool Arith Lia Lqa.
From Verif Require Import Fed.Zone Fed.ZoneFacts Model.Base Model.Expr Model.Guard Model.Loc Model.Component Model.TS Model.PairList
  Spec.StepSpec Spec.SystemSpec Spec.RunSpec Spec.RefineSpec
  Proofs.GuardFacts Proofs.StepFacts Proofs.SystemFacts Proofs.QuotientFacts Proofs.WfFacts Proofs.RunFacts.
Import ListNotations.
Local Open Scope Q_scope.

Definition pdep (dim : nat) (xs : list nat) (P : val -> Prop) : Prop :=
  forall v w, val_ok dim v -> val_ok dim w -> agree xs v w -> P v -> P w.

Lemma pdep_mono dim xs ys P : (forall x, In x xs -> In x ys) -> pdep dim xs P -> pdep dim ys P.
Proof. intros S H v w Hv Hw A. apply H; auto. intros x Hx. auto. Qed.
Lemma pdep_iff dim xs (P Q : val -> Prop) : (forall v, val_ok dim v -> P v <-> Q v) -> pdep dim xs P -> pdep dim xs Q.
Proof. intros E H v w Hv Hw A Q'. apply E; [exact Hw|]. apply (H v w Hv Hw A). apply E; assumption. Qed.
Lemma pdep_and dim xs P Q : pdep dim xs P -> pdep dim xs Q -> pdep dim xs (fun v => P v /\ Q v).
Proof. intros H1 H2 v w Hv Hw A [p q]. split; [apply (H1 v w)|apply (H2 v w)]; assumption. Qed.
Lemma pdep_or dim xs P Q : pdep dim xs P -> pdep dim xs Q -> pdep dim xs (fun v => P v \/ Q v).
Proof. intros H1 H2 v w Hv Hw A [p|q]; [left; apply (H1 v w)|right; apply (H2 v w)]; assumption. Qed.
Lemma pdep_not dim xs P : pdep dim xs P -> pdep dim xs (fun v => ~ P v).
Proof. intros H v w Hv Hw A N p. apply N. apply (H w v); auto using agree_sym. Qed.
Lemma pdep_ok dim xs : pdep dim xs (val_ok dim).
Proof. intros v w _ Hw _ _. exact Hw. Qed.
Lemma pdep_exists {A} dim xs (F : A -> val -> Prop) l : (forall a, In a l -> pdep dim xs (F a)) -> pdep dim xs (fun v => exists a, In a l /\ F a v).
Proof. intros H v w Hv Hw A' (a & Ha & F'). exists a. split; [exact Ha|]. apply (H a Ha v w); assumption. Qed.
Lemma pdep_fed dim xs f : fclocks_in xs f -> pdep dim xs (fsem dim f).
Proof. intros H v w Hv Hw A. apply (fclocks_sem dim xs f v w); assumption. Qed.
Lemma pdep_univ dim xs : pdep dim xs (fsem dim funiv).
Proof. eapply pdep_iff; [|apply pdep_ok]. intros v _. rewrite funiv_sem. reflexivity. Qed.
Lemma pdep_run dim xs us P : updates_ok dim us -> pdep dim xs P -> pdep dim xs (fun v => P (run_updates us v)).
Proof. intros U H v w Hv Hw A. apply H; auto using run_updates_ok, agree_updates. Qed.
Lemma pdep_zero dim q xs : In q xs -> pdep dim xs (fsem dim (fcon_eq q 0 0 funiv)).
Proof.
  intros Hq v w Hv Hw A H. apply fcon_eq_sem in H. apply fcon_eq_sem. destruct H as [H _]. split; [|apply funiv_sem; exact Hw].
  rewrite <- (A q Hq). destruct Hv as [V0 _], Hw as [W0 _]. rewrite V0 in H. rewrite W0. exact H.
Qed.

Lemma locations_dep dim s : built dim s -> reads_ok s -> forall l, In l (all_locations dim s) -> pdep dim (sys_clocks s) (inv_at dim l).
Proof.
  induction 1 as [c ins outs id cc E|l r s Hl IHl Hr IHr E|l r s Hl IHl Hr IHr E|T S q s HT IHT HS IHS E]; intros K loc Hloc.
  - cbn [all_locations sys_clocks reads_ok] in *. destruct K as [K _]. unfold inv_at. destruct (lt_inv loc) eqn:Ei; [|apply pdep_ok].
    apply pdep_fed. eapply K; eauto.
  - apply conjunction_new_inv in E. destruct E as (-> & _ & _). cbn [all_locations sys_clocks reads_ok] in *.
    apply in_all_compose in Hloc; [|left; reflexivity]. destruct Hloc as (a & b & Ha & Hb & Ep).
    apply lt_compose_spec in Ep; [|left; reflexivity]. destruct Ep as (_ & _ & _ & Ep).
    eapply pdep_iff; [intros v _; symmetry; apply Ep|].
    apply pdep_and; [eapply pdep_mono; [|apply IHl; tauto]|eapply pdep_mono; [|apply IHr; tauto]]; intros x Hx; apply in_or_app; auto.
  - apply composition_new_inv in E. destruct E as (_ & ins & outs & lo & ro & co & -> & _). cbn [all_locations sys_clocks reads_ok] in *.
    apply in_all_compose in Hloc; [|right; reflexivity]. destruct Hloc as (a & b & Ha & Hb & Ep).
    apply lt_compose_spec in Ep; [|right; reflexivity]. destruct Ep as (_ & _ & _ & Ep).
    eapply pdep_iff; [intros v _; symmetry; apply Ep|].
    apply pdep_and; [eapply pdep_mono; [|apply IHl; tauto]|eapply pdep_mono; [|apply IHr; tauto]]; intros x Hx; apply in_or_app; auto.
  - apply quotient_new_inv in E. destruct E as (n & ins & outs & -> & _). cbn [all_locations sys_clocks] in *.
    apply in_app_or in Hloc. destruct Hloc as [Hloc|[<-|[<-|[]]]].
    + apply in_map_iff in Hloc. destruct Hloc as (p & <- & _). apply pdep_ok.
    + apply pdep_zero. left. reflexivity.
    + apply pdep_ok.
Qed.

Definition touches (xs : list nat) (t : transition) : Prop := forall u, In u (t_updates t) -> In (u_clock u) xs.

Lemma able_dep dim xs l t : tr_fine dim t -> pdep dim xs (inv_at dim l) -> pdep dim xs (fsem dim (t_guard t)) ->
  pdep dim xs (inv_at dim (t_target t)) -> pdep dim xs (able dim l t).
Proof.
  intros [U _] H1 H2 H3. unfold able. apply pdep_and; [exact H1|]. apply pdep_and; [exact H2|].
  apply pdep_run; assumption.
Qed.

Lemma next_dep dim q s : built dim s -> reads_ok s -> clocks_ok dim q s ->
  forall loc a ts t, In loc (all_locations dim s) -> is_action s a -> next_transitions dim s loc a = Ok ts -> In t ts ->
  pdep dim (sys_clocks s) (fsem dim (t_guard t)) /\ touches (sys_clocks s) t.
Proof.
  induction 1 as [c ins outs id cc E|l r s Hl IHl Hr IHr E|l r s Hl IHl Hr IHr E|T S q' s HT IHT HS IHS E];
    intros K Kc loc a ts t Hloc Ha Ets Ht.
  - assert (Triv : pdep dim (sys_clocks (TSimple cc)) (fsem dim (t_guard (t_without_id loc))) /\ touches (sys_clocks (TSimple cc)) (t_without_id loc)).
    { split; [apply pdep_univ|intros u []]. }
    cbn [next_transitions] in Ets. destruct (negb _); [discriminate|].
    destruct (is_universal loc); [injection Ets as <-; destruct Ht as [<-|[]]; exact Triv|].
    destruct (is_inconsistent loc && sin a (cc_inputs cc)); [injection Ets as <-; destruct Ht as [<-|[]]; exact Triv|].
    unfold assoc_loc in Ets. destruct (find _ (cc_edges cc)) as [[i es]|] eqn:F; [|discriminate]. cbn in Ets. injection Ets as <-.
    apply find_some_in in F. apply in_map_iff in Ht. destruct Ht as ([b t'] & Et & Hp). cbn [snd] in Et. subst t'.
    apply filter_In in Hp. destruct Hp as [Hp _]. cbn [clocks_ok reads_ok sys_clocks] in *. destruct K as [_ K], Kc as [_ Kc].
    split; [apply pdep_fed; eapply K; eauto|]. destruct (Kc i es b t F Hp) as (_ & _ & K3). exact K3.
  - assert (C : forall s' t', conjunction_new l r = Ok s' -> pdep dim (sys_clocks l) (fsem dim (t_guard t')) -> True) by auto. clear C.
    apply conjunction_new_inv in E. destruct E as (-> & _ & _). cbn [all_locations] in Hloc.
    apply in_all_compose in Hloc; [|left; reflexivity]. destruct Hloc as (ll & lr & Hll & Hlr & Ep).
    destruct (compose_parts _ _ _ _ _ (or_introl eq_refl) Ep) as [Pl Pr].
    assert (Al : is_action l a /\ is_action r a).
    { unfold is_action, is_input, is_output in *. cbn [ts_inputs ts_outputs] in Ha. rewrite !in_sinter in Ha. tauto. }
    apply has_action_spec in Ha. cbn [next_transitions] in Ets. rewrite Ha, Pl, Pr in Ets. cbn [negb bind] in Ets.
    inv_bind Ets. inv_bind Ets. cbn [reads_ok clocks_ok sys_clocks] in *.
    destruct (combinations_spec dim a0 a1 CConj (or_introl eq_refl)) as (ts' & E' & _ & C). rewrite Ets in E'. injection E' as <-.
    destruct (C t Ht) as ([x y] & Hp & J1 & J2 & _). apply in_prod_iff in Hp. destruct Hp as [Hx Hy]. cbn [fst snd] in *.
    destruct (IHl (proj1 K) (proj1 Kc) ll a a0 x Hll (proj1 Al) H Hx) as [D1 T1].
    destruct (IHr (proj2 K) (proj1 (proj2 Kc)) lr a a1 y Hlr (proj2 Al) H0 Hy) as [D2 T2]. split.
    + eapply pdep_iff; [intros v _; symmetry; apply J1|].
      apply pdep_and; (eapply pdep_mono; [|eassumption]); intros z Hz; apply in_or_app; auto.
    + intros u Hu. rewrite J2 in Hu. apply in_app_or in Hu. apply in_or_app. destruct Hu; auto.
  - pose proof (proj1 (composition_actions l r s a E) Ha) as Act.
    pose proof (composition_new_inv l r s E) as (_ & ins & outs & lo & ro & co & -> & _ & _ & Lo & Ro & Co).
    cbn [all_locations] in Hloc.
    apply in_all_compose in Hloc; [|right; reflexivity]. destruct Hloc as (ll & lr & Hll & Hlr & Ep).
    destruct (compose_parts _ _ _ _ _ (or_intror eq_refl) Ep) as [Pl Pr].
    rewrite (comp_next _ _ _ _ _ _ _ _ _ ll lr) in Ets by assumption. cbn [reads_ok clocks_ok sys_clocks] in *.
    assert (Fin : forall xl xr, combinations dim xl xr CComp = Ok ts ->
      (forall x, In x xl -> pdep dim (sys_clocks l) (fsem dim (t_guard x)) /\ touches (sys_clocks l) x) ->
      (forall x, In x xr -> pdep dim (sys_clocks r) (fsem dim (t_guard x)) /\ touches (sys_clocks r) x) ->
      pdep dim (sys_clocks l ++ sys_clocks r) (fsem dim (t_guard t)) /\ touches (sys_clocks l ++ sys_clocks r) t).
    { intros xl xr Ex Fl Fr.
      destruct (combinations_spec dim xl xr CComp (or_intror eq_refl)) as (ts' & E' & _ & C). rewrite Ex in E'. injection E' as <-.
      destruct (C t Ht) as ([x y] & Hp & J1 & J2 & _). apply in_prod_iff in Hp. destruct Hp as [Hx Hy]. cbn [fst snd] in *.
      destruct (Fl x Hx) as [D1 T1], (Fr y Hy) as [D2 T2]. split.
      + eapply pdep_iff; [intros v _; symmetry; apply J1|].
        apply pdep_and; (eapply pdep_mono; [|eassumption]); intros z Hz; apply in_or_app; auto.
      + intros u Hu. rewrite J2 in Hu. apply in_app_or in Hu. apply in_or_app. destruct Hu; auto. }
    assert (W : forall s' loc', pdep dim (sys_clocks s') (fsem dim (t_guard (t_without_id loc'))) /\ touches (sys_clocks s') (t_without_id loc')).
    { intros s' loc'. split; [apply pdep_univ|intros u []]. }
    destruct (sin a co) eqn:Sc.
    + apply sin_In, Co in Sc. inv_bind Ets. inv_bind Ets. apply (Fin _ _ Ets).
      * intros x Hx. eapply IHl; eauto; tauto.
      * intros x Hx. eapply IHr; eauto; tauto.
    + destruct (sin a lo) eqn:Sl.
      * apply sin_In, Lo in Sl. inv_bind Ets. apply (Fin _ _ Ets).
        -- intros x Hx. eapply IHl; eauto; tauto.
        -- intros x [<-|[]]. apply W.
      * destruct (sin a ro) eqn:Sr; [|discriminate]. apply sin_In, Ro in Sr. inv_bind Ets. apply (Fin _ _ Ets).
        -- intros x [<-|[]]. apply W.
        -- intros x Hx. eapply IHr; eauto; tauto.
  - apply quotient_new_inv in E. destruct E as (n & ins & outs & -> & Ei & Eo & _).
    cbn [clocks_ok reads_ok sys_clocks] in *. destruct Kc as (K1 & K2 & D & -> & Q0 & Qd). destruct K as [R1 R2].
    set (xs := q :: sys_clocks T ++ sys_clocks S).
    assert (MT : forall P, pdep dim (sys_clocks T) P -> pdep dim xs P).
    { intros P. apply pdep_mono. intros x Hx. right. apply in_or_app. auto. }
    assert (MS : forall P, pdep dim (sys_clocks S) P -> pdep dim xs P).
    { intros P. apply pdep_mono. intros x Hx. right. apply in_or_app. auto. }
    assert (Nil : forall i g l, touches xs (mkT i g l [])) by (intros i g l u []).
    assert (Rst : forall i g l, touches xs (mkT i g l [mkU q 0])) by (intros i g l u [<-|[]]; left; reflexivity).
    cbn [next_transitions] in Ets. destruct (negb _); [discriminate|].
    cbn [all_locations] in Hloc. apply in_app_or in Hloc. destruct Hloc as [Hloc|[<-|[<-|[]]]].
    + apply in_map_iff in Hloc. destruct Hloc as ([lt ls] & <- & Hp). apply in_prod_iff in Hp. destruct Hp as [Hlt Hls]. cbn [fst snd] in Ets.
      assert (I1 : is_inconsistent (lt_quotient lt ls) = false /\ is_universal (lt_quotient lt ls) = false).
      { unfold is_inconsistent, is_universal; cbn [lt_type lt_quotient]; destruct (lt_type lt), (lt_type ls); auto. }
      destruct I1 as [I1 I2]. rewrite I1, I2 in Ets. cbn [lt_left lt_right lt_quotient bind] in Ets.
      inv_bind Ets. inv_bind Ets. injection Ets as <-. rename a0 into tts, a1 into sss.
      assert (DT : forall x, In x tts -> tr_fine dim x /\ pdep dim xs (able dim lt x) /\ touches xs x).
      { intros x Hx. destruct (has_action T a) eqn:HA; [|injection H as <-; destruct Hx]. apply has_action_spec in HA.
        destruct (IHT R1 K1 lt a tts x Hlt HA H Hx) as [P1 P2].
        destruct (next_fine dim q T K1 lt a tts H x Hx) as [F _]. split; [exact F|]. split.
        - apply MT. apply able_dep; auto.
          + apply (locations_dep dim T HT R1). exact Hlt.
          + apply (locations_dep dim T HT R1). destruct (next_wf dim T HT lt a Hlt HA) as (ts' & E' & W). rewrite H in E'. injection E' as <-. auto.
        - intros u Hu. right. apply in_or_app. left. auto. }
      assert (DS : forall x, In x sss -> tr_fine dim x /\ pdep dim xs (able dim ls x) /\ touches xs x).
      { intros x Hx. destruct (has_action S a) eqn:HA; [|injection H0 as <-; destruct Hx]. apply has_action_spec in HA.
        destruct (IHS R2 K2 ls a sss x Hls HA H0 Hx) as [P1 P2].
        destruct (next_fine dim q S K2 ls a sss H0 x Hx) as [F _]. split; [exact F|]. split.
        - apply MS. apply able_dep; auto.
          + apply (locations_dep dim S HS R2). exact Hls.
          + apply (locations_dep dim S HS R2). destruct (next_wf dim S HS ls a Hls HA) as (ts' & E' & W). rewrite H0 in E'. injection E' as <-. auto.
        - intros u Hu. right. apply in_or_app. right. auto. }
      assert (IT : pdep dim xs (inv_at dim lt)) by (apply MT, (locations_dep dim T HT R1); exact Hlt).
      assert (IS : pdep dim xs (inv_at dim ls)) by (apply MS, (locations_dep dim S HS R2); exact Hls).
      assert (AT : forall x, In x tts -> pdep dim xs (fsem dim (q_allowed dim lt x))).
      { intros x Hx. destruct (DT x Hx) as (F & P & _). eapply pdep_iff; [intros v _; symmetry; apply q_allowed_sem; exact F|exact P]. }
      assert (AS : forall x, In x sss -> pdep dim xs (fsem dim (q_allowed dim ls x))).
      { intros x Hx. destruct (DS x Hx) as (F & P & _). eapply pdep_iff; [intros v _; symmetry; apply q_allowed_sem; exact F|exact P]. }
      assert (Int : forall f g, pdep dim xs (fsem dim f) -> pdep dim xs (fsem dim g) -> pdep dim xs (fsem dim (finter dim f g))).
      { intros f g P1 P2. eapply pdep_iff; [intros v _; symmetry; apply finter_sem|apply pdep_and; assumption]. }
      assert (Uni : forall f g, pdep dim xs (fsem dim f) -> pdep dim xs (fsem dim g) -> pdep dim xs (fsem dim (funion f g))).
      { intros f g P1 P2. eapply pdep_iff; [intros v _; symmetry; apply funion_sem|apply pdep_or; assumption]. }
      assert (Cpl : forall f, pdep dim xs (fsem dim f) -> pdep dim xs (fsem dim (fcompl dim f))).
      { intros f P1. eapply pdep_iff; [intros v _; symmetry; apply fcompl_sem|apply pdep_and; [apply pdep_ok|apply pdep_not; assumption]]. }
      assert (Fold : forall F l g, (forall x, In x l -> pdep dim xs (fsem dim (F x))) -> pdep dim xs (fsem dim g) ->
        pdep dim xs (fsem dim (fold_left (fun g (s : transition) => funion g (F s)) l g))).
      { intros F l. induction l as [|x l IH]; intros g H1 H2; [exact H2|]. cbn [fold_left]. apply IH; [intros y Hy; apply H1; right; exact Hy|].
        apply Uni; [exact H2|apply H1; left; reflexivity]. }
      assert (Non : pdep dim xs (fsem dim fnone)) by (intros v w _ _ _ C; destruct (fnone_sem _ _ C)).
      assert (InvS : pdep dim xs (fsem dim (apply_inv dim ls funiv))).
      { eapply pdep_iff; [intros v _; symmetry; apply apply_inv_univ|exact IS]. }
      unfold quotient_rules in Ht. apply filter_In in Ht. destruct Ht as [Ht _].
      repeat (apply in_app_or in Ht; destruct Ht as [Ht|Ht]).
      * destruct (has_action S a && has_action T a); [|destruct Ht]. apply in_map_iff in Ht.
        destruct Ht as ([x y] & <- & Hp). apply in_prod_iff in Hp. destruct Hp as [Hx Hy]. cbn [fst snd]. split.
        -- cbn [t_guard]. apply Int; auto.
        -- destruct (DT x Hx) as (_ & _ & T1), (DS y Hy) as (_ & _ & T2). intros u Hu. cbn [t_updates] in Hu. apply in_app_or in Hu. destruct Hu; auto.
      * destruct (has_action S a && negb (has_action T a)); [|destruct Ht]. apply in_map_iff in Ht.
        destruct Ht as (y & <- & Hy). split; [cbn [t_guard]; auto|]. apply (DS y Hy).
      * destruct (sin a (ts_outputs S)); destruct Ht as [<-|[]]; (split; [|apply Nil]); cbn [t_guard]; auto.
      * destruct (sin a (ts_outputs S) && sin a (ts_outputs T)); [|destruct Ht]. apply in_map_iff in Ht.
        destruct Ht as (y & <- & Hy). split; [|apply Rst]. cbn [t_guard]. auto.
      * destruct (String.eqb a n); [|destruct Ht]. destruct Ht as [<-|[]]. split; [|apply Rst]. cbn [t_guard].
        apply Int; [apply Cpl|]; (eapply pdep_iff; [intros v _; symmetry; apply q_inv_sem|assumption]).
      * destruct (has_action T a && negb (has_action S a)); [|destruct Ht]. apply in_map_iff in Ht.
        destruct Ht as (y & <- & Hy). split; [|apply (DT y Hy)]. cbn [t_guard].
        eapply pdep_iff; [intros v _; symmetry; apply apply_inv_sem|apply pdep_and; auto].
    + change (is_inconsistent (lt_error q)) with true in Ets. cbn iota in Ets. injection Ets as <-.
      destruct (sin a ins); [|destruct Ht]. destruct Ht as [<-|[]]. split; [|apply Nil]. cbn [t_guard]. apply pdep_zero. left. reflexivity.
    + change (is_inconsistent lt_universal) with false in Ets. change (is_universal lt_universal) with true in Ets. cbn iota in Ets.
      injection Ets as <-. destruct Ht as [<-|[]]. split; [apply pdep_univ|intros u []].
Qed.

(** Everything about an offered transition. *)
Lemma offered_dep dim q s l a t : built dim s -> reads_ok s -> clocks_ok dim q s -> In l (all_locations dim s) -> offered dim s l a t ->
  tr_fine dim t /\ In (t_target t) (all_locations dim s) /\ touches (sys_clocks s) t /\
  pdep dim (sys_clocks s) (fsem dim (t_guard t)) /\ pdep dim (sys_clocks s) (able dim l t).
Proof.
  intros B R K Hl [Ha (ts & Ets & Ht)].
  destruct (next_fine dim q s K l a ts Ets t Ht) as [F _].
  destruct (next_wf dim s B l a Hl Ha) as (ts' & E' & W). rewrite Ets in E'. injection E' as <-.
  destruct (next_dep dim q s B R K l a ts t Hl Ha Ets Ht) as [D T].
  split; [exact F|]. split; [auto|]. split; [exact T|]. split; [exact D|].
  apply able_dep; auto; apply (locations_dep dim s B R); auto.
Qed.
