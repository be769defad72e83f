(** The consistency searches. *)
From Coq Require Import List String ZArith QArith Bool Arith Lia Lqa.
From Verif Require Import Fed.Zone Fed.ZoneFacts Model.Base Model.Expr Model.Guard Model.Loc Model.Component Model.TS Model.Search
  Spec.StepSpec Spec.SystemSpec Spec.RunSpec Spec.ConsistencySpec Proofs.GuardFacts Proofs.StepFacts Proofs.SystemFacts
  Proofs.QuotientFacts Proofs.WfFacts Proofs.RunFacts Proofs.DetFacts.
Import ListNotations.
Local Open Scope Q_scope.

Lemma can_wait_iff dim x : fcan_delay dim (s_zone x) = true -> can_wait dim x.
Proof.
  unfold fcan_delay. rewrite existsb_exists. intros (z & Hz & U). apply zunbounded_sem in U. destruct U as (v & Hv & Hd).
  exists v. intros d Hd0. split; [apply vdelay_ok; assumption|]. exists z. auto.
Qed.

Section Cons.
Variable dim : nat.
Variable ext : ts -> loctree -> fed -> fed.
Variable ord : list state -> list string -> list string.
Hypothesis ext_extensive : forall s l f v, fsem dim f v -> fsem dim (ext s l f) v.
Hypothesis ord_members : forall p l a, In a (ord p l) <-> In a l.
Hypothesis ord_once : forall p l, NoDup (ord p l).

Variable s : ts.
Variable q : nat.
Hypothesis B : built dim s.
Hypothesis K : clocks_ok dim q s.

Lemma usable_possible l a ts t x : next_transitions dim s l a = Ok ts -> In t ts -> usable dim t x <-> possible dim x t.
Proof.
  intros E Ht. destruct (next_fine dim q s K _ _ _ E t Ht) as [[U C] _]. unfold usable.
  destruct (use_transition dim t x) as [b x'] eqn:Eu. destruct (use_transition_zone dim t x b x' U Eu) as (_ & H & _). exact H.
Qed.
Lemma after_moves l a ts t x : next_transitions dim s l a = Ok ts -> In t ts -> usable dim t x ->
  s_loc (after dim ext s t x) = t_target t /\ forall v, moves dim x t v -> fsem dim (s_zone (after dim ext s t x)) v.
Proof.
  intros E Ht Us. split; [apply after_loc; exact Us|]. destruct (next_fine dim q s K _ _ _ E t Ht) as [[U C] _]. unfold usable, after in *.
  destruct (use_transition dim t x) as [b x'] eqn:Eu. destruct (use_transition_zone dim t x b x' U Eu) as (_ & _ & H).
  simpl in Us. intros v Hv. unfold extrapolate. cbn [s_zone snd]. apply ext_extensive. apply H; assumption.
Qed.

(** A state is taken care of by a passed list. *)
Definition held (p : list state) (y : state) : Prop :=
  is_universal (s_loc y) = true \/
  exists x, In x p /\ s_loc x = s_loc y /\ forall v, fsem dim (s_zone y) v -> fsem dim (s_zone x) v.
Lemma held_incl p p' y : incl p p' -> held p y -> held p' y.
Proof. intros I [U|(x & Hx & R)]; [left; exact U|right; exists x; auto]. Qed.
Lemma held_into p l a ts t x : next_transitions dim s l a = Ok ts -> In t ts -> usable dim t x -> held p (after dim ext s t x) -> into dim p x t.
Proof.
  intros E Ht U H. destruct (after_moves l a ts t x E Ht U) as [L M]. unfold held in H. rewrite L in H.
  destruct H as [H|(y & Hy & Ey & Z)]; [left; exact H|right]. exists y. auto.
Qed.
Lemma in_list_held p y : locs_ok dim s p -> In (s_loc y) (all_locations dim s) -> state_in_list dim y p = true -> held p y.
Proof.
  intros Lp Hy H. unfold state_in_list in H. apply existsb_exists in H. destruct H as (x & Hx & E). unfold state_subset in E.
  apply andb_true_iff in E. destruct E as [E1 E2]. right. exists x. split; [exact Hx|]. split.
  - symmetry. eapply location_inj; eauto using lt_eqb_id.
  - rewrite fsubset_true in E2. exact E2.
Qed.
Lemma after_in l a ts t x : In l (all_locations dim s) -> is_action s a -> next_transitions dim s l a = Ok ts -> In t ts -> usable dim t x ->
  In (s_loc (after dim ext s t x)) (all_locations dim s).
Proof.
  intros Hl Ha E Ht U. rewrite after_loc by exact U. destruct (next_wf dim s B l a Hl Ha) as (ts' & E' & T). rewrite E in E'.
  injection E' as <-. auto.
Qed.

(** *** Least consistency *)
Definition saved (p : list state) (x : state) : Prop :=
  can_wait dim x \/ exists a t, is_output s a /\ offered dim s (s_loc x) a t /\ possible dim x t /\ into dim p x t.
Definition inputs_in (p : list state) (x : state) : Prop :=
  forall a t, is_input s a -> offered dim s (s_loc x) a t -> possible dim x t -> into dim p x t.
Definition fine (p : list state) (x : state) : Prop := is_inconsistent (s_loc x) = false /\ inputs_in p x /\ saved p x.
Lemma into_incl p p' x t : incl p p' -> into dim p x t -> into dim p' x t.
Proof. intros I [U|(y & Hy & R)]; [left; exact U|right; exists y; auto]. Qed.
Lemma fine_incl p p' x : incl p p' -> fine p x -> fine p' x.
Proof.
  intros I (H1 & H2 & H3). split; [exact H1|]. split; [intros a t Ha Ho Hp; eapply into_incl; eauto|].
  destruct H3 as [H|(a & t & H4 & H5 & H6 & H7)]; [left; exact H|right]. exists a, t. repeat (split; [assumption|]). eapply into_incl; eauto.
Qed.
Definition better (p p' : list state) : Prop := incl p p' /\ forall x, In x p' -> In x p \/ fine p' x.
Lemma better_refl p : better p p.
Proof. split; [apply incl_refl|auto]. Qed.
Lemma better_trans p1 p2 p3 : better p1 p2 -> better p2 p3 -> better p1 p3.
Proof.
  intros [I1 G1] [I2 G2]. split; [eapply incl_tran; eauto|]. intros x Hx.
  destruct (G2 x Hx) as [H|H]; [|auto]. destruct (G1 x H) as [H'|H']; [auto|]. right. eapply fine_incl; eauto.
Qed.

Definition rec_ok (rec : state -> list state -> res (bool * list state)) : Prop :=
  forall y p r p', locs_ok dim s p -> In (s_loc y) (all_locations dim s) -> rec y p = Ok (r, p') ->
    locs_ok dim s p' /\ (r = true -> better p p' /\ held p' y).

(** The loop over the transitions of one input. *)
Lemma input_loop rec st a ts : rec_ok rec -> In (s_loc st) (all_locations dim s) -> is_action s a ->
  next_transitions dim s (s_loc st) a = Ok ts -> forall rest, incl rest ts -> forall p z, locs_ok dim s p ->
  loopM (input_body dim ext s rec st) rest p = Ok z ->
  match z with
  | inl p' => locs_ok dim s p' /\ better p p' /\ forall t, In t rest -> usable dim t st -> held p' (after dim ext s t st)
  | inr (r, p') => r = false /\ locs_ok dim s p'
  end.
Proof.
  intros R Hst Ha Ets. induction rest as [|t rest IH]; intros Inc p z Lp E; cbn [loopM] in E.
  - injection E as <-. split; [exact Lp|]. split; [apply better_refl|intros t []].
  - assert (Ht : In t ts) by (apply Inc; left; reflexivity).
    assert (Inc' : incl rest ts) by (intros u Hu; apply Inc; right; exact Hu).
    inv_bind E. unfold input_body in H. destruct (use_transition dim t st) as [ok ns] eqn:Eu. destruct ok.
    + inv_bind H. destruct a1 as [r p1].
      assert (U : usable dim t st) by (unfold usable; rewrite Eu; reflexivity).
      assert (A : extrapolate ext s ns = after dim ext s t st) by (unfold after; rewrite Eu; reflexivity).
      rewrite A in H0. destruct (R _ _ _ _ Lp (after_in _ _ _ _ _ Hst Ha Ets Ht U) H0) as [L1 G].
      destruct r; injection H as <-.
      * destruct (G eq_refl) as [G1 Hh]. specialize (IH Inc' p1 z L1 E). destruct z as [p'|[r' p']]; [|exact IH].
        destruct IH as (L2 & G2 & C). split; [exact L2|]. split; [eapply better_trans; eauto|].
        intros u [<-|Hu] Uu; [|auto]. eapply held_incl; [apply G2|exact Hh].
      * injection E as <-. split; [reflexivity|exact L1].
    + injection H as <-. specialize (IH Inc' p z Lp E). destruct z as [p'|[r' p']]; [|exact IH].
      destruct IH as (L2 & G2 & C). split; [exact L2|]. split; [exact G2|]. intros u [<-|Hu] Uu; [|auto].
      unfold usable in Uu. rewrite Eu in Uu. discriminate.
Qed.

Lemma inputs_loop rec st : rec_ok rec -> In (s_loc st) (all_locations dim s) -> forall acts, (forall a, In a acts -> is_action s a) ->
  forall p z, locs_ok dim s p -> loopM (each_transition dim s (input_body dim ext s rec st) st) acts p = Ok z ->
  match z with
  | inl p' => locs_ok dim s p' /\ better p p' /\ forall a t, In a acts -> offered dim s (s_loc st) a t -> usable dim t st -> held p' (after dim ext s t st)
  | inr (r, p') => r = false /\ locs_ok dim s p'
  end.
Proof.
  intros R Hst. induction acts as [|a acts IH]; intros Hacts p z Lp E; cbn [loopM] in E.
  - injection E as <-. split; [exact Lp|]. split; [apply better_refl|intros a t []].
  - inv_bind E. unfold each_transition in H. inv_bind H. rename a1 into ts.
    assert (Ha : is_action s a) by (apply Hacts; left; reflexivity).
    pose proof (input_loop rec st a ts R Hst Ha H0 ts (incl_refl _) p a0 Lp H) as X.
    destruct a0 as [p1|r1]; [|injection E as <-; exact X]. destruct X as (L1 & G1 & C1).
    specialize (IH (fun b Hb => Hacts b (or_intror Hb)) p1 z L1 E). destruct z as [p'|[r' p']]; [|exact IH].
    destruct IH as (L2 & G2 & C2). split; [exact L2|]. split; [eapply better_trans; eauto|].
    intros b t [<-|Hb] Ho Us; [|eapply C2; eauto]. destruct Ho as (_ & ts' & E' & Ht). rewrite H0 in E'. injection E' as <-.
    eapply held_incl; [apply G2|auto].
Qed.

(** The loop over the outputs, when there is at most one output transition. *)
Lemma outputs_loop rec st : rec_ok rec -> In (s_loc st) (all_locations dim s) ->
  forall acts, (forall a, In a acts -> is_output s a) -> forall p z, locs_ok dim s p ->
  loopM (each_transition dim s (output_body dim ext s rec st) st) acts p = Ok z ->
  match z with inl p' => locs_ok dim s p' | inr (r, p') => r = true /\ locs_ok dim s p' end.
Proof.
  intros R Hst. induction acts as [|a acts IH]; intros Hacts p z Lp E; cbn [loopM] in E; [injection E as <-; exact Lp|].
  inv_bind E. unfold each_transition in H. inv_bind H. rename a1 into ts.
  assert (Ha : is_action s a) by (right; apply Hacts; left; reflexivity).
  assert (X : match a0 with inl p' => locs_ok dim s p' | inr (r, p') => r = true /\ locs_ok dim s p' end).
  { clear E. assert (Y : forall rest, incl rest ts -> forall p z, locs_ok dim s p -> loopM (output_body dim ext s rec st) rest p = Ok z ->
       match z with inl p' => locs_ok dim s p' | inr (r, p') => r = true /\ locs_ok dim s p' end); [|eapply (Y ts); eauto using incl_refl].
    clear p z a0 H Lp. induction rest as [|t rest IHr]; intros Inc p z Lp E; cbn [loopM] in E; [injection E as <-; exact Lp|].
    assert (Ht : In t ts) by (apply Inc; left; reflexivity).
    assert (Inc' : incl rest ts) by (intros u Hu; apply Inc; right; exact Hu).
    inv_bind E. unfold output_body in H. destruct (use_transition dim t st) as [ok ns] eqn:Eu. destruct ok.
    - inv_bind H. destruct a1 as [r p1].
      assert (U : usable dim t st) by (unfold usable; rewrite Eu; reflexivity).
      assert (A : extrapolate ext s ns = after dim ext s t st) by (unfold after; rewrite Eu; reflexivity).
      rewrite A in H1. destruct (R _ _ _ _ Lp (after_in _ _ _ _ _ Hst Ha H0 Ht U) H1) as [L1 G].
      destruct r; injection H as <-; [injection E as <-; auto|]. eapply IHr; eauto.
    - injection H as <-. eapply IHr; eauto. }
  destruct a0 as [p1|r1]; [|injection E as <-; exact X]. eapply IH; eauto. intros b Hb. apply Hacts. right; exact Hb.
Qed.

Lemma outputs_found rec st : single_output dim s -> rec_ok rec -> In (s_loc st) (all_locations dim s) ->
  forall acts, NoDup acts -> (forall a, In a acts -> is_output s a) -> forall p r p', locs_ok dim s p ->
  loopM (each_transition dim s (output_body dim ext s rec st) st) acts p = Ok (inr (r, p')) ->
  better p p' /\ exists a t, is_output s a /\ offered dim s (s_loc st) a t /\ usable dim t st /\ held p' (after dim ext s t st).
Proof.
  intros SO R Hst. induction acts as [|a acts IH]; intros ND Hacts p r p' Lp E; cbn [loopM] in E; [discriminate|].
  inversion ND as [|? ? Na ND']; subst.
  inv_bind E. unfold each_transition in H. inv_bind H. rename a1 into ts.
  assert (Ha : is_output s a) by (apply Hacts; left; reflexivity).
  destruct (SO (s_loc st) Hst a ts Ha H0) as [->|[(t & ->) Oth]].
  - cbn [loopM] in H. injection H as <-. eapply IH; eauto. intros b Hb; apply Hacts; right; exact Hb.
  - assert (Rest : forall p z, loopM (each_transition dim s (output_body dim ext s rec st) st) acts p = Ok z -> exists q0, z = inl q0).
    { clear -Oth Na Hacts. assert (Hx : forall b, In b acts -> is_output s b /\ b <> a).
      { intros b Hb. split; [apply Hacts; right; exact Hb|]. intros ->. contradiction. }
      clear Hacts Na. induction acts as [|b acts IH]; intros p z E; cbn [loopM] in E; [injection E as <-; eauto|].
      inv_bind E. unfold each_transition in H. inv_bind H. destruct (Hx b (or_introl eq_refl)) as [Hb Nb]. rewrite (Oth b Hb Nb) in H0.
      injection H0 as <-. cbn [loopM] in H. injection H as <-. eapply IH; [|exact E]. intros c Hc. apply Hx. right; exact Hc. }
    cbn [loopM] in H. inv_bind H. unfold output_body in H1. destruct (use_transition dim t st) as [ok ns] eqn:Eu. destruct ok.
    + inv_bind H1. destruct a2 as [r2 p2].
      assert (U : usable dim t st) by (unfold usable; rewrite Eu; reflexivity).
      assert (A : extrapolate ext s ns = after dim ext s t st) by (unfold after; rewrite Eu; reflexivity).
      rewrite A in H2. destruct (R _ _ _ _ Lp (after_in _ _ _ _ _ Hst (or_intror Ha) H0 (or_introl eq_refl) U) H2) as [L1 G].
      destruct r2; injection H1 as <-.
      * injection H as <-. injection E as <- <-. destruct (G eq_refl) as [G1 Hh]. split; [exact G1|].
        exists a, t. split; [exact Ha|]. split; [split; [right; exact Ha|]; exists [t]; split; [exact H0|left; reflexivity]|]. auto.
      * injection H as <-. destruct (Rest _ _ E) as (? & ?). discriminate.
    + injection H1 as <-. injection H as <-. destruct (Rest _ _ E) as (? & ?). discriminate.
Qed.

Lemma least_helper_ok : single_output dim s -> forall fuel, rec_ok (least_helper dim ext ord fuel s).
Proof.
  intros SO. induction fuel as [|f IH]; intros st p r p' Lp Hst E; cbn [least_helper] in E; [discriminate|].
  destruct (state_in_list dim st p) eqn:Ein.
  { injection E as <- <-. split; [exact Lp|]. intros _. split; [apply better_refl|]. apply in_list_held; assumption. }
  destruct (is_universal (s_loc st)) eqn:Eun.
  { injection E as <- <-. split; [exact Lp|]. intros _. split; [apply better_refl|]. left; exact Eun. }
  destruct (is_inconsistent (s_loc st)) eqn:Einc.
  { injection E as <- <-. split; [exact Lp|]. discriminate. }
  set (p0 := p ++ [st]) in *.
  assert (Lp0 : locs_ok dim s p0). { intros x Hx. unfold p0 in Hx. apply in_app_or in Hx. destruct Hx as [Hx|[<-|[]]]; auto. }
  assert (Mem : forall pp a, In a (ord pp (ts_inputs s)) <-> is_input s a) by (intros; apply ord_members).
  assert (Mem' : forall pp a, In a (ord pp (ts_outputs s)) <-> is_output s a) by (intros; apply ord_members).
  inv_bind E.
  pose proof (inputs_loop _ st IH Hst (ord p0 (ts_inputs s)) (fun a Ha => or_introl (proj1 (Mem p0 a) Ha)) p0 a Lp0 H) as X.
  destruct a as [p1|[r1 p1]].
  2:{ injection E as <- <-. destruct X as [-> L]. split; [exact L|discriminate]. }
  destruct X as (L1 & [I1 G1] & C1).
  assert (Finish : forall p2, locs_ok dim s p2 -> better p1 p2 -> saved p2 st -> better p p2 /\ held p2 st).
  { intros p2 L2 [I2 G2] Sv. assert (F : fine p2 st).
    { split; [exact Einc|]. split; [|exact Sv]. intros a t Ha Ho Hp. pose proof Ho as (_ & ts & Ets & Ht).
      apply (usable_possible _ _ _ _ _ Ets Ht) in Hp. eapply held_into; eauto. eapply held_incl; [exact I2|].
      eapply C1; eauto. apply Mem; exact Ha. }
    assert (Hst2 : In st p2). { apply I2, I1. unfold p0. apply in_or_app. right; left; reflexivity. }
    split.
    - split.
      + intros x Hx. apply I2, I1. unfold p0. apply in_or_app. left; exact Hx.
      + intros x Hx. destruct (G2 x Hx) as [Hx1|Hx1]; [|auto]. destruct (G1 x Hx1) as [Hx0|Hx0].
        * unfold p0 in Hx0. apply in_app_or in Hx0. destruct Hx0 as [Hx0|[<-|[]]]; auto.
        * right. eapply fine_incl; eauto.
    - right. exists st. auto. }
  destruct (fcan_delay dim (s_zone st)) eqn:Ed.
  - injection E as <- <-. split; [exact L1|]. intros _. apply Finish; [exact L1|apply better_refl|]. left. apply can_wait_iff; exact Ed.
  - inv_bind E.
    pose proof (outputs_loop _ st IH Hst (ord p1 (ts_outputs s)) (fun a Ha => proj1 (Mem' p1 a) Ha) p1 a L1 H0) as Y.
    destruct a as [p2|[r2 p2]].
    + injection E as <- <-. split; [exact Y|discriminate].
    + injection E as <- <-. destruct Y as [-> L2]. split; [exact L2|]. intros _.
      destruct (outputs_found _ st SO IH Hst (ord p1 (ts_outputs s)) (ord_once _ _) (fun a Ha => proj1 (Mem' p1 a) Ha) p1 true p2 L1 H0)
        as (G2 & a & t & Ha & Ho & Us & Hh).
      apply Finish; [exact L2|exact G2|]. right. exists a, t. split; [exact Ha|]. split; [exact Ho|].
      pose proof Ho as (_ & ts & Ets & Ht). split; [apply (usable_possible _ _ _ _ _ Ets Ht); exact Us|]. eapply held_into; eauto.
Qed.

Lemma initial_state_spec st : initial_state dim s = Some st -> exists l0, initial_location dim s = Some l0 /\ s_loc st = l0 /\
  In l0 (all_locations dim s) /\ forall d, 0 <= d -> inv_at dim l0 (vdelay zero_val d) -> fsem dim (s_zone st) (vdelay zero_val d).
Proof.
  intros Es. unfold initial_state in Es. destruct (initial_location dim s) as [l0|] eqn:El; [|discriminate]. exists l0.
  split; [reflexivity|].
  assert (Z : forall d, 0 <= d -> inv_at dim l0 (vdelay zero_val d) -> fsem dim (apply_inv dim l0 (finit dim)) (vdelay zero_val d)).
  { intros d Hd Hi. apply apply_inv_sem. split; [|exact Hi]. apply finit_sem. exists d. split; [exact Hd|]. split; [reflexivity|].
    intros i Hi0 _. rewrite vdelay_S by exact Hi0. unfold zero_val. ring. }
  unfold state_from_location in Es.
  destruct s; try (destruct (fempty _ _); [discriminate|]); injection Es as <-; (split; [reflexivity|]; split; [eapply initial_wf; eauto|first [exact Z|intros d Hd Hi; exact (proj1 (proj1 (apply_inv_sem _ _ _ _) (Z d Hd Hi)))]]).
Qed.

Theorem least_consistent_sound fuel : single_output dim s -> is_least_consistent dim ext ord fuel s = Ok true ->
  exists W, starts_in dim s W /\ survives dim s W.
Proof.
  intros SO E. unfold is_least_consistent in E. destruct (initial_state dim s) as [st|] eqn:Es; [|discriminate].
  destruct (initial_state_spec st Es) as (l0 & El & Esl & Hin & Z). inv_bind E. destruct a as [r p]. injection E as ->.
  assert (X : locs_ok dim s p /\ (true = true -> better [] p /\ held p (extrapolate ext s st))).
  { eapply (least_helper_ok SO fuel); [intros x []| |exact H]. unfold extrapolate; cbn [s_loc]. rewrite Esl. exact Hin. }
  destruct X as [Lp X]. destruct (X eq_refl) as [[_ G] Hh]. exists p. split.
  - exists l0. split; [exact El|]. unfold held, extrapolate in Hh. cbn [s_loc s_zone] in Hh. rewrite Esl in Hh.
    destruct Hh as [U|(y & Hy & Ey & Zy)]; [left; exact U|right]. exists y. split; [exact Hy|]. split; [exact Ey|].
    intros d Hd Hi. apply Zy, ext_extensive, Z; assumption.
  - intros x Hx. destruct (G x Hx) as [[]|F]. exact F.
Qed.

(** *** Full consistency *)
Definition all_in (p : list state) (x : state) : Prop :=
  forall a t, is_action s a -> offered dim s (s_loc x) a t -> possible dim x t -> into dim p x t.
Definition acts (p : list state) (x : state) : Prop :=
  can_wait dim x \/ (exists a t, is_output s a /\ offered dim s (s_loc x) a t /\ possible dim x t) \/
  exists a t, is_input s a /\ offered dim s (s_loc x) a t /\ possible dim x t.
Definition ffine (p : list state) (x : state) : Prop := all_in p x /\ acts p x.
Definition fbetter (p p' : list state) : Prop := incl p p' /\ forall x, In x p' -> In x p \/ ffine p' x.
Lemma ffine_incl p p' x : incl p p' -> ffine p x -> ffine p' x.
Proof. intros I [H1 H2]. split; [intros a t Ha Ho Hp; eapply into_incl; eauto|exact H2]. Qed.
Lemma fbetter_refl p : fbetter p p.
Proof. split; [apply incl_refl|auto]. Qed.
Lemma fbetter_trans p1 p2 p3 : fbetter p1 p2 -> fbetter p2 p3 -> fbetter p1 p3.
Proof.
  intros [I1 G1] [I2 G2]. split; [eapply incl_tran; eauto|]. intros x Hx.
  destruct (G2 x Hx) as [H|H]; [|auto]. destruct (G1 x H) as [H'|H']; [auto|]. right. eapply ffine_incl; eauto.
Qed.
Definition frec_ok (rec : state -> list state -> res (bool * list state)) : Prop :=
  forall y p r p', locs_ok dim s p -> In (s_loc y) (all_locations dim s) -> rec y p = Ok (r, p') ->
    locs_ok dim s p' /\ (r = true -> fbetter p p' /\ held p' y).

Lemma subset_held p y x : locs_ok dim s p -> In (s_loc y) (all_locations dim s) -> In x p -> state_subset dim y x = true -> held p y.
Proof.
  intros Lp Hy Hx E. unfold state_subset in E.
  apply andb_true_iff in E. destruct E as [E1 E2]. right. exists x. split; [exact Hx|]. split.
  - symmetry. eapply location_inj; eauto using lt_eqb_id.
  - rewrite fsubset_true in E2. exact E2.
Qed.

Lemma full_input_loop rec st a ts : frec_ok rec -> In (s_loc st) (all_locations dim s) -> is_action s a ->
  next_transitions dim s (s_loc st) a = Ok ts -> forall rest, incl rest ts -> forall p z, locs_ok dim s p -> In st p ->
  loopM (full_input_body dim ext s rec st) rest p = Ok z ->
  match z with
  | inl p' => locs_ok dim s p' /\ fbetter p p' /\ (forall t, In t rest -> usable dim t st -> held p' (after dim ext s t st)) /\
              (p' = p \/ exists t, In t rest /\ usable dim t st)
  | inr (r, p') => r = false /\ locs_ok dim s p'
  end.
Proof.
  intros R Hst Ha Ets. induction rest as [|t rest IH]; intros Inc p z Lp Hp E; cbn [loopM] in E.
  - injection E as <-. split; [exact Lp|]. split; [apply fbetter_refl|]. split; [intros t []|auto].
  - assert (Ht : In t ts) by (apply Inc; left; reflexivity).
    assert (Inc' : incl rest ts) by (intros u Hu; apply Inc; right; exact Hu).
    inv_bind E. unfold full_input_body in H. destruct (use_transition dim t st) as [ok ns] eqn:Eu. destruct ok.
    + assert (U : usable dim t st) by (unfold usable; rewrite Eu; reflexivity).
      assert (A : extrapolate ext s ns = after dim ext s t st) by (unfold after; rewrite Eu; reflexivity).
      rewrite A in H. pose proof (after_in _ _ _ _ _ Hst Ha Ets Ht U) as Hin.
      destruct (state_subset dim (after dim ext s t st) st) eqn:Sub.
      * injection H as <-. specialize (IH Inc' p z Lp Hp E). destruct z as [p'|[r' p']]; [|exact IH].
        destruct IH as (L2 & G2 & C & _). split; [exact L2|]. split; [exact G2|]. split; [|right; exists t; split; [left; reflexivity|exact U]].
        intros u [<-|Hu] Uu; [|auto]. eapply held_incl; [apply G2|]. eapply subset_held; eauto.
      * inv_bind H. destruct a1 as [r p1]. destruct (R _ _ _ _ Lp Hin H0) as [L1 G]. destruct r; injection H as <-.
        -- destruct (G eq_refl) as [G1 Hh]. specialize (IH Inc' p1 z L1 (proj1 G1 _ Hp) E). destruct z as [p'|[r' p']]; [|exact IH].
           destruct IH as (L2 & G2 & C & _). split; [exact L2|]. split; [eapply fbetter_trans; eauto|].
           split; [|right; exists t; split; [left; reflexivity|exact U]].
           intros u [<-|Hu] Uu; [|auto]. eapply held_incl; [apply G2|exact Hh].
        -- injection E as <-. split; [reflexivity|exact L1].
    + injection H as <-. specialize (IH Inc' p z Lp Hp E). destruct z as [p'|[r' p']]; [|exact IH].
      destruct IH as (L2 & G2 & C & N). split; [exact L2|]. split; [exact G2|]. split.
      * intros u [<-|Hu] Uu; [|auto]. unfold usable in Uu. rewrite Eu in Uu. discriminate.
      * destruct N as [N|(u & Hu & Uu)]; [auto|right; exists u; split; [right; exact Hu|exact Uu]].
Qed.

Lemma full_inputs_loop rec st : frec_ok rec -> In (s_loc st) (all_locations dim s) -> forall acts, (forall a, In a acts -> is_action s a) ->
  forall p z, locs_ok dim s p -> In st p -> loopM (each_transition dim s (full_input_body dim ext s rec st) st) acts p = Ok z ->
  match z with
  | inl p' => locs_ok dim s p' /\ fbetter p p' /\
      (forall a t, In a acts -> offered dim s (s_loc st) a t -> usable dim t st -> held p' (after dim ext s t st)) /\
      (p' = p \/ exists a t, In a acts /\ offered dim s (s_loc st) a t /\ usable dim t st)
  | inr (r, p') => r = false /\ locs_ok dim s p'
  end.
Proof.
  intros R Hst. induction acts0 as [|a acts0 IH]; intros Hacts p z Lp Hp E; cbn [loopM] in E.
  - injection E as <-. split; [exact Lp|]. split; [apply fbetter_refl|]. split; [intros a t []|auto].
  - inv_bind E. unfold each_transition in H. inv_bind H. rename a1 into ts.
    assert (Ha : is_action s a) by (apply Hacts; left; reflexivity).
    pose proof (full_input_loop rec st a ts R Hst Ha H0 ts (incl_refl _) p a0 Lp Hp H) as X.
    destruct a0 as [p1|r1]; [|injection E as <-; exact X]. destruct X as (L1 & G1 & C1 & N1).
    specialize (IH (fun b Hb => Hacts b (or_intror Hb)) p1 z L1 (proj1 G1 _ Hp) E). destruct z as [p'|[r' p']]; [|exact IH].
    destruct IH as (L2 & G2 & C2 & N2). split; [exact L2|]. split; [eapply fbetter_trans; eauto|]. split.
    + intros b t [<-|Hb] Ho Us; [|eapply C2; eauto]. destruct Ho as (_ & ts' & E' & Ht). rewrite H0 in E'. injection E' as <-.
      eapply held_incl; [apply G2|auto].
    + destruct N1 as [->|(t & Ht & Ut)].
      * destruct N2 as [N2|(b & t & Hb & Ho & Us)]; [auto|right; exists b, t; split; [right; exact Hb|auto]].
      * right. exists a, t. split; [left; reflexivity|]. split; [split; [exact Ha|exists ts; auto]|exact Ut].
Qed.

Lemma full_output_loop rec st a ts : frec_ok rec -> In (s_loc st) (all_locations dim s) -> is_action s a ->
  next_transitions dim s (s_loc st) a = Ok ts -> forall rest, incl rest ts -> forall p b z, locs_ok dim s p -> In st p ->
  loopM (full_output_body dim ext s rec st) rest (p, b) = Ok z ->
  match z with
  | inl (p', b') => locs_ok dim s p' /\ fbetter p p' /\ (forall t, In t rest -> usable dim t st -> held p' (after dim ext s t st)) /\
              (b' = true -> b = true \/ exists t, In t rest /\ usable dim t st) /\ (b' = false -> b = false /\ p' = p)
  | inr (r, p') => r = false /\ locs_ok dim s p'
  end.
Proof.
  intros R Hst Ha Ets. induction rest as [|t rest IH]; intros Inc p b z Lp Hp E; cbn [loopM] in E.
  - injection E as <-. split; [exact Lp|]. split; [apply fbetter_refl|]. split; [intros t []|auto].
  - assert (Ht : In t ts) by (apply Inc; left; reflexivity).
    assert (Inc' : incl rest ts) by (intros u Hu; apply Inc; right; exact Hu).
    inv_bind E. unfold full_output_body in H. destruct (use_transition dim t st) as [ok ns] eqn:Eu. destruct ok.
    + assert (U : usable dim t st) by (unfold usable; rewrite Eu; reflexivity).
      assert (A : extrapolate ext s ns = after dim ext s t st) by (unfold after; rewrite Eu; reflexivity).
      rewrite A in H. pose proof (after_in _ _ _ _ _ Hst Ha Ets Ht U) as Hin.
      destruct (state_subset dim (after dim ext s t st) st) eqn:Sub.
      * injection H as <-. specialize (IH Inc' p b z Lp Hp E). destruct z as [[p' b']|[r' p']]; [|exact IH].
        destruct IH as (L2 & G2 & C & N1 & N2). split; [exact L2|]. split; [exact G2|]. split; [|split; [|exact N2]].
        -- intros u [<-|Hu] Uu; [|auto]. eapply held_incl; [apply G2|]. eapply subset_held; eauto.
        -- intros Hb. destruct (N1 Hb) as [?|(u & Hu & Uu)]; [auto|right; exists u; split; [right; exact Hu|exact Uu]].
      * inv_bind H. destruct a1 as [r p1]. destruct (R _ _ _ _ Lp Hin H0) as [L1 G]. destruct r; injection H as <-.
        -- destruct (G eq_refl) as [G1 Hh]. specialize (IH Inc' p1 true z L1 (proj1 G1 _ Hp) E). destruct z as [[p' b']|[r' p']]; [|exact IH].
           destruct IH as (L2 & G2 & C & N1 & N2). split; [exact L2|]. split; [eapply fbetter_trans; eauto|]. split; [|split].
           ++ intros u [<-|Hu] Uu; [|auto]. eapply held_incl; [apply G2|exact Hh].
           ++ intros _. right; exists t; split; [left; reflexivity|exact U].
           ++ intros Hb. destruct (N2 Hb); discriminate.
        -- injection E as <-. split; [reflexivity|exact L1].
    + injection H as <-. specialize (IH Inc' p b z Lp Hp E). destruct z as [[p' b']|[r' p']]; [|exact IH].
      destruct IH as (L2 & G2 & C & N1 & N2). split; [exact L2|]. split; [exact G2|]. split; [|split; [|exact N2]].
      * intros u [<-|Hu] Uu; [|auto]. unfold usable in Uu. rewrite Eu in Uu. discriminate.
      * intros Hb. destruct (N1 Hb) as [?|(u & Hu & Uu)]; [auto|right; exists u; split; [right; exact Hu|exact Uu]].
Qed.

Lemma full_outputs_loop rec st : frec_ok rec -> In (s_loc st) (all_locations dim s) -> forall acts, (forall a, In a acts -> is_action s a) ->
  forall p b z, locs_ok dim s p -> In st p ->
  loopM (fun a acc => do ts <- next_transitions dim s (s_loc st) a; loopM (full_output_body dim ext s rec st) ts acc) acts (p, b) = Ok z ->
  match z with
  | inl (p', b') => locs_ok dim s p' /\ fbetter p p' /\
      (forall a t, In a acts -> offered dim s (s_loc st) a t -> usable dim t st -> held p' (after dim ext s t st)) /\
      (b' = true -> b = true \/ exists a t, In a acts /\ offered dim s (s_loc st) a t /\ usable dim t st) /\ (b' = false -> b = false /\ p' = p)
  | inr (r, p') => r = false /\ locs_ok dim s p'
  end.
Proof.
  intros R Hst. induction acts0 as [|a acts0 IH]; intros Hacts p b z Lp Hp E; cbn [loopM] in E.
  - injection E as <-. split; [exact Lp|]. split; [apply fbetter_refl|]. split; [intros a t []|auto].
  - inv_bind E. inv_bind H. rename a1 into ts.
    assert (Ha : is_action s a) by (apply Hacts; left; reflexivity).
    pose proof (full_output_loop rec st a ts R Hst Ha H0 ts (incl_refl _) p b a0 Lp Hp H) as X.
    destruct a0 as [[p1 b1]|r1]; [|injection E as <-; exact X]. destruct X as (L1 & G1 & C1 & N1 & M1).
    specialize (IH (fun c Hc => Hacts c (or_intror Hc)) p1 b1 z L1 (proj1 G1 _ Hp) E). destruct z as [[p' b']|[r' p']]; [|exact IH].
    destruct IH as (L2 & G2 & C2 & N2 & M2). split; [exact L2|]. split; [eapply fbetter_trans; eauto|]. split; [|split].
    + intros c t [<-|Hc] Ho Us; [|eapply C2; eauto]. destruct Ho as (_ & ts' & E' & Ht). rewrite H0 in E'. injection E' as <-.
      eapply held_incl; [apply G2|auto].
    + intros Hb. destruct (N2 Hb) as [Hb1|(c & t & Hc & Ho & Us)].
      * destruct (N1 Hb1) as [?|(t & Ht & Ut)]; [auto|right]. exists a, t. split; [left; reflexivity|]. split; [split; [exact Ha|exists ts; auto]|exact Ut].
      * right. exists c, t. split; [right; exact Hc|auto].
    + intros Hb. destruct (M2 Hb) as [Hb1 ->]. auto.
Qed.

Lemma last_snoc {A} (l : list A) a d : last (l ++ [a]) d = a.
Proof. induction l as [|x l IH]; [reflexivity|]. simpl. destruct (l ++ [a]) eqn:E; [destruct l; discriminate|exact IH]. Qed.

Lemma full_helper_ok : forall fuel, frec_ok (full_helper dim ext ord fuel s).
Proof.
  induction fuel as [|f IH]; intros st p r p' Lp Hst E; cbn [full_helper] in E; [discriminate|].
  destruct (state_in_list dim st p) eqn:Ein.
  { injection E as <- <-. split; [exact Lp|]. intros _. split; [apply fbetter_refl|]. apply in_list_held; assumption. }
  set (p0 := p ++ [st]) in *.
  assert (Lp0 : locs_ok dim s p0). { intros x Hx. unfold p0 in Hx. apply in_app_or in Hx. destruct Hx as [Hx|[<-|[]]]; auto. }
  assert (Hp0 : In st p0) by (unfold p0; apply in_or_app; right; left; reflexivity).
  assert (Mem : forall pp a, In a (ord pp (ts_inputs s)) <-> is_input s a) by (intros; apply ord_members).
  assert (Mem' : forall pp a, In a (ord pp (ts_outputs s)) <-> is_output s a) by (intros; apply ord_members).
  inv_bind E.
  pose proof (full_inputs_loop _ st IH Hst (ord p0 (ts_inputs s)) (fun a Ha => or_introl (proj1 (Mem p0 a) Ha)) p0 a Lp0 Hp0 H) as X.
  destruct a as [p1|[r1 p1]].
  2:{ injection E as <- <-. destruct X as [-> L]. split; [exact L|discriminate]. }
  destruct X as (L1 & [I1 G1] & C1 & N1). inv_bind E.
  pose proof (full_outputs_loop _ st IH Hst (ord p1 (ts_outputs s)) (fun a Ha => or_intror (proj1 (Mem' p1 a) Ha)) p1 false a L1 (I1 _ Hp0) H0) as Y.
  destruct a as [[p2 b]|[r2 p2]].
  2:{ injection E as <- <-. destruct Y as [-> L]. split; [exact L|discriminate]. }
  destruct Y as (L2 & [I2 G2] & C2 & N2 & M2).
  assert (Finish : acts p2 st -> fbetter p p2 /\ held p2 st).
  { intros Ac. assert (F : ffine p2 st).
    { split; [|exact Ac]. intros a t Ha Ho Hp. pose proof Ho as (_ & ts & Ets & Ht).
      apply (usable_possible _ _ _ _ _ Ets Ht) in Hp. eapply held_into; eauto. destruct Ha as [Ha|Ha].
      - eapply held_incl; [exact I2|]. eapply C1; eauto. apply Mem; exact Ha.
      - eapply C2; eauto. apply Mem'; exact Ha. }
    split.
    - split.
      + intros x Hx. apply I2, I1. unfold p0. apply in_or_app. left; exact Hx.
      + intros x Hx. destruct (G2 x Hx) as [Hx1|Hx1]; [|auto]. destruct (G1 x Hx1) as [Hx0|Hx0].
        * unfold p0 in Hx0. apply in_app_or in Hx0. destruct Hx0 as [Hx0|[<-|[]]]; auto.
        * right. eapply ffine_incl; eauto.
    - right. exists st. auto. }
  destruct b.
  - injection E as <- <-. split; [exact L2|]. intros _. apply Finish. destruct (N2 eq_refl) as [?|(a & t & Ha & Ho & Us)]; [discriminate|].
    right; left. exists a, t. pose proof Ho as (_ & ts & Ets & Ht). split; [apply Mem' in Ha; exact Ha|]. split; [exact Ho|].
    apply (usable_possible _ _ _ _ _ Ets Ht); exact Us.
  - injection E as <- <-. split; [exact L2|]. intros Hd. apply Finish. destruct (M2 eq_refl) as [_ ->].
    destruct N1 as [->|(a & t & Ha & Ho & Us)].
    + unfold p0 in Hd. rewrite last_snoc in Hd. left. apply can_wait_iff; exact Hd.
    + right; right. exists a, t. pose proof Ho as (_ & ts & Ets & Ht). split; [apply Mem in Ha; exact Ha|]. split; [exact Ho|].
      apply (usable_possible _ _ _ _ _ Ets Ht); exact Us.
Qed.

Theorem fully_consistent_sound fuel : is_fully_consistent dim ext ord fuel s = Ok true ->
  exists W, starts_in dim s W /\ forall x, In x W ->
    (forall a t, is_action s a -> offered dim s (s_loc x) a t -> possible dim x t -> into dim W x t) /\
    (can_wait dim x \/ (exists a t, is_output s a /\ offered dim s (s_loc x) a t /\ possible dim x t) \/
     exists a t, is_input s a /\ offered dim s (s_loc x) a t /\ possible dim x t).
Proof.
  intros E. unfold is_fully_consistent in E. destruct (initial_state dim s) as [st|] eqn:Es; [|discriminate].
  destruct (initial_state_spec st Es) as (l0 & El & Esl & Hin & Z). inv_bind E. destruct a as [r p]. injection E as ->.
  assert (X : locs_ok dim s p /\ (true = true -> fbetter [] p /\ held p st)).
  { eapply (full_helper_ok fuel); [intros x []| |exact H]. rewrite Esl. exact Hin. }
  destruct X as [Lp X]. destruct (X eq_refl) as [[_ G] Hh]. exists p. split.
  - exists l0. split; [exact El|]. unfold held in Hh. rewrite Esl in Hh.
    destruct Hh as [U|(y & Hy & Ey & Zy)]; [left; exact U|right]. exists y. split; [exact Hy|]. split; [exact Ey|].
    intros d Hd Hi. apply Zy, Z; assumption.
  - intros x Hx. destruct (G x Hx) as [[]|F]. exact F.
Qed.
End Cons.
