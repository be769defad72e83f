(** Simulation steps through the wire format. *)
From Coq Require Import List String ZArith QArith Bool Arith Lia Lqa.
From Verif Require Import Fed.Zone Fed.ZoneFacts Model.Base Model.Expr Model.Guard Model.Loc Model.Component Model.TS Model.Search Model.Sim Model.Wire
  Spec.StepSpec Spec.SystemSpec Spec.RunSpec Spec.RefineSpec Spec.SimSpec Spec.ReduceSpec Spec.EnableSpec Spec.PruneSpec Spec.WireSpec
  Proofs.GuardFacts Proofs.StepFacts Proofs.SystemFacts Proofs.WfFacts Proofs.DetComp Proofs.RunFacts Proofs.ReadsFacts Proofs.LeavesFacts Proofs.ReachFacts Proofs.SimFacts Proofs.WireFacts.
Import ListNotations.

(** ** Identifiers of offered transitions fit the system *)
Lemma fits_none s : fits s TINone.
Proof. destruct s; left; reflexivity. Qed.

Theorem offered_fits dim s : built dim s -> forall loc a t, In loc (all_locations dim s) -> offered dim s loc a t -> fits s (t_id t).
Proof.
  induction 1 as [c ins outs id cc E|l r s Hl IHl Hr IHr E|l r s Hl IHl Hr IHr E|T S q s HT IHT HS IHS E]; intros loc a t Hloc [Ha (ts & Ets & Ht)].
  - cbn [next_transitions] in Ets. apply has_action_spec in Ha. rewrite Ha in Ets. cbn [negb] in Ets.
    destruct (is_universal loc) eqn:Eu; [injection Ets as <-; destruct Ht as [<-|[]]; apply fits_none|].
    destruct (is_inconsistent loc && sin a (cc_inputs cc)) eqn:Ei; [injection Ets as <-; destruct Ht as [<-|[]]; apply fits_none|].
    destruct (assoc_loc (lt_id loc) (cc_edges cc)) as [es|] eqn:Ee; [|discriminate]. cbn in Ets. injection Ets as <-.
    apply in_map_iff in Ht. destruct Ht as ([b t'] & Et & Hp). cbn [snd] in Et. subst t'. apply filter_In in Hp. destruct Hp as [Hp _].
    unfold assoc_loc in Ee. destruct (find _ (cc_edges cc)) as [[i es']|] eqn:Ff; [|discriminate]. cbn in Ee. injection Ee as ->.
    apply find_some_in in Ff. destruct (compiled_edge _ _ _ _ _ _ E i es b t Ff Hp) as (e & _ & _ & _ & Fe).
    unfold from_component_and_edge in Fe. inv_bind Fe. inv_bind Fe. inv_bind Fe. inv_bind Fe. injection Fe as <-. right. cbn. eauto.
  - apply conjunction_new_inv in E. destruct E as (-> & _ & _). cbn [all_locations] in Hloc.
    apply in_all_compose in Hloc; [|left; reflexivity]. destruct Hloc as (ll & lr & Hll & Hlr & Ep).
    destruct (compose_node _ _ _ _ _ Ep) as (i & f & y0 & ->).
    assert (Al : is_action l a /\ is_action r a).
    { unfold is_action, is_input, is_output in *. cbn [ts_inputs ts_outputs] in Ha. rewrite !in_sinter in Ha. tauto. }
    apply has_action_spec in Ha. cbn [next_transitions] in Ets. rewrite Ha in Ets. cbn [negb lt_left lt_right bind] in Ets. inv_bind Ets. inv_bind Ets.
    destruct (in_combinations _ _ _ _ _ _ (or_introl eq_refl) Ets Ht) as (x & y & Hx & Hy & Ec). cbn in Ec. injection Ec as Ec.
    rewrite <- Ec. right. exists (t_id x), (t_id y). split; [reflexivity|].
    split; [apply (IHl ll a x Hll)|apply (IHr lr a y Hlr)]; split; try tauto; eauto.
  - apply composition_new_inv in E. destruct E as (_ & ins & outs & lo & ro & co & -> & _ & _ & Lo & Ro & Co). cbn [all_locations] in Hloc.
    apply in_all_compose in Hloc; [|right; reflexivity]. destruct Hloc as (ll & lr & Hll & Hlr & Ep).
    destruct (compose_node _ _ _ _ _ Ep) as (i & f & y0 & ->).
    apply has_action_spec in Ha. cbn [next_transitions] in Ets. rewrite Ha in Ets. cbn [negb lt_left lt_right bind] in Ets.
    destruct (sin a co) eqn:Sc; [|destruct (sin a lo) eqn:Sl; [|destruct (sin a ro) eqn:Sr; [|discriminate]]].
    + apply sin_In in Sc. apply Co in Sc. inv_bind Ets. inv_bind Ets.
      destruct (in_combinations _ _ _ _ _ _ (or_intror eq_refl) Ets Ht) as (x & y & Hx & Hy & Ec). cbn in Ec. injection Ec as Ec.
      rewrite <- Ec. right. exists (t_id x), (t_id y). split; [reflexivity|].
      split; [apply (IHl ll a x Hll)|apply (IHr lr a y Hlr)]; split; try tauto; eauto.
    + apply sin_In in Sl. apply Lo in Sl. destruct Sl as [Sl Nr]. inv_bind Ets.
      destruct (in_combinations _ _ _ _ _ _ (or_intror eq_refl) Ets Ht) as (x & y & Hx & [<-|[]] & Ec). cbn in Ec. injection Ec as Ec.
      rewrite <- Ec. right. exists (t_id x), TINone. split; [reflexivity|]. split; [|apply fits_none]. apply (IHl ll a x Hll). split; [tauto|eauto].
    + apply sin_In in Sr. apply Ro in Sr. destruct Sr as [Sr Nl]. inv_bind Ets.
      destruct (in_combinations _ _ _ _ _ _ (or_intror eq_refl) Ets Ht) as (x & y & [<-|[]] & Hy & Ec). cbn in Ec. injection Ec as Ec.
      rewrite <- Ec. right. exists TINone, (t_id y). split; [reflexivity|]. split; [apply fits_none|]. apply (IHr lr a y Hlr). split; [tauto|eauto].
  - apply quotient_new_inv in E. destruct E as (n & ins & outs & -> & _). apply has_action_spec in Ha. cbn [next_transitions] in Ets. rewrite Ha in Ets. cbn [negb] in Ets.
    destruct (is_inconsistent loc) eqn:Ei.
    { injection Ets as <-. destruct (sin a ins); [|destruct Ht]. destruct Ht as [<-|[]]. apply fits_none. }
    destruct (is_universal loc) eqn:Eu; [injection Ets as <-; destruct Ht as [<-|[]]; apply fits_none|].
    cbn [all_locations] in Hloc. apply in_app_or in Hloc. destruct Hloc as [Hloc|[<-|[<-|[]]]]; try discriminate.
    apply in_map_iff in Hloc. destruct Hloc as ([lt ls] & <- & Hp). apply in_prod_iff in Hp. destruct Hp as [Hlt Hls]. cbn [fst snd lt_quotient lt_left lt_right bind] in Ets.
    inv_bind Ets. rename H into Et. inv_bind Ets. rename H into Es. injection Ets as <-. rename a0 into tts, a1 into sss.
    assert (Ft : forall x, In x tts -> fits T (t_id x)).
    { intros x Hx. destruct (has_action T a) eqn:A; [|injection Et as <-; destruct Hx]. apply (IHT lt a x Hlt). split; [apply has_action_spec; exact A|eauto]. }
    assert (Fs : forall x, In x sss -> fits S (t_id x)).
    { intros x Hx. destruct (has_action S a) eqn:A; [|injection Es as <-; destruct Hx]. apply (IHS ls a x Hls). split; [apply has_action_spec; exact A|eauto]. }
    assert (Q : forall xs ys, (forall x, In x xs -> fits T x) -> (forall y, In y ys -> fits S y) -> fits (TQuot T S ins outs n q) (TIQuot xs ys)).
    { intros xs ys Hx Hy. right. exists xs, ys. auto. }
    unfold quotient_rules in Ht. apply filter_In in Ht. destruct Ht as [Ht _].
    repeat (apply in_app_or in Ht; destruct Ht as [Ht|Ht]).
    + destruct (has_action S a && has_action T a); [|destruct Ht]. apply in_map_iff in Ht. destruct Ht as ([x y] & <- & Hp). apply in_prod_iff in Hp. cbn.
      apply Q; intros k [<-|[]]; [apply Ft|apply Fs]; tauto.
    + destruct (has_action S a && _); [|destruct Ht]. apply in_map_iff in Ht. destruct Ht as (y & <- & Hp). cbn. apply Q; [intros k []|intros k [<-|[]]; apply Fs; auto].
    + destruct (sin a (ts_outputs S)); destruct Ht as [<-|[]]; [|apply fits_none]. cbn [t_id]. apply Q; [intros k []|]. intros k Hk. apply in_map_iff in Hk. destruct Hk as (y & <- & Hy). apply Fs; auto.
    + destruct (sin a (ts_outputs S) && _); [|destruct Ht]. apply in_map_iff in Ht. destruct Ht as (y & <- & Hp). cbn [t_id]. apply Q.
      * intros k Hk. apply in_map_iff in Hk. destruct Hk as (x & <- & Hx). apply Ft; auto.
      * intros k [<-|[]]. apply Fs; auto.
    + destruct (String.eqb a n); [|destruct Ht]. destruct Ht as [<-|[]]. apply fits_none.
    + destruct (has_action T a && _); [|destruct Ht]. apply in_map_iff in Ht. destruct Ht as (x & <- & Hp). cbn. apply Q; [intros k [<-|[]]; apply Ft; auto|intros k []].
Qed.

(** ** The same computation from the same states *)
Lemma same_state_refl dim a : same_state dim a a.
Proof. split; [reflexivity|intros; reflexivity]. Qed.
Lemma same_state_sym dim a b : same_state dim a b -> same_state dim b a.
Proof. intros [H1 H2]. split; [auto|]. intros v. symmetry. apply H2. Qed.
Lemma same_state_trans dim a b c : same_state dim a b -> same_state dim b c -> same_state dim a c.
Proof. intros [H1 H2] [H3 H4]. split; [congruence|]. intros v. rewrite H2. apply H4. Qed.

Definition same_opt {A} (R : A -> A -> Prop) (x y : option A) : Prop :=
  match x, y with Some a, Some b => R a b | None, None => True | _, _ => False end.

Lemma alt_same dim t a b : updates_ok dim (t_updates t) -> same_state dim a b ->
  same_opt (same_state dim) (use_transition_alt dim t a) (use_transition_alt dim t b).
Proof.
  intros U [El Ez]. unfold use_transition_alt. destruct (use_transition dim t a) as [p x] eqn:Ea. destruct (use_transition dim t b) as [r y] eqn:Eb.
  destruct (use_transition_zone dim t a p x U Ea) as (A1 & A2 & A3). destruct (use_transition_zone dim t b r y U Eb) as (B1 & B2 & B3).
  destruct p.
  - destruct (proj1 A2 eq_refl) as (v' & v & d & Hv & H). apply Ez in Hv. rewrite (proj2 B2) in * by eauto 8.
    cbn. split; [rewrite A1, B1 by reflexivity; reflexivity|]. intros w. rewrite (A3 eq_refl), (B3 eq_refl).
    split; intros (u & e & Hu & K); exists u, e; (split; [apply Ez; exact Hu|exact K]).
  - destruct r; [|exact I]. destruct (proj1 B2 eq_refl) as (v' & v & d & Hv & H). apply Ez in Hv. assert (false = true) by (apply A2; eauto 8). discriminate.
Qed.

(** Same decision, by the same transition. *)
Definition twin (dim : nat) (a b : decision) : Prop := same_decision dim a b /\ d_trans a = d_trans b.

Lemma from_state_same dim st st' t a : updates_ok dim (t_updates t) -> same_state dim st st' ->
  same_res (same_opt (twin dim)) (from_state_transition dim st t a) (from_state_transition dim st' t a).
Proof.
  intros U [El Ez]. unfold from_state_transition.
  set (x := mkS (s_loc st) (finter dim (s_zone st) (allowed_fed dim t))). set (y := mkS (s_loc st') (finter dim (s_zone st') (allowed_fed dim t))).
  assert (X : same_state dim x y) by (split; [exact El|]; intros v; cbn; rewrite !finter_sem, Ez; reflexivity).
  assert (Em : fempty dim (s_zone x) = fempty dim (s_zone y)).
  { apply Bool.eq_iff_eq_true. rewrite !fempty_true. split; intros H v Hv; apply (H v); apply X; exact Hv. }
  rewrite Em. destruct (fempty dim (s_zone y)); [exact I|]. cbn [negb]. pose proof (alt_same dim t x y U X) as A.
  destruct (use_transition_alt dim t x), (use_transition_alt dim t y); cbn in A; try contradiction; [|exact I].
  cbn. split; [|reflexivity]. split; [exact X|]. split; [reflexivity|exact A].
Qed.

Lemma decisions_for_same dim st st' a : same_state dim st st' -> forall ts, (forall t, In t ts -> updates_ok dim (t_updates t)) ->
  same_res (Forall2 (twin dim)) (decisions_for dim st a ts) (decisions_for dim st' a ts).
Proof.
  intros X. induction ts as [|t ts IH]; intros U; [constructor|]. cbn [decisions_for].
  pose proof (from_state_same dim st st' t a (U t (or_introl eq_refl)) X) as F. specialize (IH (fun u H => U u (or_intror H))).
  destruct (from_state_transition dim st t a) as [o| | |], (from_state_transition dim st' t a) as [o'| | |]; cbn in F; try contradiction; cbn; try exact I.
  destruct (decisions_for dim st a ts), (decisions_for dim st' a ts); cbn in IH; try contradiction; cbn; try exact I.
  destruct o, o'; cbn in F; try contradiction; [constructor; assumption|exact IH].
Qed.

Section Steps.
Variables (dim q : nat) (s : ts).
Hypothesis Hbuilt : built dim s.
Hypothesis Hclocks : clocks_ok dim q s.

Lemma get_decisions_same st st' : same_state dim st st' -> forall acts, (forall a, In a acts -> is_action s a) ->
  same_res (Forall2 (twin dim)) (get_decisions dim acts s st) (get_decisions dim acts s st').
Proof.
  intros X. induction acts as [|a acts IH]; intros Ha; [constructor|]. cbn [get_decisions]. destruct X as [El Ez]. rewrite El.
  destruct (next_transitions dim s (s_loc st') a) as [ts| | |] eqn:Et; cbn; try exact I.
  assert (U : forall t, In t ts -> updates_ok dim (t_updates t)).
  { intros t Ht. eapply (offered_fine dim s q Hclocks (s_loc st') a). split; [apply Ha; left; reflexivity|eauto]. }
  pose proof (decisions_for_same dim st st' a (conj El Ez) ts U) as D. specialize (IH (fun b H => Ha b (or_intror H))).
  destruct (decisions_for dim st a ts), (decisions_for dim st' a ts); cbn in D; try contradiction; cbn; try exact I.
  destruct (get_decisions dim acts s st), (get_decisions dim acts s st'); cbn in IH; try contradiction; cbn; try exact I.
  apply Forall2_app; assumption.
Qed.

Lemma filter_map_same {A B} (R : B -> B -> Prop) (f g : A -> option B) l : (forall a, In a l -> same_opt R (f a) (g a)) ->
  Forall2 R (filter_map f l) (filter_map g l).
Proof.
  induction l as [|a l IH]; intros H; [constructor|]. cbn. pose proof (H a (or_introl eq_refl)) as Ha. specialize (IH (fun b Hb => H b (or_intror Hb))).
  destruct (f a), (g a); cbn in Ha; try contradiction; [constructor|]; assumption.
Qed.

Lemma resolve_same acts d d' : (forall a, In a acts -> is_action s a) -> is_action s (d_action d) -> same_decision dim d d' ->
  same_res (Forall2 (twin dim)) (resolve dim acts s d) (resolve dim acts s d').
Proof.
  intros Ha Hd (X & Ea & _). unfold resolve. rewrite <- Ea. destruct X as [El Ez]. rewrite <- El.
  destruct (next_transitions dim s (s_loc (d_state d)) (d_action d)) as [ts| | |] eqn:Et; cbn; try exact I.
  assert (F : Forall2 (same_state dim) (filter_map (fun t => use_transition_alt dim t (d_state d)) ts) (filter_map (fun t => use_transition_alt dim t (d_state d')) ts)).
  { apply filter_map_same. intros t Ht. apply alt_same; [|split; assumption].
    eapply (offered_fine dim s q Hclocks (s_loc (d_state d)) (d_action d)). split; [exact Hd|eauto]. }
  inversion F as [|x y l l' Hxy Hl E1 E2]; subst; [exact I|]. inversion Hl; subst; [|exact I]. apply get_decisions_same; assumption.
Qed.

(** ** Zones say nothing about clocks that do not exist *)
Hypothesis Hreads : reads_ok s.
Hypothesis Hdim : forall x, In x (sys_clocks s) -> (x < dim)%nat.

Lemma pdep_only (P : val -> Prop) : pdep dim (sys_clocks s) P ->
  forall v w, val_ok dim v -> val_ok dim w -> (forall i, (i < dim)%nat -> v i == w i) -> P v -> P w.
Proof. intros D v w Hv Hw H. apply D; auto. intros x Hx. apply H. apply Hdim. exact Hx. Qed.

Definition only (P : val -> Prop) : Prop :=
  forall v w, val_ok dim v -> val_ok dim w -> (forall i, (i < dim)%nat -> v i == w i) -> P v -> P w.

Lemma next_only (P : val -> Prop) f us l : updates_ok dim us -> In l (all_locations dim s) -> only P -> (forall v, P v -> val_ok dim v) ->
  (forall w, fsem dim f w <-> exists v e, P v /\ 0 <= e /\ veq w (vdelay (run_updates us v) e) /\ inv_at dim l w) -> only_clocks dim f.
Proof.
  intros Hu Hl Os Pok Zn w w' Hw Hw' A H. pose proof (locations_dep dim s Hbuilt Hreads _ Hl) as Di.
  apply Zn in H. destruct H as (v & e & Hv & He & Ev & Iv). apply Zn.
  set (v2 := fun i => if Nat.ltb i dim then v i else if Nat.eqb i 0 then v i else w' i - e).
  assert (Hvok : val_ok dim v) by (apply Pok; exact Hv).
  assert (B : forall i, (i < dim)%nat -> v2 i == v i).
  { intros i Hi. unfold v2. rewrite (proj2 (Nat.ltb_lt i dim) Hi). reflexivity. }
  assert (V0 : v2 0%nat == v 0%nat). { unfold v2. destruct (Nat.ltb 0 dim); reflexivity. }
  assert (V2 : val_ok dim v2). { split; [rewrite V0; apply Hvok|]. intros i Hi. rewrite (B i Hi). apply Hvok; exact Hi. }
  exists v2, e. split; [apply (Os v v2); auto; intros i Hi; symmetry; apply B; exact Hi|]. split; [exact He|]. split.
  - intros i. destruct (lt_dec i dim) as [Hi|Hi].
    + rewrite <- (A i Hi), (Ev i). assert (R : run_updates us v i == run_updates us v2 i).
      { apply (agree_updates [i]); [|left; reflexivity]. intros j [<-|[]]. symmetry. apply B. exact Hi. }
      destruct (Nat.eq_dec i 0) as [->|Hi0]; [rewrite !vdelay_0; exact R|]. rewrite !vdelay_S by exact Hi0. rewrite R. reflexivity.
    + assert (N : forall u, In u us -> u_clock u <> i). { intros u Hu' E. destruct (Hu u Hu') as (_ & Hlt & _). lia. }
      destruct (Nat.eq_dec i 0) as [->|Hi0].
      * rewrite vdelay_0, (run_updates_out _ v2 0%nat N), V0, (proj1 Hw'). symmetry. apply Hvok.
      * rewrite vdelay_S by exact Hi0. rewrite (run_updates_out _ v2 i N). unfold v2. rewrite (proj2 (Nat.ltb_ge i dim)) by lia.
        rewrite (proj2 (Nat.eqb_neq i 0) Hi0). ring.
  - apply (pdep_only _ Di w w'); assumption.
Qed.

(** States a simulation can be in. *)
Definition proper_state (st : state) : Prop :=
  In (s_loc st) (all_locations dim s) /\ (forall v, fsem dim (s_zone st) v -> inv_at dim (s_loc st) v) /\ only_clocks dim (s_zone st).

Lemma decision_proper st d : proper_state st -> decision_for dim s st d -> proper_state (d_state d) /\ proper_state (d_next d).
Proof.
  intros (Hl & Hi & O) (Ho & El & Zs & _ & En & Zn). set (t := d_trans d) in *.
  destruct (offered_dep dim q s _ _ _ Hbuilt Hreads Hclocks Hl Ho) as ((Hu & Hc) & Ht & _ & Dg & _).
  pose proof (locations_dep dim s Hbuilt Hreads _ Ht) as Di.
  assert (Os : only_clocks dim (s_zone (d_state d))).
  { intros v w Hv Hw A H. apply Zs in H. destruct H as (H & v' & F1 & F2 & F3). apply Zs. split; [apply (O v w); assumption|].
    exists (run_updates (t_updates t) w). split; [apply (pdep_only _ Dg v w); assumption|]. split; [intros i; reflexivity|].
    assert (Dr : pdep dim (sys_clocks s) (fun v => inv_at dim (t_target t) (run_updates (t_updates t) v))) by (apply pdep_run; assumption).
    apply (pdep_only _ Dr v w Hv Hw A). eapply inv_at_ext; [exact F2|exact F3]. }
  split.
  - split; [rewrite El; exact Hl|]. split; [|exact Os]. intros v Hv. rewrite El. apply Hi. apply Zs in Hv. apply Hv.
  - split; [rewrite En; exact Ht|]. split; [intros v Hv; rewrite En; apply Zn in Hv; destruct Hv as (? & ? & _ & _ & _ & H); exact H|].
    apply (next_only (fsem dim (s_zone (d_state d))) _ (t_updates t) (t_target t) Hu Ht); [intros v w; apply Os|apply fsem_ok|exact Zn].
Qed.

Lemma alt_proper st a t n : proper_state st -> offered dim s (s_loc st) a t -> use_transition_alt dim t st = Some n -> proper_state n.
Proof.
  intros (Hl & Hi & O) Ho E. destruct (offered_dep dim q s _ _ _ Hbuilt Hreads Hclocks Hl Ho) as ((Hu & Hc) & Ht & _ & Dg & _).
  unfold use_transition_alt in E. destruct (use_transition dim t st) as [b n'] eqn:Eb. destruct b; [|discriminate]. injection E as ->.
  destruct (use_transition_zone dim t st true n Hu Eb) as (El & _ & Z). specialize (El eq_refl). specialize (Z eq_refl).
  split; [rewrite El; exact Ht|]. split; [intros v Hv; rewrite El; apply Z in Hv; destruct Hv as (? & ? & _ & _ & _ & _ & H); exact H|].
  apply (next_only (fun v => fsem dim (s_zone st) v /\ fsem dim (t_guard t) v) _ (t_updates t) (t_target t) Hu Ht).
  - intros v w Hv Hw A [H1 H2]. split; [apply (O v w); assumption|apply (pdep_only _ Dg v w); assumption].
  - intros v [H _]. eapply fsem_ok; eauto.
  - intros w. rewrite Z. split.
    + intros (v & e & H1 & H2 & H3). exists v, e. tauto.
    + intros (v & e & [H1 H2] & H3). exists v, e. tauto.
Qed.

Lemma initial_only st : initial_state dim s = Some st -> only_clocks dim (s_zone st).
Proof.
  intros E. unfold initial_state in E. destruct (initial_location dim s) as [l0|] eqn:El; [|discriminate].
  pose proof (initial_wf dim s Hbuilt l0 El) as Hl0. pose proof (locations_dep dim s Hbuilt Hreads l0 Hl0) as Di.
  assert (Oi : only_clocks dim (finit dim)).
  { intros v w Hv Hw A H. apply finit_sem in H. destruct H as (e & He & H0 & H). apply finit_sem. exists e. split; [exact He|]. split; [apply Hw|].
    intros i Hi Hd. rewrite <- (A i Hd). apply H; assumption. }
  assert (S' : forall st', state_from_location dim l0 = Some st' -> only_clocks dim (s_zone st')).
  { intros st' H. unfold state_from_location in H. destruct (fempty _ _); [discriminate|]. injection H as <-. cbn.
    intros v w Hv Hw A H. apply apply_inv_sem in H. apply apply_inv_sem. destruct H as [H1 H2]. split; [apply (Oi v w); assumption|apply (pdep_only _ Di v w); assumption]. }
  destruct s; try (apply S'; exact E). injection E as <-. exact Oi.
Qed.

Lemma initial_proper st : initial_state dim s = Some st -> proper_state st.
Proof.
  intros E. pose proof (initial_only st E) as O. unfold initial_state in E. destruct (initial_location dim s) as [l0|] eqn:El; [|discriminate].
  pose proof (initial_wf dim s Hbuilt l0 El) as Hl0.
  assert (Z : s_loc st = l0 /\ forall v, fsem dim (s_zone st) v -> inv_at dim l0 v).
  { assert (S' : forall st', state_from_location dim l0 = Some st' -> s_loc st' = l0 /\ forall v, fsem dim (s_zone st') v -> inv_at dim l0 v).
    { intros st' H. unfold state_from_location in H. destruct (fempty _ _); [discriminate|]. injection H as <-. cbn.
      split; [reflexivity|]. intros v Hv. apply apply_inv_sem in Hv. apply Hv. }
    clear O. destruct s; try (apply S'; exact E). injection E as <-. cbn. split; [reflexivity|]. intros v Hv.
    assert (Hn : lt_inv l0 = None). { cbn [initial_location] in El. destruct (initial_location dim _); [|discriminate]. destruct (initial_location dim _); [|discriminate]. injection El as <-. reflexivity. }
    unfold inv_at. rewrite Hn. eapply fsem_ok; eauto. }
  destruct Z as [Zl Zi]. split; [rewrite Zl; exact Hl0|]. split; [rewrite Zl; exact Zi|exact O].
Qed.

Lemma session_proper st : session dim s st -> proper_state st.
Proof. induction 1 as [st E|st d Hs IH Df]; [apply initial_proper; exact E|]. apply (decision_proper st d IH Df). Qed.

(** ** Sending and reading *)
Variables (minc : fed -> fed) (cord : list (string * nat) -> list (string * nat)).
Hypothesis Hminc : describes dim minc.
Hypothesis Hcord : same_elements cord.
Hypothesis Hinst : distinct_instances s.
Hypothesis Hnames : distinct_clock_names s.
Hypothesis H32 : fits_u32 dim.

Lemma state_round st : proper_state st ->
  exists x p, specific_state minc cord s st = Ok x /\ state_to_proto x = Ok p /\ write_state minc cord s st = Ok p /\
    exists st', read_state dim s p = Ok st' /\ same_state dim st' st.
Proof.
  intros (Hl & Hi & O). destruct (location_round dim s Hbuilt _ Hl) as (x & p & X1 & X2 & X3 & X4 & X5).
  destruct (Hminc (s_zone st) O) as [M1 M2].
  destruct (zone_round dim s cord Hinst Hnames H32 Hcord (minc (s_zone st))) as (_ & z & Z1 & Z2).
  { intros w c Hw Hc. destruct (M2 w c Hw Hc) as (A & B & _). auto. }
  eexists _, _. split; [unfold specific_state; rewrite X1; reflexivity|].
  split; [unfold state_to_proto; cbn [ss_loc ss_zone]; rewrite X3, Z1; reflexivity|].
  split; [unfold write_state, specific_state; rewrite X1; cbn [bind]; unfold state_to_proto; cbn [ss_loc ss_zone]; rewrite X3, Z1; reflexivity|].
  eexists. split.
  - unfold read_state. cbn [ps_zone ps_tree unwrap bind]. rewrite Z2. cbn [bind]. unfold tree_from_proto. rewrite X4. cbn [bind]. rewrite X5. reflexivity.
  - split; [reflexivity|]. intros v. cbn. rewrite apply_inv_sem, M1. split; [tauto|]. intros H. split; [exact H|apply Hi; exact H].
Qed.

Lemma decision_round d : proper_state (d_state d) -> proper_state (d_next d) -> fits s (t_id (d_trans d)) ->
  exists p, write_decision minc cord s d = Ok p /\ pd_action p = d_action d /\ edges_shown s d p /\
    (exists px st', pd_source p = Some px /\ read_state dim s px = Ok st' /\ same_state dim st' (d_state d)) /\
    (exists py nx, pd_dest p = Some py /\ write_state minc cord s (d_next d) = Ok py /\ read_state dim s py = Ok nx /\ same_state dim nx (d_next d)) /\
    (d_action d <> ""%string -> exists d', read_decision dim s p = Ok d' /\ same_decision dim d' d).
Proof.
  intros Ps Pn F. destruct (fits_edges s _ F) as (es & Es).
  destruct (state_round _ Ps) as (x & px & A1 & A2 & _ & st' & A4 & A5). destruct (state_round _ Pn) as (y & py & B1 & B2 & B3 & nx & B4 & B5).
  eexists. split; [unfold write_decision, specific_decision; rewrite Es, A1, B1; cbn [bind]; unfold decision_to_proto; cbn [sd_source sd_dest]; rewrite A2, B2; reflexivity|].
  split; [reflexivity|]. split.
  { intros e. cbn [pd_edges sd_edges]. rewrite in_map_iff. split.
    - intros (k & <- & Hk). apply (specific_edges_spec _ _ _ Es) in Hk. destruct Hk as (c & T & Ec). exists c. split; [exact T|]. unfold edge_to_proto. rewrite Ec. reflexivity.
    - intros (c & T & Ec). exists (mkSE (mkSC (cc_name c) (cc_id c)) (pe_id e)). split; [destruct e; cbn in *; subst; reflexivity|].
      apply (specific_edges_spec _ _ _ Es). exists c. auto. }
  cbn [pd_source pd_dest]. split; [exists px, st'; auto|]. split; [exists py, nx; auto|]. intros N.
  eexists. split.
  - unfold read_decision. cbn [pd_source pd_dest pd_action unwrap bind sd_action]. rewrite A4. cbn [bind]. rewrite B4. cbn [bind].
    rewrite (proj2 (String.eqb_neq _ _) N). reflexivity.
  - split; [exact A5|]. split; [reflexivity|exact B5].
Qed.

Lemma proper_decisions acts st ds d : (forall a, In a acts -> is_action s a) -> proper_state st -> get_decisions dim acts s st = Ok ds -> In d ds ->
  proper_state (d_state d) /\ proper_state (d_next d) /\ fits s (t_id (d_trans d)) /\ is_action s (d_action d) /\ offered dim s (s_loc (d_state d)) (d_action d) (d_trans d).
Proof.
  intros Ha P E Hd. pose proof P as (Hl & _). destruct (get_decisions_spec dim s q Hbuilt Hclocks st Hl acts Ha) as (ds' & E' & D & _). rewrite E in E'. injection E' as <-.
  destruct (decision_proper st d P (D d Hd)) as [A B]. split; [exact A|]. split; [exact B|]. destruct (D d Hd) as (Ho & El & _).
  split; [eapply offered_fits; eauto|]. split; [apply Ho|]. rewrite El. exact Ho.
Qed.

Lemma write_all ds : ~ is_action s ""%string ->
  (forall d, In d ds -> proper_state (d_state d) /\ proper_state (d_next d) /\ fits s (t_id (d_trans d)) /\ is_action s (d_action d) /\ offered dim s (s_loc (d_state d)) (d_action d) (d_trans d)) ->
  exists pds, mapM (write_decision minc cord s) ds = Ok pds /\ answers dim s ds pds.
Proof.
  intros N. induction ds as [|d ds IH]; intros H; [exists []; split; [reflexivity|constructor]|].
  destruct (H d (or_introl eq_refl)) as (P1 & P2 & P3 & P4 & _). destruct IH as (pds & E & A); [intros; apply H; right; assumption|].
  destruct (decision_round d P1 P2 P3) as (p & W & _ & Sh & _ & _ & R). cbn. rewrite W, E. cbn. eexists. split; [reflexivity|]. constructor; [|exact A].
  split; [exact Sh|]. apply R. intros Ea. apply N. rewrite <- Ea. exact P4.
Qed.

Lemma same_state_proper a b : same_state dim a b -> proper_state b -> proper_state a.
Proof.
  intros [El Ez] (Hl & Hi & O). split; [rewrite El; exact Hl|]. split; [intros v Hv; rewrite El; apply Hi, Ez; exact Hv|].
  intros v w Hv Hw A H. apply Ez. apply Ez in H. apply (O v w); assumption.
Qed.

Lemma answers_twin ds ds' pds : Forall2 (twin dim) ds ds' -> answers dim s ds pds -> answers dim s ds' pds.
Proof.
  intros T A. revert ds' T. induction A as [|d p ds pds (Sh & d1 & R & X) A IH]; intros ds' T; inversion T as [|? d' ? ds2 [Td Tt] T2]; subst; [constructor|].
  constructor; [|apply IH; exact T2]. split; [unfold edges_shown in *; rewrite <- Tt; exact Sh|]. exists d1. split; [exact R|].
  destruct X as (X1 & X2 & X3), Td as (T3 & T4 & T5). split; [eapply same_state_trans; eauto|]. split; [congruence|eapply same_state_trans; eauto].
Qed.

Lemma step_read acts' d p d1 : ~ is_action s ""%string -> (forall a, In a acts' -> is_action s a) ->
  proper_state (d_state d) -> is_action s (d_action d) -> read_decision dim s p = Ok d1 -> same_decision dim d1 d ->
  same_res (fun r ds' => pr_state r = pd_dest p /\ answers dim s ds' (pr_decisions r)) (take_step dim minc cord acts' s p) (resolve dim acts' s d).
Proof.
  intros N Ha' P1 P4 R1 R2. unfold take_step. rewrite R1. cbn [bind].
  assert (P4' : is_action s (d_action d1)) by (destruct R2 as (_ & -> & _); exact P4).
  pose proof (resolve_same acts' d1 d Ha' P4' R2) as S.
  destruct (resolve dim acts' s d1) as [ds1| | |] eqn:E1, (resolve dim acts' s d) as [ds2| | |] eqn:E2; cbn in S; try contradiction; cbn; try exact I.
  assert (D1 : forall x, In x ds1 -> proper_state (d_state x) /\ proper_state (d_next x) /\ fits s (t_id (d_trans x)) /\ is_action s (d_action x) /\ offered dim s (s_loc (d_state x)) (d_action x) (d_trans x)).
  { unfold resolve in E1. inv_bind E1. rename a into ts.
    pose proof (same_state_proper _ _ (proj1 R2) P1) as P1'.
    destruct (filter_map (fun t => use_transition_alt dim t (d_state d1)) ts) as [|n [|]] eqn:Ef; try discriminate.
    assert (Pn : proper_state n).
    { assert (X : exists t, In t ts /\ use_transition_alt dim t (d_state d1) = Some n).
      { clear - Ef. induction ts as [|t ts IH]; [discriminate|]. cbn in Ef. destruct (use_transition_alt dim t (d_state d1)) eqn:Eu.
        - injection Ef as -> _. exists t. auto using in_eq.
        - destruct (IH Ef) as (t' & A & B). exists t'. split; [right; exact A|exact B]. }
      destruct X as (t & Ht & Eu). eapply alt_proper; [exact P1'| |exact Eu]. split; [exact P4'|eauto]. }
    intros x Hx. eapply proper_decisions; eauto. }
  destruct (write_all ds1 N D1) as (pds & Em & A). rewrite Em. cbn. split; [reflexivity|]. eapply answers_twin; eauto.
Qed.

Theorem step_round acts acts' st ds d : ~ is_action s ""%string -> (forall a, In a acts -> is_action s a) -> (forall a, In a acts' -> is_action s a) ->
  proper_state st -> get_decisions dim acts s st = Ok ds -> In d ds ->
  exists p, write_decision minc cord s d = Ok p /\
    same_res (fun r ds' => pr_state r = pd_dest p /\ answers dim s ds' (pr_decisions r)) (take_step dim minc cord acts' s p) (resolve dim acts' s d).
Proof.
  intros N Ha Ha' P E Hd. destruct (proper_decisions acts st ds d Ha P E Hd) as (P1 & P2 & P3 & P4 & P5).
  destruct (decision_round d P1 P2 P3) as (p & W & _ & _ & _ & _ & R). destruct R as (d1 & R1 & R2); [intros Ea; apply N; rewrite <- Ea; exact P4|].
  exists p. split; [exact W|]. eapply step_read; eassumption.
Qed.

Theorem start_round acts st : ~ is_action s ""%string -> (forall a, In a acts -> is_action s a) -> initial_state dim s = Some st ->
  exists ds r p st', get_decisions dim acts s st = Ok ds /\ start_simulation dim minc cord acts s = Ok r /\
    pr_state r = Some p /\ read_state dim s p = Ok st' /\ same_state dim st' st /\ answers dim s ds (pr_decisions r).
Proof.
  intros N Ha E. pose proof (initial_proper st E) as P. pose proof P as (Hl & _).
  destruct (get_decisions_spec dim s q Hbuilt Hclocks st Hl acts Ha) as (ds & Ed & _).
  destruct (write_all ds N) as (pds & Em & A); [intros x Hx; eapply proper_decisions; eauto|].
  destruct (state_round st P) as (_ & p & _ & _ & W & st' & R1 & R2).
  exists ds, (mkPR (Some p) pds), p, st'. split; [exact Ed|]. unfold start_simulation, initial_decisions. rewrite E, Ed. cbn [bind]. rewrite Em. cbn [bind]. rewrite W. cbn [bind].
  split; [reflexivity|]. split; [reflexivity|]. auto.
Qed.
End Steps.
