(** Facts about the simulator's decisions. *)
From Coq Require Import List String ZArith QArith Bool Arith Lia Lqa.
From Verif Require Import Fed.Zone Fed.ZoneFacts Model.Base Model.Expr Model.Guard Model.Loc Model.Component Model.TS Model.Search Model.Sim
  Spec.StepSpec Spec.SystemSpec Spec.RunSpec Spec.ReachSpec Spec.RefineSpec Spec.SimSpec
  Proofs.GuardFacts Proofs.StepFacts Proofs.SystemFacts Proofs.WfFacts Proofs.RunFacts Proofs.ReadsFacts Proofs.ReachFacts.
Import ListNotations.
Local Open Scope Q_scope.

Lemma filter_map_one {A B} (f : A -> option B) x : forall l i a, nth_error l i = Some a -> f a = Some x ->
  (forall j b, j <> i -> nth_error l j = Some b -> f b = None) -> filter_map f l = [x].
Proof.
  assert (N : forall l, (forall j b, nth_error l j = Some b -> f b = None) -> filter_map f l = []).
  { induction l as [|b l IH]; intros H; [reflexivity|]. cbn. rewrite (H 0%nat b eq_refl). apply IH. intros j c Hj. exact (H (S j) c Hj). }
  induction l as [|b l IH]; intros i a Hi Ha H; [destruct i; discriminate|]. destruct i as [|i].
  - injection Hi as ->. cbn. rewrite Ha. f_equal. apply N. intros j c Hj. apply (H (S j) c); [lia|exact Hj].
  - cbn in *. rewrite (H 0%nat b ltac:(lia) eq_refl). apply (IH i a Hi Ha). intros j c Hj E. apply (H (S j) c); [lia|exact E].
Qed.

Section Sim.
Variables (dim : nat) (s : ts) (q : nat).
Hypothesis Hbuilt : built dim s.
Hypothesis Hclocks : clocks_ok dim q s.

(** One transition: either a decision for it, or it cannot be taken. *)
Lemma decision_of st a t : In (s_loc st) (all_locations dim s) -> offered dim s (s_loc st) a t ->
  exists o, from_state_transition dim st t a = Ok o /\
  match o with
  | Some d => decision_for dim s st d /\ d_action d = a /\ d_trans d = t
  | None => forall v v', fsem dim (s_zone st) v -> ~ t_fires dim t v v'
  end.
Proof.
  intros Hl Ho. destruct (offered_fine dim s q Hclocks _ _ _ Ho) as [Hu Hc].
  unfold from_state_transition. set (st1 := mkS (s_loc st) (finter dim (s_zone st) (allowed_fed dim t))).
  assert (Z : forall v, fsem dim (s_zone st1) v <-> fsem dim (s_zone st) v /\ exists v', t_fires dim t v v').
  { intros v. cbn [st1 s_zone]. rewrite finter_sem, (allowed_fed_fires dim t Hu Hc). reflexivity. }
  destruct (fempty dim (s_zone st1)) eqn:Ee; cbn [negb].
  - exists None. split; [reflexivity|]. intros v v' Hv F. apply fempty_true with (v := v) in Ee. apply Ee. apply Z. eauto.
  - apply fempty_false in Ee. destruct Ee as (v0 & Hv0).
    unfold use_transition_alt. destruct (use_transition dim t st1) as [b n] eqn:Eu.
    destruct (use_transition_zone dim t st1 b n Hu Eu) as (Lo & B & N).
    assert (Eb : b = true).
    { apply B. pose proof Hv0 as H. apply Z in H. destruct H as (_ & v' & F1 & F2 & F3).
      exists v', v0, 0. split; [exact Hv0|]. split; [exact F1|]. split; [lra|]. split; [|exact F3].
      eapply veq_trans; [exact F2|]. apply veq_sym. apply vdelay_zero. reflexivity. }
    subst b. cbn. eexists. split; [reflexivity|]. cbn. split; [|auto].
    unfold decision_for; cbn. split; [exact Ho|]. split; [reflexivity|]. split; [exact Z|]. split; [eauto|]. split; [auto|].
    intros w. rewrite (N eq_refl w). split.
    + intros (v & d & H1 & _ & H3 & H4 & H5). exists v, d. auto.
    + intros (v & d & H1 & H3 & H4 & H5). exists v, d. pose proof H1 as H. apply Z in H. destruct H as (_ & v' & F1 & _). auto 6.
Qed.

Lemma decisions_for_spec st a : In (s_loc st) (all_locations dim s) -> forall ts,
  (forall t, In t ts -> offered dim s (s_loc st) a t) ->
  exists ds, decisions_for dim st a ts = Ok ds /\
    (forall d, In d ds -> decision_for dim s st d /\ d_action d = a /\ In (d_trans d) ts) /\
    (forall t v v', In t ts -> fsem dim (s_zone st) v -> t_fires dim t v v' -> exists d, In d ds /\ d_action d = a /\ d_trans d = t).
Proof.
  intros Hl. induction ts as [|t ts IH]; intros Ht.
  - exists []. split; [reflexivity|]. split; [intros d []|intros t v v' []].
  - destruct (decision_of st a t Hl (Ht t (or_introl eq_refl))) as (o & Eo & Po).
    destruct IH as (ds & Eds & P1 & P2); [intros t' Ht'; apply Ht; right; exact Ht'|].
    cbn. rewrite Eo. cbn. rewrite Eds. cbn. eexists. split; [reflexivity|]. split.
    + intros d Hd. destruct o as [d0|]; [destruct Hd as [<-|Hd]|].
      * destruct Po as (H1 & H2 & H3). split; [exact H1|]. split; [exact H2|]. left. auto.
      * destruct (P1 d Hd) as (H1 & H2 & H3). auto.
      * destruct (P1 d Hd) as (H1 & H2 & H3). auto.
    + intros t' v v' [<-|Hin] Hv Hf.
      * destruct o as [d0|]; [|destruct (Po v v' Hv Hf)]. destruct Po as (H1 & H2 & H3). exists d0. split; [left; reflexivity|auto].
      * destruct (P2 t' v v' Hin Hv Hf) as (d & H1 & H2). exists d. split; [|exact H2]. destruct o; [right|]; exact H1.
Qed.

Lemma get_decisions_spec st : In (s_loc st) (all_locations dim s) -> forall acts, (forall a, In a acts -> is_action s a) ->
  exists ds, get_decisions dim acts s st = Ok ds /\
    (forall d, In d ds -> decision_for dim s st d) /\
    (forall a t v v', In a acts -> offered dim s (s_loc st) a t -> fsem dim (s_zone st) v -> t_fires dim t v v' ->
       exists d, In d ds /\ d_action d = a /\ d_trans d = t /\ fsem dim (s_zone (d_state d)) v).
Proof.
  intros Hl. induction acts as [|a acts IH]; intros Ha.
  - exists []. split; [reflexivity|]. split; [intros d []|intros a t v v' []].
  - destruct (next_wf dim s Hbuilt (s_loc st) a Hl (Ha a (or_introl eq_refl))) as (ts & Ets & _).
    assert (Off : forall t, In t ts -> offered dim s (s_loc st) a t).
    { intros t Ht. split; [apply Ha; left; reflexivity|eauto]. }
    destruct (decisions_for_spec st a Hl ts Off) as (ds & Eds & P1 & P2).
    destruct IH as (es & Ees & Q1 & Q2); [intros b Hb; apply Ha; right; exact Hb|].
    cbn. rewrite Ets. cbn. rewrite Eds. cbn. rewrite Ees. cbn. eexists. split; [reflexivity|]. split.
    + intros d Hd. apply in_app_or in Hd. destruct Hd as [Hd|Hd]; [apply P1|apply Q1]; exact Hd.
    + intros b t v v' Hb Ho Hv Hf.
      assert (Case : b = a \/ In b acts) by (destruct Hb; auto). destruct Case as [->|Hb'].
      * destruct Ho as (_ & ts' & Ets' & Ht). rewrite Ets in Ets'. injection Ets' as <-.
        destruct (P2 t v v' Ht Hv Hf) as (d & H1 & H2 & H3). exists d. split; [apply in_or_app; left; exact H1|].
        split; [exact H2|]. split; [exact H3|]. apply (P1 d H1). rewrite H3. eauto.
      * destruct (Q2 b t v v' Hb' Ho Hv Hf) as (d & H1 & H2). exists d. split; [apply in_or_app; right; exact H1|exact H2].
Qed.

Theorem decisions_exact acts st : (forall a, In a acts <-> is_action s a) -> In (s_loc st) (all_locations dim s) ->
  exists ds, get_decisions dim acts s st = Ok ds /\ (forall d, In d ds -> decision_for dim s st d) /\ decisions_complete dim s st ds.
Proof.
  intros Ha Hl. destruct (get_decisions_spec st Hl acts) as (ds & E & P & C); [intros a; apply Ha|].
  exists ds. split; [exact E|]. split; [exact P|]. intros a t v v' Ho Hv Hf. apply (C a t v v'); auto. apply Ha. apply Ho.
Qed.

(** What the list of decisions is made of. *)
Lemma decisions_for_in st a d : forall ts ds, decisions_for dim st a ts = Ok ds -> In d ds ->
  exists t, In t ts /\ from_state_transition dim st t a = Ok (Some d).
Proof.
  induction ts as [|t ts IH]; cbn; intros ds E Hd; [injection E as <-; destruct Hd|].
  inv_bind E. inv_bind E. injection E as <-.
  destruct a0 as [d0|].
  - destruct Hd as [->|Hd]; [eauto|]. destruct (IH _ ltac:(eassumption) Hd) as (t' & H1 & H2). eauto.
  - destruct (IH _ ltac:(eassumption) Hd) as (t' & H1 & H2). eauto.
Qed.
Lemma get_decisions_in st d : forall acts ds, get_decisions dim acts s st = Ok ds -> In d ds ->
  exists a ts t, In a acts /\ next_transitions dim s (s_loc st) a = Ok ts /\ In t ts /\ from_state_transition dim st t a = Ok (Some d).
Proof.
  induction acts as [|a acts IH]; cbn; intros ds E Hd; [injection E as <-; destruct Hd|].
  inv_bind E. inv_bind E. inv_bind E. injection E as <-. apply in_app_or in Hd. destruct Hd as [Hd|Hd].
  - destruct (decisions_for_in st a d _ _ ltac:(eassumption) Hd) as (t & K1 & K2). exists a, a0, t. auto.
  - destruct (IH _ ltac:(eassumption) Hd) as (b & ts & t & K1 & K2). exists b, ts, t. auto.
Qed.

Lemma from_state_inv st t a d : from_state_transition dim st t a = Ok (Some d) ->
  d_action d = a /\ d_trans d = t /\ s_loc (d_state d) = s_loc st /\ use_transition_alt dim t (d_state d) = Some (d_next d).
Proof.
  unfold from_state_transition. destruct (negb _); [|discriminate]. destruct (use_transition_alt dim t _) as [n|] eqn:E; [|discriminate].
  cbn. intros H. injection H as <-. cbn. auto.
Qed.

(** Where no two transitions of one action are possible together, a decision resolves to
    the decisions of its next state. *)
Theorem resolve_spec acts acts' st ds d : upper_invariants dim s -> (forall a, In a acts <-> is_action s a) ->
  In (s_loc st) (all_locations dim s) -> (forall v, fsem dim (s_zone st) v -> inv_at dim (s_loc st) v) ->
  (forall v a ts, fsem dim (s_zone st) v -> is_action s a -> next_transitions dim s (s_loc st) a = Ok ts -> exclusive dim (s_loc st) v ts) ->
  get_decisions dim acts s st = Ok ds -> In d ds -> resolve dim acts' s d = get_decisions dim acts' s (d_next d).
Proof.
  intros Up Ha Hl Hin Ex E Hd. destruct (get_decisions_in _ _ _ _ E Hd) as (a & ts & t & Hact & Ets & Ht & Ef).
  apply Ha in Hact. assert (Off : forall t', In t' ts -> offered dim s (s_loc st) a t') by (intros t' Ht'; split; eauto).
  destruct (from_state_inv _ _ _ _ Ef) as (Ea & Et & El & Eu).
  destruct (decision_of st a t Hl (Off t Ht)) as (o & Eo & Po). rewrite Ef in Eo. injection Eo as <-. destruct Po as (Df & _ & _).
  unfold resolve. rewrite El, Ea, Ets. cbn [bind]. destruct (In_nth_error _ _ Ht) as (i & Hi).
  rewrite (filter_map_one _ (d_next d) ts i t Hi Eu); [reflexivity|].
  intros j u Hj Hu. destruct (use_transition_alt dim u (d_state d)) as [n|] eqn:En; [exfalso|reflexivity].
  unfold use_transition_alt in En. destruct (use_transition dim u (d_state d)) as [b n'] eqn:Eb. destruct b; [|discriminate].
  pose proof (Off u (nth_error_In _ _ Hu)) as Ou. destruct (offered_fine dim s q Hclocks _ _ _ Ou) as [Uu _].
  destruct (use_transition_zone dim u (d_state d) true n' Uu Eb) as (_ & B & _).
  destruct (proj1 B eq_refl) as (v' & v & e & Hv & G & He & Ev & Iv).
  destruct Df as (_ & _ & Zs & _). pose proof Hv as Hv'. apply Zs in Hv'. destruct Hv' as (Hst & w & F).
  pose proof (Hin v Hst) as Iv0. rewrite Et in F.
  apply (Ex v a ts Hst Hact Ets i j t u (not_eq_sym Hj) Hi Hu). split.
  - destruct F as (F1 & F2 & F3). unfold able. split; [exact Iv0|]. split; [exact F1|]. eapply inv_at_ext; [exact F2|exact F3].
  - unfold able. split; [exact Iv0|]. split; [exact G|].
    apply (Up (t_target u)) with (d := e); [eapply offered_loc; eauto| |exact He|].
    + apply run_updates_ok; [exact Uu|]. eapply fsem_ok; eauto.
    + eapply inv_at_ext; [exact Ev|exact Iv].
Qed.

Section Session.
Hypothesis Hreads : reads_ok s.
Hypothesis Hdim : forall x, In x (sys_clocks s) -> (x < dim)%nat.
Hypothesis Up : upper_invariants dim s.

Lemma inv_val_ok l v : inv_at dim l v -> val_ok dim v.
Proof. unfold inv_at. destruct (lt_inv l); [apply fsem_ok|auto]. Qed.

Lemma session_inv st : session dim s st ->
  In (s_loc st) (all_locations dim s) /\ (forall v, fsem dim (s_zone st) v -> inv_at dim (s_loc st) v) /\
  forall v, fsem dim (s_zone st) v -> exists w, reachable dim s (s_loc st) w /\ agree (sys_clocks s) v w.
Proof.
  induction 1 as [st E|st d Hs (IHl & IHi & IHr) Df].
  - unfold initial_state in E. destruct (initial_location dim s) as [l0|] eqn:El; [|discriminate].
    pose proof (initial_wf dim s Hbuilt l0 El) as Hl0.
    assert (Z : s_loc st = l0 /\ forall v, fsem dim (s_zone st) v -> fsem dim (finit dim) v /\ inv_at dim l0 v).
    { assert (S' : forall st', state_from_location dim l0 = Some st' ->
          s_loc st' = l0 /\ forall v, fsem dim (s_zone st') v -> fsem dim (finit dim) v /\ inv_at dim l0 v).
      { intros st' H. unfold state_from_location in H. destruct (fempty _ _); [discriminate|]. injection H as <-. cbn.
        split; [reflexivity|]. intros v Hv. apply apply_inv_sem in Hv. exact Hv. }
      destruct s; try (apply S'; exact E). injection E as <-. cbn. split; [reflexivity|]. intros v Hv. split; [exact Hv|].
      assert (Hn : lt_inv l0 = None). { cbn [initial_location] in El. destruct (initial_location dim _); [|discriminate]. destruct (initial_location dim _); [|discriminate]. injection El as <-. reflexivity. }
      unfold inv_at. rewrite Hn. eapply fsem_ok; eauto. }
    destruct Z as [-> Z]. split; [exact Hl0|]. split; [intros v Hv; apply Z; exact Hv|].
    intros v Hv. destruct (Z v Hv) as [Fi Iv]. apply finit_sem in Fi. destruct Fi as (d & Hd & V0 & Vi).
    assert (A : agree (sys_clocks s) v (vdelay zero_val d)).
    { intros x Hx. destruct (Nat.eq_dec x 0) as [->|Hx0]; [rewrite V0, vdelay_0; reflexivity|].
      rewrite (Vi x Hx0 (Hdim x Hx)), vdelay_S by exact Hx0. unfold zero_val. ring. }
    assert (Zok : val_ok dim zero_val) by (split; [reflexivity|intros i _; unfold zero_val; lra]).
    assert (Id : inv_at dim l0 (vdelay zero_val d)).
    { apply (locations_dep dim s Hbuilt Hreads l0 Hl0 v); auto; [eapply inv_val_ok; eauto|]. apply vdelay_ok; [exact Zok|exact Hd]. }
    assert (Ie : forall e, 0 <= e -> e <= d -> inv_at dim l0 (vdelay zero_val e)).
    { intros e He Hed. apply (Up l0 Hl0) with (d := d - e); [apply vdelay_ok; [exact Zok|exact He]|lra|].
      eapply inv_at_ext; [|exact Id]. eapply veq_trans; [|apply veq_sym, vdelay_add].
      apply vdelay_ext; [apply veq_refl|ring]. }
    exists (vdelay zero_val d). split; [|exact A]. exists l0. split; [exact El|]. split.
    + eapply inv_at_ext; [apply vdelay_zero; reflexivity|]. apply Ie; lra.
    + apply run_delay; [constructor|exact Hd|exact Ie].
  - destruct Df as (Ho & El & Zs & _ & En & Zn). set (t := d_trans d) in *.
    destruct (offered_dep dim q s _ _ _ Hbuilt Hreads Hclocks IHl Ho) as ((Hu & Hc) & Ht & Tou & _ & Ab).
    rewrite En. split; [exact Ht|]. split; [intros v Hv; apply Zn in Hv; destruct Hv as (? & ? & _ & _ & _ & H); exact H|].
    intros v2 Hv2. apply Zn in Hv2. destruct Hv2 as (v & e & Hv & He & Ev & Iv). apply Zs in Hv. destruct Hv as (Hv & v' & F1 & F2 & F3).
    destruct (IHr v Hv) as (w & R & A). pose proof (IHi v Hv) as Iv0.
    destruct R as (l0 & Ei & I0 & R). pose proof (run_inv _ _ _ _ _ _ R I0) as Iw.
    assert (Aw : able dim (s_loc st) t w).
    { apply (Ab v w); [eapply inv_val_ok; eauto|eapply inv_val_ok; eauto|exact A|]. unfold able. split; [exact Iv0|]. split; [exact F1|].
      eapply inv_at_ext; [exact F2|exact F3]. }
    assert (Vok : val_ok dim (run_updates (t_updates t) v)) by (apply run_updates_ok; [exact Hu|eapply inv_val_ok; eauto]).
    assert (Wok : val_ok dim (run_updates (t_updates t) w)) by (apply run_updates_ok; [exact Hu|eapply inv_val_ok; eauto]).
    assert (A1 : forall k, agree (sys_clocks s) (vdelay (run_updates (t_updates t) v) k) (vdelay (run_updates (t_updates t) w) k)).
    { intros k. apply agree_delay; [right; rewrite (proj1 Vok), (proj1 Wok); reflexivity|]. apply agree_updates. exact A. }
    exists (vdelay (run_updates (t_updates t) w) e). split.
    + exists l0. split; [exact Ei|]. split; [exact I0|]. apply run_delay; [eapply run_act; eauto|exact He|].
      intros k Hk Hke. apply (locations_dep dim s Hbuilt Hreads _ Ht (vdelay (run_updates (t_updates t) v) k)); [| |apply A1|].
      * apply vdelay_ok; assumption.
      * apply vdelay_ok; assumption.
      * apply (Up _ Ht) with (d := e - k); [apply vdelay_ok; assumption|lra|].
        eapply inv_at_ext; [|exact Iv]. eapply veq_trans; [exact Ev|]. eapply veq_trans; [|apply veq_sym, vdelay_add]. apply vdelay_ext; [apply veq_refl|ring].
    + eapply agree_trans; [apply agree_veq; exact Ev|]. apply A1.
Qed.

Theorem session_resolves acts acts' st ds d : deterministic dim s -> (forall a, In a acts <-> is_action s a) -> session dim s st ->
  get_decisions dim acts s st = Ok ds -> In d ds -> resolve dim acts' s d = get_decisions dim acts' s (d_next d).
Proof.
  intros Det Ha Hs E Hd. destruct (session_inv st Hs) as (Hl & Hi & Hr).
  apply (resolve_spec acts acts' st ds d Up Ha Hl Hi); [|exact E|exact Hd].
  intros v a ts Hv Hact Ets i j t u Hij Ht Hu [At Au]. destruct (Hr v Hv) as (w & R & A).
  assert (Ow : forall t', In t' ts -> able dim (s_loc st) t' v -> able dim (s_loc st) t' w).
  { intros t' Ht' Ab. assert (Ho : offered dim s (s_loc st) a t') by (split; eauto).
    destruct (offered_dep dim q s _ _ _ Hbuilt Hreads Hclocks Hl Ho) as (_ & _ & _ & _ & D).
    apply (D v w); auto; [eapply fsem_ok; eauto|]. destruct R as (l0 & _ & I0 & R). eapply inv_val_ok, run_inv; eauto. }
  apply (Det _ _ _ _ R Hact Ets i j t u Hij Ht Hu). split; apply Ow; auto; eapply nth_error_In; eauto.
Qed.
End Session.
End Sim.
