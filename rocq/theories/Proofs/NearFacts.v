(** Valuations that are alike with respect to the bounds of a location: nothing a system can do from there tells them apart. *)
From Coq Require Import List String ZArith QArith Bool Arith Lia Lqa.
From Verif Require Import Fed.Zone Fed.ZoneFacts Model.Base Model.Expr Model.Guard Model.Loc Model.Component Model.TS Model.PairList
  Spec.StepSpec Spec.SystemSpec Spec.RunSpec Spec.RefineSpec Spec.BoundSpec
  Proofs.GuardFacts Proofs.StepFacts Proofs.SystemFacts Proofs.QuotientFacts Proofs.WfFacts Proofs.RunFacts Proofs.ReadsFacts Proofs.DetComp Proofs.BoundFacts.
Import ListNotations.
Local Open Scope Q_scope.

(** ** Alike valuations *)
Lemma alike_refl b v : alike b v v. Proof. intros i k _. left. reflexivity. Qed.
Lemma alike_sym b v w : alike b v w -> alike b w v.
Proof. intros A i k E. destruct (A i k E) as [H|[H H']]; [left; symmetry; exact H|right; auto]. Qed.
Lemma alike_trans b u v w : alike b u v -> alike b v w -> alike b u w.
Proof.
  intros A B i k E. destruct (A i k E) as [H|[H1 H2]], (B i k E) as [K|[K1 K2]].
  - left. rewrite H. exact K.
  - right. rewrite H. auto.
  - right. rewrite <- K. auto.
  - right. auto.
Qed.
Lemma alike_veq b v w : veq v w -> alike b v w. Proof. intros E i k _. left. apply E. Qed.
Lemma alike_delay b v w d : 0 <= d -> v 0%nat == w 0%nat -> alike b v w -> alike b (vdelay v d) (vdelay w d).
Proof.
  intros Hd Z A i k E. destruct i as [|i]; [left; exact Z|]. rewrite !vdelay_S by discriminate.
  destruct (A _ k E) as [H|[H1 H2]]; [left; rewrite H; reflexivity|right; split; lra].
Qed.
Lemma alike_updates b us v w : alike b v w -> alike b (run_updates us v) (run_updates us w).
Proof.
  revert v w. induction us as [|u us IH]; intros v w A; [exact A|]. cbn [run_updates fold_left]. apply IH.
  intros i k E. unfold vset. destruct (Nat.eqb i (u_clock u)); [left; reflexivity|auto].
Qed.

(** [b'] has no larger bounds than [b]. *)
Definition below (b' b : bounds) : Prop := forall i k, b' i = Some k -> at_least b i k.
Lemma below_refl b : below b b. Proof. intros i k E. exists k. split; [exact E|lia]. Qed.
Lemma below_new b : below bounds_new b. Proof. intros i k E. discriminate. Qed.
Lemma below_alike b' b v w : below b' b -> alike b v w -> alike b' v w.
Proof.
  intros B A i k E. destruct (B i k E) as (m & Em & Hm). rewrite Zle_Qle in Hm. destruct (A i m Em) as [H|[H1 H2]]; [left; exact H|right; split; lra].
Qed.
Lemma join_some a b i k : bounds_join a b i = Some k -> a i = Some k \/ b i = Some k.
Proof.
  unfold bounds_join. destruct (a i), (b i); cbn; intros E; try discriminate; try (injection E as <-); auto.
  destruct (Z.max_spec z z0) as [[_ ->]|[_ ->]]; auto.
Qed.
Lemma below_join a' b' a b : below a' a -> below b' b -> below (bounds_join a' b') (bounds_join a b).
Proof. intros A B i k E. apply join_some in E. destruct E as [E|E]; [apply join_l, A, E|apply join_r, B, E]. Qed.
Lemma below_join_l a b : below a (bounds_join a b). Proof. intros i k E. apply join_l. exact (below_refl a i k E). Qed.
Lemma below_join_r a b : below b (bounds_join a b). Proof. intros i k E. apply join_r. exact (below_refl b i k E). Qed.
Lemma add_some b q m i k : bounds_add b q m i = Some k -> b i = Some k \/ i = q /\ k = m.
Proof.
  unfold bounds_add. destruct (Nat.eqb_spec q i) as [->|N]; [|auto]. destruct (b i); cbn; intros E; injection E as <-; auto.
  destruct (Z.max_spec z m) as [[_ ->]|[_ ->]]; auto.
Qed.
Lemma below_add b b' q k : below b' b -> below (bounds_add b' q k) (bounds_add b q k).
Proof. intros B i m E. apply add_some in E. destruct E as [E|[-> ->]]; [apply add_keeps, B, E|apply add_new]. Qed.
Lemma below_added b q k : below b (bounds_add b q k). Proof. intros i m E. apply add_keeps. exact (below_refl b i m E). Qed.
Lemma alike_join a b v w : alike a v w -> alike b v w -> alike (bounds_join a b) v w.
Proof. intros A B i k E. apply join_some in E. destruct E as [E|E]; [apply A|apply B]; exact E. Qed.

(** Bounds are about the clocks of the system. *)
Lemma max_bounds_in c i k : get_max_bounds c i = Some k -> In i (map snd (d_clocks (c_decls c))).
Proof.
  unfold get_max_bounds. generalize (d_clocks (c_decls c)) as cl.
  assert (X : forall cl b, fold_left (fun b p => bounds_add b (snd p) (clock_max c (fst p) (snd p))) cl b i = Some k -> b i <> None \/ In i (map snd cl)).
  { induction cl as [|p cl IH]; intros b E; [left; cbn in E; congruence|]. cbn [fold_left] in E. destruct (IH _ E) as [H|H]; [|right; right; exact H].
    unfold bounds_add in H. destruct (Nat.eqb_spec (snd p) i) as [Ei|N]; [right; left; exact Ei|left; exact H]. }
  intros cl E. destruct (X cl _ E) as [H|H]; [exfalso; apply H; reflexivity|exact H].
Qed.
Lemma compile_bounds dim c ins outs id cc : compile_with_actions dim c ins outs id = Ok cc -> cc_bounds cc = get_max_bounds c.
Proof.
  unfold compile_with_actions. destruct (negb _); [discriminate|]. intros E. inv_bind E. inv_bind E. destruct (forallb _ _); [|discriminate].
  injection E as <-. reflexivity.
Qed.

(** ** Alike in a location *)
Definition near (dim : nat) (s : ts) (l : loctree) (v w : val) : Prop :=
  val_ok dim v /\ val_ok dim w /\ exists b, local_bounds s l = Ok b /\ alike b v w.
Lemma near_sym dim s l v w : near dim s l v w -> near dim s l w v.
Proof. intros (A & B & b & E & C). split; [exact B|]. split; [exact A|]. exists b. auto using alike_sym. Qed.
Lemma near_trans dim s l u v w : near dim s l u v -> near dim s l v w -> near dim s l u w.
Proof. intros (A & _ & b & E & C) (_ & B & b' & E' & C'). split; [exact A|]. split; [exact B|]. exists b. split; [exact E|]. rewrite E in E'. injection E' as <-. eapply alike_trans; eauto. Qed.
Lemma near_delay dim s l v w d : 0 <= d -> near dim s l v w -> near dim s l (vdelay v d) (vdelay w d).
Proof.
  intros Hd (A & B & b & E & C). split; [apply vdelay_ok; assumption|]. split; [apply vdelay_ok; assumption|]. exists b. split; [exact E|].
  apply alike_delay; auto. destruct A as [A _], B as [B _]. rewrite A, B. reflexivity.
Qed.
Lemma near_updates dim s l us v w : updates_ok dim us -> near dim s l v w -> near dim s l (run_updates us v) (run_updates us w).
Proof. intros U (A & B & b & E & C). split; [apply run_updates_ok; assumption|]. split; [apply run_updates_ok; assumption|]. exists b. auto using alike_updates. Qed.

Definition ndep (R : val -> val -> Prop) (P : val -> Prop) : Prop := forall v w, R v w -> P v -> P w.
Lemma ndep_mono (R R' : val -> val -> Prop) P : (forall v w, R' v w -> R v w) -> ndep R P -> ndep R' P.
Proof. intros H D v w A. apply D. auto. Qed.
Lemma ndep_iff R (P Q : val -> Prop) : (forall v, P v <-> Q v) -> ndep R P -> ndep R Q.
Proof. intros E H v w A q. apply E. apply (H v w A). apply E. exact q. Qed.
Lemma ndep_and R (P Q : val -> Prop) : ndep R P -> ndep R Q -> ndep R (fun v => P v /\ Q v).
Proof. intros H1 H2 v w A [p q]. split; [apply (H1 v w A p)|apply (H2 v w A q)]. Qed.
Lemma ndep_or R (P Q : val -> Prop) : ndep R P -> ndep R Q -> ndep R (fun v => P v \/ Q v).
Proof. intros H1 H2 v w A [p|q]; [left; apply (H1 v w A p)|right; apply (H2 v w A q)]. Qed.
Lemma ndep_not (R : val -> val -> Prop) (P : val -> Prop) : (forall v w, R v w -> R w v) -> ndep R P -> ndep R (fun v => ~ P v).
Proof. intros S H v w A N p. apply N. apply (H w v); auto. Qed.

(** The bounds of the parts. *)
Lemma near_conj dim l r i o loc ll lr v w : lt_left loc = Ok ll -> lt_right loc = Ok lr -> near dim (TConj l r i o) loc v w -> near dim l ll v w /\ near dim r lr v w.
Proof.
  intros El Er (A & B & b & E & C). cbn [local_bounds] in E. rewrite El, Er in E. cbn [bind] in E. inv_bind E. inv_bind E. injection E as <-.
  split; (split; [exact A|split; [exact B|]]); [exists a|exists a0]; (split; [assumption|]); (eapply below_alike; [|exact C]); [apply below_join_l|apply below_join_r].
Qed.
Lemma near_comp dim l r i o x y z loc ll lr v w : lt_left loc = Ok ll -> lt_right loc = Ok lr -> near dim (TComp l r i o x y z) loc v w -> near dim l ll v w /\ near dim r lr v w.
Proof.
  intros El Er (A & B & b & E & C). cbn [local_bounds] in E. rewrite El, Er in E. cbn [bind] in E. inv_bind E. inv_bind E. injection E as <-.
  split; (split; [exact A|split; [exact B|]]); [exists a|exists a0]; (split; [assumption|]); (eapply below_alike; [|exact C]); [apply below_join_l|apply below_join_r].
Qed.
Lemma quot_plain lt ls : is_inconsistent (lt_quotient lt ls) = false /\ is_universal (lt_quotient lt ls) = false.
Proof. unfold is_inconsistent, is_universal; cbn [lt_type lt_quotient]; destruct (lt_type lt), (lt_type ls); auto. Qed.
Lemma near_quot dim T S i o n q lt ls v w : near dim (TQuot T S i o n q) (lt_quotient lt ls) v w -> near dim T lt v w /\ near dim S ls v w.
Proof.
  destruct (quot_plain lt ls) as [I U]. intros (A & B & b & E & C). cbn [local_bounds] in E. rewrite I, U in E. cbn [orb lt_left lt_right lt_quotient bind] in E.
  inv_bind E. inv_bind E. injection E as <-.
  split; (split; [exact A|split; [exact B|]]); [exists a|exists a0]; (split; [assumption|]); (eapply below_alike; [|eapply below_alike; [apply below_added|exact C]]); [apply below_join_l|apply below_join_r].
Qed.
Lemma ndep_zero dim q b (R : val -> val -> Prop) : (forall v w, R v w -> val_ok dim v /\ val_ok dim w /\ alike b v w) -> at_least b q 0 ->
  ndep R (fsem dim (fcon_eq q 0 0 funiv)).
Proof.
  intros HR (m & Em & Hm) v w A H. destruct (HR v w A) as ([V0 V1] & Wok & C). apply fcon_eq_sem in H. apply fcon_eq_sem. destruct H as [H _].
  split; [|apply funiv_sem; exact Wok]. destruct Wok as [W0 _]. rewrite V0 in H. rewrite W0. rewrite Zle_Qle in Hm.
  destruct (C q m Em) as [X|[X _]]; [rewrite <- X; exact H|]. exfalso. change (inject_Z 0) with 0 in H, Hm. lra.
Qed.
Lemma near_zero dim T S i o n q l : l = lt_error q \/ (exists a b, l = lt_quotient a b) -> ndep (near dim (TQuot T S i o n q) l) (fsem dim (fcon_eq q 0 0 funiv)).
Proof.
  intros H v w A. pose proof A as (_ & _ & b & E & _). revert v w A. apply (ndep_zero dim q b).
  - intros v w (X & Y & b' & E' & C). rewrite E in E'. injection E' as <-. auto.
  - cbn [local_bounds] in E. destruct (is_universal l || is_inconsistent l); [injection E as <-; apply add_new|].
    inv_bind E. inv_bind E. inv_bind E. inv_bind E. injection E as <-. apply add_new.
Qed.

Section Near.
Variable dim : nat.

Lemma near_ok s l : ndep (near dim s l) (val_ok dim).
Proof. intros v w (_ & H & _) _. exact H. Qed.
Lemma near_inv s : built dim s -> bounds_suffice dim s -> forall l, In l (all_locations dim s) -> ndep (near dim s l) (inv_at dim l).
Proof.
  induction 1 as [c ins outs id cc E|l r s Hl IHl Hr IHr E|l r s Hl IHl Hr IHr E|T S q s HT IHT HS IHS E]; intros K loc Hloc.
  - cbn [bounds_suffice all_locations] in *. destruct K as (K1 & _ & K2 & _). intros v w (Vok & Wok & b & Eb & A) H. cbn [local_bounds] in Eb.
    destruct (is_universal loc) eqn:U; [apply K2; auto|]. destruct (is_inconsistent loc) eqn:I; [apply K2; auto|]. cbn in Eb. injection Eb as <-.
    exact (K1 loc v w Hloc Vok Wok A H).
  - apply conjunction_new_inv in E. destruct E as (-> & _ & _). cbn [all_locations bounds_suffice] in *.
    apply in_all_compose in Hloc; [|left; reflexivity]. destruct Hloc as (a & b & Ha & Hb & Ep).
    destruct (compose_parts _ _ _ _ _ (or_introl eq_refl) Ep) as [Pl Pr].
    apply lt_compose_spec in Ep; [|left; reflexivity]. destruct Ep as (_ & _ & _ & Ep).
    eapply ndep_iff; [intros v; symmetry; apply Ep|].
    apply ndep_and; (eapply ndep_mono; [|first [apply (IHl (proj1 K) a Ha)|apply (IHr (proj2 K) b Hb)]]); intros v w H; destruct (near_conj _ _ _ _ _ _ _ _ _ _ Pl Pr H); assumption.
  - apply composition_new_inv in E. destruct E as (_ & ins & outs & lo & ro & co & -> & _). cbn [all_locations bounds_suffice] in *.
    apply in_all_compose in Hloc; [|right; reflexivity]. destruct Hloc as (a & b & Ha & Hb & Ep).
    destruct (compose_parts _ _ _ _ _ (or_intror eq_refl) Ep) as [Pl Pr].
    apply lt_compose_spec in Ep; [|right; reflexivity]. destruct Ep as (_ & _ & _ & Ep).
    eapply ndep_iff; [intros v; symmetry; apply Ep|].
    apply ndep_and; (eapply ndep_mono; [|first [apply (IHl (proj1 K) a Ha)|apply (IHr (proj2 K) b Hb)]]); intros v w H; destruct (near_comp _ _ _ _ _ _ _ _ _ _ _ _ _ Pl Pr H); assumption.
  - apply quotient_new_inv in E. destruct E as (n & ins & outs & -> & _). cbn [all_locations] in *.
    apply in_app_or in Hloc. destruct Hloc as [Hloc|[<-|[<-|[]]]].
    + apply in_map_iff in Hloc. destruct Hloc as (p & <- & _). apply near_ok.
    + apply near_zero. left. reflexivity.
    + apply near_ok.
Qed.

(** Moving on, bounds do not grow. *)
Lemma bounds_shrink s : built dim s -> bounds_suffice dim s -> forall loc a ts t b, In loc (all_locations dim s) -> is_action s a ->
  next_transitions dim s loc a = Ok ts -> In t ts -> local_bounds s loc = Ok b -> exists b', local_bounds s (t_target t) = Ok b' /\ below b' b.
Proof.
  induction 1 as [c ins outs id cc E|l r s Hl IHl Hr IHr E|l r s Hl IHl Hr IHr E|T S q' s HT IHT HS IHS E];
    intros K loc a ts t b Hloc Ha Ets Ht Eb.
  - assert (Same : exists b', local_bounds (TSimple cc) loc = Ok b' /\ below b' b) by (exists b; split; [exact Eb|apply below_refl]).
    cbn [next_transitions] in Ets. destruct (negb _); [discriminate|].
    destruct (is_universal loc) eqn:U; [injection Ets as <-; destruct Ht as [<-|[]]; exact Same|].
    destruct (is_inconsistent loc && sin a (cc_inputs cc)) eqn:I; [injection Ets as <-; destruct Ht as [<-|[]]; exact Same|].
    destruct (assoc_loc (lt_id loc) (cc_edges cc)) as [es|] eqn:F; [|discriminate]. cbn in Ets. injection Ets as <-.
    apply in_map_iff in Ht. destruct Ht as ([b0 t'] & Et & Hp). cbn [snd] in Et. subst t'.
    apply filter_In in Hp. destruct Hp as [Hp Eq]. cbn [fst] in Eq. apply String.eqb_eq in Eq. subst b0.
    destruct (is_inconsistent loc) eqn:I'.
    { exfalso. destruct K as (_ & _ & _ & K). pose proof (K loc es a t Hloc I' F Hp) as X. apply sin_In in X. rewrite X in I. discriminate. }
    cbn [local_bounds] in Eb |- *. rewrite U, I' in Eb. cbn in Eb. injection Eb as <-. eexists. split; [reflexivity|].
    destruct (_ || _); [apply below_new|apply below_refl].
  - apply conjunction_new_inv in E. destruct E as (-> & _ & _). cbn [all_locations] in Hloc.
    apply in_all_compose in Hloc; [|left; reflexivity]. destruct Hloc as (ll & lr & Hll & Hlr & Ep).
    destruct (compose_parts _ _ _ _ _ (or_introl eq_refl) Ep) as [Pl Pr].
    assert (Al : is_action l a /\ is_action r a).
    { unfold is_action, is_input, is_output in *. cbn [ts_inputs ts_outputs] in Ha. rewrite !in_sinter in Ha. tauto. }
    apply has_action_spec in Ha. cbn [next_transitions] in Ets. rewrite Ha, Pl, Pr in Ets. cbn [negb bind] in Ets.
    inv_bind Ets. inv_bind Ets. cbn [bounds_suffice local_bounds] in *. rewrite Pl, Pr in Eb. cbn [bind] in Eb. inv_bind Eb. inv_bind Eb. injection Eb as <-.
    destruct (combinations_targets dim a0 a1 CConj ts (or_introl eq_refl) Ets t Ht) as (x & y & Hx & Hy & Exy & _).
    destruct (compose_parts _ _ _ _ _ (or_introl eq_refl) Exy) as [-> ->]. cbn [bind].
    destruct (IHl (proj1 K) ll a a0 x a2 Hll (proj1 Al) H Hx H1) as (bl & -> & Bl).
    destruct (IHr (proj2 K) lr a a1 y a3 Hlr (proj2 Al) H0 Hy H2) as (br & -> & Br). cbn [bind]. eexists. split; [reflexivity|]. apply below_join; assumption.
  - pose proof (proj1 (composition_actions l r s a E) Ha) as Act.
    pose proof (composition_new_inv l r s E) as (_ & ins & outs & lo & ro & co & -> & _ & _ & Lo & Ro & Co).
    cbn [all_locations] in Hloc.
    apply in_all_compose in Hloc; [|right; reflexivity]. destruct Hloc as (ll & lr & Hll & Hlr & Ep).
    destruct (compose_parts _ _ _ _ _ (or_intror eq_refl) Ep) as [Pl Pr].
    rewrite (comp_next _ _ _ _ _ _ _ _ _ ll lr) in Ets by assumption. cbn [bounds_suffice local_bounds] in *.
    rewrite Pl, Pr in Eb. cbn [bind] in Eb. inv_bind Eb. inv_bind Eb. injection Eb as <-. rename a0 into bl, a1 into br.
    assert (Fin : forall xl xr, combinations dim xl xr CComp = Ok ts ->
      (forall x, In x xl -> exists b', local_bounds l (t_target x) = Ok b' /\ below b' bl) ->
      (forall x, In x xr -> exists b', local_bounds r (t_target x) = Ok b' /\ below b' br) ->
      exists b', (do ll <- lt_left (t_target t); do lr <- lt_right (t_target t);
        do a <- local_bounds l ll; do b <- local_bounds r lr; Ok (bounds_join a b)) = Ok b' /\ below b' (bounds_join bl br)).
    { intros xl xr Ex Fl Fr.
      destruct (combinations_targets dim xl xr CComp ts (or_intror eq_refl) Ex t Ht) as (x & y & Hx & Hy & Exy & _).
      destruct (compose_parts _ _ _ _ _ (or_intror eq_refl) Exy) as [-> ->]. cbn [bind].
      destruct (Fl x Hx) as (b1 & -> & B1), (Fr y Hy) as (b2 & -> & B2). cbn [bind]. eexists. split; [reflexivity|]. apply below_join; assumption. }
    destruct (sin a co) eqn:Sc.
    + apply sin_In, Co in Sc. inv_bind Ets. inv_bind Ets. apply (Fin _ _ Ets).
      * intros x Hx. eapply IHl; eauto; tauto.
      * intros x Hx. eapply IHr; eauto; tauto.
    + destruct (sin a lo) eqn:Sl.
      * apply sin_In, Lo in Sl. inv_bind Ets. apply (Fin _ _ Ets).
        -- intros x Hx. eapply IHl; eauto; tauto.
        -- intros x [<-|[]]. exists br. split; [assumption|apply below_refl].
      * destruct (sin a ro) eqn:Sr; [|discriminate]. apply sin_In, Ro in Sr. inv_bind Ets. apply (Fin _ _ Ets).
        -- intros x [<-|[]]. exists bl. split; [assumption|apply below_refl].
        -- intros x Hx. eapply IHr; eauto; tauto.
  - apply quotient_new_inv in E. destruct E as (n & ins & outs & -> & Ei & Eo & _). cbn [bounds_suffice] in K. destruct K as [K1 K2].
    assert (Spec : forall l x, l = lt_universal \/ l = lt_error q' -> at_least x q' 0 ->
      exists b', local_bounds (TQuot T S ins outs n q') l = Ok b' /\ below b' x).
    { intros l x Hl (m & Em & Hm). exists (bounds_add bounds_new q' 0). split; [destruct Hl as [->| ->]; reflexivity|].
      intros i k Ek. apply add_some in Ek. destruct Ek as [Ek|[-> ->]]; [discriminate|]. exists m. auto. }
    cbn [next_transitions] in Ets. destruct (negb _); [discriminate|].
    cbn [all_locations] in Hloc. apply in_app_or in Hloc. destruct Hloc as [Hloc|[<-|[<-|[]]]].
    + apply in_map_iff in Hloc. destruct Hloc as ([lt ls] & <- & Hp). apply in_prod_iff in Hp. destruct Hp as [Hlt Hls]. cbn [fst snd] in *.
      destruct (quot_plain lt ls) as [I1 I2]. rewrite I1, I2 in Ets. cbn [lt_left lt_right lt_quotient bind] in Ets.
      inv_bind Ets. inv_bind Ets. injection Ets as <-. rename a0 into tts, a1 into sss.
      cbn [local_bounds] in Eb. rewrite I1, I2 in Eb. cbn [orb lt_left lt_right lt_quotient bind] in Eb. inv_bind Eb. inv_bind Eb. injection Eb as <-.
      rename a0 into bt, a1 into bs.
      assert (DT : forall x, In x tts -> exists b', local_bounds T (t_target x) = Ok b' /\ below b' bt).
      { intros x Hx. destruct (has_action T a) eqn:HA; [|injection H as <-; destruct Hx]. apply has_action_spec in HA. exact (IHT K1 lt a tts x bt Hlt HA H Hx H1). }
      assert (DS : forall x, In x sss -> exists b', local_bounds S (t_target x) = Ok b' /\ below b' bs).
      { intros x Hx. destruct (has_action S a) eqn:HA; [|injection H0 as <-; destruct Hx]. apply has_action_spec in HA. exact (IHS K2 ls a sss x bs Hls HA H0 Hx H2). }
      assert (Qt : forall lt' ls', (exists b', local_bounds T lt' = Ok b' /\ below b' bt) -> (exists b', local_bounds S ls' = Ok b' /\ below b' bs) ->
        exists b', local_bounds (TQuot T S ins outs n q') (lt_quotient lt' ls') = Ok b' /\ below b' (bounds_add (bounds_join bt bs) q' 0)).
      { intros lt' ls' (b1 & E1 & B1) (b2 & E2 & B2). destruct (quot_plain lt' ls') as [J1 J2]. cbn [local_bounds]. rewrite J1, J2.
        cbn [orb lt_left lt_right lt_quotient bind]. rewrite E1, E2. cbn [bind]. eexists. split; [reflexivity|]. apply below_add, below_join; assumption. }
      unfold quotient_rules in Ht. apply filter_In in Ht. destruct Ht as [Ht _].
      repeat (apply in_app_or in Ht; destruct Ht as [Ht|Ht]).
      * destruct (has_action S a && has_action T a); [|destruct Ht]. apply in_map_iff in Ht.
        destruct Ht as ([x y] & <- & Hp). apply in_prod_iff in Hp. destruct Hp as [Hx Hy]. cbn [fst snd t_target]. apply Qt; auto.
      * destruct (has_action S a && negb (has_action T a)); [|destruct Ht]. apply in_map_iff in Ht.
        destruct Ht as (y & <- & Hy). cbn [t_target]. apply Qt; auto. exists bt. split; [assumption|apply below_refl].
      * destruct (sin a (ts_outputs S)); destruct Ht as [<-|[]]; cbn [t_target]; apply Spec; auto; apply add_new.
      * destruct (sin a (ts_outputs S) && sin a (ts_outputs T)); [|destruct Ht]. apply in_map_iff in Ht.
        destruct Ht as (y & <- & Hy). cbn [t_target]. apply Spec; auto; apply add_new.
      * destruct (String.eqb a n); [|destruct Ht]. destruct Ht as [<-|[]]. cbn [t_target]. apply Spec; auto; apply add_new.
      * destruct (has_action T a && negb (has_action S a)); [|destruct Ht]. apply in_map_iff in Ht.
        destruct Ht as (y & <- & Hy). cbn [t_target]. apply Qt; auto. exists bs. split; [assumption|apply below_refl].
    + change (is_inconsistent (lt_error q')) with true in Ets. cbn iota in Ets. injection Ets as <-.
      destruct (sin a ins); [|destruct Ht]. destruct Ht as [<-|[]]. cbn [t_target]. exists b. split; [exact Eb|apply below_refl].
    + change (is_inconsistent lt_universal) with false in Ets. change (is_universal lt_universal) with true in Ets. cbn iota in Ets.
      injection Ets as <-. destruct Ht as [<-|[]]. exists b. split; [exact Eb|apply below_refl].
Qed.

(** So valuations that are alike stay alike. *)
Lemma near_step s : built dim s -> bounds_suffice dim s -> forall q loc a t v w, clocks_ok dim q s -> In loc (all_locations dim s) -> offered dim s loc a t ->
  near dim s loc v w -> near dim s (t_target t) (run_updates (t_updates t) v) (run_updates (t_updates t) w).
Proof.
  intros B K q loc a t v w Kc Hl [Ha (ts & Ets & Ht)] (Vok & Wok & b & Eb & A).
  destruct (next_fine dim q s Kc loc a ts Ets t Ht) as [[U _] _].
  destruct (bounds_shrink s B K loc a ts t b Hl Ha Ets Ht Eb) as (b' & Eb' & Bl).
  split; [apply run_updates_ok; assumption|]. split; [apply run_updates_ok; assumption|]. exists b'. split; [exact Eb'|].
  apply alike_updates. eapply below_alike; eauto.
Qed.

(** Guards do not tell them apart. *)
Lemma near_guard s : built dim s -> bounds_suffice dim s -> forall q, clocks_ok dim q s ->
  forall loc a ts t, In loc (all_locations dim s) -> is_action s a -> next_transitions dim s loc a = Ok ts -> In t ts ->
  ndep (near dim s loc) (fsem dim (t_guard t)).
Proof.
  intros B K0 q. induction B as [c ins outs id cc E|l r s Hl IHl Hr IHr E|l r s Hl IHl Hr IHr E|T S q' s HT IHT HS IHS E];
    intros Kc loc a ts t Hloc Ha Ets Ht; pose proof K0 as K.
  - assert (Triv : ndep (near dim (TSimple cc) loc) (fsem dim (t_guard (t_without_id loc)))).
    { intros v w (_ & W & _) _. apply funiv_sem. exact W. }
    cbn [next_transitions] in Ets. destruct (negb _); [discriminate|].
    destruct (is_universal loc) eqn:U; [injection Ets as <-; destruct Ht as [<-|[]]; exact Triv|].
    destruct (is_inconsistent loc && sin a (cc_inputs cc)) eqn:I; [injection Ets as <-; destruct Ht as [<-|[]]; exact Triv|].
    destruct (assoc_loc (lt_id loc) (cc_edges cc)) as [es|] eqn:F; [|discriminate]. cbn in Ets. injection Ets as <-.
    apply in_map_iff in Ht. destruct Ht as ([b0 t'] & Et & Hp). cbn [snd] in Et. subst t'.
    apply filter_In in Hp. destruct Hp as [Hp Eq]. cbn [fst] in Eq. apply String.eqb_eq in Eq. subst b0.
    destruct K as (_ & K1 & _ & K2).
    destruct (is_inconsistent loc) eqn:I'.
    { exfalso. pose proof (K2 loc es a t Hloc I' F Hp) as X. apply sin_In in X. rewrite X in I. discriminate. }
    intros v w (Vok & Wok & b & Eb & A). cbn [local_bounds] in Eb. rewrite U, I' in Eb. cbn in Eb. injection Eb as <-.
    unfold assoc_loc in F. destruct (find _ (cc_edges cc)) as [[i es']|] eqn:F'; [|discriminate]. injection F as <-. apply find_some_in in F'.
    eapply K1; eauto.
  - apply conjunction_new_inv in E. destruct E as (-> & _ & _). cbn [all_locations] in Hloc.
    apply in_all_compose in Hloc; [|left; reflexivity]. destruct Hloc as (ll & lr & Hll & Hlr & Ep).
    destruct (compose_parts _ _ _ _ _ (or_introl eq_refl) Ep) as [Pl Pr].
    assert (Al : is_action l a /\ is_action r a).
    { unfold is_action, is_input, is_output in *. cbn [ts_inputs ts_outputs] in Ha. rewrite !in_sinter in Ha. tauto. }
    apply has_action_spec in Ha. cbn [next_transitions] in Ets. rewrite Ha, Pl, Pr in Ets. cbn [negb bind] in Ets.
    inv_bind Ets. inv_bind Ets. cbn [bounds_suffice clocks_ok] in *.
    destruct (combinations_spec dim a0 a1 CConj (or_introl eq_refl)) as (ts' & E' & _ & C). rewrite Ets in E'. injection E' as <-.
    destruct (C t Ht) as ([x y] & Hp & J1 & J2 & _). apply in_prod_iff in Hp. destruct Hp as [Hx Hy]. cbn [fst snd] in *.
    pose proof (IHl (proj1 K) (proj1 Kc) ll a a0 x Hll (proj1 Al) H Hx) as D1.
    pose proof (IHr (proj2 K) (proj1 (proj2 Kc)) lr a a1 y Hlr (proj2 Al) H0 Hy) as D2.
    eapply ndep_iff; [intros v; symmetry; apply J1|].
    apply ndep_and; (eapply ndep_mono; [|eassumption]); intros v w X; destruct (near_conj _ _ _ _ _ _ _ _ _ _ Pl Pr X); assumption.
  - pose proof (proj1 (composition_actions l r s a E) Ha) as Act.
    pose proof (composition_new_inv l r s E) as (_ & ins & outs & lo & ro & co & -> & _ & _ & Lo & Ro & Co).
    cbn [all_locations] in Hloc.
    apply in_all_compose in Hloc; [|right; reflexivity]. destruct Hloc as (ll & lr & Hll & Hlr & Ep).
    destruct (compose_parts _ _ _ _ _ (or_intror eq_refl) Ep) as [Pl Pr].
    rewrite (comp_next _ _ _ _ _ _ _ _ _ ll lr) in Ets by assumption. cbn [bounds_suffice clocks_ok] in *.
    assert (Fin : forall xl xr, combinations dim xl xr CComp = Ok ts ->
      (forall x, In x xl -> ndep (near dim l ll) (fsem dim (t_guard x))) ->
      (forall x, In x xr -> ndep (near dim r lr) (fsem dim (t_guard x))) ->
      ndep (near dim (TComp l r ins outs lo ro co) loc) (fsem dim (t_guard t))).
    { intros xl xr Ex Fl Fr.
      destruct (combinations_spec dim xl xr CComp (or_intror eq_refl)) as (ts' & E' & _ & C). rewrite Ex in E'. injection E' as <-.
      destruct (C t Ht) as ([x y] & Hp & J1 & J2 & _). apply in_prod_iff in Hp. destruct Hp as [Hx Hy]. cbn [fst snd] in *.
      eapply ndep_iff; [intros v; symmetry; apply J1|].
      apply ndep_and; (eapply ndep_mono; [|first [apply Fl; exact Hx|apply Fr; exact Hy]]); intros v w X; destruct (near_comp _ _ _ _ _ _ _ _ _ _ _ _ _ Pl Pr X); assumption. }
    assert (W : forall s' loc', ndep (near dim s' loc') (fsem dim (t_guard (t_without_id loc')))).
    { intros s' loc' v w (_ & Wk & _) _. apply funiv_sem. exact Wk. }
    destruct (sin a co) eqn:Sc.
    + apply sin_In, Co in Sc. inv_bind Ets. inv_bind Ets. apply (Fin _ _ Ets).
      * intros x Hx. eapply IHl; eauto; tauto.
      * intros x Hx. eapply IHr; eauto; tauto.
    + destruct (sin a lo) eqn:Sl.
      * apply sin_In, Lo in Sl. inv_bind Ets. apply (Fin _ _ Ets).
        -- intros x Hx. eapply IHl; eauto; tauto.
        -- intros x [<-|[]]. apply W.
      * destruct (sin a ro) eqn:Sr; [|discriminate]. apply sin_In, Ro in Sr. inv_bind Ets. apply (Fin _ _ Ets).
        -- intros x [<-|[]]. apply W.
        -- intros x Hx. eapply IHr; eauto; tauto.
  - apply quotient_new_inv in E. destruct E as (n & ins & outs & -> & Ei & Eo & _).
    cbn [clocks_ok bounds_suffice] in *. destruct Kc as (C1 & C2 & D & -> & Q0 & Qd). destruct K as [K1 K2].
    cbn [next_transitions] in Ets. destruct (negb _); [discriminate|].
    cbn [all_locations] in Hloc. apply in_app_or in Hloc. destruct Hloc as [Hloc|[<-|[<-|[]]]].
    + apply in_map_iff in Hloc. destruct Hloc as ([lt ls] & <- & Hp). apply in_prod_iff in Hp. destruct Hp as [Hlt Hls]. cbn [fst snd] in *.
      destruct (quot_plain lt ls) as [I1 I2]. rewrite I1, I2 in Ets. cbn [lt_left lt_right lt_quotient bind] in Ets.
      inv_bind Ets. inv_bind Ets. injection Ets as <-. rename a0 into tts, a1 into sss.
      set (RR := near dim (TQuot T S ins outs n q) (lt_quotient lt ls)).
      assert (Sy : forall v w, RR v w -> RR w v) by (intros v w; apply near_sym).
      assert (MT : forall v w, RR v w -> near dim T lt v w) by (intros v w X; apply (near_quot _ _ _ _ _ _ _ _ _ _ _ X)).
      assert (MS : forall v w, RR v w -> near dim S ls v w) by (intros v w X; apply (near_quot _ _ _ _ _ _ _ _ _ _ _ X)).
      assert (Vk : ndep RR (val_ok dim)) by (intros v w (_ & X & _) _; exact X).
      assert (DT : forall x, In x tts -> tr_fine dim x /\ ndep RR (able dim lt x)).
      { intros x Hx. destruct (has_action T a) eqn:HA; [|injection H as <-; destruct Hx]. apply has_action_spec in HA.
        destruct (next_fine dim q T C1 lt a tts H x Hx) as [F _]. split; [exact F|].
        destruct (next_wf dim T HT lt a Hlt HA) as (ts' & E' & W). rewrite H in E'. injection E' as <-.
        intros v w X (A1 & A2 & A3). pose proof (MT v w X) as X'. split; [apply (near_inv T HT K1 lt Hlt v w X' A1)|].
        split; [apply (IHT K1 C1 lt a tts x Hlt HA H Hx v w X' A2)|].
        apply (near_inv T HT K1 (t_target x) (W x Hx) (run_updates (t_updates x) v)); [|exact A3].
        apply (near_step T HT K1 q lt a); auto. split; [exact HA|]. exists tts. auto. }
      assert (DS : forall x, In x sss -> tr_fine dim x /\ ndep RR (able dim ls x)).
      { intros x Hx. destruct (has_action S a) eqn:HA; [|injection H0 as <-; destruct Hx]. apply has_action_spec in HA.
        destruct (next_fine dim q S C2 ls a sss H0 x Hx) as [F _]. split; [exact F|].
        destruct (next_wf dim S HS ls a Hls HA) as (ts' & E' & W). rewrite H0 in E'. injection E' as <-.
        intros v w X (A1 & A2 & A3). pose proof (MS v w X) as X'. split; [apply (near_inv S HS K2 ls Hls v w X' A1)|].
        split; [apply (IHS K2 C2 ls a sss x Hls HA H0 Hx v w X' A2)|].
        apply (near_inv S HS K2 (t_target x) (W x Hx) (run_updates (t_updates x) v)); [|exact A3].
        apply (near_step S HS K2 q ls a); auto. split; [exact HA|]. exists sss. auto. }
      assert (IT : ndep RR (inv_at dim lt)) by (eapply ndep_mono; [exact MT|apply near_inv; assumption]).
      assert (IS : ndep RR (inv_at dim ls)) by (eapply ndep_mono; [exact MS|apply near_inv; assumption]).
      assert (AT : forall x, In x tts -> ndep RR (fsem dim (q_allowed dim lt x))).
      { intros x Hx. destruct (DT x Hx) as (F & P). eapply ndep_iff; [intros v; symmetry; apply q_allowed_sem; exact F|exact P]. }
      assert (AS : forall x, In x sss -> ndep RR (fsem dim (q_allowed dim ls x))).
      { intros x Hx. destruct (DS x Hx) as (F & P). eapply ndep_iff; [intros v; symmetry; apply q_allowed_sem; exact F|exact P]. }
      assert (Int : forall f g, ndep RR (fsem dim f) -> ndep RR (fsem dim g) -> ndep RR (fsem dim (finter dim f g))).
      { intros f g P1 P2. eapply ndep_iff; [intros v; symmetry; apply finter_sem|apply ndep_and; assumption]. }
      assert (Uni : forall f g, ndep RR (fsem dim f) -> ndep RR (fsem dim g) -> ndep RR (fsem dim (funion f g))).
      { intros f g P1 P2. eapply ndep_iff; [intros v; symmetry; apply funion_sem|apply ndep_or; assumption]. }
      assert (Cpl : forall f, ndep RR (fsem dim f) -> ndep RR (fsem dim (fcompl dim f))).
      { intros f P1. eapply ndep_iff; [intros v; symmetry; apply fcompl_sem|apply ndep_and; [exact Vk|apply ndep_not; assumption]]. }
      assert (Fold : forall F l g, (forall x, In x l -> ndep RR (fsem dim (F x))) -> ndep RR (fsem dim g) ->
        ndep RR (fsem dim (fold_left (fun g (s : transition) => funion g (F s)) l g))).
      { intros F l. induction l as [|x l IH]; intros g H1 H2; [exact H2|]. cbn [fold_left]. apply IH; [intros y Hy; apply H1; right; exact Hy|].
        apply Uni; [exact H2|apply H1; left; reflexivity]. }
      assert (Non : ndep RR (fsem dim fnone)) by (intros v w _ C; destruct (fnone_sem _ _ C)).
      assert (InvS : ndep RR (fsem dim (apply_inv dim ls funiv))).
      { eapply ndep_iff; [intros v; symmetry; apply apply_inv_univ|exact IS]. }
      unfold quotient_rules in Ht. apply filter_In in Ht. destruct Ht as [Ht _].
      repeat (apply in_app_or in Ht; destruct Ht as [Ht|Ht]).
      * destruct (has_action S a && has_action T a); [|destruct Ht]. apply in_map_iff in Ht.
        destruct Ht as ([x y] & <- & Hp). apply in_prod_iff in Hp. destruct Hp as [Hx Hy]. cbn [fst snd t_guard]. apply Int; auto.
      * destruct (has_action S a && negb (has_action T a)); [|destruct Ht]. apply in_map_iff in Ht.
        destruct Ht as (y & <- & Hy). cbn [t_guard]. auto.
      * destruct (sin a (ts_outputs S)); destruct Ht as [<-|[]]; cbn [t_guard]; auto.
      * destruct (sin a (ts_outputs S) && sin a (ts_outputs T)); [|destruct Ht]. apply in_map_iff in Ht.
        destruct Ht as (y & <- & Hy). cbn [t_guard]. auto.
      * destruct (String.eqb a n); [|destruct Ht]. destruct Ht as [<-|[]]. cbn [t_guard].
        apply Int; [apply Cpl|]; (eapply ndep_iff; [intros v; symmetry; apply q_inv_sem|assumption]).
      * destruct (has_action T a && negb (has_action S a)); [|destruct Ht]. apply in_map_iff in Ht.
        destruct Ht as (y & <- & Hy). cbn [t_guard].
        eapply ndep_iff; [intros v; symmetry; apply apply_inv_sem|apply ndep_and; auto].
    + change (is_inconsistent (lt_error q)) with true in Ets. cbn iota in Ets. injection Ets as <-.
      destruct (sin a ins); [|destruct Ht]. destruct Ht as [<-|[]]. cbn [t_guard]. apply near_zero. left. reflexivity.
    + change (is_inconsistent lt_universal) with false in Ets. change (is_universal lt_universal) with true in Ets. cbn iota in Ets.
      injection Ets as <-. destruct Ht as [<-|[]]. intros v w (_ & Wk & _) _. apply funiv_sem. exact Wk.
Qed.

(** Bounds are about the clocks of the system. *)
Lemma bounds_own s : built dim s -> forall loc b i k, In loc (all_locations dim s) -> local_bounds s loc = Ok b -> b i = Some k -> In i (sys_clocks s).
Proof.
  induction 1 as [c ins outs id cc E|l r s Hl IHl Hr IHr E|l r s Hl IHl Hr IHr E|T S q s HT IHT HS IHS E]; intros loc b i k Hloc Eb Ei.
  - cbn [local_bounds] in Eb. injection Eb as <-. destruct (_ || _); [discriminate|]. rewrite (compile_bounds _ _ _ _ _ _ E) in Ei.
    apply max_bounds_in in Ei. destruct (compile_inv _ _ _ _ _ _ E) as (_ & _ & _ & _ & _ & Ed & _). cbn [sys_clocks comp_clocks]. rewrite Ed. exact Ei.
  - apply conjunction_new_inv in E. destruct E as (-> & _ & _). cbn [all_locations sys_clocks] in *.
    apply in_all_compose in Hloc; [|left; reflexivity]. destruct Hloc as (x & y & Hx & Hy & Ep).
    destruct (compose_parts _ _ _ _ _ (or_introl eq_refl) Ep) as [Pl Pr]. cbn [local_bounds] in Eb. rewrite Pl, Pr in Eb. cbn [bind] in Eb.
    inv_bind Eb. inv_bind Eb. injection Eb as <-. apply join_some in Ei. apply in_or_app. destruct Ei; [left|right]; eauto.
  - apply composition_new_inv in E. destruct E as (_ & ins & outs & lo & ro & co & -> & _). cbn [all_locations sys_clocks] in *.
    apply in_all_compose in Hloc; [|right; reflexivity]. destruct Hloc as (x & y & Hx & Hy & Ep).
    destruct (compose_parts _ _ _ _ _ (or_intror eq_refl) Ep) as [Pl Pr]. cbn [local_bounds] in Eb. rewrite Pl, Pr in Eb. cbn [bind] in Eb.
    inv_bind Eb. inv_bind Eb. injection Eb as <-. apply join_some in Ei. apply in_or_app. destruct Ei; [left|right]; eauto.
  - apply quotient_new_inv in E. destruct E as (n & ins & outs & -> & _). cbn [all_locations sys_clocks] in *. cbn [local_bounds] in Eb.
    destruct (is_universal loc || is_inconsistent loc) eqn:U.
    { injection Eb as <-. apply add_some in Ei. destruct Ei as [Ei|[-> _]]; [discriminate|left; reflexivity]. }
    apply in_app_or in Hloc. destruct Hloc as [Hloc|[<-|[<-|[]]]]; try discriminate.
    apply in_map_iff in Hloc. destruct Hloc as ([x y] & <- & Hp). apply in_prod_iff in Hp. destruct Hp as [Hx Hy]. cbn [fst snd lt_left lt_right lt_quotient bind] in Eb.
    inv_bind Eb. inv_bind Eb. injection Eb as <-. apply add_some in Ei. destruct Ei as [Ei|[-> _]]; [|left; reflexivity].
    right. apply join_some in Ei. apply in_or_app. destruct Ei; [left|right]; eauto.
Qed.
Lemma agree_near s : built dim s -> forall loc v w, In loc (all_locations dim s) -> val_ok dim v -> val_ok dim w -> agree (sys_clocks s) v w -> near dim s loc v w.
Proof.
  intros B loc v w Hl Vok Wok A. split; [exact Vok|]. split; [exact Wok|]. destruct (local_bounds_total dim s B loc Hl) as (b & Eb). exists b. split; [exact Eb|].
  intros i k E. left. apply A. eapply bounds_own; eauto.
Qed.
Lemma near_able s : built dim s -> bounds_suffice dim s -> forall q loc a t, clocks_ok dim q s -> In loc (all_locations dim s) -> offered dim s loc a t ->
  ndep (near dim s loc) (fsem dim (t_guard t)) /\ ndep (near dim s loc) (able dim loc t).
Proof.
  intros B K q loc a t Kc Hl O. pose proof O as [Ha (ts & Ets & Ht)]. pose proof (near_guard s B K q Kc loc a ts t Hl Ha Ets Ht) as G. split; [exact G|].
  destruct (next_wf dim s B loc a Hl Ha) as (ts' & E' & W). rewrite Ets in E'. injection E' as <-.
  intros v w X (A1 & A2 & A3). split; [apply (near_inv s B K loc Hl v w X A1)|]. split; [apply (G v w X A2)|].
  apply (near_inv s B K (t_target t) (W t Ht) (run_updates (t_updates t) v)); [|exact A3]. eapply near_step; eauto.
Qed.
End Near.
