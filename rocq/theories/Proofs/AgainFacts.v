(** Two determinism checks of one system. *)
From Coq Require Import List String ZArith QArith Bool Arith Lia Lqa.
From Verif Require Import Fed.Zone Fed.ZoneFacts Model.Base Model.Expr Model.Guard Model.Loc Model.Component Model.TS Model.Search
  Spec.StepSpec Spec.SystemSpec Spec.RunSpec Proofs.GuardFacts Proofs.StepFacts Proofs.SystemFacts Proofs.QuotientFacts Proofs.WfFacts
  Proofs.RunFacts Proofs.DetFacts.
Import ListNotations.
Local Open Scope Q_scope.

Section Again.
Variable dim : nat.
Variables ext ext' : ts -> loctree -> fed -> fed.
Variables ord ord' : list state -> list string -> list string.
Hypothesis ord_members : forall p l a, In a (ord p l) <-> In a l.
Hypothesis ord_members' : forall p l a, In a (ord' p l) <-> In a l.
Hypothesis narrower : forall s l f g, (forall v, fsem dim f v -> fsem dim g v) -> forall v, fsem dim (ext' s l f) v -> fsem dim (ext s l g) v.

Definition below (x y : state) : Prop := s_loc x = s_loc y /\ forall v, fsem dim (s_zone x) v -> fsem dim (s_zone y) v.
Lemma below_usable s t x y : tr_fine dim t -> below x y -> usable dim t x -> usable dim t y /\ below (after dim ext' s t x) (after dim ext s t y).
Proof.
  intros [U C] [El Ez] Ux. unfold usable, after in *. destruct (use_transition dim t x) as [b x'] eqn:Ex. destruct (use_transition dim t y) as [b' y'] eqn:Ey. cbn [fst snd] in *. subst b.
  destruct (use_transition_zone dim t x true x' U Ex) as (X1 & X2 & X3). destruct (use_transition_zone dim t y b' y' U Ey) as (Y1 & Y2 & Y3).
  assert (b' = true) as ->. { apply Y2. destruct (proj1 X2 eq_refl) as (v' & v & d & Z & R). exists v', v, d. split; [apply Ez, Z|exact R]. }
  split; [reflexivity|]. unfold extrapolate. split; cbn [s_loc s_zone]; [rewrite X1, Y1 by reflexivity; reflexivity|]. rewrite X1, Y1 by reflexivity.
  apply narrower. intros v'. rewrite (X3 eq_refl), (Y3 eq_refl). intros (v & d & Z & R). exists v, d. split; [apply Ez, Z|exact R].
Qed.

Definition within (p : list state) (x : state) : Prop := exists y, In y p /\ below x y.
Lemma within_covered s p x y : built dim s -> locs_ok dim s p -> In (s_loc x) (all_locations dim s) -> below x y -> covered dim p y -> within p x.
Proof.
  intros B Lp Hx [El Ez] (z & Hz & E). unfold state_subset in E. apply andb_true_iff in E. destruct E as [E1 E2]. exists z. split; [exact Hz|]. split.
  - eapply location_inj; [exact B|exact Hx|apply Lp, Hz|]. rewrite El. apply lt_eqb_id, E1.
  - intros v Hv. rewrite fsubset_true in E2. auto.
Qed.

Lemma FOP_app {A} (R : A -> A -> Prop) l a m : ForallOrdPairs R (l ++ a :: m) -> forall x, In x l -> R x a.
Proof.
  induction l as [|b l IH]; intros H x; [intros []|]. inversion H; subst. intros [<-|Hx]; [|auto].
  rewrite Forall_forall in H2. apply H2, in_or_app. right; left; reflexivity.
Qed.

Lemma helper_again s q p : built dim s -> clocks_ok dim q s -> locs_ok dim s p -> (forall x, In x p -> closed dim ext s p x) ->
  forall fuel st p0 r p1, within p st -> det_helper dim ext' ord' fuel s st p0 = Ok (r, p1) -> r = None.
Proof.
  intros B K Lp Cl. induction fuel as [|f IH]; intros st p0 r p1 W E; cbn [det_helper] in E; [discriminate|].
  destruct (state_in_list dim st p0); [injection E as <- <-; reflexivity|]. inv_bind E. destruct a as [pf|[o p2]]; [injection E as <- <-; reflexivity|]. exfalso. clear E.
  destruct W as (y & Hy & Wy). set (p3 := p0 ++ [st]) in *.
  refine (loopM_inr (det_action dim ext' s (det_helper dim ext' ord' f s) st) (fun _ _ => True) (fun _ => False) _ _ _ [] _ _ I H); [auto|]. clear H.
  intros _ a s0 r1 Hin _ Eb. apply ord_members' in Hin. unfold det_action in Eb. inv_bind Eb. rename a0 into tss. rename H into Ets.
  assert (Ha : is_action s a) by (apply has_action_spec; unfold has_action; apply sin_In; exact Hin).
  destruct (Cl y Hy a Ha) as (ts' & Ets' & Cov & Fop). rewrite <- (proj1 Wy), Ets in Ets'. injection Ets' as <-.
  assert (Wf : In (s_loc st) (all_locations dim s)) by (rewrite (proj1 Wy); apply Lp, Hy).
  inv_bind Eb. destruct a0 as [[? ?]|r2]; [discriminate|]. clear Eb. rename H into El.
  assert (Loop : forall rest done acc, done ++ rest = tss ->
     (forall v, fsem dim (snd acc) v -> exists t, In t done /\ usable dim t st /\ fsem dim (all_of dim t st) v) ->
     loopM (det_body dim ext' s (det_helper dim ext' ord' f s) st a) rest acc = Ok (inr r2) -> False).
  { induction rest as [|t rest IHr]; intros done [pa lf] Ed Inv El'; cbn [loopM] in El'; [discriminate|].
    assert (Ht : In t tss) by (rewrite <- Ed; apply in_or_app; right; left; reflexivity).
    destruct (next_fine dim q s K _ _ _ Ets t Ht) as [Ft _].
    inv_bind El'. unfold det_body in H. destruct (use_transition dim t st) as [ok ns] eqn:Eu.
    assert (Next : forall acc', (forall v, fsem dim (snd acc') v -> fsem dim lf v \/ (usable dim t st /\ fsem dim (all_of dim t st) v)) ->
       loopM (det_body dim ext' s (det_helper dim ext' ord' f s) st a) rest acc' = Ok (inr r2) -> False).
    { intros acc' Hacc El2. eapply (IHr (done ++ [t]) acc'); [rewrite <- app_assoc; exact Ed| |exact El2].
      intros v Hv. destruct (Hacc v Hv) as [H1|[H0 H1]].
      - destruct (Inv v H1) as (t' & Hi & A). exists t'. split; [apply in_or_app; auto|exact A].
      - exists t. split; [apply in_or_app; right; left; reflexivity|auto]. }
    destruct ok; [|injection H as <-; eapply Next; [|exact El']; auto].
    assert (Ut : usable dim t st) by (unfold usable; rewrite Eu; reflexivity). destruct (below_usable s t st y Ft Wy Ut) as [Uy Ba].
    destruct (fmeets dim (apply_inv dim (s_loc st) (allowed_fed dim t)) lf) eqn:M.
    - apply fmeets_true in M. destruct M as (v & M1 & M2). destruct (Inv v M2) as (t' & Ht' & Ut' & A).
      assert (In t' tss) as Hi by (rewrite <- Ed; apply in_or_app; auto). destruct (next_fine dim q s K _ _ _ Ets t' Hi) as [Ft' _]. destruct (below_usable s t' st y Ft' Wy Ut') as [Uy' _].
      rewrite <- Ed in Fop. refine (FOP_app _ _ _ _ Fop t' Ht' Uy' Uy v _ _); unfold all_of in *; rewrite <- (proj1 Wy); assumption.
    - inv_bind H. destruct a1 as [r1' p1']. assert (r1' = None) as ->.
      { eapply IH; [|exact H0]. replace (extrapolate ext' s ns) with (after dim ext' s t st) by (unfold after; rewrite Eu; reflexivity).
        eapply within_covered; [exact B|exact Lp| |exact Ba|apply Cov; assumption]. rewrite after_loc by exact Ut.
        destruct (next_wf dim s B (s_loc st) a Wf Ha) as (tss' & E' & Tgt). rewrite Ets in E'. injection E' as <-. auto. }
      injection H as <-. eapply Next; [|exact El']. cbn [snd]. intros v. rewrite funion_sem. intros [?|?]; auto. }
  eapply (Loop tss [] (s0, fnone)); [reflexivity| |exact El].
  intros v Hv. apply fnone_sem in Hv. destruct Hv.
Qed.

Lemma search_again s q fuel fuel' r : built dim s -> clocks_ok dim q s -> det_search dim ext ord fuel s = Ok None -> det_search dim ext' ord' fuel' s = Ok r -> r = None.
Proof.
  intros B K E E'. unfold det_search in *. destruct (initial_state dim s) as [st|] eqn:Es; [|congruence].
  inv_bind E. destruct a as [r0 p]. injection E as ->. inv_bind E'. destruct a as [r1 p']. injection E' as ->.
  pose proof (det_helper_ok dim ext ord ord_members s fuel _ _ _ H) as [[_ G] C].
  assert (Hl0 : In (s_loc st) (all_locations dim s)).
  { unfold initial_state in Es. destruct (initial_location dim s) as [l0|] eqn:El; [|discriminate]. eapply initial_wf; [exact B|]. rewrite El. f_equal.
    unfold state_from_location in Es. destruct s; try (destruct (fempty _ _); [discriminate|]); injection Es as <-; reflexivity. }
  assert (Lp : locs_ok dim s p) by (eapply det_helper_locs; [exact ord_members|exact B| | |exact H]; [intros ? []|exact Hl0]).
  assert (Cl : forall x, In x p -> closed dim ext s p x). { intros x Hx. destruct (G x Hx) as [[]|]; auto. }
  eapply helper_again; [exact B|exact K|exact Lp|exact Cl| |exact H0]. eapply within_covered; [exact B|exact Lp| | |exact C]; [exact Hl0|]. split; auto.
Qed.

Lemma check_again q s fuel fuel' : built dim s -> clocks_ok dim q s -> forall r, check_determinism dim ext ord fuel s = Ok None -> check_determinism dim ext' ord' fuel' s = Ok r -> r = None.
Proof.
  induction 1 as [c ins outs id cc E|l r s Hl IHl Hr IHr E|l r s Hl IHl Hr IHr E|T S qc s HT IHT HS IHS E]; intros K x H H'.
  - cbn [check_determinism] in *. eapply search_again; eauto. eapply b_simple; eauto.
  - apply conjunction_new_inv in E. destruct E as (-> & _ & _). cbn [check_determinism clocks_ok] in *. inv_bind H.
    destruct a; [discriminate|]. destruct K as (K1 & K2 & _). inv_bind H'. rewrite (IHl K1 _ H0 H1) in H'. eauto.
  - apply composition_new_inv in E. destruct E as (_ & ins & outs & lo & ro & co & -> & _). cbn [check_determinism clocks_ok] in *. inv_bind H.
    destruct a; [discriminate|]. destruct K as (K1 & K2 & _). inv_bind H'. rewrite (IHl K1 _ H0 H1) in H'. eauto.
  - apply quotient_new_inv in E. destruct E as (n & ins & outs & -> & _). cbn [check_determinism clocks_ok] in *. inv_bind H.
    destruct a; [discriminate|]. destruct K as (K1 & K2 & _). inv_bind H'. rewrite (IHT K1 _ H0 H1) in H'. eauto.
Qed.
End Again.
