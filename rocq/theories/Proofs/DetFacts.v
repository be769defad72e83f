(** A successful determinism check: what the search has established. *)
From Coq Require Import List String ZArith QArith Bool Arith Lia Lqa.
From Verif Require Import Fed.Zone Fed.ZoneFacts Model.Base Model.Expr Model.Guard Model.Loc Model.Component Model.TS Model.Search
  Spec.StepSpec Spec.SystemSpec Spec.RunSpec Proofs.GuardFacts Proofs.StepFacts Proofs.SystemFacts Proofs.QuotientFacts Proofs.WfFacts Proofs.RunFacts.
Import ListNotations.
Local Open Scope Q_scope.

(** ** Loops *)
Lemma loopM_inl {A S R} (body : A -> S -> res (S + R)) (P : list A -> S -> Prop) :
  (forall done a s s', P done s -> body a s = Ok (inl s') -> P (done ++ [a]) s') ->
  forall l done s s', P done s -> loopM body l s = Ok (inl s') -> P (done ++ l) s'.
Proof.
  intros Hstep. induction l as [|a l IH]; intros done s s' HP E; simpl in E.
  - injection E as <-. rewrite app_nil_r. exact HP.
  - inv_bind E. destruct a0 as [s1|r]; [|discriminate].
    replace (done ++ a :: l) with ((done ++ [a]) ++ l) by (rewrite <- app_assoc; reflexivity).
    eapply IH; [|exact E]. eapply Hstep; eauto.
Qed.
(** Leaving a loop early: some body produced the result from a state satisfying [P]. *)
Lemma loopM_inr {A S R} (body : A -> S -> res (S + R)) (P : list A -> S -> Prop) (Q : R -> Prop) :
  forall l, 
  (forall done a s s', P done s -> body a s = Ok (inl s') -> P (done ++ [a]) s') ->
  (forall done a s r, In a l -> P done s -> body a s = Ok (inr r) -> Q r) ->
  forall done s r, P done s -> loopM body l s = Ok (inr r) -> Q r.
Proof.
  induction l as [|a l IH]; intros Hstep Hend done s r HP E; simpl in E; [discriminate|].
  inv_bind E. destruct a0 as [s1|r1].
  - eapply IH; [exact Hstep| |eapply Hstep; eauto|exact E]. intros. eapply Hend; eauto. right; assumption.
  - injection E as <-. eapply Hend; eauto. left; reflexivity.
Qed.

Lemma FOP_snoc {A} (R : A -> A -> Prop) l a : ForallOrdPairs R l -> (forall x, In x l -> R x a) -> ForallOrdPairs R (l ++ [a]).
Proof.
  induction 1 as [|x l Hx Hl IH]; intros Ha; simpl.
  - constructor; [constructor|constructor].
  - constructor.
    + apply Forall_app. split; [exact Hx|]. constructor; [apply Ha; left; reflexivity|constructor].
    + apply IH. intros y Hy. apply Ha. right; exact Hy.
Qed.

(** ** States and lists *)
Section Det.
Variable dim : nat.
Variable ext : ts -> loctree -> fed -> fed.
Variable ord : list state -> list string -> list string.
Hypothesis ext_extensive : forall s l f v, fsem dim f v -> fsem dim (ext s l f) v.
Hypothesis ord_members : forall p l a, In a (ord p l) <-> In a l.

Definition covered (p : list state) (st : state) : Prop := exists x, In x p /\ state_subset dim st x = true.
Lemma in_list_covered st p : state_in_list dim st p = true <-> covered p st.
Proof. unfold state_in_list, covered. rewrite existsb_exists. reflexivity. Qed.
Lemma covered_incl p p' st : incl p p' -> covered p st -> covered p' st.
Proof. intros I (x & Hx & E). exists x. auto. Qed.
Lemma lt_eqb_refl l : lt_eqb l l = true.
Proof. unfold lt_eqb. rewrite locid_eqb_refl. destruct (lt_type l); reflexivity. Qed.
Lemma state_subset_refl st : state_subset dim st st = true.
Proof. unfold state_subset. rewrite lt_eqb_refl. simpl. apply fsubset_true. auto. Qed.

(** The successor computed for [t] from [x]. *)
Definition usable (t : transition) (x : state) : Prop := fst (use_transition dim t x) = true.
Definition after (s : ts) (t : transition) (x : state) : state := extrapolate ext s (snd (use_transition dim t x)).
Definition all_of (t : transition) (x : state) : fed := apply_inv dim (s_loc x) (allowed_fed dim t).

Definition act_closed (s : ts) (p : list state) (x : state) (a : string) : Prop :=
  exists ts, next_transitions dim s (s_loc x) a = Ok ts /\
    (forall t, In t ts -> usable t x -> covered p (after s t x)) /\
    ForallOrdPairs (fun t u => usable t x -> usable u x -> forall v, fsem dim (all_of t x) v -> ~ fsem dim (all_of u x) v) ts.
Definition closed (s : ts) (p : list state) (x : state) : Prop := forall a, is_action s a -> act_closed s p x a.

Lemma act_closed_incl s p p' x a : incl p p' -> act_closed s p x a -> act_closed s p' x a.
Proof. intros I (ts & E & H1 & H2). exists ts. split; [exact E|]. split; [|exact H2]. intros. eapply covered_incl; eauto. Qed.

(** What a call that reports no failure guarantees about the passed list. *)
Definition grown (s : ts) (p p' : list state) : Prop := incl p p' /\ forall x, In x p' -> In x p \/ closed s p' x.
Lemma grown_refl s p : grown s p p.
Proof. split; [apply incl_refl|auto]. Qed.
Lemma grown_trans s p1 p2 p3 : grown s p1 p2 -> grown s p2 p3 -> grown s p1 p3.
Proof.
  intros [I1 G1] [I2 G2]. split; [eapply incl_tran; eauto|]. intros x Hx.
  destruct (G2 x Hx) as [H|H]; [|auto]. destruct (G1 x H) as [H'|H']; [auto|]. right.
  intros a Ha. eapply act_closed_incl; eauto.
Qed.

Lemma det_helper_ok s fuel : forall st p p', det_helper dim ext ord fuel s st p = Ok (None, p') ->
  grown s p p' /\ covered p' st.
Proof.
  induction fuel as [|f IH]; intros st p p' E; cbn [det_helper] in E; [discriminate|].
  destruct (state_in_list dim st p) eqn:Ein.
  - injection E as <-. split; [apply grown_refl|]. apply in_list_covered; exact Ein.
  - inv_bind E. destruct a as [pf|[o q]]; [injection E as ->|].
    2:{ injection E as -> ->. exfalso.
        assert (X : fst (@None (string * state), p') <> None); [|apply X; reflexivity].
        refine (loopM_inr (det_action dim ext s (det_helper dim ext ord f s) st) (fun _ _ => True) (fun r => fst r <> None) _ _ _ [] _ _ I H); [auto|].
        intros done a s0 r _ _ Eb. unfold det_action in Eb. inv_bind Eb. inv_bind Eb. destruct a1 as [[? ?]|r1]; [discriminate|].
        injection Eb as ->.
        refine (loopM_inr (det_body dim ext s (det_helper dim ext ord f s) st a) (fun _ _ => True) (fun r => fst r <> None) _ _ _ [] _ _ I H1); [auto|].
        intros done' t [pa lf] r' _ _ Et. unfold det_body in Et. destruct (use_transition dim t st) as [ok ns].
        destruct ok; [|discriminate]. destruct (fmeets _ _ _).
        - injection Et as <-. simpl. discriminate.
        - inv_bind Et. destruct a1 as [r1 p1]. destruct r1; [|discriminate]. injection Et as <-. simpl. discriminate. }
    set (p0 := p ++ [st]) in *.
    pose (P := fun (done : list string) (q : list state) => incl p0 q /\ (forall x, In x q -> In x p0 \/ closed s q x) /\
             forall a, In a done -> act_closed s q st a).
    assert (PF : P ([] ++ ord p0 (ts_actions s)) p').
    { eapply (loopM_inl _ P); [|split; [apply incl_refl|split; [auto|intros a []]]|exact H].
      clear H p'. intros done a q q' (I & C & D) Eb. unfold det_action in Eb. inv_bind Eb. inv_bind Eb.
      destruct a1 as [[q1 lf]|]; [|discriminate]. injection Eb as ->. rename a0 into tss.
      pose (P2 := fun (dt : list transition) (acc : list state * fed) =>
         grown s q (fst acc) /\ (forall t, In t dt -> usable t st -> covered (fst acc) (after s t st)) /\
         (forall t, In t dt -> usable t st -> forall v, fsem dim (all_of t st) v -> fsem dim (snd acc) v) /\
         ForallOrdPairs (fun t u => usable t st -> usable u st -> forall v, fsem dim (all_of t st) v -> ~ fsem dim (all_of u st) v) dt).
      assert (PT : P2 ([] ++ tss) (q', lf)).
      { refine (loopM_inl _ P2 _ tss [] (q, fnone) (q', lf) _ H0); [|split; [apply grown_refl|split; [intros t []|split; [intros t []|constructor]]]].
        clear H0 q' lf. intros dt t [qa lf] [qb lf'] (G & Cv & L & O) Et. unfold det_body in Et.
        destruct (use_transition dim t st) as [ok ns] eqn:Eu.
        destruct ok.
        - destruct (fmeets dim (apply_inv dim (s_loc st) (allowed_fed dim t)) lf) eqn:M; [discriminate|].
          inv_bind Et. destruct a0 as [[e|] q1]; [discriminate|]. injection Et as -> <-.
          destruct (IH _ _ _ H0) as [G1 C1]. unfold P2. cbn [fst snd] in *.
          split; [eapply grown_trans; eauto|]. split; [|split].
          + intros t' Ht' U. apply in_app_or in Ht'. destruct Ht' as [Ht'|[->|[]]].
            * eapply covered_incl; [apply G1|]. apply Cv; assumption.
            * unfold after. rewrite Eu. exact C1.
          + intros t' Ht' U v Hv. rewrite funion_sem. apply in_app_or in Ht'. destruct Ht' as [Ht'|[->|[]]]; [left; eapply L; eauto|right; exact Hv].
          + apply FOP_snoc; [exact O|]. intros x Hx U1 U2 v Hv1 Hv2. rewrite fmeets_false in M. eapply (M v); [exact Hv2|].
            eapply L; eauto.
        - injection Et as -> <-. unfold P2. cbn [fst snd] in *.
          assert (NU : ~ usable t st) by (unfold usable; rewrite Eu; simpl; discriminate).
          split; [exact G|]. split; [|split].
          + intros t' Ht' U. apply in_app_or in Ht'. destruct Ht' as [Ht'|[->|[]]]; [auto|contradiction].
          + intros t' Ht' U. apply in_app_or in Ht'. destruct Ht' as [Ht'|[->|[]]]; [apply L; auto|contradiction].
          + apply FOP_snoc; [exact O|]. intros x Hx U1 U2. contradiction. }
      simpl in PT. destruct PT as (G & Cv & _ & O). cbn [fst snd] in *.
      unfold P. split; [eapply incl_tran; [exact I|apply G]|]. split.
      - intros x Hx. destruct G as [I2 G]. destruct (G x Hx) as [Hq|Hq]; [|auto].
        destruct (C x Hq) as [Hp|Hp]; [auto|]. right. intros b Hb. eapply act_closed_incl; eauto.
      - intros b Hb. apply in_app_or in Hb. destruct Hb as [Hb|[<-|[]]].
        + eapply act_closed_incl; [apply G|]. auto.
        + exists tss. auto. }
    simpl in PF. destruct PF as (I & C & D).
    assert (CS : closed s p' st).
    { intros a Ha. apply D. apply ord_members. apply has_action_spec in Ha. unfold has_action in Ha. apply sin_In in Ha. exact Ha. }
    split; [split|].
    + eapply incl_tran; [|exact I]. unfold p0. apply incl_appl, incl_refl.
    + intros x Hx. destruct (C x Hx) as [Hp|Hp]; [|auto]. unfold p0 in Hp. apply in_app_or in Hp.
      destruct Hp as [Hp|[<-|[]]]; auto.
    + exists st. split; [apply I; unfold p0; apply in_or_app; right; left; reflexivity|apply state_subset_refl].
Qed.

(** ** From zones to valuations *)
Lemma able_usable s q l x t v : clocks_ok dim q s -> In l (all_locations dim s) -> lt_eqb l (s_loc x) = true ->
  tr_fine dim t -> fsem dim (s_zone x) v -> able dim l t v ->
  usable t x /\ forall d, 0 <= d -> inv_at dim (t_target t) (vdelay (run_updates (t_updates t) v) d) ->
     fsem dim (s_zone (after s t x)) (vdelay (run_updates (t_updates t) v) d).
Proof.
  intros K Hl El [U C] Hz (A1 & A2 & A3).
  destruct (use_transition dim t x) as [b x'] eqn:Eu.
  destruct (use_transition_zone dim t x b x' U Eu) as (H1 & H2 & H3).
  assert (Hb : b = true).
  { apply H2. exists (run_updates (t_updates t) v), v, 0. split; [exact Hz|]. split; [exact A2|]. split; [lra|].
    split; [symmetry; apply vdelay_zero; reflexivity|exact A3]. }
  unfold usable, after. rewrite Eu. split; [exact Hb|]. intros d Hd Hi. unfold extrapolate. cbn [s_zone snd].
  apply ext_extensive. apply H3; [exact Hb|]. exists v, d. split; [exact Hz|]. split; [exact A2|]. split; [exact Hd|].
  split; [reflexivity|exact Hi].
Qed.

Lemma after_loc s t x : usable t x -> s_loc (after s t x) = t_target t.
Proof.
  unfold usable, after, extrapolate, use_transition. destruct (fempty dim (apply_guards dim t (s_zone x))); simpl; [discriminate|auto].
Qed.

Definition covers (p : list state) (l : loctree) (v : val) : Prop :=
  exists x, In x p /\ lt_eqb l (s_loc x) = true /\ fsem dim (s_zone x) v.

Lemma lt_eqb_id a b : lt_eqb a b = true -> lt_id a = lt_id b.
Proof. unfold lt_eqb. rewrite andb_true_iff. intros [H _]. apply locid_eqb_eq; exact H. Qed.

Lemma covers_covered p st v : covered p st -> fsem dim (s_zone st) v -> covers p (s_loc st) v.
Proof.
  intros (x & Hx & E) Hv. unfold state_subset in E. apply andb_true_iff in E. destruct E as [E1 E2].
  exists x. split; [exact Hx|]. split; [exact E1|]. rewrite fsubset_true in E2. auto.
Qed.
Lemma covers_ext p l v w : veq v w -> covers p l v -> covers p l w.
Proof. intros E (x & Hx & El & H). exists x. split; [exact Hx|]. split; [exact El|]. eapply fsem_ext; eauto. Qed.

(** The locations of states in a passed list are locations of the system. *)
Definition locs_ok (s : ts) (p : list state) : Prop := forall x, In x p -> In (s_loc x) (all_locations dim s).

Lemma det_helper_locs s : built dim s -> forall fuel st p r p', locs_ok s p -> In (s_loc st) (all_locations dim s) ->
  det_helper dim ext ord fuel s st p = Ok (r, p') -> locs_ok s p'.
Proof.
  intros B. induction fuel as [|f IH]; intros st p r p' Hp Hst E; cbn [det_helper] in E; [discriminate|].
  destruct (state_in_list dim st p); [injection E as _ <-; exact Hp|].
  inv_bind E.
  assert (Hp0 : locs_ok s (p ++ [st])). { intros x Hx. apply in_app_or in Hx. destruct Hx as [Hx|[<-|[]]]; auto. }
  assert (Body : forall tss, (forall t, In t tss -> In (t_target t) (all_locations dim s)) -> forall b (acc : list state * fed),
    locs_ok s (fst acc) -> forall z, loopM (det_body dim ext s (det_helper dim ext ord f s) st b) tss acc = Ok z ->
    match z with inl acc' => locs_ok s (fst acc') | inr r => locs_ok s (snd r) end).
  { induction tss as [|t tss IHt]; intros Ht b acc Hacc z Ez; cbn [loopM] in Ez; [injection Ez as <-; exact Hacc|].
    inv_bind Ez. assert (X : match a0 with inl acc' => locs_ok s (fst acc') | inr r => locs_ok s (snd r) end).
    { unfold det_body in H0. destruct acc as [pa lf]. destruct (use_transition dim t st) as [ok ns] eqn:Eu.
      destruct ok; [|injection H0 as <-; exact Hacc]. destruct (fmeets _ _ _); [injection H0 as <-; exact Hacc|].
      inv_bind H0. destruct a1 as [r1 p1]. assert (X : locs_ok s p1).
      { eapply IH; [exact Hacc| |exact H1]. unfold extrapolate; cbn [s_loc].
        replace (s_loc ns) with (t_target t); [apply Ht; left; reflexivity|].
        unfold use_transition in Eu. destruct (fempty _ _) in Eu; [discriminate|]. injection Eu as _ <-. reflexivity. }
      destruct r1; injection H0 as <-; exact X. }
    destruct a0 as [acc'|r1]; [|injection Ez as <-; exact X]. eapply IHt; [|exact X|exact Ez]. intros; apply Ht; right; assumption. }
  assert (Acts : forall bs q, (forall b, In b bs -> is_action s b) -> locs_ok s q -> forall z,
    loopM (det_action dim ext s (det_helper dim ext ord f s) st) bs q = Ok z ->
    match z with inl q' => locs_ok s q' | inr r => locs_ok s (snd r) end).
  { induction bs as [|b bs IHb]; intros q Hbs Hq z Ez; cbn [loopM] in Ez; [injection Ez as <-; exact Hq|].
    inv_bind Ez. unfold det_action in H0. inv_bind H0.
    destruct (next_wf dim s B (s_loc st) b Hst (Hbs b (or_introl eq_refl))) as (tss & Ets & Tgt).
    rewrite H1 in Ets. injection Ets as ->. inv_bind H0. pose proof (Body tss Tgt b (q, fnone) Hq _ H2) as X.
    destruct a1 as [[q1 lf]|r1].
    - injection H0 as <-. eapply IHb; [|exact X|exact Ez]. intros; apply Hbs; right; assumption.
    - injection H0 as <-. injection Ez as <-. exact X. }
  eapply Acts in H; [|intros b Hb; apply ord_members in Hb; apply has_action_spec; unfold has_action; apply sin_In; exact Hb|exact Hp0].
  destruct a as [q|r1]; [injection E as _ <-; exact H|]. destruct r1 as [r1 q1]. injection E as _ <-. exact H.
Qed.

Lemma det_covers s q l0 p : built dim s -> clocks_ok dim q s -> initial_location dim s = Some l0 ->
  locs_ok s p -> (forall x, In x p -> closed s p x) -> (forall v, val_ok dim v -> covers p l0 v) ->
  forall l w, entry dim s l w -> forall d, 0 <= d -> inv_at dim l (vdelay w d) -> covers p l (vdelay w d).
Proof.
  intros B K Hi Lp Cl C0 l w E. induction E as [l Hl|l w e a t E IH He Ho Ha]; intros d Hd Hinv.
  - rewrite Hl in Hi. injection Hi as ->. apply C0. eapply inv_at_ok; eauto.
  - pose proof Ho as (Hact & ts & Ets & Ht). pose proof (entry_wf dim s B l w E) as Hwf.
    destruct (IH e He (proj1 Ha)) as (x & Hx & El & Hz).
    destruct (Cl x Hx a Hact) as (ts' & Ets' & Cov & _).
    assert (l = s_loc x) as -> by (eapply location_inj; eauto using lt_eqb_id).
    rewrite Ets in Ets'. injection Ets' as <-.
    destruct (next_fine dim q s K _ _ _ Ets t Ht) as [F _].
    destruct (able_usable s q _ x t _ K Hwf El F Hz Ha) as [U Z].
    pose proof (Cov t Ht U) as Ct. specialize (Z d Hd Hinv).
    rewrite <- (after_loc s t x U). eapply covers_covered; eauto.
Qed.

Lemma FOP_map {A} (R R' : A -> A -> Prop) l : (forall a b, In a l -> In b l -> R a b -> R' a b) -> ForallOrdPairs R l -> ForallOrdPairs R' l.
Proof.
  intros H F. induction F as [|a l Ha Hl IH]; constructor.
  - rewrite Forall_forall in *. intros b Hb. apply H; [left; reflexivity|right; exact Hb|auto].
  - apply IH. intros x y Hx Hy. apply H; right; assumption.
Qed.

(** The guarantee of a successful search. *)
Lemma det_search_sound s q fuel : built dim s -> clocks_ok dim q s -> det_search dim ext ord fuel s = Ok None ->
  forall l w d v a ts, entry dim s l w -> 0 <= d -> inv_at dim l (vdelay w d) -> veq v (vdelay w d) -> is_action s a ->
    next_transitions dim s l a = Ok ts -> ForallOrdPairs (fun t u => ~ (able dim l t v /\ able dim l u v)) ts.
Proof.
  intros B K E l w d v a ts En Hd Hinv Ev Ha Ets. unfold det_search in E.
  destruct (initial_state dim s) as [st|] eqn:Es.
  - inv_bind E. destruct a0 as [r p]. injection E as ->.
    assert (Hl0 : initial_location dim s = Some (s_loc st)).
    { unfold initial_state in Es. destruct (initial_location dim s) as [l0|]; [|discriminate]. 
      unfold state_from_location in Es. destruct s; try (destruct (fempty _ _); [discriminate|]); injection Es as <-; reflexivity. }
    pose proof (det_helper_ok s fuel _ _ _ H) as [[_ G] C].
    assert (Lp : locs_ok s p). { eapply det_helper_locs; [exact B| | |exact H]; [intros ? []|]. cbn [s_loc]. eapply initial_wf; eauto. }
    assert (Cl : forall x, In x p -> closed s p x). { intros x Hx. destruct (G x Hx) as [[]|]; auto. }
    assert (C0 : forall v, val_ok dim v -> covers p (s_loc st) v).
    { intros v0 Hv0. apply (covers_covered p (mkS (s_loc st) funiv)); [exact C|]. apply funiv_sem; exact Hv0. }
    pose proof (entry_wf dim s B l w En) as Hwf.
    destruct (det_covers s q (s_loc st) p B K Hl0 Lp Cl C0 l w En d Hd Hinv) as (x & Hx & El & Hz).
    destruct (Cl x Hx a Ha) as (ts' & Ets' & _ & O).
    assert (l = s_loc x) by (eapply location_inj; eauto using lt_eqb_id). subst l.
    rewrite Ets in Ets'. injection Ets' as <-. eapply FOP_map; [|exact O].
    intros t u Ht Hu R [At Au].
    destruct (next_fine dim q s K _ _ _ Ets t Ht) as [Ft _]. destruct (next_fine dim q s K _ _ _ Ets u Hu) as [Fu _].
    assert (Hzv : fsem dim (s_zone x) v). { eapply fsem_ext; [symmetry; exact Ev|exact Hz]. }
    destruct (able_usable s q _ x t v K Hwf El Ft Hzv At) as [Ut _]. destruct (able_usable s q _ x u v K Hwf El Fu Hzv Au) as [Uu _].
    apply (R Ut Uu v); unfold all_of; rewrite apply_inv_sem, allowed_fed_sem by (apply Ft || apply Fu); unfold able in *; tauto.
  - (* no initial state: the initial location has no reachable valuation *)
    exfalso. assert (X : forall l w, entry dim s l w -> forall d, 0 <= d -> inv_at dim l (vdelay w d) -> False).
    { intros l1 w1 E1. induction E1 as [l1 Hi|l1 w1 e b t E1 IH He Ho Hab]; intros d1 Hd1 Hi1.
      - unfold initial_state in Es. rewrite Hi in Es. unfold state_from_location in Es.
        assert (Z : fempty dim (apply_inv dim l1 (finit dim)) = false).
        { apply fempty_false. exists (vdelay zero_val d1). apply apply_inv_sem. split; [|exact Hi1].
          apply finit_sem. exists d1. split; [exact Hd1|]. split; [reflexivity|]. intros i Hi0 _. rewrite vdelay_S by exact Hi0. unfold zero_val. ring. }
        rewrite Z in Es. destruct s; discriminate.
      - apply (IH e He). apply Hab. }
    exact (X l w En d Hd Hinv).
Qed.
End Det.
