(** Reachability: matching of partial locations, soundness of "unreachable", realisation of paths. *)
From Coq Require Import List String ZArith QArith Bool Arith Lia Lqa.
From Verif Require Import Fed.Zone Fed.ZoneFacts Model.Base Model.Expr Model.Guard Model.Loc Model.Component Model.TS Model.Search
  Spec.StepSpec Spec.SystemSpec Spec.RunSpec Spec.ReachSpec Proofs.GuardFacts Proofs.StepFacts Proofs.SystemFacts Proofs.QuotientFacts Proofs.WfFacts Proofs.RunFacts
  Proofs.DetFacts.
Import ListNotations.
Local Open Scope Q_scope.

(** ** Matching *)
Lemma compare_spec a : forall b, named a -> named b ->
  exists r, compare_partial a b = Ok r /\ (r = true <-> fits (lt_id a) (lt_id b)).
Proof.
  induction a as [i f y|i f y l IHl r IHr]; intros b Na Nb.
  - destruct i; simpl in Na; try tauto; destruct b as [j g z|j g z l' r']; cbn [compare_partial lt_id];
    (destruct j; simpl in Nb; try tauto;
     try (destruct Nb as ([?|[?|?]] & _); discriminate);
     try (eexists; split; [reflexivity|]; split; [discriminate|inversion 1]);
     try (eexists; split; [reflexivity|]; split; [constructor|reflexivity])).
    eexists; split; [reflexivity|]. rewrite String.eqb_eq. split; [intros ->; constructor|inversion 1; reflexivity].
  - simpl in Na. destruct Na as (Ni & Nl & Nr). destruct b as [j g z|j g z l' r'].
    + cbn [compare_partial lt_id]. destruct Ni as [->|[->| ->]]; destruct j; simpl in Nb; try tauto;
      (eexists; split; [reflexivity|]; split; [discriminate|inversion 1]).
    + simpl in Nb. destruct Nb as (Nj & Nl' & Nr').
      destruct (IHl l' Nl Nl') as (x & Ex & Hx). destruct (IHr r' Nr Nr') as (w & Ew & Hw).
      cbn [compare_partial lt_id]. 
      destruct Ni as [->|[->| ->]], Nj as [->|[->| ->]];
      try (eexists; split; [reflexivity|]; split; [discriminate|inversion 1]);
      (rewrite Ex; destruct x; cbn [bind];
       [exists w; split; [exact Ew|]; rewrite Hw; split; [intros; constructor; [apply Hx; reflexivity|assumption]|inversion 1; subst; assumption]
       |exists false; split; [reflexivity|]; split; [discriminate|inversion 1; subst; apply Hx; assumption]]).
Qed.
Lemma fits_sym a b : fits a b -> fits b a.
Proof. induction 1; constructor; assumption. Qed.
Lemma fits_refl a : no_special a -> fits a a.
Proof. induction a; simpl; intros; try tauto; constructor; tauto. Qed.
(** Without wildcards only the location itself fits. *)
Lemma fits_exact a b : is_partial a = false -> is_partial b = false -> fits a b -> a = b.
Proof.
  intros Ha Hb F. revert Ha Hb. induction F; simpl; intros Ha Hb; try discriminate; try reflexivity;
  apply orb_false_iff in Ha, Hb; f_equal; [apply IHF1|apply IHF2|apply IHF1|apply IHF2|apply IHF1|apply IHF2]; tauto.
Qed.

Lemma compose_named dim a b c p : lt_compose dim a b c = Ok p -> named a -> named b -> named p.
Proof. unfold lt_compose. destruct c; simpl; intros E A B; try discriminate; injection E as <-; simpl; auto 6. Qed.

Lemma location_named dim s : built dim s -> forall l, In l (all_locations dim s) -> named l.
Proof.
  induction 1 as [c ins outs id cc E|l r s Bl IHl Br IHr E|l r s Bl IHl Br IHr E|T S q s BT IHT BS IHS E]; intros p Hp.
  - cbn [all_locations] in Hp. destruct (compile_inv _ _ _ _ _ _ E) as (ls & es & E1 & _ & E2 & _). rewrite E2 in Hp.
    apply keep_last_in in Hp. destruct (mapM_in _ _ _ E1) as [_ M]. destruct (M _ Hp) as (x & Hx & Ex).
    unfold lt_simple in Ex. inv_bind Ex. injection Ex as <-. exact I.
  - apply conjunction_new_inv in E. destruct E as (-> & _ & _). cbn [all_locations] in Hp.
    apply in_all_compose in Hp; [|left; reflexivity]. destruct Hp as (a & b & A & B & Ep). eapply compose_named; eauto.
  - apply composition_new_inv in E. destruct E as (_ & ins & outs & lo & ro & co & -> & _). cbn [all_locations] in Hp.
    apply in_all_compose in Hp; [|right; reflexivity]. destruct Hp as (a & b & A & B & Ep). eapply compose_named; eauto.
  - apply quotient_new_inv in E. destruct E as (n & ins & outs & -> & _). cbn [all_locations] in Hp.
    apply in_app_or in Hp. destruct Hp as [Hp|[<-|[<-|[]]]]; [|exact I|exact I].
    apply in_map_iff in Hp. destruct Hp as ([u w] & <- & Hp). apply in_prod_iff in Hp. cbn [fst snd lt_quotient named lt_id].
    split; [auto|]. split; [apply IHT|apply IHS]; tauto.
Qed.

Lemma pattern_named dim s : built dim s -> forall p, pattern dim s p -> named p.
Proof.
  induction 1 as [c ins outs id cc E|l r s Bl IHl Br IHr E|l r s Bl IHl Br IHr E|T S q s BT IHT BS IHS E]; intros p Hp.
  - destruct Hp as [->|Hp]; [exact I|]. eapply location_named; [econstructor; exact E|exact Hp].
  - apply conjunction_new_inv in E. destruct E as (-> & _ & _). destruct Hp as (a & b & A & B & Ep). eapply compose_named; eauto.
  - apply composition_new_inv in E. destruct E as (_ & ins & outs & lo & ro & co & -> & _). destruct Hp as (a & b & A & B & Ep). eapply compose_named; eauto.
  - apply quotient_new_inv in E. destruct E as (n & ins & outs & -> & _). destruct Hp as (a & b & A & B & ->).
    cbn [lt_quotient named lt_id]. auto 6.
Qed.

(** Who is at a location fitting the pattern is inside the pattern's invariant. *)
Lemma pattern_inv dim s : built dim s -> forall l p v, In l (all_locations dim s) -> pattern dim s p ->
  fits (lt_id l) (lt_id p) -> inv_at dim l v -> inv_at dim p v.
Proof.
  induction 1 as [c ins outs id cc E|x y s Bl IHl Br IHr E|x y s Bl IHl Br IHr E|T S q s BT IHT BS IHS E]; intros l p v Hl Hp F Hv.
  - assert (B : built dim (TSimple cc)) by (econstructor; exact E). destruct Hp as [->|Hp].
    + eapply inv_at_ok; eauto.
    + assert (Np := location_named _ _ B p Hp). cbn [all_locations] in Hl.
      destruct (compile_inv _ _ _ _ _ _ E) as (ls & es & E1 & _ & E2 & _).
      assert (S : forall l, In l (cc_locs cc) -> exists n, lt_id l = LSimple n).
      { intros u Hu. rewrite E2 in Hu. apply keep_last_in in Hu. destruct (mapM_in _ _ _ E1) as [_ M]. destruct (M _ Hu) as (w & _ & Ew).
        apply lt_simple_id in Ew. destruct Ew as [-> _]. eauto. }
      destruct (S _ Hl) as [n En], (S _ Hp) as [m Em]. rewrite En, Em in F. inversion F; subst.
      rewrite <- (location_inj _ _ B l p Hl Hp); [exact Hv|congruence].
  - apply conjunction_new_inv in E. destruct E as (-> & _ & _). cbn [all_locations] in Hl.
    apply in_all_compose in Hl; [|left; reflexivity]. destruct Hl as (a & b & A & B & El). destruct Hp as (a' & b' & A' & B' & Ep).
    destruct (compose_id _ _ _ _ _ El) as [[_ Il]|[? _]]; [|discriminate].
    destruct (compose_id _ _ _ _ _ Ep) as [[_ Ip]|[? _]]; [|discriminate].
    rewrite Il, Ip in F. inversion F; subst.
    apply lt_compose_spec in El; [|left; reflexivity]. apply lt_compose_spec in Ep; [|left; reflexivity].
    apply (proj2 (proj2 (proj2 Ep))). apply (proj2 (proj2 (proj2 El))) in Hv. destruct Hv. split; [eapply IHl|eapply IHr]; eauto.
  - apply composition_new_inv in E. destruct E as (_ & ins & outs & lo & ro & co & -> & _). cbn [all_locations] in Hl.
    apply in_all_compose in Hl; [|right; reflexivity]. destruct Hl as (a & b & A & B & El). destruct Hp as (a' & b' & A' & B' & Ep).
    destruct (compose_id _ _ _ _ _ El) as [[? _]|[_ Il]]; [discriminate|].
    destruct (compose_id _ _ _ _ _ Ep) as [[? _]|[_ Ip]]; [discriminate|].
    rewrite Il, Ip in F. inversion F; subst.
    apply lt_compose_spec in El; [|right; reflexivity]. apply lt_compose_spec in Ep; [|right; reflexivity].
    apply (proj2 (proj2 (proj2 Ep))). apply (proj2 (proj2 (proj2 El))) in Hv. destruct Hv. split; [eapply IHl|eapply IHr]; eauto.
  - apply quotient_new_inv in E. destruct E as (n & ins & outs & -> & _). destruct Hp as (a & b & A & B & ->).
    eapply inv_at_ok; eauto.
Qed.

(** ** The visited map *)
Lemma assoc_loc_cons {V} j k (w : V) m : assoc_loc j ((k, w) :: m) = if locid_eqb j k then Some w else assoc_loc j m.
Proof. unfold assoc_loc. cbn [find fst]. destruct (locid_eqb j k); reflexivity. Qed.
Lemma zones_set V i z j : zones_of (set_zones V i z) j = if locid_eqb i j then z else zones_of V j.
Proof.
  unfold zones_of, set_zones. rewrite assoc_loc_cons. destruct (locid_eqb j i) eqn:E.
  - apply locid_eqb_eq in E. subst. rewrite locid_eqb_refl. reflexivity.
  - assert (N : locid_eqb i j = false).
    { destruct (locid_eqb i j) eqn:E'; [|reflexivity]. apply locid_eqb_eq in E'. subst. rewrite locid_eqb_refl in E. discriminate. }
    rewrite N. replace (assoc_loc j (filter (fun p => negb (locid_eqb i (fst p))) V)) with (assoc_loc j V); [reflexivity|].
    induction V as [|[k w] V IH]; [reflexivity|]. rewrite assoc_loc_cons. cbn [filter fst]. destruct (locid_eqb i k) eqn:Ek; cbn [negb].
    + apply locid_eqb_eq in Ek. subst. rewrite E. exact IH.
    + rewrite assoc_loc_cons, IH. reflexivity.
Qed.

Section Reach.
Variable dim : nat.
Variable s : ts.
Variable q : nat.
Variable xext : loctree -> fed -> fed.
Variable target : state.
Hypothesis Hbuilt : built dim s.
Hypothesis Hclocks : clocks_ok dim q s.

Lemma offered_fine l a t : offered dim s l a t -> updates_ok dim (t_updates t) /\ no_conflict (t_updates t).
Proof. intros (_ & ts & E & Ht). destruct (next_fine dim q s Hclocks l a ts E t Ht) as [F _]. exact F. Qed.
Lemma offered_loc l a t : In l (all_locations dim s) -> offered dim s l a t -> In (t_target t) (all_locations dim s).
Proof. intros Hl (Ha & ts & E & Ht). destruct (next_wf dim s Hbuilt l a Hl Ha) as (ts' & E' & T). rewrite E in E'. injection E' as <-. auto. Qed.

Definition cov (V : visited) (l : loctree) (v : val) : Prop := exists z, In z (zones_of V (lt_id l)) /\ fsem dim z v.
Definition vsub (V V' : visited) : Prop := forall i z, In z (zones_of V i) -> exists z', In z' (zones_of V' i) /\ forall v, fsem dim z v -> fsem dim z' v.
Lemma vsub_refl V : vsub V V. Proof. intros i z H. eauto. Qed.
Lemma vsub_trans V1 V2 V3 : vsub V1 V2 -> vsub V2 V3 -> vsub V1 V3.
Proof. intros A B i z H. destruct (A _ _ H) as (z1 & H1 & I1). destruct (B _ _ H1) as (z2 & H2 & I2). exists z2. auto. Qed.
Lemma cov_mono V V' l v : vsub V V' -> cov V l v -> cov V' l v.
Proof. intros S (z & Hz & Hv). destruct (S _ _ Hz) as (z' & Hz' & I). exists z'. auto. Qed.

(** Where [t] can lead from the zone of [x], waiting included. *)
Definition succ (x : state) (t : transition) (v2 : val) : Prop :=
  exists v d, fsem dim (s_zone x) v /\ fsem dim (t_guard t) v /\ 0 <= d /\
    veq v2 (vdelay (run_updates (t_updates t) v) d) /\ inv_at dim (t_target t) v2.

Definition prov (X : list state) (V : visited) : Prop :=
  forall i z, In z (zones_of V i) -> exists x, In x X /\ lt_id (s_loc x) = i /\ s_zone x = z.

Hypothesis xext_extensive : forall l f v, fsem dim f v -> fsem dim (xext l f) v.

Lemma take_ok sp a t F V F' V' : In (s_loc (sp_state sp)) (all_locations dim s) -> offered dim s (s_loc (sp_state sp)) a t ->
  take_transition dim s xext sp a t (F, V) = (F', V') ->
  vsub V V' /\ (exists N, F' = F ++ N /\ (forall p, In p N -> In (s_loc (sp_state p)) (all_locations dim s)) /\
     forall X, prov X V -> prov (X ++ map sp_state N) V') /\
  forall v, succ (sp_state sp) t v -> cov V' (t_target t) v.
Proof.
  intros Hl Ho E. destruct (offered_fine _ _ _ Ho) as [Hu Hn]. pose proof (offered_loc _ _ _ Hl Ho) as Ht.
  unfold take_transition in E. destruct (use_transition dim t (sp_state sp)) as [ok ns] eqn:Eu.
  destruct (use_transition_zone dim t _ ok ns Hu Eu) as (Hloc & Hb & Hz).
  destruct ok.
  2:{ injection E as <- <-. split; [apply vsub_refl|]. split.
      - exists []. rewrite app_nil_r. split; [reflexivity|]. split; [intros p []|]. intros X P. simpl. rewrite app_nil_r. exact P.
      - intros v (w & d & H). exfalso. assert (X : false = true) by (apply Hb; exists v, w, d; exact H). discriminate. }
  specialize (Hloc eq_refl). specialize (Hz eq_refl). cbn [s_loc s_zone] in E. rewrite Hloc in E.
  assert (Cz : forall v, succ (sp_state sp) t v -> fsem dim (xext (t_target t) (s_zone ns)) v).
  { intros v Hv. apply xext_extensive. apply Hz. exact Hv. }
  set (z := xext (t_target t) (s_zone ns)) in *.
  destruct (existsb (fsubset dim z) (zones_of V (lt_id (t_target t)))) eqn:Ex; injection E as <- <-.
  - split; [apply vsub_refl|]. split.
    + exists []. rewrite app_nil_r. split; [reflexivity|]. split; [intros p []|]. intros X P. simpl. rewrite app_nil_r. exact P.
    + intros v Hv. apply existsb_exists in Ex. destruct Ex as (z' & Hz' & Is). exists z'. split; [exact Hz'|].
      rewrite fsubset_true in Is. auto.
  - split; [|split].
    + intros i y Hy. rewrite zones_set. destruct (locid_eqb (lt_id (t_target t)) i) eqn:Ei; [|eauto].
      apply locid_eqb_eq in Ei. subst i. destruct (fsubset dim y z) eqn:Es.
      * exists z. split; [apply in_or_app; right; left; reflexivity|]. apply fsubset_true. exact Es.
      * exists y. split; [|auto]. apply in_or_app. left. apply filter_In. rewrite Es. auto.
    + exists [PStep sp (mkS (t_target t) z) t a]. split; [reflexivity|]. split.
      * intros p [<-|[]]. exact Ht.
      * intros X P i y Hy. rewrite zones_set in Hy. destruct (locid_eqb (lt_id (t_target t)) i) eqn:Ei.
        -- apply locid_eqb_eq in Ei. subst i. apply in_app_or in Hy. destruct Hy as [Hy|[<-|[]]].
           ++ apply filter_In in Hy. destruct (P _ _ (proj1 Hy)) as (x & Hx & Q). exists x. split; [apply in_or_app; auto|exact Q].
           ++ exists (mkS (t_target t) z). split; [apply in_or_app; right; left; reflexivity|auto].
        -- destruct (P _ _ Hy) as (x & Hx & Q). exists x. split; [apply in_or_app; auto|exact Q].
    + intros v Hv. exists z. rewrite zones_set, locid_eqb_refl. split; [apply in_or_app; right; left; reflexivity|auto].
Qed.

(** Growing the search state. *)
Definition grows (F : list subpath) (V : visited) (F' : list subpath) (V' : visited) : Prop :=
  vsub V V' /\ exists N, F' = F ++ N /\ (forall p, In p N -> In (s_loc (sp_state p)) (all_locations dim s)) /\
     forall X, prov X V -> prov (X ++ map sp_state N) V'.
Lemma grows_refl F V : grows F V F V.
Proof. split; [apply vsub_refl|]. exists []. rewrite app_nil_r. split; [reflexivity|]. split; [intros p []|]. intros X P. simpl. rewrite app_nil_r. exact P. Qed.
Lemma grows_trans F1 V1 F2 V2 F3 V3 : grows F1 V1 F2 V2 -> grows F2 V2 F3 V3 -> grows F1 V1 F3 V3.
Proof.
  intros (S1 & N1 & -> & L1 & P1) (S2 & N2 & -> & L2 & P2). split; [eapply vsub_trans; eauto|].
  exists (N1 ++ N2). rewrite <- app_assoc. split; [reflexivity|]. split.
  - intros p Hp. apply in_app_or in Hp. destruct Hp; auto.
  - intros X P. rewrite map_app, app_assoc. auto.
Qed.

Lemma take_all_ok sp a : In (s_loc (sp_state sp)) (all_locations dim s) -> forall ts, (forall t, In t ts -> offered dim s (s_loc (sp_state sp)) a t) ->
  forall F V F' V', fold_left (fun acc t => take_transition dim s xext sp a t acc) ts (F, V) = (F', V') ->
  grows F V F' V' /\ forall t v, In t ts -> succ (sp_state sp) t v -> cov V' (t_target t) v.
Proof.
  intros Hl. induction ts as [|t ts IH]; intros Ho F V F' V' E; cbn [fold_left] in E.
  - injection E as <- <-. split; [apply grows_refl|]. intros t v [].
  - destruct (take_transition dim s xext sp a t (F, V)) as [F1 V1] eqn:Et.
    destruct (take_ok sp a t F V F1 V1 Hl (Ho t (or_introl eq_refl)) Et) as (S1 & G1 & C1).
    destruct (IH (fun u Hu => Ho u (or_intror Hu)) _ _ _ _ E) as (G2 & C2). split.
    + eapply grows_trans; [split; eauto|exact G2].
    + intros u v [<-|Hu] Hv; [|eauto]. eapply cov_mono; [apply G2|]. auto.
Qed.

Lemma expand_ok sp : In (s_loc (sp_state sp)) (all_locations dim s) -> forall acts, (forall a, In a acts -> is_action s a) ->
  forall F V F' V', expand dim s xext sp acts (F, V) = Ok (F', V') ->
  grows F V F' V' /\ forall a t v, In a acts -> offered dim s (s_loc (sp_state sp)) a t -> succ (sp_state sp) t v -> cov V' (t_target t) v.
Proof.
  intros Hl. induction acts as [|a acts IH]; intros Ha F V F' V' E; cbn [expand] in E.
  - injection E as <- <-. split; [apply grows_refl|]. intros a t v [].
  - inv_bind E. unfold expand_action in H. inv_bind H. injection H as H. destruct a0 as [F1 V1].
    assert (Hts : forall t, In t a1 -> offered dim s (s_loc (sp_state sp)) a t).
    { intros t Ht. split; [apply Ha; left; reflexivity|]. eauto. }
    destruct (take_all_ok sp a Hl a1 Hts _ _ _ _ H) as (G1 & C1).
    destruct (IH (fun b Hb => Ha b (or_intror Hb)) _ _ _ _ E) as (G2 & C2). split; [eapply grows_trans; eauto|].
    intros b t v [<-|Hb] Ho Hv; [|eauto]. eapply cov_mono; [apply G2|]. eapply C1; [|exact Hv].
    destruct Ho as (_ & ts & Ets & Ht). rewrite H0 in Ets. injection Ets as <-. exact Ht.
Qed.

Lemma insert_in a b l : In a (insert_str b l) <-> a = b \/ In a l.
Proof.
  induction l as [|c l IH]; simpl; [intuition|]. destruct (String.compare b c); simpl; rewrite ?IH; intuition.
Qed.
Lemma sort_in a l : In a (sort_str l) <-> In a l.
Proof. induction l as [|b l IH]; simpl; [tauto|]. rewrite insert_in, IH. intuition. Qed.
Lemma actions_in a : In a (sort_str (ts_actions s)) <-> is_action s a.
Proof.
  rewrite sort_in. rewrite <- sin_In. change (has_action s a = true <-> is_action s a). apply has_action_spec.
Qed.

(** The closed set a failed search leaves behind. *)
Definition settled (X : list state) (V : visited) : Prop :=
  prov X V /\ (forall x, In x X -> In (s_loc x) (all_locations dim s) /\ reached_end dim x target = Ok false /\
    forall a t v, offered dim s (s_loc x) a t -> succ x t v -> cov V (t_target t) v).

Lemma search_none fuel : forall start F V E,
  prov (E ++ map sp_state F) V -> (forall p, In p F -> In (s_loc (sp_state p)) (all_locations dim s)) ->
  (forall x, In x E -> In (s_loc x) (all_locations dim s) /\ reached_end dim x target = Ok false /\
    forall a t v, offered dim s (s_loc x) a t -> succ x t v -> cov V (t_target t) v) ->
  search_loop dim fuel s xext (sort_str (ts_actions s)) start target F V = Ok None ->
  exists X V', vsub V V' /\ settled X V'.
Proof.
  induction fuel as [|f IH]; intros start F V E P L C H; cbn [search_loop] in H; [discriminate|].
  destruct F as [|sp F].
  - exists E, V. split; [apply vsub_refl|]. simpl in P. rewrite app_nil_r in P. split; assumption.
  - inv_bind H. destruct a; [inv_bind H; discriminate|]. inv_bind H. destruct a as [F' V']. cbn [fst snd] in H.
    assert (Hl : In (s_loc (sp_state sp)) (all_locations dim s)) by (apply L; left; reflexivity).
    destruct (expand_ok sp Hl _ (fun a Ha => proj1 (actions_in a) Ha) _ _ _ _ H1) as ((S & N & -> & LN & PN) & Cv).
    destruct (IH start (F ++ N) V' (E ++ [sp_state sp])) as (X & V2 & S2 & St).
    + rewrite map_app. replace ((E ++ [sp_state sp]) ++ map sp_state F ++ map sp_state N) with ((E ++ map sp_state (sp :: F)) ++ map sp_state N)
        by (simpl; rewrite <- !app_assoc; reflexivity). apply PN. exact P.
    + intros p Hp. apply in_app_or in Hp. destruct Hp; [apply L; right; assumption|auto].
    + intros x Hx. apply in_app_or in Hx. destruct Hx as [Hx|[<-|[]]].
      * destruct (C x Hx) as (A & B & D). split; [exact A|]. split; [exact B|]. intros a t v Ho Hv. eapply cov_mono; eauto.
      * split; [exact Hl|]. split; [exact H0|]. intros a t v Ho Hv. eapply Cv; [|exact Ho|exact Hv].
        apply actions_in. apply Ho.
    + exact H.
    + exists X, V2. split; [eapply vsub_trans; eauto|exact St].
Qed.

Lemma reached_end_false x l v : built dim s -> In (s_loc x) (all_locations dim s) -> pattern dim s (s_loc target) -> l = s_loc x ->
  reached_end dim x target = Ok false -> fsem dim (s_zone x) v -> ~ hits dim target l v.
Proof.
  intros B Hx Hp -> E Hv [F Ht]. unfold reached_end in E.
  destruct (compare_spec _ _ (location_named _ _ B _ Hx) (pattern_named _ _ B _ Hp)) as (r & Er & Hr).
  rewrite Er in E. cbn [bind] in E. injection E as E. rewrite (proj2 Hr F) in E. cbn [andb] in E.
  rewrite fmeets_false in E. eapply E; eauto.
Qed.

Theorem unreachable_sound fuel start : In (s_loc start) (all_locations dim s) -> pattern dim s (s_loc target) -> waits dim start ->
  find_path dim fuel s xext start target = Ok None ->
  forall v l' v', fsem dim (s_zone start) v -> inv_at dim (s_loc start) v -> run dim s (s_loc start) v l' v' -> ~ hits dim target l' v'.
Proof.
  intros Hs Hp Hw E v l' v' Hv Hi R. unfold find_path, find_listed in E.
  destruct (trivially_unreachable dim start target) eqn:Tr.
  - intros [F Ht]. unfold trivially_unreachable in Tr. rewrite !orb_true_iff in Tr. destruct Tr as [[Tr|Tr]|Tr].
    + rewrite fempty_true in Tr. eapply Tr; eauto.
    + rewrite fempty_true in Tr. eapply Tr; eauto.
    + assert (I : inv_at dim (s_loc target) v').
      { refine (pattern_inv dim s Hbuilt l' _ v' _ Hp F _); [eapply run_wf; eauto|eapply run_inv; eauto]. }
      unfold inv_at in I. destruct (lt_inv (s_loc target)) as [i|]; [|discriminate].
      apply negb_true_iff in Tr. rewrite fmeets_false in Tr. eapply Tr; eauto.
  - set (st := mkS (s_loc start) (apply_inv dim (s_loc start) (s_zone start))) in *.
    destruct (search_none fuel st [PStart st] [(lt_id (s_loc st), [s_zone st])] []) as (X & V & S & P & C).
    + intros i z Hz. simpl in *. unfold zones_of in Hz. rewrite assoc_loc_cons in Hz. destruct (locid_eqb i (lt_id (s_loc start))) eqn:Ei; [|destruct Hz].
      apply locid_eqb_eq in Ei. destruct Hz as [<-|[]]. exists st. split; [left; reflexivity|]. auto.
    + intros p [<-|[]]. exact Hs.
    + intros x [].
    + exact E.
    + assert (Main : In l' (all_locations dim s) /\ forall d, 0 <= d -> inv_at dim l' (vdelay v' d) -> cov V l' (vdelay v' d)).
      { clear E. induction R as [|l1 v1 d R IH Hd Hinv|l1 v1 a t R IH Ho Ha].
        - split; [exact Hs|]. intros d Hd Hid. apply (cov_mono _ _ _ _ S). exists (s_zone st). split.
          + unfold zones_of. rewrite assoc_loc_cons. cbn [s_loc st]. rewrite locid_eqb_refl. left; reflexivity.
          + cbn [s_zone st]. apply apply_inv_sem. split; [apply Hw; assumption|exact Hid].
        - destruct IH as [Hl IH]. split; [exact Hl|]. intros e He Hie.
          assert (Q : veq (vdelay (vdelay v1 d) e) (vdelay v1 (d + e))) by apply vdelay_add.
          destruct (IH (d + e)) as (z & Hz & Hvz); [lra|eapply inv_at_ext; eauto|]. exists z. split; [exact Hz|].
          eapply fsem_ext; [apply veq_sym; exact Q|exact Hvz].
        - destruct IH as [Hl IH]. split; [eapply offered_loc; eauto|]. intros d Hd Hid.
          assert (Q : veq (vdelay v1 0) v1) by (apply vdelay_zero; reflexivity).
          destruct (IH 0) as (z & Hz & Hvz); [lra|eapply inv_at_ext; [apply veq_sym; exact Q|apply Ha]|].
          destruct (P _ _ Hz) as (x & Hx & Ex & <-). destruct (C x Hx) as (Lx & _ & Cx).
          assert (EL : s_loc x = l1) by (eapply location_inj; eauto). subst l1.
          eapply Cx; [exact Ho|]. exists v1, d. split; [eapply fsem_ext; eauto|]. split; [apply Ha|]. split; [exact Hd|].
          split; [apply veq_refl|exact Hid]. }
      destruct Main as [Hl Main].
      assert (Q : veq (vdelay v' 0) v') by (apply vdelay_zero; reflexivity).
      assert (I' : inv_at dim l' v') by (eapply run_inv; eauto).
      destruct (Main 0) as (z & Hz & Hvz); [lra|eapply inv_at_ext; [apply veq_sym; exact Q|exact I']|].
      destruct (P _ _ Hz) as (x & Hx & Ex & <-). destruct (C x Hx) as (Lx & Rx & _).
      assert (EL : s_loc x = l') by (eapply location_inj; eauto).
      eapply reached_end_false; eauto. eapply fsem_ext; eauto.
Qed.
End Reach.

(** ** Paths *)
Lemma path_run_ext dim s l v steps l' v' : path_run dim s l v steps l' v' -> forall w, veq v w ->
  exists w', path_run dim s l w steps l' w' /\ veq v' w'.
Proof.
  induction 1 as [l v|l v t a d rest l' v' Ho Ha Hd Hi R IH]; intros w E.
  - exists w. split; [constructor|exact E].
  - assert (Eu : veq (run_updates (t_updates t) v) (run_updates (t_updates t) w)) by (apply run_updates_ext; exact E).
    destruct (IH (vdelay (run_updates (t_updates t) w) d)) as (w' & R' & E').
    { apply vdelay_ext; [exact Eu|reflexivity]. }
    exists w'. split; [|exact E']. econstructor; [exact Ho| |exact Hd| |exact R'].
    + destruct Ha as (A1 & A2 & A3). split; [eapply inv_at_ext; eauto|]. split; [eapply fsem_ext; eauto|eapply inv_at_ext; eauto].
    + intros e He1 He2. eapply inv_at_ext; [|apply (Hi e He1 He2)]. apply vdelay_ext; [exact Eu|reflexivity].
Qed.

Lemma run_trans dim s l v l1 v1 l2 v2 : run dim s l v l1 v1 -> run dim s l1 v1 l2 v2 -> run dim s l v l2 v2.
Proof. intros A B. induction B; [exact A|econstructor; eauto|econstructor; eauto]. Qed.
Lemma path_run_run dim s l v steps l' v' : path_run dim s l v steps l' v' -> run dim s l v l' v'.
Proof.
  induction 1 as [l v|l v t a d rest l' v' Ho Ha Hd Hi R IH]; [constructor|].
  eapply run_trans; [|exact IH]. apply run_delay; [|exact Hd|exact Hi]. eapply run_act; [constructor|exact Ho|exact Ha].
Qed.

Section Paths.
Variable dim : nat.
Variable s : ts.
Variable q : nat.
Variable xext : loctree -> fed -> fed.
Variable target : state.
Hypothesis Hbuilt : built dim s.
Hypothesis Hclocks : clocks_ok dim q s.

(** The path's zones, not enlarged. *)
Inductive chain : state -> list (transition * string) -> state -> Prop :=
| ch_nil st : chain st [] st
| ch_cons st t a st1 rest st2 : offered dim s (s_loc st) a t -> use_transition dim t st = (true, st1) -> chain st1 rest st2 ->
    chain st ((t, a) :: rest) st2.
Lemma chain_snoc st steps st1 t a st2 : chain st steps st1 -> offered dim s (s_loc st1) a t -> use_transition dim t st1 = (true, st2) ->
  chain st (steps ++ [(t, a)]) st2.
Proof. induction 1; intros Ho Eu; simpl; econstructor; eauto. constructor. Qed.

Lemma use_inside t st st' : updates_ok dim (t_updates t) -> use_transition dim t st = (true, st') ->
  s_loc st' = t_target t /\ (exists v, fsem dim (s_zone st') v) /\ forall v, fsem dim (s_zone st') v -> inv_at dim (s_loc st') v.
Proof.
  intros Hu E. destruct (use_transition_zone dim t st true st' Hu E) as (Hl & Hb & Hz).
  specialize (Hl eq_refl). specialize (Hz eq_refl). split; [exact Hl|]. rewrite Hl. split.
  - destruct (proj1 Hb eq_refl) as (v & H). exists v. apply Hz. exact H.
  - intros v Hv. apply Hz in Hv. destruct Hv as (w & d & _ & _ & _ & _ & Hi). exact Hi.
Qed.

(** Every valuation of the last zone is the end of a run along the path. *)
Lemma realise : upper_invariants dim s -> forall st steps st', chain st steps st' -> In (s_loc st) (all_locations dim s) ->
  (forall v, fsem dim (s_zone st) v -> inv_at dim (s_loc st) v) ->
  forall v2, fsem dim (s_zone st') v2 -> exists v v', fsem dim (s_zone st) v /\ path_run dim s (s_loc st) v steps (s_loc st') v' /\ veq v' v2.
Proof.
  intros Up st steps st' C. induction C as [st|st t a st1 rest st2 Ho Eu C IH]; intros Hl Hin v2 Hv2.
  - exists v2, v2. split; [exact Hv2|]. split; [constructor|apply veq_refl].
  - destruct (offered_fine dim s q Hclocks _ _ _ Ho) as [Hu _]. pose proof (offered_loc dim s Hbuilt _ _ _ Hl Ho) as Ht.
    destruct (use_inside _ _ _ Hu Eu) as (El & _ & Hin1).
    destruct (IH (eq_ind_r (fun l => In l _) Ht El) Hin1 v2 Hv2) as (v1 & v' & Hv1 & R & E').
    destruct (use_transition_standard dim t st true st1 Hu (Up _ Ht) Eu) as (_ & Hz).
    apply (Hz eq_refl) in Hv1. destruct Hv1 as (v & w & d & Hv & (Fg & Fe & Fi) & Hd & Ev & Hi1).
    destruct (path_run_ext _ _ _ _ _ _ _ R (vdelay (run_updates (t_updates t) v) d)) as (w' & R' & Ew).
    { eapply veq_trans; [exact Ev|]. apply vdelay_ext; [exact Fe|reflexivity]. }
    exists v, w'. split; [exact Hv|]. split; [|eapply veq_trans; [apply veq_sym; exact Ew|exact E']].
    econstructor; [exact Ho| |exact Hd| |].
    + split; [auto|]. split; [exact Fg|]. eapply inv_at_ext; eauto.
    + intros e He1 He2. assert (Q : veq (vdelay (vdelay (run_updates (t_updates t) v) e) (d - e)) v1).
      { eapply veq_trans; [apply vdelay_add|]. apply veq_sym. eapply veq_trans; [exact Ev|]. apply vdelay_ext; [exact Fe|]. ring. }
      apply (Up _ Ht) with (d := (d - e)).
      * apply vdelay_ok; [|exact He1]. apply run_updates_ok; [exact Hu|]. eapply fsem_ok; eauto.
      * lra.
      * eapply inv_at_ext; [apply veq_sym; exact Q|exact Hi1].
    + rewrite <- El. exact R'.
Qed.

(** *** Paths found by the search *)
Fixpoint sp_ok (start : state) (p : subpath) : Prop :=
  match p with
  | PStart st => st = start
  | PStep prev st t a => sp_ok start prev /\ offered dim s (s_loc (sp_state prev)) a t /\
      exists ns, use_transition dim t (sp_state prev) = (true, ns) /\ st = mkS (s_loc ns) (xext (s_loc ns) (s_zone ns))
  end.

Lemma sp_steps_app p : forall acc, sp_steps p acc = sp_steps p [] ++ acc.
Proof.
  induction p as [st|p IH st t a]; intros acc; [reflexivity|]. cbn [sp_steps]. rewrite IH, (IH [(t, a)]). rewrite <- app_assoc. reflexivity.
Qed.

Lemma take_sp start sp a t F V : sp_ok start sp -> offered dim s (s_loc (sp_state sp)) a t ->
  Forall (sp_ok start) F -> Forall (sp_ok start) (fst (take_transition dim s xext sp a t (F, V))).
Proof.
  intros Hs Ho HF. unfold take_transition. destruct (use_transition dim t (sp_state sp)) as [ok ns] eqn:Eu.
  destruct ok; [|exact HF]. cbn [s_loc s_zone]. destruct (existsb _ _); [exact HF|]. cbn [fst].
  apply Forall_app. split; [exact HF|]. constructor; [|constructor]. cbn [sp_ok]. split; [exact Hs|]. split; [exact Ho|]. eauto.
Qed.
Lemma expand_sp start sp : sp_ok start sp -> forall acts, (forall a, In a acts -> is_action s a) -> forall F V F' V',
  expand dim s xext sp acts (F, V) = Ok (F', V') -> Forall (sp_ok start) F -> Forall (sp_ok start) F'.
Proof.
  intros Hs. induction acts as [|a acts IH]; intros Ha F V F' V' E HF; cbn [expand] in E; [injection E as <- <-; exact HF|].
  inv_bind E. unfold expand_action in H. inv_bind H. injection H as H. destruct a0 as [F1 V1].
  eapply IH; [intros b Hb; apply Ha; right; exact Hb|exact E|].
  assert (Hts : forall t, In t a1 -> offered dim s (s_loc (sp_state sp)) a t).
  { intros t Ht. split; [apply Ha; left; reflexivity|]. eauto. }
  clear E H0. change F1 with (fst (F1, V1)). rewrite <- H. clear H.
  change F with (fst (F, V)) in HF. revert HF. generalize (F, V). clear F V. induction a1 as [|t ts IHt]; intros acc HF; [exact HF|].
  cbn [fold_left]. apply IHt; [intros u Hu; apply Hts; right; exact Hu|]. destruct acc as [F V]. apply take_sp; auto. apply Hts. left; reflexivity.
Qed.

Lemma search_some fuel : forall start F V ds, Forall (sp_ok start) F ->
  search_loop dim fuel s xext (sort_str (ts_actions s)) start target F V = Ok (Some ds) ->
  exists sp, sp_ok start sp /\ reached_end dim (sp_state sp) target = Ok true /\ make_path dim sp start = Ok ds.
Proof.
  induction fuel as [|f IH]; intros start F V ds HF E; cbn [search_loop] in E; [discriminate|].
  destruct F as [|sp F]; [discriminate|]. inversion HF; subst. inv_bind E. destruct a.
  - inv_bind E. injection E as ->. exists sp. auto.
  - inv_bind E. destruct a as [F' V']. cbn [fst snd] in E. eapply IH; [|exact E].
    eapply expand_sp; [exact H1| |exact H0|exact H2]. intros a Ha. apply (actions_in s a). exact Ha.
Qed.

Fixpoint locs (l : loctree) (steps : list (transition * string)) (l' : loctree) : Prop :=
  match steps with
  | [] => l = l'
  | (t, a) :: rest => offered dim s l a t /\ locs (t_target t) rest l'
  end.
Lemma locs_snoc steps : forall l l' t a, locs l steps l' -> offered dim s l' a t -> locs l (steps ++ [(t, a)]) (t_target t).
Proof. induction steps as [|[u b] rest IH]; intros l l' t a H Ho; simpl in *; [subst; auto|]. destruct H. split; eauto. Qed.
Lemma sp_locs start p : sp_ok start p -> locs (s_loc start) (sp_steps p []) (s_loc (sp_state p)).
Proof.
  induction p as [st|p IH st t a]; cbn [sp_ok sp_steps sp_state]; [intros ->; reflexivity|].
  intros (Hp & Ho & ns & Eu & ->). rewrite sp_steps_app. cbn [s_loc].
  destruct (offered_fine dim s q Hclocks _ _ _ Ho) as [Hu _]. destruct (use_inside _ _ _ Hu Eu) as (-> & _).
  eapply locs_snoc; eauto.
Qed.

Lemma from_state_some st t a d : updates_ok dim (t_updates t) -> no_conflict (t_updates t) ->
  from_state_transition dim st t a = Ok (Some d) ->
  d_trans d = t /\ d_action d = a /\ exists st', use_transition dim t st = (true, st').
Proof.
  intros Hu Hn E. unfold from_state_transition in E. cbn [s_zone s_loc] in E.
  destruct (fempty dim (finter dim (s_zone st) (allowed_fed dim t))) eqn:Ee; [discriminate|]. cbn [negb] in E.
  inv_bind E. injection E as <-. split; [reflexivity|]. split; [reflexivity|].
  apply fempty_false in Ee. destruct Ee as (v & Hv). apply finter_sem in Hv. destruct Hv as [Hv Ha].
  apply (allowed_fed_fires dim t Hu Hn) in Ha. destruct Ha as (v' & Fg & Fe & Fi).
  destruct (use_transition dim t st) as [b st'] eqn:Eu. destruct (use_transition_zone dim t st b st' Hu Eu) as (_ & Hb & _).
  exists st'. f_equal. apply Hb. exists v', v, 0. split; [exact Hv|]. split; [exact Fg|]. split; [lra|]. split; [|exact Fi].
  eapply veq_trans; [exact Fe|]. apply veq_sym, vdelay_zero. reflexivity.
Qed.
Lemma decisions_chain steps : forall st l' ds, locs (s_loc st) steps l' -> decisions dim st steps = Ok ds ->
  map taken ds = steps /\ exists st', chain st steps st' /\ s_loc st' = l' /\ (steps <> [] -> exists v, fsem dim (s_zone st') v).
Proof.
  induction steps as [|[t a] rest IH]; intros st l' ds L E; cbn [decisions] in E.
  - injection E as <-. split; [reflexivity|]. exists st. split; [constructor|]. split; [exact L|]. intros H; contradiction H; reflexivity.
  - destruct L as [Ho L]. destruct (offered_fine dim s q Hclocks _ _ _ Ho) as [Hu Hn].
    inv_bind E. inv_bind E. destruct a0 as [d0|]; [|discriminate]. injection H0 as ->. inv_bind E. injection E as <-.
    destruct (from_state_some _ _ _ _ Hu Hn H) as (E1 & E2 & st1 & Eu). rewrite Eu in H0. cbn [snd] in H0.
    destruct (use_inside _ _ _ Hu Eu) as (El & Ne & _). rewrite <- El in L.
    destruct (IH _ _ _ L H0) as (Em & st' & C & El' & Ne'). split.
    + cbn [map]. unfold taken at 1. rewrite E1, E2, Em. reflexivity.
    + exists st'. split; [econstructor; eauto|]. split; [exact El'|]. intros _.
      destruct rest as [|x rest]; [|apply Ne'; discriminate]. inversion C; subst. exact Ne.
Qed.

Lemma reached_true x : In (s_loc x) (all_locations dim s) -> pattern dim s (s_loc target) -> reached_end dim x target = Ok true ->
  fits (lt_id (s_loc x)) (lt_id (s_loc target)) /\ exists v, fsem dim (s_zone x) v /\ fsem dim (s_zone target) v.
Proof.
  intros Hx Hp E. unfold reached_end in E.
  destruct (compare_spec _ _ (location_named _ _ Hbuilt _ Hx) (pattern_named _ _ Hbuilt _ Hp)) as (r & Er & Hr).
  rewrite Er in E. cbn [bind] in E. injection E as E. apply andb_true_iff in E. destruct E as [-> E].
  split; [apply Hr; reflexivity|]. apply fmeets_true. exact E.
Qed.

Lemma locs_in steps : forall l l', In l (all_locations dim s) -> locs l steps l' -> In l' (all_locations dim s).
Proof. induction steps as [|[t a] rest IH]; intros l l' Hl H; simpl in H; [subst; exact Hl|]. destruct H as [Ho H]. eapply IH; [|exact H]. eapply offered_loc; eauto. Qed.

(** With exact zones the zones of the search are those of the path. *)
Lemma use_equiv t x y x' : updates_ok dim (t_updates t) -> (forall v, fsem dim (s_zone x) v <-> fsem dim (s_zone y) v) ->
  use_transition dim t x = (true, x') -> exists y', use_transition dim t y = (true, y') /\ forall v, fsem dim (s_zone x') v <-> fsem dim (s_zone y') v.
Proof.
  intros Hu Heq Ex. destruct (use_transition dim t y) as [b y'] eqn:Ey.
  destruct (use_transition_zone dim t x true x' Hu Ex) as (_ & Hbx & Hzx). destruct (use_transition_zone dim t y b y' Hu Ey) as (_ & Hby & Hzy).
  assert (b = true).
  { apply Hby. destruct (proj1 Hbx eq_refl) as (v & w & d & Hw & R). exists v, w, d. split; [apply Heq; exact Hw|exact R]. }
  subst b. exists y'. split; [reflexivity|]. intros v. rewrite (Hzx eq_refl), (Hzy eq_refl).
  split; intros (w & d & Hw & R); exists w, d; (split; [apply Heq; exact Hw|exact R]).
Qed.
Lemma sp_chain start : (forall l f v, fsem dim (xext l f) v <-> fsem dim f v) -> forall p, sp_ok start p ->
  exists st', chain start (sp_steps p []) st' /\ s_loc st' = s_loc (sp_state p) /\ forall v, fsem dim (s_zone st') v <-> fsem dim (s_zone (sp_state p)) v.
Proof.
  intros Hx. induction p as [st|p IH st t a]; cbn [sp_ok sp_steps sp_state].
  - intros ->. exists start. split; [constructor|]. split; [reflexivity|]. intros; reflexivity.
  - intros (Hp & Ho & ns & Eu & ->). destruct (IH Hp) as (st1 & C & El & Ez).
    destruct (offered_fine dim s q Hclocks _ _ _ Ho) as [Hu _].
    destruct (use_equiv t (sp_state p) st1 ns Hu (fun v => iff_sym (Ez v)) Eu) as (st2 & Eu2 & Ez2).
    exists st2. split; [rewrite sp_steps_app; eapply chain_snoc; [exact C|rewrite El; exact Ho|exact Eu2]|]. cbn [s_loc s_zone].
    destruct (use_inside _ _ _ Hu Eu) as (-> & _). destruct (use_inside _ _ _ Hu Eu2) as (-> & _). split; [reflexivity|].
    intros v. rewrite Hx. symmetry. apply Ez2.
Qed.
Lemma chain_det st steps x : chain st steps x -> forall y, chain st steps y -> x = y.
Proof. induction 1; intros y Cy; inversion Cy; subst; [reflexivity|]. apply IHchain. congruence. Qed.

(** *** Building the path *)
Lemma chain_decisions : upper_invariants dim s -> forall st steps st', chain st steps st' -> In (s_loc st) (all_locations dim s) ->
  exists ds, decisions dim st steps = Ok ds.
Proof.
  intros Up st steps st' C. induction C as [st|st t a st1 rest st2 Ho Eu C IH]; intros Hl; cbn [decisions]; [eauto|].
  destruct (offered_fine dim s q Hclocks _ _ _ Ho) as [Hu Hn]. pose proof (offered_loc dim s Hbuilt _ _ _ Hl Ho) as Ht.
  destruct (use_transition_standard dim t st true st1 Hu (Up _ Ht) Eu) as (Hb & _).
  destruct (proj1 Hb eq_refl) as (v & v' & Hv & Hf).
  assert (Ha : fsem dim (allowed_fed dim t) v) by (apply (allowed_fed_fires dim t Hu Hn); eauto).
  unfold from_state_transition. cbn [s_loc s_zone].
  assert (Ee : fempty dim (finter dim (s_zone st) (allowed_fed dim t)) = false) by (apply fempty_false; exists v; apply finter_sem; auto).
  rewrite Ee. cbn [negb]. unfold use_transition_alt.
  destruct (use_transition dim t {| s_loc := s_loc st; s_zone := finter dim (s_zone st) (allowed_fed dim t) |}) as [b n] eqn:En.
  destruct (use_transition_standard dim t _ b n Hu (Up _ Ht) En) as (Hb' & _).
  rewrite (proj2 Hb'); [|exists v, v'; split; [apply finter_sem; auto|exact Hf]]. cbn [unwrap bind].
  rewrite Eu. cbn [snd]. destruct (use_inside _ _ _ Hu Eu) as (El & _). rewrite El in IH. destruct (IH Ht) as (ds & ->). cbn [bind]. eauto.
Qed.

Lemma expand_total sp : In (s_loc (sp_state sp)) (all_locations dim s) -> forall acts, (forall a, In a acts -> is_action s a) -> forall acc,
  exists acc', expand dim s xext sp acts acc = Ok acc'.
Proof.
  intros Hl. induction acts as [|a acts IH]; intros Ha acc; cbn [expand]; [eauto|]. unfold expand_action.
  destruct (next_wf dim s Hbuilt _ a Hl (Ha a (or_introl eq_refl))) as (ts & -> & _). cbn [bind]. apply IH. intros b Hb. apply Ha. right; exact Hb.
Qed.

End Paths.
