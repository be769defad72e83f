(** Offered transitions never abort, stay inside the system's locations, and have
    well-behaved updates. *)
From Coq Require Import List String ZArith QArith Bool Arith Lia.
From Verif Require Import Fed.Zone Fed.ZoneFacts Model.Base Model.Expr Model.Guard Model.Loc Model.Component Model.TS
  Spec.StepSpec Spec.SystemSpec Proofs.GuardFacts Proofs.StepFacts Proofs.SystemFacts Proofs.QuotientFacts.
Import ListNotations.

Lemma locid_eqb_eq a : forall b, locid_eqb a b = true <-> a = b.
Proof.
  induction a; destruct b; simpl; try (split; congruence);
  try (rewrite andb_true_iff, IHa1, IHa2; split; [intros [-> ->]; reflexivity|intros E; injection E; auto]).
  - rewrite String.eqb_eq. split; congruence.
  - destruct s, s0; simpl; split; congruence.
Qed.
Lemma locid_eqb_refl a : locid_eqb a a = true.
Proof. apply locid_eqb_eq; reflexivity. Qed.

(** ** Compiled components *)
Lemma in_keep_last t l : In t l -> (forall u, In u l -> lt_id u = lt_id t -> u = t) -> In t (keep_last l).
Proof.
  induction l as [|x l IH]; simpl; intros Hin Huniq; [contradiction|].
  destruct (existsb (fun u => locid_eqb (lt_id x) (lt_id u)) l) eqn:E.
  - destruct Hin as [->|Hin]; [|apply IH; [exact Hin|intros; apply Huniq; auto]].
    apply existsb_exists in E. destruct E as (u & Hu & Eu). apply locid_eqb_eq in Eu.
    assert (u = t) as -> by (apply Huniq; auto). apply IH; [exact Hu|intros; apply Huniq; auto].
  - destruct Hin as [->|Hin]; [left; reflexivity|]. right. apply IH; [exact Hin|intros; apply Huniq; auto].
Qed.
Lemma keep_last_in t l : In t (keep_last l) -> In t l.
Proof.
  induction l as [|x l IH]; simpl; [tauto|]. destruct (existsb _ l); simpl; [auto|]. intros [H|H]; auto.
Qed.
Lemma lt_simple_id dim d l t : lt_simple dim d l = Ok t -> lt_id t = LSimple (l_id l) /\ lt_type t = l_type l.
Proof. unfold lt_simple. intros E. inv_bind E. injection E as <-. auto. Qed.

Lemma get_location_unique c n l : get_location_by_name c n = Ok l ->
  In l (c_locs c) /\ l_id l = n /\ forall l', In l' (c_locs c) -> l_id l' = n -> l' = l.
Proof.
  unfold get_location_by_name. destruct (filter _ (c_locs c)) as [|x [|]] eqn:E; try discriminate.
  intros H. injection H as ->.
  assert (I : forall l', In l' (c_locs c) /\ l_id l' = n <-> l' = l).
  { intros l'. assert (A : In l' (filter (fun l => String.eqb (l_id l) n) (c_locs c)) <-> In l' (c_locs c) /\ l_id l' = n)
      by (rewrite filter_In, String.eqb_eq; reflexivity).
    rewrite E in A. rewrite <- A. simpl. split; [intros [H|[]]; auto|auto]. }
  destruct (proj2 (I l) eq_refl) as [H1 H2]. split; [exact H1|]. split; [exact H2|].
  intros l' H3 H4. apply I. auto.
Qed.

Lemma compile_inv dim c ins outs id cc : compile_with_actions dim c ins outs id = Ok cc ->
  exists ls es, mapM (lt_simple dim (c_decls c)) (c_locs c) = Ok ls /\
    mapM (fun e => do t <- from_component_and_edge dim c e; Ok (e, t)) (c_edges c) = Ok es /\
    cc_locs cc = keep_last ls /\ cc_decls cc = c_decls c /\
    (forall e, In e (c_edges c) -> exists u, In u (keep_last ls) /\ lt_id u = LSimple (e_src e)) /\
    cc_edges cc = map (fun u => (lt_id u, map (fun p => (e_sync (fst p), snd p))
                      (filter (fun p => locid_eqb (LSimple (e_src (fst p))) (lt_id u)) es))) (keep_last ls) /\
    cc_init cc = find is_initial (keep_last ls).
Proof.
  unfold compile_with_actions. destruct (disjoint ins outs); [|discriminate]. cbn [negb]. intros E.
  inv_bind E. inv_bind E. destruct (forallb _ (c_edges c)) eqn:F; [|discriminate].
  injection E as <-. exists a, a0. cbn [cc_locs cc_decls cc_edges cc_init]. repeat (split; [reflexivity || assumption|]).
  split; [|split; reflexivity]. intros e He. rewrite forallb_forall in F. specialize (F e He).
  apply existsb_exists in F. destruct F as (u & Hu & Eu). apply locid_eqb_eq in Eu. eauto.
Qed.

Lemma compiled_edge dim c ins outs id cc : compile_with_actions dim c ins outs id = Ok cc ->
  forall i es a t, In (i, es) (cc_edges cc) -> In (a, t) es ->
  exists e, In e (c_edges c) /\ e_sync e = a /\ LSimple (e_src e) = i /\ from_component_and_edge dim c e = Ok t.
Proof.
  intros E i es a t Hi Ht. destruct (compile_inv _ _ _ _ _ _ E) as (ls & ts & El & Ee & _ & _ & _ & Ec & _).
  rewrite Ec in Hi. apply in_map_iff in Hi. destruct Hi as (u & Eu & Hu). injection Eu as <- <-.
  apply in_map_iff in Ht. destruct Ht as ([e t'] & Ep & Hp). injection Ep as <- <-.
  apply filter_In in Hp. destruct Hp as [Hp Ei]. cbn [fst snd] in *. change (locid_eqb (LSimple (e_src e)) (lt_id u) = true) in Ei; apply locid_eqb_eq in Ei.
  destruct (mapM_in _ _ _ Ee) as [_ M]. destruct (M _ Hp) as (e' & He' & F). inv_bind F. injection F as -> ->.
  exists e. auto.
Qed.

Lemma compiled_target dim c ins outs id cc e t : compile_with_actions dim c ins outs id = Ok cc ->
  from_component_and_edge dim c e = Ok t -> In (t_target t) (cc_locs cc).
Proof.
  intros E Et. destruct (compile_inv _ _ _ _ _ _ E) as (ls & ts & El & Ee & Ec & _). rewrite Ec.
  unfold from_component_and_edge in Et. inv_bind Et. inv_bind Et. inv_bind Et. inv_bind Et. injection Et as <-.
  cbn [t_target]. destruct (get_location_unique _ _ _ H) as (Hin & Hid & Huniq).
  destruct (mapM_in _ _ _ El) as [M1 M2]. apply in_keep_last.
  - destruct (M1 _ Hin) as (b & Hb & Eb). congruence.
  - intros u Hu Eid. destruct (M2 _ Hu) as (l' & Hl' & El').
    apply lt_simple_id in El' as [I1 _]. pose proof (lt_simple_id _ _ _ _ H0) as [I2 _].
    assert (l' = a).
    { apply Huniq; [exact Hl'|]. rewrite I1, I2 in Eid. injection Eid as Eid. congruence. }
    subst l'. destruct (M2 _ Hu) as (l'' & Hl'' & El''). 
    pose proof (lt_simple_id _ _ _ _ El'') as [I3 _]. rewrite I3 in I1. injection I1 as I1.
    assert (l'' = a) by (apply Huniq; congruence). subst l''. congruence.
Qed.

(** ** All systems *)
Lemma in_all_compose dim c la lb p : proper c ->
  In p (flat_map (fun p => match lt_compose dim (fst p) (snd p) c with Ok t => [t] | _ => [] end) (list_prod la lb)) <->
  exists a b, In a la /\ In b lb /\ lt_compose dim a b c = Ok p.
Proof.
  intros Hc. rewrite in_flat_map. split.
  - intros ([a b] & Hp & H). apply in_prod_iff in Hp. cbn [fst snd] in H.
    destruct (lt_compose_ok dim a b c Hc) as [x Ex]. rewrite Ex in H. destruct H as [<-|[]]. exists a, b. tauto.
  - intros (a & b & Ha & Hb & E). exists (a, b). split; [apply in_prod; assumption|]. cbn [fst snd]. rewrite E. left; reflexivity.
Qed.

Lemma compose_parts dim a b c p : proper c -> lt_compose dim a b c = Ok p -> lt_left p = Ok a /\ lt_right p = Ok b.
Proof. intros Hc E. apply lt_compose_spec in E; [|exact Hc]. destruct E as (_ & H1 & H2 & _). auto. Qed.

Lemma combinations_targets dim ls rs c ts : proper c -> combinations dim ls rs c = Ok ts ->
  forall t, In t ts -> exists l r, In l ls /\ In r rs /\ lt_compose dim (t_target l) (t_target r) c = Ok (t_target t) /\
    t_updates t = t_updates l ++ t_updates r.
Proof.
  intros Hc E t Ht. unfold combinations in E. destruct (mapM_in _ _ _ E) as [_ M].
  destruct (M t Ht) as ([l r] & Hp & Et). apply in_prod_iff in Hp. cbn [fst snd] in Et. exists l, r.
  split; [tauto|]. split; [tauto|]. unfold combine_pair in Et. inv_bind Et. inv_bind Et. injection Et as <-.
  cbn [t_target t_updates]. auto.
Qed.

Lemma combinations_total dim ls rs c : proper c -> exists ts, combinations dim ls rs c = Ok ts.
Proof. intros Hc. destruct (combinations_spec dim ls rs c Hc) as (ts & E & _). eauto. Qed.

Lemma assoc_loc_map {V} (f : loctree -> V) l u : In u l ->
  exists w, In w l /\ lt_id w = lt_id u /\ assoc_loc (lt_id u) (map (fun u => (lt_id u, f u)) l) = Some (f w).
Proof.
  unfold assoc_loc. induction l as [|x l IH]; simpl; [tauto|]. intros Hin.
  destruct (locid_eqb (lt_id u) (lt_id x)) eqn:E.
  - apply locid_eqb_eq in E. exists x. split; [left; reflexivity|]. split; [auto|reflexivity].
  - destruct Hin as [->|Hin]; [rewrite locid_eqb_refl in E; discriminate|].
    destruct (IH Hin) as (w & Hw & Ew & A). exists w. split; [right; exact Hw|]. split; [exact Ew|exact A].
Qed.

(** Every offered transition is computed without abort and leads to a location of the system. *)
Lemma next_wf dim s : built dim s -> forall loc a, In loc (all_locations dim s) -> is_action s a ->
  exists ts, next_transitions dim s loc a = Ok ts /\ forall t, In t ts -> In (t_target t) (all_locations dim s).
Proof.
  induction 1 as [c ins outs id cc E|l r s Hl IHl Hr IHr E|l r s Hl IHl Hr IHr E|T S q s HT IHT HS IHS E]; intros loc a Hloc Ha.
  - pose proof Ha as Ha'. apply has_action_spec in Ha'. cbn [next_transitions]. rewrite Ha'. cbn [negb].
    cbn [all_locations] in *.
    destruct (is_universal loc); [eexists; split; [reflexivity|]; intros t [<-|[]]; exact Hloc|].
    destruct (is_inconsistent loc && sin a (cc_inputs cc)); [eexists; split; [reflexivity|]; intros t [<-|[]]; exact Hloc|].
    destruct (compile_inv _ _ _ _ _ _ E) as (ls & es & El & Ee & Ec & _ & _ & Eed & _).
    rewrite Ec in Hloc.
    assert (A : exists edges, assoc_loc (lt_id loc) (cc_edges cc) = Some edges /\ exists i, In (i, edges) (cc_edges cc)).
    { rewrite Eed. destruct (assoc_loc_map (fun u => map (fun p => (e_sync (fst p), snd p))
           (filter (fun p => locid_eqb (LSimple (e_src (fst p))) (lt_id u)) es)) (keep_last ls) loc Hloc) as (w & Hw & _ & A).
      eexists. split; [exact A|]. exists (lt_id w). apply in_map_iff. exists w. auto. }
    destruct A as (edges & A & i & Hi). rewrite A. cbn [unwrap bind]. eexists. split; [reflexivity|].
    intros t Ht. apply in_map_iff in Ht. destruct Ht as ([b t'] & Et & Ht). cbn [snd] in Et. subst t'.
    apply filter_In in Ht. destruct Ht as [Ht _].
    destruct (compiled_edge _ _ _ _ _ _ E _ _ _ _ Hi Ht) as (e & He & _ & _ & F).
    eapply compiled_target; eauto.
  - apply conjunction_new_inv in E. destruct E as (-> & _ & _). cbn [all_locations] in *.
    apply in_all_compose in Hloc; [|left; reflexivity]. destruct Hloc as (ll & lr & Hll & Hlr & Ep).
    destruct (compose_parts _ _ _ _ _ (or_introl eq_refl) Ep) as [Pl Pr].
    assert (Al : is_action l a /\ is_action r a).
    { unfold is_action, is_input, is_output in *. cbn [ts_inputs ts_outputs] in Ha. rewrite !in_sinter in Ha. tauto. }
    destruct (IHl ll a Hll (proj1 Al)) as (tl & Etl & Wl). destruct (IHr lr a Hlr (proj2 Al)) as (tr & Etr & Wr).
    apply has_action_spec in Ha. cbn [next_transitions]. rewrite Ha, Pl, Pr. cbn [negb bind]. rewrite Etl, Etr. cbn [bind].
    destruct (combinations_total dim tl tr CConj (or_introl eq_refl)) as [ts Ets]. exists ts. split; [exact Ets|].
    intros t Ht. destruct (combinations_targets dim tl tr CConj ts (or_introl eq_refl) Ets t Ht) as (x & y & Hx & Hy & Exy & _).
    apply in_all_compose; [left; reflexivity|]. exists (t_target x), (t_target y). auto.
  - pose proof (proj1 (composition_actions l r s a E) Ha) as Act.
    pose proof (composition_new_inv l r s E) as (_ & ins & outs & lo & ro & co & -> & _ & _ & Lo & Ro & Co).
    cbn [all_locations] in *.
    apply in_all_compose in Hloc; [|right; reflexivity]. destruct Hloc as (ll & lr & Hll & Hlr & Ep).
    destruct (compose_parts _ _ _ _ _ (or_intror eq_refl) Ep) as [Pl Pr].
    rewrite (comp_next _ _ _ _ _ _ _ _ _ ll lr) by assumption.
    destruct (has_action l a) eqn:Hla; destruct (has_action r a) eqn:Hra; rewrite ?has_action_spec, ?has_action_false in *; try tauto.
    + replace (sin a co) with true by (symmetry; apply sin_In, Co; auto).
      destruct (IHl ll a Hll Hla) as (tl & Etl & Wl). destruct (IHr lr a Hlr Hra) as (tr & Etr & Wr).
      rewrite Etl, Etr. cbn [bind].
      destruct (combinations_total dim tl tr CComp (or_intror eq_refl)) as [ts Ets]. exists ts. split; [exact Ets|].
      intros t Ht. destruct (combinations_targets dim tl tr CComp ts (or_intror eq_refl) Ets t Ht) as (x & y & Hx & Hy & Exy & _).
      apply in_all_compose; [right; reflexivity|]. exists (t_target x), (t_target y). auto.
    + replace (sin a co) with false by (symmetry; apply sin_false; rewrite Co; tauto).
      replace (sin a lo) with true by (symmetry; apply sin_In, Lo; auto).
      destruct (IHl ll a Hll Hla) as (tl & Etl & Wl). rewrite Etl. cbn [bind].
      destruct (combinations_total dim tl [t_without_id lr] CComp (or_intror eq_refl)) as [ts Ets]. exists ts. split; [exact Ets|].
      intros t Ht. destruct (combinations_targets dim _ _ CComp ts (or_intror eq_refl) Ets t Ht) as (x & y & Hx & [<-|[]] & Exy & _).
      apply in_all_compose; [right; reflexivity|]. exists (t_target x), lr. auto.
    + replace (sin a co) with false by (symmetry; apply sin_false; rewrite Co; tauto).
      replace (sin a lo) with false by (symmetry; apply sin_false; rewrite Lo; tauto).
      replace (sin a ro) with true by (symmetry; apply sin_In, Ro; auto).
      destruct (IHr lr a Hlr Hra) as (tr & Etr & Wr). rewrite Etr. cbn [bind].
      destruct (combinations_total dim [t_without_id ll] tr CComp (or_intror eq_refl)) as [ts Ets]. exists ts. split; [exact Ets|].
      intros t Ht. destruct (combinations_targets dim _ _ CComp ts (or_intror eq_refl) Ets t Ht) as (x & y & [<-|[]] & Hy & Exy & _).
      apply in_all_compose; [right; reflexivity|]. exists ll, (t_target y). auto.
  - apply quotient_new_inv in E. destruct E as (n & ins & outs & -> & Ei & Eo & _).
    pose proof Ha as Ha'. apply has_action_spec in Ha'. 
    assert (Spec : In (lt_error q) (all_locations dim (TQuot T S ins outs n q)) /\
                   In lt_universal (all_locations dim (TQuot T S ins outs n q))).
    { cbn [all_locations]. split; apply in_or_app; right; simpl; auto. }
    cbn [all_locations] in Hloc. apply in_app_or in Hloc. destruct Hloc as [Hloc|[<-|[<-|[]]]].
    + apply in_map_iff in Hloc. destruct Hloc as ([lt ls] & <- & Hp). apply in_prod_iff in Hp. destruct Hp as [Hlt Hls]. cbn [fst snd].
      assert (NT : exists tts, next_if_available dim T lt a = Ok tts /\ forall t, In t tts -> In (t_target t) (all_locations dim T)).
      { unfold next_if_available. destruct (has_action T a) eqn:HA; [|exists []; split; [reflexivity|intros ? []]].
        apply has_action_spec in HA. apply IHT; assumption. }
      assert (NS : exists sss, next_if_available dim S ls a = Ok sss /\ forall t, In t sss -> In (t_target t) (all_locations dim S)).
      { unfold next_if_available. destruct (has_action S a) eqn:HA; [|exists []; split; [reflexivity|intros ? []]].
        apply has_action_spec in HA. apply IHS; assumption. }
      destruct NT as (tts & Et & Wt), NS as (sss & Es & Ws). eexists. split.
      * apply (quotient_next dim T S ins outs n q (lt_quotient lt ls) lt ls a tts sss); auto;
        unfold is_inconsistent, is_universal; cbn [lt_type lt_quotient]; destruct (lt_type lt), (lt_type ls); reflexivity.
      * intros t Ht. unfold quotient_rules in Ht. apply filter_In in Ht. destruct Ht as [Ht _].
        assert (Q : forall x y, In x (all_locations dim T) -> In y (all_locations dim S) ->
           In (lt_quotient x y) (all_locations dim (TQuot T S ins outs n q))).
        { intros x y Hx Hy. cbn [all_locations]. apply in_or_app. left. apply in_map_iff. exists (x, y).
          split; [reflexivity|]. apply in_prod; assumption. }
        repeat (apply in_app_or in Ht; destruct Ht as [Ht|Ht]).
        -- destruct (has_action S a && has_action T a); [|destruct Ht]. apply in_map_iff in Ht.
           destruct Ht as ([x y] & <- & Hp). apply in_prod_iff in Hp. cbn [t_target fst snd]. apply Q; [apply Wt|apply Ws]; tauto.
        -- destruct (has_action S a && negb (has_action T a)); [|destruct Ht]. apply in_map_iff in Ht.
           destruct Ht as (y & <- & Hp). cbn [t_target]. apply Q; auto.
        -- destruct (sin a (ts_outputs S)); destruct Ht as [<-|[]]; cbn [t_target]; apply Spec.
        -- destruct (sin a (ts_outputs S) && sin a (ts_outputs T)); [|destruct Ht]. apply in_map_iff in Ht.
           destruct Ht as (y & <- & Hp). cbn [t_target]. apply Spec.
        -- destruct (String.eqb a n); [|destruct Ht]. destruct Ht as [<-|[]]. cbn [t_target]. apply Spec.
        -- destruct (has_action T a && negb (has_action S a)); [|destruct Ht]. apply in_map_iff in Ht.
           destruct Ht as (y & <- & Hp). cbn [t_target]. apply Q; auto.
    + cbn [next_transitions]. rewrite Ha'. cbn [negb]. change (is_inconsistent (lt_error q)) with true. cbn iota.
      eexists. split; [reflexivity|]. intros t Ht. destruct (sin a ins); [|destruct Ht]. destruct Ht as [<-|[]]. cbn [t_target]. apply Spec.
    + cbn [next_transitions]. rewrite Ha'. cbn [negb]. change (is_inconsistent lt_universal) with false.
      change (is_universal lt_universal) with true. cbn iota.
      eexists. split; [reflexivity|]. intros t [<-|[]]. apply Spec.
Qed.

Lemma find_some_in {A} (f : A -> bool) l x : find f l = Some x -> In x l.
Proof. induction l; simpl; [discriminate|]. destruct (f a); [intros H; injection H; auto|auto]. Qed.

Lemma initial_wf dim s : built dim s -> forall l, initial_location dim s = Some l -> In l (all_locations dim s).
Proof.
  induction 1 as [c ins outs id cc E|l r s Hl IHl Hr IHr E|l r s Hl IHl Hr IHr E|T S q s HT IHT HS IHS E]; intros loc Hi.
  - cbn [initial_location all_locations] in *. destruct (compile_inv _ _ _ _ _ _ E) as (ls & es & _ & _ & Ec & _ & _ & _ & Ei).
    rewrite Ei in Hi. rewrite Ec. eapply find_some_in; eauto.
  - apply conjunction_new_inv in E. destruct E as (-> & _ & _). cbn [initial_location all_locations] in *.
    destruct (initial_location dim l) as [a|]; [|discriminate]. destruct (initial_location dim r) as [b|]; [|discriminate].
    destruct (lt_compose dim a b CConj) as [p| | |] eqn:Ep; try discriminate. injection Hi as ->.
    apply in_all_compose; [left; reflexivity|]. exists a, b. auto.
  - apply composition_new_inv in E. destruct E as (_ & ins & outs & lo & ro & co & -> & _). cbn [initial_location all_locations] in *.
    destruct (initial_location dim l) as [a|]; [|discriminate]. destruct (initial_location dim r) as [b|]; [|discriminate].
    destruct (lt_compose dim a b CComp) as [p| | |] eqn:Ep; try discriminate. injection Hi as ->.
    apply in_all_compose; [right; reflexivity|]. exists a, b. auto.
  - apply quotient_new_inv in E. destruct E as (n & ins & outs & -> & _). cbn [initial_location all_locations] in *.
    destruct (initial_location dim T) as [a|]; [|discriminate]. destruct (initial_location dim S) as [b|]; [|discriminate].
    injection Hi as <-. apply in_or_app. left. apply in_map_iff. exists (a, b). split; [reflexivity|]. apply in_prod; auto.
Qed.

(** ** Updates *)
Definition own (s : ts) (q : nat) (t : transition) : Prop :=
  forall u, In u (t_updates t) -> In (u_clock u) (comp_clocks s) \/ u = mkU q 0.

Lemma q_not_own dim q s : clocks_ok dim q s -> ~ In q (comp_clocks s).
Proof.
  induction s; cbn [clocks_ok comp_clocks]; intros H.
  - apply H.
  - rewrite in_app_iff. intros [C|C]; [apply IHs1 in C|apply IHs2 in C]; tauto.
  - rewrite in_app_iff. intros [C|C]; [apply IHs1 in C|apply IHs2 in C]; tauto.
  - rewrite in_app_iff. intros [C|C]; [apply IHs1 in C|apply IHs2 in C]; tauto.
Qed.

Lemma fine_app dim q l r t1 t2 us : ~ In q (comp_clocks l) -> ~ In q (comp_clocks r) ->
  (forall x, In x (comp_clocks l) -> ~ In x (comp_clocks r)) ->
  tr_fine dim t1 -> own l q t1 -> tr_fine dim t2 -> own r q t2 -> us = t_updates t1 ++ t_updates t2 ->
  updates_ok dim us /\ no_conflict us /\ forall u, In u us -> In (u_clock u) (comp_clocks l ++ comp_clocks r) \/ u = mkU q 0.
Proof.
  intros Ql Qr D [U1 C1] O1 [U2 C2] O2 ->. split; [apply updates_ok_app; auto|]. split.
  - assert (X : forall u w, In u (t_updates t1) -> In w (t_updates t2) -> u_clock u = u_clock w -> u_value u = u_value w).
    { intros u w Hu Hw E. destruct (O1 u Hu) as [A| ->], (O2 w Hw) as [B| ->]; cbn [u_clock u_value] in *.
      - rewrite E in A. exfalso. eapply D; eauto.
      - rewrite E in A. contradiction.
      - rewrite <- E in B. contradiction.
      - reflexivity. }
    intros u w Hu Hw E. apply in_app_or in Hu, Hw. destruct Hu as [Hu|Hu], Hw as [Hw|Hw]; auto.
    symmetry. apply X; auto.
  - intros u Hu. apply in_app_or in Hu. rewrite in_app_iff. destruct Hu as [Hu|Hu]; [destruct (O1 u Hu)|destruct (O2 u Hu)]; auto.
Qed.

Lemma without_fine dim q s loc : tr_fine dim (t_without_id loc) /\ own s q (t_without_id loc).
Proof. split; [split; intros u; [intros []|intros w []]|intros u []]. Qed.

Lemma next_fine dim q s : clocks_ok dim q s -> forall loc a ts, next_transitions dim s loc a = Ok ts ->
  forall t, In t ts -> tr_fine dim t /\ own s q t.
Proof.
  induction s as [c|l IHl r IHr ins outs|l IHl r IHr ins outs lo ro co|T IHT S IHS ins outs n q']; intros K loc a ts E t Ht.
  - cbn [next_transitions] in E. destruct (negb _); [discriminate|].
    destruct (is_universal loc); [injection E as <-; destruct Ht as [<-|[]]; apply without_fine|].
    destruct (is_inconsistent loc && sin a (cc_inputs c)); [injection E as <-; destruct Ht as [<-|[]]; apply without_fine|].
    unfold assoc_loc in E. destruct (find _ (cc_edges c)) as [[i es]|] eqn:F; [|discriminate]. cbn in E. injection E as <-.
    apply find_some_in in F. apply in_map_iff in Ht. destruct Ht as ([b t'] & Et & Hp). cbn [snd] in Et. subst t'.
    apply filter_In in Hp. destruct Hp as [Hp _]. cbn [clocks_ok] in K. destruct K as [_ K].
    destruct (K i es b t F Hp) as (K1 & K2 & K3). split; [split; assumption|]. intros u Hu. left. apply K3; exact Hu.
  - cbn [next_transitions] in E. destruct (negb _); [discriminate|]. inv_bind E. inv_bind E. inv_bind E. inv_bind E.
    destruct (combinations_targets dim _ _ CConj ts (or_introl eq_refl) E t Ht) as (x & y & Hx & Hy & _ & Eu).
    cbn [clocks_ok] in K. destruct K as (K1 & K2 & D). destruct (IHl K1 _ _ _ H1 x Hx), (IHr K2 _ _ _ H2 y Hy).
    destruct (fine_app dim q l r x y (t_updates t)) as (A & B & C); eauto using q_not_own.
    split; [split; assumption|exact C].
  - cbn [next_transitions] in E. destruct (negb _); [discriminate|]. inv_bind E. inv_bind E.
    cbn [clocks_ok] in K. destruct K as (K1 & K2 & D).
    destruct (sin a co); [|destruct (sin a lo); [|destruct (sin a ro); [|discriminate]]].
    + inv_bind E. inv_bind E.
      destruct (combinations_targets dim _ _ CComp ts (or_intror eq_refl) E t Ht) as (x & y & Hx & Hy & _ & Eu).
      destruct (IHl K1 _ _ _ H1 x Hx), (IHr K2 _ _ _ H2 y Hy).
      destruct (fine_app dim q l r x y (t_updates t)) as (A & B & C); eauto using q_not_own.
      split; [split; assumption|exact C].
    + inv_bind E.
      destruct (combinations_targets dim _ _ CComp ts (or_intror eq_refl) E t Ht) as (x & y & Hx & [<-|[]] & _ & Eu).
      destruct (IHl K1 _ _ _ H1 x Hx), (without_fine dim q r a1).
      destruct (fine_app dim q l r x (t_without_id a1) (t_updates t)) as (A & B & C); eauto using q_not_own.
      split; [split; assumption|exact C].
    + inv_bind E.
      destruct (combinations_targets dim _ _ CComp ts (or_intror eq_refl) E t Ht) as (x & y & [<-|[]] & Hy & _ & Eu).
      destruct (IHr K2 _ _ _ H1 y Hy), (without_fine dim q l a0).
      destruct (fine_app dim q l r (t_without_id a0) y (t_updates t)) as (A & B & C); eauto using q_not_own.
      split; [split; assumption|exact C].
  - cbn [clocks_ok] in K. destruct K as (K1 & K2 & D & -> & Q0 & Qd).
    assert (Triv : forall i g l, let t := mkT i g l [] in tr_fine dim t /\ own (TQuot T S ins outs n q) q t).
    { intros i g l. split; [split; intros u; [intros []|intros w []]|intros u []]. }
    assert (Rst : forall i g l, let t := mkT i g l [mkU q 0] in tr_fine dim t /\ own (TQuot T S ins outs n q) q t).
    { intros i g l. split; [split|].
      - intros u [<-|[]]. cbn. repeat split; auto. lia.
      - intros u w [<-|[]] [<-|[]]; reflexivity.
      - intros u [<-|[]]. right; reflexivity. }
    cbn [next_transitions] in E. destruct (negb _); [discriminate|].
    destruct (is_inconsistent loc); [injection E as <-; destruct (sin a ins); [destruct Ht as [<-|[]]; apply Triv|destruct Ht]|].
    destruct (is_universal loc); [injection E as <-; destruct Ht as [<-|[]]; apply without_fine|].
    inv_bind E. inv_bind E. inv_bind E. inv_bind E. injection E as <-.
    assert (FT : forall x, In x a2 -> tr_fine dim x /\ own T q x).
    { destruct (has_action T a); [eapply IHT; eauto|injection H1 as <-; intros ? []]. }
    assert (FS : forall x, In x a3 -> tr_fine dim x /\ own S q x).
    { destruct (has_action S a); [eapply IHS; eauto|injection H2 as <-; intros ? []]. }
    unfold quotient_rules in Ht. apply filter_In in Ht. destruct Ht as [Ht _].
    repeat (apply in_app_or in Ht; destruct Ht as [Ht|Ht]).
    + destruct (has_action S a && has_action T a); [|destruct Ht]. apply in_map_iff in Ht.
      destruct Ht as ([x y] & <- & Hp). apply in_prod_iff in Hp. destruct Hp as [Hx Hy]. cbn [fst snd].
      destruct (FT x Hx), (FS y Hy).
      destruct (fine_app dim q T S x y (t_updates x ++ t_updates y)) as (A & B & C); eauto using q_not_own.
      split; [split; assumption|exact C].
    + destruct (has_action S a && negb (has_action T a)); [|destruct Ht]. apply in_map_iff in Ht.
      destruct Ht as (y & <- & Hy). destruct (FS y Hy) as [F O]. split; [exact F|].
      intros u Hu. cbn [comp_clocks]. rewrite in_app_iff. destruct (O u Hu); auto.
    + destruct (sin a (ts_outputs S)); destruct Ht as [<-|[]]; apply Triv.
    + destruct (sin a (ts_outputs S) && sin a (ts_outputs T)); [|destruct Ht]. apply in_map_iff in Ht.
      destruct Ht as (y & <- & Hy). apply Rst.
    + destruct (String.eqb a n); [|destruct Ht]. destruct Ht as [<-|[]]. apply Rst.
    + destruct (has_action T a && negb (has_action S a)); [|destruct Ht]. apply in_map_iff in Ht.
      destruct Ht as (y & <- & Hy). destruct (FT y Hy) as [F O]. split; [exact F|].
      intros u Hu. cbn [comp_clocks]. rewrite in_app_iff. destruct (O u Hu); auto.
Qed.
