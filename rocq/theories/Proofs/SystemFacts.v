(** Proofs about composed systems. *)
From Coq Require Import List String ZArith QArith Bool Arith Lia.
From Verif Require Import Fed.Zone Fed.ZoneFacts Model.Base Model.Expr Model.Guard Model.Loc Model.Component Model.TS
  Spec.StepSpec Spec.SystemSpec Proofs.GuardFacts Proofs.StepFacts.
Import ListNotations.

(** ** Lists of strings as sets *)
Lemma sin_In a l : sin a l = true <-> In a l.
Proof.
  unfold sin. rewrite existsb_exists. split.
  - intros (x & Hx & E). apply String.eqb_eq in E. subst; exact Hx.
  - intros H. exists a. split; [exact H|apply String.eqb_refl].
Qed.
Lemma sin_false a l : sin a l = false <-> ~ In a l.
Proof. rewrite <- sin_In. destruct (sin a l); split; intros H; try congruence; try (exfalso; apply H; reflexivity). Qed.
Lemma In_dec_s (a : string) l : In a l \/ ~ In a l.
Proof. destruct (sin a l) eqn:E; [left; apply sin_In; exact E|right; apply sin_false; exact E]. Qed.
Lemma in_sunion a l r : In a (sunion l r) <-> In a l \/ In a r.
Proof.
  unfold sunion. rewrite in_app_iff, filter_In. split; [tauto|]. intros [H|H]; [left; exact H|].
  destruct (In_dec_s a l) as [H'|H']; [left; exact H'|]. right. split; [exact H|].
  rewrite negb_true_iff. apply sin_false; exact H'.
Qed.
Lemma in_sinter a l r : In a (sinter l r) <-> In a l /\ In a r.
Proof. unfold sinter. rewrite filter_In, sin_In. reflexivity. Qed.
Lemma in_sdiff a l r : In a (sdiff l r) <-> In a l /\ ~ In a r.
Proof. unfold sdiff. rewrite filter_In, negb_true_iff, sin_false. reflexivity. Qed.
Lemma disjoint_spec l r : disjoint l r = true <-> forall a, In a l -> ~ In a r.
Proof. unfold disjoint. rewrite forallb_forall. split; intros H a Ha; specialize (H a Ha); [apply sin_false; apply negb_true_iff; exact H|apply negb_true_iff, sin_false; exact H]. Qed.
Lemma has_action_spec s a : has_action s a = true <-> is_action s a.
Proof. unfold has_action, ts_actions. rewrite sin_In, in_sunion. reflexivity. Qed.
Lemma has_action_false s a : has_action s a = false <-> ~ is_action s a.
Proof. rewrite <- has_action_spec. destruct (has_action s a); split; intros H; try congruence; try (exfalso; apply H; reflexivity). Qed.

(** ** Monadic maps *)
Lemma mapM_in {A B} (f : A -> res B) l : forall bs, mapM f l = Ok bs ->
  (forall a, In a l -> exists b, In b bs /\ f a = Ok b) /\ (forall b, In b bs -> exists a, In a l /\ f a = Ok b).
Proof.
  induction l as [|x l IH]; simpl; intros bs E.
  - injection E as <-. split; intros ? [].
  - inv_bind E. inv_bind E. injection E as <-. destruct (IH _ H0) as [I1 I2]. split.
    + intros y [<-|Hy]; [exists a; split; [left; reflexivity|exact H]|].
      destruct (I1 y Hy) as (b & Hb & Eb). exists b. split; [right; exact Hb|exact Eb].
    + intros y [<-|Hy]; [exists x; split; [left; reflexivity|exact H]|].
      destruct (I2 y Hy) as (b & Hb & Eb). exists b. split; [right; exact Hb|exact Eb].
Qed.
Lemma mapM_total {A B} (f : A -> res B) l : (forall a, In a l -> exists b, f a = Ok b) -> exists bs, mapM f l = Ok bs.
Proof.
  induction l as [|x l IH]; simpl; intros H; [eauto|].
  destruct (H x (or_introl eq_refl)) as [b ->]. destruct IH as [bs ->]; [intros; apply H; auto|]. simpl; eauto.
Qed.

(** ** Joint transitions *)
Lemma inv_inter_sem dim a b v :
  (match inv_inter dim (lt_inv a) (lt_inv b) with Some f => fsem dim f v | None => val_ok dim v end) <->
  inv_at dim a v /\ inv_at dim b v.
Proof.
  unfold inv_at, inv_inter. destruct (lt_inv a) as [f|], (lt_inv b) as [g|].
  - apply finter_sem.
  - split; [intros H; split; [exact H|eapply fsem_ok; eauto]|tauto].
  - split; [intros H; split; [eapply fsem_ok; eauto|exact H]|tauto].
  - tauto.
Qed.

Definition comp_mk (c : comptype) : locid -> locid -> locid := match c with CConj => LConj | _ => LComp end.
Definition proper (c : comptype) : Prop := c = CConj \/ c = CComp.

Lemma lt_compose_ok dim a b c : proper c -> exists p, lt_compose dim a b c = Ok p.
Proof. intros [->| ->]; unfold lt_compose; simpl; eauto. Qed.
Lemma lt_compose_spec dim a b c p : proper c -> lt_compose dim a b c = Ok p -> pair_loc dim (comp_mk c) a b p.
Proof.
  intros [->| ->]; unfold lt_compose; simpl; intros E; injection E as <-;
  (split; [reflexivity|split; [reflexivity|split; [reflexivity|]]]); intros v; apply inv_inter_sem.
Qed.

Lemma combinations_spec dim ls rs c : proper c -> exists ts, combinations dim ls rs c = Ok ts /\
  corresponds (fun p t => joint dim (comp_mk c) (fst p) (snd p) t) (list_prod ls rs) ts.
Proof.
  intros Hc. unfold combinations.
  assert (T : forall l r, exists t, combine_pair dim c l r = Ok t /\ joint dim (comp_mk c) l r t).
  { intros l r. unfold combine_pair. destruct (lt_compose_ok dim (t_target l) (t_target r) c Hc) as [p Hp].
    rewrite Hp. cbn [bind]. apply lt_compose_spec in Hp; [|exact Hc].
    destruct Hc as [->| ->]; simpl; (eexists; split; [reflexivity|]);
    (split; [intros v; apply finter_sem|split; [reflexivity|exact Hp]]). }
  destruct (mapM_total (fun p => combine_pair dim c (fst p) (snd p)) (list_prod ls rs)) as [ts E].
  { intros [l r] _. destruct (T l r) as (t & E & _). eauto. }
  exists ts. split; [exact E|]. apply mapM_in in E. destruct E as [E1 E2]. split.
  - intros [l r] Hp. destruct (E1 _ Hp) as (t & Ht & Et). exists t. split; [exact Ht|].
    destruct (T l r) as (t' & Et' & J). simpl in *. congruence.
  - intros t Ht. destruct (E2 _ Ht) as ([l r] & Hp & Et). exists (l, r). split; [exact Hp|].
    destruct (T l r) as (t' & Et' & J). simpl in *. congruence.
Qed.

(** *** Conjunction *)
Lemma conj_steps dim l r ins outs loc ll lr a tl tr :
  is_action (TConj l r ins outs) a -> lt_left loc = Ok ll -> lt_right loc = Ok lr ->
  next_transitions dim l ll a = Ok tl -> next_transitions dim r lr a = Ok tr ->
  exists ts, next_transitions dim (TConj l r ins outs) loc a = Ok ts /\
    corresponds (fun p t => joint dim LConj (fst p) (snd p) t) (list_prod tl tr) ts.
Proof.
  intros Ha Hl Hr El Er. apply has_action_spec in Ha. cbn [next_transitions]. rewrite Ha, Hl, Hr. cbn [negb bind].
  rewrite El, Er. cbn [bind]. apply combinations_spec. left; reflexivity.
Qed.

(** *** Composition *)
Lemma composition_new_inv l r s : composition_new l r = Ok s ->
  disjoint (ts_outputs l) (ts_outputs r) = true /\
  exists ins outs lonly ronly common, s = TComp l r ins outs lonly ronly common /\
    ins = sunion (sdiff (ts_inputs l) (ts_outputs r)) (sdiff (ts_inputs r) (ts_outputs l)) /\
    outs = sunion (ts_outputs l) (ts_outputs r) /\
    (forall a, In a lonly <-> is_action l a /\ ~ is_action r a) /\
    (forall a, In a ronly <-> is_action r a /\ ~ is_action l a) /\
    (forall a, In a common <-> is_action l a /\ is_action r a).
Proof.
  unfold composition_new. destruct (disjoint (ts_outputs l) (ts_outputs r)) eqn:D; [|discriminate].
  cbn [negb]. intros E. injection E as <-. split; [reflexivity|].
  do 5 eexists. split; [reflexivity|]. split; [reflexivity|]. split; [reflexivity|].
  unfold is_action, is_input, is_output.
  split; [|split]; intros a; rewrite ?in_sdiff, ?in_sinter, !in_sunion; tauto.
Qed.

Lemma composition_actions l r s a : composition_new l r = Ok s -> is_action s a <-> is_action l a \/ is_action r a.
Proof.
  intros E. destruct (composition_new_inv l r s E) as (_ & ins & outs & lo & ro & co & -> & -> & -> & _).
  unfold is_action, is_input, is_output. cbn [ts_inputs ts_outputs]. rewrite !in_sunion, !in_sdiff.
  destruct (In_dec_s a (ts_outputs l)), (In_dec_s a (ts_outputs r)); tauto.
Qed.

Lemma comp_next dim l r ins outs lo ro co loc ll lr a :
  is_action (TComp l r ins outs lo ro co) a -> lt_left loc = Ok ll -> lt_right loc = Ok lr ->
  next_transitions dim (TComp l r ins outs lo ro co) loc a =
  if sin a co then do tl <- next_transitions dim l ll a; do tr <- next_transitions dim r lr a; combinations dim tl tr CComp
  else if sin a lo then do tl <- next_transitions dim l ll a; combinations dim tl [t_without_id lr] CComp
  else if sin a ro then do tr <- next_transitions dim r lr a; combinations dim [t_without_id ll] tr CComp
  else Panic.
Proof.
  intros Ha Hl Hr. apply has_action_spec in Ha. cbn [next_transitions]. rewrite Ha, Hl, Hr. reflexivity.
Qed.

Lemma fsem_val dim f v : fsem dim f v -> val_ok dim v. Proof. apply fsem_ok. Qed.

Lemma comp_steps_both dim l r s loc ll lr a tl tr :
  composition_new l r = Ok s -> lt_left loc = Ok ll -> lt_right loc = Ok lr ->
  is_action l a -> is_action r a ->
  next_transitions dim l ll a = Ok tl -> next_transitions dim r lr a = Ok tr ->
  exists ts, next_transitions dim s loc a = Ok ts /\
    corresponds (fun p t => joint dim LComp (fst p) (snd p) t) (list_prod tl tr) ts.
Proof.
  intros E Hl Hr Al Ar El Er. pose proof (composition_actions l r s a E) as Act.
  destruct (composition_new_inv l r s E) as (_ & ins & outs & lo & ro & co & -> & _ & _ & Lo & Ro & Co).
  rewrite (comp_next _ _ _ _ _ _ _ _ _ ll lr) by (auto; apply Act; auto).
  replace (sin a co) with true by (symmetry; apply sin_In, Co; auto).
  rewrite El, Er. cbn [bind]. apply combinations_spec. right; reflexivity.
Qed.

Lemma comp_steps_left dim l r s loc ll lr a tl :
  composition_new l r = Ok s -> lt_left loc = Ok ll -> lt_right loc = Ok lr ->
  is_action l a -> ~ is_action r a -> next_transitions dim l ll a = Ok tl ->
  exists ts, next_transitions dim s loc a = Ok ts /\
    corresponds (fun t1 t => left_alone dim LComp t1 lr t) tl ts.
Proof.
  intros E Hl Hr Al Ar El. pose proof (composition_actions l r s a E) as Act.
  destruct (composition_new_inv l r s E) as (_ & ins & outs & lo & ro & co & -> & _ & _ & Lo & Ro & Co).
  rewrite (comp_next _ _ _ _ _ _ _ _ _ ll lr) by (auto; apply Act; auto).
  replace (sin a co) with false by (symmetry; apply sin_false; rewrite Co; tauto).
  replace (sin a lo) with true by (symmetry; apply sin_In, Lo; auto).
  rewrite El. cbn [bind].
  destruct (combinations_spec dim tl [t_without_id lr] CComp (or_intror eq_refl)) as (ts & Ec & C1 & C2).
  exists ts. split; [exact Ec|].
  assert (J : forall t1 t, joint dim LComp t1 (t_without_id lr) t -> left_alone dim LComp t1 lr t).
  { intros t1 t (G & U & P). split; [|split; [|exact P]].
    - intros v. rewrite G. cbn [t_guard t_without_id]. rewrite funiv_sem. split; [tauto|].
      intros H. split; [exact H|eapply fsem_ok; eauto].
    - rewrite U. cbn [t_updates t_without_id]. apply app_nil_r. }
  split.
  - intros t1 H1. destruct (C1 (t1, t_without_id lr)) as (t & Ht & Jt); [apply in_prod; simpl; auto|].
    exists t. split; [exact Ht|]. apply J; exact Jt.
  - intros t Ht. destruct (C2 t Ht) as ([t1 t2] & Hp & Jt). apply in_prod_iff in Hp. destruct Hp as [H1 [<-|[]]].
    exists t1. split; [exact H1|]. apply J; exact Jt.
Qed.

Lemma comp_steps_right dim l r s loc ll lr a tr :
  composition_new l r = Ok s -> lt_left loc = Ok ll -> lt_right loc = Ok lr ->
  ~ is_action l a -> is_action r a -> next_transitions dim r lr a = Ok tr ->
  exists ts, next_transitions dim s loc a = Ok ts /\
    corresponds (fun t2 t => right_alone dim LComp ll t2 t) tr ts.
Proof.
  intros E Hl Hr Al Ar Er. pose proof (composition_actions l r s a E) as Act.
  destruct (composition_new_inv l r s E) as (_ & ins & outs & lo & ro & co & -> & _ & _ & Lo & Ro & Co).
  rewrite (comp_next _ _ _ _ _ _ _ _ _ ll lr) by (auto; apply Act; auto).
  replace (sin a co) with false by (symmetry; apply sin_false; rewrite Co; tauto).
  replace (sin a lo) with false by (symmetry; apply sin_false; rewrite Lo; tauto).
  replace (sin a ro) with true by (symmetry; apply sin_In, Ro; auto).
  rewrite Er. cbn [bind].
  destruct (combinations_spec dim [t_without_id ll] tr CComp (or_intror eq_refl)) as (ts & Ec & C1 & C2).
  exists ts. split; [exact Ec|].
  assert (J : forall t2 t, joint dim LComp (t_without_id ll) t2 t -> right_alone dim LComp ll t2 t).
  { intros t2 t (G & U & P). split; [|split; [|exact P]].
    - intros v. rewrite G. cbn [t_guard t_without_id]. rewrite funiv_sem. split; [tauto|].
      intros H. split; [eapply fsem_ok; eauto|exact H].
    - rewrite U. reflexivity. }
  split.
  - intros t2 H1. destruct (C1 (t_without_id ll, t2)) as (t & Ht & Jt); [apply in_prod; simpl; auto|].
    exists t. split; [exact Ht|]. apply J; exact Jt.
  - intros t Ht. destruct (C2 t Ht) as ([t1 t2] & Hp & Jt). apply in_prod_iff in Hp. destruct Hp as [[<-|[]] H1].
    exists t2. split; [exact H1|]. apply J; exact Jt.
Qed.

(** *** Alphabets *)
Lemma conjunction_new_inv l r s : conjunction_new l r = Ok s ->
  s = TConj l r (sinter (ts_inputs l) (ts_inputs r)) (sinter (ts_outputs l) (ts_outputs r)) /\
  (forall a, is_input l a -> ~ is_output r a) /\ (forall a, is_output l a -> ~ is_input r a).
Proof.
  unfold conjunction_new. destruct (disjoint (ts_inputs l) (ts_outputs r)) eqn:D1; [|discriminate].
  destruct (disjoint (ts_outputs l) (ts_inputs r)) eqn:D2; [|discriminate]. cbn [negb].
  intros E. injection E as <-. rewrite disjoint_spec in D1, D2. auto.
Qed.

Lemma fresh_input_spec fuel : forall i ins n, fresh_input fuel i ins = Ok n ->
  ~ In n ins /\ exists j, n = ("quotient_new_input" ++ nat_str j)%string.
Proof.
  induction fuel as [|f IH]; cbn [fresh_input]; intros i ins n E; [discriminate|].
  destruct (sin ("quotient_new_input" ++ nat_str i)%string ins) eqn:S.
  - cbn [negb] in E. eapply IH; eauto.
  - cbn [negb] in E. assert (n = ("quotient_new_input" ++ nat_str i)%string) by congruence. subst n.
    split; [apply sin_false; exact S|eauto].
Qed.

Lemma quotient_new_inv t s q r : quotient_new t s q = Ok r ->
  exists n ins outs, r = TQuot t s ins outs n q /\
    (forall a, In a ins <-> is_input t a \/ is_output s a \/ a = n) /\
    (forall a, In a outs <-> (is_output t a /\ ~ is_output s a) \/ (is_input s a /\ ~ is_input t a)) /\
    ~ is_input t n /\ ~ is_output s n /\ (exists j, n = ("quotient_new_input" ++ nat_str j)%string) /\
    (forall a, is_output s a -> ~ is_input t a).
Proof.
  unfold quotient_new. destruct (disjoint (ts_outputs s) (ts_inputs t)) eqn:D; [|discriminate]. cbn [negb].
  intros E. inv_bind E. apply fresh_input_spec in H. destruct H as [Hn Hj].
  match type of E with Ok ?x = Ok _ => assert (Er : r = x) by congruence end.
  exists a. do 2 eexists. split; [exact Er|]. unfold is_input, is_output. rewrite in_sunion in Hn. split; [|split].
  - intros b. rewrite !in_sunion. simpl. intuition.
  - intros b. rewrite in_sunion, !in_sdiff. reflexivity.
  - split; [tauto|]. split; [tauto|]. split; [exact Hj|]. rewrite disjoint_spec in D. exact D.
Qed.

Lemma reserved_prefix j : reserved ("quotient_new_input" ++ nat_str j) = true.
Proof. unfold reserved. destruct (nat_str j); reflexivity. Qed.

Lemma compile_io dim c ins outs id cc : compile_with_actions dim c ins outs id = Ok cc ->
  cc_inputs cc = ins /\ cc_outputs cc = outs /\ disjoint ins outs = true.
Proof.
  unfold compile_with_actions. destruct (disjoint ins outs) eqn:D; [|discriminate]. cbn [negb]. intros E.
  inv_bind E. inv_bind E. destruct (forallb _ (c_edges c)); [|discriminate].
  injection E as <-. auto.
Qed.

(** Which reserved names may occur. *)
Lemma reserved_alphabet dim s : built dim s -> no_reserved s = true -> plain_divisors s = true ->
  (forall a, is_output s a -> reserved a = false) /\
  (quotient_free s = true -> forall a, is_action s a -> reserved a = false).
Proof.
  induction 1 as [c ins outs id cc E|l r s Hl IHl Hr IHr E|l r s Hl IHl Hr IHr E|t s q r Ht IHt Hs IHs E]; intros N P.
  - cbn [no_reserved] in N. rewrite forallb_forall in N.
    assert (A : forall a, is_action (TSimple cc) a -> reserved a = false).
    { intros a Ha. apply negb_true_iff. apply N. apply in_or_app. exact Ha. }
    split; [intros a Ha; apply A; right; exact Ha|intros _; exact A].
  - apply conjunction_new_inv in E. destruct E as (-> & _ & _). cbn [no_reserved plain_divisors quotient_free] in *.
    apply andb_true_iff in N, P. destruct N as [N1 N2], P as [P1 P2].
    destruct (IHl N1 P1) as [A1 B1], (IHr N2 P2) as [A2 B2].
    unfold is_action, is_input, is_output in *. cbn [ts_inputs ts_outputs]. split.
    + intros a Ha. apply in_sinter in Ha. apply A1; tauto.
    + intros Q. apply andb_true_iff in Q. intros a. rewrite !in_sinter. intros Ha. apply B1; tauto.
  - pose proof (fun a => composition_actions l r s a E) as Act.
    apply composition_new_inv in E. destruct E as (_ & i & o & lo & ro & co & Es & Ei & Eo & _). subst s.
    cbn [no_reserved plain_divisors quotient_free] in *.
    apply andb_true_iff in N, P. destruct N as [N1 N2], P as [P1 P2].
    destruct (IHl N1 P1) as [A1 B1], (IHr N2 P2) as [A2 B2]. split.
    + intros a Ha. unfold is_output in Ha. cbn [ts_outputs] in Ha. subst o. apply in_sunion in Ha.
      destruct Ha; [apply A1|apply A2]; assumption.
    + intros Q. apply andb_true_iff in Q. intros a Ha. apply Act in Ha. destruct Ha; [apply B1|apply B2]; tauto.
  - apply quotient_new_inv in E. destruct E as (n & i & o & -> & Ei & Eo & _).
    cbn [no_reserved plain_divisors quotient_free] in *.
    apply andb_true_iff in N, P. destruct N as [N1 N2], P as [P1 P2].
    assert (Ps : plain_divisors s = true).
    { clear -P2. induction s; simpl in *; auto; try discriminate; apply andb_true_iff in P2; destruct P2; rewrite ?IHs1, ?IHs2; auto. }
    destruct (IHt N1 P1) as [A1 B1], (IHs N2 Ps) as [A2 B2]. split; [|discriminate].
    intros a Ha. unfold is_output in Ha. cbn [ts_outputs] in Ha. apply Eo in Ha.
    destruct Ha as [[Ha _]|[Ha _]]; [apply A1; exact Ha|apply B2; [exact P2|left; exact Ha]].
Qed.

Lemma built_io_disjoint dim s : built dim s -> no_reserved s = true -> plain_divisors s = true -> io_disjoint s.
Proof.
  induction 1 as [c ins outs id cc E|l r s Hl IHl Hr IHr E|l r s Hl IHl Hr IHr E|t s q r Ht IHt Hs IHs E]; intros N P.
  - apply compile_io in E. destruct E as (E1 & E2 & D). rewrite disjoint_spec in D.
    intros a Ha. unfold is_input, is_output in *. simpl in *. rewrite E1 in Ha. rewrite E2. apply D; exact Ha.
  - apply conjunction_new_inv in E. destruct E as (-> & _ & _). cbn [no_reserved plain_divisors] in *.
    apply andb_true_iff in N, P. destruct N as [N1 N2], P as [P1 P2].
    intros a. unfold is_input, is_output. cbn [ts_inputs ts_outputs]. rewrite !in_sinter.
    intros [H1 _] [H2 _]. exact (IHl N1 P1 a H1 H2).
  - apply composition_new_inv in E. destruct E as (_ & i & o & lo & ro & co & Es & Ei & Eo & _). subst s.
    cbn [no_reserved plain_divisors] in *.
    apply andb_true_iff in N, P. destruct N as [N1 N2], P as [P1 P2].
    intros a. unfold is_input, is_output. cbn [ts_inputs ts_outputs]. subst i o. rewrite !in_sunion, !in_sdiff.
    intros [[H1 H2]|[H1 H2]] [H3|H3]; try tauto; [exact (IHl N1 P1 a H1 H3)|exact (IHr N2 P2 a H1 H3)].
  - pose proof (reserved_alphabet dim r (b_quot dim t s q r Ht Hs E) N P) as [R _].
    pose proof E as E0. apply quotient_new_inv in E. destruct E as (n & i & o & -> & Ei & Eo & _ & _ & (j & Ej) & D).
    cbn [no_reserved plain_divisors] in *.
    apply andb_true_iff in N, P. destruct N as [N1 N2], P as [P1 P2].
    assert (Ps : plain_divisors s = true).
    { clear -P2. induction s; simpl in *; auto; try discriminate; apply andb_true_iff in P2; destruct P2; rewrite ?IHs1, ?IHs2; auto. }
    intros a Hi Ho. pose proof Ho as Ho'. unfold is_input, is_output in Hi, Ho. cbn [ts_inputs ts_outputs] in Hi, Ho.
    apply Ei in Hi. apply Eo in Ho. destruct Hi as [Hi|[Hi|Hi]].
    + destruct Ho as [[Ho _]|[_ Ho]]; [exact (IHt N1 P1 a Hi Ho)|exact (Ho Hi)].
    + destruct Ho as [[_ Ho]|[Ho _]]; [exact (Ho Hi)|exact (IHs N2 Ps a Ho Hi)].
    + apply R in Ho'. rewrite Hi, Ej, reserved_prefix in Ho'. discriminate.
Qed.
