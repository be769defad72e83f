From Coq Require Import List String ZArith QArith Bool Arith Lia.
From Verif Require Import Fed.Zone Fed.ZoneFacts Model.Base Model.Expr Model.Guard Model.Loc Model.Component Model.TS Model.Search Model.ParseQuery Model.Recipe Model.Query
  Spec.GuardSpec Spec.StepSpec Spec.SystemSpec Spec.RunSpec Spec.ReachSpec Spec.QuerySpec Spec.StateSpec
  Proofs.GuardFacts Proofs.StepFacts Proofs.SystemFacts Proofs.WfFacts Proofs.RunFacts Proofs.ReachFacts Proofs.RecipeFacts Proofs.CompileFacts.
Import ListNotations.
Local Open Scope list_scope.

(** Induction on states through their lists. *)
Lemma stx_ind2 (P : stx -> Prop) :
  (forall o l r, P (SCmp o l r)) -> (forall l, Forall P l -> P (SAnd l)) -> (forall l, Forall P l -> P (SOr l)) ->
  (forall x, P (SLoc x)) -> (forall e, P e -> P (SNot e)) -> (forall b, P (SBool b)) -> forall e, P e.
Proof.
  intros H1 H2 H3 H4 H5 H6. fix F 1. intros [o l r|l|l|x|e|b].
  - apply H1.
  - apply H2. induction l as [|x l IH]; constructor; [apply F|exact IH].
  - apply H3. induction l as [|x l IH]; constructor; [apply F|exact IH].
  - apply H4.
  - apply H5, F.
  - apply H6.
Qed.

Lemma opt_eqb_eq a b : opt_eqb a b = true <-> a = b.
Proof.
  destruct a, b; simpl; split; intros H; try discriminate; auto.
  - apply String.eqb_eq in H. congruence.
  - injection H as ->. apply String.eqb_refl.
Qed.
Lemma is_named_spec x c : is_named x c = true <-> names_comp x c.
Proof. unfold is_named, names_comp. rewrite andb_true_iff, String.eqb_eq, opt_eqb_eq. tauto. Qed.
Lemma cvar_eqb_eq a b : cvar_eqb a b = true <-> a = b.
Proof.
  unfold cvar_eqb. rewrite !andb_true_iff, !String.eqb_eq, opt_eqb_eq. destruct a, b; simpl. split; [intros [[-> ->] ->]; reflexivity|].
  intros [=]; auto.
Qed.
Lemma component_eqb_eq a b : component_eqb a b = true <-> a = b.
Proof. unfold component_eqb. destruct (component_eq_dec a b); split; congruence. Qed.

Lemma dedup_in l x : In x (dedup l) <-> In x l.
Proof.
  induction l as [|a l IH]; [tauto|]. cbn [dedup]. destruct (dedup l) as [|b m] eqn:E.
  - simpl in *. tauto.
  - destruct (cvar_eqb a b) eqn:C; [apply cvar_eqb_eq in C; subst|]; simpl in *; rewrite <- IH; tauto.
Qed.

(** *** Locations *)
Lemma all_locs_spec l : forall ls,
  (fix all (l : list stx) : res (list cvar) :=
    match l with [] => Ok [] | x :: l' => do a <- get_locations x; do b <- all l'; Ok (a ++ b) end) l = Ok ls ->
  Forall (fun e => forall ls, get_locations e = Ok ls -> forall x, In x ls <-> mentions e x) l ->
  forall x, In x ls <-> fold_right (fun e P => mentions e x \/ P) False l.
Proof.
  induction l as [|e l IH]; intros ls E F x.
  - injection E as <-. simpl. tauto.
  - inv_bind E. inv_bind E. injection E as <-. inversion F as [|? ? F1 F2]; subst. cbn [fold_right].
    rewrite in_app_iff, (F1 _ H x), (IH _ H0 F2 x). tauto.
Qed.
Lemma get_locations_spec e : forall ls, get_locations e = Ok ls -> forall x, In x ls <-> mentions e x.
Proof.
  induction e as [o l r|l IH|l IH|y|e IH|b] using stx_ind2; intros ls E x; cbn [get_locations mentions] in *.
  - injection E as <-. simpl. tauto.
  - eapply all_locs_spec; eauto.
  - inv_bind E. destruct (Nat.eqb _ _); [|discriminate]. injection E as <-. eapply all_locs_spec; eauto.
  - injection E as <-. simpl. tauto.
  - inv_bind E. rewrite <- (IH _ H x). destruct a; [|discriminate]. injection E as <-. tauto.
  - injection E as <-. simpl. tauto.
Qed.

(** *** Constraints *)
Definition state_dec := no_names.
Lemma to_arith_val cs o : forall a, to_arith cs o = Ok a -> forall v,
  (forall c c', In c cs -> In c' cs -> c_name c = c_name c' -> c_special c = c_special c' -> c = c') ->
  forall q, operand_val cs v o q <-> aev no_names v a = Some q.
Proof.
  induction o as [k|x|l IHl r IHr|l IHl r IHr]; intros a E v U q; cbn [to_arith] in E.
  - injection E as <-. simpl. split; [intros H; inversion H; reflexivity|intros [=<-]; constructor].
  - inv_bind E. inv_bind E. injection E as <-. unfold ok_or in *. destruct (find _ cs) as [c|] eqn:Fc; [|discriminate]. injection H as <-.
    destruct (assoc _ _) as [i|] eqn:Ea; [|discriminate]. injection H0 as <-. apply find_some in Fc. destruct Fc as [Hc Hn]. rewrite is_named_spec in Hn.
    simpl. split; [|intros [=<-]; econstructor; eauto].
    intros H. inversion H as [|? c' j Hc' [N1 N2] Ej| |]; subst. assert (c' = c) as -> by (destruct Hn; apply U; congruence). congruence.
  - inv_bind E. inv_bind E. injection E as <-. cbn [aev]. split.
    + intros X. inversion X; subst. rewrite (IHl _ H v U) in H3. rewrite (IHr _ H0 v U) in H5. rewrite H3, H5. reflexivity.
    + destruct (aev no_names v a0) eqn:A; [|discriminate]. destruct (aev no_names v a1) eqn:B; [|discriminate]. intros [=<-].
      constructor; [apply (IHl _ H v U), A|apply (IHr _ H0 v U), B].
  - inv_bind E. inv_bind E. injection E as <-. cbn [aev]. split.
    + intros X. inversion X; subst. rewrite (IHl _ H v U) in H3. rewrite (IHr _ H0 v U) in H5. rewrite H3, H5. reflexivity.
    + destruct (aev no_names v a0) eqn:A; [|discriminate]. destruct (aev no_names v a1) eqn:B; [|discriminate]. intros [=<-].
      constructor; [apply (IHl _ H v U), A|apply (IHr _ H0 v U), B].
Qed.
(** The shape of the translation is that of the operand. *)
Lemma to_arith_shape cs o : forall a, to_arith cs o = Ok a ->
  ieval no_names a = ieval no_names (shape o) /\ is_clk no_names a = is_clk no_names (shape o) /\
  pure_sum no_names a = pure_sum no_names (shape o) /\ lin_sum no_names a = lin_sum no_names (shape o) /\
  simple_side no_names a = simple_side no_names (shape o) /\ is_diff no_names a = is_diff no_names (shape o).
Proof.
  induction o as [k|x|l IHl r IHr|l IHl r IHr]; intros a E; cbn [to_arith] in E.
  - injection E as <-. repeat split.
  - inv_bind E. inv_bind E. injection E as <-. repeat split.
  - inv_bind E. inv_bind E. injection E as <-. destruct (IHl _ H) as (A1 & A2 & A3 & A4 & A5 & A6). destruct (IHr _ H0) as (B1 & B2 & B3 & B4 & B5 & B6).
    unfold simple_side, is_diff. cbn [shape ieval is_clk pure_sum lin_sum]. unfold is_const. cbn [ieval]. rewrite ?A1, ?A2, ?A3, ?A4, ?B1, ?B2, ?B3, ?B4. repeat split.
  - inv_bind E. inv_bind E. injection E as <-. destruct (IHl _ H) as (A1 & A2 & A3 & A4 & A5 & A6). destruct (IHr _ H0) as (B1 & B2 & B3 & B4 & B5 & B6).
    unfold simple_side, is_diff. cbn [shape ieval is_clk pure_sum lin_sum]. unfold is_const. cbn [ieval]. rewrite ?A1, ?A2, ?A3, ?A4, ?B1, ?B2, ?B3, ?B4. repeat split.
Qed.
Lemma basic_shape cs l r a b : to_arith cs l = Ok a -> to_arith cs r = Ok b -> basic_cmp no_names a b = basic_cmp no_names (shape l) (shape r).
Proof.
  intros A B. destruct (to_arith_shape _ _ _ A) as (A1 & A2 & _ & _ & _ & A6). destruct (to_arith_shape _ _ _ B) as (B1 & B2 & _ & _ & _ & B6).
  unfold basic_cmp, is_const. rewrite A1, A2, A6, B1, B2, B6. reflexivity.
Qed.

(** The constraint part of an expression: locations count as true. *)
Fixpoint czone (cs : list component) (v : val) (e : stx) : Prop :=
  match e with
  | SCmp o x y => exists a b, operand_val cs v x a /\ operand_val cs v y b /\ rel_holds o a b
  | SAnd l => fold_right (fun x P => czone cs v x /\ P) True l
  | SOr l => fold_right (fun x P => czone cs v x \/ P) False l
  | SLoc _ => True
  | SNot e' => ~ czone cs v e'
  | SBool b => b = true
  end.
Lemma fold_and_sat v bs : forall b, bsat no_names v (fold_left BAnd bs b) <-> bsat no_names v b /\ fold_right (fun x P => bsat no_names v x /\ P) True bs.
Proof. induction bs as [|c bs IH]; intros b; cbn [fold_left fold_right]; [tauto|]. rewrite IH. cbn [bsat]. tauto. Qed.
Lemma fold_or_sat v bs : forall b, bsat no_names v (fold_left BOr bs b) <-> bsat no_names v b \/ fold_right (fun x P => bsat no_names v x \/ P) False bs.
Proof. induction bs as [|c bs IH]; intros b; cbn [fold_left fold_right]; [tauto|]. rewrite IH. cbn [bsat]. tauto. Qed.
Definition all_bools (cs : list component) := fix all (l : list stx) : res (list bexpr) :=
    match l with [] => Ok [] | x :: l' => do b <- to_bool cs x; do bs <- all l'; Ok (b :: bs) end.
Lemma to_bool_sat cs v : (forall c c', In c cs -> In c' cs -> c_name c = c_name c' -> c_special c = c_special c' -> c = c') ->
  forall e b, to_bool cs e = Ok b -> (bsat no_names v b <-> czone cs v e).
Proof.
  intros U. induction e as [o l r|l IH|l IH|y|e IH|c] using stx_ind2; intros b E; cbn [to_bool czone] in *.
  - inv_bind E. inv_bind E. injection E as <-.
    assert (X : (exists p q, operand_val cs v l p /\ operand_val cs v r q /\ rel_holds o p q) <-> cmp no_names v (rel_holds o) a a0).
    { unfold cmp. split; intros (p & q & P & Q & R); exists p, q; repeat split; auto; try (eapply to_arith_val; eauto; fail);
      try (eapply to_arith_val in P; eauto; fail); try (eapply to_arith_val in Q; eauto). }
    rewrite X. destruct o; reflexivity.
  - inv_bind E. fold (all_bools cs) in H.
    assert (A : forall l bs, Forall (fun e => forall b, to_bool cs e = Ok b -> (bsat no_names v b <-> czone cs v e)) l -> all_bools cs l = Ok bs ->
      (fold_right (fun x P => bsat no_names v x /\ P) True bs <-> fold_right (fun x P => czone cs v x /\ P) True l)).
    { clear. induction l as [|e l IH]; intros bs F E; cbn [all_bools] in E; [injection E as <-; simpl; tauto|]. inv_bind E. inv_bind E. injection E as <-.
      inversion F as [|? ? F1 F2]; subst. cbn [fold_right]. rewrite (F1 _ H), (IH _ F2 H0). tauto. }
    unfold fold_ops in E. destruct a as [|b0 bs]; [discriminate|]. injection E as <-. rewrite fold_and_sat. rewrite <- (A _ _ IH H). cbn [fold_right]. tauto.
  - inv_bind E. fold (all_bools cs) in H.
    assert (A : forall l bs, Forall (fun e => forall b, to_bool cs e = Ok b -> (bsat no_names v b <-> czone cs v e)) l -> all_bools cs l = Ok bs ->
      (fold_right (fun x P => bsat no_names v x \/ P) False bs <-> fold_right (fun x P => czone cs v x \/ P) False l)).
    { clear. induction l as [|e l IH]; intros bs F E; cbn [all_bools] in E; [injection E as <-; simpl; tauto|]. inv_bind E. inv_bind E. injection E as <-.
      inversion F as [|? ? F1 F2]; subst. cbn [fold_right]. rewrite (F1 _ H), (IH _ F2 H0). tauto. }
    unfold fold_ops in E. destruct a as [|b0 bs]; [discriminate|]. injection E as <-. rewrite fold_or_sat. rewrite <- (A _ _ IH H). cbn [fold_right]. tauto.
  - injection E as <-. simpl. tauto.
  - discriminate.
  - injection E as <-. reflexivity.
Qed.
Lemma to_bool_simple cs : forall e b, to_bool cs e = Ok b -> simple_guard no_names b = simple_state e.
Proof.
  assert (FA : forall bs b, simple_guard no_names (fold_left BAnd bs b) = simple_guard no_names b && forallb (simple_guard no_names) bs).
  { induction bs as [|c bs IH]; intros b; cbn [fold_left forallb]; [rewrite andb_true_r; reflexivity|]. rewrite IH. cbn [simple_guard]. rewrite andb_assoc. reflexivity. }
  assert (FO : forall bs b, simple_guard no_names (fold_left BOr bs b) = simple_guard no_names b && forallb (simple_guard no_names) bs).
  { induction bs as [|c bs IH]; intros b; cbn [fold_left forallb]; [rewrite andb_true_r; reflexivity|]. rewrite IH. cbn [simple_guard]. rewrite andb_assoc. reflexivity. }
  assert (A : forall l bs, Forall (fun e => forall b, to_bool cs e = Ok b -> simple_guard no_names b = simple_state e) l -> all_bools cs l = Ok bs ->
    forallb (simple_guard no_names) bs = forallb simple_state l).
  { clear. induction l as [|e l IH]; intros bs F E; cbn [all_bools] in E; [injection E as <-; reflexivity|]. inv_bind E. inv_bind E. injection E as <-.
    inversion F as [|? ? F1 F2]; subst. cbn [forallb]. rewrite (F1 _ H), (IH _ F2 H0). reflexivity. }
  induction e as [o l r|l IH|l IH|y|e IH|c] using stx_ind2; intros b E; cbn [to_bool simple_state] in *.
  - inv_bind E. inv_bind E. injection E as <-. destruct (to_arith_shape _ _ _ H) as (_ & _ & _ & _ & <- & _). destruct (to_arith_shape _ _ _ H0) as (_ & _ & _ & _ & <- & _).
    destruct o; reflexivity.
  - inv_bind E. fold (all_bools cs) in H. unfold fold_ops in E. destruct a as [|b0 bs]; [discriminate|]. injection E as <-. rewrite FA, <- (A _ _ IH H). reflexivity.
  - inv_bind E. fold (all_bools cs) in H. unfold fold_ops in E. destruct a as [|b0 bs]; [discriminate|]. injection E as <-. rewrite FO, <- (A _ _ IH H). reflexivity.
  - injection E as <-. reflexivity.
  - discriminate.
  - injection E as <-. reflexivity.
Qed.

(** Without disjunctions a state is a location part and a constraint part. *)
Lemma holds_split r i v e : plain_state e = true -> (holds r i v e <-> (forall x, mentions e x -> at_loc x r i) /\ czone (components r) v e).
Proof.
  induction e as [o l r'|l IH|l IH|y|e IH|c] using stx_ind2; intros P; cbn [holds mentions czone plain_state] in *; try discriminate.
  - split; [intros H; split; [intros x []|exact H]|tauto].
  - apply andb_true_iff in P. destruct P as [_ P]. induction IH as [|e l F _ IH]; cbn [fold_right]; [split; [intros _; split; [intros x []|exact I]|tauto]|].
    cbn [forallb] in P. apply andb_true_iff in P. destruct P as [P1 P2]. rewrite (F P1), (IH P2). split.
    + intros [[A B] [C D]]. split; [intros x [H|H]; auto|tauto].
    + intros [A [B C]]. repeat split; auto.
  - split; [intros H; split; [intros x <-; exact H|exact I]|intros [H _]; apply H; reflexivity].
  - split; [intros H; split; [intros x []|exact H]|tauto].
Qed.

(** Expressions that are translated have something in every conjunction and no negation. *)
Lemma to_bool_plain cs : forall e b, to_bool cs e = Ok b -> no_or e = true -> plain_state e = true.
Proof.
  induction e as [o l r|l IH|l IH|y|e IH|c] using stx_ind2; intros b E N; cbn [to_bool no_or plain_state] in *; try reflexivity; try discriminate.
  inv_bind E. fold (all_bools cs) in H. unfold fold_ops in E. destruct a as [|b0 bs]; [discriminate|]. apply andb_true_iff. split.
  - destruct l; [discriminate|reflexivity].
  - clear E. revert H. generalize (b0 :: bs). induction IH as [|e l F _ IH]; intros cs0 H; [reflexivity|]. cbn [all_bools] in H. inv_bind H. inv_bind H.
    cbn [forallb] in *. apply andb_true_iff in N. destruct N as [N1 N2]. apply andb_true_iff. split; [eapply F; eauto|eapply IH; eauto].
Qed.

(** *** Location trees *)
Lemma at_loc_known x r i : at_loc x r i -> exists c, In c (components r) /\ names_comp x c.
Proof.
  induction 1 as [c H| ? ? ? ? _ (c & A & B)| ? ? ? ? _ (c & A & B)| ? ? ? ? _ (c & A & B)| ? ? ? ? _ (c & A & B)| ? ? ? ? ? _ (c & A & B)| ? ? ? ? ? _ (c & A & B)];
    [exists c; split; [left; reflexivity|exact H]|..]; exists c; (split; [cbn [components]; apply in_or_app; auto|exact B]).
Qed.
Lemma distinct_two (l r : list component) : NoDup (map (fun c => (c_name c, c_special c)) (l ++ r)) ->
  NoDup (map (fun c => (c_name c, c_special c)) l) /\ NoDup (map (fun c => (c_name c, c_special c)) r) /\
  forall x c c', In c l -> names_comp x c -> In c' r -> names_comp x c' -> False.
Proof.
  rewrite map_app. intros N. destruct (nodup_split _ _ N) as (A & B & C). split; [exact A|]. split; [exact B|].
  intros x c c' Hc [N1 N2] Hc' [M1 M2]. apply (C (c_name c, c_special c)).
  - apply in_map_iff. exists c. auto.
  - apply in_map_iff. exists c'. split; [congruence|exact Hc'].
Qed.
Lemma distinct_unique (l : list component) : NoDup (map (fun c => (c_name c, c_special c)) l) ->
  forall c c', In c l -> In c' l -> c_name c = c_name c' -> c_special c = c_special c' -> c = c'.
Proof.
  induction l as [|a l IH]; intros N c c' Hc Hc' E1 E2; [destruct Hc|]. cbn [map] in N. destruct Hc as [->|Hc], Hc' as [->|Hc']; auto.
  - inversion N as [|? ? X _]; subst. exfalso. apply X. apply in_map_iff. exists c'. split; [congruence|exact Hc'].
  - inversion N as [|? ? X _]; subst. exfalso. apply X. apply in_map_iff. exists c. split; [congruence|exact Hc].
  - inversion N; subst. eapply IH; eauto.
Qed.
Lemma distinct_unambiguous l : NoDup (map (fun c => (c_name c, c_special c)) l) -> ambiguous_component l = false.
Proof.
  intros N. unfold ambiguous_component. apply not_true_iff_false. intros H. apply existsb_exists in H. destruct H as ([c c'] & Hp & H). cbn [fst snd] in H.
  apply in_prod_iff in Hp. rewrite !andb_true_iff, String.eqb_eq, opt_eqb_eq in H. destruct H as [[H1 H2] H3].
  assert (c = c') by (eapply distinct_unique; eauto; tauto). subst. apply negb_true_iff in H1. assert (component_eqb c' c' = true) by (apply component_eqb_eq; reflexivity). congruence.
Qed.
Lemma unambiguous ls : ambiguous_location ls = false -> forall x y, In x ls -> In y ls -> v_comp x = v_comp y -> v_id x = v_id y -> x = y.
Proof.
  intros A x y Hx Hy E1 E2. destruct (cvar_eqb x y) eqn:C; [apply cvar_eqb_eq, C|]. exfalso. apply not_true_iff_false in A. apply A.
  apply existsb_exists. exists (x, y). split; [apply in_prod; assumption|]. cbn [fst snd]. rewrite C, !andb_true_iff. repeat split; [apply String.eqb_eq, E1|apply opt_eqb_eq, E2].
Qed.
Lemma ambiguous_no ls : (forall x y, In x ls -> In y ls -> v_comp x = v_comp y -> v_id x = v_id y -> x = y) -> ambiguous_location ls = false.
Proof.
  intros U. apply not_true_iff_false. intros H. apply existsb_exists in H. destruct H as ([x y] & Hp & H). cbn [fst snd] in H.
  apply in_prod_iff in Hp. rewrite !andb_true_iff, String.eqb_eq, opt_eqb_eq in H. destruct H as [[H1 H2] H3].
  assert (x = y) by (apply U; tauto). subst. apply negb_true_iff in H1. assert (cvar_eqb y y = true) by (apply cvar_eqb_eq; reflexivity). congruence.
Qed.

(** Case analysis on a compiled recipe. *)
Lemma compile_cases least pre dim r k s k' : compile_at least pre dim r k = Ok (s, k') ->
  match r with
  | RSimple c => exists cc, compile_component dim c k = Ok cc /\ s = TSimple cc
  | RComp l r' => exists sl sr k1 ins outs lo ro co, compile_at least pre dim l k = Ok (sl, k1) /\ compile_at least pre dim r' k1 = Ok (sr, k') /\ s = TComp sl sr ins outs lo ro co
  | RConj l r' => exists sl sr k1 ins outs, compile_at least pre dim l k = Ok (sl, k1) /\ compile_at least pre dim r' k1 = Ok (sr, k') /\ s = TConj sl sr ins outs
  | RQuot l r' q => exists sl sr k1 ins outs n, compile_at least pre dim l k = Ok (sl, k1) /\ compile_at least pre dim r' k1 = Ok (sr, k') /\ s = TQuot sl sr ins outs n q
  end.
Proof.
  destruct r as [c|l r|l r|l r q]; cbn [compile_at]; intros E.
  - inv_bind E. injection E as <- <-. eauto.
  - inv_bind E. destruct a as [l' k1]. inv_bind E. destruct a as [r' k2]. inv_bind E. injection E as <- <-.
    apply composition_new_inv in H1. destruct H1 as (_ & ins & outs & lo & ro & co & -> & _). repeat eexists; eauto.
  - inv_bind E. destruct a as [l' k1]. inv_bind E. destruct a as [r' k2]. inv_bind E. injection E as <- <-.
    unfold conjunction_ts in H1. inv_bind H1. inv_bind H1. destruct a1; [|discriminate]. injection H1 as <-.
    apply conjunction_new_inv in H2. destruct H2 as (-> & _). repeat eexists; eauto.
  - inv_bind E. destruct a as [l' k1]. inv_bind E. destruct a as [r' k2]. inv_bind E. injection E as <- <-.
    unfold quotient_ts in H1. destruct (negb _); [discriminate|]. inv_bind H1. destruct a0; [|discriminate]. inv_bind H1. destruct a0; [|discriminate].
    apply quotient_new_inv in H1. destruct H1 as (n & ins & outs & -> & _). repeat eexists; eauto.
Qed.

Lemma compile_loc_names dim c k cc : compile_component dim c k = Ok cc -> forall t, In t (cc_locs cc) ->
  exists n, lt_id t = LSimple n /\ exists l, In l (c_locs c) /\ l_id l = n.
Proof.
  intros E t Ht. destruct (compile_inv _ _ _ _ _ _ E) as (ls & es & E1 & _ & E2 & _). rewrite E2 in Ht. apply keep_last_in in Ht.
  destruct (mapM_in _ _ _ E1) as [_ M]. destruct (M _ Ht) as (x & Hx & Ex). exists (l_id x). split; [eapply lt_simple_id; exact Ex|eauto].
Qed.

Lemma lt_compose_id dim a b c p : lt_compose dim a b c = Ok p ->
  lt_id p = match c with CConj => LConj (lt_id a) (lt_id b) | _ => LComp (lt_id a) (lt_id b) end.
Proof. unfold lt_compose. destruct c; simpl; intros E; try discriminate; injection E as <-; reflexivity. Qed.

Section Tree.
Variables (least pre : nat -> ts -> res bool) (dim : nat) (ls : list cvar).
Hypothesis Hu : forall x y, In x ls -> In y ls -> v_comp x = v_comp y -> v_id x = v_id y -> x = y.

(** The tree fits exactly the locations in which all mentioned components are where they are said to be. *)
Definition tree_ok (r : recipe) (i : locid) : Prop := forall x, In x ls -> (exists c, In c (components r) /\ names_comp x c) -> at_loc x r i.
Lemma tree_ok_node l r i j (m : recipe) (k : locid) : distinct_names (RComp l r) -> components m = components l ++ components r ->
  (forall x, at_loc x m k <-> at_loc x l i \/ at_loc x r j) ->
  (tree_ok m k <-> tree_ok l i /\ tree_ok r j).
Proof.
  intros N Em A. destruct (distinct_two _ _ N) as (_ & _ & D). unfold tree_ok. rewrite Em. split.
  - intros H. split; intros x Hx (c & Hc & Nc).
    + assert (X : at_loc x m k) by (apply H; [exact Hx|exists c; split; [apply in_or_app; auto|exact Nc]]). apply A in X. destruct X as [X|X]; [exact X|].
      destruct (at_loc_known _ _ _ X) as (c' & Hc' & Nc'). destruct (D x c c' Hc Nc Hc' Nc').
    + assert (X : at_loc x m k) by (apply H; [exact Hx|exists c; split; [apply in_or_app; auto|exact Nc]]). apply A in X. destruct X as [X|X]; [|exact X].
      destruct (at_loc_known _ _ _ X) as (c' & Hc' & Nc'). destruct (D x c' c Hc' Nc' Hc Nc).
  - intros [H1 H2] x Hx (c & Hc & Nc). apply A. apply in_app_or in Hc. destruct Hc as [Hc|Hc]; [left; apply H1|right; apply H2]; eauto.
Qed.

Lemma tree_spec r : forall k s k' t, compile_at least pre dim r k = Ok (s, k') -> distinct_names r -> construct_tree dim ls r s = Ok t ->
  forall l, In l (all_locations dim s) -> no_special (lt_id l) -> (fits (lt_id l) (lt_id t) <-> tree_ok r (lt_id l)).
Proof.
  induction r as [c|l IHl r IHr|l IHl r IHr|l IHl r IHr q]; intros k s k' t E N Et p Hp Sp; pose proof (compile_cases _ _ _ _ _ _ _ E) as C; cbn in C.
  - destruct C as (cc & Ec & ->). cbn [construct_tree all_locations] in Et, Hp. destruct (compile_loc_names _ _ _ _ Ec _ Hp) as (n & En & _). rewrite En in *.
    unfold tree_ok. cbn [components]. destruct (find _ ls) as [x|] eqn:Fx.
    + apply find_some in Fx. destruct Fx as [Hx Nx]. rewrite is_named_spec in Nx. unfold ok_or in Et. destruct (find _ (cc_locs cc)) as [t'|] eqn:Ft; [|discriminate]. injection Et as <-.
      apply find_some in Ft. destruct Ft as [_ Ft]. apply locid_eqb_eq in Ft. rewrite Ft. split.
      * intros F y Hy (c' & [<-|[]] & Ny). assert (y = x) as -> by (destruct Nx, Ny; apply Hu; congruence). inversion F; subst. constructor. exact Nx.
      * intros H. specialize (H x Hx (ex_intro _ c (conj (or_introl eq_refl) Nx))). inversion H; subst. constructor.
    + injection Et as <-. split; [|intros _; constructor]. intros _ x Hx (c' & [<-|[]] & Nx). apply is_named_spec in Nx.
      apply (find_none _ _ Fx) in Hx. congruence.
  - destruct C as (sl & sr & k1 & ins & outs & lo & ro & co & El & Er & ->). cbn [construct_tree all_locations] in Et, Hp.
    inv_bind Et. inv_bind Et. apply in_all_compose in Hp; [|right; reflexivity]. destruct Hp as (u & w & Hu' & Hw & Ep).
    rewrite (lt_compose_id _ _ _ _ _ Ep) in *. rewrite (lt_compose_id _ _ _ _ _ Et). destruct Sp as [Su Sw]. destruct (distinct_two _ _ N) as (N1 & N2 & _).
    rewrite (tree_ok_node l r (lt_id u) (lt_id w) (RComp l r) (LComp (lt_id u) (lt_id w)) N eq_refl); [|intros x; split; [intros X; inversion X; subst; auto|intros [X|X]; [apply at_comp_l|apply at_comp_r]; exact X]].
    rewrite <- (IHl _ _ _ _ El N1 H u Hu' Su), <- (IHr _ _ _ _ Er N2 H0 w Hw Sw). split; [intros F; inversion F; subst; auto|intros [A B]; constructor; assumption].
  - destruct C as (sl & sr & k1 & ins & outs & El & Er & ->). cbn [construct_tree all_locations] in Et, Hp.
    inv_bind Et. inv_bind Et. apply in_all_compose in Hp; [|left; reflexivity]. destruct Hp as (u & w & Hu' & Hw & Ep).
    rewrite (lt_compose_id _ _ _ _ _ Ep) in *. rewrite (lt_compose_id _ _ _ _ _ Et). destruct Sp as [Su Sw]. destruct (distinct_two _ _ N) as (N1 & N2 & _).
    rewrite (tree_ok_node l r (lt_id u) (lt_id w) (RConj l r) (LConj (lt_id u) (lt_id w)) N eq_refl); [|intros x; split; [intros X; inversion X; subst; auto|intros [X|X]; [apply at_conj_l|apply at_conj_r]; exact X]].
    rewrite <- (IHl _ _ _ _ El N1 H u Hu' Su), <- (IHr _ _ _ _ Er N2 H0 w Hw Sw). split; [intros F; inversion F; subst; auto|intros [A B]; constructor; assumption].
  - destruct C as (sl & sr & k1 & ins & outs & n & El & Er & ->). cbn [construct_tree all_locations] in Et, Hp.
    inv_bind Et. inv_bind Et. injection Et as <-. apply in_app_or in Hp. destruct Hp as [Hp|[<-|[<-|[]]]]; [|destruct Sp|destruct Sp].
    apply in_map_iff in Hp. destruct Hp as ([u w] & <- & Hp). apply in_prod_iff in Hp. destruct Hp as [Hu' Hw]. cbn [fst snd lt_quotient lt_id] in *.
    destruct Sp as [Su Sw]. destruct (distinct_two _ _ N) as (N1 & N2 & _).
    rewrite (tree_ok_node l r (lt_id u) (lt_id w) (RQuot l r q) (LQuot (lt_id u) (lt_id w)) N eq_refl); [|intros x; split; [intros X; inversion X; subst; auto|intros [X|X]; [apply at_quot_l|apply at_quot_r]; exact X]].
    rewrite <- (IHl _ _ _ _ El N1 H u Hu' Su), <- (IHr _ _ _ _ Er N2 H0 w Hw Sw). split; [intros F; inversion F; subst; auto|intros [A B]; constructor; assumption].
Qed.

Lemma tree_pattern r : forall k s k' t, compile_at least pre dim r k = Ok (s, k') -> construct_tree dim ls r s = Ok t ->
  pattern dim s t /\ (is_partial (lt_id t) = false -> In t (all_locations dim s)) /\
  (forall x c, In x ls -> In c (components r) -> names_comp x c -> exists l, In l (c_locs c) /\ l_id l = v_name x) /\
  (is_partial (lt_id t) = false <-> forall c, In c (components r) -> exists x, In x ls /\ names_comp x c).
Proof.
  induction r as [c|l IHl r IHr|l IHl r IHr|l IHl r IHr q]; intros k s k' t E Et; pose proof (compile_cases _ _ _ _ _ _ _ E) as C; cbn in C.
  - destruct C as (cc & Ec & ->). cbn [construct_tree all_locations pattern components] in *. destruct (find _ ls) as [x|] eqn:Fx.
    + apply find_some in Fx. destruct Fx as [Hx Nx]. rewrite is_named_spec in Nx. unfold ok_or in Et. destruct (find _ (cc_locs cc)) as [t'|] eqn:Ft; [|discriminate]. injection Et as <-.
      apply find_some in Ft. destruct Ft as [Ht Ft]. apply locid_eqb_eq in Ft. split; [auto|]. split; [auto|]. split.
      * intros y c' Hy [<-|[]] Ny. assert (y = x) as -> by (destruct Nx, Ny; apply Hu; congruence).
        destruct (compile_loc_names _ _ _ _ Ec _ Ht) as (n & En & l & Hl & El). exists l. split; [exact Hl|]. congruence.
      * rewrite Ft. split; [intros _ c' [<-|[]]; eauto|reflexivity].
    + injection Et as <-. split; [auto|]. split; [discriminate|]. split.
      * intros x c' Hx [<-|[]] Nx. apply is_named_spec in Nx. apply (find_none _ _ Fx) in Hx. congruence.
      * split; [discriminate|]. intros H. destruct (H c (or_introl eq_refl)) as (x & Hx & Nx). apply is_named_spec in Nx. apply (find_none _ _ Fx) in Hx. congruence.
  - destruct C as (sl & sr & k1 & ins & outs & lo & ro & co & El & Er & ->). cbn [construct_tree all_locations pattern components] in *.
    inv_bind Et. inv_bind Et. destruct (IHl _ _ _ _ El H) as (P1 & P2 & P3 & P4). destruct (IHr _ _ _ _ Er H0) as (Q1 & Q2 & Q3 & Q4). rewrite (lt_compose_id _ _ _ _ _ Et). cbn [is_partial].
    rewrite orb_false_iff. split; [exists a, a0; auto|]. split; [|split].
    + intros [A B]. apply in_all_compose; [right; reflexivity|]. exists a, a0. auto.
    + intros x c Hx Hc. apply in_app_or in Hc. destruct Hc; eauto.
    + rewrite P4, Q4. split; [intros [A B] c Hc; apply in_app_or in Hc; destruct Hc; auto|intros A; split; intros c Hc; apply A, in_or_app; auto].
  - destruct C as (sl & sr & k1 & ins & outs & El & Er & ->). cbn [construct_tree all_locations pattern components] in *.
    inv_bind Et. inv_bind Et. destruct (IHl _ _ _ _ El H) as (P1 & P2 & P3 & P4). destruct (IHr _ _ _ _ Er H0) as (Q1 & Q2 & Q3 & Q4). rewrite (lt_compose_id _ _ _ _ _ Et). cbn [is_partial].
    rewrite orb_false_iff. split; [exists a, a0; auto|]. split; [|split].
    + intros [A B]. apply in_all_compose; [left; reflexivity|]. exists a, a0. auto.
    + intros x c Hx Hc. apply in_app_or in Hc. destruct Hc; eauto.
    + rewrite P4, Q4. split; [intros [A B] c Hc; apply in_app_or in Hc; destruct Hc; auto|intros A; split; intros c Hc; apply A, in_or_app; auto].
  - destruct C as (sl & sr & k1 & ins & outs & n & El & Er & ->). cbn [construct_tree all_locations pattern components] in *.
    inv_bind Et. inv_bind Et. injection Et as <-. destruct (IHl _ _ _ _ El H) as (P1 & P2 & P3 & P4). destruct (IHr _ _ _ _ Er H0) as (Q1 & Q2 & Q3 & Q4). cbn [lt_quotient lt_id is_partial].
    rewrite orb_false_iff. split; [exists a, a0; auto|]. split; [|split].
    + intros [A B]. apply in_or_app. left. apply in_map_iff. exists (a, a0). split; [reflexivity|]. apply in_prod; auto.
    + intros x c Hx Hc. apply in_app_or in Hc. destruct Hc; eauto.
    + rewrite P4, Q4. split; [intros [A B] c Hc; apply in_app_or in Hc; destruct Hc; auto|intros A; split; intros c Hc; apply A, in_or_app; auto].
Qed.

Lemma keep_last_has l n : (exists t, In t l /\ lt_id t = LSimple n) -> exists t, In t (keep_last l) /\ lt_id t = LSimple n.
Proof.
  induction l as [|a l IH]; intros (t & Ht & E); [destruct Ht|]. cbn [keep_last]. destruct (existsb _ l) eqn:X.
  - apply IH. destruct Ht as [->|Ht]; [|eauto]. apply existsb_exists in X. destruct X as (u & Hu' & Eu). apply locid_eqb_eq in Eu. exists u. split; [exact Hu'|congruence].
  - destruct Ht as [->|Ht]; [exists t; split; [left; reflexivity|exact E]|]. destruct (IH (ex_intro _ t (conj Ht E))) as (u & Hu' & Eu). exists u. split; [right; exact Hu'|exact Eu].
Qed.
Lemma tree_total r : forall k s k', compile_at least pre dim r k = Ok (s, k') ->
  (construct_tree dim ls r s = Err \/ exists t, construct_tree dim ls r s = Ok t) /\
  ((forall x c, In x ls -> In c (components r) -> names_comp x c -> exists l, In l (c_locs c) /\ l_id l = v_name x) -> exists t, construct_tree dim ls r s = Ok t).
Proof.
  assert (Q : forall (sl sr : ts) l r mk,
    ((construct_tree dim ls l sl = Err \/ exists t, construct_tree dim ls l sl = Ok t) /\
     ((forall x c, In x ls -> In c (components l) -> names_comp x c -> exists l, In l (c_locs c) /\ l_id l = v_name x) -> exists t, construct_tree dim ls l sl = Ok t)) ->
    ((construct_tree dim ls r sr = Err \/ exists t, construct_tree dim ls r sr = Ok t) /\
     ((forall x c, In x ls -> In c (components r) -> names_comp x c -> exists l, In l (c_locs c) /\ l_id l = v_name x) -> exists t, construct_tree dim ls r sr = Ok t)) ->
    (forall a b, exists t : loctree, mk a b = Ok t) ->
    let x := (do a <- construct_tree dim ls l sl; do b <- construct_tree dim ls r sr; mk a b) in
    (x = Err \/ exists t, x = Ok t) /\
    ((forall x c, In x ls -> In c (components l ++ components r) -> names_comp x c -> exists l, In l (c_locs c) /\ l_id l = v_name x) -> exists t, x = Ok t)).
  { intros sl sr l r0 mk [A1 A2] [B1 B2] M. cbn zeta. split.
    - destruct A1 as [->|[a ->]]; [left; reflexivity|]. destruct B1 as [->|[b ->]]; [left; reflexivity|]. cbn. right. apply M.
    - intros H. destruct A2 as [a ->]; [intros x c Hx Hc; apply H; [exact Hx|apply in_or_app; auto]|]. destruct B2 as [b ->]; [intros x c Hx Hc; apply H; [exact Hx|apply in_or_app; auto]|]. apply M. }
  induction r as [c|l IHl r IHr|l IHl r IHr|l IHl r IHr q]; intros k s k' E; pose proof (compile_cases _ _ _ _ _ _ _ E) as C; cbn in C.
  - destruct C as (cc & Ec & ->). cbn [construct_tree all_locations components]. destruct (find _ ls) as [x|] eqn:Fx; [|split; [right|intros _]; eauto].
    apply find_some in Fx. destruct Fx as [Hx Nx]. rewrite is_named_spec in Nx. unfold ok_or. destruct (find _ (cc_locs cc)) as [t'|] eqn:Ft; [split; [right|intros _]; eauto|].
    split; [auto|]. intros H. exfalso. destruct (H x c Hx (or_introl eq_refl) Nx) as (l & Hl & El).
    destruct (compile_inv _ _ _ _ _ _ Ec) as (lt & es & E1 & _ & E2 & _). destruct (mapM_in _ _ _ E1) as [M _]. destruct (M _ Hl) as (t & Ht & Et).
    destruct (keep_last_has lt (v_name x)) as (u & Hu' & Eu); [exists t; split; [exact Ht|destruct (lt_simple_id _ _ _ _ Et) as [X _]; rewrite X; f_equal; exact El]|].
    rewrite <- E2 in Hu'. apply (find_none _ _ Ft) in Hu'. rewrite Eu, locid_eqb_refl in Hu'. discriminate.
  - destruct C as (sl & sr & k1 & ins & outs & lo & ro & co & El & Er & ->). cbn [construct_tree components].
    apply (Q sl sr l r (fun a b => lt_compose dim a b CComp)); [eapply IHl; eauto|eapply IHr; eauto|]. intros a b. apply lt_compose_ok. right. reflexivity.
  - destruct C as (sl & sr & k1 & ins & outs & El & Er & ->). cbn [construct_tree components].
    apply (Q sl sr l r (fun a b => lt_compose dim a b CConj)); [eapply IHl; eauto|eapply IHr; eauto|]. intros a b. apply lt_compose_ok. left. reflexivity.
  - destruct C as (sl & sr & k1 & ins & outs & n & El & Er & ->). cbn [construct_tree components].
    apply (Q sl sr l r (fun a b => Ok (lt_quotient a b))); [eapply IHl; eauto|eapply IHr; eauto|]. eauto.
Qed.
End Tree.

(** *** The whole state *)
Lemma get_state_inv dim e r s st : get_state dim e r s = Ok st ->
  exists ls b t z, ambiguous_component (components r) = false /\ get_locations e = Ok ls /\ ambiguous_location (dedup ls) = false /\
    construct_tree dim (dedup ls) r s = Ok t /\ to_bool (components r) e = Ok b /\ apply_constraints dim b no_names funiv = Ok z /\ st = mkS t z.
Proof.
  unfold get_state. destruct (ambiguous_component _); [discriminate|]. intros E. inv_bind E. destruct (ambiguous_location _) eqn:A; [discriminate|].
  inv_bind E. inv_bind E. inv_bind E. injection E as <-. exists a, a1, a0, a2. auto 8.
Qed.
Lemma compile_at_of least pre dim r s : compile least pre dim r = Ok s -> exists k, compile_at least pre (dim + 1) r 0 = Ok (s, k).
Proof. unfold compile. intros E. inv_bind E. destruct a. injection E as ->. eauto. Qed.

Lemma get_state_sound least pre dim r s e st : compile least pre dim r = Ok s -> distinct_names r -> no_or e = true -> simple_state e = true ->
  get_state (dim + 1) e r s = Ok st ->
  (forall l v, In l (all_locations (dim + 1) s) -> no_special (lt_id l) -> val_ok (dim + 1) v ->
     (hits (dim + 1) st l v <-> (forall x, mentions e x -> (exists c, In c (components r) /\ names_comp x c) -> at_loc x r (lt_id l)) /\ czone (components r) v e)) /\
  plain_state e = true /\
  pattern (dim + 1) s (s_loc st) /\ (is_partial (lt_id (s_loc st)) = false -> In (s_loc st) (all_locations (dim + 1) s)) /\
  (is_partial (lt_id (s_loc st)) = false <-> forall c, In c (components r) -> exists x, mentions e x /\ names_comp x c).
Proof.
  intros C N O Si E. apply compile_at_of in C. destruct C as [k C]. apply get_state_inv in E. destruct E as (ls & b & t & z & A & El & Al & Et & Eb & Ez & ->).
  cbn [s_loc]. assert (M : forall x, In x (dedup ls) <-> mentions e x) by (intros x; rewrite dedup_in; apply get_locations_spec; exact El).
  pose proof (unambiguous _ Al) as U. destruct (tree_pattern least pre (dim + 1) (dedup ls) U r _ _ _ _ C Et) as (P1 & P2 & _ & P4).
  split; [|split; [eapply to_bool_plain; eauto|split; [exact P1|split; [exact P2|]]]].
  - intros l v Hl Sl Hv. unfold hits. cbn [s_loc s_zone]. rewrite (tree_spec least pre (dim + 1) (dedup ls) U r _ _ _ _ C N Et l Hl Sl).
    rewrite <- (to_bool_simple _ _ _ Eb) in Si. rewrite (apply_constraints_sound _ _ _ Si _ _ Ez v).
    rewrite (to_bool_sat _ v (distinct_unique _ N) _ _ Eb), funiv_sem. unfold tree_ok. split.
    + intros (T & _ & Z). split; [intros x Hx; apply T, M, Hx|exact Z].
    + intros (T & Z). split; [intros x Hx; apply T, M, Hx|auto].
  - rewrite P4. split; intros H c Hc; destruct (H c Hc) as (x & Hx & Nx); exists x; (split; [apply M, Hx|exact Nx]).
Qed.

Lemma to_arith_total cs o : (forall c c', In c cs -> In c' cs -> c_name c = c_name c' -> c_special c = c_special c' -> c = c') ->
  (to_arith cs o = Err \/ exists a, to_arith cs o = Ok a) /\ forall r, components r = cs -> ((exists a, to_arith cs o = Ok a) <-> clocks_known r o).
Proof.
  intros U. induction o as [k|x|a [A1 A2] b [B1 B2]|a [A1 A2] b [B1 B2]]; cbn [to_arith clocks_known].
  - split; [eauto|]. intros r _. split; eauto.
  - unfold ok_or. destruct (find (is_named x) cs) as [c|] eqn:F.
    + apply find_some in F. destruct F as [Hc Nc]. rewrite is_named_spec in Nc. cbn. destruct (assoc _ _) as [i|] eqn:Ea; cbn.
      * split; [eauto|]. intros r <-. split; eauto 8.
      * split; [auto|]. intros r <-. split; [intros [a [=]]|]. intros (c' & i & Hc' & Nc' & Ei). assert (c' = c) as -> by (destruct Nc, Nc'; apply U; congruence). congruence.
    + cbn. split; [auto|]. intros r <-. split; [intros [a [=]]|]. intros (c' & i & Hc' & Nc' & Ei). apply is_named_spec in Nc'. apply (find_none _ _ F) in Hc'. congruence.
  - split.
    + destruct A1 as [->|[x ->]]; [auto|]. destruct B1 as [->|[y ->]]; cbn; eauto.
    + intros r Er. rewrite <- (A2 r Er), <- (B2 r Er). destruct A1 as [->|[x ->]]; cbn; [split; [intros [? [=]]|intros [[? [=]] _]]|].
      destruct B1 as [->|[y ->]]; cbn; [split; [intros [? [=]]|intros [_ [? [=]]]]|]. split; eauto.
  - split.
    + destruct A1 as [->|[x ->]]; [auto|]. destruct B1 as [->|[y ->]]; cbn; eauto.
    + intros r Er. rewrite <- (A2 r Er), <- (B2 r Er). destruct A1 as [->|[x ->]]; cbn; [split; [intros [? [=]]|intros [[? [=]] _]]|].
      destruct B1 as [->|[y ->]]; cbn; [split; [intros [? [=]]|intros [_ [? [=]]]]|]. split; eauto.
Qed.
Lemma to_bool_total r e : distinct_names r -> plain_state e = true ->
  (to_bool (components r) e = Err \/ exists b, to_bool (components r) e = Ok b) /\ ((exists b, to_bool (components r) e = Ok b) <-> state_clocks r e).
Proof.
  intros N. pose proof (distinct_unique _ N) as U.
  induction e as [o x y|l IH|l IH|y|e IH|c] using stx_ind2; cbn [plain_state to_bool state_clocks]; intros P; try discriminate; [| |split; [eauto|split; eauto]|split; [eauto|split; eauto]].
  - destruct (to_arith_total _ x U) as [A1 A2], (to_arith_total _ y U) as [B1 B2]. rewrite <- (A2 r eq_refl), <- (B2 r eq_refl).
    destruct A1 as [->|[p ->]]; cbn; [split; [auto|split; [intros [? [=]]|intros [[? [=]] _]]]|].
    destruct B1 as [->|[q ->]]; cbn; [split; [auto|split; [intros [? [=]]|intros [_ [? [=]]]]]|]. split; [eauto|split; eauto].
  - fold (all_bools (components r)). apply andb_true_iff in P. destruct P as [Pn P].
    assert (A : (all_bools (components r) l = Err \/ exists bs, all_bools (components r) l = Ok bs /\ List.length bs = List.length l) /\
      ((exists bs, all_bools (components r) l = Ok bs) <-> fold_right (fun x P => state_clocks r x /\ P) True l)).
    { clear Pn. induction IH as [|e l F _ IH]; cbn [all_bools fold_right]; [split; [right; exists []; auto|split; eauto]|].
      cbn [forallb] in P. apply andb_true_iff in P. destruct P as [P1 P2]. destruct (F P1) as [F1 F2]. destruct (IH P2) as [G1 G2]. rewrite <- F2, <- G2.
      destruct F1 as [->|[b ->]]; cbn; [split; [auto|split; [intros [? [=]]|intros [[? [=]] _]]]|].
      destruct G1 as [->|(bs & -> & Hlen)]; cbn; [split; [auto|split; [intros [? [=]]|intros [_ [? [=]]]]]|].
      split; [right; exists (b :: bs); cbn; auto|split; eauto]. }
    destruct A as [A1 A2]. rewrite <- A2. destruct A1 as [->|(bs & -> & Hlen)]; cbn.
    + split; [auto|]. split; intros [? [=]].
    + destruct bs as [|b bs]; [destruct l; [discriminate Pn|discriminate Hlen]|]. cbn. split; [eauto|split; eauto].
Qed.
Lemma to_bool_basic cs : forall e b, to_bool cs e = Ok b -> basic_guard no_names b = basic_state e.
Proof.
  assert (FA : forall bs b, basic_guard no_names (fold_left BAnd bs b) = basic_guard no_names b && forallb (basic_guard no_names) bs).
  { induction bs as [|c bs IH]; intros b; cbn [fold_left forallb]; [rewrite andb_true_r; reflexivity|]. rewrite IH. cbn [basic_guard]. rewrite andb_assoc. reflexivity. }
  assert (FO : forall bs b, basic_guard no_names (fold_left BOr bs b) = basic_guard no_names b && forallb (basic_guard no_names) bs).
  { induction bs as [|c bs IH]; intros b; cbn [fold_left forallb]; [rewrite andb_true_r; reflexivity|]. rewrite IH. cbn [basic_guard]. rewrite andb_assoc. reflexivity. }
  assert (A : forall l bs, Forall (fun e => forall b, to_bool cs e = Ok b -> basic_guard no_names b = basic_state e) l -> all_bools cs l = Ok bs ->
    forallb (basic_guard no_names) bs = forallb basic_state l).
  { clear. induction l as [|e l IH]; intros bs F E; cbn [all_bools] in E; [injection E as <-; reflexivity|]. inv_bind E. inv_bind E. injection E as <-.
    inversion F as [|? ? F1 F2]; subst. cbn [forallb]. rewrite (F1 _ H), (IH _ F2 H0). reflexivity. }
  induction e as [o l r|l IH|l IH|y|e IH|c] using stx_ind2; intros b E; cbn [to_bool basic_state] in *.
  - inv_bind E. inv_bind E. injection E as <-. rewrite <- (basic_shape _ _ _ _ _ H H0). destruct o; reflexivity.
  - inv_bind E. fold (all_bools cs) in H. unfold fold_ops in E. destruct a as [|b0 bs]; [discriminate|]. injection E as <-. rewrite FA, <- (A _ _ IH H). reflexivity.
  - inv_bind E. fold (all_bools cs) in H. unfold fold_ops in E. destruct a as [|b0 bs]; [discriminate|]. injection E as <-. rewrite FO, <- (A _ _ IH H). reflexivity.
  - injection E as <-. reflexivity.
  - discriminate.
  - injection E as <-. reflexivity.
Qed.
Lemma basic_simple_state cs e b : to_bool cs e = Ok b -> basic_state e = true -> simple_state e = true.
Proof. intros E B. rewrite <- (to_bool_simple _ _ _ E). apply basic_simple. rewrite (to_bool_basic _ _ _ E). exact B. Qed.
Lemma get_locations_total e : plain_state e = true -> exists ls, get_locations e = Ok ls.
Proof.
  induction e as [o x y|l IH|l IH|y|e IH|c] using stx_ind2; cbn [plain_state get_locations]; intros P; try discriminate; eauto.
  apply andb_true_iff in P. destruct P as [_ P]. induction IH as [|e l F _ IH]; [eauto|]. cbn [forallb] in P. apply andb_true_iff in P. destruct P as [P1 P2].
  destruct (F P1) as [a ->]. destruct (IH P2) as [b ->]. cbn. eauto.
Qed.
Lemma get_state_total least pre dim r s e : compile least pre dim r = Ok s -> distinct_names r -> plain_state e = true -> basic_state e = true ->
  (acceptable r e /\ exists st, get_state (dim + 1) e r s = Ok st) \/ (~ acceptable r e /\ get_state (dim + 1) e r s = Err).
Proof.
  intros C N P B. apply compile_at_of in C. destruct C as [k C]. unfold get_state. rewrite (distinct_unambiguous _ N).
  destruct (get_locations_total e P) as [ls El]. rewrite El. cbn [bind].
  assert (M : forall x, In x (dedup ls) <-> mentions e x) by (intros x; rewrite dedup_in; apply get_locations_spec; exact El).
  destruct (ambiguous_location (dedup ls)) eqn:Al.
  { right. split; [|reflexivity]. intros (_ & A & _). apply not_false_iff_true in Al. apply Al, ambiguous_no.
    intros x y Hx Hy E1 E2. apply M in Hx, Hy. pose proof (A x y Hx Hy E1 E2). destruct x, y; simpl in *; congruence. }
  pose proof (unambiguous _ Al) as U. destruct (tree_total least pre (dim + 1) (dedup ls) r _ _ _ C) as [[T|[t T]] T2]; rewrite T in *; cbn [bind].
  { right. split; [|reflexivity]. intros (A & _ & _). destruct T2 as [t [=]]. intros x c Hx. apply A, M, Hx. }
  destruct (to_bool_total r e N P) as [[Tb|[b Tb]] Tc]; rewrite Tb in *; cbn [bind].
  { right. split; [|reflexivity]. intros (_ & _ & A). apply Tc in A. destruct A as [? [=]]. }
  destruct (basic_apply (dim + 1) no_names b) with (f := funiv) as [z Ez]; [rewrite (to_bool_basic _ _ _ Tb); exact B|].
  change (mkDecls [] []) with no_names. rewrite Ez. cbn [bind]. left. split; [|eauto].
  destruct (tree_pattern least pre (dim + 1) (dedup ls) U r _ _ _ _ C T) as (_ & _ & P3 & _). split; [|split].
  - intros x c Hx. apply P3, M, Hx.
  - intros x y Hx Hy E1 E2. assert (x = y) as -> by (apply U; [apply M, Hx|apply M, Hy|exact E1|exact E2]). reflexivity.
  - apply Tc. eauto.
Qed.
