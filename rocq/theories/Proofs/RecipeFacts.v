(** Proofs about clock numbering and compilation of recipes. *)
From Coq Require Import List String ZArith QArith Bool Arith Lia Permutation.
From Verif Require Import Fed.Zone Fed.ZoneFacts Model.Base Model.Expr Model.Guard Model.Loc Model.Component Model.TS Model.ParseQuery Model.Recipe
  Spec.GuardSpec Spec.StepSpec Spec.SystemSpec Spec.RunSpec Spec.EnableSpec Spec.RecipeSpec
  Proofs.GuardFacts Proofs.StepFacts Proofs.SystemFacts Proofs.WfFacts Proofs.EnableFacts Proofs.CompileFacts.
Import ListNotations.
Local Open Scope nat_scope.
Local Open Scope list_scope.

(** ** Numbering *)
Lemma numbered_perm d : clocks_numbered d -> Permutation (map snd (d_clocks d)) (seq 1 (List.length (d_clocks d))).
Proof.
  intros (_ & N & B). apply NoDup_Permutation_bis; [exact N| |].
  - rewrite seq_length, map_length. lia.
  - intros i Hi. apply in_map_iff in Hi. destruct Hi as ([x j] & <- & Hx). apply in_seq. specialize (B x j Hx). cbn. lia.
Qed.
Lemma instantiate_renumbered c id n : renumbered c (instantiate c id n) /\ c_special (instantiate c id n) = id.
Proof. unfold instantiate, renumbered, map_clocks, with_clocks, with_decls. cbn. rewrite map_map. cbn. auto 10. Qed.
Lemma instantiate_numbers c id n : numbers (instantiate c id n) = map (fun i => i + n) (numbers c).
Proof. unfold instantiate, numbers, map_clocks, with_clocks, with_decls. cbn. rewrite !map_map. reflexivity. Qed.
Lemma map_add_seq n k s : map (fun i => i + n) (seq s k) = seq (s + n) k.
Proof. revert s. induction k as [|k IH]; intros s; [reflexivity|]. cbn [seq map]. rewrite IH. reflexivity. Qed.

Definition new_q (q q' : option nat) : list nat := match q with Some _ => [] | None => opt_clock q' end.
Lemma perm_block A B n m p : Permutation A (seq n m) -> Permutation B (seq (n + m) p) -> Permutation (A ++ B) (seq n (m + p)).
Proof. intros PA PB. rewrite seq_app. apply Permutation_app; assumption. Qed.
Lemma perm_quot (LA NA LB NB : list nat) : Permutation ((LA ++ LB) ++ (NA ++ NB)) ((LA ++ NA) ++ (LB ++ NB)).
Proof.
  rewrite <- !app_assoc. apply Permutation_app_head. rewrite !app_assoc. apply Permutation_app_tail. apply Permutation_app_comm.
Qed.

Lemma recipe_numbers load : (forall n c, load n = Some c -> clocks_numbered (c_decls c)) ->
  forall e st r st', get_system_recipe load e st = Ok (r, st') ->
  instance_of load e r /\ fst st <= fst st' /\
  (forall c, In c (components r) -> block (numbers c)) /\
  Permutation (all_numbers r ++ new_q (snd st) (snd st')) (seq (S (fst st)) (fst st' - fst st)) /\
  (snd st <> None -> snd st' = snd st) /\
  (forall q, In q (quotient_clocks r) -> snd st' = Some q) /\
  (snd st = None -> quotient_clocks r = [] -> snd st' = None).
Proof.
  intros L.
  assert (Two : forall (e1 e2 : sysx) st r1 st1 r2 st2,
    (instance_of load e1 r1 /\ fst st <= fst st1 /\
      (forall c, In c (components r1) -> block (numbers c)) /\
      Permutation (all_numbers r1 ++ new_q (snd st) (snd st1)) (seq (S (fst st)) (fst st1 - fst st)) /\
      (snd st <> None -> snd st1 = snd st) /\ (forall q, In q (quotient_clocks r1) -> snd st1 = Some q) /\
      (snd st = None -> quotient_clocks r1 = [] -> snd st1 = None)) ->
    (instance_of load e2 r2 /\ fst st1 <= fst st2 /\
      (forall c, In c (components r2) -> block (numbers c)) /\
      Permutation (all_numbers r2 ++ new_q (snd st1) (snd st2)) (seq (S (fst st1)) (fst st2 - fst st1)) /\
      (snd st1 <> None -> snd st2 = snd st1) /\ (forall q, In q (quotient_clocks r2) -> snd st2 = Some q) /\
      (snd st1 = None -> quotient_clocks r2 = [] -> snd st2 = None)) ->
    fst st <= fst st2 /\
    (forall c, In c (components r1 ++ components r2) -> block (numbers c)) /\
    Permutation ((all_numbers r1 ++ all_numbers r2) ++ new_q (snd st) (snd st2)) (seq (S (fst st)) (fst st2 - fst st)) /\
    (snd st <> None -> snd st2 = snd st) /\ (forall q, In q (quotient_clocks r1 ++ quotient_clocks r2) -> snd st2 = Some q) /\
    (snd st = None -> quotient_clocks r1 ++ quotient_clocks r2 = [] -> snd st2 = None)).
  { intros e1 e2 st r1 st1 r2 st2 (I1 & L1 & B1 & P1 & K1 & Q1 & N1) (I2 & L2 & B2 & P2 & K2 & Q2 & N2).
    split; [lia|]. split; [intros c Hc; apply in_app_or in Hc; destruct Hc; auto|]. split.
    - replace (fst st2 - fst st) with ((fst st1 - fst st) + (fst st2 - fst st1)) by lia.
      assert (PB : Permutation ((all_numbers r1 ++ new_q (snd st) (snd st1)) ++ (all_numbers r2 ++ new_q (snd st1) (snd st2))) (seq (S (fst st)) ((fst st1 - fst st) + (fst st2 - fst st1)))).
      { apply perm_block; [exact P1|]. replace (S (fst st) + (fst st1 - fst st)) with (S (fst st1)) by lia. exact P2. }
      rewrite <- PB, <- perm_quot. apply Permutation_app_head.
      destruct (snd st) as [q|]; cbn [new_q].
      + rewrite K1 by discriminate. reflexivity.
      + destruct (snd st1) as [q|]; cbn [new_q opt_clock]; [rewrite K2 by discriminate; reflexivity|reflexivity].
    - split; [intros H; rewrite K2; [apply K1; exact H|rewrite K1; exact H]|]. split.
      + intros q Hq. apply in_app_or in Hq. destruct Hq as [Hq|Hq]; [|apply Q2; exact Hq]. specialize (Q1 q Hq).
        rewrite K2; [exact Q1|rewrite Q1; discriminate].
      + intros H E. apply app_eq_nil in E. destruct E as [E1 E2]. apply N2; auto. }
  induction e as [n id|e1 IH1 e2 IH2|e1 IH1 e2 IH2|e1 IH1 e2 IH2]; intros st r st' E; cbn [get_system_recipe] in E.
  - inv_bind E. destruct (load n) as [c|] eqn:El; [|discriminate]. injection H as ->. injection E as <- <-.
    pose proof (numbered_perm _ (L n a El)) as P. cbn [instance_of fst snd components quotient_clocks].
    assert (P' : Permutation (numbers (instantiate a id (fst st))) (seq (S (fst st)) (clock_count a))).
    { rewrite instantiate_numbers. unfold numbers. rewrite P, map_add_seq. replace (1 + fst st) with (S (fst st)) by lia. reflexivity. }
    split; [split; [exists a; split; [exact El|apply instantiate_renumbered]|apply instantiate_renumbered]|].
    split; [lia|]. split; [intros c [<-|[]]; exists (S (fst st)); rewrite (Permutation_length P'), seq_length; exact P'|].
    split; [|split; [auto|split; [intros q []|auto]]].
    replace (fst st + clock_count a - fst st) with (clock_count a) by lia. unfold all_numbers. cbn [components flat_map]. rewrite app_nil_r.
    destruct (snd st); cbn [new_q opt_clock]; rewrite app_nil_r; exact P'.
  - inv_bind E. destruct a as [r1 st1]. inv_bind E. destruct a as [r2 st2].
    pose proof (IH1 _ _ _ H) as H1. pose proof (IH2 _ _ _ H0) as H2.
    destruct (Two _ _ _ _ _ _ _ H1 H2) as (T1 & T2 & T3 & T4 & T5 & T6).
    destruct (snd st2) as [q|] eqn:Eq.
    + injection E as <- <-. cbn [instance_of components quotient_clocks]. rewrite Eq. split; [split; [apply H1|apply H2]|].
      split; [exact T1|]. split; [exact T2|]. split; [unfold all_numbers; cbn [components]; rewrite flat_map_app; exact T3|].
      split; [exact T4|]. split; [|discriminate]. intros q' [<-|Hq]; [reflexivity|exact (T5 _ Hq)].
    + injection E as <- <-. cbn [instance_of components quotient_clocks fst snd]. split; [split; [apply H1|apply H2]|].
      assert (Es : snd st = None). { destruct (snd st); [|reflexivity]. discriminate (T4 ltac:(discriminate)). }
      rewrite Es in *. split; [lia|]. split; [exact T2|]. split.
      * unfold all_numbers. cbn [components new_q opt_clock]. rewrite flat_map_app.
        cbn [new_q opt_clock] in T3. rewrite app_nil_r in T3.
        replace (S (fst st2) - fst st) with ((fst st2 - fst st) + 1) by lia. rewrite seq_app. cbn [seq]. apply Permutation_app; [exact T3|].
        replace (S (fst st + (fst st2 - fst st))) with (S (fst st2)) by lia.
        replace (S (fst st) + (fst st2 - fst st)) with (S (fst st2)) by lia. reflexivity.
      * split; [congruence|]. split; [|discriminate]. intros q' [<-|Hq]; [reflexivity|discriminate (T5 _ Hq)].
  - inv_bind E. destruct a as [r1 st1]. inv_bind E. destruct a as [r2 st2]. injection E as <- <-.
    pose proof (IH1 _ _ _ H) as H1. pose proof (IH2 _ _ _ H0) as H2.
    destruct (Two _ _ _ _ _ _ _ H1 H2) as (T1 & T2 & T3 & T4 & T5 & T6). cbn [instance_of components quotient_clocks].
    unfold all_numbers. cbn [components]. rewrite flat_map_app. split; [split; [apply H1|apply H2]|]. auto 10.
  - inv_bind E. destruct a as [r1 st1]. inv_bind E. destruct a as [r2 st2]. injection E as <- <-.
    pose proof (IH1 _ _ _ H) as H1. pose proof (IH2 _ _ _ H0) as H2.
    destruct (Two _ _ _ _ _ _ _ H1 H2) as (T1 & T2 & T3 & T4 & T5 & T6). cbn [instance_of components quotient_clocks].
    unfold all_numbers. cbn [components]. rewrite flat_map_app. split; [split; [apply H1|apply H2]|]. auto 10.
Qed.

(** ** The clocks that guards mention *)
Section Mention.
Variable xs : list nat.
Fixpoint over (e : arith) : Prop :=
  match e with
  | ADifference l r | AAddition l r | AMultiplication l r | ADivision l r | AModulo l r => over l /\ over r
  | AClock i => In i xs
  | AVar _ => False
  | AInt _ => True
  end.
Lemma over_mk_dif l r : over l -> over r -> over (mk_dif l r).
Proof. intros Hl Hr. unfold mk_dif. destruct r as [| | | | | | |[]]; try exact Hl; destruct l; cbn in *; auto. Qed.
Lemma over_mk_add l r : over l -> over r -> over (mk_add l r).
Proof. intros Hl Hr. unfold mk_add. destruct r as [| | | | | | |[]]; try exact Hl; destruct l as [| | | | | | |[]]; cbn in *; auto. Qed.
Lemma over_mk_mul l r : over l -> over r -> over (mk_mul l r).
Proof. intros Hl Hr. unfold mk_mul. destruct (_ || _); [exact I|]. destruct l, r; cbn in *; auto. Qed.
Lemma over_mk_div l r : over l -> over r -> over (mk_div l r).
Proof. intros Hl Hr. unfold mk_div. destruct (_ || _); [exact I|]. destruct l, r; cbn in *; auto. Qed.
Lemma over_mk_mod l r e : over l -> over r -> mk_mod l r = Ok e -> over e.
Proof. intros Hl Hr E. unfold mk_mod in E. destruct l, r; try (injection E as <-; cbn in *; auto; fail). destruct (Z.eqb _ _); [discriminate|]. injection E as <-. exact I. Qed.

Lemma over_replace d e : by_name e = true -> (forall x i, a_has_var e x = true -> assoc x (d_clocks d) = Some i -> In i xs) -> forall e', replace_vars e d = Ok e' -> over e'.
Proof.
  induction e; cbn [by_name replace_vars a_has_var]; intros B D e' E;
  try (apply andb_true_iff in B; destruct B as [B1 B2]; inv_bind E; inv_bind E;
       specialize (IHe1 B1 (fun x i Hx => D x i (orb_true_intro _ _ (or_introl Hx))) _ H);
       specialize (IHe2 B2 (fun x i Hx => D x i (orb_true_intro _ _ (or_intror Hx))) _ H0)).
  - injection E as <-. apply over_mk_dif; assumption.
  - injection E as <-. apply over_mk_add; assumption.
  - injection E as <-. apply over_mk_mul; assumption.
  - injection E as <-. apply over_mk_div; assumption.
  - exact (over_mk_mod _ _ _ IHe1 IHe2 E).
  - discriminate.
  - destruct (assoc s (d_clocks d)) as [i|] eqn:A; [injection E as <-; eapply D; eauto using String.eqb_refl|]. destruct (assoc s (d_ints d)); [|discriminate]. injection E as <-. exact I.
  - injection E as <-. exact I.
Qed.
Lemma over_move e : forall p o e', over e -> move_clock_and_vars e p = Ok (o, e') -> over e' /\ (forall c o', o = Some (c, o') -> over c).
Proof.
  assert (Cl : forall a b err sw, clone_expr a b err = Ok sw -> forall x, sw = Some x -> x = b).
  { intros a b err sw E x ->. destruct a; cbn in E; try discriminate; try (injection E as <-; reflexivity). destruct err; [discriminate|]. injection E as <-. reflexivity. }
  induction e as [l IHl r IHr|l IHl r IHr|l IHl r IHr|l IHl r IHr|l IHl r IHr|i|s|k]; intros p o e' O E; cbn [over move_clock_and_vars] in *;
  try (destruct O as [Ol Or]; destruct (Nat.ltb 0 (clock_var_count l));
    [inv_bind E; inv_bind E; destruct a0 as [o1 l']; injection E as <- <-; destruct (IHl _ _ _ Ol H0) as [X Y]; split; [destruct a as [x|]; [rewrite (Cl _ _ _ _ H x eq_refl)|cbn]; auto|exact Y]
    |destruct (Nat.ltb 0 (clock_var_count r));
      [inv_bind E; inv_bind E; destruct a0 as [o1 r']; injection E as <- <-; destruct (IHr _ _ _ Or H0) as [X Y]; split; [destruct a as [x|]; [rewrite (Cl _ _ _ _ H x eq_refl)|cbn]; auto|exact Y]
      |injection E as <- <-; split; [cbn; auto|discriminate]]]).
  - injection E as <- <-. split; [exact I|]. intros c o' E. injection E as <- <-. exact O.
  - destruct O.
  - injection E as <- <-. split; [exact I|]. discriminate.
Qed.
Lemma over_pull n : forall e p ds out, over e -> pull_all n e p = Ok (ds, out) -> over out /\ Forall (fun d => over (fst d)) ds.
Proof.
  induction n as [|n IH]; intros e p ds out O E; [discriminate|]. cbn [pull_all] in E. inv_bind E. destruct a as [o e']. destruct (over_move _ _ _ _ O H) as [X Y].
  destruct o as [[c op]|]; [|injection E as <- <-; auto]. inv_bind E. destruct a as [ds' fin]. injection E as <- <-. destruct (IH _ _ _ _ X H0) as [Z W].
  split; [exact Z|]. constructor; [apply (Y c op eq_refl)|exact W].
Qed.
Lemma over_rebuild ds out : Forall (fun d => over (fst d)) ds -> over out -> forall e, rebuild ds out = Ok e -> over e.
Proof.
  intros F O. induction F as [|[c op] ds Hc F IH]; intros e E; cbn [rebuild] in E; [injection E as <-; exact O|].
  inv_bind E. specialize (IH _ H). unfold rebuild_step in E. cbn [fst] in Hc.
  destruct op as [[]|[]|[]|[]|[]|]; try (injection E as <-); auto using over_mk_dif, over_mk_add, over_mk_mul, over_mk_div; (refine (over_mk_mod _ _ _ _ _ E); assumption).
Qed.
Lemma over_helper e : over e -> forall e' b, simplify_helper e = Ok (e', b) -> over e'.
Proof.
  induction e; cbn [over simplify_helper]; intros O e' b E; try (injection E as <- <-; exact O);
  (destruct O as [O1 O2]; inv_bind E; destruct a as [l' cl]; inv_bind E; destruct a as [r' cr];
   specialize (IHe1 O1 _ _ H); specialize (IHe2 O2 _ _ H0);
   assert (G : forall k b', over (AInt k) /\ b' = b' :> bool) by (intros; split; [exact I|reflexivity]);
   destruct l', r'; try (injection E as <- <-; cbn in *; auto; fail)).
  all: inv_bind E; injection E as <- <-; exact I.
Qed.
Lemma over_loop n : forall e r, over e -> simplify_loop n e = Ok r -> over r.
Proof.
  induction n as [|n IH]; intros e r O E; [discriminate|]. cbn [simplify_loop] in E. inv_bind E. destruct a as [e' b]. pose proof (over_helper e O _ _ H) as O'.
  destruct b; [eapply IH; eauto|injection E as <-; exact O'].
Qed.
Lemma over_simplify e r : over e -> simplify e = Ok r -> over r.
Proof.
  intros O E. unfold simplify in E. inv_bind E. destruct a as [ds out]. destruct (over_pull _ _ _ _ _ O H) as [X Y]. inv_bind E.
  eapply over_loop; [|exact E]. eapply over_rebuild; eauto.
Qed.
Lemma over_clock_here e n c nx : over e -> clock_here e n = Ok (c, nx) -> In (sc_value c) xs /\ (forall e' b, nx = Some (e', b) -> over e').
Proof.
  intros O E. destruct e as [l r|l r| | | |i| |]; cbn [clock_here] in E; try discriminate.
  - destruct l, r; cbn in *; try discriminate; injection E as <- <-; cbn; (split; [tauto|]); intros e' b E; injection E as <- <-; cbn; tauto.
  - destruct l, r; cbn in *; try discriminate; injection E as <- <-; cbn; (split; [tauto|]); intros e' b E; injection E as <- <-; cbn; tauto.
  - injection E as <- <-. split; [exact O|discriminate].
Qed.
Definition within (i : nat) : Prop := i = 0 \/ In i xs.
Lemma over_indices d l r i j c : by_name l = true -> by_name r = true ->
  (forall x i, a_has_var l x || a_has_var r x = true -> assoc x (d_clocks d) = Some i -> In i xs) ->
  get_indices l r d = Ok (i, j, c) -> within i /\ within j.
Proof.
  intros Bl Br D E. unfold get_indices in E. inv_bind E. inv_bind E. inv_bind E. inv_bind E.
  pose proof (over_simplify _ _ (over_replace d l Bl (fun x i Hx => D x i (orb_true_intro _ _ (or_introl Hx))) _ H) H0) as Ol. pose proof (over_simplify _ _ (over_replace d r Br (fun x i Hx => D x i (orb_true_intro _ _ (or_intror Hx))) _ H1) H2) as Or.
  destruct (Nat.eqb _ 0); [discriminate|]. destruct (Nat.ltb 2 _); [discriminate|]. inv_bind E. inv_bind E.
  assert (One : forall e c, over e -> get_clock_val1 e = Ok c -> In (sc_value c) xs).
  { intros e c' O E1. unfold get_clock_val1 in E1. inv_bind E1. destruct a5 as [c1 nx]. injection E1 as <-. apply (over_clock_here _ _ _ _ O H5). }
  assert (TwoC : forall e c c', over e -> get_clock_val2 e = Ok (c, c') -> In (sc_value c) xs /\ In (sc_value c') xs).
  { intros e c1 c2 O E1. unfold get_clock_val2 in E1. inv_bind E1. destruct a5 as [d1 nx]. inv_bind E1. destruct a5 as [e2 ng]. inv_bind E1. destruct a5 as [d2 nx2]. injection E1 as <- <-.
    destruct (over_clock_here _ _ _ _ O H5) as [X Y]. destruct nx as [p|]; [|discriminate]. injection H6 as ->. specialize (Y _ _ eq_refl). split; [exact X|]. apply (over_clock_here _ _ _ _ Y H7). }
  assert (Cm : forall c1 c2 k b, In (sc_value c1) xs -> In (sc_value c2) xs -> combine_clocks c1 c2 k b = Ok (i, j, c) -> within i /\ within j).
  { intros c1 c2 k b I1 I2 E1. unfold combine_clocks in E1. destruct (_ || _); [discriminate|]. destruct (negb _); injection E1 as <- <- <-; split; right; assumption. }
  destruct (clock_var_count a0) as [|[|[|]]]; try discriminate; destruct (clock_var_count a2) as [|[|[|]]]; try discriminate.
  - inv_bind E. pose proof (One _ _ Or H5). destruct (negb _); injection E as <- <- <-; split; (left; reflexivity) || (right; assumption).
  - inv_bind E. destruct a5 as [c1 c2]. destruct (TwoC _ _ _ Or H5) as [X Y]. eapply Cm; [| |exact E]; assumption.
  - inv_bind E. pose proof (One _ _ Ol H5). destruct (sc_neg _); injection E as <- <- <-; split; (left; reflexivity) || (right; assumption).
  - inv_bind E. inv_bind E. pose proof (One _ _ Ol H5). pose proof (One _ _ Or H6). eapply Cm; [| |exact E]; assumption.
  - inv_bind E. destruct a5 as [c1 c2]. destruct (TwoC _ _ _ Ol H5) as [X Y]. eapply Cm; [| |exact E]; assumption.
Qed.
End Mention.

Lemma fclocks_con xs i j s k f : within xs i -> within xs j -> fclocks_in xs f -> fclocks_in xs (fcon (mkC i j s k) f).
Proof.
  intros Hi Hj F z c Hz Hc. unfold fcon in Hz. apply in_map_iff in Hz. destruct Hz as (z0 & <- & Hz). cbn in Hc.
  destruct Hc as [<-|Hc]; [split; assumption|]. eapply F; eauto.
Qed.
Lemma apply_clocks xs dim d g : g_by_name g = true -> (forall x i, b_has_var g x = true -> assoc x (d_clocks d) = Some i -> In i xs) ->
  forall f f', fclocks_in xs f -> apply_constraints dim g d f = Ok f' -> fclocks_in xs f'.
Proof.
  induction g; cbn [g_by_name apply_constraints b_has_var]; intros B D f f' F E; (destruct (fempty dim f); [injection E as <-; exact F|]);
  try (apply andb_true_iff in B; destruct B as [B1 B2]);
  try (specialize (IHg1 B1 (fun x i Hx => D x i (orb_true_intro _ _ (or_introl Hx)))); specialize (IHg2 B2 (fun x i Hx => D x i (orb_true_intro _ _ (or_intror Hx))))).
  - inv_bind E. eapply IHg2; [|exact E]. eapply IHg1; eauto.
  - inv_bind E. inv_bind E. injection E as <-. intros z c Hz Hc. unfold funion in Hz. apply in_app_or in Hz. destruct Hz as [Hz|Hz]; [eapply IHg1|eapply IHg2]; eauto.
  - inv_bind E. destruct a as [[i j] k]. injection E as <-. destruct (over_indices xs d _ _ _ _ _ B1 B2 D H). apply fclocks_con; assumption.
  - inv_bind E. destruct a as [[i j] k]. injection E as <-. destruct (over_indices xs d _ _ _ _ _ B2 B1 (fun x i Hx => D x i (eq_trans (orb_comm _ _) Hx)) H). apply fclocks_con; assumption.
  - inv_bind E. destruct a as [[i j] k]. injection E as <-. destruct (over_indices xs d _ _ _ _ _ B1 B2 D H). apply fclocks_con; assumption.
  - inv_bind E. destruct a as [[i j] k]. injection E as <-. destruct (over_indices xs d _ _ _ _ _ B2 B1 (fun x i Hx => D x i (eq_trans (orb_comm _ _) Hx)) H). apply fclocks_con; assumption.
  - inv_bind E. destruct a as [[i j] k]. injection E as <-. destruct (over_indices xs d _ _ _ _ _ B1 B2 D H). apply fclocks_con; auto. apply fclocks_con; assumption.
  - injection E as <-. destruct b; [exact F|]. intros z c [].
Qed.

(** ** Compiled systems *)
Lemma compile_built least pre dim r : forall k s k', compile_at least pre dim r k = Ok (s, k') -> built dim s.
Proof.
  induction r as [c|l IHl r IHr|l IHl r IHr|l IHl r IHr q]; intros k s k' E; cbn [compile_at] in E.
  - inv_bind E. injection E as <- <-. eapply b_simple. exact H.
  - inv_bind E. destruct a as [l' k1]. inv_bind E. destruct a as [r' k2]. inv_bind E. injection E as <- <-. refine (b_comp _ _ _ _ _ _ H1); eauto.
  - inv_bind E. destruct a as [l' k1]. inv_bind E. destruct a as [r' k2]. inv_bind E. injection E as <- <-.
    unfold conjunction_ts in H1. inv_bind H1. inv_bind H1. destruct a1; [|discriminate]. injection H1 as <-. refine (b_conj _ _ _ _ _ _ H2); eauto.
  - inv_bind E. destruct a as [l' k1]. inv_bind E. destruct a as [r' k2]. inv_bind E. injection E as <- <-.
    unfold quotient_ts in H1. destruct (negb _); [discriminate|]. inv_bind H1. destruct a0; [|discriminate]. inv_bind H1. destruct a0; [|discriminate]. refine (b_quot _ _ _ _ _ _ _ H1); eauto.
Qed.

Lemma compile_decls dim c id cc : compile_component dim c id = Ok cc -> cc_decls cc = c_decls c.
Proof. intros E. destruct (compile_inv _ _ _ _ _ _ E) as (_ & _ & _ & _ & _ & D & _). exact D. Qed.

Lemma compile_clocks least pre dim r : forall k s k', compile_at least pre dim r k = Ok (s, k') -> comp_clocks s = all_numbers r.
Proof.
  induction r as [c|l IHl r IHr|l IHl r IHr|l IHl r IHr q]; intros k s k' E; cbn [compile_at] in E; unfold all_numbers; cbn [components].
  - inv_bind E. injection E as <- <-. cbn [comp_clocks flat_map]. rewrite app_nil_r, (compile_decls _ _ _ _ H). reflexivity.
  - inv_bind E. destruct a as [l' k1]. inv_bind E. destruct a as [r' k2]. inv_bind E. injection E as <- <-. rewrite flat_map_app.
    apply composition_new_inv in H1. destruct H1 as (_ & ? & ? & ? & ? & ? & -> & _). cbn [comp_clocks]. rewrite (IHl _ _ _ H), (IHr _ _ _ H0). reflexivity.
  - inv_bind E. destruct a as [l' k1]. inv_bind E. destruct a as [r' k2]. inv_bind E. injection E as <- <-. rewrite flat_map_app.
    unfold conjunction_ts in H1. inv_bind H1. inv_bind H1. destruct a1; [|discriminate]. injection H1 as <-.
    apply conjunction_new_inv in H2. destruct H2 as (-> & _). cbn [comp_clocks]. rewrite (IHl _ _ _ H), (IHr _ _ _ H0). reflexivity.
  - inv_bind E. destruct a as [l' k1]. inv_bind E. destruct a as [r' k2]. inv_bind E. injection E as <- <-. rewrite flat_map_app.
    unfold quotient_ts in H1. destruct (negb _); [discriminate|]. inv_bind H1. destruct a0; [|discriminate]. inv_bind H1. destruct a0; [|discriminate].
    apply quotient_new_inv in H1. destruct H1 as (? & ? & ? & -> & _). cbn [comp_clocks]. rewrite (IHl _ _ _ H), (IHr _ _ _ H0). reflexivity.
Qed.

Lemma assoc_in {V} k (m : list (string * V)) v : assoc k m = Some v -> In (k, v) m.
Proof. induction m as [|[k' v'] m IH]; cbn; [discriminate|]. destruct (String.eqb_spec k k') as [->|]; [intros E; injection E as ->; auto|auto]. Qed.
Lemma assoc_nodup {V} k (m : list (string * V)) v : NoDup (map fst m) -> In (k, v) m -> assoc k m = Some v.
Proof.
  induction m as [|[k' v'] m IH]; cbn; intros N H; [contradiction|]. inversion N; subst. destruct H as [H|H].
  - injection H as -> ->. rewrite String.eqb_refl. reflexivity.
  - destruct (String.eqb_spec k k') as [->|]; [|auto]. exfalso. apply H2. apply in_map_iff. exists (k', v). auto.
Qed.

(** A component whose clocks have been numbered. *)
Definition fit_component (dim : nat) (c : component) : Prop :=
  NoDup (numbers c) /\ (forall i, In i (numbers c) -> 1 <= i < dim) /\ good_resets c /\ named_guards c.

Lemma updates_mapped c us : forall cus, mapM (fun u => compile_update u (c_decls c)) us = Ok cus ->
  forall u, In u cus -> exists x, In (x, AInt (u_value u)) us /\ assoc x (d_clocks (c_decls c)) = Some (u_clock u).
Proof.
  intros cus E u Hu. destruct (mapM_in _ _ _ E) as [_ M]. destruct (M u Hu) as ([x a] & Hx & Ex).
  unfold compile_update in Ex. cbn [fst snd] in Ex. destruct a; try discriminate. inv_bind Ex. injection Ex as <-.
  destruct (assoc x (d_clocks (c_decls c))) as [i|] eqn:A; [|discriminate]. injection H as ->. exists x. cbn. auto.
Qed.

Lemma snd_inj (m : list (string * nat)) x y i : NoDup (map snd m) -> In (x, i) m -> In (y, i) m -> x = y.
Proof.
  induction m as [|[z k] m IH]; intros N H1 H2; [contradiction|]. cbn in N. inversion N; subst. destruct H1 as [H1|H1], H2 as [H2|H2].
  - congruence.
  - injection H1 as -> ->. exfalso. apply H3. apply in_map_iff. exists (y, i). auto.
  - injection H2 as -> ->. exfalso. apply H3. apply in_map_iff. exists (x, i). auto.
  - auto.
Qed.

Lemma component_good dim q c id cc : compile_component dim c id = Ok cc -> fit_component dim c -> ~ In q (numbers c) ->
  clocks_ok dim q (TSimple cc) /\ reads_ok (TSimple cc).
Proof.
  intros E (N & B & G & M) Hq. pose proof (compile_decls _ _ _ _ E) as D. cbn [clocks_ok reads_ok comp_clocks]. rewrite D. fold (numbers c).
  assert (As : forall x i, assoc x (d_clocks (c_decls c)) = Some i -> In i (numbers c)).
  { intros x i A. apply assoc_in in A. unfold numbers. apply in_map_iff. exists (x, i). auto. }
  assert (Univ : fclocks_in (numbers c) funiv). { intros z c0 [<-|[]] []. }
  split; [split; [exact Hq|]|split].
  - intros i es a t Hi Ht. destruct (compiled_edge _ _ _ _ _ _ E _ _ _ _ Hi Ht) as (e & He & _ & _ & Et).
    unfold from_component_and_edge in Et. inv_bind Et. inv_bind Et. inv_bind Et. inv_bind Et. injection Et as <-. cbn [t_updates].
    assert (U : forall u, In u a2 -> exists x us, e_update e = Some us /\ In (x, AInt (u_value u)) us /\ assoc x (d_clocks (c_decls c)) = Some (u_clock u)).
    { intros u Hu. destruct (updates_mapped c _ _ H1 u Hu) as (x & Hx & A). destruct (e_update e) as [us|]; [eauto|destruct Hx]. }
    split; [|split].
    + intros u Hu. destruct (U u Hu) as (x & us & Eu & Hx & A). destruct (B _ (As _ _ A)). split; [lia|]. split; [lia|]. apply (proj1 (G e us He Eu) x). exact Hx.
    + intros u w Hu Hw Eu. destruct (U u Hu) as (x & us & E1 & Hx & A). destruct (U w Hw) as (y & us' & E2 & Hy & A').
      rewrite E1 in E2. injection E2 as <-. rewrite Eu in A. assert (x = y) by (eapply snd_inj; [exact N|apply assoc_in; exact A|apply assoc_in; exact A']). subst y.
      destruct (G e us He E1) as [_ G2]. specialize (G2 _ _ _ Hx Hy). congruence.
    + intros u Hu. destruct (U u Hu) as (x & us & _ & _ & A). eauto.
  - intros l f Hl Ei. destruct (compile_inv _ _ _ _ _ _ E) as (ls & es & El & _ & Ec & _). rewrite Ec in Hl. apply keep_last_in in Hl.
    destruct (mapM_in _ _ _ El) as [_ K]. destruct (K l Hl) as (l0 & Hl0 & E0). unfold lt_simple in E0. inv_bind E0. injection E0 as <-. cbn [lt_inv] in Ei. subst a.
    destruct (l_inv l0) as [g|] eqn:Eg; [|discriminate]. inv_bind H. injection H as <-. apply expect_ok in H0.
    eapply apply_clocks; [|exact (fun x i _ => As x i)|exact Univ|exact H0]. eapply (proj1 M); eauto.
  - intros i es a t Hi Ht. destruct (compiled_edge _ _ _ _ _ _ E _ _ _ _ Hi Ht) as (e & He & _ & _ & Et).
    unfold from_component_and_edge in Et. inv_bind Et. inv_bind Et. inv_bind Et. inv_bind Et. injection Et as <-. cbn [t_guard].
    unfold edge_apply_guard in H2. destruct (e_guard e) as [g|] eqn:Eg; [|injection H2 as <-; exact Univ]. apply expect_ok in H2.
    eapply apply_clocks; [|exact (fun x i _ => As x i)|exact Univ|exact H2]. eapply (proj2 M); eauto.
Qed.

(** ** Whole systems *)
Lemma all_numbers_comp l r : all_numbers (RComp l r) = all_numbers l ++ all_numbers r.
Proof. unfold all_numbers. cbn [components]. apply flat_map_app. Qed.
Lemma nodup_split {A} (l r : list A) : NoDup (l ++ r) -> NoDup l /\ NoDup r /\ forall x, In x l -> ~ In x r.
Proof.
  induction l as [|a l IH]; cbn; intros N; [split; [constructor|split; [exact N|intros x []]]|].
  inversion N; subst. destruct (IH H2) as (X & Y & Z). split; [constructor; [intros C; apply H1, in_or_app; auto|exact X]|]. split; [exact Y|].
  intros x [<-|Hx]; [intros C; apply H1, in_or_app; auto|auto].
Qed.

Lemma system_good least pre dim q r : (forall c, In c (components r) -> fit_component dim c) -> NoDup (all_numbers r) -> ~ In q (all_numbers r) ->
  (forall q', In q' (quotient_clocks r) -> q' = q /\ q <> 0 /\ q < dim) ->
  forall k s k', compile_at least pre dim r k = Ok (s, k') -> clocks_ok dim q s /\ reads_ok s.
Proof.
  assert (Two : forall l r : recipe, NoDup (all_numbers l ++ all_numbers r) -> ~ In q (all_numbers l ++ all_numbers r) ->
    NoDup (all_numbers l) /\ NoDup (all_numbers r) /\ (forall x, In x (all_numbers l) -> ~ In x (all_numbers r)) /\ ~ In q (all_numbers l) /\ ~ In q (all_numbers r)).
  { intros l r0 N Q. destruct (nodup_split _ _ N) as (X & Y & Z). repeat (split; [assumption|]). split; intros C; apply Q, in_or_app; auto. }
  induction r as [c|l IHl r IHr|l IHl r IHr|l IHl r IHr q']; intros F N Q C k s k' E; cbn [compile_at] in E.
  - inv_bind E. injection E as <- <-. eapply component_good; [exact H|apply F; left; reflexivity|].
    unfold all_numbers in Q. cbn [components flat_map] in Q. rewrite app_nil_r in Q. exact Q.
  - inv_bind E. destruct a as [l' k1]. inv_bind E. destruct a as [r' k2]. inv_bind E. injection E as <- <-.
    unfold all_numbers in N, Q. cbn [components] in N, Q. rewrite flat_map_app in N, Q. destruct (Two l r N Q) as (N1 & N2 & D & Q1 & Q2).
    cbn [quotient_clocks components] in *.
    destruct (IHl (fun c H => F c (in_or_app _ _ _ (or_introl H))) N1 Q1 (fun x H => C x (in_or_app _ _ _ (or_introl H))) _ _ _ H) as [K1 R1].
    destruct (IHr (fun c H => F c (in_or_app _ _ _ (or_intror H))) N2 Q2 (fun x H => C x (in_or_app _ _ _ (or_intror H))) _ _ _ H0) as [K2 R2].
    apply composition_new_inv in H1. destruct H1 as (_ & ? & ? & ? & ? & ? & -> & _). cbn [clocks_ok reads_ok].
    rewrite (compile_clocks _ _ _ _ _ _ _ H), (compile_clocks _ _ _ _ _ _ _ H0). auto.
  - inv_bind E. destruct a as [l' k1]. inv_bind E. destruct a as [r' k2]. inv_bind E. injection E as <- <-.
    unfold all_numbers in N, Q. cbn [components] in N, Q. rewrite flat_map_app in N, Q. destruct (Two l r N Q) as (N1 & N2 & D & Q1 & Q2).
    cbn [quotient_clocks components] in *.
    destruct (IHl (fun c H => F c (in_or_app _ _ _ (or_introl H))) N1 Q1 (fun x H => C x (in_or_app _ _ _ (or_introl H))) _ _ _ H) as [K1 R1].
    destruct (IHr (fun c H => F c (in_or_app _ _ _ (or_intror H))) N2 Q2 (fun x H => C x (in_or_app _ _ _ (or_intror H))) _ _ _ H0) as [K2 R2].
    unfold conjunction_ts in H1. inv_bind H1. inv_bind H1. destruct a1; [|discriminate]. injection H1 as <-.
    apply conjunction_new_inv in H2. destruct H2 as (-> & _). cbn [clocks_ok reads_ok].
    rewrite (compile_clocks _ _ _ _ _ _ _ H), (compile_clocks _ _ _ _ _ _ _ H0). auto.
  - inv_bind E. destruct a as [l' k1]. inv_bind E. destruct a as [r' k2]. inv_bind E. injection E as <- <-.
    unfold all_numbers in N, Q. cbn [components] in N, Q. rewrite flat_map_app in N, Q. destruct (Two l r N Q) as (N1 & N2 & D & Q1 & Q2).
    cbn [quotient_clocks components] in *.
    destruct (IHl (fun c H => F c (in_or_app _ _ _ (or_introl H))) N1 Q1 (fun x H => C x (or_intror (in_or_app _ _ _ (or_introl H)))) _ _ _ H) as [K1 R1].
    destruct (IHr (fun c H => F c (in_or_app _ _ _ (or_intror H))) N2 Q2 (fun x H => C x (or_intror (in_or_app _ _ _ (or_intror H)))) _ _ _ H0) as [K2 R2].
    unfold quotient_ts in H1. destruct (negb _); [discriminate|]. inv_bind H1. destruct a0; [|discriminate]. inv_bind H1. destruct a0; [|discriminate].
    apply quotient_new_inv in H1. destruct H1 as (? & ? & ? & -> & _). cbn [clocks_ok reads_ok].
    rewrite (compile_clocks _ _ _ _ _ _ _ H), (compile_clocks _ _ _ _ _ _ _ H0). destruct (C q' (or_introl eq_refl)) as (-> & ? & ?). auto 10.
Qed.

(** Components of a recipe come from the loader. *)
Lemma instance_component load e : forall r, instance_of load e r -> forall c, In c (components r) -> exists n c0, load n = Some c0 /\ renumbered c0 c.
Proof.
  induction e as [n id|a IHa b IHb|a IHa b IHb|a IHa b IHb]; intros [c'|l r|l r|l r q] I c Hc; cbn [instance_of components] in *; try contradiction;
  try (destruct I as [I1 I2]; apply in_app_or in Hc; destruct Hc; eauto).
  destruct Hc as [<-|[]]. destruct I as [(c0 & L & R) _]. eauto.
Qed.
Lemma good_resets_re c c' : renumbered c c' -> good_resets c -> good_resets c'.
Proof. intros (_ & _ & E & _) H. unfold good_resets. rewrite E. exact H. Qed.
Lemma named_guards_re c c' : renumbered c c' -> named_guards c -> named_guards c'.
Proof. intros (_ & L & E & _) H. unfold named_guards. rewrite E, L. exact H. Qed.

Lemma component_numbers r c : In c (components r) -> forall i, In i (numbers c) -> In i (all_numbers r).
Proof. intros Hc i Hi. unfold all_numbers. apply in_flat_map. eauto. Qed.
Lemma block_nodup l : block l -> NoDup l.
Proof. intros (s & P). eapply Permutation_NoDup; [symmetry; exact P|apply seq_NoDup]. Qed.
