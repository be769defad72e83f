(** C69: what the command line prints below a verdict. *)
From Coq Require Import List String Ascii ZArith QArith Bool Arith Lia Permutation.
From Verif Require Import Fed.Zone Fed.ZoneFacts Fed.Check Model.Base Model.Expr Model.Guard Model.Loc Model.Component Model.Enable Model.ParseQuery Model.Peg Model.ParseEdge Model.Files
  Model.TS Model.Recipe Model.Reduce Model.PairList Model.Search Model.Refine Model.Query Model.Wire Model.Exec Model.Failure Model.Loader Model.Cli Model.Print
  Spec.BoundSpec Spec.StepSpec Spec.SystemSpec Spec.RunSpec Spec.ReachSpec Spec.EnableSpec Spec.RecipeSpec Spec.ReduceSpec Spec.SameSpec Spec.StateSpec Spec.WireSpec Spec.TextSpec Spec.FileSpec Spec.QuerySpec Spec.RefineSpec Spec.ExecSpec Spec.LoaderSpec Spec.CliSpec Spec.FailureSpec Spec.PruneSpec Spec.PrintSpec
  Proofs.GuardFacts Proofs.LoaderFacts Proofs.RunFacts Proofs.FailureFacts Proofs.FailureTruth Proofs.FailurePairs Proofs.FailureModel Proofs.PlainFacts Proofs.SystemFacts Proofs.ConsFacts Proofs.InstrFacts Proofs.LinkFacts Proofs.RecipeFacts Proofs.ReduceFacts Proofs.SameFacts Proofs.PrintFacts Proofs.ExecFacts
  Props.Examples Props.Recipes Props.Reduction Props.Two Props.Reachability Props.Exec Props.States Props.Loader Props.Store Props.Queries Props.Failures Props.Cli.
Import ListNotations.
Local Open Scope string_scope.
Local Open Scope list_scope.
Local Open Scope nat_scope.

(** ** Results and answers *)
Definition agree (r : result) (a : Exec.answer) : Prop :=
  match r, a with
  | ResRefinement o, ARefinement x => o = None <-> x = RSuccess
  | ResReachability o, AReachability x => o = None <-> x = None
  | ResConsistency o, AConsistency b => none o = b
  | ResDeterminism o, ADeterminism x => o = None <-> x = None
  | ResComponent c, AComponent c' => c = c'
  | _, _ => False
  end.
Lemma result_agrees ch reduce load q r : query_result ch reduce load q = Ok r -> exists a, run_query ch reduce load q = Ok a /\ agree r a.
Proof.
  intros E. destruct q as [e f|e|e from to|e|e|e|e n|e n|e n]; try discriminate; cbn [query_result] in E.
  - inv_bind E. destruct a as [p dim]. inv_bind E. injection E as <-. apply refinement_agrees in H0. destruct H0 as (o & Eo & A). cbn [run_query]. rewrite H. cbn [bind]. rewrite Eo. eexists. split; [reflexivity|exact A].
  - inv_bind E. destruct a as [s dim]. inv_bind E. injection E as <-. apply precheck_agrees in H0. cbn [run_query]. rewrite H. cbn [bind]. unfold the_pre. rewrite H0. eexists. split; reflexivity.
  - inv_bind E. destruct a as [[[d s] start] target]. inv_bind E. cbn [run_query]. rewrite H. cbn [bind]. rewrite H0. cbn [bind]. eexists. split; [reflexivity|]. destruct a as [ds|]; [inv_bind E|]; injection E as <-; cbn; first [tauto|split; discriminate].
  - inv_bind E. destruct a as [s dim]. inv_bind E. injection E as <-. apply determinism_agrees in H0. cbn [run_query]. rewrite H. cbn [bind]. destruct a as [x|].
    + destruct H0 as (b & st & c & -> & _). eexists. split; [reflexivity|]. cbn. split; discriminate.
    + rewrite H0. eexists. split; [reflexivity|]. cbn. tauto.
  - inv_bind E. destruct a; try discriminate. injection E as <-. eexists. split; [exact H|reflexivity].
  - inv_bind E. destruct a; try discriminate. injection E as <-. eexists. split; [exact H|reflexivity].
Qed.

Lemma first_line show q r a b : agree r a -> result_lines show q r = Ok b -> exists rest, b = result_line q a :: rest /\
  match r with ResRefinement (Some _) | ResReachability (Some _) => True | _ => rest = [] end.
Proof.
  intros A E. destruct r as [[f|]|[ds|]|[f|]|[f|]|c]; destruct a as [o|o|x|o|c']; cbn [agree] in A; try contradiction; cbn [result_lines] in E; try (inv_bind E); injection E as <-; unfold result_line.
  - destruct o; cbn [satisfied]; try (eexists; split; [reflexivity|exact I]). destruct A as [_ A]. discriminate (A eq_refl).
  - rewrite (proj1 A eq_refl). cbn [satisfied]. eexists. split; reflexivity.
  - destruct o; [|destruct A as [_ A]; discriminate (A eq_refl)]. cbn [satisfied]. eexists. split; [reflexivity|exact I].
  - rewrite (proj1 A eq_refl). cbn [satisfied]. eexists. split; reflexivity.
  - cbn in A. subst x. cbn [satisfied]. eexists. split; reflexivity.
  - cbn in A. subst x. cbn [satisfied]. eexists. split; reflexivity.
  - destruct o; [|destruct A as [_ A]; discriminate (A eq_refl)]. cbn [satisfied]. eexists. split; reflexivity.
  - rewrite (proj1 A eq_refl). cbn [satisfied]. eexists. split; reflexivity.
  - eexists. split; reflexivity.
Qed.
Lemma query_result_ext ch reduce load load' q : (forall n, load n = load' n) -> query_result ch reduce load q = query_result ch reduce load' q.
Proof.
  intros X.
  assert (One : forall e, one_system ch reduce load e = one_system ch reduce load' e) by (intros e; unfold one_system; rewrite (recipe_ext load load' e X); reflexivity).
  assert (Two : forall e f, two_systems ch reduce load e f = two_systems ch reduce load' e f).
  { intros e f. unfold two_systems, two_recipes. rewrite (recipe_ext load load' e X). destruct (get_system_recipe load' e (0, None)) as [[a b]| | |]; cbn [bind]; try reflexivity. rewrite (recipe_ext load load' f X). reflexivity. }
  assert (Reach : forall e from to, reach_query (the_least ch) (the_pre ch) load e from to = reach_query (the_least ch) (the_pre ch) load' e from to).
  { intros e from to. unfold reach_query. rewrite (recipe_ext load load' e X). reflexivity. }
  destruct q; cbn [query_result]; rewrite ?One, ?Two, ?Reach, ?(run_query_ext _ _ _ _ _ X); reflexivity.
Qed.
Lemma saves_same (p : any_loader) r a : agree r a -> (match r with ResComponent c => Loader.save_component p c | _ => Ok p end) = (match a with AComponent c => Loader.save_component p c | _ => Ok p end).
Proof. destruct r, a; cbn [agree]; intros A; try contradiction; try reflexivity. subst. reflexivity. Qed.
Lemma saved_visible minc p a p1 : (match a with AComponent c => Loader.save_component p c | _ => Ok p end) = Ok p1 -> kind_of p1 = kind_of p /\ forall n, looked_up minc p1 n = visible (kind_of p) (looked_up minc p) [a] n.
Proof.
  intros E. destruct a as [o|o|x|o|c]; try (injection E as <-; split; [reflexivity|]; intros n; unfold visible; cbn; destruct (kind_of p); reflexivity).
  destruct (proj1 (C52_save minc p c) p1 E) as (K & load & Es & X). split; [exact K|]. intros n. rewrite X. exact (after_visible (kind_of p) (looked_up minc p) (AComponent c) load Es n).
Qed.

Lemma results_all chs minc reduce : forall qs p i rs p', run_results chs minc reduce p i (map Some qs) = Ok (rs, p') ->
  exists as_, run_all chs minc reduce p i (map Some qs) = Ok (as_, p') /\ Forall2 agree rs as_ /\ List.length rs = List.length qs /\
    forall j q r, nth_error qs j = Some q -> nth_error rs j = Some r -> query_result (chs (i + j)) reduce (visible (kind_of p) (looked_up minc p) (firstn j as_)) q = Ok r.
Proof.
  induction qs as [|q qs IH]; intros p i rs p' E; cbn [map run_results] in E.
  - injection E as <- <-. exists []. split; [reflexivity|]. split; [constructor|]. split; [reflexivity|]. intros [|j]; discriminate.
  - cbn [unwrap bind] in E. inv_bind E. rename a into r. inv_bind E. rename a into p1. inv_bind E. destruct a as [rest p2]. injection E as <- <-.
    destruct (query_result (chs i) reduce (looked_up minc p) q) as [r0| | |] eqn:Q; try discriminate. injection H as ->. destruct (result_agrees _ _ _ _ _ Q) as (a & Ra & A).
    rewrite (saves_same p r a A) in H0. destruct (saved_visible minc p a p1 H0) as [Kd V]. destruct (IH p1 (S i) rest p2 H1) as (as_ & R & F & L & N). exists (a :: as_). split.
    + cbn [map run_all unwrap bind]. rewrite Ra. cbn [bind]. rewrite H0. cbn [bind]. rewrite R. reflexivity.
    + split; [constructor; assumption|]. split; [cbn; congruence|]. intros [|j] q' r'; cbn [nth_error firstn].
      * intros X Y. injection X as <-. injection Y as <-. rewrite Nat.add_0_r. rewrite <- Q. apply query_result_ext. intros n. unfold visible. destruct (kind_of p); reflexivity.
      * intros X Y. specialize (N j q' r' X Y). rewrite Nat.add_succ_r. rewrite <- N. rewrite Kd. apply query_result_ext. intros n. symmetry. apply visible_cons. exact V.
Qed.
Lemma all_results chs minc reduce : forall qs p i as_ p', run_all chs minc reduce p i (map Some qs) = Ok (as_, p') ->
  (forall j q a, nth_error qs j = Some q -> nth_error as_ j = Some a -> exists r, query_result (chs (i + j)) reduce (visible (kind_of p) (looked_up minc p) (firstn j as_)) q = Ok r) ->
  exists rs, run_results chs minc reduce p i (map Some qs) = Ok (rs, p').
Proof.
  induction qs as [|q qs IH]; intros p i as_ p' E T; cbn [map run_all] in E; [injection E as <- <-; exists []; reflexivity|].
  cbn [unwrap bind] in E. inv_bind E. inv_bind E. rename a0 into p1. inv_bind E. destruct a0 as [rest p2]. injection E as <- <-.
  destruct (run_query (chs i) reduce (looked_up minc p) q) as [a0| | |] eqn:Ra; try discriminate. injection H as ->.
  destruct (T 0 q a eq_refl eq_refl) as [r Er]. cbn [firstn] in Er. rewrite Nat.add_0_r in Er. rewrite (query_result_ext _ _ _ (looked_up minc p)) in Er by (intros n; unfold visible; destruct (kind_of p); reflexivity).
  destruct (result_agrees _ _ _ _ _ Er) as (a1 & R1 & A). rewrite Ra in R1. injection R1 as <-. destruct (saved_visible minc p a p1 H0) as [Kd V]. destruct (IH p1 (S i) rest p2 H1) as [rs Rs].
  - intros j q' a' X Y. destruct (T (S j) q' a' X Y) as [r' Er']. exists r'. rewrite Nat.add_succ_r in Er'. rewrite <- Er'. rewrite Kd. apply query_result_ext. intros n. cbn [firstn]. apply visible_cons. exact V.
  - exists (r :: rs). cbn [map run_results unwrap bind]. rewrite Er. cbn [bind]. rewrite (saves_same p r a A), H0. cbn [bind]. rewrite Rs. reflexivity.
Qed.
Lemma blocks_at show : forall qs rs bs, List.length rs = List.length qs ->
  print_all show (map Some qs) rs = Ok bs <-> List.length bs = List.length qs /\ forall j q r b, nth_error qs j = Some q -> nth_error rs j = Some r -> nth_error bs j = Some b -> result_lines show (print_query q) r = Ok b.
Proof.
  unfold print_all. induction qs as [|q qs IH]; intros [|r rs] bs L; try discriminate L; cbn [map combine mapM].
  - split; [intros E; injection E as <-; split; [reflexivity|]; intros [|j]; discriminate|]. intros [B _]. destruct bs; [reflexivity|discriminate].
  - injection L as L. cbn [fst snd unwrap bind]. split.
    + intros E. inv_bind E. inv_bind E. injection E as <-. apply (IH rs _ L) in H0. destruct H0 as [Lb N]. split; [cbn; congruence|]. intros [|j] q' r' b'; cbn [nth_error]; [intros X Y Z; injection X as <-; injection Y as <-; injection Z as <-; exact H|apply N].
    + intros [Lb N]. destruct bs as [|b bs]; [discriminate|]. rewrite (N 0 q r b eq_refl eq_refl eq_refl). cbn [bind].
      destruct (IH rs bs L) as [_ X]. rewrite X; [reflexivity|]. split; [cbn in Lb; congruence|]. intros j q' r' b'. exact (N (S j) q' r' b').
Qed.

Lemma output_at show chs minc a dk bs p' : command_output show chs minc a dk = Ok (bs, p') ->
  exists qs p pqs as_ rs, parse_queries (ag_query a) = Ok qs /\ ag_save a = false /\ open_project minc (ag_input a) dk = Ok (p, pqs) /\
    run_all chs minc (ag_reduce a) p 0 (map Some qs) = Ok (as_, p') /\ Forall2 agree rs as_ /\ List.length rs = List.length qs /\ List.length bs = List.length qs /\
    (forall j q r, nth_error qs j = Some q -> nth_error rs j = Some r -> query_result (chs j) (ag_reduce a) (visible (kind_of p) (looked_up minc p) (firstn j as_)) q = Ok r) /\
    forall j q r b, nth_error qs j = Some q -> nth_error rs j = Some r -> nth_error bs j = Some b -> result_lines show (print_query q) r = Ok b.
Proof.
  intros E. unfold command_output, query_check, parse_args in E. inv_bind E. inv_bind H. rename a1 into qs. rename H0 into Eq. inv_bind E. destruct a1 as [p oqs].
  destruct (ag_save a) eqn:Es; [discriminate|]. inv_bind H0. destruct a1 as [p1 pqs]. destruct (ag_query a) as [|c0 s0] eqn:Ea; [vm_compute in Eq; discriminate|]. rewrite Eq in H0. cbn [expect bind] in H0. injection H0 as <- <-.
  inv_bind E. destruct a1 as [rs p2]. inv_bind E. injection E as <- <-. destruct (results_all _ _ _ _ _ _ _ _ H0) as (as_ & R & F & L & N). apply blocks_at in H2; [|exact L]. destruct H2 as [Lb Nb].
  exists qs, p1, pqs, as_, rs. repeat (split; [first [assumption|reflexivity]|]). exact Nb.
Qed.

(** ** The lines *)

(** C69: the lines of each query begin with the line C55 speaks about; only failed refinements and reachable states have more. *)
Theorem C69_lines : forall show chs minc a dk bs p', command_output show chs minc a dk = Ok (bs, p') ->
  exists qs p pqs as_, parse_queries (ag_query a) = Ok qs /\ open_project minc (ag_input a) dk = Ok (p, pqs) /\
    answered chs (ag_reduce a) (kind_of p) (looked_up minc p) qs as_ /\ command_line chs minc a dk = Ok (map (hd []) bs, p') /\
    List.length bs = List.length qs /\
    forall i q an b, nth_error qs i = Some q -> nth_error as_ i = Some an -> nth_error bs i = Some b ->
      exists l rest, b = l :: rest /\ says q an l /\
        (rest = [] \/ (exists o, an = ARefinement o /\ o <> RSuccess) \/ (exists ds, an = AReachability (Some ds))).
Proof.
  intros show chs minc a dk bs p' E. destruct (output_at _ _ _ _ _ _ _ E) as (qs & p & pqs & as_ & rs & Eq & Es & Eo & Ra & F & Lr & Lb & N & Nb).
  assert (At : forall i q an b, nth_error qs i = Some q -> nth_error as_ i = Some an -> nth_error bs i = Some b -> exists r, agree r an /\ result_lines show (print_query q) r = Ok b).
  { intros i q an b X Y Z. destruct (nth_error rs i) as [r|] eqn:W.
    - exists r. split; [|exact (Nb i q r b X W Z)]. clear - F W Y. revert i W Y. induction F as [|x y l m A F IH]; intros [|i] W Y; cbn in *; try discriminate; [congruence|eauto].
    - apply nth_error_None in W. assert (i < List.length qs) by (apply nth_error_Some; congruence). lia. }
  assert (An : answered chs (ag_reduce a) (kind_of p) (looked_up minc p) qs as_) by (apply answered_iff; apply (run_all_as chs minc (ag_reduce a) qs p 0) in Ra; exact Ra).
  exists qs, p, pqs, as_. split; [exact Eq|]. split; [exact Eo|]. split; [exact An|]. split; [|split; [exact Lb|]].
  - unfold command_line, query_check, parse_args. rewrite Eq, Es, Eo. cbn [bind]. destruct (ag_query a) as [|c0 s0] eqn:Ea; [vm_compute in Eq; discriminate|]. rewrite Eq. cbn [expect bind]. rewrite Ra. cbn [bind].
    assert (P : print_results (map Some qs) as_ = Ok (map (hd []) bs)); [|rewrite P; reflexivity].
    destruct An as (La & _). unfold print_results. clear - At Lb La. revert as_ bs Lb La At. induction qs as [|q qs IH]; intros [|an as_] [|b bs] Lb La At; try discriminate; [reflexivity|]. cbn [map combine mapM fst snd unwrap bind].
    destruct (At 0 q an b eq_refl eq_refl eq_refl) as (r & A & R). destruct (first_line _ _ _ _ _ A R) as (rest & -> & _). rewrite (IH as_ bs); [reflexivity|cbn in Lb; congruence|cbn in La; congruence|].
    intros i q' an' b'. exact (At (S i) q' an' b').
  - intros i q an b X Y Z. destruct (At i q an b X Y Z) as (r & A & R). destruct (first_line _ _ _ _ _ A R) as (rest & -> & T). exists (result_line (print_query q) an), rest. split; [reflexivity|]. split; [apply line_says; reflexivity|].
    destruct r as [[f|]|[ds|]|[f|]|[f|]|c]; auto; destruct an as [o|o|x|o|c']; cbn [agree] in A; try contradiction; right; [left|right].
    + exists o. split; [reflexivity|]. intros ->. destruct A as [_ A]. discriminate (A eq_refl).
    + destruct o as [ds'|]; [eauto|]. destruct A as [_ A]. discriminate (A eq_refl).
Qed.
Print Assumptions C69_lines.

Lemma output_query show chs minc a dk bs p' qs p pqs as_ i q b : command_output show chs minc a dk = Ok (bs, p') -> parse_queries (ag_query a) = Ok qs -> open_project minc (ag_input a) dk = Ok (p, pqs) ->
  answered chs (ag_reduce a) (kind_of p) (looked_up minc p) qs as_ -> nth_error qs i = Some q -> nth_error bs i = Some b ->
  exists r, query_result (chs i) (ag_reduce a) (visible (kind_of p) (looked_up minc p) (firstn i as_)) q = Ok r /\ result_lines show (print_query q) r = Ok b.
Proof.
  intros E Eq Eo An X Y. destruct (output_at _ _ _ _ _ _ _ E) as (qs' & p1 & pqs' & as' & rs & Eq' & Es & Eo' & Ra & F & Lr & Lb & N & Nb). rewrite Eq in Eq'. injection Eq' as <-. rewrite Eo in Eo'. injection Eo' as <- <-.
  apply (run_all_as chs minc (ag_reduce a) qs p 0) in Ra. apply answered_iff in An. rewrite An in Ra. injection Ra as <-.
  destruct (nth_error rs i) as [r|] eqn:W; [|apply nth_error_None in W; assert (i < List.length qs) by (apply nth_error_Some; congruence); lia]. eauto.
Qed.
(** C69: below a refinement that does not hold there is one more line with text, and what it says is true of the two systems, or of systems
    without superfluous clocks that behave as they do. *)
Theorem C69_reason_partial : forall acc show chs minc a dk bs p' qs p pqs as_ i e f b d s t,
  command_output show chs minc a dk = Ok (bs, p') -> parse_queries (ag_query a) = Ok qs -> open_project minc (ag_input a) dk = Ok (p, pqs) ->
  answered chs (ag_reduce a) (kind_of p) (looked_up minc p) qs as_ -> nth_error qs i = Some (QRefinement e f) -> nth_error bs i = Some b ->
  let load := visible (kind_of p) (looked_up minc p) (firstn i as_) in
  fair (chs i) -> explores acc (chs i) load -> loadable load -> names_two load e f d s t -> (Z.of_nat d < 4294967295)%Z ->
  has_quotient e && has_quotient f = false -> (ag_reduce a = true -> dropped_unmentioned_two (the_redundant (chs i)) load e f) -> upper_invariants d s -> upper_invariants d t ->
  b = [print_query (QRefinement e f) ++ txt " -- Property is satisfied"] \/
  exists w d' s' t', b = [print_query (QRefinement e f) ++ txt " -- Property is NOT satisfied"; []; txt ("Got failure: " ++ w)%string] /\
    same_behaviour d s d' s' /\ same_behaviour d t d' t' /\ (ag_reduce a = false -> d' = d /\ s' = s /\ t' = t) /\
    (named_load load -> system_text s' = text_of e /\ system_text t' = text_of f) /\ reason acc show d' s' t' w.
Proof.
  intros acc show chs minc a dk bs p' qs p pqs as_ i e f b d s t E Eq Eo An X Y load Fc Ex L Na Sm Hq Un U1 U2. destruct (output_query _ _ _ _ _ _ _ _ _ _ _ _ _ _ E Eq Eo An X Y) as (r & R & Lr). fold load in R.
  set (ch := chs i) in *. set (reduce := ag_reduce a) in *. clear E Eq Eo An X Y.
  cbn [query_result] in R. inv_bind R. destruct a0 as [[s' t'] dim']. cbn [fst snd] in R. inv_bind R. injection R as <-. destruct a0 as [x|]; cbn [result_lines] in Lr; [|injection Lr as <-; left; reflexivity]. right.
  destruct (two_ready ch reduce load e f Fc L d s t s' t' dim' Na Sm Un H) as (Rs & Rt & Sp). destruct (rd_clocks _ _ _ _ Rs) as [q1 K1]. destruct (rd_clocks _ _ _ _ Rt) as [q2 K2].
  destruct (two_made ch reduce load e f d s t s' t' dim' Fc L Na Sm Un H) as [Le Eq].
  destruct (two_mild ch reduce load e f Fc L acc (explores_plain acc ch load Ex) s' t' dim' (two_few load e f d s t Na Sm) Un H) as [M1 M2]. destruct (fair_minc ch Fc (dim' + 1) ltac:(lia)) as [M _].
  destruct (refinement_told acc (dim' + 1) q1 q2 (ch_pext ch (dim' + 1) s' t') s' t' (explores_pext acc ch load Ex (dim' + 1) s' t') M1 M2 (rd_built _ _ _ _ Rs) (rd_built _ _ _ _ Rt) K1 K2 (rd_reads _ _ _ _ Rs) (rd_reads _ _ _ _ Rt) (rd_range _ _ _ _ Rs) (rd_range _ _ _ _ Rt)
      (ch_aord ch) (fair_aord _ Fc) (ch_ext ch (dim' + 1)) (ch_sord ch) (ch_minc ch (dim' + 1)) (ch_kord ch) (explores_ext acc ch load Ex (dim' + 1)) (fair_sord _ Fc) M (small (dim' + 1) ltac:(lia)) (kord_same ch Fc) (Sp Hq) (rd_upper _ _ _ _ Rs U1) (rd_upper _ _ _ _ Rt U2) show _ _ H0) as (w & Ew & T).
  rewrite Ew in Lr. cbn [bind] in Lr. injection Lr as <-. exists w, (dim' + 1), s', t'. split; [reflexivity|]. split; [apply Rs|]. split; [apply Rt|]. split; [exact Eq|]. split; [intros Nl; eapply two_text; eassumption|exact T].
Qed.
Print Assumptions C69_reason_partial.

(** Where a search starts is a location of the system. *)
Lemma start_inside least pre load e from to r dim q s d s' start target : loadable load -> get_system_recipe load e (0, None) = Ok (r, (dim, q)) -> compile least pre dim r = Ok s -> distinct_names r -> fair_query r from to ->
  reach_query least pre load e from to = Ok (d, s', start, target) -> d = dim + 1 /\ s' = s /\ In (s_loc start) (all_locations (dim + 1) s).
Proof.
  intros L Er Ec N [Ff _] E. unfold reach_query in E. rewrite Er in E. cbn [bind fst] in E. rewrite Ec in E. cbn [bind] in E. inv_bind E. inv_bind E. injection E as <- <- <- <-. split; [reflexivity|]. split; [reflexivity|].
  destruct (C29_compiled least pre load e r dim q s L Er Ec) as (B & _ & Ck & _). destruct from as [f|].
  - inv_bind H. destruct (is_partial (lt_id (s_loc a1))) eqn:P; [discriminate|]. injection H as ->. destruct (Ff f eq_refl) as (O' & S' & K'). destruct (C40_decoded_partial least pre dim r s f a Ec N O' S' K' H1) as (_ & _ & _ & Is). auto.
  - unfold ok_or in H. destruct (initial_state (dim + 1) s) as [st|] eqn:Es; [|discriminate]. injection H as ->. destruct (initial_state_spec _ _ _ B Ck a Es) as (l0 & El & El' & Hin & _). rewrite El' in *. exact Hin.
Qed.
Lemma search_fits acc ch load e to r dim q s target : loadable load -> get_system_recipe load e (0, None) = Ok (r, (dim, q)) -> compile (the_least ch) (the_pre ch) dim r = Ok s ->
  searches acc ch load to -> get_state (dim + 1) to r s = Ok target -> search_accurate acc (dim + 1) (ch_xext ch (dim + 1) s (s_zone target)) s (s_zone target).
Proof.
  intros L Er Cs Sr Et. destruct (C29_compiled _ _ load e r dim q s L Er Cs) as (_ & Cc & Ck & _). destruct (C29_numbering load e r dim q (fun n c H => proj1 (L n c H)) Er) as (In & _ & P & _).
  unfold searches in Sr. destruct acc; [exact (Sr _ _ _)|]. destruct Sr as (W & N & Lt). split; [|split; [|apply W; eapply C40_numbers; eauto]].
  - unfold compile in Cs. apply bind_ok in Cs. destruct Cs as ((s1 & k) & Ek & Es). injection Es as ->. refine (plain_mild Bounded _ _ _ r _ _ _ _ Ek). intros c Hc. destruct (instance_component _ _ _ In _ Hc) as (n & c0 & Ln & Re). exact (plain_renumbered Bounded _ _ Re (Lt _ _ Ln)).
  - refine (below_of _ _ _ Ck _). intros x Hx. rewrite Cc in Hx. pose proof (Permutation_in _ P (in_or_app _ _ _ (or_introl Hx))) as H'. apply in_seq in H'. lia.
Qed.
(** C69: below a state that can be reached there is a line for every step of a run that leads to it, with its action and the location it
    is taken in. *)
Theorem C69_path_partial : forall show chs minc a dk bs p' qs p pqs as_ i e from to b r dim q s,
  command_output show chs minc a dk = Ok (bs, p') -> parse_queries (ag_query a) = Ok qs -> open_project minc (ag_input a) dk = Ok (p, pqs) ->
  answered chs (ag_reduce a) (kind_of p) (looked_up minc p) qs as_ -> nth_error qs i = Some (QReachability e from to) -> nth_error bs i = Some b ->
  let load := visible (kind_of p) (looked_up minc p) (firstn i as_) in
  loadable load -> get_system_recipe load e (0, None) = Ok (r, (dim, q)) -> compile unchecked unchecked dim r = Ok s -> upper_invariants (dim + 1) s -> distinct_names r -> fair_query r from to ->
  b = [print_query (QReachability e from to) ++ txt " -- Property is NOT satisfied"] \/
  exists l v steps l' v', b = (print_query (QReachability e from to) ++ txt " -- Property is satisfied") :: txt "Edges that have been taken:" :: map (stop_line s) (stops l steps) /\
    starts (dim + 1) s r from l v /\ inv_at (dim + 1) l v /\ path_run (dim + 1) s l v steps l' v' /\
    (forall x, mentions to x -> at_loc x r (lt_id l')) /\
    (forall acc, searches acc (chs i) load to -> holds r (lt_id l') v' to).
Proof.
  intros show chs minc a dk bs p' qs p pqs as_ i e from to b r dim q s E Eq Eo An X Y load L Er Cu U Dn Fq. destruct (output_query _ _ _ _ _ _ _ _ _ _ _ _ _ _ E Eq Eo An X Y) as (res & R & Lr). fold load in R.
  set (ch := chs i) in *. set (reduce := ag_reduce a) in *. clear E Eq Eo An X Y.
  cbn [query_result] in R. inv_bind R. destruct a0 as [[[d s'] start] target]. rename H into Rq. inv_bind R. destruct a0 as [ds|]; [|injection R as <-; cbn [result_lines] in Lr; injection Lr as <-; left; reflexivity]. right.
  assert (Cs : compile (the_least ch) (the_pre ch) dim r = Ok s).
  { assert (Z := Rq). unfold reach_query in Z. rewrite Er in Z. cbn [bind fst] in Z. inv_bind Z. assert (Z' := H0). apply one_unchecked in Z'. rewrite Cu in Z'. injection Z' as <-. exact H0. }
  inv_bind R. rename a0 into ps. injection R as <-. destruct (start_inside _ _ _ _ _ _ _ _ _ _ _ _ _ _ L Er Cs Dn Fq Rq) as (-> & -> & _).
  assert (Rn : run_reach (the_least ch) (the_pre ch) (ch_fuel ch) (ch_xext ch) load e from to = Ok (Some ds)) by (unfold run_reach; rewrite Rq; cbn [bind]; exact H).
  destruct (path_from_start _ _ _ _ _ _ _ _ _ _ _ _ _ L Er Cs U Dn Fq Rn) as (start' & target' & v & l' & v' & Ef & Hin & E3 & E4 & E5 & E6 & E7).
  destruct (C29_compiled _ _ load e r dim q s L Er Cs) as (B & _ & Ck & _). destruct (found_stops (dim + 1) _ s B Ck _ _ _ _ _ Hin Ef) as [St Pl]. destruct (path_texted (dim + 1) s B (ch_minc ch (dim + 1)) (ch_kord ch) ds Pl) as (ps' & P1 & P2). rewrite H0 in P1. injection P1 as <-.
  cbn [result_lines] in Lr. unfold path_lines in Lr. rewrite P2 in Lr. cbn [bind] in Lr. injection Lr as <-. rewrite St.
  exists (s_loc start'), v, (map taken ds), l', v'. split; [reflexivity|]. repeat (split; [assumption|]). intros acc Sr. apply (E7 acc). intros tg Et. exact (search_fits acc ch load e to r dim q s tg L Er Cs Sr Et).
Qed.
Print Assumptions C69_path_partial.

(** The assumptions under which a query is always printed: those of C53, and for reachability those of C40. *)
Definition ordinary (acc : accuracy) (ch : choices) (reduce : bool) (load : string -> option component) (q : query) : Prop :=
  fair ch /\ explores acc ch load /\ loadable load /\
  match q with
  | QRefinement e f =>
      has_quotient e && has_quotient f = false /\ (reduce = true -> dropped_unmentioned_two (the_redundant ch) load e f) /\
      forall d s t, names_two load e f d s t -> (Z.of_nat d < 4294967295)%Z /\ upper_invariants d s /\ upper_invariants d t
  | QReachability e from to => forall r st, get_system_recipe load e (0, None) = Ok (r, st) -> distinct_names r /\ fair_query r from to
  | QConsistency e | QDeterminism e =>
      (reduce = true -> dropped_unmentioned (the_redundant ch) load e /\ nothing_merged (the_redundant ch) load e) /\
      forall d s, names_one load e d s -> (Z.of_nat d < 4294967295)%Z
  | _ => True
  end.
Lemma always_lines acc show ch reduce load q a : ordinary acc ch reduce load q -> run_query ch reduce load q = Ok a ->
  exists r b, query_result ch reduce load q = Ok r /\ result_lines show (print_query q) r = Ok b.
Proof.
  intros (Fc & Ex & L & O) E. assert (E0 := E). destruct q as [e f|e|e from to|e|e|e|e n|e n|e n]; try discriminate E; cbn [query_result].
  - destruct (C50_named_two _ _ _ _ _ _ E) as (d & s & t & Na). destruct O as (Hq & Un & O). destruct (O d s t Na) as (Sm & U1 & U2). clear O.
    cbn [run_query] in E. inv_bind E. destruct a0 as [[s' t'] dim']. inv_bind E. injection E as <-. cbn [fst snd] in *. rewrite H. cbn [bind fst snd].
    destruct (two_ready ch reduce load e f Fc L d s t s' t' dim' Na Sm Un H) as (Rs & Rt & Sp). destruct (rd_clocks _ _ _ _ Rs) as [q1 K1]. destruct (rd_clocks _ _ _ _ Rt) as [q2 K2].
    destruct (two_made ch reduce load e f d s t s' t' dim' Fc L Na Sm Un H) as [Le Eq].
    destruct (two_mild ch reduce load e f Fc L acc (explores_plain acc ch load Ex) s' t' dim' (two_few load e f d s t Na Sm) Un H) as [M1 M2]. destruct (fair_minc ch Fc (dim' + 1) ltac:(lia)) as [M _].
    destruct (refinement_total acc (dim' + 1) q1 q2 (ch_pext ch (dim' + 1) s' t') s' t' (explores_pext acc ch load Ex (dim' + 1) s' t') M1 M2 (rd_built _ _ _ _ Rs) (rd_built _ _ _ _ Rt) K1 K2 (rd_reads _ _ _ _ Rs) (rd_reads _ _ _ _ Rt) (rd_range _ _ _ _ Rs) (rd_range _ _ _ _ Rt)
      (ch_aord ch) (fair_aord _ Fc) (ch_ext ch (dim' + 1)) (ch_sord ch) (ch_minc ch (dim' + 1)) (ch_kord ch) (explores_ext acc ch load Ex (dim' + 1)) (fair_sord _ Fc) M (small (dim' + 1) ltac:(lia)) (kord_same ch Fc) (Sp Hq) (rd_upper _ _ _ _ Rs U1) (rd_upper _ _ _ _ Rt U2) _ _ H0) as (o & Eo & No).
    rewrite Eo. cbn [bind]. destruct o as [x|]; [|do 2 eexists; split; reflexivity].
    destruct (refinement_told acc (dim' + 1) q1 q2 (ch_pext ch (dim' + 1) s' t') s' t' (explores_pext acc ch load Ex (dim' + 1) s' t') M1 M2 (rd_built _ _ _ _ Rs) (rd_built _ _ _ _ Rt) K1 K2 (rd_reads _ _ _ _ Rs) (rd_reads _ _ _ _ Rt) (rd_range _ _ _ _ Rs) (rd_range _ _ _ _ Rt)
      (ch_aord ch) (fair_aord _ Fc) (ch_ext ch (dim' + 1)) (ch_sord ch) (ch_minc ch (dim' + 1)) (ch_kord ch) (explores_ext acc ch load Ex (dim' + 1)) (fair_sord _ Fc) M (small (dim' + 1) ltac:(lia)) (kord_same ch Fc) (Sp Hq) (rd_upper _ _ _ _ Rs U1) (rd_upper _ _ _ _ Rt U2) show _ _ Eo) as (w & Ew & _).
    do 2 eexists. split; [reflexivity|]. cbn [result_lines]. rewrite Ew. reflexivity.
  - destruct (C50_named_one ch reduce load e _ _ (or_introl (or_introl eq_refl)) E) as (d & s & Na). destruct O as [Un O]. specialize (O d s Na).
    cbn [run_query] in E. inv_bind E. destruct a0 as [s' dim']. rewrite H. cbn [bind]. inv_bind E.
    destruct (one_made acc ch reduce load e d s s' dim' Fc Ex L Na O Un H) as ((q & Fi) & Le & Sb & Eq). destruct (pre_says_all acc ch Fc (explores_ext acc ch load Ex) dim' q s' a0 ltac:(lia) Fi H0) as (o & Eo & No). rewrite Eo. cbn [bind].
    destruct o; do 2 eexists; split; reflexivity.
  - cbn [run_query] in E. inv_bind E. destruct a0 as [[[d s'] start] target]. rewrite H. cbn [bind]. inv_bind E. rewrite H0. cbn [bind]. injection E as <-. destruct a0 as [ds|]; [|do 2 eexists; split; reflexivity].
    assert (Z := H). unfold reach_query in Z. inv_bind Z. destruct a as [r [dim q]]. destruct (O r _ H1) as [Dn Fq]. inv_bind Z. cbn [fst] in *. rename a into s. clear Z.
    destruct (start_inside _ _ _ _ _ _ _ _ _ _ _ _ _ _ L H1 H2 Dn Fq H) as (-> & -> & Hin). destruct (C29_compiled _ _ load e r dim q s L H1 H2) as (B & _ & Ck & _).
    destruct (found_stops (dim + 1) _ s B Ck _ _ _ _ _ Hin H0) as [St Pl]. destruct (path_texted (dim + 1) s B (ch_minc ch (dim + 1)) (ch_kord ch) ds Pl) as (ps & P1 & P2). rewrite P1. cbn [bind].
    do 2 eexists. split; [reflexivity|]. cbn [result_lines]. unfold path_lines. rewrite P2. reflexivity.
  - destruct (C50_named_one ch reduce load e _ _ (or_introl (or_intror (or_introl eq_refl))) E) as (d & s & Na). destruct O as [Un O]. specialize (O d s Na).
    cbn [run_query] in E. inv_bind E. destruct a0 as [s' dim']. rewrite H. cbn [bind]. inv_bind E.
    destruct (one_made acc ch reduce load e d s s' dim' Fc Ex L Na O Un H) as ((q & Fi) & Le & Sb & Eq). destruct (fair_minc ch Fc (dim' + 1) ltac:(lia)) as [M _].
    destruct (determinism_total acc (dim' + 1) q (ch_ext ch (dim' + 1)) (ch_sord ch) (ch_minc ch (dim' + 1)) (ch_kord ch) (explores_ext acc ch load Ex (dim' + 1)) (fair_sord _ Fc) M (small (dim' + 1) ltac:(lia)) (kord_same ch Fc) _ s' Fi _ H0) as (o & Eo & No). rewrite Eo. cbn [bind].
    destruct o; do 2 eexists; split; reflexivity.
  - rewrite E0. cbn [bind]. assert (R : exists c, a = AComponent c) by (cbn [run_query] in E; inv_bind E; destruct a0 as [s' dim']; inv_bind E; injection E as <-; eauto). destruct R as [c ->]. do 2 eexists. split; reflexivity.
  - rewrite E0. cbn [bind]. assert (R : exists c, a = AComponent c) by (cbn [run_query] in E; inv_bind E; destruct a0 as [s' dim']; inv_bind E; inv_bind E; injection E as <-; eauto). destruct R as [c ->]. do 2 eexists. split; reflexivity.
Qed.
(** C69: describing the results ends no command: if all queries are answered, everything is printed, for ordinary queries. *)
Theorem C69_always_partial : forall show chs minc a dk ls p' qs p pqs as_, command_line chs minc a dk = Ok (ls, p') -> parse_queries (ag_query a) = Ok qs -> open_project minc (ag_input a) dk = Ok (p, pqs) ->
  answered chs (ag_reduce a) (kind_of p) (looked_up minc p) qs as_ ->
  (forall i q, nth_error qs i = Some q -> exists acc, ordinary acc (chs i) (ag_reduce a) (visible (kind_of p) (looked_up minc p) (firstn i as_)) q) ->
  exists bs, command_output show chs minc a dk = Ok (bs, p') /\ map (hd []) bs = ls.
Proof.
  intros show chs minc a dk ls p' qs p pqs as_ E Eq Eo An O.
  assert (C : exists bs, command_output show chs minc a dk = Ok (bs, p')).
  { unfold command_line, query_check, parse_args in E. unfold command_output, query_check, parse_args. rewrite Eq in *. cbn [bind] in *. destruct (ag_save a); [discriminate E|]. rewrite Eo in *. cbn [bind] in *.
    destruct (ag_query a) as [|c0 s0] eqn:Ea; [vm_compute in Eq; discriminate|]. rewrite ?Eq in *. cbn [expect bind] in *. inv_bind E. destruct a0 as [as' p2]. inv_bind E. injection E as _ ->. clear H0. rename H into H0.
    assert (as' = as_) as ->. { apply (run_all_as chs minc (ag_reduce a) qs p 0) in H0. apply answered_iff in An. congruence. }
    destruct An as (La & An & _).
    assert (Al : forall j q an, nth_error qs j = Some q -> nth_error as_ j = Some an -> exists r b, query_result (chs j) (ag_reduce a) (visible (kind_of p) (looked_up minc p) (firstn j as_)) q = Ok r /\ result_lines show (print_query q) r = Ok b).
    { intros j q an X Y. destruct (O j q X) as [acc Oq]. exact (always_lines acc show _ _ _ _ _ Oq (An j q an X Y)). }
    destruct (all_results chs minc (ag_reduce a) qs p 0 as_ p' H0) as [rs Rs]; [intros j q an X Y; destruct (Al j q an X Y) as (r & _ & R & _); eauto|].
    rewrite Rs. cbn [bind]. destruct (results_all _ _ _ _ _ _ _ _ Rs) as (as2 & Ra & F & Lr & N). rewrite H0 in Ra. injection Ra as <-. cbn [Nat.add] in N.
    assert (B : exists bs, print_all show (map Some qs) rs = Ok bs); [|destruct B as [bs ->]; cbn [bind]; eauto].
    assert (G : forall j q r, nth_error qs j = Some q -> nth_error rs j = Some r -> exists b, result_lines show (print_query q) r = Ok b).
    { intros j q r X Y. destruct (nth_error as_ j) as [an|] eqn:W; [|apply nth_error_None in W; assert (j < List.length qs) by (apply nth_error_Some; congruence); lia]. destruct (Al j q an X W) as (r' & b & R & Lb). rewrite (N j q r X Y) in R. injection R as <-. eauto. }
    clear - Lr G. unfold print_all. revert rs Lr G. induction qs as [|q qs IH]; intros [|r rs] Lr G; try discriminate; [exists []; reflexivity|]. cbn [map combine mapM fst snd unwrap bind]. destruct (G 0 q r eq_refl eq_refl) as [b ->]. cbn [bind].
    destruct (IH rs) as [bs ->]; [cbn in Lr; congruence|intros j; exact (G (S j))|]. cbn [bind]. eauto. }
  destruct C as [bs C]. exists bs. split; [exact C|]. destruct (C69_lines _ _ _ _ _ _ _ C) as (? & ? & ? & ? & _ & _ & _ & E' & _). rewrite E in E'. injection E' as ->. reflexivity.
Qed.
Print Assumptions C69_always_partial.

(** ** Examples *)

(** M serves tea at most 3 after a coin, Q at most 2. *)
Definition pr_file : file_comp :=
  mkFC (txt "Q") (txt "clock y;") [mkFL (txt "K0") [] (txt "INITIAL") (txt "NORMAL"); mkFL (txt "K1") (txt "y<=2") (txt "NORMAL") (txt "NORMAL")]
    [mkFE (txt "E0") (txt "K0") (txt "K1") (txt "INPUT") [] (txt "y=0") (txt "coin"); mkFE (txt "E1") (txt "K1") (txt "K0") (txt "OUTPUT") (txt "y>=1") [] (txt "tea")].
Definition pr_files : folder := fun n => if String.eqb n "Q" then Some pr_file else ld_files n.
Definition pr_disk : disk := mkDisk (Some (txt "system M, Q;" ++ newline :: txt "IO M {coin?, tea!}" ++ newline :: txt "IO Q {coin?, tea!}")) (Some [txt "consistency: M"]) pr_files None.
Definition pr_args : args := mkArgs (txt "refinement: M <= Q; reachability: M @ init -> M.L1 && M.x >= 2; consistency: M") ["samples"; "Machine"] false false.
Definition pr_spec : sysspec := mkSpec ["M"; "Q"] [("M", ["coin"]); ("Q", ["coin"])] [("M", ["tea"]); ("Q", ["tea"])].
Definition pr_load := looked_up ld_minc (AJson (json_new pr_files pr_spec)).
Definition pr_ch := plain_choices 40.
Definition pr_to : stx := SAnd [SLoc (mkVar "M" None "L1"); SCmp RGe (OClk (mkVar "M" None "x")) (ONum 2)].
Definition pr_qs : list query := [QRefinement (XComp "M" None) (XComp "Q" None); QReachability (XComp "M" None) None pr_to; QConsistency (XComp "M" None)].
Definition pr_m : recipe := Eval vm_compute in get no_recipe (rmap fst (get_system_recipe pr_load (XComp "M" None) (0, None))).
Definition pr_q : recipe := Eval vm_compute in get no_recipe (rmap fst (get_system_recipe pr_load (XComp "Q" None) (1, None))).
Definition pr_two : ts * ts := Eval vm_compute in get (ts_m, ts_m) (compile_two unchecked unchecked 2 pr_m pr_q).
Definition pr_one : ts := Eval vm_compute in get ts_m (compile unchecked unchecked 1 pr_m).
Lemma pr_sound : forall n f, pr_files n = Some f -> sound_file f.
Proof.
  intros n f E. unfold pr_files in E. destruct (String.eqb n "Q"); [|apply (proj1 C52_nonvacuous n f E)]. injection E as <-. split.
  - exists [DClocks "y" []]. split; [reflexivity|]. split; [|repeat constructor; intros []]. intros l [<-|[]] x [<-|[]]. split; [discriminate|]. intros c [<-|[]] X. repeat (destruct X as [X|X]; [discriminate|]). exact X.
  - intros c E. vm_compute in E. injection E as <-. intros e us [<-|[<-|[]]]; cbn; intros [= <-]. split; [intros x k [[= <- <-]|[]]; lia|]. intros x a b [[= <- <-]|[]] [[= <-]|[]]. reflexivity.
Qed.
Example C69_nonvacuous : exists as_,
  (exists pqs, open_project ld_minc (ag_input pr_args) pr_disk = Ok (AJson (json_new pr_files pr_spec), pqs)) /\
  parse_queries (ag_query pr_args) = Ok pr_qs /\ answered (fun _ => pr_ch) false JsonLoader pr_load pr_qs as_ /\
  (forall i, i < 3 -> visible JsonLoader pr_load (firstn i as_) = visible JsonLoader pr_load []) /\
  (exists p', command_output (String.concat ", ") (fun _ => pr_ch) ld_minc pr_args pr_disk = Ok ([
    [txt "refinement: M <= Q -- Property is NOT satisfied"; []; txt "Got failure: The refinement 'M <= Q' fails because delay solutions are cut in state ((M.L0<=Q.K0)) for Input ""coin"""];
    [txt "reachability: M @ init -> (M.L1 && M.x >= 2) -- Property is satisfied"; txt "Edges that have been taken:"; txt "coin from (M.L0)"];
    [txt "consistency: M -- Property is satisfied"]], p')) /\
  let load := visible JsonLoader pr_load [] in
  fair pr_ch /\ explores Exact pr_ch load /\ loadable load /\ names_two load (XComp "M" None) (XComp "Q" None) 3 (fst pr_two) (snd pr_two) /\ upper_invariants 3 (fst pr_two) /\ upper_invariants 3 (snd pr_two) /\
  get_system_recipe load (XComp "M" None) (0, None) = Ok (pr_m, (1, None)) /\ compile unchecked unchecked 1 pr_m = Ok pr_one /\ upper_invariants 2 pr_one /\ distinct_names pr_m /\ fair_query pr_m None pr_to /\
  (forall q, In q pr_qs -> ordinary Exact pr_ch false load q).
Proof.
  eexists. split; [eexists; vm_compute; reflexivity|]. split; [vm_compute; reflexivity|]. split; [apply answered_iff; vm_compute; reflexivity|]. split; [intros [|[|[|i]]] Hi; try reflexivity; lia|].
  split; [eexists; vm_compute; reflexivity|]. cbv zeta. assert (L : loadable (visible JsonLoader pr_load [])) by (intros n c; exact (C52_loadable ld_minc pr_files pr_spec pr_sound n c)).
  assert (N2 : names_two (visible JsonLoader pr_load []) (XComp "M" None) (XComp "Q" None) 3 (fst pr_two) (snd pr_two)) by (exists pr_m, (1, None), pr_q, 2, None; repeat split; vm_compute; reflexivity).
  assert (U1 : upper_invariants 3 (fst pr_two)) by (apply upper_check; vm_compute; reflexivity). assert (U2 : upper_invariants 3 (snd pr_two)) by (apply upper_check; vm_compute; reflexivity).
  assert (Er : get_system_recipe (visible JsonLoader pr_load []) (XComp "M" None) (0, None) = Ok (pr_m, (1, None))) by (vm_compute; reflexivity).
  assert (Dn : distinct_names pr_m) by (unfold distinct_names; vm_compute; constructor; [intros []|constructor]).
  assert (Fq : fair_query pr_m None pr_to).
  { split; [discriminate|]. split; [reflexivity|]. split; [reflexivity|]. intros x Hx. exists ld_m. split; [left; reflexivity|]. vm_compute in Hx. intuition (subst; split; reflexivity). }
  do 11 (split; [first [apply plain_fair|apply plain_explores|assumption|vm_compute; reflexivity|apply upper_check; vm_compute; reflexivity]|]).
  intros q Hq. split; [apply plain_fair|]. split; [apply plain_explores|]. split; [exact L|]. destruct Hq as [<-|[<-|[<-|[]]]].
  - split; [reflexivity|]. split; [discriminate|]. intros d s t (l & st & r & dim & q0 & E1 & E2 & E3 & ->). vm_compute in E1. injection E1 as <- <-. vm_compute in E2. injection E2 as <- <- <-. vm_compute in E3. injection E3 as <- <-. split; [reflexivity|]. split; assumption.
  - intros r st E. rewrite Er in E. injection E as <- <-. split; assumption.
  - split; [discriminate|]. intros d s (r & dim & q0 & E & _ & ->). rewrite Er in E. injection E as <- <- <-. reflexivity.
Qed.

(** Finding: that a part is called inconsistent below a refinement that fails does not mean that it is.  The component F of C53 can always
    produce its output before the input that would hurt it. *)
Theorem C69_false_alarm_refuted : exists show ch load c d s,
  fair ch /\ explores Exact ch load /\ loadable load /\ load "F" = Some c /\ names_one load (XComp "F" None) d s /\
  (exists r, query_result ch false load (QRefinement (XComp "F" None) (XComp "F" None)) = Ok r /\
    result_lines show (print_query (QRefinement (XComp "F" None) (XComp "F" None))) r =
      Ok [txt "refinement: F <= F -- Property is NOT satisfied"; []; txt "Got failure: The refinement 'F <= F' fails because of inconsistent system: The system 'F' is inconsistent because there are no saving outputs from state (F.F1)"]) /\
  (exists l, In l (c_locs c) /\ l_type l = Initial /\ PruneSpec.consistent d c (l_id l) zero_val).
Proof.
  exists (String.concat ", "), (plain_choices 30), fail_load, alarm_c, 2, f_one. split; [apply plain_fair|]. split; [apply plain_explores|]. split; [apply fail_loadable|]. split; [reflexivity|].
  split; [eexists _, _, _; repeat split; vm_compute; reflexivity|]. split; [eexists; split; vm_compute; reflexivity|].
  eexists. split; [left; reflexivity|]. split; [reflexivity|]. cbn [l_id].
  exists alarm_states. split; [exact alarm_goes|]. split; [split; [reflexivity|intros i Hi; apply Qle_refl]|left; split; [reflexivity|discriminate]].
Qed.
Print Assumptions C69_false_alarm_refuted.
