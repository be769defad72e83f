(** What is reported agrees with what is found. *)
From Coq Require Import List String ZArith QArith Bool Arith Lia Lqa.
From Verif Require Import Fed.Zone Fed.ZoneFacts Model.Base Model.Expr Model.Guard Model.Loc Model.Component Model.TS Model.ParseQuery Model.Recipe Model.Reduce Model.Search Model.PairList Model.Refine
  Model.Query Model.Save Model.Prune Model.Wire Model.Exec Model.Failure
  Spec.StepSpec Spec.SystemSpec Spec.RunSpec Spec.FailureSpec
  Proofs.GuardFacts.
Import ListNotations.

(** ** Loops *)
Definition end_map {S R R'} (g : R -> R') (x : S + R) : S + R' := match x with inl s => inl s | inr r => inr (g r) end.
Lemma loop_map {A S R R'} (g : R -> R') (f : A -> S -> res (S + R)) (f' : A -> S -> res (S + R')) :
  (forall a s x, f a s = Ok x -> f' a s = Ok (end_map g x)) -> forall l s x, loopM f l s = Ok x -> loopM f' l s = Ok (end_map g x).
Proof.
  intros H. induction l as [|a l IH]; intros s x E; cbn [loopM] in *; [injection E as <-; reflexivity|]. inv_bind E. rewrite (H _ _ _ H0). cbn [bind].
  destruct a0 as [s'|r]; cbn [end_map]; [apply IH, E|]. injection E as <-. reflexivity.
Qed.
Lemma loop_ended {A S R} (f : A -> S -> res (S + R)) : forall l s r, loopM f l s = Ok (inr r) -> exists a s', In a l /\ f a s' = Ok (inr r).
Proof.
  induction l as [|a l IH]; intros s r E; cbn [loopM] in E; [discriminate|]. inv_bind E. destruct a0 as [s'|r'].
  - destruct (IH _ _ E) as (b & s'' & Hb & Eb). exists b, s''. split; [right; exact Hb|exact Eb].
  - injection E as ->. exists a, s. split; [left; reflexivity|exact H].
Qed.
Lemma loop_through {A S R} (f : A -> S -> res (S + R)) : forall l s s', loopM f l s = Ok (inl s') -> forall a, In a l -> exists t t', f a t = Ok (inl t').
Proof.
  induction l as [|b l IH]; intros s s' E a Ha; [destruct Ha|]. cbn [loopM] in E. inv_bind E. destruct a0 as [t'|r]; [|discriminate].
  destruct Ha as [<-|Ha]; [eauto|]. eapply IH; eauto.
Qed.

(** ** The checks *)
Section Agree.
Variable dim : nat.
Variable ext : ts -> loctree -> fed -> fed.
Variable ord : list state -> list string -> list string.
Variable minc : fed -> fed.
Variable cord : list (string * nat) -> list (string * nat).

Definition none {A} (o : option A) : bool := match o with None => true | Some _ => false end.

Lemma determinism_agrees fuel s : forall r, determinism_report dim ext ord minc cord fuel s = Ok r ->
  match r with
  | None => check_determinism dim ext ord fuel s = Ok None
  | Some f => exists a st c, check_determinism dim ext ord fuel s = Ok (Some (a, st)) /\ part_of c s /\ det_search dim ext ord fuel c = Ok (Some (a, st)) /\ det_failure minc cord c a st = Ok f
  end.
Proof.
  assert (Two : forall l r x, (forall r0, determinism_report dim ext ord minc cord fuel l = Ok r0 -> match r0 with None => check_determinism dim ext ord fuel l = Ok None
      | Some f => exists a st c, check_determinism dim ext ord fuel l = Ok (Some (a, st)) /\ part_of c l /\ det_search dim ext ord fuel c = Ok (Some (a, st)) /\ det_failure minc cord c a st = Ok f end) ->
    (forall r0, determinism_report dim ext ord minc cord fuel r = Ok r0 -> match r0 with None => check_determinism dim ext ord fuel r = Ok None
      | Some f => exists a st c, check_determinism dim ext ord fuel r = Ok (Some (a, st)) /\ part_of c r /\ det_search dim ext ord fuel c = Ok (Some (a, st)) /\ det_failure minc cord c a st = Ok f end) ->
    (do x <- determinism_report dim ext ord minc cord fuel l; match x with None => determinism_report dim ext ord minc cord fuel r | Some f => Ok (Some f) end) = Ok x ->
    match x with
    | None => (do x <- check_determinism dim ext ord fuel l; match x with None => check_determinism dim ext ord fuel r | Some e => Ok (Some e) end) = Ok None
    | Some f => exists a st c, (do x <- check_determinism dim ext ord fuel l; match x with None => check_determinism dim ext ord fuel r | Some e => Ok (Some e) end) = Ok (Some (a, st)) /\
        (part_of c l \/ part_of c r) /\ det_search dim ext ord fuel c = Ok (Some (a, st)) /\ det_failure minc cord c a st = Ok f
    end).
  { intros l r x IHl IHr E. inv_bind E. specialize (IHl _ H). destruct a as [f|].
    - injection E as <-. destruct IHl as (a & st & c & E1 & P & D & F). exists a, st, c. rewrite E1. auto.
    - rewrite IHl. specialize (IHr _ E). destruct x as [f|]; [|exact IHr]. destruct IHr as (a & st & c & E1 & P & D & F). exists a, st, c. cbn [bind]. auto. }
  induction s as [c|l IHl r IHr i o|l IHl r IHr i o lo ro co|l IHl r IHr i o n k]; intros x E; cbn [determinism_report check_determinism part_of] in *.
  - inv_bind E. destruct a as [[a st]|]; [|injection E as <-; exact H]. inv_bind E. injection E as <-. exists a, st, (TSimple c). auto.
  - exact (Two l r x IHl IHr E).
  - exact (Two l r x IHl IHr E).
  - exact (Two l r x IHl IHr E).
Qed.

Definition judged (r : report) : bool * list state := (none (fst r), snd r).
Lemma least_agrees s : forall fuel st p r, least_report dim ext ord minc cord fuel s st p = Ok r -> least_helper dim ext ord fuel s st p = Ok (judged r).
Proof.
  induction fuel as [|f IH]; intros st p r E; cbn [least_report least_helper] in *; [discriminate|].
  destruct (state_in_list dim st p); [injection E as <-; reflexivity|]. destruct (is_universal (s_loc st)); [injection E as <-; reflexivity|].
  destruct (is_inconsistent (s_loc st)); [inv_bind E; injection E as <-; reflexivity|]. inv_bind E.
  assert (In_ : forall a t x, each_transition dim s (input_report dim ext s (least_report dim ext ord minc cord f s) st) st a t = Ok x ->
    each_transition dim s (input_body dim ext s (least_helper dim ext ord f s) st) st a t = Ok (end_map judged x)).
  { intros a' t x. unfold each_transition. intros Ea. inv_bind Ea. rewrite H0. cbn [bind]. revert Ea. apply loop_map. clear a0 H0 x t a'. intros t q x Eb. unfold input_report, input_body in *.
    destruct (use_transition dim t st) as [[|] ns]; [|injection Eb as <-; reflexivity]. inv_bind Eb. destruct a0 as [r0 p0]. rewrite (IH _ _ _ H0). cbn [bind judged fst snd]. destruct r0 as [c|]; injection Eb as <-; reflexivity. }
  assert (Out_ : forall a t x, each_transition dim s (output_report dim ext s (least_report dim ext ord minc cord f s) st) st a t = Ok x ->
    each_transition dim s (output_body dim ext s (least_helper dim ext ord f s) st) st a t = Ok (end_map judged x)).
  { intros a' t x. unfold each_transition. intros Ea. inv_bind Ea. rewrite H0. cbn [bind]. revert Ea. apply loop_map. clear a0 H0 x t a'. intros t q x Eb. unfold output_report, output_body in *.
    destruct (use_transition dim t st) as [[|] ns]; [|injection Eb as <-; reflexivity]. inv_bind Eb. destruct a0 as [r0 p0]. rewrite (IH _ _ _ H0). cbn [bind judged fst snd]. destruct r0 as [c|]; injection Eb as <-; reflexivity. }
  rewrite (loop_map judged _ _ In_ _ _ _ H). cbn [bind]. destruct a as [p1|r1]; cbn [end_map]; [|injection E as <-; reflexivity].
  destruct (fcan_delay dim (s_zone st)); [injection E as <-; reflexivity|]. inv_bind E. rewrite (loop_map judged _ _ Out_ _ _ _ H0). cbn [bind].
  destruct a as [p2|r2]; cbn [end_map]; [|injection E as <-; reflexivity]. inv_bind E. injection E as <-. reflexivity.
Qed.
Lemma consistent_agrees fuel s r : consistent_report dim ext ord minc cord fuel s = Ok r -> is_least_consistent dim ext ord fuel s = Ok (none r).
Proof.
  unfold consistent_report, is_least_consistent. destruct (initial_state dim s) as [st|]; [|intros E; injection E as <-; reflexivity]. intros E. inv_bind E. destruct a as [r0 p0].
  rewrite (least_agrees _ _ _ _ _ H). injection E as <-. reflexivity.
Qed.
Lemma local_agrees fuel s : forall r, local_report dim ext ord minc cord fuel s = Ok r -> check_local_consistency dim ext ord fuel s = Ok (none r) /\
  forall f, r = Some f -> exists c, part_of c s /\ consistent_report dim ext ord minc cord fuel c = Ok (Some f).
Proof.
  assert (Two : forall l r x, (forall r0, local_report dim ext ord minc cord fuel l = Ok r0 -> check_local_consistency dim ext ord fuel l = Ok (none r0) /\
      forall f, r0 = Some f -> exists c, part_of c l /\ consistent_report dim ext ord minc cord fuel c = Ok (Some f)) ->
    (forall r0, local_report dim ext ord minc cord fuel r = Ok r0 -> check_local_consistency dim ext ord fuel r = Ok (none r0) /\
      forall f, r0 = Some f -> exists c, part_of c r /\ consistent_report dim ext ord minc cord fuel c = Ok (Some f)) ->
    (do x <- local_report dim ext ord minc cord fuel l; match x with None => local_report dim ext ord minc cord fuel r | Some f => Ok (Some f) end) = Ok x ->
    (do x <- check_local_consistency dim ext ord fuel l; if x then check_local_consistency dim ext ord fuel r else Ok false) = Ok (none x) /\
    forall f, x = Some f -> exists c, (part_of c l \/ part_of c r) /\ consistent_report dim ext ord minc cord fuel c = Ok (Some f)).
  { intros l r x IHl IHr E. inv_bind E. destruct (IHl _ H) as [E1 T1]. rewrite E1. cbn [bind]. destruct a as [f|]; cbn [none].
    - injection E as <-. split; [reflexivity|]. intros f' Ef. destruct (T1 f' Ef) as (c & P & C). eauto.
    - destruct (IHr _ E) as [E2 T2]. split; [exact E2|]. intros f' Ef. destruct (T2 f' Ef) as (c & P & C). eauto. }
  induction s as [c|l IHl r IHr i o|l IHl r IHr i o lo ro co|l IHl r IHr i o n k]; intros x E; cbn [local_report check_local_consistency part_of] in *.
  - split; [apply consistent_agrees, E|]. intros f ->. exists (TSimple c). auto.
  - exact (Two l r x IHl IHr E).
  - exact (Two l r x IHl IHr E).
  - destruct (Two r l x IHr IHl E) as [T1 T2]. split; [exact T1|]. intros f Ef. destruct (T2 f Ef) as (c & P & C). exists c. tauto.
Qed.
Lemma precheck_agrees fuel s r : precheck_report dim ext ord minc cord fuel s = Ok r -> precheck dim ext ord fuel s = Ok (none r).
Proof.
  unfold precheck_report, precheck. intros E. inv_bind E. apply determinism_agrees in H. destruct a as [f|].
  - injection E as <-. destruct H as (a & st & c & -> & _). reflexivity.
  - rewrite H. cbn [bind]. apply local_agrees, E.
Qed.
Lemma actions_agree s1 s2 : action_precheck s1 s2 = None <-> action_report s1 s2 = None.
Proof. unfold action_precheck, action_report. repeat (destruct (negb _); [split; discriminate|]). tauto. Qed.
Lemma refinement_agrees pext aord fuel s1 s2 r : refinement_report dim ext ord minc cord pext aord fuel s1 s2 = Ok r ->
  exists o, check_refinement dim ext pext ord aord s1 s2 fuel = Ok o /\ (r = None <-> o = RSuccess).
Proof.
  unfold refinement_report, check_refinement, preconditions_report, check_preconditions. intros E. inv_bind E. inv_bind H. apply precheck_agrees in H0. rewrite H0. cbn [bind]. destruct a0 as [c|]; cbn [none negb bind].
  { injection H as <-. injection E as <-. exists RPrecheck. split; [reflexivity|split; discriminate]. }
  inv_bind H. apply precheck_agrees in H1. rewrite H1. cbn [bind]. destruct a0 as [c|]; cbn [none negb bind].
  { injection H as <-. injection E as <-. exists RPrecheck. split; [reflexivity|split; discriminate]. }
  injection H as <-. pose proof (actions_agree s1 s2) as A. destruct (action_report s1 s2) as [f|]; cbn [option_map] in E.
  { injection E as <-. destruct (action_precheck s1 s2) as [o|] eqn:Eo; [|discriminate (proj1 A eq_refl)]. exists o. split; [reflexivity|]. split; [discriminate|]. intros ->. exfalso.
    unfold action_precheck in Eo. repeat (destruct (negb _); [discriminate|]). discriminate. }
  rewrite (proj2 A eq_refl). inv_bind E. exists a. split; [exact H|].
  destruct a; try discriminate; try (inv_bind E); injection E as <-; split; congruence.
Qed.
End Agree.

(** ** Putting systems together *)
Definition failed {A F} (x : A + F) : res A := match x with inl a => Ok a | inr _ => Err end.
Lemma attempt_agrees {A B F} (m : res (A + F)) (k : A -> res (B + F)) (m' : res A) (k' : A -> res B) :
  (forall x, m = Ok x -> m' = failed x) -> (forall a y, k a = Ok y -> k' a = failed y) ->
  forall y, andthen m k = Ok y -> bind m' k' = failed y.
Proof.
  intros H K y E. unfold andthen in E. inv_bind E. rewrite (H _ H0). destruct a as [a|f]; cbn [failed bind].
  - apply K, E.
  - injection E as <-. reflexivity.
Qed.

Section Compile.
Variables (least pre : nat -> ts -> res (option cfail)) (least' pre' : nat -> ts -> res bool).
Hypothesis Hl : forall d s r, least d s = Ok r -> least' d s = Ok (none r).
Hypothesis Hp : forall d s r, pre d s = Ok r -> pre' d s = Ok (none r).

Lemma component_agrees dim c k x : component_report dim c k = Ok x -> (do cc <- compile_component dim c k; Ok (TSimple cc)) = failed x.
Proof.
  unfold component_report. destruct (disjoint (input_actions c) (output_actions c)) eqn:D; cbn [negb]; intros E.
  - inv_bind E. injection E as <-. rewrite H. reflexivity.
  - injection E as <-. unfold compile_component, compile_with_actions. rewrite D. reflexivity.
Qed.
Lemma composition_agrees l r x : composition_report l r = Ok x -> composition_new l r = failed x.
Proof.
  unfold composition_report. destruct (disjoint (ts_outputs l) (ts_outputs r)) eqn:D; cbn [negb]; intros E.
  - inv_bind E. injection E as <-. exact H.
  - injection E as <-. unfold composition_new. rewrite D. reflexivity.
Qed.
Lemma conjunction_agrees dim l r x : conjunction_report least dim l r = Ok x -> conjunction_ts least' dim l r = failed x.
Proof.
  unfold conjunction_report, conjunction_ts. destruct (disjoint (ts_inputs l) (ts_outputs r)) eqn:D; cbn [negb].
  2:{ intros E. injection E as <-. unfold conjunction_new. rewrite D. reflexivity. }
  destruct (disjoint (ts_outputs l) (ts_inputs r)) eqn:D'; cbn [negb].
  2:{ intros E. injection E as <-. unfold conjunction_new. rewrite D, D'. reflexivity. }
  intros E. inv_bind E. rewrite H. cbn [bind]. inv_bind E. rewrite (Hl _ _ _ H0). cbn [bind]. destruct a0; injection E as <-; reflexivity.
Qed.
Lemma quotient_agrees dim t s q x : quotient_report pre dim t s q = Ok x -> quotient_ts pre' dim t s q = failed x.
Proof.
  unfold quotient_report, quotient_ts. destruct (negb (disjoint (ts_outputs s) (ts_inputs t))); [intros E; injection E as <-; reflexivity|].
  intros E. inv_bind E. rewrite (Hp _ _ _ H). cbn [bind]. destruct a; cbn [none]; [injection E as <-; reflexivity|].
  inv_bind E. rewrite (Hp _ _ _ H0). cbn [bind]. destruct a; cbn [none]; [injection E as <-; reflexivity|]. inv_bind E. injection E as <-. exact H1.
Qed.
Lemma compile_at_agrees dim r : forall k x, compile_at_report least pre dim r k = Ok x -> compile_at least' pre' dim r k = failed x.
Proof.
  assert (Ok_ : forall (A : Type) (a : A) (x : A + recfail), Ok (inl a) = Ok x -> Ok a = failed x) by (intros A a x E; injection E as <-; reflexivity).
  assert (Op : forall (l r : recipe) (mk : ts -> ts -> res ts) (mk' : ts -> ts -> res (ts + recfail)),
    (forall k x, compile_at_report least pre dim l k = Ok x -> compile_at least' pre' dim l k = failed x) ->
    (forall k x, compile_at_report least pre dim r k = Ok x -> compile_at least' pre' dim r k = failed x) -> (forall a b y, mk' a b = Ok y -> mk a b = failed y) ->
    forall k x, (attempt a <- compile_at_report least pre dim l k; attempt b <- compile_at_report least pre dim r (snd a); attempt s <- mk' (fst a) (fst b); Ok (inl (s, snd b))) = Ok x ->
    (do (l', k1) <- compile_at least' pre' dim l k; do (r', k2) <- compile_at least' pre' dim r k1; do s <- mk l' r'; Ok (s, k2)) = failed x).
  { intros l r' mk mk' IHl IHr Hm k x. apply attempt_agrees; [apply IHl|]. intros [a ka] y. cbn [fst snd]. apply attempt_agrees; [apply IHr|]. intros [b kb] z. cbn [fst snd].
    apply attempt_agrees; [apply Hm|]. intros s w. apply Ok_. }
  induction r as [c|l IHl r IHr|l IHl r IHr|l IHl r IHr q]; intros k x E; cbn [compile_at_report compile_at] in *.
  - unfold andthen in E. inv_bind E. apply component_agrees in H. destruct (compile_component dim c k) as [cc| | |]; cbn [bind] in *.
    + destruct a as [s|f]; [|discriminate]. injection H as <-. injection E as <-. reflexivity.
    + destruct a as [s|f]; [discriminate|]. injection E as <-. reflexivity.
    + destruct a; discriminate.
    + destruct a; discriminate.
  - revert E. apply (Op l r composition_new composition_report IHl IHr composition_agrees).
  - revert E. apply (Op l r (conjunction_ts least' dim) (conjunction_report least dim) IHl IHr (conjunction_agrees dim)).
  - revert E. apply (Op l r (fun a b => quotient_ts pre' dim a b q) (fun a b => quotient_report pre dim a b q) IHl IHr (fun a b => quotient_agrees dim a b q)).
Qed.
Lemma compile_agrees dim r x : compile_report least pre dim r = Ok x -> compile least' pre' dim r = failed x.
Proof.
  unfold compile_report, compile. apply attempt_agrees; [apply compile_at_agrees|]. intros [s k] y E. injection E as <-. reflexivity.
Qed.
Lemma compile_two_agrees dim l r x : compile_two_report least pre dim l r = Ok x -> compile_two least' pre' dim l r = failed x.
Proof.
  unfold compile_two_report, compile_two. apply attempt_agrees; [apply compile_at_agrees|]. intros [s k] y. cbn [fst snd]. apply attempt_agrees; [apply compile_at_agrees|].
  intros [t k'] z E. injection E as <-. reflexivity.
Qed.
Lemma reduce_agrees redundant l r dim q x : reduce_report least pre least' pre' redundant l r dim q = Ok x -> clock_reduce least' pre' redundant l r dim q = failed x.
Proof.
  unfold reduce_report. destruct (Nat.eqb dim 0) eqn:Z; [unfold clock_reduce; rewrite Z; intros E; injection E as <-; reflexivity|].
  destruct r as [r|]; unfold andthen; intros E; inv_bind E; apply compile_agrees in H; destruct a as [s|f].
  - inv_bind E. inv_bind E. apply compile_agrees in H1. destruct a0 as [t|f]; [inv_bind E; injection E as <-; exact H2|].
    injection E as <-. unfold clock_reduce. rewrite Z. unfold clock_reduce_two. rewrite H. cbn [failed bind]. rewrite H0. cbn [bind]. rewrite H1. reflexivity.
  - injection E as <-. unfold clock_reduce. rewrite Z. unfold clock_reduce_two. rewrite H. reflexivity.
  - inv_bind E. injection E as <-. exact H0.
  - injection E as <-. unfold clock_reduce. rewrite Z. unfold clock_reduce_single. rewrite H. reflexivity.
Qed.
End Compile.

Section Reply.
Variable ch : choices.
Variable reduce : bool.
Variable load : string -> option component.

Lemma the_least_agrees d s r : the_least_report ch d s = Ok r -> the_least ch d s = Ok (none r).
Proof. apply consistent_agrees. Qed.
Lemma the_pre_agrees d s r : the_pre_report ch d s = Ok r -> the_pre ch d s = Ok (none r).
Proof. apply precheck_agrees. Qed.
Lemma one_agrees e x : one_system_report ch reduce load e = Ok x -> one_system ch reduce load e = failed x.
Proof.
  unfold one_system_report, one_system. intros E. inv_bind E. rewrite H. cbn [bind]. destruct a as [r [dim q]]. unfold andthen in E. destruct reduce.
  - inv_bind E. apply (reduce_agrees _ _ _ _ the_least_agrees the_pre_agrees) in H0. rewrite H0. destruct a as [[[l' o'] d']|f]; cbn [failed bind fst snd] in *; [|injection E as <-; reflexivity].
    inv_bind E. apply (compile_agrees _ _ _ _ the_least_agrees the_pre_agrees) in H1. rewrite H1. destruct a as [s|f]; injection E as <-; reflexivity.
  - cbn [bind fst snd] in *. inv_bind E. apply (compile_agrees _ _ _ _ the_least_agrees the_pre_agrees) in H0. rewrite H0. destruct a as [s|f]; injection E as <-; reflexivity.
Qed.
Lemma two_agrees e f x : two_systems_report ch reduce load e f = Ok x -> two_systems ch reduce load e f = failed x.
Proof.
  unfold two_systems_report, two_systems, two_recipes. intros E. inv_bind E. rewrite H. cbn [bind]. destruct a as [l st]. inv_bind E. rewrite H0. cbn [bind]. destruct a as [r [dim q]]. unfold andthen in E. destruct reduce.
  - inv_bind E. apply (reduce_agrees _ _ _ _ the_least_agrees the_pre_agrees) in H1. rewrite H1. destruct a as [[[l' o'] d']|g]; cbn [failed bind fst snd] in *; [|injection E as <-; reflexivity].
    inv_bind E. destruct o' as [r'|]; [|discriminate]. injection H2 as <-. cbn [unwrap bind fst snd].
    inv_bind E. apply (compile_two_agrees _ _ _ _ the_least_agrees the_pre_agrees) in H2. rewrite H2. destruct a as [[s t]|g]; injection E as <-; reflexivity.
  - cbn [bind fst snd] in *. inv_bind E. injection H1 as <-. inv_bind E. apply (compile_two_agrees _ _ _ _ the_least_agrees the_pre_agrees) in H1. rewrite H1. destruct a as [[s t]|g]; injection E as <-; reflexivity.
Qed.

(** A reply that is not about the model says what the answer to the query says; otherwise there is no answer. *)
Lemma reply_agrees q p : answer_query ch reduce load q = Ok p ->
  match p with
  | PModelFailure _ => run_query ch reduce load q = Err
  | _ => exists a, run_query ch reduce load q = Ok a /\ satisfied a = favourable p
  end.
Proof.
  assert (Or : forall A (m : res (A + recfail)) (k : A -> res reply) (m' : res A) (k' : A -> res Exec.answer), (forall x, m = Ok x -> m' = failed x) ->
    (forall a, m = Ok (inl a) -> k a = Ok p -> match p with PModelFailure _ => k' a = Err | _ => exists w, k' a = Ok w /\ satisfied w = favourable p end) ->
    or_model m k = Ok p -> match p with PModelFailure _ => bind m' k' = Err | _ => exists w, bind m' k' = Ok w /\ satisfied w = favourable p end).
  { intros A m k m' k' Hm Hk E. unfold or_model in E. inv_bind E. rewrite (Hm _ H). destruct a as [a|f]; cbn [failed bind]; [apply Hk; assumption|]. inv_bind E. injection E as <-. reflexivity. }
  destruct q as [e f|e|e from to|e|e|e|e n|e n|e f]; cbn [answer_query run_query]; try discriminate.
  - intros E. apply (Or _ _ _ (two_systems ch reduce load e f) (fun x => let '(p, dim) := x in
      do o <- check_refinement (dim + 1) (ch_ext ch (dim + 1)) (ch_pext ch (dim + 1) (fst p) (snd p)) (ch_sord ch) (ch_aord ch) (fst p) (snd p) (ch_fuel ch); Ok (ARefinement o)) (two_agrees e f)) in E; [exact E|].
    intros [[s t] d] _. cbn [fst snd]. intros Ek. inv_bind Ek. destruct (refinement_agrees _ _ _ _ _ _ _ _ _ _ _ H) as (o & Eo & Iff). rewrite Eo. cbn [bind]. destruct a as [x|].
    + inv_bind Ek. injection Ek as <-. eexists. split; [reflexivity|]. cbn. destruct o; try reflexivity. destruct Iff as [_ Iff]. discriminate (Iff eq_refl).
    + injection Ek as <-. rewrite (proj1 Iff eq_refl). eexists. split; reflexivity.
  - intros E. apply (Or _ _ _ (one_system ch reduce load e) (fun x => let '(s, dim) := x in do b <- the_pre ch (dim + 1) s; Ok (AConsistency b)) (one_agrees e)) in E; [exact E|].
    intros [s d] _. cbn [fst snd]. intros Ek. inv_bind Ek. rewrite (the_pre_agrees _ _ _ H). cbn [bind]. destruct a as [x|].
    + inv_bind Ek. injection Ek as <-. eexists. split; reflexivity.
    + injection Ek as <-. eexists. split; reflexivity.
  - intros E. inv_bind E. destruct a as [r [d q]]. cbn [fst] in E.
    unfold or_model in E. inv_bind E. pose proof (compile_agrees _ _ _ _ the_least_agrees the_pre_agrees _ _ _ H0) as C. destruct a as [s|g].
    + inv_bind E. rewrite H1. cbn [bind]. destruct a as [[[d1 s1] start] target]. inv_bind E. rewrite H2. cbn [bind]. destruct a as [ds|].
      * inv_bind E. injection E as <-. eexists. split; reflexivity.
      * injection E as <-. eexists. split; reflexivity.
    + inv_bind E. injection E as <-. unfold reach_query. rewrite H. cbn [bind fst failed] in *. rewrite C. reflexivity.
  - intros E. apply (Or _ _ _ (one_system ch reduce load e) (fun x => let '(s, dim) := x in
      do o <- check_determinism (dim + 1) (ch_ext ch (dim + 1)) (ch_sord ch) (ch_fuel ch) s; Ok (ADeterminism o)) (one_agrees e)) in E; [exact E|].
    intros [s d] _. cbn [fst snd]. intros Ek. inv_bind Ek. apply determinism_agrees in H. destruct a as [x|].
    + destruct H as (a & st & c & -> & _). inv_bind Ek. injection Ek as <-. eexists. split; reflexivity.
    + rewrite H. injection Ek as <-. eexists. split; reflexivity.
  - intros E. unfold or_model in E. inv_bind E. pose proof (one_agrees _ _ H) as C. destruct a as [s|g].
    + inv_bind E. cbn [run_query] in H0. rewrite H0. destruct a; try discriminate. injection E as <-. eexists. split; reflexivity.
    + inv_bind E. injection E as <-. rewrite C. reflexivity.
  - intros E. unfold or_model in E. inv_bind E. pose proof (one_agrees _ _ H) as C. destruct a as [s|g].
    + inv_bind E. cbn [run_query] in H0. rewrite H0. destruct a; try discriminate. injection E as <-. eexists. split; reflexivity.
    + inv_bind E. injection E as <-. rewrite C. reflexivity.
Qed.
End Reply.
