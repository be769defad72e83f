(** C66: what the server answers. *)
From Coq Require Import List String Ascii ZArith QArith Bool Arith Lia Permutation.
From Verif Require Import Fed.Zone Fed.ZoneFacts Fed.Check Model.Base Model.Expr Model.Guard Model.Loc Model.Component Model.Enable Model.TS Model.ParseQuery Model.Peg Model.ParseEdge Model.Files Model.Xml Model.Server
  Model.Recipe Model.Reduce Model.PairList Model.Loader Model.Search Model.Refine Model.Query Model.Save Model.Sim Model.Wire Model.Exec Model.Failure Model.Handle
  Spec.BoundSpec Spec.StepSpec Spec.SystemSpec Spec.RunSpec Spec.ReachSpec Spec.RefineSpec Spec.EnableSpec Spec.FileSpec Spec.RecipeSpec Spec.ReduceSpec Spec.SameSpec Spec.LoaderSpec Spec.ServerSpec Spec.SimSpec Spec.WireSpec Spec.ExecSpec Spec.FailureSpec Spec.HandleSpec
  Proofs.GuardFacts Proofs.SystemFacts Proofs.WfFacts Proofs.ReadsFacts Proofs.WireStep Proofs.SimFacts Proofs.ExecFacts Proofs.RecipeFacts Proofs.LoaderFacts Proofs.ServerFacts Proofs.HandleFacts
  Props.Examples Props.Enabling Props.Simulation Props.Wire Props.Loader Props.Server Props.Reduction Props.Reachability Props.Two Props.Exec Props.Failures.
Import ListNotations.
Local Open Scope string_scope.
Local Open Scope list_scope.
Local Open Scope nat_scope.

Lemma answer_ext ch reduce load load' q : (forall n, load n = load' n) -> answer_query ch reduce load q = answer_query ch reduce load' q.
Proof.
  intros X.
  assert (One : forall e, one_system_report ch reduce load e = one_system_report ch reduce load' e) by (intros e; unfold one_system_report; rewrite (recipe_ext load load' e X); reflexivity).
  assert (Two : forall e f, two_systems_report ch reduce load e f = two_systems_report ch reduce load' e f).
  { intros e f. unfold two_systems_report. rewrite (recipe_ext load load' e X). destruct (get_system_recipe load' e (0, None)) as [[a b]| | |]; cbn [bind]; try reflexivity. rewrite (recipe_ext load load' f X). reflexivity. }
  destruct q; cbn [answer_query]; rewrite ?One, ?Two, ?(recipe_ext load load' _ X), ?(run_query_ext ch reduce load load' _ X); try reflexivity.
  match goal with |- context[get_system_recipe load' ?e (0, None)] => destruct (get_system_recipe load' e (0, None)) as [[r st]| | |] end; cbn [bind]; try reflexivity. unfold reach_query. rewrite (recipe_ext load load' _ X). reflexivity.
Qed.

(** ** Which components are used *)

(** A request that is answered with a reply decoded the components it sent. *)
Theorem C66_components : forall chs minc cap es sv u h ps c y, serve chs minc cap es = Ok sv -> honest (arrivals es) -> got sv u h ps c (ToOk y) -> exists load, as_sent minc ps load.
Proof. intros chs minc cap es sv u h ps c y E Ho G. destruct (served_ok _ _ _ _ _ _ _ _ _ _ E Ho G) as (m & A & _). eauto. Qed.
Print Assumptions C66_components.

(** Whatever other clients do, the reply to a query carries the number of the query and is the answer over the components that were sent
    along with it; clocks are reduced only if the client says so. *)
Theorem C66_query : forall chs minc cap es sv u h ps k id t dis y load, serve chs minc cap es = Ok sv -> honest (arrivals es) ->
  got sv u h ps (mkCall k (MQuery id t dis)) (ToOk y) -> as_sent minc ps load ->
  exists q r json red, y = BReply id r json /\ parse_queries t = Ok [q] /\ (red = true <-> dis = Some false) /\ answer_query (chs k) red load q = Ok r /\
    (forall c, r = PComponent c -> exists f, json = Some f /\ encode_component c = Ok f).
Proof.
  intros chs minc cap es sv u h ps k id t dis y load E Ho G A. destruct (served_ok _ _ _ _ _ _ _ _ _ _ E Ho G) as (m & A' & R). unfold respond in R. cbn [cl_message cl_seed] in R.
  inv_bind R. inv_bind R. inv_bind R. injection R as <-. unfold single_query in H. inv_bind H. unfold expect in H2. destruct (parse_queries t) as [qs| | |] eqn:Eq; try discriminate. injection H2 as <-.
  destruct qs as [|q [|]]; try discriminate. injection H as <-. exists q, a0, a1, (reduces dis). split; [reflexivity|]. split; [reflexivity|]. split; [destruct dis as [[]|]; cbn; split; congruence|]. split; [rewrite (answer_ext _ _ load (in_container m) q (as_sent_same _ _ _ _ A A')); exact H0|].
  intros c ->. inv_bind H1. injection H1 as <-. eauto.
Qed.
Print Assumptions C66_query.

(** A query for a refinement that is answered with success is about a refinement that holds, in the components the client sent.  Missing: as
    in C50. *)
Theorem C66_refines_partial : forall chs minc cap es sv u h ps k id t dis json load e f d s x, serve chs minc cap es = Ok sv -> honest (arrivals es) ->
  (forall p, In p ps -> sound_rep p) -> as_sent minc ps load -> parse_queries t = Ok [QRefinement e f] ->
  fair (chs k) -> names_two load e f d s x -> (Z.of_nat d < 4294967295)%Z -> has_quotient e && has_quotient f = false ->
  (dis = Some false -> dropped_unmentioned_two (the_redundant (chs k)) load e f) -> no_gaps d x -> starts_together d s x ->
  got sv u h ps (mkCall k (MQuery id t dis)) (ToOk (BReply id PSuccess json)) -> refines d s x.
Proof.
  intros chs minc cap es sv u h ps k id t dis json load e f d s x E Ho So A Eq Fc Na Sm Hq Un Ng St G. pose proof (sent_loadable minc ps load So A) as L.
  destruct (C66_query _ _ _ _ _ _ _ _ _ _ _ _ _ _ E Ho G A) as (q & r & j & red & [= <- <-] & Eq' & Rd & Ea & _). rewrite Eq in Eq'. injection Eq' as <-.
  destruct (C53_reply _ _ _ _ _ Ea) as (a & Er & Sa). exact (C50_refines_partial (chs k) red load e f d s x a Fc L Na Sm Hq (fun H => Un (proj1 Rd H)) Ng St Er Sa).
Qed.
Print Assumptions C66_refines_partial.
(** One that is answered with a failure names the reason, and the reason is one. *)
Theorem C66_not_refines_partial : forall acc chs minc cap es sv u h ps k id t dis json load e f d s x m, serve chs minc cap es = Ok sv -> honest (arrivals es) ->
  (forall p, In p ps -> sound_rep p) -> as_sent minc ps load -> parse_queries t = Ok [QRefinement e f] ->
  fair (chs k) -> explores acc (chs k) load -> names_two load e f d s x -> (Z.of_nat d < 4294967295)%Z -> has_quotient e && has_quotient f = false ->
  (dis = Some false -> dropped_unmentioned_two (the_redundant (chs k)) load e f) -> upper_invariants d s -> upper_invariants d x ->
  got sv u h ps (mkCall k (MQuery id t dis)) (ToOk (BReply id (PRefinementFailure m) json)) ->
  exists d' s' x', same_behaviour d s d' s' /\ same_behaviour d x d' x' /\ ref_true acc d' s' x' m.
Proof.
  intros acc chs minc cap es sv u h ps k id t dis json load e f d s x m E Ho So A Eq Fc Ex Na Sm Hq Un U1 U2 G. pose proof (sent_loadable minc ps load So A) as L.
  destruct (C66_query _ _ _ _ _ _ _ _ _ _ _ _ _ _ E Ho G A) as (q & r & j & red & [= <- <-] & Eq' & Rd & Ea & _). rewrite Eq in Eq'. injection Eq' as <-.
  destruct (C53_refinement_partial acc (chs k) red load e f d s x m Fc Ex L Na Sm Hq (fun H => Un (proj1 Rd H)) U1 U2 Ea) as (d' & s' & x' & B1 & B2 & _ & _ & T & _). eauto 8.
Qed.
Print Assumptions C66_not_refines_partial.
(** The same for determinism. *)
Theorem C66_deterministic_partial : forall chs minc cap es sv u h ps k id t dis json load e d s, serve chs minc cap es = Ok sv -> honest (arrivals es) ->
  (forall p, In p ps -> sound_rep p) -> as_sent minc ps load -> parse_queries t = Ok [QDeterminism e] ->
  fair (chs k) -> names_one load e d s -> (Z.of_nat d < 4294967295)%Z ->
  (dis = Some false -> dropped_unmentioned (the_redundant (chs k)) load e /\ nothing_merged (the_redundant (chs k)) load e) -> no_reserved s = true -> plain_divisors s = true ->
  got sv u h ps (mkCall k (MQuery id t dis)) (ToOk (BReply id PSuccess json)) -> deterministic d s.
Proof.
  intros chs minc cap es sv u h ps k id t dis json load e d s E Ho So A Eq Fc Na Sm Un Nr Pd G. pose proof (sent_loadable minc ps load So A) as L.
  destruct (C66_query _ _ _ _ _ _ _ _ _ _ _ _ _ _ E Ho G A) as (q & r & j & red & [= <- <-] & Eq' & Rd & Ea & _). rewrite Eq in Eq'. injection Eq' as <-.
  destruct (C53_reply _ _ _ _ _ Ea) as (a & Er & Sa). exact (C50_deterministic_partial (chs k) red load e d s a Fc L Na Sm (fun H => Un (proj1 Rd H)) Nr Pd Er Sa).
Qed.
Print Assumptions C66_deterministic_partial.

(** ** Simulations *)
Lemma made_named ch m t s d : to_system ch m t = Ok (s, d) -> exists e, parse_to_system_expr t = Ok e /\ names_one (in_container m) e d s.
Proof.
  unfold to_system. intros E. inv_bind E. unfold expect in H. destruct (parse_to_system_expr t) as [e| | |]; try discriminate. injection H as <-. inv_bind E. destruct a as [r [dim q]]. inv_bind E. injection E as -> <-. cbn [fst] in *.
  unfold expect in H0. destruct (compile _ _ dim r) as [s'| | |] eqn:Ec; try discriminate. injection H0 as ->. exists e. split; [reflexivity|]. exists r, dim, q. split; [exact H|]. split; [eapply one_unchecked; exact Ec|reflexivity].
Qed.

Section Simulate.
Variables (chs : nat -> choices) (minc : nat -> fed -> fed) (cap : nat) (es : list (@event rep call)) (sv : @server rep call sent_back).
Hypothesis Es : serve chs minc cap es = Ok sv.
Hypothesis Ho : honest (arrivals es).
Variables (ps : list rep) (load : string -> option component) (t : text) (e : sysx) (d : nat) (s : ts).
Hypothesis So : forall p, In p ps -> sound_rep p.
Hypothesis As : as_sent minc ps load.
Hypothesis Et : parse_to_system_expr t = Ok e.
Hypothesis Na : names_one load e d s.
Hypothesis Sm : fits_u32 d.
Hypothesis Fc : forall k, fair (chs k).
Hypothesis Up : upper_invariants d s.
Hypothesis De : deterministic d s.
Hypothesis Nu : ~ is_action s "".

Lemma sim_system k m s' d' : as_sent minc ps (in_container m) -> to_system (chs k) m t = Ok (s', d') -> s' = s /\ d' = d.
Proof.
  intros A E. destruct (made_named _ _ _ _ _ E) as (e' & Ee & (r & dim & q & Er & Cr & ->)). rewrite Et in Ee. injection Ee as <-.
  destruct Na as (r0 & dim0 & q0 & Er0 & Cr0 & ->). rewrite (recipe_ext _ load e (as_sent_same _ _ _ _ A As)) in Er. rewrite Er0 in Er. injection Er as <- <- <-. rewrite Cr0 in Cr. injection Cr as <-. auto.
Qed.
Lemma sim_facts : exists q, built d s /\ reads_ok s /\ clocks_ok d q s /\ (forall x, In x (sys_clocks s) -> x < d) /\ distinct_instances s /\ distinct_clock_names s /\ 0 < d.
Proof.
  destruct Na as (r0 & dim0 & q0 & Er0 & Cr0 & Ed). pose proof (sent_loadable minc ps load So As) as L. destruct (C30_compiled _ _ load e r0 dim0 q0 s L Er0 Cr0) as (A & B & C & D & F & G). rewrite <- Ed in *. eexists. repeat split; eauto. lia.
Qed.
Lemma sim_acts k : forall a, In a (acts_of (chs k) s) <-> is_action s a.
Proof.
  intros a. unfold acts_of. rewrite (fair_ord _ (Fc k) (ts_actions s) a). rewrite <- sin_In. apply has_action_spec.
Qed.

Definition holds_session (r : presponse) : Prop := exists st acts ds p x, session d s st /\ (forall a, In a acts <-> is_action s a) /\ get_decisions d acts s st = Ok ds /\
  pr_state r = Some p /\ read_state d s p = Ok x /\ same_state d x st /\ answers d s ds (pr_decisions r).
Lemma shown r : holds_session r -> shows_session d s r.
Proof.
  intros (st & acts & ds & p & x & S & Ha & Eg & Ep & Ex & Ss & An). destruct sim_facts as (q & B & R & K & X & _ & _ & _). exists p, x, st, ds. split; [exact Ep|]. split; [exact Ex|]. split; [exact Ss|]. split; [exact S|].
  assert (Hl : In (s_loc st) (all_locations d s)) by (destruct (session_inv d s q B K R X Up st S) as (Hl & _); exact Hl).
  destruct (C36_decisions_exact d q s acts st B K Ha Hl) as (ds' & E' & D1 & D2). rewrite Eg in E'. injection E' as <-. split; [exact D1|]. split; [exact D2|]. split; [exact An|].
  intros v Hv. destruct Ss as [El Ez]. rewrite El. apply (C36_session_real d q s st v B K R X Up S). apply Ez, Hv.
Qed.

Lemma start_holds k st : initial_state d s = Some st -> exists r, start_simulation d (ch_minc (chs k) d) (ch_kord (chs k)) (acts_of (chs k) s) s = Ok r /\ holds_session r.
Proof.
  intros E. destruct sim_facts as (q & B & R & K & X & Di & Dn & Pd).
  destruct (C30_start_partial d q s (ch_minc (chs k) d) (ch_kord (chs k)) (acts_of (chs k) s) st B K R X (proj1 (fair_minc _ (Fc k) d Pd)) (kord_same _ (Fc k)) Di Dn Sm Nu (sim_acts k) E)
    as (ds & r & p & x & Eg & Er & Ep & Ex & Ss & An). exists r. split; [exact Er|]. exists st, (acts_of (chs k) s), ds, p, x. split; [constructor; exact E|]. split; [apply sim_acts|auto 8].
Qed.
Lemma step_holds k r c : holds_session r -> In c (pr_decisions r) ->
  exists r', take_step d (ch_minc (chs k) d) (ch_kord (chs k)) (acts_of (chs k) s) s c = Ok r' /\ holds_session r'.
Proof.
  intros (st & acts & ds & p & x & S & Ha & Eg & Ep & Ex & Ss & An) Hc. destruct sim_facts as (q & B & R & K & X & Di & Dn & Pd).
  assert (F : exists y, In y ds /\ exists y', read_decision d s c = Ok y' /\ same_decision d y' y).
  { clear - An Hc. induction An as [|y c0 ds pds (_ & H) An IH]; [destruct Hc|]. destruct Hc as [->|Hc]; [exists y; split; [left; reflexivity|exact H]|]. destruct (IH Hc) as (z & A & B). exists z. split; [right; exact A|exact B]. }
  destruct F as (y & Hy & y' & Ry & Sy). pose proof (session_proper d q s B K R X st S) as P.
  destruct (proper_decisions d q s B K R X acts st ds y (fun a => proj1 (Ha a)) P Eg Hy) as (P1 & P2 & P3 & P4 & _).
  pose proof (step_read d q s B K R X (ch_minc (chs k) d) (ch_kord (chs k)) (proj1 (fair_minc _ (Fc k) d Pd)) (kord_same _ (Fc k)) Di Dn Sm (acts_of (chs k) s) y c y' Nu (fun a => proj1 (sim_acts k a)) P1 P4 Ry Sy) as SR.
  destruct (C36_resolve_partial d q s acts (acts_of (chs k) s) st ds y B K R X Up De Ha (sim_acts k) S Eg Hy) as (ds' & Rs & S' & _).
  pose proof (session_resolves d s q B K R X Up acts (acts_of (chs k) s) st ds y De Ha S Eg Hy) as Rn. rewrite Rs in SR, Rn.
  destruct (take_step _ _ _ _ _ _) as [r'| | |] eqn:Etk; cbn in SR; try contradiction. destruct SR as [Ef An']. exists r'. split; [reflexivity|].
  unfold read_decision in Ry. inv_bind Ry. inv_bind Ry. inv_bind Ry. inv_bind Ry. destruct (String.eqb (pd_action c) ""); [discriminate|]. injection Ry as <-. destruct Sy as (_ & _ & Sy). cbn in Sy.
  destruct (pd_dest c) as [b|]; [|discriminate]. injection H1 as <-.
  exists (d_next y), (acts_of (chs k) s), ds', b, a2. split; [exact S'|]. split; [apply sim_acts|]. split; [symmetry; exact Rn|]. auto.
Qed.
Lemma dialogue_holds r : dialogue sv ps t r -> holds_session r.
Proof.
  induction 1 as [u h k r G|u h k r c r' D IH Hc G]; destruct (served_ok _ _ _ _ _ _ _ _ _ _ Es Ho G) as (m & A & Y); unfold respond in Y; cbn [cl_message cl_seed] in Y; inv_bind Y; destruct a as [s' d']; destruct (sim_system _ _ _ _ A H) as [-> ->] || destruct (sim_system _ _ _ _ A H0) as [-> ->]; inv_bind Y.
  - injection Y as <-. destruct (initial_state d s) as [st|] eqn:Ei; [|unfold start_simulation, initial_decisions in H0; rewrite Ei in H0; discriminate].
    destruct (start_holds k st Ei) as (r' & E' & Hr). rewrite H0 in E'. injection E' as <-. exact Hr.
  - inv_bind Y. injection Y as <-. cbn in H0. injection H0 as <-. destruct (step_holds k r _ IH Hc) as (r2 & E' & Hr). rewrite H1 in E'. injection E' as <-. exact Hr.
Qed.
End Simulate.

(** Whatever a client is shown in a simulation is what the system it simulates can do: it is shown states that can be reached and in each of them
    exactly the steps that are possible.  Missing: as in C30 and C36. *)
Theorem C66_simulation_partial : forall chs minc cap es sv ps load t e d s r, serve chs minc cap es = Ok sv -> honest (arrivals es) ->
  (forall p, In p ps -> sound_rep p) -> as_sent minc ps load -> parse_to_system_expr t = Ok e -> names_one load e d s -> fits_u32 d ->
  (forall k, fair (chs k)) -> upper_invariants d s -> deterministic d s -> ~ is_action s "" ->
  dialogue sv ps t r -> shows_session d s r.
Proof.
  intros chs minc cap es sv ps load t e d s r Es Ho So As Et Na Sm Fc Up De Nu D. eapply shown; try eassumption. eapply dialogue_holds; eassumption.
Qed.
Print Assumptions C66_simulation_partial.

(** And the simulation goes on: if the checks made on conjunctions and quotients let the system through, then starting it is answered with a first state
    if there is one, and sending back any decision that was offered is answered with a next one, not with an error. *)
Lemma system_made ch minc ps load m t e d s : as_sent minc ps load -> as_sent minc ps (in_container m) -> parse_to_system_expr t = Ok e -> names_one load e d s -> puts_together ch load e ->
  to_system ch m t = Ok (s, d).
Proof.
  intros A A' Et (r & dim & q & Er & Cr & ->) P. unfold to_system. rewrite Et. cbn [expect bind]. rewrite (recipe_ext _ load e (as_sent_same _ _ _ _ A' A)), Er. cbn [bind fst].
  destruct (P _ _ Er) as (s' & Es'). cbn [fst] in Es'. rewrite Es'. cbn [expect bind]. apply one_unchecked in Es'. rewrite Cr in Es'. injection Es' as <-. reflexivity.
Qed.
Lemma enabled_map minc : forall cs m, (forall c, In c cs -> exists c', make_input_enabled (minc (comp_dim c)) c (input_actions c) = Ok c') -> exists m', build_map minc cs m = Ok m'.
Proof.
  intros cs. induction cs as [|c cs IH]; intros m H; [exists m; reflexivity|]. cbn. destruct (H c (or_introl eq_refl)) as (c' & ->). cbn. apply IH. intros x Hx. apply H. right. exact Hx.
Qed.
Theorem C66_starts_partial : forall chs minc cap es sv ps cs load t e d s u h k x, serve chs minc cap es = Ok sv -> honest (arrivals es) ->
  (forall p, In p ps -> sound_rep p) -> decodes ps cs -> (forall c, In c cs -> exists c', make_input_enabled (minc (comp_dim c)) c (input_actions c) = Ok c') ->
  as_sent minc ps load -> parse_to_system_expr t = Ok e -> names_one load e d s -> fits_u32 d ->
  (forall k, fair (chs k)) -> puts_together (chs k) load e -> ~ is_action s "" -> initial_state d s <> None ->
  got sv u h ps (mkCall k (MStart t)) x -> exists r, x = ToOk (BPoint r) /\ dialogue sv ps t r.
Proof.
  intros chs minc cap es sv ps cs load t e d s u h k x Es Ho So De En As Et Na Sm Fc Pt Nu Ni G. pose proof (served_own _ _ _ _ _ _ _ _ _ _ Es Ho G) as X.
  destruct (enabled_map minc cs [] En) as (m & Em). assert (Eb : build minc decode_rep ps = Ok m) by (unfold build; rewrite (proj2 (parsed_decodes _ _) De); exact Em).
  rewrite Eb in X. cbn [prepare cl_message bind respond cl_seed] in X. pose proof (built_sent _ _ _ Eb) as Am. rewrite (system_made _ _ _ _ _ _ _ _ _ As Am Et Na Pt) in X. cbn [bind] in X.
  destruct (initial_state d s) as [st|] eqn:Ei; [|contradiction].
  destruct (start_holds chs minc ps load e d s So As Na Sm Fc Nu k st Ei) as (r & Er & _). rewrite Er in X. cbn in X. injection X as <-. exists r. split; [reflexivity|]. econstructor. exact G.
Qed.
Print Assumptions C66_starts_partial.
Theorem C66_continues_partial : forall chs minc cap es sv ps load t e d s r c u h k x, serve chs minc cap es = Ok sv -> honest (arrivals es) ->
  (forall p, In p ps -> sound_rep p) -> as_sent minc ps load -> parse_to_system_expr t = Ok e -> names_one load e d s -> fits_u32 d ->
  (forall k, fair (chs k)) -> puts_together (chs k) load e -> upper_invariants d s -> deterministic d s -> ~ is_action s "" ->
  dialogue sv ps t r -> In c (pr_decisions r) -> got sv u h ps (mkCall k (MStep t (Some c))) x -> exists r', x = ToOk (BPoint r') /\ dialogue sv ps t r'.
Proof.
  intros chs minc cap es sv ps load t e d s r c u h k x Es Ho So As Et Na Sm Fc Pt Up De Nu D Hc G. pose proof (served_own _ _ _ _ _ _ _ _ _ _ Es Ho G) as X.
  assert (B : exists m, build minc decode_rep ps = Ok m).
  { assert (Y : exists u h c y, got sv u h ps c (ToOk y)) by (destruct D; eauto 10). destruct Y as (u' & h' & c' & y & G'). apply (served_own _ _ _ _ _ _ _ _ _ _ Es Ho) in G'. clear X.
    destruct (prepare c'); cbn [bind] in G'; try discriminate. destruct (build minc decode_rep ps) as [m| | |]; try discriminate. eauto. }
  destruct B as (m & Eb). rewrite Eb in X. cbn [prepare cl_message bind respond cl_seed] in X. rewrite (system_made _ _ _ _ _ _ _ _ _ As (built_sent _ _ _ Eb) Et Na Pt) in X. cbn [bind unwrap] in X.
  pose proof (dialogue_holds chs minc cap es sv Es Ho ps load t e d s So As Et Na Sm Fc Up De Nu r D) as Hs.
  destruct (step_holds chs minc ps load e d s So As Na Sm Fc Up De Nu k r c Hs Hc) as (r' & Er & _). rewrite Er in X. cbn in X. injection X as <-. exists r'. split; [reflexivity|]. eapply dl_step; eassumption.
Qed.
Print Assumptions C66_continues_partial.

(** Without room for a single model in its cache the server does not start. *)
Theorem C66_no_room : forall chs minc es, serve chs minc 0 es = Panic.
Proof. reflexivity. Qed.
Print Assumptions C66_no_room.
Theorem C66_runs : forall chs minc cap es, 0 < cap -> exists sv, serve chs minc cap es = Ok sv /\ forall i r, honest (arrivals es) -> nth_error (arrivals es) i = Some r ->
  (r = RToken \/ alone (build minc decode_rep) prepare (respond chs) r <> None) -> exists sv' x, serve chs minc cap (es ++ [Run i; Run i; Run i]) = Ok sv' /\ nth_error (sv_threads sv') i = Some (TDone r x).
Proof.
  intros chs minc cap es Hc. unfold serve. destruct (Nat.eqb_spec cap 0); [lia|]. eexists. split; [reflexivity|]. intros i r Ho Hi Ha.
  destruct (C42_answered minc _ _ _ decode_rep prepare (respond chs) cap es i r Hc Ho Hi Ha) as (x & E). eauto.
Qed.
Print Assumptions C66_runs.

(** ** An example *)

(** Two users.  The first sends the machine of C52 and something that is no component, asks whether the machine is deterministic and whether it refines itself, starts a
    simulation and takes the first step it is offered; the requests of the other, one of which makes no sense, run in between. *)
Definition hd_ps : list rep := [RepJson (Some ld_file); RepJson None].
Definition hd_chs (k : nat) : choices := plain_choices 40.
Definition hd_req (k : nat) (m : message) : @request rep call := RModel 1 (Some (5%Z, hd_ps)) (mkCall k m).
Definition hd_other (m : message) : @request rep call := RModel 2 (Some (5%Z, [NoRep])) (mkCall 0 m).
Definition hd_before : list (@event rep call) :=
  [Arrive (hd_req 0 (MQuery 7 (txt "determinism: M") None)); Arrive (hd_other (MQuery 8 (txt "determinism: M") (Some false))); Arrive RToken; Run 0; Run 1; Run 0; Run 1; Run 2; Run 1; Run 0;
   Arrive (hd_req 1 (MStart (txt "M"))); Run 3; Run 3; Arrive (hd_req 2 (MQuery 9 (txt "refinement: M <= M") (Some true))); Arrive (hd_other (MStep (txt "M") None)); Run 4; Run 5; Run 4; Run 5; Run 5].
Definition done_with (t : @thread rep call sent_back) : option response := match t with TDone _ x => Some x | _ => None end.
Definition hd_point (chs : nat -> choices) (cap : nat) es i : presponse :=
  match serve chs min_own cap es with Ok sv => match nth_error (sv_threads sv) i with Some (TDone _ (ToOk (BPoint p))) => p | _ => mkPR None [] end | _ => mkPR None [] end.
Definition hd_first : presponse := Eval vm_compute in hd_point hd_chs 2 hd_before 3.
Definition hd_choice : pdecision := Eval vm_compute in match pr_decisions hd_first with x :: _ => x | [] => mkPD None "" [] None end.
Definition hd_events : list (@event rep call) := hd_before ++ [Arrive (hd_req 3 (MStep (txt "M") (Some hd_choice))); Run 6; Run 6; Run 6].
Definition hd_c : component := Eval vm_compute in match decode_component ld_file with Ok c => c | _ => ld_new end.
Definition hd_m : component := Eval vm_compute in match make_input_enabled (min_own (comp_dim hd_c)) hd_c (input_actions hd_c) with Ok c => c | _ => ld_new end.
Definition hd_load (n : string) : option component := if String.eqb n "M" then Some hd_m else None.
Definition hd_r : recipe := Eval vm_compute in get no_recipe (rmap fst (get_system_recipe hd_load (XComp "M" None) (0, None))).
Definition hd_s : ts := Eval vm_compute in get ts_m (compile unchecked unchecked 1 hd_r).
Lemma hd_sent : decodes hd_ps [hd_c] /\ as_sent min_own hd_ps hd_load.
Proof.
  assert (D : decodes hd_ps [hd_c]) by (apply (dec_take _ [hd_c] _ []); [vm_compute; reflexivity|]; apply dec_skip; [vm_compute; reflexivity|constructor]).
  split; [exact D|]. exists [hd_c]. split; [exact D|]. intros n c. unfold hd_load. destruct (String.eqb_spec n "M") as [->|Ne].
  - split.
    + intros [= <-]. exists hd_c. split; [exists [], []; repeat split; intros ? []|vm_compute; reflexivity].
    + intros (c0 & (pre & post & E & _) & P). assert (X : In c0 [hd_c]) by (rewrite E; apply in_or_app; right; left; reflexivity). destruct X as [<-|[]]. vm_compute in P. exact (f_equal Some (f_equal (get hd_m) P)).
  - split; [discriminate|]. intros (c0 & (pre & post & E & Nm & _) & P). assert (X : In c0 [hd_c]) by (rewrite E; apply in_or_app; right; left; reflexivity). destruct X as [<-|[]]. symmetry in Nm. contradiction.
Qed.
Lemma hd_names : names_one hd_load (XComp "M" None) 2 hd_s.
Proof. exists hd_r, 1, None. repeat split; vm_compute; reflexivity. Qed.
Lemma hd_sound p : In p hd_ps -> sound_rep p.
Proof. intros [<-|[<-|[]]]; [|exact I]. exact (proj1 C52_nonvacuous "M" ld_file eq_refl). Qed.
Lemma hd_honest es : (forall r, In r (arrivals es) -> r = RToken \/ (exists k m, r = hd_req k m) \/ exists m, r = hd_other m) -> honest (arrivals es).
Proof.
  intros H u h ps ps' b b' _ I J. destruct (H _ I) as [X|[(k & m & X)|(m & X)]], (H _ J) as [Y|[(k' & m' & Y)|(m' & Y)]]; try discriminate X; try discriminate Y; unfold hd_req, hd_other in *; congruence.
Qed.
Lemma hd_ok : honest (arrivals hd_events).
Proof. apply hd_honest. intros r Hr. repeat (destruct Hr as [<-|Hr]; [solve [left; reflexivity|right; left; eexists _, _; reflexivity|right; right; eexists; reflexivity]|]). destruct Hr. Qed.
Definition hd_server : @server rep call sent_back := Eval vm_compute in match serve hd_chs min_own 2 hd_events with Ok sv => sv | _ => mkServer [] 0%Z [] end.
Definition hd_second : presponse := Eval vm_compute in hd_point hd_chs 2 hd_events 6.
Lemma hd_serves : serve hd_chs min_own 2 hd_events = Ok hd_server.
Proof. vm_compute. reflexivity. Qed.
Lemma hd_fair k : fair (hd_chs k).
Proof. apply plain_fair. Qed.
Lemma hd_det : deterministic 2 hd_s.
Proof.
  refine (C66_deterministic_partial hd_chs min_own 2 hd_events hd_server 1 5 hd_ps 0 7 (txt "determinism: M") None None hd_load (XComp "M" None) 2 hd_s hd_serves hd_ok hd_sound (proj2 hd_sent) _ (hd_fair 0) hd_names _ _ _ _ _);
    [vm_compute; reflexivity|vm_compute; reflexivity|discriminate|reflexivity|reflexivity|left; reflexivity].
Qed.
Lemma hd_dialogue : dialogue hd_server hd_ps (txt "M") hd_first /\ In hd_choice (pr_decisions hd_first) /\ dialogue hd_server hd_ps (txt "M") hd_second.
Proof.
  assert (D : dialogue hd_server hd_ps (txt "M") hd_first) by (apply (dl_start _ _ _ 1 5 1); right; right; right; left; reflexivity).
  split; [exact D|]. split; [left; reflexivity|]. eapply (dl_step _ _ _ 1 5 3); [exact D|left; reflexivity|]. do 6 right. left. reflexivity.
Qed.
Example C66_nonvacuous :
  serve hd_chs min_own 2 hd_events = Ok hd_server /\ honest (arrivals hd_events) /\ (forall p, In p hd_ps -> sound_rep p) /\ decodes hd_ps [hd_c] /\ as_sent min_own hd_ps hd_load /\
  (forall k, fair (hd_chs k)) /\ parse_to_system_expr (txt "M") = Ok (XComp "M" None) /\ names_one hd_load (XComp "M" None) 2 hd_s /\ puts_together (hd_chs 0) hd_load (XComp "M" None) /\
  upper_invariants 2 hd_s /\ deterministic 2 hd_s /\ ~ is_action hd_s "" /\ initial_state 2 hd_s <> None /\
  map done_with (sv_threads hd_server) = [Some (ToOk (BReply 7 PSuccess None)); Some ToInternal; Some (ToToken 1); Some (ToOk (BPoint hd_first)); Some (ToOk (BReply 9 PSuccess None)); Some ToInternal; Some (ToOk (BPoint hd_second))] /\
  dialogue hd_server hd_ps (txt "M") hd_second /\ shows_session 2 hd_s hd_second /\ map pd_action (pr_decisions hd_second) = ["coin"; "tea"].
Proof.
  split; [exact hd_serves|]. split; [exact hd_ok|]. split; [exact hd_sound|]. split; [apply hd_sent|]. split; [apply hd_sent|]. split; [exact hd_fair|]. split; [vm_compute; reflexivity|]. split; [exact hd_names|].
  split. { intros r st E. vm_compute in E. injection E as <- <-. eexists. vm_compute. reflexivity. }
  assert (U : upper_invariants 2 hd_s) by (apply upper_check; vm_compute; reflexivity). assert (N : ~ is_action hd_s "") by (vm_compute; intuition discriminate).
  split; [exact U|]. split; [exact hd_det|]. split; [exact N|]. split; [vm_compute; discriminate|]. split; [vm_compute; reflexivity|]. split; [apply hd_dialogue|].
  split; [|vm_compute; reflexivity].
  apply (C66_simulation_partial hd_chs min_own 2 hd_events hd_server hd_ps hd_load (txt "M") (XComp "M" None) 2 hd_s hd_second hd_serves hd_ok hd_sound (proj2 hd_sent)); try apply hd_dialogue; try exact U; try exact N; try exact hd_det; try exact hd_names; try exact hd_fair; vm_compute; reflexivity || discriminate.
Qed.
