(** C53: the path in the reply to a reachability query. *)
From Coq Require Import List String Ascii ZArith QArith Bool Arith Lia Permutation.
From Verif Require Import Fed.Zone Fed.ZoneFacts Fed.Check Model.Base Model.Expr Model.Guard Model.Loc Model.Component Model.ParseQuery
  Model.TS Model.Recipe Model.Reduce Model.PairList Model.Search Model.Refine Model.Query Model.Wire Model.Exec Model.Failure
  Spec.BoundSpec Spec.StepSpec Spec.SystemSpec Spec.RunSpec Spec.ReachSpec Spec.EnableSpec Spec.RecipeSpec Spec.ReduceSpec Spec.SameSpec Spec.StateSpec Spec.WireSpec Spec.QuerySpec Spec.RefineSpec Spec.ExecSpec Spec.FailureSpec Spec.PruneSpec Spec.SimSpec Spec.PathSpec
  Proofs.GuardFacts Proofs.StepFacts Proofs.RunFacts Proofs.FailureFacts Proofs.FailureTruth Proofs.FailurePairs Proofs.FailureModel Proofs.PlainFacts Proofs.SystemFacts Proofs.ConsFacts Proofs.LinkFacts Proofs.RecipeFacts Proofs.ReachFacts Proofs.WireStep Proofs.PathFacts Proofs.ExecFacts Proofs.StateFacts Proofs.CompileFacts
  Props.Examples Props.Recipes Props.Reduction Props.Two Props.Reachability Props.Exec Props.States Props.Failures Props.Print.
Import ListNotations.
Local Open Scope string_scope.
Local Open Scope list_scope.
Local Open Scope nat_scope.

(** What is known of the system of a query. *)
Lemma query_fine least pre load e r dim q s : loadable load -> get_system_recipe load e (0, None) = Ok (r, (dim, q)) -> compile least pre dim r = Ok s ->
  built (dim + 1) s /\ clocks_ok (dim + 1) (q_default q) s /\ reads_ok s /\ forall x, In x (sys_clocks s) -> x < dim + 1.
Proof.
  intros L Er Ec. pose proof (one_fit load L Exact (fun _ _ _ => I) e r dim q Er) as F. unfold compile in Ec. inv_bind Ec. destruct a as [s' k]. injection Ec as ->.
  destruct (fit_fine Exact (dim + 1) (q_default q) r _ _ _ _ _ F H) as (B & K & R & D & _). auto.
Qed.
(** The state a query starts from. *)
Lemma start_means least pre load e from to r dim q s d s' start target : loadable load -> get_system_recipe load e (0, None) = Ok (r, (dim, q)) -> compile least pre dim r = Ok s -> distinct_names r -> fair_query r from to ->
  reach_query least pre load e from to = Ok (d, s', start, target) ->
  only_clocks (dim + 1) (s_zone start) /\ forall v, fsem (dim + 1) (s_zone start) v /\ inv_at (dim + 1) (s_loc start) v <-> starts (dim + 1) s r from (s_loc start) v /\ inv_at (dim + 1) (s_loc start) v.
Proof.
  intros L Er Ec N Fq E. destruct (start_inside _ _ _ _ _ _ _ _ _ _ _ _ _ _ L Er Ec N Fq E) as (-> & -> & Hin). destruct Fq as [Ff _].
  unfold reach_query in E. rewrite Er in E. cbn [bind fst] in E. rewrite Ec in E. cbn [bind] in E. inv_bind E. inv_bind E. injection E as <- <-.
  destruct (C29_compiled least pre load e r dim q s L Er Ec) as (B & Cc & Ck & _). destruct (C29_numbering load e r dim q (fun n c H => proj1 (L n c H)) Er) as (I & _ & P & _).
  destruct from as [f|].
  - inv_bind H. destruct (is_partial (lt_id (s_loc a1))) eqn:Pa; [discriminate|]. injection H as ->. destruct (Ff f eq_refl) as (O' & S' & K'). destruct (C40_decoded_partial least pre dim r s f a Ec N O' S' K' H1) as (Hs & Ps & _ & _).
    pose proof (pattern_plain _ _ B _ Ps) as Sp.
    assert (M : forall v, val_ok (dim + 1) v -> (fsem (dim + 1) (s_zone a) v <-> holds r (lt_id (s_loc a)) v f)).
    { intros v Hv. rewrite <- (Hs (s_loc a) v Hin Sp Hv). unfold hits. split; [intros H; split; [apply fits_refl, Sp|exact H]|intros [_ H]; exact H]. }
    split.
    + intros v w Hv Hw A H. apply M; [exact Hw|]. apply M in H; [|exact Hv]. refine (holds_only (dim + 1) r _ f _ v w A H).
      intros c n i Hc Hi. pose proof (component_numbers r c Hc i (in_map snd _ _ Hi)) as H'. pose proof (Permutation_in _ P (in_or_app _ _ _ (or_introl H'))) as H2. apply in_seq in H2. lia.
    + intros v. cbn [starts]. split; intros [X Y]; (split; [|exact Y]); pose proof (inv_at_ok _ _ _ Y) as Hv; [split; [exact Hin|apply M; assumption]|apply M; tauto].
  - unfold ok_or in H. destruct (initial_state (dim + 1) s) as [st|] eqn:Es; [|discriminate]. injection H as ->. destruct (query_fine least pre load e r dim q s L Er Ec) as (_ & Ck' & Rd & Dm).
    destruct (initial_state_spec _ _ _ B Ck a Es) as (l0 & El & El' & _ & _). rewrite El' in *.
    assert (Z : forall v, inv_at (dim + 1) l0 v -> (fsem (dim + 1) (s_zone a) v <-> fsem (dim + 1) (finit (dim + 1)) v)).
    { clear - Es El. intros v Hi. unfold initial_state in Es. rewrite El in Es. unfold state_from_location in Es. destruct s; try (destruct (fempty _ _); [discriminate|]); injection Es as <-; cbn [s_zone]; rewrite ?apply_inv_sem; tauto. }
    split.
    + exact (initial_only (dim + 1) (q_default q) s B Ck' Rd Dm a Es).
    + intros v. cbn [starts]. split; intros [X Y]; (split; [|exact Y]); [split; [exact El|]; apply finit_sem, (Z v Y), X|apply (Z v Y), finit_sem, X].
Qed.

(** C53, reachability.  The reply to a reachability query that is satisfied shows the steps of a run: each with its action, the edges it
    takes, the states it is taken in and the states it leads to.  The first one is taken in states the query starts from, each other one in
    states its predecessor leads to, and the run ends in the locations that are asked for; if zones are exact or enlarged only beyond the bounds, in a state
    that is asked for.  Invariants are upper bounds. *)
Theorem C53_path_partial : forall ch reduce load e from to r dim q s ps,
  fair ch -> loadable load -> get_system_recipe load e (0, None) = Ok (r, (dim, q)) -> compile unchecked unchecked dim r = Ok s -> (Z.of_nat dim < 4294967294)%Z ->
  upper_invariants (dim + 1) s -> distinct_names r -> fair_query r from to ->
  answer_query ch reduce load (QReachability e from to) = Ok (PReachabilityPath ps) ->
  exists st ds v l' v', Forall2 (step_shown (dim + 1) s) ds ps /\ steps_from (dim + 1) s st ds /\
    (forall v, fsem (dim + 1) (s_zone st) v <-> starts (dim + 1) s r from (s_loc st) v /\ inv_at (dim + 1) (s_loc st) v) /\
    fsem (dim + 1) (s_zone st) v /\ path_run (dim + 1) s (s_loc st) v (map taken ds) l' v' /\
    (forall x, mentions to x -> at_loc x r (lt_id l')) /\
    (forall acc, searches acc ch load to -> holds r (lt_id l') v' to).
Proof.
  intros ch reduce load e from to r dim q s ps Fc L Er Cu Sm U Dn Fq E. cbn [answer_query] in E. rewrite Er in E. cbn [bind fst] in E. unfold or_model in E. inv_bind E. destruct a as [s0|f]; [|inv_bind E; discriminate].
  inv_bind E. destruct a as [[[d s'] start] target]. rename H0 into Rq. inv_bind E. destruct a as [ds|]; [|discriminate]. inv_bind E. injection E as ->.
  assert (Cs : compile (the_least ch) (the_pre ch) dim r = Ok s).
  { assert (Z := Rq). unfold reach_query in Z. rewrite Er in Z. cbn [bind fst] in Z. inv_bind Z. assert (Z' := H2). apply one_unchecked in Z'. rewrite Cu in Z'. injection Z' as <-. exact H2. }
  destruct (start_inside _ _ _ _ _ _ _ _ _ _ _ _ _ _ L Er Cs Dn Fq Rq) as (-> & -> & Hin). destruct (start_means _ _ _ _ _ _ _ _ _ _ _ _ _ _ L Er Cs Dn Fq Rq) as [Oz Mz].
  assert (Rn : run_reach (the_least ch) (the_pre ch) (ch_fuel ch) (ch_xext ch) load e from to = Ok (Some ds)) by (unfold run_reach; rewrite Rq; cbn [bind]; exact H0).
  destruct (query_fine _ _ load e r dim q s L Er Cs) as (B & K & Rd & Dm).
  set (st := mkS (s_loc start) (apply_inv (dim + 1) (s_loc start) (s_zone start))).
  assert (Zs : forall v, fsem (dim + 1) (s_zone st) v <-> starts (dim + 1) s r from (s_loc st) v /\ inv_at (dim + 1) (s_loc st) v) by (intros v; cbn [st s_zone s_loc]; rewrite apply_inv_sem; apply Mz).
  assert (Et : get_state (dim + 1) to r s = Ok target). { assert (Z := Rq). unfold reach_query in Z. rewrite Er in Z. cbn [bind fst] in Z. rewrite Cs in Z. cbn [bind] in Z. inv_bind Z. inv_bind Z. injection Z as _ <-. exact H3. }
  destruct Fq as [Ff (O & S & Kn)]. destruct (C40_decoded_partial _ _ dim r s to target Cs Dn O S Kn Et) as (Ht & Pt & _ & _).
  destruct (C11_path_is_run_partial (dim + 1) _ (ch_xext ch (dim + 1) s (s_zone target)) (ch_fuel ch) s start target ds B K U Hin Pt H0) as (v & l' & v' & Hv & Iv & P & F & Ha).
  assert (Hl' : In l' (all_locations (dim + 1) s)). { assert (R' : run (dim + 1) s (s_loc start) v l' v') by (apply C11_paths_are_runs in P; exact P). eapply run_wf; eauto. }
  pose proof (fits_plain _ _ F) as Sl.
  destruct (fair_minc ch Fc (dim + 1) ltac:(lia)) as [M _].
  destruct (path_shown (dim + 1) _ s B K Rd Dm (ch_minc ch (dim + 1)) (ch_kord ch) M (small (dim + 1) ltac:(lia)) (kord_same ch Fc) _ _ start target ds Hin Oz H0) as (ps' & Ep & Sh). rewrite H1 in Ep. injection Ep as <-.
  exists st, ds, v, l', v'. split; [exact Sh|]. split; [exact (found_steps (dim + 1) _ s B K _ _ start target ds U Hin H0)|]. split; [exact Zs|].
  split; [cbn [st s_zone]; apply apply_inv_sem; auto|]. split; [exact P|]. split.
  - intros x Hx. assert (Et' := Et). apply get_state_inv in Et'. destruct Et' as (ls & b & t & z & A & El & Al & Ett & Eb & Ez & ->). cbn [s_loc] in F. destruct (compile_at_of _ _ _ _ _ Cs) as [k Ck'].
    apply (tree_spec _ _ (dim + 1) (dedup ls) (unambiguous _ Al) r _ _ _ _ Ck' Dn Ett l' Hl' Sl) in F. apply F; [|apply Kn, Hx]. rewrite dedup_in. apply (get_locations_spec _ _ El), Hx.
  - intros acc Sr. specialize (Ha acc (search_fits acc ch load e to r dim q s target L Er Cs Sr Et)). apply Ht; auto. destruct Ha as [_ Ha]. eapply fsem_ok; exact Ha.
Qed.
Print Assumptions C53_path_partial.

(** When such a query is answered, the reply can be built. *)
Theorem C53_always_reach_partial : forall acc ch reduce load e from to r dim q a,
  fair ch -> explores acc ch load -> loadable load -> get_system_recipe load e (0, None) = Ok (r, (dim, q)) -> (Z.of_nat dim < 4294967294)%Z -> distinct_names r -> fair_query r from to ->
  run_query ch reduce load (QReachability e from to) = Ok a -> exists p, answer_query ch reduce load (QReachability e from to) = Ok p /\ favourable p = satisfied a.
Proof.
  intros acc ch reduce load e from to r dim q a Fc Ex L Er Sm Dn Fq E. assert (E0 := E). cbn [run_query] in E.
  inv_bind E. destruct a0 as [[[d s'] start] target]. rename H into Rq. inv_bind E. rename H into R. injection E as <-.
  assert (Cs : compile (the_least ch) (the_pre ch) dim r = Ok s').
  { assert (Z := Rq). unfold reach_query in Z. rewrite Er in Z. cbn [bind fst] in Z. inv_bind Z. inv_bind Z. inv_bind Z. injection Z as _ <-. exact H. }
  destruct (start_inside _ _ _ _ _ _ _ _ _ _ _ _ _ _ L Er Cs Dn Fq Rq) as (-> & _ & Hin). destruct (start_means _ _ _ _ _ _ _ _ _ _ _ _ _ _ L Er Cs Dn Fq Rq) as [Oz _].
  destruct (query_fine _ _ load e r dim q s' L Er Cs) as (B & K & Rd & Dm). destruct (fair_minc ch Fc (dim + 1) ltac:(lia)) as [M _].
  pose proof (one_fit load L acc (explores_plain acc ch load Ex) e r dim q Er) as Ft.
  assert (W : compile_report (the_least_report ch) (the_pre_report ch) dim r = Ok (inl s')).
  { assert (C := Cs). unfold compile in C. inv_bind C. destruct a as [s1 k]. injection C as ->. unfold compile_report. rewrite (compile_says_all acc ch Fc (explores_ext acc ch load Ex) dim (q_default q) r ltac:(lia) Ft 0 s' k H). reflexivity. }
  assert (X : exists p, answer_query ch reduce load (QReachability e from to) = Ok p).
  { cbn [answer_query]. rewrite Er. cbn [bind fst]. rewrite W. cbn [or_model bind]. rewrite Rq. cbn [bind]. rewrite R. cbn [bind]. destruct a0 as [ds|]; [|eauto].
    destruct (path_shown (dim + 1) _ s' B K Rd Dm (ch_minc ch (dim + 1)) (ch_kord ch) M (small (dim + 1) ltac:(lia)) (kord_same ch Fc) _ _ start target ds Hin Oz R) as (ps & Ep & _). rewrite Ep. cbn [bind]. eauto. }
  destruct X as [p X]. exists p. split; [exact X|]. apply C53_reply in X. destruct p; try (destruct X as (b & X & Y); rewrite X in E0; injection E0 as ->; auto). rewrite X in E0. discriminate.
Qed.
Print Assumptions C53_always_reach_partial.

(** M || N, from a given state: one step of both, with its action, the edges and the locations it leads to. *)
Definition paths_of (x : res reply) : list (string * list pedge * option ptree) :=
  match x with Ok (PReachabilityPath ps) => map (fun p => (pd_action p, pd_edges p, match pd_dest p with Some d => ps_tree d | None => None end)) ps | _ => [] end.
Example C53_path_nonvacuous :
  fair (plain_choices 40) /\ explores Exact (plain_choices 40) ex_load /\ loadable ex_load /\
  get_system_recipe ex_load mn_query (0, None) = Ok (mn_recipe, (2, None)) /\ compile unchecked unchecked 2 mn_recipe = Ok mn_ts /\
  upper_invariants 3 mn_ts /\ distinct_names mn_recipe /\ fair_query mn_recipe (Some mn_from) mn_to /\ searches Exact (plain_choices 40) ex_load mn_to /\
  (exists a, run_query (plain_choices 40) false ex_load (QReachability mn_query (Some mn_from) mn_to) = Ok a) /\
  paths_of (answer_query (plain_choices 40) false ex_load (QReachability mn_query (Some mn_from) mn_to)) =
    [("o", [mkPE "E2" (Some (mkPC "M" 0)); mkPE "E3" (Some (mkPC "N" 1))], Some (PBin (Some (PLeaf "L0" (Some (mkPC "M" 0)))) (Some (PLeaf "K1" (Some (mkPC "N" 1)))) 1))].
Proof.
  destruct mn_ok as (A & B & C & D). split; [apply plain_fair|]. split; [apply plain_explores|]. split; [exact ex_load_ok|]. split; [exact A|]. split; [vm_compute; reflexivity|].
  split; [exact D|]. split; [exact C|]. split; [exact (proj2 mn_fair)|]. split; [intros ? ? ? ? ? ?; reflexivity|]. split; [eexists; vm_compute; reflexivity|].
  vm_compute. reflexivity.
Qed.
