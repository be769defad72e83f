(** C66: more of what the server answers: determinism, consistency and reachability. *)
From Coq Require Import List String Ascii ZArith QArith Bool Arith Lia Permutation.
From Verif Require Import Fed.Zone Fed.ZoneFacts Fed.Check Model.Base Model.Expr Model.Guard Model.Loc Model.Component Model.Enable Model.TS Model.ParseQuery Model.Peg Model.ParseEdge Model.Files Model.Xml Model.Server
  Model.Recipe Model.Reduce Model.PairList Model.Loader Model.Search Model.Refine Model.Query Model.Save Model.Sim Model.Wire Model.Exec Model.Failure Model.Handle
  Spec.BoundSpec Spec.StepSpec Spec.SystemSpec Spec.RunSpec Spec.ReachSpec Spec.RefineSpec Spec.ConsistencySpec Spec.EnableSpec Spec.FileSpec Spec.RecipeSpec Spec.ReduceSpec Spec.SameSpec Spec.StateSpec Spec.LoaderSpec Spec.ServerSpec Spec.SimSpec Spec.WireSpec Spec.ExecSpec Spec.FailureSpec Spec.HandleSpec Spec.PathSpec
  Proofs.GuardFacts Proofs.SystemFacts Proofs.WfFacts Proofs.ReadsFacts Proofs.ExecFacts Proofs.RecipeFacts Proofs.LoaderFacts Proofs.ServerFacts Proofs.HandleFacts
  Props.Examples Props.Enabling Props.Loader Props.Server Props.Reduction Props.Reachability Props.Two Props.States Props.Exec Props.Failures Props.Handle Props.Paths.
Import ListNotations.
Local Open Scope string_scope.
Local Open Scope list_scope.
Local Open Scope nat_scope.

(** A query of a client about one system, answered with [r]: what was sent can be loaded, and [r] is the answer over it. *)
Lemma asked chs minc cap es sv u h ps k id t dis r json load q : serve chs minc cap es = Ok sv -> honest (arrivals es) -> (forall p, In p ps -> sound_rep p) -> as_sent minc ps load -> parse_queries t = Ok [q] ->
  got sv u h ps (mkCall k (MQuery id t dis)) (ToOk (BReply id r json)) -> loadable load /\ exists red, (red = true <-> dis = Some false) /\ answer_query (chs k) red load q = Ok r.
Proof.
  intros E Ho So A Eq G. split; [exact (sent_loadable minc ps load So A)|].
  destruct (C66_query _ _ _ _ _ _ _ _ _ _ _ _ _ _ E Ho G A) as (q' & r' & j & red & Ey & Eq' & Rd & Ea & _). injection Ey as <- <-. rewrite Eq in Eq'. injection Eq' as <-. eauto.
Qed.

(** A determinism that is denied: the reply shows two transitions of a component that are possible together. *)
Theorem C66_not_deterministic_partial : forall acc chs minc cap es sv u h ps k id t dis json load e d s m, serve chs minc cap es = Ok sv -> honest (arrivals es) ->
  (forall p, In p ps -> sound_rep p) -> as_sent minc ps load -> parse_queries t = Ok [QDeterminism e] ->
  fair (chs k) -> explores acc (chs k) load -> names_one load e d s -> (Z.of_nat d < 4294967295)%Z ->
  (dis = Some false -> dropped_unmentioned (the_redundant (chs k)) load e /\ nothing_merged (the_redundant (chs k)) load e) ->
  got sv u h ps (mkCall k (MQuery id t dis)) (ToOk (BReply id (PDeterminismFailure m) json)) ->
  exists d' s', same_behaviour d s d' s' /\ exists c, part_of c s' /\ det_true acc d' c m.
Proof.
  intros acc chs minc cap es sv u h ps k id t dis json load e d s m E Ho So A Eq Fc Ex Na Sm Un G. destruct (asked _ _ _ _ _ _ _ _ _ _ _ _ _ _ _ _ E Ho So A Eq G) as (L & red & Rd & Ea).
  destruct (C53_determinism_partial acc (chs k) red load e d s m Fc Ex L Na Sm (fun H => Un (proj1 Rd H)) Ea) as (d' & s' & X & _ & _ & Y). eauto.
Qed.
Print Assumptions C66_not_deterministic_partial.

(** A consistency that is confirmed: every part with single outputs has a strategy to survive. *)
Theorem C66_consistent_partial : forall chs minc cap es sv u h ps k id t dis json load e d s, serve chs minc cap es = Ok sv -> honest (arrivals es) ->
  (forall p, In p ps -> sound_rep p) -> as_sent minc ps load -> parse_queries t = Ok [QConsistency e] ->
  fair (chs k) -> names_one load e d s -> (Z.of_nat d < 4294967295)%Z ->
  (dis = Some false -> dropped_unmentioned (the_redundant (chs k)) load e /\ nothing_merged (the_redundant (chs k)) load e) ->
  got sv u h ps (mkCall k (MQuery id t dis)) (ToOk (BReply id PSuccess json)) ->
  (no_reserved s = true -> plain_divisors s = true -> deterministic d s) /\
  exists d' s', same_behaviour d s d' s' /\ (dis <> Some false -> d' = d /\ s' = s) /\ forall c, part_of c s' -> single_output d' c -> exists W, starts_in d' c W /\ survives d' c W.
Proof.
  intros chs minc cap es sv u h ps k id t dis json load e d s E Ho So A Eq Fc Na Sm Un G. destruct (asked _ _ _ _ _ _ _ _ _ _ _ _ _ _ _ _ E Ho So A Eq G) as (L & red & Rd & Ea).
  destruct (C53_reply _ _ _ _ _ Ea) as (a & Er & Sa). destruct (C50_consistent_partial (chs k) red load e d s a Fc L Na Sm (fun H => Un (proj1 Rd H)) Er Sa) as (X & d' & s' & Y1 & Y2 & Y3). split; [exact X|]. exists d', s'. split; [exact Y1|]. split; [|exact Y3].
  intros N. apply Y2. destruct red; [|reflexivity]. destruct (N (proj1 Rd eq_refl)).
Qed.
Print Assumptions C66_consistent_partial.

(** A consistency that is denied: the reply shows what is wrong with a part. *)
Theorem C66_not_consistent_partial : forall acc chs minc cap es sv u h ps k id t dis json load e d s m, serve chs minc cap es = Ok sv -> honest (arrivals es) ->
  (forall p, In p ps -> sound_rep p) -> as_sent minc ps load -> parse_queries t = Ok [QConsistency e] ->
  fair (chs k) -> explores acc (chs k) load -> names_one load e d s -> (Z.of_nat d < 4294967295)%Z ->
  (dis = Some false -> dropped_unmentioned (the_redundant (chs k)) load e /\ nothing_merged (the_redundant (chs k)) load e) ->
  got sv u h ps (mkCall k (MQuery id t dis)) (ToOk (BReply id (PConsistencyFailure m) json)) ->
  exists d' s', same_behaviour d s d' s' /\ pre_true acc d' s' m.
Proof.
  intros acc chs minc cap es sv u h ps k id t dis json load e d s m E Ho So A Eq Fc Ex Na Sm Un G. destruct (asked _ _ _ _ _ _ _ _ _ _ _ _ _ _ _ _ E Ho So A Eq G) as (L & red & Rd & Ea).
  destruct (C53_consistency_partial acc (chs k) red load e d s m Fc Ex L Na Sm (fun H => Un (proj1 Rd H)) Ea) as (d' & s' & X & _ & _ & Y). eauto.
Qed.
Print Assumptions C66_not_consistent_partial.

(** A state that can be reached: the reply shows the steps of a run to it. *)
Theorem C66_path_partial : forall chs minc cap es sv u h ps k id t dis json load e from to r dim q s msgs, serve chs minc cap es = Ok sv -> honest (arrivals es) ->
  (forall p, In p ps -> sound_rep p) -> as_sent minc ps load -> parse_queries t = Ok [QReachability e from to] ->
  fair (chs k) -> get_system_recipe load e (0, None) = Ok (r, (dim, q)) -> compile unchecked unchecked dim r = Ok s -> (Z.of_nat dim < 4294967294)%Z ->
  upper_invariants (dim + 1) s -> distinct_names r -> fair_query r from to ->
  got sv u h ps (mkCall k (MQuery id t dis)) (ToOk (BReply id (PReachabilityPath msgs) json)) ->
  exists st ds v l' v', Forall2 (step_shown (dim + 1) s) ds msgs /\ steps_from (dim + 1) s st ds /\
    (forall v, fsem (dim + 1) (s_zone st) v <-> starts (dim + 1) s r from (s_loc st) v /\ inv_at (dim + 1) (s_loc st) v) /\
    fsem (dim + 1) (s_zone st) v /\ path_run (dim + 1) s (s_loc st) v (map taken ds) l' v' /\
    (forall x, mentions to x -> at_loc x r (lt_id l')) /\
    (forall acc, searches acc (chs k) load to -> holds r (lt_id l') v' to).
Proof.
  intros chs minc cap es sv u h ps k id t dis json load e from to r dim q s msgs E Ho So A Eq Fc Er Cu Sm U Dn Fq G. destruct (asked _ _ _ _ _ _ _ _ _ _ _ _ _ _ _ _ E Ho So A Eq G) as (L & red & Rd & Ea).
  exact (C53_path_partial (chs k) red load e from to r dim q s msgs Fc L Er Cu Sm U Dn Fq Ea).
Qed.
Print Assumptions C66_path_partial.

(** A state that cannot be reached from the beginning: no state of the system, special locations of quotients left out, is as asked for. *)
Theorem C66_unreachable_partial : forall chs minc cap es sv u h ps k id t dis json load e to r dim q s n, serve chs minc cap es = Ok sv -> honest (arrivals es) ->
  (forall p, In p ps -> sound_rep p) -> as_sent minc ps load -> parse_queries t = Ok [QReachability e None to] ->
  (forall d s z l f v, fsem d f v -> fsem d (ch_xext (chs k) d s z l f) v) -> get_system_recipe load e (0, None) = Ok (r, (dim, q)) -> compile unchecked unchecked dim r = Ok s -> distinct_names r -> fair_query r None to ->
  got sv u h ps (mkCall k (MQuery id t dis)) (ToOk (BReply id (PReachabilityFailure n) json)) ->
  forall l v, reachable (dim + 1) s l v -> no_special (lt_id l) -> ~ holds r (lt_id l) v to.
Proof.
  intros chs minc cap es sv u h ps k id t dis json load e to r dim q s n E Ho So A Eq Fx Er Cu Dn Fq G. destruct (asked _ _ _ _ _ _ _ _ _ _ _ _ _ _ _ _ E Ho So A Eq G) as (L & red & Rd & Ea).
  destruct (C53_reply _ _ _ _ _ Ea) as (a & Ra & Sa). cbn [favourable] in Sa.
  assert (Cs : compile (the_least (chs k)) (the_pre (chs k)) dim r = Ok s).
  { assert (Z := Ra). cbn [run_query] in Z. inv_bind Z. clear Z. unfold reach_query in H. rewrite Er in H. cbn [bind fst] in H. inv_bind H. assert (Z' := H0). apply one_unchecked in Z'. rewrite Cu in Z'. injection Z' as <-. exact H0. }
  exact (proj2 (C50_unreachable_partial (chs k) red load e to r dim q s a Fx L Er Cs Dn Fq Ra Sa)).
Qed.
Print Assumptions C66_unreachable_partial.

(** ** An example *)

(** A client sends the machine of C52 and a component with overlapping inputs, and asks about both. *)
Definition cs_g : file_comp :=
  mkFC (txt "G") (txt "clock x;") [mkFL (txt "G0") [] (txt "INITIAL") (txt "NORMAL"); mkFL (txt "G1") [] (txt "NORMAL") (txt "NORMAL")]
    [mkFE (txt "E0") (txt "G0") (txt "G1") (txt "INPUT") (txt "x>=4") [] (txt "i"); mkFE (txt "E1") (txt "G0") (txt "G0") (txt "INPUT") (txt "x<=4") (txt "x=0") (txt "i")].
Definition cs_ps : list rep := [RepJson (Some ld_file); RepJson (Some cs_g)].
Definition cs_texts : list (list ascii) :=
  [txt "determinism: G"; txt "consistency: G"; txt "consistency: M"; txt "reachability: M @ init -> M.L1 && M.x >= 2"; txt "reachability: M @ init -> M.L1 && M.x > 9"].
Definition cs_ask (k : nat) : @event rep call := Arrive (RModel 1 (Some (5%Z, cs_ps)) (mkCall k (MQuery (Z.of_nat k) (nth k cs_texts []) None))).
Definition cs_events : list (@event rep call) := map cs_ask (seq 0 5) ++ List.concat (map (fun i => [Run i; Run i; Run i]) [4; 2; 0; 1; 3]).
Definition cs_server : @server rep call sent_back := Eval vm_compute in match serve hd_chs min_own 2 cs_events with Ok sv => sv | _ => mkServer [] 0%Z [] end.
Definition cs_kind (x : option response) : nat :=
  match x with
  | Some (ToOk (BReply _ PSuccess _)) => 1 | Some (ToOk (BReply _ (PDeterminismFailure _) _)) => 2 | Some (ToOk (BReply _ (PConsistencyFailure _) _)) => 3
  | Some (ToOk (BReply _ (PReachabilityPath (_ :: _)) _)) => 4 | Some (ToOk (BReply _ (PReachabilityFailure _) _)) => 5 | _ => 0
  end.
Definition cs_raw : component := Eval vm_compute in match decode_component cs_g with Ok c => c | _ => ld_new end.
Definition cs_got : component := Eval vm_compute in match make_input_enabled (min_own (comp_dim cs_raw)) cs_raw (input_actions cs_raw) with Ok c => c | _ => ld_new end.
Definition cs_load (n : string) : option component := if String.eqb n "G" then Some cs_got else hd_load n.
Definition cs_r : recipe := Eval vm_compute in get no_recipe (rmap fst (get_system_recipe cs_load (XComp "G" None) (0, None))).
Definition cs_s : ts := Eval vm_compute in get ts_m (compile unchecked unchecked 1 cs_r).
Definition cs_to (o : rel) (k : Z) : stx := SAnd [SLoc (mkVar "M" None "L1"); SCmp o (OClk (mkVar "M" None "x")) (ONum k)].
Lemma cs_sent : as_sent min_own cs_ps cs_load.
Proof.
  exists [hd_c; cs_raw]. split; [apply (dec_take _ [hd_c] _ [cs_raw]); [vm_compute; reflexivity|]; apply (dec_take _ [cs_raw] _ []); [vm_compute; reflexivity|constructor]|].
  intros n c. unfold cs_load, hd_load. destruct (String.eqb_spec n "G") as [->|Ne]; [|destruct (String.eqb_spec n "M") as [->|Ne']].
  - split.
    + intros [= <-]. exists cs_raw. split; [exists [hd_c], []; repeat split; intros ? []|vm_compute; reflexivity].
    + intros (c0 & (pre & post & E & Nm & _) & P). assert (X : In c0 [hd_c; cs_raw]) by (rewrite E; apply in_or_app; right; left; reflexivity). destruct X as [<-|[<-|[]]]; [discriminate Nm|]. vm_compute in P. exact (f_equal Some (f_equal (get cs_got) P)).
  - split.
    + intros [= <-]. exists hd_c. split; [exists [], [cs_raw]; repeat split; intros x [<-|[]]; discriminate|vm_compute; reflexivity].
    + intros (c0 & (pre & post & E & Nm & _) & P). assert (X : In c0 [hd_c; cs_raw]) by (rewrite E; apply in_or_app; right; left; reflexivity). destruct X as [<-|[<-|[]]]; [|discriminate Nm]. vm_compute in P. exact (f_equal Some (f_equal (get hd_m) P)).
  - split; [discriminate|]. intros (c0 & (pre & post & E & Nm & _) & P). assert (X : In c0 [hd_c; cs_raw]) by (rewrite E; apply in_or_app; right; left; reflexivity). destruct X as [<-|[<-|[]]]; symmetry in Nm; contradiction.
Qed.
Lemma cs_sound p : In p cs_ps -> sound_rep p.
Proof.
  intros [<-|[<-|[]]]; [exact (hd_sound _ (or_introl eq_refl))|]. split.
  - exists [DClocks "x" []]. split; [reflexivity|]. split; [|repeat constructor; intros []]. intros l [<-|[]] x [<-|[]]. split; [discriminate|]. intros c [<-|[]] X. repeat (destruct X as [X|X]; [discriminate|]). exact X.
  - intros c E. vm_compute in E. injection E as <-. intros e us [<-|[<-|[]]]; cbn; intros [= <-]. split; [intros x k [[= <- <-]|[]]; lia|]. intros x a b [[= <- <-]|[]] [[= <-]|[]]. reflexivity.
Qed.
Example C66_clients_nonvacuous :
  serve hd_chs min_own 2 cs_events = Ok cs_server /\ honest (arrivals cs_events) /\ (forall p, In p cs_ps -> sound_rep p) /\ as_sent min_own cs_ps cs_load /\
  (forall k, fair (hd_chs k)) /\ (forall k, explores Exact (hd_chs k) cs_load) /\ names_one cs_load (XComp "G" None) 2 cs_s /\ names_one cs_load (XComp "M" None) 2 hd_s /\
  map parse_queries cs_texts = [Ok [QDeterminism (XComp "G" None)]; Ok [QConsistency (XComp "G" None)]; Ok [QConsistency (XComp "M" None)]; Ok [QReachability (XComp "M" None) None (cs_to RGe 2)]; Ok [QReachability (XComp "M" None) None (cs_to RGt 9)]] /\
  map (fun t => cs_kind (done_with t)) (sv_threads cs_server) = [2; 3; 1; 4; 5] /\
  get_system_recipe cs_load (XComp "M" None) (0, None) = Ok (hd_r, (1, None)) /\ compile unchecked unchecked 1 hd_r = Ok hd_s /\ upper_invariants 2 hd_s /\ distinct_names hd_r /\
  fair_query hd_r None (cs_to RGe 2) /\ fair_query hd_r None (cs_to RGt 9) /\ (forall k to, searches Exact (hd_chs k) cs_load to).
Proof.
  split; [vm_compute; reflexivity|]. split.
  { intros u h ps ps' b b' _ I J. assert (Z : forall r, In r (arrivals cs_events) -> exists k, r = RModel 1 (Some (5%Z, cs_ps)) (mkCall k (MQuery (Z.of_nat k) (nth k cs_texts []) None))). { intros r Hr. repeat (destruct Hr as [<-|Hr]; [eexists; reflexivity|]). destruct Hr. }
    destruct (Z _ I) as [k X], (Z _ J) as [k' Y]. congruence. }
  split; [exact cs_sound|]. split; [exact cs_sent|]. split; [exact hd_fair|]. split; [intros k; apply plain_explores|].
  split; [exists cs_r, 1, None; repeat split; vm_compute; reflexivity|]. split; [exists hd_r, 1, None; repeat split; vm_compute; reflexivity|].
  split; [vm_compute; reflexivity|]. split; [vm_compute; reflexivity|]. split; [vm_compute; reflexivity|]. split; [vm_compute; reflexivity|].
  split; [apply upper_check; vm_compute; reflexivity|]. split; [unfold distinct_names; vm_compute; repeat constructor; intros []|].
  assert (Kn : forall o k, fair_query hd_r None (cs_to o k)).
  { intros o k. split; [discriminate|]. split; [reflexivity|]. split; [destruct o; reflexivity|]. intros x Hx. cbn in Hx. destruct Hx as [<-|[[]|[]]]. exists (hd cs_got (components hd_r)). vm_compute. auto. }
  split; [apply Kn|]. split; [apply Kn|]. intros k to ? ? ? ? ? ?. reflexivity.
Qed.

(** Refuted without determinism: a component with two outputs of one name.  A client that starts a simulation is offered both, and is
    answered with an internal error when it sends one of them back. *)
Definition of_file : file_comp :=
  mkFC (txt "N") (txt "clock x;") [mkFL (txt "L0") [] (txt "INITIAL") (txt "NORMAL"); mkFL (txt "L1") [] (txt "NORMAL") (txt "NORMAL"); mkFL (txt "L2") [] (txt "NORMAL") (txt "NORMAL")]
    [mkFE (txt "E0") (txt "L0") (txt "L1") (txt "OUTPUT") [] [] (txt "a"); mkFE (txt "E1") (txt "L0") (txt "L2") (txt "OUTPUT") [] [] (txt "a")].
Definition of_ps : list rep := [RepJson (Some of_file)].
Definition of_req (k : nat) (m : message) : @request rep call := RModel 1 (Some (5%Z, of_ps)) (mkCall k m).
Definition of_before : list (@event rep call) := [Arrive (of_req 0 (MStart (txt "N"))); Run 0; Run 0; Run 0].
Definition of_first : presponse := Eval vm_compute in hd_point hd_chs 2 of_before 0.
Definition of_choice : pdecision := Eval vm_compute in match pr_decisions of_first with x :: _ => x | [] => mkPD None "" [] None end.
Definition of_events : list (@event rep call) := of_before ++ [Arrive (of_req 1 (MStep (txt "N") (Some of_choice))); Run 1; Run 1; Run 1].
Definition of_server : @server rep call sent_back := Eval vm_compute in match serve hd_chs min_own 2 of_events with Ok sv => sv | _ => mkServer [] 0%Z [] end.
Theorem C66_offered_refuted : exists chs minc cap es sv ps t r c u h k, serve chs minc cap es = Ok sv /\ honest (arrivals es) /\ (forall p, In p ps -> sound_rep p) /\ (forall k, fair (chs k)) /\
  dialogue sv ps t r /\ In c (pr_decisions r) /\ got sv u h ps (mkCall k (MStep t (Some c))) ToInternal.
Proof.
  exists hd_chs, min_own, 2, of_events, of_server, of_ps, (txt "N"), of_first, of_choice, 1%Z, 5%Z, 1. split; [vm_compute; reflexivity|]. split.
  { intros u h ps ps' b b' _ I J. assert (Z : forall r, In r (arrivals of_events) -> exists k m, r = of_req k m). { intros r Hr. repeat (destruct Hr as [<-|Hr]; [eexists _, _; reflexivity|]). destruct Hr. }
    destruct (Z _ I) as (k & m & X), (Z _ J) as (k' & m' & Y). unfold of_req in *. congruence. }
  split.
  { intros p [<-|[]]. split.
    - exists [DClocks "x" []]. split; [reflexivity|]. split; [|repeat constructor; intros []]. intros l [<-|[]] x [<-|[]]. split; [discriminate|]. intros c [<-|[]] X. repeat (destruct X as [X|X]; [discriminate|]). exact X.
    - intros c E. vm_compute in E. injection E as <-. intros e us [<-|[<-|[]]]; cbn; discriminate. }
  split; [exact hd_fair|]. split; [apply (dl_start _ _ _ 1 5 0); left; reflexivity|]. split; [left; reflexivity|]. right. left. reflexivity.
Qed.
Print Assumptions C66_offered_refuted.
