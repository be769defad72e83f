(** C55: what the lines of a command line say about the components on disk, for texts of any number of queries. *)
From Coq Require Import List String Ascii ZArith QArith Bool Arith Lia Permutation.
From Verif Require Import Fed.Zone Fed.ZoneFacts Fed.Check Model.Base Model.Expr Model.Guard Model.Loc Model.Component Model.Enable Model.ParseQuery Model.Peg Model.ParseEdge Model.Files Model.Xml Model.Server
  Model.TS Model.Recipe Model.Reduce Model.Search Model.Refine Model.Query Model.Wire Model.Exec Model.Failure Model.Loader Model.Cli
  Spec.BoundSpec Spec.StepSpec Spec.SystemSpec Spec.RunSpec Spec.ReachSpec Spec.RefineSpec Spec.ConsistencySpec Spec.TextSpec Spec.FileSpec Spec.QuerySpec Spec.RecipeSpec Spec.SameSpec Spec.StateSpec Spec.WireSpec Spec.ExecSpec Spec.LoaderSpec Spec.FailureSpec Spec.CliSpec Spec.LineSpec
  Proofs.GuardFacts Proofs.ExecFacts Proofs.LoaderFacts Props.Examples Props.Reduction Props.Reachability Props.States Props.Exec Props.Loader Props.Failures Props.Cli Props.Print.
Import ListNotations.
Local Open Scope string_scope.
Local Open Scope list_scope.
Local Open Scope nat_scope.

Lemma answer_kind ch reduce load q c : run_query ch reduce load q = Ok (AComponent c) -> creates q = true.
Proof.
  destruct q; cbn [run_query creates]; intros E; try reflexivity; try discriminate E; inv_bind E.
  - destruct a as [[? ?] ?]. inv_bind E. discriminate E.
  - destruct a as [? ?]. inv_bind E. discriminate E.
  - destruct a as [[[? ?] ?] ?]. inv_bind E. discriminate E.
  - destruct a as [? ?]. inv_bind E. discriminate E.
Qed.

(** The line at place [i]: the query was answered over the components on disk, and the line says so. *)
Lemma told_line chs minc a dk i q l load : on_disk minc a dk load -> told chs minc a dk i q l ->
  loadable load /\ exists an, run_query (chs i) (ag_reduce a) load q = Ok an /\ says q an l.
Proof.
  intros (Pk & Sf & sp & Sy & El) (qs & ls & p' & Eq & E & X & Y & Nc). split; [rewrite El; exact (C52_loadable minc (dk_components dk) sp Sf)|].
  destruct (proj1 (C55_printed chs minc a dk ls)) as (qs' & p & pqs & as_ & Eq' & _ & Eo & (L & An & _) & Pr); [eauto|]. rewrite Eq in Eq'. injection Eq' as <-.
  assert (p = AJson (json_new (dk_components dk) sp)) as ->.
  { unfold open_project in Eo. rewrite Pk in Eo. unfold open_json in Eo. destruct (dk_system dk) as [x|]; [|discriminate]. cbn [unwrap bind] in Eo. rewrite (Sy x eq_refl) in Eo. cbn [expect bind] in Eo. apply bind_ok in Eo. destruct Eo as (ts & _ & Eo). apply bind_ok in Eo. destruct Eo as (qs2 & _ & Eo). injection Eo as <- _. reflexivity. }
  rewrite <- El in *. cbn [kind_of] in *.
  destruct (nth_error as_ i) as [an|] eqn:W; [|apply nth_error_None in W; assert (i < List.length qs) by (apply nth_error_Some; congruence); lia].
  exists an. split.
  - rewrite <- (An i q an X W). apply run_query_ext. intros n. unfold visible. destruct (find (saved_under n) (rev (firstn i as_))) as [b|] eqn:F; [|reflexivity].
    apply find_some in F. destruct F as [Hb Sb]. apply in_rev in Hb. destruct b as [ | | | |c]; try discriminate. exfalso.
    apply In_nth_error in Hb. destruct Hb as [j Hj]. assert (Hi : j < i). { assert (j < List.length (firstn i as_)) by (apply nth_error_Some; congruence). rewrite firstn_length in H. lia. }
    assert (Hj' : nth_error as_ j = Some (AComponent c)).
    { rewrite <- Hj. rewrite <- (firstn_skipn i as_) at 1. apply nth_error_app1. apply nth_error_Some. congruence. }
    destruct (nth_error qs j) as [qj|] eqn:Wj; [|apply nth_error_None in Wj; assert (i < List.length qs) by (apply nth_error_Some; congruence); lia].
    pose proof (answer_kind _ _ _ _ _ (An j qj _ Wj Hj')) as C. rewrite Nc in C; [discriminate|].
    assert (Z : nth_error (firstn i qs) j = Some qj). { rewrite <- Wj. rewrite <- (firstn_skipn i qs) at 2. symmetry. apply nth_error_app1. rewrite firstn_length. assert (i < List.length qs) by (apply nth_error_Some; congruence). lia. }
    eapply nth_error_In, Z.
  - assert (Z : nth_error (combine qs as_) i = Some (q, an)).
    { clear - X W. revert as_ i X W. induction qs as [|x qs IH]; intros [|b as_] [|i] X W; try discriminate; cbn in *; [congruence|eauto]. }
    clear - Pr Z Y. revert i Z Y. induction Pr as [|x y xs ys S F IH]; intros [|i] Z Y; try discriminate; cbn in *; [|eauto]. injection Z as ->. injection Y as <-. exact S.
Qed.
Lemma says_fails q an l : says q an l -> l = fails_line q -> satisfied an = false.
Proof.
  unfold fails_line. intros S ->. assert (X : forall u v, print_query q ++ u = print_query q ++ v -> u = v) by (intros u v; apply app_inv_head).
  inversion S; subst; try reflexivity; try (match goal with E : print_query q ++ _ = print_query q ++ _ |- _ => apply X in E; discriminate E end). destruct o; try reflexivity. contradiction.
Qed.

(** A refinement said to hold. *)
Theorem C55_line_refines_partial : forall chs minc a dk i load e f d s t, on_disk minc a dk load -> fair (chs i) -> names_two load e f d s t -> (Z.of_nat d < 4294967295)%Z ->
  has_quotient e && has_quotient f = false -> (ag_reduce a = true -> dropped_unmentioned_two (the_redundant (chs i)) load e f) -> no_gaps d t -> starts_together d s t ->
  told chs minc a dk i (QRefinement e f) (holds_line (QRefinement e f)) -> refines d s t.
Proof.
  intros chs minc a dk i load e f d s t D Fc Na Sm Hq Un Ng St T. destruct (told_line _ _ _ _ _ _ _ _ D T) as (L & an & E & S). apply says_satisfied in S; [|reflexivity].
  exact (C50_refines_partial (chs i) (ag_reduce a) load e f d s t an Fc L Na Sm Hq Un Ng St E S).
Qed.
Print Assumptions C55_line_refines_partial.

(** A refinement that is denied: one of the systems has no initial location, they have no common start, a part is not deterministic or
    not consistent, actions do not fit, or a pair of states can be reached in which an action cannot be matched. *)
Theorem C55_line_not_refines_partial : forall acc chs minc a dk i load e f d s t, on_disk minc a dk load -> fair (chs i) -> explores acc (chs i) load -> names_two load e f d s t -> (Z.of_nat d < 4294967295)%Z ->
  has_quotient e && has_quotient f = false -> (ag_reduce a = true -> dropped_unmentioned_two (the_redundant (chs i)) load e f) -> upper_invariants d s -> upper_invariants d t ->
  told chs minc a dk i (QRefinement e f) (fails_line (QRefinement e f)) ->
  exists d' s' t' m, same_behaviour d s d' s' /\ same_behaviour d t d' t' /\ ref_true acc d' s' t' m.
Proof.
  intros acc chs minc a dk i load e f d s t D Fc Ex Na Sm Hq Un U1 U2 T. destruct (told_line _ _ _ _ _ _ _ _ D T) as (L & an & E & S). apply says_fails in S; [|reflexivity].
  destruct (C53_always_two_partial acc (chs i) (ag_reduce a) load e f d s t an Fc Ex L Na Sm Hq Un U1 U2 E) as (p & Ea & Fa). rewrite S in Fa.
  assert (Z : exists m, p = PRefinementFailure m).
  { cbn [answer_query] in Ea. cbn [run_query] in E. inv_bind E. destruct a0 as [[s' t'] dim']. rewrite (two_replies acc (chs i) (ag_reduce a) load e f d s t s' t' dim' Fc Ex L Na Sm Un H) in Ea. cbn [or_model bind fst snd] in Ea. inv_bind Ea. destruct a0 as [x|]; [|injection Ea as <-; discriminate Fa]. inv_bind Ea. injection Ea as <-. eauto. }
  destruct Z as [m ->]. destruct (C53_refinement_partial acc (chs i) (ag_reduce a) load e f d s t m Fc Ex L Na Sm Hq Un U1 U2 Ea) as (d' & s' & t' & X & Y & _ & _ & Z & _). exists d', s', t', m. auto.
Qed.
Print Assumptions C55_line_not_refines_partial.

(** Determinism said to hold, and denied: a part has two transitions that are possible together. *)
Theorem C55_line_deterministic_partial : forall chs minc a dk i load e d s, on_disk minc a dk load -> fair (chs i) -> names_one load e d s -> (Z.of_nat d < 4294967295)%Z ->
  (ag_reduce a = true -> dropped_unmentioned (the_redundant (chs i)) load e /\ nothing_merged (the_redundant (chs i)) load e) -> no_reserved s = true -> plain_divisors s = true ->
  told chs minc a dk i (QDeterminism e) (holds_line (QDeterminism e)) -> deterministic d s.
Proof.
  intros chs minc a dk i load e d s D Fc Na Sm Un N P T. destruct (told_line _ _ _ _ _ _ _ _ D T) as (L & an & E & S). apply says_satisfied in S; [|reflexivity].
  exact (C50_deterministic_partial (chs i) (ag_reduce a) load e d s an Fc L Na Sm Un N P E S).
Qed.
Print Assumptions C55_line_deterministic_partial.
Theorem C55_line_not_deterministic_partial : forall acc chs minc a dk i load e d s, on_disk minc a dk load -> fair (chs i) -> explores acc (chs i) load -> names_one load e d s -> (Z.of_nat d < 4294967295)%Z ->
  (ag_reduce a = true -> dropped_unmentioned (the_redundant (chs i)) load e /\ nothing_merged (the_redundant (chs i)) load e) ->
  told chs minc a dk i (QDeterminism e) (fails_line (QDeterminism e)) ->
  exists d' s' c m, same_behaviour d s d' s' /\ part_of c s' /\ det_true acc d' c m.
Proof.
  intros acc chs minc a dk i load e d s D Fc Ex Na Sm Un T. destruct (told_line _ _ _ _ _ _ _ _ D T) as (L & an & E & S). apply says_fails in S; [|reflexivity].
  destruct (C53_always_one_partial acc (chs i) (ag_reduce a) load (QDeterminism e) e d s an Fc Ex L eq_refl ltac:(discriminate) Na Sm Un E) as (p & Ea & Fa). rewrite S in Fa.
  assert (Z : exists m, p = PDeterminismFailure m).
  { cbn [answer_query] in Ea. cbn [run_query] in E. inv_bind E. destruct a0 as [s' dim']. rewrite (one_replies acc (chs i) (ag_reduce a) load e d s s' dim' Fc Ex L Na Sm Un H) in Ea. cbn [or_model bind fst snd] in Ea. inv_bind Ea. destruct a0 as [x|]; [|injection Ea as <-; discriminate Fa]. inv_bind Ea. injection Ea as <-. eauto. }
  destruct Z as [m ->]. destruct (C53_determinism_partial acc (chs i) (ag_reduce a) load e d s m Fc Ex L Na Sm Un Ea) as (d' & s' & X & _ & _ & c & Pc & Y). exists d', s', c, m. auto.
Qed.
Print Assumptions C55_line_not_deterministic_partial.

(** Consistency said to hold, and denied. *)
Theorem C55_line_consistent_partial : forall chs minc a dk i load e d s, on_disk minc a dk load -> fair (chs i) -> names_one load e d s -> (Z.of_nat d < 4294967295)%Z ->
  (ag_reduce a = true -> dropped_unmentioned (the_redundant (chs i)) load e /\ nothing_merged (the_redundant (chs i)) load e) ->
  told chs minc a dk i (QConsistency e) (holds_line (QConsistency e)) ->
  (no_reserved s = true -> plain_divisors s = true -> deterministic d s) /\
  exists d' s', same_behaviour d s d' s' /\ (ag_reduce a = false -> d' = d /\ s' = s) /\ forall c, part_of c s' -> single_output d' c -> exists W, starts_in d' c W /\ survives d' c W.
Proof.
  intros chs minc a dk i load e d s D Fc Na Sm Un T. destruct (told_line _ _ _ _ _ _ _ _ D T) as (L & an & E & S). apply says_satisfied in S; [|reflexivity].
  exact (C50_consistent_partial (chs i) (ag_reduce a) load e d s an Fc L Na Sm Un E S).
Qed.
Print Assumptions C55_line_consistent_partial.
Theorem C55_line_not_consistent_partial : forall acc chs minc a dk i load e d s, on_disk minc a dk load -> fair (chs i) -> explores acc (chs i) load -> names_one load e d s -> (Z.of_nat d < 4294967295)%Z ->
  (ag_reduce a = true -> dropped_unmentioned (the_redundant (chs i)) load e /\ nothing_merged (the_redundant (chs i)) load e) ->
  told chs minc a dk i (QConsistency e) (fails_line (QConsistency e)) ->
  exists d' s' m, same_behaviour d s d' s' /\ pre_true acc d' s' m.
Proof.
  intros acc chs minc a dk i load e d s D Fc Ex Na Sm Un T. destruct (told_line _ _ _ _ _ _ _ _ D T) as (L & an & E & S). apply says_fails in S; [|reflexivity].
  destruct (C53_always_one_partial acc (chs i) (ag_reduce a) load (QConsistency e) e d s an Fc Ex L eq_refl ltac:(discriminate) Na Sm Un E) as (p & Ea & Fa). rewrite S in Fa.
  assert (Z : exists m, p = PConsistencyFailure m).
  { cbn [answer_query] in Ea. cbn [run_query] in E. inv_bind E. destruct a0 as [s' dim']. rewrite (one_replies acc (chs i) (ag_reduce a) load e d s s' dim' Fc Ex L Na Sm Un H) in Ea. cbn [or_model bind fst snd] in Ea. inv_bind Ea. destruct a0 as [x|]; [|injection Ea as <-; discriminate Fa]. inv_bind Ea. injection Ea as <-. eauto. }
  destruct Z as [m ->]. destruct (C53_consistency_partial acc (chs i) (ag_reduce a) load e d s m Fc Ex L Na Sm Un Ea) as (d' & s' & X & _ & _ & Y). exists d', s', m. auto.
Qed.
Print Assumptions C55_line_not_consistent_partial.

(** A state said to be reachable, and not. *)
Theorem C55_line_reachable_partial : forall chs minc a dk i load e from to r dim q s, on_disk minc a dk load ->
  get_system_recipe load e (0, None) = Ok (r, (dim, q)) -> compile unchecked unchecked dim r = Ok s -> upper_invariants (dim + 1) s -> distinct_names r -> fair_query r from to ->
  told chs minc a dk i (QReachability e from to) (holds_line (QReachability e from to)) ->
  exists l v steps l' v', starts (dim + 1) s r from l v /\ inv_at (dim + 1) l v /\ path_run (dim + 1) s l v steps l' v' /\
    (forall x, mentions to x -> at_loc x r (lt_id l')) /\ (forall acc, searches acc (chs i) load to -> holds r (lt_id l') v' to).
Proof.
  intros chs minc a dk i load e from to r dim q s D Er Cu U Dn Fq T. destruct (told_line _ _ _ _ _ _ _ _ D T) as (L & an & E & S). apply says_satisfied in S; [|reflexivity].
  assert (Cs : compile (the_least (chs i)) (the_pre (chs i)) dim r = Ok s).
  { assert (Z := E). cbn [run_query] in Z. inv_bind Z. clear Z. unfold reach_query in H. rewrite Er in H. cbn [bind fst] in H. inv_bind H. assert (Z' := H0). apply one_unchecked in Z'. rewrite Cu in Z'. injection Z' as <-. exact H0. }
  assert (Z : exists ds, an = AReachability (Some ds)).
  { cbn [run_query] in E. inv_bind E. destruct a0 as [[[d0 s0] st] tg]. inv_bind E. injection E as <-. destruct a0; [eauto|discriminate]. }
  destruct Z as [ds ->]. destruct (C50_path_partial (chs i) (ag_reduce a) load e from to r dim q s ds L Er Cs U Dn Fq E) as (_ & l & v & l' & v' & A). exists l, v, (map taken ds), l', v'. exact A.
Qed.
Print Assumptions C55_line_reachable_partial.
Theorem C55_line_unreachable_partial : forall chs minc a dk i load e to r dim q s, on_disk minc a dk load -> (forall d s z l f v, fsem d f v -> fsem d (ch_xext (chs i) d s z l f) v) ->
  get_system_recipe load e (0, None) = Ok (r, (dim, q)) -> compile unchecked unchecked dim r = Ok s -> distinct_names r -> fair_query r None to ->
  told chs minc a dk i (QReachability e None to) (fails_line (QReachability e None to)) ->
  forall l v, reachable (dim + 1) s l v -> no_special (lt_id l) -> ~ holds r (lt_id l) v to.
Proof.
  intros chs minc a dk i load e to r dim q s D Fx Er Cu Dn Fq T. destruct (told_line _ _ _ _ _ _ _ _ D T) as (L & an & E & S). apply says_fails in S; [|reflexivity].
  assert (Cs : compile (the_least (chs i)) (the_pre (chs i)) dim r = Ok s).
  { assert (Z := E). cbn [run_query] in Z. inv_bind Z. clear Z. unfold reach_query in H. rewrite Er in H. cbn [bind fst] in H. inv_bind H. assert (Z' := H0). apply one_unchecked in Z'. rewrite Cu in Z'. injection Z' as <-. exact H0. }
  exact (proj2 (C50_unreachable_partial (chs i) (ag_reduce a) load e to r dim q s an Fx L Er Cs Dn Fq E S)).
Qed.
Print Assumptions C55_line_unreachable_partial.

(** ** An example: six lines about the components of C69 and one with overlapping inputs. *)
Definition ln_g : file_comp :=
  mkFC (txt "G") (txt "clock x;") [mkFL (txt "G0") [] (txt "INITIAL") (txt "NORMAL"); mkFL (txt "G1") [] (txt "NORMAL") (txt "NORMAL")]
    [mkFE (txt "E0") (txt "G0") (txt "G1") (txt "INPUT") (txt "x>=4") [] (txt "i"); mkFE (txt "E1") (txt "G0") (txt "G0") (txt "INPUT") (txt "x<=4") (txt "x=0") (txt "i")].
Definition ln_files : folder := fun n => if String.eqb n "G" then Some ln_g else pr_files n.
Definition ln_disk : disk := mkDisk (Some (txt "system M, Q, G;" ++ newline :: txt "IO M {coin?, tea!}" ++ newline :: txt "IO Q {coin?, tea!}" ++ newline :: txt "IO G {i?}")) (Some []) ln_files None.
Definition ln_text : text := txt "determinism: G; consistency: G; consistency: M; reachability: M @ init -> M.L1 && M.x >= 2; reachability: M @ init -> M.L1 && M.x > 9; refinement: Q <= Q; determinism: M; refinement: M <= G".
Definition ln_args : args := mkArgs ln_text ["samples"; "Machine"] false false.
Definition ln_spec : sysspec := mkSpec ["M"; "Q"; "G"] [("M", ["coin"]); ("Q", ["coin"]); ("G", ["i"])] [("M", ["tea"]); ("Q", ["tea"])].
Definition ln_load := looked_up ld_minc (AJson (json_new ln_files ln_spec)).
Definition ln_to (o : rel) (k : Z) : stx := SAnd [SLoc (mkVar "M" None "L1"); SCmp o (OClk (mkVar "M" None "x")) (ONum k)].
Definition ln_qs : list query := [QDeterminism (XComp "G" None); QConsistency (XComp "G" None); QConsistency (XComp "M" None); QReachability (XComp "M" None) None (ln_to RGe 2); QReachability (XComp "M" None) None (ln_to RGt 9); QRefinement (XComp "Q" None) (XComp "Q" None); QDeterminism (XComp "M" None); QRefinement (XComp "M" None) (XComp "G" None)].
Definition ln_ch : nat -> choices := fun _ => plain_choices 40.
Definition ln_r (n : string) : recipe := get no_recipe (rmap fst (get_system_recipe ln_load (XComp n None) (0, None))).
Definition ln_m : recipe := Eval vm_compute in ln_r "M".
Definition ln_gr : recipe := Eval vm_compute in ln_r "G".
Definition ln_ms : ts := Eval vm_compute in get ts_m (compile unchecked unchecked 1 ln_m).
Definition ln_gs : ts := Eval vm_compute in get ts_m (compile unchecked unchecked 1 ln_gr).
Definition ln_lines : list text :=
  [fails_line (QDeterminism (XComp "G" None)); fails_line (QConsistency (XComp "G" None)); holds_line (QConsistency (XComp "M" None)); holds_line (QReachability (XComp "M" None) None (ln_to RGe 2));
   fails_line (QReachability (XComp "M" None) None (ln_to RGt 9)); holds_line (QRefinement (XComp "Q" None) (XComp "Q" None)); holds_line (QDeterminism (XComp "M" None)); fails_line (QRefinement (XComp "M" None) (XComp "G" None))].
Definition ln_two : ts * ts := Eval vm_compute in get (ts_m, ts_m) (do x <- get_system_recipe ln_load (XComp "M" None) (0, None); do y <- get_system_recipe ln_load (XComp "G" None) (snd x); compile_two unchecked unchecked (fst (snd y)) (fst x) (fst y)).
Lemma ln_sound : forall n f, ln_files n = Some f -> sound_file f.
Proof.
  intros n f E. unfold ln_files in E. destruct (String.eqb n "G"); [|exact (pr_sound n f E)]. injection E as <-. split.
  - exists [DClocks "x" []]. split; [reflexivity|]. split; [|repeat constructor; intros []]. intros l [<-|[]] x [<-|[]]. split; [discriminate|]. intros c [<-|[]] X. repeat (destruct X as [X|X]; [discriminate|]). exact X.
  - intros c E. vm_compute in E. injection E as <-. intros e us [<-|[<-|[]]]; cbn; intros [= <-]. split; [intros x k [[= <- <-]|[]]; lia|]. intros x a b [[= <- <-]|[]] [[= <-]|[]]. reflexivity.
Qed.
Example C55_lines_nonvacuous :
  on_disk ld_minc ln_args ln_disk ln_load /\ (forall i q l, nth_error ln_qs i = Some q -> nth_error ln_lines i = Some l -> told ln_ch ld_minc ln_args ln_disk i q l) /\
  (forall i, fair (ln_ch i)) /\ (forall i, explores Exact (ln_ch i) ln_load) /\ names_one ln_load (XComp "G" None) 2 ln_gs /\ names_one ln_load (XComp "M" None) 2 ln_ms /\
  get_system_recipe ln_load (XComp "M" None) (0, None) = Ok (ln_m, (1, None)) /\ compile unchecked unchecked 1 ln_m = Ok ln_ms /\ upper_invariants 2 ln_ms /\ distinct_names ln_m /\
  fair_query ln_m None (ln_to RGe 2) /\ fair_query ln_m None (ln_to RGt 9) /\ no_reserved ln_ms = true /\ plain_divisors ln_ms = true /\
  names_two ln_load (XComp "M" None) (XComp "G" None) 3 (fst ln_two) (snd ln_two) /\ upper_invariants 3 (fst ln_two) /\ upper_invariants 3 (snd ln_two).
Proof.
  split. { split; [reflexivity|]. split; [exact ln_sound|]. exists ln_spec. split; [intros x [= <-]; vm_compute; reflexivity|reflexivity]. }
  split. { intros i q l X Y. exists ln_qs, ln_lines. eexists. split; [vm_compute; reflexivity|]. split; [vm_compute; reflexivity|]. split; [exact X|]. split; [exact Y|].
    intros x Hx. assert (Z : In x ln_qs) by (rewrite <- (firstn_skipn i ln_qs); apply in_or_app; auto). repeat (destruct Z as [<-|Z]; [reflexivity|]). destruct Z. }
  split; [intros i; apply plain_fair|]. split; [intros i; apply plain_explores|].
  split; [exists ln_gr, 1, None; repeat split; vm_compute; reflexivity|]. split; [exists ln_m, 1, None; repeat split; vm_compute; reflexivity|].
  split; [vm_compute; reflexivity|]. split; [vm_compute; reflexivity|]. split; [apply upper_check; vm_compute; reflexivity|]. split; [unfold distinct_names; vm_compute; repeat constructor; intros []|].
  assert (Kn : forall o k, fair_query ln_m None (ln_to o k)).
  { intros o k. split; [discriminate|]. split; [reflexivity|]. split; [destruct o; reflexivity|]. intros x Hx. cbn in Hx. destruct Hx as [<-|[[]|[]]]. exists (hd ld_m (components ln_m)). vm_compute. auto. }
  split; [apply Kn|]. split; [apply Kn|]. do 2 (split; [vm_compute; reflexivity|]).
  split; [eexists _, _, _, 2, _; repeat split; vm_compute; reflexivity|]. split; apply upper_check; vm_compute; reflexivity.
Qed.
