(** C54: every check ends. *)
From Coq Require Import List String ZArith QArith Bool Arith Lia Lqa.
From Verif Require Import Fed.Zone Fed.ZoneFacts Model.Base Model.Expr Model.Guard Model.Loc Model.Component Model.TS Model.Search Model.PairList Model.Refine Model.Save
  Model.Reduce Model.Query Model.ParseQuery Model.Exec Spec.BoundSpec Spec.StepSpec Spec.SystemSpec Spec.RunSpec Spec.ReachSpec Spec.RefineSpec Spec.PruneSpec Spec.ReduceSpec Spec.EnableSpec Spec.ExecSpec Spec.EndSpec
  Proofs.GuardFacts Proofs.StepFacts Proofs.DetFacts Proofs.ConsFacts Proofs.EndFacts Proofs.EndPairs Proofs.EndPlain Proofs.EndQuery Proofs.FewFacts Proofs.PlainFacts Props.Determinism Props.Consistency Props.Two Props.Refinement Props.Reachability Fed.Dbm Model.Extrapolate Proofs.ExtraFacts Props.Exec.
Import ListNotations.
Local Open Scope string_scope.
Local Open Scope list_scope.
Local Open Scope nat_scope.

(** ** The checks of one system and of two *)
(** If extrapolation leaves finitely many zones for each location then the check for determinism ends with an answer: after some number of
    steps, whatever the order in which actions are looked at, it has an answer, and more steps do not change it. *)
Theorem C54_determinism : forall dim ext s,
  built dim s -> (forall s l, few dim (ext s l)) ->
  exists n, forall ord, listed ord -> answered_at (fun m => check_determinism dim ext ord m s) n.
Proof. intros dim ext s B F. exact (determinism_ends dim ext F s B). Qed.
Print Assumptions C54_determinism.
Theorem C54_consistency : forall dim ext s,
  built dim s -> (forall s l, few dim (ext s l)) ->
  exists n, forall ord, listed ord -> answered_at (fun m => check_local_consistency dim ext ord m s) n /\ answered_at (fun m => is_least_consistent dim ext ord m s) n /\
    answered_at (fun m => is_fully_consistent dim ext ord m s) n /\ answered_at (fun m => precheck dim ext ord m s) n.
Proof.
  intros dim ext s B F. destruct (consistency_ends dim ext F s B) as [n H]. destruct (precheck_ends dim ext F s B) as [m K].
  destruct (least_search_ends dim ext F s B) as [n' H']. destruct (full_search_ends dim ext F s B) as [m' K'].
  exists (Nat.max (Nat.max n m) (Nat.max n' m')). intros ord L. split; [apply (answered_later _ n); [apply H, L|lia]|]. split; [apply (answered_later _ n'); [apply H', L|lia]|].
  split; [apply (answered_later _ m'); [apply K', L|lia]|apply (answered_later _ m); [apply K, L|lia]].
Qed.
Print Assumptions C54_consistency.
Theorem C54_refinement : forall dim ext pext s t,
  built dim s -> built dim t -> (forall s l, few dim (ext s l)) -> (forall l m, few dim (pext l m)) ->
  exists n, forall ord aord, listed ord -> pair_listed aord -> answered_at (fun m => check_refinement dim ext pext ord aord s t m) n.
Proof. intros dim ext pext s t B C F G. exact (refinement_ends dim ext pext s t B C F G). Qed.
Print Assumptions C54_refinement.
(** The search for a state ends, for all targets within the same number of steps; it may abort (C12). *)
Theorem C54_reachability : forall dim xext s start,
  built dim s -> (forall l, In l (all_locations dim s) -> few dim (xext l)) -> In (s_loc start) (all_locations dim s) ->
  exists n, forall target, ended_at (fun m => find_path dim m s xext start target) n.
Proof. intros dim xext s start B F L. exact (reachability_ends dim s xext start B F L). Qed.
Print Assumptions C54_reachability.

(** The analysis of the clocks and the collection of the locations to save do not look at zones: they end without any assumption. *)
Theorem C54_analysis : forall dim minc ord cord gord s,
  built dim s -> exists n, ended_at (fun m => find_redundant_clocks dim minc ord cord gord m s) n.
Proof. intros dim minc ord cord gord s B. exact (redundant_ends dim minc ord s B cord gord). Qed.
Print Assumptions C54_analysis.
Theorem C54_saving : forall dim minc ord cord s name,
  built dim s -> exists n, ended_at (fun m => get_component dim minc ord cord m s name) n.
Proof. intros dim minc ord cord s name B. exact (saving_ends dim ord s B minc cord name). Qed.
Print Assumptions C54_saving.

(** ** Queries *)
(** Every query ends, with an answer or a refusal: building the systems, reducing their clocks, checking, saving and pruning them. *)
Theorem C54_query : forall ch reduce load q,
  few_zones ch -> only_members ch ->
  exists n, ended_at (fun m => run_query (with_fuel m ch) reduce load q) n.
Proof. intros ch reduce load q F M. exact (query_ends ch reduce load F M q). Qed.
Print Assumptions C54_query.

(** So does a command line with any number of queries, each of which may see what the ones before it saved. *)
Lemma ends_strict {A} (F : nat -> res A) : ends F -> ends (fun m => match F m with Err => Panic | r => r end).
Proof. intros (n & N & S). exists n. split; [destruct (F n); congruence|]. intros m L. rewrite (S m L). reflexivity. Qed.
Theorem C54_command_line : forall chs reduce k qs load i,
  (forall j, few_zones (chs j) /\ only_members (chs j)) ->
  exists n, ended_at (fun m => run_queries (fun j => with_fuel m (chs j)) reduce k load i qs) n.
Proof.
  intros chs reduce k qs. induction qs as [|q qs IH]; intros load i H; cbn [run_queries]; [apply ends_nf, nf_ok|].
  apply ends_bind; [apply ends_strict, query_ends; apply H|]. intros a _ _.
  apply ends_bind; [apply ends_nf; unfold nf, after_answer; destruct a; try discriminate; destruct k; discriminate|]. intros load' _ _.
  apply ends_bind; [apply (IH load' (S i) H)|]. intros; apply ends_nf, nf_ok.
Qed.
Print Assumptions C54_command_line.

(** ** The classical extrapolation *)
(** Extrapolating the closed matrices of zones with the maximum bounds of the locations leaves finitely many zones, and it neither
    loses anything nor enlarges zones except beyond the bounds. *)
Theorem C54_classical : forall dim s t b l m,
  few dim (max_ext dim s l) /\ few dim (max_xext dim s b l) /\ few dim (max_pext dim s t l m) /\
  within_bounds dim (max_ext dim) s /\ pair_within_bounds dim (max_pext dim s t) s t.
Proof.
  intros dim s t b l m. split; [apply max_ext_few|]. split; [apply max_xext_few|]. split; [apply max_pext_few|]. split; [apply max_within|apply max_pair_within].
Qed.
Print Assumptions C54_classical.

(** With it refinement is decided, as far as C13 and C14 go. *)
Theorem C14_decided_partial : forall dim q1 q2 ord aord s t,
  (forall p l a, In a (ord p l) <-> In a l) -> (forall p l a, In a (aord p l) <-> In a l) ->
  built dim s -> built dim t -> clocks_ok dim q1 s -> clocks_ok dim q2 t -> reads_ok s -> reads_ok t -> separate s t ->
  clocks_below dim s -> clocks_below dim t -> upper_invariants dim s -> upper_invariants dim t -> bounds_suffice dim s -> bounds_suffice dim t ->
  no_reserved s = true -> no_reserved t = true -> plain_divisors s = true -> plain_divisors t = true ->
  no_gaps dim t -> starts_together dim s t ->
  exists n r, (forall m, n <= m -> check_refinement dim (max_ext dim) (max_pext dim s t) ord aord s t m = Ok r) /\
    match r with
    | RSuccess => refines dim s t
    | RCannotMatch _ _ | REmptyChild _ | REmptyInitial => ~ refines dim s t
    | RCutsDelays _ _ => enters_inside dim t -> ~ refines dim s t
    | _ => True
    end.
Proof.
  intros dim q1 q2 ord aord s t Ho Ha B1 B2 K1 K2 R1 R2 Sp D1 D2 U1 U2 S1 S2 N1 N2 P1 P2 G St.
  destruct (C54_refinement dim (max_ext dim) (max_pext dim s t) s t B1 B2) as [n H]; [intros; apply max_ext_few|intros; apply max_pext_few|].
  destruct (H ord aord (fun p l a I => proj1 (Ho p l a) I) (fun p l a I => proj1 (Ha p l a) I)) as [r E]. exists n, r. split; [exact E|]. specialize (E n (le_n n)).
  pose proof (C14_not_refines_partial Bounded dim q1 q2 (max_ext dim) (max_pext dim s t) ord aord s t n r) as F.
  specialize (F (conj S1 (conj S2 (max_pair_within dim s t))) Ha (fun s l f v => max_ext_more dim s l f v) Ho B1 B2 K1 K2 R1 R2 Sp D1 D2 U1 U2 N1 N2 P1 P2 E).
  destruct r; try exact F. exact (C13_success_sound_partial dim q1 q2 _ _ ord aord s t n (fun l1 l2 f v => max_pext_more dim s t l1 l2 f v) Ha B1 B2 K1 K2 R1 R2 Sp G St E).
Qed.
Print Assumptions C14_decided_partial.

(** So is reachability from the initial state, as far as C11 and C12 go: the search ends, and finds a path exactly if there is a run to
    the target. *)
Theorem C12_decided_partial : forall dim q s start target,
  built dim s -> clocks_ok dim q s -> upper_invariants dim s -> bounds_suffice dim s -> clocks_below dim s ->
  initial_state dim s = Some start -> pattern dim s (s_loc target) -> no_differences dim (s_zone target) ->
  exists n r, (forall m, n <= m -> find_path dim m s (max_xext dim s (fed_bounds dim (s_zone target))) start target = Ok r) /\
    (r <> None <-> exists l v, reachable dim s l v /\ hits dim target l v).
Proof.
  intros dim q s start target B K U Sf D Hi Hp Nd. destruct (initial_state_spec dim s q B K start Hi) as (l0 & El & Es & Hin & _).
  destruct (C54_reachability dim (max_xext dim s (fed_bounds dim (s_zone target))) s start B) as [n H]; [intros; apply max_xext_few|rewrite Es; exact Hin|].
  destruct (H target) as [N M]. pose proof (C11_decided_partial dim q n s start target B K U Sf D Hi Hp Nd) as X.
  destruct (find_path dim n s _ start target) as [r| | |] eqn:E; try contradiction. exists n, r. split; [exact M|]. destruct r as [ds|].
  - split; [intros _; exact X|discriminate].
  - split; [congruence|intros Y; contradiction].
Qed.
Print Assumptions C12_decided_partial.

Definition max_choices (fuel : nat) : choices :=
  mkChoices fuel max_ext max_pext (fun d s z => max_xext d s (fed_bounds d z)) min_own (fun _ f _ => f) once_ord same_aord (fun l => l) (fun l => l) (fun l => l) (fun l => l).
Lemma max_fair fuel : fair (max_choices fuel).
Proof.
  destruct (plain_fair fuel) as [F1 F2 F3 F4 F5 F6 F7 F8 F9 F10]. constructor; try assumption; cbn [ch_ext ch_pext max_choices].
  - intros d s l f v. apply max_ext_more.
  - intros d s t l m f v. apply max_pext_more.
Qed.
Lemma max_explores fuel load : (forall n c, load n = Some c -> literal_component c) -> explores Bounded (max_choices fuel) load.
Proof. intros H. split; [split; [intros d s t; apply max_pair_within|exact H]|intros d s; apply max_within]. Qed.
Lemma max_few_zones fuel : few_zones (max_choices fuel).
Proof. split; [intros; apply max_ext_few|]. split; [intros; apply max_pext_few|intros; apply max_xext_few]. Qed.
Lemma max_members fuel : only_members (max_choices fuel).
Proof. destruct (max_fair fuel) as [_ _ F3 _ F5 _ _ _ _ _]. split; [intros p l a H; apply F3 in H; exact H|intros p l a H; apply F5 in H; exact H]. Qed.
(** All assumptions at once: choices for which every check ends and its answer is right; a refinement that fails, a deterministic component, and two steps are not enough. *)
Definition max_answer := Eval vm_compute in send_answer (max_choices 9).
Example C54_nonvacuous :
  let e := XComp "Early" None in let l := XComp "Late" None in
  few_zones (max_choices 9) /\ only_members (max_choices 9) /\ fair (max_choices 9) /\ explores Bounded (max_choices 9) send_load /\ loadable send_load /\
  (exists p, run_query (max_choices 9) false send_load (QRefinement e l) = Ok (ARefinement (RCannotMatch "o" p))) /\
  run_query (max_choices 2) false send_load (QRefinement e l) = NoFuel /\
  run_query (max_choices 9) false send_load (QDeterminism e) = Ok (ADeterminism None) /\
  run_query (max_choices 9) false send_load (QPrune e (Some "P")) <> NoFuel.
Proof.
  cbv zeta. split; [apply max_few_zones|]. split; [apply max_members|]. split; [apply max_fair|]. split; [apply max_explores, send_literal|]. split; [apply send_loadable|].
  split; [|split; [vm_compute; reflexivity|split; [vm_compute; reflexivity|vm_compute; discriminate]]].
  assert (W : run_query (max_choices 9) false send_load (QRefinement (XComp "Early" None) (XComp "Late" None)) = Ok max_answer) by (vm_compute; reflexivity).
  eexists. rewrite W. unfold max_answer. reflexivity.
Qed.

(** ** Without extrapolation *)
Definition tick : component :=
  mkComp "T" (mkDecls [("x", 1); ("y", 2)] []) [mkL "L" (Some (BLessEQ (AVar "x") (AInt 1))) Initial "NORMAL"]
    [mkE "E" "L" "L" SOutput (Some (BGreatEQ (AVar "x") (AInt 1))) (Some [("x", AInt 0)]) "o"] None.
Definition get_cc (r : res ccomp) : ccomp := match r with Ok c => c | _ => mkCC "" 0 (mkDecls [] []) (fun _ => None) [] [] [] [] None end.
Definition tick_s : ts := Eval vm_compute in TSimple (get_cc (compile_with_actions 3 tick [] ["o"] 0)).
Definition tick_l : loctree := LLeaf (LSimple "L") (Some [[mkC 1 0 false 1]]) Initial.
Definition tick_t : transition := mkT (TISimple "E") [[mkC 0 1 false (-1)]] tick_l [mkU 1 0].
Lemma tick_next : next_transitions 3 tick_s tick_l "o" = Ok [tick_t].
Proof. vm_compute. reflexivity. Qed.
(** After [k] rounds. *)
Definition round (k : nat) (v : val) : Prop := (val_ok 3 v /\ v 2%nat == v 1%nat + inject_Z (Z.of_nat k) /\ v 1%nat <= 1)%Q.
Definition at_round (k : nat) (st : state) : Prop := s_loc st = tick_l /\ forall v, fsem 3 (s_zone st) v <-> round k v.
Definition point (a b : Q) : val := fun i => match i with 1 => a | 2 => b | _ => 0%Q end.
Lemma point_ok a b : (0 <= a)%Q -> (0 <= b)%Q -> val_ok 3 (point a b).
Proof. intros A B. split; [reflexivity|]. intros [|[|[|i]]] Hi; cbn; auto; try lia; apply Qle_refl. Qed.
Lemma tick_inv v : inv_at 3 tick_l v <-> val_ok 3 v /\ (v 1%nat <= 1)%Q.
Proof.
  unfold inv_at. cbn [tick_l lt_inv]. split.
  - intros (V & z & [<-|[]] & S). split; [exact V|]. specialize (S _ (or_introl eq_refl)). cbv [csem ilt ci cj cs cc inject_Z] in S. destruct V as [V0 _]. rewrite V0 in S. lra.
  - intros (V & L). split; [exact V|]. exists [mkC 1 0 false 1]. split; [left; reflexivity|]. intros c [<-|[]]. cbv [csem ilt ci cj cs cc inject_Z]. destruct V as [V0 _]. rewrite V0. lra.
Qed.
Lemma tick_guard v : fsem 3 (t_guard tick_t) v <-> val_ok 3 v /\ (1 <= v 1%nat)%Q.
Proof.
  cbn [tick_t t_guard]. split.
  - intros (V & z & [<-|[]] & S). split; [exact V|]. specialize (S _ (or_introl eq_refl)). cbv [csem ilt ci cj cs cc inject_Z] in S. destruct V as [V0 _]. rewrite V0 in S. lra.
  - intros (V & L). split; [exact V|]. exists [mkC 0 1 false (-1)]. split; [left; reflexivity|]. intros c [<-|[]]. cbv [csem ilt ci cj cs cc inject_Z]. destruct V as [V0 _]. rewrite V0. lra.
Qed.
Lemma inj_nat k : (0 <= inject_Z (Z.of_nat k))%Q.
Proof. change 0%Q with (inject_Z 0). rewrite <- Zle_Qle. lia. Qed.
Lemma inj_succ k : inject_Z (Z.of_nat (S k)) == inject_Z (Z.of_nat k) + 1.
Proof. rewrite Nat2Z.inj_succ. unfold Z.succ. rewrite inject_Z_plus. reflexivity. Qed.
Definition back (k : nat) (v : val) : val := fun i => match i with 0 => v 0%nat | 1 => 1%Q | 2 => inject_Z (Z.of_nat (S k)) | S (S (S j)) => (v i - v 1%nat)%Q end.
Lemma tick_step k st : at_round k st -> exists ns, use_transition 3 tick_t st = (true, ns) /\ at_round (S k) ns.
Proof.
  intros [El Z]. destruct (use_transition 3 tick_t st) as [b ns] eqn:E. assert (U : updates_ok 3 (t_updates tick_t)) by (intros u [<-|[]]; cbn; lia).
  destruct (use_transition_zone 3 tick_t st b ns U E) as (Hl & Hb & Hz). pose proof (inj_nat k) as K0. pose proof (inj_succ k) as Ks.
  assert (B : b = true).
  { apply Hb. exists (point 0 (inject_Z (Z.of_nat (S k)))), (point 1 (inject_Z (Z.of_nat (S k)))), 0%Q.
    assert (V : val_ok 3 (point 1 (inject_Z (Z.of_nat (S k))))) by (apply point_ok; [lra|rewrite Ks; lra]).
    split; [apply Z; split; [exact V|]; cbn [point]; rewrite Ks; lra|]. split; [apply tick_guard; split; [exact V|cbn; lra]|]. split; [lra|]. split.
    - intros [|[|[|i]]]; cbn; try reflexivity; try ring.
    - apply tick_inv. split; [apply point_ok; [lra|rewrite Ks; lra]|cbn; lra]. }
  subst b. exists ns. split; [reflexivity|]. split; [apply Hl; reflexivity|]. intros v. rewrite (Hz eq_refl v).
  split.
  - intros (w & d & Hw & Hg & Hd & Ev & Hi). apply Z in Hw. destruct Hw as (V & E2 & L1). apply tick_guard in Hg. destruct Hg as [_ G]. apply tick_inv in Hi. destruct Hi as [V' Li].
    split; [exact V'|]. split; [|exact Li]. rewrite (Ev 2%nat), (Ev 1%nat). cbn. unfold vset. cbn. rewrite E2, Ks. change (inject_Z 0) with 0%Q. lra.
  - intros (V & E2 & L1). exists (back k v), (v 1%nat).
    assert (V' : val_ok 3 (back k v)).
    { split; [apply V|]. intros [|[|[|i]]] Hi; try lia; [apply V; lia|cbn [back]; lra|apply inj_nat]. }
    split; [apply Z; split; [exact V'|split; cbn [back]; [rewrite Ks; lra|lra]]|]. split; [apply tick_guard; split; [exact V'|cbn [back]; lra]|]. split; [apply V; lia|]. split.
    + intros [|[|[|i]]]; cbn; unfold vset; cbn; try reflexivity; [change (inject_Z 0) with 0%Q; lra|rewrite E2; change (Z.pos (Pos.of_succ_nat k)) with (Z.of_nat (S k)); lra|ring].
    + apply tick_inv. auto.
Qed.
Lemma rounds_differ j k a b : at_round j a -> at_round k b -> j < k -> state_subset 3 b a = false.
Proof.
  intros [_ A] [_ B] L. apply not_true_iff_false. intros S. unfold state_subset in S. apply andb_true_iff in S. destruct S as [_ S]. rewrite fsubset_true in S.
  pose proof (inj_nat k) as K0. assert (X : fsem 3 (s_zone b) (point 0 (inject_Z (Z.of_nat k)))).
  { apply B. split; [apply point_ok; [lra|exact K0]|]. cbn. split; lra. }
  apply S, A in X. destruct X as (_ & E & _). cbn in E. assert (Y : (inject_Z (Z.of_nat j) < inject_Z (Z.of_nat k))%Q) by (rewrite <- Zlt_Qlt; lia). lra.
Qed.
Lemma round_stuck k st : at_round k st -> fcan_delay 3 (s_zone st) = false.
Proof.
  intros [_ A]. apply not_true_iff_false. intros C. apply can_wait_iff in C. destruct C as (v & D). pose proof (D 0%Q ltac:(lra)) as Hv. specialize (D 2%Q ltac:(lra)). apply A in D. apply A in Hv. destruct D as (_ & _ & D).
  destruct Hv as (V & _). assert (0 <= vdelay v 0 1%nat)%Q by (apply V; lia). cbn in *. lra.
Qed.
Lemma tick_goes_on : forall fuel k st p, at_round k st -> (forall q, In q p -> exists j, j < k /\ at_round j q) -> least_helper 3 no_ext once_ord fuel tick_s st p = NoFuel.
Proof.
  induction fuel as [|f IH]; intros k st p A P; [reflexivity|]. cbn [least_helper].
  assert (N : state_in_list 3 st p = false).
  { apply not_true_iff_false. intros C. unfold state_in_list in C. apply existsb_exists in C. destruct C as (q & Hq & C). destruct (P q Hq) as (j & L & Aj). rewrite (rounds_differ j k q st Aj A L) in C. discriminate. }
  rewrite N. pose proof (proj1 A) as El. rewrite El. change (is_universal tick_l) with false. change (is_inconsistent tick_l) with false. cbv iota zeta.
  change (ts_inputs tick_s) with (@nil string). change (ts_outputs tick_s) with ["o"]. cbn [once_ord nodup in_dec list_rec list_rect loopM bind]. rewrite (round_stuck k st A).
  cbn [nodup in_dec list_rec list_rect loopM]. unfold each_transition. rewrite El, tick_next. cbn [bind loopM]. unfold output_body at 1.
  destruct (tick_step k st A) as (ns & Eu & An). rewrite Eu. replace (extrapolate no_ext tick_s ns) with ns by (destruct ns; reflexivity). rewrite (IH (S k) ns _ An); [reflexivity|].
  intros q Hq. apply in_app_or in Hq. destruct Hq as [Hq|[<-|[]]]; [destruct (P q Hq) as (j & L & Aj); exists j; split; [lia|exact Aj]|exists k; split; [lia|exact A]].
Qed.
(** The assumption about extrapolation is needed: a component that resets one of two clocks every time unit, whose zones are not extrapolated, is
    explored forever. *)
Theorem C54_needs_extrapolation : exists dim s, built dim s /\ forall m, check_local_consistency dim no_ext once_ord m s = NoFuel.
Proof.
  exists 3, tick_s. split; [apply (b_simple 3 tick [] ["o"] 0); vm_compute; reflexivity|]. intros m. change (check_local_consistency 3 no_ext once_ord m tick_s) with (is_least_consistent 3 no_ext once_ord m tick_s).
  unfold is_least_consistent. destruct (initial_state 3 tick_s) as [st|] eqn:E; [|vm_compute in E; discriminate]. replace (extrapolate no_ext tick_s st) with st by (destruct st; reflexivity).
  rewrite (tick_goes_on m 0 st []); [reflexivity| |intros q []].
  change (initial_state 3 tick_s) with (state_from_location 3 tick_l) in E. unfold state_from_location in E. destruct (fempty 3 _); [discriminate|]. injection E as <-. split; [reflexivity|].
  intros v. cbn [s_zone]. rewrite apply_inv_sem, finit_sem, tick_inv. cbn [Z.of_nat]. unfold round. change (inject_Z (Z.of_nat 0)) with 0%Q. split.
  - intros ((d & D & V0 & Hd) & V & L). split; [exact V|]. rewrite (Hd 2%nat), (Hd 1%nat) by lia. pose proof (Hd 1%nat ltac:(lia) ltac:(lia)). split; lra.
  - intros (V & E2 & L). split; [|auto]. exists (v 1%nat). split; [apply V; lia|]. split; [apply V|]. intros [|[|[|i]]] N H; try lia; [reflexivity|lra].
Qed.
Print Assumptions C54_needs_extrapolation.
