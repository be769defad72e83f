(** C11, C12, C34: reachability queries and partial locations. *)
From Coq Require Import List String ZArith QArith Bool Arith Lia Lqa.
From Verif Require Proofs.NearFacts.
From Verif Require Import Fed.Zone Fed.ZoneFacts Fed.Check Model.Base Model.Expr Model.Guard Model.Loc Model.Component Model.TS Model.Search
  Fed.Dbm Model.Extrapolate Spec.StepSpec Spec.SystemSpec Spec.RunSpec Spec.ReachSpec Spec.RefineSpec Spec.BoundSpec Proofs.GuardFacts Proofs.StepFacts Proofs.SystemFacts Proofs.QuotientFacts
  Proofs.WfFacts Proofs.RunFacts Proofs.DetFacts Proofs.ConsFacts Proofs.ReachFacts Proofs.ReachBounds Proofs.ExtraFacts Proofs.PlainFacts Props.Examples Props.Determinism.
Import ListNotations.
Local Open Scope string_scope.

(** *** C34 *)
(** On trees whose names describe their parts, comparison answers without a panic, and
    answers yes exactly when the names fit. *)
Theorem C34_matching : forall a b, named a -> named b ->
  exists r, compare_partial a b = Ok r /\ (r = true <-> fits (lt_id a) (lt_id b)).
Proof. intros a b. exact (compare_spec a b). Qed.
Print Assumptions C34_matching.
Theorem C34_symmetric : forall a b, named a -> named b -> compare_partial a b = compare_partial b a.
Proof.
  intros a b Na Nb. destruct (compare_spec a b Na Nb) as (x & Ex & Hx), (compare_spec b a Nb Na) as (y & Ey & Hy).
  rewrite Ex, Ey. f_equal. destruct x, y; try reflexivity; exfalso.
  - assert (false = true) by (apply Hy, fits_sym, Hx; reflexivity). discriminate.
  - assert (false = true) by (apply Hx, fits_sym, Hy; reflexivity). discriminate.
Qed.
Print Assumptions C34_symmetric.
(** Without wildcards only the location itself matches. *)
Theorem C34_exact : forall a b, named a -> named b -> is_partial (lt_id a) = false -> is_partial (lt_id b) = false ->
  compare_partial a b = Ok true -> lt_id a = lt_id b.
Proof.
  intros a b Na Nb Pa Pb E. destruct (compare_spec a b Na Nb) as (x & Ex & Hx). rewrite E in Ex. injection Ex as <-.
  apply fits_exact; [exact Pa|exact Pb|]. apply Hx. reflexivity.
Qed.
Print Assumptions C34_exact.
(** Every location matches itself, as long as no universal or error location of a quotient
    is part of it. *)
Theorem C34_self_partial : forall a, named a -> no_special (lt_id a) -> compare_partial a a = Ok true.
Proof.
  intros a Na Sa. destruct (compare_spec a a Na Na) as (x & Ex & Hx). rewrite Ex. f_equal. apply Hx, fits_refl, Sa.
Qed.
Print Assumptions C34_self_partial.
(** All locations of all systems and all queried locations have such names. *)
Theorem C34_names : forall dim s l, built dim s -> (In l (all_locations dim s) \/ pattern dim s l) -> named l.
Proof. intros dim s l B [H|H]; [eapply location_named; eauto|eapply pattern_named; eauto]. Qed.
Print Assumptions C34_names.
(** Finding: the universal location of a quotient does not match itself, nor a wildcard. *)
Theorem C34_self_refuted : exists dim s l, built dim s /\ In l (all_locations dim s) /\
  compare_partial l l = Ok false /\ compare_partial l lt_any = Ok false.
Proof.
  exists ex_dim, ts_quot, lt_universal. split; [exact built_quot|]. split; [|split; reflexivity].
  vm_compute. tauto.
Qed.
Print Assumptions C34_self_refuted.
Example C34_nonvacuous : exists p, pattern ex_dim ts_comp p /\ is_partial (lt_id p) = true /\
  exists l, In l (all_locations ex_dim ts_comp) /\ compare_partial l p = Ok true /\
  exists l', In l' (all_locations ex_dim ts_comp) /\ compare_partial l' p = Ok false.
Proof.
  pose (p := get lt_any (lt_compose ex_dim (nth 1 (cc_locs cc_m) lt_any) lt_any CComp)). exists p.
  split; [|split; [vm_compute; reflexivity|]].
  - exists (nth 1 (cc_locs cc_m) lt_any), lt_any. split; [right; vm_compute; tauto|]. split; [left; reflexivity|]. vm_compute. reflexivity.
  - exists (nth 2 (all_locations ex_dim ts_comp) lt_any). split; [vm_compute; tauto|]. split; [vm_compute; reflexivity|].
    exists (nth 0 (all_locations ex_dim ts_comp) lt_any). split; [vm_compute; tauto|]. vm_compute; reflexivity.
Qed.

(** *** C12 *)
(** An "unreachable" answer is right for all concrete runs, of any length, from every
    valuation of the start zone, provided that zone contains its own delay successors. *)
Theorem C12_unreachable_sound_partial : forall dim q xext fuel s start target,
  (forall l f v, fsem dim f v -> fsem dim (xext l f) v) -> built dim s -> clocks_ok dim q s ->
  In (s_loc start) (all_locations dim s) -> pattern dim s (s_loc target) -> waits dim start ->
  find_path dim fuel s xext start target = Ok None ->
  forall v l' v', fsem dim (s_zone start) v -> inv_at dim (s_loc start) v -> run dim s (s_loc start) v l' v' -> ~ hits dim target l' v'.
Proof.
  intros dim q xext fuel s start target Hx B K Hs Hp Hw E. exact (unreachable_sound dim s q xext target B K Hx fuel start Hs Hp Hw E).
Qed.
Print Assumptions C12_unreachable_sound_partial.

(** A query without a start state starts in the initial state; there the answer is always right. *)
Theorem C12_from_initial : forall dim q xext fuel s start target,
  (forall l f v, fsem dim f v -> fsem dim (xext l f) v) -> built dim s -> clocks_ok dim q s ->
  initial_state dim s = Some start -> pattern dim s (s_loc target) ->
  find_path dim fuel s xext start target = Ok None ->
  forall l v, reachable dim s l v -> ~ hits dim target l v.
Proof.
  intros dim q xext fuel s start target Hx B K Hi Hp E l v (l0 & El & H0 & R).
  destruct (initial_state_spec dim s q B K start Hi) as (l0' & El' & Es & Hin & Z).
  assert (X : l0' = l0) by congruence. rewrite X in *. clear X l0' El'. rewrite <- Es in H0, R.
  refine (unreachable_sound dim s q xext target B K Hx fuel start _ Hp _ E zero_val l v _ H0 R).
  - rewrite Es. exact Hin.
  - intros w d Hw Hd Iw Id. unfold initial_state in Hi. rewrite El in Hi. unfold state_from_location in Hi.
    assert (Q : fsem dim (finit dim) w -> fsem dim (finit dim) (vdelay w d)).
    { rewrite !finit_sem. intros (e & He & E0 & Ei). exists (e + d)%Q. split; [lra|]. split; [rewrite vdelay_0; exact E0|].
      intros i Hi0 Hid. rewrite vdelay_S by exact Hi0. rewrite (Ei i Hi0 Hid). reflexivity. }
    rewrite Es in Id. destruct s; try (destruct (fempty _ _); [discriminate|]); injection Hi as <-; cbn [s_zone] in *;
      try (apply apply_inv_sem; apply apply_inv_sem in Hw; split; [apply Q, Hw|exact Id]). auto.
  - rewrite Es in H0. specialize (Z 0%Q ltac:(lra)). eapply fsem_ext; [apply vdelay_zero; reflexivity|].
    apply Z. eapply inv_at_ext; [apply veq_sym, vdelay_zero; reflexivity|exact H0].
Qed.
Print Assumptions C12_from_initial.

Definition id_ext : loctree -> fed -> fed := fun _ f => f.
(** R leaves R0 between 2 and 3 and then stays in R1. *)
Definition comp_r : component :=
  mkComp "R" (mkDecls [("x", 1%nat)] [])
    [mkL "R0" (Some (BLessEQ (AVar "x") (AInt 3))) Initial "NORMAL"; mkL "R1" None Normal "NORMAL"]
    [mkE "E0" "R0" "R1" SOutput (Some (BGreatEQ (AVar "x") (AInt 2))) None "a"] None.
Definition cc_r := get no_cc (compile_component 2 comp_r 1).
Definition ts_r := TSimple cc_r.
Lemma built_r : built 2 ts_r. Proof. apply (b_simple 2 comp_r [] ["a"] 1). vm_compute. reflexivity. Qed.
Lemma clocks_r : clocks_ok 2 3 ts_r. Proof. apply simple_clocks_okb_spec. vm_compute. reflexivity. Qed.
Definition r_start : state := Eval vm_compute in match initial_state 2 ts_r with Some st => st | None => mkS lt_any fnone end.
Definition r_l (i : nat) := nth i (cc_locs cc_r) lt_any.
(** R1 with x <= 1. *)
Definition r_early : state := mkS (r_l 1) (fcon (mkC 1 0 false 1) funiv).
(** R1 with x >= 7. *)
Definition r_late : state := mkS (r_l 1) (fcon (mkC 0 1 false (-7)) funiv).
Example C12_nonvacuous : built 2 ts_r /\ clocks_ok 2 3 ts_r /\ initial_state 2 ts_r = Some r_start /\
  pattern 2 ts_r (s_loc r_early) /\ trivially_unreachable 2 r_start r_early = false /\
  find_path 2 5 ts_r id_ext r_start r_early = Ok None /\ waits 2 r_start.
Proof.
  split; [exact built_r|]. split; [exact clocks_r|]. split; [vm_compute; reflexivity|]. split; [right; vm_compute; tauto|].
  split; [vm_compute; reflexivity|]. split; [vm_compute; reflexivity|].
  intros v d Hv Hd _ I. assert (Z : s_zone r_start = apply_inv 2 (s_loc r_start) (finit 2)) by (vm_compute; reflexivity).
  rewrite Z in *. apply apply_inv_sem. apply apply_inv_sem in Hv. split; [|exact I]. destruct Hv as [Hv _]. revert Hv. rewrite !finit_sem.
  intros (e & He & E0 & Ei). exists (e + d)%Q. split; [lra|]. split; [rewrite vdelay_0; exact E0|].
  intros i Hi0 Hid. rewrite vdelay_S by exact Hi0. rewrite (Ei i Hi0 Hid). reflexivity.
Qed.

(** Finding: the start zone of a query that names one is not delayed.  From R1 with x = 0
    the state R1 with x >= 7 is reported unreachable although waiting reaches it. *)
Definition r_zero : state := mkS (r_l 1) (fcon_eq 1 0 0 funiv).
Theorem C12_start_not_delayed_refuted : exists dim q xext fuel s start target v l' v',
  (forall l f v, fsem dim (xext l f) v <-> fsem dim f v) /\ built dim s /\ clocks_ok dim q s /\
  In (s_loc start) (all_locations dim s) /\ pattern dim s (s_loc target) /\
  find_path dim fuel s xext start target = Ok None /\
  fsem dim (s_zone start) v /\ inv_at dim (s_loc start) v /\ run dim s (s_loc start) v l' v' /\ hits dim target l' v'.
Proof.
  exists 2%nat, 3%nat, id_ext, 5%nat, ts_r, r_zero, r_late, zero_val, (r_l 1), (vdelay zero_val 7).
  split; [reflexivity|]. split; [exact built_r|]. split; [exact clocks_r|]. split; [vm_compute; tauto|]. split; [right; vm_compute; tauto|].
  split; [vm_compute; reflexivity|]. split; [apply fsem_yes; vm_compute; reflexivity|].
  split; [apply inv_atb_spec; vm_compute; reflexivity|]. split.
  - apply run_delay; [constructor|lra|]. intros e He _. change (val_ok 2 (vdelay zero_val e)). apply vdelay_ok; [apply zero_ok|exact He].
  - split; [constructor|]. apply fsem_yes. vm_compute. reflexivity.
Qed.
Print Assumptions C12_start_not_delayed_refuted.

(** *** C11 *)
(** A reported path can be executed: from some valuation of the start zone the listed
    transitions can be taken one after the other, with suitable waiting in between, and end in
    a location the target describes; if zones are exact, or enlarged only beyond the bounds of the
    system and of the target, also in the target zone.  Proved for
    systems whose invariants only bound clocks from above. *)
Theorem C11_path_is_run_partial : forall dim q xext fuel s start target ds,
  built dim s -> clocks_ok dim q s -> upper_invariants dim s ->
  In (s_loc start) (all_locations dim s) -> pattern dim s (s_loc target) ->
  find_path dim fuel s xext start target = Ok (Some ds) ->
  exists v l' v', fsem dim (s_zone start) v /\ inv_at dim (s_loc start) v /\
    path_run dim s (s_loc start) v (map taken ds) l' v' /\ fits (lt_id l') (lt_id (s_loc target)) /\
    (forall acc, search_accurate acc dim xext s (s_zone target) -> hits dim target l' v').
Proof.
  intros dim q xext fuel s start target ds B K U Hs Hp E. exact (path_sound dim s q xext target B K fuel start ds U Hs Hp E).
Qed.
Print Assumptions C11_path_is_run_partial.
(** Executing a path is a run in the sense of the other properties. *)
Theorem C11_paths_are_runs : forall dim s l v steps l' v', path_run dim s l v steps l' v' -> run dim s l v l' v'.
Proof. exact path_run_run. Qed.
Print Assumptions C11_paths_are_runs.
(** With such zones and such invariants the search never aborts while building the path. *)
Theorem C11_no_abort_partial : forall acc dim q xext fuel s start target,
  built dim s -> clocks_ok dim q s -> upper_invariants dim s -> search_accurate acc dim xext s (s_zone target) ->
  In (s_loc start) (all_locations dim s) -> pattern dim s (s_loc target) ->
  find_path dim fuel s xext start target = NoFuel \/ exists r, find_path dim fuel s xext start target = Ok r.
Proof.
  intros acc dim q xext fuel s start target B K U Hx Hs Hp. exact (find_path_no_abort dim s q xext target B K acc fuel start U Hx Hs Hp).
Qed.
Print Assumptions C11_no_abort_partial.
(** The classical extrapolation, with the bounds of the system joined with those of the target, is of this kind if the target compares
    clocks with numbers and the bounds of the system suffice for it. *)
Theorem C11_classical : forall dim s target, bounds_suffice dim s -> (forall x, In x (sys_clocks s) -> (x < dim)%nat) -> no_differences dim target ->
  search_accurate Bounded dim (max_xext dim s (fed_bounds dim target)) s target.
Proof. intros dim s target H D N. exact (classical_accurate dim s target H D N). Qed.
Print Assumptions C11_classical.

(** Constraints that bound no clock from below. *)
Definition upperb (dim : nat) (l : loctree) : bool :=
  match lt_inv l with
  | Some f => forallb (forallb (fun c => negb (Nat.eqb (ci c) 0) || (Nat.ltb (cj c) dim && negb (cs c) && Z.leb 0 (cc c)))) f
  | None => true
  end.
Lemma upperb_spec dim l : upperb dim l = true -> past_closed dim l.
Proof.
  unfold upperb, past_closed, inv_at. intros U v d Hv Hd H. destruct (lt_inv l) as [f|]; [|exact Hv].
  split; [exact Hv|]. destruct H as (_ & z & Hz & S). exists z. split; [exact Hz|]. intros c Hc. specialize (S c Hc).
  rewrite forallb_forall in U. specialize (U z Hz). rewrite forallb_forall in U. specialize (U c Hc).
  unfold csem in *. destruct (Nat.eq_dec (ci c) 0) as [E0|N0].
  - rewrite E0 in *. cbn [Nat.eqb negb orb] in U. apply andb_true_iff in U. destruct U as [U U3]. apply andb_true_iff in U. destruct U as [U1 U2].
    apply Nat.ltb_lt in U1. apply negb_true_iff in U2. apply Z.leb_le in U3. rewrite U2 in *. unfold ilt in *.
    destruct Hv as [V0 Vi]. assert (Q : 0 <= inject_Z (cc c)) by (change 0 with (inject_Z 0); rewrite <- Zle_Qle; exact U3).
    specialize (Vi (cj c) U1). rewrite V0. lra.
  - rewrite vdelay_S in S by exact N0. destruct (Nat.eq_dec (cj c) 0) as [E|N].
    + rewrite E in *. rewrite vdelay_0 in S. unfold ilt in *. destruct (cs c); lra.
    + rewrite vdelay_S in S by exact N. unfold ilt in *. destruct (cs c); lra.
Qed.
Lemma upper_check dim s : forallb (upperb dim) (all_locations dim s) = true -> upper_invariants dim s.
Proof. intros H l Hl. apply upperb_spec. rewrite forallb_forall in H. auto. Qed.
(** With bounds that suffice, a target that compares clocks with numbers, and the initial state as start, the search answers, and it
    answers with a path exactly if a state of the target can be reached. *)
Theorem C11_decided_partial : forall dim q fuel s start target,
  built dim s -> clocks_ok dim q s -> upper_invariants dim s -> bounds_suffice dim s -> (forall x, In x (sys_clocks s) -> (x < dim)%nat) ->
  initial_state dim s = Some start -> pattern dim s (s_loc target) -> no_differences dim (s_zone target) ->
  match find_path dim fuel s (max_xext dim s (fed_bounds dim (s_zone target))) start target with
  | Ok (Some ds) => exists l v, reachable dim s l v /\ hits dim target l v
  | Ok None => ~ exists l v, reachable dim s l v /\ hits dim target l v
  | NoFuel => True
  | _ => False
  end.
Proof.
  intros dim q fuel s start target B K U Sf Dm Hi Hp Nd. pose proof (C11_classical dim s (s_zone target) Sf Dm Nd) as A.
  destruct (initial_state_spec dim s q B K start Hi) as (l0 & El & Es & Hin & _). assert (Hs : In (s_loc start) (all_locations dim s)) by (rewrite Es; exact Hin).
  set (xext := max_xext dim s (fed_bounds dim (s_zone target))) in *.
  destruct (C11_no_abort_partial Bounded dim q xext fuel s start target B K U A Hs Hp) as [->|[[ds|] E]]; [exact I| |]; rewrite E.
  - destruct (C11_path_is_run_partial dim q xext fuel s start target ds B K U Hs Hp E) as (v & l' & v' & Hv & Iv & R & Ft & Hh). specialize (Hh Bounded A).
    destruct (initial_zone dim s start v Hi Hv) as (d & Hd & Ev). destruct A as (_ & _ & tb & Tb & Dc & _).
    assert (Vok : val_ok dim v) by (eapply fsem_ok; exact Hv). assert (Wok : val_ok dim (vdelay zero_val d)) by (apply vdelay_ok; [apply zero_ok|exact Hd]).
    assert (N : near2 dim s tb (s_loc start) v (vdelay zero_val d)).
    { split; [apply (NearFacts.agree_near dim s B); auto; intros x Hx; apply Ev, Dm, Hx|]. intros i k Eb. left. apply Ev, (Tb i k Eb). }
    destruct (path_near dim s q B K Sf tb _ _ _ _ _ R Hs _ N) as (w' & R' & ((_ & W & _) & Al)). exists l', w'. split.
    + exists l0. split; [exact El|]. rewrite Es in *. pose proof (NearFacts.near_inv dim s B Sf _ Hin v _ (proj1 N) Iv) as Iw.
      assert (Ie : forall e, (0 <= e -> e <= d -> inv_at dim l0 (vdelay zero_val e))%Q).
      { intros e He Hed. apply (U l0 Hin) with (d := (d - e)%Q); [apply vdelay_ok; [apply zero_ok|exact He]|lra|].
        eapply inv_at_ext; [|exact Iw]. eapply veq_trans; [|apply veq_sym, vdelay_add]. apply vdelay_ext; [apply veq_refl|ring]. }
      split; [eapply inv_at_ext; [apply vdelay_zero; reflexivity|apply Ie; lra]|].
      eapply run_trans; [|eapply path_run_run; exact R']. apply run_delay; [constructor|exact Hd|exact Ie].
    + destruct Hh as [Hf Hz]. split; [exact Hf|]. exact (Dc _ _ (fsem_ok _ _ _ Hz) W Al Hz).
  - intros (l & v & R & H). refine (C12_from_initial dim q xext fuel s start target _ B K Hi Hp E l v R H). intros; apply max_xext_more; assumption.
Qed.
Print Assumptions C11_decided_partial.

Example C11_nonvacuous : built 2 ts_r /\ clocks_ok 2 3 ts_r /\ upper_invariants 2 ts_r /\ In (s_loc r_start) (all_locations 2 ts_r) /\
  pattern 2 ts_r (s_loc r_late) /\ (exists d, find_path 2 5 ts_r id_ext r_start r_late = Ok (Some [d]) /\ d_action d = "a") /\
  upper_invariants ex_dim ts_comp.
Proof.
  split; [exact built_r|]. split; [exact clocks_r|]. split; [apply upper_check; vm_compute; reflexivity|]. split; [vm_compute; tauto|].
  split; [right; vm_compute; tauto|]. split; [|apply upper_check; vm_compute; reflexivity].
  eexists. split; [vm_compute; reflexivity|reflexivity].
Qed.

(** The same search with zones enlarged beyond the bounds: x = 100 is beyond those of R, but not beyond those of the target. *)
Definition r_hundred : state := mkS (r_l 1) (fcon_eq 1 0 100 funiv).
Definition r_wide (z : fed) := max_xext 2 ts_r (fed_bounds 2 z).
Example C11_bounded_nonvacuous : bounds_suffice 2 ts_r /\ (forall x, In x (sys_clocks ts_r) -> (x < 2)%nat) /\ no_differences 2 (s_zone r_hundred) /\ no_differences 2 (s_zone r_early) /\
  (exists d, find_path 2 5 ts_r (r_wide (s_zone r_hundred)) r_start r_hundred = Ok (Some [d])) /\
  find_path 2 5 ts_r (r_wide (s_zone r_early)) r_start r_early = Ok None.
Proof.
  split; [apply (plain_suffices 2 comp_r 1); [apply literal_check; vm_compute; reflexivity|vm_compute; reflexivity]|].
  split; [intros x Hx; vm_compute in Hx; intuition (subst; auto)|]. split; [intros z c [<-|[]] [<-|[<-|[]]]; cbn; lia|]. split; [intros z c [<-|[]] [<-|[]]; cbn; lia|].
  split; [eexists|]; vm_compute; reflexivity.
Qed.

(** Finding: bounds of the single clocks do not suffice for a target that compares two clocks.  In G2 the clock y is 6 ahead of x; y is not
    read, so its bound is 0 and nothing but x < y is left of this; G2 with y - x < 3 is reported to be reachable. *)
Definition comp_g : component :=
  mkComp "G" (mkDecls [("x", 1%nat); ("y", 2%nat)] [])
    [mkL "G0" None Initial "NORMAL"; mkL "G1" None Normal "NORMAL"; mkL "G2" None Normal "NORMAL"]
    [mkE "E0" "G0" "G1" SOutput (Some (BEQ (AVar "x") (AInt 3))) (Some [("x", AInt 0)]) "a";
     mkE "E1" "G1" "G2" SOutput (Some (BEQ (AVar "x") (AInt 3))) (Some [("x", AInt 0)]) "b"] None.
Definition cc_g := get no_cc (compile_component 3 comp_g 1).
Definition ts_g := TSimple cc_g.
Definition g_l (i : nat) := nth i (cc_locs cc_g) lt_any.
Definition g_start : state := Eval vm_compute in match initial_state 3 ts_g with Some st => st | None => mkS lt_any fnone end.
Definition g_target : state := mkS (g_l 2) (fcon (mkC 2 1 true 3) funiv).
Definition g_wide := max_xext 3 ts_g (fed_bounds 3 (s_zone g_target)).
Definition g_path : list decision := Eval vm_compute in match find_path 3 9 ts_g g_wide g_start g_target with Ok (Some p) => p | _ => [] end.
Theorem C11_difference_refuted : exists dim q fuel s start target ds,
  built dim s /\ clocks_ok dim q s /\ upper_invariants dim s /\ bounds_suffice dim s /\ (forall x, In x (sys_clocks s) -> (x < dim)%nat) /\
  initial_state dim s = Some start /\ pattern dim s (s_loc target) /\
  find_path dim fuel s (max_xext dim s (fed_bounds dim (s_zone target))) start target = Ok (Some ds) /\
  forall l v, reachable dim s l v -> ~ hits dim target l v.
Proof.
  exists 3%nat, 4%nat, 9%nat, ts_g, g_start, g_target, g_path.
  assert (B : built 3 ts_g) by (apply (b_simple 3 comp_g [] ["a"; "b"] 1); vm_compute; reflexivity).
  assert (K : clocks_ok 3 4 ts_g) by (apply simple_clocks_okb_spec; vm_compute; reflexivity).
  assert (Hi : initial_state 3 ts_g = Some g_start) by (vm_compute; reflexivity). assert (Hp : pattern 3 ts_g (s_loc g_target)) by (right; vm_compute; tauto).
  split; [exact B|]. split; [exact K|]. split; [apply upper_check; vm_compute; reflexivity|].
  split; [apply (plain_suffices 3 comp_g 1); [apply literal_check; vm_compute; reflexivity|vm_compute; reflexivity]|].
  split; [intros x Hx; vm_compute in Hx; intuition (subst; auto)|]. split; [exact Hi|]. split; [exact Hp|]. split; [vm_compute; reflexivity|].
  refine (C12_from_initial 3 4 id_ext 9 ts_g g_start g_target _ B K Hi Hp _); [auto|vm_compute; reflexivity].
Qed.
Print Assumptions C11_difference_refuted.
(** Finding: with a lower bound in an invariant the successor zone contains states that
    were entered while the invariant did not hold yet.  D1 requires x >= 5; coming from
    the start with y reset, x - y >= 5 holds from then on, yet the path a, b that needs
    x = y = 5 in D1 is reported. *)
Definition comp_d : component :=
  mkComp "D" (mkDecls [("x", 1%nat); ("y", 2%nat)] [])
    [mkL "D0" None Initial "NORMAL"; mkL "D1" (Some (BGreatEQ (AVar "x") (AInt 5))) Normal "NORMAL"; mkL "D2" None Normal "NORMAL"]
    [mkE "E0" "D0" "D1" SOutput None (Some [("y", AInt 0)]) "a";
     mkE "E1" "D1" "D2" SOutput (Some (BAnd (BLessEQ (AVar "x") (AInt 5)) (BGreatEQ (AVar "y") (AInt 5)))) None "b"] None.
Definition cc_d := get no_cc (compile_component 3 comp_d 1).
Definition ts_d := TSimple cc_d.
Definition d_l (i : nat) := nth i (cc_locs cc_d) lt_any.
Definition d_start : state := Eval vm_compute in match initial_state 3 ts_d with Some st => st | None => mkS lt_any fnone end.
Definition d_target : state := mkS (d_l 2) funiv.
Definition d_path : list decision := Eval vm_compute in
  match find_path 3 9 ts_d id_ext d_start d_target with Ok (Some p) => p | _ => [] end.
Lemma d_step_ab : next_transitions 3 ts_d (d_l 0) "a" = Ok (map (fun d => d_trans d) (firstn 1 d_path)) /\
  map d_action d_path = ["a"; "b"] /\ t_target (d_trans (nth 0 d_path (mkD d_start "" (t_without_id lt_any) d_start))) = d_l 1.
Proof. vm_compute. auto. Qed.
Theorem C11_false_path_refuted : exists dim q xext fuel s start target ds,
  built dim s /\ clocks_ok dim q s /\ (forall l f w, fsem dim (xext l f) w <-> fsem dim f w) /\
  In (s_loc start) (all_locations dim s) /\ pattern dim s (s_loc target) /\
  find_path dim fuel s xext start target = Ok (Some ds) /\
  forall v l' v', fsem dim (s_zone start) v -> ~ path_run dim s (s_loc start) v (map taken ds) l' v'.
Proof.
  exists 3%nat, 4%nat, id_ext, 9%nat, ts_d, d_start, d_target, d_path.
  split; [apply (b_simple 3 comp_d [] ["a"; "b"] 1); vm_compute; reflexivity|].
  split; [apply simple_clocks_okb_spec; vm_compute; reflexivity|]. split; [reflexivity|]. split; [vm_compute; tauto|].
  split; [right; vm_compute; tauto|]. split; [vm_compute; reflexivity|].
  intros v l' v' Hv R. unfold d_path, taken in R. cbn [map d_trans d_action] in R.
  inversion R as [|? ? t1 a1 d1 ? ? ? O1 A1 D1 I1 R1]; subst. clear R.
  inversion R1 as [|? ? t2 a2 d2 ? ? ? O2 A2 D2 I2 R2]; subst. clear R1 R2 O1 O2 I2 D2.
  destruct A1 as (_ & _ & A1). destruct A2 as (_ & A2 & _). cbn [t_guard t_updates t_target] in *.
  destruct A1 as ((V0 & _) & z1 & [<-|[]] & Z1). specialize (Z1 _ (or_introl eq_refl)).
  destruct A2 as (_ & z2 & Hz2 & Z2).
  cbv [csem ilt cs ci cj cc run_updates fold_left vset u_clock u_value Nat.eqb inject_Z] in Z1.
  destruct Hz2 as [<-|[]].
  pose proof (Z2 _ (or_introl eq_refl)) as G1. pose proof (Z2 _ (or_intror (or_introl eq_refl))) as G2.
  cbv [csem ilt cs ci cj cc run_updates fold_left vset u_clock u_value Nat.eqb inject_Z vdelay] in G1, G2, V0. lra.
Qed.
Print Assumptions C11_false_path_refuted.

(** Finding: the same defect makes the search abort.  E1 requires x >= 5 but is entered
    with x = 0; the search takes it as reached and then panics while building the path. *)
Definition comp_e : component :=
  mkComp "E" (mkDecls [("x", 1%nat)] [])
    [mkL "E0" None Initial "NORMAL"; mkL "E1" (Some (BGreatEQ (AVar "x") (AInt 5))) Normal "NORMAL"]
    [mkE "E0" "E0" "E1" SOutput None (Some [("x", AInt 0)]) "a"] None.
Definition ts_e := TSimple (get no_cc (compile_component 2 comp_e 1)).
Theorem C11_abort_refuted : exists dim q xext fuel s start target,
  built dim s /\ clocks_ok dim q s /\ (forall l f w, fsem dim (xext l f) w <-> fsem dim f w) /\
  initial_state dim s = Some start /\ pattern dim s (s_loc target) /\ find_path dim fuel s xext start target = Panic.
Proof.
  exists 2%nat, 3%nat, id_ext, 9%nat, ts_e.
  destruct (initial_state 2 ts_e) as [st|] eqn:Es; [|vm_compute in Es; discriminate].
  exists st, (mkS (nth 1 (cc_locs (get no_cc (compile_component 2 comp_e 1))) lt_any) funiv).
  split; [apply (b_simple 2 comp_e [] ["a"] 1); vm_compute; reflexivity|].
  split; [apply simple_clocks_okb_spec; vm_compute; reflexivity|]. split; [reflexivity|]. split; [reflexivity|].
  split; [right; vm_compute; tauto|]. vm_compute in Es. injection Es as <-. vm_compute. reflexivity.
Qed.
Print Assumptions C11_abort_refuted.
