(** C13, C14, C15: the refinement check. *)
From Coq Require Import List String ZArith QArith Bool Arith Lia Lqa.
From Verif Require Import Fed.Zone Fed.ZoneFacts Fed.Check Model.Base Model.Expr Model.Guard Model.Loc Model.Component Model.TS Model.Search
  Model.PairList Model.Refine Spec.StepSpec Spec.SystemSpec Spec.RunSpec Spec.ReachSpec Spec.RefineSpec Proofs.GuardFacts Proofs.StepFacts
  Proofs.SystemFacts Proofs.QuotientFacts Proofs.WfFacts Proofs.RunFacts Proofs.DetFacts Proofs.ConsFacts Proofs.ReachFacts Proofs.RefineFacts
  Proofs.RefineFail Spec.BoundSpec Proofs.LinkFacts Proofs.PlainFacts Props.Examples Props.Determinism Props.Reachability Fed.Dbm Model.Extrapolate Proofs.ExtraFacts.
Import ListNotations.
Local Open Scope string_scope.

(** *** The specification of refinement is a preorder. *)
Theorem refines_refl : forall dim s, (forall l, initial_location dim s = Some l -> inv_at dim l zero_val) -> refines dim s s.
Proof.
  intros dim s H. unfold refines. destruct (initial_location dim s) as [l0|]; [|exact I].
  exists (fun l1 v1 l2 v2 => l1 = l2 /\ v1 = v2 /\ inv_at dim l1 v1). split; [|auto].
  intros l v l2 v2 (<- & <- & Iv). split; [exact Iv|]. split; [exact Iv|]. split; [|split].
  - intros a t Ha O A. split; [|contradiction]. intros _. exists t. split; [exact O|]. split; [exact A|]. split; [reflexivity|]. split; [reflexivity|apply A].
  - intros a t Ha O A. split; [|contradiction]. intros _. exists t. split; [exact O|]. split; [exact A|]. split; [reflexivity|]. split; [reflexivity|apply A].
  - intros d Hd He. split; [reflexivity|]. split; [reflexivity|]. apply He; lra.
Qed.
Theorem refines_trans : forall dim s1 s2 s3,
  (forall a, is_output s3 a -> is_output s2 a) -> (forall a, is_input s1 a -> is_input s2 a) ->
  refines dim s1 s2 -> refines dim s2 s3 -> refines dim s1 s3.
Proof.
  intros dim s1 s2 s3 Ho Hi. unfold refines.
  destruct (initial_location dim s1) as [l1|], (initial_location dim s2) as [l2|], (initial_location dim s3) as [l3|]; try tauto.
  intros (R & HR & R0) (Q & HQ & Q0). exists (fun l1 v1 l3 v3 => exists l2 v2, R l1 v1 l2 v2 /\ Q l2 v2 l3 v3).
  split; [|exists l2, zero_val; auto]. clear - Ho Hi HR HQ. intros l1 v1 l3 v3 (l2 & v2 & Rv & Qv).
  destruct (HR _ _ _ _ Rv) as (I1 & I2 & RO & RI & RD), (HQ _ _ _ _ Qv) as (_ & I3 & QO & QI & QD).
  split; [exact I1|]. split; [exact I3|]. split; [|split].
  - intros a t1 Ha O1 A1. destruct (RO a t1 Ha O1 A1) as [X Y]. destruct (in_dec string_dec a (ts_outputs s2)) as [O2|N2].
    + destruct (X O2) as (t2 & Of2 & A2 & R2). destruct (QO a t2 O2 Of2 A2) as [X' Y']. split.
      * intros O3. destruct (X' O3) as (t3 & Of3 & A3 & Q3). exists t3. split; [exact Of3|]. split; [exact A3|]. do 2 eexists. split; eassumption.
      * intros N3. do 2 eexists. split; [exact R2|auto].
    + split; [intros O3; elim N2; exact (Ho a O3)|]. intros _. exists l2, v2. auto.
  - intros a t3 Ha O3 A3. destruct (QI a t3 Ha O3 A3) as [X Y]. destruct (in_dec string_dec a (ts_inputs s2)) as [O2|N2].
    + destruct (X O2) as (t2 & Of2 & A2 & R2). destruct (RI a t2 O2 Of2 A2) as [X' Y']. split.
      * intros O1. destruct (X' O1) as (t1 & Of1 & A1 & Q1). exists t1. split; [exact Of1|]. split; [exact A1|]. do 2 eexists. split; eassumption.
      * intros N1. do 2 eexists. split; [exact (Y' N1)|exact R2].
    + split; [intros O1; elim N2; exact (Hi a O1)|]. intros _. exists l2, v2. auto.
  - intros d Hd He. exists l2, (vdelay v2 d). split; [auto|]. apply QD; [exact Hd|]. intros e H0 H1.
    assert (X : R l1 (vdelay v1 e) l2 (vdelay v2 e)). { apply RD; [exact H0|]. intros e' H2 H3. apply He; lra. }
    destruct (HR _ _ _ _ X) as (_ & J & _). exact J.
Qed.

(** *** C13 *)
(** Success means refinement of concrete timed states: for every pair of systems over
    separate clocks, every iteration order and every extrapolation that only enlarges zones.
    Two conditions are needed, see the refutations below: the right side's initial
    invariant lasts as long as the left one's, and the right side's invariants have no gaps. *)
Theorem C13_success_sound_partial : forall dim q1 q2 ext pext ord aord s1 s2 fuel,
  (forall l1 l2 f v, fsem dim f v -> fsem dim (pext l1 l2 f) v) -> (forall p l a, In a (aord p l) <-> In a l) ->
  built dim s1 -> built dim s2 -> clocks_ok dim q1 s1 -> clocks_ok dim q2 s2 -> reads_ok s1 -> reads_ok s2 -> separate s1 s2 ->
  no_gaps dim s2 -> starts_together dim s1 s2 ->
  check_refinement dim ext pext ord aord s1 s2 fuel = Ok RSuccess -> refines dim s1 s2.
Proof.
  intros dim q1 q2 ext pext ord aord s1 s2 fuel Hx Ha B1 B2 K1 K2 R1 R2 Sp G St E.
  eapply refinement_sound; eauto.
Qed.
Print Assumptions C13_success_sound_partial.

Definition no_pext : loctree -> loctree -> fed -> fed := fun _ _ f => f.
Definition same_aord : pair -> list string -> list string := fun _ l => l.
Lemma no_gaps_upper dim s : upper_invariants dim s -> (forall l v, In l (all_locations dim s) -> inv_at dim l v -> val_ok dim v) -> no_gaps dim s.
Proof.
  intros U V l v d e Hl Hd He Iv Id. apply (U l Hl (vdelay v d) e); [apply vdelay_ok; [eapply V; eauto|exact Hd]|exact He|].
  eapply inv_at_ext; [|exact Id]. apply veq_sym, vdelay_add.
Qed.
Lemma no_gaps_upper' dim s : upper_invariants dim s -> no_gaps dim s.
Proof. intros U. apply no_gaps_upper; [exact U|]. intros l v _. apply inv_at_ok. Qed.

(** L answers between 3 and 4, K between 2 and 5. *)
Definition comp_l : component :=
  mkComp "L" (mkDecls [("x", 1%nat)] [])
    [mkL "L0" None Initial "NORMAL"; mkL "L1" (Some (BLessEQ (AVar "x") (AInt 4))) Normal "NORMAL"]
    [mkE "E1" "L0" "L1" SInput None (Some [("x", AInt 0)]) "i"; mkE "E2" "L1" "L0" SOutput (Some (BGreatEQ (AVar "x") (AInt 3))) None "o";
     mkE "E3" "L1" "L1" SInput None None "i"] None.
Definition comp_k : component :=
  mkComp "K" (mkDecls [("y", 2%nat)] [])
    [mkL "K0" None Initial "NORMAL"; mkL "K1" (Some (BLessEQ (AVar "y") (AInt 5))) Normal "NORMAL"]
    [mkE "E1" "K0" "K1" SInput None (Some [("y", AInt 0)]) "i"; mkE "E2" "K1" "K0" SOutput (Some (BGreatEQ (AVar "y") (AInt 2))) None "o";
     mkE "E3" "K1" "K1" SInput None None "i"] None.
Definition mk3 (c : component) (clk : nat) : ts := TSimple (get no_cc (compile_component 3 c clk)).
Definition ts_l := Eval vm_compute in mk3 comp_l 1.
Definition ts_k := Eval vm_compute in mk3 comp_k 2.
(** What the theorems ask of two systems, checked by computation. *)
Definition pair_okb (c1 c2 : ccomp) : bool :=
  simple_clocks_okb 3 3 c1 && simple_clocks_okb 3 3 c2 && simple_readsb c1 && simple_readsb c2 &&
  forallb (fun x => negb (existsb (Nat.eqb x) (sys_clocks (TSimple c2))) && Nat.ltb x 3) (sys_clocks (TSimple c1)) &&
  forallb (fun x => Nat.ltb x 3) (sys_clocks (TSimple c2)).
Definition pair_ok (s1 s2 : ts) : Prop :=
  clocks_ok 3 3 s1 /\ clocks_ok 3 3 s2 /\ reads_ok s1 /\ reads_ok s2 /\ separate s1 s2 /\
  (forall x, In x (sys_clocks s1) -> (x < 3)%nat) /\ (forall x, In x (sys_clocks s2) -> (x < 3)%nat).
Lemma pair_okb_spec c1 c2 : pair_okb c1 c2 = true -> pair_ok (TSimple c1) (TSimple c2).
Proof.
  unfold pair_okb. rewrite !andb_true_iff. intros (((((H1 & H2) & H3) & H4) & H5) & H6). rewrite forallb_forall in H5, H6.
  split; [apply simple_clocks_okb_spec; exact H1|]. split; [apply simple_clocks_okb_spec; exact H2|].
  split; [apply simple_readsb_spec; exact H3|]. split; [apply simple_readsb_spec; exact H4|]. split; [|split].
  - intros x Hx C. specialize (H5 x Hx). apply andb_true_iff in H5. destruct H5 as [H5 _]. apply negb_true_iff in H5.
    assert (existsb (Nat.eqb x) (sys_clocks (TSimple c2)) = true) by (apply existsb_exists; exists x; split; [exact C|apply Nat.eqb_refl]). congruence.
  - intros x Hx. specialize (H5 x Hx). apply andb_true_iff in H5. apply Nat.ltb_lt, H5.
  - intros x Hx. apply Nat.ltb_lt, H6, Hx.
Qed.
Lemma built_l : built 3 ts_l. Proof. apply (b_simple 3 comp_l ["i"] ["o"] 1). vm_compute. reflexivity. Qed.
Lemma built_k : built 3 ts_k. Proof. apply (b_simple 3 comp_k ["i"] ["o"] 2). vm_compute. reflexivity. Qed.
Lemma ok_lk : pair_ok ts_l ts_k. Proof. apply pair_okb_spec. vm_compute. reflexivity. Qed.
Lemma no_inv_delay dim l d : lt_inv l = None -> (0 <= d)%Q -> inv_at dim l (vdelay zero_val d).
Proof. intros E Hd. unfold inv_at. rewrite E. apply vdelay_ok; [apply zero_ok|exact Hd]. Qed.
Lemma no_inv_zero dim l : lt_inv l = None -> inv_at dim l zero_val.
Proof. intros E. unfold inv_at. rewrite E. apply zero_ok. Qed.
Lemma starts_free dim s1 s2 : (forall l, initial_location dim s1 = Some l -> inv_at dim l zero_val) ->
  (forall l, initial_location dim s2 = Some l -> lt_inv l = None) -> starts_together dim s1 s2.
Proof. intros H1 H2 l1 l2 E1 E2. split; [auto|]. split; [apply no_inv_zero; auto|]. intros d Hd _. apply no_inv_delay; auto. Qed.
Example C13_nonvacuous : built 3 ts_l /\ built 3 ts_k /\ pair_ok ts_l ts_k /\ no_gaps 3 ts_k /\ starts_together 3 ts_l ts_k /\
  check_refinement 3 no_ext no_pext same_ord same_aord ts_l ts_k 12 = Ok RSuccess.
Proof.
  split; [exact built_l|]. split; [exact built_k|]. split; [exact ok_lk|].
  split; [apply no_gaps_upper', upper_check; vm_compute; reflexivity|].
  split; [|vm_compute; reflexivity].
  apply starts_free; intros l E; vm_compute in E; injection E as <-; [apply no_inv_zero|]; reflexivity.
Qed.

(** Finding: the initial pair is not checked for delays.  A may wait forever in its initial
    location, B for 5 time units only, yet the check succeeds. *)
Definition comp_a : component :=
  mkComp "A" (mkDecls [("x", 1%nat)] [])
    [mkL "A0" None Initial "NORMAL"; mkL "A1" (Some (BLessEQ (AVar "x") (AInt 5))) Normal "NORMAL"]
    [mkE "E0" "A0" "A1" SOutput None (Some [("x", AInt 0)]) "o"; mkE "E1" "A1" "A1" SOutput None None "o"] None.
Definition comp_b : component :=
  mkComp "B" (mkDecls [("y", 2%nat)] [])
    [mkL "B0" (Some (BLessEQ (AVar "y") (AInt 5))) Initial "NORMAL"; mkL "B1" (Some (BLessEQ (AVar "y") (AInt 5))) Normal "NORMAL"]
    [mkE "E2" "B0" "B1" SOutput None (Some [("y", AInt 0)]) "o"; mkE "E3" "B1" "B1" SOutput None None "o"] None.
Definition ts_a := Eval vm_compute in mk3 comp_a 1.
Definition ts_b := Eval vm_compute in mk3 comp_b 2.
Theorem C13_initial_delay_refuted : exists dim q1 q2 ext pext ord aord s1 s2 fuel,
  (forall l1 l2 f v, fsem dim (pext l1 l2 f) v <-> fsem dim f v) /\ (forall p l a, In a (aord p l) <-> In a l) /\
  built dim s1 /\ built dim s2 /\ clocks_ok dim q1 s1 /\ clocks_ok dim q2 s2 /\ reads_ok s1 /\ reads_ok s2 /\ separate s1 s2 /\
  no_gaps dim s2 /\
  check_refinement dim ext pext ord aord s1 s2 fuel = Ok RSuccess /\ ~ refines dim s1 s2.
Proof.
  exists 3%nat, 3%nat, 3%nat, no_ext, no_pext, same_ord, same_aord, ts_a, ts_b, 12%nat.
  assert (P : pair_ok ts_a ts_b) by (apply pair_okb_spec; vm_compute; reflexivity). destruct P as (K1 & K2 & R1 & R2 & Sp & _ & _).
  split; [reflexivity|]. split; [reflexivity|]. split; [apply (b_simple 3 comp_a [] ["o"] 1); vm_compute; reflexivity|].
  split; [apply (b_simple 3 comp_b [] ["o"] 2); vm_compute; reflexivity|]. do 5 (split; [assumption|]).
  split; [apply no_gaps_upper', upper_check; vm_compute; reflexivity|]. split; [vm_compute; reflexivity|].
  intros (R & HR & H0). destruct (HR _ _ _ _ H0) as (_ & _ & _ & _ & D).
  specialize (D 6 ltac:(lra) ltac:(intros e He _; apply no_inv_delay; [reflexivity|exact He])).
  destruct (HR _ _ _ _ D) as (_ & I2 & _). apply inv_atb_spec in I2. vm_compute in I2. discriminate.
Qed.
Print Assumptions C13_initial_delay_refuted.

(** Finding: gaps in invariants are overlooked.  C may stay after its output until 1 or
    from 3 on, so it cannot wait for 2 time units as A' does. *)
Definition comp_a' : component :=
  mkComp "A" (mkDecls [("x", 1%nat)] [])
    [mkL "A0" None Initial "NORMAL"; mkL "A1" None Normal "NORMAL"]
    [mkE "E0" "A0" "A1" SOutput None (Some [("x", AInt 0)]) "o"] None.
Definition comp_c : component :=
  mkComp "C" (mkDecls [("y", 2%nat)] [])
    [mkL "C0" None Initial "NORMAL"; mkL "C1" (Some (BOr (BLessEQ (AVar "y") (AInt 1)) (BGreatEQ (AVar "y") (AInt 3)))) Normal "NORMAL"]
    [mkE "E2" "C0" "C1" SOutput None (Some [("y", AInt 0)]) "o"] None.
Definition ts_a' := Eval vm_compute in mk3 comp_a' 1.
Definition ts_c := Eval vm_compute in mk3 comp_c 2.
Theorem C13_gap_refuted : exists dim q1 q2 ext pext ord aord s1 s2 fuel,
  (forall l1 l2 f v, fsem dim (pext l1 l2 f) v <-> fsem dim f v) /\ (forall p l a, In a (aord p l) <-> In a l) /\
  built dim s1 /\ built dim s2 /\ clocks_ok dim q1 s1 /\ clocks_ok dim q2 s2 /\ reads_ok s1 /\ reads_ok s2 /\ separate s1 s2 /\
  starts_together dim s1 s2 /\
  check_refinement dim ext pext ord aord s1 s2 fuel = Ok RSuccess /\ ~ refines dim s1 s2.
Proof.
  exists 3%nat, 3%nat, 3%nat, no_ext, no_pext, same_ord, same_aord, ts_a', ts_c, 12%nat.
  assert (P : pair_ok ts_a' ts_c) by (apply pair_okb_spec; vm_compute; reflexivity). destruct P as (K1 & K2 & R1 & R2 & Sp & _ & _).
  split; [reflexivity|]. split; [reflexivity|]. split; [apply (b_simple 3 comp_a' [] ["o"] 1); vm_compute; reflexivity|].
  split; [apply (b_simple 3 comp_c [] ["o"] 2); vm_compute; reflexivity|]. do 5 (split; [assumption|]).
  split; [apply starts_free; intros l E; vm_compute in E; injection E as <-; [apply no_inv_zero|]; reflexivity|]. split; [vm_compute; reflexivity|].
  intros (R & HR & H0). destruct (HR _ _ _ _ H0) as (_ & _ & O & _).
  assert (T : exists t, offered 3 ts_a' (LLeaf (LSimple "A0") None Initial) "o" t /\ t_target t = LLeaf (LSimple "A1") None Normal /\
    able 3 (LLeaf (LSimple "A0") None Initial) t zero_val /\ forall x, run_updates (t_updates t) zero_val x == 0).
  { eexists. split; [split; [right; left; reflexivity|]; eexists; split; [vm_compute; reflexivity|left; reflexivity]|]. split; [reflexivity|].
    split; [apply able_yes; vm_compute; reflexivity|]. intros [|[|x]]; vm_compute; reflexivity. }
  destruct T as (t & Of & Tt & Ab & Up). destruct (proj1 (O "o" t (or_introl eq_refl) Of Ab)) as (t2 & (_ & ts & Ets & Ht2) & Ab2 & Rn); [left; reflexivity|].
  vm_compute in Ets. injection Ets as <-. destruct Ht2 as [<-|[]].
  destruct (HR _ _ _ _ Rn) as (_ & _ & _ & _ & D). specialize (D 2 ltac:(lra)). rewrite Tt in D.
  assert (X : forall e, (0 <= e)%Q -> (e <= 2)%Q -> inv_at 3 (LLeaf (LSimple "A1") None Normal) (vdelay (run_updates (t_updates t) zero_val) e)).
  { intros e He _. unfold inv_at. cbn [lt_inv]. apply vdelay_ok; [|exact He]. split; [apply Up|]. intros i _. rewrite Up. lra. }
  specialize (D X). destruct (HR _ _ _ _ D) as (_ & I2 & _). apply inv_atb_spec in I2. vm_compute in I2. discriminate.
Qed.
Print Assumptions C13_gap_refuted.

(** *** C14 *)
(** A reported failure describes what really happens: with exact zones, or with zones enlarged
    beyond the bounds of the clocks only, an unmatched action is reported together with locations both systems can really reach by moving together,
    where one side can do the action and the other cannot.  Proved for invariants that only
    bound clocks from above. *)
Theorem C14_cannot_match_partial : forall acc dim q1 q2 ext pext ord aord s1 s2 fuel a p,
  pair_accurate acc dim pext s1 s2 -> (forall p l a, In a (aord p l) <-> In a l) ->
  built dim s1 -> built dim s2 -> clocks_ok dim q1 s1 -> clocks_ok dim q2 s2 -> reads_ok s1 -> reads_ok s2 -> separate s1 s2 ->
  (forall x, In x (sys_clocks s1) -> (x < dim)%nat) -> (forall x, In x (sys_clocks s2) -> (x < dim)%nat) ->
  upper_invariants dim s1 -> upper_invariants dim s2 ->
  check_refinement dim ext pext ord aord s1 s2 fuel = Ok (RCannotMatch a p) ->
  exists v, together dim s1 s2 (p_l1 p) (p_l2 p) v /\ unmatched dim s1 s2 a (p_l1 p) (p_l2 p) v /\
    exists w, fsem dim (p_zone p) w /\ forall x, In x (sys_clocks s1 ++ sys_clocks s2) -> w x == v x.
Proof.
  intros acc dim q1 q2 ext pext ord aord s1 s2 fuel a p Hx Ha B1 B2 K1 K2 R1 R2 Sp I1 I2 U1 U2 E.
  destruct (accurate_linked acc dim q1 q2 pext s1 s2 B1 B2 K1 K2 R1 R2 I1 I2 Hx) as [N HN].
  destruct (check_refinement_told dim pext s1 s2 N HN B1 B2 q1 q2 K1 K2 R1 R2 Sp U1 U2 I1 I2 aord Ha ext ord fuel _ E) as (v & T & S & U).
  exists v. split; [exact T|]. split; [exact U|]. exact S.
Qed.
Print Assumptions C14_cannot_match_partial.

(** Hence these failures exclude every refinement relation; for "cuts delays" this needs
    guards that are strong enough on the right. *)
Theorem C14_not_refines_partial : forall acc dim q1 q2 ext pext ord aord s1 s2 fuel r,
  pair_accurate acc dim pext s1 s2 -> (forall p l a, In a (aord p l) <-> In a l) ->
  (forall s l f v, fsem dim f v -> fsem dim (ext s l f) v) -> (forall p l a, In a (ord p l) <-> In a l) ->
  built dim s1 -> built dim s2 -> clocks_ok dim q1 s1 -> clocks_ok dim q2 s2 -> reads_ok s1 -> reads_ok s2 -> separate s1 s2 ->
  (forall x, In x (sys_clocks s1) -> (x < dim)%nat) -> (forall x, In x (sys_clocks s2) -> (x < dim)%nat) ->
  upper_invariants dim s1 -> upper_invariants dim s2 ->
  no_reserved s1 = true -> no_reserved s2 = true -> plain_divisors s1 = true -> plain_divisors s2 = true ->
  check_refinement dim ext pext ord aord s1 s2 fuel = Ok r ->
  match r with
  | RCannotMatch _ _ | REmptyChild _ | REmptyInitial => ~ refines dim s1 s2
  | RCutsDelays _ _ => enters_inside dim s2 -> ~ refines dim s1 s2
  | _ => True
  end.
Proof.
  intros acc dim q1 q2 ext pext ord aord s1 s2 fuel r Hx Ha He Ho B1 B2 K1 K2 R1 R2 Sp I1 I2 U1 U2 N1 N2 P1 P2 E.
  assert (X : r = RPrecheck \/ deterministic dim s1 /\ deterministic dim s2).
  { pose proof E as F. unfold check_refinement in F. inv_bind F. clear F. unfold check_preconditions in H. inv_bind H.
    destruct a0; cbn [negb] in H; [|injection H as <-; left; unfold check_refinement, check_preconditions in E; rewrite H0 in E; cbn [bind negb] in E; congruence].
    inv_bind H. destruct a0; cbn [negb] in H;
      [|injection H as <-; left; unfold check_refinement, check_preconditions in E; rewrite H0 in E; cbn [bind negb] in E; rewrite H1 in E; cbn [bind negb] in E; congruence].
    right. unfold precheck in H0, H1. inv_bind H0. destruct a0; [discriminate|]. inv_bind H1. destruct a0; [discriminate|].
    split; [apply (C16_determinism_sound_partial dim q1 ext ord fuel s1)|apply (C16_determinism_sound_partial dim q2 ext ord fuel s2)]; assumption. }
  destruct X as [->|[D1 D2]]; [exact I|].
  destruct (accurate_linked acc dim q1 q2 pext s1 s2 B1 B2 K1 K2 R1 R2 I1 I2 Hx) as [N HN].
  exact (check_refinement_fails dim pext s1 s2 N HN B1 B2 q1 q2 K1 K2 R1 R2 Sp U1 U2 I1 I2 aord Ha ext ord fuel r D1 D2 E).
Qed.
Print Assumptions C14_not_refines_partial.

(** K answers too slowly for L. *)
Definition comp_l2 : component := mkComp "L" (mkDecls [("x", 2%nat)] []) (c_locs comp_l) (c_edges comp_l) None.
Definition comp_k1 : component := mkComp "K" (mkDecls [("y", 1%nat)] []) (c_locs comp_k) (c_edges comp_k) None.
(** K' has a guard 2 but otherwise the deadlines of L. *)
Definition comp_k' : component :=
  mkComp "K" (mkDecls [("y", 1%nat)] [])
    [mkL "K0" None Initial "NORMAL"; mkL "K1" (Some (BLessEQ (AVar "y") (AInt 4))) Normal "NORMAL"]
    [mkE "E1" "K0" "K1" SInput None (Some [("y", AInt 0)]) "i"; mkE "E2" "K1" "K0" SOutput (Some (BGreatEQ (AVar "y") (AInt 2))) None "o";
     mkE "E3" "K1" "K1" SInput None None "i"] None.
Definition ts_l2 := Eval vm_compute in mk3 comp_l2 2.
Definition ts_k1 := Eval vm_compute in mk3 comp_k1 1.
Definition ts_k' := Eval vm_compute in mk3 comp_k' 1.
Example C14_nonvacuous : built 3 ts_k1 /\ built 3 ts_k' /\ built 3 ts_l2 /\ pair_ok ts_k1 ts_l2 /\ pair_ok ts_k' ts_l2 /\
  upper_invariants 3 ts_k1 /\ upper_invariants 3 ts_k' /\ upper_invariants 3 ts_l2 /\
  no_reserved ts_k' = true /\ no_reserved ts_l2 = true /\ plain_divisors ts_k' = true /\ plain_divisors ts_l2 = true /\
  (exists p, check_refinement 3 no_ext no_pext same_ord same_aord ts_k1 ts_l2 12 = Ok (RCutsDelays "i" p)) /\
  (exists p, check_refinement 3 no_ext no_pext same_ord same_aord ts_k' ts_l2 12 = Ok (RCannotMatch "o" p)) /\
  pair_accurate Exact 3 no_pext ts_k' ts_l2 /\ pair_accurate Bounded 3 (max_pext 3 ts_k' ts_l2) ts_k' ts_l2 /\
  (exists p, check_refinement 3 (max_ext 3) (max_pext 3 ts_k' ts_l2) same_ord same_aord ts_k' ts_l2 12 = Ok (RCannotMatch "o" p)) /\
  (exists p, check_refinement 3 (max_ext 3) (max_pext 3 ts_k1 ts_l2) same_ord same_aord ts_k1 ts_l2 12 = Ok (RCutsDelays "i" p)).
Proof.
  split; [apply (b_simple 3 comp_k1 ["i"] ["o"] 1); vm_compute; reflexivity|].
  split; [apply (b_simple 3 comp_k' ["i"] ["o"] 1); vm_compute; reflexivity|].
  split; [apply (b_simple 3 comp_l2 ["i"] ["o"] 2); vm_compute; reflexivity|].
  do 2 (split; [apply pair_okb_spec; vm_compute; reflexivity|]). do 3 (split; [apply upper_check; vm_compute; reflexivity|]).
  do 4 (split; [reflexivity|]). do 2 (split; [eexists; vm_compute; reflexivity|]). split; [intros l1 l2 f v; reflexivity|]. split; [|split; eexists; vm_compute; reflexivity].
  split; [|split; [|apply max_pair_within]].
  - apply (plain_suffices 3 comp_k' 1); [|vm_compute; reflexivity]. apply literal_check. vm_compute. reflexivity.
  - apply (plain_suffices 3 comp_l2 2); [|vm_compute; reflexivity]. apply literal_check. vm_compute. reflexivity.
Qed.

(** Finding: "cuts delays" is also reported for a pair of transitions the right side would
    not use.  G leaves G0 at any time; H answers with E2 until 5 and with E3 afterwards.  The
    check combines G's transition with E2 after 5 although H1's invariant forbids that. *)
Definition comp_g : component :=
  mkComp "G" (mkDecls [("x", 1%nat)] [])
    [mkL "G0" None Initial "NORMAL"; mkL "G1" (Some (BLessEQ (AVar "x") (AInt 0))) Normal "NORMAL"]
    [mkE "E0" "G0" "G1" SOutput None (Some [("x", AInt 0)]) "o"; mkE "E1" "G1" "G1" SOutput None (Some [("x", AInt 0)]) "p"] None.
Definition comp_h : component :=
  mkComp "H" (mkDecls [("y", 2%nat)] [])
    [mkL "H0" None Initial "NORMAL"; mkL "H1" (Some (BLessEQ (AVar "y") (AInt 5))) Normal "NORMAL"; mkL "H2" None Normal "NORMAL"]
    [mkE "E2" "H0" "H1" SOutput None None "o"; mkE "E3" "H0" "H2" SOutput (Some (BGreatT (AVar "y") (AInt 5))) None "o";
     mkE "E4" "H1" "H1" SOutput None None "p"; mkE "E5" "H2" "H2" SOutput None None "p"] None.
Definition ts_g := Eval vm_compute in mk3 comp_g 1.
Definition ts_h := Eval vm_compute in mk3 comp_h 2.
Definition gl (i : nat) := nth i (all_locations 3 ts_g) lt_any.
Definition hl (i : nat) := nth i (all_locations 3 ts_h) lt_any.
Definition Rgh (l1 : loctree) (v1 : val) (l2 : loctree) (v2 : val) : Prop :=
  inv_at 3 l1 v1 /\ inv_at 3 l2 v2 /\ (l1 = gl 0 /\ l2 = hl 0 \/ l1 = gl 1 /\ (l2 = hl 1 \/ l2 = hl 2)).
Lemma gh_refines : refines 3 ts_g ts_h.
Proof.
  exists Rgh. split.
  2:{ split; [apply inv_atb_spec; vm_compute; reflexivity|]. split; [apply inv_atb_spec; vm_compute; reflexivity|]. left. split; reflexivity. }
  intros l1 v1 l2 v2 (I1 & I2 & HL). split; [exact I1|]. split; [exact I2|].
  pose proof (inv_at_ok _ _ _ I1) as V1. pose proof (inv_at_ok _ _ _ I2) as V2.
  assert (Off : forall i a t, offered 3 ts_h (hl i) a t <-> is_action ts_h a /\ exists ts, next_transitions 3 ts_h (hl i) a = Ok ts /\ In t ts) by reflexivity.
  assert (Len : (v2 2%nat <= 5 \/ 5 < v2 2%nat)%Q) by (destruct (Qlt_le_dec 5 (v2 2%nat)); auto).
  destruct HL as [[-> ->]|[-> HL]].
  - split; [|split].
    + intros a t1 Ha (_ & ts & Ets & Ht) Ab. destruct Ha as [<-|[<-|[]]]; vm_compute in Ets; injection Ets as <-; [|destruct Ht].
      destruct Ht as [<-|[]]. split; [|intros N; elim N; left; reflexivity]. intros _. destruct Len as [Le|Gt].
      * eexists. split; [split; [right; left; reflexivity|]; eexists; split; [vm_compute; reflexivity|left; reflexivity]|].
        assert (J : inv_at 3 (hl 1) v2).
        { split; [exact V2|]. eexists. split; [left; reflexivity|]. intros c [<-|[]]. cbv [csem ilt ci cj cs cc]. rewrite (proj1 V2). unfold inject_Z. lra. }
        split; [split; [exact V2|]; split; [split; [exact V2|]; eexists; split; [left; reflexivity|]; intros c []|exact J]|].
        split; [apply Ab|]. split; [exact J|]. right. split; [reflexivity|]. left. reflexivity.
      * eexists. split; [split; [right; left; reflexivity|]; eexists; split; [vm_compute; reflexivity|right; left; reflexivity]|].
        split; [split; [exact V2|]; split; [split; [exact V2|]; eexists; split; [left; reflexivity|]|exact V2]|].
        -- intros c [<-|[]]. cbv [csem ilt ci cj cs cc]. rewrite (proj1 V2). unfold inject_Z. lra.
        -- split; [apply Ab|]. split; [exact V2|]. right. split; [reflexivity|]. right. reflexivity.
    + intros a t2 [].
    + intros d Hd He. split; [apply He; lra|]. split; [apply vdelay_ok; assumption|]. left. split; reflexivity.
  - assert (X0 : (v1 1%nat <= 0)%Q).
    { destruct I1 as (_ & z & [<-|[]] & S). specialize (S _ (or_introl eq_refl)). cbv [csem ilt ci cj cs cc] in S. rewrite (proj1 V1) in S. unfold inject_Z in S. lra. }
    split; [|split].
    + intros a t1 Ha (_ & ts & Ets & Ht) Ab. destruct Ha as [<-|[<-|[]]]; vm_compute in Ets; injection Ets as <-; [destruct Ht|].
      destruct Ht as [<-|[]]. split; [|intros N; elim N; right; left; reflexivity]. intros _.
      assert (Lp : exists t2, offered 3 ts_h l2 "p" t2 /\ able 3 l2 t2 v2 /\ t_target t2 = l2 /\ t_updates t2 = []).
      { destruct HL as [-> | ->]; eexists; (split; [split; [right; right; left; reflexivity|]; eexists; split; [vm_compute; reflexivity|left; reflexivity]|]);
          (split; [|split; reflexivity]); (split; [exact I2|]; split; [split; [exact V2|]; eexists; split; [left; reflexivity|]; intros c []|exact I2]). }
      destruct Lp as (t2 & Of & Ab2 & Tt & Tu). exists t2. split; [exact Of|]. split; [exact Ab2|]. rewrite Tt, Tu.
      split; [apply Ab|]. split; [exact I2|]. right. split; [reflexivity|exact HL].
    + intros a t2 [].
    + intros d Hd He. assert (Z : d == 0).
      { specialize (He d Hd ltac:(lra)). destruct He as (_ & z & [<-|[]] & S). specialize (S _ (or_introl eq_refl)).
        cbv [csem ilt ci cj cs cc] in S. rewrite vdelay_0, vdelay_S, (proj1 V1) in S by discriminate. unfold inject_Z in S.
        assert (0 <= v1 1%nat)%Q by (apply V1; lia). lra. }
      split; [apply He; lra|]. split; [eapply inv_at_ext; [apply veq_sym, vdelay_zero; exact Z|exact I2]|]. right. split; [reflexivity|exact HL].
Qed.
Theorem C14_cuts_delays_refuted : exists dim q1 q2 ext pext ord aord s1 s2 fuel a p,
  (forall l1 l2 f v, fsem dim (pext l1 l2 f) v <-> fsem dim f v) /\ (forall p l a, In a (aord p l) <-> In a l) /\
  built dim s1 /\ built dim s2 /\ clocks_ok dim q1 s1 /\ clocks_ok dim q2 s2 /\ reads_ok s1 /\ reads_ok s2 /\ separate s1 s2 /\
  upper_invariants dim s1 /\ upper_invariants dim s2 /\
  check_refinement dim ext pext ord aord s1 s2 fuel = Ok (RCutsDelays a p) /\ refines dim s1 s2.
Proof.
  exists 3%nat, 3%nat, 3%nat, no_ext, no_pext, same_ord, same_aord, ts_g, ts_h, 12%nat. do 2 eexists.
  assert (P : pair_ok ts_g ts_h) by (apply pair_okb_spec; vm_compute; reflexivity). destruct P as (K1 & K2 & R1 & R2 & Sp & _ & _).
  split; [reflexivity|]. split; [reflexivity|]. split; [apply (b_simple 3 comp_g [] ["o"; "p"] 1); vm_compute; reflexivity|].
  split; [apply (b_simple 3 comp_h [] ["o"; "p"] 2); vm_compute; reflexivity|]. do 5 (split; [assumption|]).
  do 2 (split; [apply upper_check; vm_compute; reflexivity|]). split; [vm_compute; reflexivity|]. exact gh_refines.
Qed.
Print Assumptions C14_cuts_delays_refuted.

(** *** C15 *)
Definition mismatch (r : outcome) : Prop := r = RNotDisjoint \/ r = RNotSubset.
(** Exploration, or any answer about initial states, only happens for fitting alphabets;
    if they do not fit and both sides pass their own checks the answer is a mismatch. *)
Theorem C15_preconditions : forall dim ext pext ord aord s1 s2 fuel r,
  check_refinement dim ext pext ord aord s1 s2 fuel = Ok r ->
  (r <> RPrecheck -> ~ mismatch r -> alphabets_fit s1 s2) /\ (mismatch r -> ~ alphabets_fit s1 s2) /\
  (r = RPrecheck -> precheck dim ext ord fuel s1 = Ok false \/ precheck dim ext ord fuel s2 = Ok false) /\
  (r <> RPrecheck -> precheck dim ext ord fuel s1 = Ok true /\ precheck dim ext ord fuel s2 = Ok true).
Proof.
  intros dim ext pext ord aord s1 s2 fuel r E. unfold check_refinement, explore in E. inv_bind E. unfold check_preconditions in H. inv_bind H.
  assert (M : forall x, mismatch x -> x <> RPrecheck) by (intros x [-> | ->]; discriminate).
  destruct a0; cbn [negb] in H.
  2:{ injection H as <-. injection E as <-. split; [congruence|]. split; [intros [C|C]; discriminate|]. split; [auto|congruence]. }
  inv_bind H. destruct a0; cbn [negb] in H.
  2:{ injection H as <-. injection E as <-. split; [congruence|]. split; [intros [C|C]; discriminate|]. split; [auto|congruence]. }
  injection H as <-. unfold action_precheck in E.
  assert (Sub : forall l r, forallb (fun a => sin a r) l = true <-> forall a, In a l -> In a r).
  { intros l k. rewrite forallb_forall. split; intros F a Ha; apply sin_In, F, Ha. }
  assert (Neg : forall b P, (b = true <-> P) -> b = false -> ~ P) by (intros b P HP Hb C; apply HP in C; congruence).
  destruct (disjoint (ts_inputs s1) (ts_outputs s2)) eqn:D1; cbn [negb] in E.
  2:{ injection E as <-. split; [intros _ C; elim C; left; reflexivity|]. split; [|split; [discriminate|auto]].
      intros _ (F & _). exact (Neg _ _ (disjoint_spec _ _) D1 F). }
  destruct (disjoint (ts_inputs s2) (ts_outputs s1)) eqn:D2; cbn [negb] in E.
  2:{ injection E as <-. split; [intros _ C; elim C; left; reflexivity|]. split; [|split; [discriminate|auto]].
      intros _ (_ & F & _). exact (Neg _ _ (disjoint_spec _ _) D2 F). }
  destruct (forallb (fun a => sin a (ts_inputs s2)) (ts_inputs s1)) eqn:D3; cbn [negb] in E.
  2:{ injection E as <-. split; [intros _ C; elim C; right; reflexivity|]. split; [|split; [discriminate|auto]].
      intros _ (_ & _ & F & _). exact (Neg _ _ (Sub _ _) D3 F). }
  destruct (forallb (fun a => sin a (ts_outputs s1)) (ts_outputs s2)) eqn:D4; cbn [negb] in E.
  2:{ injection E as <-. split; [intros _ C; elim C; right; reflexivity|]. split; [|split; [discriminate|auto]].
      intros _ (_ & _ & _ & F). exact (Neg _ _ (Sub _ _) D4 F). }
  assert (F : alphabets_fit s1 s2).
  { split; [apply disjoint_spec; exact D1|]. split; [apply disjoint_spec; exact D2|]. split; [apply Sub; exact D3|apply Sub; exact D4]. }
  assert (NP : r <> RPrecheck /\ ~ mismatch r).
  { assert (L : forall f c x, refine_loop dim pext aord s1 s2 f c = Ok x -> x <> RPrecheck /\ ~ mismatch x).
    { assert (V : forall a t1 t2 cur b c x, valid_pairs dim pext a t1 t2 cur b c = inr x -> x <> RPrecheck /\ ~ mismatch x).
      { intros a t1 t2 cur b c x. unfold valid_pairs. destruct (fempty _ _); [discriminate|].
        assert (C : forall y, y = RCannotMatch a cur \/ y = RCutsDelays a cur -> y <> RPrecheck /\ ~ mismatch y).
        { intros y [-> | ->]; (split; [discriminate|intros [X|X]; discriminate]). }
        destruct (fempty _ _); [intros X; injection X as <-; auto|]. destruct (negb _); [intros X; injection X as <-; auto|].
        destruct (build_pairs _ _ _ _ _ _); intros X; [discriminate|injection X as <-; auto]. }
      induction f as [|f IH]; intros c x X; [discriminate|]. cbn [refine_loop] in X. inv_bind X. destruct a as [[cur w]|].
      2:{ injection X as <-. split; [discriminate|intros [Y|Y]; discriminate]. }
      assert (Q : forall (step : string -> ctx -> res (ctx + outcome)) acts c0 x0, (forall b c1 x1, step b c1 = Ok (inr x1) -> x1 <> RPrecheck /\ ~ mismatch x1) ->
        loopM step acts c0 = Ok (inr x0 : ctx + outcome) -> x0 <> RPrecheck /\ ~ mismatch x0).
      { intros step acts. induction acts as [|b acts IHa]; intros c0 x0 Hs El; cbn [loopM] in El; [discriminate|]. inv_bind El.
        destruct a; [eapply IHa; eauto|]. injection El as <-. eapply Hs; eauto. }
      inv_bind X. destruct a as [c1|r1]; [|injection X as <-; eapply Q; [|exact H2]; intros b c1 x1 S; unfold output_step in S; inv_bind S; inv_bind S; injection S as S; eapply V; exact S].
      inv_bind X. destruct a as [c2|r2]; [eapply IH; exact X|].
      injection X as <-. eapply Q; [|exact H3]. intros b c2 x1 S. unfold input_step in S. inv_bind S. inv_bind S. injection S as S. eapply V; exact S. }
    destruct (initial_location dim s1) as [l1|], (initial_location dim s2) as [l2|];
      try (injection E as <-; split; [discriminate|intros [Y|Y]; discriminate]).
    destruct (fempty _ _); [injection E as <-; split; [discriminate|intros [Y|Y]; discriminate]|]. eapply L; exact E. }
  destruct NP as [NP NM]. split; [auto|]. split; [intros C; contradiction|]. split; [intros C; contradiction|auto].
Qed.
Print Assumptions C15_preconditions.

(** Extra actions leave the other side where it is: the step paired with them asks for
    nothing, changes nothing and stays. *)
Theorem C15_extra_actions : forall dim l v, inv_at dim l v ->
  let t := t_without_id l in able dim l t v /\ t_target t = l /\ run_updates (t_updates t) v = v.
Proof.
  intros dim l v Iv. split; [|split; reflexivity]. split; [exact Iv|]. split; [|exact Iv].
  split; [eapply inv_at_ok; eauto|]. eexists. split; [left; reflexivity|]. intros c [].
Qed.
Print Assumptions C15_extra_actions.
Example C15_nonvacuous :
  (* right inputs may exceed left inputs, left outputs may exceed right outputs *)
  check_refinement 3 no_ext no_pext same_ord same_aord ts_g ts_b 12 <> Ok RNotSubset /\
  check_refinement 3 no_ext no_pext same_ord same_aord ts_b ts_g 12 = Ok RNotSubset /\
  check_refinement ex_dim no_ext no_pext same_ord same_aord ts_m ts_n 12 = Ok RNotDisjoint.
Proof. split; [vm_compute; discriminate|]. split; vm_compute; reflexivity. Qed.
