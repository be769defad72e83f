(** C18, C19: the consistency checks. *)
From Coq Require Import List String ZArith QArith Bool Arith Lia Lqa.
From Verif Require Import Fed.Zone Fed.ZoneFacts Fed.Check Model.Base Model.Expr Model.Guard Model.Loc Model.Component Model.TS Model.Search
  Spec.StepSpec Spec.SystemSpec Spec.RunSpec Spec.ConsistencySpec Proofs.GuardFacts Proofs.StepFacts Proofs.SystemFacts Proofs.QuotientFacts
  Proofs.WfFacts Proofs.RunFacts Proofs.DetFacts Proofs.ConsFacts Props.Examples Props.Determinism.
Import ListNotations.
Local Open Scope string_scope.

(** *** C18 *)
(** A positive answer yields a collection of symbolic states that contains the start and in
    which the system survives every input.  Proved for systems with at most one output
    transition per location; [C18_failed_state_reused_refuted] shows why. *)
Theorem C18_least_consistent_partial : forall dim q ext ord fuel s,
  (forall s l f v, fsem dim f v -> fsem dim (ext s l f) v) ->
  (forall p l a, In a (ord p l) <-> In a l) -> (forall p l, NoDup (ord p l)) ->
  built dim s -> clocks_ok dim q s -> single_output dim s ->
  is_least_consistent dim ext ord fuel s = Ok true ->
  exists W, starts_in dim s W /\ survives dim s W.
Proof.
  intros dim q ext ord fuel s He Ho Hn B K SO E. exact (least_consistent_sound dim ext ord He Ho Hn s q B K fuel SO E).
Qed.
Print Assumptions C18_least_consistent_partial.

(** The check of a composite system is the check of each of its components. *)
Theorem C18_every_component_partial : forall dim q ext ord fuel s,
  (forall s l f v, fsem dim f v -> fsem dim (ext s l f) v) ->
  (forall p l a, In a (ord p l) <-> In a l) -> (forall p l, NoDup (ord p l)) ->
  built dim s -> clocks_ok dim q s ->
  check_local_consistency dim ext ord fuel s = Ok true ->
  forall c, part_of c s -> single_output dim c -> exists W, starts_in dim c W /\ survives dim c W.
Proof.
  intros dim q ext ord fuel s He Ho Hn. induction 1 as [c ins outs id cc E|l r s Hl IHl Hr IHr E|l r s Hl IHl Hr IHr E|T S qc s HT IHT HS IHS E];
    intros K H c0 P SO.
  - cbn [part_of check_local_consistency] in *. subst c0.
    eapply (C18_least_consistent_partial dim q ext ord fuel); eauto. eapply b_simple; eauto.
  - apply conjunction_new_inv in E. destruct E as (-> & _ & _). cbn [check_local_consistency clocks_ok part_of] in *. inv_bind H.
    destruct a; [|discriminate]. destruct K as (K1 & K2 & _). destruct P; auto.
  - apply composition_new_inv in E. destruct E as (_ & ins & outs & lo & ro & co & -> & _).
    cbn [check_local_consistency clocks_ok part_of] in *. inv_bind H. destruct a; [|discriminate]. destruct K as (K1 & K2 & _). destruct P; auto.
  - apply quotient_new_inv in E. destruct E as (n & ins & outs & -> & _). cbn [check_local_consistency clocks_ok part_of] in *. inv_bind H.
    destruct a; [|discriminate]. destruct K as (K1 & K2 & _). destruct P; auto.
Qed.
Print Assumptions C18_every_component_partial.

Lemma id_nodup : forall (p : list state) (l : list string), NoDup (nodup string_dec l).
Proof. intros. apply NoDup_nodup. Qed.
(** An order that lists every action once. *)
Definition once_ord : list state -> list string -> list string := fun _ l => nodup string_dec l.

Example C18_nonvacuous : built ex_dim ts_m /\ clocks_ok ex_dim 3 ts_m /\ single_output ex_dim ts_m /\
  is_least_consistent ex_dim no_ext once_ord 20 ts_m = Ok true /\ (forall p l a, In a (once_ord p l) <-> In a l).
Proof.
  split; [exact built_m|]. split; [exact clocks_m|]. split.
  - intros l Hl a ts Ha E. destruct Ha as [<-|[]]. destruct Hl as [<-|[<-|[]]]; vm_compute in E; injection E as <-; [left; reflexivity|].
    right. split; [eexists; reflexivity|]. intros b [<-|[]] N. contradiction N; reflexivity.
  - split; [vm_compute; reflexivity|]. intros p l a. apply nodup_In.
Qed.

(** Finding: a state whose own branch failed stays in the passed list, so meeting it again
    counts as success.  S1 is a dead end.  S0 tries a! to S1 and fails, then b! to S2, whose
    only way on is c! to S1 again: accepted.  No strategy exists from the start. *)
Definition comp_s : component :=
  let i := Some (BLessEQ (AVar "x") (AInt 1)) in
  mkComp "S" (mkDecls [("x", 1%nat)] [])
    [mkL "S0" i Initial "NORMAL"; mkL "S1" i Normal "NORMAL"; mkL "S2" i Normal "NORMAL"]
    [mkE "E0" "S0" "S1" SOutput None None "a"; mkE "E1" "S0" "S2" SOutput None None "b";
     mkE "E2" "S2" "S1" SOutput None None "c"] None.
Definition cc_s := get no_cc (compile_component ex_dim comp_s 1).
Definition ts_s := TSimple cc_s.
Lemma built_s : built ex_dim ts_s.
Proof. apply (b_simple ex_dim comp_s [] ["a"; "b"; "c"] 1). vm_compute. reflexivity. Qed.
Definition s_l (i : nat) := nth i (cc_locs cc_s) lt_any.
Lemma s_no_wait i v : In i [0; 1; 2]%nat -> ~ forall d, (0 <= d)%Q -> inv_at ex_dim (s_l i) (vdelay v d).
Proof.
  intros Hi H. pose proof (H 0%Q ltac:(lra)) as H0.
  assert (V : val_ok ex_dim (vdelay v 0)) by (eapply inv_at_ok; exact H0). destruct V as [V0 VP]. rewrite vdelay_0 in V0.
  pose proof (VP 1%nat) as V1. rewrite vdelay_S in V1 by discriminate.
  specialize (H 2%Q ltac:(lra)).
  destruct Hi as [<-|[<-|[<-|[]]]]; destruct H as (_ & z & [<-|[]] & G); specialize (G _ (or_introl eq_refl));
    cbv [csem ilt cs ci cj cc inject_Z] in G; rewrite vdelay_0, vdelay_S in G by discriminate;
    assert (1 < ex_dim)%nat by (unfold ex_dim; lia); specialize (V1 H); cbn [sc_value] in G; change (1 - 0 # 1)%Q with 1%Q in G; lra.
Qed.
Lemma s_next i a t : In i [0; 1; 2]%nat -> is_output ts_s a -> offered ex_dim ts_s (s_l i) a t ->
  match i with O => t_target t = s_l 1 \/ t_target t = s_l 2 | 1%nat => False | _ => t_target t = s_l 1 end.
Proof.
  intros Hi Ha (_ & ts & E & Ht).
  destruct Hi as [<-|[<-|[<-|[]]]]; destruct Ha as [<-|[<-|[<-|[]]]]; vm_compute in E; injection E as <-;
    first [destruct Ht as [<-|[]]; vm_compute; auto; fail|destruct Ht].
Qed.
Lemma s_plain i : In i [0; 1; 2]%nat -> is_universal (s_l i) = true -> False.
Proof. intros [<-|[<-|[<-|[]]]]; vm_compute; discriminate. Qed.
Lemma s_dead R v : strategy ex_dim ts_s R -> ~ R (s_l 1) v.
Proof.
  intros St H. assert (I1 : In 1%nat [0; 1; 2]%nat) by (simpl; auto).
  destruct (St _ _ H) as [U|(_ & _ & [W|(d & a & t & _ & _ & Ha & Ho & _)])].
  - exact (s_plain 1 I1 U).
  - exact (s_no_wait 1 v I1 W).
  - exact (s_next 1 a t I1 Ha Ho).
Qed.

Theorem C18_failed_state_reused_refuted : exists dim q ext ord fuel s l0,
  (forall s l f v, fsem dim (ext s l f) v <-> fsem dim f v) /\
  (forall p l a, In a (ord p l) <-> In a l) /\ (forall p l, NoDup (ord p l)) /\
  built dim s /\ clocks_ok dim q s /\ initial_location dim s = Some l0 /\
  is_least_consistent dim ext ord fuel s = Ok true /\
  forall R, strategy dim s R -> ~ R l0 zero_val.
Proof.
  exists ex_dim, 3%nat, no_ext, once_ord, 20%nat, ts_s, (s_l 0). split; [reflexivity|]. split; [intros; apply nodup_In|].
  split; [exact id_nodup|]. split; [exact built_s|]. split; [apply simple_clocks_okb_spec; vm_compute; reflexivity|].
  split; [vm_compute; reflexivity|]. split; [vm_compute; reflexivity|].
  intros R St H. assert (I0 : In 0%nat [0; 1; 2]%nat) by (simpl; auto). assert (I2 : In 2%nat [0; 1; 2]%nat) by (simpl; auto).
  destruct (St _ _ H) as [U|(_ & _ & [W|(d & a & t & _ & _ & Ha & Ho & _ & H1)])].
  - exact (s_plain 0 I0 U).
  - exact (s_no_wait 0 _ I0 W).
  - destruct (s_next 0 a t I0 Ha Ho) as [E|E]; rewrite E in H1; [revert H1; apply s_dead; exact St|].
    destruct (St _ _ H1) as [U|(_ & _ & [W|(e & b & u & _ & _ & Hb & Hu & _ & H2)])].
    + exact (s_plain 2 I2 U).
    + exact (s_no_wait 2 _ I2 W).
    + pose proof (s_next 2 b u I2 Hb Hu) as E2. cbn iota in E2. rewrite E2 in H2. revert H2. apply s_dead; exact St.
Qed.
Print Assumptions C18_failed_state_reused_refuted.

(** *** C19 *)
(** A positive answer yields a collection of symbolic states that contains the start, is
    closed under every transition, and in which every state can wait forever, has an
    output, or has an input.  Missing: a state with inputs but no output may still be stuck,
    see [C19_stuck_state_refuted]. *)
Theorem C19_fully_consistent_partial : forall dim q ext ord fuel s,
  (forall s l f v, fsem dim f v -> fsem dim (ext s l f) v) -> (forall p l a, In a (ord p l) <-> In a l) ->
  built dim s -> clocks_ok dim q s -> is_fully_consistent dim ext ord fuel s = Ok true ->
  exists W, starts_in dim s W /\ forall x, In x W ->
    (forall a t, is_action s a -> offered dim s (s_loc x) a t -> possible dim x t -> into dim W x t) /\
    (can_wait dim x \/ (exists a t, is_output s a /\ offered dim s (s_loc x) a t /\ possible dim x t) \/
     exists a t, is_input s a /\ offered dim s (s_loc x) a t /\ possible dim x t).
Proof.
  intros dim q ext ord fuel s He Ho B K E. exact (fully_consistent_sound dim ext ord He Ho s q B K fuel E).
Qed.
Print Assumptions C19_fully_consistent_partial.

(** In particular, a system without inputs never gets stuck. *)
Theorem C19_closed_system_partial : forall dim q ext ord fuel s,
  (forall s l f v, fsem dim f v -> fsem dim (ext s l f) v) -> (forall p l a, In a (ord p l) <-> In a l) ->
  built dim s -> clocks_ok dim q s -> ts_inputs s = [] -> is_fully_consistent dim ext ord fuel s = Ok true ->
  exists W, starts_in dim s W /\ forall x, In x W ->
    (forall a t, is_action s a -> offered dim s (s_loc x) a t -> possible dim x t -> into dim W x t) /\
    (can_wait dim x \/ exists a t, is_output s a /\ offered dim s (s_loc x) a t /\ possible dim x t).
Proof.
  intros dim q ext ord fuel s He Ho B K Ni E. destruct (C19_fully_consistent_partial dim q ext ord fuel s He Ho B K E) as (W & H1 & H2).
  exists W. split; [exact H1|]. intros x Hx. destruct (H2 x Hx) as [C [D|[D|(a & t & Ha & _)]]]; auto.
  unfold is_input in Ha. rewrite Ni in Ha. destruct Ha.
Qed.
Print Assumptions C19_closed_system_partial.

(** A closed pulse: between 2 and 5 time units apart. *)
Definition comp_p : component :=
  mkComp "P" (mkDecls [("x", 1%nat)] [])
    [mkL "P0" (Some (BLessEQ (AVar "x") (AInt 5))) Initial "NORMAL"; mkL "P1" (Some (BLessEQ (AVar "x") (AInt 3))) Normal "NORMAL"]
    [mkE "E0" "P0" "P1" SOutput (Some (BGreatEQ (AVar "x") (AInt 2))) (Some [("x", AInt 0)]) "o";
     mkE "E1" "P1" "P0" SOutput None (Some [("x", AInt 0)]) "p"] None.
Definition ts_p := TSimple (get no_cc (compile_component 2 comp_p 1)).
Example C19_nonvacuous : built 2 ts_p /\ clocks_ok 2 3 ts_p /\ ts_inputs ts_p = [] /\
  is_fully_consistent 2 no_ext same_ord 20 ts_p = Ok true.
Proof.
  split; [apply (b_simple 2 comp_p [] ["o"; "p"] 1); vm_compute; reflexivity|].
  split; [apply simple_clocks_okb_spec; vm_compute; reflexivity|]. split; [reflexivity|]. vm_compute; reflexivity.
Qed.

(** Finding: whether a state without outputs may wait is read off the last element of the
    passed list, which an input has moved to another state.  In T0 time stops at x = 1 and
    there is no output at all, yet the check succeeds. *)
Definition comp_t : component :=
  mkComp "T" (mkDecls [("x", 1%nat)] [])
    [mkL "T0" (Some (BLessEQ (AVar "x") (AInt 1))) Initial "NORMAL"; mkL "T1" None Normal "NORMAL"]
    [mkE "E0" "T0" "T1" SInput None None "i"] None.
Definition cc_t := get no_cc (compile_component ex_dim comp_t 1).
Definition ts_t := TSimple cc_t.
Definition t_l0 := Eval vm_compute in nth 0 (cc_locs cc_t) lt_any.

Theorem C19_stuck_state_refuted : exists dim q ext ord fuel s l v,
  (forall s l f v, fsem dim (ext s l f) v <-> fsem dim f v) /\ (forall p l a, In a (ord p l) <-> In a l) /\
  built dim s /\ clocks_ok dim q s /\ is_fully_consistent dim ext ord fuel s = Ok true /\
  reachable dim s l v /\ (forall d, (0 < d)%Q -> ~ inv_at dim l (vdelay v d)) /\
  forall a t, is_output s a -> ~ offered dim s l a t.
Proof.
  exists ex_dim, 3%nat, no_ext, same_ord, 20%nat, ts_t, t_l0, (vdelay zero_val 1).
  split; [reflexivity|]. split; [reflexivity|].
  split; [apply (b_simple ex_dim comp_t ["i"] [] 1); vm_compute; reflexivity|].
  split; [apply simple_clocks_okb_spec; vm_compute; reflexivity|]. split; [vm_compute; reflexivity|]. split; [|split].
  - exists t_l0. split; [vm_compute; reflexivity|]. split; [apply inv_atb_spec; vm_compute; reflexivity|].
    apply run_delay; [constructor|lra|]. intros e He He1. split; [apply vdelay_ok; [apply zero_ok|exact He]|].
    eexists. split; [left; reflexivity|]. intros c [<-|[]]. cbv [csem ilt cs ci cj cc inject_Z].
    rewrite vdelay_0, vdelay_S by discriminate. unfold zero_val. cbn [sc_value]. lra.
  - intros d Hd (_ & z & [<-|[]] & G). specialize (G _ (or_introl eq_refl)). cbv [csem ilt cs ci cj cc inject_Z] in G.
    rewrite !vdelay_0 in G. rewrite !vdelay_S in G by discriminate. unfold zero_val in G. lra.
  - intros a t [].
Qed.
Print Assumptions C19_stuck_state_refuted.
