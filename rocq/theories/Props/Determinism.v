(** C16, C17: the determinism check. *)
From Coq Require Import List String ZArith QArith Bool Arith Lia Lqa.
From Verif Require Import Fed.Zone Fed.ZoneFacts Fed.Check Model.Base Model.Expr Model.Guard Model.Loc Model.Component Model.TS Model.Search
  Spec.StepSpec Spec.SystemSpec Spec.RunSpec Proofs.GuardFacts Proofs.StepFacts Proofs.SystemFacts Proofs.QuotientFacts Proofs.WfFacts
  Proofs.RunFacts Proofs.DetFacts Proofs.DetComp Proofs.DetFail Props.Examples.
Import ListNotations.
Local Open Scope string_scope.

(** *** C16 *)
(** [check_determinism] answering "no failure" (for any iteration order of the actions and
    any extrapolation that only enlarges zones) means that in every state some run of the
    whole system reaches, no two offered transitions of one action are possible together.
    Divisors of quotients must not themselves contain quotients, see [C16_..._refuted]. *)
Theorem C16_determinism_sound_partial : forall dim q ext ord fuel s,
  (forall s l f v, fsem dim f v -> fsem dim (ext s l f) v) ->
  (forall p l a, In a (ord p l) <-> In a l) ->
  built dim s -> clocks_ok dim q s -> reads_ok s -> no_reserved s = true -> plain_divisors s = true ->
  check_determinism dim ext ord fuel s = Ok None -> deterministic dim s.
Proof.
  intros dim q ext ord fuel s He Ho B K R N P H. exact (check_determinism_sound dim ext ord He Ho q s fuel B K R N P H).
Qed.
Print Assumptions C16_determinism_sound_partial.

(** The identity extrapolation and the listed order. *)
Lemma zero_ok dim : val_ok dim zero_val.
Proof. split; [reflexivity|]. intros i _. unfold zero_val. lra. Qed.

Definition no_ext : ts -> loctree -> fed -> fed := fun _ _ f => f.
Definition same_ord : list state -> list string -> list string := fun _ l => l.

Definition fclocks_inb (xs : list nat) (f : fed) : bool :=
  forallb (forallb (fun c => (Nat.eqb (ci c) 0 || existsb (Nat.eqb (ci c)) xs) && (Nat.eqb (cj c) 0 || existsb (Nat.eqb (cj c)) xs))) f.
Lemma fclocks_inb_spec xs f : fclocks_inb xs f = true -> fclocks_in xs f.
Proof.
  unfold fclocks_inb. rewrite forallb_forall. intros H z c Hz Hc. specialize (H z Hz). rewrite forallb_forall in H.
  specialize (H c Hc). apply andb_true_iff in H. rewrite !orb_true_iff, !Nat.eqb_eq, !existsb_exists in H.
  destruct H as [[H1|(x & X1 & X2)] [H2|(y & Y1 & Y2)]]; rewrite ?Nat.eqb_eq in *; subst; auto.
Qed.
Definition simple_readsb (c : ccomp) : bool :=
  let cl := map snd (d_clocks (cc_decls c)) in
  forallb (fun l => match lt_inv l with Some f => fclocks_inb cl f | None => true end) (cc_locs c) &&
  forallb (fun p => forallb (fun at' => fclocks_inb cl (t_guard (snd at'))) (snd p)) (cc_edges c).
Lemma simple_readsb_spec c : simple_readsb c = true -> reads_ok (TSimple c).
Proof.
  unfold simple_readsb. intros H. apply andb_true_iff in H. destruct H as [H1 H2]. rewrite forallb_forall in H1, H2. split.
  - intros l f Hl E. specialize (H1 l Hl). rewrite E in H1. apply fclocks_inb_spec. exact H1.
  - intros i es a t Hi Ht. specialize (H2 _ Hi). cbn [snd] in H2. rewrite forallb_forall in H2. specialize (H2 _ Ht).
    apply fclocks_inb_spec. exact H2.
Qed.
Lemma reads_m : reads_ok ts_m. Proof. apply simple_readsb_spec. vm_compute. reflexivity. Qed.
Lemma reads_n : reads_ok ts_n. Proof. apply simple_readsb_spec. vm_compute. reflexivity. Qed.
Lemma reads_m2 : reads_ok ts_m2. Proof. apply simple_readsb_spec. vm_compute. reflexivity. Qed.

Example C16_nonvacuous : built ex_dim ts_quot /\ clocks_ok ex_dim 3 ts_quot /\ reads_ok ts_quot /\ no_reserved ts_quot = true /\
  plain_divisors ts_quot = true /\ check_determinism ex_dim no_ext same_ord 50 ts_quot = Ok None /\
  reachable ex_dim ts_quot (lt_quotient (nth 0 (cc_locs cc_m) lt_any) (nth 0 (cc_locs cc_m2) lt_any)) zero_val.
Proof.
  split; [exact built_quot|]. split; [exact clocks_quot|]. split; [split; [exact reads_m|exact reads_m2]|].
  split; [reflexivity|]. split; [reflexivity|]. split; [vm_compute; reflexivity|].
  eexists. split; [vm_compute; reflexivity|]. split; [|constructor]. apply zero_ok.
Qed.

(** Finding: a quotient inside a divisor.  Both quotients pick the same name for their new
    input, so in [T \ (A \ B)] the new input is offered twice, although every component is
    deterministic and the check succeeds. *)
Definition comp_w (clk : nat) : component :=
  mkComp "W" (mkDecls [("x", clk)] [])
    [mkL "L0" (Some (BLessEQ (AVar "x") (AInt 1))) Initial "NORMAL"]
    [mkE "E0" "L0" "L0" SOutput None None "o"] None.
Definition cc_w clk := get no_cc (compile_component 5 (comp_w clk) clk).
Definition ts_in := get ts_m (quotient_new (TSimple (cc_w 1)) (TSimple (cc_w 2)) 4).
Definition ts_out := get ts_m (quotient_new (TSimple (cc_w 3)) ts_in 4).
Lemma built_w clk : In clk [1; 2; 3]%nat -> built 5 (TSimple (cc_w clk)).
Proof.
  intros H. apply (b_simple 5 (comp_w clk) [] ["o"] clk). destruct H as [<-|[<-|[<-|[]]]]; vm_compute; reflexivity.
Qed.
Lemma built_in : built 5 ts_in.
Proof. eapply b_quot; [apply (built_w 1)|apply (built_w 2)|vm_compute; reflexivity]; simpl; tauto. Qed.
Lemma built_out : built 5 ts_out.
Proof. eapply b_quot; [apply (built_w 3)|exact built_in|vm_compute; reflexivity]; simpl; tauto. Qed.

Lemma clocks_out : clocks_ok 5 4 ts_out.
Proof.
  split; [apply simple_clocks_okb_spec; vm_compute; reflexivity|]. split.
  - split; [apply simple_clocks_okb_spec; vm_compute; reflexivity|]. split; [apply simple_clocks_okb_spec; vm_compute; reflexivity|].
    split; [intros x [<-|[]] [E|[]]; vm_compute in E; discriminate|]. vm_compute. repeat split; auto; discriminate.
  - split; [intros x [<-|[]] [E|[E|[]]]; vm_compute in E; discriminate|]. vm_compute. repeat split; auto; discriminate.
Qed.
Lemma reads_out : reads_ok ts_out.
Proof. split; [|split]; apply simple_readsb_spec; vm_compute; reflexivity. Qed.
(** The initial location of [ts_out]; it carries no invariant. *)
Definition out_l0 : loctree :=
  lt_quotient (nth 0 (cc_locs (cc_w 3)) lt_any) (lt_quotient (nth 0 (cc_locs (cc_w 1)) lt_any) (nth 0 (cc_locs (cc_w 2)) lt_any)).
Lemma out_reach : reachable 5 ts_out out_l0 (vdelay zero_val 2).
Proof.
  exists out_l0. split; [vm_compute; reflexivity|]. split; [apply zero_ok|]. apply run_delay; [constructor|discriminate|].
  intros e He _. change (val_ok 5 (vdelay zero_val e)). apply vdelay_ok; [apply zero_ok|exact He].
Qed.

Theorem C16_nested_quotient_refuted : exists dim q ext ord fuel s,
  (forall s l f v, fsem dim f v -> fsem dim (ext s l f) v) /\ (forall p l a, In a (ord p l) <-> In a l) /\
  built dim s /\ clocks_ok dim q s /\ reads_ok s /\ no_reserved s = true /\
  check_determinism dim ext ord fuel s = Ok None /\ ~ deterministic dim s.
Proof.
  exists 5%nat, 4%nat, no_ext, same_ord, 20%nat, ts_out. split; [auto|]. split; [reflexivity|].
  split; [exact built_out|]. split; [exact clocks_out|]. split; [exact reads_out|]. split; [reflexivity|].
  split; [vm_compute; reflexivity|]. intros D.
  destruct (next_transitions 5 ts_out out_l0 "quotient_new_input0") as [ts| | |] eqn:E; try (vm_compute in E; discriminate).
  specialize (D _ _ _ _ out_reach (or_introl (or_introl eq_refl)) E).
  vm_compute in E. injection E as <-. refine (D 0%nat 2%nat _ _ _ eq_refl eq_refl _); [discriminate|].
  split; apply able_yes; vm_compute; reflexivity.
Qed.
Print Assumptions C16_nested_quotient_refuted.

(** *** C17 *)
(** A failure names a component, one of its locations (reached along its edges) and an
    action of which two offered transitions are possible together for some clock values.
    Missing for the full claim: those clock values need not be reachable, see below. *)
Theorem C17_failure_justified_partial : forall dim q ext ord fuel s a st,
  (forall p l b, In b (ord p l) <-> In b l) -> clocks_ok dim q s ->
  check_determinism dim ext ord fuel s = Ok (Some (a, st)) ->
  exists c, part_of c s /\ edge_reach dim c (s_loc st) /\ is_action c a /\
    exists ts i j t u v, next_transitions dim c (s_loc st) a = Ok ts /\ i <> j /\
      nth_error ts i = Some t /\ nth_error ts j = Some u /\ able dim (s_loc st) t v /\ able dim (s_loc st) u v.
Proof. intros dim q ext ord fuel s a st Ho K E. exact (check_determinism_fail dim ext ord Ho s q fuel a st K E). Qed.
Print Assumptions C17_failure_justified_partial.

(** Two edges that can really both be taken, one component inside a composition. *)
Definition comp_d : component :=
  mkComp "D" (mkDecls [("z", 2%nat)] [])
    [mkL "D0" None Initial "NORMAL"; mkL "D1" None Normal "NORMAL"]
    [mkE "E5" "D0" "D1" SInput (Some (BLessEQ (AVar "z") (AInt 4))) None "o";
     mkE "E6" "D0" "D0" SInput (Some (BGreatEQ (AVar "z") (AInt 4))) None "o"] None.
Definition cc_d := get no_cc (compile_component ex_dim comp_d 2).
Definition ts_d := get ts_m (composition_new ts_m (TSimple cc_d)).
Example C17_nonvacuous : clocks_ok ex_dim 3 ts_d /\ exists st, check_determinism ex_dim no_ext same_ord 20 ts_d = Ok (Some ("o", st)).
Proof.
  split; [|eexists; vm_compute; reflexivity].
  split; [exact clocks_m|]. split; [apply simple_clocks_okb_spec; vm_compute; reflexivity|].
  intros x [<-|[]] [E|[]]; vm_compute in E; discriminate.
Qed.

(** Finding: the search starts from all clock values, so it also reports overlaps that no
    run can reach.  Here x and y are never reset, both edges need x >= 5 and y <= 3. *)
Definition comp_f : component :=
  let g := BAnd (BGreatEQ (AVar "x") (AInt 5)) (BLessEQ (AVar "y") (AInt 3)) in
  mkComp "F" (mkDecls [("x", 1%nat); ("y", 2%nat)] [])
    [mkL "F0" None Initial "NORMAL"]
    [mkE "E7" "F0" "F0" SOutput (Some g) None "o"; mkE "E8" "F0" "F0" SOutput (Some g) None "o"] None.
Definition cc_f := get no_cc (compile_component ex_dim comp_f 1).
Definition ts_f := TSimple cc_f.
Lemma built_f : built ex_dim ts_f.
Proof. apply (b_simple ex_dim comp_f [] ["o"] 1). vm_compute. reflexivity. Qed.

Lemma f_equal_clocks l0 l v : run ex_dim ts_f l0 zero_val l v -> In l0 (all_locations ex_dim ts_f) ->
  In l (all_locations ex_dim ts_f) /\ (v 1%nat == v 2%nat)%Q.
Proof.
  intros R Hl. induction R as [|l' v' d R IH Hd Hi|l' v' a t R IH (Ha & ts & Ets & Ht) Hab].
  - split; [exact Hl|reflexivity].
  - destruct IH as [IH1 IH2]. split; [exact IH1|]. rewrite !vdelay_S by discriminate. rewrite IH2. reflexivity.
  - destruct IH as [[<-|[]] IH2]. destruct Ha as [[]|[<-|[]]]. vm_compute in Ets. injection Ets as <-.
    destruct Ht as [<-|[<-|[]]]; (split; [left; reflexivity|exact IH2]).
Qed.

Theorem C17_failure_unreachable_refuted : exists dim q ext ord fuel s a st,
  (forall s l f v, fsem dim (ext s l f) v <-> fsem dim f v) /\ (forall p l b, In b (ord p l) <-> In b l) /\
  built dim s /\ clocks_ok dim q s /\ check_determinism dim ext ord fuel s = Ok (Some (a, st)) /\ deterministic dim s.
Proof.
  exists ex_dim, 3%nat, no_ext, same_ord, 20%nat, ts_f. do 2 eexists. split; [reflexivity|]. split; [reflexivity|].
  split; [exact built_f|]. split; [apply simple_clocks_okb_spec; vm_compute; reflexivity|].
  split; [vm_compute; reflexivity|].
  intros l v a ts (l0 & Hi & _ & R) Ha Ets i j t u Nij Ei Ej [A1 _].
  destruct (f_equal_clocks l0 l v R) as [[<-|[]] Exy].
  { vm_compute in Hi. injection Hi as <-. left. reflexivity. }
  destruct Ha as [[]|[<-|[]]]. vm_compute in Ets. injection Ets as <-.
  apply nth_error_In in Ei. destruct A1 as (_ & (V & z & Hz & G) & _).
  assert (X : exists c1 c2, In c1 z /\ In c2 z /\ (csem c1 v -> csem c2 v -> False)).
  { destruct V as [V0 _]. destruct Ei as [<-|[<-|[]]]; destruct Hz as [<-|[]];
      (eexists; eexists; split; [left; reflexivity|]; split; [right; left; reflexivity|];
       cbv [csem ilt cs ci cj cc inject_Z]; rewrite ?V0; lra). }
  destruct X as (c1 & c2 & I1 & I2 & N). apply N; apply G; assumption.
Qed.
Print Assumptions C17_failure_unreachable_refuted.
