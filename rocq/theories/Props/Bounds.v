(** C33: maximum bounds dominate every constant a clock is compared with. *)
From Coq Require Import List String ZArith QArith Bool Arith Lqa.
From Verif Require Import Fed.Zone Fed.ZoneFacts Fed.Check Model.Base Model.Expr Model.Guard Model.Loc Model.Component Model.TS
  Spec.GuardSpec Spec.StepSpec Spec.SystemSpec Spec.BoundSpec Proofs.GuardFacts Proofs.BoundFacts Proofs.WfFacts Props.Examples.
Import ListNotations.
Local Open Scope string_scope.

(** C33, the part that holds: the bound of a clock is at least every number the clock is
    compared with, on either side of the comparison, in any guard or invariant.  Missing:
    constants which are not written as a single number, see the refutation below. *)
Theorem C33_bounds_partial c i k : compared_literal c i k -> exists m, get_max_bounds c i = Some m /\ (k <= m)%Z.
Proof. exact (bounds_dominate c i k). Qed.
Print Assumptions C33_bounds_partial.

(** C33: what the bounds are for.  A guard or invariant comparing clocks with numbers does
    not tell apart valuations which differ only in clocks beyond their bounds. *)
Theorem C33_indistinguishable c g v w : condition c g -> literal_guard (c_decls c) g -> alike (get_max_bounds c) v w ->
  (bsat (c_decls c) v g <-> bsat (c_decls c) w g).
Proof. exact (alike_guard c g v w). Qed.
Print Assumptions C33_indistinguishable.

(** C33 for systems: in every location of a built system the bounds can be asked for, and
    they are at least the bounds of every component that takes part (is neither universal
    nor inconsistent there). *)
Theorem C33_system dim s loc : built dim s -> In loc (all_locations dim s) ->
  exists b, local_bounds s loc = Ok b /\
    forall c l i k, part s loc c l -> is_universal l = false -> is_inconsistent l = false ->
      cc_bounds c i = Some k -> exists m, b i = Some m /\ (k <= m)%Z.
Proof.
  intros B L. destruct (local_bounds_total dim s B loc L) as (b & E). exists b. split; [exact E|].
  intros c l i k P U I Ek. apply (local_bounds_dominate s loc b c l i k E P U I). exists k. split; [exact Ek|apply Z.le_refl].
Qed.
Print Assumptions C33_system.

(** The bounds of a compiled component are those of the component. *)
Theorem C33_compiled dim c ins outs id cc : compile_with_actions dim c ins outs id = Ok cc -> cc_bounds cc = get_max_bounds c.
Proof. intros E. unfold compile_with_actions in E. destruct (negb (disjoint ins outs)); [discriminate|]. GuardFacts.inv_bind E. GuardFacts.inv_bind E. match type of E with (if ?b then _ else _) = _ => destruct b; [|discriminate] end. injection E as <-. reflexivity. Qed.
Print Assumptions C33_compiled.

(** M compares its clock with 5 in an invariant and with 2 in a guard. *)
Lemma m_clock : the_clock (c_decls (comp_m 1)) (AVar "x") 1.
Proof. split; [left; reflexivity|]. right. exists "x". split; reflexivity. Qed.
Example C33_nonvacuous :
  compared_literal (comp_m 1) 1 5 /\ compared_literal (comp_m 1) 1 2 /\ get_max_bounds (comp_m 1) 1%nat = Some 5%Z /\
  (exists g, condition (comp_m 1) g /\ literal_guard (c_decls (comp_m 1)) g /\
     exists v w, alike (get_max_bounds (comp_m 1)) v w /\ ~ (v 1%nat == w 1%nat)%Q /\ bsat (c_decls (comp_m 1)) v g) /\
  exists loc l1 l2, In loc (all_locations ex_dim ts_comp) /\ part ts_comp loc cc_m l1 /\ part ts_comp loc cc_n l2 /\
    is_universal l1 = false /\ is_inconsistent l1 = false /\ cc_bounds cc_m 1%nat = Some 5%Z.
Proof.
  assert (C5 : condition (comp_m 1) (BLessEQ (AVar "x") (AInt 5))) by (right; eexists; split; [right; left; reflexivity|reflexivity]).
  assert (C2 : condition (comp_m 1) (BGreatEQ (AVar "x") (AInt 2))) by (left; eexists; split; [right; left; reflexivity|reflexivity]).
  split; [exists (BLessEQ (AVar "x") (AInt 5)), (AVar "x"), (AInt 5); split; [exact C5|]; split; [constructor|left; split; [exact m_clock|reflexivity]]|].
  split; [exists (BGreatEQ (AVar "x") (AInt 2)), (AVar "x"), (AInt 2); split; [exact C2|]; split; [constructor|left; split; [exact m_clock|reflexivity]]|].
  split; [vm_compute; reflexivity|]. split.
  - exists (BGreatEQ (AVar "x") (AInt 2)). split; [exact C2|]. split.
    { intros l r A. inversion A; subst. exists 1%nat, 2%Z. left. split; [exact m_clock|reflexivity]. }
    exists (fun i => if Nat.eqb i 1 then 6 else 0)%Q, (fun i => if Nat.eqb i 1 then 7 else 0)%Q. split.
    + intros i k. destruct i as [|[|i]]; [vm_compute; intros E; discriminate| |vm_compute; intros E; discriminate].
      intros E. assert (k = 5%Z) by (vm_compute in E; congruence). subst k. right. split; reflexivity.
    + split; [intros E; discriminate|]. cbn. exists 6%Q, (inject_Z 2). repeat split. discriminate.
  - exists (nth 0 (all_locations ex_dim ts_comp) lt_universal), (nth 0 (cc_locs cc_m) lt_universal), (nth 0 (cc_locs cc_n) lt_universal).
    split; [apply nth_In; vm_compute; auto 6|].
    split; [eapply part_comp_l; [vm_compute; reflexivity|apply part_simple]|].
    split; [eapply part_comp_r; [vm_compute; reflexivity|apply part_simple]|]. vm_compute. auto.
Qed.

(** C33 as stated is false: the guard x <= 5 + 5 is enforced as x <= 10, but the bound of x
    is 0; valuations beyond the bound are told apart. *)
Definition comp_ten : component :=
  mkComp "T" (mkDecls [("x", 1%nat)] []) [mkL "L0" None Initial "NORMAL"]
    [mkE "E1" "L0" "L0" SOutput (Some (BLessEQ (AVar "x") (AAddition (AInt 5) (AInt 5)))) None "o"] None.
Theorem C33_compound_refuted : exists c i k, compared c i k /\ get_max_bounds c i = Some 0%Z /\ (0 < k)%Z /\
  exists g v w, condition c g /\ alike (get_max_bounds c) v w /\ bsat (c_decls c) v g /\ ~ bsat (c_decls c) w g.
Proof.
  exists comp_ten, 1%nat, 10%Z.
  assert (C : condition comp_ten (BLessEQ (AVar "x") (AAddition (AInt 5) (AInt 5)))) by (left; eexists; split; [left; reflexivity|reflexivity]).
  split; [|split; [vm_compute; reflexivity|split; [reflexivity|]]].
  - exists (BLessEQ (AVar "x") (AAddition (AInt 5) (AInt 5))), (AVar "x"), (AAddition (AInt 5) (AInt 5)). split; [exact C|]. split; [constructor|].
    left. split; [|reflexivity]. split; [left; reflexivity|]. right. exists "x". split; reflexivity.
  - exists (BLessEQ (AVar "x") (AAddition (AInt 5) (AInt 5))), (fun _ => 1%Q), (fun _ => 11%Q). split; [exact C|]. split.
    + intros i k. destruct i as [|[|i]]; [vm_compute; intros E; discriminate| |vm_compute; intros E; discriminate].
      intros E. assert (k = 0%Z) by (vm_compute in E; congruence). subst k. right. split; reflexivity.
    + split; [cbn; exists 1%Q, (5 + 5)%Q; repeat split; discriminate|].
      cbn. intros (a & b & Ea & Eb & H). injection Ea as <-. injection Eb as <-. apply H. reflexivity.
Qed.
Print Assumptions C33_compound_refuted.

(** A clock compared with another clock has bound 0 too, whatever the offset. *)
Example C33_difference :
  let c := mkComp "D" (mkDecls [("x", 1%nat); ("y", 2%nat)] []) [mkL "L0" None Initial "NORMAL"]
    [mkE "E1" "L0" "L0" SOutput (Some (BLessEQ (ADifference (AVar "x") (AVar "y")) (AInt 7))) None "o"] None in
  get_max_bounds c 1%nat = Some 0%Z /\ get_max_bounds c 2%nat = Some 0%Z.
Proof. vm_compute. auto. Qed.
