(** C01, C02: guards and the simplifier. *)
From Coq Require Import List String ZArith QArith Bool Arith.
From Verif Require Import Fed.Zone Fed.ZoneFacts Fed.Check Model.Base Model.Expr Model.Guard Spec.GuardSpec
  Proofs.GuardFacts Proofs.SimplifyFacts.
Import ListNotations.
Local Open Scope Q_scope.
Local Open Scope string_scope.

(** The declarations used in the examples: clocks x, y and integer n = 3. *)
Definition ex_decls : decls := mkDecls [("x", 1%nat); ("y", 2%nat)] [("n", 3%Z)].

(** *** C01 *)

(** On guards whose comparison sides are linear sums, an answer is exactly the set of
    valuations satisfying the guard.  Missing for the full statement: sides with nested
    subtraction or multiplication around a clock, where it is false (below). *)
Theorem C01_guard_application_partial : forall dim d g f f',
  simple_guard d g = true -> apply_constraints dim g d f = Ok f' ->
  forall v, fsem dim f' v <-> fsem dim f v /\ bsat d v g.
Proof. intros dim d g f f' H E. exact (apply_constraints_sound dim d g H f f' E). Qed.
Print Assumptions C01_guard_application_partial.

(** A clock against a constant expression, two clocks, or a difference of clocks against a
    constant expression, combined with && and ||: there is always an answer and it is exact. *)
Theorem C01_basic_guards_exact : forall dim d g f,
  basic_guard d g = true ->
  exists f', apply_constraints dim g d f = Ok f' /\
    forall v, fsem dim f' v <-> fsem dim f v /\ bsat d v g.
Proof.
  intros dim d g f H. destruct (basic_apply dim d g H f) as [f' E]. exists f'. split; [exact E|].
  exact (apply_constraints_sound dim d g (basic_simple d g H) f f' E).
Qed.
Print Assumptions C01_basic_guards_exact.

(** (x >= 2 && x - y <= 2*n) || n < y, applied to the universe. *)
Definition ex_guard : bexpr :=
  BOr (BAnd (BGreatEQ (AVar "x") (AInt 2))
            (BLessEQ (ADifference (AVar "x") (AVar "y")) (AMultiplication (AInt 2) (AVar "n"))))
      (BLessT (AVar "n") (AVar "y")).
Example C01_basic_nonvacuous :
  basic_guard ex_decls ex_guard = true /\ simple_guard ex_decls ex_guard = true /\
  (exists f', apply_constraints 3 ex_guard ex_decls funiv = Ok f' /\
    fsem 3 f' (mkval [5; 1]) /\ ~ fsem 3 f' (mkval [1; 1])).
Proof.
  split; [reflexivity|]. split; [reflexivity|]. eexists. split; [vm_compute; reflexivity|].
  split; [apply fsem_yes|apply fsem_no]; vm_compute; reflexivity.
Qed.
(** A guard outside the basic fragment with an answer: x + 1 + n <= 10 - y is rejected, but
    x + 1 + n <= 10 + y is accepted and exact. *)
Example C01_simple_nonvacuous :
  let g := BLessEQ (AAddition (AAddition (AVar "x") (AInt 1)) (AVar "n")) (AAddition (AInt 10) (AVar "y")) in
  simple_guard ex_decls g = true /\ basic_guard ex_decls g = false /\
  (exists f', apply_constraints 3 g ex_decls funiv = Ok f' /\
    fsem 3 f' (mkval [7; 1]) /\ ~ fsem 3 f' (mkval [8; 1])).
Proof.
  split; [reflexivity|]. split; [reflexivity|]. eexists. split; [vm_compute; reflexivity|].
  split; [apply fsem_yes|apply fsem_no]; vm_compute; reflexivity.
Qed.

(** The full statement is false: "x - 5 + 3 <= 10" accepts x = 15. *)
Theorem C01_guard_application_refuted : exists dim d g f f' v,
  apply_constraints dim g d f = Ok f' /\ fsem dim f' v /\ ~ bsat d v g.
Proof.
  exists 2%nat, ex_decls, (BLessEQ (AAddition (ADifference (AVar "x") (AInt 5)) (AInt 3)) (AInt 10)), funiv.
  eexists. exists (mkval [15]). split; [vm_compute; reflexivity|]. split.
  - apply fsem_yes. vm_compute. reflexivity.
  - intros (a & b & Ha & Hb & H). cbn in Ha, Hb. injection Ha as <-. injection Hb as <-. revert H. vm_compute. intros H. apply H. reflexivity.
Qed.
Print Assumptions C01_guard_application_refuted.

(** It is also false in the other direction: "x - 5 - 3 <= 10" rejects x = 15. *)
Theorem C01_guard_too_strong_refuted : exists dim d g f f' v,
  apply_constraints dim g d f = Ok f' /\ fsem dim f v /\ bsat d v g /\ ~ fsem dim f' v.
Proof.
  exists 2%nat, ex_decls, (BLessEQ (ADifference (ADifference (AVar "x") (AInt 5)) (AInt 3)) (AInt 10)), funiv.
  eexists. exists (mkval [15]). split; [vm_compute; reflexivity|]. split; [|split].
  - apply fsem_yes. vm_compute. reflexivity.
  - exists (15 - inject_Z 5 - inject_Z 3), (inject_Z 10). split; [reflexivity|]. split; [reflexivity|].
    vm_compute. discriminate.
  - apply fsem_no. vm_compute. reflexivity.
Qed.
Print Assumptions C01_guard_too_strong_refuted.

(** *** C02 *)

(** Linear sums of clocks and literals keep their value.  Missing: nested subtraction and
    products around clocks, where the statement is false. *)
Theorem C02_simplify_linear_partial : forall d e r,
  plain_side e = true -> simplify e = Ok r -> same_value d e r.
Proof. exact simplify_plain. Qed.
Print Assumptions C02_simplify_linear_partial.

(** Expressions without clocks and names, with all five operators: a result has the same
    value, and whenever the expression has a value the result is that literal. *)
Theorem C02_simplify_closed : forall e,
  closed_expr e = true ->
  (forall d r, simplify e = Ok r -> same_value d e r) /\
  (forall k, ieval no_names e = Some k -> simplify e = Ok (AInt k)).
Proof. intros e H. split; [intros d r; exact (simplify_closed d e r H)|intros k; exact (simplify_closed_total e k H)]. Qed.
Print Assumptions C02_simplify_closed.

(** Products, quotients and remainders of clocks are reported: of a clock and anything, and of a number and a clock. *)
Lemma closed_count e : closed_expr e = true -> clock_var_count e = 0%nat.
Proof. induction e; cbn [closed_expr clock_var_count]; intros H; try discriminate; try reflexivity; apply andb_true_iff in H; destruct H; rewrite IHe1, IHe2 by assumption; reflexivity. Qed.
Theorem C02_clock_products : forall mk x e, In mk [AMultiplication; ADivision; AModulo] ->
  simplify (mk (AClock x) e) = Err /\ (closed_expr e = true -> simplify (mk e (AClock x)) = Err).
Proof.
  intros mk x e H. destruct H as [<-|[<-|[<-|[]]]]; (split; [reflexivity|intros C; apply closed_count in C; unfold simplify; cbn [clock_var_count pull_all move_clock_and_vars]; rewrite C; reflexivity]).
Qed.
Print Assumptions C02_clock_products.
Example C02_clock_products_nonvacuous : simplify (AMultiplication (AInt 2) (AClock 1)) = Err /\ exists r, simplify (AAddition (AInt 2) (AClock 1)) = Ok r.
Proof. split; [reflexivity|]. eexists. vm_compute. reflexivity. Qed.

Example C02_nonvacuous :
  let e := AAddition (AAddition (AInt 3) (AClock 1)) (AAddition (ADifference (AInt 4) (AClock 2)) (AInt 5)) in
  plain_side e = true /\ (exists r, simplify e = Ok r /\ r <> e) /\
  (let c := ADivision (AMultiplication (AInt 7) (AInt 3)) (ADifference (AInt 4) (AInt 2)) in
   closed_expr c = true /\ ieval no_names c = Some 10%Z).
Proof.
  split; [reflexivity|]. split; [|split; reflexivity].
  eexists. split; [vm_compute; reflexivity|discriminate].
Qed.

(** x - 5 + 3 is simplified to x - 8. *)
Theorem C02_simplify_refuted : exists e r, simplify e = Ok r /\ ~ same_value no_names e r.
Proof.
  exists (AAddition (ADifference (AClock 1) (AInt 5)) (AInt 3)). eexists. split; [vm_compute; reflexivity|].
  intros H. destruct (H (mkval [15]) _ eq_refl) as (q & E & Q). cbn in E. injection E as <-.
  vm_compute in Q. discriminate.
Qed.
Print Assumptions C02_simplify_refuted.

(** ** Conjunctions *)
Lemma conj_rev_sat d v gs : bsat d v (conj_rev gs) <-> gs <> [] /\ forall g, In g gs -> bsat d v g.
Proof.
  induction gs as [|g [|h gs] IH].
  - cbn. split; [discriminate|intros [H _]; contradiction].
  - cbn. split; [intros H; split; [discriminate|intros x [<-|[]]; exact H]|intros [_ H]; apply H; left; reflexivity].
  - change (bsat d v (conj_rev (g :: h :: gs))) with (bsat d v g /\ bsat d v (conj_rev (h :: gs))). rewrite IH. split.
    + intros (A & _ & B). split; [discriminate|]. intros x [<-|Hx]; [exact A|apply B; exact Hx].
    + intros (_ & H). split; [apply H; left; reflexivity|]. split; [discriminate|intros x Hx; apply H; right; exact Hx].
Qed.
(** The conjunction of some guards holds exactly where all of them hold. *)
Theorem C01_conjunction : forall d v gs, gs <> [] -> (bsat d v (conjunction gs) <-> forall g, In g gs -> bsat d v g).
Proof.
  intros d v gs N. unfold conjunction. rewrite conj_rev_sat. split.
  - intros [_ H] g Hg. apply H. apply in_rev in Hg. exact Hg.
  - intros H. split; [intros E; apply N; rewrite <- (rev_involutive gs), E; reflexivity|]. intros g Hg. apply H. apply in_rev. exact Hg.
Qed.
Print Assumptions C01_conjunction.
(** The conjunction of no guards should hold everywhere; it holds nowhere. *)
Theorem C01_no_conjunction_refuted : forall d v, (forall g, In g [] -> bsat d v g) /\ ~ bsat d v (conjunction []).
Proof. intros d v. split; [intros g []|cbn; discriminate]. Qed.
Print Assumptions C01_no_conjunction_refuted.
Example C01_conjunction_nonvacuous : let gs := [BLessEQ (AClock 1) (AInt 3); BGreatEQ (AClock 1) (AInt 2); BBool true] in
  gs <> [] /\ conjunction gs = BAnd (BBool true) (BAnd (BGreatEQ (AClock 1) (AInt 2)) (BLessEQ (AClock 1) (AInt 3))).
Proof. split; [discriminate|reflexivity]. Qed.
