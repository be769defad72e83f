(** C57-C60: the laws of refinement that a user who replaces, combines and divides specifications relies on. *)
From Coq Require Import List String ZArith QArith Bool Arith Lia Lqa.
From Verif Require Import Fed.Zone Fed.ZoneFacts Fed.Check Model.Base Model.Expr Model.Guard Model.Loc Model.Component Model.TS Model.Search Model.PairList Model.Refine
  Spec.StepSpec Spec.SystemSpec Spec.RunSpec Spec.RefineSpec Spec.LawSpec Proofs.GuardFacts Proofs.StepFacts Proofs.SystemFacts Proofs.QuotientFacts Proofs.WfFacts
  Proofs.RunFacts Proofs.LawFacts Proofs.LawProofs Proofs.LawQuot Proofs.LawSym Proofs.LawMore
  Props.Examples Props.Determinism Props.Reachability Props.Refinement.
Import ListNotations.
Local Open Scope string_scope.

(** *** C57 *)
(** A conjunction refines its left and its right operand, if it has an initial state and the other operand never refuses an input. *)
Theorem C57_below_left : forall dim A B s, good dim A -> good dim B -> separate A B -> conjunction_new A B = Ok s ->
  accepting dim B -> (forall a, is_input A a -> is_input B a) -> can_start dim s -> refines dim s A.
Proof. exact conj_below. Qed.
Print Assumptions C57_below_left.
Theorem C57_below_right : forall dim A B s, good dim A -> good dim B -> separate A B -> conjunction_new A B = Ok s ->
  accepting dim A -> (forall a, is_input B a -> is_input A a) -> can_start dim s -> refines dim s B.
Proof. exact conj_below_right. Qed.
Print Assumptions C57_below_right.
(** Whatever refines both operands refines the conjunction. *)
Theorem C57_greatest : forall dim X A B s, good dim X -> good dim A -> good dim B -> separate A B -> conjunction_new A B = Ok s ->
  deterministic dim X -> (forall a, is_output X a -> (is_output A a <-> is_output B a)) -> (forall a, is_input X a -> is_input s a) ->
  refines dim X A -> refines dim X B -> refines dim X s.
Proof. exact conj_above. Qed.
Print Assumptions C57_greatest.
(** So for specifications with the same actions, to refine the conjunction is to refine both operands. *)
Theorem C57_conjunction : forall dim X A B s, good dim X -> good dim A -> good dim B -> separate A B -> conjunction_new A B = Ok s ->
  deterministic dim X -> accepting dim A -> accepting dim B -> can_start dim s ->
  (forall a, is_output A a <-> is_output B a) -> (forall a, is_input A a <-> is_input B a) -> (forall a, is_input X a -> is_input A a) ->
  (refines dim X s <-> refines dim X A /\ refines dim X B).
Proof.
  intros dim X A B s GX GA GB Sp E D AA AB St Ho Hi HX.
  assert (Os : forall a, is_output s a <-> is_output A a /\ is_output B a) by (intros a; apply (conj_alphabet A B s E a)).
  assert (Is : forall a, is_input s a <-> is_input A a /\ is_input B a) by (intros a; apply (conj_alphabet A B s E a)).
  split.
  - intros R. split.
    + apply (trans_refines dim X s A); [intros a _ H; apply Os; split; [exact H|apply Ho, H]|intros a _ H; apply Is; split; [exact H|apply Hi, H]|exact R|].
      apply (conj_below dim A B s); auto. apply Hi.
    + apply (trans_refines dim X s B); [intros a _ H; apply Os; split; [apply Ho, H|exact H]|intros a _ H; apply Is; split; [apply Hi, H|exact H]|exact R|].
      apply (conj_below_right dim A B s); auto. apply Hi.
  - intros [RA RB]. apply (conj_above dim X A B s); auto. intros a H. apply Is. split; [apply HX, H|apply Hi, HX, H].
Qed.
Print Assumptions C57_conjunction.

(** What the theorems ask of a system, checked by computation. *)
Lemma good_check c ins outs id cc : compile_with_actions 5 c ins outs id = Ok cc -> simple_clocks_okb 5 4 cc = true -> simple_readsb cc = true -> good 5 (TSimple cc).
Proof. intros E K R. constructor; [eapply b_simple; exact E|apply simple_readsb_spec; exact R|exists 4%nat; apply simple_clocks_okb_spec; exact K]. Qed.
Lemma det_check s : good 5 s -> no_reserved s = true -> plain_divisors s = true -> check_determinism 5 no_ext same_ord 100 s = Ok None -> deterministic 5 s.
Proof.
  intros [B R (q & K)] N P H. apply (C16_determinism_sound_partial 5 q no_ext same_ord 100 s); auto. intros p l a. reflexivity.
Qed.
Lemma ref_check s1 s2 : good 5 s1 -> good 5 s2 -> separate s1 s2 -> forallb (upperb 5) (all_locations 5 s2) = true ->
  match initial_location 5 s1, initial_location 5 s2 with Some l1, Some l2 => lt_inv l1 = None /\ lt_inv l2 = None | _, _ => False end ->
  check_refinement 5 no_ext no_pext same_ord same_aord s1 s2 100 = Ok RSuccess -> refines 5 s1 s2.
Proof.
  intros [B1 R1 (q1 & K1)] [B2 R2 (q2 & K2)] Sp U I H. eapply C13_success_sound_partial; [| |exact B1|exact B2|exact K1|exact K2|exact R1|exact R2|exact Sp| | |exact H].
  - intros; assumption.
  - intros; reflexivity.
  - apply no_gaps_upper', upper_check, U.
  - destruct (initial_location 5 s1) eqn:E1; [|contradiction]. destruct (initial_location 5 s2) eqn:E2; [|contradiction].
    apply starts_free; intros l' E; [rewrite E1 in E|rewrite E2 in E]; injection E as <-; [apply no_inv_zero|]; apply I.
Qed.
Lemma start_check s : match initial_location 5 s with Some l => lt_inv l = None | None => False end -> can_start 5 s.
Proof. destruct (initial_location 5 s) as [l|] eqn:E; [|contradiction]. intros I. exists l. split; [exact E|apply no_inv_zero, I]. Qed.

(** Answers the input i with the output o, not before [lo] and not after [hi]. *)
Definition answering (name clock : string) (n : nat) (lo hi : Z) : component :=
  mkComp name (mkDecls [(clock, n)] [])
    [mkL "W" None Initial "NORMAL"; mkL "A" (Some (BLessEQ (AVar clock) (AInt hi))) Normal "NORMAL"]
    [mkE "E1" "W" "A" SInput None (Some [(clock, AInt 0)]) "i"; mkE "E2" "A" "W" SOutput (Some (BGreatEQ (AVar clock) (AInt lo))) None "o";
     mkE "E3" "A" "A" SInput None None "i"] None.
Definition mk5 (c : component) (clk : nat) : ts := TSimple (get no_cc (compile_component 5 c clk)).
Definition law_a := Eval vm_compute in mk5 (answering "A" "x" 1 2 5) 1.
Definition law_b := Eval vm_compute in mk5 (answering "B" "y" 2 3 6) 2.
Definition law_x := Eval vm_compute in mk5 (answering "X" "z" 3 3 4) 3.
Definition law_ab := Eval vm_compute in get law_a (conjunction_new law_a law_b).
Lemma good_a : good 5 law_a. Proof. apply (good_check (answering "A" "x" 1 2 5) ["i"] ["o"] 1); vm_compute; reflexivity. Qed.
Lemma good_b : good 5 law_b. Proof. apply (good_check (answering "B" "y" 2 3 6) ["i"] ["o"] 2); vm_compute; reflexivity. Qed.
Lemma good_x : good 5 law_x. Proof. apply (good_check (answering "X" "z" 3 3 4) ["i"] ["o"] 3); vm_compute; reflexivity. Qed.
Example C57_nonvacuous : good 5 law_x /\ good 5 law_a /\ good 5 law_b /\ separate law_a law_b /\ conjunction_new law_a law_b = Ok law_ab /\
  deterministic 5 law_x /\ accepting 5 law_a /\ accepting 5 law_b /\ can_start 5 law_ab /\
  (forall a, is_output law_a a <-> is_output law_b a) /\ (forall a, is_input law_a a <-> is_input law_b a) /\ (forall a, is_input law_x a -> is_input law_a a) /\
  refines 5 law_x law_a /\ refines 5 law_x law_b.
Proof.
  split; [exact good_x|]. split; [exact good_a|]. split; [exact good_b|]. split; [apply separate_check; reflexivity|]. split; [vm_compute; reflexivity|].
  split; [apply det_check; [exact good_x|reflexivity|reflexivity|vm_compute; reflexivity]|].
  split; [apply accepting_check; [exact good_a|vm_compute; reflexivity]|]. split; [apply accepting_check; [exact good_b|vm_compute; reflexivity]|].
  split; [apply start_check; vm_compute; reflexivity|]. split; [reflexivity|]. split; [reflexivity|]. split; [auto|].
  split; apply ref_check; first [exact good_x|exact good_a|exact good_b|apply separate_check; reflexivity|vm_compute; auto].
Qed.

(** *** C58 *)
(** A part of a composition can be replaced by a refinement of it. *)
Theorem C58_replace_left : forall dim A1 A2 B s1 s2, good dim A1 -> good dim A2 -> good dim B -> separate A1 B -> separate A2 B ->
  io_disjoint A1 -> io_disjoint A2 -> io_disjoint B -> composition_new A1 B = Ok s1 -> composition_new A2 B = Ok s2 ->
  alphabets_fit A1 A2 -> (forall a, is_output A1 a -> ~ is_output A2 a -> ~ is_action B a) ->
  deterministic dim A1 -> accepting dim A2 -> can_start dim B -> refines dim A1 A2 -> refines dim s1 s2.
Proof. exact comp_monotone. Qed.
Print Assumptions C58_replace_left.
(** Both parts can be replaced. *)
Theorem C58_replace_both : forall dim A1 A2 B1 B2 s1 s2, good dim A1 -> good dim A2 -> good dim B1 -> good dim B2 ->
  separate A1 B1 -> separate A2 B1 -> separate A2 B2 -> io_disjoint A1 -> io_disjoint A2 -> io_disjoint B1 -> io_disjoint B2 ->
  composition_new A1 B1 = Ok s1 -> composition_new A2 B2 = Ok s2 -> alphabets_fit A1 A2 -> alphabets_fit B1 B2 ->
  (forall a, is_output A1 a -> ~ is_output A2 a -> ~ is_action B1 a) -> (forall a, is_output B1 a -> ~ is_output B2 a -> ~ is_action A2 a) ->
  deterministic dim A1 -> deterministic dim B1 -> accepting dim A2 -> accepting dim B2 -> can_start dim A2 -> can_start dim B1 -> can_start dim B2 ->
  refines dim A1 A2 -> refines dim B1 B2 -> refines dim s1 s2.
Proof. exact comp_monotone_both. Qed.
Print Assumptions C58_replace_both.

(** A client that sends i, not before [lo] and not after [hi] time units since the last answer. *)
Definition asking (name clock : string) (n : nat) (lo : Z) : component :=
  mkComp name (mkDecls [(clock, n)] [])
    [mkL "R" None Initial "NORMAL"; mkL "S" None Normal "NORMAL"]
    [mkE "E1" "R" "S" SOutput (Some (BGreatEQ (AVar clock) (AInt lo))) None "i"; mkE "E2" "S" "R" SInput None (Some [(clock, AInt 0)]) "o";
     mkE "E3" "R" "R" SInput None (Some [(clock, AInt 0)]) "o"] None.
Definition law_l := Eval vm_compute in mk5 (answering "L" "x" 1 3 4) 1.
Definition law_k := Eval vm_compute in mk5 (answering "K" "y" 2 2 5) 2.
Definition law_c1 := Eval vm_compute in mk5 (asking "C" "z" 3 2) 3.
Definition law_c2 := Eval vm_compute in mk5 (asking "D" "u" 4 1) 4.
Definition law_lc := Eval vm_compute in get law_a (composition_new law_l law_c1).
Definition law_kd := Eval vm_compute in get law_a (composition_new law_k law_c2).
Lemma good_check0 c ins outs id cc : compile_with_actions 5 c ins outs id = Ok cc -> simple_clocks_okb 5 0 cc = true -> simple_readsb cc = true -> good 5 (TSimple cc).
Proof. intros E K R. constructor; [eapply b_simple; exact E|apply simple_readsb_spec; exact R|exists 0%nat; apply simple_clocks_okb_spec; exact K]. Qed.
Lemma good_l : good 5 law_l. Proof. apply (good_check0 (answering "L" "x" 1 3 4) ["i"] ["o"] 1); vm_compute; reflexivity. Qed.
Lemma good_k : good 5 law_k. Proof. apply (good_check0 (answering "K" "y" 2 2 5) ["i"] ["o"] 2); vm_compute; reflexivity. Qed.
Lemma good_c1 : good 5 law_c1. Proof. apply (good_check0 (asking "C" "z" 3 2) ["o"] ["i"] 3); vm_compute; reflexivity. Qed.
Lemma good_c2 : good 5 law_c2. Proof. apply (good_check0 (asking "D" "u" 4 1) ["o"] ["i"] 4); vm_compute; reflexivity. Qed.
Lemma fit_check s1 s2 : ts_inputs s1 = ts_inputs s2 -> ts_outputs s1 = ts_outputs s2 -> io_disjoint s1 -> alphabets_fit s1 s2.
Proof. unfold alphabets_fit, io_disjoint, is_input, is_output. intros -> -> D. auto. Qed.
Example C58_nonvacuous : good 5 law_l /\ good 5 law_k /\ good 5 law_c1 /\ good 5 law_c2 /\
  separate law_l law_c1 /\ separate law_k law_c1 /\ separate law_k law_c2 /\ io_disjoint law_l /\ io_disjoint law_k /\ io_disjoint law_c1 /\ io_disjoint law_c2 /\
  composition_new law_l law_c1 = Ok law_lc /\ composition_new law_k law_c2 = Ok law_kd /\ alphabets_fit law_l law_k /\ alphabets_fit law_c1 law_c2 /\
  (forall a, is_output law_l a -> ~ is_output law_k a -> ~ is_action law_c1 a) /\ (forall a, is_output law_c1 a -> ~ is_output law_c2 a -> ~ is_action law_k a) /\
  deterministic 5 law_l /\ deterministic 5 law_c1 /\ accepting 5 law_k /\ accepting 5 law_c2 /\ can_start 5 law_k /\ can_start 5 law_c1 /\ can_start 5 law_c2 /\
  refines 5 law_l law_k /\ refines 5 law_c1 law_c2.
Proof.
  assert (D : io_disjoint law_l /\ io_disjoint law_c1) by (split; intros a; apply apart_check; reflexivity). destruct D as [D1 D2].
  split; [exact good_l|]. split; [exact good_k|]. split; [exact good_c1|]. split; [exact good_c2|].
  do 3 (split; [apply separate_check; reflexivity|]). do 4 (split; [intros a; apply apart_check; reflexivity|]).
  do 2 (split; [vm_compute; reflexivity|]). do 2 (split; [apply fit_check; [reflexivity|reflexivity|assumption]|]). do 2 (split; [intros a H N; destruct (N H)|]).
  split; [apply det_check; [exact good_l|reflexivity|reflexivity|vm_compute; reflexivity]|]. split; [apply det_check; [exact good_c1|reflexivity|reflexivity|vm_compute; reflexivity]|].
  split; [apply accepting_check; [exact good_k|vm_compute; reflexivity]|]. split; [apply accepting_check; [exact good_c2|vm_compute; reflexivity]|].
  do 3 (split; [apply start_check; vm_compute; reflexivity|]).
  split; apply ref_check; first [exact good_l|exact good_k|exact good_c1|exact good_c2|apply separate_check; reflexivity|vm_compute; auto].
Qed.

(** *** C59 *)
(** A component that refines the quotient T \\ S, and receives nothing but what T receives and S sends, does together with S what T asks. *)
Theorem C59_quotient_suffices : forall dim T S q Q X s,
  good dim T -> good dim S -> good dim Q -> separate T S -> quotient_new T S q = Ok Q ->
  good dim X -> separate S X -> composition_new S X = Ok s -> alphabets_fit X Q -> (forall a, is_input X a -> is_input T a \/ is_output S a) ->
  deterministic dim S -> accepting dim S -> can_start dim S -> deterministic dim X -> lively dim X (is_output Q) ->
  refines dim X Q -> refines dim s T.
Proof.
  intros dim T S q Q X s GT GS GQ Sp E GX SX EC Fit HX DS AS CS DX LX R. pose proof (quotient_new_inv T S q Q E) as (n & i & o & -> & _ & _ & Nt & Ns & _ & _).
  apply (quot_to_comp dim T S i o n q GT GS GQ Sp E X s GX SX EC Fit DS AS CS DX LX); [|exact R]. intros H. destruct (HX n H); contradiction.
Qed.
Print Assumptions C59_quotient_suffices.
(** Every component that does together with S what T asks refines the quotient: the quotient is the weakest such specification. *)
Theorem C59_quotient_weakest : forall dim T S q Q X s,
  good dim T -> good dim S -> good dim Q -> separate T S -> quotient_new T S q = Ok Q ->
  good dim X -> separate S X -> composition_new S X = Ok s -> alphabets_fit X Q ->
  deterministic dim S -> accepting dim S -> no_gaps dim S -> can_start dim S -> deterministic dim T -> accepting dim X -> can_start dim X -> io_disjoint Q ->
  refines dim s T -> refines dim X Q.
Proof.
  intros dim T S q Q X s GT GS GQ Sp E GX SX EC Fit DS AS NS CS DT AX CX IQ R. pose proof (quotient_new_inv T S q Q E) as (n & i & o & -> & _).
  apply (comp_to_quot dim T S i o n q GT GS GQ Sp E X s GX SX EC Fit DS AS NS DT AX IQ R CX CS).
Qed.
Print Assumptions C59_quotient_weakest.

(** T answers i with o between 2 and 5; S passes i on as m between 2 and 3; X answers m with o within 1. *)
Definition stage (name clock : string) (n : nat) (inp out : string) (lo hi : Z) : component :=
  mkComp name (mkDecls [(clock, n)] [])
    [mkL "W" None Initial "NORMAL"; mkL "A" (Some (BLessEQ (AVar clock) (AInt hi))) Normal "NORMAL"; mkL "D" None Normal "NORMAL"]
    [mkE "E1" "W" "A" SInput None (Some [(clock, AInt 0)]) inp; mkE "E2" "A" "D" SOutput (Some (BGreatEQ (AVar clock) (AInt lo))) None out;
     mkE "E3" "A" "A" SInput None None inp; mkE "E4" "D" "D" SInput None None inp] None.
Definition law_t := Eval vm_compute in mk5 (stage "T" "x" 1 "i" "o" 2 5) 1.
Definition law_s := Eval vm_compute in mk5 (stage "S" "y" 2 "i" "m" 2 3) 2.
Definition law_w := Eval vm_compute in mk5 (stage "X" "z" 3 "m" "o" 0 1) 3.
Definition law_q := Eval vm_compute in get law_a (quotient_new law_t law_s 4).
Definition law_sw := Eval vm_compute in get law_a (composition_new law_s law_w).
Lemma good_t : good 5 law_t. Proof. apply (good_check (stage "T" "x" 1 "i" "o" 2 5) ["i"] ["o"] 1); vm_compute; reflexivity. Qed.
Lemma good_s : good 5 law_s. Proof. apply (good_check (stage "S" "y" 2 "i" "m" 2 3) ["i"] ["m"] 2); vm_compute; reflexivity. Qed.
Lemma good_w : good 5 law_w. Proof. apply (good_check (stage "X" "z" 3 "m" "o" 0 1) ["m"] ["o"] 3); vm_compute; reflexivity. Qed.
Lemma ok5 c : simple_clocks_okb 5 4 c = true -> clocks_ok 5 4 (TSimple c). Proof. apply simple_clocks_okb_spec. Qed.
Lemma good_q : good 5 law_q.
Proof.
  constructor; [apply (b_quot 5 law_t law_s 4); [apply good_t|apply good_s|vm_compute; reflexivity]|split; [apply good_t|apply good_s]|].
  exists 4%nat. split; [apply ok5; vm_compute; reflexivity|]. split; [apply ok5; vm_compute; reflexivity|]. split; [|split; [reflexivity|split; [discriminate|vm_compute; repeat constructor]]].
  intros x [<-|[]] [K|[]]. discriminate.
Qed.
Lemma good_sw : good 5 law_sw.
Proof.
  constructor; [apply (b_comp 5 law_s law_w); [apply good_s|apply good_w|vm_compute; reflexivity]|split; [apply good_s|apply good_w]|].
  exists 4%nat. split; [apply ok5; vm_compute; reflexivity|]. split; [apply ok5; vm_compute; reflexivity|]. intros x [<-|[]] [K|[]]. discriminate.
Qed.
Example C59_nonvacuous : good 5 law_t /\ good 5 law_s /\ good 5 law_q /\ separate law_t law_s /\ quotient_new law_t law_s 4 = Ok law_q /\
  good 5 law_w /\ separate law_s law_w /\ composition_new law_s law_w = Ok law_sw /\ alphabets_fit law_w law_q /\ (forall a, is_input law_w a -> is_input law_t a \/ is_output law_s a) /\
  deterministic 5 law_s /\ accepting 5 law_s /\ no_gaps 5 law_s /\ can_start 5 law_s /\ deterministic 5 law_t /\ deterministic 5 law_w /\ lively 5 law_w (is_output law_q) /\
  accepting 5 law_w /\ can_start 5 law_w /\ io_disjoint law_q /\ refines 5 law_sw law_t /\ refines 5 law_w law_q.
Proof.
  assert (H : good 5 law_t /\ good 5 law_s /\ good 5 law_q /\ separate law_t law_s /\ quotient_new law_t law_s 4 = Ok law_q /\
  good 5 law_w /\ separate law_s law_w /\ composition_new law_s law_w = Ok law_sw /\ alphabets_fit law_w law_q /\ (forall a, is_input law_w a -> is_input law_t a \/ is_output law_s a) /\
  deterministic 5 law_s /\ accepting 5 law_s /\ no_gaps 5 law_s /\ can_start 5 law_s /\ deterministic 5 law_t /\ deterministic 5 law_w /\ lively 5 law_w (is_output law_q) /\
  accepting 5 law_w /\ can_start 5 law_w /\ io_disjoint law_q /\ refines 5 law_sw law_t).
  2:{ do 20 (destruct H as [? H]). do 21 (split; [assumption|]). eapply (C59_quotient_weakest 5 law_t law_s 4 law_q law_w law_sw); assumption. }
  split; [exact good_t|]. split; [exact good_s|]. split; [exact good_q|]. split; [apply separate_check; reflexivity|]. split; [vm_compute; reflexivity|].
  split; [exact good_w|]. split; [apply separate_check; reflexivity|]. split; [vm_compute; reflexivity|].
  split; [split; [|split; [|split]]; intros a; [apply apart_check|apply apart_check|apply subset_check|apply subset_check]; reflexivity|].
  split; [intros a [<-|[]]; right; left; reflexivity|].
  split; [apply det_check; [exact good_s|reflexivity|reflexivity|vm_compute; reflexivity]|]. split; [apply accepting_check; [exact good_s|vm_compute; reflexivity]|].
  split; [apply no_gaps_upper', upper_check; vm_compute; reflexivity|]. split; [apply start_check; vm_compute; reflexivity|].
  split; [apply det_check; [exact good_t|reflexivity|reflexivity|vm_compute; reflexivity]|]. split; [apply det_check; [exact good_w|reflexivity|reflexivity|vm_compute; reflexivity]|].
  split; [apply (lively_check 5 law_w (ts_outputs law_q)); [exact good_w|intros a; apply subset_check; reflexivity|vm_compute; reflexivity]|].
  split; [apply accepting_check; [exact good_w|vm_compute; reflexivity]|]. split; [apply start_check; vm_compute; reflexivity|].
  split; [intros a; apply apart_check; reflexivity|].
  apply ref_check; first [exact good_sw|exact good_t|apply separate_check; reflexivity|vm_compute; auto].
Qed.

(** *** C60 *)
(** Neither the order nor the grouping of the operands of a conjunction or composition matters: each side refines the other. *)
Theorem C60_conjunction_order : forall dim A B s s', good dim A -> good dim B -> separate A B ->
  conjunction_new A B = Ok s -> conjunction_new B A = Ok s' -> can_start dim s -> can_start dim s' -> refines dim s s' /\ refines dim s' s.
Proof.
  intros dim A B s s' GA GB Sp E E' St St'. split; [apply (conj_comm dim A B s s' GA GB Sp E E'), start_able, St|apply (conj_comm dim B A s' s GB GA (separate_sym A B Sp) E' E), start_able, St'].
Qed.
Print Assumptions C60_conjunction_order.
Theorem C60_composition_order : forall dim A B s s', good dim A -> good dim B -> separate A B ->
  composition_new A B = Ok s -> composition_new B A = Ok s' -> can_start dim s -> can_start dim s' -> refines dim s s' /\ refines dim s' s.
Proof.
  intros dim A B s s' GA GB Sp E E' St St'. split; [apply (comp_comm dim A B s s' GA GB Sp E E'), start_able, St|apply (comp_comm dim B A s' s GB GA (separate_sym A B Sp) E' E), start_able, St'].
Qed.
Print Assumptions C60_composition_order.
Theorem C60_conjunction_grouping : forall dim A B C AB BC s1 s2, good dim A -> good dim B -> good dim C -> good dim AB -> good dim BC ->
  separate A B -> separate A C -> separate B C ->
  conjunction_new A B = Ok AB -> conjunction_new B C = Ok BC -> conjunction_new AB C = Ok s1 -> conjunction_new A BC = Ok s2 ->
  can_start dim s1 -> refines dim s1 s2 /\ refines dim s2 s1.
Proof.
  intros dim A B C AB BC s1 s2 GA GB GC GAB GBC SAB SAC SBC EAB EBC E1 E2 St.
  pose proof (proj1 (conjunction_new_inv A B AB EAB)) as Xab. pose proof (proj1 (conjunction_new_inv B C BC EBC)) as Xbc.
  apply (conj_assoc dim A B C AB BC); auto.
  - rewrite Xab. intros x Hx. cbn [sys_clocks] in Hx. apply in_app_or in Hx. destruct Hx; auto.
  - rewrite Xbc. intros x Hx Hc. cbn [sys_clocks] in Hc. apply in_app_or in Hc. destruct Hc; [eapply SAB|eapply SAC]; eauto.
  - rewrite Xab. cbn [sys_clocks]. split; intros; apply in_or_app; auto.
  - rewrite Xbc. cbn [sys_clocks]. split; intros; apply in_or_app; auto.
  - apply start_able, St.
Qed.
Print Assumptions C60_conjunction_grouping.
Theorem C60_composition_grouping : forall dim A B C AB BC s1 s2, good dim A -> good dim B -> good dim C -> good dim AB -> good dim BC ->
  separate A B -> separate A C -> separate B C ->
  composition_new A B = Ok AB -> composition_new B C = Ok BC -> composition_new AB C = Ok s1 -> composition_new A BC = Ok s2 ->
  can_start dim s1 -> refines dim s1 s2 /\ refines dim s2 s1.
Proof.
  intros dim A B C AB BC s1 s2 GA GB GC GAB GBC SAB SAC SBC EAB EBC E1 E2 St.
  pose proof (composition_new_inv A B AB EAB) as (_ & ? & ? & ? & ? & ? & Xab & _). pose proof (composition_new_inv B C BC EBC) as (_ & ? & ? & ? & ? & ? & Xbc & _).
  apply (comp_assoc dim A B C AB BC); auto.
  - rewrite Xab. intros y Hx. cbn [sys_clocks] in Hx. apply in_app_or in Hx. destruct Hx; auto.
  - rewrite Xbc. intros y Hx Hc. cbn [sys_clocks] in Hc. apply in_app_or in Hc. destruct Hc; [eapply SAB|eapply SAC]; eauto.
  - rewrite Xab. cbn [sys_clocks]. split; intros; apply in_or_app; auto.
  - rewrite Xbc. cbn [sys_clocks]. split; intros; apply in_or_app; auto.
  - apply start_able, St.
Qed.
Print Assumptions C60_composition_grouping.

Definition law_bx := Eval vm_compute in get law_a (conjunction_new law_b law_x).
Lemma good_conj c1 c2 s : good 5 (TSimple c1) -> good 5 (TSimple c2) -> simple_clocks_okb 5 4 c1 = true -> simple_clocks_okb 5 4 c2 = true -> separate (TSimple c1) (TSimple c2) ->
  conjunction_new (TSimple c1) (TSimple c2) = Ok s -> good 5 s.
Proof.
  intros G1 G2 K1 K2 Sp E. pose proof (b_conj 5 _ _ s (g_built _ _ G1) (g_built _ _ G2) E) as B. destruct (conjunction_new_inv _ _ s E) as (-> & _).
  constructor; [exact B|split; [apply G1|apply G2]|]. exists 4%nat. split; [apply ok5, K1|]. split; [apply ok5, K2|exact Sp].
Qed.
Lemma good_comp c1 c2 s : good 5 (TSimple c1) -> good 5 (TSimple c2) -> simple_clocks_okb 5 4 c1 = true -> simple_clocks_okb 5 4 c2 = true -> separate (TSimple c1) (TSimple c2) ->
  composition_new (TSimple c1) (TSimple c2) = Ok s -> good 5 s.
Proof.
  intros G1 G2 K1 K2 Sp E. pose proof (b_comp 5 _ _ s (g_built _ _ G1) (g_built _ _ G2) E) as B. destruct (composition_new_inv _ _ s E) as (_ & ? & ? & ? & ? & ? & -> & _).
  constructor; [exact B|split; [apply G1|apply G2]|]. exists 4%nat. split; [apply ok5, K1|]. split; [apply ok5, K2|exact Sp].
Qed.
(** A third stage, for the pipeline S || X || Y. *)
Definition law_y := Eval vm_compute in mk5 (stage "Y" "x" 1 "o" "p" 1 2) 1.
Definition law_wy := Eval vm_compute in get law_a (composition_new law_w law_y).
Lemma good_y : good 5 law_y. Proof. apply (good_check (stage "Y" "x" 1 "o" "p" 1 2) ["o"] ["p"] 1); vm_compute; reflexivity. Qed.
Example C60_nonvacuous :
  (good 5 law_a /\ good 5 law_b /\ good 5 law_x /\ good 5 law_ab /\ good 5 law_bx /\ separate law_a law_b /\ separate law_a law_x /\ separate law_b law_x /\
   conjunction_new law_a law_b = Ok law_ab /\ conjunction_new law_b law_x = Ok law_bx /\ can_start 5 law_ab /\
   exists s1 s2 s', conjunction_new law_ab law_x = Ok s1 /\ conjunction_new law_a law_bx = Ok s2 /\ conjunction_new law_b law_a = Ok s' /\ can_start 5 s1 /\ can_start 5 s') /\
  (good 5 law_s /\ good 5 law_w /\ good 5 law_y /\ good 5 law_sw /\ good 5 law_wy /\ separate law_s law_w /\ separate law_s law_y /\ separate law_w law_y /\
   composition_new law_s law_w = Ok law_sw /\ composition_new law_w law_y = Ok law_wy /\ can_start 5 law_sw /\
   exists s1 s2 s', composition_new law_sw law_y = Ok s1 /\ composition_new law_s law_wy = Ok s2 /\ composition_new law_w law_s = Ok s' /\ can_start 5 s1 /\ can_start 5 s').
Proof.
  split.
  - split; [exact good_a|]. split; [exact good_b|]. split; [exact good_x|].
    split; [eapply (good_conj _ _ _ good_a good_b); first [apply separate_check; reflexivity|vm_compute; reflexivity]|].
    split; [eapply (good_conj _ _ _ good_b good_x); first [apply separate_check; reflexivity|vm_compute; reflexivity]|].
    do 3 (split; [apply separate_check; reflexivity|]). do 2 (split; [vm_compute; reflexivity|]). split; [apply start_check; vm_compute; reflexivity|].
    do 3 eexists. do 3 (split; [reflexivity|]). split; apply start_check; vm_compute; reflexivity.
  - split; [exact good_s|]. split; [exact good_w|]. split; [exact good_y|]. split; [exact good_sw|].
    split; [eapply (good_comp _ _ _ good_w good_y); first [apply separate_check; reflexivity|vm_compute; reflexivity]|].
    do 3 (split; [apply separate_check; reflexivity|]). do 2 (split; [vm_compute; reflexivity|]). split; [apply start_check; vm_compute; reflexivity|].
    do 3 eexists. do 3 (split; [reflexivity|]). split; apply start_check; vm_compute; reflexivity.
Qed.

(** *** Where the assumptions are needed *)
(** If one operand refuses an input, so does the conjunction, which then does not refine the other operand. *)
Definition refusing : component := mkComp "R" (mkDecls [("y", 2%nat)] []) [mkL "W" None Initial "NORMAL"] [] None.
Definition law_r := Eval vm_compute in TSimple (get no_cc (compile_with_actions 5 refusing ["i"] ["o"] 2)).
Theorem C57_acceptance_needed : exists dim A B s, good dim A /\ good dim B /\ separate A B /\ conjunction_new A B = Ok s /\ deterministic dim A /\ deterministic dim B /\
  accepting dim A /\ (forall a, is_input A a <-> is_input B a) /\ (forall a, is_output A a <-> is_output B a) /\ can_start dim s /\ ~ refines dim s A.
Proof.
  assert (G : good 5 law_r) by (apply (good_check refusing ["i"] ["o"] 2); vm_compute; reflexivity).
  exists 5%nat, law_a, law_r. eexists. split; [exact good_a|]. split; [exact G|]. split; [apply separate_check; reflexivity|]. split; [vm_compute; reflexivity|].
  split; [apply det_check; [exact good_a|reflexivity|reflexivity|vm_compute; reflexivity]|]. split; [apply det_check; [exact G|reflexivity|reflexivity|vm_compute; reflexivity]|].
  split; [apply accepting_check; [exact good_a|vm_compute; reflexivity]|]. split; [reflexivity|]. split; [reflexivity|]. split; [apply start_check; vm_compute; reflexivity|].
  unfold refines. match goal with |- context [initial_location 5 ?x] => let r := eval vm_compute in (initial_location 5 x) in change (initial_location 5 x) with r end.
  cbv iota. match goal with |- context [initial_location 5 law_a] => let r := eval vm_compute in (initial_location 5 law_a) in change (initial_location 5 law_a) with r end. cbv iota.
  intros (R & HR & R0). rewrite refinement_can in HR. destruct (HR _ _ _ _ R0) as (_ & _ & _ & In & _).
  assert (C : exists l' v', can 5 law_a (nth 0 (all_locations 5 law_a) lt_any) zero_val "i" l' v').
  { destruct (covers_spec 5 law_a (nth 0 (all_locations 5 law_a) lt_any) "i" zero_val good_a) as (t & O & Ab);
      [vm_compute; auto|left; left; reflexivity|vm_compute; reflexivity|apply no_inv_zero; reflexivity|]. exists (t_target t), (run_updates (t_updates t) zero_val), t. auto. }
  destruct C as (l' & v' & C). destruct (proj1 (In "i" l' v' (or_introl eq_refl) C) (or_introl eq_refl)) as (p' & w' & (t & (_ & ts & E & Ht) & _) & _).
  vm_compute in E. injection E as <-. destruct Ht.
Qed.
Print Assumptions C57_acceptance_needed.
