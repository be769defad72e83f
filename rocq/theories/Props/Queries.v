(** C24 and C45: system expressions and queries written to text and read again. *)
From Coq Require Import List String Ascii ZArith Bool Arith Lia.
From Verif Require Import Model.Base Model.Peg Model.ParseQuery Spec.TextSpec Spec.QuerySpec Proofs.ParseFacts Proofs.QueryFacts.
Import ListNotations.
Local Open Scope string_scope.

(** ** C24 *)
(** Every system expression with proper names is read back as itself... *)
Theorem C24_system_expressions : forall e, sys_legible e -> parse_to_system_expr (print_sys e) = Ok e.
Proof. exact system_reload. Qed.
Print Assumptions C24_system_expressions.
(** ... and whatever text a user writes, the expression read from it is printed as a text that reads as the same expression. *)
Theorem C24_user_text : forall s e, parse_to_system_expr s = Ok e -> parse_to_system_expr (print_sys e) = Ok e.
Proof. intros s e H. apply system_reload. exact (parsed_legible s e H). Qed.
Print Assumptions C24_user_text.
(** Precedence and associativity: the text with as few parentheses as possible reads as the same expression too. *)
Theorem C24_precedence : forall e, sys_legible e -> parse_to_system_expr (print_min e) = Ok e.
Proof. exact minimal_reload. Qed.
Print Assumptions C24_precedence.

Lemma good_A : good_name "A". Proof. exists "A"%char, []. repeat split; try reflexivity. intros ? []. Qed.
Lemma good_B : good_name "Bike_2". Proof. exists "B"%char, (txt "ike_2"). repeat split; try reflexivity. intros x H. repeat (destruct H as [<-|H]; [reflexivity|]). destruct H. Qed.
Lemma good_i : good_id "a b".
Proof.
  exists "a"%char, (txt " b"). split; [reflexivity|]. split; [|split; [reflexivity|discriminate]].
  intros x H. repeat (destruct H as [<-|H]; [split; discriminate|]). destruct H.
Qed.
(** A \\ A || Bike_2[a b] && (A \\ A) \\ A && A || A *)
Definition ex_sys : sysx :=
  let a := XComp "A" None in let b := XComp "Bike_2" (Some "a b") in
  XQuot (XQuot a (XPar a (XConj b (XQuot a a)))) (XPar (XConj a a) a).
Example C24_nonvacuous : sys_legible ex_sys /\
  print_sys ex_sys = txt "((A \\ (A || (Bike_2[a b] && (A \\ A)))) \\ ((A && A) || A))" /\
  print_min ex_sys = txt "A \\ A || Bike_2[a b] && (A \\ A) \\ A && A || A" /\
  parse_to_system_expr (txt "A \\ A || Bike_2[a b] && (A \\ A) \\ A && A || A") = Ok ex_sys.
Proof.
  assert (L : sys_legible ex_sys) by (cbn; repeat split; try (exact good_A || exact good_B || exact good_i)).
  split; [exact L|]. split; [reflexivity|]. split; [reflexivity|]. exact (minimal_reload _ L).
Qed.

(** ** C45 *)
(** The full claim: every list of queries is read back as itself.  It holds for queries without a save-as
    name whose states contain no disjunction and no negation. *)
Theorem C45_queries_partial : forall q qs, (forall x, In x (q :: qs) -> query_legible x) ->
  parse_queries (joined (txt "; ") (map print_query (q :: qs))) = Ok (q :: qs).
Proof. exact queries_reload. Qed.
Print Assumptions C45_queries_partial.
(** States: without disjunctions they are read as themselves, with any disjunction the program aborts. *)
Theorem C45_states : forall e, state_legible e -> parse_to_state_expr (print_state e) = if no_or e then Ok e else Panic.
Proof. exact state_reload. Qed.
Print Assumptions C45_states.
(** A component that is to be saved changes places with its new name... *)
Theorem C45_save_as_refuted : exists q q', parse_queries (print_query q) = Ok [q'] /\
  q = QGetComponent (XComp "A" None) (Some "B") /\ q' = QGetComponent (XComp "B" None) (Some "A").
Proof. do 2 eexists. split; [|split; reflexivity]. vm_compute. reflexivity. Qed.
Print Assumptions C45_save_as_refuted.
(** ... and a compound system with a new name is not read at all. *)
Theorem C45_save_as_compound_refuted : exists s n, sys_legible s /\ good_name n /\ parse_queries (print_query (QGetComponent s (Some n))) = Err.
Proof. exists (XPar (XComp "A" None) (XComp "A" None)), "A". split; [cbn; repeat split; exact good_A|]. split; [exact good_A|]. vm_compute. reflexivity. Qed.
Print Assumptions C45_save_as_compound_refuted.
(** A disjunction of states, which the grammar allows, aborts the program. *)
Theorem C45_disjunction_refuted : exists s, s = txt "reachability: A @ init -> A.x || A.y" /\ parse_queries s = Panic.
Proof. eexists. split; [reflexivity|]. vm_compute. reflexivity. Qed.
Print Assumptions C45_disjunction_refuted.
(** So does the negation of any state, however it was built ... *)
Theorem C45_negation_refuted : forall e, state_legible e -> parse_to_state_expr (print_state (SNot e)) = Panic.
Proof. exact negation_aborts. Qed.
Print Assumptions C45_negation_refuted.
(** ... and two negations are read as one. *)
Theorem C45_double_negation_refuted : parse_to_state_expr (txt "!!A.x") = Ok (SNot (SLoc (mkVar "A" None "x"))) /\
  parse_to_state_expr (txt "not not A.x") = Ok (SNot (SLoc (mkVar "A" None "x"))).
Proof. split; vm_compute; reflexivity. Qed.
Print Assumptions C45_double_negation_refuted.
(** A component whose name starts with "not" cannot be used in a state. *)
Theorem C45_not_name_refuted : exists n, good_name n /\ parse_to_state_expr (print_state (SLoc (mkVar n None "A"))) = Panic.
Proof. exists "notA". split; [exists "n"%char, (txt "otA"); repeat split; try reflexivity; intros x H; repeat (destruct H as [<-|H]; [reflexivity|]); destruct H|]. vm_compute. reflexivity. Qed.
Print Assumptions C45_not_name_refuted.

(** reachability: (A || Bike_2) @ init -> (A.A && (A.A - Bike_2.A) < 5); refinement: A <= A *)
Definition ex_queries : list query :=
  [QReachability (XPar (XComp "A" None) (XComp "Bike_2" None)) None
     (SAnd [SLoc (mkVar "A" None "A"); SCmp RLt (ODiff (OClk (mkVar "A" None "A")) (OClk (mkVar "Bike_2" None "A"))) (ONum 5)]);
   QRefinement (XComp "A" None) ex_sys].
Lemma no_not_A : no_not "A". Proof. intros m E. discriminate. Qed.
Lemma no_not_B : no_not "Bike_2". Proof. intros m E. discriminate. Qed.
Example C45_nonvacuous : (forall x, In x ex_queries -> query_legible x) /\
  parse_queries (txt "reachability: (A || Bike_2) @ init -> (A.A && A.A - Bike_2.A < 5); refinement: A <= A \\ A || Bike_2[a b] && (A \\ A) \\ A && A || A") = Ok ex_queries.
Proof.
  split; [|vm_compute; reflexivity]. intros x [<-|[<-|[]]]; cbn; repeat split; try (exact good_A || exact good_B || exact good_i || exact no_not_A || exact no_not_B || lia || discriminate).
Qed.
(** Text after a system expression is ignored; after a query it is not. *)
Example C24_rest_ignored : parse_to_system_expr (txt "A && A] rubbish") = Ok (XConj (XComp "A" None) (XComp "A" None)) /\
  parse_queries (txt "consistency: A && A] rubbish") = Err.
Proof. split; vm_compute; reflexivity. Qed.
