(** C39: textual identifiers of locations. *)
From Coq Require Import List String Ascii ZArith Bool Arith Lia.
From Verif Require Import Fed.Zone Model.Base Model.Expr Model.Guard Model.Loc Model.Component Model.TS Spec.StepSpec Spec.SystemSpec Spec.IdSpec
  Proofs.RunFacts Proofs.IdFacts Props.Examples.
Import ListNotations.
Local Open Scope string_scope.

(** The full claim: different locations of one system have different identifiers.  It holds, for both
    forms of identifiers, if no location name contains the characters used to join names. *)
Theorem C39_internal_partial : forall dim s a b, built dim s -> plain_names s ->
  In a (all_locations dim s) -> In b (all_locations dim s) -> unique_string (lt_id a) = unique_string (lt_id b) -> a = b.
Proof.
  intros dim s a b B P Ha Hb E. apply (location_inj dim s B); auto. apply unique_string_inj; auto; eapply locations_plain; eauto.
Qed.
Print Assumptions C39_internal_partial.
Theorem C39_shown_partial : forall dim s a b, built dim s -> plain_names s ->
  In a (all_locations dim s) -> In b (all_locations dim s) -> id_string (lt_id a) = id_string (lt_id b) -> a = b.
Proof.
  intros dim s a b B P Ha Hb E. apply (location_inj dim s B); auto.
  refine (proj1 (display_split _ _ (locations_alike dim s B a b Ha Hb) (locations_plain dim s B P a Ha) (locations_plain dim s B P b Hb) [] [] I I _)).
  rewrite E. reflexivity.
Qed.
Print Assumptions C39_shown_partial.

Example C39_nonvacuous : exists a b c, In a (all_locations ex_dim ts_quot) /\ In b (all_locations ex_dim ts_quot) /\ In c (all_locations ex_dim ts_comp) /\
  plain_names ts_quot /\ plain_names ts_comp /\ unique_string (lt_id a) = "(L0\L1)" /\ id_string (lt_id a) = "L0\\L1" /\ id_string (lt_id b) = "[Error]" /\ id_string (lt_id c) = "L1||K0".
Proof.
  exists (nth 1 (all_locations ex_dim ts_quot) lt_any), (nth 4 (all_locations ex_dim ts_quot) lt_any), (nth 2 (all_locations ex_dim ts_comp) lt_any).
  assert (P : forall n, forallb (fun c => negb (existsb (Ascii.eqb c) marks)) (list_ascii_of_string n) && negb (String.eqb n "_") = true -> plain_name n).
  { intros n H. apply andb_true_iff in H. destruct H as [H1 H2]. split; [|intros ->; discriminate]. intros c Hc Hm. rewrite forallb_forall in H1. specialize (H1 c Hc).
    apply negb_true_iff in H1. assert (X : existsb (Ascii.eqb c) marks = true) by (apply existsb_exists; exists c; split; [exact Hm|apply Ascii.eqb_refl]). congruence. }
  split; [vm_compute; tauto|]. split; [vm_compute; tauto|]. split; [vm_compute; tauto|].
  split; [split; intros l Hl; vm_compute in Hl; destruct Hl as [<-|[<-|[]]]; apply P; reflexivity|].
  split; [split; intros l Hl; vm_compute in Hl; destruct Hl as [<-|[<-|[]]]; apply P; reflexivity|].
  repeat split; vm_compute; reflexivity.
Qed.

(** Two components whose location names contain "||": the locations (a, b||c) and (a||b, c) of their
    composition are different but have the same identifier in both forms. *)
Definition names_1 : component := mkComp "P" (mkDecls [] []) [mkL "a" None Initial "NORMAL"; mkL "a||b" None Normal "NORMAL"] [] None.
Definition names_2 : component := mkComp "R" (mkDecls [] []) [mkL "b||c" None Initial "NORMAL"; mkL "c" None Normal "NORMAL"] [] None.
Definition names_ts : ts := get ts_m (composition_new (TSimple (get no_cc (compile_component 1 names_1 1))) (TSimple (get no_cc (compile_component 1 names_2 2)))).
Lemma built_names : built 1 names_ts.
Proof.
  apply (b_comp 1 (TSimple (get no_cc (compile_component 1 names_1 1))) (TSimple (get no_cc (compile_component 1 names_2 2)))).
  - apply (b_simple 1 names_1 [] [] 1). vm_compute. reflexivity.
  - apply (b_simple 1 names_2 [] [] 2). vm_compute. reflexivity.
  - vm_compute. reflexivity.
Qed.
Theorem C39_joined_names_refuted : exists dim s a b, built dim s /\ In a (all_locations dim s) /\ In b (all_locations dim s) /\ a <> b /\
  unique_string (lt_id a) = unique_string (lt_id b) /\ id_string (lt_id a) = id_string (lt_id b).
Proof.
  exists 1, names_ts, (nth 0 (all_locations 1 names_ts) lt_any), (nth 3 (all_locations 1 names_ts) lt_any).
  split; [exact built_names|]. split; [vm_compute; tauto|]. split; [vm_compute; tauto|]. split; [vm_compute; discriminate|]. split; vm_compute; reflexivity.
Qed.
Print Assumptions C39_joined_names_refuted.
