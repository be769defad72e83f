(** C23: guards and updates written to text and read again. *)
From Coq Require Import List String Ascii ZArith QArith Bool Arith Lia Lqa.
From Verif Require Import Fed.Zone Model.Base Model.Expr Model.Guard Model.Peg Model.ParseEdge Spec.GuardSpec Spec.ConvSpec Spec.TextSpec
  Proofs.GuardFacts Proofs.ConvFacts Proofs.ParseFacts Proofs.LoadFacts Props.Guards Props.Conversions.
Import ListNotations.
Local Open Scope string_scope.

(** The full claim: every guard is read back as a guard with the same meaning.  It holds,
    with the guard itself, for guards that need no parentheses. *)
Theorem C23_reload_partial : forall g, b_legible g -> b_plain g -> parse_guard (encode_bool g) = Ok g.
Proof. intros g L P. rewrite (guard_reads g L), (b_reload_plain g P). reflexivity. Qed.
Print Assumptions C23_reload_partial.

(** Every guard with proper names and constants is read, as one that needs no parentheses and has
    the same text; so it is read as itself exactly when it needs none. *)
Theorem C23_always_read : forall g, b_legible g ->
  exists g', parse_guard (encode_bool g) = Ok g' /\ b_plain g' /\ encode_bool g' = encode_bool g /\ (g' = g <-> b_plain g).
Proof.
  intros g L. exists (b_reload g). destruct (b_reload_spec g) as [P E]. split; [apply guard_reads; exact L|]. split; [exact P|]. split; [exact E|].
  split; [intros <-; exact P|apply b_reload_plain].
Qed.
Print Assumptions C23_always_read.

(** So every guard a user has loaded, from whatever text, can be saved and loaded again. *)
Theorem C23_loaded : forall s g, parse_guard s = Ok g ->
  exists g', parse_guard (encode_bool g) = Ok g' /\ b_plain g' /\ encode_bool g' = encode_bool g /\ (g' = g <-> b_plain g).
Proof. intros s g E. apply C23_always_read. exact (guard_legible s g E). Qed.
Print Assumptions C23_loaded.

(** The meaning survives if there are only conjunctions, or only disjunctions. *)
Theorem C23_uniform_meaning : forall g, b_legible g -> sides_plain g -> and_only g = true \/ or_only g = true ->
  exists g', parse_guard (encode_bool g) = Ok g' /\ forall d v, bsat d v g' <-> bsat d v g.
Proof. intros g L P U. exists (b_reload g). split; [apply guard_reads; exact L|]. intros d v. apply reload_uniform; assumption. Qed.
Print Assumptions C23_uniform_meaning.

(** Sets of valuations saved as guards. *)
Theorem C23_federations : forall d nm f, names_declared d nm -> nameable nm f -> savable nm f ->
  exists o, from_disjunction f nm = Ok o /\ decode_guard (encode_opt_bool o) = Ok o /\ forall dim v, val_ok dim v -> (osat d v o <-> fsem dim f v).
Proof.
  intros d nm f Hn Hf Hs. destruct (from_disjunction_ok d nm Hn f Hf) as (o & E & _ & S). exists o. split; [exact E|]. split; [|exact S].
  apply decode_plain. exact (federation_plain nm f o Hs E).
Qed.
Print Assumptions C23_federations.

(** Updates. *)
Theorem C23_updates : forall us, (forall u, In u us -> update_savable u) -> parse_updates (encode_updates us) = Ok us.
Proof. exact updates_reload. Qed.
Print Assumptions C23_updates.

(** Reading any text whatsoever comes to an end. *)
Theorem C23_reading_ends : forall s, parse_guard s <> NoFuel.
Proof. exact parse_guard_ends. Qed.
Print Assumptions C23_reading_ends.

Lemma good_x : good_name "x". Proof. exists "x"%char, []. repeat split; try reflexivity. intros ? []. Qed.
Lemma good_y : good_name "y". Proof. exists "y"%char, []. repeat split; try reflexivity. intros ? []. Qed.

(** x <= 3 && y - x < 20 && y >= x * 2 + 1 *)
Definition ex_guard : bexpr :=
  BAnd (BAnd (BLessEQ (AVar "x") (AInt 3)) (BLessT (ADifference (AVar "y") (AVar "x")) (AInt 20)))
       (BGreatEQ (AVar "y") (AAddition (AMultiplication (AVar "x") (AInt 2)) (AInt 1))).
Example C23_nonvacuous :
  b_legible ex_guard /\ b_plain ex_guard /\ sides_plain ex_guard /\ and_only ex_guard = true /\
  encode_bool ex_guard = txt "x<=3 && y-x<20 && y>=x*2+1" /\ parse_guard (txt "x<=3 && y-x<20 && y>=x*2+1") = Ok ex_guard.
Proof.
  split; [cbn; repeat split; try (exact good_x || exact good_y); lia|]. split; [cbn; repeat split; lia|]. split; [cbn; repeat split; lia|].
  split; [reflexivity|]. split; vm_compute; reflexivity.
Qed.
Definition ex_saved : fed := [[mkC 1 0 false 3; mkC 2 1 true 2; mkC 0 2 false (-1)]].
Example C23_federations_nonvacuous : names_declared ex_decls ex_nm /\ nameable ex_nm ex_saved /\ savable ex_nm ex_saved /\
  from_disjunction ex_saved ex_nm = Ok (Some (BAnd (BAnd (BLessEQ (AVar "x") (AInt 3)) (BLessT (ADifference (AVar "y") (AVar "x")) (AInt 2))) (BGreatEQ (AVar "y") (AInt 1)))).
Proof.
  split; [exact (proj1 C22_nonvacuous)|]. split.
  - intros z c [<-|[]] Hc; simpl in Hc; repeat (destruct Hc as [<-|Hc]; [simpl; repeat split; try discriminate; auto; fail|]); destruct Hc.
  - split; [|reflexivity]. split; [|split; [|left; reflexivity]].
    + intros [|[|[|i]]] n H; try discriminate; injection H as <-; [exact good_x|exact good_y].
    + intros z c [<-|[]] Hc; simpl in Hc; repeat (destruct Hc as [<-|Hc]; [cbn; lia|]); destruct Hc.
Qed.
Example C23_updates_nonvacuous : let us := [("x", AInt 0); ("y", AInt 7)] in (forall u, In u us -> update_savable u) /\ encode_updates us = txt "x=0, y=7".
Proof.
  split; [|reflexivity]. intros u [<-|[<-|[]]]; (split; [exact good_x || exact good_y|]); (split; [cbn; lia|]); split; try exact I; reflexivity.
Qed.

(** A union of two zones is written without parentheses, and "or" binds tighter than "and" for the reader:
    the saved guard is a different set.  Every constant and name is fine. *)
Theorem C23_union_refuted : exists d nm f g g' v,
  names_declared d nm /\ nameable nm f /\ from_disjunction f nm = Ok (Some g) /\ b_legible g /\ parse_guard (encode_bool g) = Ok g' /\
  bsat d v g /\ ~ bsat d v g'.
Proof.
  exists ex_decls, ex_nm, [[mkC 1 0 false 3; mkC 0 2 false (-5)]; [mkC 2 0 false 1]].
  exists (BOr (BAnd (BLessEQ (AVar "x") (AInt 3)) (BGreatEQ (AVar "y") (AInt 5))) (BLessEQ (AVar "y") (AInt 1))).
  exists (BAnd (BLessEQ (AVar "x") (AInt 3)) (BOr (BGreatEQ (AVar "y") (AInt 5)) (BLessEQ (AVar "y") (AInt 1)))).
  exists (fun i => match i with 1%nat => 10 | _ => 0 end)%Q.
  split; [exact (proj1 C22_nonvacuous)|]. split.
  - intros z c [<-|[<-|[]]] Hc; simpl in Hc; repeat (destruct Hc as [<-|Hc]; [simpl; repeat split; try discriminate; auto; fail|]); destruct Hc.
  - split; [reflexivity|]. split; [cbn; repeat split; try (exact good_x || exact good_y); lia|]. split; [vm_compute; reflexivity|]. split.
    + right. exists 0%Q, 1%Q. split; [reflexivity|]. split; [reflexivity|]. lra.
    + intros [(a & b & Ea & Eb & H) _]. vm_compute in Ea, Eb. injection Ea as <-. injection Eb as <-. lra.
Qed.
Print Assumptions C23_union_refuted.

(** Negative constants, as in y - x < -2, are written but not read. *)
Theorem C23_negative_refuted : exists d nm f g,
  names_declared d nm /\ nameable nm f /\ from_disjunction f nm = Ok (Some g) /\ parse_guard (encode_bool g) = Err.
Proof.
  exists ex_decls, ex_nm, [[mkC 2 1 true (-2)]]. eexists. split; [exact (proj1 C22_nonvacuous)|]. split.
  - intros z c [<-|[]] Hc; simpl in Hc; repeat (destruct Hc as [<-|Hc]; [simpl; repeat split; try discriminate; auto; fail|]); destruct Hc.
  - split; [reflexivity|]. vm_compute. reflexivity.
Qed.
Print Assumptions C23_negative_refuted.

(** Parentheses the user wrote are lost: x <= 10 - (5 - 2) is saved as x <= 10 - 5 - 2. *)
Theorem C23_parentheses_refuted : exists s g g' d v,
  parse_guard s = Ok g /\ b_legible g /\ parse_guard (encode_bool g) = Ok g' /\ bsat d v g /\ ~ bsat d v g'.
Proof.
  exists (txt "x <= 10 - (5 - 2)"), (BLessEQ (AVar "x") (ADifference (AInt 10) (ADifference (AInt 5) (AInt 2)))),
    (BLessEQ (AVar "x") (ADifference (ADifference (AInt 10) (AInt 5)) (AInt 2))), ex_decls, (fun i => match i with 1%nat => 5 | _ => 0 end)%Q.
  split; [vm_compute; reflexivity|]. split; [cbn; repeat split; try exact good_x; lia|]. split; [vm_compute; reflexivity|]. split.
  - eexists _, _. split; [reflexivity|]. split; [reflexivity|]. vm_compute. discriminate.
  - intros (a & b & Ea & Eb & H). vm_compute in Ea, Eb. injection Ea as <-. injection Eb as <-. vm_compute in H. apply H. reflexivity.
Qed.
Print Assumptions C23_parentheses_refuted.
