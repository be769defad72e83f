(** C22: sets of valuations written as guards. *)
From Coq Require Import List String ZArith QArith Bool Arith.
From Verif Require Import Fed.Zone Fed.ZoneFacts Fed.Check Model.Base Model.Expr Model.Guard Spec.GuardSpec Spec.ConvSpec
  Proofs.GuardFacts Proofs.ConvFacts Props.Guards.
Import ListNotations.
Local Open Scope Q_scope.
Local Open Scope string_scope.

(** The guard exists, means exactly the federation, and applying it to any set of
    valuations cuts that set with exactly the federation; applied to the universe it gives
    the federation back.  A left out guard applies as the identity. *)
Theorem C22_zones_to_guards : forall dim d nm f,
  names_declared d nm -> nameable nm f ->
  exists o, from_disjunction f nm = Ok o /\
    (forall v, val_ok dim v -> (osat d v o <-> fsem dim f v)) /\
    forall h, exists h', (match o with Some g => apply_constraints dim g d h | None => Ok h end) = Ok h' /\
      forall v, fsem dim h' v <-> fsem dim h v /\ fsem dim f v.
Proof.
  intros dim d nm f Hn Hf. destruct (from_disjunction_ok d nm Hn f Hf) as (o & E & B & S). exists o.
  split; [exact E|]. split; [intros v Hv; apply (S dim v Hv)|]. intros h. destruct o as [g|].
  - destruct (C01_basic_guards_exact dim d g h (B g eq_refl)) as (h' & E' & S'). exists h'. split; [exact E'|].
    intros v. rewrite S'. split; intros [X Y]; (split; [exact X|]); apply (S dim v (fsem_ok _ _ _ X)); exact Y.
  - exists h. split; [reflexivity|]. intros v. split; [intros X; split; [exact X|]|tauto].
    apply (S dim v (fsem_ok _ _ _ X)). exact I.
Qed.
Print Assumptions C22_zones_to_guards.

(** The guard is left out only for the universe, and it is the literal "false" for the
    federation without zones. *)
Theorem C22_true_and_false : forall dim d nm f,
  names_declared d nm -> nameable nm f ->
  (from_disjunction f nm = Ok None -> forall v, val_ok dim v -> fsem dim f v) /\
  (f = [] -> from_disjunction f nm = Ok (Some (BBool false))).
Proof.
  intros dim d nm f Hn Hf. split; [|intros ->; reflexivity].
  intros E v Hv. destruct (from_disjunction_ok d nm Hn f Hf) as (o & E' & _ & S). rewrite E in E'.
  assert (o = None) by congruence. subst o. apply (S dim v Hv). exact I.
Qed.
Print Assumptions C22_true_and_false.

(** x <= 3 && y - x < -2, or y >= 9. *)
Definition ex_fed : fed := [[mkC 1 0 false 3; mkC 2 1 true (-2)]; [mkC 0 2 false (-9)]].
Definition ex_nm : naming := fun i => match i with 1%nat => Some "x" | 2%nat => Some "y" | _ => None end.
Example C22_nonvacuous :
  names_declared ex_decls ex_nm /\ nameable ex_nm ex_fed /\
  from_disjunction ex_fed ex_nm =
    Ok (Some (BOr (BAnd (BLessEQ (AVar "x") (AInt 3)) (BLessT (ADifference (AVar "y") (AVar "x")) (AInt (-2))))
                  (BGreatEQ (AVar "y") (AInt 9)))).
Proof.
  split; [|split; [|reflexivity]].
  - intros [|[|[|i]]] s H; try discriminate; injection H as <-; reflexivity.
  - intros z c [<-|[<-|[]]] Hc; simpl in Hc; repeat (destruct Hc as [<-|Hc]; [simpl; repeat split; try discriminate; auto; fail|]); destruct Hc.
Qed.

(** Outside [nameable]: a constraint about the reference clock alone aborts. *)
Example C22_reference_clock_aborts : from_disjunction [[mkC 0 0 false 0]] ex_nm = Panic.
Proof. reflexivity. Qed.
