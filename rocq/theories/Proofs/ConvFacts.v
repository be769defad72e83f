(** Proofs about conversions of constraints to expressions. *)
From Coq Require Import List String ZArith QArith Qround Bool Arith Lia Lqa.
From Verif Require Import Fed.Zone Fed.ZoneFacts Model.Base Model.Expr Model.Guard Spec.GuardSpec Spec.ConvSpec Proofs.GuardFacts.
Import ListNotations.
Local Open Scope Q_scope.

Section Conv.
Variable d : decls.
Variable nm : naming.
Hypothesis Hnm : names_declared d nm.

Lemma var_of_ok i : nm i <> None -> exists s, nm i = Some s /\ var_of nm i = Ok (AVar s) /\ assoc s (d_clocks d) = Some i.
Proof. intros H. destruct (nm i) as [s|] eqn:E; [|congruence]. exists s. unfold var_of. rewrite E. auto. Qed.

Lemma clk_var s i : assoc s (d_clocks d) = Some i -> is_clk d (AVar s) = true.
Proof. simpl. intros ->. reflexivity. Qed.

Definition con_ok (c : dcon) := (ci c <> 0%nat \/ cj c <> 0%nat) /\
    (ci c <> 0%nat -> nm (ci c) <> None) /\ (cj c <> 0%nat -> nm (cj c) <> None).

Lemma from_constraint_ok c : con_ok c -> exists g, from_constraint c nm = Ok g /\ basic_guard d g = true /\
  forall v, v 0%nat == 0 -> (bsat d v g <-> csem c v).
Proof.
  destruct c as [i j s k]. intros (H0 & Hi & Hj). simpl in *. unfold from_constraint. simpl.
  destruct i as [|i].
  - destruct j as [|j]; [lia|]. destruct (var_of_ok (S j)) as (x & E1 & E2 & E3); [auto|]. rewrite E2. simpl.
    exists (if s then BGreatT (AVar x) (AInt (- k)) else BGreatEQ (AVar x) (AInt (- k))).
    assert (B : basic_cmp d (AVar x) (AInt (- k)) = true) by (unfold basic_cmp; rewrite (clk_var _ _ E3); reflexivity).
    split; [reflexivity|]. split; [destruct s; exact B|]. intros v Hv.
    unfold csem, ilt. simpl. destruct s; simpl; unfold cmp; simpl; rewrite E3; split.
    + intros (a & b & Ea & Eb & H). injection Ea as <-. injection Eb as <-. rewrite inject_Z_opp in H. lra.
    + intros H. do 2 eexists. split; [reflexivity|]. split; [reflexivity|]. rewrite inject_Z_opp. lra.
    + intros (a & b & Ea & Eb & H). injection Ea as <-. injection Eb as <-. rewrite inject_Z_opp in H. lra.
    + intros H. do 2 eexists. split; [reflexivity|]. split; [reflexivity|]. rewrite inject_Z_opp. lra.
  - destruct (var_of_ok (S i)) as (x & E1 & E2 & E3); [auto|]. rewrite E2. simpl.
    destruct j as [|j].
    + exists (if s then BLessT (AVar x) (AInt k) else BLessEQ (AVar x) (AInt k)).
      assert (B : basic_cmp d (AVar x) (AInt k) = true) by (unfold basic_cmp; rewrite (clk_var _ _ E3); reflexivity).
      split; [reflexivity|]. split; [destruct s; exact B|]. intros v Hv.
      unfold csem, ilt. simpl. destruct s; simpl; unfold cmp; simpl; rewrite E3; split.
      * intros (a & b & Ea & Eb & H). injection Ea as <-. injection Eb as <-. lra.
      * intros H. do 2 eexists. split; [reflexivity|]. split; [reflexivity|]. lra.
      * intros (a & b & Ea & Eb & H). injection Ea as <-. injection Eb as <-. lra.
      * intros H. do 2 eexists. split; [reflexivity|]. split; [reflexivity|]. lra.
    + destruct (var_of_ok (S j)) as (y & F1 & F2 & F3); [auto|]. rewrite F2. simpl.
      destruct (Z.eqb_spec k 0) as [->|Hk].
      * exists (if s then BLessT (AVar x) (AVar y) else BLessEQ (AVar x) (AVar y)).
        assert (B : basic_cmp d (AVar x) (AVar y) = true)
          by (unfold basic_cmp; rewrite (clk_var _ _ E3), (clk_var _ _ F3), orb_true_r; reflexivity).
        split; [reflexivity|]. split; [destruct s; exact B|]. intros v Hv.
        unfold csem, ilt. simpl. change (inject_Z 0) with 0. destruct s; simpl; unfold cmp; simpl; rewrite E3, F3; split.
        -- intros (a & b & Ea & Eb & H). injection Ea as <-. injection Eb as <-. lra.
        -- intros H. do 2 eexists. split; [reflexivity|]. split; [reflexivity|]. lra.
        -- intros (a & b & Ea & Eb & H). injection Ea as <-. injection Eb as <-. lra.
        -- intros H. do 2 eexists. split; [reflexivity|]. split; [reflexivity|]. lra.
      * exists (if s then BLessT (ADifference (AVar x) (AVar y)) (AInt k) else BLessEQ (ADifference (AVar x) (AVar y)) (AInt k)).
        assert (B : basic_cmp d (ADifference (AVar x) (AVar y)) (AInt k) = true).
        { unfold basic_cmp. replace (is_diff d (ADifference (AVar x) (AVar y))) with true.
          - simpl. rewrite ?orb_true_r, ?andb_true_r, ?orb_true_r. reflexivity.
          - simpl. rewrite E3, F3. reflexivity. }
        split; [reflexivity|]. split; [destruct s; exact B|]. intros v Hv.
        unfold csem, ilt. simpl. destruct s; simpl; unfold cmp; simpl; rewrite E3, F3; split.
        -- intros (a & b & Ea & Eb & H). injection Ea as <-. injection Eb as <-. lra.
        -- intros H. do 2 eexists. split; [reflexivity|]. split; [reflexivity|]. lra.
        -- intros (a & b & Ea & Eb & H). injection Ea as <-. injection Eb as <-. lra.
        -- intros H. do 2 eexists. split; [reflexivity|]. split; [reflexivity|]. lra.
Qed.

Lemma from_constraints_ok z : (forall c, In c z -> con_ok c) ->
  exists gs, mapM (fun c => from_constraint c nm) z = Ok gs /\ List.length gs = List.length z /\
    (forall g, In g gs -> basic_guard d g = true) /\
    forall v, v 0%nat == 0 -> ((forall g, In g gs -> bsat d v g) <-> zsem z v).
Proof.
  induction z as [|c z IH]; intros H.
  - exists []. simpl. repeat split; try easy.
  - destruct IH as (gs & E & L & B & Hs); [auto using in_cons|].
    destruct (from_constraint_ok c) as (g & Eg & Bg & Sg); [apply H; left; reflexivity|].
    exists (g :: gs). simpl. rewrite Eg. simpl. rewrite E. simpl. split; [reflexivity|]. split; [rewrite L; reflexivity|].
    split; [intros x [<-|Hx]; auto|]. intros v Hv. rewrite zsem_cons. rewrite <- (Sg v Hv), <- (Hs v Hv).
    split; [intros X; split; [apply X|intros y Hy; apply X]; auto|intros [X Y] y [<-|Hy]; auto].
Qed.

Lemma fold_and_some g l : exists r, fold_left (fun (acc : option bexpr) e => match acc with None => Some e | Some r => Some (BAnd r e) end) l (Some g) = Some r
  /\ (basic_guard d g = true -> (forall x, In x l -> basic_guard d x = true) -> basic_guard d r = true)
  /\ forall v, bsat d v r <-> bsat d v g /\ forall x, In x l -> bsat d v x.
Proof.
  revert g. induction l as [|x l IH]; intros g; simpl.
  - exists g. split; [reflexivity|]. split; [auto|]. intros v. split; [intros H; split; [exact H|easy]|tauto].
  - destruct (IH (BAnd g x)) as (r & E & B & S). exists r. split; [exact E|]. split.
    + intros Hg Hl. apply B; [simpl; rewrite Hg, Hl by auto; reflexivity|auto].
    + intros v. rewrite S. simpl. split.
      * intros [[H1 H2] H3]. split; [exact H1|]. intros y [<-|Hy]; auto.
      * intros [H1 H2]. auto.
Qed.

Lemma from_conjunction_ok z : (forall c, In c z -> con_ok c) ->
  exists o, from_conjunction z nm = Ok o /\ (o = None <-> z = []) /\
    (forall g, o = Some g -> basic_guard d g = true) /\
    forall v, v 0%nat == 0 -> (osat d v o <-> zsem z v).
Proof.
  intros H. destruct (from_constraints_ok z H) as (gs & E & L & B & S).
  destruct z as [|c z].
  - exists None. simpl. repeat split; try easy.
  - assert (G : exists r, fold_opt BAnd gs = Some r /\ basic_guard d r = true /\
                 forall v, v 0%nat == 0 -> (bsat d v r <-> zsem (c :: z) v)).
    { destruct gs as [|g gs]; [discriminate|]. unfold fold_opt. simpl.
      destruct (fold_and_some g gs) as (r & Er & Br & Sr). exists r. split; [exact Er|].
      split; [apply Br; [apply B; left; reflexivity|intros; apply B; right; assumption]|].
      intros v Hv. rewrite Sr, <- (S v Hv). split.
      + intros [X Y] y [<-|Hy]; auto.
      + intros X. split; [apply X; left; reflexivity|intros; apply X; right; assumption]. }
    destruct G as (r & Er & Br & Sr). exists (Some r). split.
    + destruct z as [|c' z].
      * simpl in E. simpl. destruct (from_constraint c nm) as [g| | |]; try discriminate. simpl in *.
        injection E as <-. simpl in Er. injection Er as <-. reflexivity.
      * unfold from_conjunction. rewrite E. simpl. rewrite Er. reflexivity.
    + split; [split; discriminate|]. split; [intros g Hg; injection Hg as <-; exact Br|exact Sr].
Qed.

Lemma from_disj_loop_ok f acc : (forall z c, In z f -> In c z -> con_ok c) ->
  (forall g, acc = Some g -> basic_guard d g = true) -> (f <> [] \/ acc <> None) ->
  exists o, from_disj_loop f nm acc = Ok o /\ (forall g, o = Some g -> basic_guard d g = true) /\
    forall v, v 0%nat == 0 ->
      (osat d v o <-> match acc with Some g => bsat d v g | None => False end \/ exists z, In z f /\ zsem z v).
Proof.
  revert acc. induction f as [|z f IH]; intros acc H Ha Hn.
  - exists acc. split; [reflexivity|]. split; [exact Ha|]. intros v Hv. destruct acc as [g|]; simpl.
    + split; [auto|intros [X|(z & [] & _)]; exact X].
    + destruct Hn; congruence.
  - destruct (from_conjunction_ok z) as (o & E & En & B & S); [intros c Hc; apply (H z c); auto using in_eq|].
    cbn [from_disj_loop]. rewrite E. simpl. destruct o as [e|].
    + destruct (IH (Some match acc with None => e | Some r => BOr r e end)) as (o' & E' & B' & S').
      * intros z' c Hz Hc. apply (H z' c); auto using in_cons.
      * intros g Hg. injection Hg as <-. destruct acc as [r|]; [simpl; rewrite Ha, B by reflexivity; reflexivity|auto].
      * right; discriminate.
      * exists o'. split; [exact E'|]. split; [exact B'|]. intros v Hv. rewrite (S' v Hv).
        assert (Q : bsat d v match acc with None => e | Some r => BOr r e end <->
                    match acc with Some g => bsat d v g | None => False end \/ bsat d v e) by (destruct acc; simpl; tauto).
        rewrite Q. specialize (S v Hv). simpl in S. rewrite S. split.
        -- intros [[X|X]|(z' & X & Y)]; eauto 6 using in_eq, in_cons.
        -- intros [X|(z' & [<-|X] & Y)]; eauto.
    + exists None. split; [reflexivity|]. split; [discriminate|]. intros v Hv. simpl. split; [|tauto]. intros _.
      right. exists z. split; [left; reflexivity|]. apply S; [exact Hv|]. exact I.
Qed.

Lemma from_disjunction_ok f : nameable nm f ->
  exists o, from_disjunction f nm = Ok o /\ (forall g, o = Some g -> basic_guard d g = true) /\
    forall dim v, val_ok dim v -> (osat d v o <-> fsem dim f v).
Proof.
  intros H. assert (C : forall z c, In z f -> In c z -> con_ok c) by exact H.
  assert (Q : forall dim v, val_ok dim v -> (fsem dim f v <-> exists z, In z f /\ zsem z v))
    by (intros dim v Hv; unfold fsem; tauto).
  destruct f as [|z [|z' f]].
  - exists (Some (BBool false)). split; [reflexivity|]. split; [intros g Hg; injection Hg as <-; reflexivity|].
    intros dim v Hv. rewrite (Q dim v Hv). simpl. split; [discriminate|intros (? & [] & _)].
  - destruct (from_conjunction_ok z) as (o & E & _ & B & S); [intros c Hc; apply (C z c); auto using in_eq|].
    exists o. split; [exact E|]. split; [exact B|]. intros dim v Hv. rewrite (Q dim v Hv), (S v (proj1 Hv)). split.
    + intros X. exists z. auto using in_eq.
    + intros (z' & [<-|[]] & X). exact X.
  - destruct (from_disj_loop_ok (z :: z' :: f) None C) as (o & E & B & S); [discriminate|left; discriminate|].
    exists o. split; [exact E|]. split; [exact B|]. intros dim v Hv. rewrite (Q dim v Hv), (S v (proj1 Hv)). tauto.
Qed.
End Conv.
