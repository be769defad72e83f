(** The simplifier preserves values on the plain fragment. *)
From Coq Require Import List String ZArith QArith Bool Arith Lia Lqa.
From Verif Require Import Fed.Zone Fed.ZoneFacts Model.Base Model.Expr Model.Guard Spec.GuardSpec Proofs.GuardFacts.
Import ListNotations.
Local Open Scope Q_scope.

Lemma plain_sum_psum e : plain_sum e = true -> psum e.
Proof.
  induction e; simpl; intros H; try discriminate; try (constructor; fail).
  apply andb_true_iff in H. destruct H. constructor; auto.
Qed.
Lemma plain_lin_isum e : plain_lin e = true -> isum e.
Proof.
  induction e; simpl; intros H; try discriminate; try (constructor; fail).
  - destruct e1; try discriminate. destruct e2; try discriminate. constructor.
  - apply andb_true_iff in H. destruct H. constructor; auto.
Qed.
Lemma plain_side_top e : plain_side e = true -> top e.
Proof.
  unfold plain_side. intros H. apply orb_true_iff in H. destruct H as [H|H].
  - constructor. apply plain_lin_isum; exact H.
  - destruct e; try discriminate. destruct e1; try (apply tp_cp, plain_sum_psum; exact H);
    (destruct e2; try discriminate; apply tp_ik, plain_lin_isum; exact H).
Qed.

(** Expressions made of literals, clocks, sums and differences. *)
Inductive lin : arith -> Prop :=
| ln_int k : lin (AInt k)
| ln_clk i : lin (AClock i)
| ln_add l r : lin l -> lin r -> lin (AAddition l r)
| ln_dif l r : lin l -> lin r -> lin (ADifference l r).

Lemma isum_lin e : isum e -> lin e.
Proof. induction 1; repeat (constructor; auto). Qed.
Lemma top_lin e : top e -> lin e.
Proof. destruct 1; repeat constructor; auto using isum_lin, psum_isum. Qed.
Lemma kexp_lin e k : kexp e k -> lin e.
Proof. induction 1; constructor; auto. Qed.

Lemma lin_aev d v e : lin e -> aev d v e = Some (nev v e).
Proof. induction 1; simpl; rewrite ?IHlin1, ?IHlin2; reflexivity. Qed.

Lemma lin_mk_add l r : lin l -> lin r -> lin (mk_add l r).
Proof. intros Hl Hr. unfold mk_add. destruct Hr as [[]| | |]; destruct Hl as [[]| | |]; repeat (constructor; auto). Qed.
Lemma lin_mk_dif l r : lin l -> lin r -> lin (mk_dif l r).
Proof. intros Hl Hr. unfold mk_dif. destruct Hr as [[]| | |]; destruct Hl as [[]| | |]; repeat (constructor; auto). Qed.

Lemma rebuild_lin ds out : good_ops ds -> lin out -> forall r, rebuild ds out = Ok r ->
  lin r /\ forall v, nev v r == vops v ds (nev v out).
Proof.
  induction ds as [|[c o] ds IH]; cbn [rebuild good_ops vops]; intros G L r E.
  - injection E as <-. split; [exact L|reflexivity].
  - destruct G as (C & O & _ & G). inv_bind E. destruct (IH G L _ H) as [La Va].
    destruct c; simpl in C; try contradiction.
    assert (Lc : lin (AClock i)) by constructor.
    destruct o as [[]|[]|[]|[]|[]|]; simpl in O; try contradiction; cbn [rebuild_step] in E; match type of E with Ok ?x = Ok ?y => assert (Er : y = x) by congruence; rewrite Er; clear E Er end;
    (split; [auto using lin_mk_add, lin_mk_dif|]); intros v;
    rewrite ?nev_mk_add, ?nev_mk_dif, Va; simpl; try reflexivity; ring.
Qed.

(** Folding constants preserves values (all operators, any subexpression). *)
Lemma node_inv (f : Z -> Z -> res Z) (mk : arith -> arith -> arith) l r c e b :
  match l, r with AInt x, AInt y => do k <- f x y; Ok (AInt k, true) | _, _ => Ok (mk l r, c) end = Ok (e, b) ->
  (exists x y k, l = AInt x /\ r = AInt y /\ f x y = Ok k /\ e = AInt k) \/ e = mk l r.
Proof.
  intros E. destruct l; try (right; congruence). destruct r; try (right; congruence).
  inv_bind E. left. exists k, k0, a. repeat split; auto. congruence.
Qed.

Lemma helper_ieval d e : forall e' b, simplify_helper e = Ok (e', b) -> forall k, ieval d e = Some k -> ieval d e' = Some k.
Proof.
  induction e; intros e' b E k' K; simpl in E; try (injection E as <- <-; exact K);
  (inv_bind E; destruct a as [l' cl]; inv_bind E; destruct a as [r' cr];
   simpl in K; destruct (ieval d e1) as [x|] eqn:K1; [|discriminate]; destruct (ieval d e2) as [y|] eqn:K2; [|discriminate];
   specialize (IHe1 _ _ H _ eq_refl); specialize (IHe2 _ _ H0 _ eq_refl)).
  - apply (node_inv (fun x y => Ok (x - y)%Z)) in E.
    destruct E as [(x' & y' & k & -> & -> & F & ->)| ->]; simpl in *; [congruence|rewrite IHe1, IHe2; exact K].
  - apply (node_inv (fun x y => Ok (x + y)%Z)) in E.
    destruct E as [(x' & y' & k & -> & -> & F & ->)| ->]; simpl in *; [congruence|rewrite IHe1, IHe2; exact K].
  - apply (node_inv (fun x y => Ok (x * y)%Z)) in E.
    destruct E as [(x' & y' & k & -> & -> & F & ->)| ->]; simpl in *; [congruence|rewrite IHe1, IHe2; exact K].
  - apply (node_inv (fun x y => if Z.eqb y 0 then Panic else Ok (Z.quot x y))) in E.
    destruct E as [(x' & y' & k & -> & -> & F & ->)| ->]; simpl in *; [|rewrite IHe1, IHe2; exact K].
    injection IHe1 as ->. injection IHe2 as ->. destruct (Z.eqb y 0); congruence.
  - apply (node_inv (fun x y => if Z.eqb y 0 then Panic else Ok (Z.rem x y))) in E.
    destruct E as [(x' & y' & k & -> & -> & F & ->)| ->]; simpl in *; [|rewrite IHe1, IHe2; exact K].
    injection IHe1 as ->. injection IHe2 as ->. destruct (Z.eqb y 0); congruence.
Qed.

Lemma ieval_aev d e k : ieval d e = Some k -> forall v, exists q, aev d v e = Some q /\ q == inject_Z k.
Proof. intros H. apply (replace_const d e k H). Qed.

Lemma helper_value d e : forall e' b, simplify_helper e = Ok (e', b) -> same_value d e e'.
Proof.
  unfold same_value.
  induction e; intros e' b E v q V; pose proof E as E0; simpl in E;
    try (injection E as <- <-; exists q; split; [exact V|reflexivity]).
  4,5: cbn [aev] in V; match type of V with (match ?x with _ => _ end) = _ => destruct x as [k|] eqn:K; [|discriminate] end;
       injection V as <-; apply ieval_aev; eapply helper_ieval; eauto.
  all: inv_bind E; destruct a as [l' cl]; inv_bind E; destruct a as [r' cr]; cbn [aev] in V;
    destruct (aev d v e1) as [x|] eqn:V1; [|discriminate]; destruct (aev d v e2) as [y|] eqn:V2; [|discriminate];
    injection V as <-; destruct (IHe1 _ _ H _ _ V1) as (x' & X1 & X2); destruct (IHe2 _ _ H0 _ _ V2) as (y' & Y1 & Y2).
  - assert (G : (exists a b, l' = AInt a /\ r' = AInt b /\ e' = AInt (a - b)) \/ e' = ADifference l' r').
    { destruct l'; try (right; congruence). destruct r'; try (right; congruence).
      left. simpl in E. do 2 eexists. repeat split. congruence. }
    destruct G as [(a & c & -> & -> & ->)| ->].
    + simpl in X1, Y1. injection X1 as <-. injection Y1 as <-. eexists. split; [reflexivity|].
      rewrite inject_Z_sub, X2, Y2. reflexivity.
    + cbn [aev]. rewrite X1, Y1. eexists. split; [reflexivity|]. rewrite X2, Y2. reflexivity.
  - assert (G : (exists a b, l' = AInt a /\ r' = AInt b /\ e' = AInt (a + b)) \/ e' = AAddition l' r').
    { destruct l'; try (right; congruence). destruct r'; try (right; congruence).
      left. simpl in E. do 2 eexists. repeat split. congruence. }
    destruct G as [(a & c & -> & -> & ->)| ->].
    + simpl in X1, Y1. injection X1 as <-. injection Y1 as <-. eexists. split; [reflexivity|].
      rewrite inject_Z_plus, X2, Y2. reflexivity.
    + cbn [aev]. rewrite X1, Y1. eexists. split; [reflexivity|]. rewrite X2, Y2. reflexivity.
  - assert (G : (exists a b, l' = AInt a /\ r' = AInt b /\ e' = AInt (a * b)) \/ e' = AMultiplication l' r').
    { destruct l'; try (right; congruence). destruct r'; try (right; congruence).
      left. simpl in E. do 2 eexists. repeat split. congruence. }
    destruct G as [(a & c & -> & -> & ->)| ->].
    + simpl in X1, Y1. injection X1 as <-. injection Y1 as <-. eexists. split; [reflexivity|].
      rewrite inject_Z_mult, X2, Y2. reflexivity.
    + cbn [aev]. rewrite X1, Y1. eexists. split; [reflexivity|]. rewrite X2, Y2. reflexivity.
Qed.

Lemma loop_value d n : forall e r, simplify_loop n e = Ok r -> same_value d e r.
Proof.
  induction n as [|n IH]; cbn [simplify_loop]; intros e r E v q V; [discriminate|].
  inv_bind E. destruct a as [e' b]. destruct (helper_value d _ _ _ H v q V) as (q1 & V1 & Q1).
  destruct b.
  - destruct (IH _ _ E v q1 V1) as (q2 & V2 & Q2). exists q2. split; [exact V2|]. rewrite Q2; exact Q1.
  - injection E as <-. exists q1. auto.
Qed.

Lemma simplify_plain d e r : plain_side e = true -> simplify e = Ok r -> same_value d e r.
Proof.
  intros P E v q V. apply plain_side_top in P.
  destruct (match e with AClock i => Some i | _ => None end) as [i|] eqn:Ei.
  - destruct e; try discriminate. cbv in E. injection E as <-. exists q. split; [exact V|reflexivity].
  - assert (Hnb : ~ bare e).
    { intros Hb. destruct P as [e He|i q' Hq|e k He]; try contradiction.
      destruct He; simpl in *; try contradiction; discriminate. }
    destruct (pull_top e ONone P Hnb) as (ds & out & k & A & B & _ & D & W).
    unfold simplify in E. rewrite A in E. cbn [bind] in E. inv_bind E.
    destruct (rebuild_lin _ _ D (kexp_lin _ _ B) _ H) as [La Va].
    destruct (loop_value d _ _ _ E v _ (lin_aev d v a La)) as (q' & V' & Q').
    exists q'. split; [exact V'|]. rewrite (lin_aev d v e (top_lin e P)) in V. injection V as <-.
    rewrite Q', Va, W. apply vops_ext. apply kexp_nev; exact B.
Qed.

(** Plain sides never fail to simplify. *)
Lemma count_closed e : closed_expr e = true -> clock_var_count e = 0%nat.
Proof.
  induction e; simpl; intros H; try discriminate; try reflexivity;
  apply andb_true_iff in H; destruct H; rewrite IHe1, IHe2 by assumption; reflexivity.
Qed.

Lemma move_closed e : clock_var_count e = 0%nat -> forall p, move_clock_and_vars e p = Ok (None, e).
Proof.
  intros Hc p. destruct e; simpl in *; try discriminate; try reflexivity;
  assert (E1 : clock_var_count e1 = 0%nat) by lia; assert (E2 : clock_var_count e2 = 0%nat) by lia;
  rewrite E1, E2; reflexivity.
Qed.

Lemma simplify_closed d e r : closed_expr e = true -> simplify e = Ok r -> same_value d e r.
Proof.
  intros P E. unfold simplify in E. rewrite (count_closed e P) in E. cbn [pull_all] in E.
  rewrite (move_closed e (count_closed e P)) in E. cbn [bind rebuild] in E.
  eapply loop_value; eauto.
Qed.

(** A closed expression with a value simplifies to that literal. *)
Lemma helper_closed d e : forall k, closed_expr e = true -> ieval d e = Some k -> exists b, simplify_helper e = Ok (AInt k, b).
Proof.
  induction e; simpl; intros k' C K; try discriminate;
  try (apply andb_true_iff in C; destruct C as [C1 C2];
       destruct (ieval d e1) as [x|] eqn:K1; [|discriminate]; destruct (ieval d e2) as [y|] eqn:K2; [|discriminate];
       destruct (IHe1 _ C1 eq_refl) as [b1 ->]; destruct (IHe2 _ C2 eq_refl) as [b2 ->]; simpl).
  1-3: injection K as <-; eauto.
  1-2: destruct (Z.eqb y 0); [discriminate|]; injection K as <-; simpl; eauto.
  injection K as <-. eauto.
Qed.

Lemma simplify_closed_total e k : closed_expr e = true -> ieval no_names e = Some k -> simplify e = Ok (AInt k).
Proof.
  intros C K. unfold simplify. rewrite (count_closed e C). cbn [pull_all].
  rewrite (move_closed e (count_closed e C)). cbn [bind rebuild].
  destruct (helper_closed no_names e k C K) as [b Hb]. cbn [simplify_loop]. rewrite Hb. cbn [bind].
  destruct b; [|reflexivity].
  pose proof (asize_pos e). destruct (asize e); [lia|]. reflexivity.
Qed.
