(** Targets of reachability queries which compare clocks with numbers. *)
From Coq Require Import List String ZArith QArith Bool Arith Lia.
From Verif Require Import Fed.Zone Fed.ZoneFacts Model.Base Model.Expr Model.Guard Model.Loc Model.Component Model.TS Model.ParseQuery Model.Recipe Model.Query
  Spec.GuardSpec Spec.StepSpec Spec.RecipeSpec Spec.BoundSpec Spec.StateSpec Proofs.GuardFacts Proofs.RecipeFacts Proofs.StateFacts.
Import ListNotations.
Local Open Scope list_scope.
Local Open Scope nat_scope.

Definition numbered (dim : nat) (g : bexpr) : Prop :=
  forall l r, atom g l r -> exists i k, i < dim /\ (l = AClock i /\ r = AInt k \/ r = AClock i /\ l = AInt k).
Lemma nodiff_con dim c f : (ci c < dim)%nat -> (cj c < dim)%nat -> ci c = 0%nat \/ cj c = 0%nat -> no_differences dim f -> no_differences dim (fcon c f).
Proof.
  intros Hi Hj H N z d Hz Hd. unfold fcon in Hz. apply in_map_iff in Hz. destruct Hz as (y & <- & Hy). destruct Hd as [<-|Hd]; [auto|]. exact (N y d Hy Hd).
Qed.
Lemma indices_left i k d : get_indices (AClock i) (AInt k) d = Ok (i, 0, k).
Proof. cbn. rewrite Z.sub_0_r. reflexivity. Qed.
Lemma indices_right i k d : get_indices (AInt k) (AClock i) d = Ok (0, i, (- k)%Z).
Proof. cbn. reflexivity. Qed.
Lemma nodiff_apply dim d g : numbered dim g -> forall f f', no_differences dim f -> apply_constraints dim g d f = Ok f' -> no_differences dim f'.
Proof.
  assert (C : forall l r i j k, (exists x y, x < dim /\ (l = AClock x /\ r = AInt y \/ r = AClock x /\ l = AInt y)) -> get_indices l r d = Ok (i, j, k) -> i < dim /\ j < dim /\ (i = 0 \/ j = 0)).
  { intros l r i j k (x & y & Hx & [[-> ->]|[-> ->]]) E; [rewrite indices_left in E|rewrite indices_right in E]; injection E as <- <- _; repeat split; auto; lia. }
  assert (S : forall l r, (exists x y, x < dim /\ (l = AClock x /\ r = AInt y \/ r = AClock x /\ l = AInt y)) -> exists x y, x < dim /\ (r = AClock x /\ l = AInt y \/ l = AClock x /\ r = AInt y)).
  { intros l r (x & y & H & [E|E]); eauto. }
  induction g; intros G f f' N E; cbn [apply_constraints] in E; (destruct (fempty dim f); [injection E as <-; exact N|]).
  - inv_bind E. eapply IHg2; [|eapply IHg1; [|exact N|eassumption]|exact E]; intros a' b A; apply G; constructor; exact A.
  - inv_bind E. inv_bind E. injection E as <-. assert (N1 : no_differences dim a) by (eapply IHg1; [|exact N|eassumption]; intros x y A; apply G; constructor; exact A).
    assert (N2 : no_differences dim a0) by (eapply IHg2; [|exact N|eassumption]; intros x y A; apply G; constructor; exact A).
    intros z c Hz. unfold funion in Hz. apply in_app_or in Hz. destruct Hz; eauto.
  - inv_bind E. destruct a as [[i j] k]. injection E as <-. destruct (C _ _ _ _ _ (G _ _ (at_le _ _)) H) as (A & B & D). apply nodiff_con; assumption.
  - inv_bind E. destruct a as [[i j] k]. injection E as <-. destruct (C _ _ _ _ _ (S _ _ (G _ _ (at_ge _ _))) H) as (A & B & D). apply nodiff_con; assumption.
  - inv_bind E. destruct a as [[i j] k]. injection E as <-. destruct (C _ _ _ _ _ (G _ _ (at_lt _ _)) H) as (A & B & D). apply nodiff_con; assumption.
  - inv_bind E. destruct a as [[i j] k]. injection E as <-. destruct (C _ _ _ _ _ (S _ _ (G _ _ (at_gt _ _))) H) as (A & B & D). apply nodiff_con; assumption.
  - inv_bind E. destruct a as [[i j] k]. injection E as <-. destruct (C _ _ _ _ _ (G _ _ (at_eq _ _)) H) as (A & B & D). apply nodiff_con; try apply nodiff_con; cbn; tauto.
  - injection E as <-. destruct b; [exact N|]. intros z c [].
Qed.

Lemma numbered_fold dim (mk : bexpr -> bexpr -> bexpr) : (forall a b, numbered dim a -> numbered dim b -> numbered dim (mk a b)) ->
  forall bs b, numbered dim b -> Forall (numbered dim) bs -> numbered dim (fold_left mk bs b).
Proof. intros M. induction bs as [|c bs IH]; intros b Hb F; [exact Hb|]. inversion F; subst. cbn [fold_left]. apply IH; auto. Qed.
Lemma numbered_and dim a b : numbered dim a -> numbered dim b -> numbered dim (BAnd a b).
Proof. intros A B l r H. inversion H; subst; auto. Qed.
Lemma numbered_or dim a b : numbered dim a -> numbered dim b -> numbered dim (BOr a b).
Proof. intros A B l r H. inversion H; subst; auto. Qed.
Lemma to_bool_numbered dim cs : (forall c i, In c cs -> In i (numbers c) -> i < dim) -> forall e b, to_bool cs e = Ok b -> number_state e = true -> numbered dim b.
Proof.
  intros Hn.
  assert (K : forall x a, to_arith cs (OClk x) = Ok a -> exists i, i < dim /\ a = AClock i).
  { intros x a E. cbn [to_arith] in E. inv_bind E. inv_bind E. injection E as <-. exists a1. split; [|reflexivity]. unfold ok_or in *.
    destruct (find (is_named x) cs) as [c|] eqn:F; [|discriminate]. injection H as <-. destruct (assoc (v_name x) (d_clocks (c_decls c))) as [i|] eqn:Ei; [|discriminate]. injection H0 as <-.
    apply find_some in F. destruct F as [F _]. apply (Hn c i F). unfold numbers. clear - Ei. induction (d_clocks (c_decls c)) as [|[y j] m IH]; [discriminate|]. cbn in Ei |- *. destruct (String.eqb _ _); [injection Ei as <-; auto|auto]. }
  assert (A : forall l bs, Forall (fun e => forall b, to_bool cs e = Ok b -> number_state e = true -> numbered dim b) l -> all_bools cs l = Ok bs -> forallb number_state l = true -> Forall (numbered dim) bs).
  { clear. induction l as [|e l IH]; intros bs F E N; cbn [all_bools] in E; [injection E as <-; constructor|]. inv_bind E. inv_bind E. injection E as <-.
    inversion F as [|? ? F1 F2]; subst. cbn [forallb] in N. apply andb_true_iff in N. destruct N. constructor; auto. }
  induction e as [o l r|l IH|l IH|y|e IH|c] using stx_ind2; intros b E N; cbn [to_bool number_state] in *.
  - inv_bind E. inv_bind E. injection E as <-. assert (X : exists i k, i < dim /\ (a = AClock i /\ a0 = AInt k \/ a0 = AClock i /\ a = AInt k)).
    { destruct l; try discriminate; destruct r; try discriminate.
      - injection H as <-. destruct (K _ _ H0) as (i & Hi & ->). eauto 8.
      - injection H0 as <-. destruct (K _ _ H) as (i & Hi & ->). eauto 8. }
    intros p q At. destruct o; inversion At; subst; exact X.
  - inv_bind E. fold (all_bools cs) in H. unfold fold_ops in E. destruct a as [|b0 bs]; [discriminate|]. injection E as <-. specialize (A _ _ IH H N). inversion A; subst. apply numbered_fold; auto using numbered_and.
  - inv_bind E. fold (all_bools cs) in H. unfold fold_ops in E. destruct a as [|b0 bs]; [discriminate|]. injection E as <-. specialize (A _ _ IH H N). inversion A; subst. apply numbered_fold; auto using numbered_or.
  - injection E as <-. intros l r At. inversion At.
  - discriminate.
  - injection E as <-. intros l r At. inversion At.
Qed.
Theorem target_numbers dim e r s st : (forall c i, In c (components r) -> In i (numbers c) -> i < dim) -> number_state e = true ->
  get_state dim e r s = Ok st -> no_differences dim (s_zone st).
Proof.
  intros Hn N E. apply get_state_inv in E. destruct E as (ls & b & t & z & _ & _ & _ & _ & Eb & Ez & ->). cbn [s_zone].
  eapply nodiff_apply; [eapply to_bool_numbered; eauto| |exact Ez]. intros z' c [<-|[]] [].
Qed.
