(** Guards that were read from a text have proper names and constants. *)
From Coq Require Import List String Ascii ZArith Bool Arith Lia.
From Verif Require Import Fed.Zone Model.Base Model.Expr Model.Guard Model.Peg Model.ParseEdge Model.ParseQuery Spec.TextSpec Spec.QuerySpec
  Proofs.GuardFacts Proofs.ParseFacts Proofs.QueryFacts.
Import ListNotations.
Local Open Scope string_scope.
Local Open Scope list_scope.

Lemma p_name_good s n s' : p_name s = Ok (n, s') -> good_name n.
Proof.
  unfold p_name. destruct s as [|c s]; [discriminate|]. destruct (is_alpha c) eqn:A; [|discriminate]. destruct (span is_name_char s) as [a b] eqn:Es. intros E. injection E as <- <-.
  destruct (span_all _ _ _ _ Es) as [H _]. exists c, a. cbn [string_of_list_ascii list_ascii_of_string]. rewrite list_ascii_of_string_of_list_ascii. split; [reflexivity|]. split; [exact A|].
  intros x Hx. apply (proj1 (forallb_forall _ _) H). exact Hx.
Qed.
Lemma digit_nonneg c : is_digit c = true -> (0 <= digit_val c)%Z.
Proof. unfold is_digit, in_range, digit_val. intros H. apply andb_true_iff in H. destruct H as [H _]. apply Nat.leb_le in H. lia. Qed.
Lemma dec_nonneg : forall l a, (0 <= a)%Z -> (forall c, In c l -> is_digit c = true) -> (0 <= fold_left (fun a c => a * 10 + digit_val c)%Z l a)%Z.
Proof.
  induction l as [|c l IH]; intros a Ha H; [exact Ha|]. cbn [fold_left]. apply IH; [|intros x Hx; apply H; right; exact Hx].
  pose proof (digit_nonneg c (H c (or_introl eq_refl))). lia.
Qed.
Lemma nonzero_digit c : is_nonzero c = true -> is_digit c = true.
Proof. unfold is_nonzero, is_digit, in_range. rewrite !andb_true_iff, !Nat.leb_le. lia. Qed.
Lemma p_int_nonneg s k s' : p_int s = Ok (k, s') -> (0 <= k)%Z.
Proof.
  unfold p_int. destruct s as [|c s]; [discriminate|]. destruct (Ascii.eqb c "0"); [intros E; injection E as <- <-; lia|].
  destruct (is_nonzero c) eqn:N; [|discriminate]. destruct (span is_digit s) as [a b] eqn:Es. intros E. injection E as <- <-. apply dec_nonneg; [lia|].
  intros x [<-|Hx]; [apply nonzero_digit; exact N|]. destruct (span_all _ _ _ _ Es) as [H _]. apply (proj1 (forallb_forall _ _) H). exact Hx.
Qed.
Lemma p_term_keeps rec : (forall s a s', rec s = Ok (a, s') -> okP a_legible a) -> forall s a s', p_term rec s = Ok (a, s') -> okP a_legible a.
Proof.
  intros H s a s' E x Ex. subst a. unfold p_term, alt in E.
  assert (R : forall s1, (do (a, s2) <- rec (skip s1); do s3 <- lit ")" (skip s2); Ok (a, s3)) = Ok (Ok x, s') -> a_legible x).
  { intros s1 E1. destruct (rec (skip s1)) as [[b s2]| | |] eqn:Er; cbn [bind] in E1; try discriminate.
    destruct (lit ")" (skip s2)) as [s3| | |]; cbn [bind] in E1; try discriminate. injection E1 as -> <-. apply (H _ _ _ Er). reflexivity. }
  assert (R2 : match (do (k, s1) <- p_int s; Ok (rmap AInt (i32_of k), s1)) with Err => do (n, s1) <- p_name s; Ok (Ok (AVar n), s1) | r => r end = Ok (Ok x, s') -> a_legible x).
  { destruct (p_int s) as [[k s1]| | |] eqn:Ei; cbn [bind]; try discriminate.
    - unfold i32_of, i32_max. destruct (Z.leb k 2147483647) eqn:Ek; intros E1; [|discriminate]. injection E1 as <- <-. apply Z.leb_le in Ek. apply p_int_nonneg in Ei. cbn. lia.
    - destruct (p_name s) as [[n s1]| | |] eqn:En; cbn [bind]; try discriminate. intros E1. injection E1 as <- <-. cbn. exact (p_name_good _ _ _ En). }
  destruct (lit "(" s) as [s1| | |]; cbn [bind] in E; try discriminate; [|exact (R2 E)].
  destruct (do (a, s2) <- rec (skip s1); do s3 <- lit ")" (skip s2); Ok (a, s3)) as [[y s2]| | |] eqn:Eb; try discriminate; [injection E as -> ->; exact (R s1 Eb)|exact (R2 E)].
Qed.
Lemma p_arith_keeps f : forall s a s', p_arith f s = Ok (a, s') -> okP a_legible a.
Proof.
  induction f as [|f IH]; intros s a s' E; [discriminate|]. cbn [p_arith] in E. destruct (p_term (p_arith f) s) as [[x s1]| | |] eqn:Ex; cbn [bind] in E; try discriminate.
  destruct (many f (p_aop_term (p_arith f)) (skip s1)) as [[xs s2]| | |] eqn:Em; cbn [bind] in E; try discriminate. injection E as <- <-.
  apply pratt_res_keeps; [intros [] y z Hy Hz; cbn; auto|exact (p_term_keeps _ IH _ _ _ Ex)|].
  refine (many_keeps _ _ _ _ _ _ _ Em). intros t [o y] t' Et. unfold p_aop_term in Et. destruct (p_aop t) as [[o' t1]| | |]; cbn [bind] in Et; try discriminate.
  destruct (p_term (p_arith f) (skip t1)) as [[z t2]| | |] eqn:Ez; cbn [bind] in Et; try discriminate. injection Et as <- <- <-. exact (p_term_keeps _ IH _ _ _ Ez).
Qed.
Lemma p_comparison_keeps s b s' : p_comparison s = Ok (b, s') -> okP b_legible b.
Proof.
  unfold p_comparison, arith_text. destruct (p_arith _ s) as [[l s1]| | |] eqn:El; cbn [bind]; try discriminate.
  destruct (p_cop (skip s1)) as [[o s2]| | |]; cbn [bind]; try discriminate.
  destruct (p_arith _ (skip s2)) as [[r s3]| | |] eqn:Er; cbn [bind]; try discriminate. intros E. injection E as <- <-.
  intros x Ex. destruct l as [l| | |]; cbn [bind] in Ex; try discriminate. destruct r as [r| | |]; cbn [bind] in Ex; try discriminate. injection Ex as <-.
  pose proof (p_arith_keeps _ _ _ _ El l eq_refl). pose proof (p_arith_keeps _ _ _ _ Er r eq_refl). destruct o; cbn; auto.
Qed.
Lemma p_bterm_keeps rec : (forall s a s', rec s = Ok (a, s') -> okP b_legible a) -> forall s a s', p_bterm rec s = Ok (a, s') -> okP b_legible a.
Proof.
  intros H s a s' E. unfold p_bterm, alt in E.
  destruct (p_comparison s) as [[c s1]| | |] eqn:Ec; try discriminate; [injection E as <- <-; exact (p_comparison_keeps _ _ _ Ec)|].
  destruct (lit "true" s) as [s1| | |]; cbn [bind] in E; try discriminate; [injection E as <- <-; intros x Ex; injection Ex as <-; exact I|].
  destruct (lit "false" s) as [s1| | |]; cbn [bind] in E; try discriminate; [injection E as <- <-; intros x Ex; injection Ex as <-; exact I|].
  destruct (lit "(" s) as [s1| | |]; cbn [bind] in E; try discriminate. destruct (rec (skip s1)) as [[b s2]| | |] eqn:Er; cbn [bind] in E; try discriminate.
  destruct (lit ")" (skip s2)) as [s3| | |]; cbn [bind] in E; try discriminate. injection E as <- <-. exact (H _ _ _ Er).
Qed.
Lemma p_bool_keeps f : forall s a s', p_bool f s = Ok (a, s') -> okP b_legible a.
Proof.
  induction f as [|f IH]; intros s a s' E; [discriminate|]. cbn [p_bool] in E. destruct (p_bterm (p_bool f) s) as [[x s1]| | |] eqn:Ex; cbn [bind] in E; try discriminate.
  destruct (many f (p_bop_term (p_bool f)) (skip s1)) as [[xs s2]| | |] eqn:Em; cbn [bind] in E; try discriminate. injection E as <- <-.
  apply pratt_res_keeps; [intros [] y z Hy Hz; cbn; auto|exact (p_bterm_keeps _ IH _ _ _ Ex)|].
  refine (many_keeps _ _ _ _ _ _ _ Em). intros t [o y] t' Et. unfold p_bop_term in Et. destruct (p_bop t) as [[o' t1]| | |]; cbn [bind] in Et; try discriminate.
  destruct (p_bterm (p_bool f) (skip t1)) as [[z t2]| | |] eqn:Ez; cbn [bind] in Et; try discriminate. injection Et as <- <- <-. exact (p_bterm_keeps _ IH _ _ _ Ez).
Qed.
Theorem guard_legible s g : parse_guard s = Ok g -> b_legible g.
Proof.
  unfold parse_guard, opt, bool_text. destruct (p_bool _ (skip s)) as [[b s1]| | |] eqn:Eb; cbn [bind]; try discriminate.
  - destruct (p_lit ";" (skip s1)) as [[u s2]| | |]; cbn [bind]; try discriminate.
    + destruct (eoi (skip s2)); cbn [bind]; try discriminate. intros ->. exact (p_bool_keeps _ _ _ _ Eb g eq_refl).
    + destruct (eoi (skip (skip s1))); cbn [bind]; try discriminate. intros ->. exact (p_bool_keeps _ _ _ _ Eb g eq_refl).
  - destruct (p_lit ";" (skip (skip s))) as [[u s2]| | |]; cbn [bind]; try discriminate.
    + destruct (eoi (skip s2)); cbn [bind]; try discriminate. intros E. injection E as <-. exact I.
    + destruct (eoi (skip (skip (skip s)))); cbn [bind]; try discriminate. intros E. injection E as <-. exact I.
Qed.
