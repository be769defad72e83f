(** Decimal numerals: printing is injective and readable. *)
From Coq Require Import List String Ascii ZArith Bool Arith Lia.
From Verif Require Import Fed.Zone Model.Base Model.Expr Model.Guard Model.Loc Model.Component Model.TS.
Import ListNotations.
Local Open Scope string_scope.

Definition dig_val (c : ascii) : nat := nat_of_ascii c - 48.
Fixpoint dec_val (s : string) (acc : nat) : nat :=
  match s with EmptyString => acc | String c s' => dec_val s' (10 * acc + dig_val c) end.

Lemma sapp_nil_r s : (s ++ "" = s)%string.
Proof. induction s; simpl; congruence. Qed.
Lemma sapp_assoc a b c : ((a ++ b) ++ c = a ++ (b ++ c))%string.
Proof. induction a; simpl; congruence. Qed.
Lemma sapp_inv_head a b c : (a ++ b = a ++ c)%string -> b = c.
Proof. induction a; simpl; intros H; [exact H|]. injection H; auto. Qed.
Lemma sapp_cons c s t : (String c s ++ t = String c (s ++ t))%string.
Proof. reflexivity. Qed.

Lemma nat_str_aux_acc f : forall n acc, nat_str_aux f n acc = nat_str_aux f n "" ++ acc.
Proof.
  induction f as [|f IH]; intros n acc; [reflexivity|]. cbn [nat_str_aux].
  destruct (Nat.div n 10) as [|m].
  - rewrite sapp_nil_r. reflexivity.
  - rewrite IH. rewrite (IH (S m) (digit (n mod 10) ++ "")). rewrite sapp_nil_r, sapp_assoc. reflexivity.
Qed.

Lemma dec_val_app a b acc : dec_val (a ++ b) acc = dec_val b (dec_val a acc).
Proof. revert acc. induction a; simpl; intros; auto. Qed.

Lemma digit_val d acc : d < 10 -> dec_val (digit d) acc = 10 * acc + d.
Proof.
  intros H. do 10 (destruct d as [|d]; [cbn; unfold dig_val; simpl; lia|]). lia.
Qed.

Lemma nat_str_aux_val f : forall n, n < f -> dec_val (nat_str_aux f n "") 0 = n.
Proof.
  induction f as [|f IH]; intros n H; [lia|].
  cbn [nat_str_aux]. pose proof (Nat.div_mod n 10 ltac:(lia)) as D.
  pose proof (Nat.mod_upper_bound n 10 ltac:(lia)) as M.
  destruct (Nat.div n 10) as [|m] eqn:E.
  - rewrite sapp_nil_r, digit_val by exact M. lia.
  - rewrite nat_str_aux_acc, dec_val_app, IH by lia. rewrite sapp_nil_r, digit_val by exact M. lia.
Qed.

Lemma nat_str_val n : dec_val (nat_str n) 0 = n.
Proof. apply nat_str_aux_val. lia. Qed.

Lemma nat_str_inj n m : nat_str n = nat_str m -> n = m.
Proof. intros H. rewrite <- (nat_str_val n), <- (nat_str_val m), H. reflexivity. Qed.
