(** Small concrete systems used by the non-vacuity examples. *)
From Coq Require Import List String ZArith QArith Bool Arith.
From Verif Require Import Fed.Zone Fed.ZoneFacts Fed.Check Model.Base Model.Expr Model.Guard Model.Loc Model.Component Model.TS
  Spec.StepSpec Spec.SystemSpec.
Import ListNotations.
Local Open Scope string_scope.

(** M: waits for i?, then answers o! between 2 and 5 time units later. *)
Definition comp_m (clk : nat) : component :=
  mkComp "M" (mkDecls [("x", clk)] [])
    [mkL "L0" None Initial "NORMAL"; mkL "L1" (Some (BLessEQ (AVar "x") (AInt 5))) Normal "NORMAL"]
    [mkE "E1" "L0" "L1" SInput None (Some [("x", AInt 0)]) "i";
     mkE "E2" "L1" "L0" SOutput (Some (BGreatEQ (AVar "x") (AInt 2))) None "o"] None.
(** N: listens to o? and sends p! at least one time unit later. *)
Definition comp_n (clk : nat) : component :=
  mkComp "N" (mkDecls [("y", clk)] [])
    [mkL "K0" None Initial "NORMAL"; mkL "K1" None Normal "NORMAL"]
    [mkE "E3" "K0" "K1" SInput None (Some [("y", AInt 0)]) "o";
     mkE "E4" "K1" "K0" SOutput (Some (BGreatEQ (AVar "y") (AInt 1))) None "p"] None.

Definition get {A} (d : A) (r : res A) : A := match r with Ok a => a | _ => d end.
Definition no_cc : ccomp := mkCC "" 0 (mkDecls [] []) bounds_new [] [] [] [] None.

Definition ex_dim : nat := 4.
Definition cc_m := get no_cc (compile_component ex_dim (comp_m 1) 1).
Definition cc_n := get no_cc (compile_component ex_dim (comp_n 2) 2).
Definition cc_m2 := get no_cc (compile_component ex_dim (comp_m 2) 2).
Definition ts_m := TSimple cc_m.
Definition ts_n := TSimple cc_n.
Definition ts_m2 := TSimple cc_m2.
Definition ts_comp := get ts_m (composition_new ts_m ts_n).
Definition ts_conj := get ts_m (conjunction_new ts_m ts_m2).
Definition ts_quot := get ts_m (quotient_new ts_m ts_m2 3).

Lemma built_m : built ex_dim ts_m.
Proof. apply (b_simple ex_dim (comp_m 1) ["i"] ["o"] 1). vm_compute. reflexivity. Qed.
Lemma built_n : built ex_dim ts_n.
Proof. apply (b_simple ex_dim (comp_n 2) ["o"] ["p"] 2). vm_compute. reflexivity. Qed.
Lemma built_m2 : built ex_dim ts_m2.
Proof. apply (b_simple ex_dim (comp_m 2) ["i"] ["o"] 2). vm_compute. reflexivity. Qed.
Lemma new_comp : composition_new ts_m ts_n = Ok ts_comp. Proof. vm_compute. reflexivity. Qed.
Lemma new_conj : conjunction_new ts_m ts_m2 = Ok ts_conj. Proof. vm_compute. reflexivity. Qed.
Lemma new_quot : quotient_new ts_m ts_m2 3 = Ok ts_quot. Proof. vm_compute. reflexivity. Qed.
Lemma built_comp : built ex_dim ts_comp.
Proof. eapply b_comp; [exact built_m|exact built_n|exact new_comp]. Qed.
Lemma built_conj : built ex_dim ts_conj.
Proof. eapply b_conj; [exact built_m|exact built_m2|exact new_conj]. Qed.
Lemma built_quot : built ex_dim ts_quot.
Proof. eapply b_quot; [exact built_m|exact built_m2|exact new_quot]. Qed.

(** Updates of a list of transitions, checked by computation. *)
Definition upd_okb (dim : nat) (us : list cupdate) : bool :=
  forallb (fun u => negb (Nat.eqb (u_clock u) 0) && Nat.ltb (u_clock u) dim && Z.leb 0 (u_value u)) us.
Definition no_conflictb (us : list cupdate) : bool :=
  forallb (fun u => forallb (fun w => negb (Nat.eqb (u_clock u) (u_clock w)) || Z.eqb (u_value u) (u_value w)) us) us.
Lemma upd_okb_spec dim us : upd_okb dim us = true -> updates_ok dim us.
Proof.
  unfold upd_okb. rewrite forallb_forall. intros H u Hu. specialize (H u Hu).
  apply andb_true_iff in H. destruct H as [H H3]. apply andb_true_iff in H. destruct H as [H1 H2].
  apply negb_true_iff, Nat.eqb_neq in H1. apply Nat.ltb_lt in H2. apply Z.leb_le in H3. auto.
Qed.
Lemma no_conflictb_spec us : no_conflictb us = true -> no_conflict us.
Proof.
  unfold no_conflictb. rewrite forallb_forall. intros H u w Hu Hw E. specialize (H u Hu). rewrite forallb_forall in H.
  specialize (H w Hw). rewrite E, Nat.eqb_refl in H. simpl in H. apply Z.eqb_eq; exact H.
Qed.
Definition simple_clocks_okb (dim q : nat) (c : ccomp) : bool :=
  let cl := map snd (d_clocks (cc_decls c)) in
  negb (existsb (Nat.eqb q) cl) &&
  forallb (fun p => forallb (fun at' => upd_okb dim (t_updates (snd at')) && no_conflictb (t_updates (snd at')) &&
     forallb (fun u => existsb (Nat.eqb (u_clock u)) cl) (t_updates (snd at'))) (snd p)) (cc_edges c).
Lemma simple_clocks_okb_spec dim q c : simple_clocks_okb dim q c = true -> clocks_ok dim q (TSimple c).
Proof.
  unfold simple_clocks_okb. intros H. apply andb_true_iff in H. destruct H as [H1 H2]. cbn [clocks_ok comp_clocks]. split.
  - intros C. apply negb_true_iff in H1. assert (E : existsb (Nat.eqb q) (map snd (d_clocks (cc_decls c))) = true).
    { apply existsb_exists. exists q. split; [exact C|apply Nat.eqb_refl]. } congruence.
  - intros i es a t Hi Ht. rewrite forallb_forall in H2. specialize (H2 _ Hi). cbn [snd] in H2. rewrite forallb_forall in H2.
    specialize (H2 _ Ht). cbn [snd] in H2. apply andb_true_iff in H2. destruct H2 as [H2 H4]. apply andb_true_iff in H2. destruct H2 as [H2 H3].
    split; [apply upd_okb_spec; exact H2|]. split; [apply no_conflictb_spec; exact H3|].
    intros u Hu. rewrite forallb_forall in H4. specialize (H4 u Hu). apply existsb_exists in H4.
    destruct H4 as (x & Hx & E). apply Nat.eqb_eq in E. rewrite E. exact Hx.
Qed.
Lemma clocks_m : clocks_ok ex_dim 3 ts_m. Proof. apply simple_clocks_okb_spec. vm_compute. reflexivity. Qed.
Lemma clocks_n : clocks_ok ex_dim 3 ts_n. Proof. apply simple_clocks_okb_spec. vm_compute. reflexivity. Qed.
Lemma clocks_m2 : clocks_ok ex_dim 3 ts_m2. Proof. apply simple_clocks_okb_spec. vm_compute. reflexivity. Qed.
Lemma clocks_comp : clocks_ok ex_dim 3 ts_comp.
Proof. split; [exact clocks_m|]. split; [exact clocks_n|]. intros x [<-|[]] [E|[]]; vm_compute in E; discriminate. Qed.
Lemma clocks_conj : clocks_ok ex_dim 3 ts_conj.
Proof. split; [exact clocks_m|]. split; [exact clocks_m2|]. intros x [<-|[]] [E|[]]; vm_compute in E; discriminate. Qed.
Lemma clocks_quot : clocks_ok ex_dim 3 ts_quot.
Proof.
  split; [exact clocks_m|]. split; [exact clocks_m2|]. split; [intros x [<-|[]] [E|[]]; vm_compute in E; discriminate|].
  vm_compute. repeat split; auto; discriminate.
Qed.

(** Being able to take a transition, checked by computation. *)
Definition inv_atb (dim : nat) (l : loctree) (v : val) : bool := match lt_inv l with Some f => fsemb dim f v | None => val_okb dim v end.
Definition ableb (dim : nat) (l : loctree) (t : transition) (v : val) : bool :=
  inv_atb dim l v && fsemb dim (t_guard t) v && inv_atb dim (t_target t) (run_updates (t_updates t) v).
Lemma inv_atb_spec dim l v : inv_atb dim l v = true <-> inv_at dim l v.
Proof. unfold inv_atb, inv_at. destruct (lt_inv l); [apply fsemb_spec|apply val_okb_spec]. Qed.
Lemma ableb_spec dim l t v : ableb dim l t v = true <-> able dim l t v.
Proof. unfold ableb, able. rewrite !andb_true_iff, !inv_atb_spec, fsemb_spec. tauto. Qed.
Lemma able_yes dim l t v : ableb dim l t v = true -> able dim l t v. Proof. apply ableb_spec. Qed.
