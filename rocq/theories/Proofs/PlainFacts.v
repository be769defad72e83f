(** Components as they are written, of which the bounds of their clocks are all there is to know. *)
From Coq Require Import List String ZArith QArith Bool Arith Lia Lqa.
From Verif Require Import Fed.Zone Fed.ZoneFacts Model.Base Model.Expr Model.Guard Model.Loc Model.Component Model.TS Model.Recipe
  Spec.GuardSpec Spec.StepSpec Spec.SystemSpec Spec.RunSpec Spec.RecipeSpec Spec.ReduceSpec Spec.BoundSpec
  Proofs.GuardFacts Proofs.SystemFacts Proofs.WfFacts Proofs.BoundFacts Proofs.NearFacts Proofs.LinkFacts Proofs.RecipeFacts Proofs.ShrinkFacts Proofs.ExecFacts Proofs.SavedFacts.
Import ListNotations.
Local Open Scope list_scope.
Local Open Scope nat_scope.

Definition plain (acc : accuracy) (c : component) : Prop := match acc with Exact => True | Bounded => literal_component c end.

Lemma named_assoc (m : list (string * nat)) x : In x (map fst m) -> exists i, assoc x m = Some i /\ In i (map snd m).
Proof.
  induction m as [|[y j] m IH]; [intros []|]. cbn. intros H. destruct (String.eqb_spec x y) as [->|N]; [exists j; split; auto; apply String.eqb_refl|].
  destruct H as [->|H]; [congruence|]. destruct (IH H) as (i & A & B). exists i. auto.
Qed.
Lemma plain_literal d g : literal_condition d g -> literal_guard d g.
Proof.
  intros P l r A. destruct (P l r A) as (x & k & Hx & H). destruct (named_assoc _ _ Hx) as (i & Ei & Hi). exists i, k.
  destruct H as [[-> ->]|[-> ->]]; [left|right]; (split; [split; [exact Hi|right; exists x; auto]|reflexivity]).
Qed.
Lemma plain_simple d g : literal_condition d g -> simple_guard d g = true.
Proof.
  assert (C : forall l r, (exists x k, In x (map fst (d_clocks d)) /\ (l = AVar x /\ r = AInt k \/ r = AVar x /\ l = AInt k)) -> simple_side d l && simple_side d r = true).
  { intros l r (x & k & Hx & H). destruct (named_assoc _ _ Hx) as (i & Ei & _).
    assert (V : simple_side d (AVar x) = true). { unfold simple_side. cbn [lin_sum is_clk]. rewrite Ei. rewrite !orb_true_r. reflexivity. }
    destruct H as [[-> ->]|[-> ->]]; rewrite V; reflexivity. }
  induction g; intros P; cbn [simple_guard]; try (apply C, P; constructor); try reflexivity.
  all: rewrite IHg1, IHg2; [reflexivity| |]; intros a b A; apply P; constructor; exact A.
Qed.


Lemma expect_ok {A} (x : res A) a : expect x = Ok a -> x = Ok a.
Proof. destruct x; cbn; congruence. Qed.
Lemma lt_simple_parts dim d l t : lt_simple dim d l = Ok t -> lt_type t = l_type l /\ lt_id t = LSimple (l_id l) /\
  match l_inv l with Some g => exists f, apply_constraints dim g d funiv = Ok f /\ lt_inv t = Some f | None => lt_inv t = None end.
Proof.
  unfold lt_simple. intros E. destruct (l_inv l) as [g|]; inv_bind E.
  - injection E as <-. inv_bind H. injection H as <-. apply expect_ok in H0. cbn. split; [reflexivity|]. split; [reflexivity|]. eauto.
  - injection H as <-. injection E as <-. auto.
Qed.
Lemma edge_guard_parts dim c e t : from_component_and_edge dim c e = Ok t ->
  match e_guard e with Some g => apply_constraints dim g (c_decls c) funiv = Ok (t_guard t) | None => t_guard t = funiv end.
Proof.
  unfold from_component_and_edge. intros E. inv_bind E. inv_bind E. inv_bind E. inv_bind E. injection E as <-. cbn [t_guard]. unfold edge_apply_guard in H2.
  destruct (e_guard e); [apply expect_ok, H2|injection H2 as ->; reflexivity].
Qed.

(** The bounds of a plain component tell all there is to know about its conditions. *)
Lemma plain_suffices dim c id cc : literal_component c -> compile_component dim c id = Ok cc -> bounds_suffice dim (TSimple cc).
Proof.
  intros (G & I & O) E. unfold compile_component in E. assert (Eb := compile_bounds _ _ _ _ _ _ E).
  destruct (compile_inv _ _ _ _ _ _ E) as (ls & es & El & _ & Ec & _ & _ & Ee & _).
  assert (Lo : forall u, In u (cc_locs cc) -> exists l, In l (c_locs c) /\ lt_simple dim (c_decls c) l = Ok u).
  { intros u Hu. rewrite Ec in Hu. apply keep_last_in in Hu. destruct (mapM_in _ _ _ El) as [_ M]. exact (M u Hu). }
  assert (Same : forall g f v w, condition c g -> apply_constraints dim g (c_decls c) funiv = Ok f -> val_ok dim w -> alike (cc_bounds cc) v w -> fsem dim f v -> fsem dim f w).
  { intros g f v w Hg Ef W A H. apply (apply_constraints_sound dim (c_decls c) g (plain_simple _ _ (G g Hg)) _ _ Ef). apply (apply_constraints_sound dim (c_decls c) g (plain_simple _ _ (G g Hg)) _ _ Ef) in H.
    split; [apply funiv_sem, W|]. rewrite Eb in A. apply (alike_guard c g v w Hg (plain_literal _ _ (G g Hg)) A), H. }
  cbn [bounds_suffice]. split; [|split; [|split]].
  - intros u v w Hu V W A H. destruct (Lo u Hu) as (l & Hl & Es). destruct (lt_simple_parts _ _ _ _ Es) as (_ & _ & P). unfold inv_at in *. destruct (l_inv l) as [g|] eqn:Eg.
    + destruct P as (f & Ef & Ei). rewrite Ei in *. refine (Same g f v w _ Ef W A H). right. exists l. auto.
    + rewrite P. exact W.
  - intros i xs a t v w Hi Ht V W A H. destruct (compiled_edge _ _ _ _ _ _ E i xs a t Hi Ht) as (e & He & _ & _ & Ef). apply edge_guard_parts in Ef. destruct (e_guard e) as [g|] eqn:Eg.
    + refine (Same g _ v w _ Ef W A H). left. exists e. auto.
    + rewrite Ef. apply funiv_sem, W.
  - intros u v Hu T V. destruct (Lo u Hu) as (l & Hl & Es). destruct (lt_simple_parts _ _ _ _ Es) as (Ty & _ & P). unfold is_universal, is_inconsistent in T. rewrite Ty in T.
    rewrite (I l Hl) in P. { unfold inv_at. rewrite P. exact V. }
    destruct (l_type l); destruct T as [T|T]; try discriminate; auto.
  - intros u xs a t Hu T Ex Ht. destruct (Lo u Hu) as (l & Hl & Es). destruct (lt_simple_parts _ _ _ _ Es) as (Ty & Id & _). unfold is_inconsistent in T. rewrite Ty in T.
    unfold assoc_loc in Ex. destruct (find _ (cc_edges cc)) as [[i xs']|] eqn:F; [|discriminate]. cbn in Ex. injection Ex as ->. apply find_some in F. destruct F as [F1 F2]. cbn [fst] in F2. apply locid_eqb_eq in F2. subst i.
    destruct (compiled_edge _ _ _ _ _ _ E _ xs a t F1 Ht) as (e & He & <- & Eid & _). rewrite Id in Eid. injection Eid as Eid.
    destruct (O l e Hl) as [O1 O2]; auto. { destruct (l_type l); try discriminate; reflexivity. }
    assert (Ein : cc_inputs cc = input_actions c).
    { unfold compile_with_actions in E. destruct (negb _); [discriminate|]. inv_bind E. inv_bind E. destruct (forallb _ _); [|discriminate]. injection E as <-. reflexivity. }
    rewrite Ein. apply specific_in. split; [exact O2|]. exists e. auto.
Qed.

Lemma plain_mild acc least pre d r : (forall c, In c (components r) -> plain acc c) -> forall k s k', compile_at least pre d r k = Ok (s, k') -> mild acc d s.
Proof.
  destruct acc; [intros _ k s k' _; exact Logic.I|]. cbn [plain]. induction r as [c|l IHl r IHr|l IHl r IHr|l IHl r IHr q]; intros P k s k' E; cbn [compile_at] in E; cbn [components] in P.
  - inv_bind E. injection E as <- _. eapply plain_suffices; [apply P; left; reflexivity|exact H].
  - inv_bind E. destruct a as [l' k1]. inv_bind E. destruct a as [r' k2]. inv_bind E. injection E as <- _.
    apply composition_new_inv in H1. destruct H1 as (_ & ? & ? & ? & ? & ? & -> & _). apply mild_comp. split; [eapply IHl|eapply IHr]; eauto; intros c Hc; apply P, in_or_app; auto.
  - inv_bind E. destruct a as [l' k1]. inv_bind E. destruct a as [r' k2]. inv_bind E. injection E as <- _. unfold conjunction_ts in H1. inv_bind H1. inv_bind H1. destruct a1; [|discriminate]. injection H1 as <-.
    apply conjunction_new_inv in H2. destruct H2 as (-> & _). apply mild_conj. split; [eapply IHl|eapply IHr]; eauto; intros c Hc; apply P, in_or_app; auto.
  - inv_bind E. destruct a as [l' k1]. inv_bind E. destruct a as [r' k2]. inv_bind E. injection E as <- _.
    unfold quotient_ts in H1. destruct (negb _); [discriminate|]. inv_bind H1. destruct a0; [|discriminate]. inv_bind H1. destruct a0; [|discriminate].
    apply quotient_new_inv in H1. destruct H1 as (? & ? & ? & -> & _). apply mild_quot. split; [eapply IHl|eapply IHr]; eauto; intros c Hc; apply P, in_or_app; auto.
Qed.

(** Numbering clocks, and dropping clocks that are not mentioned, leaves components plain. *)
Lemma plain_renumbered acc c c' : renumbered c c' -> plain acc c -> plain acc c'.
Proof.
  destruct acc; [auto|]. intros (_ & El & Ee & _ & En) (G & I & O). split; [|rewrite El, Ee; auto].
  intros g Hg. unfold literal_condition. rewrite En. apply G. unfold condition in *. rewrite El, Ee in Hg. exact Hg.
Qed.
Lemma atom_has g l r x : atom g l r -> l = AVar x \/ r = AVar x -> b_has_var g x = true.
Proof.
  induction 1; cbn [b_has_var]; intros M; try (rewrite IHatom by assumption; rewrite ?orb_true_r; reflexivity).
  all: destruct M as [-> | ->]; cbn [a_has_var]; rewrite String.eqb_refl, ?orb_true_r; reflexivity.
Qed.
Lemma plain_ren acc rho c : unread rho c -> plain acc c -> plain acc (ren_comp rho c).
Proof.
  destruct acc; [auto|]. intros U (G & I & O). split; [|split].
  - intros g Hg. assert (Hc : condition c g).
    { destruct Hg as [(e & He & Eg)|(l & Hl & Eg)]; [left|right; eauto]. cbn [ren_comp c_edges] in He. apply in_map_iff in He. destruct He as (e0 & <- & He). exists e0. auto. }
    intros l r A. destruct (G g Hc l r A) as (x & k & Hx & S). exists x, k. split; [|exact S]. apply in_map_iff in Hx. destruct Hx as ([x' i] & Ex & Hi). cbn in Ex. subst x'.
    assert (Mn : b_has_var g x = true) by (eapply atom_has; [exact A|]; destruct S as [[-> _]|[-> _]]; auto).
    apply in_map_iff. destruct (rho i) as [j|] eqn:Er; [exists (x, j); split; [reflexivity|]; apply ren_clocks_in; eauto|].
    exfalso. destruct (U x i Hi Er) as [U1 U2]. destruct Hc as [(e & He & Eg)|(l0 & Hl & Eg)]; [rewrite (U2 e g He Eg) in Mn|rewrite (U1 l0 g Hl Eg) in Mn]; discriminate.
  - exact I.
  - intros l e Hl Ty He Es. cbn [ren_comp c_edges] in He. apply in_map_iff in He. destruct He as (e0 & <- & He). exact (O l e0 Hl Ty He Es).
Qed.

(** A check for this. *)
Definition literal_atomb (d : decls) (l r : arith) : bool :=
  match l, r with AVar x, AInt _ | AInt _, AVar x => existsb (String.eqb x) (map fst (d_clocks d)) | _, _ => false end.
Fixpoint literal_guardb (d : decls) (g : bexpr) : bool :=
  match g with
  | BAnd a b | BOr a b => literal_guardb d a && literal_guardb d b
  | BLessEQ l r | BGreatEQ l r | BLessT l r | BGreatT l r | BEQ l r => literal_atomb d l r
  | BBool _ => true
  end.
Definition lone (t : loctype) : bool := match t with Universal | Inconsistent => true | _ => false end.
Definition literalb (c : component) : bool :=
  forallb (fun e => match e_guard e with Some g => literal_guardb (c_decls c) g | None => true end) (c_edges c) &&
  forallb (fun l => match l_inv l with Some g => literal_guardb (c_decls c) g && negb (lone (l_type l)) | None => true end) (c_locs c) &&
  forallb (fun l => match l_type l with Inconsistent => forallb (fun e => negb (String.eqb (e_src e) (l_id l)) || synctype_eqb (e_type e) SInput && negb (String.eqb (e_sync e) "*")) (c_edges c) | _ => true end) (c_locs c).
Lemma literal_atom_spec d l r : literal_atomb d l r = true -> exists x k, In x (map fst (d_clocks d)) /\ (l = AVar x /\ r = AInt k \/ r = AVar x /\ l = AInt k).
Proof.
  assert (X : forall x, existsb (String.eqb x) (map fst (d_clocks d)) = true -> In x (map fst (d_clocks d))).
  { intros x E. apply existsb_exists in E. destruct E as (y & Hy & E). apply String.eqb_eq in E. subst. exact Hy. }
  destruct l, r; cbn; try discriminate; intros E; eexists _, _; (split; [apply X, E|]); auto.
Qed.
Lemma literal_guard_spec d g : literal_guardb d g = true -> literal_condition d g.
Proof.
  intros E l r A. revert E. induction A; cbn [literal_guardb]; intros E; try (apply andb_true_iff in E; destruct E; auto; fail); apply literal_atom_spec, E.
Qed.
Lemma literal_check c : literalb c = true -> literal_component c.
Proof.
  unfold literalb. rewrite !andb_true_iff, !forallb_forall. intros [[A B] C]. split; [|split].
  - intros g [(e & He & Eg)|(l & Hl & Eg)]; [specialize (A e He); rewrite Eg in A; apply literal_guard_spec, A|]. specialize (B l Hl). rewrite Eg in B. apply andb_true_iff in B. apply literal_guard_spec, B.
  - intros l Hl T. specialize (B l Hl). destruct (l_inv l); [|reflexivity]. apply andb_true_iff in B. destruct B as [_ B]. destruct T as [T|T]; rewrite T in B; discriminate.
  - intros l e Hl T He Es. specialize (C l Hl). rewrite T, forallb_forall in C. specialize (C e He). rewrite Es, String.eqb_refl in C. cbn [negb orb] in C. apply andb_true_iff in C. destruct C as [C1 C2].
    split; [destruct (e_type e); [reflexivity|discriminate]|]. intros Z. rewrite Z in C2. discriminate.
Qed.
