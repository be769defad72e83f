(** Pruning keeps all consistent states when no output is passed over. *)
From Coq Require Import List String ZArith QArith Qminmax Bool Arith Lia Lqa.
From Verif Require Import Fed.Zone Fed.ZoneFacts Model.Base Model.Expr Model.Guard Model.Loc Model.Component Model.TS Model.Enable Model.Files Model.Search Model.Save Model.Prune
  Spec.GuardSpec Spec.ConvSpec Spec.StepSpec Spec.EnableSpec Spec.PruneSpec
  Proofs.GuardFacts Proofs.ConvFacts Proofs.StepFacts Proofs.SystemFacts Proofs.WfFacts Proofs.EnableFacts Proofs.CompileFacts Proofs.FileFacts Proofs.PruneFacts.
Import ListNotations.
Local Open Scope list_scope.
Local Open Scope Q_scope.

Lemma aev_ext d v w e : veq v w -> forall a, aev d v e = Some a -> exists b, aev d w e = Some b /\ a == b.
Proof.
  intros V. induction e as [l IHl r IHr|l IHl r IHr|l IHl r IHr|l IHl r IHr|l IHl r IHr|i|s|k]; cbn [aev]; intros a E.
  1,2,3: destruct (aev d v l) as [a1|] eqn:E1; try discriminate; destruct (aev d v r) as [a2|] eqn:E2; try discriminate;
     destruct (IHl a1 eq_refl) as (b1 & -> & Q1); destruct (IHr a2 eq_refl) as (b2 & -> & Q2);
     eexists; (split; [reflexivity|]); injection E as <-; rewrite Q1, Q2; reflexivity.
  1,2: exists a; split; [exact E|reflexivity].
  - injection E as <-. exists (w i). split; [reflexivity|apply V].
  - destruct (assoc s (d_clocks d)) as [i|]; [|exists a; split; [exact E|reflexivity]]. injection E as <-. exists (w i). split; [reflexivity|apply V].
  - exists a. split; [exact E|reflexivity].
Qed.
Lemma bsat_ext d v w g : veq v w -> bsat d v g -> bsat d w g.
Proof.
  intros V. assert (C : forall (R : Q -> Q -> Prop), (forall a b a' b', a == a' -> b == b' -> R a b -> R a' b') -> forall l r, cmp d v R l r -> cmp d w R l r).
  { intros R HR l r (a & b & Ea & Eb & H). destruct (aev_ext d v w l V a Ea) as (a' & Ea' & Qa). destruct (aev_ext d v w r V b Eb) as (b' & Eb' & Qb).
    exists a', b'. split; [exact Ea'|]. split; [exact Eb'|]. eapply HR; eauto. }
  induction g; cbn [bsat]; try (apply C; intros; lra).
  - intros []. split; auto.
  - intros []; auto.
  - auto.
Qed.
Lemma osat_ext d v w g : veq v w -> osat d v g -> osat d w g.
Proof. destruct g; [apply bsat_ext|auto]. Qed.

(** ** The consistent states *)
Section Spec.
Variables (dim : nat) (c : component).
Let d := c_decls c.

Lemma escapes_mono (K K' : string -> val -> Prop) n v : (forall n v, K n v -> K' n v) -> escapes c K n v -> escapes c K' n v.
Proof. intros H [A (e & us & B1 & B2 & B3 & B4 & B5 & B6)]. split; [exact A|]. exists e, us. auto 8. Qed.

Lemma consistent_goes_on : goes_on dim c (consistent dim c).
Proof.
  split.
  - intros n v (K & G & H). apply (go_legal _ _ _ G _ _ H).
  - intros n v t (K & G & H) Ht. destruct (go_time _ _ _ G _ _ _ H Ht) as [(t' & A & B)|[A B]].
    + left. exists t'. split; [exact A|]. eapply escapes_mono; [|exact B]. intros m w Hw. exists K. auto.
    + right. split; [exact A|]. intros e us H1 H2 H3 H4 H5. exists K. split; [exact G|]. eapply B; eauto.
Qed.

Lemma enabled_ext e v w : veq v w -> edge_enabled c e v -> edge_enabled c e w.
Proof.
  intros E [A (us & l & B1 & B2 & B3)]. split; [eapply osat_ext; eauto|]. exists us, l. split; [exact B1|]. split; [exact B2|].
  eapply osat_ext; [apply run_updates_ext; exact E|exact B3].
Qed.
Lemma consistent_ext n v w : veq v w -> consistent dim c n v -> consistent dim c n w.
Proof.
  intros E (K & G & H). exists (fun m w => exists v, veq v w /\ K m v). split; [|exists v; auto]. clear n v w E H. split.
  - intros n w (v & E & H). destruct (go_legal _ _ _ G _ _ H) as (A & l & B1 & B2 & B3). split; [eapply val_ok_ext; eauto|].
    exists l. split; [exact B1|]. split; [exact B2|]. eapply osat_ext; eauto.
  - intros n w t (v & E & H) Ht.
    assert (ED : forall t', veq (vdelay v t') (vdelay w t')) by (intros t'; apply vdelay_ext; [exact E|reflexivity]).
    destruct (go_time _ _ _ G _ _ _ H Ht) as [(t' & A & B)|[A B]].
    + left. exists t'. split; [exact A|]. destruct B as [B (e & us & B1 & B2 & B3 & B4 & B5 & B6)]. split.
      * intros l Hl. eapply osat_ext; [apply ED|]. apply B. exact Hl.
      * exists e, us. split; [exact B1|]. split; [exact B2|]. split; [exact B3|]. split; [eapply osat_ext; [apply ED|exact B4]|]. split; [exact B5|].
        exists (run_updates us (vdelay v t')). split; [apply run_updates_ext, ED|exact B6].
    + right. split.
      * intros l Hl. eapply osat_ext; [apply ED|]. apply A. exact Hl.
      * intros e us H1 H2 H3 H4 H5. exists (run_updates us (vdelay v t)). split; [apply run_updates_ext, ED|].
        apply B; auto. eapply enabled_ext; [apply veq_sym, ED|exact H4].
Qed.

(** A legal state with an output to a consistent state is consistent. *)
Lemma consistent_escape n l v : the_location c n l -> l_type l <> Inconsistent -> val_ok dim v -> escapes c (consistent dim c) n v -> consistent dim c n v.
Proof.
  intros T N Hv E. exists (fun m w => consistent dim c m w \/ (m = n /\ w = v)). split; [|right; auto]. split.
  - intros m w [H|[-> ->]]; [apply (go_legal _ _ _ consistent_goes_on _ _ H)|]. split; [exact Hv|]. exists l. split; [exact T|]. split; [exact N|]. apply E. exact T.
  - intros m w t [H|[-> ->]] Ht.
    + destruct (go_time _ _ _ consistent_goes_on _ _ _ H Ht) as [(t' & A & B)|[A B]].
      * left. exists t'. split; [exact A|]. eapply escapes_mono; [|exact B]. auto.
      * right. split; [exact A|]. intros. left. eapply B; eauto.
    + left. exists 0. split; [lra|]. assert (V : veq v (vdelay v 0)) by (apply veq_sym, vdelay_zero; reflexivity).
      destruct E as [E1 (e & us & B1 & B2 & B3 & B4 & B5 & B6)]. split.
      * intros l' Hl'. eapply osat_ext; [exact V|]. apply E1. exact Hl'.
      * exists e, us. split; [exact B1|]. split; [exact B2|]. split; [exact B3|]. split; [eapply osat_ext; [exact V|exact B4]|]. split; [exact B5|].
        left. eapply consistent_ext; [|exact B6]. apply run_updates_ext. exact V.
Qed.
End Spec.

(** ** Sets that depend on the clocks below [dim] *)
Section Dep.
Variable dim : nat.
Notation dep := (only_clocks dim).
Lemma dep_univ : dep funiv.
Proof. intros v w Hv Hw _ _. apply funiv_sem. exact Hw. Qed.
Lemma dep_none : dep fnone.
Proof. intros v w _ _ _ H. destruct (fnone_sem _ _ H). Qed.
Lemma dep_union f g : dep f -> dep g -> dep (funion f g).
Proof. intros F G v w Hv Hw E H. apply funion_sem. apply funion_sem in H. destruct H as [H|H]; [left; apply (F v w)|right; apply (G v w)]; assumption. Qed.
Lemma dep_inter f g : dep f -> dep g -> dep (finter dim f g).
Proof. intros F G v w Hv Hw E H. apply finter_sem. apply finter_sem in H. destruct H as [H1 H2]. split; [apply (F v w)|apply (G v w)]; assumption. Qed.
Lemma dep_sub f g : dep f -> dep g -> dep (fsub dim f g).
Proof.
  intros F G v w Hv Hw E H. apply fsub_sem. apply fsub_sem in H. destruct H as [H1 H2]. split; [apply (F v w); assumption|]. intros X. apply H2.
  apply (G w v); [exact Hw|exact Hv| |exact X]. intros i Hi. symmetry. auto.
Qed.
Lemma dep_down f : dep f -> dep (fdown f).
Proof.
  intros F v w Hv Hw E H. apply fdown_sem in H. destruct H as (_ & t & Ht & H). apply fdown_sem. split; [exact Hw|]. exists t. split; [exact Ht|].
  apply (F (vdelay v t) (vdelay w t)); [apply vdelay_ok; assumption|apply vdelay_ok; assumption| |exact H]. intros i Hi. unfold vdelay.
  destruct (Nat.eqb i 0) eqn:Z; [rewrite (proj1 Hv), (proj1 Hw); reflexivity|]. rewrite (E i Hi). reflexivity.
Qed.
Lemma dep_assign i k f : (i < dim)%nat -> dep f -> dep (fcon_eq i 0 k f).
Proof.
  intros L F v w Hv Hw E H. apply fcon_eq_sem. apply fcon_eq_sem in H. destruct H as [H1 H2]. split; [|apply (F v w); assumption].
  rewrite <- (E i L), (proj1 Hw). rewrite (proj1 Hv) in H1. exact H1.
Qed.
Lemma dep_free i f : i <> 0%nat -> (i < dim)%nat -> dep f -> dep (ffree dim i f).
Proof.
  intros N L F v w Hv Hw E H. apply ffree_sem; [exact N|exact L|]. apply ffree_sem in H; [|exact N|exact L]. destruct H as (_ & q & Hq & H).
  split; [exact Hw|]. exists q. split; [exact Hq|]. apply (F (vset v i q) (vset w i q)); [apply vset_ok; auto|apply vset_ok; auto| |exact H].
  intros j Hj. unfold vset. destruct (Nat.eqb j i); [reflexivity|auto].
Qed.
Lemma dep_guards us : updates_ok dim us -> forall f, dep f -> dep (fold_left (fun f u => apply_as_guard u f) us f).
Proof.
  induction us as [|u us IH]; intros H f F; cbn [fold_left]; [exact F|]. apply updates_ok_cons in H. destruct H as [(H0 & H1 & _) H].
  apply IH; [exact H|]. apply dep_assign; assumption.
Qed.
Lemma dep_frees us : updates_ok dim us -> forall f, dep f -> dep (fold_left (fun f u => apply_as_free dim u f) us f).
Proof.
  induction us as [|u us IH]; intros H f F; cbn [fold_left]; [exact F|]. apply updates_ok_cons in H. destruct H as [(H0 & H1 & _) H].
  apply IH; [exact H|]. apply dep_free; assumption.
Qed.
End Dep.

(** A set all of whose zones have an upper bound cannot be stayed in for ever. *)
Lemma zone_left dim z v : zunbounded dim z = false -> val_ok dim v -> exists D, 0 <= D /\ forall t, D <= t -> ~ (zsem z (vdelay v t)).
Proof.
  unfold zunbounded. intros U Hv. apply andb_false_iff in U. destruct U as [U|U].
  - apply negb_false_iff in U. exists 0. split; [lra|]. intros t Ht H. apply (proj1 (zempty_true dim z) U (vdelay v t)); [apply vdelay_ok; [exact Hv|lra]|exact H].
  - assert (X : exists x, In x z /\ cj x = 0%nat /\ ci x <> 0%nat).
    { clear - U. induction z as [|x z IH]; [discriminate|]. cbn [forallb] in U. apply andb_false_iff in U. destruct U as [U|U].
      - exists x. split; [left; reflexivity|]. apply negb_false_iff, andb_true_iff in U. destruct U as [U1 U2]. apply Nat.eqb_eq in U1. apply negb_true_iff, Nat.eqb_neq in U2. auto.
      - destruct (IH U) as (y & H & H'). exists y. split; [right; exact H|exact H']. }
    destruct X as (x & Hx & Xj & Xi). exists (Qmax 0 (inject_Z (cc x) - v (ci x) + 1)).
    split; [apply Q.le_max_l|]. intros t Ht H. specialize (H x Hx). unfold csem in H. rewrite Xj, vdelay_0, vdelay_S in H by exact Xi. pose proof (proj1 Hv) as V0.
    assert (L : inject_Z (cc x) - v (ci x) + 1 <= t) by (eapply Qle_trans; [apply Q.le_max_r|exact Ht]). unfold ilt in H. destruct (cs x); lra.
Qed.
Lemma cannot_stay dim f v : fcan_delay dim f = false -> val_ok dim v -> exists D, 0 <= D /\ ~ fsem dim f (vdelay v D).
Proof.
  intros U Hv. assert (X : exists D, 0 <= D /\ forall t z, D <= t -> In z f -> ~ zsem z (vdelay v t)).
  { unfold fcan_delay in U. induction f as [|z f IH]; [exists 0; split; [lra|]; intros t z _ []|]. cbn [existsb] in U. apply orb_false_iff in U. destruct U as [U1 U2].
    destruct (zone_left dim z v U1 Hv) as (D1 & P1 & N1). destruct (IH U2) as (D2 & P2 & N2). exists (Qmax D1 D2). split; [eapply Qle_trans; [exact P1|apply Q.le_max_l]|].
    intros t w Ht [<-|Hw]; [apply N1|apply (N2 t w); [|exact Hw]]; eapply Qle_trans; try exact Ht; [apply Q.le_max_l|apply Q.le_max_r]. }
  destruct X as (D & P & N). exists D. split; [exact P|]. intros (_ & z & Hz & H). apply (N D z); [lra|exact Hz|exact H].
Qed.

(** ** The pruning loop *)
Section Sound.
Variables (dim : nat) (minc : fed -> fed) (predt : fed -> fed -> fed) (c : component).
Let d := c_decls c.
Hypothesis Hp : plain_component c.
Hypothesis Hs : sane_updates dim c.
Hypothesis Hnum : clocks_numbered d.
Hypothesis Hdim : dim = comp_dim c.
Hypothesis Hm : describes dim minc.
Hypothesis Ht : timed_pred dim predt.
Hypothesis Hb : bad_inputs_alone c.
Notation K := (consistent dim c).
Notation dep := (only_clocks dim).

(** Guards the applier gets right and that depend on the clocks below [dim]. *)
Definition fine (g : option bexpr) : Prop :=
  (forall b, g = Some b -> simple_guard d b = true) /\
  forall v w, val_ok dim v -> val_ok dim w -> below dim v w -> osat d v g -> osat d w g.

Lemma fine_inv l : In l (c_locs c) -> fine (l_inv l).
Proof.
  intros Hl. split; [intros b E; apply (proj1 Hp l b Hl E)|]. intros v w _ _ B. apply (osat_inv_below c dim Hp Hnum Hdim l v w Hl B).
Qed.
Lemma fine_guard e : In e (c_edges c) -> fine (e_guard e).
Proof.
  intros He. split; [intros b E; apply (proj2 Hp e b He E)|]. intros v w _ _ B H. destruct (e_guard e) as [g|] eqn:G; [|exact I].
  apply (bsat_below dim d (decl_below c dim Hnum Hdim) g (proj2 (proj2 Hp e g He G)) v w B H).
Qed.

Lemma apply_opt_sem g f f' : fine g -> apply_opt dim c g f = Ok f' ->
  (forall v, fsem dim f' v <-> fsem dim f v /\ osat d v g) /\ (dep f -> dep f').
Proof.
  intros [S D] E. assert (X : forall v, fsem dim f' v <-> fsem dim f v /\ osat d v g).
  { intros v. unfold apply_opt in E. destruct g as [b|]; [|injection E as <-; simpl; tauto]. apply expect_ok in E.
    apply (apply_constraints_sound dim (c_decls c) b (S b eq_refl) _ _ E v). }
  split; [exact X|]. intros F v w Hv Hw B H. apply X. apply X in H. destruct H as [H1 H2]. split; [apply (F v w); assumption|]. apply (D v w); assumption.
Qed.

(** Updates of edges with the same updates as one of the component. *)
Definition sane (e : edge) (us : list cupdate) : Prop := updates_of c e = Some us /\ updates_ok dim us /\ no_conflict us.
Lemma updates_same e e' : same_but_guard e e' -> updates_of c e' = updates_of c e.
Proof. intros (_ & _ & _ & _ & E & _). unfold updates_of. rewrite E. reflexivity. Qed.
Lemma sane_same e e' us : In e (c_edges c) -> same_but_guard e e' -> updates_of c e' = Some us -> sane e' us.
Proof. intros He S E. split; [exact E|]. rewrite (updates_same _ _ S) in E. apply (Hs e us He E). Qed.

Lemma compile_updates_list us : forall (h : fed -> cupdate -> fed) f f', foldM (fun f u => do cu <- compile_update u d; Ok (h f cu)) us f = Ok f' ->
  exists cus, edge_updates d us = Some cus /\ f' = fold_left h cus f.
Proof.
  intros h. induction us as [|[x e] us IH]; intros f f' E; cbn [foldM edge_updates] in *; [injection E as <-; exists []; auto|].
  inv_bind E. inv_bind H. injection H as <-. destruct (compile_edge_update _ _ _ _ H0) as (k & -> & Ex & Ek). destruct (IH _ _ E) as (cus & Ec & ->).
  rewrite Ex, Ec. destruct a0 as [i k']. cbn [u_clock u_value] in *. subst k'. eexists. split; [reflexivity|]. reflexivity.
Qed.
Lemma as_guards_eq e f f' : as_guards c e f = Ok f' -> exists us, updates_of c e = Some us /\ f' = fold_left (fun f u => apply_as_guard u f) us f.
Proof. unfold as_guards, updates_of. intros E. apply (compile_updates_list _ (fun f u => apply_as_guard u f)) in E. exact E. Qed.
Lemma as_frees_eq e f f' : as_frees dim c e f = Ok f' -> exists us, updates_of c e = Some us /\ f' = fold_left (fun f u => apply_as_free dim u f) us f.
Proof. unfold as_frees, updates_of. intros E. apply (compile_updates_list _ (fun f u => apply_as_free dim u f)) in E. exact E. Qed.

(** Backwards over an edge. *)
Lemma guards_frees_sem e0 e f f' : In e0 (c_edges c) -> same_but_guard e0 e -> guards_frees dim c e f = Ok f' ->
  exists us, sane e us /\ (forall v, fsem dim f' v <-> val_ok dim v /\ fsem dim f (run_updates us v)) /\ (dep f -> dep f').
Proof.
  intros He S E. unfold guards_frees in E. inv_bind E. destruct (as_guards_eq _ _ _ H) as (us & U & ->). pose proof (sane_same _ _ _ He S U) as Sn. destruct Sn as (_ & O & N).
  exists us. split; [split; auto|]. pose proof (inverse_updates_sem dim us O N f) as X. unfold inverse_apply_updates in X.
  destruct (fempty dim (fold_left (fun f u => apply_as_guard u f) us f)) eqn:Em.
  - injection E as <-. split.
    + intros v. split; [intros H1; destruct (proj1 (fempty_true _ _) Em _ H1)|]. intros H1. apply X in H1. apply frees_sem in H1; [|exact O].
      destruct H1 as (_ & w & H1 & _). destruct (proj1 (fempty_true _ _) Em _ H1).
    + intros _. intros v w _ _ _ H1. destruct (proj1 (fempty_true _ _) Em _ H1).
  - destruct (as_frees_eq _ _ _ E) as (us' & U' & ->). assert (us' = us) by congruence. subst us'. split; [exact X|].
    intros D. apply dep_frees; [exact O|]. apply dep_guards; assumption.
Qed.

(** ** What holds during the search *)
Record sound (x : pctx) : Prop := {
  so_parts : forall n p, assoc n (p_parts x) = Some p -> dep p /\ forall v, fsem dim p v -> ~ K n v;
  so_from : forall e', In e' (p_edges x) -> fine (e_guard e') /\ exists e, In e (c_edges c) /\ same_but_guard e e' /\
      forall v, val_ok dim v -> osat d v (e_guard e') -> osat d v (e_guard e);
  so_kept : forall e us v, In e (c_edges c) -> updates_of c e = Some us -> K (e_src e) v -> osat d v (e_guard e) ->
      K (e_tgt e) (run_updates us v) -> exists e', In e' (p_edges x) /\ same_but_guard e e' /\ osat d v (e_guard e') }.

(** Taking away an edge no consistent state needs. *)
Definition unneeded (e : edge) : Prop := forall us v, updates_of c e = Some us -> K (e_src e) v -> osat d v (e_guard e) -> ~ K (e_tgt e) (run_updates us v).
Lemma sound_remove e x : unneeded e -> sound x -> sound (remove_edge x e).
Proof.
  intros N S. split; cbn [remove_edge p_parts p_edges].
  - apply S.
  - intros e' H. apply in_remove in H. apply (so_from _ S _ H).
  - intros e0 us v H1 H2 H3 H4 H5. destruct (so_kept _ S _ _ _ H1 H2 H3 H4 H5) as (e' & A1 & A2 & A3). exists e'. split; [|auto].
    apply in_remove_other; [exact A1|]. intros ->. destruct A2 as (_ & Es & Et & _ & Eu & _). apply (N us v); [|rewrite Es; exact H3|exact A3|rewrite Et; exact H5].
    unfold updates_of in *. rewrite Eu. exact H2.
Qed.
Lemma sound_guard e f x x' : In e (c_edges c) -> dep f -> (forall v, fsem dim f v -> osat d v (e_guard e)) ->
  (forall us v, updates_of c e = Some us -> K (e_src e) v -> osat d v (e_guard e) -> K (e_tgt e) (run_updates us v) -> fsem dim f v) ->
  sound x -> update_edge_guard minc c x e f = Ok x' -> sound x'.
Proof.
  intros He D L N S E. unfold update_edge_guard in E. destruct (existsb _ _) eqn:X; [|injection E as <-; exact S]. inv_bind E. injection E as <-. rename a into g.
  destruct (Hm f D) as [M1 M2].
  destruct (from_disjunction_ok d (naming_of (d_clocks d)) (naming_declared c Hnum) (minc f)) as (g' & Eg & Bg & Sg).
  { intros z y Hz Hy. destruct (M2 z y Hz Hy) as (A & B & C). split; [exact C|]. split; intros Hne; apply (naming_total c dim Hnum Hdim); assumption. }
  fold d in H. rewrite Eg in H. injection H as ->.
  assert (G : forall v, val_ok dim v -> (osat d v g <-> fsem dim f v)) by (intros v Hv; rewrite (Sg dim v Hv); apply M1).
  assert (Fg : fine g).
  { split; [intros b Eb; apply basic_simple, Bg, Eb|]. intros v w Hv Hw B. rewrite (G v Hv), (G w Hw). apply D; assumption. }
  split; cbn [p_parts p_edges].
  - apply S.
  - intros e' H. apply in_guard in H. destruct H as [H|[-> H]]; [apply (so_from _ S _ H)|]. cbn [with_guard e_guard]. split; [exact Fg|].
    exists e. split; [exact He|]. split; [apply with_guard_same|]. intros v Hv Ho. apply L. apply G; assumption.
  - intros e0 us v H1 H2 H3 H4 H5. destruct (so_kept _ S _ _ _ H1 H2 H3 H4 H5) as (e' & A1 & A2 & A3).
    destruct (edge_dec e' e) as [->|Ne].
    + exists (with_guard e g). split; [apply in_guard_self; exact A1|]. split; [eapply same_trans; [exact A2|apply with_guard_same]|]. cbn [with_guard e_guard].
      destruct A2 as (_ & Es & Et & _ & Eu & _). apply G; [apply (go_legal _ _ _ (consistent_goes_on dim c) _ _ H3)|]. apply (N us v); [|rewrite Es; exact H3|exact A3|rewrite Et; exact H5].
      unfold updates_of in *. rewrite Eu. exact H2.
    + exists e'. split; [apply in_guard_other; assumption|auto].
Qed.
Lemma sound_source n f x : dep f -> (forall v, fsem dim f v -> ~ K n v) -> sound x -> sound (process_source dim n f x).
Proof.
  intros D N S. unfold process_source. destruct (fempty dim f); [exact S|].
  assert (P : forall k p, assoc k (put n (match incons x n with Some p => funion f p | None => f end) (p_parts x)) = Some p -> dep p /\ forall v, fsem dim p v -> ~ K k v).
  { intros k p H. apply assoc_put_in in H. destruct H as [[-> ->]|H]; [|apply (so_parts _ S _ _ H)].
    unfold incons. destruct (assoc n (p_parts x)) as [q|] eqn:Q; [|auto]. destruct (so_parts _ S _ _ Q) as [D' N']. split; [apply dep_union; assumption|].
    intros v H. apply funion_sem in H. destruct H; auto. }
  destruct (existsb _ _); split; cbn [p_parts p_edges]; try apply S; exact P.
Qed.

(** The inconsistent part of a location, if any, taken away. *)
Lemma sub_part_sem x n f : sound x -> (forall v, fsem dim (sub_part dim x n f) v -> fsem dim f v) /\
  (forall v, fsem dim f v -> K n v -> fsem dim (sub_part dim x n f) v) /\ (dep f -> dep (sub_part dim x n f)).
Proof.
  intros S. unfold sub_part, incons. destruct (assoc n (p_parts x)) as [p|] eqn:P; [|auto]. destruct (so_parts _ S _ _ P) as [D N]. split; [|split].
  - intros v H. apply fsub_sem in H. apply H.
  - intros v H H'. apply fsub_sem. split; [exact H|]. intros X. apply (N v X H').
  - intros F. apply dep_sub; assumption.
Qed.

Lemma consistent_inv n l v : the_location c n l -> K n v -> val_ok dim v /\ osat d v (l_inv l) /\ l_type l <> Inconsistent.
Proof.
  intros T H. destruct (go_legal _ _ _ (consistent_goes_on dim c) _ _ H) as (Hv & l' & T' & N & O). assert (l' = l) by (apply T; apply T'). subst l'. auto.
Qed.

Lemma sound_unsat e x x' : In e (c_edges c) -> sound x -> remove_if_unsat dim c e x = Ok x' -> sound x'.
Proof.
  intros He S E. unfold remove_if_unsat in E. inv_bind E. inv_bind E. inv_bind E. inv_bind E. inv_bind E. inv_bind E.
  rename a into tl, a3 into sl, a0 into f1, a1 into f3, a2 into f4, a4 into f5. destruct (fempty dim _) eqn:Em; injection E as <-; [|exact S].
  apply sound_remove; [|exact S]. intros us v U Ks O Kt.
  pose proof (the_location_of c _ _ H) as TL. pose proof (the_location_of c _ _ H3) as SL.
  destruct (consistent_inv _ _ _ TL Kt) as (Ht' & It & _). destruct (consistent_inv _ _ _ SL Ks) as (Hv & Is & _).
  destruct (apply_opt_sem _ _ _ (fine_inv tl (proj1 TL)) H0) as [S1 _]. destruct (guards_frees_sem e e _ _ He (same_refl e) H1) as (us' & (U' & _) & S3 & _).
  assert (us' = us) by congruence. subst us'. destruct (apply_opt_sem _ _ _ (fine_guard e He) H2) as [S4 _]. destruct (apply_opt_sem _ _ _ (fine_inv sl (proj1 SL)) H4) as [S5 _].
  apply (proj1 (fempty_true _ _) Em v). apply (sub_part_sem x (e_src e) f5 S); [|exact Ks]. apply S5. split; [|exact Is]. apply S4. split; [|exact O].
  apply S3. split; [exact Hv|]. apply (sub_part_sem x (e_tgt e) f1 S); [|exact Kt]. apply S1. split; [apply funiv_sem; exact Ht'|exact It].
Qed.

(** States from which [f] can be reached by waiting. *)
Definition before (f g : fed) : Prop := forall v, fsem dim g v -> exists t, 0 <= t /\ fsem dim f (vdelay v t).
Lemma before_refl f : before f f.
Proof. intros v H. exists 0. split; [lra|]. eapply fsem_ext; [|exact H]. apply veq_sym, vdelay_zero. reflexivity. Qed.

Lemma outputs_in x n o : In o (outputs_of x n) -> In o (p_edges x) /\ e_src o = n /\ e_type o = SOutput.
Proof.
  unfold outputs_of. intros H. apply filter_In in H. destruct H as [H1 H2]. apply andb_true_iff in H2. destruct H2 as [H2 H3]. apply String.eqb_eq in H2.
  split; [exact H1|]. split; [exact H2|]. destruct (e_type o); [discriminate|reflexivity].
Qed.

Lemma predt_outputs x l f f' : sound x -> In l (c_locs c) -> dep f -> predt_of_all_outputs dim predt c x l f = Ok f' -> dep f' /\ before f f'.
Proof.
  intros S Hl D E. unfold predt_of_all_outputs in E. refine (foldM_inv _ _ (fun g => dep g /\ before f g) _ _ _ _ _ _ E); [|split; [exact D|apply before_refl]].
  intros o g g' Ho [Dg Bg] Eo. apply outputs_in in Ho. destruct Ho as (Ho & _ & _). destruct (so_from _ S _ Ho) as (Fo & e & He & Se & _).
  unfold predt_output in Eo. inv_bind Eo. inv_bind Eo. inv_bind Eo. inv_bind Eo. inv_bind Eo. inv_bind Eo. injection Eo as <-.
  pose proof (the_location_of c _ _ H) as TL. destruct (apply_opt_sem _ _ _ (fine_inv a (proj1 TL)) H0) as [_ D1].
  assert (D2 : dep a1).
  { destruct (existsb _ _); [|injection H1 as <-; apply D1, dep_univ]. inv_bind H1. injection H1 as <-. apply dep_sub; [apply D1, dep_univ|].
    unfold incons in H5. destruct (assoc (e_tgt o) (p_parts x)) as [q|] eqn:Q; [|discriminate]. injection H5 as <-. apply (so_parts _ S _ _ Q). }
  assert (D3 : dep a2).
  { destruct (fempty dim a1); [injection H2 as <-; exact D2|]. destruct (as_frees_eq _ _ _ H2) as (us & U & ->). apply dep_frees; [|exact D2].
    apply (sane_same e o us He Se U). }
  destruct (apply_opt_sem _ _ _ Fo H3) as [_ D4]. destruct (apply_opt_sem _ _ _ (fine_inv l Hl) H4) as [_ D5].
  destruct Ht as [T1 T2]. split.
  - apply dep_union; [exact Dg|]. apply T1; [exact Dg|]. apply D5, D4, D3.
  - intros v H5. apply funion_sem in H5. destruct H5 as [H5|H5]; [apply Bg; exact H5|]. apply T2 in H5. destruct H5 as (t & Pt & H5).
    apply Bg in H5. destruct H5 as (t' & Pt' & H5). exists (t + t'). split; [lra|]. eapply fsem_ext; [apply vdelay_add|exact H5].
Qed.

(** Waiting into a set where an input leads astray. *)
Lemma sound_input e x x' : In e (c_edges c) -> e_type e = SInput -> can_fail c (e_tgt e) -> sound x -> handle_input dim predt c e x = Ok x' -> sound x'.
Proof.
  intros He Te F S E. unfold handle_input in E. inv_bind E. inv_bind E. inv_bind E. inv_bind E. rename a into tl, a0 into p0, a1 into p1, a2 into p2.
  destruct (fempty dim p2); [injection E as <-; exact S|]. inv_bind E. rename a into p3. inv_bind E. eapply sound_unsat; [exact He| |exact E].
  destruct (fempty dim p3); [injection H4 as <-; exact S|]. inv_bind H4. inv_bind H4. injection H4 as <-. match goal with X : predt_of_all_outputs _ _ _ _ _ _ = Ok ?a |- _ => rename a into p4 end. match goal with X : (if fequals _ _ _ then _ else _) = Ok ?a |- _ => rename a into p5 end. clear E.
  pose proof (the_location_of c _ _ H) as TL. destruct TL as (TL1 & TL2 & TL3). assert (TL : the_location c (e_tgt e) tl) by (repeat split; assumption).
  unfold incons in H0. destruct (assoc (l_id tl) (p_parts x)) as [q|] eqn:Q; [|discriminate]. injection H0 as ->. rewrite TL2 in Q.
  destruct (so_parts _ S _ _ Q) as [Dq Nq].
  destruct (apply_opt_sem _ _ _ (fine_inv tl TL1) H1) as [S1 D1].
  destruct (as_guards_eq _ _ _ H2) as (us & U & ->). destruct (sane_same e e us He (same_refl e) U) as (_ & O & N).
  unfold back_exploration in H3. inv_bind H3. inv_bind H3. inv_bind H3. rename a into r1, a0 into r2, a1 into sl.
  destruct (as_frees_eq _ _ _ H0) as (us' & U' & ->). assert (us' = us) by congruence. subst us'.
  pose proof (the_location_of c _ _ H7) as SL.
  destruct (apply_opt_sem _ _ _ (fine_guard e He) H4) as [S2 D2]. destruct (apply_opt_sem _ _ _ (fine_inv sl (proj1 SL)) H3) as [S3 D3].
  pose proof (inverse_updates_sem dim us O N p1) as X. unfold inverse_apply_updates in X.
  assert (Dp3 : dep p3) by (apply D3, D2; apply dep_frees; [exact O|]; apply dep_guards; [exact O|]; apply D1; exact Dq).
  destruct (predt_outputs x tl p3 p4 S TL1 Dp3 H5) as [D4 B4].
  assert (P5 : dep p5 /\ before p3 p5).
  { destruct (fequals dim p3 p4); [|injection H6 as <-; auto]. inv_bind H6. pose proof (the_location_of c _ _ H8) as SL'.
    destruct (apply_opt_sem _ _ _ (fine_inv a (proj1 SL')) H6) as [S5 D5]. split; [apply D5, dep_down, D4|].
    intros v Hv. apply S5 in Hv. destruct Hv as [Hv _]. apply fdown_sem in Hv. destruct Hv as (_ & t & Pt & Hv). apply B4 in Hv. destruct Hv as (t' & Pt' & Hv).
    exists (t + t'). split; [lra|]. eapply fsem_ext; [apply vdelay_add|exact Hv]. }
  destruct P5 as [D5 B5]. apply sound_source; [exact D5| |exact S]. intros v Hv Kv. apply B5 in Hv. destruct Hv as (t & Pt & Hv).
  apply S3 in Hv. destruct Hv as [Hv Is]. apply S2 in Hv. destruct Hv as [Hv Og]. apply X in Hv. destruct Hv as [Hv Hr]. apply S1 in Hr. destruct Hr as [Hr It].
  destruct (go_time _ _ _ (consistent_goes_on dim c) _ _ _ Kv Pt) as [(t' & _ & _ & (o & ous & B1 & B2 & B3 & _))|[_ B]].
  - rewrite (Hb e o He B1 Te F B3) in B2. discriminate.
  - apply (Nq _ Hr). apply (B e us He Te eq_refl); [|exact U]. split; [exact Og|]. exists us, tl. auto.
Qed.

Lemma sound_shrink e x x' : In e (c_edges c) -> sound x -> shrink_edge dim minc c e x = Ok x' -> sound x'.
Proof.
  intros He S E. unfold shrink_edge in E. inv_bind E. rename a into t. unfold incons in H. destruct (assoc (e_tgt e) (p_parts x)) as [q|] eqn:Q; [|discriminate]. injection H as ->.
  destruct (so_parts _ S _ _ Q) as [Dq Nq].
  destruct (fisuniv dim t) eqn:Fu.
  - injection E as <-. apply sound_remove; [|exact S]. intros us v _ _ _ Kt. apply (Nq _ (proj1 (fisuniv_true _ _) Fu _ (proj1 (go_legal _ _ _ (consistent_goes_on dim c) _ _ Kt))) Kt).
  - inv_bind E. inv_bind E. rename a into f, a0 into g. destruct (guards_frees_sem e e _ _ He (same_refl e) H) as (us & (U & O & N) & S1 & D1).
    destruct (apply_opt_sem _ _ _ (fine_guard e He) H0) as [S2 D2].
    assert (X : forall us v, updates_of c e = Some us -> K (e_src e) v -> osat d v (e_guard e) -> K (e_tgt e) (run_updates us v) -> fsem dim (fsub dim g f) v).
    { intros us' v U' Ks Og Kt. assert (us' = us) by congruence. subst us'. pose proof (proj1 (go_legal _ _ _ (consistent_goes_on dim c) _ _ Ks)) as Hv.
      apply fsub_sem. split; [apply S2; split; [apply funiv_sem; exact Hv|exact Og]|]. intros C. apply S1 in C. destruct C as [_ C]. apply (Nq _ C Kt). }
    destruct (fempty dim (fsub dim g f)) eqn:Em.
    + injection E as <-. apply sound_remove; [|exact S]. intros us' v U' Ks Og Kt. apply (proj1 (fempty_true _ _) Em v). eapply X; eauto.
    + eapply sound_guard; [exact He| | |exact X|exact S|exact E].
      * apply dep_sub; [apply D2, dep_univ|apply D1; exact Dq].
      * intros v Hv. apply fsub_sem in Hv. destruct Hv as [Hv _]. apply S2 in Hv. apply Hv.
Qed.

(** The outputs that still lead to consistent states. *)
Lemma saving x inv es f0 f : sound x -> (forall o, In o es -> In o (p_edges x)) -> dep inv -> dep f0 -> foldM (saving_part dim c x inv) es f0 = Ok f -> dep f /\
  (forall v, fsem dim f0 v -> fsem dim f v) /\
  forall o us v t, In o es -> updates_of c o = Some us -> 0 <= t -> fsem dim inv v -> osat d (vdelay v t) (e_guard o) -> K (e_tgt o) (run_updates us (vdelay v t)) -> fsem dim f v.
Proof.
  intros S Hes Di. revert f0. induction es as [|o es IH]; intros f0 D0 E; cbn [foldM] in E; [injection E as <-; split; [exact D0|]; split; [auto|]; intros o us v t []|].
  inv_bind E. rename a into f1.
  destruct (so_from _ S _ (Hes o (or_introl eq_refl))) as (Fo & e & He & Se & _).
  unfold saving_part in H. inv_bind H. inv_bind H. inv_bind H. inv_bind H. injection H as <-. rename a into tl, a0 into g1, a1 into g3, a2 into g4.
  pose proof (the_location_of c _ _ H0) as TL. destruct (apply_opt_sem _ _ _ (fine_inv tl (proj1 TL)) H1) as [S1 D1].
  destruct (guards_frees_sem e o _ _ He Se H2) as (us & (U & O & N) & S3 & D3). destruct (apply_opt_sem _ _ _ Fo H3) as [S4 D4].
  destruct (sub_part_sem x (e_tgt o) g1 S) as (_ & P2 & P3).
  destruct (IH (fun o' Ho => Hes o' (or_intror Ho)) (funion f0 (finter dim (fdown g4) inv))) as (R1 & R2 & R3).
  { apply dep_union; [exact D0|]. apply dep_inter; [|exact Di]. apply dep_down, D4, D3, P3, D1, dep_univ. } { exact E. }
  split; [exact R1|]. split; [intros v Hv; apply R2, funion_sem; left; exact Hv|].
  intros o' us' v t [<-|Ho'] U' Pt Hi Og Kt; [|eapply R3; eauto]. assert (us' = us) by congruence. subst us'. apply R2, funion_sem. right. apply finter_sem. split; [|exact Hi].
  apply fdown_sem. split; [eapply fsem_ok; exact Hi|]. exists t. split; [exact Pt|]. apply S4. split; [|exact Og]. apply S3.
  split; [apply vdelay_ok; [eapply fsem_ok; exact Hi|exact Pt]|]. apply P2; [|exact Kt]. destruct (consistent_inv _ _ _ TL Kt) as (Hv' & It & _). apply S1. split; [apply funiv_sem; exact Hv'|exact It].
Qed.

Lemma sound_output e x x' : In e (c_edges c) -> sound x -> handle_output dim minc c e x = Ok x' -> sound x'.
Proof.
  intros He S E. unfold handle_output in E. inv_bind E. inv_bind E. inv_bind E. rename a into x1, a0 into sl, a1 into inv.
  pose proof (sound_shrink _ _ _ He S H) as S1. destruct (fcan_delay dim inv) eqn:Fd; [injection E as <-; exact S1|]. inv_bind E. injection E as <-. rename a into saved.
  pose proof (the_location_of c _ _ H0) as SL. destruct (apply_opt_sem _ _ _ (fine_inv sl (proj1 SL)) H1) as [Si Di].
  destruct (saving x1 inv _ _ _ S1 (fun o Ho => proj1 (outputs_in x1 _ o Ho)) (Di (dep_univ dim)) (dep_none dim) H2) as (D & _ & Sv).
  apply sound_source; [apply dep_sub; [apply Di, dep_univ|exact D]| |exact S1]. intros v Hv Kv. apply fsub_sem in Hv. destruct Hv as [Hi Ns].
  destruct (cannot_stay dim inv v Fd (fsem_ok _ _ _ Hi)) as (T & PT & NT).
  destruct (go_time _ _ _ (consistent_goes_on dim c) _ _ _ Kv PT) as [(t & [Pt _] & Es)|[A _]].
  - assert (Kt : K (e_src e) (vdelay v t)).
    { eapply consistent_escape; [exact SL|apply (consistent_inv _ _ _ SL Kv)|apply vdelay_ok; [eapply fsem_ok; exact Hi|exact Pt]|exact Es]. }
    destruct Es as [_ (o & us & B1 & B2 & B3 & B4 & B5 & B6)]. rewrite <- B3 in Kt.
    destruct (so_kept _ S1 _ _ _ B1 B5 Kt B4 B6) as (o' & C1 & C2 & C3). apply Ns. apply (Sv o' us v t); [|rewrite (updates_same _ _ C2); exact B5|exact Pt|exact Hi|exact C3|].
    + unfold outputs_of. apply filter_In. split; [exact C1|]. destruct C2 as (_ & -> & _ & -> & _ & _). rewrite B3, B2, String.eqb_refl. reflexivity.
    + destruct C2 as (_ & _ & -> & _). exact B6.
  - apply NT. apply Si. split; [apply funiv_sem, vdelay_ok; [eapply fsem_ok; exact Hi|exact PT]|]. apply A. exact SL.
Qed.

Lemma sound_loop fuel : forall x x', keeps c x -> sound x -> prune_loop dim minc predt c fuel x = Ok x' -> sound x'.
Proof.
  induction fuel as [|f IH]; intros x x' Kx S E; cbn [prune_loop] in E; [discriminate|]. destruct (p_todo x) as [|n rest] eqn:T; [injection E as <-; exact S|].
  inv_bind E.
  assert (F : can_fail c n) by (apply (ke_todo _ _ Kx); rewrite T; left; reflexivity).
  assert (K1 : keeps c (mkP (p_edges x) rest (p_parts x) (p_passed x)) /\ sound (mkP (p_edges x) rest (p_parts x) (p_passed x))).
  { split; split; cbn [p_parts p_todo p_edges]; try apply Kx; try apply S. intros k Hk. apply (ke_todo _ _ Kx). rewrite T. right. exact Hk. }
  assert (K2 : keeps c a /\ sound a).
  { unfold prune_location in H. refine (foldM_inv _ _ (fun y => keeps c y /\ sound y) _ _ _ _ _ K1 H). intros e y y' He [Ky Sy] Ey. apply filter_In in He. destruct He as [He Te].
    apply String.eqb_eq in Te. rewrite <- Te in F. unfold handle_edge in Ey. inv_bind Ey. destruct (synctype_eqb (e_type e) SInput) eqn:Ty.
    - assert (Ti : e_type e = SInput) by (destruct (e_type e); [reflexivity|discriminate]). pose proof (keeps_input dim predt c e y a0 He F Ky H0) as Ka. pose proof (sound_input e y a0 He Ti F Sy H0) as Sa.
      split; [eapply keeps_output; eassumption|eapply sound_output; eassumption].
    - injection H0 as <-. split; [eapply keeps_output; eassumption|eapply sound_output; eassumption]. }
  destruct K2 as [K2 S2]. eapply IH; [exact K2|exact S2|exact E].
Qed.

Lemma pruned_sound fuel c' : pruned dim minc predt c fuel = Ok c' -> keeps_consistent dim c c'.
Proof.
  intros E. destruct (pruned_inv _ _ _ _ _ _ E) as (ids & x & ls & E1 & E2 & E3 & ->).
  assert (S : sound x).
  { eapply sound_loop; [apply (keeps_init dim c ids E1)| |exact E2]. split; cbn [p_parts p_edges].
    - intros n p H. destruct (init_parts ids n p [] ltac:(discriminate) ids (incl_refl _) H) as [Hn ->]. split; [apply dep_univ|]. intros v _ Kv.
      destruct (inconsistent_ids_in dim c ids n E1 Hn) as (l & Hl & Il & Tl). destruct (go_legal _ _ _ (consistent_goes_on dim c) _ _ Kv) as (_ & l' & T' & N & _).
      apply N. assert (l = l') by (apply T'; assumption). subst l'. exact Tl.
    - intros e' He. split; [apply fine_guard; exact He|]. exists e'. split; [exact He|]. split; [apply same_refl|auto].
    - intros e us v He _ _ O _. exists e. split; [exact He|]. split; [apply same_refl|exact O]. }
  split; cbn [c_decls c_locs c_edges].
  - reflexivity.
  - revert E3. apply mapM_Forall2. intros l l' Hl El.
    assert (L0 : forall v, K (l_id l) v -> osat d v (l_inv l)).
    { intros v Kv. destruct (go_legal _ _ _ (consistent_goes_on dim c) _ _ Kv) as (_ & l2 & T2 & _ & O2). assert (l = l2) by (apply T2; [exact Hl|reflexivity]). subst l2. exact O2. }
    unfold shrink_invariant in El. destruct (assoc (l_id l) (p_parts x)) as [p|] eqn:P; [|injection El as <-; auto].
    inv_bind El. inv_bind El. injection El as <-. rename a into f, a0 into g. cbn [l_id l_type l_inv]. split; [reflexivity|]. split; [reflexivity|].
    destruct (so_parts _ S _ _ P) as [Dp Np]. destruct (apply_opt_sem _ _ _ (fine_inv l Hl) H) as [Sf Df]. pose proof (Df (dep_univ dim)) as Df'.
    destruct (Hm _ (dep_sub dim f p Df' Dp)) as [M1 M2].
    destruct (from_disjunction_ok d (naming_of (d_clocks d)) (naming_declared c Hnum) (minc (fsub dim f p))) as (g' & Eg & _ & Sg).
    { intros z y Hz Hy. destruct (M2 z y Hz Hy) as (A & B & C). split; [exact C|]. split; intros Hne; apply (naming_total c dim Hnum Hdim); assumption. }
    fold d in H0. rewrite Eg in H0. injection H0 as ->. split.
    + intros v Kv. pose proof (proj1 (go_legal _ _ _ (consistent_goes_on dim c) _ _ Kv)) as Hv. apply (Sg dim v Hv), M1, fsub_sem.
      split; [apply Sf; split; [apply funiv_sem; exact Hv|apply L0; exact Kv]|]. intros C. apply (Np v C Kv).
    + intros v Hv O. apply (Sg dim v Hv), M1, fsub_sem in O. destruct O as [O _]. apply Sf in O. apply O.
  - intros e us v He U Ks O Kt. apply (so_kept _ S _ _ _ He U Ks O Kt).
  - intros e' He. apply (so_from _ S _ He).
Qed.
End Sound.
