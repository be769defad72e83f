(** Compilation of components keeps the meaning of locations and edges. *)
From Coq Require Import List String ZArith QArith Bool Arith Lia.
From Verif Require Import Fed.Zone Fed.ZoneFacts Model.Base Model.Expr Model.Guard Model.Loc Model.Component Model.TS Model.Enable
  Spec.GuardSpec Spec.ConvSpec Spec.StepSpec Spec.SystemSpec Spec.EnableSpec
  Proofs.GuardFacts Proofs.ConvFacts Proofs.StepFacts Proofs.SystemFacts Proofs.WfFacts Proofs.EnableFacts.
Import ListNotations.
Local Open Scope Q_scope.

Section Compile.
Variables (dim : nat) (c : component).
Hypothesis Hp : simple_component c.

Lemma lt_simple_inv l u : In l (c_locs c) -> lt_simple dim (c_decls c) l = Ok u ->
  forall v, inv_at dim u v <-> val_ok dim v /\ osat (c_decls c) v (l_inv l).
Proof.
  intros Hl E v. unfold lt_simple in E. inv_bind E. injection E as <-. unfold inv_at. cbn [lt_inv].
  destruct (l_inv l) as [g|] eqn:G.
  - inv_bind H. injection H as <-. apply expect_ok in H0. destruct Hp as [P _].
    rewrite (apply_constraints_sound dim _ g (P l g Hl G) _ _ H0 v), funiv_sem. reflexivity.
  - injection H as <-. simpl. tauto.
Qed.

Lemma mapM_updates us : forall cus, mapM (fun u => compile_update u (c_decls c)) us = Ok cus -> edge_updates (c_decls c) us = Some cus.
Proof.
  induction us as [|[x e] us IH]; cbn [mapM edge_updates]; intros cus E; [injection E as <-; reflexivity|].
  inv_bind E. inv_bind E. injection E as <-. destruct (compile_edge_update _ _ _ _ H) as (k & -> & Ex & Ek).
  rewrite Ex, (IH _ H0). destruct a as [i k0]. cbn [u_clock u_value] in *. subst. reflexivity.
Qed.

Lemma edge_transition e t : In e (c_edges c) -> from_component_and_edge dim c e = Ok t -> is_edge dim c e t.
Proof.
  intros He E. unfold from_component_and_edge in E. inv_bind E. inv_bind E. inv_bind E. inv_bind E. injection E as <-.
  rename a into tl, a0 into u, a1 into us, a2 into g. unfold is_edge. cbn [t_id t_target].
  pose proof (the_location_of c _ _ H) as TL. split; [reflexivity|]. split.
  { apply lt_simple_id in H0. destruct H0 as [-> _]. f_equal. apply TL. }
  assert (S : forall v, fsem dim g v <-> val_ok dim v /\ osat (c_decls c) v (e_guard e)).
  { intros v. unfold edge_apply_guard in H2. destruct (e_guard e) as [b|] eqn:G.
    - apply expect_ok in H2. destruct Hp as [_ P]. rewrite (apply_constraints_sound dim _ b (P e b He G) _ _ H2 v), funiv_sem. reflexivity.
    - injection H2 as <-. rewrite funiv_sem. simpl. tauto. }
  apply mapM_updates in H1. intros v v'. unfold t_fires, edge_fires. cbn [t_guard t_target t_updates]. rewrite S.
  rewrite (lt_simple_inv tl u (proj1 TL) H0 v'). split.
  - intros ((Hv & X) & Y & Hv' & Z). split; [exact Hv|]. split; [exact Hv'|]. split; [exact X|]. exists us, tl. auto.
  - intros (Hv & Hv' & X & us' & l' & E' & Y & T' & Z). unfold updates_of in E'. assert (us' = us) by congruence. subst us'.
    assert (l' = tl) by (apply TL; apply T'). subst l'. auto.
Qed.

Lemma edge_parts e t : In e (c_edges c) -> from_component_and_edge dim c e = Ok t ->
  updates_of c e = Some (t_updates t) /\ (forall v, fsem dim (t_guard t) v <-> val_ok dim v /\ osat (c_decls c) v (e_guard e)) /\
  exists l, the_location c (e_tgt e) l /\ lt_simple dim (c_decls c) l = Ok (t_target t).
Proof.
  intros He E. unfold from_component_and_edge in E. inv_bind E. inv_bind E. inv_bind E. inv_bind E. injection E as <-.
  rename a into tl, a0 into u, a1 into us, a2 into g. cbn [t_id t_target t_updates t_guard].
  split; [apply mapM_updates; exact H1|]. split; [|exists tl; split; [apply the_location_of; exact H|exact H0]].
  intros v. unfold edge_apply_guard in H2. destruct (e_guard e) as [b|] eqn:G.
  - apply expect_ok in H2. destruct Hp as [_ P]. rewrite (apply_constraints_sound dim _ b (P e b He G) _ _ H2 v), funiv_sem. reflexivity.
  - injection H2 as <-. rewrite funiv_sem. simpl. tauto.
Qed.

Lemma edge_location e t : from_component_and_edge dim c e = Ok t -> exists l, the_location c (e_tgt e) l.
Proof. intros E. unfold from_component_and_edge in E. inv_bind E. exists a. apply the_location_of. exact H. Qed.

Hypothesis Hids : NoDup (map l_id (c_locs c)).
Variables (ins outs : list string) (id : nat) (cc : ccomp).
Hypothesis Ecc : compile_with_actions dim c ins outs id = Ok cc.

Lemma compiled_locations u : In u (cc_locs cc) <-> exists l, In l (c_locs c) /\ lt_simple dim (c_decls c) l = Ok u.
Proof.
  destruct (compile_inv _ _ _ _ _ _ Ecc) as (ls & es & El & _ & -> & _). destruct (mapM_in _ _ _ El) as [M1 M2]. split.
  - intros H. apply keep_last_in in H. destruct (M2 u H) as (l & Hl & E). eauto.
  - intros (l & Hl & E). apply in_keep_last.
    + destruct (M1 l Hl) as (b & Hb & Eb). congruence.
    + intros w Hw Ew. destruct (M2 w Hw) as (l' & Hl' & E'). pose proof (lt_simple_id _ _ _ _ E) as [I1 _].
      pose proof (lt_simple_id _ _ _ _ E') as [I2 _]. rewrite I1, I2 in Ew. injection Ew as Ew.
      assert (l' = l) by (apply (own_location c Hids l Hl); assumption). subst. congruence.
Qed.

Lemma compiled_edges l u a : In l (c_locs c) -> In u (cc_locs cc) -> lt_id u = LSimple (l_id l) ->
  l_type l <> Universal -> l_type l <> Inconsistent -> In a ins \/ In a outs ->
  exists ts, next_transitions dim (TSimple cc) u a = Ok ts /\
    (forall e, In e (c_edges c) -> e_src e = l_id l -> e_sync e = a -> exists t, In t ts /\ from_component_and_edge dim c e = Ok t) /\
    (forall t, In t ts -> exists e, In e (c_edges c) /\ e_src e = l_id l /\ e_sync e = a /\ from_component_and_edge dim c e = Ok t).
Proof.
  intros Hl Hu Eu N1 N2 Ha.
  assert (Eio : cc_inputs cc = ins /\ cc_outputs cc = outs).
  { unfold compile_with_actions in Ecc. destruct (negb _); [discriminate|]. pose proof Ecc as E. inv_bind E. inv_bind E.
    destruct (forallb _ (c_edges c)); [|discriminate]. injection E as <-. auto. }
  assert (Ha' : has_action (TSimple cc) a = true).
  { apply has_action_spec. unfold is_action, is_input, is_output. cbn [ts_inputs ts_outputs]. destruct Eio as [-> ->]. exact Ha. }
  assert (Ty : lt_type u = l_type l).
  { apply compiled_locations in Hu. destruct Hu as (l' & Hl' & E'). pose proof (lt_simple_id _ _ _ _ E') as [I1 I2].
    rewrite Eu in I1. injection I1 as I1. assert (l' = l) by (apply (own_location c Hids l Hl); [exact Hl'|congruence]). congruence. }
  cbn [next_transitions]. rewrite Ha'. cbn [negb]. unfold is_universal, is_inconsistent. rewrite Ty.
  destruct (compile_inv _ _ _ _ _ _ Ecc) as (ls & es & El & Ee & Ec & _ & _ & Eed & _).
  assert (A : assoc_loc (lt_id u) (cc_edges cc) = Some (map (fun p => (e_sync (fst p), snd p))
           (filter (fun p => locid_eqb (LSimple (e_src (fst p))) (lt_id u)) es))).
  { rewrite Eed. rewrite Ec in Hu. destruct (assoc_loc_map (fun u => map (fun p => (e_sync (fst p), snd p))
           (filter (fun p => locid_eqb (LSimple (e_src (fst p))) (lt_id u)) es)) (keep_last ls) u Hu) as (w & _ & Ew & A).
    rewrite A, Ew. reflexivity. }
  assert (Q : exists ts, (if loctype_eqb (l_type l) Universal then Ok [t_without_id u] else
     if loctype_eqb (l_type l) Inconsistent && sin a (cc_inputs cc) then Ok [t_without_id u] else
     do es0 <- unwrap (assoc_loc (lt_id u) (cc_edges cc)); Ok (map snd (filter (fun p => String.eqb (fst p) a) es0))) = Ok ts /\
     ts = map snd (filter (fun p => String.eqb (fst p) a) (map (fun p => (e_sync (fst p), snd p))
           (filter (fun p => locid_eqb (LSimple (e_src (fst p))) (lt_id u)) es)))).
  { rewrite A. destruct (l_type l); try congruence; cbn [loctype_eqb unwrap bind andb]; eauto. }
  destruct Q as (ts & E & Ets). exists ts. split; [exact E|].
  assert (M : forall t, In t ts <-> exists e, In (e, t) es /\ e_src e = l_id l /\ e_sync e = a).
  { intros t. rewrite Ets, in_map_iff. split.
    - intros ([b t'] & Et & Hf). cbn [snd] in Et. subst t'. apply filter_In in Hf. destruct Hf as [Hf Eb]. cbn [fst] in Eb.
      apply String.eqb_eq in Eb. subst b. apply in_map_iff in Hf. destruct Hf as ([e t'] & Ep & Hf). cbn [fst snd] in Ep. injection Ep as <- <-.
      apply filter_In in Hf. destruct Hf as [Hf Es]. cbn [fst] in Es. apply locid_eqb_eq in Es. rewrite Eu in Es. injection Es as Es. eauto.
    - intros (e & Hf & Es & Ea). exists (a, t). split; [reflexivity|]. apply filter_In. split; [|cbn [fst]; apply String.eqb_refl].
      apply in_map_iff. exists (e, t). split; [cbn [fst snd]; congruence|]. apply filter_In. split; [exact Hf|]. cbn [fst].
      apply locid_eqb_eq. rewrite Eu, Es. reflexivity. }
  destruct (mapM_in _ _ _ Ee) as [K1 K2]. split.
  - intros e He Es Ea. destruct (K1 e He) as ([e' t] & Hb & Eb). pose proof Eb as Eb'. inv_bind Eb'. injection Eb' as <- <-.
    exists a0. split; [apply M; eauto|]. assumption.
  - intros t Ht. apply M in Ht. destruct Ht as (e & Hf & Es & Ea). destruct (K2 _ Hf) as (e' & He' & Eb). inv_bind Eb. injection Eb as -> ->.
    exists e. split; [exact He'|]. split; [exact Es|]. split; [exact Ea|]. assumption.
Qed.

Lemma compiled_next l u a : In l (c_locs c) -> In u (cc_locs cc) -> lt_id u = LSimple (l_id l) ->
  l_type l <> Universal -> l_type l <> Inconsistent -> In a ins \/ In a outs ->
  exists ts, next_transitions dim (TSimple cc) u a = Ok ts /\
    (forall e, In e (c_edges c) -> e_src e = l_id l -> e_sync e = a -> exists t, In t ts /\ is_edge dim c e t) /\
    (forall t, In t ts -> exists e, In e (c_edges c) /\ e_src e = l_id l /\ e_sync e = a /\ is_edge dim c e t).
Proof.
  intros Hl Hu Eu N1 N2 Ha. destruct (compiled_edges l u a Hl Hu Eu N1 N2 Ha) as (ts & E & F & B). exists ts. split; [exact E|]. split.
  - intros e He Es Ea. destruct (F e He Es Ea) as (t & Ht & Et). exists t. split; [exact Ht|]. apply edge_transition; assumption.
  - intros t Ht. destruct (B t Ht) as (e & He & Es & Ea & Et). exists e. split; [exact He|]. split; [exact Es|]. split; [exact Ea|]. apply edge_transition; assumption.
Qed.
End Compile.
