(** Proofs about input enabling. *)
From Coq Require Import List String ZArith QArith Bool Arith Lia Lqa.
From Verif Require Import Fed.Zone Fed.ZoneFacts Model.Base Model.Expr Model.Guard Model.Loc Model.Component Model.TS Model.Enable
  Spec.GuardSpec Spec.ConvSpec Spec.StepSpec Spec.EnableSpec
  Proofs.GuardFacts Proofs.ConvFacts Proofs.StepFacts Proofs.SystemFacts Proofs.WfFacts.
Import ListNotations.
Local Open Scope Q_scope.

(** ** Guards depend on the declared clocks only *)
Definition below (dim : nat) (v w : val) : Prop := forall i, (i < dim)%nat -> v i == w i.

Lemma assoc_In {V} k (m : list (string * V)) x : assoc k m = Some x -> In (k, x) m.
Proof.
  induction m as [|[k' x'] m IH]; simpl; [discriminate|]. destruct (String.eqb_spec k k') as [->|N].
  - intros H. injection H as ->. left; reflexivity.
  - intros H. right. auto.
Qed.
Lemma In_assoc {V} k (m : list (string * V)) x : NoDup (map fst m) -> In (k, x) m -> assoc k m = Some x.
Proof.
  induction m as [|[k' x'] m IH]; simpl; [intros _ []|]. intros N H. inversion N as [|? ? N1 N2]; subst.
  destruct H as [E|H].
  - injection E as -> ->. rewrite String.eqb_refl. reflexivity.
  - destruct (String.eqb_spec k k') as [->|Hne]; [|auto]. exfalso. apply N1. change k' with (fst (k', x)). apply in_map. exact H.
Qed.

Section Below.
Variables (dim : nat) (d : decls).
Hypothesis Hd : forall x i, In (x, i) (d_clocks d) -> (i < dim)%nat.

Lemma aev_below e : by_name e = true -> forall v w, below dim v w -> forall a, aev d v e = Some a ->
  exists b, aev d w e = Some b /\ a == b.
Proof.
  induction e as [l IHl r IHr|l IHl r IHr|l IHl r IHr|l IHl r IHr|l IHl r IHr|i|s|k]; cbn [by_name]; intros B v w Hb a E.
  1,2,3: apply andb_true_iff in B; destruct B as [B1 B2]; cbn [aev] in *;
     destruct (aev d v l) as [a1|] eqn:E1; try discriminate; destruct (aev d v r) as [a2|] eqn:E2; try discriminate;
     destruct (IHl B1 v w Hb a1 E1) as (b1 & -> & Q1); destruct (IHr B2 v w Hb a2 E2) as (b2 & -> & Q2);
     eexists; split; [reflexivity|]; injection E as <-; rewrite Q1, Q2; reflexivity.
  1,2: cbn [aev] in *; exists a; split; [exact E|reflexivity].
  - discriminate.
  - cbn [aev] in *. destruct (assoc s (d_clocks d)) as [i|] eqn:E1.
    + exists (w i). split; [reflexivity|]. injection E as <-. apply Hb. apply (Hd s). apply assoc_In. exact E1.
    + exists a. split; [exact E|reflexivity].
  - exists a. split; [exact E|reflexivity].
Qed.

Lemma bsat_below g : g_by_name g = true -> forall v w, below dim v w -> bsat d v g -> bsat d w g.
Proof.
  assert (C : forall (R : Q -> Q -> Prop), (forall a b a' b', a == a' -> b == b' -> R a b -> R a' b') ->
            forall l r, by_name l && by_name r = true -> forall v w, below dim v w -> cmp d v R l r -> cmp d w R l r).
  { intros R HR l r B v w Hb (a & b & Ea & Eb & H). apply andb_true_iff in B. destruct B as [B1 B2].
    destruct (aev_below l B1 v w Hb a Ea) as (a' & Ea' & Qa). destruct (aev_below r B2 v w Hb b Eb) as (b' & Eb' & Qb).
    exists a', b'. split; [exact Ea'|]. split; [exact Eb'|]. eapply HR; eauto. }
  induction g; cbn [g_by_name bsat]; intros B v w Hb;
    try (apply C; [intros; lra|exact B|exact Hb]).
  - apply andb_true_iff in B. destruct B. intros []. split; eauto.
  - apply andb_true_iff in B. destruct B. intros []; eauto.
  - auto.
Qed.
End Below.

Lemma below_sym dim v w : below dim v w -> below dim w v.
Proof. intros H i Hi. symmetry. auto. Qed.

Lemma below_updates dim us : forall v w, below dim v w -> below dim (run_updates us v) (run_updates us w).
Proof.
  unfold run_updates. induction us as [|u us IH]; intros v w H; [exact H|]. simpl. apply IH. intros i Hi. unfold vset.
  destruct (Nat.eqb i (u_clock u)); [reflexivity|auto].
Qed.

(** ** Updates backwards *)
Lemma compile_edge_update x e d cu : compile_update (x, e) d = Ok cu ->
  exists k, e = AInt k /\ assoc x (d_clocks d) = Some (u_clock cu) /\ u_value cu = k.
Proof.
  unfold compile_update. simpl. destruct e; try discriminate. intros H. eexists. split; [reflexivity|].
  destruct (assoc x (d_clocks d)); [|discriminate]. simpl in H. injection H as <-. auto.
Qed.

Lemma back_updates_sem dim d us : forall f f', back_updates dim d us f = Ok f' ->
  exists cus, edge_updates d us = Some cus /\
    (updates_ok dim cus -> forall v, fsem dim f' v <-> val_ok dim v /\ fsem dim f (run_updates (rev cus) v)).
Proof.
  induction us as [|[x e] us IH]; cbn [back_updates edge_updates]; intros f f' E.
  - injection E as <-. exists []. split; [reflexivity|]. intros _ v. simpl. unfold run_updates; simpl. split; [|tauto].
    intros H. split; [eapply fsem_ok; eauto|exact H].
  - inv_bind E. destruct (compile_edge_update _ _ _ _ H) as (k & -> & Ex & Ek).
    destruct (IH _ _ E) as (cus & Ec & S). rewrite Ex, Ec. destruct a as [i k']. cbn [u_clock u_value] in *. subst k'. exists (mkU i k :: cus). split; [reflexivity|].
    intros Hu. apply updates_ok_cons in Hu. destruct Hu as [(H0 & Hl & Hk) Hu]. cbn [u_clock u_value] in *.
    intros v. rewrite (S Hu). simpl rev. rewrite run_updates_app.
    set (w := run_updates (rev cus) v). unfold run_updates at 1. simpl. unfold apply_as_free, apply_as_guard. cbn [u_clock u_value].
    split.
    + intros [Hv Hf]. split; [exact Hv|]. apply ffree_sem in Hf; auto. destruct Hf as (Hw & q & Hq & Hf).
      apply fcon_eq_sem in Hf. destruct Hf as [Hf1 Hf2]. eapply fsem_ext; [|exact Hf2].
      apply vset_ext; [apply veq_refl|]. rewrite vset_eq in Hf1. rewrite vset_neq in Hf1 by auto. destruct Hw as [Hw _]. lra.
    + intros [Hv Hf]. split; [exact Hv|]. apply ffree_sem; auto.
      assert (Hw : val_ok dim w).
      { apply run_updates_ok; [|exact Hv]. intros u Hin. apply Hu. apply in_rev. exact Hin. }
      split; [exact Hw|]. exists (inject_Z k). split; [apply inject_nonneg; exact Hk|]. apply fcon_eq_sem. split; [|exact Hf].
      rewrite vset_eq. rewrite vset_neq by auto. destruct Hw as [Hw _]. lra.
Qed.

Lemma no_conflict_rev us v : no_conflict us -> veq (run_updates (rev us) v) (run_updates us v).
Proof.
  intros H i. assert (H' : no_conflict (rev us)).
  { intros u w Hu Hw. apply H; apply in_rev; assumption. }
  destruct (in_clocks_dec us i) as [(u & Hu & <-)|Hn].
  - rewrite (run_updates_in (rev us) H' u) by (apply -> in_rev; exact Hu). rewrite (run_updates_in us H u) by exact Hu. reflexivity.
  - rewrite run_updates_out by (intros u Hu; apply Hn; apply in_rev; exact Hu). rewrite run_updates_out by exact Hn. reflexivity.
Qed.

(** ** The sets computed for a location and an input *)
Section Zones.
Variable c : component.
Let d := c_decls c.
Variable dim : nat.
Hypothesis Hp : plain_component c.
Hypothesis Hs : sane_updates dim c.

Lemma expect_ok {A} (r : res A) a : expect r = Ok a -> r = Ok a.
Proof. destruct r; simpl; intros H; try discriminate; exact H. Qed.

Lemma inv_fed_sem l f : In l (c_locs c) -> inv_fed dim c l = Ok f ->
  forall v, fsem dim f v <-> val_ok dim v /\ osat d v (l_inv l).
Proof.
  intros Hl E v. unfold inv_fed in E. destruct (l_inv l) as [g|] eqn:G.
  - apply expect_ok in E. destruct Hp as [P _]. destruct (P l g Hl G) as [P1 _].
    rewrite (apply_constraints_sound dim d g P1 _ _ E v), funiv_sem. reflexivity.
  - injection E as <-. rewrite funiv_sem. simpl. tauto.
Qed.

Lemma the_location_of n l : get_location_by_name c n = Ok l -> the_location c n l.
Proof. intros H. destruct (get_location_unique _ _ _ H) as (A & B & C). split; [exact A|]. split; [exact B|]. intros. apply C; assumption. Qed.

Lemma edge_zone_sem e f : In e (c_edges c) -> edge_zone dim c e = Ok f ->
  forall v, fsem dim f v <-> val_ok dim v /\ edge_enabled c e v.
Proof.
  intros He E. unfold edge_zone in E. inv_bind E. inv_bind E. inv_bind E. rename a into tl, a0 into f0, a1 into f1.
  pose proof (the_location_of _ _ H) as TL.
  pose proof (inv_fed_sem tl f0 (proj1 TL) H0) as S0.
  assert (S1 : exists us, updates_of c e = Some us /\
                forall v, fsem dim f1 v <-> val_ok dim v /\ fsem dim f0 (run_updates us v)).
  { unfold updates_of. destruct (e_update e) as [us|] eqn:U.
    - destruct (back_updates_sem _ _ _ _ _ H1) as (cus & Ec & Sc). exists cus. split; [exact Ec|].
      destruct (Hs e cus He) as [O N]; [unfold updates_of; rewrite U; exact Ec|]. intros v. rewrite (Sc O).
      split; intros [X Y]; (split; [exact X|]); (eapply fsem_ext; [|exact Y]);
        [|apply veq_sym]; apply no_conflict_rev; exact N.
    - injection H1 as <-. exists []. split; [reflexivity|]. intros v. unfold run_updates; simpl. split; [|tauto].
      intros X. split; [eapply fsem_ok; eauto|exact X]. }
  destruct S1 as (us & Eus & S1). destruct (Hs e us He Eus) as [O N].
  assert (S2 : forall v, fsem dim f v <-> fsem dim f1 v /\ osat d v (e_guard e)).
  { intros v. destruct (e_guard e) as [g|] eqn:G.
    - apply expect_ok in E. destruct Hp as [_ P]. destruct (P e g He G) as [P1 _].
      apply (apply_constraints_sound dim d g P1 _ _ E v).
    - injection E as <-. simpl. tauto. }
  intros v. rewrite S2, S1. split.
  - intros [[Hv X] Y]. split; [exact Hv|]. split; [exact Y|]. exists us, tl. split; [exact Eus|]. split; [exact TL|].
    apply S0 in X. apply X.
  - intros [Hv [Y (us' & l' & E1 & T' & X)]]. split; [|exact Y]. split; [exact Hv|].
    assert (us' = us) by congruence. subst us'.
    assert (l' = tl) by (apply TL; apply T'). subst l'. apply S0. split; [|exact X]. apply run_updates_ok; assumption.
Qed.

Lemma edges_zone_sem inv es : (forall e, In e es -> In e (c_edges c)) -> forall acc f, edges_zone dim c inv es acc = Ok f ->
  forall v, fsem dim f v <-> fsem dim acc v \/ fsem dim inv v /\ exists e, In e es /\ edge_enabled c e v.
Proof.
  induction es as [|e es IH]; cbn [edges_zone]; intros H acc f E v.
  - injection E as <-. split; [auto|]. intros [X|[_ (e & [] & _)]]. exact X.
  - inv_bind E. rewrite (IH (fun e He => H e (or_intror He)) _ _ E), funion_sem, finter_sem.
    rewrite (edge_zone_sem e a (H e (or_introl eq_refl)) H0). split.
    + intros [[X|[[_ X] Y]]|[X (e' & Y & Z)]]; [auto| |]; right.
      * split; [exact Y|]. exists e. split; [left; reflexivity|exact X].
      * split; [exact X|]. exists e'. split; [right; exact Y|exact Z].
    + intros [X|[X (e' & [<-|Y] & Z)]]; [auto| |].
      * left. right. split; [|exact X]. split; [eapply fsem_ok; exact X|exact Z].
      * right. split; [exact X|]. eauto.
Qed.

Lemma in_input_edges l a e : In e (input_edges c l a) <-> In e (c_edges c) /\ listens_any l a e.
Proof.
  unfold input_edges, listens_any. rewrite filter_In, !andb_true_iff, orb_true_iff, !String.eqb_eq.
  split.
  - intros (H & (H1 & H2) & H3). split; [exact H|]. split; [destruct (e_type e); [reflexivity|discriminate]|]. auto.
  - intros (H & H1 & H2 & H3). rewrite H1. auto.
Qed.

Hypothesis Hnum : clocks_numbered d.
Hypothesis Hdim : dim = comp_dim c.

Lemma decl_below x i : In (x, i) (d_clocks d) -> (i < dim)%nat.
Proof. intros H. destruct Hnum as (_ & _ & R). apply R in H. unfold comp_dim in Hdim. fold d in Hdim. lia. Qed.

Lemma osat_inv_below l v w : In l (c_locs c) -> below dim v w -> osat d v (l_inv l) -> osat d w (l_inv l).
Proof.
  intros Hl B. destruct (l_inv l) as [g|] eqn:G; [|auto]. destruct Hp as [P _]. destruct (P l g Hl G) as [_ P2].
  apply (bsat_below dim d decl_below g P2 v w B).
Qed.

Lemma enabled_below e v w : In e (c_edges c) -> below dim v w -> edge_enabled c e v -> edge_enabled c e w.
Proof.
  intros He B [X (us & l & E1 & T & Y)]. split.
  - fold d in X |- *. destruct (e_guard e) as [g|] eqn:G; [|exact I]. destruct Hp as [_ P]. destruct (P e g He G) as [_ P2].
    apply (bsat_below dim d decl_below g P2 v w B X).
  - exists us, l. split; [exact E1|]. split; [exact T|]. apply (osat_inv_below l _ _ (proj1 T) (below_updates dim us _ _ B) Y).
Qed.

Lemma naming_declared : names_declared d (naming_of (d_clocks d)).
Proof.
  intros i s H. unfold naming_of in H. destruct (find _ _) as [[s' i']|] eqn:F; [|discriminate]. simpl in H. injection H as ->.
  apply find_some in F. destruct F as [F1 F2]. simpl in F2. apply Nat.eqb_eq in F2. subst i'. apply in_rev in F1.
  apply In_assoc; [apply Hnum|exact F1].
Qed.

Lemma naming_total i : i <> 0%nat -> (i < dim)%nat -> naming_of (d_clocks d) i <> None.
Proof.
  intros H0 Hi. destruct Hnum as (_ & N2 & R).
  assert (I : In i (map snd (d_clocks d))).
  { assert (L : incl (map snd (d_clocks d)) (seq 1 (List.length (d_clocks d)))).
    { intros j Hj. apply in_map_iff in Hj. destruct Hj as ([x j'] & <- & Hj). apply R in Hj. simpl. apply in_seq. lia. }
    apply (NoDup_length_incl N2) in L; [|rewrite seq_length, map_length; lia].
    apply L. apply in_seq. unfold comp_dim in Hdim. fold d in Hdim. lia. }
  apply in_map_iff in I. destruct I as ([x j] & E & I). simpl in E. subst j.
  unfold naming_of. destruct (find _ _) eqn:F; [discriminate|]. apply find_none with (x := (x, i)) in F.
  - simpl in F. apply Nat.eqb_neq in F. congruence.
  - apply in_rev in I. exact I.
Qed.

Variable minc : fed -> fed.
Hypothesis Hm : describes dim minc.

Lemma rest_sem l inv a f : In l (c_locs c) -> inv_fed dim c l = Ok inv ->
  edges_zone dim c inv (input_edges c l a) fnone = Ok f ->
  forall v, fsem dim (fsub dim inv f) v <->
    val_ok dim v /\ osat d v (l_inv l) /\ ~ exists e, In e (c_edges c) /\ listens_any l a e /\ edge_enabled c e v.
Proof.
  intros Hl Ei Ef v. rewrite fsub_sem.
  rewrite (edges_zone_sem inv (input_edges c l a) (fun e He => proj1 (proj1 (in_input_edges l a e) He)) _ _ Ef v).
  rewrite (inv_fed_sem l inv Hl Ei v).
  split.
  - intros [[Hv Hi] N]. split; [exact Hv|]. split; [exact Hi|]. intros (e & H1 & H2 & H3). apply N. right. split; [auto|].
    exists e. split; [apply in_input_edges; auto|exact H3].
  - intros (Hv & Hi & N). split; [auto|]. intros [X|[_ (e & H1 & H2)]]; [exact (fnone_sem _ _ X)|].
    apply N. exists e. apply in_input_edges in H1. tauto.
Qed.

Lemma rest_below l inv a f : In l (c_locs c) -> inv_fed dim c l = Ok inv ->
  edges_zone dim c inv (input_edges c l a) fnone = Ok f ->
  forall v w, val_ok dim v -> val_ok dim w -> below dim v w -> fsem dim (fsub dim inv f) v -> fsem dim (fsub dim inv f) w.
Proof.
  intros Hl Ei Ef v w Hv Hw B H. apply (rest_sem l inv a f Hl Ei Ef) in H. destruct H as (_ & H1 & H2).
  apply (rest_sem l inv a f Hl Ei Ef). split; [exact Hw|]. split; [eapply osat_inv_below; eauto|].
  intros (e & E1 & E2 & E3). apply H2. exists e. split; [exact E1|]. split; [exact E2|].
  apply (enabled_below e w v E1 (below_sym _ _ _ B) E3).
Qed.

Lemma rest_guard l inv a f : In l (c_locs c) -> inv_fed dim c l = Ok inv ->
  edges_zone dim c inv (input_edges c l a) fnone = Ok f ->
  exists g, from_disjunction (minc (fsub dim inv f)) (naming_of (d_clocks d)) = Ok g /\
    (forall b, g = Some b -> basic_guard d b = true) /\
    forall v, val_ok dim v -> (osat d v g <-> fsem dim (fsub dim inv f) v).
Proof.
  intros Hl Ei Ef. destruct (Hm (fsub dim inv f)) as [M1 M2]; [intros v w Hv Hw B; apply (rest_below l inv a f Hl Ei Ef v w Hv Hw B)|].
  destruct (from_disjunction_ok d (naming_of (d_clocks d)) naming_declared (minc (fsub dim inv f))) as (g & Eg & Bg & Sg).
  { intros z x Hz Hx. destruct (M2 z x Hz Hx) as (A & B & C). split; [exact C|]. split; intros H; apply naming_total; assumption. }
  exists g. split; [exact Eg|]. split; [exact Bg|]. intros v Hv. rewrite (Sg dim v Hv). apply M1.
Qed.

Lemma new_edge_spec l inv a es : In l (c_locs c) -> inv_fed dim c l = Ok inv -> new_edge minc dim c l inv a = Ok es ->
  (forall e, In e es -> listens l a e /\ e_tgt e = l_id l /\ e_update e = None /\ (forall b, e_guard e = Some b -> basic_guard d b = true) /\
     (forall v, val_ok dim v -> (osat d v (e_guard e) <->
        osat d v (l_inv l) /\ ~ exists e0, In e0 (c_edges c) /\ listens_any l a e0 /\ edge_enabled c e0 v))) /\
  (forall v, val_ok dim v -> osat d v (l_inv l) ->
     (exists e, In e (c_edges c) /\ listens_any l a e /\ edge_enabled c e v) \/ exists e, In e es /\ osat d v (e_guard e)).
Proof.
  intros Hl Ei E. unfold new_edge in E. inv_bind E. rename a0 into f. rename H into Ef.
  pose proof (rest_sem l inv a f Hl Ei Ef) as R.
  assert (D : forall v, val_ok dim v -> osat d v (l_inv l) ->
     (exists e, In e (c_edges c) /\ listens_any l a e /\ edge_enabled c e v) \/ fsem dim (fsub dim inv f) v).
  { intros v Hv Hi. destruct (fsem_dec dim f v Hv) as [X|X].
    - left. apply (edges_zone_sem inv (input_edges c l a) (fun e He => proj1 (proj1 (in_input_edges l a e) He)) _ _ Ef v) in X.
      destruct X as [X|[_ (e & X & Y)]]; [destruct (fnone_sem _ _ X)|]. exists e. apply in_input_edges in X. tauto.
    - right. apply fsub_sem. split; [|exact X]. apply (inv_fed_sem l inv Hl Ei). auto. }
  destruct (fempty dim (fsub dim inv f)) eqn:F.
  - injection E as <-. split; [intros e []|]. intros v Hv Hi. left. destruct (D v Hv Hi) as [X|X]; [exact X|].
    destruct (proj1 (fempty_true _ _) F _ X).
  - destruct (rest_guard l inv a f Hl Ei Ef) as (g & Eg & Bg & Sg). fold d in E. rewrite Eg in E. simpl in E. injection E as <-. split.
    + intros e [<-|[]]. cbn [e_tgt e_update e_guard]. split; [repeat split|]. split; [reflexivity|]. split; [reflexivity|]. split; [exact Bg|].
      intros v Hv. rewrite (Sg v Hv), R. tauto.
    + intros v Hv Hi. destruct (D v Hv Hi) as [X|X]; [auto|]. right. eexists. split; [left; reflexivity|]. cbn [e_guard].
      apply Sg; assumption.
Qed.

Lemma enable_inv ins c' : make_input_enabled minc c ins = Ok c' ->
  exists es, c' = mkComp (c_name c) (c_decls c) (c_locs c) (c_edges c ++ es) (c_special c) /\
    (forall e, In e es -> exists l a inv ns, In l (c_locs c) /\ In a ins /\ inv_fed dim c l = Ok inv /\
       new_edge minc dim c l inv a = Ok ns /\ In e ns) /\
    (forall l a, In l (c_locs c) -> In a ins -> exists inv ns, inv_fed dim c l = Ok inv /\
       new_edge minc dim c l inv a = Ok ns /\ forall e, In e ns -> In e es).
Proof.
  unfold make_input_enabled. rewrite <- Hdim. intros E. inv_bind E. injection E as <-. exists (List.concat a). split; [reflexivity|].
  destruct (mapM_in _ _ _ H) as [M1 M2]. split.
  - intros e He. apply in_concat in He. destruct He as (es & Hes & He). destruct (M2 es Hes) as (l & Hl & El).
    unfold new_edges_at in El. inv_bind El. inv_bind El. injection El as <-. destruct (mapM_in _ _ _ H1) as [_ N2].
    apply in_concat in He. destruct He as (ns & Hns & He). destruct (N2 ns Hns) as (x & Hx & Ex).
    exists l, x, a0, ns. auto.
  - intros l x Hl Hx. destruct (M1 l Hl) as (es & Hes & El). unfold new_edges_at in El. inv_bind El. inv_bind El. injection El as <-.
    destruct (mapM_in _ _ _ H1) as [N1 _]. destruct (N1 x Hx) as (ns & Hns & En). exists a0, ns. split; [exact H0|]. split; [exact En|].
    intros e He. apply in_concat. exists (List.concat a1). split; [exact Hes|]. apply in_concat. exists ns. auto.
Qed.

Hypothesis Hids : NoDup (map l_id (c_locs c)).
Lemma own_location l : In l (c_locs c) -> the_location c (l_id l) l.
Proof.
  intros Hl. split; [exact Hl|]. split; [reflexivity|]. intros l' Hl' E. clear - Hids Hl Hl' E.
  induction (c_locs c) as [|x ls IH]; [destruct Hl|]. simpl in Hids. inversion Hids as [|? ? N1 N2]; subst.
  destruct Hl as [<-|Hl], Hl' as [<-|Hl']; auto.
  - exfalso. apply N1. rewrite <- E. apply in_map. exact Hl'.
  - exfalso. apply N1. rewrite E. apply in_map. exact Hl.
Qed.

Lemma enable_spec ins c' : make_input_enabled minc c ins = Ok c' ->
  c_locs c' = c_locs c /\ c_decls c' = c_decls c /\ (forall e, In e (c_edges c) -> In e (c_edges c')) /\
  (forall l a v, In l (c_locs c) -> In a ins -> val_ok dim v -> osat d v (l_inv l) ->
     exists e, In e (c_edges c') /\ listens_any l a e /\ edge_enabled c' e v) /\
  (forall e, In e (c_edges c') -> In e (c_edges c) \/
     exists l a, In l (c_locs c) /\ In a ins /\ listens l a e /\ e_tgt e = l_id l /\ e_update e = None /\ (forall b, e_guard e = Some b -> basic_guard d b = true) /\
       forall v, val_ok dim v -> (osat d v (e_guard e) <-> osat d v (l_inv l) /\
          ~ exists e0, In e0 (c_edges c) /\ listens_any l a e0 /\ edge_enabled c e0 v)).
Proof.
  intros E. destruct (enable_inv ins c' E) as (es & -> & A & B). cbn [c_locs c_decls c_edges].
  split; [reflexivity|]. split; [reflexivity|]. split; [intros; apply in_or_app; auto|]. split.
  - intros l a v Hl Ha Hv Hi. destruct (B l a Hl Ha) as (inv & ns & Ei & En & Hn).
    destruct (new_edge_spec l inv a ns Hl Ei En) as [S1 S2]. destruct (S2 v Hv Hi) as [(e & E1 & E2 & E3)|(e & E1 & E2)].
    + exists e. split; [apply in_or_app; auto|]. split; [exact E2|]. exact E3.
    + exists e. split; [apply in_or_app; right; auto|]. destruct (S1 e E1) as (L & T & U & _).
      destruct L as (L1 & L2 & L3). split; [repeat split; auto|].
      split; [exact E2|]. exists [], l. unfold updates_of. rewrite U. split; [reflexivity|]. rewrite T.
      split; [exact (own_location l Hl)|]. exact Hi.
  - intros e He. apply in_app_or in He. destruct He as [He|He]; [auto|]. right.
    destruct (A e He) as (l & a & inv & ns & Hl & Ha & Ei & En & Hn). exists l, a. split; [exact Hl|]. split; [exact Ha|].
    destruct (new_edge_spec l inv a ns Hl Ei En) as [S1 _]. exact (S1 e Hn).
Qed.

(** ** No abort *)
Hypothesis Hsup : supported_component c.

Lemma find_location n l : In l (c_locs c) -> l_id l = n -> get_location_by_name c n = Ok l.
Proof.
  intros Hl <-. unfold get_location_by_name.
  assert (U : forall ls, NoDup (map l_id ls) -> In l ls -> filter (fun x => String.eqb (l_id x) (l_id l)) ls = [l]).
  { clear. induction ls as [|x ls IH]; [intros _ []|]. intros N [->|H].
    - simpl. rewrite String.eqb_refl. f_equal. simpl in N. inversion N as [|? ? N1 N2]; subst. clear IH N.
      induction ls as [|y ls IH]; [reflexivity|]. simpl. destruct (String.eqb_spec (l_id y) (l_id l)) as [E|E].
      + exfalso. apply N1. left. exact E.
      + apply IH; [intros H; apply N1; right; exact H|]. simpl in N2. inversion N2; assumption.
    - simpl in N. inversion N as [|? ? N1 N2]; subst. simpl. destruct (String.eqb_spec (l_id x) (l_id l)) as [E|E].
      + exfalso. apply N1. rewrite E. apply in_map. exact H.
      + auto. }
  rewrite (U (c_locs c) Hids Hl). reflexivity.
Qed.

Lemma inv_fed_total l : In l (c_locs c) -> exists f, inv_fed dim c l = Ok f.
Proof.
  intros Hl. unfold inv_fed. destruct (l_inv l) as [g|] eqn:G; [|eauto]. destruct Hsup as (S1 & _).
  destruct (basic_apply dim d g (S1 l g Hl G) funiv) as [f E]. unfold d in E. rewrite E. simpl. eauto.
Qed.

Lemma back_updates_total us : forall f cus, edge_updates d us = Some cus -> exists f', back_updates dim d us f = Ok f'.
Proof.
  induction us as [|[x e] us IH]; cbn [back_updates edge_updates]; intros f cus H; [eauto|].
  destruct e; try discriminate. unfold compile_update. simpl. destruct (assoc x (d_clocks d)); [|discriminate].
  destruct (edge_updates d us) eqn:E; [|discriminate]. simpl. eapply IH. reflexivity.
Qed.

Lemma edge_zone_total e : In e (c_edges c) -> exists f, edge_zone dim c e = Ok f.
Proof.
  intros He. destruct Hsup as (_ & S2 & S3 & S4). destruct (S4 e He) as (l & Hl & El). unfold edge_zone.
  rewrite (find_location _ l Hl El). simpl. destruct (inv_fed_total l Hl) as [f ->]. simpl.
  destruct (S3 e He) as (us & Eus). unfold updates_of in Eus.
  assert (X : exists f1, match e_update e with Some us => back_updates dim (c_decls c) us f | None => Ok f end = Ok f1).
  { destruct (e_update e); [eapply back_updates_total; exact Eus|eauto]. }
  destruct X as [f1 ->]. simpl. destruct (e_guard e) as [g|] eqn:G; [|eauto].
  destruct (basic_apply dim d g (S2 e g He G) f1) as [f2 E]. unfold d in E. rewrite E. simpl. eauto.
Qed.

Lemma edges_zone_total inv es : (forall e, In e es -> In e (c_edges c)) -> forall acc, exists f, edges_zone dim c inv es acc = Ok f.
Proof.
  induction es as [|e es IH]; cbn [edges_zone]; intros H acc; [eauto|].
  destruct (edge_zone_total e (H e (or_introl eq_refl))) as [f ->]. simpl. apply IH. auto using in_cons.
Qed.

Lemma enable_total ins : exists c', make_input_enabled minc c ins = Ok c'.
Proof.
  unfold make_input_enabled. rewrite <- Hdim.
  destruct (mapM_total (new_edges_at minc dim c ins) (c_locs c)) as [es ->]; [|simpl; eauto].
  intros l Hl. unfold new_edges_at. destruct (inv_fed_total l Hl) as [inv Ei]. rewrite Ei. simpl.
  destruct (mapM_total (new_edge minc dim c l inv) ins) as [ns ->]; [|simpl; eauto].
  intros a Ha. unfold new_edge.
  destruct (edges_zone_total inv (input_edges c l a) (fun e He => proj1 (proj1 (in_input_edges l a e) He)) fnone) as [f Ef].
  rewrite Ef. simpl. destruct (fempty dim (fsub dim inv f)); [eauto|].
  destruct (rest_guard l inv a f Hl Ei Ef) as (g & Eg & _ & _). fold d. rewrite Eg. simpl. eauto.
Qed.
End Zones.
