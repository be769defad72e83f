(** The refinement check: a successful search yields a refinement. *)
From Coq Require Import List String ZArith QArith Bool Arith Lia Lqa.
From Verif Require Import Fed.Zone Fed.ZoneFacts Model.Base Model.Expr Model.Guard Model.Loc Model.Component Model.TS Model.Search Model.PairList Model.Refine
  Spec.StepSpec Spec.SystemSpec Spec.RunSpec Spec.RefineSpec
  Proofs.GuardFacts Proofs.StepFacts Proofs.SystemFacts Proofs.QuotientFacts Proofs.WfFacts Proofs.RunFacts Proofs.DetFacts Proofs.PairListFacts Proofs.ReadsFacts.
Import ListNotations.
Local Open Scope Q_scope.

Lemma finit_delay dim d : 0 <= d -> fsem dim (finit dim) (vdelay zero_val d).
Proof.
  intros Hd. apply finit_sem. exists d. split; [exact Hd|]. split; [reflexivity|].
  intros i Hi0 _. rewrite vdelay_S by exact Hi0. unfold zero_val. ring.
Qed.

Lemma guard_fed_sem dim ts z v : fsem dim (guard_fed dim ts z) v <-> (exists t, In t ts /\ fsem dim (allowed_fed dim t) v) /\ fsem dim z v.
Proof.
  unfold guard_fed. rewrite finter_sem, (fold_union_sem dim (allowed_fed dim)). split.
  - intros [[C|H] Z]; [destruct (fnone_sem _ _ C)|auto].
  - intros [H Z]. auto.
Qed.
Lemma apply_guards_sem dim t z v : fsem dim (apply_guards dim t z) v <-> fsem dim (t_guard t) v /\ fsem dim z v.
Proof. unfold apply_guards. rewrite finter_sem. tauto. Qed.

Section Facts.
Variable dim : nat.
Variable pext : loctree -> loctree -> fed -> fed.
Variables s1 s2 : ts.
Hypothesis Hext : forall l1 l2 f v, fsem dim f v -> fsem dim (pext l1 l2 f) v.

(** A point of a pair of locations is stored somewhere. *)
Definition kept (c : ctx) (l1 l2 : loctree) (v : val) : Prop :=
  (exists f, kget (lt_id l1, lt_id l2) (fst c) = Some f /\ fsem dim f v) \/
  exists p, In p (w_queue (snd c)) /\ pair_key p = (lt_id l1, lt_id l2) /\ fsem dim (p_zone p) v.
Definition le_ctx (c c' : ctx) : Prop := forall l1 l2 v, kept c l1 l2 v -> kept c' l1 l2 v.
Lemma le_refl c : le_ctx c c. Proof. intros l1 l2 v H. exact H. Qed.
Lemma le_trans a b c : le_ctx a b -> le_ctx b c -> le_ctx a c.
Proof. intros H1 H2 l1 l2 v H. auto. Qed.

Definition in_range (p : pair) : Prop := In (p_l1 p) (all_locations dim s1) /\ In (p_l2 p) (all_locations dim s2).
Definition wf_ctx (c : ctx) : Prop := wok (snd c) /\ forall p, In p (w_queue (snd c)) -> in_range p.

(** What has been achieved for a move landing in [w]. *)
Definition landed (c : ctx) (l1 l2 : loctree) (w : val) : Prop :=
  inv_at dim l1 w -> inv_at dim l2 w -> forall d, 0 <= d -> inv_at dim l1 (vdelay w d) ->
    (exists e, 0 <= e /\ inv_at dim l2 (vdelay w (d + e))) /\ (inv_at dim l2 (vdelay w d) -> kept c l1 l2 (vdelay w d)).
Lemma landed_le c c' l1 l2 w : le_ctx c c' -> landed c l1 l2 w -> landed c' l1 l2 w.
Proof. intros L H I1 I2 d Hd Hi. destruct (H I1 I2 d Hd Hi) as [A B]. split; [exact A|]. intros X. apply L, B, X. Qed.

Lemma build_pair_ok t1 t2 (cur : pair) (is1 : bool) (c : ctx) c' :
  updates_ok dim (t_updates t1) -> updates_ok dim (t_updates t2) ->
  let l1 := if is1 then t_target t1 else t_target t2 in let l2 := if is1 then t_target t2 else t_target t1 in
  In l1 (all_locations dim s1) -> In l2 (all_locations dim s2) ->
  build_pair dim pext t1 t2 cur is1 c = Some c' -> wf_ctx c ->
  wf_ctx c' /\ fst c' = fst c /\ le_ctx c c' /\
  forall v, fsem dim (p_zone cur) v -> fsem dim (t_guard t1) v -> fsem dim (t_guard t2) v ->
    landed c' l1 l2 (run_updates (t_updates t2) (run_updates (t_updates t1) v)).
Proof.
  intros U1 U2 l1 l2 R1 R2 E W. unfold build_pair in E. fold l1 l2 in E.
  set (z0 := apply_guards dim t2 (apply_guards dim t1 (p_zone cur))) in E.
  set (zu := fup dim (apply_updates dim (t_updates t2) (apply_updates dim (t_updates t1) z0))) in E.
  assert (Z0 : forall v, fsem dim z0 v <-> fsem dim (t_guard t2) v /\ fsem dim (t_guard t1) v /\ fsem dim (p_zone cur) v).
  { intros v. unfold z0. rewrite !apply_guards_sem. reflexivity. }
  assert (ZU : forall v d, fsem dim z0 v -> 0 <= d -> fsem dim zu (vdelay (run_updates (t_updates t2) (run_updates (t_updates t1) v)) d)).
  { intros v d Hv Hd. apply fup_sem'. exists (run_updates (t_updates t2) (run_updates (t_updates t1) v)), d. split; [exact Hd|].
    split; [|apply veq_refl]. apply apply_updates_sem; [exact U2|]. exists (run_updates (t_updates t1) v). split; [|apply veq_refl].
    apply apply_updates_sem; [exact U1|]. exists v. split; [exact Hv|apply veq_refl]. }
  destruct (fempty dim z0) eqn:E0.
  { injection E as <-. split; [exact W|]. split; [reflexivity|]. split; [apply le_refl|]. intros v V G1 G2. exfalso.
    rewrite fempty_true in E0. apply (E0 v). apply Z0. auto. }
  destruct (fempty dim (apply_inv dim l2 (apply_inv dim l1 zu)) || fempty dim (apply_inv dim l1 zu)) eqn:E1.
  { injection E as <-. split; [exact W|]. split; [reflexivity|]. split; [apply le_refl|]. intros v V G1 G2 I1 I2 d Hd Hi. exfalso.
    set (w := run_updates (t_updates t2) (run_updates (t_updates t1) v)) in *.
    assert (X : fsem dim (apply_inv dim l2 (apply_inv dim l1 zu)) (vdelay w 0)).
    { apply apply_inv_sem. split; [apply apply_inv_sem; split|].
      - apply ZU; [apply Z0; auto|lra].
      - eapply inv_at_ext; [symmetry; apply vdelay_zero; reflexivity|exact I1].
      - eapply inv_at_ext; [symmetry; apply vdelay_zero; reflexivity|exact I2]. }
    apply orb_true_iff in E1. rewrite !fempty_true in E1. destruct E1 as [E1|E1]; [apply (E1 _ X)|].
    apply apply_inv_sem in X. apply (E1 _ (proj1 X)). }
  destruct (fsubset dim (apply_inv dim l1 zu) (fdown (apply_inv dim l2 (apply_inv dim l1 zu)))) eqn:E2; cbn [negb] in E; [|discriminate].
  set (zf := apply_inv dim l2 (apply_inv dim l1 zu)) in *. set (p := mkP l1 l2 (pext l1 l2 zf)) in *.
  assert (Main : forall c', (forall u, fsem dim zf u -> kept c' l1 l2 u) -> forall v, fsem dim (p_zone cur) v -> fsem dim (t_guard t1) v -> fsem dim (t_guard t2) v ->
    landed c' l1 l2 (run_updates (t_updates t2) (run_updates (t_updates t1) v))).
  { intros c0 Hk v V G1 G2 I1 I2 d Hd Hi. set (w := run_updates (t_updates t2) (run_updates (t_updates t1) v)) in *.
    assert (X : fsem dim (apply_inv dim l1 zu) (vdelay w d)).
    { apply apply_inv_sem. split; [apply ZU; [apply Z0; auto|exact Hd]|exact Hi]. }
    split.
    - rewrite fsubset_true in E2. apply E2, fdown_sem in X. destruct X as (_ & e & He & X). exists e. split; [exact He|].
      apply apply_inv_sem in X. destruct X as [_ X]. eapply inv_at_ext; [|exact X]. apply vdelay_add.
    - intros Hi2. apply Hk. apply apply_inv_sem. auto. }
  destruct (passed_has dim p (fst c)) eqn:Ep; cbn [negb andb] in E; [|destruct (waiting_has dim p (snd c)) eqn:Ew; cbn [negb] in E].
  - injection E as <-. split; [exact W|]. split; [reflexivity|]. split; [apply le_refl|]. apply Main. intros u Hu. left.
    unfold passed_has in Ep. cbn [pair_key p_l1 p_l2 p] in Ep.
    destruct (kget (pair_key p) (fst c)) as [f|] eqn:Ek; [|discriminate]. exists f. split; [exact Ek|].
    rewrite fsubset_true in Ep. apply Ep. apply Hext. exact Hu.
  - injection E as <-. split; [exact W|]. split; [reflexivity|]. split; [apply le_refl|]. apply Main. intros u Hu. right.
    apply (wok_has dim p (snd c) (proj1 W)) in Ew. destruct Ew as (x & Hx & Kx & Zx). exists x. split; [exact Hx|]. split; [exact Kx|].
    apply Zx. apply Hext. exact Hu.
  - injection E as <-. split; [|split; [reflexivity|split]].
    + split; [apply wok_put, W|]. cbn [snd waiting_put w_queue]. intros x [<-|Hx]; [split; assumption|apply W; exact Hx].
    + intros a b v [H|(x & Hx & H)]; [left; exact H|right; exists x; split; [right; exact Hx|exact H]].
    + apply Main. intros u Hu. right. exists p. split; [left; reflexivity|]. split; [reflexivity|]. apply Hext. exact Hu.
Qed.

Lemma build_pairs_ok (cur : pair) (is1 : bool) : forall ps c c',
  (forall t1 t2, In (t1, t2) ps -> updates_ok dim (t_updates t1) /\ updates_ok dim (t_updates t2) /\
     In (if is1 then t_target t1 else t_target t2) (all_locations dim s1) /\ In (if is1 then t_target t2 else t_target t1) (all_locations dim s2)) ->
  build_pairs dim pext ps cur is1 c = Some c' -> wf_ctx c ->
  wf_ctx c' /\ fst c' = fst c /\ le_ctx c c' /\
  forall t1 t2 v, In (t1, t2) ps -> fsem dim (p_zone cur) v -> fsem dim (t_guard t1) v -> fsem dim (t_guard t2) v ->
    landed c' (if is1 then t_target t1 else t_target t2) (if is1 then t_target t2 else t_target t1)
      (run_updates (t_updates t2) (run_updates (t_updates t1) v)).
Proof.
  induction ps as [|[t1 t2] ps IH]; intros c c' Hps E W; cbn [build_pairs] in E.
  - injection E as <-. split; [exact W|]. split; [reflexivity|]. split; [apply le_refl|]. intros t1 t2 v [].
  - destruct (build_pair dim pext t1 t2 cur is1 c) as [c1|] eqn:E1; [|discriminate].
    destruct (Hps t1 t2 (or_introl eq_refl)) as (U1 & U2 & R1 & R2).
    destruct (build_pair_ok t1 t2 cur is1 c c1 U1 U2 R1 R2 E1 W) as (W1 & F1 & L1 & N1).
    destruct (IH c1 c') as (W' & F' & L' & N'); [intros a b Hab; apply Hps; right; exact Hab|exact E|exact W1|].
    split; [exact W'|]. split; [congruence|]. split; [eapply le_trans; eauto|].
    intros a b v [Eab|Hab] V G1 G2; [|eapply N'; eauto]. injection Eab as <- <-. eapply landed_le; [exact L'|]. apply N1; assumption.
Qed.

Lemma valid_pairs_ok a ts1 ts2 (cur : pair) (is1 : bool) (c : ctx) c' :
  (forall t, In t ts1 \/ In t ts2 -> tr_fine dim t) ->
  (forall t, In t ts1 -> In (t_target t) (all_locations dim (if is1 then s1 else s2))) ->
  (forall t, In t ts2 -> In (t_target t) (all_locations dim (if is1 then s2 else s1))) ->
  valid_pairs dim pext a ts1 ts2 cur is1 c = inl c' -> wf_ctx c ->
  wf_ctx c' /\ fst c' = fst c /\ le_ctx c c' /\
  forall t1 v, In t1 ts1 -> fsem dim (p_zone cur) v -> fsem dim (allowed_fed dim t1) v ->
    exists t2, In t2 ts2 /\ fsem dim (allowed_fed dim t2) v /\
      landed c' (if is1 then t_target t1 else t_target t2) (if is1 then t_target t2 else t_target t1)
        (run_updates (t_updates t2) (run_updates (t_updates t1) v)).
Proof.
  intros Hf H1 H2 E W. unfold valid_pairs in E.
  destruct (fempty dim (guard_fed dim ts1 (p_zone cur))) eqn:E1.
  { injection E as <-. split; [exact W|]. split; [reflexivity|]. split; [apply le_refl|]. intros t1 v Ht V A. exfalso.
    rewrite fempty_true in E1. apply (E1 v). apply guard_fed_sem. eauto. }
  destruct (fempty dim (guard_fed dim ts2 (p_zone cur))); [discriminate|].
  destruct (fempty dim (fsub dim (guard_fed dim ts1 (p_zone cur)) (guard_fed dim ts2 (p_zone cur)))) eqn:E3; cbn [negb] in E; [|discriminate].
  destruct (build_pairs dim pext (list_prod ts1 ts2) cur is1 c) as [c1|] eqn:E4; [|discriminate]. injection E as <-.
  destruct (build_pairs_ok cur is1 (list_prod ts1 ts2) c c1) as (W' & F' & L' & N'); [|exact E4|exact W|].
  { intros t1 t2 Hp. apply in_prod_iff in Hp. destruct Hp as [Hp1 Hp2]. destruct (Hf t1 (or_introl Hp1)) as [U1 _], (Hf t2 (or_intror Hp2)) as [U2 _].
    split; [exact U1|]. split; [exact U2|]. specialize (H1 t1 Hp1). specialize (H2 t2 Hp2). destruct is1; auto. }
  split; [exact W'|]. split; [exact F'|]. split; [exact L'|]. intros t1 v Ht V A.
  assert (G : fsem dim (guard_fed dim ts2 (p_zone cur)) v).
  { rewrite fempty_true in E3. specialize (E3 v). rewrite fsub_sem in E3.
    destruct (fsem_dec dim (guard_fed dim ts2 (p_zone cur)) v (fsem_ok _ _ _ V)) as [X|X]; [exact X|]. exfalso. apply E3. split; [|exact X].
    apply guard_fed_sem. eauto. }
  apply guard_fed_sem in G. destruct G as [(t2 & Ht2 & A2) _]. exists t2. split; [exact Ht2|]. split; [exact A2|].
  destruct (Hf t1 (or_introl Ht)) as [U1 C1], (Hf t2 (or_intror Ht2)) as [U2 C2].
  apply N'; [apply in_prod; assumption|exact V| |].
  - apply (allowed_fed_sem dim t1 U1 C1) in A. apply A.
  - apply (allowed_fed_sem dim t2 U2 C2) in A2. apply A2.
Qed.

Hypothesis B1 : built dim s1.
Hypothesis B2 : built dim s2.
Variables q1 q2 : nat.
Hypothesis K1 : clocks_ok dim q1 s1.
Hypothesis K2 : clocks_ok dim q2 s2.

(** A processed pair: all its moves have been matched. *)
Definition out_done (c : ctx) (p : pair) (a : string) : Prop :=
  forall t1 v, offered dim s1 (p_l1 p) a t1 -> fsem dim (p_zone p) v -> fsem dim (allowed_fed dim t1) v ->
    if extra_output s1 s2 a then landed c (t_target t1) (p_l2 p) (run_updates (t_updates t1) v)
    else exists t2, offered dim s2 (p_l2 p) a t2 /\ fsem dim (allowed_fed dim t2) v /\
      landed c (t_target t1) (t_target t2) (run_updates (t_updates t2) (run_updates (t_updates t1) v)).
Definition in_done (c : ctx) (p : pair) (a : string) : Prop :=
  forall t2 v, offered dim s2 (p_l2 p) a t2 -> fsem dim (p_zone p) v -> fsem dim (allowed_fed dim t2) v ->
    if extra_input s1 s2 a then landed c (p_l1 p) (t_target t2) (run_updates (t_updates t2) v)
    else exists t1, offered dim s1 (p_l1 p) a t1 /\ fsem dim (allowed_fed dim t1) v /\
      landed c (t_target t1) (t_target t2) (run_updates (t_updates t1) (run_updates (t_updates t2) v)).
Definition done (c : ctx) (p : pair) : Prop :=
  (forall a, is_output s1 a -> out_done c p a) /\ (forall a, is_input s2 a -> in_done c p a).

Lemma out_done_le c c' p a : le_ctx c c' -> out_done c p a -> out_done c' p a.
Proof.
  intros L H t1 v O V A. specialize (H t1 v O V A). destruct (extra_output s1 s2 a); [eapply landed_le; eauto|].
  destruct H as (t2 & O2 & A2 & N). exists t2. split; [exact O2|]. split; [exact A2|]. eapply landed_le; eauto.
Qed.
Lemma in_done_le c c' p a : le_ctx c c' -> in_done c p a -> in_done c' p a.
Proof.
  intros L H t1 v O V A. specialize (H t1 v O V A). destruct (extra_input s1 s2 a); [eapply landed_le; eauto|].
  destruct H as (t2 & O2 & A2 & N). exists t2. split; [exact O2|]. split; [exact A2|]. eapply landed_le; eauto.
Qed.
Lemma done_le c c' p : le_ctx c c' -> done c p -> done c' p.
Proof. intros L [H1 H2]. split; intros a Ha; [eapply out_done_le|eapply in_done_le]; eauto. Qed.

Lemma next_all s q l a ts : built dim s -> clocks_ok dim q s -> In l (all_locations dim s) -> next_transitions dim s l a = Ok ts ->
  is_action s a /\ forall t, In t ts -> tr_fine dim t /\ In (t_target t) (all_locations dim s).
Proof.
  intros B K Hl E.
  assert (Ha : is_action s a).
  { apply has_action_spec. destruct s; cbn [next_transitions] in E; destruct (has_action _ a); try reflexivity; discriminate. }
  split; [exact Ha|]. intros t Ht. destruct (next_fine dim q s K l a ts E t Ht) as [F _]. split; [exact F|].
  destruct (next_wf dim s B l a Hl Ha) as (ts' & E' & W). rewrite E in E'. injection E' as <-. auto.
Qed.

Lemma output_step_ok cur a c c' : in_range cur -> output_step dim pext s1 s2 cur a c = Ok (inl c') -> wf_ctx c ->
  wf_ctx c' /\ fst c' = fst c /\ le_ctx c c' /\ out_done c' cur a.
Proof.
  intros [R1 R2] E W. unfold output_step in E. inv_bind E. inv_bind E. injection E as E.
  destruct (next_all s1 q1 (p_l1 cur) a a0 B1 K1 R1 H) as [A1 F1].
  assert (F2 : forall t, In t a1 -> tr_fine dim t /\ In (t_target t) (all_locations dim s2)).
  { destruct (extra_output s1 s2 a).
    - injection H0 as <-. intros t [<-|[]]. split; [apply (without_fine dim q2 s2)|exact R2].
    - apply (next_all s2 q2 (p_l2 cur) a a1 B2 K2 R2 H0). }
  destruct (valid_pairs_ok a a0 a1 cur true c c') as (W' & F' & L & N); auto.
  { intros t [Ht|Ht]; [apply F1|apply F2]; exact Ht. }
  { intros t Ht. apply F1. exact Ht. }
  { intros t Ht. apply F2. exact Ht. }
  split; [exact W'|]. split; [exact F'|]. split; [exact L|]. intros t1 v [_ (ts & Ets & Ht)] V A.
  rewrite H in Ets. injection Ets as <-. destruct (N t1 v Ht V A) as (t2 & Ht2 & A2 & D).
  destruct (extra_output s1 s2 a).
  - injection H0 as <-. destruct Ht2 as [<-|[]]. exact D.
  - exists t2. split; [|split; assumption]. destruct (next_all s2 q2 (p_l2 cur) a a1 B2 K2 R2 H0) as [Ac _]. split; [exact Ac|]. eauto.
Qed.
Lemma input_step_ok cur a c c' : in_range cur -> input_step dim pext s1 s2 cur a c = Ok (inl c') -> wf_ctx c ->
  wf_ctx c' /\ fst c' = fst c /\ le_ctx c c' /\ in_done c' cur a.
Proof.
  intros [R1 R2] E W. unfold input_step in E. inv_bind E. inv_bind E. injection E as E.
  destruct (next_all s2 q2 (p_l2 cur) a a1 B2 K2 R2 H0) as [A2 F2].
  assert (F1 : forall t, In t a0 -> tr_fine dim t /\ In (t_target t) (all_locations dim s1)).
  { destruct (extra_input s1 s2 a).
    - injection H as <-. intros t [<-|[]]. split; [apply (without_fine dim q1 s1)|exact R1].
    - apply (next_all s1 q1 (p_l1 cur) a a0 B1 K1 R1 H). }
  destruct (valid_pairs_ok a a1 a0 cur false c c') as (W' & F' & L & N); auto.
  { intros t [Ht|Ht]; [apply F2|apply F1]; exact Ht. }
  { intros t Ht. apply F2. exact Ht. }
  { intros t Ht. apply F1. exact Ht. }
  split; [exact W'|]. split; [exact F'|]. split; [exact L|]. intros t2 v [_ (ts & Ets & Ht)] V A.
  rewrite H0 in Ets. injection Ets as <-. destruct (N t2 v Ht V A) as (t1 & Ht1 & A1 & D).
  destruct (extra_input s1 s2 a).
  - injection H as <-. destruct Ht1 as [<-|[]]. exact D.
  - exists t1. split; [|split; assumption]. destruct (next_all s1 q1 (p_l1 cur) a a0 B1 K1 R1 H) as [Ac _]. split; [exact Ac|]. eauto.
Qed.

(** The passed list consists of processed pairs. *)
Definition passed_of (proc : list pair) (m : plist) : Prop :=
  forall k, (forall f, kget k m = Some f -> forall v, fsem dim f v -> exists p, In p proc /\ pair_key p = k /\ fsem dim (p_zone p) v).
Lemma passed_of_put proc p m : passed_of proc m -> passed_of (p :: proc) (passed_put p m).
Proof.
  intros H k f E v Hv. unfold passed_put in E. rewrite kget_kset in E. destruct (key_eqb k (pair_key p)) eqn:Ek.
  - apply key_eqb_eq in Ek. subst k. injection E as <-. destruct (kget (pair_key p) m) as [g|] eqn:G.
    + apply funion_sem in Hv. destruct Hv as [Hv|Hv]; [exists p; simpl; auto|].
      destruct (H _ _ G v Hv) as (x & Hx & X). exists x. simpl; auto.
    + exists p. simpl; auto.
  - destruct (H _ _ E v Hv) as (x & Hx & X). exists x. simpl; auto.
Qed.

Variable aord : pair -> list string -> list string.
Hypothesis Hord : forall p l a, In a (aord p l) <-> In a l.

Lemma refine_loop_ok fuel : forall c proc, wf_ctx c -> passed_of proc (fst c) -> (forall p, In p proc -> in_range p /\ done c p) ->
  refine_loop dim pext aord s1 s2 fuel c = Ok RSuccess ->
  exists c' proc', le_ctx c c' /\ w_queue (snd c') = [] /\ passed_of proc' (fst c') /\ forall p, In p proc' -> in_range p /\ done c' p.
Proof.
  induction fuel as [|f IH]; intros c proc W P D E; cbn [refine_loop] in E; [discriminate|].
  destruct (wok_pop (snd c) (proj1 W)) as [Ep Pp].
  destruct (waiting_pop (snd c)) as [[[cur w]|]| | |] eqn:Epop; try discriminate; cbn [bind] in E.
  - destruct (Pp cur w eq_refl) as [Q Kw]. set (c0 := (passed_put cur (fst c), w)) in E.
    assert (Rc : in_range cur) by (apply W; rewrite Q; left; reflexivity).
    assert (W0 : wf_ctx c0) by (split; [exact Kw|intros p Hp; apply W; rewrite Q; right; exact Hp]).
    assert (L0 : le_ctx c c0).
    { intros l1 l2 v [(g & Eg & Hg)|(p & Hp & Kp & Hv)].
      - left. cbn [fst c0]. unfold passed_put. rewrite kget_kset. destruct (key_eqb _ (pair_key cur)) eqn:Ek.
        + apply key_eqb_eq in Ek. rewrite Ek in Eg. rewrite Eg. eexists. split; [reflexivity|]. apply funion_sem. auto.
        + eauto.
      - rewrite Q in Hp. destruct Hp as [<-|Hp]; [|right; exists p; auto]. left. cbn [fst c0]. unfold passed_put. rewrite kget_kset, <- Kp, key_eqb_refl.
        eexists. split; [reflexivity|]. destruct (kget (pair_key cur) (fst c)); [apply funion_sem; auto|exact Hv]. }
    inv_bind E. destruct a as [c1|r]; [|].
    + inv_bind E. destruct a as [c2|r].
      * pose (PO := fun (dn : list string) (x : ctx) => wf_ctx x /\ fst x = fst c0 /\ le_ctx c0 x /\ forall b, In b dn -> out_done x cur b).
        assert (HO : PO (aord cur (ts_outputs s1)) c1).
        { refine (loopM_inl _ PO _ _ [] c0 c1 _ H); [|split; [exact W0|split; [reflexivity|split; [apply le_refl|intros b []]]]].
          intros dn b x x' (Wx & Fx & Lx & Dx) Eb. destruct (output_step_ok cur b x x' Rc Eb Wx) as (W' & F' & L' & D').
          split; [exact W'|]. split; [congruence|]. split; [eapply le_trans; eauto|]. intros b' Hb. apply in_app_or in Hb.
          destruct Hb as [Hb|[<-|[]]]; [eapply out_done_le; eauto|exact D']. }
        destruct HO as (W1 & F1 & L1 & D1).
        pose (PI := fun (dn : list string) (x : ctx) => wf_ctx x /\ fst x = fst c0 /\ le_ctx c1 x /\ forall b, In b dn -> in_done x cur b).
        assert (HI : PI (aord cur (ts_inputs s2)) c2).
        { refine (loopM_inl _ PI _ _ [] c1 c2 _ H0); [|split; [exact W1|split; [exact F1|split; [apply le_refl|intros b []]]]].
          intros dn b x x' (Wx & Fx & Lx & Dx) Eb. destruct (input_step_ok cur b x x' Rc Eb Wx) as (W' & F' & L' & D').
          split; [exact W'|]. split; [congruence|]. split; [eapply le_trans; eauto|]. intros b' Hb. apply in_app_or in Hb.
          destruct Hb as [Hb|[<-|[]]]; [eapply in_done_le; eauto|exact D']. }
        destruct HI as (W2 & F2 & L2 & D2).
        destruct (IH c2 (cur :: proc) W2) as (c' & proc' & L' & Q' & P' & D'); [| |exact E|].
        -- rewrite F2. cbn [fst c0]. apply passed_of_put. exact P.
        -- intros p [<-|Hp].
           ++ split; [exact Rc|]. split; [intros b Hb; eapply out_done_le; [exact L2|]; apply D1|intros b Hb; apply D2]; apply Hord; exact Hb.
           ++ destruct (D p Hp) as [X Y]. split; [exact X|]. eapply done_le; [|exact Y]. eapply le_trans; [exact L0|]. eapply le_trans; eauto.
        -- exists c', proc'. split; [|auto]. eapply le_trans; [exact L0|]. eapply le_trans; [exact L1|]. eapply le_trans; eauto.
      * exfalso. injection E as ->.
        assert (X : RSuccess <> RSuccess); [|apply X; reflexivity].
        refine (loopM_inr (input_step dim pext s1 s2 cur) (fun _ _ => True) (fun r => r <> RSuccess) _ _ _ [] _ _ I H0); [auto|].
        intros dn b x r _ _ Eb. unfold input_step in Eb. inv_bind Eb. inv_bind Eb. injection Eb as Eb. unfold valid_pairs in Eb.
        destruct (fempty _ _); [discriminate|]. destruct (fempty _ _); [injection Eb as <-; discriminate|].
        destruct (negb _); [injection Eb as <-; discriminate|]. destruct (build_pairs _ _ _ _ _ _); [discriminate|injection Eb as <-; discriminate].
    + exfalso. injection E as ->.
      assert (X : RSuccess <> RSuccess); [|apply X; reflexivity].
      refine (loopM_inr (output_step dim pext s1 s2 cur) (fun _ _ => True) (fun r => r <> RSuccess) _ _ _ [] _ _ I H); [auto|].
      intros dn b x r _ _ Eb. unfold output_step in Eb. inv_bind Eb. inv_bind Eb. injection Eb as Eb. unfold valid_pairs in Eb.
      destruct (fempty _ _); [discriminate|]. destruct (fempty _ _); [injection Eb as <-; discriminate|].
      destruct (negb _); [injection Eb as <-; discriminate|]. destruct (build_pairs _ _ _ _ _ _); [discriminate|injection Eb as <-; discriminate].
  - exists c, proc. split; [apply le_refl|]. destruct (w_queue (snd c)) as [|x l]; [|discriminate]. auto.
Qed.

(** ** From the search to a refinement *)
Hypothesis R1 : reads_ok s1.
Hypothesis R2 : reads_ok s2.
Hypothesis Sep : separate s1 s2.
Hypothesis Gaps : no_gaps dim s2.

Section Relation.
Variable c : ctx.
Variable proc : list pair.
Hypothesis Empty : w_queue (snd c) = [].
Hypothesis Passed : passed_of proc (fst c).
Hypothesis Done : forall p, In p proc -> in_range p /\ done c p.

Definition Rsh (l1 l2 : loctree) (v : val) : Prop :=
  In l1 (all_locations dim s1) /\ In l2 (all_locations dim s2) /\ inv_at dim l1 v /\ inv_at dim l2 v /\
  forall d, 0 <= d -> (forall e, 0 <= e -> e <= d -> inv_at dim l1 (vdelay v e)) ->
    inv_at dim l2 (vdelay v d) /\ kept c l1 l2 (vdelay v d).

Lemma kept_ext l1 l2 v w : veq v w -> kept c l1 l2 v -> kept c l1 l2 w.
Proof.
  intros E [(f & Ef & H)|(p & Hp & Kp & H)]; [left; exists f|right; exists p]; repeat split; auto; eapply fsem_ext; eauto.
Qed.
Lemma Rsh_ext l1 l2 v w : veq v w -> Rsh l1 l2 v -> Rsh l1 l2 w.
Proof.
  intros E (L1 & L2 & I1 & I2 & D). split; [exact L1|]. split; [exact L2|]. split; [eapply inv_at_ext; eauto|]. split; [eapply inv_at_ext; eauto|].
  intros d Hd He. destruct (D d Hd) as [A B].
  - intros e H0 H1. eapply inv_at_ext; [|apply He; eassumption]. apply vdelay_ext; [symmetry; exact E|reflexivity].
  - split; [eapply inv_at_ext; [|exact A]|eapply kept_ext; [|exact B]]; apply vdelay_ext; auto; reflexivity.
Qed.
Lemma Rsh_delay l1 l2 v d : Rsh l1 l2 v -> 0 <= d -> (forall e, 0 <= e -> e <= d -> inv_at dim l1 (vdelay v e)) -> Rsh l1 l2 (vdelay v d).
Proof.
  intros (L1 & L2 & I1 & I2 & D) Hd He. split; [exact L1|]. split; [exact L2|]. split; [apply He; lra|]. split; [apply D; auto|].
  intros d' Hd' He'. destruct (D (d + d')) as [A B]; [lra| |].
  - intros e H0 H1. destruct (Qlt_le_dec d e) as [C|C]; [|apply He; assumption].
    eapply inv_at_ext; [|apply (He' (e - d)); lra]. rewrite vdelay_add. apply vdelay_ext; [apply veq_refl|ring].
  - split; [eapply inv_at_ext; [|exact A]|eapply kept_ext; [|exact B]]; symmetry; apply vdelay_add.
Qed.

(** Landing well means being related. *)
Lemma landed_Rsh l1 l2 w : In l1 (all_locations dim s1) -> In l2 (all_locations dim s2) -> inv_at dim l1 w -> inv_at dim l2 w ->
  landed c l1 l2 w -> Rsh l1 l2 w.
Proof.
  intros L1 L2 I1 I2 N. split; [exact L1|]. split; [exact L2|]. split; [exact I1|]. split; [exact I2|].
  intros d Hd He. destruct (N I1 I2 d Hd (He d Hd ltac:(lra))) as [(e & H0 & X) Kp].
  assert (Y : inv_at dim l2 (vdelay w d)) by (eapply (Gaps l2 w d e); eauto). split; [exact Y|auto].
Qed.

Lemma Rsh_point l1 l2 v : Rsh l1 l2 v -> exists p, In p proc /\ p_l1 p = l1 /\ p_l2 p = l2 /\ fsem dim (p_zone p) v.
Proof.
  intros (L1 & L2 & I1 & I2 & D). destruct (D 0) as [_ Kp]; [lra| |].
  { intros e H0 H1. assert (e == 0) by lra. eapply inv_at_ext; [symmetry; apply vdelay_zero; assumption|exact I1]. }
  destruct Kp as [(f & Ef & Hf)|(p & Hp & _)]; [|rewrite Empty in Hp; destruct Hp].
  destruct (Passed _ _ Ef _ Hf) as (p & Hp & Kp & Hv). exists p. split; [exact Hp|].
  destruct (Done p Hp) as [[X Y] _]. unfold pair_key in Kp. injection Kp as E1 E2.
  split; [apply (location_inj dim s1 B1); assumption|]. split; [apply (location_inj dim s2 B2); assumption|].
  eapply fsem_ext; [|exact Hv]. apply vdelay_zero. reflexivity.
Qed.

(** Separate valuations that agree with a shared one on their own clocks. *)
Definition Rel (l1 : loctree) (v1 : val) (l2 : loctree) (v2 : val) : Prop :=
  val_ok dim v1 /\ val_ok dim v2 /\ exists v, agree (sys_clocks s1) v v1 /\ agree (sys_clocks s2) v v2 /\ Rsh l1 l2 v.

Lemma zero_agree xs v w d : val_ok dim v -> val_ok dim w -> agree xs v w -> agree xs (vdelay v d) (vdelay w d).
Proof. intros [V0 _] [W0 _] A. apply agree_delay; [right; rewrite V0, W0; reflexivity|exact A]. Qed.

Lemma touches_foreign1 t v : touches (sys_clocks s1) t -> agree (sys_clocks s2) (run_updates (t_updates t) v) v.
Proof. intros T. apply agree_foreign. intros u Hu C. exact (Sep _ (T u Hu) C). Qed.
Lemma touches_foreign2 t v : touches (sys_clocks s2) t -> agree (sys_clocks s1) (run_updates (t_updates t) v) v.
Proof. intros T. apply agree_foreign. intros u Hu C. exact (Sep _ C (T u Hu)). Qed.

Theorem Rel_refinement : refinement dim s1 s2 Rel.
Proof.
  intros l1 v1 l2 v2 (V1 & V2 & v & A1 & A2 & S).
  pose proof S as (L1 & L2 & I1 & I2 & D). pose proof (inv_at_ok _ _ _ I1) as V.
  pose proof (locations_dep dim s1 B1 R1 l1 L1) as J1. pose proof (locations_dep dim s2 B2 R2 l2 L2) as J2.
  destruct (Rsh_point _ _ _ S) as (p & Hp & P1 & P2 & Z). destruct (Done p Hp) as [_ [DO DI]].
  split; [apply (J1 v v1); assumption|]. split; [apply (J2 v v2); assumption|]. split; [|split].
  - intros a t1 Ha O Ab. destruct (offered_dep dim q1 s1 l1 a t1 B1 R1 K1 L1 O) as ([U C] & T & Tch & _ & Dep).
    assert (Abv : able dim l1 t1 v) by (apply (Dep v1 v); auto using agree_sym).
    assert (Al : fsem dim (allowed_fed dim t1) v) by (apply allowed_fed_sem; auto; split; apply Abv).
    rewrite <- P1 in O. specialize (DO a Ha t1 v O Z Al). unfold extra_output in DO.
    rewrite (proj2 (sin_In a (ts_outputs s1)) Ha) in DO. cbn [andb] in DO. split.
    + intros Ha2. rewrite (proj2 (sin_In a (ts_outputs s2)) Ha2) in DO. cbn [negb] in DO.
      destruct DO as (t2 & O2 & Al2 & N). rewrite P2 in O2. exists t2. split; [exact O2|].
      destruct (offered_dep dim q2 s2 l2 a t2 B2 R2 K2 L2 O2) as ([U2 C2] & T2 & Tch2 & _ & Dep2).
      apply (allowed_fed_sem dim t2 U2 C2) in Al2.
      assert (Ab2v : able dim l2 t2 v) by (split; [exact I2|exact Al2]).
      split; [apply (Dep2 v v2); assumption|].
      set (w := run_updates (t_updates t2) (run_updates (t_updates t1) v)) in *.
      assert (Wok : val_ok dim w) by (apply run_updates_ok; [exact U2|apply run_updates_ok; assumption]).
      assert (W1 : agree (sys_clocks s1) w (run_updates (t_updates t1) v)) by (apply touches_foreign2; exact Tch2).
      assert (W2 : agree (sys_clocks s2) w (run_updates (t_updates t2) v)) by (apply agree_updates, touches_foreign1; exact Tch).
      split; [apply run_updates_ok; assumption|]. split; [apply run_updates_ok; assumption|]. exists w.
      split; [eapply agree_trans; [exact W1|apply agree_updates; exact A1]|].
      split; [eapply agree_trans; [exact W2|apply agree_updates; exact A2]|].
      apply landed_Rsh; auto.
      * apply (locations_dep dim s1 B1 R1 _ T (run_updates (t_updates t1) v) w); auto using run_updates_ok, agree_sym. apply Abv.
      * apply (locations_dep dim s2 B2 R2 _ T2 (run_updates (t_updates t2) v) w); auto using run_updates_ok, agree_sym. apply Al2.
    + intros Ha2. destruct (sin a (ts_outputs s2)) eqn:Sa; [apply sin_In in Sa; contradiction|]. cbn [negb] in DO.
      rewrite P2 in DO. set (w := run_updates (t_updates t1) v) in *.
      assert (Wok : val_ok dim w) by (apply run_updates_ok; assumption).
      assert (W2 : agree (sys_clocks s2) w v) by (apply touches_foreign1; exact Tch).
      split; [apply run_updates_ok; assumption|]. split; [exact V2|]. exists w.
      split; [apply agree_updates; exact A1|]. split; [eapply agree_trans; eauto|]. apply landed_Rsh; auto; [apply Abv|].
      apply (J2 v w); auto using agree_sym.
  - intros a t2 Ha O Ab. destruct (offered_dep dim q2 s2 l2 a t2 B2 R2 K2 L2 O) as ([U C] & T & Tch & _ & Dep).
    assert (Abv : able dim l2 t2 v) by (apply (Dep v2 v); auto using agree_sym).
    assert (Al : fsem dim (allowed_fed dim t2) v) by (apply allowed_fed_sem; auto; split; apply Abv).
    rewrite <- P2 in O. specialize (DI a Ha t2 v O Z Al). unfold extra_input in DI.
    rewrite (proj2 (sin_In a (ts_inputs s2)) Ha) in DI. cbn [andb] in DI. split.
    + intros Ha1. rewrite (proj2 (sin_In a (ts_inputs s1)) Ha1) in DI. cbn [negb] in DI.
      destruct DI as (t1 & O1 & Al1 & N). rewrite P1 in O1. exists t1. split; [exact O1|].
      destruct (offered_dep dim q1 s1 l1 a t1 B1 R1 K1 L1 O1) as ([U1 C1] & T1 & Tch1 & _ & Dep1).
      apply (allowed_fed_sem dim t1 U1 C1) in Al1.
      assert (Ab1v : able dim l1 t1 v) by (split; [exact I1|exact Al1]).
      split; [apply (Dep1 v v1); assumption|].
      set (w := run_updates (t_updates t1) (run_updates (t_updates t2) v)) in *.
      assert (Wok : val_ok dim w) by (apply run_updates_ok; [exact U1|apply run_updates_ok; assumption]).
      assert (W2 : agree (sys_clocks s2) w (run_updates (t_updates t2) v)) by (apply touches_foreign1; exact Tch1).
      assert (W1 : agree (sys_clocks s1) w (run_updates (t_updates t1) v)) by (apply agree_updates, touches_foreign2; exact Tch).
      split; [apply run_updates_ok; assumption|]. split; [apply run_updates_ok; assumption|]. exists w.
      split; [eapply agree_trans; [exact W1|apply agree_updates; exact A1]|].
      split; [eapply agree_trans; [exact W2|apply agree_updates; exact A2]|].
      apply landed_Rsh; auto.
      * apply (locations_dep dim s1 B1 R1 _ T1 (run_updates (t_updates t1) v) w); auto using run_updates_ok, agree_sym. apply Al1.
      * apply (locations_dep dim s2 B2 R2 _ T (run_updates (t_updates t2) v) w); auto using run_updates_ok, agree_sym. apply Abv.
    + intros Ha1. destruct (sin a (ts_inputs s1)) eqn:Sa; [apply sin_In in Sa; contradiction|]. cbn [negb] in DI.
      rewrite P1 in DI. set (w := run_updates (t_updates t2) v) in *.
      assert (Wok : val_ok dim w) by (apply run_updates_ok; assumption).
      assert (W1 : agree (sys_clocks s1) w v) by (apply touches_foreign2; exact Tch).
      split; [exact V1|]. split; [apply run_updates_ok; assumption|]. exists w.
      split; [eapply agree_trans; eauto|]. split; [apply agree_updates; exact A2|]. apply landed_Rsh; auto; [|apply Abv].
      apply (J1 v w); auto using agree_sym.
  - intros d Hd He. split; [apply vdelay_ok; assumption|]. split; [apply vdelay_ok; assumption|]. exists (vdelay v d).
    split; [apply zero_agree; assumption|]. split; [apply zero_agree; assumption|]. apply Rsh_delay; auto.
    intros e H0 H1. apply (J1 (vdelay v1 e) (vdelay v e)); auto using vdelay_ok. apply zero_agree; auto using agree_sym.
Qed.
End Relation.

Variable ext : ts -> loctree -> fed -> fed.
Variable ord : list state -> list string -> list string.

Theorem refinement_sound fuel : starts_together dim s1 s2 ->
  check_refinement dim ext pext ord aord s1 s2 fuel = Ok RSuccess -> refines dim s1 s2.
Proof.
  intros St E. unfold check_refinement, explore in E. inv_bind E. destruct a as [r|].
  { injection E as ->. exfalso. unfold check_preconditions in H. inv_bind H. destruct (negb _); [discriminate|]. inv_bind H. destruct (negb _); [discriminate|].
    injection H as H. unfold action_precheck in H. repeat (destruct (negb _); [discriminate|]). discriminate. }
  unfold refines. destruct (initial_location dim s1) as [l1|] eqn:E1, (initial_location dim s2) as [l2|] eqn:E2; try discriminate; [|exact I].
  set (z := apply_inv dim l2 (apply_inv dim l1 (p_zone (pair_from_locations dim l1 l2)))) in E.
  destruct (fempty dim z) eqn:Ez; [discriminate|].
  set (p0 := mkP l1 l2 (pext l1 l2 z)) in E. set (c0 := (@nil (key * fed), waiting_put p0 waiting_new)) in E.
  assert (Rng : in_range p0) by (split; [apply (initial_wf dim s1 B1)|apply (initial_wf dim s2 B2)]; assumption).
  destruct (refine_loop_ok fuel c0 []) as (c & proc & L & Q & P & D).
  - split; [apply wok_put, wok_new|]. intros p [<-|[]]. exact Rng.
  - intros k f C. discriminate.
  - intros p [].
  - exact E.
  - exists (Rel c). split; [eapply Rel_refinement; eauto|].
    destruct (St l1 l2 E1 E2) as (Z1 & Z2 & Dl). pose proof (inv_at_ok _ _ _ Z1) as V.
    split; [exact V|]. split; [exact V|]. exists zero_val. split; [intros x _; reflexivity|]. split; [intros x _; reflexivity|].
    split; [apply Rng|]. split; [apply Rng|]. split; [exact Z1|]. split; [exact Z2|]. intros d Hd He. split; [apply Dl; assumption|].
    apply L. right. exists p0. split; [left; reflexivity|]. split; [reflexivity|]. apply Hext. apply apply_inv_sem. split; [|apply Dl; assumption].
    apply apply_inv_sem. split; [apply finit_delay; exact Hd|apply He; lra].
Qed.
End Facts.
