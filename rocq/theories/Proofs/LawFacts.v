(** Steps of systems up to the clocks of others, and of conjunctions and compositions in terms of their parts. *)
From Coq Require Import List String ZArith QArith Bool Arith Lia Lqa.
From Verif Require Import Fed.Zone Fed.ZoneFacts Model.Base Model.Expr Model.Guard Model.Loc Model.Component Model.TS Model.PairList
  Spec.StepSpec Spec.SystemSpec Spec.RunSpec Spec.RefineSpec Spec.LawSpec
  Proofs.GuardFacts Proofs.StepFacts Proofs.SystemFacts Proofs.QuotientFacts Proofs.WfFacts Proofs.RunFacts Proofs.ReadsFacts.
Import ListNotations.
Local Open Scope Q_scope.

(** In location [l] with clocks [v] the system can do [a] and is then in [l'] with clocks [v']. *)
Definition can (dim : nat) (s : ts) (l : loctree) (v : val) (a : string) (l' : loctree) (v' : val) : Prop :=
  exists t, offered dim s l a t /\ able dim l t v /\ l' = t_target t /\ v' = run_updates (t_updates t) v.

(** The clocks of the system have the same values. *)
Definition like (dim : nat) (s : ts) (v w : val) : Prop := val_ok dim v /\ val_ok dim w /\ agree (sys_clocks s) v w.

Lemma inv_at_ok dim l v : inv_at dim l v -> val_ok dim v.
Proof. unfold inv_at. destruct (lt_inv l); [apply fsem_val|auto]. Qed.

Section Laws.
Variable dim : nat.

Lemma like_refl s v : val_ok dim v -> like dim s v v.
Proof. intros H. split; [exact H|]. split; [exact H|]. intros x _. reflexivity. Qed.
Lemma like_sym s v w : like dim s v w -> like dim s w v.
Proof. intros (A & B & C). split; [exact B|]. split; [exact A|]. apply agree_sym, C. Qed.
Lemma like_trans s u v w : like dim s u v -> like dim s v w -> like dim s u w.
Proof. intros (A & B & C) (_ & D & E). split; [exact A|]. split; [exact D|]. eapply agree_trans; eauto. Qed.
Lemma like_delay s v w d : 0 <= d -> like dim s v w -> like dim s (vdelay v d) (vdelay w d).
Proof.
  intros Hd (A & B & C). split; [apply vdelay_ok; assumption|]. split; [apply vdelay_ok; assumption|].
  apply agree_delay; [|exact C]. right. destruct A as [A _], B as [B _]. rewrite A, B. reflexivity.
Qed.
Lemma like_veq s v w : val_ok dim v -> val_ok dim w -> veq v w -> like dim s v w.
Proof. intros A B C. split; [exact A|]. split; [exact B|]. apply agree_veq, C. Qed.

Lemma inv_like s l v w : good dim s -> In l (all_locations dim s) -> like dim s v w -> inv_at dim l v -> inv_at dim l w.
Proof. intros G Hl (A & B & C). apply (locations_dep dim s (g_built _ _ G) (g_reads _ _ G) l Hl v w A B C). Qed.

Lemma offered_dep s l a t : good dim s -> In l (all_locations dim s) -> offered dim s l a t ->
  tr_fine dim t /\ In (t_target t) (all_locations dim s) /\ touches (sys_clocks s) t /\ pdep dim (sys_clocks s) (able dim l t).
Proof.
  intros G Hl [Ha (ts & Ets & Ht)]. destruct (g_clocks _ _ G) as [q K].
  destruct (next_fine dim q s K l a ts Ets t Ht) as [F _].
  destruct (next_dep dim q s (g_built _ _ G) (g_reads _ _ G) K l a ts t Hl Ha Ets Ht) as [D T].
  destruct (next_wf dim s (g_built _ _ G) l a Hl Ha) as (ts' & E' & Tg). rewrite Ets in E'. injection E' as <-. specialize (Tg t Ht).
  split; [exact F|]. split; [exact Tg|]. split; [exact T|].
  apply able_dep; [exact F|apply locations_dep; auto; apply G|exact D|apply locations_dep; auto; apply G].
Qed.

Lemma can_in s l v a l' v' : good dim s -> In l (all_locations dim s) -> can dim s l v a l' v' ->
  In l' (all_locations dim s) /\ is_action s a /\ inv_at dim l v /\ inv_at dim l' v' /\ val_ok dim v /\ val_ok dim v'.
Proof.
  intros G Hl (t & O & A & -> & ->). destruct (offered_dep s l a t G Hl O) as (_ & Tg & _ & _).
  split; [exact Tg|]. split; [apply O|]. destruct A as (A1 & A2 & A3). eauto 8 using inv_at_ok.
Qed.

Lemma can_like s l v w a l' v' : good dim s -> In l (all_locations dim s) -> like dim s v w -> can dim s l v a l' v' ->
  exists w', can dim s l w a l' w' /\ like dim s v' w'.
Proof.
  intros G Hl (A & B & C) (t & O & Ab & -> & ->). destruct (offered_dep s l a t G Hl O) as ((U & _) & Tg & _ & D).
  exists (run_updates (t_updates t) w). split.
  - exists t. split; [exact O|]. split; [apply (D v w A B C Ab)|auto].
  - split; [apply run_updates_ok; assumption|]. split; [apply run_updates_ok; assumption|]. apply agree_updates, C.
Qed.

Lemma can_det s l v a l' v' l'' v'' : deterministic dim s -> reachable dim s l v -> can dim s l v a l' v' -> can dim s l v a l'' v'' ->
  l' = l'' /\ v' = v''.
Proof.
  intros D Rc (t & O & A & -> & ->) (u & O' & A' & -> & ->).
  assert (t = u); [|subst; auto].
  destruct O as [Ha (ts & Ets & Ht)], O' as [_ (us & Eus & Hu)]. rewrite Ets in Eus. injection Eus as <-.
  destruct (In_nth_error _ _ Ht) as [i Ei], (In_nth_error _ _ Hu) as [j Ej].
  destruct (Nat.eq_dec i j) as [->|Nn]; [congruence|]. exfalso. apply (D l v a ts Rc Ha Ets i j t u Nn Ei Ej). auto.
Qed.

Lemma can_reach s l v a l' v' : reachable dim s l v -> can dim s l v a l' v' -> reachable dim s l' v'.
Proof. intros (l0 & E & I0 & Rn) (t & O & A & -> & ->). exists l0. split; [exact E|]. split; [exact I0|]. eapply run_act; eauto. Qed.
Lemma delay_reach s l v d : reachable dim s l v -> 0 <= d -> (forall e, 0 <= e -> e <= d -> inv_at dim l (vdelay v e)) -> reachable dim s l (vdelay v d).
Proof. intros (l0 & E & I0 & Rn) Hd H. exists l0. split; [exact E|]. split; [exact I0|]. apply run_delay; auto. Qed.
Lemma start_reach s l : initial_location dim s = Some l -> inv_at dim l zero_val -> reachable dim s l zero_val.
Proof. intros E I. exists l. split; [exact E|]. split; [exact I|]. apply run_nil. Qed.

(** The same with steps instead of transitions. *)
Lemma refinement_can s1 s2 R : refinement dim s1 s2 R <->
  forall l1 v1 l2 v2, R l1 v1 l2 v2 ->
    inv_at dim l1 v1 /\ inv_at dim l2 v2 /\
    (forall a l1' v1', is_output s1 a -> can dim s1 l1 v1 a l1' v1' ->
       (is_output s2 a -> exists l2' v2', can dim s2 l2 v2 a l2' v2' /\ R l1' v1' l2' v2') /\ (~ is_output s2 a -> R l1' v1' l2 v2)) /\
    (forall a l2' v2', is_input s2 a -> can dim s2 l2 v2 a l2' v2' ->
       (is_input s1 a -> exists l1' v1', can dim s1 l1 v1 a l1' v1' /\ R l1' v1' l2' v2') /\ (~ is_input s1 a -> R l1 v1 l2' v2')) /\
    (forall d, 0 <= d -> (forall e, 0 <= e -> e <= d -> inv_at dim l1 (vdelay v1 e)) -> R l1 (vdelay v1 d) l2 (vdelay v2 d)).
Proof.
  split; intros H l1 v1 l2 v2 Hr; destruct (H l1 v1 l2 v2 Hr) as (I1 & I2 & Ho & Hi & Hd); (split; [exact I1|]); (split; [exact I2|]); (split; [|split; [|exact Hd]]).
  - intros a l1' v1' Oa (t & O & A & -> & ->). destruct (Ho a t Oa O A) as [X Y]. split; [|exact Y]. intros Oa2. destruct (X Oa2) as (t2 & O2 & A2 & R2).
    exists (t_target t2), (run_updates (t_updates t2) v2). split; [exists t2; auto|exact R2].
  - intros a l1' v1' Oa (t & O & A & -> & ->). destruct (Hi a t Oa O A) as [X Y]. split; [|exact Y]. intros Oa2. destruct (X Oa2) as (t2 & O2 & A2 & R2).
    exists (t_target t2), (run_updates (t_updates t2) v1). split; [exists t2; auto|exact R2].
  - intros a t Oa O A. destruct (Ho a (t_target t) (run_updates (t_updates t) v1) Oa) as [X Y]; [exists t; auto|]. split; [|exact Y].
    intros Oa2. destruct (X Oa2) as (l2' & v2' & (t2 & O2 & A2 & -> & ->) & R2). exists t2. auto.
  - intros a t Oa O A. destruct (Hi a (t_target t) (run_updates (t_updates t) v2) Oa) as [X Y]; [exists t; auto|]. split; [|exact Y].
    intros Oa2. destruct (X Oa2) as (l2' & v2' & (t2 & O2 & A2 & -> & ->) & R2). exists t2. auto.
Qed.

(** *** Two systems side by side over separate clocks *)
Section Product.
Variables A B : ts.
Hypothesis GA : good dim A.
Hypothesis GB : good dim B.
Hypothesis Sep : separate A B.

(** [loc] is the pair of [lA] and [lB]. *)
Definition both (loc lA lB : loctree) : Prop :=
  In lA (all_locations dim A) /\ In lB (all_locations dim B) /\ lt_left loc = Ok lA /\ lt_right loc = Ok lB /\
  forall v, inv_at dim loc v <-> inv_at dim lA v /\ inv_at dim lB v.

Lemma joint_can mk loc lA lB t1 t2 t :
  both loc lA lB -> tr_fine dim t1 -> tr_fine dim t2 -> touches (sys_clocks A) t1 -> touches (sys_clocks B) t2 ->
  In (t_target t1) (all_locations dim A) -> In (t_target t2) (all_locations dim B) -> joint dim mk t1 t2 t ->
  both (t_target t) (t_target t1) (t_target t2) /\
  forall v, val_ok dim v ->
    (able dim loc t v <-> able dim lA t1 v /\ able dim lB t2 v) /\
    like dim A (run_updates (t_updates t) v) (run_updates (t_updates t1) v) /\
    like dim B (run_updates (t_updates t) v) (run_updates (t_updates t2) v).
Proof.
  intros (HA & HB & _ & _ & I) [U1 _] [U2 _] T1 T2 HA' HB' (J1 & J2 & _ & Pl & Pr & J3). split.
  { split; [exact HA'|]. split; [exact HB'|]. auto. }
  intros v V. rewrite J2. assert (Eq : run_updates (t_updates t1 ++ t_updates t2) v = run_updates (t_updates t2) (run_updates (t_updates t1) v)) by apply fold_left_app.
  rewrite Eq. pose proof (run_updates_ok dim _ U1 v V) as V1. pose proof (run_updates_ok dim _ U2 v V) as V2. pose proof (run_updates_ok dim _ U2 _ V1) as V12.
  assert (LA : like dim A (run_updates (t_updates t2) (run_updates (t_updates t1) v)) (run_updates (t_updates t1) v)).
  { split; [exact V12|]. split; [exact V1|]. apply agree_foreign. intros u Hu C. apply (Sep _ C), T2, Hu. }
  assert (LB : like dim B (run_updates (t_updates t2) (run_updates (t_updates t1) v)) (run_updates (t_updates t2) v)).
  { split; [exact V12|]. split; [exact V2|]. apply agree_updates. apply agree_foreign. intros u Hu C. apply (Sep (u_clock u)); [apply T1, Hu|exact C]. }
  split; [|auto]. unfold able. rewrite I, J1, J2, J3, Eq. split.
  - intros ((X1 & X2) & (X3 & X4) & X5 & X6). repeat (split; try assumption).
    + apply (inv_like A _ _ _ GA HA' LA X5).
    + apply (inv_like B _ _ _ GB HB' LB X6).
  - intros ((X1 & X2 & X3) & X4 & X5 & X6). repeat (split; try assumption).
    + apply (inv_like A _ _ _ GA HA' (like_sym _ _ _ LA) X3).
    + apply (inv_like B _ _ _ GB HB' (like_sym _ _ _ LB) X6).
Qed.

Lemma without_dep s l : tr_fine dim (t_without_id l) /\ touches (sys_clocks s) (t_without_id l).
Proof. split; [apply (without_fine dim 0 s l)|intros u []]. Qed.
Lemma without_able l v : able dim l (t_without_id l) v <-> inv_at dim l v.
Proof.
  unfold able. cbn [t_guard t_target t_updates t_without_id run_updates fold_left]. split; [tauto|]. intros H. split; [exact H|]. split; [|exact H].
  apply funiv_sem. eapply inv_at_ok; eauto.
Qed.

(** **** Conjunctions *)
Section Conj.
Variable s : ts.
Hypothesis E : conjunction_new A B = Ok s.

Lemma conj_alphabet a : (is_input s a <-> is_input A a /\ is_input B a) /\ (is_output s a <-> is_output A a /\ is_output B a) /\
  (is_action s a -> is_action A a /\ is_action B a).
Proof.
  destruct (conjunction_new_inv A B s E) as (-> & D1 & D2). unfold is_action, is_input, is_output. cbn [ts_inputs ts_outputs]. rewrite !in_sinter. tauto.
Qed.
Lemma conj_both loc : In loc (all_locations dim s) -> exists lA lB, both loc lA lB.
Proof.
  destruct (conjunction_new_inv A B s E) as (-> & _). cbn [all_locations]. intros H. apply in_all_compose in H; [|left; reflexivity]. destruct H as (a & b & Ha & Hb & Ep).
  pose proof (lt_compose_spec _ _ _ _ _ (or_introl eq_refl) Ep) as (_ & P1 & P2 & P3). exists a, b. split; [exact Ha|]. auto.
Qed.
Lemma conj_start : match initial_location dim s with
  | Some l => exists lA lB, initial_location dim A = Some lA /\ initial_location dim B = Some lB /\ both l lA lB
  | None => initial_location dim A = None \/ initial_location dim B = None end.
Proof.
  destruct (conjunction_new_inv A B s E) as (-> & _). cbn [initial_location].
  destruct (initial_location dim A) as [lA|] eqn:EA; [|auto]. destruct (initial_location dim B) as [lB|] eqn:EB; [|auto].
  destruct (lt_compose_ok dim lA lB CConj (or_introl eq_refl)) as [p Ep]. rewrite Ep. exists lA, lB. split; [reflexivity|]. split; [reflexivity|].
  pose proof (lt_compose_spec _ _ _ _ _ (or_introl eq_refl) Ep) as (_ & P1 & P2 & P3). split; [apply (initial_wf dim A (g_built _ _ GA)), EA|]. split; [apply (initial_wf dim B (g_built _ _ GB)), EB|]. auto.
Qed.
Lemma conj_next loc lA lB a t : both loc lA lB -> is_action s a -> 
  (offered dim s loc a t -> exists t1 t2, offered dim A lA a t1 /\ offered dim B lB a t2 /\ joint dim LConj t1 t2 t).
Proof.
  intros (HA & HB & Pl & Pr & _) Ha (_ & ts & Ets & Ht). destruct (proj2 (proj2 (conj_alphabet a)) Ha) as [AA AB].
  destruct (next_wf dim A (g_built _ _ GA) lA a HA AA) as (tl & El & _). destruct (next_wf dim B (g_built _ _ GB) lB a HB AB) as (tr & Er & _).
  destruct (conjunction_new_inv A B s E) as (-> & _).
  destruct (conj_steps dim A B _ _ loc lA lB a tl tr Ha Pl Pr El Er) as (ts' & E' & _ & C). rewrite Ets in E'. injection E' as <-.
  destruct (C t Ht) as ([x y] & Hp & J). apply in_prod_iff in Hp. destruct Hp as [Hx Hy]. exists x, y. split; [split; eauto|]. split; [split; eauto|exact J].
Qed.
Lemma conj_join loc lA lB a t1 t2 : both loc lA lB -> is_action s a -> offered dim A lA a t1 -> offered dim B lB a t2 ->
  exists t, offered dim s loc a t /\ joint dim LConj t1 t2 t.
Proof.
  intros (HA & HB & Pl & Pr & _) Ha (AA & tl & El & Hx) (AB & tr & Er & Hy).
  destruct (conjunction_new_inv A B s E) as (Es & _).
  assert (Ha' := Ha). rewrite Es in Ha'. destruct (conj_steps dim A B _ _ loc lA lB a tl tr Ha' Pl Pr El Er) as (ts' & E' & C & _).
  destruct (C (t1, t2)) as (t & Ht & J); [apply in_prod_iff; auto|]. exists t. split; [|exact J]. split; [exact Ha|]. exists ts'. rewrite Es. auto.
Qed.

Lemma conj_can loc lA lB v a loc' v' : both loc lA lB -> can dim s loc v a loc' v' ->
  exists lA' lB' vA vB, can dim A lA v a lA' vA /\ can dim B lB v a lB' vB /\ both loc' lA' lB' /\ like dim A v' vA /\ like dim B v' vB.
Proof.
  intros Hb (t & O & Ab & -> & ->). destruct (conj_next loc lA lB a t Hb (proj1 O) O) as (t1 & t2 & O1 & O2 & J).
  destruct (offered_dep A lA a t1 GA (proj1 Hb) O1) as (F1 & H1 & T1 & _). destruct (offered_dep B lB a t2 GB (proj1 (proj2 Hb)) O2) as (F2 & H2 & T2 & _).
  destruct (joint_can LConj loc lA lB t1 t2 t Hb F1 F2 T1 T2 H1 H2 J) as [Hb' X]. destruct (X v (inv_at_ok _ _ _ (proj1 Ab))) as (Y & L1 & L2).
  apply Y in Ab. exists (t_target t1), (t_target t2), (run_updates (t_updates t1) v), (run_updates (t_updates t2) v).
  split; [exists t1; tauto|]. split; [exists t2; tauto|]. auto.
Qed.
Lemma conj_can_join loc lA lB v a lA' lB' vA vB : both loc lA lB -> is_action s a -> can dim A lA v a lA' vA -> can dim B lB v a lB' vB ->
  exists loc' v', can dim s loc v a loc' v' /\ both loc' lA' lB' /\ like dim A v' vA /\ like dim B v' vB.
Proof.
  intros Hb Ha (t1 & O1 & A1 & -> & ->) (t2 & O2 & A2 & -> & ->). destruct (conj_join loc lA lB a t1 t2 Hb Ha O1 O2) as (t & O & J).
  destruct (offered_dep A lA a t1 GA (proj1 Hb) O1) as (F1 & H1 & T1 & _). destruct (offered_dep B lB a t2 GB (proj1 (proj2 Hb)) O2) as (F2 & H2 & T2 & _).
  destruct (joint_can LConj loc lA lB t1 t2 t Hb F1 F2 T1 T2 H1 H2 J) as [Hb' X]. destruct (X v (inv_at_ok _ _ _ (proj1 A1))) as (Y & L1 & L2).
  exists (t_target t), (run_updates (t_updates t) v). split; [exists t; tauto|]. auto.
Qed.
End Conj.

(** **** Compositions *)
Section Comp.
Variable s : ts.
Hypothesis E : composition_new A B = Ok s.

Lemma comp_alphabet a : (is_input s a <-> is_input A a /\ ~ is_output B a \/ is_input B a /\ ~ is_output A a) /\ (is_output s a <-> is_output A a \/ is_output B a) /\
  (is_action s a <-> is_action A a \/ is_action B a) /\ ~ (is_output A a /\ is_output B a).
Proof.
  pose proof (composition_actions A B s a E) as Ac. destruct (composition_new_inv A B s E) as (D & ins & outs & lo & ro & co & -> & -> & -> & _).
  unfold is_input, is_output. cbn [ts_inputs ts_outputs]. rewrite !in_sunion, !in_sdiff. rewrite disjoint_spec in D. specialize (D a). tauto.
Qed.
Lemma comp_both loc : In loc (all_locations dim s) -> exists lA lB, both loc lA lB.
Proof.
  destruct (composition_new_inv A B s E) as (_ & ins & outs & lo & ro & co & -> & _). cbn [all_locations]. intros H. apply in_all_compose in H; [|right; reflexivity]. destruct H as (a & b & Ha & Hb & Ep).
  pose proof (lt_compose_spec _ _ _ _ _ (or_intror eq_refl) Ep) as (_ & P1 & P2 & P3). exists a, b. split; [exact Ha|]. auto.
Qed.
Lemma comp_start : match initial_location dim s with
  | Some l => exists lA lB, initial_location dim A = Some lA /\ initial_location dim B = Some lB /\ both l lA lB
  | None => initial_location dim A = None \/ initial_location dim B = None end.
Proof.
  destruct (composition_new_inv A B s E) as (_ & ins & outs & lo & ro & co & -> & _). cbn [initial_location].
  destruct (initial_location dim A) as [lA|] eqn:EA; [|auto]. destruct (initial_location dim B) as [lB|] eqn:EB; [|auto].
  destruct (lt_compose_ok dim lA lB CComp (or_intror eq_refl)) as [p Ep]. rewrite Ep. exists lA, lB. split; [reflexivity|]. split; [reflexivity|].
  pose proof (lt_compose_spec _ _ _ _ _ (or_intror eq_refl) Ep) as (_ & P1 & P2 & P3). split; [apply (initial_wf dim A (g_built _ _ GA)), EA|]. split; [apply (initial_wf dim B (g_built _ _ GB)), EB|]. auto.
Qed.

(** What the part in [l] does when the composition does [a]: its own step if it knows [a], else nothing. *)
Definition part (x : ts) (l : loctree) (v : val) (a : string) (l' : loctree) (v' : val) : Prop :=
  is_action x a /\ can dim x l v a l' v' \/ ~ is_action x a /\ l' = l /\ v' = v /\ inv_at dim l v.

Lemma left_joint mk t1 lr t : left_alone dim mk t1 lr t -> joint dim mk t1 (t_without_id lr) t.
Proof.
  intros (G & U & P). split; [|split; [rewrite U, app_nil_r; reflexivity|exact P]]. intros v. rewrite G. cbn [t_guard t_without_id]. rewrite funiv_sem.
  split; [|tauto]. intros H. split; [exact H|]. eapply fsem_val; eauto.
Qed.
Lemma right_joint mk ll t2 t : right_alone dim mk ll t2 t -> joint dim mk (t_without_id ll) t2 t.
Proof.
  intros (G & U & P). split; [|split; [rewrite U; reflexivity|exact P]]. intros v. rewrite G. cbn [t_guard t_without_id]. rewrite funiv_sem.
  split; [|tauto]. intros H. split; [|exact H]. eapply fsem_val; eauto.
Qed.

Definition sent (x : ts) (l : loctree) (a : string) (t : transition) : Prop := is_action x a /\ offered dim x l a t \/ ~ is_action x a /\ t = t_without_id l.

Lemma sent_dep x l a t : good dim x -> In l (all_locations dim x) -> sent x l a t -> tr_fine dim t /\ touches (sys_clocks x) t /\ In (t_target t) (all_locations dim x).
Proof.
  intros G Hl [[_ O]|[_ ->]].
  - destruct (offered_dep x l a t G Hl O) as (F & H & T & _). auto.
  - destruct (without_dep x l). auto.
Qed.
Lemma sent_part x l v a t : sent x l a t -> able dim l t v -> part x l v a (t_target t) (run_updates (t_updates t) v).
Proof.
  intros [[Ha O]|[Ha ->]] Ab; [left|right].
  - split; [exact Ha|]. exists t. auto.
  - split; [exact Ha|]. split; [reflexivity|]. split; [reflexivity|]. apply Ab.
Qed.
Lemma part_sent x l v a l' v' : part x l v a l' v' -> exists t, sent x l a t /\ able dim l t v /\ l' = t_target t /\ v' = run_updates (t_updates t) v.
Proof.
  intros [[Ha (t & O & Ab & -> & ->)]|(Ha & -> & -> & I)].
  - exists t. split; [left; auto|auto].
  - exists (t_without_id l). split; [right; auto|]. split; [apply without_able, I|auto].
Qed.

Lemma comp_sent loc lA lB a t : both loc lA lB -> offered dim s loc a t ->
  exists t1 t2, sent A lA a t1 /\ sent B lB a t2 /\ joint dim LComp t1 t2 t.
Proof.
  intros (HA & HB & Pl & Pr & _) (Ha & ts & Ets & Ht). apply (proj1 (proj2 (proj2 (comp_alphabet a)))) in Ha.
  destruct (In_dec_s a (ts_actions A)) as [IA|IA]; (destruct (In_dec_s a (ts_actions B)) as [IB|IB]); unfold ts_actions in IA, IB; rewrite in_sunion in IA, IB;
    fold (is_input A a) (is_output A a) (is_action A a) in IA; fold (is_input B a) (is_output B a) (is_action B a) in IB; unfold is_action in Ha; fold (is_action A a) (is_action B a) in Ha.
  - destruct (next_wf dim A (g_built _ _ GA) lA a HA IA) as (tl & El & _). destruct (next_wf dim B (g_built _ _ GB) lB a HB IB) as (tr & Er & _).
    destruct (comp_steps_both dim A B s loc lA lB a tl tr E Pl Pr IA IB El Er) as (ts' & E' & _ & C). rewrite Ets in E'. injection E' as <-.
    destruct (C t Ht) as ([x y] & Hp & J). apply in_prod_iff in Hp. destruct Hp as [Hx Hy]. exists x, y. split; [left; split; [exact IA|split; eauto]|]. split; [left; split; [exact IB|split; eauto]|exact J].
  - destruct (next_wf dim A (g_built _ _ GA) lA a HA IA) as (tl & El & _).
    destruct (comp_steps_left dim A B s loc lA lB a tl E Pl Pr IA IB El) as (ts' & E' & _ & C). rewrite Ets in E'. injection E' as <-.
    destruct (C t Ht) as (x & Hx & J). exists x, (t_without_id lB). split; [left; split; [exact IA|split; eauto]|]. split; [right; auto|apply left_joint, J].
  - destruct (next_wf dim B (g_built _ _ GB) lB a HB IB) as (tr & Er & _).
    destruct (comp_steps_right dim A B s loc lA lB a tr E Pl Pr IA IB Er) as (ts' & E' & _ & C). rewrite Ets in E'. injection E' as <-.
    destruct (C t Ht) as (x & Hx & J). exists (t_without_id lA), x. split; [right; auto|]. split; [left; split; [exact IB|split; eauto]|apply right_joint, J].
  - tauto.
Qed.
Lemma comp_sent_join loc lA lB a t1 t2 : both loc lA lB -> is_action s a -> sent A lA a t1 -> sent B lB a t2 ->
  exists t, offered dim s loc a t /\ exists u1 u2, u1 = t1 /\ u2 = t2 /\ joint dim LComp u1 u2 t.
Proof.
  intros (HA & HB & Pl & Pr & _) Ha [[IA (_ & tl & El & Hx)]|[IA ->]] [[IB (_ & tr & Er & Hy)]|[IB ->]].
  - destruct (comp_steps_both dim A B s loc lA lB a tl tr E Pl Pr IA IB El Er) as (ts' & E' & C & _).
    destruct (C (t1, t2)) as (t & Ht & J); [apply in_prod_iff; auto|]. exists t. split; [split; eauto|]. exists t1, t2. auto.
  - destruct (comp_steps_left dim A B s loc lA lB a tl E Pl Pr IA IB El) as (ts' & E' & C & _).
    destruct (C t1 Hx) as (t & Ht & J). exists t. split; [split; eauto|]. exists t1, (t_without_id lB). split; [reflexivity|]. split; [reflexivity|apply left_joint, J].
  - destruct (comp_steps_right dim A B s loc lA lB a tr E Pl Pr IA IB Er) as (ts' & E' & C & _).
    destruct (C t2 Hy) as (t & Ht & J). exists t. split; [split; eauto|]. exists (t_without_id lA), t2. split; [reflexivity|]. split; [reflexivity|apply right_joint, J].
  - apply (proj1 (proj2 (proj2 (comp_alphabet a)))) in Ha. tauto.
Qed.

Lemma comp_can loc lA lB v a loc' v' : both loc lA lB -> can dim s loc v a loc' v' ->
  exists lA' lB' vA vB, part A lA v a lA' vA /\ part B lB v a lB' vB /\ both loc' lA' lB' /\ like dim A v' vA /\ like dim B v' vB.
Proof.
  intros Hb (t & O & Ab & -> & ->). destruct (comp_sent loc lA lB a t Hb O) as (t1 & t2 & O1 & O2 & J).
  destruct (sent_dep A lA a t1 GA (proj1 Hb) O1) as (F1 & T1 & H1). destruct (sent_dep B lB a t2 GB (proj1 (proj2 Hb)) O2) as (F2 & T2 & H2).
  destruct (joint_can LComp loc lA lB t1 t2 t Hb F1 F2 T1 T2 H1 H2 J) as [Hb' X]. destruct (X v (inv_at_ok _ _ _ (proj1 Ab))) as (Y & L1 & L2).
  apply Y in Ab. exists (t_target t1), (t_target t2), (run_updates (t_updates t1) v), (run_updates (t_updates t2) v).
  split; [apply sent_part; tauto|]. split; [apply sent_part; tauto|]. auto.
Qed.
Lemma comp_can_join loc lA lB v a lA' lB' vA vB : both loc lA lB -> is_action s a -> part A lA v a lA' vA -> part B lB v a lB' vB ->
  exists loc' v', can dim s loc v a loc' v' /\ both loc' lA' lB' /\ like dim A v' vA /\ like dim B v' vB.
Proof.
  intros Hb Ha P1 P2. destruct (part_sent _ _ _ _ _ _ P1) as (t1 & O1 & A1 & -> & ->). destruct (part_sent _ _ _ _ _ _ P2) as (t2 & O2 & A2 & -> & ->).
  destruct (comp_sent_join loc lA lB a t1 t2 Hb Ha O1 O2) as (t & O & u1 & u2 & -> & -> & J).
  destruct (sent_dep A lA a t1 GA (proj1 Hb) O1) as (F1 & T1 & H1). destruct (sent_dep B lB a t2 GB (proj1 (proj2 Hb)) O2) as (F2 & T2 & H2).
  destruct (joint_can LComp loc lA lB t1 t2 t Hb F1 F2 T1 T2 H1 H2 J) as [Hb' X]. destruct (X v (inv_at_ok _ _ _ (proj1 A1))) as (Y & L1 & L2).
  exists (t_target t), (run_updates (t_updates t) v). split; [exists t; tauto|]. auto.
Qed.
End Comp.
End Product.

Lemma part_like x l v w a l' v' : good dim x -> In l (all_locations dim x) -> like dim x v w -> part x l v a l' v' ->
  exists w', part x l w a l' w' /\ like dim x v' w'.
Proof.
  intros G Hl L [[Ha C]|(Ha & -> & -> & I)].
  - destruct (can_like x l v w a l' v' G Hl L C) as (w' & C' & L'). exists w'. split; [left; auto|exact L'].
  - exists w. split; [right; split; [exact Ha|]; split; [reflexivity|]; split; [reflexivity|apply (inv_like x l v w G Hl L I)]|exact L].
Qed.
Lemma part_reach x l v a l' v' : reachable dim x l v -> part x l v a l' v' -> reachable dim x l' v'.
Proof. intros Rc [[Ha C]|(Ha & -> & -> & I)]; [eapply can_reach; eauto|exact Rc]. Qed.
End Laws.
