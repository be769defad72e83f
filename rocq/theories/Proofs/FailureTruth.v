(** What is reported is true of the system. *)
From Coq Require Import List String ZArith QArith Bool Arith Lia Lqa.
From Verif Require Import Fed.Zone Fed.ZoneFacts Model.Base Model.Expr Model.Guard Model.Loc Model.Component Model.TS Model.Search Model.PairList Model.Refine Model.Wire Model.Failure
  Spec.StepSpec Spec.SystemSpec Spec.RunSpec Spec.RefineSpec Spec.ReduceSpec Spec.EnableSpec Spec.PruneSpec Spec.ConsistencySpec Spec.WireSpec Spec.FailureSpec
  Proofs.GuardFacts Proofs.StepFacts Proofs.SystemFacts Proofs.WfFacts Proofs.DetFacts Proofs.DetFail Proofs.RunFacts Proofs.ReadsFacts Proofs.ReachFacts Proofs.RefineFacts Proofs.ConsistentFacts
  Proofs.WireFacts Proofs.WireStep Proofs.FailureFacts Proofs.LinkFacts Spec.BoundSpec Spec.ConsistencySpec Spec.FailureSpec.
Import ListNotations.
Local Open Scope Q_scope.

Lemma name_text s : ts_name s = system_text s.
Proof. induction s; cbn; congruence. Qed.

(** ** States as they are written *)
Lemma tree_written s : forall l x p, shows_location s l x -> loc_to_proto x = Ok p -> tree_shown s l p.
Proof.
  induction s as [c|l IHl r IHr i o|l IHl r IHr i o lo ro co|t IHt d IHd i o n q]; intros loc x p S E; cbn [shows_location tree_shown] in *.
  - destruct S as (n & En & ->). injection E as <-. exists n. auto.
  - destruct S as (a & b & y & z & La & Lb & Sa & Sb & ->). cbn [loc_to_proto] in E. inv_bind E. inv_bind E. injection E as <-. exists a, b. eauto 10.
  - destruct S as (a & b & y & z & La & Lb & Sa & Sb & ->). cbn [loc_to_proto] in E. inv_bind E. inv_bind E. injection E as <-. exists a, b. eauto 10.
  - destruct S as [[-> ->]|[[-> ->]|(a & b & y & z & La & Lb & Sa & Sb & ->)]]; cbn [loc_to_proto] in E.
    + injection E as <-. auto.
    + injection E as <-. auto.
    + inv_bind E. inv_bind E. injection E as <-. right; right. exists a, b. eauto 10.
Qed.

Section Written.
Variables (dim : nat) (cord : list (string * nat) -> list (string * nat)) (cs : list ccomp).
Hypothesis H32 : fits_u32 dim.
Hypothesis Hcord : same_elements cord.

Definition cmap : list (nat * (string * spec_comp)) := flat_map (fun c => map (fun p => (snd p, (fst p, comp_of c))) (cord (d_clocks (cc_decls c)))) cs.
Lemma cmap_in x n c : In (x, (n, c)) cmap <-> exists i, In i cs /\ c = mkSC (cc_name i) (cc_id i) /\ In (n, x) (d_clocks (cc_decls i)).
Proof.
  unfold cmap. rewrite in_flat_map. split.
  - intros (i & Hi & H). apply in_map_iff in H. destruct H as ([n' x'] & E & H). cbn in E. injection E as -> -> <-. rewrite (Hcord _ _) in H. exists i. unfold comp_of. auto.
  - intros (i & Hi & -> & H). exists i. split; [exact Hi|]. apply in_map_iff. exists (n, x). split; [reflexivity|]. rewrite (Hcord _ _). exact H.
Qed.
Lemma clock_written x : (x < dim)%nat -> exists p, clock_to_proto (map_clock cmap x) = Ok p /\ clock_means cs x (Some p).
Proof.
  intros Hx. unfold map_clock. destruct (Nat.eqb_spec x 0) as [->|N]; [exists PCZero; split; reflexivity|].
  destruct (last_entry x cmap) as [[n c]|] eqn:E.
  - apply last_entry_in in E. apply cmap_in in E. destruct E as (i & Hi & -> & Hn). eexists. split; [reflexivity|]. cbn. exists i. auto.
  - exists (PCSystem x). split; [cbn; unfold fits_u32 in H32; destruct (Z.ltb_spec (Z.of_nat x) 4294967296); [reflexivity|lia]|]. split; [reflexivity|].
    intros c n Hc Hn. apply (last_entry_none _ _ E (n, mkSC (cc_name c) (cc_id c))). apply cmap_in. eauto.
Qed.
Lemma con_written c : (ci c < dim)%nat -> (cj c < dim)%nat -> exists k, con_to_proto (specific_con cmap c) = Ok k /\ con_means cs c k.
Proof.
  intros Hi Hj. destruct (clock_written _ Hi) as (p & P1 & P2). destruct (clock_written _ Hj) as (r & R1 & R2).
  unfold con_to_proto, specific_con. cbn [sk_i sk_j sk_strict sk_c]. rewrite P1, R1. cbn [bind]. eexists. split; [reflexivity|]. split; [exact P2|]. split; [exact R2|]. split; reflexivity.
Qed.
Lemma mapM_written {A B C} (h : A -> B) (f : B -> res C) (R : A -> C -> Prop) l : (forall a, In a l -> exists b, f (h a) = Ok b /\ R a b) ->
  exists bs, mapM f (map h l) = Ok bs /\ Forall2 R l bs.
Proof.
  induction l as [|a l IH]; intros H; [exists []; split; [reflexivity|constructor]|]. destruct (H a (or_introl eq_refl)) as (b & E & Rb).
  destruct IH as (bs & F & Rs); [intros; apply H; right; assumption|]. exists (b :: bs). cbn. rewrite E, F. split; [reflexivity|constructor; assumption].
Qed.
Lemma zone_written f : (forall z c, In z f -> In c z -> (ci c < dim)%nat /\ (cj c < dim)%nat) ->
  exists z, zone_to_proto (map (map (specific_con cmap)) f) = Ok z /\ Forall2 (Forall2 (con_means cs)) f z.
Proof.
  intros H. apply (mapM_written (map (specific_con cmap)) (mapM con_to_proto) (Forall2 (con_means cs))). intros z Hz. apply mapM_written. intros c Hc. destruct (H z c Hz Hc). apply con_written; assumption.
Qed.
End Written.

Lemma clock_comp_cmap cord s : clock_comp_map cord s = cmap cord (instances s).
Proof. unfold clock_comp_map, cmap. rewrite iter_instances. reflexivity. Qed.
Lemma cmap_app cord a b : cmap cord (a ++ b) = (cmap cord a ++ cmap cord b)%list.
Proof. unfold cmap. apply flat_map_app. Qed.

Section States.
Variables (dim : nat) (minc : fed -> fed) (cord : list (string * nat) -> list (string * nat)).
Hypothesis Hminc : describes dim minc.
Hypothesis H32 : fits_u32 dim.
Hypothesis Hcord : same_elements cord.

Lemma state_written s st : built dim s -> In (s_loc st) (all_locations dim s) -> only_clocks dim (s_zone st) ->
  exists x p, specific_state minc cord s st = Ok x /\ state_to_proto x = Ok p /\ state_shown dim s st p.
Proof.
  intros B Hl O. destruct (location_round dim s B _ Hl) as (x & t & X1 & X2 & X3 & _). destruct (Hminc (s_zone st) O) as [M1 M2].
  destruct (zone_written dim cord (instances s) H32 Hcord (minc (s_zone st))) as (z & Z1 & Z2).
  { intros w c Hw Hc. destruct (M2 w c Hw Hc) as (A & C & _). auto. }
  eexists _, _. split; [unfold specific_state; rewrite X1; reflexivity|]. split; [unfold state_to_proto; cbn [ss_loc ss_zone]; rewrite X3, clock_comp_cmap, Z1; reflexivity|].
  exists t, z. split; [reflexivity|]. split; [eapply tree_written; eauto|]. exists (minc (s_zone st)). split; [exact Z2|exact M1].
Qed.
Lemma pair_written s1 s2 p : built dim s1 -> built dim s2 -> in_range dim s1 s2 p -> only_clocks dim (p_zone p) ->
  exists x y, specific_pair minc cord s1 s2 p = Ok x /\ state_to_proto x = Ok y /\ pair_shown dim s1 s2 p y.
Proof.
  intros B1 B2 [L1 L2] O. destruct (location_round dim s1 B1 _ L1) as (x & t & X1 & X2 & X3 & _). destruct (location_round dim s2 B2 _ L2) as (y & u & Y1 & Y2 & Y3 & _).
  destruct (Hminc (p_zone p) O) as [M1 M2]. destruct (zone_written dim cord (instances s1 ++ instances s2) H32 Hcord (minc (p_zone p))) as (z & Z1 & Z2).
  { intros w c Hw Hc. destruct (M2 w c Hw Hc) as (A & C & _). auto. }
  eexists _, _. split; [unfold specific_pair; rewrite X1, Y1; reflexivity|]. split.
  - unfold state_to_proto. cbn [ss_loc ss_zone loc_to_proto]. rewrite X3, Y3, !clock_comp_cmap, <- cmap_app, Z1. reflexivity.
  - exists t, u, z. split; [reflexivity|]. split; [eapply tree_written; eauto|]. split; [eapply tree_written; eauto|]. exists (minc (p_zone p)). split; [exact Z2|exact M1].
Qed.
End States.

(** ** Symbolic states *)
Lemma leads_same acc dim s P l0 Z x y : leads acc dim s P l0 Z x -> s_loc y = s_loc x -> renders acc dim s (s_loc x) (fsem dim (s_zone x)) (fsem dim (s_zone y)) -> leads acc dim s P l0 Z y.
Proof.
  intros [x0 El Ez|x0 a t x1 L Pa O Po [Al Az]] Sl Sz.
  - apply ld_start; [congruence|]. rewrite El in Sz. eapply renders_trans; eassumption.
  - eapply ld_step; [exact L|exact Pa|exact O|exact Po|]. split; [congruence|]. rewrite Sl. eapply renders_trans; eassumption.
Qed.
Lemma leads_trans acc dim s P l0 Z x y : leads acc dim s P l0 Z x -> leads acc dim s P (s_loc x) (fsem dim (s_zone x)) y -> leads acc dim s P l0 Z y.
Proof.
  intros L. induction 1 as [y El Ez|y a t z L' IH Pa O Po A]; [eapply leads_same; [exact L|exact El|exact Ez]|]. eapply ld_step; eauto.
Qed.
Lemma leads_here acc dim s P x : leads acc dim s P (s_loc x) (fsem dim (s_zone x)) x.
Proof. apply ld_start; [reflexivity|]. apply renders_iff. reflexivity. Qed.

Section Accurate.
Variables (acc : accuracy) (dim q : nat) (ext : ts -> loctree -> fed -> fed) (ord : list state -> list string -> list string) (s : ts).
Hypothesis Hacc : accurate acc dim ext s.
Hypothesis Hord : forall p l a, In a (ord p l) <-> In a l.
Hypothesis K : clocks_ok dim q s.
Hypothesis Hbuilt : built dim s.
Hypothesis Hreads : reads_ok s.
Hypothesis Hdim : forall x, In x (sys_clocks s) -> (x < dim)%nat.

Definition wellput (st : state) : Prop := In (s_loc st) (all_locations dim s) /\ only_clocks dim (s_zone st).
Lemma only_moves x a t : wellput x -> offered dim s (s_loc x) a t -> forall f, (forall v, fsem dim f v <-> moves dim x t v) -> only_clocks dim f.
Proof.
  intros [Hl O] Ho f Ez. destruct (offered_dep dim q s _ _ _ Hbuilt Hreads K Hl Ho) as ((Hu & Hc) & Ht & _ & Dg & _).
  apply (next_only dim s Hbuilt Hreads Hdim (fun v => fsem dim (s_zone x) v /\ fsem dim (t_guard t) v) _ (t_updates t) (t_target t) Hu Ht).
  - intros v w Hv Hw A [H1 H2]. split; [apply (O v w); assumption|apply (pdep_only dim s Hdim _ Dg v w); assumption].
  - intros v [H _]. eapply fsem_ok; eauto.
  - intros w. rewrite Ez. split.
    + intros (v & e & H1 & H2 & H3). exists v, e. tauto.
    + intros (v & e & [H1 H2] & H3). exists v, e. tauto.
Qed.
Lemma step_after x a t ns : wellput x -> offered dim s (s_loc x) a t -> use_transition dim t x = (true, ns) ->
  possible dim x t /\ after acc dim s x t (extrapolate ext s ns) /\ wellput (extrapolate ext s ns).
Proof.
  intros Wx O E. destruct (offered_fine dim s q K _ _ _ O) as [U _]. destruct (use_transition_zone dim t x true ns U E) as (El & Ep & Ez).
  destruct (offered_dep dim q s _ _ _ Hbuilt Hreads K (proj1 Wx) O) as (_ & Ht & _). specialize (El eq_refl). specialize (Ez eq_refl). rewrite <- El in Ht.
  destruct (accurate_renders acc dim q ext s (s_loc ns) (s_zone ns) Hbuilt K Hdim Hacc Ht) as [R Oc].
  split; [apply Ep; reflexivity|]. split; [split; [exact El|]|split; [exact Ht|]]; cbn [extrapolate s_zone s_loc].
  - eapply renders_from; [exact Ez|exact R].
  - apply Oc. eapply only_moves; [exact Wx|exact O|exact Ez].
Qed.
Lemma step_not x a t ns : offered dim s (s_loc x) a t -> use_transition dim t x = (false, ns) -> ~ possible dim x t.
Proof.
  intros O E P. destruct (offered_fine dim s q K _ _ _ O) as [U _]. destruct (use_transition_zone dim t x false ns U E) as (_ & Ep & _). apply Ep in P. discriminate.
Qed.

Lemma det_leads : forall fuel st p e p', wellput st -> det_helper dim ext ord fuel s st p = Ok (Some e, p') ->
  leads acc dim s (is_action s) (s_loc st) (fsem dim (s_zone st)) (snd e) /\ wellput (snd e).
Proof.
  induction fuel as [|f IH]; intros st p e p' Ws E; cbn [det_helper] in E; [discriminate|]. destruct (state_in_list dim st p); [discriminate|].
  inv_bind E. destruct a as [pf|r]; [discriminate|]. injection E as ->. apply loop_ended in H. destruct H as (a & q0 & Ha & H). apply Hord in Ha.
  unfold det_action in H. inv_bind H. rename H0 into Ets. inv_bind H. destruct a1 as [[? ?]|r]; [discriminate|]. injection H as ->.
  apply loop_ended in H0. destruct H0 as (t & [q1 lf] & Ht & H). unfold det_body in H. destruct (use_transition dim t st) as [ok ns] eqn:Eu.
  destruct ok; [|discriminate]. destruct (fmeets _ _ _); [injection H as <- _; split; [apply leads_here|exact Ws]|].
  inv_bind H. destruct a1 as [r p1]. destruct r as [e1|]; [|discriminate]. injection H as -> ->.
  assert (O : offered dim s (s_loc st) a t).
  { split; [apply has_action_spec; unfold has_action; apply sin_In; exact Ha|eauto]. }
  destruct (step_after _ _ _ _ Ws O Eu) as (Po & Af & Wn). destruct (IH _ _ _ _ Wn H0) as [L We]. split; [|exact We]. eapply leads_trans; [|exact L].
  eapply ld_step; [apply leads_here|apply O|exact O|exact Po|exact Af].
Qed.

Variables (minc : fed -> fed) (cord : list (string * nat) -> list (string * nat)).

Lemma no_wait x : fcan_delay dim (s_zone x) = false -> ~ can_wait dim x.
Proof.
  intros F (v & H). assert (V : val_ok dim v).
  { pose proof (fsem_ok _ _ _ (H 0 ltac:(lra))) as W. eapply val_ok_ext; [|exact W]. apply vdelay_zero. reflexivity. }
  destruct (cannot_stay dim _ v F V) as (D & P & N). apply N, H, P.
Qed.

Lemma least_true : forall fuel st p r f, wellput st -> least_report dim ext ord minc cord fuel s st p = Ok r -> fst r = Some f ->
  doomed acc dim s st /\ exists y x, leads acc dim s (is_input s) (s_loc st) (fsem dim (s_zone st)) y /\ wellput y /\ (is_inconsistent (s_loc y) = true \/ stuck acc dim s y) /\
    specific_state minc cord s y = Ok x /\ (f = InconsistentLoc (ts_name s) x \/ f = InconsistentFrom (ts_name s) x).
Proof.
  induction fuel as [|n IH]; intros st p r f Ws E Ef; cbn [least_report] in E; [discriminate|].
  destruct (state_in_list dim st p); [injection E as <-; discriminate|]. destruct (is_universal (s_loc st)); [injection E as <-; discriminate|].
  assert (Here : leads acc dim s (is_input s) (s_loc st) (fsem dim (s_zone st)) st) by apply leads_here.
  destruct (is_inconsistent (s_loc st)) eqn:Ei.
  { inv_bind E. injection E as <-. cbn in Ef. injection Ef as <-. split; [apply dm_here; exact Ei|]. exists st, a. auto 7. }
  inv_bind E. destruct a as [p1|r1].
  2:{ injection E as ->. apply loop_ended in H. destruct H as (a & p1 & Ha & H). apply Hord in Ha. unfold each_transition in H. inv_bind H. apply loop_ended in H. destruct H as (t & p2 & Ht & H).
      assert (O : offered dim s (s_loc st) a t) by (split; [left; exact Ha|eauto]).
      unfold input_report in H. destruct (use_transition dim t st) as [ok ns] eqn:Eu. destruct ok; [|discriminate]. inv_bind H. destruct a1 as [r1 p3]. destruct r1 as [g|]; [|discriminate].
      injection H as <-. cbn in Ef. injection Ef as ->. destruct (step_after _ _ _ _ Ws O Eu) as (Po & Af & Wn). destruct (IH _ _ _ _ Wn H1 eq_refl) as (D & y & x & L & C & S & F).
      split; [exact (dm_input _ _ _ _ _ _ _ Ha O Po Af D)|]. exists y, x. split; [|auto]. eapply leads_trans; [|exact L]. exact (ld_step _ _ _ _ _ _ _ _ _ _ Here Ha O Po Af). }
  destruct (fcan_delay dim (s_zone st)) eqn:Ed; [injection E as <-; discriminate|]. inv_bind E. destruct a as [p2|r2].
  2:{ injection E as ->. apply loop_ended in H0. destruct H0 as (a & q1 & Ha & H0). unfold each_transition in H0. inv_bind H0. apply loop_ended in H0. destruct H0 as (t & q2 & Ht & H0).
      unfold output_report in H0. destruct (use_transition dim t st) as [ok ns]. destruct ok; [|discriminate]. inv_bind H0. destruct a1 as [r1 p3]. destruct r1 as [g|]; [discriminate|].
      injection H0 as <-. discriminate. }
  inv_bind E. injection E as <-. cbn in Ef. injection Ef as <-.
  assert (S : stuck acc dim s st).
  { split; [apply no_wait; exact Ed|]. intros b t Hb O Po. pose proof O as [_ (ts & Ets & Ht)].
    destruct (loop_through _ _ _ _ H0 b (proj2 (Hord _ _ _) Hb)) as (u & u' & Eb). unfold each_transition in Eb. rewrite Ets in Eb. cbn [bind] in Eb.
    destruct (loop_through _ _ _ _ Eb t Ht) as (w & w' & Et). unfold output_report in Et. destruct (use_transition dim t st) as [ok ns] eqn:Eu.
    destruct ok; [|exfalso; eapply step_not; eauto]. inv_bind Et. destruct a0 as [r1 p3]. destruct r1 as [g|]; [|discriminate].
    destruct (step_after _ _ _ _ Ws O Eu) as (_ & Af & Wn). destruct (IH _ _ _ _ Wn H2 eq_refl) as (D & _). eauto. }
  split; [apply dm_output; apply S|]. exists st, a. auto 7.
Qed.

(** ** Messages can be made *)
Hypothesis Hminc : describes dim minc.
Hypothesis H32 : fits_u32 dim.
Hypothesis Hcord : same_elements cord.

Lemma loop_back {A S R R'} (g : R -> R') (f : A -> S -> res (S + R)) (f' : A -> S -> res (S + R')) : forall l,
  (forall a s x, In a l -> f' a s = Ok x -> exists y, f a s = Ok y /\ end_map g y = x) -> forall s x, loopM f' l s = Ok x -> exists y, loopM f l s = Ok y /\ end_map g y = x.
Proof.
  induction l as [|a l IH]; intros H s0 x E; cbn [loopM] in *; [injection E as <-; exists (inl s0); split; reflexivity|]. inv_bind E.
  destruct (H a s0 _ (or_introl eq_refl) H0) as (y & -> & <-). cbn [bind]. destruct y as [s'|r]; cbn [end_map] in E.
  - apply IH; [intros; eapply H; [right; eassumption|assumption]|exact E].
  - injection E as <-. exists (inr r). split; reflexivity.
Qed.
Lemma least_total : forall fuel st p x, wellput st -> least_helper dim ext ord fuel s st p = Ok x -> exists r, least_report dim ext ord minc cord fuel s st p = Ok r /\ judged r = x.
Proof.
  induction fuel as [|n IH]; intros st p x P E; cbn [least_report least_helper] in *; [discriminate|].
  destruct (state_in_list dim st p); [injection E as <-; eexists; split; reflexivity|]. destruct (is_universal (s_loc st)); [injection E as <-; eexists; split; reflexivity|].
  destruct (state_written dim minc cord Hminc H32 Hcord s st Hbuilt (proj1 P) (proj2 P)) as (w & _ & W & _).
  destruct (is_inconsistent (s_loc st)); [injection E as <-; rewrite W; eexists; split; reflexivity|]. inv_bind E.
  assert (In_ : exists y, loopM (each_transition dim s (input_report dim ext s (least_report dim ext ord minc cord n s) st) st) (ord (p ++ [st]) (ts_inputs s)) (p ++ [st]) = Ok y /\ end_map judged y = a).
  { revert H. apply loop_back. intros b u y Hb. apply Hord in Hb. unfold each_transition. intros Ea. inv_bind Ea. rewrite H. cbn [bind]. revert Ea. apply loop_back. intros t v z Ht Et.
    assert (O : offered dim s (s_loc st) b t) by (split; [left; exact Hb|eauto]). unfold input_report, input_body in *. destruct (use_transition dim t st) as [ok ns] eqn:Eu.
    destruct ok; [|injection Et as <-; eexists; split; reflexivity]. inv_bind Et. destruct (step_after _ _ _ _ P O Eu) as (_ & _ & Wn).
    destruct (IH _ _ _ Wn H0) as (r & -> & <-). cbn [bind]. destruct r as [r0 p0]. cbn [judged fst snd] in *.
    destruct r0; injection Et as <-; eexists; split; reflexivity. }
  destruct In_ as (y & Ey & <-). rewrite Ey. cbn [bind]. destruct y as [p1|r1]; cbn [end_map] in E; [|injection E as <-; eexists; split; reflexivity].
  destruct (fcan_delay dim (s_zone st)); [injection E as <-; eexists; split; reflexivity|]. inv_bind E.
  assert (Out_ : exists y, loopM (each_transition dim s (output_report dim ext s (least_report dim ext ord minc cord n s) st) st) (ord p1 (ts_outputs s)) p1 = Ok y /\ end_map judged y = a).
  { revert H0. apply loop_back. intros b u y Hb. apply Hord in Hb. unfold each_transition. intros Ea. inv_bind Ea. rewrite H0. cbn [bind]. revert Ea. apply loop_back. intros t v z Ht Et.
    assert (O : offered dim s (s_loc st) b t) by (split; [right; exact Hb|eauto]). unfold output_report, output_body in *. destruct (use_transition dim t st) as [ok ns] eqn:Eu.
    destruct ok; [|injection Et as <-; eexists; split; reflexivity]. inv_bind Et. destruct (step_after _ _ _ _ P O Eu) as (_ & _ & Wn).
    destruct (IH _ _ _ Wn H1) as (r & -> & <-). cbn [bind]. destruct r as [r0 p0]. cbn [judged fst snd] in *.
    destruct r0; injection Et as <-; eexists; split; reflexivity. }
  destruct Out_ as (y & Ey2 & <-). rewrite Ey2. cbn [bind]. destruct y as [p2|r2]; cbn [end_map] in E; [|injection E as <-; eexists; split; reflexivity].
  injection E as <-. rewrite W. eexists. split; reflexivity.
Qed.

Lemma initial_spec st : initial_state dim s = Some st -> exists l0, initial_location dim s = Some l0 /\ s_loc st = l0 /\ forall v, fsem dim (s_zone st) v <-> at_start dim l0 v.
Proof.
  intros E. unfold initial_state in E. destruct (initial_location dim s) as [l0|] eqn:El; [|discriminate]. exists l0. split; [reflexivity|].
  assert (Fi : forall v, fsem dim (finit dim) v <-> exists d, 0 <= d /\ v 0%nat == 0 /\ forall i, i <> 0%nat -> (i < dim)%nat -> v i == d) by (intros v; apply finit_sem).
  assert (S' : forall st', state_from_location dim l0 = Some st' -> s_loc st' = l0 /\ forall v, fsem dim (s_zone st') v <-> at_start dim l0 v).
  { intros st' H. unfold state_from_location in H. destruct (fempty _ _); [discriminate|]. injection H as <-. cbn. split; [reflexivity|]. intros v. rewrite apply_inv_sem, Fi. reflexivity. }
  destruct s; try (apply S'; exact E). injection E as <-. cbn. split; [reflexivity|]. intros v.
  assert (Hn : lt_inv l0 = None). { cbn [initial_location] in El. destruct (initial_location dim _); [|discriminate]. destruct (initial_location dim _); [|discriminate]. injection El as <-. reflexivity. }
  unfold at_start, inv_at. rewrite Hn. rewrite Fi. split; [|tauto]. intros H. split; [exact H|]. apply Fi in H. eapply fsem_ok; eauto.
Qed.
Lemma initial_none l0 v : initial_state dim s = None -> initial_location dim s = Some l0 -> ~ at_start dim l0 v.
Proof.
  intros E El [Hd Hi]. unfold initial_state in E. rewrite El in E.
  assert (Z : fsem dim (apply_inv dim l0 (finit dim)) v) by (apply apply_inv_sem; split; [apply finit_sem; exact Hd|exact Hi]).
  assert (S' : state_from_location dim l0 = None -> False).
  { unfold state_from_location. intros H. destruct (fempty dim _) eqn:F; [|discriminate]. rewrite fempty_true in F. apply (F v Z). }
  destruct s; try (apply S'; exact E). discriminate.
Qed.
Lemma start_only l0 : initial_location dim s = Some l0 -> forall v w, val_ok dim v -> val_ok dim w -> (forall i, (i < dim)%nat -> v i == w i) -> at_start dim l0 v -> at_start dim l0 w.
Proof.
  intros El v w Hv Hw A [(d & Hd & H0 & H) Hi]. pose proof (initial_wf dim s Hbuilt l0 El) as Hl. split.
  - exists d. split; [exact Hd|]. split; [apply Hw|]. intros i Hi0 Hid. rewrite <- (A i Hid). apply H; assumption.
  - apply (pdep_only dim s Hdim _ (locations_dep dim s Hbuilt Hreads _ Hl) v w); assumption.
Qed.

Lemma start_put st : initial_state dim s = Some st -> exists l0, initial_location dim s = Some l0 /\ leads acc dim s (is_input s) l0 (at_start dim l0) (extrapolate ext s st) /\ wellput (extrapolate ext s st).
Proof.
  intros Es. destruct (initial_spec st Es) as (l0 & El & Sl & Sz). exists l0. split; [exact El|]. pose proof (initial_wf dim s Hbuilt l0 El) as Hl. rewrite <- Sl in Hl.
  destruct (accurate_renders acc dim q ext s (s_loc st) (s_zone st) Hbuilt K Hdim Hacc Hl) as [R Oc]. split; [|split; [exact Hl|]].
  - apply ld_start; [exact Sl|]. rewrite <- Sl at 1. eapply renders_from; [exact Sz|exact R].
  - apply Oc. intros v w Hv Hw A H. apply Sz. apply Sz in H. apply (start_only l0 El v w); assumption.
Qed.
Lemma consistent_true fuel f : consistent_report dim ext ord minc cord fuel s = Ok (Some f) -> exists m, cfail_to_proto f = Ok m /\ con_true acc dim s m.
Proof.
  unfold consistent_report. destruct (initial_state dim s) as [st|] eqn:Es; intros E.
  - inv_bind E. destruct a as [r p]. injection E as ->. destruct (start_put st Es) as (l0 & El & L0 & W0).
    destruct (least_true _ _ _ _ _ W0 H eq_refl) as (_ & y & x & L & [Pl Po] & C & S & F).
    pose proof (leads_trans _ _ _ _ _ _ _ _ L0 L) as L'.
    destruct (state_written dim minc cord Hminc H32 Hcord s y Hbuilt Pl Po) as (x' & m & S' & W & Sh). rewrite S in S'. injection S' as <-.
    exists (mkPCF (system_text s) (Some (PFailureState m))). rewrite <- name_text. split; [destruct F as [-> | ->]; cbn; rewrite W; reflexivity|].
    right. exists m, y, l0. rewrite name_text. auto 6.
  - injection E as <-. eexists. split; [reflexivity|]. left. rewrite name_text. split; [reflexivity|]. intros l0 v. apply initial_none. exact Es.
Qed.
Lemma consistent_total fuel b : is_least_consistent dim ext ord fuel s = Ok b -> exists r, consistent_report dim ext ord minc cord fuel s = Ok r /\ none r = b.
Proof.
  unfold consistent_report, is_least_consistent. destruct (initial_state dim s) as [st|] eqn:Es; intros E; [|injection E as <-; eexists; split; reflexivity].
  inv_bind E. destruct (start_put st Es) as (l0 & _ & _ & P). destruct a as [b0 p]. injection E as ->.
  destruct (least_total _ _ _ _ P H) as ([r p'] & -> & J). injection J as J _. exists r. split; [reflexivity|exact J].
Qed.

Lemma det_true_search fuel a st : det_search dim ext ord fuel s = Ok (Some (a, st)) ->
  exists f m, det_failure minc cord s a st = Ok f /\ detfail_to_proto f = Ok m /\ det_true acc dim s m.
Proof.
  intros E. destruct (det_search_fail dim ext ord Hord s q fuel a st K E) as (_ & Ha & C). unfold det_search in E. destruct (initial_state dim s) as [st0|] eqn:Es; [|discriminate].
  inv_bind E. destruct a0 as [r p]. injection E as ->. destruct (initial_spec st0 Es) as (l0 & El & Sl & _). pose proof (initial_wf dim s Hbuilt l0 El) as Hl.
  assert (W0 : wellput (mkS (s_loc st0) funiv)) by (split; [rewrite Sl; exact Hl|intros v w _ Hw _ _; apply funiv_sem; exact Hw]).
  destruct (det_leads _ _ _ _ _ W0 H) as [L [Pl Po]]. cbn [s_loc s_zone snd] in L. rewrite Sl in L.
  assert (L' : leads acc dim s (is_action s) l0 (val_ok dim) st).
  { eapply (leads_trans _ _ _ _ _ _ (mkS l0 funiv)); [apply ld_start; [reflexivity|]|exact L]. apply renders_iff. intros v. apply funiv_sem. }
  destruct (state_written dim minc cord Hminc H32 Hcord s st Hbuilt Pl Po) as (x & m & S & W & Sh).
  eexists _, _. split; [unfold det_failure; rewrite S; reflexivity|]. split; [unfold detfail_to_proto, state_action_to_proto; cbn [df_state df_action df_system]; rewrite W; reflexivity|].
  exists m, a, st, l0. rewrite name_text. auto 8.
Qed.
End Accurate.

(** ** Systems and their parts *)
Lemma part_fine dim q s : built dim s -> clocks_ok dim q s -> reads_ok s -> (forall x, In x (sys_clocks s) -> (x < dim)%nat) ->
  forall c, part_of c s -> built dim c /\ clocks_ok dim q c /\ reads_ok c /\ (forall x, In x (sys_clocks c) -> (x < dim)%nat).
Proof.
  intros B. induction B as [c0 ins outs id cc E|l r s Hl IHl Hr IHr E|l r s Hl IHl Hr IHr E|T S q' s HT IHT HS IHS E]; intros Kc Rd Dm c P.
  - cbn [part_of] in P. subst c. split; [econstructor; exact E|]. auto.
  - apply conjunction_new_inv in E. destruct E as (-> & _). cbn [part_of clocks_ok reads_ok sys_clocks] in *. destruct Kc as (K1 & K2 & _), Rd as [R1 R2].
    destruct P as [P|P]; [apply IHl|apply IHr]; auto; intros y Hy; apply Dm, in_or_app; auto.
  - apply composition_new_inv in E. destruct E as (_ & ? & ? & ? & ? & ? & -> & _). cbn [part_of clocks_ok reads_ok sys_clocks] in *. destruct Kc as (K1 & K2 & _), Rd as [R1 R2].
    destruct P as [P|P]; [apply IHl|apply IHr]; auto; intros y Hy; apply Dm, in_or_app; auto.
  - apply quotient_new_inv in E. destruct E as (? & ? & ? & -> & _). cbn [part_of clocks_ok reads_ok sys_clocks] in *. destruct Kc as (K1 & K2 & _), Rd as [R1 R2].
    destruct P as [P|P]; [apply IHT|apply IHS]; auto; intros y Hy; apply Dm; right; apply in_or_app; auto.
Qed.
