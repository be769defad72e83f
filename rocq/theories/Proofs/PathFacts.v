(** The path in the reply to a reachability query. *)
From Coq Require Import List String ZArith QArith Bool Arith Lia Lqa.
From Verif Require Import Fed.Zone Fed.ZoneFacts Model.Base Model.Expr Model.Guard Model.Loc Model.Component Model.TS Model.Search Model.PairList Model.Refine Model.ParseQuery Model.Recipe Model.Query Model.Wire Model.Failure
  Spec.StepSpec Spec.SystemSpec Spec.RunSpec Spec.ReachSpec Spec.RefineSpec Spec.ReduceSpec Spec.EnableSpec Spec.PruneSpec Spec.StateSpec Spec.SimSpec Spec.WireSpec Spec.FailureSpec Spec.PathSpec
  Proofs.GuardFacts Proofs.StepFacts Proofs.SystemFacts Proofs.WfFacts Proofs.RunFacts Proofs.ReadsFacts Proofs.ReachFacts Proofs.SimFacts
  Proofs.WireFacts Proofs.WireStep Proofs.FailureFacts Proofs.FailureTruth Proofs.StateFacts Proofs.EnableFacts.
Import ListNotations.
Local Open Scope list_scope.
Local Open Scope Q_scope.

(** ** States of queries only speak about clocks of the system *)
Section Holds.
Variables (dim : nat) (r : recipe).
Hypothesis Hclocks : forall c n i, In c (components r) -> In (n, i) (d_clocks (c_decls c)) -> (i < dim)%nat.
Lemma operand_only v w o a : (forall i, (i < dim)%nat -> v i == w i) -> operand_val (components r) v o a -> exists b, operand_val (components r) w o b /\ a == b.
Proof.
  intros A. induction 1 as [k|x c i Hc Hn Hi|l r' a b H1 (a' & I1 & E1) H2 (b' & I2 & E2)|l r' a b H1 (a' & I1 & E1) H2 (b' & I2 & E2)].
  - eexists. split; [constructor|reflexivity].
  - eexists. split; [econstructor; eassumption|]. apply A. apply (Hclocks c (v_name x)); [exact Hc|]. apply EnableFacts.assoc_In. exact Hi.
  - eexists. split; [constructor; eassumption|]. rewrite E1, E2. reflexivity.
  - eexists. split; [constructor; eassumption|]. rewrite E1, E2. reflexivity.
Qed.
Lemma rel_same o a b a' b' : a == a' -> b == b' -> rel_holds o a b -> rel_holds o a' b'.
Proof. intros E1 E2. destruct o; cbn; rewrite <- ?E1, <- ?E2; auto. Qed.
Lemma holds_only e : forall i v w, (forall i, (i < dim)%nat -> v i == w i) -> holds r i v e -> holds r i w e.
Proof.
  induction e as [o l r'|l IH|l IH|y|e IH|c] using stx_ind2; intros i v w A; cbn [holds]; auto.
  - intros (a & b & H1 & H2 & H3). destruct (operand_only v w _ _ A H1) as (a' & H1' & E1). destruct (operand_only v w _ _ A H2) as (b' & H2' & E2). exists a', b'. split; [exact H1'|]. split; [exact H2'|]. eapply rel_same; eassumption.
  - induction IH as [|x l Hx _ IHl]; cbn [fold_right]; [auto|]. intros [H1 H2]. split; [eapply Hx; eassumption|exact (IHl H2)].
  - induction IH as [|x l Hx _ IHl]; cbn [fold_right]; [auto|]. intros [H|H]; [left; eapply Hx; eassumption|right; exact (IHl H)].
  - intros N H. apply N. apply (IH i w v); [intros j Hj; symmetry; apply A; exact Hj|exact H].
Qed.
End Holds.

(** ** Paths *)
Section Paths.
Variables (dim q : nat) (s : ts).
Hypothesis Hbuilt : built dim s.
Hypothesis Hclocks : clocks_ok dim q s.

(** Decisions depend on what zones mean. *)
Lemma decision_same x y d : same_state dim x y -> decision_for dim s x d -> decision_for dim s y d.
Proof.
  intros [El Ez] (Ho & Es & Zs & Ne & En & Zn). split; [rewrite <- El; exact Ho|]. split; [rewrite <- El; exact Es|]. split; [|auto]. intros v. rewrite (Zs v), (Ez v). reflexivity.
Qed.
Lemma steps_same ds x y : same_state dim x y -> steps_from dim s x ds -> steps_from dim s y ds.
Proof. destruct ds as [|d ds]; [auto|]. intros E [H1 H2]. split; [eapply decision_same; eassumption|exact H2]. Qed.

Lemma path_steps steps : upper_invariants dim s -> forall st l' ds, In (s_loc st) (all_locations dim s) -> locs dim s (s_loc st) steps l' -> decisions dim st steps = Ok ds -> steps_from dim s st ds.
Proof.
  intros Up. induction steps as [|[t a] rest IH]; intros st l' ds Hl L E; cbn [decisions] in E; [injection E as <-; exact I|].
  destruct L as [Ho L]. destruct (offered_fine dim s q Hclocks _ _ _ Ho) as [Hu Hn]. pose proof (offered_loc dim s Hbuilt _ _ _ Hl Ho) as Ht.
  inv_bind E. inv_bind E. destruct a0 as [d|]; [|discriminate]. injection H0 as <-. inv_bind E. injection E as <-. rename a0 into rs.
  destruct (decision_of dim s q Hclocks st a t Hl Ho) as (o & Eo & Po). rewrite H in Eo. injection Eo as <-. destruct Po as (Df & Ea & Et).
  destruct (from_state_some dim _ _ _ _ Hu Hn H) as (_ & _ & st1 & Eu). rewrite Eu in H0. cbn [snd] in H0. destruct (use_transition_zone dim t st true st1 Hu Eu) as (El & _ & Z). specialize (El eq_refl). specialize (Z eq_refl).
  cbn [steps_from]. split; [exact Df|]. apply (steps_same rs st1); [|eapply IH; [rewrite El; exact Ht|rewrite El; exact L|exact H0]].
  destruct Df as (_ & _ & Zs & _ & En & Zn). rewrite Et in *. split; [rewrite El, En; reflexivity|]. intros w. rewrite (Z w), (Zn w). split.
  - intros (v & e & Hv & G & He & Ev & Iv). exists v, e. split; [|auto]. apply Zs. split; [exact Hv|]. exists (run_updates (t_updates t) v). split; [exact G|]. split; [intros i; reflexivity|].
    apply (Up (t_target t) Ht) with (d := e); [apply run_updates_ok; [exact Hu|eapply fsem_ok; exact Hv]|exact He|]. eapply inv_at_ext; [exact Ev|exact Iv].
  - intros (v & e & Hv & He & Ev & Iv). apply Zs in Hv. destruct Hv as (Hv & v' & G & _). exists v, e. auto.
Qed.
Lemma found_steps xext fuel start target ds : upper_invariants dim s -> In (s_loc start) (all_locations dim s) -> find_path dim fuel s xext start target = Ok (Some ds) ->
  steps_from dim s (mkS (s_loc start) (apply_inv dim (s_loc start) (s_zone start))) ds.
Proof.
  intros Up Hl E. unfold find_path, find_listed in E. destruct (trivially_unreachable dim start target); [discriminate|].
  set (st := mkS (s_loc start) (apply_inv dim (s_loc start) (s_zone start))) in *. assert (F0 : Forall (sp_ok dim s xext st) [PStart st]) by (constructor; [exact (eq_refl st)|constructor]).
  destruct (search_some dim s xext target fuel st _ _ ds F0 E) as (sp & Hs & _ & Em). unfold make_path in Em.
  exact (path_steps _ Up st _ ds Hl (sp_locs dim s q xext Hclocks st sp Hs) Em).
Qed.

Hypothesis Hreads : reads_ok s.
Hypothesis Hdim : forall x, In x (sys_clocks s) -> (x < dim)%nat.
Variables (minc : fed -> fed) (cord : list (string * nat) -> list (string * nat)).
Hypothesis Hminc : describes dim minc.
Hypothesis H32 : fits_u32 dim.
Hypothesis Hcord : same_elements cord.

Lemma step_written d : proper_state dim s (d_state d) -> proper_state dim s (d_next d) -> WireFacts.fits s (t_id (d_trans d)) ->
  exists p, write_decision minc cord s d = Ok p /\ step_shown dim s d p.
Proof.
  intros (L1 & _ & O1) (L2 & _ & O2) F. destruct (fits_edges s _ F) as (es & Es).
  destruct (state_written dim minc cord Hminc H32 Hcord s _ Hbuilt L1 O1) as (x & px & A1 & A2 & A3). destruct (state_written dim minc cord Hminc H32 Hcord s _ Hbuilt L2 O2) as (y & py & B1 & B2 & B3).
  eexists. split; [unfold write_decision, specific_decision; rewrite Es, A1, B1; cbn [bind]; unfold decision_to_proto; cbn [sd_source sd_dest]; rewrite A2, B2; reflexivity|].
  split; [reflexivity|]. split; [|cbn [pd_source pd_dest]; split; eauto].
  intros e. cbn [pd_edges sd_edges]. rewrite in_map_iff. split.
  - intros (k & <- & Hk). apply (specific_edges_spec _ _ _ Es) in Hk. destruct Hk as (c & T & Ec). exists c. split; [exact T|]. unfold edge_to_proto. rewrite Ec. reflexivity.
  - intros (c & T & Ec). exists (mkSE (Wire.mkSC (cc_name c) (cc_id c)) (pe_id e)). split; [destruct e; cbn in *; subst; reflexivity|]. apply (specific_edges_spec _ _ _ Es). exists c. auto.
Qed.

(** Zones of paths only speak about clocks of the system. *)
Lemma path_proper steps : forall st l' ds, proper_state dim s st -> locs dim s (s_loc st) steps l' -> decisions dim st steps = Ok ds ->
  forall d, In d ds -> proper_state dim s (d_state d) /\ proper_state dim s (d_next d) /\ WireFacts.fits s (t_id (d_trans d)).
Proof.
  induction steps as [|[t a] rest IH]; intros st l' ds P L E; cbn [decisions] in E; [injection E as <-; intros d []|].
  destruct L as [Ho L]. destruct (offered_fine dim s q Hclocks _ _ _ Ho) as [Hu Hn]. pose proof P as (Hl & _). pose proof (offered_loc dim s Hbuilt _ _ _ Hl Ho) as Ht.
  inv_bind E. inv_bind E. destruct a0 as [d|]; [|discriminate]. injection H0 as <-. inv_bind E. injection E as <-. rename a0 into rs.
  destruct (decision_of dim s q Hclocks st a t Hl Ho) as (o & Eo & Po). rewrite H in Eo. injection Eo as <-. destruct Po as (Df & Ea & Et).
  destruct (from_state_some dim _ _ _ _ Hu Hn H) as (_ & _ & st1 & Eu). rewrite Eu in H0. cbn [snd] in H0.
  assert (P1 : proper_state dim s st1) by (apply (alt_proper dim q s Hbuilt Hclocks Hreads Hdim st a t st1 P Ho); unfold use_transition_alt; rewrite Eu; reflexivity).
  destruct (use_transition_zone dim t st true st1 Hu Eu) as (El & _). specialize (El eq_refl).
  intros d' [<-|Hd]; [|eapply IH; [exact P1|rewrite El; exact L|exact H0|exact Hd]].
  destruct (decision_proper dim q s Hbuilt Hclocks Hreads Hdim st d P Df) as [A B]. split; [exact A|]. split; [exact B|]. destruct Df as (Ho' & _). exact (offered_fits dim s Hbuilt _ _ _ Hl Ho').
Qed.
Lemma path_shown xext fuel start target ds : In (s_loc start) (all_locations dim s) -> only_clocks dim (s_zone start) -> find_path dim fuel s xext start target = Ok (Some ds) ->
  exists ps, mapM (write_decision minc cord s) ds = Ok ps /\ Forall2 (step_shown dim s) ds ps.
Proof.
  intros Hl O E. unfold find_path, find_listed in E. destruct (trivially_unreachable dim start target); [discriminate|].
  set (st := mkS (s_loc start) (apply_inv dim (s_loc start) (s_zone start))) in *. assert (F0 : Forall (sp_ok dim s xext st) [PStart st]) by (constructor; [exact (eq_refl st)|constructor]).
  destruct (search_some dim s xext target fuel st _ _ ds F0 E) as (sp & Hs & _ & Em). unfold make_path in Em.
  assert (P : proper_state dim s st).
  { split; [exact Hl|]. cbn [st s_loc s_zone]. split; [intros v Hv; apply apply_inv_sem in Hv; apply Hv|]. intros v w Hv Hw A H. apply apply_inv_sem in H. apply apply_inv_sem. destruct H as [H1 H2].
    split; [apply (O v w); assumption|]. pose proof (locations_dep dim s Hbuilt Hreads _ Hl) as Di. apply (pdep_only dim s Hdim _ Di v w); assumption. }
  pose proof (path_proper _ st _ ds P (sp_locs dim s q xext Hclocks st sp Hs) Em) as Q. clear - Q Hbuilt Hminc H32 Hcord.
  induction ds as [|d ds IH]; [exists []; split; [reflexivity|constructor]|]. destruct (Q d (or_introl eq_refl)) as (P1 & P2 & P3). destruct (step_written d P1 P2 P3) as (p & W & Sh).
  destruct IH as (ps & E & F); [intros d' Hd; apply Q; right; exact Hd|]. exists (p :: ps). cbn [mapM]. rewrite W, E. split; [reflexivity|constructor; assumption].
Qed.
End Paths.
