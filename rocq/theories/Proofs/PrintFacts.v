(** The texts of results. *)
From Coq Require Import List String ZArith QArith Bool Arith Lia.
From Verif Require Import Fed.Zone Fed.ZoneFacts Model.Base Model.Expr Model.Guard Model.Loc Model.Component Model.TS Model.Peg Model.Search Model.PairList Model.Refine Model.Wire Model.Failure Model.Print
  Spec.StepSpec Spec.SystemSpec Spec.RunSpec Spec.ReachSpec Spec.RefineSpec Spec.ReduceSpec Spec.EnableSpec Spec.PruneSpec Spec.ConsistencySpec Spec.WireSpec Spec.BoundSpec Spec.FailureSpec Spec.PrintSpec
  Proofs.GuardFacts Proofs.StepFacts Proofs.SystemFacts Proofs.WfFacts Proofs.DetFacts Proofs.DetFail Proofs.RunFacts Proofs.ReadsFacts Proofs.ReachFacts Proofs.RefineFacts Proofs.ConsistentFacts
  Proofs.WireFacts Proofs.WireStep Proofs.FailureFacts Proofs.FailureTruth Proofs.FailurePairs Proofs.LinkFacts.
Import ListNotations.
Local Open Scope string_scope.

(** ** Locations *)
Lemma shown_place s : forall l x, shows_location s l x -> loc_text x = Ok (place s l).
Proof.
  induction s as [c|l IHl r IHr i o|l IHl r IHr i o lo ro co|t IHt d IHd i o n q]; intros loc x S; cbn [shows_location place] in *.
  - destruct S as (n & En & ->). rewrite En. reflexivity.
  - destruct S as (a & b & y & z & La & Lb & Sa & Sb & ->). cbn [loc_text bind op_text]. rewrite (IHl _ _ Sa), (IHr _ _ Sb), La, Lb. reflexivity.
  - destruct S as (a & b & y & z & La & Lb & Sa & Sb & ->). cbn [loc_text bind op_text]. rewrite (IHl _ _ Sa), (IHr _ _ Sb), La, Lb. reflexivity.
  - destruct S as [[-> ->]|[[-> ->]|(a & b & y & z & La & Lb & Sa & Sb & ->)]]; [reflexivity|reflexivity|].
    cbn [loc_text bind op_text]. rewrite (IHt _ _ Sa), (IHd _ _ Sb). cbn [bind]. destruct loc as [i0 v0 k0|i0 v0 k0 l0 r0]; [discriminate La|]. cbn [lt_left lt_right] in *. injection La as ->. injection Lb as ->. reflexivity.
Qed.
(** The same for messages: what is written in the text is what is in the message. *)
Fixpoint ptext (p : ptree) : string :=
  let o (p : option ptree) := match p with Some p => ptext p | None => "" end in
  match p with
  | PLeaf n (Some c) => pc_name c ++ "." ++ n
  | PBin x y k => "(" ++ o x ++ (if Z.eqb k 0 then "&&" else if Z.eqb k 1 then "||" else if Z.eqb k 2 then "\\" else "<=") ++ o y ++ ")"
  | PSpecial k => if Z.eqb k 0 then "[Universal]" else "[Error]"
  | _ => ""
  end.
Lemma proto_text x : forall p, loc_to_proto x = Ok p -> loc_text x = Ok (ptext p).
Proof.
  induction x as [c n|a IHa b IHb op|k]; intros p E; cbn [loc_to_proto loc_text] in *.
  - injection E as <-. reflexivity.
  - inv_bind E. inv_bind E. inv_bind E. injection E as <-. rewrite (IHa _ H), (IHb _ H0). destruct op; try discriminate; injection H1 as <-; reflexivity.
  - injection E as <-. destruct k; reflexivity.
Qed.
Lemma tree_place s : forall l p, tree_shown s l p -> ptext p = place s l.
Proof.
  induction s as [c|l IHl r IHr i o|l IHl r IHr i o lo ro co|t IHt d IHd i o n q]; intros loc p S; cbn [tree_shown place] in *.
  - destruct S as (n & En & ->). rewrite En. reflexivity.
  - destruct S as (a & b & y & z & La & Lb & Sa & Sb & ->). cbn [ptext Z.eqb]. rewrite (IHl _ _ Sa), (IHr _ _ Sb), La, Lb. reflexivity.
  - destruct S as (a & b & y & z & La & Lb & Sa & Sb & ->). cbn [ptext Z.eqb]. rewrite (IHl _ _ Sa), (IHr _ _ Sb), La, Lb. reflexivity.
  - destruct S as [[-> ->]|[[-> ->]|(a & b & y & z & La & Lb & Sa & Sb & ->)]]; [reflexivity|reflexivity|].
    cbn [ptext Z.eqb]. rewrite (IHt _ _ Sa), (IHd _ _ Sb). destruct loc as [i0 v0 k0|i0 v0 k0 l0 r0]; [discriminate La|]. cbn [lt_left lt_right] in *. injection La as ->. injection Lb as ->. reflexivity.
Qed.
Lemma state_place dim s st x p : state_to_proto x = Ok p -> state_shown dim s st p -> state_text x = Ok ("(" ++ place s (s_loc st) ++ ")").
Proof.
  intros E (t & z & -> & T & _). unfold state_to_proto in E. inv_bind E. inv_bind E. injection E as <- <-. unfold state_text. rewrite (proto_text _ _ H), (tree_place _ _ _ T). reflexivity.
Qed.
Lemma sapp_assoc (a b c : string) : (a ++ b) ++ c = a ++ b ++ c.
Proof. induction a as [|x a IH]; [reflexivity|]. cbn. rewrite IH. reflexivity. Qed.
Lemma pair_place dim s1 s2 pr x p : state_to_proto x = Ok p -> pair_shown dim s1 s2 pr p -> state_text x = Ok ("((" ++ place s1 (p_l1 pr) ++ "<=" ++ place s2 (p_l2 pr) ++ "))").
Proof.
  intros E (t & u & z & -> & T & U & _). unfold state_to_proto in E. inv_bind E. inv_bind E. injection E as -> <-. unfold state_text. rewrite (proto_text _ _ H). cbn [ptext Z.eqb bind].
  change ((if Z.eqb 3 0 then "&&" else if Z.eqb 3 1 then "||" else if Z.eqb 3 2 then "\\" else "<=")%Z) with "<=".
  rewrite (tree_place _ _ _ T), (tree_place _ _ _ U). cbn [String.append]. rewrite !sapp_assoc. reflexivity.
Qed.

(** ** Actions *)
Lemma act_told c a : act_shown (is_input c) a (action_text a (sin a (ts_inputs c))).
Proof. unfold action_text. destruct (sin a (ts_inputs c)) eqn:E; [apply as_in; apply sin_In; exact E|apply as_out; intros H; apply sin_In in H; congruence]. Qed.
Lemma act_told_two s1 s2 a : act_shown (fun a => is_input s1 a \/ is_input s2 a) a (action_text a (sin a (ts_inputs s1) || sin a (ts_inputs s2))).
Proof.
  unfold action_text. destruct (sin a (ts_inputs s1)) eqn:E; cbn [orb]; [apply as_in; left; apply sin_In; exact E|]. destruct (sin a (ts_inputs s2)) eqn:E2; [apply as_in; right; apply sin_In; exact E2|].
  apply as_out. intros [H|H]; apply sin_In in H; congruence.
Qed.
Lemma same_set_spec a b : same_set a b = true <-> forall x, In x b <-> In x a.
Proof.
  unfold same_set. rewrite andb_true_iff, !forallb_forall. split.
  - intros [H1 H2] x. split; intros Hx; apply sin_In; auto.
  - intros H. split; intros x Hx; apply sin_In, H; exact Hx.
Qed.
Lemma set_told show s A : set_shown show s A (aset_text show (action_set s A)).
Proof.
  unfold aset_text, action_set. cbn [as_input as_actions as_system]. rewrite name_text. destruct (same_set (ts_inputs s) A) eqn:E.
  - apply ss_in. apply same_set_spec. exact E.
  - apply ss_out. intros H. apply same_set_spec in H. congruence.
Qed.

(** ** Failures of one system *)
Lemma det_text acc dim c f m : detfail_to_proto f = Ok m -> det_true acc dim c m -> df_input f = sin (df_action f) (ts_inputs c) -> exists t, detfail_text f = Ok t /\ fault acc dim c t.
Proof.
  unfold detfail_to_proto, state_action_to_proto. intros E (p & a & st & l0 & -> & Sh & Ha & El & L & ts & i & j & t & u & v & Et & Nij & Hi & Hj & At & Au) Fl. inv_bind E. inv_bind H. injection H as <-. injection E as Es -> Ea.
  unfold detfail_text. rewrite (state_place _ _ _ _ _ H0 Sh), Fl, Es, Ea. eexists. split; [reflexivity|]. rewrite !sapp_assoc. eapply ft_choice; try eassumption. apply act_told.
Qed.
Lemma con_text acc dim c f m : cfail_to_proto f = Ok m -> con_true acc dim c m -> exists t, cfail_text f = Ok t /\ fault acc dim c t.
Proof.
  intros E [[-> N]|(p & st & l0 & -> & Sh & El & L & S)].
  - destruct f; cbn [cfail_to_proto] in E; try (inv_bind E; discriminate). injection E as ->. eexists. split; [reflexivity|]. apply ft_start. exact N.
  - destruct f; cbn [cfail_to_proto] in E; try discriminate; inv_bind E; try discriminate; injection E as -> ->; cbn [cfail_text]; rewrite (state_place _ _ _ _ _ H Sh); eexists; (split; [reflexivity|]); rewrite ?sapp_assoc; eapply ft_state; eassumption.
Qed.

Section One.
Variables (acc : accuracy) (dim q : nat) (ext : ts -> loctree -> fed -> fed) (ord : list state -> list string -> list string) (minc : fed -> fed) (cord : list (string * nat) -> list (string * nat)).
Hypothesis Hext : explored acc dim ext.
Hypothesis Hord : forall p l a, In a (ord p l) <-> In a l.
Hypothesis Hminc : describes dim minc.
Hypothesis H32 : fits_u32 dim.
Hypothesis Hcord : same_elements cord.
Variable s : ts.
Hypothesis Hbuilt : built dim s.
Hypothesis K : clocks_ok dim q s.
Hypothesis Hreads : reads_ok s.
Hypothesis Hdim : forall x, In x (sys_clocks s) -> (x < dim)%nat.
Hypothesis Hmild : mild acc dim s.

Lemma determinism_told fuel f : determinism_report dim ext ord minc cord fuel s = Ok (Some f) -> exists c t, part_of c s /\ detfail_text f = Ok t /\ fault acc dim c t.
Proof.
  intros E. apply determinism_agrees in E. destruct E as (a & st & c & _ & P & D & F). destruct (part_fine dim q s Hbuilt K Hreads Hdim c P) as (Bc & Kc & Rc & Dc).
  destruct (det_true_search acc dim q ext ord c (mild_accurate _ _ _ _ Hext (mild_part acc dim s Hmild c P)) Hord Kc Bc Rc Dc minc cord Hminc H32 Hcord fuel a st D) as (g & m & G & T & V). rewrite F in G. injection G as <-.
  unfold det_failure in F. inv_bind F. injection F as <-. destruct (det_text _ _ _ _ _ T V eq_refl) as (t & Et & Ft). eauto.
Qed.
Lemma precheck_told fuel f : precheck_report dim ext ord minc cord fuel s = Ok (Some f) -> exists c t, part_of c s /\ cfail_text f = Ok t /\ fault acc dim c t.
Proof.
  unfold precheck_report. intros E. inv_bind E. destruct a as [d|].
  - injection E as <-. apply (determinism_told _ _ H).
  - destruct (local_true acc dim q ext ord minc cord Hext Hord Hminc H32 Hcord s Hbuilt K Hreads Hdim Hmild _ _ E) as (c & m & P & M & T). destruct (con_text _ _ _ _ _ M T) as (t & Et & Ft). eauto.
Qed.
End One.

(** ** Failures of refinements *)
Section Pairs.
Variables (acc : accuracy) (dim q1 q2 : nat) (pext : loctree -> loctree -> fed -> fed) (s1 s2 : ts).
Hypothesis Hext : pair_explored acc dim pext s1 s2.
Hypothesis M1 : mild acc dim s1.
Hypothesis M2 : mild acc dim s2.
Hypothesis B1 : built dim s1.
Hypothesis B2 : built dim s2.
Hypothesis K1 : clocks_ok dim q1 s1.
Hypothesis K2 : clocks_ok dim q2 s2.
Hypothesis R1 : reads_ok s1.
Hypothesis R2 : reads_ok s2.
Hypothesis In1 : forall x, In x (sys_clocks s1) -> (x < dim)%nat.
Hypothesis In2 : forall x, In x (sys_clocks s2) -> (x < dim)%nat.
Variable aord : pair -> list string -> list string.
Hypothesis Ha : forall p l a, In a (aord p l) <-> In a l.
Variables (ext : ts -> loctree -> fed -> fed) (ord : list state -> list string -> list string) (minc : fed -> fed) (cord : list (string * nat) -> list (string * nat)).
Hypothesis Hext' : explored acc dim ext.
Hypothesis Hord : forall p l a, In a (ord p l) <-> In a l.
Hypothesis Hminc : describes dim minc.
Hypothesis H32 : fits_u32 dim.
Hypothesis Hcord : same_elements cord.
Hypothesis Sep : separate s1 s2.
Hypothesis Up1 : upper_invariants dim s1.
Hypothesis Up2 : upper_invariants dim s2.
Variable show : list string -> string.

Lemma actions_told f : action_report s1 s2 = Some f -> reason acc show dim s1 s2 ("The refinement '" ++ system_text s1 ++ " <= " ++ system_text s2 ++ "' fails based on actions: " ++ afail_text show f).
Proof.
  unfold action_report. destruct (disjoint (ts_inputs s1) (ts_outputs s2)) eqn:D1; cbn [negb].
  2:{ intros E. injection E as <-. destruct (not_disjoint_spec _ _ D1) as (x & X1 & X2). eapply (rs_clash _ _ _ _ _ s1 s2); [left; split; reflexivity|exact X1|exact X2|apply set_told|apply set_told]. }
  destruct (disjoint (ts_inputs s2) (ts_outputs s1)) eqn:D2; cbn [negb].
  2:{ intros E. injection E as <-. destruct (not_disjoint_spec _ _ D2) as (x & X1 & X2). eapply (rs_clash _ _ _ _ _ s2 s1); [right; split; reflexivity|exact X1|exact X2|apply set_told|apply set_told]. }
  destruct (forallb (fun a => sin a (ts_inputs s2)) (ts_inputs s1)) eqn:D3; cbn [negb].
  2:{ intros E. injection E as <-. destruct (not_subset_spec _ _ D3) as (x & X1 & X2). eapply rs_inputs; [exact X1|exact X2|apply set_told|apply set_told]. }
  destruct (forallb (fun a => sin a (ts_outputs s1)) (ts_outputs s2)) eqn:D4; cbn [negb]; [discriminate|].
  intros E. injection E as <-. destruct (not_subset_spec _ _ D4) as (x & X1 & X2). eapply rs_outputs; [exact X1|exact X2|apply set_told|apply set_told].
Qed.

Lemma refinement_told fuel f : refinement_report dim ext ord minc cord pext aord fuel s1 s2 = Ok (Some f) -> exists t, rfail_text show f = Ok t /\ reason acc show dim s1 s2 t.
Proof.
  intros E. destruct (refinement_true acc dim q1 q2 pext s1 s2 Hext M1 M2 B1 B2 K1 K2 R1 R2 In1 In2 aord Ha ext ord minc cord Hext' Hord Hminc H32 Hcord Sep Up1 Up2 _ _ E) as (m & Em & _ & T).
  assert (Nm : sn_name (sys_refinement s1 s2) = system_text s1 ++ " <= " ++ system_text s2) by (cbn; rewrite !name_text; reflexivity).
  unfold refinement_report in E. inv_bind E. unfold preconditions_report in H. inv_bind H. destruct a0 as [c|].
  { injection H as <-. injection E as <-. destruct (precheck_told acc dim q1 ext ord minc cord Hext' Hord Hminc H32 Hcord s1 B1 K1 R1 In1 M1 _ _ H0) as (c' & t & P & Et & Ft).
    cbn [rfail_text]. rewrite Et, Nm. cbn [bind]. rewrite !sapp_assoc. eexists. split; [reflexivity|]. eapply rs_part; eauto. }
  inv_bind H. destruct a0 as [c|].
  { injection H as <-. injection E as <-. destruct (precheck_told acc dim q2 ext ord minc cord Hext' Hord Hminc H32 Hcord s2 B2 K2 R2 In2 M2 _ _ H1) as (c' & t & P & Et & Ft).
    cbn [rfail_text]. rewrite Et, Nm. cbn [bind]. rewrite !sapp_assoc. eexists. split; [reflexivity|]. eapply rs_part; eauto. }
  injection H as <-. destruct (action_report s1 s2) as [af|] eqn:Ea; cbn [option_map] in E.
  { injection E as <-. cbn [rfail_text]. rewrite Nm, !sapp_assoc. eexists. split; [reflexivity|]. apply actions_told. exact Ea. }
  inv_bind E. destruct a as [| | | |b| |a p|a p]; try discriminate.
  - injection E as <-. injection Em as <-. cbn [prf_failure] in T. cbn [rfail_text]. rewrite Nm, !sapp_assoc. eexists. split; [reflexivity|].
    destruct T as [(T1 & T2 & Tn)|(T1 & T2 & Tn)]; rewrite Tn; [apply rs_left|apply rs_right]; assumption.
  - injection E as <-. injection Em as <-. cbn [prf_failure] in T. cbn [rfail_text]. rewrite Nm, !sapp_assoc. eexists. split; [reflexivity|]. apply rs_start. apply T.
  - inv_bind E. injection E as <-. cbn [rfail_to_proto] in Em. inv_bind Em. unfold state_action_to_proto in H3. inv_bind H3. injection H3 as <-. injection Em as <-. cbn [prf_failure] in T.
    destruct T as (pr & v & Sh & Tg & _ & [[_ U]|[X _]]); [|discriminate]. cbn [rfail_text]. rewrite (pair_place _ _ _ _ _ _ H4 Sh), Nm. cbn [bind]. eexists. split; [reflexivity|]. rewrite !sapp_assoc.
    eapply rs_unmatched; [exact Tg|exact U|apply act_told_two].
  - inv_bind E. injection E as <-. cbn [rfail_to_proto] in Em. inv_bind Em. unfold state_action_to_proto in H3. inv_bind H3. injection H3 as <-. injection Em as <-. cbn [prf_failure] in T.
    destruct T as (pr & v & Sh & Tg & _ & [[X _]|[_ U]]); [discriminate|]. cbn [rfail_text]. rewrite (pair_place _ _ _ _ _ _ H4 Sh), Nm. cbn [bind]. eexists. split; [reflexivity|]. rewrite !sapp_assoc.
    eapply rs_cut; [exact Tg|exact U|apply act_told_two].
Qed.
End Pairs.

(** ** Paths *)
Section Paths.
Variables (dim q : nat) (s : ts).
Hypothesis Hbuilt : built dim s.
Hypothesis K : clocks_ok dim q s.

Definition placed (d : decision) : Prop :=
  In (s_loc (d_state d)) (all_locations dim s) /\ In (s_loc (d_next d)) (all_locations dim s) /\ offered dim s (s_loc (d_state d)) (d_action d) (d_trans d).
Lemma decisions_stops steps : forall st l' ds, In (s_loc st) (all_locations dim s) -> locs dim s (s_loc st) steps l' -> decisions dim st steps = Ok ds ->
  map (fun d => (s_loc (d_state d), d_action d)) ds = stops (s_loc st) steps /\ Forall placed ds.
Proof.
  induction steps as [|[t a] rest IH]; intros st l' ds Hl L E; cbn [decisions] in E; [injection E as <-; split; [reflexivity|constructor]|].
  destruct L as [Ho L]. destruct (offered_fine dim s q K _ _ _ Ho) as [Hu Hn]. pose proof (offered_loc dim s Hbuilt _ _ _ Hl Ho) as Ht.
  inv_bind E. inv_bind E. destruct a0 as [d0|]; [|discriminate]. injection H0 as ->. inv_bind E. injection E as <-.
  destruct (from_state_some dim _ _ _ _ Hu Hn H) as (E1 & E2 & st1 & Eu). rewrite Eu in H0. cbn [snd] in H0.
  destruct (use_inside dim _ _ _ Hu Eu) as (El & Ne & _). rewrite <- El in L.
  destruct (IH _ _ _ ltac:(rewrite El; exact Ht) L H0) as (Em & F).
  unfold from_state_transition in H. cbn [s_zone s_loc] in H. destruct (negb _); [|discriminate]. inv_bind H. injection H as <-. cbn [d_state d_action d_trans d_next] in *.
  unfold use_transition_alt in H1. destruct (use_transition dim t _) as [b n] eqn:En. destruct b; [|discriminate]. injection H1 as <-. destruct (use_inside dim _ _ _ Hu En) as (El2 & _).
  split; [cbn [map d_state d_action s_loc stops]; rewrite Em, El; reflexivity|]. constructor; [|exact F]. split; [exact Hl|]. split; [cbn [d_next]; rewrite El2; exact Ht|exact Ho].
Qed.
Lemma found_stops xext fuel start target ds : In (s_loc start) (all_locations dim s) -> find_path dim fuel s xext start target = Ok (Some ds) ->
  map (fun d => (s_loc (d_state d), d_action d)) ds = stops (s_loc start) (map taken ds) /\ Forall placed ds.
Proof.
  intros Hl E. unfold find_path, find_listed in E. destruct (trivially_unreachable dim start target); [discriminate|].
  set (st := mkS (s_loc start) (apply_inv dim (s_loc start) (s_zone start))) in E. assert (F0 : Forall (sp_ok dim s xext st) [PStart st]) by (constructor; [exact (eq_refl st)|constructor]).
  destruct (search_some dim s xext target fuel st _ _ ds F0 E) as (sp & Hs & _ & Em). unfold make_path in Em.
  pose proof (sp_locs dim s q xext K st sp Hs) as L. destruct (decisions_chain dim s q K _ _ _ _ L Em) as [Et _]. rewrite Et. exact (decisions_stops _ st _ ds Hl L Em).
Qed.

Variables (minc : fed -> fed) (cord : list (string * nat) -> list (string * nat)).
Lemma state_texted st : In (s_loc st) (all_locations dim s) -> exists x, specific_state minc cord s st = Ok x /\ state_text x = Ok ("(" ++ place s (s_loc st) ++ ")").
Proof.
  intros Hl. destruct (location_round dim s Hbuilt _ Hl) as (x & t & X1 & X2 & X3 & _). unfold specific_state. rewrite X1. eexists. split; [reflexivity|]. unfold state_text. cbn [ss_loc]. rewrite (shown_place _ _ _ X2). reflexivity.
Qed.
Lemma path_texted ds : Forall placed ds -> exists ps, mapM (specific_decision minc cord s) ds = Ok ps /\ mapM edge_line ps = Ok (map (stop_line s) (map (fun d => (s_loc (d_state d), d_action d)) ds)).
Proof.
  induction 1 as [|d ds (L1 & L2 & O) _ IH]; [exists []; split; reflexivity|]. destruct IH as (ps & P & Q).
  destruct (fits_edges s _ (offered_fits dim s Hbuilt _ _ _ L1 O)) as (es & Es). destruct (state_texted _ L1) as (x & X & Tx). destruct (state_texted _ L2) as (y & Y & _).
  assert (D : specific_decision minc cord s d = Ok (mkSD x (d_action d) es y)) by (unfold specific_decision; rewrite Es, X, Y; reflexivity).
  exists (mkSD x (d_action d) es y :: ps). cbn [mapM map]. rewrite D, P. split; [reflexivity|]. cbn [mapM]. unfold edge_line at 1. cbn [sd_source sd_action]. rewrite Tx, Q. cbn [bind]. unfold stop_line at 3. cbn [fst snd]. reflexivity.
Qed.
End Paths.
