(** What is reported is true: whole systems and pairs of systems. *)
From Coq Require Import List String ZArith QArith Bool Arith Lia Lqa.
From Verif Require Import Fed.Zone Fed.ZoneFacts Model.Base Model.Expr Model.Guard Model.Loc Model.Component Model.TS Model.Search Model.PairList Model.Refine Model.Wire Model.Failure
  Spec.StepSpec Spec.SystemSpec Spec.RunSpec Spec.ReachSpec Spec.RefineSpec Spec.ReduceSpec Spec.EnableSpec Spec.PruneSpec Spec.WireSpec
  Proofs.GuardFacts Proofs.StepFacts Proofs.SystemFacts Proofs.WfFacts Proofs.RunFacts Proofs.DetFail Proofs.ReadsFacts Proofs.ReachFacts Proofs.RefineFacts Proofs.RefineFail Proofs.ConsistentFacts
  Proofs.WireFacts Proofs.WireStep Proofs.FailureFacts Proofs.LinkFacts Proofs.FailureTruth Spec.BoundSpec Spec.ConsistencySpec Spec.FailureSpec.
Import ListNotations.
Local Open Scope Q_scope.

(** ** One system *)
Section One.
Variables (acc : accuracy) (dim q : nat) (ext : ts -> loctree -> fed -> fed) (ord : list state -> list string -> list string) (minc : fed -> fed) (cord : list (string * nat) -> list (string * nat)).
Hypothesis Hext : explored acc dim ext.
Hypothesis Hord : forall p l a, In a (ord p l) <-> In a l.
Hypothesis Hminc : describes dim minc.
Hypothesis H32 : fits_u32 dim.
Hypothesis Hcord : same_elements cord.
Variable s : ts.
Hypothesis Hbuilt : built dim s.
Hypothesis K : clocks_ok dim q s.
Hypothesis Hreads : reads_ok s.
Hypothesis Hdim : forall x, In x (sys_clocks s) -> (x < dim)%nat.
Hypothesis Hmild : mild acc dim s.

Lemma mild_part c : part_of c s -> mild acc dim c.
Proof.
  revert Hmild. clear. induction s as [c0|l IHl r IHr i o|l IHl r IHr i o lo ro co|t IHt d IHd i o n q']; cbn [part_of]; intros M P.
  - subst c. exact M.
  - apply mild_conj in M. destruct M, P; auto.
  - apply mild_comp in M. destruct M, P; auto.
  - apply mild_quot in M. destruct M, P; auto.
Qed.
Lemma determinism_true fuel f : determinism_report dim ext ord minc cord fuel s = Ok (Some f) -> exists c m, part_of c s /\ detfail_to_proto f = Ok m /\ det_true acc dim c m.
Proof.
  intros E. apply determinism_agrees in E. destruct E as (a & st & c & _ & P & D & F). destruct (part_fine dim q s Hbuilt K Hreads Hdim c P) as (Bc & Kc & Rc & Dc).
  destruct (det_true_search acc dim q ext ord c (mild_accurate _ _ _ _ Hext (mild_part c P)) Hord Kc Bc Rc Dc minc cord Hminc H32 Hcord fuel a st D) as (g & m & G & T & V). rewrite F in G. injection G as <-. eauto.
Qed.
Lemma local_true fuel f : local_report dim ext ord minc cord fuel s = Ok (Some f) -> exists c m, part_of c s /\ cfail_to_proto f = Ok m /\ con_true acc dim c m.
Proof.
  intros E. apply local_agrees in E. destruct E as [_ E]. destruct (E f eq_refl) as (c & P & C). destruct (part_fine dim q s Hbuilt K Hreads Hdim c P) as (Bc & Kc & Rc & Dc).
  destruct (consistent_true acc dim q ext ord c (mild_accurate _ _ _ _ Hext (mild_part c P)) Hord Kc Bc Rc Dc minc cord Hminc H32 Hcord fuel f C) as (m & M & T). eauto.
Qed.
Lemma precheck_true fuel f : precheck_report dim ext ord minc cord fuel s = Ok (Some f) -> exists m, cfail_to_proto f = Ok m /\ pre_true acc dim s m.
Proof.
  unfold precheck_report. intros E. inv_bind E. destruct a as [d|].
  - injection E as <-. destruct (determinism_true _ _ H) as (c & m & P & M & T). exists (mkPCF (pdf_system m) (Some (PDeterminism m))).
    split; [cbn; rewrite M; reflexivity|]. exists c. split; [exact P|]. right. exists m. split; [|exact T]. destruct T as (p & a & st & l0 & -> & _). reflexivity.
  - destruct (local_true _ _ E) as (c & m & P & M & T). exists m. split; [exact M|]. exists c. auto.
Qed.
End One.

(** The messages can always be made. *)
Section Total.
Variables (acc : accuracy) (dim q : nat) (ext : ts -> loctree -> fed -> fed) (ord : list state -> list string -> list string) (minc : fed -> fed) (cord : list (string * nat) -> list (string * nat)).
Hypothesis Hext : explored acc dim ext.
Hypothesis Hord : forall p l a, In a (ord p l) <-> In a l.
Hypothesis Hminc : describes dim minc.
Hypothesis H32 : fits_u32 dim.
Hypothesis Hcord : same_elements cord.

Definition fine (s : ts) : Prop := built dim s /\ clocks_ok dim q s /\ reads_ok s /\ (forall x, In x (sys_clocks s) -> (x < dim)%nat) /\ mild acc dim s.
Lemma fine_conj l r i o : fine (TConj l r i o) -> fine l /\ fine r.
Proof.
  intros (B & K & R & D & M). inversion B as [| l' r' s' Bl Br E| |]; subst; [|apply composition_new_inv in H1; destruct H1 as (_ & ? & ? & ? & ? & ? & X & _); discriminate|apply quotient_new_inv in H1; destruct H1 as (? & ? & ? & X & _); discriminate].
  apply conjunction_new_inv in E. destruct E as (E & _). injection E as -> -> _ _. cbn [clocks_ok reads_ok sys_clocks] in *. destruct K as (K1 & K2 & _), R as [R1 R2].
  apply mild_conj in M. split; (split; [assumption|]; split; [assumption|]; split; [assumption|]; split; [|apply M]); intros x Hx; apply D, in_or_app; auto.
Qed.
Lemma fine_comp l r i o lo ro co : fine (TComp l r i o lo ro co) -> fine l /\ fine r.
Proof.
  intros (B & K & R & D & M). inversion B as [| |l' r' s' Bl Br E|]; subst; [apply conjunction_new_inv in H1; destruct H1 as (X & _); discriminate| |apply quotient_new_inv in H1; destruct H1 as (? & ? & ? & X & _); discriminate].
  apply composition_new_inv in E. destruct E as (_ & ? & ? & ? & ? & ? & E & _). injection E as -> -> _ _ _ _ _. cbn [clocks_ok reads_ok sys_clocks] in *. destruct K as (K1 & K2 & _), R as [R1 R2].
  apply mild_comp in M. split; (split; [assumption|]; split; [assumption|]; split; [assumption|]; split; [|apply M]); intros y Hy; apply D, in_or_app; auto.
Qed.
Lemma fine_quot t d i o n k : fine (TQuot t d i o n k) -> fine t /\ fine d.
Proof.
  intros (B & K & R & D & M). inversion B as [| | |T S q' s' Bl Br E]; subst; [apply conjunction_new_inv in H1; destruct H1 as (X & _); discriminate|apply composition_new_inv in H1; destruct H1 as (_ & ? & ? & ? & ? & ? & X & _); discriminate|].
  apply quotient_new_inv in E. destruct E as (? & ? & ? & E & _). injection E as -> -> _ _ _ _. cbn [clocks_ok reads_ok sys_clocks] in *. destruct K as (K1 & K2 & _), R as [R1 R2].
  apply mild_quot in M. split; (split; [assumption|]; split; [assumption|]; split; [assumption|]; split; [|apply M]); intros y Hy; apply D; right; apply in_or_app; auto.
Qed.

Lemma determinism_total fuel s : fine s -> forall r, check_determinism dim ext ord fuel s = Ok r -> exists o, determinism_report dim ext ord minc cord fuel s = Ok o /\ (o = None <-> r = None).
Proof.
  assert (Two : forall l r x, (fine l -> forall r0, check_determinism dim ext ord fuel l = Ok r0 -> exists o, determinism_report dim ext ord minc cord fuel l = Ok o /\ (o = None <-> r0 = None)) ->
    (fine r -> forall r0, check_determinism dim ext ord fuel r = Ok r0 -> exists o, determinism_report dim ext ord minc cord fuel r = Ok o /\ (o = None <-> r0 = None)) ->
    fine l /\ fine r -> (do y <- check_determinism dim ext ord fuel l; match y with None => check_determinism dim ext ord fuel r | Some e => Ok (Some e) end) = Ok x ->
    exists o, (do y <- determinism_report dim ext ord minc cord fuel l; match y with None => determinism_report dim ext ord minc cord fuel r | Some f => Ok (Some f) end) = Ok o /\ (o = None <-> x = None)).
  { intros l r x IHl IHr [Fl Fr] E. inv_bind E. destruct (IHl Fl _ H) as (o & -> & A). cbn [bind]. destruct a as [e|].
    - injection E as <-. destruct o; [eexists; split; [reflexivity|split; discriminate]|]. discriminate (proj1 A eq_refl).
    - rewrite (proj2 A eq_refl). apply IHr; assumption. }
  induction s as [c|l IHl r IHr i o|l IHl r IHr i o lo ro co|t IHt d IHd i o n q']; intros F x E; cbn [check_determinism determinism_report] in *.
  - rewrite E. rename E into H. cbn [bind]. destruct x as [[a st]|]; [|eexists; split; [reflexivity|tauto]].
    destruct F as (B & K & R & D & M). destruct (det_true_search acc dim q ext ord _ (mild_accurate _ _ _ _ Hext M) Hord K B R D minc cord Hminc H32 Hcord fuel a st H) as (g & m & G & _). rewrite G. cbn [bind].
    eexists. split; [reflexivity|split; discriminate].
  - apply (Two l r x IHl IHr (fine_conj _ _ _ _ F)). exact E.
  - apply (Two l r x IHl IHr (fine_comp _ _ _ _ _ _ _ F)). exact E.
  - apply (Two t d x IHt IHd (fine_quot _ _ _ _ _ _ F)). exact E.
Qed.
Lemma local_total fuel s : fine s -> forall b, check_local_consistency dim ext ord fuel s = Ok b -> exists o, local_report dim ext ord minc cord fuel s = Ok o /\ none o = b.
Proof.
  assert (Two : forall l r x, (fine l -> forall b, check_local_consistency dim ext ord fuel l = Ok b -> exists o, local_report dim ext ord minc cord fuel l = Ok o /\ none o = b) ->
    (fine r -> forall b, check_local_consistency dim ext ord fuel r = Ok b -> exists o, local_report dim ext ord minc cord fuel r = Ok o /\ none o = b) ->
    fine l /\ fine r -> (do y <- check_local_consistency dim ext ord fuel l; if y then check_local_consistency dim ext ord fuel r else Ok false) = Ok x ->
    exists o, (do y <- local_report dim ext ord minc cord fuel l; match y with None => local_report dim ext ord minc cord fuel r | Some f => Ok (Some f) end) = Ok o /\ none o = x).
  { intros l r x IHl IHr [Fl Fr] E. inv_bind E. destruct (IHl Fl _ H) as (o & -> & A). cbn [bind]. destruct o as [f|]; cbn [none] in A; subst a.
    - injection E as <-. eexists. split; reflexivity.
    - apply IHr; assumption. }
  induction s as [c|l IHl r IHr i o|l IHl r IHr i o lo ro co|t IHt d IHd i o n q']; intros F x E; cbn [check_local_consistency local_report] in *.
  - destruct F as (B & K & R & D & M). apply (consistent_total acc dim q ext ord _ (mild_accurate _ _ _ _ Hext M) Hord K B R D minc cord Hminc H32 Hcord fuel x E).
  - apply (Two l r x IHl IHr (fine_conj _ _ _ _ F)). exact E.
  - apply (Two l r x IHl IHr (fine_comp _ _ _ _ _ _ _ F)). exact E.
  - destruct (fine_quot _ _ _ _ _ _ F). apply (Two d t x IHd IHt); auto.
Qed.
Lemma precheck_total fuel s : fine s -> forall b, precheck dim ext ord fuel s = Ok b -> exists o, precheck_report dim ext ord minc cord fuel s = Ok o /\ none o = b.
Proof.
  intros F b E. unfold precheck, precheck_report in *. inv_bind E. destruct (determinism_total fuel s F _ H) as (o & -> & A). cbn [bind]. destruct a as [e|].
  - destruct o; [|discriminate (proj1 A eq_refl)]. injection E as <-. eexists. split; reflexivity.
  - rewrite (proj2 A eq_refl). apply local_total; assumption.
Qed.
End Total.

(** ** Pairs *)
Lemma only_inter (dim : nat) (f g h : fed) : only_clocks dim f -> only_clocks dim g -> (forall v, fsem dim h v <-> fsem dim f v /\ fsem dim g v) -> only_clocks dim h.
Proof. intros F G E v w Hv Hw A H. apply E. apply E in H. destruct H. split; [apply (F v w)|apply (G v w)]; assumption. Qed.
Lemma only_updates dim us f : updates_ok dim us -> only_clocks dim f -> only_clocks dim (apply_updates dim us f).
Proof.
  intros U O v v' Hv Hv' A H. apply (apply_updates_sem dim us U) in H. destruct H as (w & Hw & E). apply (apply_updates_sem dim us U).
  set (w2 := fun i => if Nat.ltb i dim then w i else if Nat.eqb i 0 then w i else v' i). pose proof (fsem_ok _ _ _ Hw) as Wok.
  assert (B : forall i, (i < dim)%nat -> w2 i == w i) by (intros i Hi; unfold w2; rewrite (proj2 (Nat.ltb_lt i dim) Hi); reflexivity).
  assert (W0 : w2 0%nat == w 0%nat) by (unfold w2; destruct (Nat.ltb 0 dim); reflexivity).
  assert (W2 : val_ok dim w2) by (split; [rewrite W0; apply Wok|]; intros i Hi; rewrite (B i Hi); apply Wok; exact Hi).
  exists w2. split; [apply (O w w2); auto; intros i Hi; symmetry; apply B; exact Hi|]. intros i. destruct (lt_dec i dim) as [Hi|Hi].
  - rewrite <- (A i Hi), (E i). apply (agree_updates [i]); [|left; reflexivity]. intros j [<-|[]]. symmetry. apply B. exact Hi.
  - assert (N : forall u, In u us -> u_clock u <> i). { intros u Hu Eu. destruct (U u Hu) as (_ & Hlt & _). lia. }
    rewrite (run_updates_out _ w2 i N). destruct (Nat.eq_dec i 0) as [->|Hi0]; [rewrite W0, (proj1 Hv'); symmetry; apply Wok|].
    unfold w2. rewrite (proj2 (Nat.ltb_ge i dim)) by lia. rewrite (proj2 (Nat.eqb_neq i 0) Hi0). reflexivity.
Qed.
Lemma only_up dim f : only_clocks dim f -> only_clocks dim (fup dim f).
Proof.
  intros O v v' Hv Hv' A H. apply fup_sem' in H. destruct H as (w & d & Hd & Hw & E). apply fup_sem'.
  set (w2 := fun i => if Nat.ltb i dim then w i else if Nat.eqb i 0 then w i else v' i - d). pose proof (fsem_ok _ _ _ Hw) as Wok.
  assert (B : forall i, (i < dim)%nat -> w2 i == w i) by (intros i Hi; unfold w2; rewrite (proj2 (Nat.ltb_lt i dim) Hi); reflexivity).
  assert (W0 : w2 0%nat == w 0%nat) by (unfold w2; destruct (Nat.ltb 0 dim); reflexivity).
  assert (W2 : val_ok dim w2) by (split; [rewrite W0; apply Wok|]; intros i Hi; rewrite (B i Hi); apply Wok; exact Hi).
  exists w2, d. split; [exact Hd|]. split; [apply (O w w2); auto; intros i Hi; symmetry; apply B; exact Hi|]. intros i.
  destruct (Nat.eq_dec i 0) as [->|Hi0]; [rewrite vdelay_0, W0, (proj1 Hv'); symmetry; apply Wok|]. rewrite vdelay_S by exact Hi0. destruct (lt_dec i dim) as [Hi|Hi].
  - rewrite <- (A i Hi), (E i), vdelay_S by exact Hi0. rewrite (B i Hi). reflexivity.
  - unfold w2. rewrite (proj2 (Nat.ltb_ge i dim)) by lia. rewrite (proj2 (Nat.eqb_neq i 0) Hi0). ring.
Qed.

Section Pairs.
Variables (acc : accuracy) (dim q1 q2 : nat) (pext : loctree -> loctree -> fed -> fed) (s1 s2 : ts).
Hypothesis Hext : pair_explored acc dim pext s1 s2.
Hypothesis M1 : mild acc dim s1.
Hypothesis M2 : mild acc dim s2.
Hypothesis B1 : built dim s1.
Hypothesis B2 : built dim s2.
Hypothesis K1 : clocks_ok dim q1 s1.
Hypothesis K2 : clocks_ok dim q2 s2.
Hypothesis R1 : reads_ok s1.
Hypothesis R2 : reads_ok s2.
Hypothesis In1 : forall x, In x (sys_clocks s1) -> (x < dim)%nat.
Hypothesis In2 : forall x, In x (sys_clocks s2) -> (x < dim)%nat.

Definition good (p : pair) : Prop := in_range dim s1 s2 p /\ only_clocks dim (p_zone p).
Definition inv_only (l : loctree) : Prop := forall v w, val_ok dim v -> val_ok dim w -> (forall i, (i < dim)%nat -> v i == w i) -> inv_at dim l v -> inv_at dim l w.
Lemma inv_only1 l : In l (all_locations dim s1) -> inv_only l.
Proof. intros L v w Hv Hw A. apply (pdep_only dim s1 In1 _ (locations_dep dim s1 B1 R1 l L)); assumption. Qed.
Lemma inv_only2 l : In l (all_locations dim s2) -> inv_only l.
Proof. intros L v w Hv Hw A. apply (pdep_only dim s2 In2 _ (locations_dep dim s2 B2 R2 l L)); assumption. Qed.
Lemma only_inv l f : inv_only l -> only_clocks dim f -> only_clocks dim (apply_inv dim l f).
Proof. intros I O v w Hv Hw A H. apply apply_inv_sem. apply apply_inv_sem in H. destruct H. split; [apply (O v w)|apply (I v w)]; assumption. Qed.

Definition usable (t : transition) : Prop := updates_ok dim (t_updates t) /\ only_clocks dim (t_guard t).
Lemma usable1 l a t : In l (all_locations dim s1) -> offered dim s1 l a t -> usable t.
Proof. intros L O. destruct (offered_dep dim q1 s1 l a t B1 R1 K1 L O) as ([U _] & _ & _ & D & _). split; [exact U|]. intros v w Hv Hw A. apply (pdep_only dim s1 In1 _ D); assumption. Qed.
Lemma usable2 l a t : In l (all_locations dim s2) -> offered dim s2 l a t -> usable t.
Proof. intros L O. destruct (offered_dep dim q2 s2 l a t B2 R2 K2 L O) as ([U _] & _ & _ & D & _). split; [exact U|]. intros v w Hv Hw A. apply (pdep_only dim s2 In2 _ D); assumption. Qed.
Lemma usable_without l : usable (t_without_id l).
Proof. split; [intros u []|]. intros v w _ Hw _ _. apply funiv_sem. exact Hw. Qed.

Lemma build_pair_good t1 t2 cur (is1 : bool) (c c' : ctx) : good cur -> usable t1 -> usable t2 ->
  In (if is1 then t_target t1 else t_target t2) (all_locations dim s1) -> In (if is1 then t_target t2 else t_target t1) (all_locations dim s2) ->
  build_pair dim pext t1 t2 cur is1 c = Some c' -> forall p, In p (w_queue (snd c')) -> In p (w_queue (snd c)) \/ good p.
Proof.
  intros [_ O] [U1 G1] [U2 G2] T1 T2. unfold build_pair. cbv zeta. set (l1 := if is1 then t_target t1 else t_target t2) in *. set (l2 := if is1 then t_target t2 else t_target t1) in *.
  set (z0 := apply_guards dim t2 (apply_guards dim t1 (p_zone cur))). set (zu := fup dim (apply_updates dim (t_updates t2) (apply_updates dim (t_updates t1) z0))).
  assert (Z : only_clocks dim (apply_inv dim l2 (apply_inv dim l1 zu))).
  { apply only_inv; [apply inv_only2; exact T2|]. apply only_inv; [apply inv_only1; exact T1|]. apply only_up, only_updates; [exact U2|]. apply only_updates; [exact U1|].
    apply (only_inter dim (t_guard t2) (apply_guards dim t1 (p_zone cur))); [exact G2| |intros v; apply apply_guards_sem].
    apply (only_inter dim (t_guard t1) (p_zone cur)); [exact G1|exact O|intros v; apply apply_guards_sem]. }
  destruct (fempty dim z0); [intros E; injection E as <-; auto|]. destruct (_ || _); [intros E; injection E as <-; auto|]. destruct (negb _); [discriminate|].
  destruct (_ && _); intros E; injection E as <-; [|auto]. cbn [snd waiting_put w_queue]. intros p [<-|Hp]; [|auto]. right. split; [split; assumption|].
  cbn [p_zone]. apply (pair_accurate_only acc dim pext s1 s2); auto using mild_pair.
Qed.
Lemma build_pairs_good cur (is1 : bool) : good cur -> forall ps (c c' : ctx), 
  (forall t1 t2, In (t1, t2) ps -> usable t1 /\ usable t2 /\ In (if is1 then t_target t1 else t_target t2) (all_locations dim s1) /\ In (if is1 then t_target t2 else t_target t1) (all_locations dim s2)) ->
  build_pairs dim pext ps cur is1 c = Some c' -> forall p, In p (w_queue (snd c')) -> In p (w_queue (snd c)) \/ good p.
Proof.
  intros G. induction ps as [|[t1 t2] ps IH]; intros c c' H E p Hp; cbn [build_pairs] in E; [injection E as <-; auto|].
  destruct (build_pair dim pext t1 t2 cur is1 c) as [c1|] eqn:Eb; [|discriminate]. destruct (H t1 t2 (or_introl eq_refl)) as (U1 & U2 & T1 & T2).
  destruct (IH c1 c' (fun x y Hxy => H x y (or_intror Hxy)) E p Hp) as [Hp'|Hp']; [|auto]. exact (build_pair_good t1 t2 cur is1 c c1 G U1 U2 T1 T2 Eb p Hp').
Qed.
Definition named (r : outcome) : Prop := match r with RCannotMatch _ p | RCutsDelays _ p => good p | _ => True end.
Lemma valid_pairs_good a ts1 ts2 cur (is1 : bool) (c : ctx) : good cur ->
  (forall t1 t2, In t1 ts1 -> In t2 ts2 -> usable t1 /\ usable t2 /\ In (if is1 then t_target t1 else t_target t2) (all_locations dim s1) /\ In (if is1 then t_target t2 else t_target t1) (all_locations dim s2)) ->
  match valid_pairs dim pext a ts1 ts2 cur is1 c with
  | inl c' => forall p, In p (w_queue (snd c')) -> In p (w_queue (snd c)) \/ good p
  | inr r => named r
  end.
Proof.
  intros G H. unfold valid_pairs. destruct (fempty _ _); [auto|]. destruct (fempty _ _); [exact G|]. destruct (negb _); [exact G|].
  destruct (build_pairs dim pext (list_prod ts1 ts2) cur is1 c) as [c'|] eqn:E; [|exact G]. eapply build_pairs_good; [exact G| |exact E].
  intros t1 t2 Hp. apply in_prod_iff in Hp. apply H; apply Hp.
Qed.
Lemma output_step_good cur a (c : ctx) x : good cur -> is_output s1 a -> output_step dim pext s1 s2 cur a c = Ok x ->
  match x with inl c' => forall p, In p (w_queue (snd c')) -> In p (w_queue (snd c)) \/ good p | inr r => named r end.
Proof.
  intros G Ha E. pose proof G as [[L1 L2] _]. unfold output_step in E. inv_bind E. inv_bind E. injection E as <-.
  destruct (next_all dim s1 q1 (p_l1 cur) a a0 B1 K1 L1 H) as [A1 F1]. apply valid_pairs_good; [exact G|]. intros t1 t2 H1 H2.
  split; [apply (usable1 (p_l1 cur) a); [exact L1|split; [exact A1|eauto]]|]. unfold extra_output in H0. rewrite (proj2 (sin_In a (ts_outputs s1)) Ha) in H0. cbn [andb] in H0.
  destruct (sin a (ts_outputs s2)) eqn:S2; cbn [negb] in H0.
  - destruct (next_all dim s2 q2 (p_l2 cur) a a1 B2 K2 L2 H0) as [A2 F2]. split; [apply (usable2 (p_l2 cur) a); [exact L2|split; [exact A2|eauto]]|]. split; [apply F1; exact H1|apply F2; exact H2].
  - injection H0 as <-. destruct H2 as [<-|[]]. split; [apply usable_without|]. split; [apply F1; exact H1|exact L2].
Qed.
Lemma input_step_good cur a (c : ctx) x : good cur -> is_input s2 a -> input_step dim pext s1 s2 cur a c = Ok x ->
  match x with inl c' => forall p, In p (w_queue (snd c')) -> In p (w_queue (snd c)) \/ good p | inr r => named r end.
Proof.
  intros G Ha E. pose proof G as [[L1 L2] _]. unfold input_step in E. inv_bind E. inv_bind E. injection E as <-.
  destruct (next_all dim s2 q2 (p_l2 cur) a a1 B2 K2 L2 H0) as [A2 F2]. apply valid_pairs_good; [exact G|]. intros t1 t2 H1 H2.
  split; [apply (usable2 (p_l2 cur) a); [exact L2|split; [exact A2|eauto]]|]. unfold extra_input in H. rewrite (proj2 (sin_In a (ts_inputs s2)) Ha) in H. cbn [andb] in H.
  destruct (sin a (ts_inputs s1)) eqn:S1; cbn [negb] in H.
  - destruct (next_all dim s1 q1 (p_l1 cur) a a0 B1 K1 L1 H) as [A1 F1]. split; [apply (usable1 (p_l1 cur) a); [exact L1|split; [exact A1|eauto]]|]. split; [apply F1; exact H2|apply F2; exact H1].
  - injection H as <-. destruct H2 as [<-|[]]. split; [apply usable_without|]. split; [exact L1|apply F2; exact H1].
Qed.

Variable aord : pair -> list string -> list string.
Hypothesis Ha : forall p l a, In a (aord p l) <-> In a l.

Lemma refine_loop_good fuel : forall c r, (forall p, In p (w_queue (snd c)) -> good p) -> refine_loop dim pext aord s1 s2 fuel c = Ok r -> named r.
Proof.
  induction fuel as [|f IH]; intros c r W E; cbn [refine_loop] in E; [discriminate|]. inv_bind E. destruct a as [[cur w]|]; [|injection E as <-; exact I].
  assert (Q : In cur (w_queue (snd c)) /\ forall p, In p (w_queue w) -> In p (w_queue (snd c))).
  { unfold waiting_pop in H. destruct (w_queue (snd c)) as [|x l]; [discriminate|].
    destruct (kget (pair_key x) (w_map (snd c))) as [[|]|]; try discriminate; injection H as <- <-; simpl; auto. }
  destruct Q as [Qc Qw]. pose proof (W cur Qc) as Rc. inv_bind E.
  pose (P := fun (x : ctx) => forall p, In p (w_queue (snd x)) -> good p).
  assert (L : forall (step : pair -> string -> ctx -> res (ctx + outcome)) acts act x y,
    (forall b, In b acts -> act b) ->
    (forall b x y, act b -> step cur b x = Ok y ->
      match y with inl c' => forall p, In p (w_queue (snd c')) -> In p (w_queue (snd x)) \/ good p | inr r => named r end) ->
    P x -> loopM (step cur) acts x = Ok y -> match y with inl c' => P c' | inr r => named r end).
  { intros step acts act. induction acts as [|b acts IHa]; intros x y Hac Hs Px El; cbn [loopM] in El; [injection El as <-; exact Px|].
    inv_bind El. pose proof (Hs b x a0 (Hac b (or_introl eq_refl)) H1) as X. destruct a0 as [x'|r'].
    - eapply IHa; [intros b' Hb'; apply Hac; right; exact Hb'|exact Hs| |exact El]. intros p Hp. destruct (X p Hp); auto.
    - injection El as <-. exact X. }
  assert (P0 : P (passed_put cur (fst c), w)) by (intros p Hp; apply W, Qw; exact Hp).
  pose proof (L (output_step dim pext s1 s2) (aord cur (ts_outputs s1)) (is_output s1) _ a (fun b Hb => proj1 (Ha _ _ _) Hb)
    (fun b x y Hb Ey => output_step_good cur b x y Rc Hb Ey) P0 H0) as X. destruct a as [c1|r1]; [|injection E as <-; exact X].
  inv_bind E.
  pose proof (L (input_step dim pext s1 s2) (aord cur (ts_inputs s2)) (is_input s2) _ a (fun b Hb => proj1 (Ha _ _ _) Hb)
    (fun b x y Hb Ey => input_step_good cur b x y Rc Hb Ey) X H1) as Y. destruct a as [c2|r2]; [|injection E as <-; exact Y].
  eapply IH; [exact Y|exact E].
Qed.
Lemma start_zone_only l1 l2 : In l1 (all_locations dim s1) -> In l2 (all_locations dim s2) -> only_clocks dim (apply_inv dim l2 (apply_inv dim l1 (finit dim))).
Proof.
  intros L1 L2. apply only_inv; [apply inv_only2; exact L2|]. apply only_inv; [apply inv_only1; exact L1|]. intros v w Hv Hw A H. apply finit_sem. apply finit_sem in H.
  destruct H as (d & Hd & Z & H). exists d. split; [exact Hd|]. split; [apply Hw|]. intros i Hi Hid. rewrite <- (A i Hid). apply H; assumption.
Qed.
Lemma explore_good fuel r : explore dim pext aord s1 s2 fuel = Ok r -> named r.
Proof.
  unfold explore. destruct (initial_location dim s1) as [l1|] eqn:E1, (initial_location dim s2) as [l2|] eqn:E2; intros E; try (injection E as <-; exact I).
  cbv zeta in E. destruct (fempty _ _); [injection E as <-; exact I|]. eapply refine_loop_good; [|exact E]. intros p [<-|[]].
  pose proof (initial_wf dim s1 B1 l1 E1) as T1. pose proof (initial_wf dim s2 B2 l2 E2) as T2. split; [split; assumption|].
  cbn [p_zone]. apply (pair_accurate_only acc dim pext s1 s2); auto using mild_pair, start_zone_only.
Qed.

Variables (ext : ts -> loctree -> fed -> fed) (ord : list state -> list string -> list string) (minc : fed -> fed) (cord : list (string * nat) -> list (string * nat)).
Hypothesis Hext' : explored acc dim ext.
Hypothesis Hord : forall p l a, In a (ord p l) <-> In a l.
Hypothesis Hminc : describes dim minc.
Hypothesis H32 : fits_u32 dim.
Hypothesis Hcord : same_elements cord.

(** *** Actions *)
Lemma not_disjoint_spec (a b : list string) : disjoint a b = false -> exists x, In x a /\ In x b.
Proof.
  intros H. unfold disjoint in H. assert (X : exists x, In x a /\ negb (sin x b) = false).
  { induction a as [|y a IH]; [discriminate|]. cbn in H. apply andb_false_iff in H. destruct H as [H|H]; [exists y; split; [left; reflexivity|exact H]|].
    destruct (IH H) as (x & Hx & E). exists x. split; [right; exact Hx|exact E]. }
  destruct X as (x & Hx & E). apply negb_false_iff in E. apply sin_In in E. eauto.
Qed.
Lemma not_subset_spec (a b : list string) : forallb (fun x => sin x b) a = false -> exists x, In x a /\ ~ In x b.
Proof.
  intros H. induction a as [|y a IH]; [discriminate|]. cbn in H. apply andb_false_iff in H. destruct H as [H|H].
  - exists y. split; [left; reflexivity|]. intros C. apply sin_In in C. congruence.
  - destruct (IH H) as (x & Hx & N). exists x. split; [right; exact Hx|exact N].
Qed.
Lemma actions_true f : action_report s1 s2 = Some f -> mismatch_true s1 s2 (afail_to_proto f).
Proof.
  unfold action_report, mismatch_true, clash_true, surplus_true. rewrite <- !name_text.
  destruct (disjoint (ts_inputs s1) (ts_outputs s2)) eqn:D1; cbn [negb].
  2:{ intros E. injection E as <-. left. eexists _, _. split; [reflexivity|]. apply not_disjoint_spec. exact D1. }
  destruct (disjoint (ts_inputs s2) (ts_outputs s1)) eqn:D2; cbn [negb].
  2:{ intros E. injection E as <-. right; left. eexists _, _. split; [reflexivity|]. apply not_disjoint_spec. exact D2. }
  destruct (forallb (fun a => sin a (ts_inputs s2)) (ts_inputs s1)) eqn:D3; cbn [negb].
  2:{ intros E. injection E as <-. right; right; left. eexists _, _. split; [reflexivity|]. apply not_subset_spec. exact D3. }
  destruct (forallb (fun a => sin a (ts_outputs s1)) (ts_outputs s2)) eqn:D4; cbn [negb]; [discriminate|].
  intros E. injection E as <-. right; right; right. eexists _, _. split; [reflexivity|]. apply not_subset_spec. exact D4.
Qed.

(** *** The refinement check *)
Hypothesis Sep : separate s1 s2.
Hypothesis Up1 : upper_invariants dim s1.
Hypothesis Up2 : upper_invariants dim s2.

Lemma refinement_true fuel f : refinement_report dim ext ord minc cord pext aord fuel s1 s2 = Ok (Some f) -> exists m, rfail_to_proto f = Ok m /\ ref_true acc dim s1 s2 m.
Proof.
  intros E. pose proof E as E0. unfold refinement_report in E. inv_bind E. unfold preconditions_report in H. inv_bind H.
  assert (Nm : sn_name (sys_refinement s1 s2) = (system_text s1 ++ " <= " ++ system_text s2)%string) by (cbn; rewrite !name_text; reflexivity).
  destruct a0 as [c|].
  { injection H as <-. injection E as <-. destruct (precheck_true acc dim q1 ext ord minc cord Hext' Hord Hminc H32 Hcord s1 B1 K1 R1 In1 M1 _ _ H0) as (m & M & T).
    cbn [rfail_to_proto]. rewrite M. eexists. split; [reflexivity|]. split; [exact Nm|]. left. exact T. }
  inv_bind H. destruct a0 as [c|].
  { injection H as <-. injection E as <-. destruct (precheck_true acc dim q2 ext ord minc cord Hext' Hord Hminc H32 Hcord s2 B2 K2 R2 In2 M2 _ _ H1) as (m & M & T).
    cbn [rfail_to_proto]. rewrite M. eexists. split; [reflexivity|]. split; [exact Nm|]. right. exact T. }
  injection H as <-. destruct (action_report s1 s2) as [af|] eqn:Ea; cbn [option_map] in E.
  { injection E as <-. eexists. split; [reflexivity|]. split; [exact Nm|]. apply actions_true. exact Ea. }
  inv_bind E. pose proof (explore_good _ _ H) as G.
  assert (T : told_all dim s1 s2 a).
  { destruct (accurate_linked acc dim q1 q2 pext s1 s2 B1 B2 K1 K2 R1 R2 In1 In2 (mild_pair _ _ _ _ _ Hext M1 M2)) as [N HN]. apply (check_refinement_told dim pext s1 s2 N HN B1 B2 q1 q2 K1 K2 R1 R2 Sep Up1 Up2 In1 In2 aord Ha ext ord fuel). unfold check_refinement, check_preconditions.
    rewrite (precheck_agrees _ _ _ _ _ _ _ _ H0), (precheck_agrees _ _ _ _ _ _ _ _ H1). cbn [bind none negb]. rewrite (proj2 (actions_agree ext s1 s2) Ea). exact H. }
  destruct a as [| | | |b| |a p|a p]; try discriminate.
  - injection E as <-. eexists. split; [reflexivity|]. split; [exact Nm|]. cbn [prf_failure]. rewrite !name_text. cbn [told_all] in T. destruct b; [left|right]; (split; [apply T|split; [apply T|reflexivity]]).
  - injection E as <-. eexists. split; [reflexivity|]. split; [exact Nm|]. cbn [prf_failure]. split; [reflexivity|]. intros l1 l2 v E1 E2 [[(d & Hd & Z0 & Z) I1] [_ I2]].
    destruct T as (l1' & l2' & E1' & E2' & N). rewrite E1 in E1'. rewrite E2 in E2'. injection E1' as <-. injection E2' as <-.
    assert (V : val_ok dim v) by (eapply inv_at_ok; exact I1).
    assert (V0 : val_ok dim (vdelay zero_val d)) by (apply vdelay_ok; [split; [reflexivity|intros i _; unfold zero_val; lra]|exact Hd]).
    assert (A : forall i, (i < dim)%nat -> v i == vdelay zero_val d i).
    { intros i Hi. destruct (Nat.eq_dec i 0) as [->|Ni]; [rewrite Z0; reflexivity|]. rewrite (Z i Ni Hi), vdelay_S by exact Ni. unfold zero_val. ring. }
    apply (N d Hd). split; [apply (inv_only1 l1 (initial_wf dim s1 B1 l1 E1) v)|apply (inv_only2 l2 (initial_wf dim s2 B2 l2 E2) v)]; assumption.
  - inv_bind E. injection E as <-. destruct G as [G1 G2]. destruct (pair_written dim minc cord Hminc H32 Hcord s1 s2 p B1 B2 G1 G2) as (x & y & X & Y & Sh).
    rewrite H2 in X. injection X as <-. cbn [rfail_to_proto]. unfold state_action_to_proto. rewrite Y. eexists. split; [reflexivity|]. split; [exact Nm|]. cbn [prf_failure].
    destruct T as (v & T & Sn & U). exists p, v. split; [exact Sh|]. split; [exact T|]. split; [exact Sn|]. left. auto.
  - inv_bind E. injection E as <-. destruct G as [G1 G2]. destruct (pair_written dim minc cord Hminc H32 Hcord s1 s2 p B1 B2 G1 G2) as (x & y & X & Y & Sh).
    rewrite H2 in X. injection X as <-. cbn [rfail_to_proto]. unfold state_action_to_proto. rewrite Y. eexists. split; [reflexivity|]. split; [exact Nm|]. cbn [prf_failure].
    destruct T as (v & T & Sn & U). exists p, v. split; [exact Sh|]. split; [exact T|]. split; [exact Sn|]. right. auto.
Qed.

Lemma refinement_total fuel o : check_refinement dim ext pext ord aord s1 s2 fuel = Ok o -> exists r, refinement_report dim ext ord minc cord pext aord fuel s1 s2 = Ok r /\ (r = None <-> o = RSuccess).
Proof.
  unfold check_refinement, check_preconditions, refinement_report, preconditions_report. intros E. inv_bind E. inv_bind H.
  destruct (precheck_total acc dim q1 ext ord minc cord Hext' Hord Hminc H32 Hcord fuel s1 (conj B1 (conj K1 (conj R1 (conj In1 M1)))) _ H0) as (r1 & -> & <-). cbn [bind].
  destruct r1 as [c|]; cbn [none negb] in H.
  { injection H as <-. injection E as <-. eexists. split; [reflexivity|split; discriminate]. }
  inv_bind H. destruct (precheck_total acc dim q2 ext ord minc cord Hext' Hord Hminc H32 Hcord fuel s2 (conj B2 (conj K2 (conj R2 (conj In2 M2)))) _ H1) as (r2 & -> & <-). cbn [bind].
  destruct r2 as [c|]; cbn [none negb] in H.
  { injection H as <-. injection E as <-. eexists. split; [reflexivity|split; discriminate]. }
  injection H as <-. destruct (action_report s1 s2) as [af|] eqn:Ea; cbn [option_map bind].
  { destruct (action_precheck s1 s2) as [u|] eqn:Eu; [|apply (actions_agree ext) in Eu; congruence]. injection E as <-. eexists. split; [reflexivity|]. split; [discriminate|]. intros ->.
    unfold action_precheck in Eu. repeat (destruct (negb _); [discriminate|]). discriminate. }
  rewrite (proj2 (actions_agree ext s1 s2) Ea) in E. rewrite E. cbn [bind]. pose proof (explore_good _ _ E) as G.
  assert (T : told_all dim s1 s2 o /\ o <> RPrecheck /\ o <> RNotDisjoint /\ o <> RNotSubset).
  { split.
    - destruct (accurate_linked acc dim q1 q2 pext s1 s2 B1 B2 K1 K2 R1 R2 In1 In2 (mild_pair _ _ _ _ _ Hext M1 M2)) as [N HN]. apply (check_refinement_told dim pext s1 s2 N HN B1 B2 q1 q2 K1 K2 R1 R2 Sep Up1 Up2 In1 In2 aord Ha ext ord fuel). unfold check_refinement, check_preconditions.
      rewrite H0, H1. cbn [bind none negb]. rewrite (proj2 (actions_agree ext s1 s2) Ea). exact E.
    - clear -E. unfold explore in E. assert (L : forall f c r, refine_loop dim pext aord s1 s2 f c = Ok r -> r <> RPrecheck /\ r <> RNotDisjoint /\ r <> RNotSubset).
      { induction f as [|f IH]; intros c r L; cbn [refine_loop] in L; [discriminate|]. inv_bind L. destruct a as [[cur w]|]; [|injection L as <-; repeat split; discriminate].
        assert (V : forall a t1 t2 is1 c0, match valid_pairs dim pext a t1 t2 cur is1 c0 with inl _ => True | inr r => r <> RPrecheck /\ r <> RNotDisjoint /\ r <> RNotSubset end).
        { intros. unfold valid_pairs. repeat (match goal with |- context [if ?b then _ else _] => destruct b end; try exact I; try (repeat split; discriminate)). destruct (build_pairs _ _ _ _ _ _); [exact I|repeat split; discriminate]. }
        inv_bind L. destruct a as [c1|r1]; [inv_bind L; destruct a as [c2|r2]; [eapply IH; exact L|]|]; injection L as <-.
        - apply loop_ended in H1. destruct H1 as (b & c3 & _ & H1). unfold input_step in H1. inv_bind H1. inv_bind H1. injection H1 as H1. pose proof (V b a0 a false c3) as X. rewrite H1 in X. exact X.
        - apply loop_ended in H0. destruct H0 as (b & c3 & _ & H0). unfold output_step in H0. inv_bind H0. inv_bind H0. injection H0 as H0. pose proof (V b a a0 true c3) as X. rewrite H0 in X. exact X. }
      destruct (initial_location dim s1), (initial_location dim s2); try (injection E as <-; repeat split; discriminate). cbv zeta in E. destruct (fempty _ _); [injection E as <-; repeat split; discriminate|]. eapply L; exact E. }
  destruct T as (_ & N1 & N2 & N3). destruct o as [| | | |b| |a p|a p]; try congruence; try (eexists; split; [reflexivity|split; [discriminate|congruence]]).
  - eexists. split; [reflexivity|tauto].
  - destruct G as [G1 G2]. destruct (pair_written dim minc cord Hminc H32 Hcord s1 s2 p B1 B2 G1 G2) as (x & y & X & _). rewrite X. eexists. split; [reflexivity|split; discriminate].
  - destruct G as [G1 G2]. destruct (pair_written dim minc cord Hminc H32 Hcord s1 s2 p B1 B2 G1 G2) as (x & y & X & _). rewrite X. eexists. split; [reflexivity|split; discriminate].
Qed.
End Pairs.
