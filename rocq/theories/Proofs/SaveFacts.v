(** Saving a system as a component keeps its locations, transitions and behaviour. *)
From Coq Require Import List String Ascii ZArith QArith Bool Arith Lia Permutation.
From Verif Require Import Fed.Zone Fed.ZoneFacts Model.Base Model.Expr Model.Guard Model.Loc Model.Component Model.TS Model.Enable Model.Files Model.Save
  Spec.GuardSpec Spec.ConvSpec Spec.StepSpec Spec.SystemSpec Spec.RunSpec Spec.EnableSpec Spec.RefineSpec Spec.ReduceSpec Spec.IdSpec Spec.SaveSpec
  Proofs.GuardFacts Proofs.ConvFacts Proofs.StepFacts Proofs.SystemFacts Proofs.QuotientFacts Proofs.WfFacts Proofs.RunFacts Proofs.ReadsFacts Proofs.EnableFacts Proofs.CompileFacts
  Proofs.FileFacts Proofs.IdFacts Proofs.ClockMapFacts.
Import ListNotations.
Local Open Scope nat_scope.
Local Open Scope list_scope.

(** ** Locations *)

Lemma keep_last_nodup l : NoDup (map lt_id (keep_last l)).
Proof.
  induction l as [|t l IH]; cbn [keep_last]; [constructor|].
  destruct (existsb (fun u => locid_eqb (lt_id t) (lt_id u)) l) eqn:E; [exact IH|]. cbn [map]. constructor; [|exact IH].
  intros H. apply in_map_iff in H. destruct H as (u & Eu & Hu). apply keep_last_in in Hu.
  assert (X : existsb (fun u => locid_eqb (lt_id t) (lt_id u)) l = true) by (apply existsb_exists; exists u; split; [exact Hu|apply locid_eqb_eq; congruence]). congruence.
Qed.

Lemma product_nodup {A B C D} (f : A * B -> C) (g : C -> D) (ka : A -> D) (kb : B -> D) la lb :
  (forall a b a' b', g (f (a, b)) = g (f (a', b')) -> ka a = ka a' /\ kb b = kb b') ->
  NoDup (map ka la) -> NoDup (map kb lb) -> NoDup (map g (map f (list_prod la lb))).
Proof.
  intros Inj Na Nb. induction la as [|a la IH]; cbn [list_prod map]; [constructor|]. inversion Na as [|? ? N1 N2]; subst.
  rewrite !map_app, !map_map. 
  assert (Dis : forall l1 l2 : list D, NoDup l1 -> NoDup l2 -> (forall x, In x l1 -> ~ In x l2) -> NoDup (l1 ++ l2)).
  { clear. induction l1 as [|x l1 IH]; intros l2 H1 H2 H; [exact H2|]. cbn. inversion H1; subst. constructor; [|apply IH; auto; intros y Hy; apply H; right; exact Hy].
    intros C0. apply in_app_or in C0. destruct C0 as [C0|C0]; [auto|]. apply (H x (or_introl eq_refl) C0). }
  apply Dis.
  - clear IH N1 N2 Na. induction lb as [|b lb IH]; cbn [map]; [constructor|]. inversion Nb as [|? ? M1 M2]; subst. constructor; [|apply IH; exact M2].
    intros H. apply in_map_iff in H. destruct H as (b' & E & Hb). apply Inj in E. apply M1. apply in_map_iff. exists b'. split; [apply (proj2 E)|exact Hb].
  - rewrite <- map_map. apply IH. exact N2.
  - intros x H1 H2. apply in_map_iff in H1. destruct H1 as (b & <- & Hb). apply in_map_iff in H2. destruct H2 as ([a' b'] & E & Hp). apply in_prod_iff in Hp. apply Inj in E.
    apply N1. apply in_map_iff. exists a'. split; [apply (proj1 E)|apply Hp].
Qed.

Lemma locations_nodup dim s : built dim s -> NoDup (map lt_id (all_locations dim s)).
Proof.
  induction 1 as [c ins outs id cc E|l r s Hl IHl Hr IHr E|l r s Hl IHl Hr IHr E|T S q s HT IHT HS IHS E].
  - cbn [all_locations]. destruct (compile_inv _ _ _ _ _ _ E) as (ls & es & _ & _ & -> & _). apply keep_last_nodup.
  - apply conjunction_new_inv in E. destruct E as (-> & _ & _). cbn [all_locations].
    assert (X : forall l, flat_map (fun p => match lt_compose dim (fst p) (snd p) CConj with Ok t => [t] | _ => [] end) l =
      map (fun p => LNode (LConj (lt_id (fst p)) (lt_id (snd p))) (inv_inter dim (lt_inv (fst p)) (lt_inv (snd p))) (combine_type (lt_type (fst p)) (lt_type (snd p))) (fst p) (snd p)) l).
    { intros p. induction p as [|x p IH]; [reflexivity|]. cbn [flat_map map]. rewrite IH. reflexivity. }
    rewrite X. apply product_nodup with (ka := lt_id) (kb := lt_id); [|exact IHl|exact IHr]. intros a b a' b' H. cbn in H. injection H as H1 H2. auto.
  - apply composition_new_inv in E. destruct E as (_ & ins & outs & lo & ro & co & -> & _). cbn [all_locations].
    assert (X : forall l, flat_map (fun p => match lt_compose dim (fst p) (snd p) CComp with Ok t => [t] | _ => [] end) l =
      map (fun p => LNode (LComp (lt_id (fst p)) (lt_id (snd p))) (inv_inter dim (lt_inv (fst p)) (lt_inv (snd p))) (combine_type (lt_type (fst p)) (lt_type (snd p))) (fst p) (snd p)) l).
    { intros p. induction p as [|x p IH]; [reflexivity|]. cbn [flat_map map]. rewrite IH. reflexivity. }
    rewrite X. apply product_nodup with (ka := lt_id) (kb := lt_id); [|exact IHl|exact IHr]. intros a b a' b' H. cbn in H. injection H as H1 H2. auto.
  - apply quotient_new_inv in E. destruct E as (n & ins & outs & -> & _). cbn [all_locations]. rewrite map_app. cbn [map lt_id lt_error lt_universal].
    assert (P : NoDup (map lt_id (map (fun p => lt_quotient (fst p) (snd p)) (list_prod (all_locations dim T) (all_locations dim S))))).
    { apply product_nodup with (ka := lt_id) (kb := lt_id); [|exact IHT|exact IHS]. intros a b a' b' H. cbn in H. injection H as H1 H2. auto. }
    assert (Q : forall x, In x (map lt_id (map (fun p => lt_quotient (fst p) (snd p)) (list_prod (all_locations dim T) (all_locations dim S)))) -> exists a b, x = LQuot a b).
    { intros x H. rewrite map_map in H. apply in_map_iff in H. destruct H as ([a b] & <- & _). cbn. eauto. }
    revert P Q. generalize (map lt_id (map (fun p => lt_quotient (fst p) (snd p)) (list_prod (all_locations dim T) (all_locations dim S)))). intros ids P Q.
    induction ids as [|x ids IH]; [repeat constructor; cbn; intuition discriminate|]. cbn. inversion P; subst. constructor.
    + intros C. apply in_app_or in C. destruct C as [C|C]; [auto|]. destruct (Q x (or_introl eq_refl)) as (a & b & ->). cbn in C. intuition discriminate.
    + apply IH; [assumption|]. intros y Hy. apply Q. right. exact Hy.
Qed.

Lemma nodup_of_map {A B} (f : A -> B) l : NoDup (map f l) -> NoDup l.
Proof. apply NoDup_map_inv. Qed.

(** Initial locations. *)
Lemma initial_type dim s : built dim s ->
  (forall l, initial_location dim s = Some l -> lt_type l = Initial) /\
  (initial_location dim s = None -> forall l, In l (all_locations dim s) -> lt_type l <> Initial).
Proof.
  assert (Comb : forall a b, combine_type a b = Initial <-> a = Initial /\ b = Initial).
  { intros a b. destruct a, b; cbn; split; try discriminate; try tauto; intros [? ?]; discriminate. }
  induction 1 as [c ins outs id cc E|l r s Hl IHl Hr IHr E|l r s Hl IHl Hr IHr E|T S q s HT IHT HS IHS E].
  - cbn [initial_location all_locations]. destruct (compile_inv _ _ _ _ _ _ E) as (ls & es & _ & _ & -> & _ & _ & _ & ->). split.
    + intros l H. apply find_some in H. destruct H as [_ H]. unfold is_initial in H. destruct (lt_type l); try discriminate. reflexivity.
    + intros H l Hl C. pose proof (find_none _ _ H l Hl) as X. unfold is_initial in X. rewrite C in X. discriminate.
  - apply conjunction_new_inv in E. destruct E as (-> & _ & _). cbn [initial_location all_locations]. destruct IHl as [L1 L2], IHr as [R1 R2]. split.
    + intros p H. destruct (initial_location dim l) as [a|], (initial_location dim r) as [b|]; try discriminate. cbn in H. injection H as <-. cbn [lt_type]. apply Comb. auto.
    + intros H p Hp. apply in_all_compose in Hp; [|left; reflexivity]. destruct Hp as (a & b & Ha & Hb & Ep). cbn in Ep. injection Ep as <-. cbn [lt_type]. rewrite Comb. intros [Ta Tb].
      destruct (initial_location dim l) as [x|]; [|exact (L2 eq_refl a Ha Ta)]. destruct (initial_location dim r) as [y|]; [discriminate|exact (R2 eq_refl b Hb Tb)].
  - apply composition_new_inv in E. destruct E as (_ & ins & outs & lo & ro & co & -> & _). cbn [initial_location all_locations]. destruct IHl as [L1 L2], IHr as [R1 R2]. split.
    + intros p H. destruct (initial_location dim l) as [a|], (initial_location dim r) as [b|]; try discriminate. cbn in H. injection H as <-. cbn [lt_type]. apply Comb. auto.
    + intros H p Hp. apply in_all_compose in Hp; [|right; reflexivity]. destruct Hp as (a & b & Ha & Hb & Ep). cbn in Ep. injection Ep as <-. cbn [lt_type]. rewrite Comb. intros [Ta Tb].
      destruct (initial_location dim l) as [x|]; [|exact (L2 eq_refl a Ha Ta)]. destruct (initial_location dim r) as [y|]; [discriminate|exact (R2 eq_refl b Hb Tb)].
  - apply quotient_new_inv in E. destruct E as (n & ins & outs & -> & _). cbn [initial_location all_locations]. destruct IHT as [L1 L2], IHS as [R1 R2]. split.
    + intros p H. destruct (initial_location dim T) as [a|], (initial_location dim S) as [b|]; try discriminate. injection H as <-. cbn [lt_type lt_quotient]. apply Comb. auto.
    + intros H p Hp. apply in_app_or in Hp. destruct Hp as [Hp|Hp]; [|destruct Hp as [<-|[<-|[]]]; cbn; discriminate].
      apply in_map_iff in Hp. destruct Hp as ([a b] & <- & Hp). apply in_prod_iff in Hp. destruct Hp as [Ha Hb]. cbn [lt_type lt_quotient fst snd]. rewrite Comb. intros [Ta Tb].
      destruct (initial_location dim T) as [x|]; [|exact (L2 eq_refl a Ha Ta)]. destruct (initial_location dim S) as [y|]; [discriminate|exact (R2 eq_refl b Hb Tb)].
Qed.
Lemma initial_unique dim s : built dim s -> single_initials s -> forall a b, In a (all_locations dim s) -> In b (all_locations dim s) ->
  lt_type a = Initial -> lt_type b = Initial -> a = b.
Proof.
  assert (Comb : forall a b, combine_type a b = Initial -> a = Initial /\ b = Initial) by (intros a b; destruct a, b; cbn; try discriminate; auto).
  induction 1 as [c ins outs id cc E|l r s Hl IHl Hr IHr E|l r s Hl IHl Hr IHr E|T S q s HT IHT HS IHS E]; intros Si a b Ha Hb Ta Tb.
  - cbn [all_locations single_initials] in *. auto.
  - apply conjunction_new_inv in E. destruct E as (-> & _ & _). cbn [single_initials] in Si. cbn [all_locations] in Ha, Hb.
    apply in_all_compose in Ha; [|left; reflexivity]. apply in_all_compose in Hb; [|left; reflexivity].
    destruct Ha as (a1 & a2 & A1 & A2 & Ea), Hb as (b1 & b2 & B1 & B2 & Eb). cbn in Ea, Eb. injection Ea as <-. injection Eb as <-. cbn [lt_type] in Ta, Tb.
    apply Comb in Ta. apply Comb in Tb. rewrite (IHl (proj1 Si) a1 b1), (IHr (proj2 Si) a2 b2); tauto.
  - apply composition_new_inv in E. destruct E as (_ & ins & outs & lo & ro & co & -> & _). cbn [single_initials] in Si. cbn [all_locations] in Ha, Hb.
    apply in_all_compose in Ha; [|right; reflexivity]. apply in_all_compose in Hb; [|right; reflexivity].
    destruct Ha as (a1 & a2 & A1 & A2 & Ea), Hb as (b1 & b2 & B1 & B2 & Eb). cbn in Ea, Eb. injection Ea as <-. injection Eb as <-. cbn [lt_type] in Ta, Tb.
    apply Comb in Ta. apply Comb in Tb. rewrite (IHl (proj1 Si) a1 b1), (IHr (proj2 Si) a2 b2); tauto.
  - apply quotient_new_inv in E. destruct E as (n & ins & outs & -> & _). cbn [single_initials] in Si. cbn [all_locations] in Ha, Hb.
    apply in_app_or in Ha. destruct Ha as [Ha|Ha]; [|destruct Ha as [<-|[<-|[]]]; discriminate]. apply in_app_or in Hb. destruct Hb as [Hb|Hb]; [|destruct Hb as [<-|[<-|[]]]; discriminate].
    apply in_map_iff in Ha. destruct Ha as ([a1 a2] & <- & Ha). apply in_map_iff in Hb. destruct Hb as ([b1 b2] & <- & Hb). apply in_prod_iff in Ha. apply in_prod_iff in Hb.
    cbn [lt_type lt_quotient fst snd] in *. apply Comb in Ta. apply Comb in Tb. rewrite (IHT (proj1 Si) a1 b1), (IHS (proj2 Si) a2 b2); tauto.
Qed.

(** The declared clocks. *)
Lemma clocks_declared s i : In i (sys_clocks s) <-> exists k x, clock_of (ts_decls s) k x i.
Proof.
  assert (C : forall ds, (exists k x, clock_of ds k x i) <-> In i (flat_map (map snd) ds)).
  { intros ds. rewrite in_flat_map. split.
    - intros (k & x & d & Hk & Hx). exists d. split; [eapply nth_error_In; eauto|]. apply in_map_iff. exists (x, i). auto.
    - intros (d & Hd & Hi). apply In_nth_error in Hd. destruct Hd as (k & Hk). apply in_map_iff in Hi. destruct Hi as ([x j] & <- & Hx). exists k, x, d. auto. }
  rewrite C. clear C. induction s as [c|l IHl r IHr ins outs|l IHl r IHr ins outs lo ro co|T IHT S IHS ins outs n q]; cbn [sys_clocks ts_decls flat_map].
  - rewrite app_nil_r. reflexivity.
  - rewrite flat_map_app, !in_app_iff, IHl, IHr. reflexivity.
  - rewrite flat_map_app, !in_app_iff, IHl, IHr. reflexivity.
  - rewrite !flat_map_app, !in_app_iff. cbn. rewrite in_app_iff, IHT, IHS. tauto.
Qed.

(** ** Collecting reachable locations *)
Section Collect.
Variable dim : nat.
Variable ord : list string -> list string.
Variable s : ts.
Hypothesis B : built dim s.
Hypothesis O : same_elements ord.

Inductive steps_to (l : loctree) : loctree -> Prop :=
| st_refl : steps_to l l
| st_step x a t : steps_to l x -> offered dim s x a t -> steps_to l (t_target t).
Lemma steps_trans a b c : steps_to a b -> steps_to b c -> steps_to a c.
Proof. intros H1 H2. induction H2; [exact H1|econstructor; eauto]. Qed.

Let L := all_locations dim s.

Definition succ_in (acc' : list loctree) (x : loctree) : Prop := forall a t, offered dim s x a t -> In (t_target t) acc'.
Definition good (acc : list loctree) : Prop := NoDup acc /\ forall x, In x acc -> In x L.
Record post (acc acc' : list loctree) (l : loctree) : Prop := {
  po_incl : forall x, In x acc -> In x acc';
  po_good : good acc';
  po_reach : forall x, In x acc' -> In x acc \/ steps_to l x;
  po_closed : forall x, In x acc' -> ~ In x acc -> succ_in acc' x }.

Lemma loc_eqb_in l acc : In l L -> (forall x, In x acc -> In x L) -> existsb (lt_eqb l) acc = true <-> In l acc.
Proof.
  intros Hl Hacc. rewrite existsb_exists. split.
  - intros (x & Hx & E). unfold lt_eqb in E. apply andb_true_iff in E. destruct E as [E _]. apply locid_eqb_eq in E.
    rewrite (location_inj dim s B l x Hl (Hacc x Hx) E). exact Hx.
  - intros H. exists l. split; [exact H|]. unfold lt_eqb. rewrite locid_eqb_refl. destruct (lt_type l); reflexivity.
Qed.
Lemma loc_in_dec l acc : In l L -> good acc -> In l acc \/ ~ In l acc.
Proof. intros Hl [_ G]. destruct (existsb (lt_eqb l) acc) eqn:E; [left; apply (loc_eqb_in l acc Hl G), E|right; intros C; apply (loc_eqb_in l acc Hl G) in C; congruence]. Qed.

Lemma post_refl acc l : good acc -> post acc acc l.
Proof. intros G. split; auto. intros x H N. contradiction. Qed.
Lemma post_trans acc1 acc2 acc3 l : post acc1 acc2 l -> post acc2 acc3 l -> post acc1 acc3 l.
Proof.
  intros P Q. split.
  - intros x H. apply (po_incl _ _ _ Q), (po_incl _ _ _ P), H.
  - apply (po_good _ _ _ Q).
  - intros x H. destruct (po_reach _ _ _ Q x H) as [H'|H']; [apply (po_reach _ _ _ P x H')|auto].
  - intros x H N. destruct (loc_in_dec x acc2 (proj2 (po_good _ _ _ Q) x H) (po_good _ _ _ P)) as [H2|H2].
    + intros a t Ho. apply (po_incl _ _ _ Q). apply (po_closed _ _ _ P x H2 N a t Ho).
    + exact (po_closed _ _ _ Q x H H2).
Qed.
Lemma post_length acc acc' l : good acc -> post acc acc' l -> List.length acc <= List.length acc' /\ List.length acc' <= List.length L.
Proof.
  intros [N _] P. split; [apply NoDup_incl_length; [exact N|exact (po_incl _ _ _ P)]|]. destruct (po_good _ _ _ P) as [N' G]. apply NoDup_incl_length; assumption.
Qed.

Definition rec_spec (fuel : nat) (rec : loctree -> list loctree -> res (list loctree)) : Prop :=
  forall l acc, In l acc -> good acc -> List.length L < fuel + List.length acc ->
    exists acc', rec l acc = Ok acc' /\ post acc acc' l /\ succ_in acc' l.

Lemma visit_spec fuel rec l a t acc : rec_spec fuel rec -> In l L -> offered dim s l a t -> good acc -> List.length L < S fuel + List.length acc ->
  exists acc', visit_target rec acc t = Ok acc' /\ post acc acc' l /\ In (t_target t) acc'.
Proof.
  intros R Hl Ho G Hf. unfold visit_target.
  assert (Ht : In (t_target t) L).
  { destruct Ho as [Ha (ts & Ets & Ht)]. destruct (next_wf dim s B l a Hl Ha) as (ts' & E' & W). rewrite Ets in E'. injection E' as <-. auto. }
  assert (St : steps_to l (t_target t)) by (eapply st_step; [apply st_refl|exact Ho]).
  destruct (existsb (lt_eqb (t_target t)) acc) eqn:E.
  - apply (loc_eqb_in _ acc Ht (proj2 G)) in E. exists acc. split; [reflexivity|]. split; [apply post_refl; exact G|exact E].
  - assert (N : ~ In (t_target t) acc) by (intros C; apply (loc_eqb_in _ acc Ht (proj2 G)) in C; congruence).
    assert (G' : good (acc ++ [t_target t])).
    { split.
      - apply NoDup_Add with (a := t_target t) (l := acc); [|split; [apply G|exact N]]. pose proof (Add_app (t_target t) acc []) as A. rewrite app_nil_r in A. exact A.
      - intros x H. apply in_app_or in H. destruct H as [H|[<-|[]]]; [apply G; exact H|exact Ht]. }
    destruct (R (t_target t) (acc ++ [t_target t])) as (acc' & E' & P & Sc).
    + apply in_or_app. right. left. reflexivity.
    + exact G'.
    + rewrite app_length. cbn [List.length]. lia.
    + exists acc'. split; [exact E'|]. split; [|apply (po_incl _ _ _ P); apply in_or_app; right; left; reflexivity]. split.
      * intros x H. apply (po_incl _ _ _ P). apply in_or_app. left. exact H.
      * apply (po_good _ _ _ P).
      * intros x H. destruct (po_reach _ _ _ P x H) as [H'|H']; [|right; eapply steps_trans; eauto].
        apply in_app_or in H'. destruct H' as [H'|[<-|[]]]; auto.
      * intros x H N'. destruct (loc_in_dec x (acc ++ [t_target t]) (proj2 (po_good _ _ _ P) x H) G') as [H'|H']; [|exact (po_closed _ _ _ P x H H')].
        apply in_app_or in H'. destruct H' as [H'|[<-|[]]]; [contradiction|exact Sc].
Qed.

Lemma visits_spec fuel rec l a ts : rec_spec fuel rec -> In l L -> (forall t, In t ts -> offered dim s l a t) -> forall acc, good acc -> List.length L < S fuel + List.length acc ->
  exists acc', foldM (visit_target rec) ts acc = Ok acc' /\ post acc acc' l /\ forall t, In t ts -> In (t_target t) acc'.
Proof.
  intros R Hl. induction ts as [|t ts IH]; intros Ho acc G Hf; cbn [foldM].
  - exists acc. split; [reflexivity|]. split; [apply post_refl; exact G|intros t []].
  - destruct (visit_spec fuel rec l a t acc R Hl (Ho t (or_introl eq_refl)) G Hf) as (acc1 & E1 & P1 & H1). rewrite E1. cbn [bind].
    destruct (post_length _ _ _ G P1) as [Le _].
    destruct (IH (fun u Hu => Ho u (or_intror Hu)) acc1 (po_good _ _ _ P1)) as (acc2 & E2 & P2 & H2); [lia|].
    exists acc2. split; [exact E2|]. split; [eapply post_trans; eauto|]. intros u [<-|Hu]; [apply (po_incl _ _ _ P2); exact H1|auto].
Qed.

Lemma actions_spec fuel rec l acts : rec_spec fuel rec -> In l L -> (forall a, In a acts -> is_action s a) -> forall acc, good acc -> List.length L < S fuel + List.length acc ->
  exists acc', foldM (fun acc a => do ts <- next_transitions dim s l a; foldM (visit_target rec) ts acc) acts acc = Ok acc' /\ post acc acc' l /\
    forall a t, In a acts -> offered dim s l a t -> In (t_target t) acc'.
Proof.
  intros R Hl. induction acts as [|a acts IH]; intros Ha acc G Hf; cbn [foldM].
  - exists acc. split; [reflexivity|]. split; [apply post_refl; exact G|intros a t []].
  - destruct (next_wf dim s B l a Hl (Ha a (or_introl eq_refl))) as (ts & Ets & _). rewrite Ets. cbn [bind].
    destruct (visits_spec fuel rec l a ts R Hl) with (acc := acc) as (acc1 & E1 & P1 & H1); [|exact G|exact Hf|].
    { intros t Ht. split; [apply Ha; left; reflexivity|]. exists ts. auto. }
    rewrite E1. cbn [bind]. destruct (post_length _ _ _ G P1) as [Le _].
    destruct (IH (fun u Hu => Ha u (or_intror Hu)) acc1 (po_good _ _ _ P1)) as (acc2 & E2 & P2 & H2); [lia|].
    exists acc2. split; [exact E2|]. split; [eapply post_trans; eauto|]. intros b t [<-|Hb] Ho; [|eauto].
    apply (po_incl _ _ _ P2). apply H1. destruct Ho as [_ (ts' & E' & Ht)]. congruence.
Qed.

Lemma collect_spec fuel : rec_spec fuel (collect_from dim ord fuel s).
Proof.
  induction fuel as [|fuel IH]; intros l acc Hl G Hf.
  - exfalso. destruct G as [N G]. pose proof (NoDup_incl_length N G). lia.
  - cbn [collect_from]. destruct (actions_spec fuel (collect_from dim ord fuel s) l (ord (ts_inputs s) ++ ord (ts_outputs s)) IH (proj2 G l Hl)) with (acc := acc) as (acc' & E & P & H); [|exact G|exact Hf|].
    + intros a H. apply in_app_or in H. destruct H as [H|H]; rewrite (O _) in H; [left|right]; exact H.
    + exists acc'. split; [exact E|]. split; [exact P|]. intros a t Ho. apply (H a t); [|exact Ho].
      destruct Ho as [[Hi|Ho] _]; apply in_or_app; [left|right]; rewrite (O _); assumption.
Qed.

Lemma collected l0 fuel : initial_location dim s = Some l0 -> List.length L <= fuel ->
  exists ls, collect_from dim ord fuel s l0 [l0] = Ok ls /\ NoDup ls /\ forall l, In l ls <-> edge_reach dim s l.
Proof.
  intros Ei Hf. assert (H0 : In l0 L) by (apply (initial_wf dim s B); exact Ei).
  assert (G0 : good [l0]) by (split; [repeat constructor; intros []|intros x [<-|[]]; exact H0]).
  destruct (collect_spec fuel l0 [l0] (or_introl eq_refl) G0) as (ls & E & P & Sc); [cbn [List.length]; lia|].
  exists ls. split; [exact E|]. split; [apply (po_good _ _ _ P)|]. intros l. split.
  - intros H. assert (X : steps_to l0 l) by (destruct (po_reach _ _ _ P l H) as [[<-|[]]|H']; [apply st_refl|exact H']).
    clear H. induction X as [|x a t _ IH Ho]; [apply er_init; exact Ei|econstructor 2; eauto].
  - induction 1 as [l El|l a t _ IH Ho].
    + assert (l = l0) by congruence. subst l. apply (po_incl _ _ _ P). left. reflexivity.
    + destruct (loc_in_dec l [l0] (proj2 (po_good _ _ _ P) l IH) G0) as [[<-|[]]|N]; [apply (Sc a t Ho)|apply (po_closed _ _ _ P l IH N a t Ho)].
Qed.
End Collect.
