(** Removing, merging and renumbering the clocks of components is a renaming of the compiled system. *)
From Coq Require Import List String ZArith QArith Bool Arith Lia Permutation.
From Verif Require Import Fed.Zone Fed.ZoneFacts Model.Base Model.Expr Model.Guard Model.Loc Model.Component Model.TS Model.ParseQuery Model.Files Model.Recipe Model.Reduce
  Spec.StepSpec Spec.SystemSpec Spec.RunSpec Spec.EnableSpec Spec.RecipeSpec Spec.SameSpec
  Proofs.GuardFacts Proofs.StepFacts Proofs.SystemFacts Proofs.WfFacts Proofs.RecipeFacts Proofs.ReduceFacts Proofs.RenFacts Proofs.SameFacts.
Import ListNotations.
Local Open Scope nat_scope.
Local Open Scope list_scope.

Section Ren.
Variable rho : nat -> option nat.
Definition ren_clocks (m : list (string * nat)) : list (string * nat) :=
  flat_map (fun p => match rho (snd p) with Some j => [(fst p, j)] | None => [] end) m.
Definition keep_update (d : decls) (u : string * arith) : bool :=
  match assoc (fst u) (d_clocks d) with Some i => match rho i with Some _ => true | None => false end | None => true end.
Definition ren_edge (d : decls) (e : edge) : edge :=
  mkE (e_id e) (e_src e) (e_tgt e) (e_type e) (e_guard e) (option_map (filter (keep_update d)) (e_update e)) (e_sync e).
Definition ren_comp (c : component) : component :=
  mkComp (c_name c) (mkDecls (ren_clocks (d_clocks (c_decls c))) (d_ints (c_decls c))) (c_locs c) (map (ren_edge (c_decls c)) (c_edges c)) (c_special c).

Lemma ren_clocks_in m n j : In (n, j) (ren_clocks m) <-> exists i, In (n, i) m /\ rho i = Some j.
Proof.
  unfold ren_clocks. rewrite in_flat_map. split.
  - intros ([n' i] & Hi & H). cbn in H. destruct (rho i) eqn:E; [|destruct H]. destruct H as [[= <- <-]|[]]. eauto.
  - intros (i & Hi & E). exists (n, i). split; [exact Hi|]. cbn. rewrite E. left. reflexivity.
Qed.
Lemma assoc_ren m n : NoDup (map fst m) -> assoc n (ren_clocks m) = match assoc n m with Some i => rho i | None => None end.
Proof.
  induction m as [|[n' i] m IH]; cbn [map fst]; intros N; [reflexivity|]. inversion N as [|? ? N1 N2]; subst. specialize (IH N2).
  cbn [ren_clocks flat_map fst snd assoc]. fold (ren_clocks m). destruct (String.eqb_spec n n') as [->|Ne].
  - destruct (rho i) as [j|]; cbn [app assoc]; [rewrite String.eqb_refl; reflexivity|]. rewrite IH.
    destruct (assoc n' m) eqn:A; [|reflexivity]. apply assoc_in in A. destruct N1. apply in_map_iff. exists (n', n). auto.
  - destruct (rho i) as [j|]; cbn [app assoc]; [destruct (String.eqb_spec n n'); [contradiction|]|]; exact IH.
Qed.
Lemma ren_clocks_nodup m : NoDup (map fst m) -> NoDup (map fst (ren_clocks m)).
Proof.
  induction m as [|[n i] m IH]; cbn [map fst]; intros N; [constructor|]. inversion N as [|? ? N1 N2]; subst. cbn [ren_clocks flat_map fst snd]. fold (ren_clocks m).
  destruct (rho i) as [j|]; cbn [app map fst]; [|auto]. constructor; [|auto]. intros H. apply in_map_iff in H. destruct H as ([n' j'] & E & H). cbn in E. subst n'.
  apply ren_clocks_in in H. destruct H as (i' & H & _). apply N1. apply in_map_iff. exists (n, i'). auto.
Qed.

(** No guard and no invariant mentions a clock that is removed. *)
Definition unread (c : component) : Prop := forall n i, In (n, i) (d_clocks (c_decls c)) -> rho i = None ->
  (forall l g, In l (c_locs c) -> l_inv l = Some g -> b_has_var g n = false) /\
  (forall e g, In e (c_edges c) -> e_guard e = Some g -> b_has_var g n = false).

Variables dim dim' : nat.
Hypothesis RN : renames rho dim dim'.

Section Comp.
Variable c : component.
Hypothesis Nd : NoDup (map fst (d_clocks (c_decls c))).
Hypothesis Ng : named_guards c.
Hypothesis Un : unread c.

Lemma apply_ren g r r' : g_by_name g = true -> (forall n i, In (n, i) (d_clocks (c_decls c)) -> rho i = None -> b_has_var g n = false) ->
  apply_constraints dim g (c_decls c) funiv = Ok r -> apply_constraints dim' g (c_decls (ren_comp c)) funiv = Ok r' -> frel rho dim dim' r r'.
Proof.
  intros B U E E'. eapply (apply_rel rho dim dim' (rn_zero _ _ _ RN) (c_decls c) (c_decls (ren_comp c))); [reflexivity|exact B| |apply frel_univ|exact E|exact E'].
  intros n Hn. split.
  - unfold same_name. cbn [ren_comp c_decls d_clocks]. rewrite assoc_ren by exact Nd. destruct (assoc n (d_clocks (c_decls c))) as [i|] eqn:A; [|reflexivity]. cbn. unfold total.
    destruct (rho i) eqn:Ei; [reflexivity|]. apply assoc_in in A. rewrite (U n i A Ei) in Hn. discriminate.
  - intros i A. destruct (rho i) as [j|] eqn:Ei; [exists j; exact Ei|]. apply assoc_in in A. rewrite (U n i A Ei) in Hn. discriminate.
Qed.
Lemma expect_inv {A} (x : res A) a : expect x = Ok a -> x = Ok a.
Proof. destruct x; cbn; congruence. Qed.
Lemma simple_ren l t t' : In l (c_locs c) -> lt_simple dim (c_decls c) l = Ok t -> lt_simple dim' (c_decls (ren_comp c)) l = Ok t' -> lrel rho dim dim' t t'.
Proof.
  intros Hl E E'. unfold lt_simple in *. inv_bind E. injection E as <-. inv_bind E'. injection E' as <-. constructor.
  destruct (l_inv l) as [g|] eqn:Eg; [|injection H as <-; injection H0 as <-; exact I].
  inv_bind H. injection H as <-. inv_bind H0. injection H0 as <-. cbn. apply expect_inv in H1. apply expect_inv in H. eapply apply_ren; eauto.
  - destruct Ng as [N _]. eapply N; eauto.
  - intros n i Hi Ei. destruct (Un n i Hi Ei) as [U _]. eapply U; eauto.
Qed.
Lemma updates_ren us cs cs' : mapM (fun u => compile_update u (c_decls c)) us = Ok cs ->
  mapM (fun u => compile_update u (c_decls (ren_comp c))) (filter (keep_update (c_decls c)) us) = Ok cs' -> cs' = ren_updates rho cs.
Proof.
  revert cs cs'. induction us as [|[x e] us IH]; intros cs cs' E E'; cbn [mapM filter] in *; [injection E as <-; injection E' as <-; reflexivity|].
  inv_bind E. inv_bind E. injection E as <-. unfold compile_update in H. cbn [fst snd] in H. destruct e; try discriminate.
  unfold keep_update at 1 in E'. cbn [fst] in E'. destruct (assoc x (d_clocks (c_decls c))) as [i|] eqn:A; [|discriminate]. cbn in H. injection H as <-.
  unfold ren_updates. cbn [flat_map u_clock u_value]. fold (ren_updates rho a0). destruct (rho i) as [j|] eqn:Ei.
  - cbn [mapM] in E'. inv_bind E'. inv_bind E'. injection E' as <-. unfold compile_update in H. cbn [fst snd ren_comp c_decls d_clocks] in H.
    rewrite assoc_ren in H by exact Nd. rewrite A, Ei in H. cbn in H. injection H as <-. cbn [app]. f_equal. eapply IH; eauto.
  - cbn [app]. eapply IH; eauto.
Qed.
Lemma edge_ren e t t' : In e (c_edges c) -> from_component_and_edge dim c e = Ok t -> from_component_and_edge dim' (ren_comp c) (ren_edge (c_decls c) e) = Ok t' -> trel rho dim dim' t t'.
Proof.
  intros He E E'. unfold from_component_and_edge in *. cbn [ren_edge e_tgt e_update e_id] in E'.
  inv_bind E. inv_bind E. inv_bind E. inv_bind E. injection E as <-. inv_bind E'. inv_bind E'. inv_bind E'. inv_bind E'. injection E' as <-.
  assert (X : a3 = a). { unfold get_location_by_name in *. cbn [ren_comp c_locs] in H3. rewrite H in H3. injection H3 as <-. reflexivity. } subst a3.
  constructor; cbn [t_id t_guard t_target t_updates]; [reflexivity| | |].
  - unfold edge_apply_guard in *. cbn [ren_edge e_guard] in H6. destruct (e_guard e) as [g|] eqn:Eg; [|injection H2 as <-; injection H6 as <-; apply frel_univ].
    apply expect_inv in H2. apply expect_inv in H6. eapply apply_ren; eauto.
    + destruct Ng as [_ N]. eapply N; eauto.
    + intros n i Hi Ei. destruct (Un n i Hi Ei) as [_ U]. eapply U; eauto.
  - eapply simple_ren; eauto. unfold get_location_by_name in H. destruct (filter _ _) as [|x [|y z]] eqn:F; try discriminate. injection H as ->.
    assert (Y : In a (filter (fun l => String.eqb (l_id l) (e_tgt e)) (c_locs c))) by (rewrite F; left; reflexivity). apply filter_In in Y. apply Y.
  - destruct (e_update e) as [us|]; cbn [option_map] in H5; [eapply updates_ren; eauto|]. cbn in H1, H5. injection H1 as <-. injection H5 as <-. reflexivity.
Qed.
Lemma mapM_rel {A B C} (f : A -> res B) (g : A -> res C) (R : B -> C -> Prop) l : forall x y, mapM f l = Ok x -> mapM g l = Ok y ->
  (forall a b d, In a l -> f a = Ok b -> g a = Ok d -> R b d) -> Forall2 R x y.
Proof.
  induction l as [|a l IH]; intros x y E F X; cbn [mapM] in *; [injection E as <-; injection F as <-; constructor|].
  inv_bind E. inv_bind E. injection E as <-. inv_bind F. inv_bind F. injection F as <-. constructor; [apply (X a); auto; left; reflexivity|].
  apply IH; auto. intros; eapply X; eauto. right. assumption.
Qed.
Lemma mapM_map {A B C} (f : B -> res C) (h : A -> B) l : mapM f (map h l) = mapM (fun a => f (h a)) l.
Proof. induction l as [|a l IH]; cbn [map mapM]; [reflexivity|]. rewrite IH. reflexivity. Qed.
Lemma keep_last_rel l l' : Forall2 (lrel rho dim dim') l l' -> Forall2 (lrel rho dim dim') (keep_last l) (keep_last l').
Proof.
  induction 1 as [|a b l l' R F IH]; cbn [keep_last]; [constructor|].
  assert (X : existsb (fun u => locid_eqb (lt_id a) (lt_id u)) l = existsb (fun u => locid_eqb (lt_id b) (lt_id u)) l').
  { rewrite (lrel_id _ _ _ _ _ R). clear - F. induction F as [|c d l l' R F IH]; cbn [existsb]; [reflexivity|]. rewrite IH, (lrel_id _ _ _ _ _ R). reflexivity. }
  rewrite X. destruct (existsb _ l'); [exact IH|constructor; assumption].
Qed.
Lemma actions_ren ty : specific_actions (ren_comp c) ty = specific_actions c ty.
Proof.
  unfold specific_actions. f_equal. cbn [ren_comp c_edges]. clear. induction (c_edges c) as [|e es IH]; cbn [map filter]; [reflexivity|]. cbn [ren_edge e_type e_sync].
  destruct (synctype_eqb (e_type e) ty && negb (String.eqb (e_sync e) "*")); cbn [map]; rewrite IH; reflexivity.
Qed.
Lemma comp_ren k k' cc cc' : compile_component dim c k = Ok cc -> compile_component dim' (ren_comp c) k' = Ok cc' -> ccrel rho dim dim' cc cc'.
Proof.
  intros E E'. unfold compile_component, input_actions, output_actions in *. rewrite !actions_ren in E'. unfold compile_with_actions in *.
  destruct (negb _); [discriminate|]. inv_bind E. inv_bind E. destruct (forallb _ (c_edges c)); [|discriminate]. injection E as <-.
  inv_bind E'. inv_bind E'. destruct (forallb _ _); [|discriminate]. injection E' as <-. cbn [ren_comp c_locs c_edges] in *.
  assert (L : Forall2 (lrel rho dim dim') a a1) by (eapply mapM_rel; [exact H|exact H1|]; intros; eapply simple_ren; eauto).
  assert (K : Forall2 (lrel rho dim dim') (keep_last a) (keep_last a1)) by (apply keep_last_rel, L).
  assert (T : Forall2 (fun p p' => e_sync (fst p) = e_sync (fst p') /\ e_src (fst p) = e_src (fst p') /\ trel rho dim dim' (snd p) (snd p')) a0 a2).
  { rewrite mapM_map in H2. eapply mapM_rel; [exact H0|exact H2|]. intros e p p' He Ep Ep'. cbn beta in Ep, Ep'. inv_bind Ep. injection Ep as <-. inv_bind Ep'. injection Ep' as <-.
    cbn [fst snd ren_edge e_sync e_src]. split; [reflexivity|]. split; [reflexivity|]. eapply edge_ren; eauto. }
  constructor; cbn [cc_inputs cc_outputs cc_locs cc_edges cc_init]; [reflexivity|reflexivity|exact K| |].
  - eapply Forall2_map; [exact K|]. intros u u' _ _ Ru. cbn [fst snd]. split; [symmetry; eapply lrel_id; eauto|].
    eapply Forall2_map; [eapply Forall2_filter; [exact T|]|].
    + intros p p' _ _ (_ & S1 & _). rewrite S1, (lrel_id _ _ _ _ _ Ru). reflexivity.
    + intros p p' _ _ (S1 & _ & S2). cbn [fst snd]. auto.
  - eapply Forall2_find; [exact K|]. intros u u' Ru. unfold is_initial. rewrite (lrel_type _ _ _ _ _ Ru). reflexivity.
Qed.
End Comp.

(** The same for whole systems; the quotients are renamed as well. *)
Fixpoint ren_recipe (r : recipe) : recipe :=
  match r with
  | RSimple c => RSimple (ren_comp c)
  | RComp l r => RComp (ren_recipe l) (ren_recipe r)
  | RConj l r => RConj (ren_recipe l) (ren_recipe r)
  | RQuot l r q => RQuot (ren_recipe l) (ren_recipe r) (total rho q)
  end.
Lemma system_ren least pre least' pre' r : (forall c, In c (components r) -> NoDup (map fst (d_clocks (c_decls c))) /\ named_guards c /\ unread c) ->
  (forall q, In q (quotient_clocks r) -> kept rho q) ->
  forall k k1 s k' k1' s', compile_at least pre dim r k = Ok (s, k1) -> compile_at least' pre' dim' (ren_recipe r) k' = Ok (s', k1') -> srel rho dim dim' s s'.
Proof.
  induction r as [c|l IHl r IHr|l IHl r IHr|l IHl r IHr q]; intros Hc Hq k k1 s k' k1' s' E E'; cbn [compile_at ren_recipe components quotient_clocks] in *.
  - inv_bind E. injection E as <- <-. inv_bind E'. injection E' as <- <-. constructor. destruct (Hc c (or_introl eq_refl)) as (H1 & H2 & H3). eapply comp_ren; eauto.
  - inv_bind E. destruct a as [l1 kl]. inv_bind E. destruct a as [r1 kr]. inv_bind E. injection E as <- <-.
    inv_bind E'. destruct a0 as [l2 kl']. inv_bind E'. destruct a0 as [r2 kr']. inv_bind E'. injection E' as <- <-.
    assert (L : srel rho dim dim' l1 l2) by (eapply IHl; eauto; intros; [apply Hc|apply Hq]; apply in_or_app; auto).
    assert (R : srel rho dim dim' r1 r2) by (eapply IHr; eauto; intros; [apply Hc|apply Hq]; apply in_or_app; auto).
    unfold composition_new in *. rewrite (srel_inputs _ _ _ _ _ L), (srel_inputs _ _ _ _ _ R), (srel_outputs _ _ _ _ _ L), (srel_outputs _ _ _ _ _ R) in H4.
    destruct (negb _); [discriminate|]. injection H1 as <-. injection H4 as <-. constructor; assumption.
  - inv_bind E. destruct a as [l1 kl]. inv_bind E. destruct a as [r1 kr]. inv_bind E. injection E as <- <-.
    inv_bind E'. destruct a0 as [l2 kl']. inv_bind E'. destruct a0 as [r2 kr']. inv_bind E'. injection E' as <- <-.
    assert (L : srel rho dim dim' l1 l2) by (eapply IHl; eauto; intros; [apply Hc|apply Hq]; apply in_or_app; auto).
    assert (R : srel rho dim dim' r1 r2) by (eapply IHr; eauto; intros; [apply Hc|apply Hq]; apply in_or_app; auto).
    unfold conjunction_ts in *. inv_bind H1. inv_bind H1. destruct a2; [|discriminate]. injection H1 as <-. inv_bind H4. inv_bind H4. destruct a2; [|discriminate]. injection H4 as <-.
    unfold conjunction_new in *. rewrite (srel_inputs _ _ _ _ _ L), (srel_inputs _ _ _ _ _ R), (srel_outputs _ _ _ _ _ L), (srel_outputs _ _ _ _ _ R) in H1.
    repeat (destruct (negb _); [discriminate|]). injection H5 as <-. injection H1 as <-. constructor; assumption.
  - inv_bind E. destruct a as [l1 kl]. inv_bind E. destruct a as [r1 kr]. inv_bind E. injection E as <- <-.
    inv_bind E'. destruct a0 as [l2 kl']. inv_bind E'. destruct a0 as [r2 kr']. inv_bind E'. injection E' as <- <-.
    assert (L : srel rho dim dim' l1 l2) by (eapply IHl; eauto; intros; [apply Hc|apply Hq; right]; apply in_or_app; auto).
    assert (R : srel rho dim dim' r1 r2) by (eapply IHr; eauto; intros; [apply Hc|apply Hq; right]; apply in_or_app; auto).
    unfold quotient_ts in *. destruct (negb _); [discriminate|]. inv_bind H1. destruct a1; [|discriminate]. inv_bind H1. destruct a1; [|discriminate].
    destruct (negb _); [discriminate|]. inv_bind H4. destruct a1; [|discriminate]. inv_bind H4. destruct a1; [|discriminate].
    unfold quotient_new in *. rewrite (srel_inputs _ _ _ _ _ L), (srel_inputs _ _ _ _ _ R), (srel_outputs _ _ _ _ _ L), (srel_outputs _ _ _ _ _ R) in H4.
    destruct (negb _); [discriminate|]. destruct (fresh_input _ _ _) as [n| | |]; cbn [bind] in H1, H4; try discriminate. injection H1 as <-. injection H4 as <-. constructor; auto.
    destruct (Hq q (or_introl eq_refl)) as [j Ej]. unfold total. rewrite Ej. reflexivity.
Qed.
End Ren.
