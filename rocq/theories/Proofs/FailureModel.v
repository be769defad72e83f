(** Names through compilation and clock reduction, and what the failures of putting systems together say. *)
From Coq Require Import List String ZArith QArith Bool Arith Lia Permutation.
From Verif Require Import Fed.Zone Model.Base Model.Expr Model.Guard Model.Loc Model.Component Model.TS Model.ParseQuery Model.Files Model.Recipe Model.Reduce Model.PairList
  Model.Search Model.Refine Model.Query Model.Save Model.Prune Model.Sim Model.Wire Model.Exec Model.Failure
  Spec.StepSpec Spec.SystemSpec Spec.RunSpec Spec.RefineSpec Spec.RecipeSpec Spec.ReduceSpec Spec.ExecSpec
  Proofs.GuardFacts Proofs.SystemFacts Proofs.RecipeFacts Proofs.ExecFacts Proofs.FailureFacts Proofs.FailureTruth Proofs.FailurePairs Proofs.LinkFacts Proofs.PlainFacts
  Spec.BoundSpec
  Spec.ConsistencySpec Spec.FailureSpec.
Import ListNotations.
Local Open Scope string_scope.

(** ** Names *)
Fixpoint rtext (r : recipe) : string :=
  match r with
  | RSimple c => c_name c
  | RComp l r => "(" ++ rtext l ++ " || " ++ rtext r ++ ")"
  | RConj l r => "(" ++ rtext l ++ " && " ++ rtext r ++ ")"
  | RQuot l r _ => "(" ++ rtext l ++ " \\ " ++ rtext r ++ ")"
  end.
Lemma compile_text least pre d r : forall k s k', compile_at least pre d r k = Ok (s, k') -> system_text s = rtext r.
Proof.
  induction r as [c|l IHl r IHr|l IHl r IHr|l IHl r IHr q]; intros k s k' E; cbn [compile_at] in E.
  - inv_bind E. injection E as <- _. cbn. unfold compile_component, compile_with_actions in H. destruct (negb _); [discriminate|]. inv_bind H. inv_bind H.
    destruct (forallb _ _); [|discriminate]. injection H as <-. reflexivity.
  - inv_bind E. destruct a as [l' k1]. inv_bind E. destruct a as [r' k2]. inv_bind E. injection E as <- _.
    apply composition_new_inv in H1. destruct H1 as (_ & ? & ? & ? & ? & ? & -> & _). cbn. rewrite (IHl _ _ _ H), (IHr _ _ _ H0). reflexivity.
  - inv_bind E. destruct a as [l' k1]. inv_bind E. destruct a as [r' k2]. inv_bind E. injection E as <- _.
    unfold conjunction_ts in H1. inv_bind H1. inv_bind H1. destruct a1; [|discriminate]. injection H1 as <-. apply conjunction_new_inv in H2. destruct H2 as (-> & _).
    cbn. rewrite (IHl _ _ _ H), (IHr _ _ _ H0). reflexivity.
  - inv_bind E. destruct a as [l' k1]. inv_bind E. destruct a as [r' k2]. inv_bind E. injection E as <- _.
    unfold quotient_ts in H1. destruct (negb _); [discriminate|]. inv_bind H1. destruct a0; [|discriminate]. inv_bind H1. destruct a0; [|discriminate].
    apply quotient_new_inv in H1. destruct H1 as (? & ? & ? & -> & _). cbn. rewrite (IHl _ _ _ H), (IHr _ _ _ H0). reflexivity.
Qed.

Lemma recipe_text load e : named_load load -> forall st r st', get_system_recipe load e st = Ok (r, st') -> rtext r = text_of e.
Proof.
  intros N. induction e as [n id|l IHl r IHr|l IHl r IHr|l IHl r IHr]; intros st x st' E; cbn [get_system_recipe] in E.
  - inv_bind E. destruct (load n) as [c|] eqn:Ln; [|discriminate]. injection H as <-. injection E as <- _. cbn. apply (N _ _ Ln).
  - inv_bind E. destruct a as [l' st1]. inv_bind E. destruct a as [r' st2]. destruct (snd st2); injection E as <- _; cbn; rewrite (IHl _ _ _ H), (IHr _ _ _ H0); reflexivity.
  - inv_bind E. destruct a as [l' st1]. inv_bind E. destruct a as [r' st2]. injection E as <- _. cbn. rewrite (IHl _ _ _ H), (IHr _ _ _ H0). reflexivity.
  - inv_bind E. destruct a as [l' st1]. inv_bind E. destruct a as [r' st2]. injection E as <- _. cbn. rewrite (IHl _ _ _ H), (IHr _ _ _ H0). reflexivity.
Qed.

Lemma map_text f r : (forall c, c_name (f c) = c_name c) -> rtext (map_components f r) = rtext r.
Proof. intros F. induction r as [c|l IHl r IHr|l IHl r IHr|l IHl r IHr q]; cbn; rewrite ?F, ?IHl, ?IHr; reflexivity. Qed.
Lemma change_text q r : rtext (change_quotient q r) = rtext r.
Proof. induction r as [c|l IHl r IHr|l IHl r IHr|l IHl r IHr q']; cbn; rewrite ?IHl, ?IHr; reflexivity. Qed.
Lemma remove_text i r : forall r', remove_from i r = Ok r' -> rtext r' = rtext r.
Proof.
  induction r as [c|l IHl r IHr|l IHl r IHr|l IHl r IHr q]; intros r' E; cbn [remove_from] in E.
  { destruct (has_clock i c); [|discriminate]. inv_bind E. injection E as <-. unfold remove_clock in H. destruct (find _ _) as [[n j]|]; [|discriminate]. injection H as <-. reflexivity. }
  all: destruct (existsb _ _); inv_bind E; injection E as <-; cbn; rewrite ?(IHl _ H), ?(IHr _ H); reflexivity.
Qed.
Lemma reduce_text xs : forall r r', reduce_clocks xs r = Ok r' -> rtext r' = rtext r.
Proof.
  unfold reduce_clocks. induction xs as [|x xs IH]; intros r r' E; cbn [foldM] in E; [injection E as <-; reflexivity|]. inv_bind E.
  rewrite (IH _ _ E). destruct x; cbn [apply_instr] in H; [eapply remove_text; exact H|]. injection H as <-. apply map_text. reflexivity.
Qed.
Lemma clock_reduce_text least pre red l o dim q l' o' dim' : clock_reduce least pre red l o dim q = Ok (l', o', dim') ->
  rtext l' = rtext l /\ option_map rtext o' = option_map rtext o.
Proof.
  unfold clock_reduce. destruct (Nat.eqb dim 0); [intros E; injection E as <- <- _; auto|]. destruct o as [r|]; intros E; inv_bind E.
  - destruct a as [[a b] d]. injection E as <- <- _. cbn [option_map fst snd]. unfold clock_reduce_two in H. inv_bind H. inv_bind H. inv_bind H. inv_bind H. inv_bind H. inv_bind H. inv_bind H.
    apply reduce_text in H5, H6. assert (F : forall g x, rtext (map_components (map_clocks g) x) = rtext x) by (intros; apply map_text; reflexivity).
    destruct q; injection H as <- <- _; rewrite ?change_text, !F, H5, H6; auto.
  - destruct a as [x d]. injection E as <- <- _. unfold clock_reduce_single in H. inv_bind H. inv_bind H. inv_bind H. inv_bind H. apply reduce_text in H3.
    split; [|reflexivity]. destruct q; injection H as <- _; rewrite ?change_text, map_text, H3; reflexivity.
Qed.

Lemma one_text ch reduce load e s d : named_load load -> one_system ch reduce load e = Ok (s, d) -> system_text s = text_of e.
Proof.
  intros N E. unfold one_system in E. inv_bind E. destruct a as [r [dim q]]. apply (recipe_text _ _ N) in H. inv_bind E. destruct a as [r' d']. inv_bind E. injection E as -> ->.
  unfold compile in H1. inv_bind H1. destruct a as [s0 k]. injection H1 as ->. rewrite (compile_text _ _ _ _ _ _ _ H2). rewrite <- H. destruct reduce; [|injection H0 as <- _; reflexivity].
  inv_bind H0. destruct a as [[l o] d0]. injection H0 as <- _. apply clock_reduce_text in H1. apply H1.
Qed.
Lemma two_text ch reduce load e f s t d : named_load load -> two_systems ch reduce load e f = Ok (s, t, d) -> system_text s = text_of e /\ system_text t = text_of f.
Proof.
  intros N E. unfold two_systems in E. inv_bind E. destruct a as [[l r] d0]. inv_bind E. destruct a as [s0 t0]. injection E as -> -> ->. cbn [fst snd] in *.
  unfold compile_two in H0. inv_bind H0. destruct a as [s1 k]. inv_bind H0. destruct a as [t1 k1]. injection H0 as -> ->. rewrite (compile_text _ _ _ _ _ _ _ H1), (compile_text _ _ _ _ _ _ _ H2).
  unfold two_recipes in H. inv_bind H. destruct a as [l0 st]. inv_bind H. destruct a as [r0 [dim q]]. apply (recipe_text _ _ N) in H0, H3. rewrite <- H0, <- H3. destruct reduce; [|injection H as <- <- _; auto].
  inv_bind H. destruct a as [[a o] d1]. inv_bind H. injection H as <- <- _. apply clock_reduce_text in H4. cbn [fst snd] in *. destruct o as [o|]; [|discriminate]. injection H5 as <-. destruct H4 as [A B]. injection B as B. auto.
Qed.

(** ** Failures of putting systems together *)
Definition fit_recipe (acc : accuracy) (d q : nat) (r : recipe) : Prop :=
  (forall c, In c (components r) -> fit_component d c) /\ NoDup (all_numbers r) /\ ~ In q (all_numbers r) /\
  (forall q', In q' (quotient_clocks r) -> q' = q /\ q <> 0 /\ q < d)%nat /\ (forall c, In c (components r) -> plain acc c).
Lemma fit_fine acc d q r least pre k s k' : fit_recipe acc d q r -> compile_at least pre d r k = Ok (s, k') -> fine acc d q s.
Proof.
  intros (F & N & Q & C & Pl) E. split; [eapply compile_built; exact E|]. destruct (system_good least pre d q r F N Q C k s k' E) as [K R]. split; [exact K|]. split; [exact R|]. split; [|eapply plain_mild; eassumption].
  intros x Hx. apply (compile_sys_clocks _ _ _ _ _ _ _ E) in Hx. destruct Hx as [Hx|Hx].
  - unfold all_numbers in Hx. apply in_flat_map in Hx. destruct Hx as (c & Hc & Hx). destruct (F c Hc) as (_ & B & _). specialize (B x Hx). lia.
  - destruct (C x Hx) as (-> & _ & X). exact X.
Qed.
Lemma fit_parts acc d q l r cs ns qs : cs = (components l ++ components r)%list -> ns = (all_numbers l ++ all_numbers r)%list -> incl (quotient_clocks l ++ quotient_clocks r) qs ->
  (forall c, In c cs -> fit_component d c) -> NoDup ns -> ~ In q ns -> (forall q', In q' qs -> q' = q /\ q <> 0 /\ q < d)%nat -> (forall c, In c cs -> plain acc c) -> fit_recipe acc d q l /\ fit_recipe acc d q r.
Proof.
  intros -> -> I F N Q C Pl. apply nodup_split in N. destruct N as (N1 & N2 & _).
  split; (split; [intros c Hc; apply F, in_or_app; auto|split; [assumption|split; [intros H; apply Q, in_or_app; auto|split; [intros q' Hq; apply C, I, in_or_app; auto|intros c Hc; apply Pl, in_or_app; auto]]]]).
Qed.
Lemma fit_two acc d q l r x : x = RComp l r \/ x = RConj l r \/ (exists p, x = RQuot l r p) -> fit_recipe acc d q x -> fit_recipe acc d q l /\ fit_recipe acc d q r.
Proof.
  intros X (F & N & Q & C & Pl). eapply (fit_parts acc d q l r (components x) (all_numbers x) (quotient_clocks x)); auto.
  - destruct X as [-> | [-> | [p ->]]]; reflexivity.
  - destruct X as [-> | [-> | [p ->]]]; unfold all_numbers; cbn [components]; apply flat_map_app.
  - destruct X as [-> | [-> | [p ->]]]; intros i Hi; cbn [quotient_clocks]; auto. right. exact Hi.
Qed.

Section Model.
Variables (acc : accuracy) (least pre : nat -> ts -> res (option cfail)) (d q : nat).
Hypothesis HL : forall s f, fine acc d q s -> least d s = Ok (Some f) -> exists m, cfail_to_proto f = Ok m /\ con_true acc d s m.
Hypothesis HP : forall s f, fine acc d q s -> pre d s = Ok (Some f) -> exists m, cfail_to_proto f = Ok m /\ pre_true acc d s m.

Definition passes (c : nat -> ts -> res (option cfail)) (d : nat) (s : ts) : res bool := rmap none (c d s).
Lemma report_makes r k s k' : compile_at_report least pre d r k = Ok (inl (s, k')) -> compile_at unchecked unchecked d r k = Ok (s, k').
Proof.
  intros E. eapply compile_unchecked with (least := passes least) (pre := passes pre).
  refine (compile_at_agrees least pre (passes least) (passes pre) _ _ d r k (inl (s, k')) E); intros d' s' x; unfold passes; intros ->; reflexivity.
Qed.

Lemma clash_from s1 (A : list string) s2 B : disjoint A B = false -> clash_true (afail_to_proto (not_disjoint s1 A s2 B)) A (system_text s1) B (system_text s2).
Proof. intros D. cbn. eexists _, _. rewrite <- (name_text s1), <- (name_text s2). split; [reflexivity|]. apply not_disjoint_spec, D. Qed.

Lemma compile_true r : fit_recipe acc d q r -> forall k f, compile_at_report least pre d r k = Ok (inr f) -> exists m, recfail_to_proto f = Ok m /\ model_true acc d r m.
Proof.
  assert (Sub : forall x l r m, model_true acc d x m -> (x = l \/ x = r) -> forall y, y = RComp l r \/ y = RConj l r \/ (exists p, y = RQuot l r p) -> model_true acc d y m).
  { intros x l r0 m (z & Hz & T) X y Y. exists z. split; [|exact T]. destruct Y as [-> | [-> | [p ->]]]; cbn; right; destruct X as [-> | ->]; auto. }
  assert (Op : forall (l r : recipe) (mk : ts -> ts -> res (ts + recfail)) y, y = RComp l r \/ y = RConj l r \/ (exists p, y = RQuot l r p) ->
    (fit_recipe acc d q l -> forall k f, compile_at_report least pre d l k = Ok (inr f) -> exists m, recfail_to_proto f = Ok m /\ model_true acc d l m) ->
    (fit_recipe acc d q r -> forall k f, compile_at_report least pre d r k = Ok (inr f) -> exists m, recfail_to_proto f = Ok m /\ model_true acc d r m) -> fit_recipe acc d q y ->
    (forall k k1 k2 a b f, compile_at unchecked unchecked d l k = Ok (a, k1) -> compile_at unchecked unchecked d r k1 = Ok (b, k2) -> mk a b = Ok (inr f) -> exists m, recfail_to_proto f = Ok m /\ part_true acc d y m) ->
    forall k f, (attempt a <- compile_at_report least pre d l k; attempt b <- compile_at_report least pre d r (snd a); attempt s <- mk (fst a) (fst b); Ok (inl (s, snd b))) = Ok (inr f) ->
    exists m, recfail_to_proto f = Ok m /\ model_true acc d y m).
  { intros l r0 mk y Y IHl IHr F M k f E. destruct (fit_two acc d q l r0 y Y F) as [Fl Fr]. unfold andthen in E. inv_bind E. destruct a as [[a k1]|g].
    2:{ injection E as ->. destruct (IHl Fl _ _ H) as (m & Em & T). exists m. split; [exact Em|]. eapply (Sub l l r0); eauto. }
    inv_bind E. cbn [fst snd] in *. destruct a0 as [[b k2]|g].
    2:{ injection E as ->. destruct (IHr Fr _ _ H0) as (m & Em & T). exists m. split; [exact Em|]. eapply (Sub r0 l r0); eauto. }
    inv_bind E. cbn [fst snd] in *. destruct a0 as [s|g]; [discriminate|]. injection E as ->.
    destruct (M k k1 k2 a b f (report_makes _ _ _ _ H) (report_makes _ _ _ _ H0) H1) as (m & Em & T). exists m. split; [exact Em|]. exists y. split; [destruct Y as [-> | [-> | [p ->]]]; cbn; auto|exact T]. }
  induction r as [c|l IHl r IHr|l IHl r IHr|l IHl r IHr p]; intros F k f E; cbn [compile_at_report] in E.
  - unfold andthen in E. inv_bind E. destruct a as [s|g]; [discriminate|]. injection E as ->. unfold component_report in H. destruct (disjoint _ _) eqn:D; cbn [negb] in H; [inv_bind H; discriminate|].
    injection H as <-. eexists. split; [reflexivity|]. exists (RSimple c). split; [left; reflexivity|]. cbn. eexists. split; [reflexivity|]. eexists _, _. split; [reflexivity|]. apply not_disjoint_spec, D.
  - refine (Op l r composition_report _ (or_introl eq_refl) IHl IHr F _ k f E). intros k0 k1 k2 a b g A B M. unfold composition_report in M.
    destruct (disjoint _ _) eqn:D; cbn [negb] in M; [inv_bind M; discriminate|]. injection M as <-. eexists. split; [reflexivity|]. cbn [part_true]. exists a, b. eexists. split; [eexists _, _; exact A|]. split; [eexists _, _; exact B|].
    cbn [sn_name sys_composite op_text]. rewrite (name_text a), (name_text b). split; [reflexivity|]. apply clash_from, D.
  - refine (Op l r (conjunction_report least d) _ (or_intror (or_introl eq_refl)) IHl IHr F _ k f E). intros k0 k1 k2 a b g A B M. unfold conjunction_report in M.
    destruct (disjoint (ts_inputs a) _) eqn:D; cbn [negb] in M.
    2:{ injection M as <-. eexists. split; [reflexivity|]. cbn [part_true]. exists a, b. split; [eexists _, _; exact A|]. split; [eexists _, _; exact B|]. left. eexists.
        cbn [sn_name sys_composite op_text]. rewrite (name_text a), (name_text b). split; [reflexivity|]. left. apply clash_from, D. }
    destruct (disjoint (ts_outputs a) _) eqn:D'; cbn [negb] in M.
    2:{ injection M as <-. eexists. split; [reflexivity|]. cbn [part_true]. exists a, b. split; [eexists _, _; exact A|]. split; [eexists _, _; exact B|]. left. eexists.
        cbn [sn_name sys_composite op_text]. rewrite (name_text a), (name_text b). split; [reflexivity|]. right. apply clash_from, D'. }
    inv_bind M. inv_bind M. destruct a1 as [x|]; [|discriminate]. injection M as <-.
    assert (C : compile_at unchecked unchecked d (RConj l r) k0 = Ok (a0, k2)). { cbn [compile_at]. rewrite A. cbn [bind]. rewrite B. cbn [bind]. unfold conjunction_ts. rewrite H. reflexivity. }
    destruct (HL a0 x (fit_fine _ _ _ _ _ _ _ _ _ F C) H0) as (m & Em & T). exists (mkPMF (ts_name a0) (Some (PInconsistentConjunction m))). split; [cbn; rewrite Em; reflexivity|].
    cbn [part_true]. exists a, b. split; [eexists _, _; exact A|]. split; [eexists _, _; exact B|]. right. exists a0, m. split; [eexists _, _; exact C|]. rewrite name_text. auto.
  - refine (Op l r (fun a b => quotient_report pre d a b p) _ (or_intror (or_intror (ex_intro _ p eq_refl))) IHl IHr F _ k f E). intros k0 k1 k2 a b g A B M. unfold quotient_report in M.
    destruct (fit_two acc d q l r _ (or_intror (or_intror (ex_intro _ p eq_refl))) F) as [Fl Fr].
    destruct (disjoint _ _) eqn:D; cbn [negb] in M.
    2:{ injection M as <-. eexists. split; [reflexivity|]. cbn [part_true]. exists a, b. split; [eexists _, _; exact A|]. split; [eexists _, _; exact B|]. left. eexists.
        cbn [sn_name sys_composite op_text]. rewrite (name_text a), (name_text b). split; [reflexivity|]. apply clash_from, D. }
    inv_bind M. destruct a0 as [x|].
    { injection M as <-. destruct (HP a x (fit_fine _ _ _ _ _ _ _ _ _ Fl A) H) as (m & Em & T). cbn [recfail_to_proto]. rewrite Em. cbn [bind]. eexists. split; [reflexivity|].
      cbn [part_true]. exists a, b. split; [eexists _, _; exact A|]. split; [eexists _, _; exact B|]. right. exists m. cbn [sn_name sys_composite op_text]. rewrite (name_text a), (name_text b). auto. }
    inv_bind M. destruct a0 as [x|]; [|inv_bind M; discriminate].
    injection M as <-. destruct (HP b x (fit_fine _ _ _ _ _ _ _ _ _ Fr B) H0) as (m & Em & T). cbn [recfail_to_proto]. rewrite Em. cbn [bind]. eexists. split; [reflexivity|].
    cbn [part_true]. exists a, b. split; [eexists _, _; exact A|]. split; [eexists _, _; exact B|]. right. exists m. cbn [sn_name sys_composite op_text]. rewrite (name_text a), (name_text b). auto.
Qed.
End Model.

(** ** A report for every check that ends *)
Section Complete.
Variables (acc : accuracy) (least pre : nat -> ts -> res (option cfail)) (least' pre' : nat -> ts -> res bool) (d q : nat).
Hypothesis TL : forall s b, fine acc d q s -> least' d s = Ok b -> exists r, least d s = Ok r /\ none r = b.
Hypothesis TP : forall s b, fine acc d q s -> pre' d s = Ok b -> exists r, pre d s = Ok r /\ none r = b.

Lemma report_complete r : fit_recipe acc d q r -> forall k s k', compile_at least' pre' d r k = Ok (s, k') -> compile_at_report least pre d r k = Ok (inl (s, k')).
Proof.
  induction r as [c|l IHl r IHr|l IHl r IHr|l IHl r IHr p]; intros F k s k' E; cbn [compile_at compile_at_report] in *.
  - inv_bind E. injection E as <- <-. unfold component_report. assert (D : disjoint (input_actions c) (output_actions c) = true).
    { unfold compile_component, compile_with_actions in H. destruct (disjoint _ _); [reflexivity|discriminate]. }
    rewrite D, H. reflexivity.
  - destruct (fit_two acc d q l r _ (or_introl eq_refl) F) as [Fl Fr]. inv_bind E. destruct a as [l' k1]. inv_bind E. destruct a as [r' k2]. inv_bind E. injection E as <- <-.
    rewrite (IHl Fl _ _ _ H). cbn [andthen bind snd fst]. rewrite (IHr Fr _ _ _ H0). cbn [andthen bind snd fst]. unfold composition_report.
    assert (D : disjoint (ts_outputs l') (ts_outputs r') = true) by (unfold composition_new in H1; destruct (disjoint _ _); [reflexivity|discriminate]). rewrite D, H1. reflexivity.
  - destruct (fit_two acc d q l r _ (or_intror (or_introl eq_refl)) F) as [Fl Fr]. assert (E' := compile_unchecked _ _ d (RConj l r) k s k' E). inv_bind E. destruct a as [l' k1]. inv_bind E. destruct a as [r' k2]. inv_bind E. injection E as <- <-.
    rewrite (IHl Fl _ _ _ H). cbn [andthen bind snd fst]. rewrite (IHr Fr _ _ _ H0). cbn [andthen bind snd fst]. unfold conjunction_report. unfold conjunction_ts in H1. inv_bind H1. inv_bind H1. destruct a1; [|discriminate]. injection H1 as ->.
    assert (D : disjoint (ts_inputs l') (ts_outputs r') = true /\ disjoint (ts_outputs l') (ts_inputs r') = true).
    { unfold conjunction_new in H2. destruct (disjoint (ts_inputs l') _); [|discriminate]. destruct (disjoint (ts_outputs l') _); [auto|discriminate]. }
    destruct D as [D D']. rewrite D, D', H2. cbn [negb bind]. destruct (TL a true (fit_fine _ _ _ _ _ _ _ _ _ F E') H3) as (o & Eo & No). rewrite Eo. destruct o; [discriminate|]. reflexivity.
  - destruct (fit_two acc d q l r _ (or_intror (or_intror (ex_intro _ p eq_refl))) F) as [Fl Fr]. inv_bind E. destruct a as [l' k1]. inv_bind E. destruct a as [r' k2]. inv_bind E. injection E as <- <-.
    rewrite (IHl Fl _ _ _ H). cbn [andthen bind snd fst]. rewrite (IHr Fr _ _ _ H0). cbn [andthen bind snd fst]. unfold quotient_report. unfold quotient_ts in H1. destruct (negb _); [discriminate|].
    inv_bind H1. destruct a0; [|discriminate]. inv_bind H1. destruct a0; [|discriminate].
    destruct (TP l' true (fit_fine _ _ _ _ _ _ _ _ _ Fl H) H2) as (o & Eo & No). rewrite Eo. destruct o; [discriminate|]. cbn [bind].
    destruct (TP r' true (fit_fine _ _ _ _ _ _ _ _ _ Fr H0) H3) as (o & Eo' & No'). rewrite Eo'. destruct o; [discriminate|]. cbn [bind]. rewrite H1. reflexivity.
Qed.
End Complete.

(** ** Directions of action sets *)
Lemma same_set_spec a b : same_set a b = true -> forall x, In x a <-> In x b.
Proof.
  unfold same_set. rewrite andb_true_iff, !forallb_forall. intros [A B] x. split; intros H; [specialize (A x H)|specialize (B x H)]; unfold sin in *;
    [apply existsb_exists in A; destruct A as (y & Hy & E)|apply existsb_exists in B; destruct B as (y & Hy & E)]; apply String.eqb_eq in E; subst; exact Hy.
Qed.
Lemma same_set_refl a : same_set a a = true.
Proof. unfold same_set. apply andb_true_iff. split; apply forallb_forall; intros x Hx; unfold sin; apply existsb_exists; exists x; rewrite String.eqb_refl; auto. Qed.
Lemma set_marked s1 s2 s acts : (s = s1 \/ s = s2) -> io_disjoint s -> acts = ts_inputs s \/ acts = ts_outputs s -> marked s1 s2 (aset_to_proto (action_set s acts)).
Proof.
  intros S D [-> | ->]; exists s; (split; [exact S|]); cbn; (split; [apply name_text|]).
  - left. rewrite same_set_refl. auto.
  - destruct (same_set (ts_inputs s) (ts_outputs s)) eqn:E; [left|right; auto]. split; [|reflexivity]. pose proof (same_set_spec _ _ E) as X.
    assert (Z : forall x, ~ In x (ts_inputs s)) by (intros x Hx; apply (D x Hx), X, Hx).
    destruct (ts_inputs s) as [|a l] eqn:Ei; [|destruct (Z a); left; reflexivity]. destruct (ts_outputs s) as [|a l]; [reflexivity|]. destruct (proj2 (X a)). left. reflexivity.
Qed.
Lemma actions_marked s1 s2 f p : io_disjoint s1 -> io_disjoint s2 -> action_report s1 s2 = Some f -> In p (paf_sets (afail_to_proto f)) -> marked s1 s2 p.
Proof.
  intros D1 D2 E. unfold action_report in E.
  repeat (match type of E with context [if ?b then _ else _] => destruct b end; [injection E as <-; cbn [afail_to_proto not_disjoint not_subset paf_sets]; intros [<-|[<-|[]]]; apply set_marked; auto|]). discriminate.
Qed.
