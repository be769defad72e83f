(** The system of an expression behaves the same however the clocks of its components are numbered. *)
From Coq Require Import List String ZArith QArith Bool Arith Lia Lqa Permutation.
From Verif Require Import Fed.Zone Fed.ZoneFacts Model.Base Model.Expr Model.Guard Model.Loc Model.Component Model.TS Model.ParseQuery Model.Files Model.Recipe Model.Reduce
  Spec.StepSpec Spec.SystemSpec Spec.RunSpec Spec.EnableSpec Spec.RecipeSpec Spec.RefineSpec Spec.SameSpec Spec.ExecSpec Spec.LawSpec
  Proofs.GuardFacts Proofs.StepFacts Proofs.SystemFacts Proofs.WfFacts Proofs.RecipeFacts Proofs.ReduceFacts Proofs.RenFacts Proofs.SameFacts Proofs.BisimFacts Proofs.ShrinkFacts.
Import ListNotations.
Local Open Scope nat_scope.
Local Open Scope list_scope.

(** A system put together from compiled components as the recipe says, the components being indexed in any way. *)
Inductive assembled (d : nat) : recipe -> ts -> Prop :=
| a_simple c k cc : compile_component d c k = Ok cc -> assembled d (RSimple c) (TSimple cc)
| a_comp l r l' r' s : assembled d l l' -> assembled d r r' -> composition_new l' r' = Ok s -> assembled d (RComp l r) s
| a_conj l r l' r' s : assembled d l l' -> assembled d r r' -> conjunction_new l' r' = Ok s -> assembled d (RConj l r) s
| a_quot l r q l' r' s : assembled d l l' -> assembled d r r' -> quotient_new l' r' q = Ok s -> assembled d (RQuot l r q) s.

Lemma compile_assembled least pre d r : forall k s k', compile_at least pre d r k = Ok (s, k') -> assembled d r s.
Proof.
  induction r as [c|l IHl r IHr|l IHl r IHr|l IHl r IHr q]; intros k s k' E; cbn [compile_at] in E.
  - inv_bind E. injection E as <- <-. econstructor. exact H.
  - inv_bind E. destruct a as [l' k1]. inv_bind E. destruct a as [r' k2]. inv_bind E. injection E as <- <-. econstructor; eauto.
  - inv_bind E. destruct a as [l' k1]. inv_bind E. destruct a as [r' k2]. inv_bind E. injection E as <- <-.
    unfold conjunction_ts in H1. inv_bind H1. inv_bind H1. destruct a1; [|discriminate]. injection H1 as <-. econstructor; eauto.
  - inv_bind E. destruct a as [l' k1]. inv_bind E. destruct a as [r' k2]. inv_bind E. injection E as <- <-.
    unfold quotient_ts in H1. destruct (negb _); [discriminate|]. inv_bind H1. destruct a0; [|discriminate]. inv_bind H1. destruct a0; [|discriminate]. econstructor; eauto.
Qed.

Lemma assembled_built d r s : assembled d r s -> built d s.
Proof. induction 1; [eapply b_simple; eauto|eapply b_comp; [| |eassumption]; assumption|eapply b_conj; [| |eassumption]; assumption|eapply b_quot; [| |eassumption]; assumption]. Qed.
Lemma assembled_clocks d r s : assembled d r s -> comp_clocks s = all_numbers r.
Proof.
  induction 1 as [c k cc H|l r l' r' s Hl IHl Hr IHr H|l r l' r' s Hl IHl Hr IHr H|l r q l' r' s Hl IHl Hr IHr H]; unfold all_numbers in *; cbn [components]; rewrite ?flat_map_app.
  - cbn [comp_clocks flat_map]. rewrite app_nil_r, (compile_decls _ _ _ _ H). reflexivity.
  - apply composition_new_inv in H. destruct H as (_ & ? & ? & ? & ? & ? & -> & _). cbn [comp_clocks]. congruence.
  - apply conjunction_new_inv in H. destruct H as (-> & _). cbn [comp_clocks]. congruence.
  - apply quotient_new_inv in H. destruct H as (? & ? & ? & -> & _). cbn [comp_clocks]. congruence.
Qed.
Lemma assembled_sys_clocks d r s : assembled d r s -> forall x, In x (sys_clocks s) <-> In x (all_numbers r) \/ In x (quotient_clocks r).
Proof.
  induction 1 as [c k cc H|l r l' r' s Hl IHl Hr IHr H|l r l' r' s Hl IHl Hr IHr H|l r q l' r' s Hl IHl Hr IHr H]; intros x.
  - pose proof (assembled_clocks d _ _ (a_simple d c k cc H)) as C. cbn [sys_clocks quotient_clocks]. rewrite C. cbn. tauto.
  - apply composition_new_inv in H. destruct H as (_ & ? & ? & ? & ? & ? & -> & _). cbn [sys_clocks quotient_clocks]. unfold all_numbers in *. cbn [components]. rewrite flat_map_app, !in_app_iff, IHl, IHr. tauto.
  - apply conjunction_new_inv in H. destruct H as (-> & _). cbn [sys_clocks quotient_clocks]. unfold all_numbers in *. cbn [components]. rewrite flat_map_app, !in_app_iff, IHl, IHr. tauto.
  - apply quotient_new_inv in H. destruct H as (? & ? & ? & -> & _). cbn [sys_clocks quotient_clocks In]. unfold all_numbers in *. cbn [components]. rewrite flat_map_app, !in_app_iff, IHl, IHr. tauto.
Qed.

Lemma assembled_good d q r : (forall c, In c (components r) -> fit_component d c) -> NoDup (all_numbers r) -> ~ In q (all_numbers r) ->
  (forall q', In q' (quotient_clocks r) -> q' = q /\ q <> 0 /\ q < d) ->
  forall s, assembled d r s -> clocks_ok d q s /\ reads_ok s.
Proof.
  intros F N Q C s A. revert F N Q C. induction A as [c k cc H|l r l' r' s Hl IHl Hr IHr H|l r l' r' s Hl IHl Hr IHr H|l r q' l' r' s Hl IHl Hr IHr H]; intros F N Q C.
  - eapply component_good; [exact H|apply F; left; reflexivity|]. unfold all_numbers in Q. cbn [components flat_map] in Q. rewrite app_nil_r in Q. exact Q.
  - unfold all_numbers in N, Q. cbn [components] in *. rewrite flat_map_app in N, Q. destruct (nodup_split _ _ N) as (N1 & N2 & D). cbn [quotient_clocks] in C.
    destruct IHl as [K1 R1]; [intros; apply F, in_or_app; auto|exact N1|intros X; apply Q, in_or_app; auto|intros; apply C, in_or_app; auto|].
    destruct IHr as [K2 R2]; [intros; apply F, in_or_app; auto|exact N2|intros X; apply Q, in_or_app; auto|intros; apply C, in_or_app; auto|].
    apply composition_new_inv in H. destruct H as (_ & ? & ? & ? & ? & ? & -> & _). cbn [clocks_ok reads_ok]. rewrite (assembled_clocks _ _ _ Hl), (assembled_clocks _ _ _ Hr). auto.
  - unfold all_numbers in N, Q. cbn [components] in *. rewrite flat_map_app in N, Q. destruct (nodup_split _ _ N) as (N1 & N2 & D). cbn [quotient_clocks] in C.
    destruct IHl as [K1 R1]; [intros; apply F, in_or_app; auto|exact N1|intros X; apply Q, in_or_app; auto|intros; apply C, in_or_app; auto|].
    destruct IHr as [K2 R2]; [intros; apply F, in_or_app; auto|exact N2|intros X; apply Q, in_or_app; auto|intros; apply C, in_or_app; auto|].
    apply conjunction_new_inv in H. destruct H as (-> & _). cbn [clocks_ok reads_ok]. rewrite (assembled_clocks _ _ _ Hl), (assembled_clocks _ _ _ Hr). auto.
  - unfold all_numbers in N, Q. cbn [components] in *. rewrite flat_map_app in N, Q. destruct (nodup_split _ _ N) as (N1 & N2 & D). cbn [quotient_clocks] in C.
    destruct IHl as [K1 R1]; [intros; apply F, in_or_app; auto|exact N1|intros X; apply Q, in_or_app; auto|intros; apply C; right; apply in_or_app; auto|].
    destruct IHr as [K2 R2]; [intros; apply F, in_or_app; auto|exact N2|intros X; apply Q, in_or_app; auto|intros; apply C; right; apply in_or_app; auto|].
    apply quotient_new_inv in H. destruct H as (? & ? & ? & -> & _). cbn [clocks_ok reads_ok]. rewrite (assembled_clocks _ _ _ Hl), (assembled_clocks _ _ _ Hr). destruct (C q' (or_introl eq_refl)) as (-> & ? & ?). auto 10.
Qed.

Lemma assembled_inv d x s : assembled d x s ->
  match x with
  | RSimple c => exists k cc, s = TSimple cc /\ compile_component d c k = Ok cc
  | RComp l r => exists l' r', assembled d l l' /\ assembled d r r' /\ composition_new l' r' = Ok s
  | RConj l r => exists l' r', assembled d l l' /\ assembled d r r' /\ conjunction_new l' r' = Ok s
  | RQuot l r q => exists l' r', assembled d l l' /\ assembled d r r' /\ quotient_new l' r' q = Ok s
  end.
Proof. intros []; eauto 10. Qed.

(** The same recipe with renamed clocks. *)
Lemma assembled_ren rho d d' : renames rho d d' ->
  forall r s, assembled d r s -> (forall c, In c (components r) -> NoDup (map fst (d_clocks (c_decls c))) /\ named_guards c /\ unread rho c) ->
  (forall q, In q (quotient_clocks r) -> kept rho q) -> forall s', assembled d' (ren_recipe rho r) s' -> srel rho d d' s s'.
Proof.
  intros RN r s A. induction A as [c k cc H|l r l1 r1 s Hl IHl Hr IHr H|l r l1 r1 s Hl IHl Hr IHr H|l r q l1 r1 s Hl IHl Hr IHr H]; intros Hc Hq s' A'; apply assembled_inv in A'; cbn [ren_recipe components quotient_clocks] in *.
  - destruct A' as (k' & cc' & -> & H'). constructor. destruct (Hc c (or_introl eq_refl)) as (X1 & X2 & X3). eapply comp_ren; eauto.
  - destruct A' as (l2 & r2 & Al & Ar & H').
    assert (L : srel rho d d' l1 l2) by (eapply IHl; eauto; intros; [apply Hc|apply Hq]; apply in_or_app; auto).
    assert (R : srel rho d d' r1 r2) by (eapply IHr; eauto; intros; [apply Hc|apply Hq]; apply in_or_app; auto).
    unfold composition_new in *. rewrite (srel_inputs _ _ _ _ _ L), (srel_inputs _ _ _ _ _ R), (srel_outputs _ _ _ _ _ L), (srel_outputs _ _ _ _ _ R) in H'.
    destruct (negb _); [discriminate|]. injection H as <-. injection H' as <-. constructor; assumption.
  - destruct A' as (l2 & r2 & Al & Ar & H').
    assert (L : srel rho d d' l1 l2) by (eapply IHl; eauto; intros; [apply Hc|apply Hq]; apply in_or_app; auto).
    assert (R : srel rho d d' r1 r2) by (eapply IHr; eauto; intros; [apply Hc|apply Hq]; apply in_or_app; auto).
    unfold conjunction_new in *. rewrite (srel_inputs _ _ _ _ _ L), (srel_inputs _ _ _ _ _ R), (srel_outputs _ _ _ _ _ L), (srel_outputs _ _ _ _ _ R) in H'.
    repeat (destruct (negb _); [discriminate|]). injection H as <-. injection H' as <-. constructor; assumption.
  - destruct A' as (l2 & r2 & Al & Ar & H').
    assert (L : srel rho d d' l1 l2) by (eapply IHl; eauto; intros; [apply Hc|apply Hq; right]; apply in_or_app; auto).
    assert (R : srel rho d d' r1 r2) by (eapply IHr; eauto; intros; [apply Hc|apply Hq; right]; apply in_or_app; auto).
    unfold quotient_new in *. rewrite (srel_inputs _ _ _ _ _ L), (srel_inputs _ _ _ _ _ R), (srel_outputs _ _ _ _ _ L), (srel_outputs _ _ _ _ _ R) in H'.
    destruct (negb _); [discriminate|]. destruct (fresh_input _ _ _) as [n| | |]; cbn [bind] in H, H'; try discriminate. injection H as <-. injection H' as <-. constructor; auto.
    destruct (Hq q (or_introl eq_refl)) as [j Ej]. unfold total. rewrite Ej. reflexivity.
Qed.

(** ** Two instances of an expression differ in their clock numbers only *)
Lemma numbers_length c c' c'' : renumbered c c' -> renumbered c c'' -> List.length (numbers c') = List.length (numbers c'').
Proof. intros (_ & _ & _ & _ & E) (_ & _ & _ & _ & E'). unfold numbers. rewrite !map_length. rewrite <- (map_length fst (d_clocks (c_decls c'))), E, <- E', map_length. reflexivity. Qed.
Lemma all_numbers_app cs cs' : flat_map numbers (cs ++ cs') = flat_map numbers cs ++ flat_map numbers cs'.
Proof. apply flat_map_app. Qed.
Lemma instances_length load e : forall r r', instance_of load e r -> instance_of load e r' ->
  List.length (all_numbers r) = List.length (all_numbers r') /\ List.length (quotient_clocks r) = List.length (quotient_clocks r').
Proof.
  induction e as [n id|a IHa b IHb|a IHa b IHb|a IHa b IHb]; intros [c|l r|l r|l r q] [c'|l' r'|l' r'|l' r' q'] I I'; cbn [instance_of] in *; try contradiction;
  try (destruct I as [I1 I2], I' as [J1 J2]; destruct (IHa _ _ I1 J1) as [A1 A2]; destruct (IHb _ _ I2 J2) as [B1 B2]; unfold all_numbers in *; cbn [components quotient_clocks List.length]; rewrite !all_numbers_app, !app_length; lia).
  destruct I as [(c0 & L & R) _], I' as [(c1 & L' & R') _]. rewrite L in L'. injection L' as <-. split; [|reflexivity].
  unfold all_numbers. cbn [components flat_map]. rewrite !app_nil_r. eapply numbers_length; eauto.
Qed.
Lemma combine_app {A B} (l1 : list A) (m1 : list B) l2 m2 : List.length l1 = List.length m1 -> combine (l1 ++ l2) (m1 ++ m2) = combine l1 m1 ++ combine l2 m2.
Proof. revert m1. induction l1 as [|x l1 IH]; intros [|y m1] H; cbn in *; try discriminate; [reflexivity|]. rewrite IH by congruence. reflexivity. Qed.

Section Pairing.
Variable rho : nat -> option nat.
Lemma pair_comp c c1 c2 : renumbered c c1 -> renumbered c c2 -> c_special c1 = c_special c2 ->
  NoDup (map fst (d_clocks (c_decls c1))) -> (forall i j, In (i, j) (combine (numbers c1) (numbers c2)) -> rho i = Some j) -> c2 = ren_comp rho c1.
Proof.
  intros (A1 & A2 & A3 & A4 & A5) (B1 & B2 & B3 & B4 & B5) Sp Nd H.
  assert (K : forall m1 m2 : list (string * nat), map fst m1 = map fst m2 -> (forall i j, In (i, j) (combine (map snd m1) (map snd m2)) -> rho i = Some j) -> m2 = ren_clocks rho m1 /\ forall n i, In (n, i) m1 -> rho i <> None).
  { clear. induction m1 as [|[n i] m1 IH]; intros [|[n' j] m2] E H; cbn in *; try discriminate; [split; [reflexivity|intros ? ? []]|]. injection E as <- E.
    destruct (IH m2 E) as [X Y]; [intros; apply H; right; assumption|]. rewrite (H i j (or_introl eq_refl)). split; [cbn; f_equal; exact X|].
    intros n0 i0 [[= -> ->]|Hi]; [rewrite (H i0 j (or_introl eq_refl)); discriminate|eauto]. }
  destruct (K (d_clocks (c_decls c1)) (d_clocks (c_decls c2)) ltac:(congruence) H) as [Ek Ak].
  destruct c1 as [n1 d1 l1 e1 s1], c2 as [n2 d2 l2 e2 s2]. unfold ren_comp. cbn [c_name c_decls c_locs c_edges c_special] in *. destruct d1 as [m1 i1], d2 as [m2 i2]. cbn [d_clocks d_ints] in *.
  replace (map (ren_edge rho (mkDecls m1 i1)) e1) with e1; [congruence|]. clear - Ak. induction e1 as [|e e1 IH]; [reflexivity|]. cbn [map]. rewrite <- IH. f_equal. destruct e as [x1 x2 x3 x4 x5 us x7]. unfold ren_edge. cbn. f_equal.
  destruct us as [us|]; [|reflexivity]. cbn. f_equal. clear IH. induction us as [|u us IH]; [reflexivity|]. cbn [filter]. replace (keep_update rho (mkDecls m1 i1) u) with true; [rewrite <- IH; reflexivity|].
  unfold keep_update. cbn [d_clocks]. destruct (assoc (fst u) m1) as [i|] eqn:E; [|reflexivity]. apply assoc_in in E. specialize (Ak _ _ E). destruct (rho i); congruence.
Qed.
Lemma pair_recipe load e : (forall n c, load n = Some c -> clocks_numbered (c_decls c)) -> forall r r', instance_of load e r -> instance_of load e r' ->
  (forall i j, In (i, j) (combine (all_numbers r) (all_numbers r')) -> rho i = Some j) ->
  (forall i j, In (i, j) (combine (quotient_clocks r) (quotient_clocks r')) -> rho i = Some j) -> r' = ren_recipe rho r.
Proof.
  intros Ld. induction e as [n id|a IHa b IHb|a IHa b IHb|a IHa b IHb]; intros [c|l r|l r|l r q] [c'|l' r'|l' r'|l' r' q'] I I' H K; cbn [instance_of] in *; try contradiction.
  - destruct I as [(c0 & L & R) S1], I' as [(c1 & L' & R') S2]. rewrite L in L'. injection L' as <-. cbn [ren_recipe]. f_equal. eapply pair_comp; eauto; [congruence| |].
    + destruct R as (_ & _ & _ & _ & R). rewrite R. apply (Ld n c0 L).
    + intros i j Hij. apply H. unfold all_numbers. cbn [components flat_map]. rewrite !app_nil_r. exact Hij.
  - destruct I as [I1 I2], I' as [J1 J2]. destruct (instances_length load a l l' I1 J1) as [La Lq]. cbn [ren_recipe quotient_clocks combine] in *. unfold all_numbers in *. cbn [components] in H. rewrite !all_numbers_app, combine_app in H by exact La. rewrite combine_app in K by exact Lq.
    rewrite (IHa l l' I1 J1) by (intros; first [solve [apply H, in_or_app; auto]|solve [apply K; right; apply in_or_app; auto]]).
    rewrite (IHb r r' I2 J2) by (intros; first [solve [apply H, in_or_app; auto]|solve [apply K; right; apply in_or_app; auto]]). unfold total. rewrite (K q q' (or_introl eq_refl)). reflexivity.
  - destruct I as [I1 I2], I' as [J1 J2]. destruct (instances_length load a l l' I1 J1) as [La Lq]. cbn [ren_recipe quotient_clocks] in *. unfold all_numbers in *. cbn [components] in H. rewrite !all_numbers_app, combine_app in H by exact La. rewrite combine_app in K by exact Lq.
    rewrite (IHa l l' I1 J1) by (intros; first [solve [apply H, in_or_app; auto]|solve [apply K, in_or_app; auto]]).
    rewrite (IHb r r' I2 J2) by (intros; first [solve [apply H, in_or_app; auto]|solve [apply K, in_or_app; auto]]). reflexivity.
  - destruct I as [I1 I2], I' as [J1 J2]. destruct (instances_length load a l l' I1 J1) as [La Lq]. cbn [ren_recipe quotient_clocks] in *. unfold all_numbers in *. cbn [components] in H. rewrite !all_numbers_app, combine_app in H by exact La. rewrite combine_app in K by exact Lq.
    rewrite (IHa l l' I1 J1) by (intros; first [solve [apply H, in_or_app; auto]|solve [apply K, in_or_app; auto]]).
    rewrite (IHb r r' I2 J2) by (intros; first [solve [apply H, in_or_app; auto]|solve [apply K, in_or_app; auto]]). reflexivity.
Qed.
End Pairing.

(** ** Placements *)
Record place (load : string -> option component) (e : sysx) (d q : nat) (r : recipe) : Prop := {
  pl_inst : instance_of load e r;
  pl_once : NoDup (all_numbers r);
  pl_range : forall i, In i (all_numbers r) -> 1 <= i < d;
  pl_quot : forall p, In p (quotient_clocks r) -> p = q /\ q <> 0 /\ q < d;
  pl_fresh : ~ In q (all_numbers r) }.
Definition placed (load : string -> option component) (e : sysx) (d : nat) (s : ts) : Prop := exists q r, 0 < d /\ place load e d q r /\ assembled d r s.

(** The renaming that takes one placement to the other. *)
Fixpoint look (m : list (nat * nat)) (i : nat) : option nat :=
  match m with [] => None | (x, y) :: m => if i =? x then Some y else look m i end.
Lemma look_in m i j : look m i = Some j -> In (i, j) m.
Proof. induction m as [|[x y] m IH]; cbn; [discriminate|]. destruct (Nat.eqb_spec i x); [intros [= ->]; subst; auto|auto]. Qed.
Lemma look_found m i j : In (i, j) m -> exists j', look m i = Some j'.
Proof. induction m as [|[x y] m IH]; cbn; [intros []|]. intros [[= -> ->]|H]; [rewrite Nat.eqb_refl; eauto|]. destruct (i =? x); eauto. Qed.
Lemma combine_once {A B} (l : list A) (m : list B) x y x' y' : NoDup l -> NoDup m -> In (x, y) (combine l m) -> In (x', y') (combine l m) -> (x = x' <-> y = y').
Proof.
  revert m. induction l as [|a l IH]; intros [|b m] N M H H'; cbn in *; try contradiction. inversion N; inversion M; subst.
  destruct H as [[= -> ->]|H], H' as [[= -> ->]|H']; [tauto| | |apply (IH m); auto].
  - split; intros ->; exfalso; [apply H2; eapply in_combine_l; eauto|apply H6; eapply in_combine_r; eauto].
  - split; intros <-; exfalso; [apply H2; eapply in_combine_l; eauto|apply H6; eapply in_combine_r; eauto].
Qed.

Section Same.
Variable load : string -> option component.
Hypothesis Ld : loadable load.
Variables (e : sysx) (d d' q q' : nat) (r r' : recipe).
Hypothesis P : place load e d q r.
Hypothesis P' : place load e d' q' r'.
Definition pairs : list (nat * nat) := (0, 0) :: combine (all_numbers r) (all_numbers r') ++ combine (quotient_clocks r) (quotient_clocks r').
Lemma pair_kinds x y : In (x, y) pairs -> x = 0 /\ y = 0 \/ In (x, y) (combine (all_numbers r) (all_numbers r')) /\ 1 <= x < d /\ 1 <= y < d' /\ x <> q /\ y <> q' \/ x = q /\ y = q' /\ 1 <= x < d /\ 1 <= y < d'.
Proof.
  intros [[= <- <-]|H]; [auto|]. right. apply in_app_or in H. destruct H as [H|H].
  - pose proof (in_combine_l _ _ _ _ H) as Hl. pose proof (in_combine_r _ _ _ _ H) as Hr. left. split; [exact H|]. split; [apply (pl_range _ _ _ _ _ P), Hl|]. split; [apply (pl_range _ _ _ _ _ P'), Hr|].
    split; intros ->; [apply (pl_fresh _ _ _ _ _ P), Hl|apply (pl_fresh _ _ _ _ _ P'), Hr].
  - pose proof (pl_quot _ _ _ _ _ P _ (in_combine_l _ _ _ _ H)) as (-> & ? & ?). pose proof (pl_quot _ _ _ _ _ P' _ (in_combine_r _ _ _ _ H)) as (-> & ? & ?). right. lia.
Qed.
Lemma pairs_once x y x' y' : In (x, y) pairs -> In (x', y') pairs -> (x = x' <-> y = y').
Proof.
  intros H H'. destruct (pair_kinds x y H) as [[-> ->]|[(K & ? & ? & ? & ?)|(-> & -> & ? & ?)]], (pair_kinds x' y' H') as [[-> ->]|[(K' & ? & ? & ? & ?)|(-> & -> & ? & ?)]]; try lia.
  apply (combine_once (all_numbers r) (all_numbers r')); auto; [apply (pl_once _ _ _ _ _ P)|apply (pl_once _ _ _ _ _ P')].
Qed.
Lemma look_pairs i j : look pairs i = Some j <-> In (i, j) pairs.
Proof.
  split; [apply look_in|]. intros H. destruct (look_found _ _ _ H) as [j' E]. rewrite E. f_equal. apply look_in in E. apply (pairs_once _ _ _ _ E H). reflexivity.
Qed.
Lemma pairs_renames : renames (look pairs) d d'.
Proof.
  constructor; [reflexivity|]. intros i j H Hi. apply look_pairs, pair_kinds in H. lia.
Qed.
Lemma pairs_injective : injective (look pairs).
Proof. intros i j k Hi Hj. rewrite look_pairs in *. apply (pairs_once _ _ _ _ Hi Hj). reflexivity. Qed.
Lemma pairs_recipe : r' = ren_recipe (look pairs) r.
Proof.
  apply (pair_recipe (look pairs) load e); [intros n c H; apply (Ld n c H)|apply P|apply P'| |]; intros i j H; apply look_pairs; right; apply in_or_app; auto.
Qed.
Lemma pairs_fit : (forall c, In c (components r) -> NoDup (map fst (d_clocks (c_decls c))) /\ named_guards c /\ unread (look pairs) c) /\ (forall p, In p (quotient_clocks r) -> kept (look pairs) p).
Proof.
  destruct (instances_length load e r r' (pl_inst _ _ _ _ _ P) (pl_inst _ _ _ _ _ P')) as [L1 L2].
  assert (F : forall (l m : list nat) x, List.length l = List.length m -> In x l -> exists y, In (x, y) (combine l m)).
  { clear. induction l as [|a l IH]; intros [|b m] x E H; cbn in *; try contradiction; try discriminate. destruct H as [->|H]; [eauto|]. destruct (IH m x ltac:(congruence) H) as [y Y]. eauto. }
  split.
  - intros c Hc. destruct (instance_component _ _ _ (pl_inst _ _ _ _ _ P) _ Hc) as (n & c0 & Ln & Re). destruct (Ld n c0 Ln) as ((N & _) & _ & G). split; [destruct Re as (_ & _ & _ & _ & R); rewrite R; exact N|].
    split; [eapply named_guards_re; eauto|]. intros x i Hi E. exfalso. destruct (F (all_numbers r) (all_numbers r') i L1) as [y Y].
    + eapply component_numbers; [exact Hc|]. unfold numbers. apply in_map_iff. exists (x, i). auto.
    + assert (K : look pairs i = Some y) by (apply look_pairs; right; apply in_or_app; auto). congruence.
  - intros p Hp. destruct (F (quotient_clocks r) (quotient_clocks r') p L2 Hp) as [y Y]. exists y. apply look_pairs. right. apply in_or_app. auto.
Qed.
Lemma pairs_srel s s' : assembled d r s -> assembled d' r' s' -> srel (look pairs) d d' s s'.
Proof. intros A A'. destruct pairs_fit as [F1 F2]. eapply assembled_ren; [apply pairs_renames|exact A|exact F1|exact F2|]. rewrite <- pairs_recipe. exact A'. Qed.
End Same.

Lemma place_fit load e d q r : loadable load -> place load e d q r -> forall c, In c (components r) -> fit_component d c.
Proof.
  intros Ld P c Hc. destruct (instance_component _ _ _ (pl_inst _ _ _ _ _ P) _ Hc) as (n & c0 & Ln & Re). destruct (Ld n c0 Ln) as (_ & G & Na).
  split; [|split; [|split; [eapply good_resets_re; eauto|eapply named_guards_re; eauto]]].
  - pose proof (pl_once _ _ _ _ _ P) as N. unfold all_numbers in N. clear - N Hc. induction (components r) as [|x cs IH]; [destruct Hc|]. cbn [flat_map] in N. apply nodup_split in N. destruct N as (N1 & N2 & _). destruct Hc as [->|Hc]; auto.
  - intros i Hi. apply (pl_range _ _ _ _ _ P). eapply component_numbers; eauto.
Qed.
Lemma place_clocks load e d q r s : loadable load -> place load e d q r -> assembled d r s -> clocks_ok d q s /\ reads_ok s.
Proof. intros Ld P A. eapply assembled_good; [|apply P|apply P|apply P|exact A]. eapply place_fit; eauto. Qed.
Lemma placed_good load e d s : loadable load -> placed load e d s -> good d s.
Proof. intros Ld (q & r & _ & P & A). destruct (place_clocks _ _ _ _ _ _ Ld P A) as [C R]. constructor; [eapply assembled_built; eauto|exact R|eauto]. Qed.

(** The system of an expression is the same wherever it is placed. *)
Theorem placed_rel load e d s d' s' : loadable load -> placed load e d s -> placed load e d' s' ->
  exists rho q, renames rho d d' /\ injective rho /\ srel rho d d' s s' /\ clocks_ok d q s /\ 0 < d /\ 0 < d'.
Proof.
  intros Ld (q & r & D & P & A) (q' & r' & D' & P' & A'). exists (look (pairs r r')), q. split; [eapply pairs_renames; eauto|]. split; [eapply pairs_injective; eauto|].
  split; [eapply pairs_srel; eauto|]. split; [|auto]. eapply place_clocks; eauto.
Qed.
Theorem placed_same load e d s d' s' : loadable load -> placed load e d s -> placed load e d' s' -> same_behaviour d s d' s'.
Proof.
  intros Ld P P'. destruct (placed_rel load e d s d' s' Ld P P') as (rho & q & RN & J & S & C & D & D'). eapply (sim_same rho d d' q s s' RN S C D D' (or_intror J)).
  intros l0 a t El O i j u0 u Hi Hk F. pose proof (J _ _ _ Hi Hk) as ->. eauto.
Qed.

(** ** Parts of expressions *)
Lemma place_op load a b d q l r : place load a d q l -> place load b d q r -> (forall x, In x (all_numbers l) -> ~ In x (all_numbers r)) ->
  forall e x, instance_of load e x -> components x = components l ++ components r -> (forall p, In p (quotient_clocks x) -> p = q /\ q <> 0 /\ q < d) -> place load e d q x.
Proof.
  intros Pl Pr Dj e x I C Q. assert (N : all_numbers x = all_numbers l ++ all_numbers r) by (unfold all_numbers; rewrite C; apply flat_map_app).
  constructor; [exact I| | |exact Q|]; rewrite N.
  - pose proof (pl_once _ _ _ _ _ Pl) as N1. pose proof (pl_once _ _ _ _ _ Pr) as N2. clear - N1 N2 Dj. induction (all_numbers l) as [|y m IH]; [exact N2|]. inversion N1; subst. cbn. constructor.
    + intros H. apply in_app_or in H. destruct H as [H|H]; [auto|]. apply (Dj y (or_introl eq_refl) H).
    + apply IH; try assumption. intros z Hz. apply Dj. right. exact Hz.
  - intros i Hi. apply in_app_or in Hi. destruct Hi; [apply (pl_range _ _ _ _ _ Pl)|apply (pl_range _ _ _ _ _ Pr)]; assumption.
  - intros Hi. apply in_app_or in Hi. destruct Hi; [apply (pl_fresh _ _ _ _ _ Pl)|apply (pl_fresh _ _ _ _ _ Pr)]; assumption.
Qed.
Lemma place_part load a b d q l r x e : components x = components l ++ components r -> (forall p, In p (quotient_clocks l ++ quotient_clocks r) -> In p (quotient_clocks x)) ->
  instance_of load a l -> instance_of load b r -> place load e d q x ->
  place load a d q l /\ place load b d q r /\ (forall x, In x (all_numbers l) -> ~ In x (all_numbers r)).
Proof.
  intros C Q Ia Ib P. assert (N : all_numbers x = all_numbers l ++ all_numbers r) by (unfold all_numbers; rewrite C; apply flat_map_app).
  pose proof (pl_once _ _ _ _ _ P) as Nd. pose proof (pl_range _ _ _ _ _ P) as Rg. pose proof (pl_fresh _ _ _ _ _ P) as Fr. rewrite N in Nd, Rg, Fr. apply nodup_split in Nd. destruct Nd as (N1 & N2 & Dj).
  split; [|split; [|exact Dj]]; constructor; auto.
  - intros i Hi. apply Rg, in_or_app. auto.
  - intros p Hp. apply (pl_quot _ _ _ _ _ P), Q, in_or_app. auto.
  - intros H. apply Fr, in_or_app. auto.
  - intros i Hi. apply Rg, in_or_app. auto.
  - intros p Hp. apply (pl_quot _ _ _ _ _ P), Q, in_or_app. auto.
  - intros H. apply Fr, in_or_app. auto.
Qed.
Lemma instance_quotients load e : forall r, instance_of load e r -> has_quotient e = false -> quotient_clocks r = [].
Proof.
  induction e as [n id|a IHa b IHb|a IHa b IHb|a IHa b IHb]; intros [c|l r|l r|l r q] I H; cbn [instance_of has_quotient quotient_clocks] in *; try contradiction; try discriminate; [reflexivity| |];
    apply orb_false_iff in H; destruct H; destruct I; rewrite IHa, IHb by assumption; reflexivity.
Qed.
(** Two systems of one query. *)
Definition beside (load : string -> option component) (e f : sysx) (d : nat) (s t : ts) : Prop :=
  exists q l r, 0 < d /\ place load e d q l /\ place load f d q r /\ (forall x, In x (all_numbers l) -> ~ In x (all_numbers r)) /\ assembled d l s /\ assembled d r t.
Lemma beside_placed load e f d s t : beside load e f d s t -> placed load e d s /\ placed load f d t.
Proof. intros (q & l & r & D & P & P' & _ & A & A'). split; [exists q, l|exists q, r]; auto. Qed.
Lemma beside_separate load e f d s t : beside load e f d s t -> has_quotient e && has_quotient f = false -> separate s t.
Proof.
  intros (q & l & r & D & P & P' & Dj & A & A') H x Hx Hy. apply (assembled_sys_clocks _ _ _ A) in Hx. apply (assembled_sys_clocks _ _ _ A') in Hy.
  destruct Hx as [Hx|Hx], Hy as [Hy|Hy].
  - apply (Dj x Hx Hy).
  - destruct (pl_quot _ _ _ _ _ P' x Hy) as (-> & _). apply (pl_fresh _ _ _ _ _ P Hx).
  - destruct (pl_quot _ _ _ _ _ P x Hx) as (-> & _). apply (pl_fresh _ _ _ _ _ P' Hy).
  - apply andb_false_iff in H. destruct H as [H|H]; [rewrite (instance_quotients load e l (pl_inst _ _ _ _ _ P) H) in Hx; destruct Hx|rewrite (instance_quotients load f r (pl_inst _ _ _ _ _ P') H) in Hy; destruct Hy].
Qed.
Lemma beside_sym load e f d s t : beside load e f d s t -> beside load f e d t s.
Proof. intros (q & l & r & D & P & P' & Dj & A & A'). exists q, r, l. split; [exact D|]. split; [exact P'|]. split; [exact P|]. split; [|auto]. intros x Hx Hy. apply (Dj x Hy Hx). Qed.

Lemma placed_conj load a b d s : placed load (XConj a b) d s -> exists s1 s2, beside load a b d s1 s2 /\ conjunction_new s1 s2 = Ok s.
Proof.
  intros (q & r & D & P & A). destruct r as [c|l r|l r|l r p]; pose proof (pl_inst _ _ _ _ _ P) as I; cbn [instance_of] in I; try contradiction. destruct I as [I1 I2].
  destruct (place_part load a b d q l r (RConj l r) _ eq_refl (fun p H => H) I1 I2 P) as (P1 & P2 & Dj). apply assembled_inv in A. destruct A as (l' & r' & Al & Ar & En). exists l', r'. split; [exists q, l, r; auto 10|assumption].
Qed.
Lemma placed_comp load a b d s : placed load (XPar a b) d s -> exists s1 s2, beside load a b d s1 s2 /\ composition_new s1 s2 = Ok s.
Proof.
  intros (q & r & D & P & A). destruct r as [c|l r|l r|l r p]; pose proof (pl_inst _ _ _ _ _ P) as I; cbn [instance_of] in I; try contradiction. destruct I as [I1 I2].
  destruct (place_part load a b d q l r (RComp l r) _ eq_refl (fun p H => H) I1 I2 P) as (P1 & P2 & Dj). apply assembled_inv in A. destruct A as (l' & r' & Al & Ar & En). exists l', r'. split; [exists q, l, r; auto 10|assumption].
Qed.
Lemma placed_quot load a b d s : placed load (XQuot a b) d s -> exists s1 s2 q, beside load a b d s1 s2 /\ quotient_new s1 s2 q = Ok s.
Proof.
  intros (q & r & D & P & A). destruct r as [c|l r|l r|l r p]; pose proof (pl_inst _ _ _ _ _ P) as I; cbn [instance_of] in I; try contradiction. destruct I as [I1 I2].
  destruct (place_part load a b d q l r (RQuot l r p) _ eq_refl (fun p H => or_intror H) I1 I2 P) as (P1 & P2 & Dj). apply assembled_inv in A. destruct A as (l' & r' & Al & Ar & En). exists l', r', p. split; [exists q, l, r; auto 10|assumption].
Qed.
Lemma comp_placed load a b d s1 s2 s : beside load a b d s1 s2 -> composition_new s1 s2 = Ok s -> placed load (XPar a b) d s.
Proof.
  intros (q & l & r & D & P & P' & Dj & A & A') E. exists q, (RComp l r). split; [exact D|]. split; [|econstructor; eauto].
  eapply place_op; [exact P|exact P'|exact Dj| |reflexivity|]; [split; [apply P|apply P']|]. intros p Hp. apply in_app_or in Hp. destruct Hp; [apply P|apply P']; assumption.
Qed.
Lemma conj_placed load a b d s1 s2 s : beside load a b d s1 s2 -> conjunction_new s1 s2 = Ok s -> placed load (XConj a b) d s.
Proof.
  intros (q & l & r & D & P & P' & Dj & A & A') E. exists q, (RConj l r). split; [exact D|]. split; [|econstructor; eauto].
  eapply place_op; [exact P|exact P'|exact Dj| |reflexivity|]; [split; [apply P|apply P']|]. intros p Hp. apply in_app_or in Hp. destruct Hp; [apply P|apply P']; assumption.
Qed.
(** If an operand is beside another expression, so are its parts. *)
Lemma beside_conj load e a b d s t : beside load e (XConj a b) d s t -> exists t1 t2, beside load e a d s t1 /\ beside load e b d s t2 /\ beside load a b d t1 t2 /\ conjunction_new t1 t2 = Ok t.
Proof.
  intros (q & l & r & D & P & P' & Dj & A & A'). destruct r as [c|r1 r2|r1 r2|r1 r2 p]; pose proof (pl_inst _ _ _ _ _ P') as I; cbn [instance_of] in I; try contradiction. destruct I as [I1 I2].
  destruct (place_part load a b d q r1 r2 (RConj r1 r2) _ eq_refl (fun p H => H) I1 I2 P') as (P1 & P2 & Dj'). apply assembled_inv in A'. destruct A' as (l' & r' & Al & Ar & En). exists l', r'.
  unfold all_numbers in Dj. cbn [components] in Dj. rewrite flat_map_app in Dj.
  split; [exists q, l, r1; repeat match goal with |- _ /\ _ => split end; auto; intros x Hx Hy; apply (Dj x Hx), in_or_app; auto|]. split; [exists q, l, r2; repeat match goal with |- _ /\ _ => split end; auto; intros x Hx Hy; apply (Dj x Hx), in_or_app; auto|].
  split; [exists q, r1, r2; auto 10|assumption].
Qed.
Lemma beside_comp load e a b d s t : beside load e (XPar a b) d s t -> exists t1 t2, beside load e a d s t1 /\ beside load e b d s t2 /\ beside load a b d t1 t2 /\ composition_new t1 t2 = Ok t.
Proof.
  intros (q & l & r & D & P & P' & Dj & A & A'). destruct r as [c|r1 r2|r1 r2|r1 r2 p]; pose proof (pl_inst _ _ _ _ _ P') as I; cbn [instance_of] in I; try contradiction. destruct I as [I1 I2].
  destruct (place_part load a b d q r1 r2 (RComp r1 r2) _ eq_refl (fun p H => H) I1 I2 P') as (P1 & P2 & Dj'). apply assembled_inv in A'. destruct A' as (l' & r' & Al & Ar & En). exists l', r'.
  unfold all_numbers in Dj. cbn [components] in Dj. rewrite flat_map_app in Dj.
  split; [exists q, l, r1; repeat match goal with |- _ /\ _ => split end; auto; intros x Hx Hy; apply (Dj x Hx), in_or_app; auto|]. split; [exists q, l, r2; repeat match goal with |- _ /\ _ => split end; auto; intros x Hx Hy; apply (Dj x Hx), in_or_app; auto|].
  split; [exists q, r1, r2; auto 10|assumption].
Qed.
Lemma beside_quot load e a b d s t : beside load e (XQuot a b) d s t -> exists t1 t2 q, beside load e a d s t1 /\ beside load e b d s t2 /\ beside load a b d t1 t2 /\ quotient_new t1 t2 q = Ok t.
Proof.
  intros (q & l & r & D & P & P' & Dj & A & A'). destruct r as [c|r1 r2|r1 r2|r1 r2 p]; pose proof (pl_inst _ _ _ _ _ P') as I; cbn [instance_of] in I; try contradiction. destruct I as [I1 I2].
  destruct (place_part load a b d q r1 r2 (RQuot r1 r2 p) _ eq_refl (fun p H => or_intror H) I1 I2 P') as (P1 & P2 & Dj'). apply assembled_inv in A'. destruct A' as (l' & r' & Al & Ar & En). exists l', r', p.
  unfold all_numbers in Dj. cbn [components] in Dj. rewrite flat_map_app in Dj.
  split; [exists q, l, r1; repeat match goal with |- _ /\ _ => split end; auto; intros x Hx Hy; apply (Dj x Hx), in_or_app; auto|]. split; [exists q, l, r2; repeat match goal with |- _ /\ _ => split end; auto; intros x Hx Hy; apply (Dj x Hx), in_or_app; auto|].
  split; [exists q, r1, r2; auto 10|assumption].
Qed.

(** ** Queries *)
Lemma names_one_placed load e d s : loadable load -> names_one load e d s -> placed load e d s.
Proof.
  intros Ld (r & dim & q & E & C & ->). destruct (recipe_numbers load (fun n c H => proj1 (Ld n c H)) e _ _ _ E) as (I & _ & _ & P & _ & Q & _). cbn [fst snd new_q] in *. rewrite Nat.sub_0_r in P.
  unfold compile in C. inv_bind C. destruct a as [s0 k]. injection C as ->. exists (q_default q), r. split; [lia|]. split; [|eapply compile_assembled; eauto].
  assert (Nd : NoDup (all_numbers r ++ opt_clock q)) by (eapply Permutation_NoDup; [symmetry; exact P|apply seq_NoDup]).
  assert (Rg : forall i, In i (all_numbers r ++ opt_clock q) -> 1 <= i < dim + 1) by (intros i Hi; apply (Permutation_in _ P) in Hi; apply in_seq in Hi; lia).
  apply nodup_split in Nd. destruct Nd as (N1 & _ & N2). constructor; auto.
  - intros i Hi. apply Rg, in_or_app. auto.
  - intros p Hp. apply Q in Hp. subst q. assert (1 <= p < dim + 1) by (apply Rg, in_or_app; right; left; reflexivity). cbn. lia.
  - intros X. destruct q as [q0|]; [apply (N2 _ X); left; reflexivity|]. specialize (Rg 0 (in_or_app _ _ _ (or_introl X))). lia.
Qed.
Lemma names_two_beside load e f d s t : loadable load -> names_two load e f d s t -> beside load e f d s t.
Proof.
  intros Ld (l & [n p] & r & dim & q & E & F & C & ->).
  destruct (recipe_numbers load (fun n c H => proj1 (Ld n c H)) e _ _ _ E) as (I & _ & _ & P & _ & Q & _). destruct (recipe_numbers load (fun n c H => proj1 (Ld n c H)) f _ _ _ F) as (I' & Le & _ & P' & K' & Q' & N').
  cbn [fst snd new_q] in *. rewrite Nat.sub_0_r in P.
  unfold compile_two in C. inv_bind C. destruct a as [a1 k1]. inv_bind C. destruct a as [b1 m1]. injection C as -> ->. apply compile_assembled in H. apply compile_assembled in H0.
  assert (PP : Permutation ((all_numbers l ++ opt_clock p) ++ (all_numbers r ++ match p with Some _ => [] | None => opt_clock q end)) (seq 1 dim)).
  { replace dim with (n + (dim - n)) by lia. rewrite seq_app. apply Permutation_app; assumption. }
  assert (Nd : NoDup ((all_numbers l ++ opt_clock p) ++ (all_numbers r ++ match p with Some _ => [] | None => opt_clock q end))) by (eapply Permutation_NoDup; [symmetry; exact PP|apply seq_NoDup]).
  assert (Rg : forall i, In i ((all_numbers l ++ opt_clock p) ++ (all_numbers r ++ match p with Some _ => [] | None => opt_clock q end)) -> 1 <= i < dim + 1) by (intros i Hi; apply (Permutation_in _ PP) in Hi; apply in_seq in Hi; lia).
  apply nodup_split in Nd. destruct Nd as (N1 & N2 & N3). apply nodup_split in N1. destruct N1 as (Nl & _ & N4). apply nodup_split in N2. destruct N2 as (Nr & _ & N5).
  assert (Pq : forall x, p = Some x -> q = Some x) by (intros x ->; apply K'; discriminate).
  assert (Fq : forall x, q = Some x -> ~ In x (all_numbers l) /\ ~ In x (all_numbers r) /\ 1 <= x < dim + 1).
  { intros x ->. destruct p as [p0|].
    - specialize (Pq p0 eq_refl). injection Pq as ->. split; [intros H1; apply (N4 _ H1); left; reflexivity|]. split; [intros H1; apply (N3 p0); [apply in_or_app; right; left; reflexivity|apply in_or_app; left; exact H1]|].
      apply Rg, in_or_app. left. apply in_or_app. right. left. reflexivity.
    - split; [intros H1; apply (N3 x); apply in_or_app; [left; exact H1|right; left; reflexivity]|]. split; [intros H1; apply (N5 _ H1); left; reflexivity|]. apply Rg, in_or_app. right. apply in_or_app. right. left. reflexivity. }
  exists (q_default q), l, r. split; [lia|]. split; [|split; [|split; [|auto]]].
  - constructor; auto.
    + intros i Hi. apply Rg, in_or_app. left. apply in_or_app. auto.
    + intros x Hx. apply Q in Hx. apply Pq in Hx. subst q. destruct (Fq x eq_refl) as (_ & _ & R). cbn. lia.
    + intros H1. destruct q as [q0|]; [exact (proj1 (Fq q0 eq_refl) H1)|]. cbn in H1. specialize (Rg 0). assert (In 0 ((all_numbers l ++ opt_clock p) ++ (all_numbers r ++ match p with Some _ => [] | None => opt_clock None end))) by (apply in_or_app; left; apply in_or_app; auto). apply Rg in H2. lia.
  - constructor; auto.
    + intros i Hi. apply Rg, in_or_app. right. apply in_or_app. auto.
    + intros x Hx. apply Q' in Hx. subst q. destruct (Fq x eq_refl) as (_ & _ & R). cbn. lia.
    + intros H1. destruct q as [q0|]; [exact (proj1 (proj2 (Fq q0 eq_refl)) H1)|]. cbn in H1. specialize (Rg 0). assert (In 0 ((all_numbers l ++ opt_clock p) ++ (all_numbers r ++ match p with Some _ => [] | None => opt_clock None end))) by (apply in_or_app; right; apply in_or_app; auto). apply Rg in H2. lia.
  - intros x Hx Hy. apply (N3 x); apply in_or_app; auto.
Qed.
