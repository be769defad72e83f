(** Facts about answering queries: checks do not change systems, and what is true of a system with renamed clocks. *)
From Coq Require Import List String ZArith QArith Bool Arith Lia Lqa Permutation.
From Verif Require Import Fed.Zone Fed.ZoneFacts Model.Base Model.Expr Model.Guard Model.Loc Model.Component Model.TS Model.ParseQuery Model.Files Model.Recipe Model.Reduce Model.Save
  Spec.StepSpec Spec.SystemSpec Spec.RunSpec Spec.ReachSpec Spec.RefineSpec Spec.EnableSpec Spec.RecipeSpec Spec.ReduceSpec Spec.SameSpec Spec.IdSpec Spec.SaveSpec Spec.ExecSpec
  Proofs.GuardFacts Proofs.StepFacts Proofs.SystemFacts Proofs.WfFacts Proofs.ReadsFacts Proofs.RunFacts Proofs.RecipeFacts Proofs.ReduceFacts Proofs.RenFacts Proofs.SameFacts
  Proofs.BisimFacts Proofs.ShrinkFacts Proofs.TwoFacts.
Import ListNotations.
Local Open Scope nat_scope.
Local Open Scope list_scope.

(** ** Checks *)
Lemma compile_unchecked least pre d r : forall k s k', compile_at least pre d r k = Ok (s, k') -> compile_at unchecked unchecked d r k = Ok (s, k').
Proof.
  induction r as [c|l IHl r IHr|l IHl r IHr|l IHl r IHr q]; intros k s k' E; cbn [compile_at] in *.
  - exact E.
  - inv_bind E. destruct a as [l1 k1]. inv_bind E. destruct a as [r1 k2]. inv_bind E. injection E as <- <-. rewrite (IHl _ _ _ H). cbn [bind]. rewrite (IHr _ _ _ H0). cbn [bind]. rewrite H1. reflexivity.
  - inv_bind E. destruct a as [l1 k1]. inv_bind E. destruct a as [r1 k2]. inv_bind E. injection E as <- <-. rewrite (IHl _ _ _ H). cbn [bind]. rewrite (IHr _ _ _ H0). cbn [bind].
    unfold conjunction_ts in *. inv_bind H1. rewrite H2. cbn [bind unchecked]. inv_bind H1. destruct a1; [|discriminate]. injection H1 as <-. reflexivity.
  - inv_bind E. destruct a as [l1 k1]. inv_bind E. destruct a as [r1 k2]. inv_bind E. injection E as <- <-. rewrite (IHl _ _ _ H). cbn [bind]. rewrite (IHr _ _ _ H0). cbn [bind].
    unfold quotient_ts in *. destruct (negb _); [discriminate|]. inv_bind H1. destruct a0; [|discriminate]. inv_bind H1. destruct a0; [|discriminate]. cbn [unchecked bind]. rewrite H1. reflexivity.
Qed.
Lemma one_unchecked least pre dim r s : compile least pre dim r = Ok s -> compile unchecked unchecked dim r = Ok s.
Proof. unfold compile. intros E. inv_bind E. destruct a as [s0 k]. rewrite (compile_unchecked _ _ _ _ _ _ _ H). exact E. Qed.
Lemma two_unchecked least pre dim l r p : compile_two least pre dim l r = Ok p -> compile_two unchecked unchecked dim l r = Ok p.
Proof. unfold compile_two. intros E. inv_bind E. destruct a as [s0 k]. inv_bind E. destruct a as [t0 k1]. rewrite (compile_unchecked _ _ _ _ _ _ _ H). cbn [bind]. rewrite (compile_unchecked _ _ _ _ _ _ _ H0). exact E. Qed.
Lemma reduce_unchecked least pre red l r dim q x : clock_reduce least pre red l r dim q = Ok x -> clock_reduce unchecked unchecked red l r dim q = Ok x.
Proof.
  unfold clock_reduce, clock_reduce_two, clock_reduce_single. destruct (Nat.eqb dim 0); [auto|]. destruct r as [r|].
  - intros E. inv_bind E. destruct a as [p d]. inv_bind H. inv_bind H. inv_bind H. inv_bind H.
    rewrite (one_unchecked _ _ _ _ _ H0). cbn [bind]. rewrite H1. cbn [bind]. rewrite (one_unchecked _ _ _ _ _ H2). cbn [bind]. rewrite H3. cbn [bind]. rewrite H. exact E.
  - intros E. inv_bind E. destruct a as [p d]. inv_bind H. inv_bind H. rewrite (one_unchecked _ _ _ _ _ H0). cbn [bind]. rewrite H1. cbn [bind]. rewrite H. exact E.
Qed.
(** Only the redundancies of the given systems in the given dimension matter. *)
Lemma reduce_at least pre red red' l r dim q : (forall s, red (dim + 1) s = red' (dim + 1) s) -> clock_reduce least pre red l r dim q = clock_reduce least pre red' l r dim q.
Proof.
  intros X. unfold clock_reduce, clock_reduce_two, clock_reduce_single. destruct (Nat.eqb dim 0); [reflexivity|].
  destruct r as [r|]; destruct (compile least pre dim l) as [s| | |]; cbn [bind]; try reflexivity; rewrite X; [|reflexivity].
  destruct (red' (dim + 1) s); cbn [bind]; try reflexivity. destruct (compile least pre dim r) as [t| | |]; cbn [bind]; try reflexivity. rewrite X. reflexivity.
Qed.

Lemma inv_ok dim l v : inv_at dim l v -> val_ok dim v.
Proof. unfold inv_at. destruct (lt_inv l); [apply fsem_ok|auto]. Qed.

(** ** Locations of renamed systems *)
Section Renamed.
Variable rho : nat -> option nat.
Variables dim dim' : nat.
Hypothesis RN : renames rho dim dim'.
Hypothesis D' : 0 < dim'.

Lemma compose_rel c ls ls' rs rs' : Forall2 (lrel rho dim dim') ls ls' -> Forall2 (lrel rho dim dim') rs rs' ->
  Forall2 (lrel rho dim dim') (flat_map (fun p => match lt_compose dim (fst p) (snd p) c with Ok t => [t] | _ => [] end) (list_prod ls rs))
    (flat_map (fun p => match lt_compose dim' (fst p) (snd p) c with Ok t => [t] | _ => [] end) (list_prod ls' rs')).
Proof.
  intros L R. pose proof (Forall2_prod _ _ _ _ _ _ L R) as F. induction F as [|[a b] [a' b'] m m' [Ha Hb] F IH]; cbn [flat_map fst snd]; [constructor|].
  apply Forall2_app; [|exact IH]. cbn [fst snd] in *. pose proof (lrel_compose rho dim dim' a a' b b' c Ha Hb) as X.
  destruct (lt_compose dim a b c), (lt_compose dim' a' b' c); cbn in X; try contradiction; repeat constructor; exact X.
Qed.
Lemma locations_rel s s' : srel rho dim dim' s s' -> Forall2 (lrel rho dim dim') (all_locations dim s) (all_locations dim' s').
Proof.
  induction 1 as [c c' C|l l' r r' i o L IHl R IHr|l l' r r' i o lo ro co L IHl R IHr|t t' s s' i o n q q' T IHt S IHs Q]; cbn [all_locations].
  - apply (cr_locs _ _ _ _ _ C).
  - apply compose_rel; assumption.
  - apply compose_rel; assumption.
  - apply Forall2_app; [|constructor; [apply lrel_error; assumption|constructor; [apply lrel_universal|constructor]]].
    eapply Forall2_map; [apply Forall2_prod; eassumption|]. intros [a b] [a' b'] _ _ [Ha Hb]. apply lrel_quotient; assumption.
Qed.
Lemma reserved_rel s s' : srel rho dim dim' s s' -> no_reserved s' = no_reserved s.
Proof. induction 1 as [c c' C| | |]; cbn [no_reserved]; [rewrite (cr_in _ _ _ _ _ C), (cr_out _ _ _ _ _ C); reflexivity|congruence|congruence|congruence]. Qed.
Lemma free_rel s s' : srel rho dim dim' s s' -> quotient_free s' = quotient_free s.
Proof. induction 1; cbn [quotient_free]; congruence. Qed.
Lemma divisors_rel s s' : srel rho dim dim' s s' -> plain_divisors s' = plain_divisors s.
Proof. induction 1 as [| | |t t' s s' i o n q q' T IHt S IHs Q]; cbn [plain_divisors]; try congruence. rewrite IHt, (free_rel _ _ S). reflexivity. Qed.

(** The value of an invariant is that of the original one for some valuation that can be delayed alike. *)
Lemma inv_back l l' v' : lrel rho dim dim' l l' -> val_ok dim' v' ->
  exists v, val_ok dim v /\ agree rho v v' /\ forall d, (0 <= d)%Q -> (inv_at dim l (vdelay v d) <-> inv_at dim' l' (vdelay v' d)).
Proof.
  intros L V'. destruct (back rho dim dim' RN v' V' D') as (v & V & A). exists v. split; [exact V|]. split; [exact A|]. intros d Hd.
  apply (lrel_inv_at rho dim dim' _ _ _ _ L); [apply vdelay_ok; assumption|apply vdelay_ok; assumption|]. apply (delay_agree rho dim dim' RN), A.
Qed.
Lemma gaps_rel s s' : srel rho dim dim' s s' -> no_gaps dim s -> no_gaps dim' s'.
Proof.
  intros S G l' v' d e Hl' Hd He I0 I1. pose proof (inv_ok _ _ _ I0) as V0. destruct (Forall2_in_r _ _ _ _ (locations_rel s s' S) Hl') as (l & Hl & L).
  destruct (inv_back l l' v' L V0) as (v & V & A & X). apply (X d Hd). apply (G l v d e Hl Hd He).
  - apply (lrel_inv_at rho dim dim' _ _ _ _ L V V0 A), I0.
  - apply X; [lra|exact I1].
Qed.
Lemma upper_rel s s' : srel rho dim dim' s s' -> upper_invariants dim s -> upper_invariants dim' s'.
Proof.
  intros S G l' Hl' v' d V' Hd I. destruct (Forall2_in_r _ _ _ _ (locations_rel s s' S) Hl') as (l & Hl & L).
  destruct (inv_back l l' v' L V') as (v & V & A & X). apply (lrel_inv_at rho dim dim' _ _ _ _ L V V' A). apply (G l Hl v d V Hd). apply X; assumption.
Qed.
Lemma inside_rel q s s' : 0 < dim -> srel rho dim dim' s s' -> clocks_ok dim q s -> injective rho -> enters_inside dim s -> enters_inside dim' s'.
Proof.
  intros D S C J G l' a t' v' Hl' (Ha & ts' & Et' & Ht') Gv. destruct (Forall2_in_r _ _ _ _ (locations_rel s s' S) Hl') as (l & Hl & L).
  pose proof (next_rel rho dim dim' RN s s' S q C D D' (or_intror J) l l' a L) as N. rewrite Et' in N.
  destruct (next_transitions dim s l a) as [ts| | |] eqn:Et; cbn in N; try contradiction. destruct (Forall2_in_r _ _ _ _ N Ht') as (t & Ht & T).
  pose proof (fsem_ok _ _ _ Gv) as V'. destruct (back rho dim dim' RN v' V' D') as (v & V & A).
  destruct (next_fine dim q s C l a ts Et t Ht) as [[U _] _].
  assert (O : offered dim s l a t). { split; [|eauto]. unfold is_action, is_input, is_output in *. rewrite (srel_inputs _ _ _ _ _ S), (srel_outputs _ _ _ _ _ S) in Ha. exact Ha. }
  pose proof (G l a t v Hl O (proj2 (tr_guard _ _ _ _ _ T v v' V V' A) Gv)) as X. rewrite (tr_updates _ _ _ _ _ T).
  apply (lrel_inv_at rho dim dim' _ _ (run_updates (t_updates t) v) _ (tr_target _ _ _ _ _ T)); [apply run_updates_ok; assumption|apply run_updates_ok; [apply (ren_ok rho dim dim' RN), U|assumption]| |exact X].
  apply run_agree; [|exact A]. apply together_inj, J.
Qed.

(** ** Renamed recipes are numbered well *)
Hypothesis J : injective rho.
Definition moved (l : list nat) : list nat := flat_map (fun i => match rho i with Some j => [j] | None => [] end) l.
Lemma moved_In l j : In j (moved l) <-> exists i, In i l /\ rho i = Some j.
Proof.
  unfold moved. rewrite in_flat_map. split.
  - intros (i & Hi & H). destruct (rho i) eqn:E; [|destruct H]. destruct H as [<-|[]]. eauto.
  - intros (i & Hi & E). exists i. split; [exact Hi|]. rewrite E. left. reflexivity.
Qed.
Lemma moved_nodup l : NoDup l -> NoDup (moved l).
Proof.
  induction 1 as [|i l Ni N IH]; [constructor|]. cbn [moved flat_map]. fold (moved l). destruct (rho i) as [j|] eqn:E; [|exact IH]. cbn [app]. constructor; [|exact IH].
  intros H. apply moved_In in H. destruct H as (k & Hk & Ek). apply Ni. rewrite (J _ _ _ E Ek). exact Hk.
Qed.
Lemma moved_app l m : moved (l ++ m) = moved l ++ moved m.
Proof. apply flat_map_app. Qed.
Lemma ren_numbers c : numbers (ren_comp rho c) = moved (numbers c).
Proof.
  unfold numbers. cbn [ren_comp c_decls d_clocks]. induction (d_clocks (c_decls c)) as [|[n i] m IH]; [reflexivity|].
  unfold ren_clocks, moved in *. cbn [flat_map map fst snd]. rewrite map_app, IH. destruct (rho i); reflexivity.
Qed.
Lemma ren_components r : components (ren_recipe rho r) = map (ren_comp rho) (components r).
Proof. induction r as [c|l IHl r IHr|l IHl r IHr|l IHl r IHr q]; cbn [ren_recipe components map]; try reflexivity; rewrite IHl, IHr, map_app; reflexivity. Qed.
Lemma ren_all r : all_numbers (ren_recipe rho r) = moved (all_numbers r).
Proof.
  unfold all_numbers. rewrite ren_components. induction (components r) as [|c cs IH]; [reflexivity|]. cbn [map flat_map]. rewrite IH, moved_app, ren_numbers. reflexivity.
Qed.
Lemma ren_quotients r : quotient_clocks (ren_recipe rho r) = map (total rho) (quotient_clocks r).
Proof. induction r as [c|l IHl r IHr|l IHl r IHr|l IHl r IHr q]; cbn [ren_recipe quotient_clocks map]; try reflexivity; rewrite ?IHl, ?IHr, map_app; reflexivity. Qed.
Lemma ren_fit c : fit_component dim c -> fit_component dim' (ren_comp rho c).
Proof.
  intros (N & B & G & M). split; [rewrite ren_numbers; apply moved_nodup, N|]. split; [|split].
  - intros j Hj. rewrite ren_numbers in Hj. apply moved_In in Hj. destruct Hj as (i & Hi & E). specialize (B i Hi). destruct (rn_range _ _ _ RN _ _ E ltac:(lia)). lia.
  - intros e us He Hu. cbn [ren_comp c_edges] in He. apply in_map_iff in He. destruct He as (e0 & <- & He). cbn [ren_edge e_update] in Hu. destruct (e_update e0) as [us0|] eqn:E0; [|discriminate].
    injection Hu as <-. destruct (G e0 us0 He E0) as [G1 G2]. split; [intros x k H|intros x a b H1 H2]; [apply filter_In in H; apply (G1 x k), H|apply filter_In in H1, H2; apply (G2 x a b); tauto].
  - destruct M as [M1 M2]. split; [exact M1|]. intros e g He. cbn [ren_comp c_edges] in He. apply in_map_iff in He. destruct He as (e0 & <- & He). exact (M2 e0 g He).
Qed.
Lemma ren_good least pre q q' r k s k' : (forall c, In c (components r) -> fit_component dim c) -> NoDup (all_numbers r) -> ~ In q (all_numbers r) -> rho q = Some q' \/ (quotient_clocks r = [] /\ q' = 0) ->
  (forall x, In x (quotient_clocks r) -> x = q /\ q <> 0) ->
  compile_at least pre dim' (ren_recipe rho r) k = Ok (s, k') -> built dim' s /\ clocks_ok dim' q' s /\ reads_ok s /\ comp_clocks s = moved (all_numbers r).
Proof.
  intros F N Nq Eq Q E. split; [eapply compile_built; exact E|]. rewrite (compile_clocks _ _ _ _ _ _ _ E), ren_all.
  assert (X : clocks_ok dim' q' s /\ reads_ok s); [|split; [apply X|split; [apply X|reflexivity]]].
  eapply system_good; [| | | |exact E].
  - intros c Hc. rewrite ren_components in Hc. apply in_map_iff in Hc. destruct Hc as (c0 & <- & Hc). apply ren_fit, F, Hc.
  - rewrite ren_all. apply moved_nodup, N.
  - rewrite ren_all. intros H. apply moved_In in H. destruct H as (i & Hi & Ei). destruct Eq as [Eq|[_ ->]].
    + apply Nq. rewrite (J _ _ _ Eq Ei). exact Hi.
    + rewrite (J _ _ _ Ei (rn_zero _ _ _ RN)) in Hi. unfold all_numbers in Hi. apply in_flat_map in Hi. destruct Hi as (c & Hc & Hi). destruct (F c Hc) as (_ & B & _). specialize (B 0 Hi). lia.
  - intros x Hx. rewrite ren_quotients in Hx. apply in_map_iff in Hx. destruct Hx as (x0 & <- & Hx). destruct (Q x0 Hx) as [-> Nz]. destruct Eq as [Eq|[Z _]]; [|rewrite Z in Hx; destruct Hx].
    unfold total. rewrite Eq. destruct (rn_range _ _ _ RN _ _ Eq Nz) as (R1 & R2 & _). auto.
Qed.
End Renamed.

(** Clocks of compiled systems. *)
Lemma compile_sys_clocks least pre d r : forall k s k', compile_at least pre d r k = Ok (s, k') -> forall x, In x (sys_clocks s) <-> In x (all_numbers r) \/ In x (quotient_clocks r).
Proof.
  induction r as [c|l IHl r IHr|l IHl r IHr|l IHl r IHr q]; intros k s k' E x; pose proof (compile_clocks _ _ _ _ _ _ _ E) as Cc; cbn [compile_at] in E.
  - inv_bind E. injection E as <- <-. cbn [sys_clocks quotient_clocks]. rewrite Cc. cbn. tauto.
  - inv_bind E. destruct a as [l1 k1]. inv_bind E. destruct a as [r1 k2]. inv_bind E. injection E as <- <-. apply composition_new_inv in H1. destruct H1 as (_ & ? & ? & ? & ? & ? & -> & _).
    cbn [sys_clocks quotient_clocks]. unfold all_numbers. cbn [components]. rewrite flat_map_app, !in_app_iff, (IHl _ _ _ H x), (IHr _ _ _ H0 x). unfold all_numbers. tauto.
  - inv_bind E. destruct a as [l1 k1]. inv_bind E. destruct a as [r1 k2]. inv_bind E. injection E as <- <-. unfold conjunction_ts in H1. inv_bind H1. inv_bind H1. destruct a1; [|discriminate]. injection H1 as <-.
    apply conjunction_new_inv in H2. destruct H2 as (-> & _).
    cbn [sys_clocks quotient_clocks]. unfold all_numbers. cbn [components]. rewrite flat_map_app, !in_app_iff, (IHl _ _ _ H x), (IHr _ _ _ H0 x). unfold all_numbers. tauto.
  - inv_bind E. destruct a as [l1 k1]. inv_bind E. destruct a as [r1 k2]. inv_bind E. injection E as <- <-. unfold quotient_ts in H1. destruct (negb _); [discriminate|]. inv_bind H1. destruct a0; [|discriminate]. inv_bind H1. destruct a0; [|discriminate].
    apply quotient_new_inv in H1. destruct H1 as (n & ins & outs & -> & _).
    cbn [sys_clocks quotient_clocks In]. unfold all_numbers. cbn [components]. rewrite flat_map_app, !in_app_iff, (IHl _ _ _ H x), (IHr _ _ _ H0 x). unfold all_numbers. tauto.
Qed.

(** ** What is true of a system is true of one that behaves the same *)
Lemma same_refl dim s : same_behaviour dim s dim s.
Proof.
  split; [tauto|]. split; [tauto|]. exists (fun x y => x = y). split; [|destruct (initial_location dim s); auto]. constructor.
  - intros l v l' v' [= <- <-]. tauto.
  - intros l v l' v' d [= <- <-] _. reflexivity.
  - intros l v l' v' a t [= <- <-] O A. eauto.
  - intros l v l' v' a t [= <- <-] O A. eauto.
  - intros l v l' v' a ts [= <- <-] Ha E. exists ts. split; [exact E|]. clear. induction ts; constructor; auto. tauto.
  - intros l v l' v' a ts [= <- <-] Ha E. exists ts. split; [exact E|]. clear. induction ts; constructor; auto. tauto.
Qed.
Lemma same_run dim s dim' s' R l v l' v' : bisimulation dim s dim' s' R -> forall m w, run dim s l v m w -> R (l, v) (l', v') -> exists m' w', run dim' s' l' v' m' w' /\ R (m, w) (m', w').
Proof.
  intros B m w Ru H. induction Ru as [|m w d Ru IH Hd Inv|m w a t Ru IH O Ab].
  - exists l', v'. split; [constructor|exact H].
  - destruct IH as (m' & w' & Ru' & H'). exists m', (vdelay w' d). split; [|apply (bs_delay _ _ _ _ _ B); assumption].
    apply run_delay; [exact Ru'|exact Hd|]. intros e He Hed. apply (bs_loc _ _ _ _ _ B _ _ _ _ (bs_delay _ _ _ _ _ B _ _ _ _ e H' He)). auto.
  - destruct IH as (m' & w' & Ru' & H'). destruct (bs_forth _ _ _ _ _ B _ _ _ _ _ _ H' O Ab) as (t' & O' & Ab' & H2). exists (t_target t'), (run_updates (t_updates t') w').
    split; [eapply run_act; eauto|exact H2].
Qed.
Lemma Forall2_nth {A B} (P : A -> B -> Prop) l m : Forall2 P l m -> forall i a, nth_error l i = Some a -> exists b, nth_error m i = Some b /\ P a b.
Proof. induction 1 as [|a b l m H F IH]; intros [|i] x E; try discriminate; cbn in *; [injection E as <-; eauto|auto]. Qed.
Lemma same_deterministic dim s dim' s' : same_behaviour dim s dim' s' -> deterministic dim' s' -> deterministic dim s.
Proof.
  intros (Hi & Ho & R & B & I) De l v a ts (l0 & E & I0 & Ru) Ha Et. rewrite E in I. destruct (initial_location dim' s') as [l0'|] eqn:E'; [|contradiction].
  destruct (same_run _ _ _ _ _ _ _ _ _ B _ _ Ru I) as (l' & v' & Ru' & H). destruct (bs_list _ _ _ _ _ B _ _ _ _ _ _ H Ha Et) as (ts' & Et' & F).
  assert (Re : reachable dim' s' l' v'). { exists l0'. split; [exact E'|]. split; [|exact Ru']. apply (bs_loc _ _ _ _ _ B _ _ _ _ I), I0. }
  assert (Ha' : is_action s' a) by (destruct Ha as [Ha|Ha]; [left; apply Hi, Ha|right; apply Ho, Ha]).
  intros i j t u Ne Ei Ej [At Au]. destruct (Forall2_nth _ _ _ F i t Ei) as (t' & Ei' & _ & X). destruct (Forall2_nth _ _ _ F j u Ej) as (u' & Ej' & _ & Y).
  apply (De l' v' a ts' Re Ha' Et' i j t' u' Ne Ei' Ej'). split; [apply X, At|apply Y, Au].
Qed.
Lemma same_starts dim s t dim' s' t' : same_behaviour dim s dim' s' -> same_behaviour dim t dim' t' -> starts_together dim s t -> starts_together dim' s' t'.
Proof.
  intros (_ & _ & R & B & I) (_ & _ & T & C & K) St l1' l2' E1 E2. rewrite E1 in I. rewrite E2 in K.
  destruct (initial_location dim s) as [l1|] eqn:F1; [|contradiction]. destruct (initial_location dim t) as [l2|] eqn:F2; [|contradiction].
  destruct (St l1 l2 F1 F2) as (Z1 & Z2 & Z3). split; [apply (bs_loc _ _ _ _ _ B _ _ _ _ I), Z1|]. split; [apply (bs_loc _ _ _ _ _ C _ _ _ _ K), Z2|].
  intros d Hd Inv. apply (bs_loc _ _ _ _ _ C _ _ _ _ (bs_delay _ _ _ _ _ C _ _ _ _ d K Hd)). apply Z3; [exact Hd|]. intros e He Hed.
  apply (bs_loc _ _ _ _ _ B _ _ _ _ (bs_delay _ _ _ _ _ B _ _ _ _ e I He)). auto.
Qed.

(** ** Compiled systems do not depend on the numbers of their components *)
Lemma component_index d c k cc : compile_component d c k = Ok cc -> forall j, exists cc', compile_component d c j = Ok cc' /\ cc_inputs cc' = cc_inputs cc /\ cc_outputs cc' = cc_outputs cc.
Proof.
  unfold compile_component, compile_with_actions. intros E j. destruct (negb _); [discriminate|]. inv_bind E. rewrite H. cbn [bind]. inv_bind E. rewrite H0. cbn [bind]. destruct (forallb _ _); [|discriminate].
  injection E as <-. eexists. split; [reflexivity|]. auto.
Qed.
Lemma compile_index d r : forall k s k', compile_at unchecked unchecked d r k = Ok (s, k') ->
  forall j, exists s' j', compile_at unchecked unchecked d r j = Ok (s', j') /\ ts_inputs s' = ts_inputs s /\ ts_outputs s' = ts_outputs s.
Proof.
  induction r as [c|l IHl r IHr|l IHl r IHr|l IHl r IHr q]; intros k s k' E j; cbn [compile_at] in *.
  - inv_bind E. injection E as <- <-. destruct (component_index _ _ _ _ H j) as (cc & E & I & O). rewrite E. eexists _, _. split; [reflexivity|]. split; assumption.
  - inv_bind E. destruct a as [l1 k1]. inv_bind E. destruct a as [r1 k2]. inv_bind E. injection E as <- <-. destruct (IHl _ _ _ H j) as (l2 & j1 & E1 & I1 & O1). rewrite E1. cbn [bind].
    destruct (IHr _ _ _ H0 j1) as (r2 & j2 & E2 & I2 & O2). rewrite E2. cbn [bind]. unfold composition_new in *. rewrite I1, O1, I2, O2. destruct (negb _); [discriminate|]. injection H1 as <-. eexists _, _. split; [reflexivity|]. split; reflexivity.
  - inv_bind E. destruct a as [l1 k1]. inv_bind E. destruct a as [r1 k2]. inv_bind E. injection E as <- <-. destruct (IHl _ _ _ H j) as (l2 & j1 & E1 & I1 & O1). rewrite E1. cbn [bind].
    destruct (IHr _ _ _ H0 j1) as (r2 & j2 & E2 & I2 & O2). rewrite E2. cbn [bind]. unfold conjunction_ts, conjunction_new in *. rewrite I1, O1, I2, O2. destruct (negb _); [discriminate|]. destruct (negb _); [discriminate|].
    cbn [bind unchecked] in *. injection H1 as <-. eexists _, _. split; [reflexivity|]. split; reflexivity.
  - inv_bind E. destruct a as [l1 k1]. inv_bind E. destruct a as [r1 k2]. inv_bind E. injection E as <- <-. destruct (IHl _ _ _ H j) as (l2 & j1 & E1 & I1 & O1). rewrite E1. cbn [bind].
    destruct (IHr _ _ _ H0 j1) as (r2 & j2 & E2 & I2 & O2). rewrite E2. cbn [bind]. unfold quotient_ts, quotient_new in *. rewrite I1, O1, I2, O2. destruct (negb _); [discriminate|].
    cbn [bind unchecked] in *. inv_bind H1. injection H1 as <-. rewrite H2. cbn [bind]. eexists _, _. split; [reflexivity|]. split; reflexivity.
Qed.

(** ** Names of compiled systems *)
Lemma compile_decls least pre d r : forall k s k', compile_at least pre d r k = Ok (s, k') ->
  forall x, In x (ts_decls s) -> (exists c, In c (components r) /\ x = d_clocks (c_decls c)) \/ (exists q, In q (quotient_clocks r) /\ x = [("quotient_xnew"%string, q)]).
Proof.
  induction r as [c|l IHl r IHr|l IHl r IHr|l IHl r IHr q]; intros k s k' E x Hx; cbn [compile_at] in E.
  - inv_bind E. injection E as <- <-. cbn [ts_decls] in Hx. destruct Hx as [<-|[]]. left. exists c. split; [left; reflexivity|].
    destruct (compile_inv _ _ _ _ _ _ H) as (ls & es & _ & _ & _ & Ed & _). rewrite Ed. reflexivity.
  - inv_bind E. destruct a as [l1 k1]. inv_bind E. destruct a as [r1 k2]. inv_bind E. injection E as <- <-. apply composition_new_inv in H1. destruct H1 as (_ & ? & ? & ? & ? & ? & -> & _).
    cbn [ts_decls components quotient_clocks] in *. apply in_app_or in Hx. destruct Hx as [Hx|Hx]; [destruct (IHl _ _ _ H x Hx) as [(c & Hc & ->)|(q & Hq & ->)]|destruct (IHr _ _ _ H0 x Hx) as [(c & Hc & ->)|(q & Hq & ->)]];
      [left|right|left|right]; eexists; (split; [apply in_or_app|reflexivity]); auto.
  - inv_bind E. destruct a as [l1 k1]. inv_bind E. destruct a as [r1 k2]. inv_bind E. injection E as <- <-. unfold conjunction_ts in H1. inv_bind H1. inv_bind H1. destruct a1; [|discriminate]. injection H1 as <-.
    apply conjunction_new_inv in H2. destruct H2 as (-> & _).
    cbn [ts_decls components quotient_clocks] in *. apply in_app_or in Hx. destruct Hx as [Hx|Hx]; [destruct (IHl _ _ _ H x Hx) as [(c & Hc & ->)|(q & Hq & ->)]|destruct (IHr _ _ _ H0 x Hx) as [(c & Hc & ->)|(q & Hq & ->)]];
      [left|right|left|right]; eexists; (split; [apply in_or_app|reflexivity]); auto.
  - inv_bind E. destruct a as [l1 k1]. inv_bind E. destruct a as [r1 k2]. inv_bind E. injection E as <- <-. unfold quotient_ts in H1. destruct (negb _); [discriminate|]. inv_bind H1. destruct a0; [|discriminate]. inv_bind H1. destruct a0; [|discriminate].
    apply quotient_new_inv in H1. destruct H1 as (n & ins & outs & -> & _).
    cbn [ts_decls components quotient_clocks] in *. apply in_app_or in Hx. destruct Hx as [Hx|Hx]; [|apply in_app_or in Hx; destruct Hx as [Hx|[<-|[]]]].
    + destruct (IHl _ _ _ H x Hx) as [(c & Hc & ->)|(q0 & Hq & ->)]; [left|right]; eexists; (split; [|reflexivity]); [apply in_or_app; auto|right; apply in_or_app; auto].
    + destruct (IHr _ _ _ H0 x Hx) as [(c & Hc & ->)|(q0 & Hq & ->)]; [left|right]; eexists; (split; [|reflexivity]); [apply in_or_app; auto|right; apply in_or_app; auto].
    + right. exists q. split; [left; reflexivity|reflexivity].
Qed.
Lemma compile_parts least pre d r : forall k s k', compile_at least pre d r k = Ok (s, k') ->
  (forall c l, In c (components r) -> In l (c_locs c) -> plain_name (l_id l)) ->
  (forall c l m, In c (components r) -> In l (c_locs c) -> In m (c_locs c) -> l_type l = Initial -> l_type m = Initial -> l = m) -> plain_names s /\ single_initials s.
Proof.
  induction r as [c|l IHl r IHr|l IHl r IHr|l IHl r IHr q]; intros k s k' E P I; cbn [compile_at] in E.
  - inv_bind E. injection E as <- <-. cbn [plain_names single_initials]. destruct (compile_inv _ _ _ _ _ _ H) as (ls & es & El & _ & Ec & _). rewrite Ec. destruct (mapM_in _ _ _ El) as [_ M]. split.
    + intros u Hu. apply keep_last_in in Hu. destruct (M u Hu) as (l & Hl & E). destruct (lt_simple_id _ _ _ _ E) as [-> _]. cbn. apply (P c l); [left; reflexivity|exact Hl].
    + intros u w Hu Hw Tu Tw. apply keep_last_in in Hu, Hw. destruct (M u Hu) as (l & Hl & E). destruct (M w Hw) as (m & Hm & F). destruct (lt_simple_id _ _ _ _ E) as [_ A]. destruct (lt_simple_id _ _ _ _ F) as [_ B].
      assert (l = m) by (apply (I c l m); [left; reflexivity|exact Hl|exact Hm|congruence|congruence]). congruence.
  - inv_bind E. destruct a as [l1 k1]. inv_bind E. destruct a as [r1 k2]. inv_bind E. injection E as <- <-. apply composition_new_inv in H1. destruct H1 as (_ & ? & ? & ? & ? & ? & -> & _).
    cbn [components] in *. cbn [plain_names single_initials].
    destruct (IHl _ _ _ H) as [A B]; [intros c l0 Hc; apply P, in_or_app; auto|intros c l0 m Hc; apply (I c), in_or_app; auto|].
    destruct (IHr _ _ _ H0) as [A' B']; [intros c l0 Hc; apply P, in_or_app; auto|intros c l0 m Hc; apply (I c), in_or_app; auto|]. auto.
  - inv_bind E. destruct a as [l1 k1]. inv_bind E. destruct a as [r1 k2]. inv_bind E. injection E as <- <-. unfold conjunction_ts in H1. inv_bind H1. inv_bind H1. destruct a1; [|discriminate]. injection H1 as <-.
    apply conjunction_new_inv in H2. destruct H2 as (-> & _).
    cbn [components] in *. cbn [plain_names single_initials].
    destruct (IHl _ _ _ H) as [A B]; [intros c l0 Hc; apply P, in_or_app; auto|intros c l0 m Hc; apply (I c), in_or_app; auto|].
    destruct (IHr _ _ _ H0) as [A' B']; [intros c l0 Hc; apply P, in_or_app; auto|intros c l0 m Hc; apply (I c), in_or_app; auto|]. auto.
  - inv_bind E. destruct a as [l1 k1]. inv_bind E. destruct a as [r1 k2]. inv_bind E. injection E as <- <-. unfold quotient_ts in H1. destruct (negb _); [discriminate|]. inv_bind H1. destruct a0; [|discriminate]. inv_bind H1. destruct a0; [|discriminate].
    apply quotient_new_inv in H1. destruct H1 as (n & ins & outs & -> & _).
    cbn [components] in *. cbn [plain_names single_initials].
    destruct (IHl _ _ _ H) as [A B]; [intros c l0 Hc; apply P, in_or_app; auto|intros c l0 m Hc; apply (I c), in_or_app; auto|].
    destruct (IHr _ _ _ H0) as [A' B']; [intros c l0 Hc; apply P, in_or_app; auto|intros c l0 m Hc; apply (I c), in_or_app; auto|]. auto.
Qed.
