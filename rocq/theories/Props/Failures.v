(** C53: what is reported when a query is answered with "no". *)
From Coq Require Import List String Ascii ZArith QArith Bool Arith Lia Lqa Permutation.
From Verif Require Import Fed.Zone Fed.ZoneFacts Fed.Check Model.Base Model.Expr Model.Guard Model.Loc Model.Component Model.TS Model.ParseQuery Model.Recipe Model.Reduce Model.PairList Model.Search Model.Refine
  Model.Query Model.Save Model.Prune Model.Sim Model.Wire Model.Exec Model.Failure
  Spec.BoundSpec Spec.StepSpec Spec.SystemSpec Spec.RunSpec Spec.ReachSpec Spec.RefineSpec Spec.EnableSpec Spec.IdSpec Spec.RecipeSpec Spec.ReduceSpec Spec.SameSpec Spec.SaveSpec Spec.StateSpec Spec.WireSpec Spec.GuardSpec Spec.ConvSpec Spec.ExecSpec Spec.PruneSpec
  Proofs.GuardFacts Proofs.SystemFacts Proofs.WfFacts Proofs.ReadsFacts Proofs.RunFacts Proofs.ReduceFacts Proofs.ClockFacts Proofs.RecipeFacts Proofs.RenFacts Proofs.SameFacts Proofs.BisimFacts
  Proofs.ShrinkFacts Proofs.CompressFacts Proofs.InstrFacts Proofs.TwoFacts Proofs.ExecFacts Proofs.LinkFacts Proofs.PlainFacts Proofs.FailureFacts Proofs.FailureTruth Proofs.FailurePairs Proofs.FailureModel
  Props.Examples Props.Enabling Props.Ids Props.Recipes Props.Reduction Props.Compression Props.Determinism Props.Refinement Props.Consistency Props.Reachability Props.States Props.Saving Props.Two Props.Pruning Fed.Dbm Model.Extrapolate Proofs.ExtraFacts Props.Exec
  Spec.ConsistencySpec Spec.FailureSpec.
Import ListNotations.
Local Open Scope string_scope.
Local Open Scope list_scope.
Local Open Scope nat_scope.

(** ** The recipes that are compiled *)
Lemma fit_ren acc rho d d' q q' r : 0 < d' -> renames rho d d' -> injective rho -> (forall c, In c (components r) -> unread rho c) -> fit_recipe acc d q r -> rho q = Some q' \/ (quotient_clocks r = [] /\ q' = 0) -> fit_recipe acc d' q' (ren_recipe rho r).
Proof.
  intros D' RN J Ur (F & N & Nq & Q & Pl) Eq. split; [|split; [|split; [|split]]].
  - intros c Hc. rewrite ren_components in Hc. apply in_map_iff in Hc. destruct Hc as (c0 & <- & Hc). apply (ren_fit rho d d' RN D' J), F, Hc.
  - rewrite ren_all. apply moved_nodup; [exact J|exact N].
  - rewrite ren_all. intros H. apply moved_In in H. destruct H as (i & Hi & Ei). destruct Eq as [Eq|[_ ->]].
    + apply Nq. rewrite (J _ _ _ Eq Ei). exact Hi.
    + rewrite (J _ _ _ Ei (rn_zero _ _ _ RN)) in Hi. unfold all_numbers in Hi. apply in_flat_map in Hi. destruct Hi as (c & Hc & Hi). destruct (F c Hc) as (_ & B & _). specialize (B 0 Hi). lia.
  - intros x Hx. rewrite ren_quotients in Hx. apply in_map_iff in Hx. destruct Hx as (x0 & <- & Hx). destruct (Q x0 Hx) as (-> & Nz & _). destruct Eq as [Eq|[Z _]]; [|rewrite Z in Hx; destruct Hx].
    unfold total. rewrite Eq. destruct (rn_range _ _ _ RN _ _ Eq Nz) as (R1 & R2 & _). auto.
  - intros c Hc. rewrite ren_components in Hc. apply in_map_iff in Hc. destruct Hc as (c0 & <- & Hc). apply plain_ren; auto.
Qed.

Section Recipes.
Variables (ch : choices) (load : string -> option component).
Hypothesis Fc : fair ch.
Hypothesis L : loadable load.
Variable acc : accuracy.
Hypothesis Pl : forall n c, load n = Some c -> plain acc c.

Lemma one_fit e r dim q : get_system_recipe load e (0, None) = Ok (r, (dim, q)) -> fit_recipe acc (dim + 1) (q_default q) r.
Proof.
  intros E. destruct (C29_numbering load e r dim q (fun n c H => proj1 (L n c H)) E) as (I & B & P & Q & N).
  assert (Nd : NoDup (all_numbers r ++ opt_clock q)) by (eapply Permutation_NoDup; [symmetry; exact P|apply seq_NoDup]).
  assert (R : forall i, In i (all_numbers r ++ opt_clock q) -> 1 <= i < dim + 1) by (intros i Hi; apply (Permutation_in _ P) in Hi; apply in_seq in Hi; lia).
  apply nodup_split in Nd. destruct Nd as (N1 & _ & N2). split; [|split; [exact N1|split; [|split]]].
  - intros c Hc. destruct (instance_component _ _ _ I _ Hc) as (n & c0 & Ln & Re). destruct (L _ _ Ln) as (_ & G & Na).
    split; [apply block_nodup; auto|]. split; [intros i Hi; apply R, in_or_app; left; eapply component_numbers; eauto|].
    split; [eapply good_resets_re; eauto|eapply named_guards_re; eauto].
  - intros H. destruct q as [q|]; [apply (N2 _ H); left; reflexivity|]. specialize (R 0 (in_or_app _ _ _ (or_introl H))). lia.
  - intros q' Hq. rewrite (Q _ Hq). cbn. split; [reflexivity|]. specialize (R q'). rewrite (Q _ Hq) in R. assert (1 <= q' < dim + 1) by (apply R, in_or_app; right; left; reflexivity). lia.
  - intros c Hc. destruct (instance_component _ _ _ I _ Hc) as (n & c0 & Ln & Re). exact (plain_renumbered acc _ _ Re (Pl _ _ Ln)).
Qed.
Lemma two_fit e f l n p r dim q : get_system_recipe load e (0, None) = Ok (l, (n, p)) -> get_system_recipe load f (n, p) = Ok (r, (dim, q)) ->
  fit_recipe acc (dim + 1) (q_default q) l /\ fit_recipe acc (dim + 1) (q_default q) r.
Proof.
  intros E F. destruct (C29_numbering_two load e f l r n p dim q (fun n c H => proj1 (L n c H)) E F) as (I & I' & B & P & Q & _).
  assert (Nd : NoDup (all_numbers l ++ all_numbers r ++ opt_clock q)) by (eapply Permutation_NoDup; [symmetry; exact P|apply seq_NoDup]).
  assert (R : forall i, In i (all_numbers l ++ all_numbers r ++ opt_clock q) -> 1 <= i < dim + 1) by (intros i Hi; apply (Permutation_in _ P) in Hi; apply in_seq in Hi; lia).
  rewrite app_assoc in Nd, R. apply nodup_split in Nd. destruct Nd as (N1 & _ & N2).
  eapply (fit_parts acc (dim + 1) (q_default q) l r _ _ _ eq_refl eq_refl (incl_refl _)).
  - intros c Hc. assert (X : exists m c0, load m = Some c0 /\ renumbered c0 c).
    { apply in_app_or in Hc. destruct Hc as [Hc|Hc]; [destruct (instance_component _ _ _ I _ Hc) as (m & c0 & Ln & Re)|destruct (instance_component _ _ _ I' _ Hc) as (m & c0 & Ln & Re)]; eauto. }
    destruct X as (m & c0 & Ln & Re). destruct (L _ _ Ln) as (_ & G & Ng). split; [apply block_nodup, B, Hc|]. split; [|split; [eapply good_resets_re; eauto|eapply named_guards_re; eauto]].
    intros i Hi. apply R. apply in_or_app. left. apply in_app_or in Hc. apply in_or_app. destruct Hc as [Hc|Hc]; [left|right]; eapply component_numbers; eauto.
  - exact N1.
  - intros H. destruct q as [q|]; [apply (N2 _ H); left; reflexivity|]. specialize (R 0 (in_or_app _ _ _ (or_introl H))). lia.
  - intros q' Hq. rewrite (Q _ Hq). cbn. split; [reflexivity|]. specialize (R q'). rewrite (Q _ Hq) in R. assert (1 <= q' < dim + 1) by (apply R, in_or_app; right; left; reflexivity). lia.
  - intros c Hc. apply in_app_or in Hc. destruct (two_plain load e f L acc Pl l n p r dim q E F) as [P1 P2]. destruct Hc; auto.
Qed.

Lemma reduce_shrinks least pre red l o dim q l' o' dim' : clock_reduce least pre red l o dim q = Ok (l', o', dim') -> dim' <= dim.
Proof.
  unfold clock_reduce. destruct (Nat.eqb dim 0); [intros E; injection E as _ _ <-; lia|]. destruct o as [r|]; intros E; inv_bind E; destruct a as [x d]; injection E as _ _ <-.
  - unfold clock_reduce_two in H. inv_bind H. inv_bind H. inv_bind H. inv_bind H. inv_bind H. inv_bind H. inv_bind H. injection H as _ <-. unfold minus_usize in H4. destruct (Nat.ltb _ _); [discriminate|]. injection H4 as <-. lia.
  - unfold clock_reduce_single in H. inv_bind H. inv_bind H. inv_bind H. inv_bind H. injection H as _ <-. unfold minus_usize in H2. destruct (Nat.ltb _ _); [discriminate|]. injection H2 as <-. lia.
Qed.

Lemma reduced_fit_one e r dim q r' o dim' : get_system_recipe load e (0, None) = Ok (r, (dim, q)) -> (Z.of_nat (dim + 1) < 4294967295)%Z ->
  dropped_unmentioned (the_redundant ch) load e -> nothing_merged (the_redundant ch) load e ->
  clock_reduce (the_least ch) (the_pre ch) (the_redundant ch) r None dim q = Ok (r', o, dim') -> exists q', fit_recipe acc (dim' + 1) q' r'.
Proof.
  intros E Sm Ud Um Er. pose proof (one_fit e r dim q E) as Ft. destruct (Nat.eqb_spec dim 0) as [Z|Z].
  { unfold clock_reduce in Er. rewrite (proj2 (Nat.eqb_eq _ _) Z) in Er. injection Er as <- _ <-. eauto. }
  assert (Cu : exists s, compile unchecked unchecked dim r = Ok s).
  { unfold clock_reduce in Er. rewrite (proj2 (Nat.eqb_neq _ _) Z) in Er. inv_bind Er. unfold clock_reduce_single in H. inv_bind H. apply one_unchecked in H0. eauto. }
  destruct Cu as [s Cu]. destruct (one_shape ch load e Fc L r dim q s r' o dim' E Cu Sm (Ud _ _ _ E) (Um _ _ _ E) Er) as (us & Nu & Iu & U & -> & Hd).
  destruct (C29_numbering load e r dim q (fun n c H => proj1 (L n c H)) E) as (I & B & P & Q & N).
  assert (Ng : NoDup (List.concat (@nil (list nat)))) by constructor.
  assert (Ig : incl (List.concat (@nil (list nat))) (all_numbers r)) by (intros ? []).
  assert (Ug : forall i, In i us -> ~ In i (List.concat (@nil (list nat)))) by (intros ? _ []).
  pose proof (shrink_renames r dim q us [] P Q Nu Iu Ng Ig Ug) as RN. rewrite <- Hd in RN.
  exists (match q with Some _ => dim' | None => 0 end). apply (fit_ren acc _ (dim + 1) (dim' + 1) (q_default q)); [lia|exact RN|apply shrink_injective; auto|intros c Hc; eapply shrink_unread; eauto|exact Ft|].
  destruct q as [q0|]; [left; rewrite Hd; apply (shrink_q r dim (Some q0) us []); auto|right]. split; [|reflexivity]. destruct (quotient_clocks r) as [|x l]; [reflexivity|]. specialize (Q x (or_introl eq_refl)). discriminate.
Qed.
Lemma reduced_fit_two e f l n p r dim q l' r' dim' : get_system_recipe load e (0, None) = Ok (l, (n, p)) -> get_system_recipe load f (n, p) = Ok (r, (dim, q)) -> (Z.of_nat (dim + 1) < 4294967295)%Z ->
  dropped_unmentioned_two (the_redundant ch) load e f ->
  clock_reduce (the_least ch) (the_pre ch) (the_redundant ch) l (Some r) dim q = Ok (l', Some r', dim') -> exists q', fit_recipe acc (dim' + 1) q' l' /\ fit_recipe acc (dim' + 1) q' r'.
Proof.
  intros E F Sm Un Er. destruct (two_fit e f l n p r dim q E F) as [Fl Fr].
  destruct (C29_numbering_two load e f l r n p dim q (fun n c H => proj1 (L n c H)) E F) as (I & I' & B & P & Q & N).
  destruct (two_shape ch load e f Fc L l n p r dim q l' r' dim' E F Sm Un Er) as (ul & ur & Nl & Nr & Il & Ir & Ul & Ur & -> & -> & ->).
  destruct (two_once load e f l r n p dim q L E F) as [Hl Hr].
  pose proof (ren2_renames l r dim q ul ur P Q Nl Nr Il Ir) as RN. pose proof (ren2_injective l r dim q ul ur P Q Nl Nr Il Ir) as J.
  exists (match q with Some _ => dim2 dim ul ur | None => 0 end).
  assert (Eq : forall x, x = l \/ x = r -> ren2 l r dim q ul ur (q_default q) = Some (match q with Some _ => dim2 dim ul ur | None => 0 end) \/ (quotient_clocks x = [] /\ match q with Some _ => dim2 dim ul ur | None => 0 end = 0)).
  { intros x X. destruct q as [q0|]; [left; apply (ren2_q l r dim (Some q0) ul ur P); auto|right]. split; [|reflexivity]. destruct (quotient_clocks x) as [|y m] eqn:Ex; [reflexivity|].
    assert (Y : None = Some y) by (apply Q, in_or_app; destruct X as [-> | ->]; rewrite Ex; cbn; auto). discriminate. }
  split; eapply fit_ren; eauto; try lia; intros c Hc.
  - apply (two_unread l r dim q ul ur Hl Hr P Q Il Ir l ul); auto.
  - apply (two_unread l r dim q ul ur Hl Hr P Q Il Ir r ur); auto.
Qed.
End Recipes.

(** ** The checks of a query *)
Section Checks.
Variables (acc : accuracy) (ch : choices).
Hypothesis Fc : fair ch.
Hypothesis Ex : forall d, explored acc d (ch_ext ch d).

Lemma kord_same : same_elements (ch_kord ch).
Proof. intros l x. split; intros H; [apply (Permutation_in _ (fair_kord _ Fc l)), H|apply (Permutation_in _ (Permutation_sym (fair_kord _ Fc l))), H]. Qed.
Lemma small d : (Z.of_nat d < 4294967295)%Z -> fits_u32 d.
Proof. unfold fits_u32. lia. Qed.

Lemma least_says d q s f : (Z.of_nat (d + 1) < 4294967295)%Z -> fine acc (d + 1) q s -> the_least_report ch (d + 1) s = Ok (Some f) -> exists m, cfail_to_proto f = Ok m /\ con_true acc (d + 1) s m.
Proof.
  intros Sm (B & K & R & D & Mi) E. destruct (fair_minc ch Fc (d + 1) ltac:(lia)) as [M _].
  eapply (consistent_true acc (d + 1) q (ch_ext ch (d + 1)) (ch_sord ch) s (mild_accurate _ _ _ _ (Ex (d + 1)) Mi) (fair_sord _ Fc) K); [exact B|exact R|exact D|exact M|apply small, Sm|apply kord_same|exact E].
Qed.
Lemma pre_says d q s f : (Z.of_nat (d + 1) < 4294967295)%Z -> fine acc (d + 1) q s -> the_pre_report ch (d + 1) s = Ok (Some f) -> exists m, cfail_to_proto f = Ok m /\ pre_true acc (d + 1) s m.
Proof.
  intros Sm (B & K & R & D & Mi) E. destruct (fair_minc ch Fc (d + 1) ltac:(lia)) as [M _].
  eapply (precheck_true acc (d + 1) q (ch_ext ch (d + 1)) (ch_sord ch)); [exact (Ex (d + 1))|exact (fair_sord _ Fc)|exact M|apply small, Sm|apply kord_same|exact B|exact K|exact R|exact D|exact Mi|exact E].
Qed.
Lemma least_says_all d q s b : (Z.of_nat (d + 1) < 4294967295)%Z -> fine acc (d + 1) q s -> the_least ch (d + 1) s = Ok b -> exists r, the_least_report ch (d + 1) s = Ok r /\ none r = b.
Proof.
  intros Sm (B & K & R & D & Mi) E. destruct (fair_minc ch Fc (d + 1) ltac:(lia)) as [M _].
  eapply (consistent_total acc (d + 1) q (ch_ext ch (d + 1)) (ch_sord ch) s (mild_accurate _ _ _ _ (Ex (d + 1)) Mi) (fair_sord _ Fc) K); [exact B|exact R|exact D|exact M|apply small, Sm|apply kord_same|exact E].
Qed.
Lemma pre_says_all d q s b : (Z.of_nat (d + 1) < 4294967295)%Z -> fine acc (d + 1) q s -> the_pre ch (d + 1) s = Ok b -> exists r, the_pre_report ch (d + 1) s = Ok r /\ none r = b.
Proof.
  intros Sm Fi E. destruct (fair_minc ch Fc (d + 1) ltac:(lia)) as [M _].
  eapply (precheck_total acc (d + 1) q (ch_ext ch (d + 1)) (ch_sord ch)); [exact (Ex (d + 1))|exact (fair_sord _ Fc)|exact M|apply small, Sm|apply kord_same|exact Fi|exact E].
Qed.

Lemma compile_says d q r f : (Z.of_nat (d + 1) < 4294967295)%Z -> fit_recipe acc (d + 1) q r -> forall k, compile_at_report (the_least_report ch) (the_pre_report ch) (d + 1) r k = Ok (inr f) ->
  exists m, recfail_to_proto f = Ok m /\ model_true acc (d + 1) r m.
Proof. intros Sm Ft k E. eapply (compile_true acc _ _ (d + 1) q); [intros; eapply least_says; eassumption|intros; eapply pre_says; eassumption|exact Ft|exact E]. Qed.
Lemma compile_says_all d q r : (Z.of_nat (d + 1) < 4294967295)%Z -> fit_recipe acc (d + 1) q r -> forall k s k', compile_at (the_least ch) (the_pre ch) (d + 1) r k = Ok (s, k') ->
  compile_at_report (the_least_report ch) (the_pre_report ch) (d + 1) r k = Ok (inl (s, k')).
Proof. intros Sm Ft. eapply (report_complete acc _ _ _ _ (d + 1) q); [intros; eapply least_says_all; eassumption|intros; eapply pre_says_all; eassumption|exact Ft]. Qed.
End Checks.

(** ** The answer and the reply *)

(** C53: a reply is a success exactly when the answer is; a failure of a model is reported exactly when there is no answer. *)
Theorem C53_reply : forall ch reduce load q p, answer_query ch reduce load q = Ok p ->
  match p with
  | PModelFailure _ => run_query ch reduce load q = Err
  | _ => exists a, run_query ch reduce load q = Ok a /\ satisfied a = favourable p
  end.
Proof. exact reply_agrees. Qed.
Print Assumptions C53_reply.

Section Explored.
Variables (acc : accuracy) (ch : choices) (load : string -> option component).
Hypothesis Ex : explores acc ch load.
Lemma explores_plain n c : load n = Some c -> plain acc c.
Proof. destruct acc; [intros; exact Logic.I|]. apply (proj2 (proj1 Ex) n c). Qed.
Lemma explores_ext d : explored acc d (ch_ext ch d).
Proof. destruct acc; [exact (proj2 Ex d)|exact (proj2 Ex d)]. Qed.
Lemma explores_pext d s t : pair_explored acc d (ch_pext ch d s t) s t.
Proof. destruct acc; [exact (proj1 Ex d s t)|exact (proj1 (proj1 Ex) d s t)]. Qed.
End Explored.

Section Systems.
Variables (acc : accuracy) (ch : choices) (reduce : bool) (load : string -> option component).
Hypothesis Fc : fair ch.
Hypothesis Ex : explores acc ch load.
Hypothesis L : loadable load.

Lemma whole_report d r x : compile_report (the_least_report ch) (the_pre_report ch) d r = Ok x ->
  match x with
  | inl s => exists k, compile_at_report (the_least_report ch) (the_pre_report ch) (d + 1) r 0 = Ok (inl (s, k))
  | inr f => compile_at_report (the_least_report ch) (the_pre_report ch) (d + 1) r 0 = Ok (inr f)
  end.
Proof. unfold compile_report, andthen. intros E. inv_bind E. destruct a as [[s k]|f]; injection E as <-; eauto. Qed.

Lemma one_fails e f : few_clocks load e -> (reduce = true -> dropped_unmentioned (the_redundant ch) load e /\ nothing_merged (the_redundant ch) load e) ->
  one_system_report ch reduce load e = Ok (inr f) -> exists m r d, recfail_to_proto f = Ok m /\ compiles_one ch reduce load e r d /\ model_true acc d r m.
Proof.
  intros Sm Un E. unfold one_system_report in E. inv_bind E. destruct a as [r [dim q]]. rename H into Er. specialize (Sm _ _ _ Er). pose proof (one_fit load L acc (explores_plain acc ch load Ex) e r dim q Er) as Ft.
  assert (Now : compile_report (the_least_report ch) (the_pre_report ch) dim r = Ok (inr f) -> exists m r0 d, recfail_to_proto f = Ok m /\ compiles_one ch reduce load e r0 d /\ model_true acc d r0 m).
  { intros H. apply whole_report in H. destruct (compile_says acc ch Fc (explores_ext acc ch load Ex) dim (q_default q) r f Sm Ft 0 H) as (m & Em & T). exists m, r, (dim + 1). split; [exact Em|]. split; [|exact T]. exists r, dim, q. auto. }
  unfold andthen in E. destruct reduce.
  - inv_bind E. destruct a as [[[l' o'] d']|g]; cbn [fst snd] in *.
    + assert (Er' := reduce_agrees _ _ _ _ (the_least_agrees ch) (the_pre_agrees ch) _ _ _ _ _ _ H). cbn [failed] in Er'.
      inv_bind E. destruct a as [s|g]; [discriminate|]. injection E as ->. destruct (Un eq_refl) as [U1 U2].
      destruct (reduced_fit_one ch load Fc L acc (explores_plain acc ch load Ex) e r dim q l' o' d' Er Sm U1 U2 Er') as [q' Ft']. pose proof (reduce_shrinks _ _ _ _ _ _ _ _ _ _ Er') as Le.
      apply whole_report in H0. destruct (compile_says acc ch Fc (explores_ext acc ch load Ex) d' q' l' f ltac:(lia) Ft' 0 H0) as (m & Em & T). exists m, l', (d' + 1). split; [exact Em|]. split; [|exact T]. exists r, dim, q. split; [exact Er|]. right. eauto.
    + injection E as ->. unfold the_reduce_report, reduce_report in H. destruct (Nat.eqb dim 0); [discriminate|]. unfold andthen in H. inv_bind H. destruct a as [s|g]; [inv_bind H; discriminate|]. injection H as ->. auto.
  - cbn [bind fst snd] in E. inv_bind E. destruct a as [s|g]; [discriminate|]. injection E as ->. auto.
Qed.
Lemma two_fails e e' f : few_clocks_two load e e' -> (reduce = true -> dropped_unmentioned_two (the_redundant ch) load e e') ->
  two_systems_report ch reduce load e e' = Ok (inr f) -> exists m x d, recfail_to_proto f = Ok m /\ compiles_two ch reduce load e e' x d /\ model_true acc d x m.
Proof.
  intros Sm Un E. unfold two_systems_report in E. inv_bind E. destruct a as [l [n p]]. rename H into El. inv_bind E. destruct a as [r [dim q]]. rename H into Er. specialize (Sm _ _ _ _ _ El Er).
  destruct (two_fit load L acc (explores_plain acc ch load Ex) e e' l n p r dim q El Er) as [Fl Fr].
  assert (Now : forall x k, x = l \/ x = r -> compile_at_report (the_least_report ch) (the_pre_report ch) (dim + 1) x k = Ok (inr f) -> exists m r0 d, recfail_to_proto f = Ok m /\ compiles_two ch reduce load e e' r0 d /\ model_true acc d r0 m).
  { intros x k X H. destruct (compile_says acc ch Fc (explores_ext acc ch load Ex) dim (q_default q) x f Sm ltac:(destruct X as [-> | ->]; assumption) k H) as (m & Em & T). exists m, x, (dim + 1). split; [exact Em|]. split; [|exact T]. exists l, (n, p), r, dim, q. auto. }
  assert (Two : forall d a b, compile_two_report (the_least_report ch) (the_pre_report ch) d a b = Ok (inr f) -> exists x k, (x = a \/ x = b) /\ compile_at_report (the_least_report ch) (the_pre_report ch) (d + 1) x k = Ok (inr f)).
  { intros d a b H. unfold compile_two_report, andthen in H. inv_bind H. destruct a0 as [[s k]|g]; [|injection H as ->; eauto]. inv_bind H. destruct a0 as [[t k']|g]; [discriminate|]. injection H as ->. eauto. }
  unfold andthen in E. destruct reduce.
  - inv_bind E. destruct a as [[[l' o'] d']|g]; cbn [fst snd] in *.
    + assert (Er' := reduce_agrees _ _ _ _ (the_least_agrees ch) (the_pre_agrees ch) _ _ _ _ _ _ H). cbn [failed] in Er'.
      inv_bind E. destruct o' as [r'|]; [|discriminate]. injection H0 as <-. inv_bind E. destruct a as [s|g]; [discriminate|]. injection E as ->.
      destruct (reduced_fit_two ch load Fc L acc (explores_plain acc ch load Ex) e e' l n p r dim q l' r' d' El Er Sm (Un eq_refl) Er') as (q' & Fl' & Fr'). pose proof (reduce_shrinks _ _ _ _ _ _ _ _ _ _ Er') as Le.
      destruct (Two _ _ _ H0) as (x & k & X & H1). destruct (compile_says acc ch Fc (explores_ext acc ch load Ex) d' q' x f ltac:(lia) ltac:(destruct X as [-> | ->]; assumption) k H1) as (m & Em & T).
      exists m, x, (d' + 1). split; [exact Em|]. split; [|exact T]. exists l, (n, p), r, dim, q. split; [exact El|]. split; [exact Er|]. right. split; [reflexivity|]. exists l', r', d'. auto.
    + injection E as ->. unfold the_reduce_report, reduce_report in H. destruct (Nat.eqb dim 0); [discriminate|]. unfold andthen in H. inv_bind H. destruct a as [s|g]; [|injection H as ->; apply whole_report in H0; eauto].
      inv_bind H. inv_bind H. destruct a0 as [t|g]; [inv_bind H; discriminate|]. injection H as ->. apply whole_report in H2. eauto.
  - cbn [bind fst snd unwrap] in E. inv_bind E. destruct a as [s|g]; [discriminate|]. injection E as ->. destruct (Two _ _ _ H) as (x & k & X & H1). eauto.
Qed.
End Systems.

(** C53: a failure of the model of a query about one system names a part of the expression that cannot be made, and why. *)
Theorem C53_model_one_partial : forall acc ch reduce load q e m,
  fair ch -> explores acc ch load -> loadable load -> subject q = Some e -> few_clocks load e ->
  (reduce = true -> dropped_unmentioned (the_redundant ch) load e /\ nothing_merged (the_redundant ch) load e) ->
  answer_query ch reduce load q = Ok (PModelFailure m) -> exists r d, compiles_one ch reduce load e r d /\ model_true acc d r m.
Proof.
  intros acc ch reduce load q e m Fc Ex L S Sm Un E.
  assert (Or : forall (k : ts * nat -> res reply), (forall a, k a <> Ok (PModelFailure m)) -> or_model (one_system_report ch reduce load e) k = Ok (PModelFailure m) -> exists r d, compiles_one ch reduce load e r d /\ model_true acc d r m).
  { intros k K H. unfold or_model in H. inv_bind H. destruct a as [a|f]; [destruct (K a H)|]. inv_bind H. injection H as ->. destruct (one_fails acc ch reduce load Fc Ex L e f Sm Un H0) as (m' & r & d & Em & C & T). rewrite H1 in Em. injection Em as <-. eauto. }
  destruct q; cbn [subject] in S; try discriminate; injection S as ->; cbn [answer_query] in E.
  - refine (Or _ _ E). intros a H. inv_bind H. destruct a0; [inv_bind H|]; discriminate.
  - inv_bind E. destruct a as [r [dim q]]. cbn [fst] in E. unfold or_model in E. inv_bind E. destruct a as [s|f]; [inv_bind E; destruct a as [[[d1 s1] st1] t1]; inv_bind E; destruct a; [inv_bind E|]; discriminate|]. inv_bind E. injection E as ->.
    apply (whole_report ch) in H0. destruct (compile_says acc ch Fc (explores_ext acc ch load Ex) dim (q_default q) r f (Sm _ _ _ H) (one_fit load L acc (explores_plain acc ch load Ex) _ r dim q H) 0 H0) as (m' & Em & T). rewrite H1 in Em. injection Em as <-.
    exists r, (dim + 1). split; [|exact T]. exists r, dim, q. auto.
  - refine (Or _ _ E). intros a H. inv_bind H. destruct a0; [inv_bind H|]; discriminate.
  - refine (Or _ _ E). intros a H. inv_bind H. destruct a0; discriminate.
  - refine (Or _ _ E). intros a H. inv_bind H. destruct a0; discriminate.
Qed.
Print Assumptions C53_model_one_partial.
Theorem C53_model_two_partial : forall acc ch reduce load e f m,
  fair ch -> explores acc ch load -> loadable load -> few_clocks_two load e f -> (reduce = true -> dropped_unmentioned_two (the_redundant ch) load e f) ->
  answer_query ch reduce load (QRefinement e f) = Ok (PModelFailure m) -> exists x d, compiles_two ch reduce load e f x d /\ model_true acc d x m.
Proof.
  intros acc ch reduce load e f m Fc Ex L Sm Un E. cbn [answer_query] in E. unfold or_model in E. inv_bind E. destruct a as [a|g].
  - inv_bind E. destruct a0; [inv_bind E|]; discriminate.
  - inv_bind E. injection E as ->. destruct (two_fails acc ch reduce load Fc Ex L e f g Sm Un H) as (m' & x & d & Em & C & T). rewrite H0 in Em. injection Em as <-. eauto.
Qed.
Print Assumptions C53_model_two_partial.

(** ** Systems that are made *)
Lemma one_mild acc ch reduce load e d s s' dim' : fair ch -> explores acc ch load -> loadable load -> names_one load e d s -> (Z.of_nat d < 4294967295)%Z ->
  (reduce = true -> dropped_unmentioned (the_redundant ch) load e /\ nothing_merged (the_redundant ch) load e) ->
  one_system ch reduce load e = Ok (s', dim') -> mild acc (dim' + 1) s'.
Proof.
  intros Fc Ex L (r & dim & q & Er & Cu & ->) Sm Un H. unfold one_system in H. rewrite Er in H. cbn [bind] in H.
  assert (Mk : forall q0 r0 d0 s0, fit_recipe acc (d0 + 1) q0 r0 -> compile (the_least ch) (the_pre ch) d0 r0 = Ok s0 -> mild acc (d0 + 1) s0).
  { intros q0 r0 d0 s0 (_ & _ & _ & _ & P) C. unfold compile in C. inv_bind C. destruct a as [s1 k]. injection C as ->. eapply (plain_mild _ _ _ _ r0); eassumption. }
  destruct reduce.
  - inv_bind H. destruct a as [r' d']. inv_bind H. injection H as -> ->. inv_bind H0. destruct a as [[l o] z]. cbn [fst snd] in H0. injection H0 as -> ->. destruct (Un eq_refl) as [U1 U2].
    destruct (reduced_fit_one ch load Fc L acc (explores_plain acc ch load Ex) e r dim q r' o dim' Er Sm U1 U2 H) as [q' Ft]. eauto.
  - cbn [bind] in H. inv_bind H. injection H as -> ->. exact (Mk _ _ _ _ (one_fit load L acc (explores_plain acc ch load Ex) e r dim' q Er) H0).
Qed.
Lemma two_few load e f d s t : names_two load e f d s t -> (Z.of_nat d < 4294967295)%Z ->
  forall l st r dim q, get_system_recipe load e (0, None) = Ok (l, st) -> get_system_recipe load f st = Ok (r, (dim, q)) -> (Z.of_nat (dim + 1) < 4294967295)%Z.
Proof. intros (l0 & st0 & r0 & dim0 & q0 & El0 & Er0 & _ & ->) Sm l st r dim q El Er. rewrite El in El0. injection El0 as <- <-. rewrite Er in Er0. injection Er0 as <- <- <-. exact Sm. Qed.
Lemma one_made acc ch reduce load e d s s' dim' : fair ch -> explores acc ch load -> loadable load -> names_one load e d s -> (Z.of_nat d < 4294967295)%Z ->
  (reduce = true -> dropped_unmentioned (the_redundant ch) load e /\ nothing_merged (the_redundant ch) load e) ->
  one_system ch reduce load e = Ok (s', dim') -> (exists q, fine acc (dim' + 1) q s') /\ dim' + 1 <= d /\ same_behaviour d s (dim' + 1) s' /\ (reduce = false -> dim' + 1 = d /\ s' = s).
Proof.
  intros Fc Ex L Na Sm Un H. pose proof (one_ready ch reduce load e Fc L d s s' dim' Na Sm Un H) as R. destruct (rd_clocks _ _ _ _ R) as [q K]. split; [exists q; split; [apply R|]; split; [exact K|]; split; [apply R|]; split; [apply R|eapply one_mild; eassumption]|].
  destruct Na as (r & dim & q0 & Er & Cu & ->). unfold one_system in H. rewrite Er in H. cbn [bind] in H. destruct reduce.
  - split; [|split; [apply R|discriminate]]. inv_bind H. destruct a as [x y]. inv_bind H. injection H as _ ->. inv_bind H0. destruct a0 as [[l o] z]. injection H0 as _ ->. apply reduce_shrinks in H. lia.
  - cbn [bind] in H. inv_bind H. injection H as -> ->. apply one_unchecked in H0. rewrite Cu in H0. injection H0 as ->. split; [lia|]. split; [apply R|auto].
Qed.
Lemma two_made ch reduce load e f d s t s' t' dim' : fair ch -> loadable load -> names_two load e f d s t -> (Z.of_nat d < 4294967295)%Z ->
  (reduce = true -> dropped_unmentioned_two (the_redundant ch) load e f) ->
  two_systems ch reduce load e f = Ok (s', t', dim') -> dim' + 1 <= d /\ (reduce = false -> dim' + 1 = d /\ s' = s /\ t' = t).
Proof.
  intros Fc L Na Sm Un H. destruct Na as (l & st & r & dim & q0 & El & Er & Cu & ->). unfold two_systems, two_recipes in H. rewrite El in H. cbn [bind] in H. rewrite Er in H. cbn [bind] in H. destruct reduce.
  - split; [|discriminate]. inv_bind H. destruct a as [x y]. cbn [fst snd] in *. inv_bind H. destruct a as [u w]. injection H as _ _ ->. inv_bind H0. destruct a as [[l' o] z]. inv_bind H0. injection H0 as _ ->. apply reduce_shrinks in H. cbn [fst snd] in *. lia.
  - cbn [bind fst snd] in H. inv_bind H. destruct a as [u w]. injection H as -> -> ->. apply two_unchecked in H0. rewrite Cu in H0. injection H0 as -> ->. split; [lia|auto].
Qed.

(** C53: a failed refinement.  The reply names the two systems and says what is wrong: one of them has no initial location, there
    is no common start, a component is not deterministic or not consistent, actions do not fit, or the state that is shown can be
    reached together and there the action that is shown cannot be matched. *)
Theorem C53_refinement_partial : forall acc ch reduce load e f d s t m,
  fair ch -> explores acc ch load -> loadable load -> names_two load e f d s t -> (Z.of_nat d < 4294967295)%Z ->
  has_quotient e && has_quotient f = false -> (reduce = true -> dropped_unmentioned_two (the_redundant ch) load e f) -> upper_invariants d s -> upper_invariants d t ->
  answer_query ch reduce load (QRefinement e f) = Ok (PRefinementFailure m) ->
  exists d' s' t', same_behaviour d s d' s' /\ same_behaviour d t d' t' /\ (reduce = false -> d' = d /\ s' = s /\ t' = t) /\
    (named_load load -> system_text s' = text_of e /\ system_text t' = text_of f) /\ ref_true acc d' s' t' m /\
    (io_disjoint s -> io_disjoint t -> forall a p, prf_failure m = Some (PActionMismatch a) -> In p (paf_sets a) -> marked s' t' p).
Proof.
  intros acc ch reduce load e f d s t m Fc Ex L Na Sm Hq Un U1 U2 E. cbn [answer_query] in E. unfold or_model in E. inv_bind E. destruct a as [[[s' t'] dim']|g]; [|inv_bind E; discriminate]. cbn [fst snd] in E.
  apply two_agrees in H. cbn [failed] in H. inv_bind E. destruct a as [x|]; [|discriminate]. inv_bind E. injection E as ->.
  destruct (two_ready ch reduce load e f Fc L d s t s' t' dim' Na Sm Un H) as (Rs & Rt & Sp). destruct (rd_clocks _ _ _ _ Rs) as [q1 K1]. destruct (rd_clocks _ _ _ _ Rt) as [q2 K2].
  destruct (two_made ch reduce load e f d s t s' t' dim' Fc L Na Sm Un H) as [Le Eq].
  destruct (two_mild ch reduce load e f Fc L acc (explores_plain acc ch load Ex) s' t' dim' (two_few load e f d s t Na Sm) Un H) as [M1 M2]. destruct (fair_minc ch Fc (dim' + 1) ltac:(lia)) as [M _].
  exists (dim' + 1), s', t'. split; [apply Rs|]. split; [apply Rt|]. split; [exact Eq|]. split; [intros N; eapply two_text; eassumption|]. split.
  - destruct (refinement_true acc (dim' + 1) q1 q2 (ch_pext ch (dim' + 1) s' t') s' t' (explores_pext acc ch load Ex (dim' + 1) s' t') M1 M2 (rd_built _ _ _ _ Rs) (rd_built _ _ _ _ Rt) K1 K2 (rd_reads _ _ _ _ Rs) (rd_reads _ _ _ _ Rt) (rd_range _ _ _ _ Rs) (rd_range _ _ _ _ Rt)
      (ch_aord ch) (fair_aord _ Fc) (ch_ext ch (dim' + 1)) (ch_sord ch) (ch_minc ch (dim' + 1)) (ch_kord ch) (explores_ext acc ch load Ex (dim' + 1)) (fair_sord _ Fc) M (small (dim' + 1) ltac:(lia)) (kord_same ch Fc) (Sp Hq) (rd_upper _ _ _ _ Rs U1) (rd_upper _ _ _ _ Rt U2) _ _ H0) as (m' & Em & T).
    rewrite H1 in Em. injection Em as <-. exact T.
  - intros D1 D2 a p Ea Hp.
    assert (IO : forall u u', same_behaviour d u (dim' + 1) u' -> io_disjoint u -> io_disjoint u') by (intros u u' (A & B & _) Io y Hy Hz; apply (Io y); [apply A, Hy|apply B, Hz]).
    destruct x; cbn [rfail_to_proto] in H1; try (inv_bind H1); injection H1 as <-; cbn in Ea; try discriminate. injection Ea as <-.
    unfold refinement_report in H0. inv_bind H0. destruct a as [g|].
    + injection H0 as ->. unfold preconditions_report in H1. inv_bind H1. destruct a as [c|]; [discriminate|]. inv_bind H1. destruct a as [c|]; [discriminate|].
      injection H1 as H1. destruct (action_report s' t') as [g|] eqn:Ar; [|discriminate]. injection H1 as -> _. eapply actions_marked; [exact (IO s s' (rd_same _ _ _ _ Rs) D1)|exact (IO t t' (rd_same _ _ _ _ Rt) D2)|exact Ar|exact Hp].
    + inv_bind H0. destruct a; try discriminate; inv_bind H0; discriminate.
Qed.
Print Assumptions C53_refinement_partial.

(** C53: a failed determinism check names a component, and its transitions overlap in the state that is shown. *)
Theorem C53_determinism_partial : forall acc ch reduce load e d s m,
  fair ch -> explores acc ch load -> loadable load -> names_one load e d s -> (Z.of_nat d < 4294967295)%Z ->
  (reduce = true -> dropped_unmentioned (the_redundant ch) load e /\ nothing_merged (the_redundant ch) load e) ->
  answer_query ch reduce load (QDeterminism e) = Ok (PDeterminismFailure m) ->
  exists d' s', same_behaviour d s d' s' /\ (reduce = false -> d' = d /\ s' = s) /\ (named_load load -> system_text s' = text_of e) /\ exists c, part_of c s' /\ det_true acc d' c m.
Proof.
  intros acc ch reduce load e d s m Fc Ex L Na Sm Un E. cbn [answer_query] in E. unfold or_model in E. inv_bind E. destruct a as [[s' dim']|g]; [|inv_bind E; discriminate]. cbn [fst snd] in E.
  apply one_agrees in H. cbn [failed] in H. inv_bind E. destruct a as [x|]; [|discriminate]. inv_bind E. injection E as ->.
  destruct (one_made acc ch reduce load e d s s' dim' Fc Ex L Na Sm Un H) as ((q & B & K & R & D & Mi) & Le & Sb & Eq). destruct (fair_minc ch Fc (dim' + 1) ltac:(lia)) as [M _].
  exists (dim' + 1), s'. split; [exact Sb|]. split; [exact Eq|]. split; [intros N; eapply one_text; eassumption|].
  destruct (determinism_true acc (dim' + 1) q (ch_ext ch (dim' + 1)) (ch_sord ch) (ch_minc ch (dim' + 1)) (ch_kord ch) (explores_ext acc ch load Ex (dim' + 1)) (fair_sord _ Fc) M (small (dim' + 1) ltac:(lia)) (kord_same ch Fc) s' B K R D Mi _ _ H0) as (c & m' & P & Em & T).
  rewrite H1 in Em. injection Em as <-. eauto.
Qed.
Print Assumptions C53_determinism_partial.

(** C53: a failed consistency check names a component that is not deterministic, has no start, or is led by inputs into the state
    that is shown, from where only inconsistent states follow. *)
Theorem C53_consistency_partial : forall acc ch reduce load e d s m,
  fair ch -> explores acc ch load -> loadable load -> names_one load e d s -> (Z.of_nat d < 4294967295)%Z ->
  (reduce = true -> dropped_unmentioned (the_redundant ch) load e /\ nothing_merged (the_redundant ch) load e) ->
  answer_query ch reduce load (QConsistency e) = Ok (PConsistencyFailure m) ->
  exists d' s', same_behaviour d s d' s' /\ (reduce = false -> d' = d /\ s' = s) /\ (named_load load -> system_text s' = text_of e) /\ pre_true acc d' s' m.
Proof.
  intros acc ch reduce load e d s m Fc Ex L Na Sm Un E. cbn [answer_query] in E. unfold or_model in E. inv_bind E. destruct a as [[s' dim']|g]; [|inv_bind E; discriminate]. cbn [fst snd] in E.
  apply one_agrees in H. cbn [failed] in H. inv_bind E. destruct a as [x|]; [|discriminate]. inv_bind E. injection E as ->.
  destruct (one_made acc ch reduce load e d s s' dim' Fc Ex L Na Sm Un H) as ((q & Fi) & Le & Sb & Eq).
  exists (dim' + 1), s'. split; [exact Sb|]. split; [exact Eq|]. split; [intros N; eapply one_text; eassumption|].
  destruct (pre_says acc ch Fc (explores_ext acc ch load Ex) dim' q s' x ltac:(lia) Fi H0) as (m' & Em & T). rewrite H1 in Em. injection Em as <-. exact T.
Qed.
Print Assumptions C53_consistency_partial.

(** ** There is always a reply *)
Lemma one_replies acc ch reduce load e d s s' dim' : fair ch -> explores acc ch load -> loadable load -> names_one load e d s -> (Z.of_nat d < 4294967295)%Z ->
  (reduce = true -> dropped_unmentioned (the_redundant ch) load e /\ nothing_merged (the_redundant ch) load e) ->
  one_system ch reduce load e = Ok (s', dim') -> one_system_report ch reduce load e = Ok (inl (s', dim')).
Proof.
  intros Fc Ex L Na Sm Un H. destruct Na as (r & dim & q & Er & Cu & ->). pose proof (one_fit load L acc (explores_plain acc ch load Ex) e r dim q Er) as Ft.
  assert (W : forall d0 q0 r0 s0, (Z.of_nat (d0 + 1) < 4294967295)%Z -> fit_recipe acc (d0 + 1) q0 r0 -> compile (the_least ch) (the_pre ch) d0 r0 = Ok s0 -> compile_report (the_least_report ch) (the_pre_report ch) d0 r0 = Ok (inl s0)).
  { intros d0 q0 r0 s0 S0 F0 C. unfold compile in C. inv_bind C. destruct a as [s1 k]. injection C as ->. unfold compile_report. rewrite (compile_says_all acc ch Fc (explores_ext acc ch load Ex) d0 q0 r0 S0 F0 0 s0 k H0). reflexivity. }
  unfold one_system_report, one_system in *. rewrite Er in *. cbn [bind] in *. destruct reduce.
  - inv_bind H. destruct a as [r' d']. inv_bind H. injection H as -> ->. inv_bind H0. destruct a as [[l o] z]. cbn [fst snd] in H0. injection H0 as -> ->. destruct (Un eq_refl) as [U1 U2].
    destruct (reduced_fit_one ch load Fc L acc (explores_plain acc ch load Ex) e r dim q r' o dim' Er Sm U1 U2 H) as [q' Ft']. pose proof (reduce_shrinks _ _ _ _ _ _ _ _ _ _ H) as Le.
    assert (X : the_reduce_report ch r None dim q = Ok (inl (r', o, dim'))).
    { unfold the_reduce_report, reduce_report. destruct (Nat.eqb dim 0) eqn:Z; [unfold clock_reduce in H; rewrite Z in H; injection H as <- <- <-; reflexivity|].
      assert (C := H). unfold clock_reduce in C. rewrite Z in C. inv_bind C. unfold clock_reduce_single in H0. inv_bind H0. rewrite (W dim (q_default q) r _ Sm Ft H2). cbn [andthen bind]. rewrite H. reflexivity. }
    rewrite X. cbn [andthen bind fst snd]. rewrite (W dim' q' r' s' ltac:(lia) Ft' H1). reflexivity.
  - cbn [bind] in H. inv_bind H. injection H as -> ->. cbn [andthen bind fst snd]. rewrite (W dim' (q_default q) r s' Sm Ft H0). reflexivity.
Qed.
Lemma two_replies acc ch reduce load e f d s t s' t' dim' : fair ch -> explores acc ch load -> loadable load -> names_two load e f d s t -> (Z.of_nat d < 4294967295)%Z ->
  (reduce = true -> dropped_unmentioned_two (the_redundant ch) load e f) ->
  two_systems ch reduce load e f = Ok (s', t', dim') -> two_systems_report ch reduce load e f = Ok (inl (s', t', dim')).
Proof.
  intros Fc Ex L Na Sm Un H. destruct Na as (l & [n p] & r & dim & q & El & Er & Cu & ->). destruct (two_fit load L acc (explores_plain acc ch load Ex) e f l n p r dim q El Er) as [Fl Fr].
  assert (W : forall d0 q0 r0 s0, (Z.of_nat (d0 + 1) < 4294967295)%Z -> fit_recipe acc (d0 + 1) q0 r0 -> compile (the_least ch) (the_pre ch) d0 r0 = Ok s0 -> compile_report (the_least_report ch) (the_pre_report ch) d0 r0 = Ok (inl s0)).
  { intros d0 q0 r0 s0 S0 F0 C. unfold compile in C. inv_bind C. destruct a as [s1 k]. injection C as ->. unfold compile_report. rewrite (compile_says_all acc ch Fc (explores_ext acc ch load Ex) d0 q0 r0 S0 F0 0 s0 k H0). reflexivity. }
  assert (W2 : forall d0 q0 a b x, (Z.of_nat (d0 + 1) < 4294967295)%Z -> fit_recipe acc (d0 + 1) q0 a -> fit_recipe acc (d0 + 1) q0 b -> compile_two (the_least ch) (the_pre ch) d0 a b = Ok x -> compile_two_report (the_least_report ch) (the_pre_report ch) d0 a b = Ok (inl x)).
  { intros d0 q0 a b x S0 Fa Fb C. unfold compile_two in C. inv_bind C. destruct a0 as [s1 k]. inv_bind C. destruct a0 as [t1 k1]. injection C as <-. unfold compile_two_report. rewrite (compile_says_all acc ch Fc (explores_ext acc ch load Ex) d0 q0 a S0 Fa 0 s1 k H0). cbn [andthen bind fst snd].
    rewrite (compile_says_all acc ch Fc (explores_ext acc ch load Ex) d0 q0 b S0 Fb k t1 k1 H1). reflexivity. }
  unfold two_systems_report, two_systems, two_recipes in *. rewrite El in *. cbn [bind] in *. rewrite Er in *. cbn [bind] in *. destruct reduce.
  - inv_bind H. destruct a as [[l' r'] d']. cbn [fst snd] in H. inv_bind H. destruct a as [u w]. injection H as -> -> ->. inv_bind H0. destruct a as [[a o] z]. cbn [fst snd] in H0. destruct o as [o|]; [|discriminate]. injection H0 as -> -> ->.
    destruct (reduced_fit_two ch load Fc L acc (explores_plain acc ch load Ex) e f l n p r dim q l' r' dim' El Er Sm (Un eq_refl) H) as (q' & Fl' & Fr'). pose proof (reduce_shrinks _ _ _ _ _ _ _ _ _ _ H) as Le.
    assert (X : the_reduce_report ch l (Some r) dim q = Ok (inl (l', Some r', dim'))).
    { unfold the_reduce_report, reduce_report. destruct (Nat.eqb dim 0) eqn:Z; [unfold clock_reduce in H; rewrite Z in H; injection H as <- <- <-; reflexivity|].
      assert (C := H). unfold clock_reduce in C. rewrite Z in C. inv_bind C. unfold clock_reduce_two in H0. inv_bind H0. inv_bind H0. inv_bind H0. rewrite (W dim (q_default q) l _ Sm Fl H2). cbn [andthen bind]. rewrite H3. cbn [bind]. rewrite (W dim (q_default q) r _ Sm Fr H4). cbn [andthen bind]. rewrite H. reflexivity. }
    rewrite X. cbn [andthen bind fst snd unwrap]. rewrite (W2 dim' q' l' r' _ ltac:(lia) Fl' Fr' H1). reflexivity.
  - cbn [bind fst snd] in H. inv_bind H. destruct a as [u w]. injection H as -> -> ->. cbn [andthen bind fst snd unwrap]. rewrite (W2 dim' (q_default q) l r _ Sm Fl Fr H0). reflexivity.
Qed.

(** C53: when a check ends, the reply can be built and agrees with the answer; building it does not end the server. *)
Theorem C53_always_two_partial : forall acc ch reduce load e f d s t a,
  fair ch -> explores acc ch load -> loadable load -> names_two load e f d s t -> (Z.of_nat d < 4294967295)%Z ->
  has_quotient e && has_quotient f = false -> (reduce = true -> dropped_unmentioned_two (the_redundant ch) load e f) -> upper_invariants d s -> upper_invariants d t ->
  run_query ch reduce load (QRefinement e f) = Ok a -> exists p, answer_query ch reduce load (QRefinement e f) = Ok p /\ favourable p = satisfied a.
Proof.
  intros acc ch reduce load e f d s t a Fc Ex L Na Sm Hq Un U1 U2 E. assert (E0 := E). cbn [run_query] in E. inv_bind E. destruct a0 as [[s' t'] dim']. inv_bind E. injection E as <-. cbn [fst snd] in *.
  destruct (two_ready ch reduce load e f Fc L d s t s' t' dim' Na Sm Un H) as (Rs & Rt & Sp). destruct (rd_clocks _ _ _ _ Rs) as [q1 K1]. destruct (rd_clocks _ _ _ _ Rt) as [q2 K2].
  destruct (two_made ch reduce load e f d s t s' t' dim' Fc L Na Sm Un H) as [Le Eq].
  destruct (two_mild ch reduce load e f Fc L acc (explores_plain acc ch load Ex) s' t' dim' (two_few load e f d s t Na Sm) Un H) as [M1 M2]. destruct (fair_minc ch Fc (dim' + 1) ltac:(lia)) as [M _].
  destruct (refinement_total acc (dim' + 1) q1 q2 (ch_pext ch (dim' + 1) s' t') s' t' (explores_pext acc ch load Ex (dim' + 1) s' t') M1 M2 (rd_built _ _ _ _ Rs) (rd_built _ _ _ _ Rt) K1 K2 (rd_reads _ _ _ _ Rs) (rd_reads _ _ _ _ Rt) (rd_range _ _ _ _ Rs) (rd_range _ _ _ _ Rt)
      (ch_aord ch) (fair_aord _ Fc) (ch_ext ch (dim' + 1)) (ch_sord ch) (ch_minc ch (dim' + 1)) (ch_kord ch) (explores_ext acc ch load Ex (dim' + 1)) (fair_sord _ Fc) M (small (dim' + 1) ltac:(lia)) (kord_same ch Fc) (Sp Hq) (rd_upper _ _ _ _ Rs U1) (rd_upper _ _ _ _ Rt U2) _ _ H0) as (o & Eo & No).
  assert (X : exists p, answer_query ch reduce load (QRefinement e f) = Ok p).
  { cbn [answer_query]. rewrite (two_replies acc ch reduce load e f d s t s' t' dim' Fc Ex L Na Sm Un H). cbn [or_model bind fst snd]. rewrite Eo. cbn [bind]. destruct o as [x|]; [|eauto].
    destruct (refinement_true acc (dim' + 1) q1 q2 (ch_pext ch (dim' + 1) s' t') s' t' (explores_pext acc ch load Ex (dim' + 1) s' t') M1 M2 (rd_built _ _ _ _ Rs) (rd_built _ _ _ _ Rt) K1 K2 (rd_reads _ _ _ _ Rs) (rd_reads _ _ _ _ Rt) (rd_range _ _ _ _ Rs) (rd_range _ _ _ _ Rt)
      (ch_aord ch) (fair_aord _ Fc) (ch_ext ch (dim' + 1)) (ch_sord ch) (ch_minc ch (dim' + 1)) (ch_kord ch) (explores_ext acc ch load Ex (dim' + 1)) (fair_sord _ Fc) M (small (dim' + 1) ltac:(lia)) (kord_same ch Fc) (Sp Hq) (rd_upper _ _ _ _ Rs U1) (rd_upper _ _ _ _ Rt U2) _ _ Eo) as (m' & Em & T).
    rewrite Em. cbn [bind]. eauto. }
  destruct X as [p X]. exists p. split; [exact X|]. apply C53_reply in X. destruct p; try (destruct X as (b & X & Y); rewrite X in E0; injection E0 as ->; auto). rewrite X in E0. discriminate.
Qed.
Print Assumptions C53_always_two_partial.
Theorem C53_always_one_partial : forall acc ch reduce load q e d s a,
  fair ch -> explores acc ch load -> loadable load -> subject q = Some e -> (forall from to, q <> QReachability e from to) -> names_one load e d s -> (Z.of_nat d < 4294967295)%Z ->
  (reduce = true -> dropped_unmentioned (the_redundant ch) load e /\ nothing_merged (the_redundant ch) load e) ->
  run_query ch reduce load q = Ok a -> exists p, answer_query ch reduce load q = Ok p /\ favourable p = satisfied a.
Proof.
  intros acc ch reduce load q e d s a Fc Ex L S Nr Na Sm Un E. assert (E0 := E).
  assert (X : exists p, answer_query ch reduce load q = Ok p).
  { destruct q; cbn [subject] in S; try discriminate; injection S as ->; cbn [run_query] in E; cbn [answer_query].
    - inv_bind E. destruct a0 as [s' dim']. rewrite (one_replies acc ch reduce load e d s s' dim' Fc Ex L Na Sm Un H). cbn [or_model bind fst snd].
      destruct (one_made acc ch reduce load e d s s' dim' Fc Ex L Na Sm Un H) as ((q & Fi) & Le & Sb & Eq). inv_bind E. destruct (pre_says_all acc ch Fc (explores_ext acc ch load Ex) dim' q s' a0 ltac:(lia) Fi H0) as (o & Eo & No). rewrite Eo. cbn [bind].
      destruct o as [x|]; [|eauto]. destruct (pre_says acc ch Fc (explores_ext acc ch load Ex) dim' q s' x ltac:(lia) Fi Eo) as (m & Em & _). rewrite Em. cbn [bind]. eauto.
    - destruct (Nr _ _ eq_refl).
    - inv_bind E. destruct a0 as [s' dim']. rewrite (one_replies acc ch reduce load e d s s' dim' Fc Ex L Na Sm Un H). cbn [or_model bind fst snd].
      destruct (one_made acc ch reduce load e d s s' dim' Fc Ex L Na Sm Un H) as ((q & Fi) & Le & Sb & Eq). inv_bind E. destruct (fair_minc ch Fc (dim' + 1) ltac:(lia)) as [M _].
      destruct (determinism_total acc (dim' + 1) q (ch_ext ch (dim' + 1)) (ch_sord ch) (ch_minc ch (dim' + 1)) (ch_kord ch) (explores_ext acc ch load Ex (dim' + 1)) (fair_sord _ Fc) M (small (dim' + 1) ltac:(lia)) (kord_same ch Fc) _ s' Fi _ H0) as (o & Eo & No). rewrite Eo. cbn [bind].
      destruct o as [x|]; [|eauto]. destruct Fi as (B & K & R & D & Mi).
      destruct (determinism_true acc (dim' + 1) q (ch_ext ch (dim' + 1)) (ch_sord ch) (ch_minc ch (dim' + 1)) (ch_kord ch) (explores_ext acc ch load Ex (dim' + 1)) (fair_sord _ Fc) M (small (dim' + 1) ltac:(lia)) (kord_same ch Fc) s' B K R D Mi _ _ Eo) as (c & m & _ & Em & _).
      rewrite Em. cbn [bind]. eauto.
    - assert (R : exists c, run_query ch reduce load (QGetComponent e name) = Ok (AComponent c)). { inv_bind E. destruct a0 as [s' dim']. inv_bind E. injection E as <-. eauto. }
      destruct R as [c R]. inv_bind E. destruct a0 as [s' dim']. rewrite (one_replies acc ch reduce load e d s s' dim' Fc Ex L Na Sm Un H). cbn [or_model bind]. rewrite R. cbn [bind]. eauto.
    - assert (R : exists c, run_query ch reduce load (QPrune e name) = Ok (AComponent c)). { inv_bind E. destruct a0 as [s' dim']. inv_bind E. inv_bind E. injection E as <-. eauto. }
      destruct R as [c R]. inv_bind E. destruct a0 as [s' dim']. rewrite (one_replies acc ch reduce load e d s s' dim' Fc Ex L Na Sm Un H). cbn [or_model bind]. rewrite R. cbn [bind]. eauto. }
  destruct X as [p X]. exists p. split; [exact X|]. apply C53_reply in X. destruct p; try (destruct X as (b & X & Y); rewrite X in E0; injection E0 as ->; auto). rewrite X in E0. discriminate.
Qed.
Print Assumptions C53_always_one_partial.

(** ** Examples *)

(** F must leave F0 before x exceeds 5; from x = 4 on an input would lead it into an inconsistent location, but it can produce its
    output before.  Two inputs of G overlap when x = 4. *)
Definition alarm_c : component :=
  mkComp "F" (mkDecls [("x", 1%nat)] [])
    [mkL "F0" (Some (BLessEQ (AVar "x") (AInt 5))) Initial "NORMAL"; mkL "F1" None Inconsistent "NORMAL"; mkL "F2" None Normal "NORMAL"]
    [mkE "E1" "F0" "F1" SInput (Some (BGreatEQ (AVar "x") (AInt 4))) None "i"; mkE "E2" "F0" "F2" SOutput None None "o"] None.
Definition overlap_c : component :=
  mkComp "G" (mkDecls [("x", 1%nat)] [])
    [mkL "G0" None Initial "NORMAL"; mkL "G1" None Normal "NORMAL"]
    [mkE "E1" "G0" "G1" SInput (Some (BGreatEQ (AVar "x") (AInt 4))) None "i"; mkE "E2" "G0" "G0" SInput (Some (BLessEQ (AVar "x") (AInt 4))) (Some [("x", AInt 0)]) "i"] None.
Definition fail_load (n : string) : option component :=
  if String.eqb n "F" then Some alarm_c else if String.eqb n "G" then Some overlap_c else lk_load n.
Lemma fail_loadable : loadable fail_load.
Proof.
  intros n c. unfold fail_load. destruct (String.eqb n "F"); [intros [= <-]|destruct (String.eqb n "G"); [intros [= <-]|apply lk_loadable]].
  all: split; [split; [repeat constructor; cbn; intuition discriminate|split; [repeat constructor; cbn; intuition discriminate|intros x i [[= <- <-]|[]]; cbn; lia]]|].
  - split; [intros e us [<-|[<-|[]]]; cbn; discriminate|]. split; [intros l g [<-|[<-|[<-|[]]]]; cbn; intros [= <-]; reflexivity|intros e g [<-|[<-|[]]]; cbn; intros [= <-]; reflexivity].
  - split; [intros e us [<-|[<-|[]]]; cbn; [discriminate|intros [= <-]]; (split; [intros x k [[= <- <-]|[]]; lia|intros x a b [[= <- <-]|[]] [[= <-]|[]]; reflexivity])|].
    split; [intros l g [<-|[<-|[]]]; cbn; discriminate|intros e g [<-|[<-|[]]]; cbn; intros [= <-]; reflexivity].
Qed.
Lemma fail_named : named_load fail_load.
Proof.
  intros n c. unfold fail_load, lk_load. destruct (String.eqb_spec n "F") as [->|_]; [intros [= <-]; reflexivity|]. destruct (String.eqb_spec n "G") as [->|_]; [intros [= <-]; reflexivity|].
  destruct (String.eqb_spec n "L") as [->|_]; [intros [= <-]; reflexivity|]. destruct (String.eqb_spec n "K") as [->|_]; [intros [= <-]; reflexivity|discriminate].
Qed.
Definition kl_k : recipe := Eval vm_compute in get no_recipe (rmap fst (get_system_recipe fail_load (XComp "K" None) (0, None))).
Definition kl_l : recipe := Eval vm_compute in get no_recipe (rmap fst (get_system_recipe fail_load (XComp "L" None) (2, None))).
Definition kl_two : ts * ts := Eval vm_compute in get (ts_m, ts_m) (compile_two unchecked unchecked 4 kl_k kl_l).
Definition kl_alone : ts := Eval vm_compute in get ts_m (compile unchecked unchecked 4 kl_l).
Definition g_one : ts := Eval vm_compute in get ts_m (rmap fst (one_system (plain_choices 30) false fail_load (XComp "G" None))).
Definition f_one : ts := Eval vm_compute in get ts_m (rmap fst (one_system (plain_choices 30) false fail_load (XComp "F" None))).

(** K <= L fails, the clocks that are never read being dropped: after the input i in K0 and L0, K can wait longer than L. *)
Example C53_nonvacuous :
  let ch := plain_choices 30 in let k := XComp "K" None in let l := XComp "L" None in
  fair ch /\ explores Exact ch fail_load /\ loadable fail_load /\ named_load fail_load /\
  names_two fail_load k l 5 (fst kl_two) (snd kl_two) /\ dropped_unmentioned_two (the_redundant ch) fail_load k l /\ upper_invariants 5 (fst kl_two) /\ upper_invariants 5 (snd kl_two) /\
  (exists p, answer_query ch true fail_load (QRefinement k l) = Ok (PRefinementFailure (mkPRF "K <= L" (Some (PRefinementState 1 (Some (mkPSA (Some p) "i"))))))) /\
  names_one fail_load (XComp "G" None) 2 g_one /\
  answer_query ch false fail_load (QDeterminism (XComp "G" None)) = Ok (PDeterminismFailure (mkPDF "G" (Some (mkPSA (Some (mkPS (Some (PLeaf "G0" (Some (mkPC "G" 0)))) (Some [[]]))) "i")))) /\
  names_one fail_load (XComp "F" None) 2 f_one /\
  (exists p, answer_query ch false fail_load (QConsistency (XComp "F" None)) = Ok (PConsistencyFailure (mkPCF "F" (Some (PFailureState p))))) /\
  few_clocks fail_load (XPar l k) /\
  answer_query ch false fail_load (QConsistency (XPar l k)) = Ok (PModelFailure (mkPMF "L || K" (Some (PModelActions (mkPAF 1 [mkPA ["o"] "L" false; mkPA ["o"] "K" false]))))) /\
  few_clocks_two fail_load (XPar l k) k /\
  answer_query ch false fail_load (QRefinement (XPar l k) k) = Ok (PModelFailure (mkPMF "L || K" (Some (PModelActions (mkPAF 1 [mkPA ["o"] "L" false; mkPA ["o"] "K" false]))))).
Proof.
  cbv zeta. split; [apply plain_fair|]. split; [apply plain_explores|]. split; [apply fail_loadable|]. split; [apply fail_named|].
  split; [exists kl_k, (2, None), kl_l, 4, None; repeat split; vm_compute; reflexivity|].
  split.
  { intros l st r dim q El Er. vm_compute in El. injection El as <- <-. vm_compute in Er. injection Er as <- <- <-.
    intros c n i Hc Hn Rm.
    assert (Il : In (RemoveClock i) [RemoveClock 1; RemoveClock 3; RemoveClock 4]) by (apply (Rm kl_k (fst kl_two)); [left; reflexivity|vm_compute; reflexivity|vm_compute; reflexivity]).
    assert (Ik : In (RemoveClock i) [RemoveClock 1; RemoveClock 2; RemoveClock 4]) by (apply (Rm kl_l kl_alone); [right; left; reflexivity|vm_compute; reflexivity|vm_compute; reflexivity]).
    assert (Z : i = 1 \/ i = 4) by (cbn in Il, Ik; intuition congruence).
    vm_compute in Hc. destruct Hc as [<-|[<-|[]]]; cbn in Hn; destruct Hn as [[= <- <-]|[[= <- <-]|[]]]; try (exfalso; lia).
    all: split; [intros l g [<-|[<-|[]]]; cbn; intros [= <-]; reflexivity|intros e g [<-|[<-|[<-|[]]]]; cbn; intros [= <-]; reflexivity]. }
  split; [apply upper_check; vm_compute; reflexivity|]. split; [apply upper_check; vm_compute; reflexivity|].
  split; [eexists; vm_compute; reflexivity|]. split; [eexists _, _, _; repeat split; vm_compute; reflexivity|]. split; [vm_compute; reflexivity|].
  split; [eexists _, _, _; repeat split; vm_compute; reflexivity|]. split; [eexists; vm_compute; reflexivity|].
  split; [intros r dim q E; vm_compute in E; injection E as <- <- <-; reflexivity|]. split; [vm_compute; reflexivity|].
  split; [intros l st r dim q E E'; vm_compute in E; injection E as <- <-; vm_compute in E'; injection E' as <- <- <-; reflexivity|]. vm_compute; reflexivity.
Qed.

(** The same if zones are enlarged up to the bounds of the clocks. *)
Lemma fail_literal n c : fail_load n = Some c -> literal_component c.
Proof.
  unfold fail_load. destruct (String.eqb n "F"); [intros [= <-]; apply literal_check; vm_compute; reflexivity|]. destruct (String.eqb n "G"); [intros [= <-]; apply literal_check; vm_compute; reflexivity|]. apply lk_literal.
Qed.
Definition wide_reply (load : string -> option component) (q : query) : reply := get PSuccess (answer_query (wide_choices 30) false load q).
Definition wide_send := Eval vm_compute in wide_reply send_load (QRefinement (XComp "Early" None) (XComp "Late" None)).
Definition wide_state : pstate := match wide_send with PRefinementFailure (mkPRF _ (Some (PRefinementState _ (Some (mkPSA (Some p) _))))) => p | _ => mkPS None None end.
Example C53_bounded_nonvacuous :
  let ch := wide_choices 30 in let e := XComp "Early" None in let l := XComp "Late" None in
  fair ch /\ explores Bounded ch fail_load /\ explores Bounded ch send_load /\ loadable fail_load /\ loadable send_load /\
  names_two send_load e l 3 (fst send_two) (snd send_two) /\ upper_invariants 3 (fst send_two) /\ upper_invariants 3 (snd send_two) /\
  answer_query ch false send_load (QRefinement e l) = Ok (PRefinementFailure (mkPRF "Early <= Late" (Some (PRefinementState 0 (Some (mkPSA (Some wide_state) "o")))))) /\
  names_one fail_load (XComp "G" None) 2 g_one /\
  answer_query ch false fail_load (QDeterminism (XComp "G" None)) = Ok (PDeterminismFailure (mkPDF "G" (Some (mkPSA (Some (mkPS (Some (PLeaf "G0" (Some (mkPC "G" 0)))) (Some [[]]))) "i")))) /\
  names_one fail_load (XComp "F" None) 2 f_one /\
  answer_query ch false fail_load (QConsistency (XComp "F" None)) = Ok (PConsistencyFailure (mkPCF "F" (Some (PFailureState (mkPS (Some (PLeaf "F1" (Some (mkPC "F" 0)))) (Some [[]])))))).
Proof.
  cbv zeta. split; [apply wide_fair|]. split; [apply wide_explores, fail_literal|]. split; [apply wide_explores, send_literal|]. split; [apply fail_loadable|]. split; [apply send_loadable|].
  split; [exists send_e, (1, None), send_l, 2, None; repeat split; vm_compute; reflexivity|].
  split; [apply upper_check; vm_compute; reflexivity|]. split; [apply upper_check; vm_compute; reflexivity|]. split; [vm_compute; reflexivity|].
  split; [eexists _, _, _; repeat split; vm_compute; reflexivity|]. split; [vm_compute; reflexivity|].
  split; [eexists _, _, _; repeat split; vm_compute; reflexivity|]. vm_compute; reflexivity.
Qed.

Definition alarm_states (n : string) (v : val) : Prop := val_ok 2 v /\ (n = "F0" /\ (v 1%nat <= 5)%Q \/ n = "F2").
Lemma alarm_goes : goes_on 2 alarm_c alarm_states.
Proof.
  assert (LA : forall l, the_location alarm_c "F0" l -> l = mkL "F0" (Some (BLessEQ (AVar "x") (AInt 5))) Initial "NORMAL").
  { intros l (H & E & _). destruct H as [<-|[<-|[<-|[]]]]; try discriminate. reflexivity. }
  assert (LB : forall l, the_location alarm_c "F2" l -> l_inv l = None).
  { intros l (H & E & _). destruct H as [<-|[<-|[<-|[]]]]; try discriminate. reflexivity. }
  split.
  - intros n v (Hv & [[-> H]| ->]); (split; [exact Hv|]).
    + exists (mkL "F0" (Some (BLessEQ (AVar "x") (AInt 5))) Initial "NORMAL"). split; [|split; [discriminate|apply x_le; exact H]].
      split; [left; reflexivity|]. split; [reflexivity|]. intros l' [<-|[<-|[<-|[]]]] E; try discriminate. reflexivity.
    + exists (mkL "F2" None Normal "NORMAL"). split; [|split; [discriminate|exact I]].
      split; [right; right; left; reflexivity|]. split; [reflexivity|]. intros l' [<-|[<-|[<-|[]]]] E; try discriminate. reflexivity.
  - intros n v t (Hv & [[-> H]| ->]) Ht.
    + left. exists 0%Q. split; [lra|]. split; [intros l Hl; rewrite (LA l Hl); cbn [l_inv osat]; apply x_le; rewrite vdelay_S by discriminate; change (inject_Z 5) with 5%Q; lra|].
      exists (mkE "E2" "F0" "F2" SOutput None None "o"), []. split; [right; left; reflexivity|]. split; [reflexivity|]. split; [reflexivity|]. split; [exact I|]. split; [reflexivity|].
      split; [apply vdelay_ok; [exact Hv|lra]|]. right. reflexivity.
    + right. split; [intros l Hl; rewrite (LB l Hl); exact I|]. intros e us He Te Es _ _. destruct He as [<-|[<-|[]]]; discriminate.
Qed.

(** Finding: what the message of a failed consistency check shows is not a proof that the system is inconsistent.  The component F
    is reported, but it can always produce its output before the input that would hurt it. *)
Theorem C53_false_alarm_refuted : exists ch load e c d s m,
  fair ch /\ explores Exact ch load /\ loadable load /\ load "F" = Some c /\ e = XComp "F" None /\ names_one load e d s /\
  answer_query ch false load (QConsistency e) = Ok (PConsistencyFailure m) /\ pcf_system m = "F" /\
  (exists l, In l (c_locs c) /\ l_type l = Initial /\ consistent d c (l_id l) zero_val).
Proof.
  exists (plain_choices 30), fail_load, (XComp "F" None), alarm_c, 2, f_one. eexists. split; [apply plain_fair|]. split; [apply plain_explores|]. split; [apply fail_loadable|].
  split; [reflexivity|]. split; [reflexivity|]. split; [eexists _, _, _; repeat split; vm_compute; reflexivity|]. split; [vm_compute; reflexivity|]. split; [reflexivity|].
  eexists. split; [left; reflexivity|]. split; [reflexivity|]. cbn [l_id].
  exists alarm_states. split; [exact alarm_goes|]. split; [split; [reflexivity|intros i Hi; apply Qle_refl]|left; split; [reflexivity|discriminate]].
Qed.
Print Assumptions C53_false_alarm_refuted.
