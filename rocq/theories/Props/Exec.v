(** C50: answers to queries are about the systems their expressions name. *)
From Coq Require Import List String Ascii ZArith QArith Bool Arith Lia Lqa Permutation.
From Verif Require Import Fed.Zone Fed.ZoneFacts Fed.Check Model.Base Model.Expr Model.Guard Model.Loc Model.Component Model.TS Model.ParseQuery Model.Recipe Model.Reduce Model.Search Model.Refine
  Model.Query Model.Save Model.Prune Model.Exec
  Spec.BoundSpec Spec.StepSpec Spec.SystemSpec Spec.RunSpec Spec.ReachSpec Spec.RefineSpec Spec.EnableSpec Spec.IdSpec Spec.RecipeSpec Spec.ReduceSpec Spec.SameSpec Spec.SaveSpec Spec.StateSpec Spec.ConsistencySpec Spec.ExecSpec
  Proofs.GuardFacts Proofs.SystemFacts Proofs.WfFacts Proofs.ReadsFacts Proofs.RunFacts Proofs.ReduceFacts Proofs.ClockFacts Proofs.RecipeFacts Proofs.RenFacts Proofs.SameFacts Proofs.BisimFacts
  Proofs.ShrinkFacts Proofs.CompressFacts Proofs.InstrFacts Proofs.TwoFacts Proofs.ExecFacts Proofs.LinkFacts Proofs.PlainFacts
  Props.Examples Props.Enabling Props.Ids Props.Recipes Props.Reduction Props.Compression Props.Determinism Props.Refinement Props.Consistency Props.Reachability Props.States Props.Saving Props.Two Fed.Dbm Model.Extrapolate Proofs.ExtraFacts.
Import ListNotations.
Local Open Scope string_scope.
Local Open Scope list_scope.
Local Open Scope nat_scope.

(** ** The systems that are checked *)
Lemma no_quotient load e : forall st r st', has_quotient e = false -> get_system_recipe load e st = Ok (r, st') -> quotient_clocks r = [].
Proof.
  induction e as [n id|l IHl r IHr|l IHl r IHr|l IHl r IHr]; intros st x st' H E; cbn [has_quotient get_system_recipe] in *; try discriminate.
  - inv_bind E. injection E as <- <-. reflexivity.
  - apply orb_false_iff in H. inv_bind E. destruct a as [l1 s1]. inv_bind E. destruct a as [r1 s2]. injection E as <- <-. cbn [quotient_clocks]. destruct H as [Hl Hr]. rewrite (IHl _ _ _ Hl H0), (IHr _ _ _ Hr H1). reflexivity.
  - apply orb_false_iff in H. inv_bind E. destruct a as [l1 s1]. inv_bind E. destruct a as [r1 s2]. injection E as <- <-. cbn [quotient_clocks]. destruct H as [Hl Hr]. rewrite (IHl _ _ _ Hl H0), (IHr _ _ _ Hr H1). reflexivity.
Qed.

(** [s'] is fit for the checks and behaves as [s]. *)
Record ready (d : nat) (s : ts) (d' : nat) (s' : ts) : Prop := {
  rd_same : same_behaviour d s d' s';
  rd_built : built d' s';
  rd_clocks : exists q, clocks_ok d' q s';
  rd_reads : reads_ok s';
  rd_range : forall x, In x (sys_clocks s') -> x < d';
  rd_gaps : no_gaps d s -> no_gaps d' s';
  rd_upper : upper_invariants d s -> upper_invariants d' s';
  rd_inside : enters_inside d s -> enters_inside d' s';
  rd_reserved : no_reserved s' = no_reserved s;
  rd_divisors : plain_divisors s' = plain_divisors s;
  rd_count : List.length (all_locations d' s') = List.length (all_locations d s) }.

Lemma compile_range least pre d r k s k' : compile_at least pre d r k = Ok (s, k') -> (forall x, In x (all_numbers r) -> x < d) -> (forall x, In x (quotient_clocks r) -> x < d) ->
  forall x, In x (sys_clocks s) -> x < d.
Proof. intros C A B x H. apply (compile_sys_clocks _ _ _ _ _ _ _ C) in H. destruct H; auto. Qed.
Lemma compile_separate least pre d l r k s k' m t m' : compile_at least pre d l k = Ok (s, k') -> compile_at least pre d r m = Ok (t, m') ->
  NoDup (all_numbers l ++ all_numbers r) -> (forall x, In x (quotient_clocks l ++ quotient_clocks r) -> ~ In x (all_numbers l ++ all_numbers r)) ->
  quotient_clocks l = [] \/ quotient_clocks r = [] -> separate s t.
Proof.
  intros C D N Q Z x Hs Ht. apply (compile_sys_clocks _ _ _ _ _ _ _ C) in Hs. apply (compile_sys_clocks _ _ _ _ _ _ _ D) in Ht. apply nodup_split in N. destruct N as (_ & _ & N).
  destruct Hs as [Hs|Hs], Ht as [Ht|Ht].
  - exact (N x Hs Ht).
  - apply (Q x); apply in_or_app; auto.
  - apply (Q x); apply in_or_app; auto.
  - destruct Z as [Z|Z]; rewrite Z in *; contradiction.
Qed.

Lemma ready_same d s q : built d s -> clocks_ok d q s -> reads_ok s -> (forall x, In x (sys_clocks s) -> x < d) -> ready d s d s.
Proof. intros B C R X. constructor; auto; [apply same_refl|eauto]. Qed.
Lemma ready_ren rho d d' q q' s s' : renames rho d d' -> 0 < d -> 0 < d' -> injective rho -> srel rho d d' s s' -> same_behaviour d s d' s' -> clocks_ok d q s ->
  built d' s' -> clocks_ok d' q' s' -> reads_ok s' -> (forall x, In x (sys_clocks s') -> x < d') -> ready d s d' s'.
Proof.
  intros RN D D' J S B C Bu Ck R X. constructor; auto; [eauto| | | | | |].
  - apply gaps_rel with (rho := rho); auto.
  - apply upper_rel with (rho := rho); auto.
  - apply inside_rel with (rho := rho) (q := q); auto.
  - eapply reserved_rel; eauto.
  - eapply divisors_rel; eauto.
  - pose proof (locations_rel rho d d' s s' S) as F. induction F; cbn; congruence.
Qed.

Section Two.
Variables (ch : choices) (reduce : bool) (load : string -> option component) (e f : sysx).
Hypothesis Fc : fair ch.
Hypothesis L : loadable load.

Lemma two_shape l n p r dim q l' r' dim' : get_system_recipe load e (0, None) = Ok (l, (n, p)) -> get_system_recipe load f (n, p) = Ok (r, (dim, q)) -> (Z.of_nat (dim + 1) < 4294967295)%Z ->
  dropped_unmentioned_two (the_redundant ch) load e f ->
  clock_reduce (the_least ch) (the_pre ch) (the_redundant ch) l (Some r) dim q = Ok (l', Some r', dim') -> exists ul ur, renumbering l r dim q l' r' dim' ul ur.
Proof.
  intros E F Sm Un Er. specialize (Un l (n, p) r dim q E F).
  destruct (Nat.eq_dec dim 0) as [Z|Z].
  - subst dim. cbn in Er. injection Er as <- <- <-. exists [], []. eapply shape_zero; eassumption.
  - assert (Er' := Er). unfold clock_reduce in Er. rewrite (proj2 (Nat.eqb_neq _ _) Z) in Er. inv_bind Er. clear Er. unfold clock_reduce_two in H.
    inv_bind H. inv_bind H. inv_bind H. inv_bind H. clear H. apply one_unchecked in H0, H2. apply reduce_unchecked in Er'.
    rewrite (reduce_at _ _ _ (fun d => find_redundant_clocks d (ch_minc ch (dim + 1)) (ch_ord ch) (ch_cord ch) (ch_gord ch) (ch_fuel ch))) in Er' by reflexivity.
    destruct (fair_minc ch Fc (dim + 1) ltac:(lia)) as [M Cf].
    eapply (shape_some unchecked unchecked (ch_minc ch (dim + 1)) (ch_ord ch) (ch_cord ch) (ch_gord ch) (ch_fuel ch) load e f l r n p dim q); try eassumption; [apply (fair_cord _ Fc)| |].
    + eapply (two_apart unchecked unchecked (ch_minc ch (dim + 1)) (ch_ord ch) (ch_cord ch) (ch_gord ch) (ch_fuel ch) load e f l r n p dim q); try eassumption; [apply (fair_ord _ Fc)|apply (fair_gord _ Fc)].
    + intros c nm i Hc Hi X Y. apply (Un c nm i); [cbn [flat_map]; rewrite app_nil_r; exact Hc|exact Hi|]. intros x sx xs [<-|[<-|[]]] Cx Rx; congruence.
Qed.
Lemma two_ready d s t s' t' dim' : names_two load e f d s t -> (Z.of_nat d < 4294967295)%Z -> (reduce = true -> dropped_unmentioned_two (the_redundant ch) load e f) ->
  two_systems ch reduce load e f = Ok (s', t', dim') ->
  ready d s (dim' + 1) s' /\ ready d t (dim' + 1) t' /\ (has_quotient e && has_quotient f = false -> separate s' t').
Proof.
  intros (l & [n p] & r & dim & q & E & F & C & ->) Sm Un T.
  destruct (C29_numbering_two load e f l r n p dim q (fun n c H => proj1 (L n c H)) E F) as (I & I' & B & P & Q & N).
  destruct (two_once load e f l r n p dim q L E F) as [Hl Hr]. pose proof (two_named load e f l r n p dim q L E F) as Na.
  unfold compile_two in C. inv_bind C. destruct a as [a1 k1]. inv_bind C. destruct a as [b1 m1]. injection C as -> ->. rename H into A1, H0 into B1.
  destruct (two_good load e f l r n p dim q L E F _ _ l 0 s k1 (or_introl eq_refl) A1) as (Bu1 & Cc1 & Ck1 & Rd1).
  destruct (two_good load e f l r n p dim q L E F _ _ r k1 t m1 (or_intror eq_refl) B1) as (Bu2 & Cc2 & Ck2 & Rd2).
  assert (Nd : NoDup (all_numbers l ++ all_numbers r ++ opt_clock q)) by (eapply Permutation_NoDup; [symmetry; exact P|apply seq_NoDup]).
  assert (Rg : forall i, In i (all_numbers l ++ all_numbers r ++ opt_clock q) -> 1 <= i < dim + 1) by (intros i Hi; apply (Permutation_in _ P) in Hi; apply in_seq in Hi; lia).
  assert (Nq : forall x, In x (quotient_clocks l ++ quotient_clocks r) -> In x (opt_clock q) /\ ~ In x (all_numbers l ++ all_numbers r)).
  { intros x Hx. apply Q in Hx. subst q. split; [left; reflexivity|]. intros H. rewrite app_assoc in Nd. apply nodup_split in Nd. destruct Nd as (_ & _ & Z). apply (Z x H). left. reflexivity. }
  assert (Qz : has_quotient e && has_quotient f = false -> quotient_clocks l = [] \/ quotient_clocks r = []).
  { intros H. apply andb_false_iff in H. destruct H as [H|H]; [left|right]; eapply no_quotient; eauto. }
  unfold two_systems, two_recipes in T. rewrite E in T. cbn [bind] in T. rewrite F in T. cbn [bind] in T. destruct reduce.
  - inv_bind T. destruct a as [[l' r'] d0]. cbn [fst snd] in *. inv_bind T. destruct a as [x y]. injection T as -> -> ->. rename H0 into C2.
    inv_bind H. destruct a as [[l0 o0] d0]. cbn [fst snd] in H. destruct o0 as [r0|]; [|discriminate]. cbn [unwrap bind] in H. injection H as -> -> ->. rename H0 into Er.
    apply two_unchecked in C2. unfold compile_two in C2. inv_bind C2. destruct a as [a2 k2]. inv_bind C2. destruct a as [b2 m2]. injection C2 as -> ->. rename H into A2, H0 into B2.
    destruct (two_shape l n p r dim q l' r' dim' E F Sm (Un eq_refl) Er) as (ul & ur & Nl & Nr & Il & Ir & Ul & Ur & -> & -> & ->). set (rho := ren2 l r dim q ul ur) in *.
    pose proof (ren2_renames l r dim q ul ur P Q Nl Nr Il Ir) as RN. pose proof (ren2_injective l r dim q ul ur P Q Nl Nr Il Ir) as J. fold rho in RN, J.
    destruct (two_same l r dim q ul ur Hl Hr P Q Nl Nr Il Ir unchecked unchecked unchecked unchecked l ul s s' 0 k1 0 k2 ltac:(auto) ltac:(intros c Hc; apply Na, in_or_app; auto) Ul Ck1 A1 A2) as [S1 Sb1].
    destruct (two_same l r dim q ul ur Hl Hr P Q Nl Nr Il Ir unchecked unchecked unchecked unchecked r ur t t' k1 m1 k2 m2 ltac:(auto) ltac:(intros c Hc; apply Na, in_or_app; auto) Ur Ck2 B1 B2) as [S2 Sb2].
    fold rho in S1, S2. set (d2 := dim2 dim ul ur) in *.
    set (q' := match q with Some _ => d2 | None => 0 end).
    assert (Fit : forall c, In c (components l ++ components r) -> fit_component (dim + 1) c).
    { intros c Hc. assert (X : exists m c0, load m = Some c0 /\ renumbered c0 c).
      { apply in_app_or in Hc. destruct Hc as [Hc|Hc]; [destruct (instance_component _ _ _ I _ Hc) as (m & c0 & Ln & Re)|destruct (instance_component _ _ _ I' _ Hc) as (m & c0 & Ln & Re)]; eauto. }
      destruct X as (m & c0 & Ln & Re). destruct (L _ _ Ln) as (_ & G & Ng). split; [apply block_nodup, B, Hc|]. split; [|split; [eapply good_resets_re; eauto|eapply named_guards_re; eauto]].
      intros i Hi. apply Rg. rewrite app_assoc. apply in_or_app. left. apply in_app_or in Hc. apply in_or_app. destruct Hc as [Hc|Hc]; [left|right]; eapply component_numbers; eauto. }
    assert (Eq : rho (q_default q) = Some q' \/ (q = None /\ q' = 0)).
    { unfold q'. destruct q as [q0|]; [left|right; auto]. apply (ren2_q l r dim (Some q0) ul ur P); auto. }
    assert (Eqx : forall x, (x = l \/ x = r) -> rho (q_default q) = Some q' \/ (quotient_clocks x = [] /\ q' = 0)).
    { intros x X. destruct Eq as [Eq|[Eq Eq']]; [auto|right]. split; [|exact Eq']. destruct (quotient_clocks x) as [|y m] eqn:Ex; [reflexivity|].
      assert (Y : q = Some y) by (apply Q, in_or_app; destruct X as [-> | ->]; rewrite Ex; cbn; auto). congruence. }
    assert (Qx : forall x, (x = l \/ x = r) -> forall y, In y (quotient_clocks x) -> y = q_default q /\ q_default q <> 0).
    { intros x X y Hy. assert (Y : In y (quotient_clocks l ++ quotient_clocks r)) by (apply in_or_app; destruct X as [-> | ->]; auto). pose proof (Q _ Y) as Z. subst q. cbn. split; [reflexivity|].
      assert (W : 1 <= y < dim + 1) by (apply Rg; apply in_or_app; right; apply in_or_app; right; left; reflexivity). lia. }
    assert (Nqx : forall x, (x = l \/ x = r) -> ~ In (q_default q) (all_numbers x)).
    { intros x X H. assert (W : In (q_default q) (all_numbers l ++ all_numbers r)) by (apply in_or_app; destruct X as [-> | ->]; auto). destruct q as [q0|]; cbn in *.
      - rewrite app_assoc in Nd. apply nodup_split in Nd. destruct Nd as (_ & _ & Z). apply (Z _ W). left. reflexivity.
      - assert (1 <= 0 < dim + 1) by (apply Rg; rewrite app_assoc; apply in_or_app; auto). lia. }
    assert (Ndx : NoDup (all_numbers l) /\ NoDup (all_numbers r) /\ NoDup (all_numbers l ++ all_numbers r)).
    { rewrite app_assoc in Nd. apply nodup_split in Nd. destruct Nd as (Nd & _). split; [|split; [|exact Nd]]; apply nodup_split in Nd; tauto. }
    destruct Ndx as (Nd1 & Nd2 & Nd3).
    destruct (ren_good rho (dim + 1) (d2 + 1) RN ltac:(lia) J unchecked unchecked (q_default q) q' l 0 s' k2 ltac:(intros c Hc; apply Fit, in_or_app; auto) Nd1 (Nqx l ltac:(auto)) (Eqx l ltac:(auto)) (Qx l ltac:(auto)) A2) as (G1 & G2 & G3 & G4).
    destruct (ren_good rho (dim + 1) (d2 + 1) RN ltac:(lia) J unchecked unchecked (q_default q) q' r k2 t' m2 ltac:(intros c Hc; apply Fit, in_or_app; auto) Nd2 (Nqx r ltac:(auto)) (Eqx r ltac:(auto)) (Qx r ltac:(auto)) B2) as (K1 & K2 & K3 & K4).
    assert (Mv : forall x, (x = l \/ x = r) -> forall j, In j (all_numbers (ren_recipe rho x)) -> j < d2 + 1).
    { intros x X j Hj. rewrite (ren_all rho) in Hj. apply moved_In in Hj. destruct Hj as (i & Hi & Ei). assert (W : 1 <= i < dim + 1) by (apply Rg; rewrite app_assoc; apply in_or_app; left; apply in_or_app; destruct X as [-> | ->]; auto).
      destruct (rn_range _ _ _ RN _ _ Ei ltac:(lia)). lia. }
    assert (Mq : forall x, (x = l \/ x = r) -> forall j, In j (quotient_clocks (ren_recipe rho x)) -> j = q' /\ rho (q_default q) = Some q' /\ j < d2 + 1).
    { intros x X j Hj. rewrite ren_quotients in Hj. apply in_map_iff in Hj. destruct Hj as (i & <- & Hi). destruct (Qx x X i Hi) as [-> Nz]. destruct (Eqx x X) as [Y|[Y _]]; [|rewrite Y in Hi; destruct Hi].
      unfold total. rewrite Y. destruct (rn_range _ _ _ RN _ _ Y Nz). split; [reflexivity|]. split; [reflexivity|]. lia. }
    split; [|split].
    + eapply (ready_ren rho); try eassumption; try lia. eapply compile_range; [exact A2|apply Mv; auto|intros x Hx; apply (Mq l); auto].
    + eapply (ready_ren rho); try eassumption; try lia. eapply compile_range; [exact B2|apply Mv; auto|intros x Hx; apply (Mq r); auto].
    + intros Hq. eapply compile_separate; [exact A2|exact B2| | |].
      * rewrite !(ren_all rho), <- moved_app. apply moved_nodup; assumption.
      * intros x Hx Y. rewrite !(ren_all rho), <- moved_app in Y. apply moved_In in Y. destruct Y as (i & Hi & Ei).
        assert (W : x = q' /\ rho (q_default q) = Some q') by (apply in_app_or in Hx; destruct Hx as [Hx|Hx]; [destruct (Mq l (or_introl eq_refl) x Hx)|destruct (Mq r (or_intror eq_refl) x Hx)]; tauto).
        destruct W as [-> W]. rewrite (J _ _ _ Ei W) in Hi. apply in_app_or in Hi. destruct Hi as [Hi|Hi]; [apply (Nqx l)|apply (Nqx r)]; auto.
      * rewrite !ren_quotients. destruct (Qz Hq) as [Z|Z]; rewrite Z; auto.
  - cbn [bind fst snd] in T. inv_bind T. destruct a as [x y]. injection T as -> -> <-. apply two_unchecked in H. unfold compile_two in H. rewrite A1 in H. cbn [bind] in H. rewrite B1 in H. cbn [bind] in H. injection H as <- <-.
    assert (Rx : forall x, (x = l \/ x = r) -> (forall i, In i (all_numbers x) -> i < dim + 1) /\ (forall i, In i (quotient_clocks x) -> i < dim + 1)).
    { intros x X. split; intros i Hi; [|assert (W : In i (opt_clock q)) by (apply Nq, in_or_app; destruct X as [-> | ->]; auto)]; apply Rg; apply in_or_app; destruct X as [-> | ->]; auto; right; apply in_or_app; auto. }
    split; [|split].
    + eapply ready_same; try eassumption. eapply compile_range; [exact A1| |]; apply (Rx l); auto.
    + eapply ready_same; try eassumption. eapply compile_range; [exact B1| |]; apply (Rx r); auto.
    + intros Hq. eapply compile_separate; [exact A1|exact B1| | |apply Qz, Hq]; [rewrite app_assoc in Nd; apply nodup_split in Nd; tauto|intros x Hx; apply Nq, Hx].
Qed.
(** What is plain in the components that are loaded stays so. *)
Variable acc : accuracy.
Hypothesis Pl : forall n c, load n = Some c -> plain acc c.
Lemma two_plain l n p r dim q : get_system_recipe load e (0, None) = Ok (l, (n, p)) -> get_system_recipe load f (n, p) = Ok (r, (dim, q)) ->
  (forall c, In c (components l) -> plain acc c) /\ (forall c, In c (components r) -> plain acc c).
Proof.
  intros E F. destruct (C29_numbering_two load e f l r n p dim q (fun n c H => proj1 (L n c H)) E F) as (I & I' & _).
  split; intros c Hc; [destruct (instance_component _ _ _ I _ Hc) as (m & c0 & Ln & Re)|destruct (instance_component _ _ _ I' _ Hc) as (m & c0 & Ln & Re)]; exact (plain_renumbered acc _ _ Re (Pl _ _ Ln)).
Qed.
Lemma two_mild s t dim' : (forall l st r dim q, get_system_recipe load e (0, None) = Ok (l, st) -> get_system_recipe load f st = Ok (r, (dim, q)) -> (Z.of_nat (dim + 1) < 4294967295)%Z) ->
  (reduce = true -> dropped_unmentioned_two (the_redundant ch) load e f) -> two_systems ch reduce load e f = Ok (s, t, dim') -> mild acc (dim' + 1) s /\ mild acc (dim' + 1) t.
Proof.
  intros Sm Un T. unfold two_systems in T. inv_bind T. destruct a as [[l' r'] d0]. cbn [fst snd] in *. inv_bind T. destruct a as [x y]. injection T as -> -> ->. rename H into Ers. rename H0 into C.
  assert (P : (forall c, In c (components l') -> plain acc c) /\ (forall c, In c (components r') -> plain acc c)).
  { unfold two_recipes in Ers. inv_bind Ers. destruct a as [l [n p]]. inv_bind Ers. destruct a as [r [dim q]]. rename H into E, H0 into F. destruct (two_plain l n p r dim q E F) as [P1 P2]. destruct reduce.
    - inv_bind Ers. destruct a as [[l0 o0] d0]. cbn [fst snd] in Ers. destruct o0 as [r0|]; [|discriminate]. cbn [unwrap bind] in Ers. injection Ers as -> -> ->.
      destruct (two_shape l n p r dim q l' r' dim' E F (Sm _ _ _ _ _ E F) (Un eq_refl) H) as (ul & ur & Nl & Nr & Il & Ir & Ul & Ur & -> & -> & ->).
      destruct (C29_numbering_two load e f l r n p dim q (fun n c H => proj1 (L n c H)) E F) as (I & I' & B & P & Q & N).
      destruct (two_once load e f l r n p dim q L E F) as [Hl Hr].
      split; intros c Hc; rewrite ren_components in Hc; apply in_map_iff in Hc; destruct Hc as (c0 & <- & Hc); apply plain_ren; auto.
      + apply (two_unread l r dim q ul ur Hl Hr P Q Il Ir l ul); auto.
      + apply (two_unread l r dim q ul ur Hl Hr P Q Il Ir r ur); auto.
    - injection Ers as <- <- _. auto. }
  destruct P as [P1 P2]. unfold compile_two in C. inv_bind C. destruct a as [s0 k]. inv_bind C. destruct a as [t0 k']. injection C as -> ->.
  split; [eapply (plain_mild _ _ _ _ l')|eapply (plain_mild _ _ _ _ r')]; eassumption.
Qed.
End Two.

Section One.
Variables (ch : choices) (reduce : bool) (load : string -> option component) (e : sysx).
Hypothesis Fc : fair ch.
Hypothesis L : loadable load.

Lemma one_shape r dim q s r' o dim' : get_system_recipe load e (0, None) = Ok (r, (dim, q)) -> compile unchecked unchecked dim r = Ok s -> (Z.of_nat (dim + 1) < 4294967295)%Z ->
  idle_unmentioned (the_redundant ch) dim [r] -> no_merges (the_redundant ch) dim r ->
  clock_reduce (the_least ch) (the_pre ch) (the_redundant ch) r None dim q = Ok (r', o, dim') ->
  exists us, NoDup us /\ incl us (all_numbers r) /\ unread_all (drop us) r /\ r' = ren_recipe (shrink r dim q us []) r /\ dim' = dim - total_removed (map RemoveClock us ++ map replace_group []).
Proof.
  intros E Cu Sm Ud Um Er.
  destruct (C29_numbering load e r dim q (fun n c H => proj1 (L n c H)) E) as (I & B & P & Q & N). pose proof (loaded_once load e r dim q (fun n c H => proj1 (L n c H)) E) as Hn.
  destruct (C29_compiled unchecked unchecked load e r dim q s L E Cu) as (Bu & Cc & Ck & Rd). change (match q with Some q0 => q0 | None => 0 end) with (q_default q) in Ck.
  unfold clock_reduce in Er. destruct (Nat.eqb_spec dim 0) as [Ez|Nz].
      - injection Er as <- _ <-. exists []. split; [constructor|]. split; [intros ? []|]. split; [intros c' Hc' n i Hi X; discriminate|]. split; [|cbn; lia].
        assert (Er : forall i, In i (all_numbers r) -> False). { intros i Hi. assert (X : In i (seq 1 dim)) by (apply (Permutation_in _ P), in_or_app; auto). subst dim. destruct X. }
        assert (Zq : quotient_clocks r = []). { destruct (quotient_clocks r) as [|x l]; [reflexivity|]. specialize (Q x (or_introl eq_refl)). subst q dim. apply Permutation_length in P. rewrite app_length in P. cbn in P. lia. }
        rewrite <- (ren_recipe_change (shrink r dim q [] []) (fun c => c) 0 r).
        + rewrite change_none; [symmetry; apply map_components_id; auto|rewrite quotients_map; exact Zq].
        + intros c Hc. symmetry. apply ren_comp_id. intros i Hi. destruct (Er i). eapply component_numbers; eauto.
        + rewrite Zq. intros ? [].
      - inv_bind Er. destruct a as [x y]. injection Er as -> _ ->. unfold clock_reduce_single in H. inv_bind H. apply one_unchecked in H0. rewrite Cu in H0. injection H0 as <-.
        inv_bind H. rename H0 into Fx. rename H into Er. assert (Fx' := Fx). unfold the_redundant, find_redundant_clocks in Fx.
        destruct (analysis_graph (dim + 1) (ch_minc ch (dim + 1)) (ch_ord ch) (ch_fuel ch) s) as [g| | |] eqn:G; try discriminate. cbn [bind] in Fx. injection Fx as <-.
        assert (Ge : equivalent_groups (ch_gord ch) g = []).
        { destruct (equivalent_groups (ch_gord ch) g) as [|grp gs] eqn:Eg; [reflexivity|]. exfalso. apply (Um s _ (lowest grp) (others grp) Cu Fx').
          unfold redundancies. rewrite Eg. apply in_or_app. right. left. reflexivity. }
        assert (Qg : forall grp q', In grp (equivalent_groups (ch_gord ch) g) -> q = Some q' -> lowest grp <> q' -> ~ In q' grp) by (intros grp q' Hg; rewrite Ge in Hg; destruct Hg).
        rewrite carried in Er. rewrite Ge in Er. change (carried_gs (q_default q) []) with (@nil (list nat)) in Er.
        set (us := carried_us (q_default q) (ch_cord ch (unused_clocks (dim + 1) g))) in *.
        destruct (us_facts dim q r (ch_cord ch) (ch_gord ch) s g (fair_cord _ Fc) P Ck Sm Qg) as (Nu & Iu & Xu). fold us in Nu, Iu, Xu.
        assert (U : unread_all (drop us) r).
        { intros c Hc n i Hi X. apply (Ud c n i); [cbn [flat_map]; rewrite app_nil_r; exact Hc|exact Hi|]. unfold drop in X. destruct (nin i us) eqn:Y; [|discriminate]. apply nin_In in Y. apply Xu in Y. destruct Y as [Y _].
          intros x sx xs [<-|[]] Cx Rx. rewrite Cu in Cx. injection Cx as <-. rewrite Fx' in Rx. injection Rx as <-.
          unfold redundancies. apply in_or_app. left. apply in_map. apply (Permutation_in _ (Permutation_sym (fair_cord _ Fc _))). exact Y. }
        destruct (whole_reduce r dim q us [] Hn P Q Nu Iu U) as (r1 & E1 & W).
        unfold minus_usize in Er. destruct (Nat.ltb_spec dim (total_removed (map RemoveClock us ++ map replace_group []))) as [Lt|_]; [discriminate|]. cbn [bind] in Er. rewrite E1 in Er. cbn [bind] in Er.
        injection Er as Er Ed. exists us. repeat (split; [assumption|]). split; [rewrite <- W; symmetry; exact Er|symmetry; exact Ed].
Qed.
Lemma one_ready d s s' dim' : names_one load e d s -> (Z.of_nat d < 4294967295)%Z ->
  (reduce = true -> dropped_unmentioned (the_redundant ch) load e /\ nothing_merged (the_redundant ch) load e) ->
  one_system ch reduce load e = Ok (s', dim') -> ready d s (dim' + 1) s'.
Proof.
  intros (r & dim & q & E & C & ->) Sm Un T.
  destruct (C29_numbering load e r dim q (fun n c H => proj1 (L n c H)) E) as (I & B & P & Q & N). pose proof (loaded_once load e r dim q (fun n c H => proj1 (L n c H)) E) as Hn.
  destruct (C29_compiled unchecked unchecked load e r dim q s L E C) as (Bu & Cc & Ck & Rd). change (match q with Some q0 => q0 | None => 0 end) with (q_default q) in Ck.
  assert (Cu := C). unfold compile in C. inv_bind C. destruct a as [s0 k1]. injection C as ->. rename H into C.
  assert (Nd : NoDup (all_numbers r ++ opt_clock q)) by (eapply Permutation_NoDup; [symmetry; exact P|apply seq_NoDup]).
  assert (Rg : forall i, In i (all_numbers r ++ opt_clock q) -> 1 <= i < dim + 1) by (intros i Hi; apply (Permutation_in _ P) in Hi; apply in_seq in Hi; lia).
  unfold one_system in T. rewrite E in T. cbn [bind] in T. destruct reduce.
  - inv_bind T. destruct a as [r' d0]. inv_bind T. injection T as -> ->. rename H0 into C2. inv_bind H. destruct a as [[l0 o0] d0]. cbn [fst snd] in H. injection H as -> ->. rename H0 into Er.
    apply one_unchecked in C2. unfold compile in C2. inv_bind C2. destruct a as [a2 k2]. injection C2 as ->. rename H into C2.
    destruct (Un eq_refl) as [Ud Um]. specialize (Ud r dim q E). specialize (Um r dim q E).
    destruct (one_shape r dim q s r' o0 dim' E Cu Sm Ud Um Er) as (us & Nu & Iu & U & -> & Hd).
    set (rho := shrink r dim q us []) in *.
    assert (Ng : NoDup (List.concat (@nil (list nat)))) by constructor.
    assert (Ig : incl (List.concat (@nil (list nat))) (all_numbers r)) by (intros ? []).
    assert (Ug : forall i, In i us -> ~ In i (List.concat (@nil (list nat)))) by (intros ? _ []).
    pose proof (shrink_renames r dim q us [] P Q Nu Iu Ng Ig Ug) as RN. rewrite <- Hd in RN. fold rho in RN.
    assert (J : injective rho) by (apply shrink_injective; auto).
    assert (Fit : forall c, In c (components r) -> fit_component (dim + 1) c).
    { intros c Hc. destruct (instance_component _ _ _ I _ Hc) as (m & c0 & Ln & Re). destruct (L _ _ Ln) as (_ & G & Na). split; [apply block_nodup, B, Hc|]. split; [|split; [eapply good_resets_re; eauto|eapply named_guards_re; eauto]].
      intros i Hi. apply Rg. apply in_or_app. left. eapply component_numbers; eauto. }
    assert (S : srel rho (dim + 1) (dim' + 1) s s').
    { eapply (system_ren rho (dim + 1) (dim' + 1) RN unchecked unchecked unchecked unchecked r); [| |exact C|exact C2].
      - intros c Hc. split; [apply Hn, Hc|]. split; [apply Fit, Hc|]. apply shrink_unread with (dim := dim); auto.
      - intros q' Hq'. eexists. apply shrink_q; auto. }
    assert (Sb : same_behaviour (dim + 1) s (dim' + 1) s').
    { apply (sim_same rho (dim + 1) (dim' + 1) (q_default q) s s' RN S Ck ltac:(lia) ltac:(lia) (or_intror J)).
      intros l a t El O i j u0 u Hi Hk F. pose proof (J _ _ _ Hi Hk) as ->. eauto. }
    set (q' := match q with Some _ => dim' | None => 0 end).
    assert (Nd1 : NoDup (all_numbers r)) by (apply nodup_split in Nd; tauto).
    assert (Nq : ~ In (q_default q) (all_numbers r)).
    { intros H. destruct q as [q0|]; cbn in *; [apply nodup_split in Nd; destruct Nd as (_ & _ & Z); apply (Z _ H); left; reflexivity|]. assert (1 <= 0 < dim + 1) by (apply Rg, in_or_app; auto). lia. }
    assert (Eq : rho (q_default q) = Some q' \/ (quotient_clocks r = [] /\ q' = 0)).
    { unfold q'. destruct q as [q0|]; [left; rewrite Hd; apply (shrink_q r dim (Some q0) us []); auto|right]. split; [|reflexivity]. destruct (quotient_clocks r) as [|x l]; [reflexivity|]. specialize (Q x (or_introl eq_refl)). discriminate. }
    assert (Qx : forall x, In x (quotient_clocks r) -> x = q_default q /\ q_default q <> 0).
    { intros x Hx. pose proof (Q _ Hx) as Z. subst q. cbn. split; [reflexivity|]. assert (1 <= x < dim + 1) by (apply Rg, in_or_app; right; left; reflexivity). lia. }
    destruct (ren_good rho (dim + 1) (dim' + 1) RN ltac:(lia) J unchecked unchecked (q_default q) q' r 0 s' k2 Fit Nd1 Nq Eq Qx C2) as (G1 & G2 & G3 & G4).
    eapply (ready_ren rho); try eassumption; try lia. eapply compile_range; [exact C2| |].
    + intros j Hj. rewrite (ren_all rho) in Hj. apply moved_In in Hj. destruct Hj as (i & Hi & Ei). assert (W : 1 <= i < dim + 1) by (apply Rg, in_or_app; auto). destruct (rn_range _ _ _ RN _ _ Ei ltac:(lia)). lia.
    + intros j Hj. rewrite ren_quotients in Hj. apply in_map_iff in Hj. destruct Hj as (i & <- & Hi). destruct (Qx i Hi) as [-> Nz]. destruct Eq as [Y|[Y _]]; [|rewrite Y in Hi; destruct Hi].
      unfold total. rewrite Y. destruct (rn_range _ _ _ RN _ _ Y Nz). lia.
  - cbn [bind] in T. inv_bind T. injection T as -> <-. apply one_unchecked in H. rewrite Cu in H. injection H as <-.
    eapply ready_same; try eassumption. eapply compile_range; [exact C| |]; intros i Hi; apply Rg, in_or_app; [auto|]. right. rewrite (Q _ Hi). left. reflexivity.
Qed.

Lemma names_saveable d x k s k' : compile_at unchecked unchecked d x k = Ok (s, k') -> saveable_names x -> (forall c, In c (components x) -> NoDup (map fst (d_clocks (c_decls c)))) ->
  built d s -> reads_ok s -> (exists q, clocks_ok d q s) -> (forall i, In i (all_numbers x) \/ In i (quotient_clocks x) <-> 0 < i < d) -> saveable d s /\ single_initials s.
Proof.
  intros C (P1 & P2 & P3) Nd B R K X. destruct (compile_parts _ _ _ _ _ _ _ C P1 P2) as [Pn Si]. split; [|exact Si]. constructor; try assumption.
  - intros i. rewrite (compile_sys_clocks _ _ _ _ _ _ _ C). apply X.
  - intros y Hy. destruct (compile_decls _ _ _ _ _ _ _ C y Hy) as [(c & Hc & ->)|(q & Hq & ->)]; [apply Nd, Hc|cbn; constructor; [intros []|constructor]].
  - assert (Nm : forall j y i, clock_of (ts_decls s) j y i -> clock_named x y).
    { intros j y i (m & Em & Hm). apply nth_error_In in Em. destruct (compile_decls _ _ _ _ _ _ _ C m Em) as [(c & Hc & ->)|(q & Hq & ->)]; [left; eauto|right].
      destruct Hm as [[= <- <-]|[]]. split; [intros Z; rewrite Z in Hq; destruct Hq|reflexivity]. }
    intros j y i j' y' i' m Hy Hy'. apply P3; eauto.
Qed.
Lemma one_saveable d s s' dim' : names_one load e d s -> (Z.of_nat d < 4294967295)%Z ->
  (reduce = true -> dropped_unmentioned (the_redundant ch) load e /\ nothing_merged (the_redundant ch) load e) ->
  (forall r st, get_system_recipe load e (0, None) = Ok (r, st) -> saveable_names r) ->
  one_system ch reduce load e = Ok (s', dim') -> saveable (dim' + 1) s' /\ single_initials s'.
Proof.
  intros Na Sm Un Sn T. pose proof (one_ready d s s' dim' Na Sm Un T) as Rd. destruct Na as (r & dim & q & E & Cu & ->). specialize (Sn _ _ E).
  destruct (C29_numbering load e r dim q (fun n c H => proj1 (L n c H)) E) as (I & B & P & Q & N). pose proof (loaded_once load e r dim q (fun n c H => proj1 (L n c H)) E) as Hn.
  assert (Full : forall i, In i (all_numbers r) \/ In i (quotient_clocks r) <-> 0 < i < dim + 1).
  { intros i. transitivity (In i (seq 1 dim)); [|rewrite in_seq; lia]. split.
    - intros [H|H]; apply (Permutation_in _ P), in_or_app; [auto|right]. rewrite (Q _ H). left. reflexivity.
    - intros H. apply (Permutation_in _ (Permutation_sym P)), in_app_or in H. destruct H as [H|H]; [auto|right]. destruct q as [q0|]; [|destruct H]. destruct H as [<-|[]].
      destruct (quotient_clocks r) as [|x m] eqn:Eq; [specialize (N eq_refl); discriminate|]. specialize (Q x (or_introl eq_refl)). injection Q as ->. left. reflexivity. }
  unfold one_system in T. rewrite E in T. cbn [bind] in T. destruct reduce.
  - inv_bind T. destruct a as [r' d0]. inv_bind T. injection T as -> ->. rename H0 into C2. inv_bind H. destruct a as [[l0 o0] d0]. cbn [fst snd] in H. injection H as -> ->. rename H0 into Er.
    apply one_unchecked in C2. unfold compile in C2. inv_bind C2. destruct a as [a2 k2]. injection C2 as ->. rename H into C2.
    destruct (Un eq_refl) as [Ud Um]. specialize (Ud r dim q E). specialize (Um r dim q E). assert (Er' := Er).
    destruct (one_shape r dim q s r' o0 dim' E Cu Sm Ud Um Er) as (us & Nu & Iu & U & Hr & Hd).
    eapply (names_saveable (dim' + 1) r' 0 s' k2 C2); [| |apply Rd|apply Rd|apply Rd|].
    + subst r'. destruct Sn as (P1 & P2 & P3). unfold saveable_names. assert (Cl : forall c, In c (components (ren_recipe (shrink r dim q us []) r)) -> exists c0, In c0 (components r) /\ c = ren_comp (shrink r dim q us []) c0).
      { intros c Hc. rewrite ren_components in Hc. apply in_map_iff in Hc. destruct Hc as (c0 & <- & Hc). eauto. }
      assert (Nm : forall y, clock_named (ren_recipe (shrink r dim q us []) r) y -> clock_named r y).
      { intros y [(c & i & Hc & Hi)|[Hq ->]]; [left|right].
        - destruct (Cl c Hc) as (c0 & Hc0 & ->). cbn [ren_comp c_decls d_clocks] in Hi. apply ren_clocks_in in Hi. destruct Hi as (i0 & Hi & _). eauto.
        - split; [|reflexivity]. intros Z. apply Hq. rewrite ren_quotients, Z. reflexivity. }
      split; [|split].
      * intros c l Hc Hl. destruct (Cl c Hc) as (c0 & Hc0 & ->). apply (P1 c0 l Hc0 Hl).
      * intros c l m Hc Hl Hm. destruct (Cl c Hc) as (c0 & Hc0 & ->). apply (P2 c0 l m Hc0 Hl Hm).
      * intros x y m Hx Hy. apply P3; auto.
    + intros c Hc. subst r'. rewrite ren_components in Hc. apply in_map_iff in Hc. destruct Hc as (c0 & <- & Hc). apply Hn in Hc. cbn [ren_comp c_decls d_clocks]. revert Hc.
      induction (d_clocks (c_decls c0)) as [|[x i] m IH]; cbn [map fst ren_clocks flat_map]; intros H; [constructor|]. inversion H as [|? ? N1 N2]; subst. fold (ren_clocks (shrink r dim q us []) m). cbn [snd].
      destruct (shrink r dim q us [] i); cbn [app map fst]; [constructor; [|auto]|auto]. intros Y. apply N1. apply in_map_iff in Y. destruct Y as ([x0 i0] & <- & Y). apply ren_clocks_in in Y. destruct Y as (j & Y & _).
      apply (in_map fst) in Y. exact Y.
    + destruct (Nat.eq_dec dim 0) as [Z|Z].
      * subst dim. cbn in Er. injection Er as <- _ <-. exact Full.
      * unfold clock_reduce in Er. rewrite (proj2 (Nat.eqb_neq _ _) Z) in Er. inv_bind Er. clear Er. unfold clock_reduce_single in H. inv_bind H. inv_bind H. clear H. apply one_unchecked in H0. rewrite Cu in H0. injection H0 as <-.
        apply reduce_unchecked in Er'. rewrite (reduce_at _ _ _ (fun d => find_redundant_clocks d (ch_minc ch (dim + 1)) (ch_ord ch) (ch_cord ch) (ch_gord ch) (ch_fuel ch))) in Er' by reflexivity.
        destruct (fair_minc ch Fc (dim + 1) ltac:(lia)) as [M Cf].
        destruct (C29_reduced_partial unchecked unchecked (ch_minc ch (dim + 1)) (ch_ord ch) (ch_cord ch) (ch_gord ch) (ch_fuel ch) load e r dim q s a1 L E M (fair_ord _ Fc) (fair_cord _ Fc) (fair_gord _ Fc) Sm Cu H1) as (r2 & d2 & E2 & _ & X1 & X2 & X3).
        { intros i others q' Hi. destruct (Um s a1 i others Cu H1 Hi). }
        rewrite E2 in Er'. injection Er' as -> _ ->. intros i. transitivity (1 <= i <= dim'); [|lia]. rewrite <- X1. split; (intros [H|H]; [auto|right]).
        -- destruct (X2 i H). auto.
        -- destruct H as [Hq ->]. destruct (quotient_clocks r') as [|x m] eqn:Eq; [|left; apply (X2 x); left; reflexivity].
           exfalso. apply Hq, N. subst r'. rewrite ren_quotients in Eq. destruct (quotient_clocks r); [reflexivity|discriminate].
  - cbn [bind] in T. inv_bind T. injection T as -> <-. apply one_unchecked in H. rewrite Cu in H. injection H as <-. unfold compile in Cu. inv_bind Cu. destruct a as [s0 k]. injection Cu as ->.
    eapply (names_saveable (dim + 1) r 0 s k H Sn); [exact Hn|apply Rd|apply Rd|apply Rd|exact Full].
Qed.
End One.

(** ** C50 *)

(** "Satisfied" for a refinement: the system the left expression names refines the one the right expression names, with
    or without clock reduction. *)
Theorem C50_refines_partial : forall ch reduce load e f d s t a,
  fair ch -> loadable load -> names_two load e f d s t -> (Z.of_nat d < 4294967295)%Z ->
  has_quotient e && has_quotient f = false -> (reduce = true -> dropped_unmentioned_two (the_redundant ch) load e f) ->
  no_gaps d t -> starts_together d s t ->
  run_query ch reduce load (QRefinement e f) = Ok a -> satisfied a = true -> refines d s t.
Proof.
  intros ch reduce load e f d s t a Fc L Na Sm Hq Un G St E Sa. cbn [run_query] in E. inv_bind E. destruct a0 as [[s' t'] dim']. inv_bind E. injection E as <-. destruct a0; try discriminate.
  destruct (two_ready ch reduce load e f Fc L d s t s' t' dim' Na Sm Un H) as (Rs & Rt & Sp). destruct (rd_clocks _ _ _ _ Rs) as [q1 K1]. destruct (rd_clocks _ _ _ _ Rt) as [q2 K2].
  apply (same_refines _ _ _ _ _ _ (rd_same _ _ _ _ Rs) (rd_same _ _ _ _ Rt)).
  eapply C13_success_sound_partial; [| | | |exact K1|exact K2| | | | | |exact H0]; try apply Rs; try apply Rt; auto; try apply (fair_pext _ Fc); try apply (fair_aord _ Fc).
  eapply same_starts; [apply Rs|apply Rt|exact St].
Qed.
Print Assumptions C50_refines_partial.

(** "Not satisfied" because a transition cannot be matched: it does not, if zones are not enlarged while pairs are explored, or
    not beyond the bounds of the clocks. *)
Theorem C50_not_refines_partial : forall acc ch reduce load e f d s t o,
  fair ch -> explores_pairs acc ch load -> loadable load -> names_two load e f d s t -> (Z.of_nat d < 4294967295)%Z ->
  has_quotient e && has_quotient f = false -> (reduce = true -> dropped_unmentioned_two (the_redundant ch) load e f) ->
  upper_invariants d s -> upper_invariants d t -> no_reserved s = true -> no_reserved t = true -> plain_divisors s = true -> plain_divisors t = true ->
  run_query ch reduce load (QRefinement e f) = Ok (ARefinement o) ->
  match o with
  | RCannotMatch _ _ | REmptyChild _ | REmptyInitial => ~ refines d s t
  | RCutsDelays _ _ => enters_inside d t -> ~ refines d s t
  | _ => True
  end.
Proof.
  intros acc ch reduce load e f d s t o Fc X L Na Sm Hq Un U1 U2 N1 N2 P1 P2 E. cbn [run_query] in E. inv_bind E. destruct a as [[s' t'] dim']. inv_bind E. injection E as <-. cbn [fst snd] in *.
  destruct (two_ready ch reduce load e f Fc L d s t s' t' dim' Na Sm Un H) as (Rs & Rt & Sp). destruct (rd_clocks _ _ _ _ Rs) as [q1 K1]. destruct (rd_clocks _ _ _ _ Rt) as [q2 K2].
  assert (Y : match a with RCannotMatch _ _ | REmptyChild _ | REmptyInitial => ~ refines (dim' + 1) s' t' | RCutsDelays _ _ => enters_inside (dim' + 1) t' -> ~ refines (dim' + 1) s' t' | _ => True end).
  { assert (A : pair_accurate acc (dim' + 1) (ch_pext ch (dim' + 1) s' t') s' t').
    { destruct (two_mild ch reduce load e f Fc L acc) with (s := s') (t := t') (dim' := dim') as [M1 M2]; auto.
      - intros n c Ln. destruct acc; [exact Logic.I|]. apply (proj2 X n c Ln).
      - intros l0 st0 r0 dim0 q0 El Er. destruct Na as (l1 & st1 & r1 & dim1 & p1 & El' & Er' & _ & ->). rewrite El in El'. injection El' as <- <-. rewrite Er in Er'. injection Er' as <- <- <-. exact Sm.
      - destruct acc; cbn in *; [apply X|]. split; [exact M1|]. split; [exact M2|]. apply X. }
    eapply C14_not_refines_partial; [| | | | | |exact K1|exact K2| | | | | | | | | | | |exact H0];
      [exact A|apply (fair_aord _ Fc)|apply (fair_ext _ Fc)|apply (fair_sord _ Fc)|apply Rs|apply Rt|apply Rs|apply Rt|apply Sp, Hq|apply Rs|apply Rt|apply Rs, U1|apply Rt, U2| | | |];
      rewrite ?(rd_reserved _ _ _ _ Rs), ?(rd_reserved _ _ _ _ Rt), ?(rd_divisors _ _ _ _ Rs), ?(rd_divisors _ _ _ _ Rt); assumption. }
  pose proof (same_refines _ _ _ _ _ _ (rd_same _ _ _ _ Rs) (rd_same _ _ _ _ Rt)) as I.
  destruct a; auto; try (rewrite I; exact Y). intros En. rewrite I. apply Y, Rt, En.
Qed.
Print Assumptions C50_not_refines_partial.

(** "Satisfied" for determinism: the system the expression names is deterministic. *)
Theorem C50_deterministic_partial : forall ch reduce load e d s a,
  fair ch -> loadable load -> names_one load e d s -> (Z.of_nat d < 4294967295)%Z ->
  (reduce = true -> dropped_unmentioned (the_redundant ch) load e /\ nothing_merged (the_redundant ch) load e) ->
  no_reserved s = true -> plain_divisors s = true ->
  run_query ch reduce load (QDeterminism e) = Ok a -> satisfied a = true -> deterministic d s.
Proof.
  intros ch reduce load e d s a Fc L Na Sm Un N P E Sa. cbn [run_query] in E. inv_bind E. destruct a0 as [s' dim']. inv_bind E. injection E as <-. destruct a0; [discriminate|].
  pose proof (one_ready ch reduce load e Fc L d s s' dim' Na Sm Un H) as R. destruct (rd_clocks _ _ _ _ R) as [q K]. eapply same_deterministic; [apply R|].
  eapply C16_determinism_sound_partial; [| | |exact K| | | |exact H0]; [apply (fair_ext _ Fc)|apply (fair_sord _ Fc)|apply R|apply R| |]; rewrite ?(rd_reserved _ _ _ _ R), ?(rd_divisors _ _ _ _ R); assumption.
Qed.
Print Assumptions C50_deterministic_partial.

(** "Satisfied" for consistency: the system is deterministic, and in a system that behaves the same every component with at
    most one output per location survives all inputs; without reduction that is the system itself. *)
Theorem C50_consistent_partial : forall ch reduce load e d s a,
  fair ch -> loadable load -> names_one load e d s -> (Z.of_nat d < 4294967295)%Z ->
  (reduce = true -> dropped_unmentioned (the_redundant ch) load e /\ nothing_merged (the_redundant ch) load e) ->
  run_query ch reduce load (QConsistency e) = Ok a -> satisfied a = true ->
  (no_reserved s = true -> plain_divisors s = true -> deterministic d s) /\
  exists d' s', same_behaviour d s d' s' /\ (reduce = false -> d' = d /\ s' = s) /\
    forall c, part_of c s' -> single_output d' c -> exists W, starts_in d' c W /\ survives d' c W.
Proof.
  intros ch reduce load e d s a Fc L Na Sm Un E Sa. cbn [run_query] in E. inv_bind E. destruct a0 as [s' dim']. inv_bind E. injection E as <-. destruct a0; [|discriminate].
  pose proof (one_ready ch reduce load e Fc L d s s' dim' Na Sm Un H) as R. destruct (rd_clocks _ _ _ _ R) as [q K].
  unfold the_pre, precheck in H0. inv_bind H0. destruct a; [discriminate|]. split.
  - intros N P. eapply same_deterministic; [apply R|].
    eapply C16_determinism_sound_partial; [| | |exact K| | | |exact H1]; [apply (fair_ext _ Fc)|apply (fair_sord _ Fc)|apply R|apply R| |]; rewrite ?(rd_reserved _ _ _ _ R), ?(rd_divisors _ _ _ _ R); assumption.
  - exists (dim' + 1), s'. split; [apply R|]. split.
    + intros ->. destruct Na as (r & dim & q0 & Er & Cu & ->). unfold one_system in H. rewrite Er in H. cbn [bind] in H. inv_bind H. injection H as -> <-. apply one_unchecked in H2. rewrite Cu in H2. injection H2 as <-. auto.
    + eapply C18_every_component_partial; [| | | |exact K|exact H0]; [apply (fair_ext _ Fc)|apply (fair_sord _ Fc)|apply (fair_once _ Fc)|apply R].
Qed.
Print Assumptions C50_consistent_partial.

(** The component a get-component query produces has the given name and, read back, behaves as the system the expression names. *)
Theorem C50_component_partial : forall ch reduce load e n d s a id,
  fair ch -> loadable load -> names_one load e d s -> (Z.of_nat d < 4294967295)%Z ->
  (reduce = true -> dropped_unmentioned (the_redundant ch) load e /\ nothing_merged (the_redundant ch) load e) ->
  (forall r st, get_system_recipe load e (0, None) = Ok (r, st) -> saveable_names r) -> io_disjoint s -> List.length (all_locations d s) <= ch_fuel ch ->
  run_query ch reduce load (QGetComponent e n) = Ok a ->
  exists c d' s' ls cc, a = AComponent c /\ (forall x, n = Some x -> c_name c = x) /\ (n = None -> c_name c = "Unnamed"%string) /\ same_behaviour d s d' s' /\ (reduce = false -> d' = d /\ s' = s) /\
    (forall l, In l ls <-> edge_reach d' s' l) /\ compile_with_actions d' c (ts_inputs s') (ts_outputs s') id = Ok cc /\ behaves_as d' s' ls (TSimple cc).
Proof.
  intros ch reduce load e n d s a id Fc L Na Sm Un Sn Io Fu E. cbn [run_query] in E. inv_bind E. destruct a0 as [s' dim']. inv_bind E. injection E as <-.
  pose proof (one_ready ch reduce load e Fc L d s s' dim' Na Sm Un H) as R. destruct (one_saveable ch reduce load e Fc L d s s' dim' Na Sm Un Sn H) as [Sv Si].
  destruct (fair_minc ch Fc (dim' + 1) ltac:(lia)) as [M _].
  destruct (C31_behaviour_partial (dim' + 1) (ch_minc ch (dim' + 1)) (ch_ord ch) (ch_kord ch) s' (ch_fuel ch) (result_name n) id Sv) as (ls & c & cc & Ec & En & Els & _ & Ecc & Bh);
    [|exact Si|exact M|apply (fair_ord _ Fc)|apply (fair_kord _ Fc)|rewrite (rd_count _ _ _ _ R); exact Fu|].
  - destruct (rd_same _ _ _ _ R) as (A & B & _). intros x Hx Hy. apply (Io x); [apply A, Hx|apply B, Hy].
  - rewrite Ec in H0. injection H0 as <-. exists c, (dim' + 1), s', ls, cc. split; [reflexivity|].
    split; [intros x ->; exact En|]. split; [intros ->; exact En|]. split; [apply R|]. split; [|auto].
    intros ->. destruct Na as (r & dim & q0 & Er & Cu & ->). unfold one_system in H. rewrite Er in H. cbn [bind] in H. inv_bind H. injection H as -> <-. apply one_unchecked in H0. rewrite Cu in H0. injection H0 as <-. auto.
Qed.
Print Assumptions C50_component_partial.

(** "Unreachable" without a start state: no reachable state of the named system, the special locations of quotients left
    out, satisfies the target; clocks are never reduced for reachability. *)
Theorem C50_unreachable_partial : forall ch reduce load e to r dim q s a,
  (forall d s z l f v, fsem d f v -> fsem d (ch_xext ch d s z l f) v) -> loadable load ->
  get_system_recipe load e (0, None) = Ok (r, (dim, q)) -> compile (the_least ch) (the_pre ch) dim r = Ok s -> distinct_names r -> fair_query r None to ->
  run_query ch reduce load (QReachability e None to) = Ok a -> satisfied a = false ->
  names_one load e (dim + 1) s /\ forall l v, reachable (dim + 1) s l v -> no_special (lt_id l) -> ~ holds r (lt_id l) v to.
Proof.
  intros ch reduce load e to r dim q s a X L Er Cs Dn Fq E Sa. split; [exists r, dim, q; split; [exact Er|]; split; [eapply one_unchecked; exact Cs|reflexivity]|].
  cbn [run_query] in E. inv_bind E. destruct a0 as [[[d s'] start] target]. inv_bind E. injection E as <-. destruct a0; [discriminate|].
  eapply (C40_unreachable_partial (the_least ch) (the_pre ch) (ch_fuel ch) (ch_xext ch) load e to r dim q s L Er Cs); [intros; apply X; assumption|exact Dn|exact Fq|].
  unfold run_reach. rewrite H. cbn [bind]. replace (dim + 1) with d; [exact H0|]. unfold reach_query in H. rewrite Er in H. cbn [bind fst] in H. rewrite Cs in H. cbn [bind] in H. inv_bind H. inv_bind H. injection H as <- _ _ _. reflexivity.
Qed.
Print Assumptions C50_unreachable_partial.
(** A path that is reported is a run of the named system from a state the query starts in to locations it asks for; if zones are exact, or
    enlarged only beyond the bounds of the system and of the target, to a state it asks for. *)
Theorem C50_path_partial : forall ch reduce load e from to r dim q s ds,
  loadable load -> get_system_recipe load e (0, None) = Ok (r, (dim, q)) -> compile (the_least ch) (the_pre ch) dim r = Ok s ->
  upper_invariants (dim + 1) s -> distinct_names r -> fair_query r from to ->
  run_query ch reduce load (QReachability e from to) = Ok (AReachability (Some ds)) ->
  names_one load e (dim + 1) s /\
  exists l v l' v', starts (dim + 1) s r from l v /\ inv_at (dim + 1) l v /\ path_run (dim + 1) s l v (map taken ds) l' v' /\
    (forall x, mentions to x -> at_loc x r (lt_id l')) /\
    (forall acc, searches acc ch load to -> holds r (lt_id l') v' to).
Proof.
  intros ch reduce load e from to r dim q s ds L Er Cs U Dn Fq E. split; [exists r, dim, q; split; [exact Er|]; split; [eapply one_unchecked; exact Cs|reflexivity]|].
  assert (A : forall acc, searches acc ch load to -> forall target, get_state (dim + 1) to r s = Ok target -> search_accurate acc (dim + 1) (ch_xext ch (dim + 1) s (s_zone target)) s (s_zone target)).
  { intros acc Sr target Et. destruct (C29_compiled _ _ load e r dim q s L Er Cs) as (_ & Cc & Ck & _). destruct (C29_numbering load e r dim q (fun n c H => proj1 (L n c H)) Er) as (In & _ & P & _).
    unfold searches in Sr. destruct acc; [exact (Sr _ _ _)|]. destruct Sr as (W & N & Lt). split; [|split; [|apply W; eapply C40_numbers; eauto]].
    - unfold compile in Cs. apply bind_ok in Cs. destruct Cs as ((s1 & k) & Ek & Es). injection Es as ->. refine (plain_mild Bounded _ _ _ r _ _ _ _ Ek). intros c Hc. destruct (instance_component _ _ _ In _ Hc) as (n & c0 & Ln & Re). exact (plain_renumbered Bounded _ _ Re (Lt _ _ Ln)).
    - refine (below_of _ _ _ Ck _). intros x Hx. rewrite Cc in Hx. pose proof (Permutation_in _ P (in_or_app _ _ _ (or_introl Hx))) as H'. apply in_seq in H'. lia. }
  enough (X : exists l v l' v', starts (dim + 1) s r from l v /\ inv_at (dim + 1) l v /\ path_run (dim + 1) s l v (map taken ds) l' v' /\ (forall x, mentions to x -> at_loc x r (lt_id l')) /\
    (forall acc, (forall target, get_state (dim + 1) to r s = Ok target -> search_accurate acc (dim + 1) (ch_xext ch (dim + 1) s (s_zone target)) s (s_zone target)) -> holds r (lt_id l') v' to)).
  { destruct X as (l & v & l' & v' & X1 & X2 & X3 & X4 & X5). exists l, v, l', v'. repeat (split; [assumption|]). intros acc Sr. exact (X5 acc (A acc Sr)). }
  eapply (C40_path_partial (the_least ch) (the_pre ch) (ch_fuel ch) (ch_xext ch) load e from to r dim q s ds L Er Cs U Dn Fq).
  cbn [run_query] in E. inv_bind E. destruct a as [[[d s'] start] target]. inv_bind E. injection E as ->.
  unfold run_reach. rewrite H. cbn [bind]. replace (dim + 1) with d; [exact H0|]. unfold reach_query in H. rewrite Er in H. cbn [bind fst] in H. rewrite Cs in H. cbn [bind] in H. inv_bind H. inv_bind H. injection H as <- _ _ _. reflexivity.
Qed.
Print Assumptions C50_path_partial.

(** A query that is answered names systems. *)
Theorem C50_named_two : forall ch reduce load e f a, run_query ch reduce load (QRefinement e f) = Ok a -> exists d s t, names_two load e f d s t.
Proof.
  intros ch reduce load e f a E. cbn [run_query] in E. inv_bind E. clear E. unfold two_systems, two_recipes in H. inv_bind H. destruct a1 as [[l' r'] d']. inv_bind H0. destruct a1 as [l st]. inv_bind H0. destruct a1 as [r [dim q]].
  assert (X : exists s t, compile_two unchecked unchecked dim l r = Ok (s, t)); [|destruct X as (s & t & X); exists (dim + 1), s, t, l, st, r, dim, q; auto].
  inv_bind H. destruct a1 as [s2 t2]. cbn [fst snd] in *. apply two_unchecked in H3. destruct reduce; [|injection H0 as <- <- <-; eauto].
  inv_bind H0. destruct a1 as [[l1 o1] d1]. unfold clock_reduce in H4. destruct (Nat.eqb_spec dim 0) as [Z|Z].
  - injection H4 as <- <- <-. cbn in H0. injection H0 as <- <- <-. eauto.
  - inv_bind H4. unfold clock_reduce_two in H5. inv_bind H5. inv_bind H5. inv_bind H5. apply one_unchecked in H6, H8. unfold compile in H6, H8. inv_bind H6. destruct a5 as [s0 k0]. inv_bind H8. destruct a5 as [t0 k1].
    destruct (compile_index _ _ _ _ _ H10 k0) as (t1 & k2 & Et & _). exists s0, t1. unfold compile_two. rewrite H9. cbn [bind]. rewrite Et. reflexivity.
Qed.
Print Assumptions C50_named_two.
Theorem C50_named_one : forall ch reduce load e q a, In q [QConsistency e; QDeterminism e; QGetComponent e None; QPrune e None] \/ (exists n, q = QGetComponent e (Some n) \/ q = QPrune e (Some n)) \/ (exists from to, q = QReachability e from to) ->
  run_query ch reduce load q = Ok a -> exists d s, names_one load e d s.
Proof.
  intros ch reduce load e q a Hq E.
  assert (One : forall p, one_system ch reduce load e = Ok p -> exists d s, names_one load e d s).
  { intros p T. unfold one_system in T. inv_bind T. destruct a0 as [r [dim q0]]. assert (X : exists s, compile unchecked unchecked dim r = Ok s); [|destruct X as [s X]; exists (dim + 1), s, r, dim, q0; auto].
    inv_bind T. destruct a0 as [r' d']. inv_bind T. apply one_unchecked in H1. destruct reduce; [|injection H0 as <- <-; eauto]. inv_bind H0. destruct a1 as [[l1 o1] d1]. unfold clock_reduce in H2. destruct (Nat.eqb_spec dim 0) as [Z|Z].
    - injection H2 as <- <- <-. injection H0 as <- <-. eauto.
    - inv_bind H2. unfold clock_reduce_single in H3. inv_bind H3. apply one_unchecked in H4. eauto. }
  assert (Run : forall p k, q = k -> (do x <- one_system ch reduce load e; p x) = Ok a -> exists d s, names_one load e d s) by (intros p k _ F; inv_bind F; eauto).
  destruct Hq as [Hq|[(n & [-> | ->])|(from & to & ->)]]; cbn [run_query] in E.
  - destruct Hq as [<-|[<-|[<-|[<-|[]]]]]; cbn [run_query] in E; inv_bind E; eauto.
  - inv_bind E; eauto.
  - inv_bind E; eauto.
  - inv_bind E. unfold reach_query in H. inv_bind H. destruct a1 as [r [dim q0]]. inv_bind H. apply one_unchecked in H1. exists (dim + 1), a1, r, dim, q0. cbn [fst] in *. auto.
Qed.
Print Assumptions C50_named_one.

(** Queries the program is not set up for are rejected, whatever the systems. *)
Theorem C50_rejected : forall ch reduce load e f, run_query ch reduce load (QImplementation e) = Err /\ run_query ch reduce load (QSpecification e) = Err /\ run_query ch reduce load (QBisim e f) = Err.
Proof. auto. Qed.
Print Assumptions C50_rejected.

(** ** Several queries on one command line *)
Lemma recipe_ext load load' e : (forall n, load n = load' n) -> forall st, get_system_recipe load e st = get_system_recipe load' e st.
Proof.
  intros X. induction e as [n id|l IHl r IHr|l IHl r IHr|l IHl r IHr]; intros st; cbn [get_system_recipe]; [rewrite X; reflexivity| | |];
    rewrite IHl; destruct (get_system_recipe load' l st) as [[a b]| | |]; cbn [bind]; try reflexivity; rewrite IHr; reflexivity.
Qed.
Lemma run_query_ext ch reduce load load' q : (forall n, load n = load' n) -> run_query ch reduce load q = run_query ch reduce load' q.
Proof.
  intros X.
  assert (One : forall e, one_system ch reduce load e = one_system ch reduce load' e) by (intros e; unfold one_system; rewrite (recipe_ext load load' e X); reflexivity).
  assert (Two : forall e f, two_systems ch reduce load e f = two_systems ch reduce load' e f).
  { intros e f. unfold two_systems, two_recipes. rewrite (recipe_ext load load' e X). destruct (get_system_recipe load' e (0, None)) as [[a b]| | |]; cbn [bind]; try reflexivity. rewrite (recipe_ext load load' f X). reflexivity. }
  assert (Reach : forall e from to, reach_query (the_least ch) (the_pre ch) load e from to = reach_query (the_least ch) (the_pre ch) load' e from to).
  { intros e from to. unfold reach_query. rewrite (recipe_ext load load' e X). reflexivity. }
  destruct q; cbn [run_query]; rewrite ?One, ?Two, ?Reach; reflexivity.
Qed.
Lemma after_visible k load a load' : after_answer k load a = Ok load' -> forall n, load' n = visible k load [a] n.
Proof.
  intros E n. destruct a as [o|o|b|o|c]; cbn [after_answer] in E; try (injection E as <-; unfold visible; cbn; destruct k; reflexivity).
  destruct k; cbn [save_component] in E; [|discriminate|injection E as <-; unfold visible; reflexivity].
  injection E as <-. unfold visible. cbn [rev app find saved_under]. rewrite String.eqb_sym. destruct (String.eqb (c_name c) n); reflexivity.
Qed.
Lemma find_snoc {A} (p : A -> bool) l x : find p (l ++ [x]) = match find p l with Some y => Some y | None => find p [x] end.
Proof. induction l as [|y l IH]; [reflexivity|]. cbn [app find] in *. destruct (p y); [reflexivity|exact IH]. Qed.
Lemma visible_cons k load load' a before n : (forall m, load' m = visible k load [a] m) -> visible k load' before n = visible k load (a :: before) n.
Proof.
  intros X. unfold visible in *. cbn [rev] in *. rewrite find_snoc. cbn [app] in X. destruct k; try apply X.
  destruct (find (saved_under n) (rev before)) as [b|] eqn:F; [|apply X].
  apply find_some in F. destruct F as [_ F]. destruct b; try discriminate. reflexivity.
Qed.

Lemma Forall2_weaken {A B} (P Q : A -> B -> Prop) l l' : (forall a b, In a l -> In b l' -> P a b -> Q a b) -> Forall2 P l l' -> Forall2 Q l l'.
Proof. intros H F. induction F; constructor; [apply H; try (left; reflexivity); assumption|]. apply IHF. intros a b I J. apply H; right; assumption. Qed.

(** C50: in a run over several queries the i-th answer is the answer to the i-th query on its own, over the project together
    with the components that earlier queries saved; a run over an XML project never saves a component. *)
Theorem C50_batch : forall chs reduce k load qs as_,
  run_queries chs reduce k load 0 qs = Ok as_ <->
  Forall2 (fun (p : nat * query) a => run_query (chs (fst p)) reduce (visible k load (firstn (fst p) as_)) (snd p) = Ok a) (combine (seq 0 (List.length qs)) qs) as_ /\
  (k = XmlLoader -> forall c, ~ In (AComponent c) as_).
Proof.
  assert (G : forall chs reduce k qs i load as_,
    run_queries chs reduce k load i qs = Ok as_ <->
    Forall2 (fun (p : nat * query) a => run_query (chs (i + fst p)) reduce (visible k load (firstn (fst p) as_)) (snd p) = Ok a) (combine (seq 0 (List.length qs)) qs) as_ /\
    (k = XmlLoader -> forall c, ~ In (AComponent c) as_)).
  { assert (Sh : forall (P : nat * query -> Exec.answer -> Prop) qs n as_,
      Forall2 P (combine (seq (S n) (List.length qs)) qs) as_ <-> Forall2 (fun p a => P (S (fst p), snd p) a) (combine (seq n (List.length qs)) qs) as_).
    { intros P. induction qs as [|q qs IH]; intros n as_; [split; intros F; inversion F; constructor|].
      cbn [List.length seq combine]. split; intros F; inversion F; subst; constructor; try assumption; apply IH; assumption. }
    intros chs reduce k. induction qs as [|q qs IH]; intros i load as_; cbn [run_queries List.length seq combine].
    - split; [intros E; injection E as <-; split; [constructor|intros _ c []]|intros [F _]; inversion F; reflexivity].
    - split.
      + intros E. inv_bind E. inv_bind E. inv_bind E. injection E as <-. rename a into a', a0 into load', a1 into rest.
        assert (Q : run_query (chs i) reduce load q = Ok a') by (destruct (run_query (chs i) reduce load q); (discriminate || exact H)).
        pose proof (after_visible _ _ _ _ H0) as V. apply IH in H1. destruct H1 as [F N]. split.
        * constructor; [cbn [fst snd firstn]; rewrite Nat.add_0_r; rewrite <- Q; apply run_query_ext; intros n; unfold visible; destruct k; reflexivity|].
          apply Sh. refine (Forall2_weaken _ _ _ _ _ F). intros p b _ _ R. cbn [fst snd firstn]. rewrite <- R, Nat.add_succ_r. cbn [Nat.add].
          apply run_query_ext. intros n. symmetry. apply visible_cons. exact V.
        * intros K c [->|J]; [subst k; discriminate|exact (N K c J)].
      + intros [F N]. inversion F as [|p a' ps rest Q R]; subst. cbn [fst snd firstn] in Q. rewrite Nat.add_0_r in Q.
        rewrite (run_query_ext _ _ (visible k load []) load) in Q by (intros n; unfold visible; destruct k; reflexivity). rewrite Q. cbn [bind].
        assert (L : exists load', after_answer k load a' = Ok load').
        { destruct a'; cbn [after_answer]; eauto. destruct k; cbn [save_component]; eauto. exfalso. apply (N eq_refl c). left. reflexivity. }
        destruct L as [load' L]. rewrite L. cbn [bind]. pose proof (after_visible _ _ _ _ L) as V.
        replace (run_queries chs reduce k load' (S i) qs) with (Ok rest); [reflexivity|]. symmetry. apply IH. split; [|intros K c J; apply (N K c); right; exact J].
        apply Sh in R. refine (Forall2_weaken _ _ _ _ _ R). intros p b _ _ S. cbn [fst snd firstn] in S. rewrite <- S, Nat.add_succ_r. cbn [Nat.add].
        apply run_query_ext. intros n. apply visible_cons. exact V. }
  intros. apply (G chs reduce k qs 0 load as_).
Qed.
Print Assumptions C50_batch.

(** Queries that save nothing do not influence each other, and nor do the queries sent to a server. *)
Definition saves (q : query) : bool := match q with QGetComponent _ _ | QPrune _ _ => true | _ => false end.
Theorem C50_batch_independent : forall chs reduce k load qs as_, k = ServerLoader \/ (forall q, In q qs -> saves q = false) ->
  (run_queries chs reduce k load 0 qs = Ok as_ <->
   Forall2 (fun (p : nat * query) a => run_query (chs (fst p)) reduce load (snd p) = Ok a) (combine (seq 0 (List.length qs)) qs) as_).
Proof.
  intros chs reduce k load qs as_ H. rewrite C50_batch.
  assert (NC : forall load' i q c, saves q = false -> run_query (chs i) reduce load' q <> Ok (AComponent c)).
  { intros load' i q c Sv E. destruct q; cbn [run_query saves] in *; try discriminate; inv_bind E.
    - destruct a as [p dm]. inv_bind E. discriminate.
    - destruct a as [p dm]. inv_bind E. discriminate.
    - destruct a as [p tg]. destruct p as [[d' s'] st]. inv_bind E. discriminate.
    - destruct a as [p dm]. inv_bind E. discriminate. }
  assert (InR : forall (P : nat * query -> Exec.answer -> Prop) ps as_ a, Forall2 P ps as_ -> In a as_ -> exists p, In p ps /\ P p a).
  { intros P ps bs a F. induction F as [|p b ps' bs' Pb F IH]; intros J; [destruct J|]. destruct J as [->|J]; [exists p; split; [left; reflexivity|exact Pb]|].
    destruct (IH J) as (p' & I' & P'). exists p'. split; [right; exact I'|exact P']. }
  assert (Vis : forall before, (k = ServerLoader \/ forall c, ~ In (AComponent c) before) -> forall n, visible k load before n = load n).
  { intros before [->|N] n; unfold visible; [reflexivity|]. destruct k; try reflexivity. destruct (find (saved_under n) (rev before)) as [b|] eqn:F; [|reflexivity].
    apply find_some in F. destruct F as [J F]. destruct b; try discriminate. exfalso. apply (N c). apply in_rev. exact J. }
  assert (Fst : forall n (l : list Exec.answer) a, In a (firstn n l) -> In a l) by (intros n l a J; rewrite <- (firstn_skipn n l); apply in_or_app; left; exact J).
  assert (Cmb : forall p : nat * query, In p (combine (seq 0 (List.length qs)) qs) -> In (snd p) qs) by (intros [n q] J; exact (in_combine_r _ _ _ _ J)).
  split.
  - intros [F N]. refine (Forall2_weaken _ _ _ _ _ F). intros p a J Ja E. rewrite <- E. symmetry. apply run_query_ext. apply Vis. destruct H as [->|H]; [left; reflexivity|right].
    intros c Jc. destruct (InR _ _ _ _ F (Fst _ _ _ Jc)) as (p' & J' & E'). exact (NC _ _ _ _ (H _ (Cmb _ J')) E').
  - intros F. assert (N : k = ServerLoader \/ forall c, ~ In (AComponent c) as_).
    { destruct H as [->|H]; [left; reflexivity|right]. intros c Jc. destruct (InR _ _ _ _ F Jc) as (p' & J' & E'). exact (NC _ _ _ _ (H _ (Cmb _ J')) E'). }
    split.
    + refine (Forall2_weaken _ _ _ _ _ F). intros p a J Ja E. rewrite <- E. apply run_query_ext. apply Vis. destruct N as [->|N]; [left; reflexivity|right]. intros c Jc. exact (N c (Fst _ _ _ Jc)).
    + intros -> c Jc. destruct N as [N|N]; [discriminate|exact (N c Jc)].
Qed.
Print Assumptions C50_batch_independent.

(** ** Example: L and K of Props/Refinement.v as a project holds them, each with a clock that is set and never read. *)
Definition plain_choices (fuel : nat) : choices :=
  mkChoices fuel (fun _ => no_ext) (fun _ _ _ => no_pext) (fun _ _ _ _ f => f) min_own (fun _ f _ => f) once_ord same_aord (fun l => l) (fun l => l) (fun l => l) (fun l => l).
Definition file_l : component :=
  mkComp "L" (mkDecls [("x", 1%nat); ("u", 2%nat)] [])
    [mkL "L0" None Initial "NORMAL"; mkL "L1" (Some (BLessEQ (AVar "x") (AInt 4))) Normal "NORMAL"]
    [mkE "E1" "L0" "L1" SInput None (Some [("x", AInt 0)]) "i"; mkE "E2" "L1" "L0" SOutput (Some (BGreatEQ (AVar "x") (AInt 3))) (Some [("u", AInt 7)]) "o";
     mkE "E3" "L1" "L1" SInput None None "i"] None.
Definition file_k : component :=
  mkComp "K" (mkDecls [("w", 1%nat); ("y", 2%nat)] [])
    [mkL "K0" None Initial "NORMAL"; mkL "K1" (Some (BLessEQ (AVar "y") (AInt 5))) Normal "NORMAL"]
    [mkE "E1" "K0" "K1" SInput None (Some [("y", AInt 0)]) "i"; mkE "E2" "K1" "K0" SOutput (Some (BGreatEQ (AVar "y") (AInt 2))) (Some [("w", AInt 1)]) "o";
     mkE "E3" "K1" "K1" SInput None None "i"] None.
Definition lk_load (n : string) : option component := if String.eqb n "L" then Some file_l else if String.eqb n "K" then Some file_k else None.
Lemma plain_fair fuel : fair (plain_choices fuel).
Proof.
  constructor; cbn [ch_ext ch_pext ch_sord ch_aord ch_minc ch_ord ch_cord ch_gord ch_kord plain_choices]; unfold no_ext, no_pext, same_aord, same_elements, reorders; auto; try reflexivity.
  - intros p l a. unfold once_ord. apply nodup_In.
  - intros p l. apply NoDup_nodup.
  - intros d Hd. split; [apply min_own_describes|apply min_own_confined]; exact Hd.
Qed.
(** The same choices, with zones enlarged up to the bounds of the clocks. *)
Definition wide_choices (fuel : nat) : choices :=
  mkChoices fuel max_ext max_pext (fun d s z => max_xext d s (fed_bounds d z)) min_own (fun _ f _ => f) once_ord same_aord (fun l => l) (fun l => l) (fun l => l) (fun l => l).
Lemma wide_fair fuel : fair (wide_choices fuel).
Proof.
  destruct (plain_fair fuel) as [F1 F2 F3 F4 F5 F6 F7 F8 F9 F10]. constructor; try assumption; cbn [ch_ext ch_pext wide_choices].
  - intros d s l f v. apply max_ext_more.
  - intros d s t l m f v. apply max_pext_more.
Qed.
Lemma plain_explores fuel load : explores Exact (plain_choices fuel) load.
Proof. split; cbn; unfold no_ext, no_pext; intros; reflexivity. Qed.
Lemma wide_explores fuel load : (forall n c, load n = Some c -> literal_component c) -> explores Bounded (wide_choices fuel) load.
Proof. intros H. split; [split; [intros d s t; apply max_pair_within|exact H]|intros d s; apply max_within]. Qed.
Lemma lk_literal n c : lk_load n = Some c -> literal_component c.
Proof. unfold lk_load. destruct (String.eqb n "L"); [|destruct (String.eqb n "K"); [|discriminate]]; intros [= <-]; apply literal_check; vm_compute; reflexivity. Qed.
Lemma lk_loadable : loadable lk_load.
Proof.
  intros n c. unfold lk_load. destruct (String.eqb n "L"); [|destruct (String.eqb n "K"); [|discriminate]]; intros [= <-].
  all: split; [split; [repeat constructor; cbn; intuition discriminate|split; [repeat constructor; cbn; intuition discriminate|intros x i [[= <- <-]|[[= <- <-]|[]]]; cbn; lia]]|].
  all: split; [intros e us [<-|[<-|[<-|[]]]]; cbn; intros [= <-]; (split; [intros x k [[= <- <-]|[]]; lia|intros x a b [[= <- <-]|[]] [[= <-]|[]]; reflexivity])|].
  all: split; [intros l g [<-|[<-|[]]]; cbn; intros [= <-]; reflexivity|intros e g [<-|[<-|[<-|[]]]]; cbn; intros [= <-]; reflexivity].
Qed.
Definition lk_l : recipe := Eval vm_compute in get no_recipe (rmap fst (get_system_recipe lk_load (XComp "L" None) (0, None))).
Definition lk_k : recipe := Eval vm_compute in get no_recipe (rmap fst (get_system_recipe lk_load (XComp "K" None) (2, None))).
Definition lk_two : ts * ts := Eval vm_compute in get (ts_m, ts_m) (compile_two unchecked unchecked 4 lk_l lk_k).
Definition lk_alone : ts := Eval vm_compute in get ts_m (compile unchecked unchecked 4 lk_k).
Definition lk_one : ts := Eval vm_compute in get ts_m (compile unchecked unchecked 2 lk_l).
Example C50_nonvacuous :
  let ch := plain_choices 30 in let l := XComp "L" None in let k := XComp "K" None in
  fair ch /\ loadable lk_load /\ names_two lk_load l k 5 (fst lk_two) (snd lk_two) /\ dropped_unmentioned_two (the_redundant ch) lk_load l k /\
  no_gaps 5 (snd lk_two) /\ starts_together 5 (fst lk_two) (snd lk_two) /\
  run_query ch true lk_load (QRefinement l k) = Ok (ARefinement RSuccess) /\ refines 5 (fst lk_two) (snd lk_two) /\
  names_one lk_load l 3 lk_one /\ dropped_unmentioned (the_redundant ch) lk_load l /\ nothing_merged (the_redundant ch) lk_load l /\
  the_redundant ch 3 lk_one = Ok [RemoveClock 2] /\
  run_query ch true lk_load (QDeterminism l) = Ok (ADeterminism None) /\ deterministic 3 lk_one /\
  run_query ch true lk_load (QConsistency l) = Ok (AConsistency true) /\
  saveable_names lk_l /\ io_disjoint lk_one.
Proof.
  cbv zeta. pose proof (plain_fair 30) as Fc. pose proof lk_loadable as L. split; [exact Fc|]. split; [exact L|].
  assert (N2 : names_two lk_load (XComp "L" None) (XComp "K" None) 5 (fst lk_two) (snd lk_two)).
  { exists lk_l, (2, None), lk_k, 4, None. repeat split; vm_compute; reflexivity. }
  assert (U2 : dropped_unmentioned_two (the_redundant (plain_choices 30)) lk_load (XComp "L" None) (XComp "K" None)).
  { intros l st r dim q El Er. vm_compute in El. injection El as <- <-. vm_compute in Er. injection Er as <- <- <-.
    intros c n i Hc Hn Rm.
    assert (Il : In (RemoveClock i) [RemoveClock 2; RemoveClock 3; RemoveClock 4]) by (apply (Rm lk_l (fst lk_two)); [left; reflexivity|vm_compute; reflexivity|vm_compute; reflexivity]).
    assert (Ik : In (RemoveClock i) [RemoveClock 1; RemoveClock 2; RemoveClock 3]) by (apply (Rm lk_k lk_alone); [right; left; reflexivity|vm_compute; reflexivity|vm_compute; reflexivity]).
    assert (Z : i = 2 \/ i = 3) by (cbn in Il, Ik; intuition congruence).
    vm_compute in Hc. destruct Hc as [<-|[<-|[]]]; cbn in Hn; destruct Hn as [[= <- <-]|[[= <- <-]|[]]]; try (exfalso; lia).
    all: split; [intros l g [<-|[<-|[]]]; cbn; intros [= <-]; reflexivity|intros e g [<-|[<-|[<-|[]]]]; cbn; intros [= <-]; reflexivity]. }
  assert (G : no_gaps 5 (snd lk_two)) by (apply no_gaps_upper', upper_check; vm_compute; reflexivity).
  assert (St : starts_together 5 (fst lk_two) (snd lk_two)) by (apply starts_free; intros l E; vm_compute in E; injection E as <-; [apply no_inv_zero|]; reflexivity).
  assert (R : run_query (plain_choices 30) true lk_load (QRefinement (XComp "L" None) (XComp "K" None)) = Ok (ARefinement RSuccess)) by (vm_compute; reflexivity).
  split; [exact N2|]. split; [exact U2|]. split; [exact G|]. split; [exact St|]. split; [exact R|].
  split; [exact (C50_refines_partial _ _ _ _ _ _ _ _ _ Fc L N2 eq_refl eq_refl (fun _ => U2) G St R eq_refl)|].
  assert (N1 : names_one lk_load (XComp "L" None) 3 lk_one) by (exists lk_l, 2, None; repeat split; vm_compute; reflexivity).
  assert (Rd : the_redundant (plain_choices 30) 3 lk_one = Ok [RemoveClock 2]) by (vm_compute; reflexivity).
  assert (Cp : compile unchecked unchecked 2 lk_l = Ok lk_one) by (vm_compute; reflexivity).
  assert (U1 : dropped_unmentioned (the_redundant (plain_choices 30)) lk_load (XComp "L" None)).
  { intros r dim q E. vm_compute in E. injection E as <- <- <-. intros c n i Hc Hn Rm. pose proof (Rm lk_l lk_one _ (or_introl eq_refl) Cp Rd) as [[= <-]|[]].
    vm_compute in Hc. destruct Hc as [<-|[]]. cbn in Hn. destruct Hn as [[= <-]|[[= <-]|[]]].
    all: split; [intros l g [<-|[<-|[]]]; cbn; intros [= <-]; reflexivity|intros e g [<-|[<-|[<-|[]]]]; cbn; intros [= <-]; reflexivity]. }
  assert (M1 : nothing_merged (the_redundant (plain_choices 30)) lk_load (XComp "L" None)).
  { intros r dim q E. vm_compute in E. injection E as <- <- <-. intros s xs i o Cs Rs H. change (compile unchecked unchecked 2 lk_l = Ok s) in Cs. rewrite Cp in Cs. injection Cs as <-.
    change (the_redundant (plain_choices 30) 3 lk_one = Ok xs) in Rs. rewrite Rd in Rs. injection Rs as <-. destruct H as [H|[]]; discriminate. }
  assert (Dt : run_query (plain_choices 30) true lk_load (QDeterminism (XComp "L" None)) = Ok (ADeterminism None)) by (vm_compute; reflexivity).
  split; [exact N1|]. split; [exact U1|]. split; [exact M1|]. split; [exact Rd|]. split; [exact Dt|].
  split; [exact (C50_deterministic_partial _ _ _ _ _ _ _ Fc L N1 eq_refl (fun _ => conj U1 M1) eq_refl eq_refl Dt eq_refl)|].
  split; [vm_compute; reflexivity|]. split.
  - split; [intros c l [<-|[]] [<-|[<-|[]]]; apply plain_by; reflexivity|]. split.
    + intros c l m [<-|[]] [<-|[<-|[]]] [<-|[<-|[]]]; cbn; congruence.
    + assert (Cn : forall x, clock_named lk_l x -> x = "x" \/ x = "u") by (intros x [(c & i & [<-|[]] & [[= <- _]|[[= <- _]|[]]])|[C _]]; [auto|auto|contradiction C; reflexivity]).
      intros x y n Hx Hy [Dn Dg] E. destruct n as [|ch n]; [contradiction Dn; reflexivity|].
      destruct (Cn x Hx) as [-> | ->], (Cn y Hy) as [-> | ->]; cbn in E; discriminate.
  - intros x Hx Hy. cbn in Hx, Hy. intuition congruence.
Qed.

(** A component that may send o earlier than another does not refine it.  The answer is the same if zones are enlarged. *)
Definition sender (n x : string) (k : Z) : component :=
  mkComp n (mkDecls [(x, 1%nat)] []) [mkL "L0" None Initial "NORMAL"; mkL "L1" (Some (BLessEQ (AVar x) (AInt 4))) Normal "NORMAL"]
    [mkE "E1" "L0" "L1" SInput None (Some [(x, AInt 0)]) "i"; mkE "E2" "L1" "L0" SOutput (Some (BGreatEQ (AVar x) (AInt k))) None "o"; mkE "E3" "L1" "L1" SInput None None "i"] None.
Definition send_load (n : string) : option component := if String.eqb n "Late" then Some (sender "Late" "x" 3) else if String.eqb n "Early" then Some (sender "Early" "y" 2) else None.
Definition send_e : recipe := Eval vm_compute in get no_recipe (rmap fst (get_system_recipe send_load (XComp "Early" None) (0, None))).
Definition send_l : recipe := Eval vm_compute in get no_recipe (rmap fst (get_system_recipe send_load (XComp "Late" None) (1, None))).
Definition send_two : ts * ts := Eval vm_compute in get (ts_m, ts_m) (compile_two unchecked unchecked 2 send_e send_l).
Definition send_answer (ch : choices) : Exec.answer := get (AConsistency true) (run_query ch false send_load (QRefinement (XComp "Early" None) (XComp "Late" None))).
Definition send_plain := Eval vm_compute in send_answer (plain_choices 30).
Definition send_wide := Eval vm_compute in send_answer (wide_choices 30).
Lemma send_loadable : loadable send_load.
Proof.
  intros n c. unfold send_load. destruct (String.eqb n "Late"); [|destruct (String.eqb n "Early"); [|discriminate]]; intros [= <-].
  all: split; [split; [repeat constructor; cbn; intuition discriminate|split; [repeat constructor; cbn; intuition discriminate|intros x i [[= <- <-]|[]]; cbn; lia]]|].
  all: split; [intros e us [<-|[<-|[<-|[]]]]; cbn; intros [= <-]; (split; [intros x k [[= <- <-]|[]]; lia|intros x a b [[= <- <-]|[]] [[= <-]|[]]; reflexivity])|].
  all: split; [intros l g [<-|[<-|[]]]; cbn; intros [= <-]; reflexivity|intros e g [<-|[<-|[<-|[]]]]; cbn; intros [= <-]; reflexivity].
Qed.
Lemma send_literal n c : send_load n = Some c -> literal_component c.
Proof. unfold send_load. destruct (String.eqb n "Late"); [|destruct (String.eqb n "Early"); [|discriminate]]; intros [= <-]; apply literal_check; vm_compute; reflexivity. Qed.
Example C50_not_refines_nonvacuous :
  let e := XComp "Early" None in let l := XComp "Late" None in
  fair (wide_choices 30) /\ explores Bounded (wide_choices 30) send_load /\ explores Exact (plain_choices 30) send_load /\ loadable send_load /\
  names_two send_load e l 3 (fst send_two) (snd send_two) /\
  (exists p, run_query (plain_choices 30) false send_load (QRefinement e l) = Ok (ARefinement (RCannotMatch "o" p))) /\
  (exists p, run_query (wide_choices 30) false send_load (QRefinement e l) = Ok (ARefinement (RCannotMatch "o" p))) /\
  ~ refines 3 (fst send_two) (snd send_two).
Proof.
  cbv zeta. split; [apply wide_fair|]. split; [apply wide_explores, send_literal|]. split; [apply plain_explores|]. split; [apply send_loadable|].
  assert (N : names_two send_load (XComp "Early" None) (XComp "Late" None) 3 (fst send_two) (snd send_two)) by (exists send_e, (1, None), send_l, 2, None; repeat split; vm_compute; reflexivity).
  assert (W : run_query (wide_choices 30) false send_load (QRefinement (XComp "Early" None) (XComp "Late" None)) = Ok send_wide) by (vm_compute; reflexivity).
  split; [exact N|]. split; [exists (match send_plain with ARefinement (RCannotMatch _ p) => p | _ => PairList.mkP (LLeaf (LSimple "") None Normal) (LLeaf (LSimple "") None Normal) [] end); vm_compute; reflexivity|].
  split; [eexists; rewrite W; unfold send_wide; reflexivity|].
  assert (U : upper_invariants 3 (fst send_two) /\ upper_invariants 3 (snd send_two)) by (split; apply upper_check; vm_compute; reflexivity). destruct U as [U1 U2].
  assert (Ex : explores_pairs Bounded (wide_choices 30) send_load) by exact (proj1 (wide_explores 30 _ send_literal)).
  unfold send_wide in W. pose proof (C50_not_refines_partial Bounded (wide_choices 30) false send_load (XComp "Early" None) (XComp "Late" None) 3 (fst send_two) (snd send_two) (match send_wide with ARefinement o => o | _ => RSuccess end)
    (wide_fair 30) Ex send_loadable N ltac:(vm_compute; reflexivity) ltac:(vm_compute; reflexivity) ltac:(discriminate) U1 U2) as R.
  specialize (R ltac:(vm_compute; reflexivity) ltac:(vm_compute; reflexivity) ltac:(vm_compute; reflexivity) ltac:(vm_compute; reflexivity) W). cbv beta iota in R. exact R.
Qed.

(** Finding: nothing is printed for the queries of a command line that were answered if a later one is rejected, or if a
    later one saves a component into an XML project. *)
Theorem C50_batch_lost_refuted :
  exists ch load q r, fair ch /\ loadable load /\ (exists a, run_query ch true load q = Ok a /\ satisfied a = true) /\
    (exists a, run_query ch true load r = Ok a /\ satisfied a = true) /\
    (exists as_, run_queries (fun _ => ch) true JsonLoader load 0 [q; r] = Ok as_) /\
    run_queries (fun _ => ch) true XmlLoader load 0 [q; r] = Panic /\
    forall e, run_queries (fun _ => ch) true JsonLoader load 0 [q; QImplementation e] = Panic.
Proof.
  exists (plain_choices 30), lk_load, (QRefinement (XComp "L" None) (XComp "K" None)), (QGetComponent (XComp "L" None) (Some "M")).
  split; [apply plain_fair|]. split; [apply lk_loadable|].
  split; [eexists; split; [vm_compute; reflexivity|reflexivity]|]. split; [eexists; split; [vm_compute; reflexivity|reflexivity]|].
  split; [eexists; vm_compute; reflexivity|]. split; [vm_compute; reflexivity|]. intros e. vm_compute. reflexivity.
Qed.
Print Assumptions C50_batch_lost_refuted.

(** A component that one query saves is found by the next; on a server it is not. *)
Example C50_batch_nonvacuous :
  run_queries (fun _ => plain_choices 30) true JsonLoader lk_load 0 [QGetComponent (XComp "L" None) (Some "M"); QRefinement (XComp "M" None) (XComp "K" None); QDeterminism (XComp "K" None)] =
    Ok [AComponent (mkComp "M" (mkDecls [("x", 1%nat)] []) (c_locs file_l)
          [mkE "E0" "L0" "L1" SInput None (Some [("x", AInt 0)]) "i"; mkE "E1" "L1" "L1" SInput None None "i"; mkE "E2" "L1" "L0" SOutput (Some (BGreatEQ (AVar "x") (AInt 3))) None "o"] None);
        ARefinement RSuccess; ADeterminism None] /\
  run_queries (fun _ => plain_choices 30) true ServerLoader lk_load 0 [QGetComponent (XComp "L" None) (Some "M"); QRefinement (XComp "M" None) (XComp "K" None)] = Panic /\
  run_queries (fun _ => plain_choices 30) true ServerLoader lk_load 0 [QRefinement (XComp "L" None) (XComp "K" None); QDeterminism (XComp "K" None)] = Ok [ARefinement RSuccess; ADeterminism None].
Proof. repeat split; vm_compute; reflexivity. Qed.
