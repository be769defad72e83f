(** C63: a created component can stand for the expression it was made of. *)
From Coq Require Import List String ZArith QArith Bool Arith Lia Lqa Permutation.
From Verif Require Import Fed.Zone Fed.ZoneFacts Fed.Check Model.Base Model.Expr Model.Guard Model.Loc Model.Component Model.TS Model.ParseQuery Model.Files Model.Recipe Model.Reduce Model.Search Model.PairList Model.Refine Model.Save Model.Query Model.Exec
  Spec.BoundSpec Spec.StepSpec Spec.SystemSpec Spec.RunSpec Spec.ReachSpec Spec.RefineSpec Spec.EnableSpec Spec.RecipeSpec Spec.ReduceSpec Spec.SameSpec Spec.IdSpec Spec.SaveSpec Spec.ExecSpec Spec.LawSpec Spec.PlaceSpec Spec.StandSpec Spec.SubstSpec
  Proofs.GuardFacts Proofs.StepFacts Proofs.SystemFacts Proofs.WfFacts Proofs.RunFacts Proofs.RecipeFacts Proofs.ReduceFacts Proofs.RenFacts Proofs.SameFacts Proofs.BisimFacts Proofs.ShrinkFacts Proofs.CompressFacts Proofs.InstrFacts Proofs.ClockFacts Proofs.SaveFacts Proofs.SavedFacts Proofs.TwoFacts Proofs.ExecFacts Proofs.LawFacts Proofs.LawMore Proofs.PlaceFacts Proofs.AcrossFacts Proofs.StandFacts Proofs.SubstMore
  Props.Examples Props.Determinism Props.Reachability Props.Refinement Props.Recipes Props.Saving Props.Exec Props.Laws Props.Place.
Import ListNotations.
Local Open Scope string_scope.
Local Open Scope list_scope.
Local Open Scope nat_scope.

Lemma instance_quotients load e : forall r, instance_of load e r -> List.length (quotient_clocks r) = quotients e.
Proof.
  induction e as [n id|a IHa b IHb|a IHa b IHb|a IHa b IHb]; intros [c|l r|l r|l r q] I; cbn [instance_of quotient_clocks quotients List.length] in *; try contradiction; [reflexivity| | |];
    destruct I as [I1 I2]; rewrite app_length, (IHa _ I1), (IHb _ I2); reflexivity.
Qed.
Lemma once_quotients r dim q : Permutation (all_numbers r ++ opt_clock q) (seq 1 dim) -> (forall x, In x (quotient_clocks r) -> q = Some x) -> List.length (quotient_clocks r) <= 1 -> NoDup (all_numbers r ++ quotient_clocks r).
Proof.
  intros P Q Le. assert (N : NoDup (all_numbers r ++ opt_clock q)) by (eapply Permutation_NoDup; [symmetry; exact P|apply seq_NoDup]).
  destruct (quotient_clocks r) as [|x [|y l]] eqn:E; [rewrite app_nil_r; apply nodup_split in N; tauto| |cbn in Le; lia].
  specialize (Q x (or_introl eq_refl)). subst q. exact N.
Qed.
Lemma one_once ch reduce load e d s s' dim' : fair ch -> loadable load -> names_one load e d s -> (Z.of_nat d < 4294967295)%Z ->
  (reduce = true -> dropped_unmentioned (the_redundant ch) load e /\ nothing_merged (the_redundant ch) load e) -> quotients e <= 1 ->
  one_system ch reduce load e = Ok (s', dim') -> NoDup (map snd (List.concat (ts_decls s'))).
Proof.
  intros Fc L (r & dim & q & E & Cu & ->) Sm Un Le T.
  destruct (C29_numbering load e r dim q (fun n c H => proj1 (L n c H)) E) as (I & B & P & Q & N). rewrite <- (instance_quotients load e r I) in Le.
  pose proof (once_quotients r dim q P Q Le) as O.
  unfold one_system in T. rewrite E in T. cbn [bind] in T. destruct reduce.
  - inv_bind T. destruct a as [r' d0]. inv_bind T. injection T as -> ->. rename H0 into C2. inv_bind H. destruct a as [[l0 o0] d0]. cbn [fst snd] in H. injection H as -> ->. rename H0 into Er.
    apply one_unchecked in C2. unfold compile in C2. inv_bind C2. destruct a as [a2 k2]. injection C2 as ->. rename H into C2.
    destruct (Un eq_refl) as [Ud Um]. specialize (Ud r dim q E). specialize (Um r dim q E).
    destruct (one_shape ch load e Fc L r dim q s r' o0 dim' E Cu Sm Ud Um Er) as (us & Nu & Iu & U & -> & Hd).
    set (rho := shrink r dim q us []) in *.
    assert (Ng : NoDup (List.concat (@nil (list nat)))) by constructor.
    assert (Ig : incl (List.concat (@nil (list nat))) (all_numbers r)) by (intros ? []).
    assert (Ug : forall i, In i us -> ~ In i (List.concat (@nil (list nat)))) by (intros ? _ []).
    pose proof (shrink_renames r dim q us [] P Q Nu Iu Ng Ig Ug) as RN. rewrite <- Hd in RN. fold rho in RN.
    assert (J : injective rho) by (apply shrink_injective; auto).
    eapply Permutation_NoDup; [symmetry; eapply decls_numbers, compile_assembled, C2|].
    rewrite (ren_all rho), ren_quotients. apply nodup_split in O. destruct O as (O1 & O2 & O3).
    assert (K : forall x, In x (quotient_clocks r) -> rho x = Some dim') by (intros x Hx; rewrite Hd; apply (shrink_q r dim q us []); auto).
    assert (X : forall l : list nat, List.length l <= 1 -> NoDup l) by (intros [|x [|y l]]; cbn; intros; [constructor|constructor; [intros []|constructor]|lia]).
    apply CompressFacts.nodup_app; [eapply moved_nodup; try eassumption|apply X; rewrite map_length; exact Le|].
    intros j Hj Hq. apply moved_In in Hj. destruct Hj as (i & Hi & Ei). apply in_map_iff in Hq. destruct Hq as (x & Ex & Hx). unfold total in Ex. rewrite (K x Hx) in Ex. subst j. specialize (K x Hx). pose proof (J _ _ _ Ei K) as ->. exact (O3 _ Hi Hx).
  - cbn [bind] in T. inv_bind T. injection T as -> <-. apply one_unchecked in H. rewrite Cu in H. injection H as <-. unfold compile in Cu. inv_bind Cu. destruct a as [s0 k]. injection Cu as ->.
    eapply Permutation_NoDup; [symmetry; eapply decls_numbers, compile_assembled, H|]. exact O.
Qed.

(** Names other than those an expression mentions do not matter to it. *)
Lemma recipe_elsewhere load load' e : (forall n, mentions n e -> load' n = load n) -> forall st, get_system_recipe load' e st = get_system_recipe load e st.
Proof.
  induction e as [n i|a IHa b IHb|a IHa b IHb|a IHa b IHb]; intros H st; cbn [get_system_recipe mentions] in *; [rewrite H by reflexivity; reflexivity| | |];
    (rewrite IHa by auto; destruct (get_system_recipe load a st) as [[? ?]| | |]; cbn [bind]; [rewrite IHb by auto; reflexivity|reflexivity|reflexivity|reflexivity]).
Qed.
Lemma storing_other m c load e : ~ mentions m e -> forall n, mentions n e -> storing m c load n = load n.
Proof. intros N n Hn. unfold storing. destruct (String.eqb_spec n m); [subst; contradiction|reflexivity]. Qed.
Lemma names_elsewhere load load' e d s : (forall n, mentions n e -> load' n = load n) -> names_one load e d s -> names_one load' e d s.
Proof. intros H (r & dim & q & E & C). exists r, dim, q. rewrite (recipe_elsewhere load load' e H). auto. Qed.

Lemma happen_same d s d' s' : same_behaviour d s d' s' -> actions_happen d s -> actions_used d' s'.
Proof.
  intros (Hi & Ho & R & B & I) H a Ha. assert (Ha' : is_action s a) by (destruct Ha as [Ha|Ha]; [left; apply Hi, Ha|right; apply Ho, Ha]). destruct (H a Ha') as (N & l & v & t & (l0 & E0 & I0 & Ru) & O & A). split; [exact N|].
  rewrite E0 in I. destruct (initial_location d' s') as [l0'|] eqn:E'; [|contradiction]. destruct (same_run _ _ _ _ _ _ _ _ _ B _ _ Ru I) as (l' & v' & Ru' & H').
  destruct (bs_forth _ _ _ _ _ B _ _ _ _ _ _ H' O A) as (t' & O' & A' & _). exists l', t'. split; [eapply run_edge_reach; eauto|]. split; [exact O'|]. exists v'. apply A'.
Qed.
Lemma map_clocks_0 c : map_clocks (fun i => i + 0) c = c.
Proof.
  destruct c as [n [cl ints] ls es sp]. unfold map_clocks, with_clocks, with_decls. cbn. assert (E : map (fun p : string * nat => (fst p, snd p + 0)) cl = cl) by (induction cl as [|[x i] cl IH]; [reflexivity|]; cbn; rewrite IH, Nat.add_0_r; reflexivity). rewrite E. reflexivity.
Qed.

(** The created component can be loaded, and the system it names alone is like the one the expression names alone. *)
Lemma created_stands ch reduce load e m d s c : loadable load -> created ch reduce load e m d s c ->
  loadable (storing m c load) /\ exists d' t, names_one (storing m c load) (XComp m None) d' t /\ bisimilar d s d' t.
Proof.
  intros L [Fc Na Sm Un Sn Le Nm Io Hp Fu E]. cbn [run_query] in E. inv_bind E. destruct a as [s' dim']. inv_bind E. injection E as ->.
  pose proof (one_ready ch reduce load e Fc L d s s' dim' Na Sm Un H) as R. destruct (one_saveable ch reduce load e Fc L d s s' dim' Na Sm Un Sn H) as [Sv Si].
  pose proof (one_once ch reduce load e d s s' dim' Fc L Na Sm Un Le H) as On.
  destruct (fair_minc ch Fc (dim' + 1) ltac:(lia)) as [M _].
  assert (Io' : io_disjoint s') by (destruct (rd_same _ _ _ _ R) as (A & B & _); intros x Hx Hy; apply (Io x); [apply A, Hx|apply B, Hy]).
  assert (Fu' : List.length (all_locations (dim' + 1) s') <= ch_fuel ch) by (rewrite (rd_count _ _ _ _ R); exact Fu).
  destruct (C31_reloaded_partial (dim' + 1) (ch_minc ch (dim' + 1)) (ch_ord ch) (ch_kord ch) s' (ch_fuel ch) (result_name (Some m)) 0 Sv Io' Si (happen_same _ _ _ _ (rd_same _ _ _ _ R) Hp) M (fair_ord _ Fc) (fair_kord _ Fc) Fu')
    as (ls & c0 & cc & Ec & _ & Ecc & Bh & _). rewrite H0 in Ec. injection Ec as <-.
  pose proof (created_loadable (dim' + 1) (ch_minc ch (dim' + 1)) (ch_ord ch) (ch_kord ch) s' (ch_fuel ch) (result_name (Some m)) c Sv (fair_ord _ Fc) (fair_kord _ Fc) Fu' On ltac:(lia) H0) as Lc.
  destruct (created_decls (dim' + 1) (ch_minc ch (dim' + 1)) (ch_ord ch) (ch_kord ch) s' (ch_fuel ch) (result_name (Some m)) c H0) as [Ed Es].
  destruct (created_numbers (dim' + 1) (ch_kord ch) s' (ch_fuel ch) Sv (fair_kord _ Fc) Fu' On ltac:(lia)) as (_ & _ & _ & Nl).
  split.
  - intros n c1 Hn. unfold storing in Hn. destruct (String.eqb_spec n m); [injection Hn as <-; exact Lc|apply (L n c1 Hn)].
  - exists (dim' + 1), (TSimple cc). split; [|eapply bisimilar_trans; [apply same_bisimilar, R|eapply behaves_bisimilar, Bh]].
    assert (Ei : instantiate c None 0 = c) by (unfold instantiate; rewrite map_clocks_0; destruct c; cbn in Es; subst; reflexivity).
    exists (RSimple c), dim', None. split; [|split; [|reflexivity]].
    + cbn [get_system_recipe]. unfold storing. rewrite String.eqb_refl. cbn [unwrap bind fst snd]. rewrite Ei. unfold clock_count. rewrite Ed. cbn [d_clocks]. replace dim' with (List.length (clock_map (ch_kord ch) s')) by lia. reflexivity.
    + unfold compile. cbn [compile_at]. rewrite Ecc. reflexivity.
Qed.

Lemma created_bisimilar ch reduce load e m d s c d1 s1 d2 s2 : loadable load -> created ch reduce load e m d s c ->
  placed (storing m c load) e d1 s1 -> placed (storing m c load) (XComp m None) d2 s2 -> bisimilar d1 s1 d2 s2.
Proof.
  intros L Cr P1 P2. destruct (created_stands ch reduce load e m d s c L Cr) as (L' & d' & t & Nt & A).
  pose proof (names_elsewhere load (storing m c load) e d s (storing_other m c load e (cr_new _ _ _ _ _ _ _ _ Cr)) (cr_names _ _ _ _ _ _ _ _ Cr)) as Ns.
  eapply bisimilar_trans; [apply same_bisimilar, (placed_same (storing m c load) e _ _ _ _ L' P1 (names_one_placed _ _ _ _ L' Ns))|]. eapply bisimilar_trans; [exact A|].
  apply same_bisimilar, (placed_same (storing m c load) (XComp m None) _ _ _ _ L' (names_one_placed _ _ _ _ L' Nt) P2).
Qed.
Lemma created_alike ch reduce load e m d s c d1 s1 d2 s2 : loadable load -> created ch reduce load e m d s c ->
  placed (storing m c load) e d1 s1 -> placed (storing m c load) (XComp m None) d2 s2 -> alike d1 s1 d2 s2.
Proof. intros L Cr P1 P2. eapply bisimilar_alike, (created_bisimilar ch reduce load e m d s c); assumption. Qed.

(** *** C63 *)
(** The created component can be loaded like any other. *)
Theorem C63_loadable : forall ch reduce load e m d s c, loadable load -> created ch reduce load e m d s c -> loadable (storing m c load).
Proof. intros ch reduce load e m d s c L Cr. apply (created_stands ch reduce load e m d s c L Cr). Qed.
Print Assumptions C63_loadable.
(** It has the same actions as the expression and can always be used by itself. *)
Theorem C63_usable : forall ch reduce load e m d s c, loadable load -> created ch reduce load e m d s c ->
  exists d' t, names_one (storing m c load) (XComp m None) d' t /\ (forall a, is_input t a <-> is_input s a) /\ (forall a, is_output t a <-> is_output s a) /\ (can_start d s <-> can_start d' t).
Proof.
  intros ch reduce load e m d s c L Cr. destruct (created_stands ch reduce load e m d s c L Cr) as (L' & d' & t & Nt & Bi). pose proof (bisimilar_alike _ _ _ _ Bi) as (A & B & C & D). exists d', t. split; [exact Nt|]. split; [exact A|]. split; [exact B|].
  unfold can_start, startable, hrefines in *. destruct (initial_location d s) as [l|] eqn:El, (initial_location d' t) as [l'|] eqn:El'.
  - assert (X : (inv_at d l zero_val <-> inv_at d' l' zero_val)) by (split; intros H; [apply (proj1 C)|apply (proj2 C)]; try reflexivity; intros y [= <-]; exact H). split; intros (x & Ex & H); injection Ex as <-; eexists; (split; [reflexivity|]); apply X, H.
  - split; intros (x & Ex & H); [|discriminate Ex]. injection Ex as <-. destruct (D ltac:(intros y [= <-]; exact H)) as [[] _].
  - split; intros (x & Ex & H); [discriminate Ex|]. destruct (D ltac:(discriminate)) as [[] _].
  - split; intros (x & Ex & _); discriminate Ex.
Qed.
Print Assumptions C63_usable.
(** On either side of a refinement, it can take the place of the expression. *)
Theorem C63_left : forall ch reduce load e m d s c f d1 s1 t1 d2 s2 t2, loadable load -> created ch reduce load e m d s c ->
  names_two (storing m c load) e f d1 s1 t1 -> names_two (storing m c load) (XComp m None) f d2 s2 t2 -> (refines d2 s2 t2 <-> refines d1 s1 t1).
Proof.
  intros ch reduce load e m d s c f d1 s1 t1 d2 s2 t2 L Cr N1 N2. pose proof (C63_loadable ch reduce load e m d s c L Cr) as L'.
  destruct (beside_placed _ _ _ _ _ _ (names_two_beside _ _ _ _ _ _ L' N1)) as [P1 Q1]. destruct (beside_placed _ _ _ _ _ _ (names_two_beside _ _ _ _ _ _ L' N2)) as [P2 Q2].
  symmetry. apply alike_refines; [apply (created_alike ch reduce load e m d s c); assumption|]. apply same_alike, (placed_same (storing m c load) f); assumption.
Qed.
Print Assumptions C63_left.
Theorem C63_right : forall ch reduce load e m d s c f d1 s1 t1 d2 s2 t2, loadable load -> created ch reduce load e m d s c ->
  names_two (storing m c load) f e d1 t1 s1 -> names_two (storing m c load) f (XComp m None) d2 t2 s2 -> (refines d2 t2 s2 <-> refines d1 t1 s1).
Proof.
  intros ch reduce load e m d s c f d1 s1 t1 d2 s2 t2 L Cr N1 N2. pose proof (C63_loadable ch reduce load e m d s c L Cr) as L'.
  destruct (beside_placed _ _ _ _ _ _ (names_two_beside _ _ _ _ _ _ L' N1)) as [Q1 P1]. destruct (beside_placed _ _ _ _ _ _ (names_two_beside _ _ _ _ _ _ L' N2)) as [Q2 P2].
  symmetry. apply alike_refines; [apply same_alike, (placed_same (storing m c load) f); assumption|]. apply (created_alike ch reduce load e m d s c); assumption.
Qed.
Print Assumptions C63_right.
(** The expression and the created component refine each other. *)
Theorem C63_equal : forall ch reduce load e m d s c d1 s1 t1, loadable load -> created ch reduce load e m d s c -> can_start d s ->
  names_two (storing m c load) e (XComp m None) d1 s1 t1 \/ names_two (storing m c load) (XComp m None) e d1 s1 t1 -> refines d1 s1 t1.
Proof.
  intros ch reduce load e m d s c d1 s1 t1 L Cr St N. pose proof (C63_loadable ch reduce load e m d s c L Cr) as L'.
  pose proof (names_elsewhere load (storing m c load) e d s (storing_other m c load e (cr_new _ _ _ _ _ _ _ _ Cr)) (cr_names _ _ _ _ _ _ _ _ Cr)) as Ns.
  assert (G : forall d' s', placed (storing m c load) e d' s' -> startable d' s').
  { intros d' s' P. pose proof (placed_same (storing m c load) e d s d' s' L' (names_one_placed _ _ _ _ L' Ns) P) as X. refine (same_startable d s d' s' X _). destruct St as (l & El & Il). intros x Ex. rewrite El in Ex. injection Ex as <-. exact Il. }
  destruct N as [N|N]; destruct (beside_placed _ _ _ _ _ _ (names_two_beside _ _ _ _ _ _ L' N)) as [P Q]; apply hrefines_one.
  - apply (created_alike ch reduce load e m d s c _ _ _ _ L Cr P Q), G, P.
  - apply (created_alike ch reduce load e m d s c _ _ _ _ L Cr Q P), G, Q.
Qed.
Print Assumptions C63_equal.
(** A component that was created earlier keeps its meaning when others are: what an expression refines does not depend on
    components it does not mention. *)
Theorem C63_elsewhere : forall load load' e f d s t d' s' t', loadable load -> loadable load' -> (forall n, mentions n e \/ mentions n f -> load' n = load n) ->
  names_two load e f d s t -> names_two load' e f d' s' t' -> d' = d /\ s' = s /\ t' = t.
Proof.
  intros load load' e f d s t d' s' t' L L' Eq (l & st & r & dim & q & E & F & C & ->) (l' & st' & r' & dim' & q' & E' & F' & C' & ->).
  rewrite (recipe_elsewhere load load' e) in E' by auto. rewrite (recipe_elsewhere load load' f) in F' by auto. rewrite E in E'. injection E' as <- <-. rewrite F in F'. injection F' as <- <- <-. rewrite C in C'. injection C' as <- <-. auto.
Qed.
Print Assumptions C63_elsewhere.

(** Answers. *)
Theorem C63_answers_left : forall ch reduce load e m d s c ch1 ch2 r1 r2 f d1 s1 t1 d2 s2 t2, loadable load -> created ch reduce load e m d s c ->
  (trusted_yes ch1 r1 (storing m c load) e f d1 s1 t1 -> trusted_no ch2 r2 (storing m c load) (XComp m None) f d2 s2 t2 ->
     yes ch1 r1 (storing m c load) e f -> ~ no ch2 r2 (storing m c load) (XComp m None) f) /\
  (trusted_yes ch2 r2 (storing m c load) (XComp m None) f d2 s2 t2 -> trusted_no ch1 r1 (storing m c load) e f d1 s1 t1 ->
     yes ch2 r2 (storing m c load) (XComp m None) f -> ~ no ch1 r1 (storing m c load) e f).
Proof.
  intros ch reduce load e m d s c ch1 ch2 r1 r2 f d1 s1 t1 d2 s2 t2 L Cr. pose proof (C63_loadable ch reduce load e m d s c L Cr) as L'. split; intros T1 T2 Y.
  - apply (no_right _ _ _ _ _ _ _ _ L' T2). eapply C63_left; [exact L|exact Cr|apply T1|apply T2|]. eapply yes_right; eauto.
  - apply (no_right _ _ _ _ _ _ _ _ L' T2). apply (C63_left ch reduce load e m d s c f d1 s1 t1 d2 s2 t2 L Cr (tn_names _ _ _ _ _ _ _ _ T2) (ty_names _ _ _ _ _ _ _ _ T1)). eapply yes_right; eauto.
Qed.
Print Assumptions C63_answers_left.
Theorem C63_answers_right : forall ch reduce load e m d s c ch1 ch2 r1 r2 f d1 s1 t1 d2 s2 t2, loadable load -> created ch reduce load e m d s c ->
  (trusted_yes ch1 r1 (storing m c load) f e d1 t1 s1 -> trusted_no ch2 r2 (storing m c load) f (XComp m None) d2 t2 s2 ->
     yes ch1 r1 (storing m c load) f e -> ~ no ch2 r2 (storing m c load) f (XComp m None)) /\
  (trusted_yes ch2 r2 (storing m c load) f (XComp m None) d2 t2 s2 -> trusted_no ch1 r1 (storing m c load) f e d1 t1 s1 ->
     yes ch2 r2 (storing m c load) f (XComp m None) -> ~ no ch1 r1 (storing m c load) f e).
Proof.
  intros ch reduce load e m d s c ch1 ch2 r1 r2 f d1 s1 t1 d2 s2 t2 L Cr. pose proof (C63_loadable ch reduce load e m d s c L Cr) as L'. split; intros T1 T2 Y.
  - apply (no_right _ _ _ _ _ _ _ _ L' T2). eapply C63_right; [exact L|exact Cr|apply T1|apply T2|]. eapply yes_right; eauto.
  - apply (no_right _ _ _ _ _ _ _ _ L' T2). apply (C63_right ch reduce load e m d s c f d1 s1 t1 d2 s2 t2 L Cr (tn_names _ _ _ _ _ _ _ _ T2) (ty_names _ _ _ _ _ _ _ _ T1)). eapply yes_right; eauto.
Qed.
Print Assumptions C63_answers_right.
Theorem C63_answers_equal : forall ch reduce load e m d s c ch' r' d1 s1 t1, loadable load -> created ch reduce load e m d s c -> can_start d s ->
  (trusted_no ch' r' (storing m c load) e (XComp m None) d1 s1 t1 -> ~ no ch' r' (storing m c load) e (XComp m None)) /\
  (trusted_no ch' r' (storing m c load) (XComp m None) e d1 s1 t1 -> ~ no ch' r' (storing m c load) (XComp m None) e).
Proof.
  intros ch reduce load e m d s c ch' r' d1 s1 t1 L Cr St. pose proof (C63_loadable ch reduce load e m d s c L Cr) as L'.
  split; intros T; (apply (no_right _ _ _ _ _ _ _ _ L' T); eapply C63_equal; [exact L|exact Cr|exact St|]); [left|right]; apply T.
Qed.
Print Assumptions C63_answers_equal.

(** ** Examples *)
Inductive move := Wait (q : Q) | Do (a : string) (k : nat).
Fixpoint walk (d : nat) (s : ts) (l : loctree) (v : val) (ms : list move) : option (loctree * val) :=
  match ms with
  | [] => Some (l, v)
  | Wait q :: ms' => if Qle_bool 0 q && inv_atb d l v && inv_atb d l (vdelay v q) then walk d s l (vdelay v q) ms' else None
  | Do a k :: ms' =>
      match next_transitions d s l a with
      | Ok ts => match nth_error ts k with Some t => if Component.sin a (ts_inputs s ++ ts_outputs s) && ableb d l t v then walk d s (t_target t) (run_updates (t_updates t) v) ms' else None | None => None end
      | _ => None
      end
  end.
Lemma walk_run d s l0 v0 : LawSpec.good d s -> upper_invariants d s -> forall ms l v l' v', In l (all_locations d s) -> val_ok d v -> run d s l0 v0 l v -> walk d s l v ms = Some (l', v') -> run d s l0 v0 l' v'.
Proof.
  intros G U ms. induction ms as [|[q|a k] ms IH]; intros l v l' v' Hl Hv R E; cbn [walk] in E; [injection E as <- <-; exact R| |].
  - destruct (Qle_bool 0 q && inv_atb d l v && inv_atb d l (vdelay v q)) eqn:C; [|discriminate]. rewrite !andb_true_iff, Qle_bool_iff, !inv_atb_spec in C. destruct C as [[C1 C2] C3].
    refine (IH _ _ _ _ Hl _ _ E); [apply vdelay_ok; assumption|]. apply run_delay; [exact R|exact C1|]. intros x Hx Hxq.
    apply (U l Hl (vdelay v x) (q - x)%Q); [apply vdelay_ok; assumption|lra|]. eapply inv_at_ext; [|exact C3]. apply veq_sym. eapply veq_trans; [apply vdelay_add|]. apply vdelay_ext; [apply veq_refl|ring].
  - destruct (next_transitions d s l a) as [ts| | |] eqn:Et; try discriminate. destruct (nth_error ts k) as [t|] eqn:Ek; [|discriminate]. destruct (Component.sin a _ && ableb d l t v) eqn:C; [|discriminate]. apply andb_true_iff in C. destruct C as [C1 C2]. apply ableb_spec in C2.
    assert (O : offered d s l a t). { split; [|exists ts; split; [exact Et|eapply nth_error_In; eauto]]. apply sin_In in C1. apply in_app_or in C1. exact C1. }
    destruct (LawFacts.offered_dep d s l a t G Hl O) as ([Uo Nc] & Ht & _). refine (IH _ _ _ _ Ht _ (run_act _ _ _ _ _ _ _ _ R O C2) E). apply run_updates_ok; assumption.
Qed.
Definition happensb (d : nat) (s : ts) (a : string) (ms : list move) : bool :=
  match initial_location d s with
  | Some l => inv_atb d l zero_val && match walk d s l zero_val ms with
              | Some (l', v') => match next_transitions d s l' a with Ok ts => existsb (fun t => ableb d l' t v') ts | _ => false end
              | None => false end
  | None => false
  end.
Lemma happen_ok d s ws : LawSpec.good d s -> upper_invariants d s -> forallb (fun a => negb (String.eqb a "*") && existsb (fun ms => happensb d s a ms) ws) (ts_inputs s ++ ts_outputs s) = true -> actions_happen d s.
Proof.
  intros G U H a Ha. rewrite forallb_forall in H. specialize (H a ltac:(apply in_or_app; exact Ha)). apply andb_true_iff in H. destruct H as [H1 H2]. split; [apply String.eqb_neq, negb_true_iff, H1|].
  apply existsb_exists in H2. destruct H2 as (ms & _ & H2). unfold happensb in H2. destruct (initial_location d s) as [l|] eqn:El; [|discriminate]. apply andb_true_iff in H2. destruct H2 as [H2 H3]. apply inv_atb_spec in H2.
  destruct (walk d s l zero_val ms) as [[l' v']|] eqn:W; [|discriminate]. destruct (next_transitions d s l' a) as [ts| | |] eqn:Et; try discriminate. apply existsb_exists in H3. destruct H3 as (t & Ht & Ab). apply ableb_spec in Ab.
  exists l', v', t. split; [|split; [split; [exact Ha|eauto]|exact Ab]]. exists l. split; [exact El|]. split; [exact H2|].
  refine (walk_run d s l zero_val G U ms l zero_val l' v' _ (zero_ok d) (run_nil _ _ _ _) W). apply (initial_wf d s (g_built _ _ G)), El.
Qed.
Definition plainb (n : string) : bool := forallb (fun c => negb (existsb (Ascii.eqb c) marks)) (list_ascii_of_string n) && negb (String.eqb n "_").
Definition recipe_clocks (r : recipe) : list string :=
  List.concat (map (fun c => map fst (d_clocks (c_decls c))) (components r)) ++ match quotient_clocks r with [] => [] | _ => ["quotient_xnew"] end.
Definition saveableb (r : recipe) : bool :=
  forallb (fun c => forallb (fun l => plainb (l_id l)) (c_locs c) && (List.length (filter (fun l => loctype_eqb (l_type l) Initial) (c_locs c)) <=? 1)) (components r) &&
  forallb (fun x => forallb (fun y => negb (String.prefix x y) || String.eqb x y) (recipe_clocks r)) (recipe_clocks r).
Lemma saveable_ok r : saveableb r = true -> saveable_names r.
Proof.
  unfold saveableb. rewrite andb_true_iff, !forallb_forall. intros [H1 H2].
  assert (C : forall x, clock_named r x -> In x (recipe_clocks r)).
  { intros x [(c & i & Hc & Hx)|[Q ->]]; unfold recipe_clocks; apply in_or_app; [left; apply in_concat; eexists; split; [apply in_map_iff; exists c; split; [reflexivity|exact Hc]|apply (in_map fst) in Hx; exact Hx]|right; destruct (quotient_clocks r); [destruct (Q eq_refl)|left; reflexivity]]. }
  split; [|split].
  - intros c l Hc Hl. specialize (H1 c Hc). apply andb_true_iff in H1. destruct H1 as [H1 _]. rewrite forallb_forall in H1. apply plain_by, (H1 l Hl).
  - intros c l m Hc Hl Hm Il Im. specialize (H1 c Hc). apply andb_true_iff in H1. destruct H1 as [_ H1]. apply Nat.leb_le in H1.
    assert (Fl : In l (filter (fun l => loctype_eqb (l_type l) Initial) (c_locs c))) by (apply filter_In; rewrite Il; auto). assert (Fm : In m (filter (fun l => loctype_eqb (l_type l) Initial) (c_locs c))) by (apply filter_In; rewrite Im; auto).
    destruct (filter _ _) as [|z [|z' zs]]; [destruct Fl| |cbn in H1; lia]. destruct Fl as [<-|[]], Fm as [<-|[]]. reflexivity.
  - intros x y n Hx Hy [Dn _] E. specialize (H2 x (C x Hx)). rewrite forallb_forall in H2. specialize (H2 y (C y Hy)). apply orb_true_iff in H2. destruct H2 as [H2|H2].
    + apply negb_true_iff in H2. assert (P : String.prefix x y = true); [|congruence]. rewrite E. clear. induction x as [|k x IH]; cbn; [destruct n; reflexivity|]. destruct (Ascii.ascii_dec k k) as [_|N]; [exact IH|destruct (N eq_refl)].
    + apply String.eqb_eq in H2. subst y. apply Dn. revert E. clear. induction x as [|k x IH]; cbn; [intros <-; reflexivity|intros [= E]; exact (IH E)].
Qed.
Lemma created_ok load e m r q dim s c ws : loadable load -> get_system_recipe load e (0, None) = Ok (r, (dim, q)) -> compile unchecked unchecked dim r = Ok s ->
  (Z.of_nat (dim + 1) <? 4294967295)%Z && saveableb r && (quotients e <=? 1) && (List.length (all_locations (dim + 1) s) <=? 30) = true -> ~ mentions m e -> io_disjoint s ->
  forallb (upperb (dim + 1)) (all_locations (dim + 1) s) = true ->
  forallb (fun a => negb (String.eqb a "*") && existsb (fun ms => happensb (dim + 1) s a ms) ws) (ts_inputs s ++ ts_outputs s) = true ->
  run_query (plain_choices 30) false load (QGetComponent e (Some m)) = Ok (AComponent c) ->
  created (plain_choices 30) false load e m (dim + 1) s c.
Proof.
  rewrite !andb_true_iff. intros L E C [[[B1 B2] B3] B4] Nm Io U H A. assert (N : names_one load e (dim + 1) s) by (exists r, dim, q; auto).
  constructor; [apply plain_fair|exact N|apply Z.ltb_lt, B1|discriminate| |apply Nat.leb_le, B3|exact Nm|exact Io| |apply Nat.leb_le, B4|exact A].
  - intros r' st' E'. rewrite E in E'. injection E' as <- <-. apply saveable_ok, B2.
  - apply (happen_ok _ _ ws); [apply (placed_good load e); [exact L|apply names_one_placed; assumption]|apply upper_check, U|exact H].
Qed.

(** M is made of A && B. *)
Definition ab : sysx := XConj (nm "A") (nm "B").
Definition ab_recipe : recipe := Eval vm_compute in get (RSimple (replying "A" 2 5)) (rmap fst (get_system_recipe shop_load ab (0, None))).
Definition ab_ts : ts := Eval vm_compute in get ts_m (compile unchecked unchecked 2 ab_recipe).
Definition component_of (x : res Exec.answer) : component := match x with Ok (AComponent c) => c | _ => replying "" 0 0 end.
Definition ab_made : component := Eval vm_compute in component_of (run_query (plain_choices 30) false shop_load (QGetComponent ab (Some "M"))).
Definition made_load : string -> option component := storing "M" ab_made shop_load.
Example C63_nonvacuous : loadable shop_load /\ created (plain_choices 30) false shop_load ab "M" 3 ab_ts ab_made /\ can_start 3 ab_ts /\ d_clocks (c_decls ab_made) = [("x", 1); ("x1", 2)] /\ List.length (c_edges ab_made) = 3.
Proof.
  split; [exact shop_loadable|]. split; [|split; [apply start_ok; vm_compute; reflexivity|split; reflexivity]].
  apply (created_ok shop_load ab "M" ab_recipe None 2 ab_ts ab_made [[]; [Do "i" 0; Wait 4]] shop_loadable); try (vm_compute; reflexivity).
  - cbn. intros [H|H]; discriminate.
  - intros k; apply apart_check; reflexivity.
Qed.
Definition made_two (e f : sysx) : nat * ts * ts := get none3 (two made_load e f).
Definition abg := Eval vm_compute in made_two ab (nm "G").
Definition mg := Eval vm_compute in made_two (nm "M") (nm "G").
Definition xm := Eval vm_compute in made_two (nm "X") (nm "M").
Definition abm := Eval vm_compute in made_two ab (nm "M").
Definition mab := Eval vm_compute in made_two (nm "M") ab.
Lemma made_loadable : loadable made_load.
Proof. eapply C63_loadable; apply C63_nonvacuous. Qed.
(** A && B <= G and M <= G are both answered with "satisfied". *)
Example C63_left_nonvacuous : trusted_yes (plain_choices 30) false made_load ab (nm "G") 4 (one_s abg) (one_t abg) /\ trusted_no (plain_choices 30) false made_load (nm "M") (nm "G") 4 (one_s mg) (one_t mg) /\
  trusted_yes (plain_choices 30) false made_load (nm "M") (nm "G") 4 (one_s mg) (one_t mg) /\ trusted_no (plain_choices 30) false made_load ab (nm "G") 4 (one_s abg) (one_t abg) /\
  yes (plain_choices 30) false made_load ab (nm "G") /\ yes (plain_choices 30) false made_load (nm "M") (nm "G") /\ one_s abg <> one_s mg.
Proof.
  do 2 (split; [first [apply yes_ok|apply no_ok]; first [exact made_loadable|two_ok|vm_compute; auto]|]). split; [apply yes_ok; first [exact made_loadable|two_ok|vm_compute; auto]|]. split; [apply no_ok; first [exact made_loadable|two_ok]|].
  split; [apply told_yes; vm_compute; reflexivity|]. split; [apply told_yes; vm_compute; reflexivity|vm_compute; discriminate].
Qed.
(** X <= A && B and X <= M as well. *)
Example C63_right_nonvacuous : trusted_yes (plain_choices 30) false made_load (nm "X") ab 4 (one_s xab) (one_t xab) /\ trusted_no (plain_choices 30) false made_load (nm "X") (nm "M") 4 (one_s xm) (one_t xm) /\
  trusted_yes (plain_choices 30) false made_load (nm "X") (nm "M") 4 (one_s xm) (one_t xm) /\ trusted_no (plain_choices 30) false made_load (nm "X") ab 4 (one_s xab) (one_t xab) /\
  yes (plain_choices 30) false made_load (nm "X") ab /\ yes (plain_choices 30) false made_load (nm "X") (nm "M").
Proof.
  split; [apply yes_ok; first [exact made_loadable|two_ok|vm_compute; auto]|]. split; [apply no_ok; first [exact made_loadable|two_ok]|].
  split; [apply yes_ok; first [exact made_loadable|two_ok|vm_compute; auto]|]. split; [apply no_ok; first [exact made_loadable|two_ok]|].
  split; apply told_yes; vm_compute; reflexivity.
Qed.
Example C63_equal_nonvacuous : trusted_no (plain_choices 30) false made_load ab (nm "M") 5 (one_s abm) (one_t abm) /\ trusted_no (plain_choices 30) false made_load (nm "M") ab 5 (one_s mab) (one_t mab) /\
  refines 5 (one_s abm) (one_t abm) /\ refines 5 (one_s mab) (one_t mab).
Proof.
  destruct C63_nonvacuous as (L & Cr & St & _). assert (N1 : names_two made_load ab (nm "M") 5 (one_s abm) (one_t abm)) by (apply two_names; two_ok). assert (N2 : names_two made_load (nm "M") ab 5 (one_s mab) (one_t mab)) by (apply two_names; two_ok).
  split; [apply no_ok; first [exact made_loadable|two_ok]|]. split; [apply no_ok; first [exact made_loadable|two_ok]|].
  split; (eapply (C63_equal _ _ _ _ _ _ _ _ _ _ _ L Cr St); [left + right; eassumption]).
Qed.
(** Q is made of T \\ S. *)
Definition tq : sysx := XQuot (nm "T") (nm "S").
Definition tq_recipe : recipe := Eval vm_compute in get (RSimple (replying "A" 2 5)) (rmap fst (get_system_recipe shop_load tq (0, None))).
Definition tq_dim : nat := Eval vm_compute in get 0 (rmap (fun x => fst (snd x)) (get_system_recipe shop_load tq (0, None))).
Definition tq_ts : ts := Eval vm_compute in get ts_m (compile unchecked unchecked tq_dim tq_recipe).
Definition tq_made : component := Eval vm_compute in component_of (run_query (plain_choices 30) false shop_load (QGetComponent tq (Some "Q"))).
Example C63_quotient_nonvacuous : created (plain_choices 30) false shop_load tq "Q" 4 tq_ts tq_made /\ can_start 4 tq_ts /\ d_clocks (c_decls tq_made) = [("x", 1); ("x1", 2); ("quotient_xnew", 3)] /\ List.length (c_locs tq_made) = 7.
Proof.
  split; [|split; [apply start_ok; vm_compute; reflexivity|split; reflexivity]].
  apply (created_ok shop_load tq "Q" tq_recipe (Some 3) 3 tq_ts tq_made [[]; [Do "i" 0; Wait 3]; [Do "i" 0; Wait 4]] shop_loadable); try (vm_compute; reflexivity).
  - cbn. intros [H|H]; discriminate.
  - intros k; apply apart_check; reflexivity.
Qed.

(** An action that never happens is lost: P has an output o in a location that is not reached. *)
Definition unused_o : component :=
  mkComp "P" (mkDecls [("x", 1)] []) [mkL "W" None Initial "NORMAL"; mkL "U" None Normal "NORMAL"]
    [mkE "E1" "W" "W" SInput None None "i"; mkE "E2" "U" "U" SOutput None None "o"; mkE "E3" "U" "U" SInput None None "i"] None.
Definition p_load (n : string) : option component := if String.eqb n "P" then Some unused_o else None.
Definition p_recipe : recipe := Eval vm_compute in get (RSimple unused_o) (rmap fst (get_system_recipe p_load (nm "P") (0, None))).
Definition p_ts : ts := Eval vm_compute in get ts_m (compile unchecked unchecked 1 p_recipe).
Definition p_made : component := Eval vm_compute in component_of (run_query (plain_choices 30) false p_load (QGetComponent (nm "P") (Some "M"))).
Definition p_two : nat * ts * ts := Eval vm_compute in get none3 (two (storing "M" p_made p_load) (nm "P") (nm "M")).
Theorem C63_lost_actions : exists ch load load' c d1 s1 t1, fair ch /\ loadable load /\ load' = storing "M" c load /\ run_query ch false load (QGetComponent (nm "P") (Some "M")) = Ok (AComponent c) /\
  names_two load' (nm "P") (nm "M") d1 s1 t1 /\ is_output s1 "o" /\ ~ is_output t1 "o" /\ yes ch false load' (nm "P") (nm "P") /\
  exists a, run_query ch false load' (QRefinement (nm "M") (nm "P")) = Ok a /\ satisfied a = false.
Proof.
  exists (plain_choices 30), p_load, (storing "M" p_made p_load), p_made, 3, (one_s p_two), (one_t p_two).
  split; [apply plain_fair|]. split.
  { intros n c H. unfold p_load in H. destruct (String.eqb n "P"); [|discriminate]. injection H as <-. split; [split; [repeat constructor; cbn; intuition discriminate|split; [repeat constructor; cbn; intuition discriminate|intros x i [[= <- <-]|[]]; cbn; lia]]|].
    split; [intros e us He; cbn in He; repeat (destruct He as [<-|He]; [cbn; discriminate|]); destruct He|].
    split; [intros l g Hl; cbn in Hl; repeat (destruct Hl as [<-|Hl]; [cbn; discriminate|]); destruct Hl|intros e g He; cbn in He; repeat (destruct He as [<-|He]; [cbn; discriminate|]); destruct He]. }
  split; [reflexivity|]. split; [vm_compute; reflexivity|]. split; [apply two_names; two_ok|]. split; [left; reflexivity|]. split; [intros []|]. split; [apply told_yes; vm_compute; reflexivity|].
  eexists. split; [vm_compute; reflexivity|]. reflexivity.
Qed.
Print Assumptions C63_lost_actions.
