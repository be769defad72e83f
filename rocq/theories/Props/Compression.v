(** C29 (clock numbers after reduction) and C46 (reduction keeps the behaviour). *)
From Coq Require Import List String Ascii ZArith QArith Bool Arith Lia Lqa Permutation.
From Verif Require Import Fed.Zone Fed.ZoneFacts Fed.Check Model.Base Model.Expr Model.Guard Model.Loc Model.Component Model.TS Model.ParseQuery Model.Recipe Model.Reduce
  Spec.StepSpec Spec.SystemSpec Spec.RunSpec Spec.RefineSpec Spec.EnableSpec Spec.IdSpec Spec.RecipeSpec Spec.ReduceSpec Spec.SameSpec
  Proofs.SystemFacts Proofs.WfFacts Proofs.ReadsFacts Proofs.RunFacts Proofs.ReduceFacts Proofs.ClockFacts Proofs.RecipeFacts Proofs.RenFacts Proofs.SameFacts Proofs.BisimFacts
  Proofs.ShrinkFacts Proofs.CompressFacts Proofs.InstrFacts Props.Examples Props.Enabling Props.Ids Props.Recipes Props.Reduction.
Import ListNotations.
Local Open Scope string_scope.
Local Open Scope list_scope.
Local Open Scope nat_scope.

Lemma loaded_once load e r dim q : (forall n c, load n = Some c -> clocks_numbered (c_decls c)) -> get_system_recipe load e (0, None) = Ok (r, (dim, q)) -> named_once r.
Proof.
  intros L E. destruct (C29_numbering load e r dim q L E) as (I & _). intros c Hc. destruct (instance_component _ _ _ I _ Hc) as (n & c0 & Ln & (_ & _ & _ & _ & R)). rewrite R. apply (L n c0 Ln).
Qed.

(** C29, after the reduction of one system.  The full claim: the clocks in use are again exactly 1..dim', each quotient
    has the clock dim' and no component shares it.  It holds if the clock of the quotients is not reported as
    equivalent to a clock with a lower number; the reduction then never fails. *)
Theorem C29_reduced_partial : forall least pre minc ord cord gord fuel load e r dim q s xs,
  (forall n c, load n = Some c -> clocks_numbered (c_decls c) /\ good_resets c /\ named_guards c) ->
  get_system_recipe load e (0, None) = Ok (r, (dim, q)) ->
  describes (dim + 1) minc -> same_elements ord -> reorders cord -> reorders gord -> (Z.of_nat (dim + 1) < 4294967295)%Z ->
  compile least pre dim r = Ok s -> find_redundant_clocks (dim + 1) minc ord cord gord fuel s = Ok xs ->
  (forall i others q', In (ReplaceClocks i others) xs -> q = Some q' -> i <> q' -> ~ In q' others) ->
  exists r' dim', clock_reduce least pre (fun d => find_redundant_clocks d minc ord cord gord fuel) r None dim q = Ok (r', None, dim') /\ dim' <= dim /\
    (forall i, In i (all_numbers r') \/ (q <> None /\ i = dim') <-> 1 <= i <= dim') /\
    (forall q', In q' (quotient_clocks r') -> q' = dim' /\ q <> None) /\
    (q <> None -> ~ In dim' (all_numbers r')).
Proof.
  intros least pre minc ord cord gord fuel load e r dim q s xs L E M So Co Go Sm Cs Fx Hq.
  destruct (C29_numbering load e r dim q (fun n c H => proj1 (L n c H)) E) as (I & B & P & Q & N). pose proof (loaded_once load e r dim q (fun n c H => proj1 (L n c H)) E) as Hn.
  destruct (C29_compiled least pre load e r dim q s L E Cs) as (Bu & Cc & Ck & Rd).
  unfold clock_reduce. destruct (Nat.eqb_spec dim 0) as [Ez|Nz].
  { exists r, dim. split; [reflexivity|]. subst dim. apply Permutation_length in P. rewrite app_length in P. cbn in P. destruct q as [q'|]; cbn in P; [lia|]. destruct (all_numbers r); [|cbn in P; lia].
    split; [lia|]. split; [intros i; cbn; split; [intros [[]|[H _]]; congruence|lia]|]. split; [intros q' H; specialize (Q q' H); discriminate|congruence]. }
  unfold find_redundant_clocks in Fx. destruct (analysis_graph (dim + 1) minc ord fuel s) as [g| | |] eqn:G; try discriminate. injection Fx as <-.
  assert (Qg : forall grp q', In grp (equivalent_groups gord g) -> q = Some q' -> lowest grp <> q' -> ~ In q' grp).
  { intros grp q' Hg Eq Hl Hi. apply (Hq (lowest grp) (others grp) q'); auto.
    - unfold redundancies. apply in_or_app. right. apply in_map_iff. exists grp. auto.
    - apply others_In. auto. }
  unfold clock_reduce_single. rewrite Cs. cbn [bind]. unfold find_redundant_clocks. rewrite G. cbn [bind]. rewrite carried.
  set (us := carried_us (q_default q) (cord (unused_clocks (dim + 1) g))). set (gs := carried_gs (q_default q) (equivalent_groups gord g)).
  destruct (us_facts dim q r cord gord s g Co P Ck Sm Qg) as (Nu & Iu & _). fold us in Nu, Iu.
  destruct (gs_facts dim q r minc ord cord gord fuel s g So Co Go M P Bu Rd Ck Cc Sm G Qg) as (Ng & Ig & Ug & _). fold us in Ug. fold gs in Ng, Ig, Ug.
  set (xs := map RemoveClock us ++ map replace_group gs).
  destruct (shrink_numbers r dim q us gs Hn P Nu Iu) as (r1 & E1 & A & Bq). fold xs in E1.
  pose proof (shrink_count r dim q us gs P Nu Iu Ng Ig Ug _ eq_refl) as W. rewrite <- A in W. fold xs in W.
  unfold minus_usize. destruct (Nat.ltb_spec dim (total_removed xs)) as [Lt|_]; [lia|]. cbn [bind]. rewrite E1. cbn [bind].
  eexists _, (dim - total_removed xs). split; [reflexivity|]. split; [lia|].
  destruct (compressed_facts (all_clocks r1)) as (F1 & F2 & F3 & _). change (all_clocks r1) with (all_numbers r1) in *.
  assert (Num : forall i, In i (all_numbers (match q with Some _ => change_quotient (dim - total_removed xs) (map_components (map_clocks (compressed (all_numbers r1))) r1) | None => map_components (map_clocks (compressed (all_numbers r1))) r1 end)) <-> 1 <= i <= distinct (all_numbers r1)).
  { intros i. replace (all_numbers _) with (map (compressed (all_numbers r1)) (all_numbers r1)) by (destruct q; rewrite ?all_numbers_change, all_numbers_map; reflexivity).
    rewrite in_map_iff. split; [intros (k & <- & Hk); auto|]. intros H. destruct (F3 i H) as (k & Hk & Ek). eauto. }
  split; [|split].
  - intros i. rewrite Num. destruct q as [q'|]; cbn in W; [|split; [intros [H|[H _]]; [lia|congruence]|intros H; left; lia]].
    split; [intros [H|[_ ->]]; lia|]. intros H. destruct (Nat.eq_dec i (dim - total_removed xs)) as [->|Ne]; [right; split; [discriminate|reflexivity]|left; lia].
  - intros q' Hq'. destruct q as [q0|]; [split; [eapply quotients_change; eauto|discriminate]|]. rewrite quotients_map, Bq in Hq'. specialize (Q q' Hq'). discriminate.
  - intros Nq H. apply Num in H. destruct q as [q0|]; [cbn in W; lia|congruence].
Qed.
Print Assumptions C29_reduced_partial.

Lemma free_compiled least pre d r : forall k s k', quotient_clocks r = [] -> compile_at least pre d r k = Ok (s, k') -> quotient_free s = true.
Proof.
  induction r as [c|a IHa b IHb|a IHa b IHb|a IHa b IHb q']; intros k s k' Z C0; cbn [compile_at quotient_clocks] in *.
  - destruct (compile_component _ _ _); cbn in C0; try discriminate. injection C0 as <- <-. reflexivity.
  - apply app_eq_nil in Z. destruct Z as [Za Zb]. destruct (compile_at least pre d a k) as [[sa ka]| | |] eqn:Ea; cbn [bind] in C0; try discriminate.
    destruct (compile_at least pre d b ka) as [[sb kb]| | |] eqn:Eb; cbn [bind] in C0; try discriminate.
    destruct (composition_new sa sb) as [x| | |] eqn:Ex; cbn [bind] in C0; try discriminate. injection C0 as <- <-. unfold composition_new in Ex. destruct (negb _); [discriminate|]. injection Ex as <-.
    cbn [quotient_free]. rewrite (IHa _ _ _ Za Ea), (IHb _ _ _ Zb Eb). reflexivity.
  - apply app_eq_nil in Z. destruct Z as [Za Zb]. destruct (compile_at least pre d a k) as [[sa ka]| | |] eqn:Ea; cbn [bind] in C0; try discriminate.
    destruct (compile_at least pre d b ka) as [[sb kb]| | |] eqn:Eb; cbn [bind] in C0; try discriminate.
    unfold conjunction_ts in C0. destruct (conjunction_new sa sb) as [x| | |] eqn:Ex; cbn [bind] in C0; try discriminate. destruct (least d x) as [[]| | |]; cbn [bind] in C0; try discriminate.
    injection C0 as <- <-. unfold conjunction_new in Ex. destruct (negb _); [discriminate|]. destruct (negb _); [discriminate|]. injection Ex as <-.
    cbn [quotient_free]. rewrite (IHa _ _ _ Za Ea), (IHb _ _ _ Zb Eb). reflexivity.
  - discriminate.
Qed.

(** C46.  The full claim: the system that is compiled after the reduction behaves like the one that would be compiled
    without it: a bisimulation relates their initial states.  It holds if location names are plain, no removed clock is
    mentioned by a guard or an invariant, and clocks are only merged in systems without quotients. *)
Theorem C46_same_partial : forall least pre minc ord cord gord fuel load e r dim q s xs r' o dim' s',
  (forall n c, load n = Some c -> clocks_numbered (c_decls c) /\ good_resets c /\ named_guards c) ->
  get_system_recipe load e (0, None) = Ok (r, (dim, q)) ->
  describes (dim + 1) minc -> same_elements ord -> reorders cord -> reorders gord -> (Z.of_nat (dim + 1) < 4294967295)%Z ->
  compile least pre dim r = Ok s -> plain_names s -> small_values s ->
  find_redundant_clocks (dim + 1) minc ord cord gord fuel s = Ok xs ->
  (forall c n i, In c (components r) -> In (n, i) (d_clocks (c_decls c)) -> In (RemoveClock i) xs ->
    (forall l g, In l (c_locs c) -> l_inv l = Some g -> b_has_var g n = false) /\ (forall e g, In e (c_edges c) -> e_guard e = Some g -> b_has_var g n = false)) ->
  (q = None \/ forall i others, ~ In (ReplaceClocks i others) xs) ->
  clock_reduce least pre (fun d => find_redundant_clocks d minc ord cord gord fuel) r None dim q = Ok (r', o, dim') ->
  compile least pre dim' r' = Ok s' ->
  same_behaviour (dim + 1) s (dim' + 1) s'.
Proof.
  intros least pre minc ord cord gord fuel load e r dim q s xs r' o dim' s' L E M So Co Go Sm Cs Pn Sv Fx Un Qf Er Cs'.
  destruct (C29_numbering load e r dim q (fun n c H => proj1 (L n c H)) E) as (I & B & P & Q & N). pose proof (loaded_once load e r dim q (fun n c H => proj1 (L n c H)) E) as Hn.
  destruct (C29_compiled least pre load e r dim q s L E Cs) as (Bu & Cc & Ck & Rd).
  pose proof (names_keyed (dim + 1) s Bu Pn) as K.
  assert (Cp : forall c, In c (components r) -> named_guards c).
  { intros c Hc. destruct (instance_component _ _ _ I _ Hc) as (n & c0 & Ln & Re). eapply named_guards_re; [exact Re|]. apply (L _ _ Ln). }
  assert (Fin : forall us gs g, analysis_graph (dim + 1) minc ord fuel s = Ok g ->
    NoDup us -> incl us (all_numbers r) -> NoDup (List.concat gs) -> incl (List.concat gs) (all_numbers r) -> (forall i, In i us -> ~ In i (List.concat gs)) -> unread_all (drop us) r ->
    incl gs (equivalent_groups gord g) -> (q = None \/ gs = []) ->
    r' = ren_recipe (shrink r dim q us gs) r -> dim' = dim - total_removed (map RemoveClock us ++ map replace_group gs) -> same_behaviour (dim + 1) s (dim' + 1) s').
  { intros us gs g G Nu Iu Ng Ig Ug U Gs Hgs Hr Hd.
    pose proof (shrink_renames r dim q us gs P Q Nu Iu Ng Ig Ug) as RN. rewrite <- Hd in RN.
    unfold compile in Cs, Cs'. destruct (compile_at least pre (dim + 1) r 0) as [[s0 k0]| | |] eqn:C0; try discriminate. injection Cs as ->.
    destruct (compile_at least pre (dim' + 1) r' 0) as [[s1 k1]| | |] eqn:C1; try discriminate. injection Cs' as ->. rewrite Hr in C1.
    assert (S : srel (shrink r dim q us gs) (dim + 1) (dim' + 1) s s').
    { eapply (system_ren (shrink r dim q us gs) (dim + 1) (dim' + 1) RN least pre least pre r); [| |exact C0|exact C1].
      - intros c Hc. split; [apply Hn, Hc|]. split; [apply Cp, Hc|]. apply shrink_unread with (dim := dim); auto.
      - intros q' Hq'. eexists. apply shrink_q; auto. }
    assert (J : quotient_free s = true \/ injective (shrink r dim q us gs)).
    { destruct Hgs as [Hq|Hg]; [left|right; apply shrink_injective; auto]. apply (free_compiled least pre (dim + 1) r 0 s k0); [|exact C0].
      destruct (quotient_clocks r) as [|x l]; [reflexivity|]. specialize (Q x (or_introl eq_refl)). congruence. }
    apply (sim_same (shrink r dim q us gs) (dim + 1) (dim' + 1) (match q with Some q => q | None => 0 end) s s' RN S Ck ltac:(lia) ltac:(lia) J).
    intros l a t El O i k j u Hi Hk F. destruct (shrink_same r dim q us gs P Q Nu Iu Ng Ig Ug i k j Hi Hk) as [->|(grp & Hg & Gi & Gk)]; [eauto|].
    pose proof (carried_groups dim q r minc ord gord fuel s g So Go M P Bu Rd Ck Cc Sm G) as [_ _ _ Same].
    destruct (graph_exact (dim + 1) minc ord So s fuel g Bu K G) as [_ Ex].
    specialize (Same grp i k (edge_of minc l a t) (Gs _ Hg) Gi Gk). cbn [edge_of ae_updates] in Same.
    assert (Y : local_value (t_updates t) i = local_value (t_updates t) k) by (apply Same, Ex; exists l, a, t; auto).
    destruct O as (Ha & ts & Et & Ht). destruct (next_fine (dim + 1) _ s Ck l a ts Et t Ht) as [[Uo _] _].
    assert (V : forall x w, find (fun u => Nat.eqb (u_clock u) x) (rev (t_updates t)) = Some w -> (0 <= u_value w < 4294967296)%Z).
    { intros x w Fw. apply find_some in Fw. destruct Fw as [Fw _]. apply in_rev in Fw. destruct (Uo w Fw) as (_ & _ & U0). split; [exact U0|]. eapply next_small; eauto. }
    unfold local_value in Y. rewrite F in Y. cbn in Y. destruct (find (fun u0 => Nat.eqb (u_clock u0) i) (rev (t_updates t))) as [w|] eqn:Fi; cbn in Y; [|discriminate].
    exists w. split; [reflexivity|]. injection Y as Y. rewrite !Z.mod_small in Y by eauto. exact Y. }
  unfold find_redundant_clocks in Fx. destruct (analysis_graph (dim + 1) minc ord fuel s) as [g| | |] eqn:G; try discriminate. injection Fx as <-.
  assert (Ge : q = None \/ equivalent_groups gord g = []).
  { destruct Qf as [H|H]; [left; exact H|right]. destruct (equivalent_groups gord g) as [|grp gs] eqn:Eg; [reflexivity|]. exfalso. apply (H (lowest grp) (others grp)).
    unfold redundancies. rewrite Eg. apply in_or_app. right. left. reflexivity. }
  assert (Qg : forall grp q', In grp (equivalent_groups gord g) -> q = Some q' -> lowest grp <> q' -> ~ In q' grp).
  { intros grp q' Hg Eq. destruct Ge as [H|H]; [congruence|]. rewrite H in Hg. destruct Hg. }
  unfold clock_reduce in Er. destruct (Nat.eqb_spec dim 0) as [Ez|Nz].
  - injection Er as <- _ <-. apply (Fin [] [] g eq_refl); [constructor|intros ? []|constructor|intros ? []|intros ? []| |intros ? []|right; reflexivity| |].
    + intros c' Hc' n i Hi X. discriminate.
    + assert (Er : forall i, In i (all_numbers r) -> False). { intros i Hi. assert (X : In i (seq 1 dim)) by (apply (Permutation_in _ P), in_or_app; auto). subst dim. destruct X. }
      assert (Zq : quotient_clocks r = []). { destruct (quotient_clocks r) as [|x l]; [reflexivity|]. specialize (Q x (or_introl eq_refl)). subst q dim. apply Permutation_length in P. rewrite app_length in P. cbn in P. lia. }
      rewrite <- (ren_recipe_change (shrink r dim q [] []) (fun c => c) 0 r).
      * rewrite change_none; [symmetry; apply map_components_id; auto|rewrite quotients_map; exact Zq].
      * intros c Hc. symmetry. apply ren_comp_id. intros i Hi. destruct (Er i). eapply component_numbers; eauto.
      * rewrite Zq. intros ? [].
    + cbn. lia.
  - unfold clock_reduce_single in Er. rewrite Cs in Er. cbn [bind] in Er. unfold find_redundant_clocks in Er. rewrite G in Er. cbn [bind] in Er. rewrite carried in Er.
    set (us := carried_us (q_default q) (cord (unused_clocks (dim + 1) g))) in *. set (gs := carried_gs (q_default q) (equivalent_groups gord g)) in *.
    destruct (us_facts dim q r cord gord s g Co P Ck Sm Qg) as (Nu & Iu & Xu). fold us in Nu, Iu, Xu.
    destruct (gs_facts dim q r minc ord cord gord fuel s g So Co Go M P Bu Rd Ck Cc Sm G Qg) as (Ng & Ig & Ug & Gs). fold us in Ug. fold gs in Ng, Ig, Ug, Gs.
    assert (U : unread_all (drop us) r).
    { intros c Hc n i Hi X. apply (Un c n i Hc Hi). unfold drop in X. destruct (nin i us) eqn:Y; [|discriminate]. apply nin_In in Y. apply Xu in Y. destruct Y as [Y _].
      unfold redundancies. apply in_or_app. left. apply in_map. apply (Permutation_in _ (Permutation_sym (Co _))). exact Y. }
    destruct (whole_reduce r dim q us gs Hn P Q Nu Iu U) as (r1 & E1 & W).
    pose proof (shrink_count r dim q us gs P Nu Iu Ng Ig Ug _ eq_refl) as Wc.
    unfold minus_usize in Er. destruct (Nat.ltb_spec dim (total_removed (map RemoveClock us ++ map replace_group gs))) as [Lt|_]; [lia|]. cbn [bind] in Er. rewrite E1 in Er. cbn [bind] in Er.
    injection Er as Er _ Ed. apply (Fin us gs g eq_refl); auto.
    + destruct Ge as [H|H]; [auto|right]. unfold gs. rewrite H. reflexivity.
    + rewrite <- W. symmetry. exact Er.
Qed.
Print Assumptions C46_same_partial.

(** The quotient clock takes part in the merging of clocks: C || (A \\ B), where C has the clocks x = 1 and y = 2 and the
    quotient has the clock 3.  Whenever x is reset so is the quotient clock: they are merged; the clock of y becomes 2
    and so does the clock of the quotient. *)
Definition qa_c : component :=
  mkComp "C" (mkDecls [("x", 1); ("y", 2)] [])
    [mkL "c0" None Initial "NORMAL"; mkL "c1" None Normal "NORMAL"; mkL "c2" None Normal "NORMAL"]
    [mkE "E1" "c0" "c0" SInput (Some (BAnd (BLessEQ (AVar "x") (AInt 9)) (BLessEQ (AVar "y") (AInt 9)))) (Some [("y", AInt 0)]) "b";
     mkE "E2" "c0" "c1" SInput None (Some [("x", AInt 0)]) "a";
     mkE "E3" "c1" "c2" SInput (Some (BGreatEQ (AVar "y") (AInt 1))) None "b"] None.
Definition qa_a : component :=
  mkComp "A" (mkDecls [] []) [mkL "t0" None Initial "NORMAL"; mkL "t1" None Normal "NORMAL"] [mkE "E1" "t1" "t1" SOutput None None "a"] None.
Definition qa_b : component :=
  mkComp "B" (mkDecls [] []) [mkL "s0" None Initial "NORMAL"] [mkE "E1" "s0" "s0" SOutput None None "a"] None.
Definition qa_load (n : string) : option component :=
  if String.eqb n "C" then Some qa_c else if String.eqb n "A" then Some qa_a else if String.eqb n "B" then Some qa_b else None.
Definition qa_query : sysx := XPar (XComp "C" None) (XQuot (XComp "A" None) (XComp "B" None)).
Definition qa_recipe : recipe := fst (get (no_recipe, (0, None)) (get_system_recipe qa_load qa_query (0, None))).
Definition qa_ts : ts := get ts_m (compile no_check no_check 3 qa_recipe).
Definition qa_after : recipe * option recipe * nat :=
  get (no_recipe, None, 0) (clock_reduce no_check no_check (fun d => find_redundant_clocks d (min_univ 4) (fun l => l) (fun l => l) (fun l => l) 10) qa_recipe None 3 (Some 3)).
Definition qa_ts' : ts := get ts_m (compile no_check no_check 2 (fst (fst qa_after))).
Lemma qa_load_ok : forall n c, qa_load n = Some c -> clocks_numbered (c_decls c) /\ good_resets c /\ named_guards c.
Proof.
  intros n c. unfold qa_load. destruct (String.eqb n "C"); [intros [= <-]|destruct (String.eqb n "A"); [intros [= <-]|destruct (String.eqb n "B"); [intros [= <-]|discriminate]]].
  - split; [split; [repeat constructor; cbn; intuition discriminate|split; [repeat constructor; cbn; intuition discriminate|intros x i [[= <- <-]|[[= <- <-]|[]]]; cbn; lia]]|].
    split; [|split; [intros l g [<-|[<-|[<-|[]]]]; discriminate|intros e g [<-|[<-|[<-|[]]]]; cbn; intros [= <-]; reflexivity]].
    intros e us [<-|[<-|[<-|[]]]]; cbn; intros [= <-]; (split; [intros x k [[= <- <-]|[]]; lia|intros x a b [[= <- <-]|[]] [[= <-]|[]]; reflexivity]).
  - split; [split; [constructor|split; [constructor|intros x i []]]|]. split; [intros e us [<-|[]]; discriminate|split; [intros l g [<-|[<-|[]]]; discriminate|intros e g [<-|[]]; discriminate]].
  - split; [split; [constructor|split; [constructor|intros x i []]]|]. split; [intros e us [<-|[]]; discriminate|split; [intros l g [<-|[]]; discriminate|intros e g [<-|[]]; discriminate]].
Qed.
Lemma qa_facts : get_system_recipe qa_load qa_query (0, None) = Ok (qa_recipe, (3, Some 3)) /\ compile no_check no_check 3 qa_recipe = Ok qa_ts /\
  clock_reduce no_check no_check (fun d => find_redundant_clocks d (min_univ 4) (fun l => l) (fun l => l) (fun l => l) 10) qa_recipe None 3 (Some 3) = Ok qa_after /\
  qa_after = (fst (fst qa_after), None, 2) /\ compile no_check no_check 2 (fst (fst qa_after)) = Ok qa_ts'.
Proof. repeat split; vm_compute; reflexivity. Qed.

(** Without the condition on the quotient clock, C29 fails: after the reduction a quotient uses the clock of a component. *)
Theorem C29_quotient_refuted : exists least pre minc ord cord gord fuel load e r dim q r' dim' i,
  (forall n c, load n = Some c -> clocks_numbered (c_decls c) /\ good_resets c /\ named_guards c) /\
  get_system_recipe load e (0, None) = Ok (r, (dim, q)) /\ describes (dim + 1) minc /\ same_elements ord /\ reorders cord /\ reorders gord /\ (Z.of_nat (dim + 1) < 4294967295)%Z /\
  clock_reduce least pre (fun d => find_redundant_clocks d minc ord cord gord fuel) r None dim q = Ok (r', None, dim') /\
  In i (quotient_clocks r') /\ In i (all_numbers r').
Proof.
  exists no_check, no_check, (min_univ 4), (fun l => l), (fun l => l), (fun l => l), 10, qa_load, qa_query, qa_recipe, 3, (Some 3), (fst (fst qa_after)), 2, 2.
  destruct qa_facts as (E & _ & R & A & _). rewrite R, A at 1.
  split; [exact qa_load_ok|]. split; [exact E|]. split; [apply min_univ_describes; lia|]. split; [intros l x; reflexivity|]. split; [intros l; reflexivity|]. split; [intros l; reflexivity|].
  split; [reflexivity|]. split; [reflexivity|]. split; vm_compute; tauto.
Qed.
Print Assumptions C29_quotient_refuted.

Fixpoint small_valuesb (s : ts) : bool :=
  match s with
  | TSimple c => forallb (fun p => forallb (fun q => forallb (fun u => Z.ltb (u_value u) 4294967296) (t_updates (snd q))) (snd p)) (cc_edges c)
  | TConj l r _ _ | TComp l r _ _ _ _ _ => small_valuesb l && small_valuesb r
  | TQuot t d _ _ _ _ => small_valuesb t && small_valuesb d
  end.
Lemma small_check s : small_valuesb s = true -> small_values s.
Proof.
  induction s; cbn; intros H; try (apply andb_true_iff in H; destruct H; auto; fail).
  intros i es a t u Hi Ht Hu. rewrite forallb_forall in H. specialize (H _ Hi). cbn in H. rewrite forallb_forall in H. specialize (H _ Ht). cbn in H. rewrite forallb_forall in H. specialize (H _ Hu).
  apply Z.ltb_lt. exact H.
Qed.

Definition plain_nameb (n : string) : bool := forallb (fun c => negb (existsb (Ascii.eqb c) marks)) (list_ascii_of_string n) && negb (String.eqb n "_").
Fixpoint plain_idb (i : locid) : bool :=
  match i with
  | LConj a b | LComp a b | LQuot a b => plain_idb a && plain_idb b
  | LSimple n => plain_nameb n
  | LSpecial _ | LAny => true
  end.
Fixpoint plain_namesb (s : ts) : bool :=
  match s with
  | TSimple c => forallb (fun l => plain_idb (lt_id l)) (cc_locs c)
  | TConj l r _ _ | TComp l r _ _ _ _ _ => plain_namesb l && plain_namesb r
  | TQuot t d _ _ _ _ => plain_namesb t && plain_namesb d
  end.
Lemma names_check s : plain_namesb s = true -> plain_names s.
Proof.
  assert (I : forall i, plain_idb i = true -> plain_id i).
  { induction i; cbn; intros H; try (apply andb_true_iff in H; destruct H; auto; fail); auto. apply plain_check. exact H. }
  induction s; cbn; intros H; try (apply andb_true_iff in H; destruct H; auto; fail).
  intros l Hl. rewrite forallb_forall in H. apply I, H, Hl.
Qed.

(** A step of a system whose transitions are computed. *)
Lemma offered_by dim s l a ts t : has_action s a = true -> next_transitions dim s l a = Ok ts -> In t ts -> offered dim s l a t.
Proof. intros H E Ht. split; [apply has_action_spec, H|eauto]. Qed.
Lemma offered_in dim s l a ts t : next_transitions dim s l a = Ok ts -> offered dim s l a t -> In t ts.
Proof. intros E (_ & ts' & E' & Ht). rewrite E in E'. injection E' as <-. exact Ht. Qed.

Definition first_of (dim : nat) (s : ts) (l : loctree) (a : string) : transition := nth 0 (get [] (next_transitions dim s l a)) (t_without_id lt_any).
Definition start_of (dim : nat) (s : ts) : loctree := match initial_location dim s with Some l => l | None => lt_any end.

(** The same system shows that C46 needs its condition on quotients: after one time unit, a and b are possible before
    the reduction, and b is impossible after it. *)
Theorem C46_quotient_refuted : exists least pre minc ord cord gord fuel load e r dim q s r' dim' s',
  (forall n c, load n = Some c -> clocks_numbered (c_decls c) /\ good_resets c /\ named_guards c) /\
  get_system_recipe load e (0, None) = Ok (r, (dim, q)) /\ describes (dim + 1) minc /\ same_elements ord /\ reorders cord /\ reorders gord /\ (Z.of_nat (dim + 1) < 4294967295)%Z /\
  compile least pre dim r = Ok s /\ plain_names s /\ small_values s /\
  clock_reduce least pre (fun d => find_redundant_clocks d minc ord cord gord fuel) r None dim q = Ok (r', None, dim') /\
  compile least pre dim' r' = Ok s' /\ ~ same_behaviour (dim + 1) s (dim' + 1) s'.
Proof.
  exists no_check, no_check, (min_univ 4), (fun l => l), (fun l => l), (fun l => l), 10, qa_load, qa_query, qa_recipe, 3, (Some 3), qa_ts, (fst (fst qa_after)), 2, qa_ts'.
  destruct qa_facts as (E & C & R & A & C'). rewrite R, A at 1.
  split; [exact qa_load_ok|]. split; [exact E|]. split; [apply min_univ_describes; lia|]. split; [intros l x; reflexivity|]. split; [intros l; reflexivity|]. split; [intros l; reflexivity|].
  split; [reflexivity|]. split; [exact C|].
  split; [apply names_check; vm_compute; reflexivity|].
  split; [apply small_check; vm_compute; reflexivity|]. split; [reflexivity|]. split; [exact C'|].
  intros (_ & _ & Rel & B & I).
  set (l0 := start_of 4 qa_ts). set (l0' := start_of 3 qa_ts'). change (Rel (l0, zero_val) (l0', zero_val)) in I.
  apply (bs_delay _ _ _ _ _ B _ _ _ _ 1%Q) in I; [|discriminate].
  set (t1 := first_of 4 qa_ts l0 "a"). set (t1' := first_of 3 qa_ts' l0' "a").
  destruct (bs_forth _ _ _ _ _ B _ _ _ _ "a" t1 I) as (u1 & O1 & _ & I1).
  { eapply offered_by; vm_compute; [reflexivity|reflexivity|left; reflexivity]. }
  { apply able_yes. vm_compute. reflexivity. }
  apply (offered_in 3 qa_ts' l0' "a" [t1']) in O1; [|vm_compute; reflexivity]. destruct O1 as [<-|[]].
  set (t2 := first_of 4 qa_ts (t_target t1) "b"). set (t2' := first_of 3 qa_ts' (t_target t1') "b").
  destruct (bs_forth _ _ _ _ _ B _ _ _ _ "b" t2 I1) as (u2 & O2 & Y2 & _).
  { eapply offered_by; vm_compute; [reflexivity|reflexivity|left; reflexivity]. }
  { apply able_yes. vm_compute. reflexivity. }
  apply (offered_in 3 qa_ts' (t_target t1') "b" [t2']) in O2; [|vm_compute; reflexivity]. destruct O2 as [<-|[]].
  apply ableb_spec in Y2. vm_compute in Y2. discriminate.
Qed.
Print Assumptions C46_quotient_refuted.

(** A clock that is only compared with its lowest possible value counts as unused, because such a guard leaves no
    constraint; removing the clock then replaces the guard x >= 0 by false, and the output o is lost. *)
Definition gz_c : component :=
  mkComp "G" (mkDecls [("x", 1)] []) [mkL "g0" None Initial "NORMAL"; mkL "g1" None Normal "NORMAL"]
    [mkE "E1" "g0" "g1" SOutput (Some (BGreatEQ (AVar "x") (AInt 0))) (Some [("x", AInt 0)]) "o"] None.
Definition gz_load (n : string) : option component := if String.eqb n "G" then Some gz_c else None.
Definition gz_query : sysx := XComp "G" None.
Definition gz_recipe : recipe := fst (get (no_recipe, (0, None)) (get_system_recipe gz_load gz_query (0, None))).
Definition gz_ts : ts := get ts_m (compile no_check no_check 1 gz_recipe).
Definition gz_after : recipe * option recipe * nat :=
  get (no_recipe, None, 0) (clock_reduce no_check no_check (fun d => find_redundant_clocks d (min_univ 2) (fun l => l) (fun l => l) (fun l => l) 10) gz_recipe None 1 None).
Definition gz_ts' : ts := get ts_m (compile no_check no_check 0 (fst (fst gz_after))).
Lemma gz_load_ok : forall n c, gz_load n = Some c -> clocks_numbered (c_decls c) /\ good_resets c /\ named_guards c.
Proof.
  intros n c. unfold gz_load. destruct (String.eqb n "G"); [intros [= <-]|discriminate].
  split; [split; [repeat constructor; cbn; intuition discriminate|split; [repeat constructor; cbn; intuition discriminate|intros x i [[= <- <-]|[]]; cbn; lia]]|].
  split; [|split; [intros l g [<-|[<-|[]]]; discriminate|intros e g [<-|[]]; cbn; intros [= <-]; reflexivity]].
  intros e us [<-|[]]; cbn; intros [= <-]; (split; [intros x k [[= <- <-]|[]]; lia|intros x a b [[= <- <-]|[]] [[= <-]|[]]; reflexivity]).
Qed.
Lemma gz_facts : get_system_recipe gz_load gz_query (0, None) = Ok (gz_recipe, (1, None)) /\ compile no_check no_check 1 gz_recipe = Ok gz_ts /\
  clock_reduce no_check no_check (fun d => find_redundant_clocks d (min_univ 2) (fun l => l) (fun l => l) (fun l => l) 10) gz_recipe None 1 None = Ok gz_after /\
  gz_after = (fst (fst gz_after), None, 0) /\ compile no_check no_check 0 (fst (fst gz_after)) = Ok gz_ts'.
Proof. repeat split; vm_compute; reflexivity. Qed.

Theorem C46_unused_refuted : exists least pre minc ord cord gord fuel load e r dim s r' dim' s',
  (forall n c, load n = Some c -> clocks_numbered (c_decls c) /\ good_resets c /\ named_guards c) /\
  get_system_recipe load e (0, None) = Ok (r, (dim, None)) /\ describes (dim + 1) minc /\ silent (dim + 1) minc /\ same_elements ord /\ reorders cord /\ reorders gord /\ (Z.of_nat (dim + 1) < 4294967295)%Z /\
  compile least pre dim r = Ok s /\ plain_names s /\ small_values s /\
  clock_reduce least pre (fun d => find_redundant_clocks d minc ord cord gord fuel) r None dim None = Ok (r', None, dim') /\
  compile least pre dim' r' = Ok s' /\ ~ same_behaviour (dim + 1) s (dim' + 1) s'.
Proof.
  exists no_check, no_check, (min_univ 2), (fun l => l), (fun l => l), (fun l => l), 10, gz_load, gz_query, gz_recipe, 1, gz_ts, (fst (fst gz_after)), 0, gz_ts'.
  destruct gz_facts as (E & C & R & A & C'). rewrite R, A at 1.
  split; [exact gz_load_ok|]. split; [exact E|]. split; [apply min_univ_describes; lia|]. split; [apply min_univ_silent|]. split; [intros l x; reflexivity|]. split; [intros l; reflexivity|]. split; [intros l; reflexivity|].
  split; [reflexivity|]. split; [exact C|].
  split; [apply names_check; vm_compute; reflexivity|].
  split; [apply small_check; vm_compute; reflexivity|]. split; [reflexivity|]. split; [exact C'|].
  intros (_ & _ & Rel & B & I).
  set (l0 := start_of 2 gz_ts). set (l0' := start_of 1 gz_ts'). change (Rel (l0, zero_val) (l0', zero_val)) in I.
  set (t1 := first_of 2 gz_ts l0 "o"). set (t1' := first_of 1 gz_ts' l0' "o").
  destruct (bs_forth _ _ _ _ _ B _ _ _ _ "o" t1 I) as (u1 & O1 & Y1 & _).
  { eapply offered_by; vm_compute; [reflexivity|reflexivity|left; reflexivity]. }
  { apply able_yes. vm_compute. reflexivity. }
  apply (offered_in 1 gz_ts' l0' "o" [t1']) in O1; [|vm_compute; reflexivity]. destruct O1 as [<-|[]].
  apply ableb_spec in Y1. vm_compute in Y1. discriminate.
Qed.
Print Assumptions C46_unused_refuted.

(** Non-vacuity: D || N has the clocks 1 to 4; one is removed and two are merged, two remain. *)
Definition red_after : recipe * option recipe * nat :=
  get (no_recipe, None, 0) (clock_reduce no_check no_check (fun d => find_redundant_clocks d (min_univ 5) (fun l => l) (fun l => l) (fun l => l) 10) red_recipe None 4 None).
Definition red_ts' : ts := get ts_m (compile no_check no_check 2 (fst (fst red_after))).
Example C29_C46_nonvacuous :
  get_system_recipe red_load (XPar (XComp "D" None) (XComp "N" None)) (0, None) = Ok (red_recipe, (4, None)) /\
  clock_reduce no_check no_check (fun d => find_redundant_clocks d (min_univ 5) (fun l => l) (fun l => l) (fun l => l) 10) red_recipe None 4 None = Ok (fst (fst red_after), None, 2) /\
  all_numbers (fst (fst red_after)) = [1; 1; 2] /\ same_behaviour 5 red_ts 3 red_ts'.
Proof.
  assert (Er : get_system_recipe red_load (XPar (XComp "D" None) (XComp "N" None)) (0, None) = Ok (red_recipe, (4, None))) by (vm_compute; reflexivity).
  assert (Rr : clock_reduce no_check no_check (fun d => find_redundant_clocks d (min_univ 5) (fun l => l) (fun l => l) (fun l => l) 10) red_recipe None 4 None = Ok (fst (fst red_after), None, 2)) by (vm_compute; reflexivity).
  split; [exact Er|]. split; [exact Rr|]. split; [vm_compute; reflexivity|].
  apply (C46_same_partial no_check no_check (min_univ 5) (fun l => l) (fun l => l) (fun l => l) 10 red_load _ red_recipe 4 None red_ts [RemoveClock 3; ReplaceClocks 1 [2]] (fst (fst red_after)) None 2 red_ts' red_load_ok Er).
  - apply min_univ_describes. lia.
  - intros l x. reflexivity.
  - intros l. reflexivity.
  - intros l. reflexivity.
  - reflexivity.
  - vm_compute. reflexivity.
  - apply names_check. vm_compute. reflexivity.
  - apply small_check. vm_compute. reflexivity.
  - vm_compute. reflexivity.
  - intros c n i Hc Hn [Hi|[Hi|[]]]; [injection Hi as <-|discriminate]. vm_compute in Hc. destruct Hc as [<-|[<-|[]]]; cbn in Hn; [destruct Hn as [[=]|[[=]|[[= <-]|[]]]]|destruct Hn as [[=]|[]]].
    split; [intros l g [<-|[<-|[]]]; cbn; intros [= <-]; reflexivity|intros e g [<-|[<-|[]]]; cbn; intros [= <-]; reflexivity].
  - left. reflexivity.
  - exact Rr.
  - vm_compute. reflexivity.
Qed.

(** Non-vacuity with a quotient: the clock of the quotient keeps the last number. *)
Definition rq_t : component :=
  mkComp "T" (mkDecls [("u", 1); ("x", 2)] []) [mkL "t0" None Initial "NORMAL"]
    [mkE "E1" "t0" "t0" SOutput (Some (BLessEQ (AVar "x") (AInt 5))) (Some [("x", AInt 0)]) "a"] None.
Definition rq_load (n : string) : option component := if String.eqb n "T" then Some rq_t else if String.eqb n "S" then Some qa_b else None.
Definition rq_query : sysx := XQuot (XComp "T" None) (XComp "S" None).
Definition rq_recipe : recipe := fst (get (no_recipe, (0, None)) (get_system_recipe rq_load rq_query (0, None))).
Definition rq_ts : ts := get ts_m (compile no_check no_check 3 rq_recipe).
Definition rq_after : recipe * option recipe * nat :=
  get (no_recipe, None, 0) (clock_reduce no_check no_check (fun d => find_redundant_clocks d (min_univ 4) (fun l => l) (fun l => l) (fun l => l) 10) rq_recipe None 3 (Some 3)).
Definition rq_ts' : ts := get ts_m (compile no_check no_check 2 (fst (fst rq_after))).
Lemma rq_load_ok : forall n c, rq_load n = Some c -> clocks_numbered (c_decls c) /\ good_resets c /\ named_guards c.
Proof.
  intros n c. unfold rq_load. destruct (String.eqb n "T"); [intros [= <-]|destruct (String.eqb n "S"); [intros [= <-]; apply (qa_load_ok "B"); reflexivity|discriminate]].
  split; [split; [repeat constructor; cbn; intuition discriminate|split; [repeat constructor; cbn; intuition discriminate|intros x i [[= <- <-]|[[= <- <-]|[]]]; cbn; lia]]|].
  split; [|split; [intros l g [<-|[]]; discriminate|intros e g [<-|[]]; cbn; intros [= <-]; reflexivity]].
  intros e us [<-|[]]; cbn; intros [= <-]; (split; [intros x k [[= <- <-]|[]]; lia|intros x a b [[= <- <-]|[]] [[= <-]|[]]; reflexivity]).
Qed.
Example C29_C46_quotient_nonvacuous :
  get_system_recipe rq_load rq_query (0, None) = Ok (rq_recipe, (3, Some 3)) /\
  find_redundant_clocks 4 (min_univ 4) (fun l => l) (fun l => l) (fun l => l) 10 rq_ts = Ok [RemoveClock 1] /\
  clock_reduce no_check no_check (fun d => find_redundant_clocks d (min_univ 4) (fun l => l) (fun l => l) (fun l => l) 10) rq_recipe None 3 (Some 3) = Ok (fst (fst rq_after), None, 2) /\
  all_numbers (fst (fst rq_after)) = [1] /\ quotient_clocks (fst (fst rq_after)) = [2] /\ same_behaviour 4 rq_ts 3 rq_ts'.
Proof.
  assert (Er : get_system_recipe rq_load rq_query (0, None) = Ok (rq_recipe, (3, Some 3))) by (vm_compute; reflexivity).
  assert (Fr : find_redundant_clocks 4 (min_univ 4) (fun l => l) (fun l => l) (fun l => l) 10 rq_ts = Ok [RemoveClock 1]) by (vm_compute; reflexivity).
  assert (Rr : clock_reduce no_check no_check (fun d => find_redundant_clocks d (min_univ 4) (fun l => l) (fun l => l) (fun l => l) 10) rq_recipe None 3 (Some 3) = Ok (fst (fst rq_after), None, 2)) by (vm_compute; reflexivity).
  split; [exact Er|]. split; [exact Fr|]. split; [exact Rr|]. split; [vm_compute; reflexivity|]. split; [vm_compute; reflexivity|].
  apply (C46_same_partial no_check no_check (min_univ 4) (fun l => l) (fun l => l) (fun l => l) 10 rq_load _ rq_recipe 3 (Some 3) rq_ts [RemoveClock 1] (fst (fst rq_after)) None 2 rq_ts' rq_load_ok Er).
  - apply min_univ_describes. lia.
  - intros l x. reflexivity.
  - intros l. reflexivity.
  - intros l. reflexivity.
  - reflexivity.
  - vm_compute. reflexivity.
  - apply names_check. vm_compute. reflexivity.
  - apply small_check. vm_compute. reflexivity.
  - exact Fr.
  - intros c n i Hc Hn [Hi|[]]. injection Hi as <-. vm_compute in Hc. destruct Hc as [<-|[<-|[]]]; cbn in Hn; [destruct Hn as [[= <-]|[[=]|[]]]|destruct Hn].
    split; [intros l g [<-|[]]; discriminate|intros e g [<-|[]]; cbn; intros [= <-]; reflexivity].
  - right. intros i others [H|[]]. discriminate.
  - exact Rr.
  - vm_compute. reflexivity.
Qed.
