(** C71: a query that is asked again gets the same answer.  The runs may list hash sets in different orders, cut off clock values in
    different ways and remove clocks or not. *)
From Coq Require Import List String ZArith QArith Bool Arith Lia Lqa Permutation.
From Verif Require Import Fed.Zone Fed.ZoneFacts Fed.Check Model.Base Model.Expr Model.Guard Model.Loc Model.Component Model.TS Model.ParseQuery Model.Recipe Model.Reduce Model.Search Model.Refine Model.Query Model.Exec
  Spec.BoundSpec Spec.StepSpec Spec.SystemSpec Spec.RunSpec Spec.ReachSpec Spec.RefineSpec Spec.RecipeSpec Spec.SameSpec Spec.StateSpec Spec.ConsistencySpec Spec.ExecSpec Spec.PlaceSpec
  Proofs.GuardFacts Proofs.StepFacts Proofs.SystemFacts Proofs.WfFacts Proofs.RunFacts Proofs.PlainFacts Proofs.RecipeFacts Proofs.ExecFacts Proofs.ConsFacts Proofs.InstrFacts Proofs.ExtraFacts Proofs.AgainFacts Proofs.AgainReach
  Props.Examples Props.Recipes Props.Determinism Props.Reachability Props.Refinement Props.Consistency Props.Two Props.Systems Props.States Props.Exec Props.Laws Props.Place Props.Print.
Import ListNotations.
Local Open Scope string_scope.
Local Open Scope list_scope.
Local Open Scope nat_scope.

(** A refinement that is said to hold is not denied by naming a behaviour. *)
Theorem C71_refinement_partial : forall ch ch' reduce reduce' load e f d s t, loadable load ->
  trusted_yes ch reduce load e f d s t -> trusted_no ch' reduce' load e f d s t -> yes ch reduce load e f -> ~ no ch' reduce' load e f.
Proof. intros ch ch' reduce reduce' load e f d s t L Ty Tn Y. apply (no_right ch' reduce' load e f d s t L Tn). exact (yes_right ch reduce load e f d s t L Ty Y). Qed.
Print Assumptions C71_refinement_partial.

Lemma initial_waits dim q s start : built dim s -> clocks_ok dim q s -> initial_state dim s = Some start -> In (s_loc start) (all_locations dim s) /\ waits dim start.
Proof.
  intros B K Hi. destruct (initial_state_spec dim s q B K start Hi) as (l0 & El & Es & Hin & Z). split; [rewrite Es; exact Hin|].
  intros w d Hw Hd Iw Id. unfold initial_state in Hi. rewrite El in Hi. unfold state_from_location in Hi.
  assert (Q : fsem dim (finit dim) w -> fsem dim (finit dim) (vdelay w d)).
  { rewrite !finit_sem. intros (e & He & E0 & Ei). exists (e + d)%Q. split; [lra|]. split; [rewrite vdelay_0; exact E0|].
    intros i Hi0 Hid. rewrite vdelay_S by exact Hi0. rewrite (Ei i Hi0 Hid). reflexivity. }
  rewrite Es in Id. destruct s; try (destruct (fempty _ _); [discriminate|]); injection Hi as <-; cbn [s_zone] in *;
    try (apply apply_inv_sem; apply apply_inv_sem in Hw; split; [apply Q, Hw|exact Id]). auto.
Qed.
Lemma reach_run ch reduce load e to r dim q s o : get_system_recipe load e (0, None) = Ok (r, (dim, q)) -> compile unchecked unchecked dim r = Ok s ->
  run_query ch reduce load (QReachability e None to) = Ok (AReachability o) ->
  exists start target, find_path (dim + 1) (ch_fuel ch) s (ch_xext ch (dim + 1) s (s_zone target)) start target = Ok o /\ get_state (dim + 1) to r s = Ok target /\ initial_state (dim + 1) s = Some start.
Proof.
  intros Er Cu E. cbn [run_query] in E. inv_bind E. destruct a as [[[d s'] start] target]. inv_bind E. injection E as ->.
  assert (Cs : compile (the_least ch) (the_pre ch) dim r = Ok s).
  { assert (Z := H). unfold reach_query in Z. rewrite Er in Z. cbn [bind fst] in Z. inv_bind Z. assert (Z' := H1). apply one_unchecked in Z'. rewrite Cu in Z'. injection Z' as <-. exact H1. }
  unfold reach_query in H. rewrite Er in H. cbn [bind fst] in H. rewrite Cs in H. cbn [bind] in H. inv_bind H. inv_bind H. injection H as <- <- <- <-.
  exists a, a0. split; [exact H0|]. split; [exact H2|]. unfold ok_or in H1. destruct (initial_state _ _); [|discriminate]. injection H1 as <-. reflexivity.
Qed.
(** A state that is said to be reachable is not said to be unreachable. *)
Theorem C71_reachability_partial : forall acc ch ch' reduce reduce' load e to r dim q s ds, loadable load ->
  get_system_recipe load e (0, None) = Ok (r, (dim, q)) -> compile unchecked unchecked dim r = Ok s -> upper_invariants (dim + 1) s -> distinct_names r -> fair_query r None to ->
  searches acc ch load to -> (forall d s z l f v, fsem d f v -> fsem d (ch_xext ch' d s z l f) v) ->
  run_query ch reduce load (QReachability e None to) = Ok (AReachability (Some ds)) -> run_query ch' reduce' load (QReachability e None to) <> Ok (AReachability None).
Proof.
  intros acc ch ch' reduce reduce' load e to r dim q s ds L Er Cu U N [_ (O & S & K)] Sr X E E'.
  destruct (reach_run _ _ _ _ _ _ _ _ _ _ Er Cu E) as (start & target & F & Et & Es). destruct (reach_run _ _ _ _ _ _ _ _ _ _ Er Cu E') as (start' & target' & F' & Et' & Es').
  rewrite Et in Et'. injection Et' as <-. rewrite Es in Es'. injection Es' as <-.
  destruct (C29_compiled _ _ load e r dim q s L Er Cu) as (B & Cc & Ck & _). destruct (C40_decoded_partial _ _ dim r s to target Cu N O S K Et) as (_ & P & _).
  destruct (initial_waits _ _ _ _ B Ck Es) as [Hin W].
  assert (A : search_accurate acc (dim + 1) (ch_xext ch (dim + 1) s (s_zone target)) s (s_zone target)).
  { destruct (C29_numbering load e r dim q (fun n c H => proj1 (L n c H)) Er) as (In & _ & Pm & _). unfold searches in Sr. destruct acc; [exact (Sr _ _ _)|]. destruct Sr as (Wt & Nb & Lt). split; [|split; [|apply Wt; eapply C40_numbers; eauto]].
    - unfold compile in Cu. apply bind_ok in Cu. destruct Cu as ((s1 & k) & Ek & Es1). injection Es1 as ->. refine (plain_mild Bounded _ _ _ r _ _ _ _ Ek). intros c Hc. destruct (instance_component _ _ _ In _ Hc) as (n & c0 & Ln & Re). exact (plain_renumbered Bounded _ _ Re (Lt _ _ Ln)).
    - refine (below_of _ _ _ Ck _). intros x Hx. rewrite Cc in Hx. pose proof (Permutation_in _ Pm (in_or_app _ _ _ (or_introl Hx))) as H'. apply in_seq in H'. lia. }
  destruct (C11_path_is_run_partial (dim + 1) _ _ _ s start target ds B Ck U Hin P F) as (v & l' & v' & Hv & Iv & R & _ & H).
  exact (C12_unreachable_sound_partial (dim + 1) _ _ _ s start target (X _ _ _) B Ck Hin P W F' v l' v' Hv Iv (C11_paths_are_runs _ _ _ _ _ _ _ R) (H acc A)).
Qed.
Print Assumptions C71_reachability_partial.

Lemma from_run ch reduce load e from to r dim q s o : loadable load -> get_system_recipe load e (0, None) = Ok (r, (dim, q)) -> compile unchecked unchecked dim r = Ok s -> distinct_names r -> fair_query r from to ->
  run_query ch reduce load (QReachability e from to) = Ok (AReachability o) ->
  exists start target, reach_query unchecked unchecked load e from to = Ok (dim + 1, s, start, target) /\ In (s_loc start) (all_locations (dim + 1) s) /\
    find_path (dim + 1) (ch_fuel ch) s (ch_xext ch (dim + 1) s (s_zone target)) start target = Ok o.
Proof.
  intros L Er Cu N Fq E. cbn [run_query] in E. inv_bind E. destruct a as [[[d s'] start] target]. inv_bind E. injection E as ->.
  assert (Cs : compile (the_least ch) (the_pre ch) dim r = Ok s).
  { assert (Z := H). unfold reach_query in Z. rewrite Er in Z. cbn [bind fst] in Z. inv_bind Z. assert (Z' := H1). apply one_unchecked in Z'. rewrite Cu in Z'. injection Z' as <-. exact H1. }
  destruct (start_inside _ _ load e from to r dim q s d s' start target L Er Cs N Fq H) as (-> & -> & Hin). exists start, target. split; [|auto].
  unfold reach_query in H |- *. rewrite Er in H |- *. cbn [bind fst] in H |- *. rewrite Cs in H. rewrite Cu. exact H.
Qed.
(** The same with a start state, if the search that finds the state does not enlarge zones. *)
Theorem C71_from_partial : forall ch ch' reduce reduce' load e from to r dim q ds, loadable load -> get_system_recipe load e (0, None) = Ok (r, (dim, q)) -> distinct_names r -> fair_query r from to ->
  (forall d s z l f v, fsem d (ch_xext ch d s z l f) v <-> fsem d f v) -> (forall d s z l f v, fsem d f v -> fsem d (ch_xext ch' d s z l f) v) ->
  run_query ch reduce load (QReachability e from to) = Ok (AReachability (Some ds)) -> run_query ch' reduce' load (QReachability e from to) <> Ok (AReachability None).
Proof.
  intros ch ch' reduce reduce' load e from to r dim q ds L Er N Fq X X' E E'.
  destruct (C50_named_one ch reduce load e (QReachability e from to) _ ltac:(right; right; eauto) E) as (d & s & r' & dim' & q' & Er' & Cu & _). rewrite Er in Er'. injection Er' as <- <- <-.
  destruct (from_run _ _ _ _ _ _ _ _ _ _ _ L Er Cu N Fq E) as (start & target & Q & Hin & F). destruct (from_run _ _ _ _ _ _ _ _ _ _ _ L Er Cu N Fq E') as (start' & target' & Q' & _ & F').
  rewrite Q in Q'. injection Q' as <- <-. destruct (C29_compiled _ _ load e r dim q s L Er Cu) as (B & _ & Ck & _).
  exact (path_again (dim + 1) s _ _ _ target B Ck (X' _ _ _) (X _ _ _) _ _ start ds Hin F' F).
Qed.
Print Assumptions C71_from_partial.

Lemma determinism_run ch load e r dim q s a : get_system_recipe load e (0, None) = Ok (r, (dim, q)) -> compile unchecked unchecked dim r = Ok s -> run_query ch false load (QDeterminism e) = Ok a ->
  exists o, check_determinism (dim + 1) (ch_ext ch (dim + 1)) (ch_sord ch) (ch_fuel ch) s = Ok o /\ (satisfied a = true <-> o = None).
Proof.
  intros Er Cu E. cbn [run_query] in E. inv_bind E. destruct a0 as [s' dim']. inv_bind E. injection E as <-. unfold one_system in H. rewrite Er in H. cbn [bind fst] in H. inv_bind H. injection H as <- <-.
  apply one_unchecked in H1. rewrite Cu in H1. injection H1 as <-. exists a0. split; [exact H0|]. destruct a0; cbn; split; congruence.
Qed.
(** A system that is said to be deterministic is not said to be nondeterministic by a check that enlarges zones no more than the first. *)
Theorem C71_determinism_partial : forall ch ch' load e a a', loadable load ->
  (forall p l x, In x (ch_sord ch p l) <-> In x l) -> (forall p l x, In x (ch_sord ch' p l) <-> In x l) ->
  (forall d s l f g, (forall v, fsem d f v -> fsem d g v) -> forall v, fsem d (ch_ext ch' d s l f) v -> fsem d (ch_ext ch d s l g) v) ->
  run_query ch false load (QDeterminism e) = Ok a -> run_query ch' false load (QDeterminism e) = Ok a' -> satisfied a = true -> satisfied a' = true.
Proof.
  intros ch ch' load e a a' L O O' N E E' Sa. destruct (C50_named_one ch false load e (QDeterminism e) a ltac:(left; cbn; auto) E) as (d & s & r & dim & q & Er & Cu & _).
  destruct (determinism_run _ _ _ _ _ _ _ _ Er Cu E) as (o & C & Ho). destruct (determinism_run _ _ _ _ _ _ _ _ Er Cu E') as (o' & C' & Ho'). apply Ho in Sa. subst o. apply Ho'.
  destruct (C29_compiled _ _ load e r dim q s L Er Cu) as (B & _ & Ck & _). eapply check_again; [exact O|exact O'|apply N|exact B|exact Ck|exact C|exact C'].
Qed.
Print Assumptions C71_determinism_partial.
(** If zones are not enlarged, the order in which hash sets are listed makes no difference. *)
Theorem C71_exact_partial : forall ch ch' load e a a', loadable load ->
  (forall p l x, In x (ch_sord ch p l) <-> In x l) -> (forall p l x, In x (ch_sord ch' p l) <-> In x l) ->
  (forall d s l f v, fsem d (ch_ext ch d s l f) v <-> fsem d f v) -> (forall d s l f v, fsem d (ch_ext ch' d s l f) v <-> fsem d f v) ->
  run_query ch false load (QDeterminism e) = Ok a -> run_query ch' false load (QDeterminism e) = Ok a' -> satisfied a = satisfied a'.
Proof.
  intros ch ch' load e a a' L O O' X X' E E'. apply eq_true_iff_eq. split.
  - apply (C71_determinism_partial ch ch' load e a a' L O O'); [|exact E|exact E']. intros d s l f g H v. rewrite X, X'. apply H.
  - apply (C71_determinism_partial ch' ch load e a' a L O' O); [|exact E'|exact E]. intros d s l f g H v. rewrite X, X'. apply H.
Qed.
Print Assumptions C71_exact_partial.

(** X <= A is said to hold when zones are enlarged, so it is not denied when they are not.  M || N reaches L1 with x >= 3 by a path of one step,
    so the search that enlarges zones does not deny that; it does deny x > 5. *)
Example C71_nonvacuous :
  trusted_yes (wide_choices 30) false shop_load (nm "X") (nm "A") 3 (one_s xa) (one_t xa) /\ trusted_no (plain_choices 30) false shop_load (nm "X") (nm "A") 3 (one_s xa) (one_t xa) /\
  yes (wide_choices 30) false shop_load (nm "X") (nm "A").
Proof.
  split; [destruct (yes_ok shop_load (nm "X") (nm "A") 3 (one_s xa) (one_t xa)) as [Y1 Y2 Y3 Y4 Y5 Y6 Y7]; first [exact shop_loadable|two_ok|vm_compute; auto|idtac]; constructor; first [apply wide_fair|assumption]|].
  split; [apply no_ok; first [exact shop_loadable|two_ok]|]. apply told_yes. vm_compute. reflexivity.
Qed.
Definition answered (x : res Exec.answer) : option (option nat) := match x with Ok (AReachability (Some ds)) => Some (Some (List.length ds)) | Ok (AReachability None) => Some None | _ => None end.
Example C71_reachability_nonvacuous :
  loadable ex_load /\ get_system_recipe ex_load mn_query (0, None) = Ok (mn_recipe, (2, None)) /\ compile unchecked unchecked 2 mn_recipe = Ok mn_ts /\ upper_invariants 3 mn_ts /\ distinct_names mn_recipe /\
  fair_query mn_recipe None mn_late /\ searches Exact (plain_choices 40) ex_load mn_late /\ (forall d s z l f v, fsem d f v -> fsem d (ch_xext (wide_choices 40) d s z l f) v) /\
  answered (run_query (plain_choices 40) false ex_load (QReachability mn_query None mn_late)) = Some (Some 1) /\
  answered (run_query (wide_choices 40) true ex_load (QReachability mn_query None (SAnd [SLoc (var "M" "L1"); SCmp RGt (OClk (var "M" "x")) (ONum 5)]))) = Some None.
Proof.
  split; [exact ex_load_ok|]. destruct mn_ok as (E1 & _ & E3 & E4). split; [exact E1|]. split; [vm_compute; reflexivity|]. split; [exact E4|]. split; [exact E3|].
  split; [apply mn_fair|]. split; [intros d s z l f v; reflexivity|]. split; [intros d s z l f v; apply ExtraFacts.max_xext_more|]. split; vm_compute; reflexivity.
Qed.
Example C71_from_nonvacuous :
  loadable ex_load /\ get_system_recipe ex_load mn_query (0, None) = Ok (mn_recipe, (2, None)) /\ distinct_names mn_recipe /\ fair_query mn_recipe (Some mn_from) mn_to /\
  (forall d s z l f v, fsem d (ch_xext (plain_choices 40) d s z l f) v <-> fsem d f v) /\ (forall d s z l f v, fsem d f v -> fsem d (ch_xext (wide_choices 40) d s z l f) v) /\
  answered (run_query (plain_choices 40) false ex_load (QReachability mn_query (Some mn_from) mn_to)) = Some (Some 1).
Proof.
  split; [exact ex_load_ok|]. destruct mn_ok as (E1 & _ & E3 & _). split; [exact E1|]. split; [exact E3|]. split; [apply mn_fair|]. split; [intros; reflexivity|].
  split; [intros d s z l f v; apply ExtraFacts.max_xext_more|]. vm_compute. reflexivity.
Qed.
(** The actions of B are listed backwards by the second check. *)
Definition backward (fuel : nat) : choices :=
  mkChoices fuel (fun _ => no_ext) (fun _ _ _ => no_pext) (fun _ _ _ _ f => f) min_own (fun _ f _ => f) (fun p l => rev (once_ord p l)) same_aord (fun l => l) (fun l => l) (fun l => l) (fun l => l).
Definition said (x : res Exec.answer) : option bool := match x with Ok a => Some (satisfied a) | _ => None end.
Example C71_determinism_nonvacuous :
  (forall p l x, In x (ch_sord (wide_choices 30) p l) <-> In x l) /\ (forall p l x, In x (ch_sord (backward 30) p l) <-> In x l) /\
  (forall d s l f g, (forall v, fsem d f v -> fsem d g v) -> forall v, fsem d (ch_ext (backward 30) d s l f) v -> fsem d (ch_ext (wide_choices 30) d s l g) v) /\
  (forall d s l f v, fsem d (ch_ext (backward 30) d s l f) v <-> fsem d f v) /\
  ch_sord (backward 30) [] ["i"; "o"] <> ch_sord (wide_choices 30) [] ["i"; "o"] /\
  said (run_query (wide_choices 30) false shop_load (QDeterminism (XPar (nm "B") (nm "C")))) = Some true /\ said (run_query (backward 30) false shop_load (QDeterminism (XPar (nm "B") (nm "C")))) = Some true.
Proof.
  assert (O : forall p l x, In x (once_ord p l) <-> In x l) by (intros p l x; apply nodup_In).
  split; [exact O|]. split; [intros p l x; cbn [ch_sord backward]; rewrite <- in_rev; apply O|]. split; [intros d s l f g H v Hv; apply ExtraFacts.max_ext_more, H, Hv|].
  split; [intros; reflexivity|]. split; [vm_compute; discriminate|]. split; vm_compute; reflexivity.
Qed.

(** Finding: whether a system is consistent can depend on the order in which a hash set lists its outputs.  From S0, [a] leads to S1, where
    time stops at 5; [b] leads to S2, and from there [c] leads to S1.  Nothing saves S0.  If [a] is tried first, S1 is remembered although it
    failed, [c] leads to a remembered state, and S2 counts as consistent; if [b] is tried first, S1 is entered with x >= 1 only, and then again. *)
Definition moody : component :=
  mkComp "Moody" (mkDecls [("x", 1)] [])
    [mkL "S0" (Some (BLessEQ (AVar "x") (AInt 0))) Initial "NORMAL"; mkL "S1" (Some (BLessEQ (AVar "x") (AInt 5))) Normal "NORMAL"; mkL "S2" (Some (BLessEQ (AVar "x") (AInt 1))) Normal "NORMAL"]
    [mkE "E1" "S0" "S1" SOutput None None "a"; mkE "E2" "S0" "S2" SOutput None None "b"; mkE "E3" "S2" "S1" SOutput (Some (BGreatEQ (AVar "x") (AInt 1))) None "c"] None.
Definition moody_load (n : string) : option component := if String.eqb n "Moody" then Some moody else None.
Lemma moody_loadable : loadable moody_load.
Proof.
  intros n c H. unfold moody_load in H. destruct (String.eqb n "Moody"); [|discriminate]. injection H as <-.
  split; [split; [repeat constructor; cbn; intuition discriminate|split; [repeat constructor; cbn; intuition discriminate|intros x i [[= <- <-]|[]]; cbn; lia]]|].
  split; [intros e us He; cbn in He; repeat (destruct He as [<-|He]; [cbn; discriminate|]); destruct He|].
  split; [intros l g Hl; cbn in Hl; repeat (destruct Hl as [<-|Hl]; [cbn; first [discriminate|intros [= <-]; reflexivity]|]); destruct Hl
         |intros e g He; cbn in He; repeat (destruct He as [<-|He]; [cbn; first [discriminate|intros [= <-]; reflexivity]|]); destruct He].
Qed.
(** The same choices, with the actions listed backwards. *)
Definition reversed (ch : choices) : choices :=
  mkChoices (ch_fuel ch) (ch_ext ch) (ch_pext ch) (ch_xext ch) (ch_minc ch) (ch_predt ch) (fun p l => rev (ch_sord ch p l)) (ch_aord ch) (ch_ord ch) (ch_kord ch) (ch_cord ch) (ch_gord ch).
Lemma reversed_fair ch : fair ch -> fair (reversed ch).
Proof.
  intros [F1 F2 F3 F4 F5 F6 F7 F8 F9 F10]. constructor; cbn [ch_ext ch_pext ch_sord ch_aord ch_minc ch_ord ch_cord ch_gord ch_kord reversed]; try assumption.
  - intros p l a. rewrite <- in_rev. apply F3.
  - intros p l. apply NoDup_rev, F4.
Qed.
Theorem C71_order_refuted : exists ch load e, fair ch /\ fair (reversed ch) /\ explores Bounded ch load /\ loadable load /\
  run_query ch false load (QConsistency e) = Ok (AConsistency true) /\ run_query (reversed ch) false load (QConsistency e) = Ok (AConsistency false) /\
  (exists a, run_query ch false load (QRefinement e e) = Ok a /\ satisfied a = true) /\ (exists a, run_query (reversed ch) false load (QRefinement e e) = Ok a /\ satisfied a = false).
Proof.
  exists (wide_choices 30), moody_load, (nm "Moody"). split; [apply wide_fair|]. split; [apply reversed_fair, wide_fair|].
  split; [apply wide_explores|]. 2: split; [exact moody_loadable|]; split; [vm_compute; reflexivity|]; split; [vm_compute; reflexivity|]; split; eexists; (split; [vm_compute; reflexivity|reflexivity]).
  intros n c H. unfold moody_load in H. destruct (String.eqb n "Moody"); [|discriminate]. injection H as <-.
  apply literal_check. vm_compute. reflexivity.
Qed.
Print Assumptions C71_order_refuted.

(** Finding: the same where every location has a single output.  [i] leads to S1 with x = 0, [j] with x = 3; the only output of S1 is possible
    up to 1, and time stops at 5.  If [i] is tried first, the states that [j] leads to are part of those remembered. *)
Definition fickle : component :=
  mkComp "Fickle" (mkDecls [("x", 1)] [])
    [mkL "S0" None Initial "NORMAL"; mkL "S1" (Some (BLessEQ (AVar "x") (AInt 5))) Normal "NORMAL"; mkL "S2" None Normal "NORMAL"]
    [mkE "E1" "S0" "S1" SInput None (Some [("x", AInt 0)]) "i"; mkE "E2" "S0" "S1" SInput None (Some [("x", AInt 3)]) "j"; mkE "E3" "S1" "S1" SInput None None "i"; mkE "E4" "S1" "S1" SInput None None "j";
     mkE "E5" "S1" "S2" SOutput (Some (BLessEQ (AVar "x") (AInt 1))) None "o"; mkE "E6" "S2" "S2" SInput None None "i"; mkE "E7" "S2" "S2" SInput None None "j"] None.
Definition fickle_load (n : string) : option component := if String.eqb n "Fickle" then Some fickle else None.
Lemma fickle_loadable : loadable fickle_load.
Proof.
  intros n c H. unfold fickle_load in H. destruct (String.eqb n "Fickle"); [|discriminate]. injection H as <-.
  split; [split; [repeat constructor; cbn; intuition discriminate|split; [repeat constructor; cbn; intuition discriminate|intros x i [[= <- <-]|[]]; cbn; lia]]|].
  split; [intros e us He; cbn in He; repeat (destruct He as [<-|He]; [cbn; first [discriminate|intros [= <-]; (split; [intros x k [[= <- <-]|[]]; lia|intros x a b [[= <- <-]|[]] [[= <-]|[]]; reflexivity])]|]); destruct He|].
  split; [intros l g Hl; cbn in Hl; repeat (destruct Hl as [<-|Hl]; [cbn; first [discriminate|intros [= <-]; reflexivity]|]); destruct Hl
         |intros e g He; cbn in He; repeat (destruct He as [<-|He]; [cbn; first [discriminate|intros [= <-]; reflexivity]|]); destruct He].
Qed.
Definition fickle_ts : ts := Eval vm_compute in
  match get_system_recipe fickle_load (nm "Fickle") (0, None) with Ok (r, (n, _)) => match compile unchecked unchecked n r with Ok s => s | _ => ts_m end | _ => ts_m end.
Theorem C71_single_output_refuted : exists ch load e d s, fair ch /\ fair (reversed ch) /\ explores Bounded ch load /\ loadable load /\ names_one load e d s /\ single_output d s /\
  run_query ch false load (QConsistency e) = Ok (AConsistency true) /\ run_query (reversed ch) false load (QConsistency e) = Ok (AConsistency false).
Proof.
  exists (wide_choices 30), fickle_load, (nm "Fickle"), 2, fickle_ts. split; [apply wide_fair|]. split; [apply reversed_fair, wide_fair|].
  split; [apply wide_explores; intros n c H; unfold fickle_load in H; destruct (String.eqb n "Fickle"); [|discriminate]; injection H as <-; apply literal_check; vm_compute; reflexivity|].
  split; [exact fickle_loadable|]. split; [eexists; eexists; eexists; split; [vm_compute; reflexivity|]; split; vm_compute; reflexivity|]. split.
  - intros l Hl a ts Ha E. assert (a = "o") as -> by (vm_compute in Ha; destruct Ha as [<-|[]]; reflexivity).
    assert (O : forall b, is_output fickle_ts b -> b <> "o" -> next_transitions 2 fickle_ts l b = Ok []) by (intros b Hb N; vm_compute in Hb; destruct Hb as [<-|[]]; destruct (N eq_refl)).
    vm_compute in Hl. destruct Hl as [<-|[<-|[<-|[]]]]; vm_compute in E; injection E as <-; first [left; reflexivity|right; split; [eexists; reflexivity|exact O]].
  - split; vm_compute; reflexivity.
Qed.
Print Assumptions C71_single_output_refuted.

(** Without inputs, and with a single output in every location, the order has no influence. *)
Definition agree {A} (x y : res A) : Prop := forall a b, x = Ok a -> y = Ok b -> a = b.
Definition lists_once (ord : list state -> list string -> list string) : Prop := forall p l, NoDup l -> NoDup (ord p l) /\ forall a, In a (ord p l) <-> In a l.
Lemma quiet_loop {A} dim s (body : transition -> list state -> res (list state + A)) st : forall L p, (forall b, In b L -> next_transitions dim s (s_loc st) b = Ok []) ->
  loopM (each_transition dim s body st) L p = Ok (inl p).
Proof. induction L as [|b L IH]; intros p H; [reflexivity|]. cbn [loopM]. unfold each_transition at 1. rewrite (H b (or_introl eq_refl)). cbn [bind loopM]. apply IH. intros c Hc. apply H. right. exact Hc. Qed.
Lemma one_loop {A} dim s (body : transition -> list state -> res (list state + A)) st a t : next_transitions dim s (s_loc st) a = Ok [t] -> forall L p, NoDup L -> In a L ->
  (forall b, In b L -> b <> a -> next_transitions dim s (s_loc st) b = Ok []) -> loopM (each_transition dim s body st) L p = body t p.
Proof.
  intros E. induction L as [|b L IH]; intros p D H Q; [destruct H|]. inversion D as [|? ? Db Dr]; subst. cbn [loopM]. unfold each_transition at 1. destruct (string_dec b a) as [->|N].
  - rewrite E. cbn [bind loopM]. destruct (body t p) as [[p'|r]| | |]; cbn [bind]; try reflexivity. apply quiet_loop. intros c Hc. apply Q; [right; exact Hc|]. intros ->. exact (Db Hc).
  - rewrite (Q b (or_introl eq_refl) N). cbn [bind loopM]. destruct H as [->|H]; [contradiction|]. apply IH; [exact Dr|exact H|]. intros c Hc. apply Q. right. exact Hc.
Qed.
Lemma orders_agree dim ext ord ord' s : built dim s -> ts_inputs s = [] -> NoDup (ts_outputs s) -> single_output dim s -> lists_once ord -> lists_once ord' ->
  forall f f' st p, In (s_loc st) (all_locations dim s) -> agree (least_helper dim ext ord f s st p) (least_helper dim ext ord' f' s st p).
Proof.
  intros B I D S O O'. assert (N : forall ord p, lists_once ord -> ord p (@nil string) = []).
  { intros o p Ho. destruct (Ho p [] (NoDup_nil _)) as [_ H]. destruct (o p []) as [|x l]; [reflexivity|]. destruct (proj1 (H x) (or_introl eq_refl)). }
  induction f as [|f IH]; intros [|f'] st p Hl x y Ex Ey; try discriminate. cbn [least_helper] in Ex, Ey. rewrite I, (N ord _ O) in Ex. rewrite I, (N ord' _ O') in Ey. cbn [loopM bind] in Ex, Ey.
  destruct (state_in_list dim st p); [congruence|]. destruct (is_universal (s_loc st)); [congruence|]. destruct (is_inconsistent (s_loc st)); [congruence|].
  destruct (fcan_delay dim (s_zone st)); [congruence|].
  assert (W : forall b, is_output s b -> exists ts, next_transitions dim s (s_loc st) b = Ok ts /\ forall t, In t ts -> In (t_target t) (all_locations dim s)).
  { intros b Hb. destruct (next_wf dim s B (s_loc st) b Hl (or_intror Hb)) as (ts & E & T). eauto. }
  assert (C : (forall b, is_output s b -> next_transitions dim s (s_loc st) b = Ok []) \/
    exists a t, is_output s a /\ next_transitions dim s (s_loc st) a = Ok [t] /\ forall b, is_output s b -> b <> a -> next_transitions dim s (s_loc st) b = Ok []).
  { assert (G : forall L, incl L (ts_outputs s) -> (forall b, In b L -> next_transitions dim s (s_loc st) b = Ok []) \/ exists a t, is_output s a /\ next_transitions dim s (s_loc st) a = Ok [t] /\ forall b, is_output s b -> b <> a -> next_transitions dim s (s_loc st) b = Ok []).
    { induction L as [|b L IHL]; intros Hi; [left; intros b []|]. destruct (W b (Hi b (or_introl eq_refl))) as (ts & E & _).
      destruct (S (s_loc st) Hl b ts (Hi b (or_introl eq_refl)) E) as [-> | [[t ->] Q]]; [|right; exists b, t; split; [exact (Hi b (or_introl eq_refl))|auto]].
      destruct (IHL (fun c Hc => Hi c (or_intror Hc))) as [H|H]; [left; intros c [<-|Hc]; auto|right; exact H]. }
    exact (G (ts_outputs s) (incl_refl _)). }
  destruct (O (p ++ [st]) _ D) as [D1 I1]. destruct (O' (p ++ [st]) _ D) as [D2 I2]. destruct C as [C|(a & t & Ha & Ea & C)].
  - rewrite quiet_loop in Ex by (intros b Hb; apply C, I1, Hb). rewrite quiet_loop in Ey by (intros b Hb; apply C, I2, Hb). congruence.
  - rewrite (one_loop dim s _ st a t Ea) in Ex; [|exact D1|apply I1, Ha|intros b Hb; apply C, I1, Hb]. rewrite (one_loop dim s _ st a t Ea) in Ey; [|exact D2|apply I2, Ha|intros b Hb; apply C, I2, Hb].
    unfold output_body in Ex, Ey. destruct (use_transition dim t st) as [ok ns] eqn:U. destruct ok; [|cbn [bind] in Ex, Ey; congruence].
    assert (Hn : In (s_loc (extrapolate ext s ns)) (all_locations dim s)).
    { destruct (W a Ha) as (ts & E & T). rewrite Ea in E. injection E as <-. unfold extrapolate. cbn [s_loc]. replace (s_loc ns) with (t_target t); [apply T; left; reflexivity|].
      unfold use_transition in U. destruct (fempty _ _) in U; [discriminate|]. injection U as _ <-. reflexivity. }
    specialize (IH f' (extrapolate ext s ns) (p ++ [st]) Hn).
    destruct (least_helper dim ext ord f s _ _) as [[r q]| | |]; cbn [bind] in Ex; try discriminate. destruct (least_helper dim ext ord' f' s _ _) as [[r' q']| | |]; cbn [bind] in Ey; try discriminate.
    specialize (IH _ _ eq_refl eq_refl). injection IH as <- <-. destruct r; cbn [bind] in Ex, Ey; congruence.
Qed.
Theorem C71_closed_partial : forall dim ext ord ord' fuel fuel' s b b', built dim s -> ts_inputs s = [] -> NoDup (ts_outputs s) -> single_output dim s -> lists_once ord -> lists_once ord' ->
  is_least_consistent dim ext ord fuel s = Ok b -> is_least_consistent dim ext ord' fuel' s = Ok b' -> b = b'.
Proof.
  intros dim ext ord ord' fuel fuel' s b b' B I D S O O' E E'. unfold is_least_consistent in *. destruct (initial_state dim s) as [st|] eqn:Hi; [|congruence].
  assert (Hl : In (s_loc (extrapolate ext s st)) (all_locations dim s)).
  { unfold extrapolate. cbn [s_loc]. unfold initial_state in Hi. destruct (initial_location dim s) as [l|] eqn:L; [|discriminate]. replace (s_loc st) with l; [exact (initial_wf dim s B l L)|].
    destruct s; try (injection Hi as <-; reflexivity); unfold state_from_location in Hi; destruct (fempty _ _) in Hi; try discriminate; injection Hi as <-; reflexivity. }
  pose proof (orders_agree dim ext ord ord' s B I D S O O' fuel fuel' _ [] Hl) as A.
  destruct (least_helper dim ext ord fuel s _ _) as [[r q]| | |]; cbn [bind] in E; try discriminate. destruct (least_helper dim ext ord' fuel' s _ _) as [[r' q']| | |]; cbn [bind] in E'; try discriminate.
  specialize (A _ _ eq_refl eq_refl). congruence.
Qed.
Print Assumptions C71_closed_partial.
Definition ticker : component :=
  mkComp "Ticker" (mkDecls [("x", 1)] []) [mkL "T0" (Some (BLessEQ (AVar "x") (AInt 3))) Initial "NORMAL"; mkL "T1" (Some (BLessEQ (AVar "x") (AInt 5))) Normal "NORMAL"]
    [mkE "E1" "T0" "T1" SOutput (Some (BGreatEQ (AVar "x") (AInt 2))) None "tick"; mkE "E2" "T1" "T0" SOutput None (Some [("x", AInt 0)]) "tock"] None.
Definition ticker_ts : ts := TSimple (get no_cc (compile_component 2 ticker 0)).
Example C71_closed_nonvacuous : built 2 ticker_ts /\ ts_inputs ticker_ts = [] /\ NoDup (ts_outputs ticker_ts) /\ single_output 2 ticker_ts /\ lists_once (fun _ l => l) /\ lists_once (fun _ l => rev l) /\
  ts_outputs ticker_ts <> rev (ts_outputs ticker_ts) /\ is_least_consistent 2 no_ext (fun _ l => l) 20 ticker_ts = Ok true /\ is_least_consistent 2 no_ext (fun _ l => rev l) 30 ticker_ts = Ok true.
Proof.
  split; [apply (b_simple 2 ticker [] ["tick"; "tock"] 0); vm_compute; reflexivity|]. split; [reflexivity|]. split; [vm_compute; repeat constructor; cbn; intuition discriminate|]. split.
  { intros l Hl a ts Ha E. assert (O : forall b, is_output ticker_ts b -> b = "tick" \/ b = "tock") by (intros b Hb; vm_compute in Hb; intuition).
    vm_compute in Hl. destruct Hl as [<-|[<-|[]]]; destruct (O a Ha) as [-> | ->]; vm_compute in E; injection E as <-; try (left; reflexivity); right; (split; [eexists; reflexivity|]);
      intros b Hb N; destruct (O b Hb) as [-> | ->]; try contradiction; vm_compute; reflexivity. }
  split; [intros p l D; split; [exact D|reflexivity]|]. split; [intros p l D; split; [apply NoDup_rev, D|intros a; symmetry; apply in_rev]|]. split; [vm_compute; discriminate|]. split; vm_compute; reflexivity.
Qed.
