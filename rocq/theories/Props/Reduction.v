(** C27, C28: the clock analysis. *)
From Coq Require Import List String Ascii ZArith QArith Bool Arith Lia Lqa Permutation.
From Verif Require Import Fed.Zone Fed.ZoneFacts Fed.Check Model.Base Model.Expr Model.Guard Model.Loc Model.Component Model.TS Model.ParseQuery Model.Recipe Model.Reduce
  Spec.StepSpec Spec.SystemSpec Spec.RunSpec Spec.RefineSpec Spec.EnableSpec Spec.IdSpec Spec.RecipeSpec Spec.ReduceSpec
  Proofs.WfFacts Proofs.ReadsFacts Proofs.RunFacts Proofs.ReduceFacts Proofs.ClockFacts Proofs.RecipeFacts Props.Examples Props.Enabling Props.Ids Props.Recipes.
Import ListNotations.
Local Open Scope string_scope.
Local Open Scope list_scope.
Local Open Scope nat_scope.

Lemma names_keyed dim s : built dim s -> plain_names s -> keyed dim s.
Proof. intros B P a b. apply C39_internal_partial; assumption. Qed.

(** The analysis comes to an end for every system with an initial location. *)
Theorem C28_analysis_ends : forall dim minc ord cord gord s l0, same_elements ord -> built dim s -> initial_location dim s = Some l0 ->
  exists fuel xs, find_redundant_clocks dim minc ord cord gord fuel s = Ok xs.
Proof.
  intros dim minc ord cord gord s l0 Ho B Hi. destruct (graph_total dim minc ord s l0 B Hi) as (f & g & E). exists f. unfold find_redundant_clocks. rewrite E. eexists. reflexivity.
Qed.
Print Assumptions C28_analysis_ends.

(** C28.  The full claim: a clock reported as unused is not read by any guard or invariant of any location
    that can be reached by edges.  It holds if no location name contains the characters used to join names. *)
Theorem C28_unused_partial : forall dim minc ord cord gord fuel s q xs i,
  built dim s -> plain_names s -> reads_ok s -> clocks_ok dim q s -> clocks_below dim s ->
  describes dim minc -> same_elements ord -> reorders cord ->
  find_redundant_clocks dim minc ord cord gord fuel s = Ok xs -> In (RemoveClock i) xs ->
  1 <= i < dim /\
  forall l, edge_reach dim s l -> ignores dim i (inv_at dim l) /\ forall a t, offered dim s l a t -> ignores dim i (fsem dim (t_guard t)).
Proof.
  intros dim minc ord cord gord fuel s q xs i B P R C D M So Co E Hi. unfold find_redundant_clocks in E.
  destruct (analysis_graph dim minc ord fuel s) as [g| | |] eqn:G; try discriminate. injection E as <-.
  unfold redundancies in Hi. apply in_app_or in Hi. destruct Hi as [Hi|Hi]; [|apply in_map_iff in Hi; destruct Hi as (? & X & _); discriminate].
  apply in_map_iff in Hi. destruct Hi as (? & [= ->] & Hi). apply (Permutation_in _ (Co _)) in Hi. apply unused_In in Hi. destruct Hi as [Rg Hi].
  split; [exact Rg|]. pose proof (names_keyed dim s B P) as K.
  assert (Ig : forall Pr, pdep dim (used_clocks g) Pr -> ignores dim i Pr).
  { intros Pr H v w Hv Hw A. apply H; auto. intros j Hj. apply A. intros ->. contradiction. }
  intros l El. split; [apply Ig; exact (invariants_use dim minc ord So M s B K R D fuel g G l El)|].
  intros a t O. apply Ig. exact (guards_use dim minc ord So M s q B K R C D fuel g G l a t El O).
Qed.
Print Assumptions C28_unused_partial.

(** C27.  The full claim: two clocks that are reported as equivalent have the same value in every state of every
    run.  It holds if no location name contains the characters used to join names. *)
Theorem C27_equal_partial : forall dim minc ord cord gord fuel s q xs i others,
  built dim s -> plain_names s -> reads_ok s -> clocks_ok dim q s -> clocks_below dim s -> small_values s ->
  describes dim minc -> same_elements ord -> reorders gord -> (Z.of_nat dim < 4294967295)%Z ->
  find_redundant_clocks dim minc ord cord gord fuel s = Ok xs -> In (ReplaceClocks i others) xs ->
  forall l v, reachable dim s l v -> forall x, In x others -> (v x == v i)%Q.
Proof.
  intros dim minc ord cord gord fuel s q xs i others B P R C D V M So Go Ld E Hi l v Re x Hx. unfold find_redundant_clocks in E.
  destruct (analysis_graph dim minc ord fuel s) as [g| | |] eqn:G; try discriminate. injection E as <-.
  unfold redundancies in Hi. apply in_app_or in Hi. destruct Hi as [Hi|Hi]; [apply in_map_iff in Hi; destruct Hi as (? & X & _); discriminate|].
  apply in_map_iff in Hi. destruct Hi as (grp & [= <- <-] & Hg). pose proof (names_keyed dim s B P) as K.
  assert (Few : (Z.of_nat (List.length (used_clocks g)) < u32_max)%Z).
  { assert (L : List.length (used_clocks g) <= List.length (seq 0 dim)).
    { apply NoDup_incl_length; [apply used_NoDup|]. intros j Hj. apply in_seq. pose proof (used_below dim minc ord So M s q B K R C D fuel g G j Hj). lia. }
    rewrite seq_length in L. unfold u32_max. lia. }
  apply filter_In in Hx. destruct Hx as [Hx _].
  eapply (grouped_equal dim minc ord gord So Go s q B K C V fuel g G Few grp); eauto.
  apply lowest_in. intros ->. destruct Hx.
Qed.
Print Assumptions C27_equal_partial.

(** A description of sets of valuations that says nothing about the set of all of them. *)
Definition min_univ (dim : nat) (f : fed) : fed := if fempty dim (fcompl dim f) then [[]] else min_desc dim f.
Lemma compl_empty dim f : fempty dim (fcompl dim f) = true <-> forall v, val_ok dim v -> fsem dim f v.
Proof.
  rewrite fempty_true. split.
  - intros H v Hv. specialize (H v). rewrite fcompl_sem in H. destruct (fsemb dim f v) eqn:E; [apply fsemb_spec; exact E|].
    exfalso. apply H. split; [exact Hv|]. rewrite <- fsemb_spec. congruence.
  - intros H v Hv. apply fcompl_sem in Hv. destruct Hv as [Hv N]. apply N, H, Hv.
Qed.
Lemma min_univ_describes dim : 0 < dim -> describes dim (min_univ dim).
Proof.
  intros Hd f Hf. unfold min_univ. destruct (fempty dim (fcompl dim f)) eqn:E; [|apply min_desc_describes; assumption].
  rewrite compl_empty in E. split; [|intros z c [<-|[]] []]. intros v. split; [intros [Hv _]; apply E; exact Hv|].
  intros H. split; [apply H|]. exists []. split; [left; reflexivity|]. intros c [].
Qed.
Lemma min_univ_silent dim : silent dim (min_univ dim).
Proof. intros f Hf. unfold min_univ. apply compl_empty in Hf. rewrite Hf. reflexivity. Qed.

(** Non-vacuity.  D has clocks x and y that are always reset together and a clock z that is never read. *)
Definition comp_d : component :=
  mkComp "D" (mkDecls [("x", 1); ("y", 2); ("z", 3)] [])
    [mkL "L0" None Initial "NORMAL"; mkL "L1" (Some (BLessEQ (AVar "x") (AInt 5))) Normal "NORMAL"]
    [mkE "E1" "L0" "L1" SInput None (Some [("x", AInt 0); ("y", AInt 0); ("z", AInt 7)]) "i";
     mkE "E2" "L1" "L0" SOutput (Some (BGreatEQ (AVar "y") (AInt 2))) None "o"] None.
Definition red_load (n : string) : option component :=
  if String.eqb n "D" then Some comp_d else if String.eqb n "N" then Some (comp_n 1) else None.
Lemma red_load_ok : forall n c, red_load n = Some c -> clocks_numbered (c_decls c) /\ good_resets c /\ named_guards c.
Proof.
  intros n c. unfold red_load. destruct (String.eqb n "D"); [intros [= <-]|destruct (String.eqb n "N") eqn:E; [|discriminate]].
  - split; [split; [repeat constructor; cbn; intuition discriminate|split; [repeat constructor; cbn; intuition discriminate|intros x i [[= <- <-]|[[= <- <-]|[[= <- <-]|[]]]]; cbn; lia]]|].
    split; [|split; [intros l g [<-|[<-|[]]]; cbn; intros [= <-]; reflexivity|intros e g [<-|[<-|[]]]; cbn; intros [= <-]; reflexivity]].
    intros e us [<-|[<-|[]]]; cbn; intros [= <-]. split.
    + intros x k [[= <- <-]|[[= <- <-]|[[= <- <-]|[]]]]; lia.
    + intros x a b [[= <- <-]|[[= <- <-]|[[= <- <-]|[]]]] [[= <-]|[[= <-]|[[= <-]|[]]]]; reflexivity || discriminate.
  - intros [= <-]. apply (ex_load_ok "N"). reflexivity.
Qed.
Definition no_check : nat -> ts -> res bool := fun _ _ => Ok true.
Definition no_recipe : recipe := RSimple comp_d.
Definition red_recipe : recipe := fst (get (no_recipe, (0, None)) (get_system_recipe red_load (XPar (XComp "D" None) (XComp "N" None)) (0, None))).
Definition red_ts : ts := get ts_m (compile no_check no_check 4 red_recipe).
Lemma plain_check n : forallb (fun c => negb (existsb (Ascii.eqb c) marks)) (list_ascii_of_string n) && negb (String.eqb n "_") = true -> plain_name n.
Proof.
  intros H. apply andb_true_iff in H. destruct H as [H1 H2]. split; [|intros ->; discriminate]. intros c Hc Hm. rewrite forallb_forall in H1. specialize (H1 c Hc).
  apply negb_true_iff in H1. assert (X : existsb (Ascii.eqb c) marks = true) by (apply existsb_exists; exists c; split; [exact Hm|apply Ascii.eqb_refl]). congruence.
Qed.
Example C27_C28_nonvacuous :
  built 5 red_ts /\ plain_names red_ts /\ reads_ok red_ts /\ clocks_ok 5 0 red_ts /\ clocks_below 5 red_ts /\ small_values red_ts /\
  describes 5 (min_univ 5) /\ find_redundant_clocks 5 (min_univ 5) (fun l => l) (fun l => l) (fun l => l) 10 red_ts = Ok [RemoveClock 3; ReplaceClocks 1 [2]].
Proof.
  assert (Er : get_system_recipe red_load (XPar (XComp "D" None) (XComp "N" None)) (0, None) = Ok (red_recipe, (4, None))) by (vm_compute; reflexivity).
  assert (Ec : compile no_check no_check 4 red_recipe = Ok red_ts) by (vm_compute; reflexivity).
  destruct (C29_compiled no_check no_check red_load _ _ _ _ _ red_load_ok Er Ec) as (B & Cc & Ck & Rd).
  split; [exact B|]. split; [split; intros l Hl; vm_compute in Hl; destruct Hl as [<-|[<-|[]]]; apply plain_check; reflexivity|].
  split; [exact Rd|]. split; [exact Ck|]. split; [intros x Hx; vm_compute in Hx; repeat (destruct Hx as [<-|Hx]; [lia|]); contradiction|].
  split; [split; intros i es a t u Hi Ht Hu; vm_compute in Hi; (destruct Hi as [[= <- <-]|[[= <- <-]|[]]]); vm_compute in Ht;
     (destruct Ht as [[= <- <-]|[]]); vm_compute in Hu; repeat (destruct Hu as [<-|Hu]; [reflexivity|]); contradiction|].
  split; [apply min_univ_describes; lia|]. vm_compute. reflexivity.
Qed.

(** Location names that contain "||" hide locations from the analysis: the initial location (a, b||c) and the
    location (a||b, c) of the composition have the same key.  The invariant z <= 5 and the reset of x of the hidden location are
    not seen: z is reported as unused, and x and y as equivalent. *)
Definition comp_hide : component :=
  mkComp "P" (mkDecls [("x", 1); ("y", 2); ("z", 3)] [])
    [mkL "a" None Initial "NORMAL"; mkL "a||b" (Some (BLessEQ (AVar "z") (AInt 5))) Normal "NORMAL"]
    [mkE "E1" "a" "a||b" SOutput None None "o";
     mkE "E2" "a" "a" SOutput (Some (BAnd (BLessEQ (AVar "x") (AInt 9)) (BLessEQ (AVar "y") (AInt 9)))) None "p";
     mkE "E3" "a||b" "a||b" SOutput None (Some [("x", AInt 0)]) "p"] None.
Definition comp_hide2 : component :=
  mkComp "R" (mkDecls [] []) [mkL "b||c" None Initial "NORMAL"; mkL "c" None Normal "NORMAL"] [mkE "E4" "b||c" "c" SInput None None "o"] None.
Definition hide_load (n : string) : option component :=
  if String.eqb n "P" then Some comp_hide else if String.eqb n "R" then Some comp_hide2 else None.
Lemma hide_load_ok : forall n c, hide_load n = Some c -> clocks_numbered (c_decls c) /\ good_resets c /\ named_guards c.
Proof.
  intros n c. unfold hide_load. destruct (String.eqb n "P"); [intros [= <-]|destruct (String.eqb n "R"); [intros [= <-]|discriminate]].
  - split; [split; [repeat constructor; cbn; intuition discriminate|split; [repeat constructor; cbn; intuition discriminate|intros x i [[= <- <-]|[[= <- <-]|[[= <- <-]|[]]]]; cbn; lia]]|].
    split; [|split; [intros l g [<-|[<-|[]]]; cbn; intros [= <-]; reflexivity|intros e g [<-|[<-|[<-|[]]]]; cbn; intros [= <-]; reflexivity]].
    intros e us [<-|[<-|[<-|[]]]]; cbn; intros [= <-]. split; [intros x k [[= <- <-]|[]]; lia|intros x a b [[= <- <-]|[]] [[= <-]|[]]; reflexivity].
  - split; [split; [constructor|split; [constructor|intros x i []]]|]. split; [intros e us [<-|[]]; discriminate|split; [intros l g [<-|[<-|[]]]; discriminate|intros e g [<-|[]]; discriminate]].
Qed.
Definition hide_recipe : recipe := fst (get (no_recipe, (0, None)) (get_system_recipe hide_load (XPar (XComp "P" None) (XComp "R" None)) (0, None))).
Definition hide_ts : ts := get ts_m (compile no_check no_check 3 hide_recipe).
Definition hide_loc : loctree := nth 3 (all_locations 4 hide_ts) lt_any.
Lemma hide_facts : built 4 hide_ts /\ reads_ok hide_ts /\ clocks_ok 4 0 hide_ts /\ clocks_below 4 hide_ts /\ small_values hide_ts /\
  find_redundant_clocks 4 (min_univ 4) (fun l => l) (fun l => l) (fun l => l) 10 hide_ts = Ok [RemoveClock 3; ReplaceClocks 1 [2]].
Proof.
  assert (Er : get_system_recipe hide_load (XPar (XComp "P" None) (XComp "R" None)) (0, None) = Ok (hide_recipe, (3, None))) by (vm_compute; reflexivity).
  assert (Ec : compile no_check no_check 3 hide_recipe = Ok hide_ts) by (vm_compute; reflexivity).
  destruct (C29_compiled no_check no_check hide_load _ _ _ _ _ hide_load_ok Er Ec) as (B & Cc & Ck & Rd).
  split; [exact B|]. split; [exact Rd|]. split; [exact Ck|]. split; [intros x Hx; vm_compute in Hx; repeat (destruct Hx as [<-|Hx]; [lia|]); contradiction|].
  split; [split; intros i es a t u Hi Ht Hu; vm_compute in Hi; (destruct Hi as [[= <- <-]|[[= <- <-]|[]]]); vm_compute in Ht;
     repeat (destruct Ht as [[= <- <-]|Ht]; [vm_compute in Hu; repeat (destruct Hu as [<-|Hu]; [reflexivity|]); contradiction|]); contradiction|].
  vm_compute. reflexivity.
Qed.
Definition hide_init : loctree := nth 0 (all_locations 4 hide_ts) lt_any.
Definition hide_t1 : transition := nth 0 (get [] (next_transitions 4 hide_ts hide_init "o")) (t_without_id lt_any).
Definition hide_t2 : transition := nth 0 (get [] (next_transitions 4 hide_ts hide_loc "p")) (t_without_id lt_any).
Lemma hide_o : offered 4 hide_ts hide_init "o" hide_t1 /\ t_target hide_t1 = hide_loc.
Proof. split; [|vm_compute; reflexivity]. split; [right; vm_compute; tauto|]. eexists. split; vm_compute; [reflexivity|left; reflexivity]. Qed.
Lemma hide_p : offered 4 hide_ts hide_loc "p" hide_t2.
Proof. split; [right; vm_compute; tauto|]. eexists. split; vm_compute; [reflexivity|left; reflexivity]. Qed.

Theorem C28_joined_names_refuted : exists dim minc ord cord gord fuel s xs i l,
  built dim s /\ reads_ok s /\ clocks_ok dim 0 s /\ clocks_below dim s /\ describes dim minc /\ silent dim minc /\ same_elements ord /\ reorders cord /\
  find_redundant_clocks dim minc ord cord gord fuel s = Ok xs /\ In (RemoveClock i) xs /\ edge_reach dim s l /\ ~ ignores dim i (inv_at dim l).
Proof.
  destruct hide_facts as (B & R & C & D & _ & E).
  exists 4, (min_univ 4), (fun l => l), (fun l => l), (fun l => l), 10, hide_ts, [RemoveClock 3; ReplaceClocks 1 [2]], 3, hide_loc.
  repeat (split; [assumption || (apply min_univ_describes; lia) || apply min_univ_silent || (intros l x; reflexivity) || (intros l; reflexivity)|]).
  split; [left; reflexivity|]. split.
  - destruct hide_o as [O <-]. eapply er_step; [|exact O]. constructor. vm_compute. reflexivity.
  - intros I. assert (X : inv_at 4 hide_loc (vset zero_val 3 9)).
    { apply (I zero_val); [apply val_okb_spec; vm_compute; reflexivity|apply val_okb_spec; vm_compute; reflexivity| |apply inv_atb_spec; vm_compute; reflexivity].
      intros j Hj. unfold vset. destruct (Nat.eqb_spec j 3); [contradiction|reflexivity]. }
    apply inv_atb_spec in X. vm_compute in X. discriminate.
Qed.
Print Assumptions C28_joined_names_refuted.

Theorem C27_joined_names_refuted : exists dim minc ord cord gord fuel s xs i others x l v,
  built dim s /\ reads_ok s /\ clocks_ok dim 0 s /\ clocks_below dim s /\ small_values s /\ describes dim minc /\ silent dim minc /\ same_elements ord /\ reorders gord /\
  find_redundant_clocks dim minc ord cord gord fuel s = Ok xs /\ In (ReplaceClocks i others) xs /\ In x others /\ reachable dim s l v /\ ~ (v x == v i)%Q.
Proof.
  destruct hide_facts as (B & R & C & D & V & E).
  exists 4, (min_univ 4), (fun l => l), (fun l => l), (fun l => l), 10, hide_ts, [RemoveClock 3; ReplaceClocks 1 [2]], 1, [2], 2, (t_target hide_t2),
    (run_updates (t_updates hide_t2) (vdelay (run_updates (t_updates hide_t1) zero_val) 1)).
  repeat (split; [assumption || (apply min_univ_describes; lia) || apply min_univ_silent || (intros l x; reflexivity) || (intros l; reflexivity)|]).
  split; [right; left; reflexivity|]. split; [left; reflexivity|]. split; [|vm_compute; discriminate].
  exists hide_init. split; [vm_compute; reflexivity|]. split; [apply inv_atb_spec; vm_compute; reflexivity|].
  assert (R1 : run 4 hide_ts hide_init zero_val hide_loc (run_updates (t_updates hide_t1) zero_val)).
  { destruct hide_o as [O <-]. eapply run_act; [constructor|exact O|]. apply able_yes. vm_compute. reflexivity. }
  eapply run_act; [eapply run_delay; [exact R1| | ]|exact hide_p|apply able_yes; vm_compute; reflexivity].
  - discriminate.
  - intros e He H1. unfold inv_at. change (lt_inv hide_loc) with (Some (get fnone (unwrap (lt_inv hide_loc)))). vm_compute lt_inv. cbn [get unwrap].
    split; [apply vdelay_ok; [apply val_okb_spec; vm_compute; reflexivity|exact He]|]. eexists. split; [left; reflexivity|].
    intros c [<-|[]]. unfold csem, ilt. cbn -[Qle]. unfold vdelay. cbn -[Qle]. change (zero_val 3%nat + e - zero_val 0%nat <= inject_Z 5)%Q. unfold zero_val. change (inject_Z 5) with 5%Q. lra.
Qed.
Print Assumptions C27_joined_names_refuted.
