(** C68: what later commands deny of a created component does not hold of the expression it was made of. *)
From Coq Require Import List String Ascii ZArith QArith Bool Arith Lia Lqa Permutation.
From Verif Require Import Fed.Zone Fed.ZoneFacts Fed.Check Model.Base Model.Expr Model.Guard Model.Loc Model.Component Model.Enable Model.TS Model.ParseQuery Model.Peg Model.ParseEdge Model.Files Model.Xml Model.Server Model.Recipe Model.Reduce Model.Search Model.PairList Model.Refine Model.Save Model.Query Model.Exec Model.Loader Model.Cli Model.Handle
  Spec.BoundSpec Spec.StepSpec Spec.SystemSpec Spec.RunSpec Spec.ReachSpec Spec.RefineSpec Spec.EnableSpec Spec.TextSpec Spec.FileSpec Spec.XmlSpec Spec.RecipeSpec Spec.ReduceSpec Spec.SameSpec Spec.IdSpec Spec.SaveSpec Spec.ExecSpec Spec.LoaderSpec Spec.CliSpec Spec.LawSpec Spec.PlaceSpec Spec.StandSpec Spec.SubstSpec Spec.KeepSpec
  Proofs.GuardFacts Proofs.LayoutFacts Proofs.EnableFacts Proofs.RunFacts Proofs.RecipeFacts Proofs.FileFacts Proofs.LoaderFacts Proofs.LawFacts Proofs.LawMore Proofs.LawQuot Proofs.PlaceFacts Proofs.AcrossFacts Proofs.StandFacts Proofs.SubstFacts Proofs.SubstMore
  Props.Examples Props.Determinism Props.Reachability Props.Refinement Props.Recipes Props.Saving Props.Exec Props.Laws Props.Place Props.Stand Props.Subst Props.Files Props.Loader Props.Cli Props.Keep.
Import ListNotations.
Local Open Scope string_scope.
Local Open Scope list_scope.
Local Open Scope nat_scope.

(** The project a later command works on, and an answer there that names a behaviour which the right hand side does not have (or the other way round for inputs). *)
Theorem C68_later_no_partial : forall chs minc a dk sp ls j e m d s c chs' a' dk' f g p' pqs d1 s1 t1 d2 s2 t2,
  (forall n x, dk_components dk n = Some x -> sound_file x) -> project_kind (ag_input a) = JsonProject -> (forall x, dk_system dk = Some x -> decode_system x = Ok sp) ->
  let load := looked_up minc (AJson (json_new (dk_components dk) sp)) in let load' := looked_up minc (AJson (json_new (jp_files j) sp)) in
  parse_queries (ag_query a) = Ok [QGetComponent e (Some m)] -> command_line chs minc a dk = Ok (ls, AJson j) ->
  created (chs 0) (ag_reduce a) load e m d s c -> writable c -> (forall ins, assoc m (sp_ins sp) = Some ins -> settled ins (as_in_file c)) ->
  project_kind (ag_input a') = JsonProject -> dk_system dk' = dk_system dk -> dk_components dk' = jp_files j -> parse_queries (ag_query a') = Ok [QRefinement f g] ->
  quotients_apart (put m e f) = true -> quotients_apart f = true -> quotients_apart (put m e g) = true -> quotients_apart g = true -> ~ mentions m (put m e f) -> ~ mentions m (put m e g) ->
  trusted_no (chs' 0) (ag_reduce a') load' f g d2 s2 t2 -> open_project minc (ag_input a') dk' = Ok (p', pqs) -> no (chs' 0) (ag_reduce a') (looked_up minc p') f g ->
  names_two load (put m e f) (put m e g) d1 s1 t1 -> ~ refines d1 s1 t1.
Proof.
  intros chs minc a dk sp ls j e m d s c chs' a' dk' f g p' pqs d1 s1 t1 d2 s2 t2 Sf Pk Sy load load' Eq E Cr W Se Pk' Sy' Co Eq' Q1 Q2 Q3 Q4 M1 M2 T Eo Er N R1.
  pose proof (C52_loadable minc (dk_components dk) sp Sf) as L. fold load in L. destruct (C68_command_partial chs minc a dk sp ls j e m Pk Sy Eq E) as (c' & R & F). fold load in R, F. rewrite (cr_answer _ _ _ _ _ _ _ _ Cr) in R. injection R as <-. specialize (F W Se). fold load' in F.
  pose proof (C68_loadable _ _ _ _ _ _ _ _ _ L Cr F) as L2.
  rewrite (opened minc a' dk' sp p' pqs Pk' ltac:(rewrite Sy'; exact Sy) Eo), Co in Er. fold load' in Er.
  refine (no_right (chs' 0) (ag_reduce a') load' f g d2 s2 t2 L2 T _ Er).
  refine (proj2 (C68_refines _ _ load e m d s c load' f g d1 s1 t1 d2 s2 t2 L Cr F Q1 Q2 Q3 Q4 _ (tn_names _ _ _ _ _ _ _ _ T)) R1).
  assert (X : forall h, ~ mentions m h -> forall n, mentions n h -> load' n = load n) by (intros h M n Hn; rewrite F; apply (storing_other m (as_in_file c) load h M n Hn)).
  destruct N as (l & st & r & dim & q & N1 & N2 & N3 & ->). exists l, st, r, dim, q. rewrite (recipe_elsewhere load load' _ (X _ M1)), (recipe_elsewhere load load' _ (X _ M2)). auto.
Qed.
Print Assumptions C68_later_no_partial.

(** The project of C55 with a second machine, which may serve earlier. *)
Definition kn_file : file_comp :=
  mkFC (txt "U") (txt "clock x;") [mkFL (txt "L0") [] (txt "INITIAL") (txt "NORMAL"); mkFL (txt "L1") (txt "x<=3") (txt "NORMAL") (txt "NORMAL")]
    [mkFE (txt "E0") (txt "L0") (txt "L1") (txt "INPUT") [] (txt "x=0") (txt "coin"); mkFE (txt "E1") (txt "L1") (txt "L0") (txt "OUTPUT") (txt "x>=1") [] (txt "tea");
     mkFE (txt "E2") (txt "L1") (txt "L1") (txt "INPUT") [] [] (txt "coin")].
Definition kn_files : folder := fun n => if String.eqb n "U" then Some kn_file else ld_files n.
Definition kn_disk : disk := mkDisk (dk_system cl_disk) (dk_queries cl_disk) kn_files None.
Definition kn_j : json_project := kp_project (command_line kp_chs ld_minc kp_make kn_disk).
Definition kn_load : string -> option component := looked_up ld_minc (AJson (json_new kn_files ld_spec)).
Definition kn_later : string -> option component := looked_up ld_minc (AJson (json_new (jp_files kn_j) ld_spec)).
Definition kn_two : nat * ts * ts := Eval vm_compute in get none3 (two kn_later (nm "U") (nm "N")).
Definition kn_own : nat * ts * ts := Eval vm_compute in get none3 (two kn_load (nm "U") (nm "M")).
Lemma kn_sound : forall n x, dk_components kn_disk n = Some x -> sound_file x.
Proof.
  intros n x. cbn. unfold kn_files. destruct (String.eqb n "U"); [|apply (proj1 C52_nonvacuous)]. intros E. injection E as <-. split.
  - exists [DClocks "x" []]. split; [reflexivity|]. split; [|repeat constructor; intros []]. intros l [<-|[]] x [<-|[]]. split; [discriminate|]. intros c [<-|[]] X. repeat (destruct X as [X|X]; [discriminate|]). exact X.
  - intros c E. vm_compute in E. injection E as <-. intros e us [<-|[<-|[<-|[]]]]; cbn; intros [= <-]. split; [intros x k [[= <- <-]|[]]; lia|]. intros x a b [[= <- <-]|[]] [[= <-]|[]]. reflexivity.
Qed.
Lemma kn_loadable : loadable kn_load.
Proof. apply C52_loadable. exact kn_sound. Qed.
Lemma kn_created : created (plain_choices 30) false kn_load (nm "M") "N" 2 kp_ts kp_n.
Proof.
  apply (created_ok kn_load (nm "M") "N" kp_recipe None 1 kp_ts kp_n [[]; [Do "coin" 0; Wait 2]] kn_loadable); try (vm_compute; reflexivity).
  - cbn. discriminate.
  - intros k; apply apart_check; reflexivity.
Qed.
(** N is made of M in one command; that U does not refine N, as the next one says, means that U does not refine M. *)
Example C68_later_no_nonvacuous : exists p' pqs,
  open_project ld_minc (ag_input (kp_args "refinement: U <= N")) (kp_disk kn_j) = Ok (p', pqs) /\
  no (plain_choices 30) false (looked_up ld_minc p') (nm "U") (nm "N") /\
  trusted_no (plain_choices 30) false kn_later (nm "U") (nm "N") 3 (one_s kn_two) (one_t kn_two) /\
  names_two kn_load (nm "U") (nm "M") 3 (one_s kn_own) (one_t kn_own) /\ ~ refines 3 (one_s kn_own) (one_t kn_own).
Proof.
  assert (Sy : forall x, dk_system kn_disk = Some x -> decode_system x = Ok ld_spec) by (intros x [= <-]; vm_compute; reflexivity).
  assert (P1 : parse_queries (ag_query kp_make) = Ok [QGetComponent (nm "M") (Some "N")]) by (vm_compute; reflexivity).
  assert (E1 : exists ls, command_line kp_chs ld_minc kp_make kn_disk = Ok (ls, AJson kn_j)) by (eexists; unfold kn_j; vm_compute; reflexivity).
  pose proof kn_created as Cr. pose proof kp_writable as W.
  assert (Se : forall ins, assoc "N" (sp_ins ld_spec) = Some ins -> settled ins (as_in_file kp_n)) by (cbn; discriminate).
  assert (F : found_later kn_load "N" kp_n kn_later).
  { destruct E1 as (ls & E1). destruct (C68_command_partial kp_chs ld_minc kp_make kn_disk ld_spec ls kn_j (nm "M") "N" eq_refl Sy P1 E1) as (c & Ec & F). change (looked_up ld_minc (AJson (json_new (dk_components kn_disk) ld_spec))) with kn_load in *.
    change (kp_chs 0) with (plain_choices 30) in Ec. change (ag_reduce kp_make) with false in Ec. rewrite (cr_answer _ _ _ _ _ _ _ _ Cr) in Ec. injection Ec as <-. exact (F W Se). }
  assert (L2 : loadable kn_later) by exact (C68_loadable _ _ _ _ _ _ _ _ _ kn_loadable Cr F).
  assert (T : trusted_no (plain_choices 30) false kn_later (nm "U") (nm "N") 3 (one_s kn_two) (one_t kn_two)) by (apply no_ok; first [exact L2|two_ok]).
  assert (N : names_two kn_load (nm "U") (nm "M") 3 (one_s kn_own) (one_t kn_own)) by (apply two_names; two_ok).
  assert (Op : exists p' pqs, open_project ld_minc (ag_input (kp_args "refinement: U <= N")) (kp_disk kn_j) = Ok (p', pqs)).
  { destruct (open_project ld_minc (ag_input (kp_args "refinement: U <= N")) (kp_disk kn_j)) as [[p' pqs]| | |] eqn:E; [eauto|exfalso..]; revert E; vm_compute; discriminate. }
  destruct Op as (p' & pqs & Op). exists p', pqs. split; [exact Op|].
  assert (No : no (plain_choices 30) false (looked_up ld_minc p') (nm "U") (nm "N")).
  { rewrite (opened ld_minc (kp_args "refinement: U <= N") (kp_disk kn_j) ld_spec p' pqs eq_refl Sy Op). change (looked_up ld_minc (AJson (json_new (dk_components (kp_disk kn_j)) ld_spec))) with kn_later.
    eexists. split; [vm_compute; reflexivity|exact I]. }
  split; [exact No|]. split; [exact T|]. split; [exact N|]. destruct E1 as (ls & E1).
  refine (C68_later_no_partial kp_chs ld_minc kp_make kn_disk ld_spec ls kn_j (nm "M") "N" 2 kp_ts kp_n kp_chs (kp_args "refinement: U <= N") (kp_disk kn_j) (nm "U") (nm "N") p' pqs 3 _ _ 3 _ _ kn_sound eq_refl Sy P1 E1 Cr W Se eq_refl eq_refl eq_refl _ eq_refl eq_refl eq_refl eq_refl _ _ T Op No N); [vm_compute; reflexivity|cbn; discriminate|cbn; discriminate].
Qed.
