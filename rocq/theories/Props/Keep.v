(** C68: created components in later commands and in later requests. *)
From Coq Require Import List String Ascii ZArith QArith Bool Arith Lia Lqa Permutation.
From Verif Require Import Fed.Zone Fed.ZoneFacts Fed.Check Model.Base Model.Expr Model.Guard Model.Loc Model.Component Model.Enable Model.TS Model.ParseQuery Model.Peg Model.ParseEdge Model.Files Model.Xml Model.Server Model.Recipe Model.Reduce Model.Search Model.PairList Model.Refine Model.Save Model.Query Model.Exec Model.Loader Model.Cli Model.Handle
  Spec.BoundSpec Spec.StepSpec Spec.SystemSpec Spec.RunSpec Spec.ReachSpec Spec.RefineSpec Spec.EnableSpec Spec.TextSpec Spec.FileSpec Spec.XmlSpec Spec.RecipeSpec Spec.ReduceSpec Spec.SameSpec Spec.IdSpec Spec.SaveSpec Spec.ExecSpec Spec.LoaderSpec Spec.CliSpec Spec.LawSpec Spec.PlaceSpec Spec.StandSpec Spec.SubstSpec Spec.KeepSpec
  Proofs.GuardFacts Proofs.LayoutFacts Proofs.EnableFacts Proofs.RunFacts Proofs.RecipeFacts Proofs.FileFacts Proofs.LoaderFacts Proofs.LawFacts Proofs.LawMore Proofs.LawQuot Proofs.PlaceFacts Proofs.AcrossFacts Proofs.StandFacts Proofs.SubstFacts Proofs.SubstMore
  Props.Examples Props.Determinism Props.Reachability Props.Refinement Props.Recipes Props.Saving Props.Exec Props.Laws Props.Place Props.Stand Props.Subst Props.Files Props.Loader Props.Cli.
Import ListNotations.
Local Open Scope string_scope.
Local Open Scope list_scope.
Local Open Scope nat_scope.

Lemma numbered_fst ns : map fst (d_clocks (numbered ns)) = ns.
Proof. unfold numbered. cbn [d_clocks]. generalize 1. induction ns as [|x ns IH]; intros k; cbn; [reflexivity|]. f_equal. apply IH. Qed.
Lemma file_renumbered c : d_ints (c_decls c) = [] -> renumbered c (as_in_file c).
Proof. intros I. unfold renumbered, as_in_file. cbn [c_name c_locs c_edges c_decls]. rewrite numbered_fst, I. auto. Qed.
Lemma renumbered_sym c c' : renumbered c c' -> renumbered c' c.
Proof. intros (A & B & C & D & E). repeat split; congruence. Qed.
Lemma renumbered_trans c c' c'' : renumbered c c' -> renumbered c' c'' -> renumbered c c''.
Proof. intros (A & B & C & D & E) (A' & B' & C' & D' & E'). repeat split; congruence. Qed.

Lemma later_instance load m c load' e : d_ints (c_decls c) = [] -> found_later load m c load' -> forall r, instance_of load' e r -> instance_of (storing m c load) e r.
Proof.
  intros I F. induction e as [n id|a IHa b IHb|a IHa b IHb|a IHa b IHb]; intros [c'|l r|l r|l r q] H; cbn [instance_of] in *; try contradiction; try (destruct H; auto).
  destruct H as (c0 & L & R). split; [|assumption]. rewrite F in L. unfold storing in *. destruct (String.eqb n m); [|eauto]. injection L as <-. exists c. split; [reflexivity|]. eapply renumbered_trans; [apply file_renumbered, I|exact R].
Qed.
Lemma later_placed load m c load' e d s : d_ints (c_decls c) = [] -> found_later load m c load' -> placed load' e d s -> placed (storing m c load) e d s.
Proof.
  intros I F (q & r & D & [P1 P2 P3 P4 P5] & A). exists q, r. split; [exact D|]. split; [|exact A]. constructor; auto. eapply later_instance; eauto.
Qed.
Lemma numbered_clocks ns : NoDup ns -> clocks_numbered (numbered ns).
Proof.
  intros N. unfold clocks_numbered. rewrite numbered_fst. split; [exact N|]. unfold numbered. cbn [d_clocks]. rewrite combine_length, seq_length, Nat.min_id.
  assert (G : forall k, map snd (combine ns (seq k (List.length ns))) = seq k (List.length ns)) by (clear; induction ns as [|x ns IH]; intros k; cbn; [reflexivity|f_equal; apply IH]).
  rewrite G. split; [apply seq_NoDup|]. intros x i H. apply in_combine_r, in_seq in H. lia.
Qed.
Lemma created_ints ch reduce load e m d s c : created ch reduce load e m d s c -> d_ints (c_decls c) = [] /\ c_special c = None /\ c_name c = m.
Proof.
  intros Cr. pose proof (cr_answer _ _ _ _ _ _ _ _ Cr) as A. cbn [run_query] in A. apply bind_ok in A. destruct A as ([s' dim'] & _ & A). apply bind_ok in A. destruct A as (c0 & E & A). injection A as <-.
  destruct (created_decls _ _ _ _ _ _ _ _ E) as [-> Sp]. split; [reflexivity|]. split; [exact Sp|]. unfold get_component in E. inv_bind E. injection E as <-. reflexivity.
Qed.
Lemma later_loadable load m c load' : d_ints (c_decls c) = [] -> found_later load m c load' -> loadable (storing m c load) -> loadable load'.
Proof.
  intros I F L n x H. rewrite F in H. unfold storing in H. destruct (String.eqb_spec n m) as [->|N].
  - injection H as <-. destruct (L m c) as ((N1 & _) & R & G); [unfold storing; rewrite String.eqb_refl; reflexivity|]. split; [apply numbered_clocks, N1|]. pose proof (file_renumbered c I) as Re. split; [eapply good_resets_re|eapply named_guards_re]; eauto.
  - apply (L n x). unfold storing. apply String.eqb_neq in N. rewrite N. exact H.
Qed.

(** *** C68 *)
(** A created component that is found later can be loaded like any other. *)
Theorem C68_loadable : forall ch reduce load e m d s c load', loadable load -> created ch reduce load e m d s c -> found_later load m c load' -> loadable load'.
Proof. intros ch reduce load e m d s c load' L Cr F. destruct (created_ints _ _ _ _ _ _ _ _ Cr) as (I & _). eapply later_loadable; eauto. eapply C63_loadable; eauto. Qed.
Print Assumptions C68_loadable.
(** Every expression means what it meant when the component was made. *)
Theorem C68_unchanged : forall ch reduce load e m d s c load' f d1 s1 d2 s2, loadable load -> created ch reduce load e m d s c -> found_later load m c load' ->
  names_one (storing m c load) f d1 s1 -> names_one load' f d2 s2 -> same_behaviour d1 s1 d2 s2.
Proof.
  intros ch reduce load e m d s c load' f d1 s1 d2 s2 L Cr F N1 N2. destruct (created_ints _ _ _ _ _ _ _ _ Cr) as (I & _). pose proof (C63_loadable ch reduce load e m d s c L Cr) as L'. pose proof (C68_loadable ch reduce load e m d s c load' L Cr F) as L2.
  apply (placed_same (storing m c load) f); [exact L'|apply names_one_placed; assumption|]. apply (later_placed load m c load' f d2 s2 I F). apply names_one_placed; assumption.
Qed.
Print Assumptions C68_unchanged.
(** The component can be used inside every expression for the expression it was made of. *)
Theorem C68_stands : forall ch reduce load e m d s c load' f d1 s1 d2 s2, loadable load -> created ch reduce load e m d s c -> found_later load m c load' -> quotients_apart (put m e f) = true -> quotients_apart f = true ->
  names_one load' (put m e f) d1 s1 -> names_one load' f d2 s2 -> bisimilar d1 s1 d2 s2.
Proof.
  intros ch reduce load e m d s c load' f d1 s1 d2 s2 L Cr F Q Q' N1 N2. destruct (created_ints _ _ _ _ _ _ _ _ Cr) as (I & _). pose proof (C68_loadable ch reduce load e m d s c load' L Cr F) as L2.
  apply (created_put ch reduce load e m d s c f); auto; apply (later_placed load m c load' _ _ _ I F), names_one_placed; assumption.
Qed.
Print Assumptions C68_stands.
Theorem C68_refines : forall ch reduce load e m d s c load' f g d1 s1 t1 d2 s2 t2, loadable load -> created ch reduce load e m d s c -> found_later load m c load' ->
  quotients_apart (put m e f) = true -> quotients_apart f = true -> quotients_apart (put m e g) = true -> quotients_apart g = true ->
  names_two load' (put m e f) (put m e g) d1 s1 t1 -> names_two load' f g d2 s2 t2 -> (refines d2 s2 t2 <-> refines d1 s1 t1).
Proof.
  intros ch reduce load e m d s c load' f g d1 s1 t1 d2 s2 t2 L Cr F Q1 Q2 Q3 Q4 N1 N2. destruct (created_ints _ _ _ _ _ _ _ _ Cr) as (I & _). pose proof (C68_loadable ch reduce load e m d s c load' L Cr F) as L2.
  destruct (beside_placed _ _ _ _ _ _ (names_two_beside _ _ _ _ _ _ L2 N1)) as [P1 R1]. destruct (beside_placed _ _ _ _ _ _ (names_two_beside _ _ _ _ _ _ L2 N2)) as [P2 R2].
  symmetry. apply C64_refines; [apply (created_put ch reduce load e m d s c f)|apply (created_put ch reduce load e m d s c g)]; auto; apply (later_placed load m c load' _ _ _ I F); assumption.
Qed.
Print Assumptions C68_refines.
(** The answers agree. *)
Theorem C68_answers : forall ch reduce load e m d s c load' f g ch1 r1 ch2 r2 d1 s1 t1 d2 s2 t2, loadable load -> created ch reduce load e m d s c -> found_later load m c load' ->
  quotients_apart (put m e f) = true -> quotients_apart f = true -> quotients_apart (put m e g) = true -> quotients_apart g = true ->
  (trusted_yes ch1 r1 load' (put m e f) (put m e g) d1 s1 t1 -> trusted_no ch2 r2 load' f g d2 s2 t2 -> yes ch1 r1 load' (put m e f) (put m e g) -> ~ no ch2 r2 load' f g) /\
  (trusted_yes ch2 r2 load' f g d2 s2 t2 -> trusted_no ch1 r1 load' (put m e f) (put m e g) d1 s1 t1 -> yes ch2 r2 load' f g -> ~ no ch1 r1 load' (put m e f) (put m e g)).
Proof.
  intros ch reduce load e m d s c load' f g ch1 r1 ch2 r2 d1 s1 t1 d2 s2 t2 L Cr F Q1 Q2 Q3 Q4. pose proof (C68_loadable ch reduce load e m d s c load' L Cr F) as L2. split; intros T1 T2 Y; apply (no_right _ _ _ _ _ _ _ _ L2 T2).
  - apply (C68_refines ch reduce load e m d s c load' f g d1 s1 t1 d2 s2 t2 L Cr F Q1 Q2 Q3 Q4 (ty_names _ _ _ _ _ _ _ _ T1) (tn_names _ _ _ _ _ _ _ _ T2)). eapply yes_right; eauto.
  - apply (C68_refines ch reduce load e m d s c load' f g d1 s1 t1 d2 s2 t2 L Cr F Q1 Q2 Q3 Q4 (tn_names _ _ _ _ _ _ _ _ T2) (ty_names _ _ _ _ _ _ _ _ T1)). eapply yes_right; eauto.
Qed.
Print Assumptions C68_answers.

(** Making a component accept inputs that it accepts already leaves it as it is. *)
Lemma mapM_nil {A B} (f : A -> res (list B)) l : (forall x, In x l -> f x = Ok []) -> exists bs, mapM f l = Ok bs /\ List.concat bs = [].
Proof. induction l as [|x l IH]; intros H; [exists []; auto|]. destruct IH as (bs & E & C); [intros; apply H; right; assumption|]. exists ([] :: bs). cbn [mapM]. rewrite (H x (or_introl eq_refl)), E. auto. Qed.
Theorem C68_settled : forall c ins minc, settled ins c -> make_input_enabled minc c ins = Ok c.
Proof.
  intros c ins minc [Hi Hp Hs Hu Ha]. change (S (List.length (d_clocks (c_decls c)))) with (comp_dim c) in *. unfold make_input_enabled.
  destruct (mapM_nil (new_edges_at minc (comp_dim c) c ins) (c_locs c)) as (bs & -> & Eb).
  - intros l Hl. unfold new_edges_at. destruct (inv_fed_total c (comp_dim c) Hu l Hl) as (inv & Ei). rewrite Ei. cbn [bind].
    destruct (mapM_nil (new_edge minc (comp_dim c) c l inv) ins) as (cs & -> & Ec); [|cbn [bind]; rewrite Ec; reflexivity]. intros a Hin. unfold new_edge.
    destruct (edges_zone_total c (comp_dim c) Hi Hu inv (input_edges c l a)) with (acc := fnone) as (f & Ef); [intros e0 He; exact (proj1 (proj1 (in_input_edges c l a e0) He))|]. rewrite Ef. cbn [bind].
    replace (fempty (comp_dim c) (fsub (comp_dim c) inv f)) with true; [reflexivity|]. symmetry. apply fempty_true. intros v X. apply (rest_sem c (comp_dim c) Hp Hs l inv a f Hl Ei Ef) in X. destruct X as (Hv & Hinv & N). apply N. eapply Ha; eauto.
  - cbn [bind]. rewrite Eb, app_nil_r. destruct c; reflexivity.
Qed.
Print Assumptions C68_settled.

Lemma file_again c f : writable c -> encode_component c = Ok f -> decode_component f = Ok (as_in_file c).
Proof. intros W E. destruct (component_rt c W) as (f' & E' & D). rewrite E in E'. injection E' as <-. rewrite D. unfold as_in_file, numbered. rewrite map_length. reflexivity. Qed.
Lemma found_new minc files sp n c : looked_up minc (AJson (json_new files sp)) n = Some c <-> in_file minc files sp n c.
Proof.
  unfold looked_up. cbn [Loader.get_component]. split.
  - destruct (json_get minc (json_new files sp) n) as [[c' j]| | |] eqn:G; cbn [bind]; try discriminate. intros Q; injection Q as ->. destruct (get_sound _ _ _ _ _ _ _ _ (stands_new minc files sp) G) as [P _]. exact P.
  - intros H. destruct (get_complete minc files sp [] (json_new files sp) n c (stands_new minc files sp)) as (j & ->); [exact H|reflexivity].
Qed.
Lemma found_files minc files files' sp m c f : writable c -> c_name c = m -> encode_component c = Ok f -> files' m = Some f -> (forall n, n <> m -> files' n = files n) ->
  (forall ins, assoc m (sp_ins sp) = Some ins -> settled ins (as_in_file c)) ->
  found_later (looked_up minc (AJson (json_new files sp))) m c (looked_up minc (AJson (json_new files' sp))).
Proof.
  intros W Nm Ef Fm Fo Se n. unfold storing. destruct (String.eqb_spec n m) as [->|N].
  - apply found_new. exists f, (as_in_file c). split; [exact Fm|]. split; [apply file_again; assumption|]. split; [exact Nm|]. unfold prepared. cbn [as_in_file c_name]. rewrite Nm. destruct (assoc m (sp_ins sp)) as [ins|] eqn:A; [|reflexivity]. apply C68_settled, Se, eq_refl.
  - specialize (Fo n N). destruct (looked_up minc (AJson (json_new files' sp)) n) as [x|] eqn:E1, (looked_up minc (AJson (json_new files sp)) n) as [y|] eqn:E2; try reflexivity.
    + apply found_new in E1. unfold in_file in E1. rewrite Fo in E1. apply (found_new minc files sp n x) in E1. rewrite E2 in E1. congruence.
    + apply found_new in E1. unfold in_file in E1. rewrite Fo in E1. apply (found_new minc files sp n x) in E1. congruence.
    + apply found_new in E2. unfold in_file in E2. rewrite <- Fo in E2. apply (found_new minc files' sp n y) in E2. congruence.
Qed.
(** The command "get-component: e save-as m" leaves a file, which later commands find. *)
Lemma opened minc a dk sp p pqs : project_kind (ag_input a) = JsonProject -> (forall x, dk_system dk = Some x -> decode_system x = Ok sp) -> open_project minc (ag_input a) dk = Ok (p, pqs) -> p = AJson (json_new (dk_components dk) sp).
Proof.
  intros Pk Sy Eo. unfold open_project in Eo. rewrite Pk in Eo. unfold open_json in Eo. destruct (dk_system dk) as [x|]; [|discriminate]. cbn [unwrap bind] in Eo. rewrite (Sy x eq_refl) in Eo. cbn [expect bind] in Eo. apply bind_ok in Eo. destruct Eo as (ts & _ & Eo). apply bind_ok in Eo. destruct Eo as (qs & _ & Eo). injection Eo as <- _. reflexivity.
Qed.
Theorem C68_command_partial : forall chs minc a dk sp ls j e m, project_kind (ag_input a) = JsonProject -> (forall x, dk_system dk = Some x -> decode_system x = Ok sp) ->
  parse_queries (ag_query a) = Ok [QGetComponent e (Some m)] -> command_line chs minc a dk = Ok (ls, AJson j) ->
  let load := looked_up minc (AJson (json_new (dk_components dk) sp)) in
  exists c, run_query (chs 0) (ag_reduce a) load (QGetComponent e (Some m)) = Ok (AComponent c) /\
    (writable c -> (forall ins, assoc m (sp_ins sp) = Some ins -> settled ins (as_in_file c)) ->
     found_later load m c (looked_up minc (AJson (json_new (jp_files j) sp)))).
Proof.
  intros chs minc a dk sp ls j e m Pk Sy Eq E load. unfold command_line, query_check, parse_args in E. rewrite Eq in E. cbn [bind] in E.
  destruct (ag_save a); [discriminate|]. apply bind_ok in E. destruct E as ([p oqs] & Ep & E). apply bind_ok in Ep. destruct Ep as ([p1 pqs] & Eo & Ep). rewrite (opened _ _ _ _ _ _ Pk Sy Eo) in Ep.
  destruct (ag_query a) as [|ch0 s] eqn:Ea; [vm_compute in Eq; discriminate|]. rewrite Eq in Ep. cbn [expect bind map] in Ep. injection Ep as <- <-.
  apply bind_ok in E. destruct E as ([as_ p2] & Er & E). apply bind_ok in E. destruct E as (ls' & _ & E). injection E as _ ->. cbn [run_all unwrap bind] in Er. fold load in Er.
  destruct (run_query (chs 0) (ag_reduce a) load (QGetComponent e (Some m))) as [an| | |] eqn:R; cbn [bind] in Er; try discriminate.
  assert (exists c, an = AComponent c /\ c_name c = m) as (c & -> & Nm).
  { cbn [run_query] in R. apply bind_ok in R. destruct R as ([s' dim'] & _ & R). apply bind_ok in R. destruct R as (c0 & G & R). injection R as <-. exists c0. split; [reflexivity|]. unfold get_component in G. inv_bind G. injection G as <-. reflexivity. }
  exists c. split; [reflexivity|]. intros W Se. cbn [Loader.save_component] in Er. apply bind_ok in Er. destruct Er as (p3 & Es & Er). apply bind_ok in Es. destruct Es as (j1 & Ej & Es). injection Es as <-. cbn [bind] in Er. injection Er as _ <-.
  unfold json_save in Ej. apply bind_ok in Ej. destruct Ej as (f & Ef & Ej). injection Ej as <-. cbn [jp_files json_new]. rewrite Nm.
  apply (found_files minc _ _ sp m c f W Nm Ef); [rewrite String.eqb_refl; reflexivity| |exact Se]. intros n N. apply String.eqb_neq in N. rewrite N. reflexivity.
Qed.
Print Assumptions C68_command_partial.
(** A client that sends the created component it was answered with, together with the components it had sent before. *)
Theorem C68_sent_partial : forall minc cs p c f c2 p', server_new minc cs = Ok p -> writable c -> encode_component c = Ok f -> decode_component f = Ok c2 -> server_new minc (cs ++ [c2]) = Ok p' ->
  settled (input_actions c) (as_in_file c) -> found_later (looked_up minc p) (c_name c) c (looked_up minc p').
Proof.
  intros minc cs p c f c2 p' Ep W Ef Ed Ep' Se. rewrite (file_again c f W Ef) in Ed. injection Ed as <-.
  assert (G : forall cs p, server_new minc cs = Ok p -> forall n x, looked_up minc p n = Some x <-> exists c0, last_named n cs c0 /\ make_input_enabled (minc (comp_dim c0)) c0 (input_actions c0) = Ok x).
  { intros cs0 p0 E0 n x. pose proof (C52_server minc cs0 p0 E0 n x p0) as S. unfold looked_up. split.
    - destruct (Loader.get_component minc p0 n) as [[x0 q]| | |] eqn:Eg; try discriminate. intros Q; injection Q as ->. pose proof (proj1 (C52_server minc cs0 p0 E0 n x q) Eg) as [_ H]. exact H.
    - intros H. rewrite (proj2 S (conj eq_refl H)). reflexivity. }
  intros n. unfold storing. destruct (String.eqb_spec n (c_name c)) as [->|N].
  - apply (G _ _ Ep'). exists (as_in_file c). split; [apply last_named_snoc; left; auto|]. apply C68_settled. exact Se.
  - pose proof (G _ _ Ep n) as G1. pose proof (G _ _ Ep' n) as G2.
    assert (X : forall x, looked_up minc p' n = Some x <-> looked_up minc p n = Some x).
    { intros x. rewrite G1, G2. split; intros (c0 & L & H); exists c0; (split; [|exact H]); [apply last_named_snoc in L; destruct L as [[C _]|[_ L]]; [cbn in C; congruence|exact L]|apply last_named_snoc; right; split; [cbn; congruence|exact L]]. }
    destruct (looked_up minc p' n) as [x|], (looked_up minc p n) as [y|]; try reflexivity; [symmetry; apply X; reflexivity|symmetry; apply X; reflexivity|apply X; reflexivity].
Qed.
Print Assumptions C68_sent_partial.
(** What is printed later about the created component holds of the expression it was made of. *)
Theorem C68_later_partial : forall chs minc a dk sp ls j e m d s c chs' a' dk' f g p' d1 s1 t1 d2 s2 t2,
  (forall n x, dk_components dk n = Some x -> sound_file x) -> project_kind (ag_input a) = JsonProject -> (forall x, dk_system dk = Some x -> decode_system x = Ok sp) ->
  let load := looked_up minc (AJson (json_new (dk_components dk) sp)) in let load' := looked_up minc (AJson (json_new (jp_files j) sp)) in
  parse_queries (ag_query a) = Ok [QGetComponent e (Some m)] -> command_line chs minc a dk = Ok (ls, AJson j) ->
  created (chs 0) (ag_reduce a) load e m d s c -> writable c -> (forall ins, assoc m (sp_ins sp) = Some ins -> settled ins (as_in_file c)) ->
  project_kind (ag_input a') = JsonProject -> dk_system dk' = dk_system dk -> dk_components dk' = jp_files j -> parse_queries (ag_query a') = Ok [QRefinement f g] ->
  quotients_apart (put m e f) = true -> quotients_apart f = true -> quotients_apart (put m e g) = true -> quotients_apart g = true -> ~ mentions m (put m e f) -> ~ mentions m (put m e g) ->
  trusted_yes (chs' 0) (ag_reduce a') load' f g d2 s2 t2 ->
  command_line chs' minc a' dk' = Ok ([print_query (QRefinement f g) ++ txt " -- Property is satisfied"], p') ->
  names_two load (put m e f) (put m e g) d1 s1 t1 -> refines d1 s1 t1.
Proof.
  intros chs minc a dk sp ls j e m d s c chs' a' dk' f g p' d1 s1 t1 d2 s2 t2 Sf Pk Sy load load' Eq E Cr W Se Pk' Sy' Co Eq' Q1 Q2 Q3 Q4 M1 M2 T E' N.
  pose proof (C52_loadable minc (dk_components dk) sp Sf) as L. fold load in L. destruct (C68_command_partial chs minc a dk sp ls j e m Pk Sy Eq E) as (c' & R & F). fold load in R, F. rewrite (cr_answer _ _ _ _ _ _ _ _ Cr) in R. injection R as <-. specialize (F W Se). fold load' in F.
  pose proof (C68_loadable _ _ _ _ _ _ _ _ _ L Cr F) as L2.
  destruct (single _ _ _ _ _ _ _ Eq' E') as (p & pqs & an & Eo & Er & Sa). apply says_satisfied in Sa; [|reflexivity].
  rewrite (opened minc a' dk' sp p pqs Pk' ltac:(rewrite Sy'; exact Sy) Eo), Co in Er. fold load' in Er.
  assert (R2 : refines d2 s2 t2) by (destruct T as [T1 T2 T3 T4 T5 T6 T7]; exact (C50_refines_partial (chs' 0) (ag_reduce a') load' f g d2 s2 t2 an T1 L2 T2 T3 T4 T5 T6 T7 Er Sa)).
  refine (proj1 (C68_refines _ _ load e m d s c load' f g d1 s1 t1 d2 s2 t2 L Cr F Q1 Q2 Q3 Q4 _ (ty_names _ _ _ _ _ _ _ _ T)) R2).
  assert (X : forall h, ~ mentions m h -> forall n, mentions n h -> load' n = load n) by (intros h M n Hn; rewrite F; apply (storing_other m (as_in_file c) load h M n Hn)).
  destruct N as (l & st & r & dim & q & N1 & N2 & N3 & ->). exists l, st, r, dim, q. rewrite (recipe_elsewhere load load' _ (X _ M1)), (recipe_elsewhere load load' _ (X _ M2)). auto.
Qed.
Print Assumptions C68_later_partial.

(** ** Examples *)
(** In the project of C55, N is made of M; in a later command, M is compared with it. *)
Definition kp_chs : nat -> choices := fun _ => plain_choices 30.
Definition kp_args (q : string) : args := mkArgs (txt q) ["samples"; "Machine"] false false.
Definition kp_make : args := kp_args "get-component: M save-as N".
Definition kp_project (r : res (list text * any_loader)) : json_project := match r with Ok (_, AJson j) => j | _ => json_new (fun _ => None) ld_spec end.
Definition kp_j : json_project := kp_project (command_line kp_chs ld_minc kp_make cl_disk).
Definition kp_disk (j : json_project) : disk := mkDisk (dk_system cl_disk) (dk_queries cl_disk) (jp_files j) None.
Definition kp_load : string -> option component := looked_up ld_minc (AJson (json_new ld_files ld_spec)).
Definition kp_later : string -> option component := looked_up ld_minc (AJson (json_new (jp_files kp_j) ld_spec)).
Definition kp_recipe : recipe := Eval vm_compute in get (RSimple ld_m) (rmap fst (get_system_recipe kp_load (nm "M") (0, None))).
Definition kp_ts : ts := Eval vm_compute in get ts_m (compile unchecked unchecked 1 kp_recipe).
Definition kp_n : component := Eval vm_compute in component_of (run_query (plain_choices 30) false kp_load (QGetComponent (nm "M") (Some "N"))).
Definition kp_two : nat * ts * ts := Eval vm_compute in get none3 (two kp_later (nm "M") (nm "N")).
Definition kp_own : nat * ts * ts := Eval vm_compute in get none3 (two kp_load (nm "M") (nm "M")).
Lemma kp_loadable : loadable kp_load.
Proof. apply C52_loadable. exact (proj1 C52_nonvacuous). Qed.
Lemma kp_created : created (plain_choices 30) false kp_load (nm "M") "N" 2 kp_ts kp_n.
Proof.
  apply (created_ok kp_load (nm "M") "N" kp_recipe None 1 kp_ts kp_n [[]; [Do "coin" 0; Wait 2]] kp_loadable); try (vm_compute; reflexivity).
  - cbn. discriminate.
  - intros k; apply apart_check; reflexivity.
Qed.
Lemma kp_writable : writable kp_n.
Proof.
  assert (gx : good_name "x") by (exists "x"%char, []; repeat split; try reflexivity; intros ? []).
  constructor.
  - intros x [<-|[]]. split; [discriminate|]. intros c [<-|[]] X. repeat (destruct X as [X|X]; [discriminate|]). exact X.
  - repeat constructor. intros [].
  - intros l [<-|[<-|[]]]; (split; [|discriminate]); [exact I|]. cbn. repeat split; try exact gx; lia.
  - intros e [<-|[<-|[<-|[]]]]; (split; [|split]); cbn; try exact I; try (repeat split; try exact gx; lia).
    + split; [discriminate|]. intros u [<-|[]]. split; [exact gx|]. split; [cbn; lia|]. split; [exact I|reflexivity].
    + intros a [<-|[<-|[<-|[<-|[]]]]]; split; discriminate.
    + intros a [<-|[<-|[<-|[<-|[]]]]]; split; discriminate.
    + intros a [<-|[<-|[<-|[]]]]; split; discriminate.
  - apply connect_iff. reflexivity.
Qed.
Lemma kp_settled : settled ["coin"] (as_in_file kp_n).
Proof.
  constructor; cbn [as_in_file kp_n c_decls c_locs c_edges numbered map d_clocks fst].
  - repeat constructor; cbn; intuition discriminate.
  - split; cbn; intros x g [<-|[<-|H]]; cbn; try discriminate; try (intros Q; injection Q as <-; split; reflexivity); try (destruct H as [<-|[]]; cbn; intros Q; injection Q as <-; split; reflexivity); destruct H.
  - intros e us [<-|[<-|[<-|[]]]]; cbn; intros Q; injection Q as <-; split.
    + intros w [<-|[]]. cbn. lia.
    + intros w1 w2 [<-|[]] [<-|[]] _. reflexivity.
    + intros w [].
    + intros w1 w2 [].
    + intros w [].
    + intros w1 w2 [].
  - split; [|split; [|split]]; cbn.
    + intros l g [<-|[<-|[]]]; cbn; [discriminate|]; intros Q; injection Q as <-; reflexivity.
    + intros e g [<-|[<-|[<-|[]]]]; cbn; try discriminate; intros Q; injection Q as <-; reflexivity.
    + intros e [<-|[<-|[<-|[]]]]; eexists; reflexivity.
    + intros e [<-|[<-|[<-|[]]]]; cbn; eauto 6.
  - intros l a v Hl [<-|[]] Hv Hi. destruct Hl as [<-|[<-|[]]].
    + eexists. split; [left; reflexivity|]. split; [repeat split; auto|]. split; [exact I|]. eexists _, _. split; [reflexivity|]. split; [split; [right; left; reflexivity|split; [reflexivity|]]|].
      * intros l' [<-|[<-|[]]]; cbn; [discriminate|reflexivity].
      * eexists _, _. split; [reflexivity|]. split; [reflexivity|]. vm_compute. discriminate.
    + eexists. split; [right; left; reflexivity|]. split; [repeat split; auto|]. split; [exact Hi|]. exists [], (mkL "L1" (Some (BLessEQ (AVar "x") (AInt 3))) Normal "NORMAL"). split; [reflexivity|]. split; [split; [right; left; reflexivity|split; [reflexivity|]]|exact Hi].
      intros l' [<-|[<-|[]]]; cbn; [discriminate|reflexivity].
Qed.
Example C68_nonvacuous :
  (forall n x, dk_components cl_disk n = Some x -> sound_file x) /\ (forall x, dk_system cl_disk = Some x -> decode_system x = Ok ld_spec) /\
  parse_queries (ag_query kp_make) = Ok [QGetComponent (nm "M") (Some "N")] /\ (exists ls, command_line kp_chs ld_minc kp_make cl_disk = Ok (ls, AJson kp_j)) /\
  created (kp_chs 0) (ag_reduce kp_make) kp_load (nm "M") "N" 2 kp_ts kp_n /\ writable kp_n /\ settled ["coin"] (as_in_file kp_n) /\
  trusted_yes (plain_choices 30) false kp_later (nm "M") (nm "N") 3 (one_s kp_two) (one_t kp_two) /\
  (exists p', command_line kp_chs ld_minc (kp_args "refinement: M <= N") (kp_disk kp_j) = Ok ([print_query (QRefinement (nm "M") (nm "N")) ++ txt " -- Property is satisfied"], p')) /\
  names_two kp_load (nm "M") (nm "M") 3 (one_s kp_own) (one_t kp_own) /\ refines 3 (one_s kp_own) (one_t kp_own) /\ one_t kp_two <> one_t kp_own.
Proof.
  pose proof (proj1 C52_nonvacuous) as Sf.
  assert (Sy : forall x, dk_system cl_disk = Some x -> decode_system x = Ok ld_spec) by (intros x [= <-]; vm_compute; reflexivity).
  assert (P1 : parse_queries (ag_query kp_make) = Ok [QGetComponent (nm "M") (Some "N")]) by (vm_compute; reflexivity).
  assert (E1 : exists ls, command_line kp_chs ld_minc kp_make cl_disk = Ok (ls, AJson kp_j)) by (eexists; unfold kp_j; vm_compute; reflexivity).
  pose proof kp_created as Cr. pose proof kp_writable as W.
  assert (Se : forall ins, assoc "N" (sp_ins ld_spec) = Some ins -> settled ins (as_in_file kp_n)) by (cbn; discriminate).
  assert (F : found_later kp_load "N" kp_n kp_later).
  { destruct E1 as (ls & E1). destruct (C68_command_partial kp_chs ld_minc kp_make cl_disk ld_spec ls kp_j (nm "M") "N" eq_refl Sy P1 E1) as (c & Ec & F). change (looked_up ld_minc (AJson (json_new (dk_components cl_disk) ld_spec))) with kp_load in *.
    change (kp_chs 0) with (plain_choices 30) in Ec. change (ag_reduce kp_make) with false in Ec. rewrite (cr_answer _ _ _ _ _ _ _ _ Cr) in Ec. injection Ec as <-. exact (F W Se). }
  assert (T : trusted_yes (plain_choices 30) false kp_later (nm "M") (nm "N") 3 (one_s kp_two) (one_t kp_two)).
  { apply yes_ok; first [exact (C68_loadable _ _ _ _ _ _ _ _ _ kp_loadable Cr F)|two_ok|vm_compute; auto]. }
  assert (E2 : exists p', command_line kp_chs ld_minc (kp_args "refinement: M <= N") (kp_disk kp_j) = Ok ([print_query (QRefinement (nm "M") (nm "N")) ++ txt " -- Property is satisfied"], p')) by (eexists; vm_compute; reflexivity).
  assert (N : names_two kp_load (nm "M") (nm "M") 3 (one_s kp_own) (one_t kp_own)) by (apply two_names; two_ok).
  do 6 (split; [assumption|]). split; [exact kp_settled|]. split; [exact T|]. split; [exact E2|]. split; [exact N|]. split; [|vm_compute; discriminate].
  destruct E1 as (ls & E1). destruct E2 as (p' & E2).
  refine (C68_later_partial kp_chs ld_minc kp_make cl_disk ld_spec ls kp_j (nm "M") "N" 2 kp_ts kp_n kp_chs (kp_args "refinement: M <= N") (kp_disk kp_j) (nm "M") (nm "N") p' 3 _ _ 3 _ _ Sf eq_refl Sy P1 E1 Cr W Se eq_refl eq_refl eq_refl _ eq_refl eq_refl eq_refl eq_refl _ _ T E2 N); [vm_compute; reflexivity|cbn; discriminate|cbn; discriminate].
Qed.

(** Finding: a component whose guards are unions of intersections has another meaning in later commands, as the parentheses
    are not written: P <= N is satisfied in the command in which N is made of P, and not in the next one. *)
Definition kp_file (g : string) : file_comp :=
  mkFC (txt "P") (txt "clock x, y;") [mkFL (txt "L") [] (txt "INITIAL") (txt "NORMAL")] [mkFE (txt "E") (txt "L") (txt "L") (txt "OUTPUT") (txt g) (txt "x = 0") (txt "o")].
Definition kp_start (g : string) : disk := mkDisk (dk_system cl_disk) (Some []) (fun n => if String.eqb n "P" then Some (kp_file g) else None) None.
Definition kp_union : string := "(x<1 && y<1) || (x>3 && y>3)".
Theorem C68_parentheses_refuted : exists ls j p1 p2,
  command_line kp_chs ld_minc (kp_args "get-component: P save-as N") (kp_start kp_union) = Ok (ls, AJson j) /\
  command_line kp_chs ld_minc (kp_args "get-component: P save-as N; refinement: P <= N") (kp_start kp_union) = Ok (ls ++ [txt "refinement: P <= N -- Property is satisfied"], p1) /\
  command_line kp_chs ld_minc (kp_args "refinement: P <= N") (kp_disk j) = Ok ([txt "refinement: P <= N -- Property is NOT satisfied"], p2) /\
  exists f e, jp_files j "N" = Some f /\ fc_edges f = [e] /\ fe_guard e = txt "y<1 && x<1 || y>3 && x>3".
Proof.
  exists [txt "get-component: N save-as P -- Component succesfully created"], (kp_project (command_line kp_chs ld_minc (kp_args "get-component: P save-as N") (kp_start kp_union))). eexists _, _. split; [vm_compute; reflexivity|]. split; [vm_compute; reflexivity|].
  split; [vm_compute; reflexivity|]. eexists _, _. split; [vm_compute; reflexivity|]. split; vm_compute; reflexivity.
Qed.
Print Assumptions C68_parentheses_refuted.
(** Finding: the bounds of differences of clocks are written with a sign, which cannot be read: every later command that asks for
    the component aborts. *)
Theorem C68_sign_refuted : exists ls j p1,
  command_line kp_chs ld_minc (kp_args "get-component: P save-as N") (kp_start "y-x>3") = Ok (ls, AJson j) /\
  command_line kp_chs ld_minc (kp_args "get-component: P save-as N; refinement: P <= N") (kp_start "y-x>3") = Ok (ls ++ [txt "refinement: P <= N -- Property is satisfied"], p1) /\
  command_line kp_chs ld_minc (kp_args "refinement: P <= N") (kp_disk j) = Panic /\
  exists f e, jp_files j "N" = Some f /\ fc_edges f = [e] /\ fe_guard e = txt "x-y<-3".
Proof.
  exists [txt "get-component: N save-as P -- Component succesfully created"], (kp_project (command_line kp_chs ld_minc (kp_args "get-component: P save-as N") (kp_start "y-x>3"))). eexists. split; [vm_compute; reflexivity|]. split; [vm_compute; reflexivity|].
  split; [vm_compute; reflexivity|]. eexists _, _. split; [vm_compute; reflexivity|]. split; vm_compute; reflexivity.
Qed.
Print Assumptions C68_sign_refuted.
