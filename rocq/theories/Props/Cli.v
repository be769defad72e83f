(** C55: the command line. *)
From Coq Require Import List String Ascii ZArith QArith Bool Arith Lia.
From Verif Require Import Fed.Zone Fed.ZoneFacts Fed.Check Model.Base Model.Expr Model.Guard Model.Loc Model.Component Model.Enable Model.ParseQuery Model.Peg Model.ParseEdge Model.Files Model.Xml Model.Server
  Model.TS Model.Recipe Model.Reduce Model.Refine Model.Exec Model.Loader Model.Cli
  Spec.SystemSpec Spec.RunSpec Spec.TextSpec Spec.FileSpec Spec.QuerySpec Spec.RefineSpec Spec.ExecSpec Spec.LoaderSpec Spec.CliSpec
  Proofs.GuardFacts Proofs.LoaderFacts Proofs.StoreFacts Props.Exec Props.Xml Props.Loader Props.Store Props.Queries.
Import ListNotations.
Local Open Scope string_scope.
Local Open Scope list_scope.
Local Open Scope nat_scope.

Lemma answered_iff chs reduce k load qs as_ : answered chs reduce k load qs as_ <-> run_queries chs reduce k load 0 qs = Ok as_.
Proof.
  rewrite C50_batch. unfold answered.
  assert (G : forall (P : nat * query -> Exec.answer -> Prop) qs as_ n,
    Forall2 P (combine (seq n (List.length qs)) qs) as_ <-> List.length as_ = List.length qs /\ forall i q a, nth_error qs i = Some q -> nth_error as_ i = Some a -> P (n + i, q) a).
  { intros P. induction qs0 as [|q qs0 IH]; intros bs n; cbn [List.length seq combine].
    - split; [intros F; inversion F; split; [reflexivity|]; intros [|i]; discriminate|]. intros [L _]. destruct bs; [constructor|discriminate].
    - split.
      + intros F. inversion F as [|p b ps bs' Pb F' E1 E2]; subst. apply IH in F'. destruct F' as [L F']. split; [cbn; congruence|].
        intros [|i] q' a; cbn [nth_error]; [intros [= <-] [= <-]; rewrite Nat.add_0_r; exact Pb|]. intros A B. rewrite Nat.add_succ_r. exact (F' i q' a A B).
      + intros [L F]. destruct bs as [|b bs]; [discriminate|]. constructor; [specialize (F 0 q b eq_refl eq_refl); rewrite Nat.add_0_r in F; exact F|].
        apply IH. split; [cbn in L; congruence|]. intros i q' a A B. specialize (F (S i) q' a A B). rewrite Nat.add_succ_r in F. exact F. }
  rewrite (G _ qs as_ 0). cbn [Nat.add fst snd]. tauto.
Qed.

Lemma run_all_as chs minc reduce : forall qs p i,
  (forall as_ p', run_all chs minc reduce p i (map Some qs) = Ok (as_, p') -> run_queries chs reduce (kind_of p) (looked_up minc p) i qs = Ok as_) /\
  (forall as_, run_queries chs reduce (kind_of p) (looked_up minc p) i qs = Ok as_ -> exists p', run_all chs minc reduce p i (map Some qs) = Ok (as_, p')).
Proof.
  assert (Ext : forall k qs load load' i, (forall n, load n = load' n) -> run_queries chs reduce k load i qs = run_queries chs reduce k load' i qs).
  { intros k. induction qs as [|q qs IH]; intros load load' i X; [reflexivity|]. cbn [run_queries]. rewrite (run_query_ext _ _ _ _ _ X). destruct (run_query (chs i) reduce load' q) as [a| | |]; cbn [bind]; try reflexivity.
    destruct a as [o|o|b|o|c]; cbn [after_answer bind]; try (rewrite (IH _ _ _ X); reflexivity). destruct k; cbn [Exec.save_component bind]; [|reflexivity|rewrite (IH _ _ _ X); reflexivity].
    rewrite (IH _ (fun n => if String.eqb n (c_name c) then Some c else load' n)); [reflexivity|]. intros n. cbv beta. rewrite X. reflexivity. }
  induction qs as [|q qs IH]; intros p i; cbn [map run_all run_queries].
  - split; [intros as_ p' E; injection E as <- <-; reflexivity|]. intros as_ E. injection E as <-. eauto.
  - cbn [unwrap bind]. split.
    + intros as_ p' E. apply bind_ok in E. destruct E as (a & Ea & E). apply bind_ok in E. destruct E as (p1 & E1 & E). apply bind_ok in E. destruct E as ([rest p2] & E2 & E). injection E as <- <-.
      rewrite Ea. cbn [bind]. apply (IH p1 (S i)) in E2.
      destruct a as [o|o|b|o|c]; cbn [after_answer bind]; try (injection E1 as <-; rewrite E2; reflexivity).
      destruct (proj1 (C52_save minc p c) p1 E1) as (K & load & Es & X). rewrite Es. cbn [bind]. rewrite (Ext _ _ load (looked_up minc p1)) by (intros n; symmetry; apply X). rewrite <- K, E2. reflexivity.
    + intros as_ E. apply bind_ok in E. destruct E as (a & Ea & E). apply bind_ok in E. destruct E as (load & E1 & E). apply bind_ok in E. destruct E as (rest & E2 & E). injection E as <-. rewrite Ea. cbn [bind].
      destruct a as [o|o|b|o|c]; cbn [after_answer] in E1; try (injection E1 as <-; cbn [bind]; destruct (proj2 (IH p (S i)) _ E2) as (p2 & ->); cbn [bind]; eauto).
      assert (St : storable c).
      { destruct (run_query (chs i) reduce (looked_up minc p) q) as [a| | |] eqn:Q; try discriminate. injection Ea as ->. destruct (C56_saved _ _ _ _ _ Q) as (_ & _ & Sj). destruct (Sj (json_new (fun _ => None) (mkSpec [] [] []))) as (f & Ef & _). apply encode_iff. eauto. }
      destruct (proj2 (C52_save minc p c) St _ E1) as (p1 & Ep). rewrite Ep. cbn [bind]. destruct (proj1 (C52_save minc p c) p1 Ep) as (K & load' & Es & X). rewrite E1 in Es. injection Es as <-.
      rewrite (Ext _ _ load (looked_up minc p1)) in E2 by (intros n; symmetry; apply X). rewrite <- K in E2. destruct (proj2 (IH p1 (S i)) _ E2) as (p2 & ->). cbn [bind]. eauto.
Qed.

Lemma line_says q a l : says q a l <-> l = result_line (print_query q) a.
Proof.
  split; [intros H; destruct H; try reflexivity|intros ->; unfold result_line].
  - unfold result_line. destruct o; cbn [satisfied]; try reflexivity. contradiction.
  - destruct a as [o|[ds|]|[]|[o|]|c]; cbn [satisfied]; try constructor. destruct o; constructor; discriminate.
Qed.
Lemma printed qs as_ ls : List.length as_ = List.length qs -> print_results (map Some qs) as_ = Ok ls <-> Forall2 (fun x l => says (fst x) (snd x) l) (combine qs as_) ls.
Proof.
  unfold print_results. revert as_ ls. induction qs as [|q qs IH]; intros [|a as_] ls L; try discriminate L; cbn [map combine mapM].
  - split; [intros E; injection E as <-; constructor|intros F; inversion F; reflexivity].
  - injection L as L. cbn [fst snd unwrap bind]. split.
    + intros E. apply bind_ok in E. destruct E as (xs & Ex & E). injection E as <-. constructor; [cbn [fst snd]; apply line_says; reflexivity|apply (IH as_ xs L); exact Ex].
    + intros F. inversion F as [|x l xs ls' S F' E1 E2]; subst. cbn [fst snd] in S. apply line_says in S. subst l. apply (IH as_ ls' L) in F'. rewrite F'. reflexivity.
Qed.

(** What the command line prints: exactly if the text is a list of queries, no relations are to be saved, the project can be opened and
    every query is answered, one line for each query, in order. *)
Theorem C55_printed : forall chs minc a dk ls,
  (exists p', command_line chs minc a dk = Ok (ls, p')) <->
  exists qs p pqs as_, parse_queries (ag_query a) = Ok qs /\ ag_save a = false /\ open_project minc (ag_input a) dk = Ok (p, pqs) /\
    answered chs (ag_reduce a) (kind_of p) (looked_up minc p) qs as_ /\ Forall2 (fun x l => says (fst x) (snd x) l) (combine qs as_) ls.
Proof.
  intros chs minc a dk ls. unfold command_line, query_check, parse_args. split.
  - intros (p' & E). apply bind_ok in E. destruct E as (u & Eq & E). apply bind_ok in Eq. destruct Eq as (qs & Eq & _). apply bind_ok in E. destruct E as ([p oqs] & Ep & E).
    destruct (ag_save a); [discriminate|]. apply bind_ok in Ep. destruct Ep as ([p1 pqs] & Eo & Ep). destruct (ag_query a) as [|ch0 s] eqn:Ea; [vm_compute in Eq; discriminate|]. rewrite Eq in Ep. cbn [expect bind] in Ep. injection Ep as <- <-.
    apply bind_ok in E. destruct E as ([as_ p2] & Er & E). apply bind_ok in E. destruct E as (ls' & El & E). injection E as <- <-.
    apply (run_all_as chs minc (ag_reduce a) qs p1 0) in Er. apply answered_iff in Er. exists qs, p1, pqs, as_. split; [exact Eq|]. split; [reflexivity|]. split; [exact Eo|]. split; [exact Er|]. apply printed; [apply Er|exact El].
  - intros (qs & p & pqs & as_ & Eq & Es & Eo & An & Pr). rewrite Eq. cbn [bind]. rewrite Es, Eo. cbn [bind]. apply printed in Pr; [|apply An]. apply answered_iff in An.
    apply (run_all_as chs minc (ag_reduce a) qs p 0) in An. destruct An as (p' & Er). exists p'. destruct (ag_query a) as [|c s] eqn:Ea; [vm_compute in Eq; discriminate|]. rewrite Eq. cbn [expect bind]. rewrite Er. cbn [bind]. rewrite Pr. reflexivity.
Qed.
Print Assumptions C55_printed.

Lemma run_all_disk chs minc reduce : forall qs j i as_ p', run_all chs minc reduce (AJson j) i (map Some qs) = Ok (as_, p') -> List.length as_ = List.length qs /\ exists j', p' = AJson j' /\ left_on_disk (jp_files j) (jp_files j') as_.
Proof.
  induction qs as [|q qs IH]; intros j i as_ p' E; cbn [map run_all] in E.
    - injection E as <- <-. split; [reflexivity|]. exists j. split; [reflexivity|]. intros n. reflexivity.
    - cbn [unwrap bind] in E. apply bind_ok in E. destruct E as (an & Ea & E). apply bind_ok in E. destruct E as (p1 & E1 & E). apply bind_ok in E. destruct E as ([rest p2] & E2 & E). injection E as <- <-.
      assert (Step : forall n as1 (b af : option file_comp), match find (saved_under n) (rev (an :: as1)) with Some (AComponent c) => exists f, encode_component c = Ok f /\ af = Some f | _ => af = b end <->
        match find (saved_under n) (rev as1) with Some (AComponent c) => exists f, encode_component c = Ok f /\ af = Some f | _ => match find (saved_under n) [an] with Some (AComponent c) => exists f, encode_component c = Ok f /\ af = Some f | _ => af = b end end).
      { intros n as1 b af. cbn [rev]. rewrite find_snoc. destruct (find (saved_under n) (rev as1)) as [x|] eqn:F; [|reflexivity]. apply find_some in F. destruct F as [_ F]. destruct x; try discriminate. reflexivity. }
      assert (Next : exists j1, p1 = AJson j1 /\ forall n, match find (saved_under n) [an] with Some (AComponent c) => exists f, encode_component c = Ok f /\ jp_files j1 n = Some f | _ => jp_files j1 n = jp_files j n end).
      { destruct an as [o|o|b|o|c]; try (injection E1 as <-; exists j; split; [reflexivity|]; intros n; reflexivity).
        cbn [save_component] in E1. apply bind_ok in E1. destruct E1 as (j1 & Ej & E1). injection E1 as <-. exists j1. split; [reflexivity|]. unfold json_save in Ej. apply bind_ok in Ej. destruct Ej as (f & Ef & Ej). injection Ej as <-.
        intros n. cbn [find saved_under jp_files]. rewrite (String.eqb_sym n). destruct (String.eqb (c_name c) n); [exists f; split; [exact Ef|reflexivity]|reflexivity]. }
      destruct Next as (j1 & -> & N). destruct (IH j1 (S i) rest p2 E2) as (L & j' & -> & D). split; [cbn; congruence|]. exists j'. split; [reflexivity|]. intros n. apply Step. specialize (D n). specialize (N n).
      destruct (find (saved_under n) (rev rest)) as [x|] eqn:F; [|rewrite D; exact N]. apply find_some in F. destruct F as [_ F]. destruct x; try discriminate. exact D.
Qed.
(** The files of a JSON project afterwards: the components that were created, each in the file of its name, and all else as before. *)
Theorem C55_files : forall chs minc a dk ls p', project_kind (ag_input a) = JsonProject -> command_line chs minc a dk = Ok (ls, p') ->
  exists qs as_ j, parse_queries (ag_query a) = Ok qs /\ Forall2 (fun x l => says (fst x) (snd x) l) (combine qs as_) ls /\ List.length as_ = List.length qs /\
    p' = AJson j /\ left_on_disk (dk_components dk) (jp_files j) as_.
Proof.
  intros chs minc a dk ls p' Pk E. unfold command_line, query_check, parse_args in E. apply bind_ok in E. destruct E as (u & Eq & E). apply bind_ok in Eq. destruct Eq as (qs & Eq & _). apply bind_ok in E. destruct E as ([p oqs] & Ep & E).
  destruct (ag_save a); [discriminate|]. apply bind_ok in Ep. destruct Ep as ([p1 pqs] & Eo & Ep). destruct (ag_query a) as [|ch0 s] eqn:Ea; [vm_compute in Eq; discriminate|]. rewrite Eq in Ep. cbn [expect bind] in Ep. injection Ep as <- <-.
  apply bind_ok in E. destruct E as ([as_ p2] & Er & E). apply bind_ok in E. destruct E as (ls' & El & E). injection E as <- <-.
  unfold open_project in Eo. rewrite Pk in Eo. unfold open_json in Eo. apply bind_ok in Eo. destruct Eo as (sy & _ & Eo). apply bind_ok in Eo. destruct Eo as (sp & _ & Eo). apply bind_ok in Eo. destruct Eo as (ts & _ & Eo). apply bind_ok in Eo. destruct Eo as (qs' & _ & Eo). injection Eo as <- _.
  destruct (run_all_disk chs minc (ag_reduce a) qs _ 0 as_ p2 Er) as (L & j & -> & D). exists qs, as_, j. split; [exact Eq|]. split; [apply printed; [exact L|exact El]|]. split; [exact L|]. split; [reflexivity|]. exact D.
Qed.
Print Assumptions C55_files.

(** The one line of a single query. *)
Lemma single chs minc a dk l p' q : parse_queries (ag_query a) = Ok [q] -> command_line chs minc a dk = Ok ([l], p') ->
  exists p pqs an, open_project minc (ag_input a) dk = Ok (p, pqs) /\ run_query (chs 0) (ag_reduce a) (looked_up minc p) q = Ok an /\ says q an l.
Proof.
  intros Eq E. destruct (proj1 (C55_printed chs minc a dk [l])) as (qs & p & pqs & as_ & Eq' & _ & Eo & (L & An & _) & Pr); [eauto|].
  rewrite Eq in Eq'. injection Eq' as <-. destruct as_ as [|an [|]]; try discriminate L. exists p, pqs, an. split; [exact Eo|].
  specialize (An 0 q an eq_refl eq_refl). cbn [firstn] in An. split; [|cbn [combine] in Pr; inversion Pr; subst; assumption].
  rewrite <- An. apply run_query_ext. intros n. unfold visible. destruct (kind_of p); reflexivity.
Qed.
Lemma says_satisfied q an l : says q an l -> l = print_query q ++ txt " -- Property is satisfied" -> satisfied an = true.
Proof.
  intros S ->. assert (X : forall u v, print_query q ++ u = print_query q ++ v -> u = v) by (intros u v; apply app_inv_head).
  inversion S; subst; try reflexivity; match goal with E : print_query q ++ _ = print_query q ++ _ |- _ => apply X in E; discriminate E end.
Qed.

(** From the files to the printed line: if the command line says of "refinement: e <= f" that it is satisfied, the system that e names in
    the project refines the one that f names, for component files whose declarations list every clock once and whose updates assign
    natural numbers, and under the assumptions of C50. *)
Theorem C55_refines_partial : forall chs minc a dk sp p' e f d s t,
  (forall n x, dk_components dk n = Some x -> sound_file x) -> project_kind (ag_input a) = JsonProject ->
  (forall x, dk_system dk = Some x -> decode_system x = Ok sp) -> parse_queries (ag_query a) = Ok [QRefinement e f] ->
  let load := looked_up minc (AJson (json_new (dk_components dk) sp)) in
  fair (chs 0) -> names_two load e f d s t -> (Z.of_nat d < 4294967295)%Z -> has_quotient e && has_quotient f = false ->
  (ag_reduce a = true -> dropped_unmentioned_two (the_redundant (chs 0)) load e f) -> no_gaps d t -> starts_together d s t ->
  command_line chs minc a dk = Ok ([print_query (QRefinement e f) ++ txt " -- Property is satisfied"], p') -> refines d s t.
Proof.
  intros chs minc a dk sp p' e f d s t Sf Pk Sy Eq load Fc Na Sm Hq Un Ng St E.
  destruct (single _ _ _ _ _ _ _ Eq E) as (p & pqs & an & Eo & Er & Sa). apply says_satisfied in Sa; [|reflexivity].
  assert (p = AJson (json_new (dk_components dk) sp)) as ->.
  { unfold open_project in Eo. rewrite Pk in Eo. unfold open_json in Eo. destruct (dk_system dk) as [x|]; [|discriminate]. cbn [unwrap bind] in Eo. rewrite (Sy x eq_refl) in Eo. cbn [expect bind] in Eo. apply bind_ok in Eo. destruct Eo as (ts & _ & Eo). apply bind_ok in Eo. destruct Eo as (qs & _ & Eo). injection Eo as <- _. reflexivity. }
  fold load in Er. exact (C50_refines_partial (chs 0) (ag_reduce a) load e f d s t an Fc (C52_loadable minc (dk_components dk) sp Sf) Na Sm Hq Un Ng St Er Sa).
Qed.
Print Assumptions C55_refines_partial.
(** The same for determinism. *)
Theorem C55_deterministic_partial : forall chs minc a dk sp p' e d s,
  (forall n x, dk_components dk n = Some x -> sound_file x) -> project_kind (ag_input a) = JsonProject ->
  (forall x, dk_system dk = Some x -> decode_system x = Ok sp) -> parse_queries (ag_query a) = Ok [QDeterminism e] ->
  let load := looked_up minc (AJson (json_new (dk_components dk) sp)) in
  fair (chs 0) -> names_one load e d s -> (Z.of_nat d < 4294967295)%Z ->
  (ag_reduce a = true -> dropped_unmentioned (the_redundant (chs 0)) load e /\ nothing_merged (the_redundant (chs 0)) load e) -> no_reserved s = true -> plain_divisors s = true ->
  command_line chs minc a dk = Ok ([print_query (QDeterminism e) ++ txt " -- Property is satisfied"], p') -> deterministic d s.
Proof.
  intros chs minc a dk sp p' e d s Sf Pk Sy Eq load Fc Na Sm Un Nr Pd E.
  destruct (single _ _ _ _ _ _ _ Eq E) as (p & pqs & an & Eo & Er & Sa). apply says_satisfied in Sa; [|reflexivity].
  assert (p = AJson (json_new (dk_components dk) sp)) as ->.
  { unfold open_project in Eo. rewrite Pk in Eo. unfold open_json in Eo. destruct (dk_system dk) as [x|]; [|discriminate]. cbn [unwrap bind] in Eo. rewrite (Sy x eq_refl) in Eo. cbn [expect bind] in Eo. apply bind_ok in Eo. destruct Eo as (ts & _ & Eo). apply bind_ok in Eo. destruct Eo as (qs & _ & Eo). injection Eo as <- _. reflexivity. }
  fold load in Er. exact (C50_deterministic_partial (chs 0) (ag_reduce a) load e d s an Fc (C52_loadable minc (dk_components dk) sp Sf) Na Sm Un Nr Pd Er Sa).
Qed.
Print Assumptions C55_deterministic_partial.

(** The text of a query can be given as it is printed. *)
Theorem C55_text : forall q qs, (forall x, In x (q :: qs) -> query_legible x) ->
  query_check (joined (txt "; ") (map print_query (q :: qs))) = Ok tt.
Proof. intros q qs H. unfold query_check. rewrite (C45_queries_partial q qs H). reflexivity. Qed.
Print Assumptions C55_text.

(** Finding: the queries of a project can never be run: the command line without a query is rejected before they are looked at. *)
Theorem C55_project_queries_refuted : forall chs minc a dk, ag_query a = [] -> command_line chs minc a dk = Err.
Proof. intros chs minc a dk H. unfold command_line, query_check. rewrite H. reflexivity. Qed.
Print Assumptions C55_project_queries_refuted.
(** Finding: nevertheless every query aborts if the queries of the project are missing, or if one of them cannot be read; a query that
    ends with a semicolon, or two in one text, cannot. *)
Theorem C55_other_queries_refuted : forall chs minc a dk, project_kind (ag_input a) = JsonProject ->
  dk_queries dk = None \/ (exists t ts, dk_queries dk = Some ts /\ In t ts /\ decode_query t = Panic) ->
  forall r, command_line chs minc a dk <> Ok r.
Proof.
  intros chs minc a dk Pk H [ls p'] E. destruct (proj1 (C55_printed chs minc a dk ls)) as (qs & p & pqs & as_ & _ & _ & Eo & _); [eauto|].
  unfold open_project in Eo. rewrite Pk in Eo. unfold open_json in Eo. apply bind_ok in Eo. destruct Eo as (sy & _ & Eo). apply bind_ok in Eo. destruct Eo as (sp & _ & Eo). apply bind_ok in Eo. destruct Eo as (ts & Et & Eo). apply bind_ok in Eo. destruct Eo as (qs' & Em & _).
  destruct H as [H|(t & ts' & H & Ht & Hp)]; rewrite H in Et; [discriminate|]. injection Et as ->.
  destruct (proj2 (mapM_all _ _ _ Em) t Ht) as (b & _ & Eb). congruence.
Qed.
Print Assumptions C55_other_queries_refuted.
(** A text in the list of a project's queries is read as the query it is printed from; two of them in one text cannot be read. *)
Theorem C55_project_text : forall q qs, (forall x, In x (q :: qs) -> query_legible x) ->
  decode_query (joined (txt "; ") (map print_query (q :: qs))) = match qs with [] => Ok (Some q) | _ => Panic end.
Proof.
  intros q qs H. pose proof (C45_queries_partial q qs H) as E. unfold decode_query. destruct (joined (txt "; ") (map print_query (q :: qs))) as [|x y]; [discriminate E|].
  rewrite E. cbn [expect bind]. destruct qs; reflexivity.
Qed.
Print Assumptions C55_project_text.
Example C55_unreadable : decode_query (txt "consistency: A;") = Panic /\ decode_query (txt "consistency: A; consistency: B") = Panic /\
  decode_query (txt "consistency: A") = Ok (Some (QConsistency (XComp "A" None))).
Proof. repeat split; vm_compute; reflexivity. Qed.
(** Finding: asking to save the refinement relations aborts, whatever the query; and so does naming an XML file, as its name does not
    consist of the ending alone. *)
Theorem C55_options_refuted : forall chs minc a dk r,
  (ag_save a = true -> command_line chs minc a dk <> Ok r) /\
  (forall dir stem, ag_input a = dir ++ [(stem ++ ".xml")%string] -> stem <> ""%string -> dk_system dk = None -> command_line chs minc a dk <> Ok r).
Proof.
  intros chs minc a dk [ls p']. split.
  - intros H E. destruct (proj1 (C55_printed chs minc a dk ls)) as (qs & p & pqs & as_ & _ & S & _); [eauto|congruence].
  - intros dir stem Ei Ns Sy E. destruct (proj1 (C55_printed chs minc a dk ls)) as (qs & p & pqs & as_ & _ & _ & Eo & _); [eauto|].
    unfold open_project in Eo. rewrite Ei, (C51_kind_refuted dir stem Ns) in Eo. unfold open_json in Eo. rewrite Sy in Eo. discriminate.
Qed.
Print Assumptions C55_options_refuted.

(** The project of C52 on a command line of three queries: a component is created, and refined by the one it was made from.  The line
    for the first query has the names of the components in the wrong places, as found for C45. *)
Definition cl_disk : disk := mkDisk (Some (txt "system M;" ++ newline :: txt "IO M {coin?, tea!}")) (Some [txt "consistency: M"]) ld_files None.
Definition cl_args : args := mkArgs (txt "get-component: M save-as N; refinement: M <= N; determinism: M") ["samples"; "Machine"] false false.
Example C55_nonvacuous : exists j qs,
  command_line (fun _ => plain_choices 40) ld_minc cl_args cl_disk = Ok ([txt "get-component: N save-as M -- Component succesfully created"; txt "refinement: M <= N -- Property is satisfied"; txt "determinism: M -- Property is satisfied"], AJson j) /\
  parse_queries (ag_query cl_args) = Ok qs /\ project_kind (ag_input cl_args) = JsonProject /\ jp_files j "N" <> None.
Proof. eexists _, _. split; [vm_compute; reflexivity|]. split; [vm_compute; reflexivity|]. split; [reflexivity|]. vm_compute. discriminate. Qed.
