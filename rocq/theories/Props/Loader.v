(** C52: component loaders. *)
From Coq Require Import List String Ascii ZArith QArith Bool Arith Lia.
From Verif Require Import Fed.Zone Fed.ZoneFacts Fed.Check Model.Base Model.Expr Model.Guard Model.Loc Model.Component Model.Enable Model.ParseQuery Model.Peg Model.ParseEdge Model.Files Model.Xml Model.Server
  Model.TS Model.Recipe Model.Reduce Model.Exec Model.Loader
  Spec.TextSpec Spec.LayoutSpec Spec.FileSpec Spec.EnableSpec Spec.RecipeSpec Spec.ExecSpec Spec.XmlSpec Spec.LoaderSpec Proofs.GuardFacts Proofs.LayoutFacts Proofs.FileFacts Proofs.LoaderFacts Props.Text Props.Files.
Import ListNotations.
Local Open Scope string_scope.
Local Open Scope list_scope.
Local Open Scope nat_scope.

(** C52.  Over every history of look-ups and saves on a JSON project, each look-up returns the component last saved under
    the name, and otherwise the component of the file with that name, accepting its declared inputs everywhere; the history
    goes through exactly if all these exist.  Nothing depends on the order or number of look-ups. *)
Theorem C52_json_history : forall minc files sp ops cs,
  (exists p, run_ops minc ops (AJson (json_new files sp)) = Ok (cs, p)) <-> answers minc files sp [] ops cs.
Proof.
  intros minc files sp ops cs. destruct (json_runs minc files sp ops [] (json_new files sp) (stands_new minc files sp)) as [A B]. split; [|apply B]. intros (p & E). apply (A _ _ E).
Qed.
Print Assumptions C52_json_history.

(** C52.  The files: those of saved components are replaced, all others are left as they were. *)
Theorem C52_json_files : forall minc files sp ops cs p, run_ops minc ops (AJson (json_new files sp)) = Ok (cs, p) ->
  exists j, p = AJson j /\ forall n, match last_saved n ops with Some c => exists f, encode_component c = Ok f /\ jp_files j n = Some f | None => jp_files j n = files n end.
Proof.
  intros minc files sp ops cs p E. destruct (json_runs minc files sp ops [] (json_new files sp) (stands_new minc files sp)) as [A _]. destruct (A _ _ E) as (_ & j & -> & S). exists j. split; [reflexivity|]. apply S.
Qed.
Print Assumptions C52_json_files.

(** C52.  Starting again on the folder that was left behind: a saved component is there, with its clocks numbered anew and
    its declared inputs accepted; the other components are as before.  Missing for the full statement: components whose
    expressions are not written faithfully (C47). *)
Theorem C52_restart_partial : forall minc files sp ops cs j n, run_ops minc ops (AJson (json_new files sp)) = Ok (cs, AJson j) ->
  (forall c, last_saved n ops = Some c -> writable c) ->
  forall c', provides minc (jp_files j) sp [] n c' <->
    match last_saved n ops with
    | Some c => prepared minc sp (mkComp n (numbered (map fst (d_clocks (c_decls c)))) (c_locs c) (c_edges c) None) c'
    | None => in_file minc files sp n c'
    end.
Proof.
  intros minc files sp ops cs j n E W c'. destruct (C52_json_files _ _ _ _ _ _ E) as (j' & [= <-] & F). specialize (F n). unfold provides. cbn [last_saved fold_left]. unfold in_file at 1.
  destruct (last_saved n ops) as [c|] eqn:L; [|rewrite F; reflexivity]. destruct F as (f & Ef & ->). destruct (component_rt c (W c eq_refl)) as (f' & Ef' & Ed). rewrite Ef in Ef'. injection Ef' as <-.
  pose proof (last_name _ _ _ L) as Nm. rewrite Nm in Ed. unfold numbered. rewrite map_length. split.
  - intros (f' & c0 & [= <-] & E0 & _ & P). rewrite Ed in E0. injection E0 as <-. exact P.
  - intros P. exists f. eexists. split; [reflexivity|]. split; [exact Ed|]. split; [reflexivity|exact P].
Qed.
Print Assumptions C52_restart_partial.

(** C52.  XML projects: the last template of each name, accepting its declared inputs everywhere; looking up changes nothing. *)
Theorem C52_xml : forall minc root cs sp p, parse_xml root = Ok (cs, sp) -> xml_new minc root = Ok p ->
  forall n c p', get_component minc p n = Ok (c, p') <-> p' = p /\ exists c0, last_named n cs c0 /\ prepared minc sp c0 c.
Proof.
  intros minc root cs sp p E Ep n c p'. unfold xml_new in Ep. rewrite E in Ep. cbn [bind] in Ep. inv_bind Ep. injection Ep as <-. cbn [get_component].
  pose proof (xml_prepared minc sp cs a H n c) as X. split.
  - intros G. inv_bind G. injection G as -> <-. split; [reflexivity|]. apply X, H0.
  - intros [-> P]. rewrite (proj2 X P). reflexivity.
Qed.
Print Assumptions C52_xml.
(** C52.  The server: the last component of each name that was sent, accepting its own inputs everywhere. *)
Theorem C52_server : forall minc cs p, server_new minc cs = Ok p ->
  forall n c p', get_component minc p n = Ok (c, p') <-> p' = p /\ exists c0, last_named n cs c0 /\ make_input_enabled (minc (comp_dim c0)) c0 (input_actions c0) = Ok c.
Proof.
  intros minc cs p Ep n c p'. unfold server_new in Ep. inv_bind Ep. injection Ep as <-. cbn [get_component].
  pose proof (container_prepared minc cs a H n c) as X. split.
  - intros G. inv_bind G. injection G as -> <-. split; [reflexivity|]. apply X, H0.
  - intros [-> P]. rewrite (proj2 X P). reflexivity.
Qed.
Print Assumptions C52_server.

(** C52.  The system of a query, built with a loader that reads files as they are asked for, is the one built from the
    components the loader had under the names when the query came, however often and in whatever order they are asked for. *)
Theorem C52_recipe : forall minc e p st,
  (forall r p' st', recipe_with minc e p st = Ok (r, p', st') -> get_system_recipe (looked_up minc p) e st = Ok (r, st') /\ forall n, looked_up minc p' n = looked_up minc p n) /\
  (forall r st', get_system_recipe (looked_up minc p) e st = Ok (r, st') -> exists p', recipe_with minc e p st = Ok (r, p', st')).
Proof. exact recipe_as_loaded. Qed.
Print Assumptions C52_recipe.
(** Saving changes what is found under the name of the component and nothing else, is an error in XML projects and does
    nothing in the server: as in the execution of queries (C50). *)
Definition kind_of (p : any_loader) : loader := match p with AJson _ => JsonLoader | AXml _ => XmlLoader | AServer _ => ServerLoader end.
Theorem C52_save : forall minc p c,
  (forall p', save_component p c = Ok p' -> kind_of p' = kind_of p /\ exists load, Exec.save_component (kind_of p) (looked_up minc p) c = Ok load /\ forall n, looked_up minc p' n = load n) /\
  (storable c -> forall load, Exec.save_component (kind_of p) (looked_up minc p) c = Ok load -> exists p', save_component p c = Ok p').
Proof.
  intros minc p c. split.
  - intros p' E. destruct p as [j|m|m]; cbn [save_component kind_of Exec.save_component] in *.
    + inv_bind E. injection E as <-. split; [reflexivity|]. eexists. split; [reflexivity|]. intros n. exact (json_save_looks minc j c a n H).
    + discriminate.
    + injection E as <-. split; [reflexivity|]. eexists. split; reflexivity.
  - intros S load E. destruct p as [j|m|m]; cbn [save_component kind_of Exec.save_component] in *; [|discriminate|eauto].
    unfold json_save. destruct (proj1 (encode_iff c) S) as (f & ->). cbn. eauto.
Qed.
Print Assumptions C52_save.

(** C52.  From files whose declarations list every clock once and whose updates assign natural numbers, the loader provides
    what the theorems about queries (C50) assume of loaded components. *)
Theorem C52_loadable : forall minc files sp, (forall n f, files n = Some f -> sound_file f) -> loadable (looked_up minc (AJson (json_new files sp))).
Proof.
  intros minc files sp H n c E. unfold looked_up in E. destruct (get_component minc (AJson (json_new files sp)) n) as [[c' p']| | |] eqn:G; try discriminate. injection E as ->.
  cbn [get_component] in G. inv_bind G. destruct a as [c0 j]. injection G as -> <-. destruct (get_sound _ _ _ _ _ _ _ _ (stands_new minc files sp) H0) as [P _].
  apply (in_file_sound minc files sp n c (H n)). exact P.
Qed.
Print Assumptions C52_loadable.

(** A project with a machine whose input coin is declared; it is looked up, another component is saved, looked up, and the
    machine is looked up again. *)
Definition ld_file : file_comp :=
  mkFC (txt "M") (txt "clock x;") [mkFL (txt "L0") [] (txt "INITIAL") (txt "NORMAL"); mkFL (txt "L1") (txt "x<=3") (txt "NORMAL") (txt "NORMAL")]
    [mkFE (txt "E0") (txt "L0") (txt "L1") (txt "INPUT") [] (txt "x=0") (txt "coin"); mkFE (txt "E1") (txt "L1") (txt "L0") (txt "OUTPUT") (txt "x>=2") [] (txt "tea")].
Definition ld_files : folder := fun n => if String.eqb n "M" then Some ld_file else None.
Definition ld_spec : sysspec := mkSpec ["M"] [("M", ["coin"])] [("M", ["tea"])].
Definition ld_minc (d : nat) : fed -> fed := fun f => f.
Definition ld_m : component := Eval vm_compute in match looked_up ld_minc (AJson (json_new ld_files ld_spec)) "M" with Some c => c | None => mkComp "" (mkDecls [] []) [] [] None end.
Definition ld_new : component := mkComp "New" (numbered ["z"]) [mkL "A" None Initial "NORMAL"] [mkE "e" "A" "A" SOutput (Some (BGreatEQ (AVar "z") (AInt 1))) (Some [("z", AInt 0)]) "tick"] None.
Definition ld_ops : list op := [OGet "M"; OSave ld_new; OGet "New"; OGet "M"].
Example C52_nonvacuous :
  (forall n f, ld_files n = Some f -> sound_file f) /\
  answers ld_minc ld_files ld_spec [] ld_ops [ld_m; ld_new; ld_m] /\
  (exists l, In l (c_edges ld_m) /\ e_src l = "L1" /\ e_sync l = "coin") /\
  (exists r p st, recipe_with ld_minc (XPar (XComp "M" None) (XComp "M" (Some "2"))) (AJson (json_new ld_files ld_spec)) (0, None) = Ok (r, p, st)).
Proof.
  split; [|split; [|split]].
  - intros n f E. unfold ld_files in E. destruct (String.eqb n "M"); [|discriminate]. injection E as <-. split.
    + exists [DClocks "x" []]. split; [reflexivity|]. split; [|repeat constructor; intros []]. intros l [<-|[]] x [<-|[]]. split; [discriminate|]. intros c [<-|[]] X. repeat (destruct X as [X|X]; [discriminate|]). exact X.
    + intros c E. vm_compute in E. injection E as <-. intros e us [<-|[<-|[]]]; cbn; intros [= <-]. split; [intros x k [[= <- <-]|[]]; lia|]. intros x a b [[= <- <-]|[]] [[= <-]|[]]. reflexivity.
  - apply C52_json_history. eexists. vm_compute. reflexivity.
  - eexists. split; [right; right; left; reflexivity|]. split; reflexivity.
  - eexists _, _, _. vm_compute. reflexivity.
Qed.
Example C52_xml_nonvacuous : exists p q cs, xml_new ld_minc (Elem "nta" [] [] [Elem "template" [] [] [Elem "name" [] (txt "T") []; Elem "location" [("id", "i")] [] []; Elem "init" [("ref", "i")] [] []];
    Elem "system" [] (txt "system T;" ++ newline :: txt "IO T {a?}") []]) = Ok p /\ List.length (match get_component ld_minc p "T" with Ok (c, _) => c_edges c | _ => [] end) = 1 /\
  server_new ld_minc cs = Ok q /\ List.length (match get_component ld_minc q "M" with Ok (c, _) => c_edges c | _ => [] end) = 3.
Proof.
  eexists _, _, [match decode_component ld_file with Ok c => c | _ => ld_new end]. split; [vm_compute; reflexivity|]. split; [vm_compute; reflexivity|]. split; [vm_compute; reflexivity|]. vm_compute. reflexivity.
Qed.
(** A component saved under the name of one with declared inputs does not accept them until the program is started again:
    what is found under a name depends on whether it was saved in the same run. *)
Theorem C52_restart_refuted : exists files sp c j cs c1 c2,
  (forall n f, files n = Some f -> sound_file f) /\ writable c /\
  run_ops ld_minc [OSave c; OGet "M"] (AJson (json_new files sp)) = Ok (cs, AJson j) /\ looked_up ld_minc (AJson j) "M" = Some c1 /\
  looked_up ld_minc (AJson (json_new (jp_files j) sp)) "M" = Some c2 /\
  (forall e, In e (c_edges c1) -> e_type e <> SInput) /\ exists e, In e (c_edges c2) /\ e_type e = SInput /\ e_sync e = "coin".
Proof.
  exists ld_files, ld_spec, (mkComp "M" (c_decls ld_new) (c_locs ld_new) (c_edges ld_new) None). eexists _, _, _, _.
  split; [exact (proj1 C52_nonvacuous)|]. split.
  { constructor.
    - intros x [<-|[]]. split; [discriminate|]. intros c [<-|[]] X. repeat (destruct X as [X|X]; [discriminate|]). exact X.
    - repeat constructor. intros [].
    - intros l [<-|[]]. split; [exact I|discriminate].
    - assert (gz : good_name "z") by (exists "z"%char, []; repeat split; try reflexivity; intros ? []).
      intros e [<-|[]]. cbn. split; [repeat split; try exact gz; lia|]. split; [|intros a [<-|[<-|[<-|[<-|[]]]]]; split; discriminate]. split; [discriminate|]. intros u [<-|[]]. split; [exact gz|]. split; [cbn; lia|]. split; [exact I|reflexivity].
    - apply connect_iff. reflexivity. }
  split; [vm_compute; reflexivity|]. split; [vm_compute; reflexivity|]. split; [vm_compute; reflexivity|]. split.
  - intros e [<-|[]]. discriminate.
  - eexists. split; [right; left; reflexivity|]. split; reflexivity.
Qed.
Print Assumptions C52_restart_refuted.
