(** C51: models in XML documents. *)
From Coq Require Import List String Ascii ZArith Bool Arith Lia.
From Verif Require Import Fed.Zone Model.Base Model.Expr Model.Guard Model.Loc Model.Component Model.Peg Model.ParseEdge Model.Files Model.Xml
  Spec.TextSpec Spec.FileSpec Spec.XmlSpec Proofs.GuardFacts Proofs.FileFacts Proofs.XmlFacts Proofs.DeclFacts Props.Text.
Import ListNotations.
Local Open Scope string_scope.
Local Open Scope list_scope.
Local Open Scope nat_scope.

(** C51.  Declarations: the clocks are those listed, numbered from 1 in the order of the text, whatever the line ends,
    comments and empty lines. *)
Theorem C51_declarations : forall ls s, (forall l, In l ls -> dline_ok l) -> NoDup (declared ls) -> plain_spaces (decl_text ls) ->
  with_ends (decl_text ls) s -> parse_declarations s = Ok (numbered (declared ls)).
Proof.
  intros ls s L N P E. destruct (xml_decls _ (plain_cr _ P)) as [A B]. destruct E as [-> | ->]; [rewrite A|rewrite B]; apply decl_reads; assumption.
Qed.
Print Assumptions C51_declarations.

(** C51.  System declarations are read as the same text in a project folder is, and with Windows line ends too. *)
Theorem C51_system_partial : forall ns ls s, ns <> [] -> (forall n, In n ns -> word sep_comps n) -> (forall l, In l ls -> line_ok ns l) ->
  plain_spaces (system_text ns ls) -> with_ends (system_text ns ls) s ->
  exists sp, xml_system s = Ok sp /\ sp_comps sp = ns /\
    (forall n, match assoc n (sp_ins sp) with Some l => l | None => [] end = listed true ls n) /\
    (forall n, match assoc n (sp_outs sp) with Some l => l | None => [] end = listed false ls n).
Proof.
  intros ns ls s Ne W H P E. destruct (system_reads ns ls Ne W H) as (sp & D & C & I & O). exists sp.
  split; [destruct E as [-> | ->]; [apply xml_system_ok|apply xml_system_crlf; [|apply system_words|]]; assumption|]. split; [exact C|]. split; intros n; [specialize (I n)|specialize (O n)].
  - destruct (assoc n (sp_ins sp)); [apply I|symmetry; exact I].
  - destruct (assoc n (sp_outs sp)); [apply O|symmetry; exact O].
Qed.
Print Assumptions C51_system_partial.

(** C51.  A whole document: the templates, in order, are the components, with all locations, invariants, edges, guards,
    updates, actions and directions, and the system declarations say which components there are and their actions. *)
Theorem C51_document_partial : forall ts ns ls root, document ts ns ls root -> (forall t, In t ts -> template_ok t) ->
  ns <> [] -> (forall n, In n ns -> word sep_comps n) -> (forall l, In l ls -> line_ok ns l) -> plain_spaces (system_text ns ls) ->
  exists sp, parse_xml root = Ok (map as_read ts, sp) /\ sp_comps sp = ns /\
    (forall n, match assoc n (sp_ins sp) with Some l => l | None => [] end = listed true ls n) /\
    (forall n, match assoc n (sp_outs sp) with Some l => l | None => [] end = listed false ls n).
Proof.
  intros ts ns ls root D Ok Ne W H P. destruct (read_document ts ns ls root D Ok Ne W H P) as (sp & E & Es). exists sp. split; [exact E|].
  destruct (C51_system_partial ns ls (system_text ns ls) Ne W H P (or_introl eq_refl)) as (sp' & E' & R). rewrite (xml_system_ok _ _ P Es) in E'. injection E' as <-. exact R.
Qed.
Print Assumptions C51_document_partial.

(** A document with two templates, a comment, Windows line ends, and elements nobody reads. *)
Definition lab (k s : string) : elem := Elem "label" [("kind", k); ("x", "-60")] (txt s) [].
Definition ex_machine : component := mkComp "Machine" (numbered ["y"])
  [mkL "id0" None Initial ""; mkL "id1" (Some (BLessEQ (AVar "y") (AInt 6))) Normal ""]
  [mkE "NotImplemented" "id0" "id1" SInput None (Some [("y", AInt 0)]) "coin"; mkE "NotImplemented" "id1" "id0" SOutput (Some (BGreatEQ (AVar "y") (AInt 2))) None "tea"] None.
Definition ex_idle : component := mkComp "Idle" (numbered []) [mkL "id9" None Initial ""] [] None.
Definition ex_ts : list template := [mkT ex_machine "id0" [DComment (txt " clocks"); DClocks "y" []]; mkT ex_idle "id9" []].
Definition ex_sys : list sysline := [LIO "Machine" [mkIO "coin" true true; mkIO "tea" false false]; LBlank].
Definition ex_root : elem := Elem "nta" [] [] [
  Elem "declaration" [] (txt "// global") [];
  Elem "template" [] [] [
    Elem "name" [("x", "5")] (txt "Machine") []; Elem "declaration" [] (crlf (decl_text [DComment (txt " clocks"); DClocks "y" []])) [];
    Elem "location" [("id", "id0"); ("x", "0")] [] [Elem "name" [] (txt "start") []];
    Elem "location" [("id", "id1")] [] [Elem "name" [] (txt "busy") []; lab "invariant" "y<=6"];
    Elem "init" [("ref", "id0")] [] [];
    Elem "transition" [] [] [Elem "source" [("ref", "id0")] [] []; Elem "target" [("ref", "id1")] [] []; lab "synchronisation" "coin?"; lab "assignment" "y=0"; Elem "nail" [] [] []];
    Elem "transition" [("controllable", "false")] [] [Elem "source" [("ref", "id1")] [] []; Elem "target" [("ref", "id0")] [] []; lab "comments" "a?"; lab "guard" "y>=2"; lab "synchronisation" "tea!"]];
  Elem "template" [] [] [Elem "name" [] (txt "Idle") []; Elem "declaration" [] [] []; Elem "location" [("id", "id9")] [] []; Elem "init" [("ref", "id9")] [] []];
  Elem "system" [] (crlf (system_text ["Machine"; "Idle"] ex_sys)) []; Elem "queries" [] [] []].
Ltac in_cases H := repeat (let E := fresh in destruct H as [E|H]; [try subst; try (inversion E; subst; clear E)|]); try (exfalso; exact H).
Ltac not_white := let c := fresh in let H := fresh in let X := fresh in
  intros c H X; vm_compute in H; repeat (destruct H as [<-|H]; [vm_compute in X; repeat (destruct X as [X|X]; [discriminate|]); exact X|]); exact H.
Example C51_nonvacuous : document ex_ts ["Machine"; "Idle"] ex_sys ex_root /\ (forall t, In t ex_ts -> template_ok t) /\
  (forall n, In n ["Machine"; "Idle"] -> word sep_comps n) /\ (forall l, In l ex_sys -> line_ok ["Machine"; "Idle"] l) /\ plain_spaces (system_text ["Machine"; "Idle"] ex_sys) /\
  exists sp, parse_xml ex_root = Ok ([ex_machine; ex_idle], sp) /\ sp_comps sp = ["Machine"; "Idle"] /\ sp_ins sp = [("Machine", ["coin"])] /\ sp_outs sp = [("Machine", ["tea"])].
Proof.
  split; [|split; [|split; [|split; [|split]]]].
  - split.
    + eexists. split; [reflexivity|]. constructor; [|constructor; [|constructor]].
      * eexists. split; [right; reflexivity|]. split; [reflexivity|]. split; [eexists; split; reflexivity|]. split; [eexists; split; reflexivity|].
        split; [eexists; split; [reflexivity|]|split; [eexists; split; reflexivity|eexists; split; [reflexivity|]]].
        -- constructor; [|constructor; [|constructor]].
           ++ split; [reflexivity|]. split; reflexivity.
           ++ split; [reflexivity|]. split; [reflexivity|]. eexists. split; [reflexivity|]. split; [reflexivity|]. split; reflexivity.
        -- constructor; [|constructor; [|constructor]].
           ++ split; [reflexivity|]. split; [eexists; split; reflexivity|]. split; [eexists; split; reflexivity|]. eexists. split; [reflexivity|].
              split; [intros y Hy; in_cases Hy; eexists; reflexivity|]. split; [reflexivity|]. split; [eexists; split; [reflexivity|]; split; [reflexivity|split; reflexivity]|].
              eexists. split; [reflexivity|]. split; [reflexivity|]. split; reflexivity.
           ++ split; [reflexivity|]. split; [eexists; split; reflexivity|]. split; [eexists; split; reflexivity|]. eexists. split; [reflexivity|].
              split; [intros y Hy; in_cases Hy; eexists; reflexivity|]. split; [eexists; split; [reflexivity|]; split; [reflexivity|split; reflexivity]|]. split; [reflexivity|].
              eexists. split; [reflexivity|]. split; [reflexivity|]. split; reflexivity.
      * eexists. split; [left; reflexivity|]. split; [reflexivity|]. split; [eexists; split; reflexivity|]. split; [eexists; split; reflexivity|].
        split; [eexists; split; [reflexivity|]|split; [eexists; split; reflexivity|eexists; split; [reflexivity|]]].
        -- constructor; [|constructor]. split; [reflexivity|]. split; reflexivity.
        -- constructor.
    + eexists _, _. split; [reflexivity|]. split; [right; reflexivity|reflexivity].
  - intros t Ht. cbn [ex_ts] in Ht. destruct Ht as [<-|[<-|[]]].
    + constructor.
      * intros l Hl. cbn in Hl. destruct Hl as [<-|[<-|[]]]; cbn; [intros X; repeat (destruct X as [X|X]; [discriminate|]); exact X|].
        intros x [<-|[]]. split; [discriminate|]. cbn. intros c [<-|[]] X. repeat (destruct X as [X|X]; [discriminate|]). exact X.
      * repeat constructor. intros [].
      * not_white.
      * intros l Hl. cbn in Hl. destruct Hl as [<-|[<-|[]]]; cbn; [exact I|]. repeat split; try exact good_y; lia.
      * intros e He. cbn in He. destruct He as [<-|[<-|[]]]; cbn.
        -- split; [exact I|]. split; [|intros a [<-|[<-|[<-|[<-|[]]]]]; split; discriminate]. split; [discriminate|]. intros u [<-|[]]. split; [exact good_y|]. split; [cbn; lia|]. split; [exact I|reflexivity].
        -- split; [repeat split; try exact good_y; lia|]. split; [exact I|]. intros a [<-|[<-|[<-|[]]]]; split; discriminate.
    + split; cbn; [intros ? []|constructor|intros ? []|intros l [<-|[]]; exact I|intros ? []].
  - intros n [<-|[<-|[]]]; (split; [discriminate|]); intros c Hc X; cbn in Hc; repeat (destruct Hc as [<-|Hc]; [repeat (destruct X as [X|X]; [discriminate|]); exact X|]); exact Hc.
  - intros l [<-|[<-|[]]]; cbn; [|exact I]. split; [auto|]. intros a [<-|[<-|[]]]; (split; [discriminate|]); intros c Hc X; cbn in Hc; repeat (destruct Hc as [<-|Hc]; [repeat (destruct X as [X|X]; [discriminate|]); exact X|]); exact Hc.
  - not_white.
  - eexists. split; [vm_compute; reflexivity|]. repeat split.
Qed.

(** No project whose file is called <something>.xml is taken for an XML project: the test asks for a file named ".xml". *)
Theorem C51_kind_refuted : forall dir stem, stem <> "" -> project_kind (dir ++ [(stem ++ ".xml")%string]) = JsonProject.
Proof.
  intros dir stem H. unfold project_kind, is_xml_project. rewrite rev_app_distr. cbn [rev app]. destruct (String.eqb_spec (stem ++ ".xml") ".xml") as [E|]; [|reflexivity].
  exfalso. apply (f_equal String.length) in E. destruct stem as [|c s]; [congruence|]. cbn in E. injection E as E.
  assert (X : forall a b, String.length (a ++ b) = String.length a + String.length b) by (induction a as [|c0 a IH]; intros b; [reflexivity|cbn; rewrite IH; reflexivity]).
  rewrite X in E. cbn in E. lia.
Qed.
Print Assumptions C51_kind_refuted.
Example C51_kind_nonvacuous : project_kind ["samples"; "xml"; "conjun.xml"] = JsonProject /\ project_kind ["samples"; ".xml"] = XmlProject.
Proof. split; reflexivity. Qed.

(** A location whose first label is a comment: a comment that is a condition becomes the invariant, in place of the real
    one, and any other comment ends the program. *)
Theorem C51_label_refuted : exists x y, 
  (forall l, In l (find_all "label" x) -> has_attr "kind" "comments" l \/ is_label "invariant" (txt "x<=5") l) /\ 
  xml_location "id0" x = Ok (mkL "id0" (Some (BGreatEQ (AVar "x") (AInt 3))) Initial "") /\
  (forall l, In l (find_all "label" y) -> has_attr "kind" "comments" l) /\ xml_location "id0" y = Panic.
Proof.
  exists (Elem "location" [("id", "id0")] [] [lab "comments" "x>=3"; lab "invariant" "x<=5"]), (Elem "location" [("id", "id0")] [] [lab "comments" "wait here"]).
  split; [|split; [vm_compute; reflexivity|split; [|vm_compute; reflexivity]]].
  - intros l [<-|[<-|[]]]; [left; reflexivity|right; repeat split].
  - intros l [<-|[]]. reflexivity.
Qed.
Print Assumptions C51_label_refuted.

(** All edges of all components have the same id, so that nothing reported by id says which edge it was. *)
Theorem C51_ids_refuted : forall root cs sp, parse_xml root = Ok (cs, sp) -> forall c e, In c cs -> In e (c_edges c) -> e_id e = "NotImplemented".
Proof.
  intros root cs sp E c e Hc He.
  assert (M : forall A B (f : A -> res B) l bs b, mapM f l = Ok bs -> In b bs -> exists a, In a l /\ f a = Ok b).
  { clear. intros A B f. induction l as [|a l IH]; intros bs b E Hb; cbn in E; [injection E as <-; destruct Hb|]. inv_bind E. inv_bind E. injection E as <-.
    destruct Hb as [<-|Hb]; [eauto using in_eq|]. destruct (IH _ _ H0 Hb) as (a' & X & Y). eauto using in_cons. }
  unfold parse_xml in E. inv_bind E. inv_bind E. inv_bind E. injection E as -> _.
  destruct (M _ _ _ _ _ _ H Hc) as (x & _ & Ex). unfold xml_component in Ex. do 6 inv_bind Ex. injection Ex as <-. cbn [c_edges] in He.
  destruct (M _ _ _ _ _ _ H3 He) as (y & _ & Ey). unfold xml_edge in Ey. inv_bind Ey. match type of Ey with (let (_, _) := ?p in _) = _ => destruct p as [gu s] end. do 4 inv_bind Ey. injection Ey as <-. reflexivity.
Qed.
Print Assumptions C51_ids_refuted.

(** With Windows line ends, an IO line without actions is not read; with the others it is. *)
Theorem C51_ends_refuted : exists s sp, xml_system s = Ok sp /\ xml_system (crlf s) = Panic.
Proof. exists (txt "system A;" ++ newline :: txt "IO A" ++ newline :: []). eexists. split; vm_compute; reflexivity. Qed.
Print Assumptions C51_ends_refuted.

(** Other layouts of the same declarations end the program, in XML documents and in component files: a declaration that follows
    a space or a tab, be it at the start of a line or after a semicolon, and so also a space or a comment after the last semicolon
    of a line.  [a] is everything before, [b] everything after. *)
Theorem C51_layout_refuted : forall c a b, In c [" "%char; ascii_of_nat 9] ->
  (decode_declarations (c :: b) = Panic /\ parse_declarations (c :: b) = Panic) /\
  (decode_declarations (a ++ newline :: c :: b) = Panic /\ parse_declarations (a ++ newline :: c :: b) = Panic) /\
  (~ In newline a -> starts "//" a = false -> decode_declarations (a ++ ";"%char :: c :: b) = Panic /\ parse_declarations (a ++ ";"%char :: c :: b) = Panic).
Proof.
  intros c a b Hc.
  assert (N : (c <> ";"%char /\ c <> newline /\ c <> "/"%char) /\ c <> "c"%char /\ c <> "i"%char /\ Ascii.eqb c cr = false) by (destruct Hc as [<-|[<-|[]]]; repeat split; discriminate).
  destruct N as (N & Nc & Ni & Nr).
  assert (P1 : forall s st, decode_decl st (c :: s) = Panic) by (intros; apply decl_aborts; assumption).
  assert (P2 : forall s st, decode_decl st (without cr (c :: s)) = Panic) by (intros s st; unfold without; cbn [filter]; rewrite Nr; cbn [negb]; apply decl_aborts; assumption).
  assert (T2 : forall st s, (exists st', decode_decl st (without cr s) = Ok st') \/ decode_decl st (without cr s) = Panic) by (intros; apply decode_decl_total).
  assert (D : forall s, foldM decode_line (split_on newline s) (mkDecls [] [], 1) = Panic -> decode_declarations s = Panic) by (intros s E; unfold decode_declarations; rewrite E; reflexivity).
  assert (X : forall s, foldM xml_decl_line (split_on newline s) (mkDecls [] [], 1) = Panic -> parse_declarations s = Panic) by (intros s E; unfold parse_declarations; rewrite E; reflexivity).
  split; [|split].
  - split; [apply D; exact (at_start decode_decl decode_decl_total c N P1 b _)|apply X; exact (at_start (fun st d => decode_decl st (without cr d)) T2 c N P2 b _)].
  - split; [apply D; exact (after_line decode_decl decode_decl_total c N P1 a b _)|apply X; exact (after_line (fun st d => decode_decl st (without cr d)) T2 c N P2 a b _)].
  - intros Na Sa. split; [apply D; exact (after_piece decode_decl decode_decl_total c N P1 a b _ Na Sa)|apply X; exact (after_piece (fun st d => decode_decl st (without cr d)) T2 c N P2 a b _ Na Sa)].
Qed.
Print Assumptions C51_layout_refuted.
Example C51_layout_nonvacuous : (exists d, decode_declarations (txt "clock x;clock y;") = Ok d /\ d_clocks d = [("x", 1); ("y", 2)]) /\
  decode_declarations (txt "clock x; clock y;") = Panic /\ parse_declarations (txt "clock x; // the delay") = Panic /\ parse_declarations (txt "  clock x;") = Panic.
Proof. split; [eexists; split; vm_compute; reflexivity|]. repeat split; vm_compute; reflexivity. Qed.
