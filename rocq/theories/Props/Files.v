(** C38, C41, C47: files. *)
From Coq Require Import List String Ascii ZArith QArith Bool Arith Lia Permutation.
From Verif Require Import Fed.Zone Model.Base Model.Expr Model.Guard Model.Loc Model.Component Model.Peg Model.ParseEdge Model.Files
  Spec.GuardSpec Model.Layout Spec.TextSpec Spec.LayoutSpec Spec.FileSpec Proofs.LayoutFacts Proofs.FileFacts Props.Text.
Import ListNotations.
Local Open Scope string_scope.
Local Open Scope list_scope.
Local Open Scope nat_scope.

(** C38.  Any table that was read from a text, written in any order of its entries, is read back with the same
    clock names in the order written; the clocks are numbered from 1 without gaps. *)
Theorem C38_loaded : forall s d cl, decode_declarations s = Ok d -> Permutation cl (d_clocks d) ->
  exists d', decode_declarations (encode_declarations (mkDecls cl (d_ints d))) = Ok d' /\
    map fst (d_clocks d') = map fst cl /\ map snd (d_clocks d') = seq 1 (List.length cl).
Proof.
  intros s d cl E P. destruct (decode_good s d E) as [W N]. eexists. split.
  - apply decode_encode; cbn [d_clocks].
    + intros x Hx. apply W. eapply Permutation_in; [apply Permutation_map; exact P|exact Hx].
    + eapply Permutation_NoDup; [apply Permutation_map; symmetry; exact P|exact N].
  - cbn [d_clocks]. rewrite <- (map_length fst cl). generalize (map fst cl). clear. intros l. generalize 1. induction l as [|x l IH]; intros k; [auto|]. cbn.
    destruct (IH (S k)) as [A B]. rewrite A, B. auto.
Qed.
Print Assumptions C38_loaded.
(** Tables that were not read from a text: the names need only be names. *)
(** A text of declarations, with comments and empty lines, declares the clocks it lists, numbered from 1 in their order. *)
Theorem C38_lines : forall ls, (forall l, In l ls -> dline_ok l) -> NoDup (declared ls) ->
  decode_declarations (decl_text ls) = Ok (mkDecls (combine (declared ls) (seq 1 (List.length (declared ls)))) []).
Proof. exact decl_reads. Qed.
Print Assumptions C38_lines.
Example C38_lines_nonvacuous : (forall l, In l [DClocks "x" ["y"]; DComment (txt "clock q;"); DBlank; DClocks "z" []] -> dline_ok l) /\
  decl_text [DClocks "x" ["y"]; DComment (txt "clock q;"); DBlank; DClocks "z" []] = txt "clock x, y;" ++ newline :: txt "//clock q;" ++ newline :: newline :: txt "clock z;".
Proof.
  split; [|reflexivity]. intros l [<-|[<-|[<-|[<-|[]]]]]; cbn.
  - intros x [<-|[<-|[]]]; (split; [discriminate|]); intros c [<-|[]] X; repeat (destruct X as [X|X]; [discriminate|]); exact X.
  - intros X. repeat (destruct X as [X|X]; [discriminate|]). exact X.
  - exact I.
  - intros x [<-|[]]; (split; [discriminate|]); intros c [<-|[]] X; repeat (destruct X as [X|X]; [discriminate|]); exact X.
Qed.
Theorem C38_tables : forall d, (forall x, In x (map fst (d_clocks d)) -> clock_name x) -> NoDup (map fst (d_clocks d)) ->
  decode_declarations (encode_declarations d) = Ok (mkDecls (combine (map fst (d_clocks d)) (seq 1 (List.length (d_clocks d)))) []).
Proof. exact decode_encode. Qed.
Print Assumptions C38_tables.
(** Every integer a text declares has the value 0. *)
Theorem C38_integers : forall s d n k, decode_declarations s = Ok d -> In (n, k) (d_ints d) -> k = 0%Z.
Proof.
  assert (A : forall l (m : list (string * Z)), (forall n k, In (n, k) m -> k = 0%Z) -> forall n k, In (n, k) (fold_left add_int l m) -> k = 0%Z).
  { induction l as [|v l IH]; intros m H; [exact H|]. cbn [fold_left]. apply IH. intros n k Hn. unfold add_int, put in Hn. apply in_app_iff in Hn. destruct Hn as [Hn|[Hn|[]]]; [apply filter_In in Hn; apply (H n k), Hn|congruence]. }
  assert (D : forall st s st', decode_decl st s = Ok st' -> (forall n k, In (n, k) (d_ints (fst st)) -> k = 0%Z) -> forall n k, In (n, k) (d_ints (fst st')) -> k = 0%Z).
  { intros [d k] s st' E H. unfold decode_decl in E. destruct s as [|c s]; [injection E as <-; exact H|]. destruct (split_on " " (c :: s)) as [|ty ws]; [discriminate|].
    destruct (String.eqb (str ty) "clock"). { destruct (fold_left add_clock (decl_vars ws) (d_clocks d, k)). injection E as <-. exact H. }
    destruct (String.eqb (str ty) "int"); [|discriminate]. injection E as <-. cbn [fst d_ints]. apply A. exact H. }
  assert (F : forall (f : decls * nat -> text -> res (decls * nat)), (forall st s st', f st s = Ok st' -> (forall n k, In (n, k) (d_ints (fst st)) -> k = 0%Z) -> forall n k, In (n, k) (d_ints (fst st')) -> k = 0%Z) ->
    forall l st st', foldM f l st = Ok st' -> (forall n k, In (n, k) (d_ints (fst st)) -> k = 0%Z) -> forall n k, In (n, k) (d_ints (fst st')) -> k = 0%Z).
  { intros f Hf. induction l as [|x l IH]; intros st st' E H; cbn [foldM] in E; [injection E as <-; exact H|]. destruct (f st x) as [s1| | |] eqn:E1; cbn [bind] in E; try discriminate. eapply IH; [exact E|]. eapply Hf; eassumption. }
  intros s d n k E. unfold decode_declarations in E. destruct (foldM decode_line _ _) as [st| | |] eqn:El; cbn [bind] in E; try discriminate. injection E as <-. revert n k. eapply (F decode_line); [|exact El|intros ? ? []].
  intros st0 s0 st' E0 H. unfold decode_line in E0. destruct s0 as [|c s0]; [injection E0 as <-; exact H|]. destruct (starts "//" (c :: s0)); [injection E0 as <-; exact H|]. eapply (F decode_decl); eassumption.
Qed.
Print Assumptions C38_integers.
Example C38_integers_nonvacuous : exists d, decode_declarations (txt "clock x;int i, j;") = Ok d /\ In ("j", 0%Z) (d_ints d).
Proof. eexists. split; [vm_compute; reflexivity|]. cbn. auto. Qed.
Definition ex_decl_text : text := txt "clock a, b,c;int i;" ++ newline :: txt "// comment" ++ newline :: txt "clock  d;".
Example C38_nonvacuous : exists d, decode_declarations ex_decl_text = Ok d /\ d_clocks d = [("a", 1); ("b", 2); ("c", 3); ("d", 4)] /\
  encode_declarations (mkDecls (rev (d_clocks d)) (d_ints d)) = txt "clock d, c, b, a;".
Proof. eexists. split; [vm_compute; reflexivity|]. split; reflexivity. Qed.

(** C41.  The full claim: every accepted text is read as the components and actions it lists.  It holds for
    texts with one space after each comma of the list of components, and any comments and blank lines, and with or without
    spaces after the commas of the actions. *)
Theorem C41_read_partial : forall ns ls, ns <> [] -> (forall n, In n ns -> word sep_comps n) -> (forall l, In l ls -> line_ok ns l) ->
  exists sp, decode_system (system_text ns ls) = Ok sp /\ sp_comps sp = ns /\
    (forall n, match assoc n (sp_ins sp) with Some l => l | None => [] end = listed true ls n) /\
    (forall n, match assoc n (sp_outs sp) with Some l => l | None => [] end = listed false ls n).
Proof.
  intros ns ls Ne W H. destruct (system_reads ns ls Ne W H) as (sp & E & C & I & O). exists sp. split; [exact E|]. split; [exact C|].
  split; intros n; [specialize (I n)|specialize (O n)].
  - destruct (assoc n (sp_ins sp)); [apply I|symmetry; exact I].
  - destruct (assoc n (sp_outs sp)); [apply O|symmetry; exact O].
Qed.
Print Assumptions C41_read_partial.
Definition ex_lines : list sysline :=
  [LIO "Machine" [mkIO "coin" true true; mkIO "tea" false false; mkIO "cof" false true]; LBlank; LComment (txt "IO Researcher {x?}"); LIO "Researcher" [mkIO "tea" true true]; LIO "Machine" [mkIO "tip" true false]].
Example C41_nonvacuous : (forall n, In n ["Machine"; "Researcher"] -> word sep_comps n) /\ (forall l, In l ex_lines -> line_ok ["Machine"; "Researcher"] l) /\
  system_text ["Machine"; "Researcher"] ex_lines = txt "system Machine, Researcher;" ++ newline :: txt "IO Machine {coin?, tea!,cof!}" ++ newline :: newline ::
    txt "//IO Researcher {x?}" ++ newline :: txt "IO Researcher {tea?}" ++ newline :: txt "IO Machine {tip?}" /\
  listed true ex_lines "Machine" = ["coin"; "tip"] /\ listed false ex_lines "Machine" = ["tea"; "cof"].
Proof.
  assert (Wd : forall seps n, negb (String.eqb n "") && forallb (fun c => negb (existsb (Ascii.eqb c) seps)) (list_ascii_of_string n) = true -> word seps n).
  { intros seps n H. apply andb_true_iff in H. destruct H as [H1 H2]. split; [intros ->; discriminate|]. intros c Hc Hs. rewrite forallb_forall in H2. specialize (H2 c Hc).
    apply negb_true_iff in H2. assert (X : existsb (Ascii.eqb c) seps = true) by (apply existsb_exists; exists c; split; [exact Hs|apply Ascii.eqb_refl]). congruence. }
  split; [intros n [<-|[<-|[]]]; apply Wd; reflexivity|]. split; [|repeat split; reflexivity].
  intros l [<-|[<-|[<-|[<-|[<-|[]]]]]]; cbn [line_ok]; auto.
  - split; [left; reflexivity|]. intros a [<-|[<-|[<-|[]]]]; apply Wd; reflexivity.
  - intros X. vm_compute in X. repeat (destruct X as [X|X]; [discriminate|]). exact X.
  - split; [right; left; reflexivity|]. intros a [<-|[]]; apply Wd; reflexivity.
  - split; [left; reflexivity|]. intros a [<-|[]]; apply Wd; reflexivity.
Qed.
(** Without the space, the names are run together into one component; a space before a comma makes a nameless one;
    and an IO line for "system", which is not a component, is accepted. *)
Theorem C41_spacing_refuted : exists a b c, decode_system (txt "system A,B;") = Ok a /\ sp_comps a = ["AB"] /\
  decode_system (txt "system A , B;") = Ok b /\ sp_comps b = ["A"; ""; "B"] /\
  decode_system (txt "system A;" ++ newline :: txt "IO system {go?}") = Ok c /\ sp_ins c = [("system", ["go"])] /\ ~ In "system" (sp_comps c).
Proof. eexists _, _, _. repeat split; try (vm_compute; reflexivity). vm_compute. intros [X|[]]. discriminate. Qed.
Print Assumptions C41_spacing_refuted.

(** C47.  The full claim: a component that is written to a file and read again is the same component.  It holds if no guard
    needs parentheses and the updates can be saved: then the clock names, locations and edges are the same, and the clocks
    are numbered in the order they were written.  Integer variables are not written. *)
Theorem C47_written_partial : forall c, writable c -> exists f, encode_component c = Ok f /\
  decode_component f = Ok (mkComp (c_name c) (mkDecls (combine (map fst (d_clocks (c_decls c))) (seq 1 (List.length (d_clocks (c_decls c))))) []) (c_locs c) (c_edges c) None).
Proof. exact component_rt. Qed.
Print Assumptions C47_written_partial.
Theorem C47_loaded_partial : forall f c, decode_component f = Ok c -> tidy c ->
  exists f' c', encode_component c = Ok f' /\ decode_component f' = Ok c' /\ c_name c' = c_name c /\ c_locs c' = c_locs c /\ c_edges c' = c_edges c /\
    map fst (d_clocks (c_decls c')) = map fst (d_clocks (c_decls c)).
Proof.
  intros f c E T. destruct (component_rt c (loaded_writable f c E T)) as (f' & E1 & E2). eexists _, _. split; [exact E1|]. split; [exact E2|]. repeat split; try reflexivity.
  cbn [c_decls d_clocks]. rewrite <- (map_length fst). generalize (map fst (d_clocks (c_decls c))). clear. intros l. generalize 1. induction l as [|x l IH]; intros k; [auto|]. cbn. rewrite IH. reflexivity.
Qed.
Print Assumptions C47_loaded_partial.
Definition ex_file : file_comp :=
  mkFC (txt "M") (txt "clock x, y;") [mkFL (txt "L0") (txt "x <= 3 && y - x < 20") (txt "INITIAL") (txt "NORMAL"); mkFL (txt "L1") [] (txt "NORMAL") (txt "URGENT")]
    [mkFE (txt "E0") (txt "L0") (txt "L1") (txt "INPUT") (txt "y>=2") (txt "x=0, y = 7") (txt "go?"); mkFE (txt "E1") (txt "L1") (txt "L0") (txt "OUTPUT") [] [] (txt "back!")].
Example C47_nonvacuous : exists c, decode_component ex_file = Ok c /\ tidy c /\ List.length (c_edges c) = 2 /\ writable c.
Proof.
  eexists. split; [vm_compute; reflexivity|]. match goal with |- tidy ?c /\ _ => assert (T : tidy c) end; [|split; [exact T|split; [reflexivity|refine (loaded_writable ex_file _ _ T); vm_compute; reflexivity]]].
  split; [|split].
  - intros l [<-|[<-|[]]]; cbn; repeat split; lia.
  - intros e [<-|[<-|[]]]; cbn.
    + split; [repeat split; lia|]. split.
      * split; [discriminate|]. intros u [<-|[<-|[]]]; (split; [exact good_x || exact good_y|]); (split; [cbn; lia|]); split; try exact I; reflexivity.
      * intros a [<-|[<-|[]]]; split; discriminate.
    + split; [exact I|]. split; [exact I|]. intros a [<-|[<-|[<-|[<-|[]]]]]; split; discriminate.
  - apply connect_iff. vm_compute. reflexivity.
Qed.
(** Finding: a file in which an edge leads to a location that is not there is read, but the component cannot be written again: the
    program aborts when it draws the edge, after it has emptied the file. *)
Theorem C47_dangling_refuted : exists f c, decode_component f = Ok c /\ encode_component c = Panic.
Proof.
  exists (mkFC (txt "M") (txt "clock x;") [mkFL (txt "L0") [] (txt "INITIAL") (txt "NORMAL")] [mkFE (txt "E0") (txt "L0") (txt "L1") (txt "INPUT") [] [] (txt "go?")]).
  eexists. split; vm_compute; reflexivity.
Qed.
Print Assumptions C47_dangling_refuted.
(** The guard x <= 10 - (5 - 2) is loaded, saved and loaded again as a different one; the constant update x = 1 - 2 is
    saved as a text that is not read again. *)
Theorem C47_reload_refuted :
  (exists f c f' c' d v g g', decode_component f = Ok c /\ encode_component c = Ok f' /\ decode_component f' = Ok c' /\
    map e_guard (c_edges c) = [Some g] /\ map e_guard (c_edges c') = [Some g'] /\ c_decls c = d /\ c_decls c' = d /\ bsat d v g /\ ~ bsat d v g') /\
  (exists f c f', decode_component f = Ok c /\ encode_component c = Ok f' /\ decode_component f' = Err).
Proof.
  split.
  - exists (mkFC (txt "M") (txt "clock x;") [mkFL (txt "L0") [] (txt "INITIAL") (txt "NORMAL")] [mkFE (txt "E0") (txt "L0") (txt "L0") (txt "INPUT") (txt "x <= 10 - (5 - 2)") [] (txt "go?")]).
    eexists _, _, _, (mkDecls [("x", 1)] []), (fun i => match i with 1%nat => 5 | _ => 0 end)%Q, _, _.
    split; [vm_compute; reflexivity|]. split; [vm_compute; reflexivity|]. split; [vm_compute; reflexivity|]. split; [reflexivity|]. split; [reflexivity|]. split; [reflexivity|]. split; [reflexivity|]. split.
    + eexists _, _. split; [reflexivity|]. split; [reflexivity|]. vm_compute. discriminate.
    + intros (a & b & Ea & Eb & H). vm_compute in Ea, Eb. injection Ea as <-. injection Eb as <-. vm_compute in H. apply H. reflexivity.
  - exists (mkFC (txt "M") (txt "clock x;") [mkFL (txt "L0") [] (txt "INITIAL") (txt "NORMAL")] [mkFE (txt "E0") (txt "L0") (txt "L0") (txt "INPUT") [] (txt "x = 1 - 2") (txt "go?")]).
    eexists _, _. split; [vm_compute; reflexivity|]. split; [vm_compute; reflexivity|]. vm_compute. reflexivity.
Qed.
Print Assumptions C47_reload_refuted.

(** The action of an edge is read without the mark the editor puts behind it. *)
Theorem C47_marks : forall f e a mark, decode_edge f = Ok e -> fe_sync f = a ++ mark -> In mark [[]; ["!"%char]; ["?"%char]] ->
  (forall c, In c a -> c <> "!"%char /\ c <> "?"%char) -> e_sync e = str a.
Proof.
  intros f e a mark E S M N. unfold decode_edge in E. destruct (decode_status _); try discriminate. destruct (decode_guard _); try discriminate. destruct (decode_update _); try discriminate.
  cbn [bind] in E. injection E as <-. cbn [e_sync]. f_equal. rewrite S. unfold decode_sync.
  assert (X : forall m, m = "!"%char \/ m = "?"%char -> existsb (Ascii.eqb m) a = false /\ without m a = a).
  { intros m Hm. clear - N Hm. unfold without. induction a as [|c a IH]; [split; reflexivity|]. cbn [existsb filter].
    destruct (IH (fun c' H => N c' (or_intror H))) as [I1 I2]. destruct (N c (or_introl eq_refl)) as [N1 N2].
    assert (Q : Ascii.eqb m c = false) by (apply Ascii.eqb_neq; destruct Hm as [->| ->]; congruence).
    assert (Q' : Ascii.eqb c m = false) by (apply Ascii.eqb_neq; destruct Hm as [->| ->]; congruence).
    rewrite ?Q, ?Q', I1. cbn. rewrite I2. split; reflexivity. }
  destruct (X _ (or_introl eq_refl)) as [X1 X2], (X _ (or_intror eq_refl)) as [X3 X4].
  unfold without in *. destruct M as [<-|[<-|[<-|[]]]]; rewrite !existsb_app, X1, ?X3; cbn; rewrite ?filter_app, ?X2, ?X4; cbn; rewrite ?app_nil_r; reflexivity.
Qed.
Print Assumptions C47_marks.
Example C47_marks_nonvacuous : exists e, decode_edge (mkFE (txt "E1") (txt "L0") (txt "L1") (txt "OUTPUT") (txt "x>=2") (txt "x=0") (txt "tea!")) = Ok e /\ e_sync e = "tea".
Proof. eexists. split; vm_compute; reflexivity. Qed.
