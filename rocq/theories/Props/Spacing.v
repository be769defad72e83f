(** C23 and C45: what users write by hand is read however it is spaced. *)
From Coq Require Import List String Ascii ZArith Bool Arith Lia.
From Verif Require Import Fed.Zone Model.Base Model.Expr Model.Guard Model.Peg Model.ParseEdge Model.ParseQuery Spec.TextSpec Spec.QuerySpec Spec.SpacingSpec
  Proofs.GuardFacts Proofs.PegFacts Proofs.ParseFacts Proofs.QueryFacts.
Import ListNotations.
Local Open Scope nat_scope.
Local Open Scope list_scope.

(** ** Names *)
Lemma every_char (P : ascii -> bool) : forallb P (map ascii_of_nat (seq 0 256)) = true -> forall c, P c = true.
Proof.
  intros H c. rewrite forallb_forall in H. apply H. apply in_map_iff. exists (nat_of_ascii c). split; [apply ascii_nat_embedding|]. apply in_seq. pose proof (nat_ascii_bounded c). lia.
Qed.
Definition among (l : text) (c : ascii) : bool := existsb (Ascii.eqb c) l.
Lemma among_In l c : among l c = true <-> In c l.
Proof. unfold among. rewrite existsb_exists. split; [intros (x & Hx & E); apply Ascii.eqb_eq in E; subst; exact Hx|intros H; exists c; split; [exact H|apply Ascii.eqb_refl]]. Qed.
Lemma alpha_iff c : is_alpha c = true <-> In c letters.
Proof.
  rewrite <- among_In. assert (X : Bool.eqb (is_alpha c) (among letters c) = true) by (apply (every_char (fun c => Bool.eqb (is_alpha c) (among letters c))); vm_compute; reflexivity).
  apply Bool.eqb_prop in X. rewrite X. reflexivity.
Qed.
Lemma name_char_iff c : is_name_char c = true <-> In c later_characters.
Proof.
  rewrite <- among_In. assert (X : Bool.eqb (is_name_char c) (among later_characters c) = true) by (apply (every_char (fun c => Bool.eqb (is_name_char c) (among later_characters c))); vm_compute; reflexivity).
  apply Bool.eqb_prop in X. rewrite X. reflexivity.
Qed.
(** The names the other theorems speak of are those that start with a letter and go on with letters, digits and underscores. *)
Theorem C23_names : forall n, good_name n <-> a_name n.
Proof.
  intros n. unfold good_name, a_name. split; intros (c & a & E & Hc & Ha); exists c, a; (split; [exact E|]); (split; [apply alpha_iff; exact Hc|]); intros x Hx; apply name_char_iff; auto.
Qed.
Print Assumptions C23_names.
Example C23_names_nonvacuous : a_name "Left_2" /\ ~ a_name "2x" /\ ~ a_name "_x" /\ ~ a_name "" /\ ~ a_name "a.b".
Proof.
  split; [|do 3 (split; [intros (c & a & E & Hc & _); vm_compute in E; try discriminate; injection E as <- <-; apply alpha_iff in Hc; vm_compute in Hc; discriminate|])].
  - apply C23_names. exists "L"%char, (txt "eft_2"). do 2 (split; [reflexivity|]). apply forallb_forall. reflexivity.
  - intros (c & a & E & _ & H). vm_compute in E. injection E as <- <-. specialize (H "."%char (or_introl eq_refl)). apply name_char_iff in H. vm_compute in H. discriminate.
Qed.

(** ** White space *)
Lemma blank_skip w s : blank w -> skip (w ++ s) = skip s.
Proof. induction 1; cbn [app skip]; try exact IHblank; try reflexivity. Qed.
Lemma blank_nil w : blank w -> skip w = [].
Proof. intros H. rewrite <- (app_nil_r w), (blank_skip w [] H). reflexivity. Qed.
Lemma blank_starts w s p : blank w -> p " "%char = false -> p (ascii_of_nat 9) = false -> p (ascii_of_nat 10) = false -> p (ascii_of_nat 13) = false -> starts p s = false -> starts p (w ++ s) = false.
Proof. intros H. destruct H; cbn [app starts]; auto. Qed.
Lemma blank_names w s : blank w -> starts is_name_char s = false -> starts is_name_char (w ++ s) = false.
Proof. intros H. apply blank_starts; auto. Qed.

(** ** Guards and updates *)
(** A guard of white space is always satisfied and an update of white space changes nothing. *)
Theorem C23_nothing : forall w, blank w -> parse_guard w = Ok (BBool true) /\ parse_updates w = Ok [].
Proof. intros w H. unfold parse_guard, parse_updates. rewrite (blank_nil w H). split; reflexivity. Qed.
Print Assumptions C23_nothing.

(** A guard may have white space around it, and a semicolon behind it. *)
Lemma blank_bstop w s : blank w -> bstop s -> bstop (w ++ s).
Proof.
  intros H (((A & B) & C) & D). unfold bstop, tstop, astop. rewrite (blank_skip w s H). do 3 (split; [|assumption]). apply blank_names; assumption.
Qed.
Theorem C23_spacing : forall g w w' w'', b_legible g -> blank w -> blank w' -> blank w'' ->
  parse_guard (w ++ encode_bool g ++ w') = parse_guard (encode_bool g) /\ parse_guard (w ++ encode_bool g ++ w' ++ txt ";" ++ w'') = parse_guard (encode_bool g).
Proof.
  intros g w w' w'' L H H' H''. rewrite (guard_reads g L). unfold parse_guard. rewrite !(blank_skip w _ H).
  assert (V : forall s, skip (encode_bool g ++ s) = encode_bool g ++ s).
  { intros s. rewrite gtree_text, <- app_assoc. apply bleaf_skip; [apply gtree_legible; exact L|apply gtree_leaves]. }
  rewrite !V. split.
  - destruct (bool_reads g w' L) as (r & E & K). { rewrite <- (app_nil_r w'). apply blank_bstop; [exact H'|repeat split; reflexivity]. }
    unfold opt. rewrite E. cbn [bind]. rewrite K, (blank_nil w' H'). reflexivity.
  - destruct (bool_reads g (w' ++ txt ";" ++ w'') L) as (r & E & K). { apply blank_bstop; [exact H'|repeat split; reflexivity]. }
    unfold opt. rewrite E. cbn [bind]. rewrite K, (blank_skip w' _ H'). replace (skip (txt ";" ++ w'')) with (txt ";" ++ w'') by reflexivity. unfold p_lit. rewrite lit_app. cbn [bind]. rewrite (blank_nil w'' H''). reflexivity.
Qed.
Print Assumptions C23_spacing.

(** Updates are read however they are spaced, whether written with "=" or ":=", with or without a comma at the end. *)
Lemma astop_blank w s : blank w -> astop s -> astop (w ++ s).
Proof. intros H (A & B). unfold astop. rewrite (blank_skip w s H). split; [|exact B]. apply blank_names; assumption. Qed.
Lemma arith_skip e s : a_legible e -> skip (encode_arith e ++ s) = encode_arith e ++ s.
Proof. intros H. apply skip_visible. right. destruct (encode_starts e H) as (c & u & -> & V & _). exact V. Qed.
Lemma name_skip x s : good_name x -> skip (txt x ++ s) = txt x ++ s.
Proof.
  intros (c & a & E & Hc & _). change (txt x) with (list_ascii_of_string x). rewrite E. apply skip_visible. right. cbn. pose proof (alpha_facts c) as F. rewrite Hc in F. cbn [negb orb] in F.
  rewrite !andb_true_iff in F. tauto.
Qed.
Lemma update_reads u s : pu_blank u -> good_name (pu_name u) -> a_legible (pu_expr u) -> astop s ->
  exists r, p_assignment (skip (pu_text u ++ s)) = Ok (do a' <- expect (simplify (a_reload (pu_expr u))); Ok (pu_name u, a'), r) /\ skip r = skip s.
Proof.
  intros (B0 & B1 & B2 & B3) G L S. unfold pu_text. rewrite <- !app_assoc, (blank_skip _ _ B0), (name_skip _ _ G). unfold p_assignment.
  set (rest := (if pu_colon u then txt ":=" else txt "=") ++ pu_2 u ++ encode_arith (pu_expr u) ++ pu_3 u ++ s).
  rewrite (p_name_app (pu_name u) (pu_1 u ++ rest) (good_name_ok _ G)). 2:{ apply blank_names; [exact B1|]. unfold rest. destruct (pu_colon u); reflexivity. }
  cbn [bind]. rewrite (blank_skip _ _ B1). replace (skip rest) with rest by (unfold rest; destruct (pu_colon u); reflexivity).
  assert (X : alt (p_lit "=") (p_lit ":=") rest = Ok (tt, pu_2 u ++ encode_arith (pu_expr u) ++ pu_3 u ++ s)).
  { unfold rest, alt, p_lit. destruct (pu_colon u); [|rewrite lit_app; reflexivity]. replace (lit "=" _) with (@Err text) by reflexivity. cbn [bind]. rewrite lit_app. reflexivity. }
  rewrite X. cbn [bind]. rewrite (blank_skip _ _ B2), (arith_skip _ _ L).
  destruct (arith_reads (pu_expr u) (pu_3 u ++ s) L (astop_blank _ _ B3 S)) as (r & E & K). rewrite E. cbn [bind]. exists r. split; [reflexivity|]. rewrite K. apply blank_skip. exact B3.
Qed.
Theorem C23_updates_spacing : forall u us comma, (forall x, In x (u :: us) -> pu_blank x /\ update_savable (pu_means x)) -> (forall w, comma = Some w -> blank w) ->
  parse_updates (updates_put u us comma) = Ok (map pu_means (u :: us)).
Proof.
  intros u us comma H Hc. set (last := match comma with Some w => txt "," ++ w | None => [] end).
  assert (SL : astop last) by (unfold last; destruct comma; split; reflexivity).
  assert (ST : forall (x : put_update) s, astop ((txt "," ++ pu_text x) ++ s)) by (intros; split; reflexivity).
  set (rest := flat_map (fun x => txt "," ++ pu_text x) us ++ last).
  assert (SU : astop rest). { unfold rest. destruct us as [|v us]; [exact SL|]. cbn [flat_map]. rewrite <- app_assoc. apply ST. }
  assert (T : updates_put u us comma = pu_text u ++ rest) by reflexivity.
  assert (R : forall x s, In x (u :: us) -> astop s -> exists r, p_assignment (skip (pu_text x ++ s)) = Ok (Ok (pu_means x), r) /\ skip r = skip s).
  { intros x s Hx S. destruct (H x Hx) as [B (G & L & P & E)]. cbn [pu_means fst snd] in *. destruct (update_reads x s B G L S) as (r & Er & K). exists r. split; [|exact K]. rewrite Er, (a_reload_plain _ P), E. reflexivity. }
  rewrite T. unfold parse_updates, opt, p_assignments. destruct (R u rest (or_introl eq_refl) SU) as (r & E & K). rewrite E. cbn [bind].
  destruct (many_reads (fun s => do (_, s') <- p_lit "," s; p_assignment (skip s')) (fun x => txt "," ++ pu_text x) (fun x => Ok (pu_means x)) astop us) with (f := List.length (skip (pu_text u ++ rest))) (s := last) (u := r) as (t & Et & Kt).
  - intros x s Hx S. rewrite <- app_assoc. replace (skip (txt "," ++ pu_text x ++ s)) with (txt "," ++ pu_text x ++ s) by reflexivity. unfold p_lit. rewrite lit_app. cbn [bind]. apply R; [right; exact Hx|exact S].
  - intros x s _. apply ST.
  - destruct (H u (or_introl eq_refl)) as [(B0 & _) (G & _)]. unfold pu_text at 1. rewrite <- !app_assoc, (blank_skip _ _ B0), (name_skip _ _ G), !app_length.
    assert (Z : forall ys : list put_update, List.length ys <= List.length (flat_map (fun x => txt "," ++ pu_text x) ys)).
    { induction ys as [|y ys IH]; [reflexivity|]. cbn [flat_map List.length]. rewrite !app_length. change (List.length (txt ",")) with 1. lia. }
    specialize (Z us). unfold rest. rewrite app_length. lia.
  - exact SL.
  - unfold last. destruct comma as [w|]; [|reflexivity]. replace (skip (txt "," ++ w)) with (txt "," ++ w) by reflexivity. unfold p_lit. rewrite lit_app. cbn [bind]. rewrite (blank_nil w (Hc w eq_refl)). reflexivity.
  - exact K.
  - rewrite Et. cbn [bind]. rewrite Kt.
    assert (F : exists t', (do (_, s3) <- opt (p_lit ",") (skip last); Ok (Ok (pu_means u) :: map (fun x => Ok (pu_means x)) us, s3)) = Ok (Ok (pu_means u) :: map (fun x => Ok (pu_means x)) us, t') /\ skip t' = []).
    { unfold last, opt. destruct comma as [w|]; [|exists []; split; reflexivity]. replace (skip (txt "," ++ w)) with (txt "," ++ w) by reflexivity. unfold p_lit. rewrite lit_app. cbn [bind]. exists w. split; [reflexivity|]. apply blank_nil, Hc. reflexivity. }
    destruct F as (t' & -> & Et'). cbn [bind]. rewrite Et'. cbn [eoi bind mapM map]. replace (mapM (fun r => r) (map (fun x => Ok (pu_means x)) us)) with (Ok (map pu_means us)); [reflexivity|].
    clear. induction us as [|y ys IH]; [reflexivity|]. cbn. rewrite <- IH. reflexivity.
Qed.
Print Assumptions C23_updates_spacing.

(** ** Queries *)
(** Queries are read however they are spaced. *)
Lemma cstop_blank w s : blank w -> cstop s -> cstop (w ++ s).
Proof.
  intros H (A & B & C). unfold cstop. rewrite (blank_skip w s H). split; [apply blank_names; assumption|]. split; [|exact C]. apply blank_starts; auto.
Qed.
Lemma qstop_blank w s : blank w -> qstop s -> qstop (w ++ s).
Proof.
  intros H ((A1 & A2) & ((B1 & (B2 & B3) & B4) & C) & D). unfold qstop, sstop, ststop, istop, ostop. rewrite (blank_skip w s H).
  assert (X : starts (Ascii.eqb "-") (w ++ s) = false) by (apply blank_starts; auto). pose proof (cstop_blank w s H A1) as Y. pose proof (proj1 Y) as Z. tauto.
Qed.
Theorem C45_spacing : forall q qs, (forall x, In x (q :: qs) -> pq_blank x /\ query_legible (pq_query x)) ->
  parse_queries (queries_put q qs) = Ok (map pq_query (q :: qs)).
Proof.
  intros q qs H. set (semi := fun x => txt ";" ++ pq_text x).
  assert (ST : forall x s, qstop (semi x ++ s)) by (intros; repeat split; reflexivity).
  assert (S1 : qstop (flat_map semi qs)) by (destruct qs; [repeat split; reflexivity|]; cbn [flat_map]; apply ST).
  assert (R : forall x s, In x (q :: qs) -> qstop s -> exists r, p_query (skip (pq_text x ++ s)) = Ok (Ok (pq_query x), r) /\ skip r = skip s).
  { intros x s Hx S. destruct (H x Hx) as [[B0 B1] L]. unfold pq_text. rewrite <- !app_assoc, (blank_skip _ _ B0), query_skip.
    destruct (p_query_reads (pq_query x) (pq_1 x ++ s) L (qstop_blank _ _ B1 S)) as (r & E & K). exists r. split; [exact E|]. rewrite K. apply blank_skip. exact B1. }
  unfold queries_put, parse_queries. fold semi. destruct (R q (flat_map semi qs) (or_introl eq_refl) S1) as (r & Er & Kr). rewrite Er. cbn [bind].
  destruct (many_reads (fun s => do s1 <- lit ";" s; p_query (skip s1)) semi (fun x => Ok (pq_query x)) qstop qs) with (f := List.length (pq_text q ++ flat_map semi qs)) (s := @nil ascii) (u := r) as (t & Et & Kt).
  - intros x s Hx S. unfold semi. rewrite <- app_assoc. replace (skip (txt ";" ++ pq_text x ++ s)) with (txt ";" ++ pq_text x ++ s) by reflexivity. rewrite lit_app. cbn [bind]. apply R; [right; exact Hx|exact S].
  - intros x s _. apply ST.
  - rewrite app_length. assert (Z : forall ys : list put_query, List.length ys <= List.length (flat_map semi ys)).
    { induction ys as [|y ys IH]; [reflexivity|]. cbn [flat_map List.length]. unfold semi at 1. rewrite !app_length. change (List.length (txt ";")) with 1. lia. }
    specialize (Z qs). lia.
  - repeat split; reflexivity.
  - reflexivity.
  - rewrite app_nil_r. exact Kr.
  - rewrite Et. cbn [bind]. rewrite Kt. cbn [skip mapM bind map]. replace (mapM (fun r => r) (map (fun x => Ok (pq_query x)) qs)) with (Ok (map pq_query qs)); [reflexivity|].
    clear. induction qs as [|y ys IH]; [reflexivity|]. cbn. rewrite <- IH. reflexivity.
Qed.
Print Assumptions C45_spacing.

(** ** System expressions *)
(** Operators together with the text between the operands. *)
Definition osign := (sop * text)%type.
Definition oprec (o : osign) : nat := sop_prec (fst o).
Definition omk (o : osign) : sysx -> sysx -> sysx := sop_mk (fst o).
Fixpoint plain_tree (b : @btree osign opnd) : @btree sop opnd := match b with BLeaf a => BLeaf a | BNode o l r => BNode (fst o) (plain_tree l) (plain_tree r) end.
Lemma plain_first b : first (plain_tree b) = first b. Proof. induction b; cbn; auto. Qed.
Lemma plain_ops b : ops (plain_tree b) = map (fun p => (fst (fst p), snd p)) (ops b).
Proof. induction b; cbn; [reflexivity|]. rewrite map_app, IHb1, IHb2, plain_first. reflexivity. Qed.
Lemma plain_canon b : canon oprec b -> canon sop_prec (plain_tree b).
Proof.
  induction b as [a|o l IHl r IHr]; cbn [plain_tree canon]; [auto|]. intros (A & B & C & D). split; [|split; [|auto]].
  - destruct l; [exact I|exact A].
  - destruct r; [exact I|exact B].
Qed.
Lemma plain_eval b : eval snd sop_mk (plain_tree b) = eval snd omk b. Proof. induction b as [a|o l IHl r IHr]; cbn; [reflexivity|]. rewrite IHl, IHr. reflexivity. Qed.

Definition sign_ok (o : osign) : Prop := exists w c w', snd o = w ++ c ++ w' /\ blank w /\ blank w' /\ In (fst o, c) [(OQuot, txt "//"); (OQuot, txt "\\"); (OPar, txt "||"); (OConj, txt "&&")].
Definition stext (p : osign * opnd) : text := snd (fst p) ++ fst (snd p).
Definition otext (b : @btree osign opnd) : text := fst (first b) ++ flat_map stext (ops b).
Lemma sign_facts o s : sign_ok o -> cstop (snd o ++ s) /\ exists t, p_sop (skip (snd o ++ s)) = Ok (fst o, t) /\ skip t = skip s.
Proof.
  intros (w & c & w' & E & B & B' & H). rewrite E, <- !app_assoc. rewrite (blank_skip _ _ B).
  assert (X : cstop (c ++ w' ++ s) /\ p_sop (skip (c ++ w' ++ s)) = Ok (fst o, w' ++ s)).
  { destruct o as [o q]. cbn [fst] in *. destruct H as [H|[H|[H|[H|[]]]]]; injection H as <- <-; (split; [repeat split; reflexivity|reflexivity]). }
  destruct X as [X1 X2]. split; [apply cstop_blank; assumption|]. exists (w' ++ s). split; [exact X2|apply blank_skip; exact B'].
Qed.
Lemma otext_reads f b s : reads_as f (first b) -> (forall p, In p (ops b) -> reads_as f (snd p) /\ sign_ok (fst p)) -> List.length (ops b) <= f -> canon oprec b -> cstop s -> p_sop (skip s) = Err ->
  exists t, p_sys (S f) (otext b ++ s) = Ok (Ok (eval snd omk b), t) /\ skip t = skip s.
Proof.
  intros H1 H2 Hf C S E. cbn [p_sys]. unfold otext. rewrite <- app_assoc.
  assert (ST : forall x u, In x (ops b) -> cstop (stext x ++ u)) by (intros x u Hx; unfold stext; rewrite <- app_assoc; apply sign_facts; apply (H2 x Hx)).
  assert (S1 : cstop (flat_map stext (ops b) ++ s)) by (destruct (ops b) as [|x xs]; [exact S|]; cbn [flat_map]; rewrite <- app_assoc; apply ST; left; reflexivity).
  destruct (H1 _ S1) as (_ & r & Er & Kr). rewrite Er. cbn [bind].
  destruct (many_reads (p_sop_term (p_sys f)) stext (fun p => (fst (fst p), Ok (snd (snd p)))) cstop (ops b)) with (f := f) (s := s) (u := r) as (t & Et & Kt).
  - intros [o x] u Hx Su. destruct (H2 _ Hx) as [R G]. cbn [fst snd] in R, G. unfold stext. cbn [fst snd]. rewrite <- app_assoc. destruct (sign_facts o (fst x ++ u) G) as (_ & t & Ep & Kp). unfold p_sop_term. rewrite Ep. cbn [bind].
    destruct (R u Su) as (K & v & Ev & Kv). rewrite Kp, K, Ev. cbn [bind]. exists v. auto.
  - exact ST.
  - exact Hf.
  - exact S.
  - unfold p_sop_term. rewrite E. reflexivity.
  - exact Kr.
  - rewrite Et. cbn [bind]. exists t. split; [|exact Kt]. f_equal. f_equal. pose proof (pratt_res_tree sop_prec sop_mk snd (plain_tree b) sop_prec_pos) as P.
    rewrite plain_first, plain_ops, map_map in P. cbn [fst snd] in P. etransitivity; [exact P|]. f_equal. etransitivity; [|apply plain_eval]. f_equal. exact (rebalance_canon sop_prec (plain_tree b) sop_prec_pos (plain_canon b C)).
Qed.
(** What a written expression consists of. *)
Definition parts (k : nat) (t : text) (e : sysx) : Prop := exists b, otext b = t /\ eval snd omk b = e /\ canon oprec b /\ ge_root oprec k b /\ List.length (ops b) < List.length t /\
  (forall p, In p (ops b) -> sign_ok (fst p)) /\ forall f, List.length t <= f -> reads_as f (first b) /\ forall p, In p (ops b) -> reads_as f (snd p).
Lemma otext_node o l r : otext (BNode o l r) = otext l ++ snd o ++ otext r.
Proof. unfold otext. cbn [first ops]. rewrite flat_map_app. cbn [flat_map]. unfold stext at 2. cbn [fst snd]. rewrite <- !app_assoc. reflexivity. Qed.
Lemma parts_node k o l r tl tr w : k <= sop_prec o -> sign_ok (o, w) -> parts (sop_prec o) tl l -> parts (S (sop_prec o)) tr r -> parts k (tl ++ w ++ tr) (sop_mk o l r).
Proof.
  intros Hk G (bl & Tl & El & Cl & Rl & Nl & Sl & Al) (br & Tr & Er & Cr & Rr & Nr & Sr & Ar). exists (BNode (o, w) bl br). rewrite otext_node, Tl, Tr. cbn [snd eval]. rewrite El, Er.
  split; [reflexivity|]. split; [reflexivity|]. split; [cbn [canon]; split; [exact Rl|]; split; [exact Rr|]; split; assumption|]. split; [exact Hk|].
  cbn [ops first]. split; [rewrite !app_length; cbn [List.length]; lia|]. split; [intros p Hp; apply in_app_iff in Hp; destruct Hp as [Hp|[<-|Hp]]; auto|].
  intros f Hf. rewrite !app_length in Hf. destruct (Al f ltac:(lia)) as [A1 A2]. destruct (Ar f ltac:(lia)) as [B1 B2]. split; [exact A1|]. intros p Hp. apply in_app_iff in Hp. destruct Hp as [Hp|[<-|Hp]]; auto.
Qed.
Lemma ends_blank w s : blank w -> cstop s -> p_sop (skip s) = Err -> cstop (w ++ s) /\ p_sop (skip (w ++ s)) = Err.
Proof. intros B C E. rewrite (blank_skip w s B). split; [apply cstop_blank; assumption|exact E]. Qed.
Lemma written_parts k t e : written k t e -> sys_legible e -> parts k t e.
Proof.
  induction 1 as [k n id|k w t w' e B B' W IH|k tl w o w' tr l r Hk B Ho B' Wl IHl Wr IHr|k tl w w' tr l r Hk B B' Wl IHl Wr IHr|k tl w w' tr l r Hk B B' Wl IHl Wr IHr]; intros L.
  - destruct L as [Ln Li]. exists (BLeaf (txt n ++ id_text id, XComp n id)). unfold otext. cbn [first ops flat_map fst]. rewrite app_nil_r. do 2 (split; [reflexivity|]). do 2 (split; [exact I|]).
    split; [rewrite app_length; destruct Ln as (c & a & E & _); unfold txt; rewrite E; cbn; lia|]. split; [intros p []|]. intros f _. split; [apply component_reads; assumption|intros p []].
  - destruct (IH L) as (b & T & E & C & R & N & S & A). exists (BLeaf (txt "(" ++ w ++ t ++ w' ++ txt ")", e)). unfold otext. cbn [first ops flat_map fst]. rewrite app_nil_r. do 2 (split; [reflexivity|]). do 2 (split; [exact I|]).
    split; [rewrite !app_length; cbn; lia|]. split; [intros p []|]. intros f Hf. split; [|intros p []]. rewrite !app_length in Hf. change (List.length (txt "(")) with 1 in Hf. destruct f as [|f]; [lia|].
    destruct (A f ltac:(lia)) as [A1 A2]. intros s Cs. cbn [fst snd]. split; [apply skip_visible; right; reflexivity|]. rewrite <- !app_assoc. unfold p_sterm, alt.
    replace (p_component (txt "(" ++ w ++ t ++ w' ++ txt ")" ++ s)) with (@Err ((string * option string) * text)) by reflexivity. cbn [bind]. rewrite lit_app. cbn [bind]. rewrite (blank_skip _ _ B).
    destruct (ends_blank w' (txt ")" ++ s) B') as [D1 D2]; [repeat split; reflexivity|reflexivity|].
    assert (K : skip (t ++ w' ++ txt ")" ++ s) = t ++ w' ++ txt ")" ++ s).
    { rewrite <- T. unfold otext. rewrite <- app_assoc. apply A1. destruct (ops b) as [|x xs]; [exact D1|]. cbn [flat_map]. unfold stext at 1. rewrite <- !app_assoc. apply sign_facts. apply S. left. reflexivity. }
    rewrite K, <- T. destruct (otext_reads f b (w' ++ txt ")" ++ s) A1 (fun p Hp => conj (A2 p Hp) (S p Hp))) as (u & Eu & Ku); [lia|exact C|exact D1|exact D2|].
    rewrite Eu. cbn [bind]. rewrite Ku, (blank_skip _ _ B'). rewrite skip_visible by (right; reflexivity). rewrite lit_app. cbn [bind]. exists s. rewrite E. auto.
  - destruct L as [Ll Lr]. assert (Q : tl ++ w ++ o ++ w' ++ tr = tl ++ (w ++ o ++ w') ++ tr) by (rewrite <- !app_assoc; reflexivity). rewrite Q.
    refine (parts_node k OQuot l r tl tr _ Hk _ (IHl Ll) (IHr Lr)). exists w, o, w'. split; [reflexivity|]. do 2 (split; [assumption|]). destruct Ho as [<-|[<-|[]]]; cbn; auto.
  - destruct L as [Ll Lr]. assert (Q : tl ++ w ++ txt "||" ++ w' ++ tr = tl ++ (w ++ txt "||" ++ w') ++ tr) by (rewrite <- !app_assoc; reflexivity). rewrite Q.
    refine (parts_node k OPar l r tl tr _ Hk _ (IHl Ll) (IHr Lr)). exists w, (txt "||"), w'. split; [reflexivity|]. do 2 (split; [assumption|]). cbn; auto.
  - destruct L as [Ll Lr]. assert (Q : tl ++ w ++ txt "&&" ++ w' ++ tr = tl ++ (w ++ txt "&&" ++ w') ++ tr) by (rewrite <- !app_assoc; reflexivity). rewrite Q.
    refine (parts_node k OConj l r tl tr _ Hk _ (IHl Ll) (IHr Lr)). exists w, (txt "&&"), w'. split; [reflexivity|]. do 2 (split; [assumption|]). cbn; auto.
Qed.
Lemma written_reads t e s : written 1 t e -> sys_legible e -> sstop s -> skip (t ++ s) = t ++ s /\ exists r, sys_text (t ++ s) = Ok (Ok e, r) /\ skip r = skip s.
Proof.
  intros W L [S1 S2]. destruct (written_parts 1 t e W L) as (b & T & E & C & R & N & S & A). destruct (A (List.length (t ++ s)) ltac:(rewrite app_length; lia)) as [A1 A2]. split.
  - rewrite <- T. unfold otext. rewrite <- app_assoc. apply A1. destruct (ops b) as [|x xs]; [exact S1|]. cbn [flat_map]. unfold stext at 1. rewrite <- !app_assoc. apply sign_facts. apply S. left. reflexivity.
  - unfold sys_text. destruct (otext_reads (List.length (t ++ s)) b s A1 (fun p Hp => conj (A2 p Hp) (S p Hp))) as (r & Er & Kr); [rewrite app_length; lia|exact C|exact S1|exact S2|].
    rewrite T, E in Er. exists r. auto.
Qed.
(** However an expression is written, it is read as the expression that is meant; so no text can mean two expressions. *)
Theorem C24_written : forall t e w, written 1 t e -> sys_legible e -> blank w -> parse_to_system_expr (t ++ w) = Ok e.
Proof.
  intros t e w W L B. unfold parse_to_system_expr. destruct (written_reads t e w W L) as (_ & r & E & _); [|rewrite E; reflexivity].
  rewrite <- (app_nil_r w). split; [apply cstop_blank; [exact B|repeat split; reflexivity]|]. rewrite (blank_skip w [] B). reflexivity.
Qed.
Print Assumptions C24_written.
Theorem C24_one_meaning : forall t e e', written 1 t e -> written 1 t e' -> sys_legible e -> sys_legible e' -> e = e'.
Proof. intros t e e' W W' L L'. pose proof (C24_written t e [] W L blank_end) as E. rewrite (C24_written t e' [] W' L' blank_end) in E. congruence. Qed.
Print Assumptions C24_one_meaning.

(** ** States as written *)
Lemma ststop_blank w s : blank w -> ststop s -> ststop (w ++ s).
Proof.
  intros H ((B1 & (B2 & B3) & B4) & C). unfold ststop, istop, ostop. rewrite (blank_skip w s H).
  assert (X : starts (Ascii.eqb "-") (w ++ s) = false) by (apply blank_starts; auto). pose proof (cstop_blank w s H B1) as Y. pose proof (proj1 Y) as Z. tauto.
Qed.
Definition opsgn (x : text * bool) : Prop := exists w w', blank w /\ blank w' /\ ((snd x = true /\ fst x = w ++ txt "+" ++ w') \/ (snd x = false /\ w <> [] /\ fst x = w ++ txt "-" ++ w')).
Lemma opsgn_facts x s : opsgn x -> ostop (fst x ++ s) /\ exists t, p_qop (skip (fst x ++ s)) = Ok (snd x, t) /\ skip t = skip s.
Proof.
  intros (w & w' & B & B' & [[E1 E2]|(E1 & N & E2)]); rewrite E1, E2, <- !app_assoc; unfold ostop; rewrite (blank_skip w _ B).
  - split; [split; (apply blank_starts; [exact B| | | | |]; reflexivity)|]. exists (w' ++ s). split; [reflexivity|apply blank_skip; exact B'].
  - split; [destruct B; [contradiction| | | |]; split; reflexivity|]. exists (w' ++ s). split; [reflexivity|apply blank_skip; exact B'].
Qed.
Definition optx (p : (text * bool) * operand) : text := fst (fst p) ++ print_operand (snd p).
Lemma operand_split t o : operand_written t o -> exists o0 rest, t = print_operand o0 ++ flat_map optx rest /\ term_legible o0 /\ (forall p, In p rest -> opsgn (fst p) /\ term_legible (snd p)) /\
  operands (Ok o0) (map (fun p => (snd (fst p), Ok (snd p))) rest) = Ok o.
Proof.
  induction 1 as [k Hk|x Hx|tl w w' r l W IH B B' L|tl w w' r l W IH B N B' L].
  - exists (ONum k), []. cbn [print_operand flat_map]. rewrite app_nil_r. split; [reflexivity|]. split; [exact Hk|]. split; [intros p []|reflexivity].
  - exists (OClk x), []. cbn [print_operand flat_map]. rewrite app_nil_r. split; [reflexivity|]. split; [exact Hx|]. split; [intros p []|reflexivity].
  - destruct IH as (o0 & rest & E & T & R & F). exists o0, (rest ++ [((w ++ txt "+" ++ w', true), r)]). rewrite flat_map_app, E. cbn [flat_map]. unfold optx at 3. cbn [fst snd]. rewrite app_nil_r, <- !app_assoc. split; [reflexivity|].
    split; [exact T|]. split.
    + intros p Hp. apply in_app_iff in Hp. destruct Hp as [Hp|[<-|[]]]; [auto|]. split; [|exact L]. exists w, w'. split; [exact B|]. split; [exact B'|]. left. split; reflexivity.
    + rewrite map_app. unfold operands in *. rewrite fold_left_app, F. reflexivity.
  - destruct IH as (o0 & rest & E & T & R & F). exists o0, (rest ++ [((w ++ txt "-" ++ w', false), r)]). rewrite flat_map_app, E. cbn [flat_map]. unfold optx at 3. cbn [fst snd]. rewrite app_nil_r, <- !app_assoc. split; [reflexivity|].
    split; [exact T|]. split.
    + intros p Hp. apply in_app_iff in Hp. destruct Hp as [Hp|[<-|[]]]; [auto|]. split; [|exact L]. exists w, w'. split; [exact B|]. split; [exact B'|]. right. split; [reflexivity|]. split; [exact N|reflexivity].
    + rewrite map_app. unfold operands in *. rewrite fold_left_app, F. reflexivity.
Qed.
Lemma operand_reads t o s : operand_written t o -> ostop s -> p_qop_term (skip s) = Err -> exists r, p_diff (t ++ s) = Ok (Ok o, r) /\ skip r = skip s.
Proof.
  intros W S E. destruct (operand_split t o W) as (o0 & rest & -> & H1 & H2 & F). unfold p_diff. rewrite <- app_assoc.
  assert (ST : forall x s, In x rest -> ostop (optx x ++ s)) by (intros x u Hx; unfold optx; rewrite <- app_assoc; apply opsgn_facts; apply (H2 x Hx)).
  assert (S1 : ostop (flat_map optx rest ++ s)) by (destruct rest as [|x xs]; [exact S|]; cbn [flat_map]; rewrite <- app_assoc; apply ST; left; reflexivity).
  rewrite (p_qterm_reads o0 _ H1 (proj1 S1) (proj2 S1)). cbn [bind].
  destruct (many_reads p_qop_term optx (fun p => (snd (fst p), Ok (snd p))) ostop rest) with (f := List.length (print_operand o0 ++ flat_map optx rest ++ s)) (s := s) (u := flat_map optx rest ++ s) as (v & Ev & Kv).
  - intros [b x] u Hx [U1 U2]. destruct (H2 _ Hx) as [G L]. cbn [fst snd] in G, L. unfold optx. cbn [fst snd]. rewrite <- app_assoc. destruct (opsgn_facts b (print_operand x ++ u) G) as (_ & v & Ev & Kv).
    unfold p_qop_term. rewrite Ev. cbn [bind]. rewrite Kv, (term_skip x u L), (p_qterm_reads x u L U1 U2). cbn [bind]. exists u. auto.
  - exact ST.
  - rewrite !app_length. assert (X : forall xs, incl xs rest -> List.length xs <= List.length (flat_map optx xs)).
    { induction xs as [|x xs IH]; intros I; [reflexivity|]. cbn [flat_map List.length]. rewrite app_length. specialize (IH (fun y Hy => I y (or_intror Hy))).
      destruct (H2 x (I x (or_introl eq_refl))) as [_ L]. destruct (term_first (snd x) [] L) as (c & a & Ec & _). rewrite app_nil_r in Ec. unfold optx at 1. rewrite app_length, Ec. cbn [List.length]. lia. }
    specialize (X rest (fun y Hy => Hy)). lia.
  - exact S.
  - exact E.
  - reflexivity.
  - rewrite Ev. cbn [bind]. exists v. split; [|exact Kv]. rewrite F. reflexivity.
Qed.
Lemma operand_begins t o s : operand_written t o -> starts is_name_char s = false ->
  lit "(" (t ++ s) = Err /\ lit "!" (t ++ s) = Err /\ lit "not" (t ++ s) = Err /\ skip (t ++ s) = t ++ s /\ starts (Ascii.eqb "=") (t ++ s) = false /\ 0 < List.length t.
Proof.
  intros W S. destruct (operand_split t o W) as (o0 & rest & -> & H1 & H2 & _). rewrite <- app_assoc.
  assert (S1 : starts is_name_char (flat_map optx rest ++ s) = false) by (destruct rest as [|x xs]; [exact S|]; cbn [flat_map]; unfold optx at 1; rewrite <- !app_assoc; apply opsgn_facts; apply (H2 x (or_introl eq_refl))).
  destruct (term_lits o0 _ H1 S1) as (A & B & C). split; [exact A|]. split; [exact B|]. split; [exact C|]. split; [apply term_skip; exact H1|].
  destruct (term_first o0 (flat_map optx rest ++ s) H1) as (c & a & E & _ & K). split.
  - rewrite E. cbn [starts]. assert (X : forall c, (negb (is_alpha c || is_digit c) || negb (Ascii.eqb "=" c)) = true) by (apply (fun H => char_fact _ H); vm_compute; reflexivity).
    specialize (X c). destruct (Ascii.eqb "=" c); [|reflexivity]. destruct K as [K|K]; rewrite K, ?orb_true_r in X; discriminate X.
  - destruct (term_first o0 [] H1) as (c' & a' & E' & _). rewrite app_nil_r in E'. rewrite app_length, E'. cbn [List.length]. lia.
Qed.

Definition sitem (f : nat) (x : text * pair) : Prop := forall s, istop s -> skip (fst x ++ s) = fst x ++ s /\ exists r, p_sub (p_and f) (fst x ++ s) = Ok (snd x, r) /\ skip r = skip s.
Definition csgn (x : text) : Prop := exists w c w', x = w ++ txt c ++ w' /\ blank w /\ blank w' /\ (c = "&&"%string \/ (c = "and"%string /\ w <> [])).
Lemma csgn_facts x s : csgn x -> istop (x ++ s) /\ p_word "||" "or" (skip (x ++ s)) = Err /\ exists t, p_word "&&" "and" (skip (x ++ s)) = Ok (tt, t) /\ skip t = skip s.
Proof.
  intros (w & c & w' & -> & B & B' & H). rewrite <- !app_assoc. unfold istop, cstop, ostop. rewrite (blank_skip w _ B).
  assert (X : starts is_name_char (w ++ txt c ++ w' ++ s) = false /\ starts (Ascii.eqb "-") (w ++ txt c ++ w' ++ s) = false).
  { destruct H as [->|[-> N]]; [split; (apply blank_starts; [exact B| | | | |]; reflexivity)|destruct B; [contradiction| | | |]; split; reflexivity]. }
  destruct X as [X1 X2]. rewrite X1, X2. destruct H as [->|[-> N]]; (split; [repeat split; reflexivity|]); (split; [reflexivity|]); exists (w' ++ s); (split; [reflexivity|apply blank_skip; exact B']).
Qed.
Definition ctx (p : text * (text * pair)) : text := fst p ++ fst (snd p).
Definition conds (t : text) (l : list stx) (P0 : pair) (rest : list (text * (text * pair))) : Prop := exists t0,
  t = t0 ++ flat_map ctx rest /\ (forall p, In p rest -> csgn (fst p)) /\ List.length rest < List.length t /\
  (forall f, List.length t <= f -> sitem f (t0, P0) /\ forall p, In p rest -> sitem f (snd p)) /\ mapM primary (P0 :: map (fun p => snd (snd p)) rest) = Ok l.
Lemma item_or f x s : sitem f x -> istop s -> p_word "||" "or" (skip s) = Err -> exists r, p_or f (p_and f) (fst x ++ s) = Ok (POr [snd x], r) /\ skip r = skip s.
Proof.
  intros H S E. unfold p_or. destruct (H s S) as (_ & r & Er & Kr). rewrite Er. cbn [bind]. rewrite Kr. unfold many. rewrite E. cbn [bind]. exists (skip s). split; [reflexivity|apply skip_idem].
Qed.
Lemma conds_read f t l P0 rest s : conds t l P0 rest -> List.length t <= f -> ststop s ->
  skip (t ++ s) = t ++ s /\ exists r, p_and (S f) (t ++ s) = Ok (PAnd (map (fun P => POr [P]) (P0 :: map (fun p => snd (snd p)) rest)), r) /\ skip r = skip s.
Proof.
  intros (t0 & -> & G & N & A & _) Hf (S & E1 & E2). destruct (A f Hf) as [A1 A2]. rewrite <- app_assoc.
  assert (S1 : istop (flat_map ctx rest ++ s) /\ p_word "||" "or" (skip (flat_map ctx rest ++ s)) = Err).
  { destruct rest as [|x xs]; [auto|]. cbn [flat_map]. unfold ctx at 1 3. rewrite <- !app_assoc. destruct (csgn_facts (fst x) (fst (snd x) ++ flat_map ctx xs ++ s) (G x (or_introl eq_refl))) as (X & Y & _). auto. }
  destruct S1 as [S1 S2]. split; [apply (A1 _ S1)|]. cbn [p_and]. destruct (item_or f _ _ A1 S1 S2) as (r & Er & Kr). cbn [fst snd] in Er. rewrite Er. cbn [bind].
  destruct (many_reads (fun s => do (_, s1) <- p_word "&&" "and" s; p_or f (p_and f) (skip s1)) ctx (fun p => POr [snd (snd p)]) (fun s => istop s /\ p_word "||" "or" (skip s) = Err) rest) with (f := f) (s := s) (u := r) as (v & Ev & Kv).
  - intros x u Hx [Su Eu]. unfold ctx. rewrite <- app_assoc. destruct (csgn_facts (fst x) (fst (snd x) ++ u) (G x Hx)) as (_ & _ & v & Ev & Kv). rewrite Ev. cbn [bind]. rewrite Kv.
    rewrite (proj1 (A2 x Hx u Su)). exact (item_or f (snd x) u (A2 x Hx) Su Eu).
  - intros x u Hx. unfold ctx. rewrite <- app_assoc. destruct (csgn_facts (fst x) (fst (snd x) ++ u) (G x Hx)) as (X & Y & _). auto.
  - lia.
  - auto.
  - rewrite E2. reflexivity.
  - exact Kr.
  - rewrite Ev. cbn [bind]. exists v. split; [|exact Kv]. cbn [map]. rewrite map_map. reflexivity.
Qed.
Lemma conds_mean P Ps l : mapM primary (P :: Ps) = Ok l -> primary (PAnd (map (fun P => POr [P]) (P :: Ps))) = Ok (all_of l).
Proof.
  intros E. destruct Ps as [|P' Ps].
  - cbn [mapM] in E. apply bind_ok in E. destruct E as (e & Ee & E). injection E as <-. cbn [map primary only_child]. rewrite Ee. reflexivity.
  - assert (X : forall Qs ks, mapM primary Qs = Ok ks -> each (fun x => only_child primary x) (map (fun P => POr [P]) Qs) = Ok ks /\ List.length Qs = List.length ks).
    { induction Qs as [|Q Qs IH]; intros ks H; cbn [mapM] in H.
      - injection H as <-. split; reflexivity.
      - apply bind_ok in H. destruct H as (e & Ee & H). apply bind_ok in H. destruct H as (es & Es & H). injection H as <-. destruct (IH es Es) as [I1 I2]. split; [|cbn; congruence].
        cbn [map each only_child]. rewrite Ee. cbn [bind]. fold (each (fun x => only_child primary x)). rewrite I1. reflexivity. }
    destruct (X _ _ E) as [X1 X2]. cbn [map] in X1 |- *. cbn [primary]. rewrite X1. cbn [bind]. destruct l as [|a [|b l]]; [discriminate X2|discriminate X2|reflexivity].
Qed.
Lemma leaf_conds t e : state_legible e -> (match e with SAnd _ | SOr _ => False | _ => True end) -> no_or e = true -> print_state e = t -> 0 < List.length t -> conds t [e] (tree e) [].
Proof.
  intros L N O <- H. exists (print_state e). cbn [flat_map map]. rewrite app_nil_r. split; [reflexivity|]. split; [intros p []|]. split; [exact H|]. split.
  - intros f _. split; [|intros p []]. intros s S. split; [apply state_skip; exact L|apply leaf_reads; assumption].
  - cbn [mapM]. rewrite (primary_tree e L), O. reflexivity.
Qed.
Lemma mapM_snoc {A B} (f : A -> res B) xs x ys y : mapM f xs = Ok ys -> f x = Ok y -> mapM f (xs ++ [x]) = Ok (ys ++ [y]).
Proof.
  revert ys. induction xs as [|a xs IH]; intros ys E F; cbn [mapM app] in *.
  - injection E as <-. rewrite F. reflexivity.
  - apply bind_ok in E. destruct E as (b & Eb & E). apply bind_ok in E. destruct E as (bs & Es & E). injection E as <-. rewrite Eb. cbn [bind]. rewrite (IH bs Es F). reflexivity.
Qed.
Lemma written_conds t l : condition_written t l -> exists P0 rest, conds t l P0 rest.
Proof.
  induction 1 as [c o tl w w' tr l r Hc B B' Wl Wr|x Hx| | |w t w' l B B' W IH|tl w c w' tr l e B B' Hc W IH W' IH'].
  - exists (PComp o (Ok l) (Ok r)), []. exists (tl ++ w ++ txt c ++ w' ++ tr). cbn [flat_map map]. rewrite app_nil_r. split; [reflexivity|]. split; [intros p []|].
    split; [rewrite app_length; destruct (operand_begins tl l [] Wl eq_refl) as (_ & _ & _ & _ & _ & Z); cbn [List.length]; lia|]. split; [|reflexivity].
    intros f _. split; [|intros p []]. intros s (SC & SO & SQ & SR & SD). cbn [fst snd]. rewrite <- !app_assoc. set (u := txt c ++ w' ++ tr ++ s).
    assert (U : ostop u /\ p_qop_term (skip u) = Err) by (unfold u; destruct Hc as [H|[H|[H|[H|[H|[]]]]]]; injection H as <- <-; repeat split; reflexivity). destruct U as [U1 U2].
    assert (V : ostop (w ++ u)) by (split; (apply blank_starts; [exact B| | | | |]; try reflexivity; apply U1)).
    destruct (operand_begins tl l (w ++ u) Wl (proj1 V)) as (A1 & A2 & A3 & A4 & _). split; [exact A4|]. unfold p_sub, alt. rewrite A1, A2, A3. cbn [bind].
    destruct (operand_reads tl l (w ++ u) Wl V) as (v & Ev & Kv); [rewrite (blank_skip _ _ B); exact U2|]. rewrite Ev. cbn [bind]. rewrite Kv, (blank_skip _ _ B).
    destruct (operand_begins tr r s Wr (proj1 SO)) as (_ & _ & _ & C4 & C5 & _).
    assert (Q : starts (Ascii.eqb "=") (w' ++ tr ++ s) = false) by (apply blank_starts; [exact B'| | | | |exact C5]; reflexivity).
    assert (R : p_rel (skip u) = Ok (o, w' ++ tr ++ s)).
    { unfold u. destruct (w' ++ tr ++ s) as [|d y]; [|cbn [starts] in Q];
      destruct Hc as [H|[H|[H|[H|[H|[]]]]]]; injection H as <- <-; try reflexivity;
      (destruct d as [[] [] [] [] [] [] [] []]; try discriminate Q; reflexivity). }
    rewrite R. cbn [bind]. rewrite (blank_skip _ _ B'), C4. destruct (operand_reads tr r s Wr SO SQ) as (y & Ey & Ky). rewrite Ey. cbn [bind]. exists y. auto.
  - exists (PLoc x), []. refine (leaf_conds _ (SLoc x) Hx I eq_refl eq_refl _). destruct (term_first (OClk x) [] Hx) as (c & a & E & _). change (print_var x ++ [] = c :: a) in E. change (0 < List.length (print_var x)). rewrite app_nil_r in E. rewrite E. cbn [List.length]. lia.
  - exists (PBool true), []. refine (leaf_conds _ (SBool true) I I eq_refl eq_refl _). cbn. lia.
  - exists (PBool false), []. refine (leaf_conds _ (SBool false) I I eq_refl eq_refl _). cbn. lia.
  - destruct IH as (P0 & rest & C). set (P := PAnd (map (fun P => POr [P]) (P0 :: map (fun p => snd (snd p)) rest))). exists P, []. exists (txt "(" ++ w ++ t ++ w' ++ txt ")"). cbn [flat_map map]. rewrite app_nil_r.
    split; [reflexivity|]. split; [intros p []|]. split; [cbn; lia|]. split.
    + intros f Hf. split; [|intros p []]. intros s S. cbn [fst snd]. split; [reflexivity|]. rewrite !app_length in Hf. change (List.length (txt "(")) with 1 in Hf. destruct f as [|f]; [lia|].
      unfold p_sub, alt. rewrite <- !app_assoc, lit_app. cbn [bind]. rewrite (blank_skip _ _ B).
      destruct (conds_read f t l P0 rest (w' ++ txt ")" ++ s) C ltac:(lia)) as (K & r & Er & Kr); [apply ststop_blank; [exact B'|repeat split; reflexivity]|].
      rewrite K, Er. cbn [bind]. rewrite Kr, (blank_skip _ _ B'). replace (skip (txt ")" ++ s)) with (txt ")" ++ s) by reflexivity. rewrite lit_app. cbn [bind]. exists s. auto.
    + cbn [mapM]. destruct C as (t0 & _ & _ & _ & _ & M). unfold P. rewrite (conds_mean _ _ l M). reflexivity.
  - destruct IH as (P0 & rest & t0 & -> & G & N & A & M). destruct IH' as (P1 & rest' & t1 & -> & G' & N' & A' & M').
    assert (R' : rest' = []). { destruct rest' as [|x xs]; [reflexivity|]. exfalso. cbn [map mapM] in M'. apply bind_ok in M'. destruct M' as (a & _ & M'). apply bind_ok in M'. destruct M' as (b & Eb & M').
      injection M' as <- ->. apply bind_ok in Eb. destruct Eb as (? & _ & Eb). apply bind_ok in Eb. destruct Eb as (? & _ & Eb). discriminate Eb. }
    subst rest'. cbn [flat_map map] in *. rewrite app_nil_r in *. exists P0, (rest ++ [(w ++ txt c ++ w', (t1, P1))]). exists t0. rewrite flat_map_app. cbn [flat_map]. unfold ctx at 3. cbn [fst snd]. rewrite app_nil_r, <- !app_assoc.
    split; [reflexivity|]. split; [intros p Hp; apply in_app_iff in Hp; destruct Hp as [Hp|[<-|[]]]; [auto|]; exists w, c, w'; auto|]. split; [rewrite !app_length in *; cbn [List.length]; lia|]. split.
    + intros f Hf. rewrite !app_length in Hf. rewrite app_length in A. destruct (A f ltac:(lia)) as [X Y]. destruct (A' f ltac:(lia)) as [X' _]. split; [exact X|]. intros p Hp. apply in_app_iff in Hp. destruct Hp as [Hp|[<-|[]]]; [auto|exact X'].
    + rewrite map_app. cbn [map fst snd]. cbn [mapM] in M, M' |- *. apply bind_ok in M. destruct M as (a & Ea & M). apply bind_ok in M. destruct M as (b & Eb & M). injection M as <-. rewrite Ea. cbn [bind].
      apply bind_ok in M'. destruct M' as (e' & Ee & M'). injection M' as ->. rewrite (mapM_snoc primary _ P1 b e Eb Ee). reflexivity.
Qed.
Lemma condition_reads t l s : condition_written t l -> ststop s -> skip (t ++ s) = t ++ s /\ exists P r, state_text (t ++ s) = Ok (P, r) /\ skip r = skip s /\ primary P = Ok (all_of l).
Proof.
  intros W S. destruct (written_conds t l W) as (P0 & rest & C). destruct (conds_read (List.length (t ++ s)) t l P0 rest s C) as (K & r & E & Kr); [rewrite app_length; lia|exact S|]. split; [exact K|].
  eexists. exists r. split; [exact E|]. split; [exact Kr|]. destruct C as (t0 & _ & _ & _ & _ & M). exact (conds_mean _ _ l M).
Qed.
(** However a condition is written, it is read as the conjunction of its parts. *)
Theorem C45_condition_written : forall t l w, condition_written t l -> blank w -> parse_to_state_expr (t ++ w) = Ok (all_of l).
Proof.
  intros t l w W B. unfold parse_to_state_expr. destruct (condition_reads t l w W) as (_ & P & r & E & _ & M); [|rewrite E; exact M].
  rewrite <- (app_nil_r w). apply ststop_blank; [exact B|repeat split; reflexivity].
Qed.
Print Assumptions C45_condition_written.

(** ** Queries with written expressions *)
Lemma sstop_blank w s : blank w -> sstop s -> sstop (w ++ s).
Proof. intros H (A & B). split; [apply cstop_blank; assumption|]. rewrite (blank_skip w s H). exact B. Qed.
Lemma one_written k mk w t e s : blank w -> written 1 t e -> sys_legible e -> sstop s -> exists r, p_one k mk (txt k ++ w ++ t ++ s) = Ok (Ok (mk e), r) /\ skip r = skip s.
Proof. intros B W L S. unfold p_one. rewrite lit_app. cbn [bind]. rewrite (blank_skip _ _ B). destruct (written_reads t e s W L S) as (K & r & E & Kr). rewrite K, E. cbn [bind]. exists r. auto. Qed.
Lemma unnamed_written k mk w t e s : blank w -> written 1 t e -> sys_legible e -> qstop s -> exists r, p_save k mk (txt k ++ w ++ t ++ s) = Ok (Ok (mk e None), r) /\ skip r = skip s.
Proof.
  intros B W L (S & _ & X). unfold p_save. rewrite lit_app. cbn [bind]. rewrite (blank_skip _ _ B). destruct (written_reads t e s W L S) as (K & r & E & Kr). rewrite K, E. cbn [bind]. rewrite Kr.
  unfold popt. rewrite X. cbn [bind]. exists (skip s). split; [reflexivity|apply skip_idem].
Qed.
Lemma named_written k mk w t w1 w2 n e s : blank w -> written 1 t e -> sys_legible e -> blank w1 -> w1 <> [] -> blank w2 -> good_name n -> qstop s ->
  exists r, p_save k mk (txt k ++ w ++ t ++ w1 ++ txt "save-as" ++ w2 ++ txt n ++ s) = Ok (Ok (mk e (Some n)), r) /\ skip r = skip s.
Proof.
  intros B W L B1 Ne B2 G (S & _ & _). unfold p_save. rewrite lit_app. cbn [bind]. rewrite (blank_skip _ _ B). set (rest := txt "save-as" ++ w2 ++ txt n ++ s).
  assert (S1 : sstop (w1 ++ rest)).
  { unfold sstop, cstop. rewrite (blank_skip _ _ B1). split; [|reflexivity]. destruct B1; [contradiction| | | |]; (split; [reflexivity|]); (split; [reflexivity|]); reflexivity. }
  destruct (written_reads t e (w1 ++ rest) W L S1) as (K & r & E & Kr). rewrite K, E. cbn [bind]. rewrite Kr, (blank_skip _ _ B1). replace (skip rest) with rest by reflexivity. unfold popt, rest. rewrite lit_app. cbn [bind].
  rewrite (blank_skip _ _ B2), (name_skip _ _ G). destruct S as ((N1 & N2 & _) & _). rewrite (p_qname_app n s G N1 N2). cbn [bind]. exists s. auto.
Qed.
Lemma refinement_written w tl w1 w2 tr l r s : blank w -> blank w1 -> blank w2 -> written 1 tl l -> written 1 tr r -> sys_legible l -> sys_legible r -> sstop s ->
  exists t, p_refinement (txt "refinement:" ++ w ++ tl ++ w1 ++ txt "<=" ++ w2 ++ tr ++ s) = Ok (Ok (QRefinement l r), t) /\ skip t = skip s.
Proof.
  intros B B1 B2 Wl Wr Ll Lr S. unfold p_refinement. rewrite lit_app. cbn [bind]. rewrite (blank_skip _ _ B). set (rest := txt "<=" ++ w2 ++ tr ++ s).
  destruct (written_reads tl l (w1 ++ rest) Wl Ll) as (K & t & E & Kt); [apply sstop_blank; [exact B1|repeat split; reflexivity]|]. rewrite K, E. cbn [bind]. rewrite Kt, (blank_skip _ _ B1). replace (skip rest) with rest by reflexivity.
  unfold rest. rewrite lit_app. cbn [bind]. rewrite (blank_skip _ _ B2). destruct (written_reads tr r s Wr Lr S) as (K2 & u & Eu & Ku). rewrite K2, Eu. cbn [bind]. exists u. auto.
Qed.
Lemma reachability_written w t w1 w2 tf from w3 w4 tt l e s : blank w -> blank w1 -> blank w2 -> blank w3 -> w3 <> [] -> blank w4 -> written 1 t e -> sys_legible e -> start_written tf from -> condition_written tt l -> ststop s ->
  exists r, p_reachability (txt "reachability:" ++ w ++ t ++ w1 ++ txt "@" ++ w2 ++ tf ++ w3 ++ txt "->" ++ w4 ++ tt ++ s) = Ok (Ok (QReachability e from (all_of l)), r) /\ skip r = skip s.
Proof.
  intros B B1 B2 B3 N3 B4 W He Hf Ht S. unfold p_reachability. rewrite lit_app. cbn [bind]. rewrite (blank_skip _ _ B). set (rest := w3 ++ txt "->" ++ w4 ++ tt ++ s).
  destruct (written_reads t e (w1 ++ txt "@" ++ w2 ++ tf ++ rest) W He) as (K & u & E & Ku); [apply sstop_blank; [exact B1|repeat split; reflexivity]|]. rewrite K, E. cbn [bind]. rewrite Ku, (blank_skip _ _ B1).
  replace (skip (txt "@" ++ w2 ++ tf ++ rest)) with (txt "@" ++ w2 ++ tf ++ rest) by reflexivity. rewrite lit_app. cbn [bind]. rewrite (blank_skip _ _ B2).
  assert (SR : ststop rest).
  { unfold rest, ststop, istop, cstop, ostop. rewrite (blank_skip _ _ B3). assert (X : starts is_name_char (w3 ++ txt "->" ++ w4 ++ tt ++ s) = false /\ starts (Ascii.eqb "-") (w3 ++ txt "->" ++ w4 ++ tt ++ s) = false) by (destruct B3; [contradiction| | | |]; split; reflexivity).
    destruct X as [X1 X2]. rewrite X1, X2. repeat split; reflexivity. }
  assert (F : exists o v, alt (fun s => do (p, s') <- state_text s; Ok (Some p, s')) (fun s => do s' <- lit "init" s; Ok (None, s')) (skip (tf ++ rest)) = Ok (o, v) /\ skip v = skip rest /\
     (match o with Some p => rmap Some (primary p) | None => Ok None end) = Ok from).
  { unfold alt. destruct Hf as [|tf lf Wf].
    - replace (skip (txt "init" ++ rest)) with (txt "init" ++ rest) by reflexivity.
      assert (G : good_name "init") by (apply good_word; reflexivity). destruct SR as ((SC & _ & _ & _ & SD) & _).
      assert (X : state_text (txt "init" ++ rest) = Err).
      { unfold state_text. cbn [p_and]. unfold p_or, p_sub, alt. replace (lit "(" (txt "init" ++ rest)) with (@Err text) by reflexivity. replace (lit "not" (txt "init" ++ rest)) with (@Err text) by reflexivity.
        replace (lit "!" (txt "init" ++ rest)) with (@Err text) by reflexivity. cbn [bind]. rewrite (p_diff_keyword _ _ G SC SD), (p_variable_keyword _ _ G SC SD). reflexivity. }
      rewrite X. cbn [bind]. rewrite lit_app. cbn [bind]. exists None, rest. auto.
    - destruct (condition_reads tf lf rest Wf SR) as (Kf & P & v & Ev & Kv & M). rewrite Kf, Ev. cbn [bind]. exists (Some P), v. rewrite M. auto. }
  destruct F as (o & v & Ev & Kv & Mo). rewrite Ev. cbn [bind]. rewrite Kv. unfold rest. rewrite (blank_skip _ _ B3). replace (skip (txt "->" ++ w4 ++ tt ++ s)) with (txt "->" ++ w4 ++ tt ++ s) by reflexivity. rewrite lit_app. cbn [bind].
  rewrite (blank_skip _ _ B4). destruct (condition_reads tt l s Ht S) as (Kt & P & x & Ex & Kx & M). rewrite Kt, Ex. cbn [bind].
  exists x. split; [|exact Kx]. rewrite M. cbn [bind]. rewrite Mo. reflexivity.
Qed.
Lemma query_reads t q s : query_written t q -> qstop s -> skip (t ++ s) = t ++ s /\ exists r, p_query (t ++ s) = Ok (Ok q, r) /\ skip r = skip s.
Proof.
  intros W Q. pose proof Q as (SS & ST & SV). unfold p_query.
  assert (A : forall (p p' : parser (res query)) t, p t = Err -> alt p p' t = p' t) by (intros p p' u E; unfold alt; rewrite E; reflexivity).
  assert (B : forall (p p' : parser (res query)) t x, p t = Ok x -> alt p p' t = Ok x) by (intros p p' u x E; unfold alt; rewrite E; reflexivity).
  destruct W as [w tl w1 w2 tr l r B0 B1 B2 Wl Wr Ll Lr|k mk w u e Hk B0 W L|k mk w u e Hk B0 W L|k mk w u w1 w2 n e Hk B0 W L B1 Ne B2 G|w u w1 w2 tf from w3 w4 tt l e B0 B1 B2 B3 N3 B4 W L Wf Wt]; rewrite <- ?app_assoc.
  - split; [reflexivity|]. destruct (refinement_written w tl w1 w2 tr l r s B0 B1 B2 Wl Wr Ll Lr SS) as (x & Ex & Kx). exists x. split; [|exact Kx]. apply B. exact Ex.
  - destruct (one_written k mk w u e s B0 W L SS) as (x & Ex & Kx). destruct Hk as [H|[H|[H|[H|[]]]]]; injection H as <- <-; (split; [reflexivity|]); exists x; (split; [|exact Kx]).
    + rewrite A by reflexivity. apply B. exact Ex.
    + do 3 (rewrite A by reflexivity). apply B. exact Ex.
    + do 4 (rewrite A by reflexivity). apply B. exact Ex.
    + do 5 (rewrite A by reflexivity). apply B. exact Ex.
  - destruct (unnamed_written k mk w u e s B0 W L Q) as (x & Ex & Kx). destruct Hk as [H|[H|[H|[]]]]; injection H as <- <-; (split; [reflexivity|]); exists x; (split; [|exact Kx]).
    + do 6 (rewrite A by reflexivity). apply B. exact Ex.
    + do 7 (rewrite A by reflexivity). apply B. exact Ex.
    + do 8 (rewrite A by reflexivity). exact Ex.
  - apply C23_names in G. destruct (named_written k mk w u w1 w2 n e s B0 W L B1 Ne B2 G Q) as (x & Ex & Kx). destruct Hk as [H|[H|[H|[]]]]; injection H as <- <-; (split; [reflexivity|]); exists x; (split; [|exact Kx]).
    + do 6 (rewrite A by reflexivity). apply B. exact Ex.
    + do 7 (rewrite A by reflexivity). apply B. exact Ex.
    + do 8 (rewrite A by reflexivity). exact Ex.
  - split; [reflexivity|]. destruct (reachability_written w u w1 w2 tf from w3 w4 tt l e s B0 B1 B2 B3 N3 B4 W L Wf Wt ST) as (x & Ex & Kx). exists x. split; [|exact Kx]. do 2 (rewrite A by reflexivity). apply B. exact Ex.
Qed.
(** However queries are written, they are read as the queries that are meant, with the names components are to be saved under. *)
Theorem C45_written : forall q qs, (forall x, In x (q :: qs) -> wq_ok x) -> parse_queries (queries_written q qs) = Ok (map wq_query (q :: qs)).
Proof.
  intros q qs H. set (semi := fun x => txt ";" ++ wq_all x).
  assert (ST : forall x s, qstop (semi x ++ s)) by (intros; repeat split; reflexivity).
  assert (S1 : qstop (flat_map semi qs)) by (destruct qs; [repeat split; reflexivity|]; cbn [flat_map]; apply ST).
  assert (R : forall x s, In x (q :: qs) -> qstop s -> exists r, p_query (skip (wq_all x ++ s)) = Ok (Ok (wq_query x), r) /\ skip r = skip s).
  { intros x s Hx S. destruct (H x Hx) as (B0 & W & B1). unfold wq_all. rewrite <- !app_assoc, (blank_skip _ _ B0).
    destruct (query_reads (wq_text x) (wq_query x) (wq_1 x ++ s) W (qstop_blank _ _ B1 S)) as (K0 & r & E & K). exists r. rewrite K0. split; [exact E|]. rewrite K. apply blank_skip. exact B1. }
  unfold queries_written, parse_queries. fold semi. destruct (R q (flat_map semi qs) (or_introl eq_refl) S1) as (r & Er & Kr). rewrite Er. cbn [bind].
  destruct (many_reads (fun s => do s1 <- lit ";" s; p_query (skip s1)) semi (fun x => Ok (wq_query x)) qstop qs) with (f := List.length (wq_all q ++ flat_map semi qs)) (s := @nil ascii) (u := r) as (t & Et & Kt).
  - intros x s Hx S. unfold semi. rewrite <- app_assoc. replace (skip (txt ";" ++ wq_all x ++ s)) with (txt ";" ++ wq_all x ++ s) by reflexivity. rewrite lit_app. cbn [bind]. apply R; [right; exact Hx|exact S].
  - intros x s _. apply ST.
  - rewrite app_length. assert (Z : forall ys : list written_query, List.length ys <= List.length (flat_map semi ys)).
    { induction ys as [|y ys IH]; [reflexivity|]. cbn [flat_map List.length]. unfold semi at 1. rewrite !app_length. change (List.length (txt ";")) with 1. lia. }
    specialize (Z qs). lia.
  - repeat split; reflexivity.
  - reflexivity.
  - rewrite app_nil_r. exact Kr.
  - rewrite Et. cbn [bind]. rewrite Kt. cbn [skip mapM bind map]. replace (mapM (fun r => r) (map (fun x => Ok (wq_query x)) qs)) with (Ok (map wq_query qs)); [reflexivity|].
    clear. induction qs as [|y ys IH]; [reflexivity|]. cbn. rewrite <- IH. reflexivity.
Qed.
Print Assumptions C45_written.

(** Refuted: white space may always be left out before "->".  A location's name followed by it is not read. *)
Theorem C45_arrow_refuted : exists q, query_legible q /\ (print_query q = txt "reachability: A @ A.x -> A.y" /\ parse_queries (txt "reachability: A @ A.x -> A.y") = Ok [q]) /\ parse_queries (txt "reachability: A @ A.x->A.y") = Err.
Proof.
  exists (QReachability (XComp "A" None) (Some (SLoc (mkVar "A" None "x"))) (SLoc (mkVar "A" None "y"))).
  assert (G : forall c, is_alpha c = true -> good_name (String c EmptyString)) by (intros c H; exists c, []; split; [reflexivity|]; split; [exact H|intros ? []]).
  assert (N : no_not "A") by (intros m E; discriminate E).
  split; [|split; [split; vm_compute; reflexivity|vm_compute; reflexivity]]. split; [split; [apply G; reflexivity|exact I]|]. split; [|split; [|reflexivity]].
  - intros f E. injection E as <-. split; [|reflexivity]. split; [apply G; reflexivity|]. split; [exact N|]. split; [exact I|apply G; reflexivity].
  - split; [apply G; reflexivity|]. split; [exact N|]. split; [exact I|apply G; reflexivity].
Qed.
Print Assumptions C45_arrow_refuted.

(** ** Examples *)
Definition sp_blank : text := [ascii_of_nat 9; " "%char; ascii_of_nat 13; ascii_of_nat 10].
Lemma sp_blank_ok : blank sp_blank. Proof. do 3 constructor. constructor. Qed.
Lemma letter_name c : is_alpha c = true -> good_name (String c EmptyString).
Proof. intros H. exists c, []. split; [reflexivity|]. split; [exact H|]. intros ? []. Qed.
Definition sp_guard : bexpr := BAnd (BLessEQ (AVar "x") (AInt 3)) (BLessT (ADifference (AVar "y") (AVar "x")) (AInt 20)).
Example C23_spacing_nonvacuous : b_legible sp_guard /\ blank sp_blank /\ parse_guard (sp_blank ++ encode_bool sp_guard ++ sp_blank ++ txt ";" ++ sp_blank) = Ok sp_guard.
Proof. split; [cbn; repeat split; (apply letter_name; reflexivity) || lia|]. split; [exact sp_blank_ok|]. vm_compute. reflexivity. Qed.
Definition sp_update (x : string) (colon : bool) : put_update := mkPU sp_blank x sp_blank colon sp_blank (AInt 0) sp_blank.
Example C23_updates_spacing_nonvacuous : (forall x, In x [sp_update "x" true; sp_update "y" false] -> pu_blank x /\ update_savable (pu_means x)) /\
  parse_updates (updates_put (sp_update "x" true) [sp_update "y" false] (Some sp_blank)) = Ok [("x"%string, AInt 0); ("y"%string, AInt 0)] /\
  parse_updates (txt "x:=0,y=0,") = Ok [("x"%string, AInt 0); ("y"%string, AInt 0)].
Proof.
  split; [|split; vm_compute; reflexivity]. intros x Hx. pose proof sp_blank_ok as B. destruct Hx as [<-|[<-|[]]]; (split; [repeat split; exact B|]); (split; [apply letter_name; reflexivity|]); (split; [cbn; lia|]); (split; [exact I|reflexivity]).
Qed.
Definition sp_query (q : query) : put_query := mkPQ sp_blank q sp_blank.
Definition sp_qs : list query := [QConsistency (XPar (XComp "A" None) (XComp "B" None)); QRefinement (XComp "A" None) (XConj (XComp "B" None) (XComp "A" None))].
Example C45_spacing_nonvacuous : (forall x, In x (map sp_query sp_qs) -> pq_blank x /\ query_legible (pq_query x)) /\
  match map sp_query sp_qs with q :: qs => parse_queries (queries_put q qs) = Ok sp_qs | [] => False end.
Proof.
  split; [|vm_compute; reflexivity]. intros x Hx. pose proof sp_blank_ok as B. destruct Hx as [<-|[<-|[]]]; (split; [split; exact B|]); cbn; repeat split; apply letter_name; reflexivity.
Qed.
(** A || B//(C&&A) is the quotient of A || B and C && A. *)
Definition sp_text : text := txt "A || B//(C&&A)".
Definition sp_expr : sysx := XQuot (XPar (XComp "A" None) (XComp "B" None)) (XConj (XComp "C" None) (XComp "A" None)).
Example C24_written_nonvacuous : written 1 sp_text sp_expr /\ sys_legible sp_expr.
Proof.
  split; [|cbn; repeat split; apply letter_name; reflexivity].
  refine (wr_quotient 1 (txt "A || B") [] (txt "//") [] (txt "(C&&A)") _ _ (le_n _) blank_end (or_introl eq_refl) blank_end _ _).
  - refine (wr_composition 1 (txt "A") (txt " ") (txt " ") (txt "B") _ _ _ (blank_space _ blank_end) (blank_space _ blank_end) (wr_component _ "A" None) (wr_component _ "B" None)). lia.
  - refine (wr_parentheses 2 [] (txt "C&&A") [] _ blank_end blank_end _).
    refine (wr_conjunction 1 (txt "C") [] [] (txt "A") _ _ _ blank_end blank_end (wr_component _ "C" None) (wr_component _ "A" None)). lia.
Qed.

(** get-component:A || B//(C&&A) save-as N; prune: A save-as M *)
Definition sp_wq1 : written_query := mkWQ [] (txt "get-component:" ++ [] ++ sp_text ++ txt " " ++ txt "save-as" ++ txt " " ++ txt "N") [] (QGetComponent sp_expr (Some "N"%string)).
Definition sp_wq2 : written_query := mkWQ (txt " ") (txt "prune:" ++ txt " " ++ txt "A") [] (QPrune (XComp "A" None) None).
Example C45_written_nonvacuous : (forall x, In x [sp_wq1; sp_wq2] -> wq_ok x) /\ queries_written sp_wq1 [sp_wq2] = txt "get-component:A || B//(C&&A) save-as N; prune: A" /\
  parse_queries (queries_written sp_wq1 [sp_wq2]) = Ok [QGetComponent sp_expr (Some "N"%string); QPrune (XComp "A" None) None].
Proof.
  split; [|split; vm_compute; reflexivity]. pose proof (blank_space [] blank_end) as B. intros x [<-|[<-|[]]].
  - split; [exact blank_end|]. split; [|exact blank_end]. destruct C24_written_nonvacuous as [W L].
    refine (qw_named _ _ [] sp_text (txt " ") (txt " ") "N" sp_expr (or_introl eq_refl) blank_end W L B _ B _); [discriminate|]. apply C23_names. apply letter_name. reflexivity.
  - split; [exact B|]. split; [|exact blank_end]. refine (qw_unnamed _ _ (txt " ") (txt "A") (XComp "A" None) (or_intror (or_introl eq_refl)) B (wr_component _ "A" None) _). split; [apply letter_name; reflexivity|exact I].
Qed.
(** The state A.x<5 and (A.y&&A.y -A.x>=2): a comparison, a location and a comparison of a difference, all to hold. *)
Definition sp_clock (x : string) : cvar := mkVar "A" None x.
Definition sp_state : text := txt "A.x<5 and (A.y&&A.y -A.x>=2)".
Definition sp_parts : list stx := [SCmp RLt (OClk (sp_clock "x")) (ONum 5); SAnd [SLoc (sp_clock "y"); SCmp RGe (ODiff (OClk (sp_clock "y")) (OClk (sp_clock "x"))) (ONum 2)]].
Lemma sp_clock_ok c : is_alpha c = true -> var_legible (sp_clock (String c EmptyString)).
Proof. intros H. split; [apply letter_name; reflexivity|]. split; [intros m E; discriminate E|]. split; [exact I|apply letter_name; exact H]. Qed.
Example C45_condition_written_nonvacuous : condition_written sp_state sp_parts /\ parse_to_state_expr sp_state = Ok (SAnd sp_parts).
Proof.
  split; [|vm_compute; reflexivity]. pose proof (blank_space [] blank_end) as B. pose proof (sp_clock_ok "x" eq_refl) as X. pose proof (sp_clock_ok "y" eq_refl) as Y.
  refine (cw_and (txt "A.x<5") (txt " ") "and" (txt " ") (txt "(A.y&&A.y -A.x>=2)") [_] _ B B (or_intror (conj eq_refl _)) _ _); [discriminate| |].
  - refine (cw_comparison "<" RLt (txt "A.x") [] [] (txt "5") _ _ _ blank_end blank_end (ow_clock _ X) (ow_number 5 _)); [cbn; tauto|lia].
  - refine (cw_parentheses [] (txt "A.y&&A.y -A.x>=2") [] [_; _] blank_end blank_end _).
    refine (cw_and (txt "A.y") [] "&&" [] (txt "A.y -A.x>=2") [_] _ blank_end blank_end (or_introl eq_refl) (cw_location _ Y) _).
    refine (cw_comparison ">=" RGe (txt "A.y -A.x") [] [] (txt "2") _ _ _ blank_end blank_end _ (ow_number 2 _)); [cbn; tauto| |lia].
    refine (ow_difference (txt "A.y") (txt " ") [] (OClk (sp_clock "x")) _ (ow_clock _ Y) B _ blank_end X). discriminate.
Qed.
Example C45_reachability_written_nonvacuous : query_written (txt "reachability:A@" ++ sp_state ++ txt " ->true") (QReachability (XComp "A" None) (Some (SAnd sp_parts)) (SBool true)) /\
  parse_queries (txt "reachability:A@" ++ sp_state ++ txt " ->true") = Ok [QReachability (XComp "A" None) (Some (SAnd sp_parts)) (SBool true)].
Proof.
  split; [|vm_compute; reflexivity]. pose proof (blank_space [] blank_end) as B. destruct C45_condition_written_nonvacuous as [W _].
  refine (qw_reachability [] (txt "A") [] [] sp_state _ (txt " ") [] (txt "true") [SBool true] _ blank_end blank_end blank_end B _ blank_end (wr_component _ "A" None) _ (sw_condition _ _ W) cw_true); [discriminate|].
  split; [apply letter_name; reflexivity|exact I].
Qed.
