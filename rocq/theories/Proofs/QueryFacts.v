(** Facts about reading and writing queries. *)
From Coq Require Import List String Ascii ZArith Bool Arith Lia.
From Verif Require Import Model.Base Model.Peg Model.ParseQuery Spec.TextSpec Spec.QuerySpec Proofs.PegFacts Proofs.ParseFacts.
Import ListNotations.
Local Open Scope nat_scope.
Local Open Scope string_scope.
Local Open Scope list_scope.

(** ** Names *)
(** The text after a component. *)
Definition cstop (s : text) : Prop := starts is_name_char s = false /\ starts (Ascii.eqb "-") s = false /\ starts (Ascii.eqb "[") (skip s) = false.

Lemma p_qname_app n s : good_name n -> starts is_name_char s = false -> starts (Ascii.eqb "-") s = false -> p_qname (txt n ++ s) = Ok (n, s).
Proof.
  intros Hn S D. unfold p_qname. rewrite (p_name_app n s (good_name_ok n Hn) S). cbn [bind]. destruct s as [|c s]; [reflexivity|]. cbn [starts] in D.
  rewrite Ascii.eqb_sym, D. reflexivity.
Qed.
Lemma id_not_bracket i : good_id i -> forallb not_bracket (txt i) = true.
Proof.
  intros (c & a & E & H & _). unfold txt. rewrite E. apply forallb_forall. intros x Hx. destruct (H x Hx) as [H1 H2]. unfold not_bracket.
  apply andb_true_iff. split; apply negb_true_iff; apply Ascii.eqb_neq; assumption.
Qed.
Lemma id_skip i s : good_id i -> skip (txt i ++ txt "]" ++ s) = txt i ++ txt "]" ++ s.
Proof.
  intros (c & a & E & _ & Hb & Hr). unfold txt. rewrite E. cbn [app skip]. rewrite Hb. destruct (Ascii.eqb c (ch 13)) eqn:Ec; [|reflexivity].
  apply Ascii.eqb_eq in Ec. specialize (Hr Ec). destruct a as [|d a]; [reflexivity|]. cbn [app]. destruct (Ascii.eqb d (ch 10)) eqn:Ed; [|reflexivity].
  apply Ascii.eqb_eq in Ed. subst d. exfalso. apply (Hr a). reflexivity.
Qed.
Lemma txt_of_txt i : string_of_list_ascii (txt i) = i.
Proof. apply string_of_list_ascii_of_string. Qed.
Lemma p_identifier_app i s : good_id i -> p_identifier (txt i ++ txt "]" ++ s) = Ok (i, txt "]" ++ s).
Proof.
  intros H. unfold p_identifier. rewrite (span_app not_bracket (txt i) (txt "]" ++ s) (id_not_bracket i H)) by reflexivity.
  destruct (txt i) eqn:E; [destruct H as (c & a & E' & _); unfold txt in E; congruence|]. rewrite <- E, txt_of_txt. reflexivity.
Qed.
Lemma p_component_reads n id s : good_name n -> good_opt_id id -> cstop s ->
  exists r, p_component (txt n ++ id_text id ++ s) = Ok ((n, id), r) /\ skip r = skip s.
Proof.
  intros Hn Hi (S1 & S2 & S3). unfold p_component. destruct id as [i|]; cbn [id_text].
  - rewrite (p_qname_app n _ Hn) by reflexivity. cbn [bind]. rewrite <- !app_assoc. rewrite skip_visible by (right; reflexivity). unfold popt. rewrite lit_app. cbn [bind].
    rewrite (id_skip i s Hi), (p_identifier_app i s Hi). cbn [bind]. rewrite skip_visible by (right; reflexivity). rewrite lit_app. cbn [bind]. exists s. auto.
  - cbn [app]. rewrite (p_qname_app n s Hn S1 S2). cbn [bind]. unfold popt.
    assert (L : lit "[" (skip s) = Err). { destruct (skip s) as [|c t]; [reflexivity|]. cbn [starts] in S3. unfold lit. cbn [txt list_ascii_of_string strip]. rewrite S3. reflexivity. }
    rewrite L. cbn [bind]. exists (skip s). split; [reflexivity|apply skip_idem].
Qed.
Lemma component_skip n s : good_name n -> skip (txt n ++ s) = txt n ++ s.
Proof.
  intros (c & a & E & Hc & _). unfold txt. rewrite E. apply skip_visible. right. cbn. pose proof (alpha_facts c) as F. rewrite Hc in F. cbn [negb orb] in F.
  rewrite !andb_true_iff in F. tauto.
Qed.

(** ** System expressions *)
Fixpoint height (e : sysx) : nat := match e with XComp _ _ => 0 | XQuot l r | XPar l r | XConj l r => S (S (Nat.max (height l) (height r))) end.
Lemma height_length e : height e <= List.length (print_sys e).
Proof.
  induction e; cbn [height print_sys]; [lia| | |]; rewrite !app_length;
  replace (List.length (txt "(")) with 1 by reflexivity; replace (List.length (txt ")")) with 1 by reflexivity; lia.
Qed.
Lemma print_skip e s : sys_legible e -> skip (print_sys e ++ s) = print_sys e ++ s.
Proof.
  destruct e; cbn [sys_legible print_sys]; intros H; [rewrite <- app_assoc; apply component_skip; tauto| | |]; apply skip_visible; right; reflexivity.
Qed.
Definition op_symbol (o : sop) : text := txt match o with OQuot => " \\ " | OPar => " || " | OConj => " && " end.
Lemma op_symbol_facts o s : cstop (op_symbol o ++ s) /\ exists t, skip (op_symbol o ++ s) = t /\ p_sop t = Ok (o, txt " " ++ s).
Proof. destruct o; (split; [repeat split; reflexivity|]); eexists; split; reflexivity. Qed.
Lemma print_node o l r : print_sys (sop_mk o l r) = txt "(" ++ print_sys l ++ op_symbol o ++ print_sys r ++ txt ")".
Proof. destruct o; reflexivity. Qed.
Lemma sop_prec_pos o : 0 < sop_prec o. Proof. destruct o; cbn; lia. Qed.

(** An operand: its text and its meaning. *)
Definition opnd := (text * sysx)%type.
Definition op_text (p : sop * opnd) : text := op_symbol (fst p) ++ fst (snd p).
Definition flat_text (b : @btree sop opnd) : text := fst (first b) ++ flat_map op_text (ops b).
Definition reads_as (f : nat) (x : opnd) : Prop := forall s, cstop s ->
  skip (fst x ++ s) = fst x ++ s /\ exists t, p_sterm (p_sys f) (fst x ++ s) = Ok (Ok (snd x), t) /\ skip t = skip s.
Lemma flat_reads f b s : reads_as f (first b) -> (forall p, In p (ops b) -> reads_as f (snd p)) -> List.length (ops b) <= f -> cstop s -> p_sop (skip s) = Err ->
  exists t, p_sys (S f) (flat_text b ++ s) = Ok (Ok (eval snd sop_mk (rebalance sop_prec b)), t) /\ skip t = skip s.
Proof.
  intros H1 H2 Hf S E. cbn [p_sys]. unfold flat_text. rewrite <- app_assoc.
  assert (ST : forall x s, cstop (op_text x ++ s)) by (intros x t; unfold op_text; rewrite <- app_assoc; apply op_symbol_facts).
  assert (S1 : cstop (flat_map op_text (ops b) ++ s)) by (destruct (ops b) as [|x xs]; [exact S|]; cbn [flat_map]; rewrite <- app_assoc; apply ST).
  destruct (H1 _ S1) as (_ & r & Er & Kr). rewrite Er. cbn [bind].
  destruct (many_reads (p_sop_term (p_sys f)) op_text (fun p => (fst p, Ok (snd (snd p)))) cstop (ops b)) with (f := f) (s := s) (u := r) as (t & Et & Kt).
  - intros [o x] u Hx Su. unfold op_text. cbn [fst snd]. rewrite <- app_assoc. destruct (op_symbol_facts o (fst x ++ u)) as (_ & t & Et & Ep). unfold p_sop_term. rewrite Et, Ep. cbn [bind].
    cbn [txt list_ascii_of_string app skip]. replace (is_blank " ") with true by reflexivity. destruct (H2 _ Hx u Su) as (K & w & Ew & Kw). cbn [snd] in K, Ew. rewrite K, Ew. cbn [bind]. exists w. auto.
  - intros x u _. apply ST.
  - exact Hf.
  - exact S.
  - unfold p_sop_term. rewrite E. reflexivity.
  - exact Kr.
  - rewrite Et. cbn [bind]. exists t. split; [|exact Kt]. f_equal. f_equal. exact (pratt_res_tree sop_prec sop_mk snd b sop_prec_pos).
Qed.
(** The same text in parentheses is an operand. *)
Lemma paren_reads f b : reads_as f (first b) -> (forall p, In p (ops b) -> reads_as f (snd p)) -> List.length (ops b) <= f -> canon sop_prec b ->
  reads_as (S f) (txt "(" ++ flat_text b ++ txt ")", eval snd sop_mk b).
Proof.
  intros H1 H2 Hf C s S. cbn [fst snd]. split; [apply skip_visible; right; reflexivity|]. rewrite <- !app_assoc. unfold p_sterm, alt.
  replace (p_component (txt "(" ++ flat_text b ++ txt ")" ++ s)) with (@Err ((string * option string) * text)) by reflexivity. cbn [bind]. rewrite lit_app. cbn [bind].
  assert (K : skip (flat_text b ++ txt ")" ++ s) = flat_text b ++ txt ")" ++ s).
  { unfold flat_text. rewrite <- app_assoc. apply H1. destruct (ops b) as [|x xs]; [repeat split; reflexivity|]. cbn [flat_map]. unfold op_text at 1. rewrite <- !app_assoc. apply op_symbol_facts. }
  rewrite K. destruct (flat_reads f b (txt ")" ++ s) H1 H2 Hf) as (t & Et & Kt); [repeat split; reflexivity|reflexivity|]. rewrite Et. cbn [bind]. rewrite Kt.
  rewrite skip_visible by (right; reflexivity). rewrite lit_app. cbn [bind]. exists s. split; [|reflexivity]. rewrite rebalance_canon; [reflexivity|apply sop_prec_pos|exact C].
Qed.
Lemma component_reads f n id : good_name n -> good_opt_id id -> reads_as f (txt n ++ id_text id, XComp n id).
Proof.
  intros Hn Hi s S. cbn [fst snd]. rewrite <- app_assoc. split; [apply component_skip; exact Hn|]. destruct (p_component_reads n id s Hn Hi S) as (r & Er & Kr).
  unfold p_sterm, alt. rewrite Er. cbn [bind fst snd]. exists r. auto.
Qed.

Lemma term_reads e : sys_legible e -> forall f, height e <= f -> reads_as f (print_sys e, e).
Proof.
  assert (N : forall o l r, (sys_legible l -> forall f, height l <= f -> reads_as f (print_sys l, l)) -> (sys_legible r -> forall f, height r <= f -> reads_as f (print_sys r, r)) ->
    sys_legible l -> sys_legible r -> forall f, S (S (Nat.max (height l) (height r))) <= f -> reads_as f (print_sys (sop_mk o l r), sop_mk o l r)).
  { intros o l r IHl IHr Hl Hr f Hf. destruct f as [|f]; [lia|]. rewrite print_node.
    pose proof (paren_reads f (BNode o (BLeaf (print_sys l, l)) (BLeaf (print_sys r, r)))) as P. unfold flat_text in P. cbn [first ops app flat_map eval fst snd] in P. unfold op_text in P. cbn [fst snd] in P.
    rewrite app_nil_r, <- !app_assoc in P. apply P; [apply (IHl Hl); lia|intros p [<-|[]]; apply (IHr Hr); lia|cbn; lia|cbn; auto]. }
  induction e as [n id|l IHl r IHr|l IHl r IHr|l IHl r IHr]; cbn [sys_legible height]; intros H f Hf.
  - destruct H. apply component_reads; assumption.
  - destruct H. apply (N OQuot); auto.
  - destruct H. apply (N OPar); auto.
  - destruct H. apply (N OConj); auto.
Qed.

Definition sstop (s : text) : Prop := cstop s /\ p_sop (skip s) = Err.
Theorem sys_reads e s : sys_legible e -> sstop s -> exists r, sys_text (print_sys e ++ s) = Ok (Ok e, r) /\ skip r = skip s.
Proof.
  intros H [S E]. unfold sys_text.
  destruct (flat_reads (List.length (print_sys e ++ s)) (@BLeaf sop opnd (print_sys e, e)) s) as (t & Et & Kt).
  - cbn. apply term_reads; [exact H|rewrite app_length; pose proof (height_length e); lia].
  - cbn. intros x [].
  - cbn. lia.
  - exact S.
  - exact E.
  - unfold flat_text in Et. cbn [first ops flat_map fst] in Et. rewrite app_nil_r in Et. exists t. split; [|exact Kt]. rewrite Et. reflexivity.
Qed.
Theorem system_reload e : sys_legible e -> parse_to_system_expr (print_sys e) = Ok e.
Proof.
  intros H. unfold parse_to_system_expr. destruct (sys_reads e [] H) as (r & E & _); [repeat split; reflexivity|]. rewrite app_nil_r in E. rewrite E. reflexivity.
Qed.

(** As few parentheses as possible. *)
Fixpoint mtree (e : sysx) : @btree sop opnd :=
  let node o l r k := BNode o (if Nat.ltb (sys_rank l) k then BLeaf (txt "(" ++ print_min l ++ txt ")", l) else mtree l)
                             (if Nat.leb (sys_rank r) k then BLeaf (txt "(" ++ print_min r ++ txt ")", r) else mtree r) in
  match e with
  | XComp _ _ => BLeaf (print_sys e, e)
  | XQuot l r => node OQuot l r 1
  | XPar l r => node OPar l r 2
  | XConj l r => node OConj l r 3
  end.
Lemma flat_node o l r : flat_text (BNode o l r) = flat_text l ++ op_symbol o ++ flat_text r.
Proof. unfold flat_text. cbn [first ops]. rewrite flat_map_app. cbn [flat_map]. unfold op_text at 2. cbn [fst snd]. rewrite <- !app_assoc. reflexivity. Qed.
Lemma flat_leaf x : flat_text (@BLeaf sop opnd x) = fst x.
Proof. unfold flat_text. cbn. apply app_nil_r. Qed.
Lemma mtree_text e : flat_text (mtree e) = print_min e.
Proof.
  induction e as [n id|l IHl r IHr|l IHl r IHr|l IHl r IHr]; cbn [mtree print_min]; [apply flat_leaf| | |]; rewrite flat_node; unfold parens, op_symbol;
    destruct (Nat.ltb _ _), (Nat.leb _ _); rewrite ?flat_leaf; cbn [fst]; congruence.
Qed.
Lemma mtree_eval e : eval snd sop_mk (mtree e) = e.
Proof.
  induction e as [n id|l IHl r IHr|l IHl r IHr|l IHl r IHr]; cbn [mtree eval snd sop_mk]; [reflexivity| | |];
    destruct (Nat.ltb _ _), (Nat.leb _ _); cbn [eval snd]; rewrite ?IHl, ?IHr; reflexivity.
Qed.
Lemma mtree_root e k : (k <= sys_rank e -> ge_root sop_prec k (mtree e)) /\ (k < sys_rank e -> gt_root sop_prec k (mtree e)).
Proof. destruct e; cbn; auto. Qed.
Lemma mtree_canon e : canon sop_prec (mtree e).
Proof.
  induction e as [n id|l IHl r IHr|l IHl r IHr|l IHl r IHr]; cbn [mtree canon]; [exact I| | |];
  (split; [destruct (Nat.ltb _ _) eqn:E; [exact I|]; apply Nat.ltb_ge in E; apply mtree_root; exact E|];
   split; [destruct (Nat.leb _ _) eqn:E; [exact I|]; apply Nat.leb_gt in E; apply mtree_root; exact E|];
   split; [destruct (Nat.ltb _ _); [exact I|exact IHl]|destruct (Nat.leb _ _); [exact I|exact IHr]]).
Qed.
Lemma op_lens : List.length (txt " \\ ") = 4 /\ List.length (txt " || ") = 4 /\ List.length (txt " && ") = 4. Proof. repeat split. Qed.
Lemma print_min_len e : sys_legible e -> 1 <= List.length (print_min e).
Proof.
  induction e as [n id|l IHl r IHr|l IHl r IHr|l IHl r IHr]; cbn [sys_legible print_min print_sys]; intros H; rewrite !app_length;
  [|change (List.length (txt " \\ ")) with 4; lia|change (List.length (txt " || ")) with 4; lia|change (List.length (txt " && ")) with 4; lia].
  destruct H as [(c & a & E & _) _]. unfold txt. rewrite E. cbn. lia.
Qed.
Lemma mtree_len e : sys_legible e -> List.length (ops (mtree e)) < List.length (print_min e).
Proof.
  assert (Q : forall (b : bool) e, (sys_legible e -> List.length (ops (mtree e)) < List.length (print_min e)) -> sys_legible e ->
     List.length (ops (if b then @BLeaf sop opnd (txt "(" ++ print_min e ++ txt ")", e) else mtree e)) < List.length (parens b (print_min e))).
  { intros [] x IH H; unfold parens; [|auto]. cbn [ops List.length]. rewrite !app_length. pose proof (print_min_len x H). lia. }
  assert (A : forall a b p o q, a < p -> b < q -> 1 <= o -> a + S b < p + (o + q)) by (intros; lia).
  induction e as [n id|l IHl r IHr|l IHl r IHr|l IHl r IHr]; intros H; [pose proof (print_min_len _ H); cbn [mtree ops List.length]; lia| | |];
  cbn [sys_legible] in H; destruct H as [Hl Hr]; cbn [mtree ops print_min]; rewrite !app_length; cbn [List.length];
  (apply A; [apply Q; assumption|apply Q; assumption|destruct op_lens as (L1 & L2 & L3); rewrite ?L1, ?L2, ?L3; lia]).
Qed.
Lemma mtree_reads e : sys_legible e -> forall f, List.length (print_min e) <= f ->
  reads_as f (first (mtree e)) /\ (forall p, In p (ops (mtree e)) -> reads_as f (snd p)).
Proof.
  assert (N : forall e (b : bool) f, sys_legible e -> (forall f, List.length (print_min e) <= f -> reads_as f (first (mtree e)) /\ (forall p, In p (ops (mtree e)) -> reads_as f (snd p))) ->
    List.length (parens b (print_min e)) <= f ->
    let t := if b then @BLeaf sop opnd (txt "(" ++ print_min e ++ txt ")", e) else mtree e in reads_as f (first t) /\ (forall p, In p (ops t) -> reads_as f (snd p))).
  { clear e. intros e b f H IH Hf. destruct b; cbn zeta; [|apply IH; exact Hf]. cbn [first ops]. split; [|intros p []]. unfold parens in Hf. rewrite !app_length in Hf. change (List.length (txt "(")) with 1 in Hf.
    destruct f as [|f]; [lia|]. destruct (IH f ltac:(lia)) as [R1 R2]. pose proof (mtree_len e H).
    pose proof (paren_reads f (mtree e) R1 R2 ltac:(lia) (mtree_canon e)) as P. rewrite mtree_text, mtree_eval in P. exact P. }
  induction e as [n id|l IHl r IHr|l IHl r IHr|l IHl r IHr]; intros H f Hf.
  - destruct H. cbn [mtree first ops]. split; [apply component_reads; assumption|intros p []].
  - destruct H as [Hl Hr]. cbn [print_min] in Hf. rewrite !app_length in Hf. cbn [mtree first ops].
    destruct (N l (Nat.ltb (sys_rank l) 1) f Hl (IHl Hl)) as [A B]; [lia|]. destruct (N r (Nat.leb (sys_rank r) 1) f Hr (IHr Hr)) as [C D]; [lia|].
    split; [exact A|]. intros p Hp. apply in_app_iff in Hp. destruct Hp as [Hp|[<-|Hp]]; [apply B; exact Hp|exact C|apply D; exact Hp].
  - destruct H as [Hl Hr]. cbn [print_min] in Hf. rewrite !app_length in Hf. cbn [mtree first ops].
    destruct (N l (Nat.ltb (sys_rank l) 2) f Hl (IHl Hl)) as [A B]; [lia|]. destruct (N r (Nat.leb (sys_rank r) 2) f Hr (IHr Hr)) as [C D]; [lia|].
    split; [exact A|]. intros p Hp. apply in_app_iff in Hp. destruct Hp as [Hp|[<-|Hp]]; [apply B; exact Hp|exact C|apply D; exact Hp].
  - destruct H as [Hl Hr]. cbn [print_min] in Hf. rewrite !app_length in Hf. cbn [mtree first ops].
    destruct (N l (Nat.ltb (sys_rank l) 3) f Hl (IHl Hl)) as [A B]; [lia|]. destruct (N r (Nat.leb (sys_rank r) 3) f Hr (IHr Hr)) as [C D]; [lia|].
    split; [exact A|]. intros p Hp. apply in_app_iff in Hp. destruct Hp as [Hp|[<-|Hp]]; [apply B; exact Hp|exact C|apply D; exact Hp].
Qed.
Theorem minimal_reload e : sys_legible e -> parse_to_system_expr (print_min e) = Ok e.
Proof.
  intros H. unfold parse_to_system_expr, sys_text. destruct (mtree_reads e H _ (le_n _)) as [A B]. pose proof (mtree_len e H).
  destruct (flat_reads (List.length (print_min e)) (mtree e) [] A B) as (t & Et & _); [lia|repeat split; reflexivity|reflexivity|]. rewrite app_nil_r, mtree_text in Et. rewrite Et. cbn [bind].
  rewrite rebalance_canon; [|apply sop_prec_pos|apply mtree_canon]. rewrite mtree_eval. reflexivity.
Qed.

(** *** Everything that is read is proper *)
Lemma span_all p s a b : span p s = (a, b) -> forallb p a = true /\ s = a ++ b.
Proof.
  revert a b. induction s as [|c s IH]; intros a b E; cbn [span] in E; [injection E as <- <-; auto|]. destruct (p c) eqn:Ec; [|injection E as <- <-; auto].
  destruct (span p s) as [a' b'] eqn:Es. injection E as <- <-. destruct (IH a' b' eq_refl) as [H ->]. cbn. rewrite Ec, H. auto.
Qed.
Lemma p_name_good s n s' : p_name s = Ok (n, s') -> good_name n.
Proof.
  destruct s as [|c s]; cbn [p_name]; [discriminate|]. destruct (is_alpha c) eqn:Ec; [|discriminate]. destruct (span is_name_char s) as [a b] eqn:Es. intros E. injection E as <- <-.
  exists c, a. cbn [string_of_list_ascii list_ascii_of_string]. rewrite list_ascii_of_string_of_list_ascii. split; [reflexivity|]. split; [exact Ec|].
  apply forallb_forall. apply (span_all _ _ _ _ Es).
Qed.
Lemma p_qname_good s n s' : p_qname s = Ok (n, s') -> good_name n.
Proof.
  unfold p_qname. destruct (p_name s) as [[m t]| | |] eqn:E; cbn [bind]; try discriminate. apply p_name_good in E. destruct t as [|c t]; [congruence|].
  destruct (Ascii.eqb c "-"); [discriminate|congruence].
Qed.
Lemma skip_fix s c t : skip s = c :: t -> is_blank c = false /\ (c = ascii_of_nat 13 -> forall b, t <> ascii_of_nat 10 :: b).
Proof.
  assert (H : forall n s, List.length s <= n -> skip s = c :: t -> is_blank c = false /\ (c = ascii_of_nat 13 -> forall b, t <> ascii_of_nat 10 :: b)).
  { induction n as [|n IH]; intros [|d u] Hn; cbn [skip]; try discriminate; cbn in Hn; [lia|]. destruct (is_blank d) eqn:Ed; [apply IH; lia|].
    destruct (Ascii.eqb d (ch 13)) eqn:Er.
    - destruct u as [|x u]; [intros E; injection E as <- <-; split; [exact Ed|discriminate]|]. destruct (Ascii.eqb x (ch 10)) eqn:Ex; [apply IH; cbn in Hn; lia|].
      intros E. injection E as <- <-. split; [exact Ed|]. intros _ b X. injection X as X _. rewrite X in Ex. discriminate.
    - intros E. injection E as <- <-. split; [exact Ed|]. intros ->. discriminate. }
  exact (H _ s (le_n _)).
Qed.
Lemma p_identifier_good s i s' : p_identifier (skip s) = Ok (i, s') -> good_id i.
Proof.
  unfold p_identifier. destruct (span not_bracket (skip s)) as [[|c a] b] eqn:Es; [discriminate|]. intros E. injection E as <- <-. destruct (span_all _ _ _ _ Es) as [H E].
  exists c, a. cbn [string_of_list_ascii list_ascii_of_string]. rewrite list_ascii_of_string_of_list_ascii. split; [reflexivity|]. split.
  - intros x Hx. apply (proj1 (forallb_forall _ _) H) in Hx. unfold not_bracket in Hx. apply andb_true_iff in Hx. rewrite !negb_true_iff, !Ascii.eqb_neq in Hx. exact Hx.
  - destruct (skip_fix s c (a ++ b) E) as [A B]. split; [exact A|]. intros Ec x X. apply (B Ec (x ++ b)). rewrite X. reflexivity.
Qed.
Lemma p_component_good s c s' : p_component s = Ok (c, s') -> good_name (fst c) /\ good_opt_id (snd c).
Proof.
  unfold p_component. destruct (p_qname s) as [[n s1]| | |] eqn:En; cbn [bind]; try discriminate. apply p_qname_good in En. unfold popt.
  destruct (lit "[" (skip s1)) as [s2| | |]; cbn [bind]; try discriminate.
  - destruct (p_identifier (skip s2)) as [[i s3]| | |] eqn:Ei; cbn [bind]; try discriminate.
    + apply p_identifier_good in Ei. destruct (lit "]" (skip s3)) as [s4| | |]; cbn [bind]; try discriminate; intros E; injection E as <- <-; cbn; auto.
    + intros E. injection E as <- <-. cbn. auto.
  - intros E. injection E as <- <-. cbn. auto.
Qed.
Lemma pratt_keeps {O T} prec (mk : O -> T -> T -> T) (P : T -> Prop) : (forall o a b, P a -> P b -> P (mk o a b)) ->
  forall f rbp x xs t ys, P x -> Forall (fun p => P (snd p)) xs -> pratt prec mk f rbp x xs = Ok (t, ys) -> P t /\ Forall (fun p => P (snd p)) ys.
Proof.
  intros K. induction f as [|f IH]; intros rbp x xs t ys Hx Hs E; [discriminate|]. cbn [pratt] in E. destruct xs as [|[o u] xs]; [injection E as <- <-; auto|].
  destruct (Nat.ltb rbp (prec o)); [|injection E as <- <-; auto]. inversion Hs as [|? ? Hu Hr]; subst. cbn [snd] in Hu.
  destruct (pratt prec mk f (prec o) u xs) as [[r zs]| | |] eqn:Er; cbn [bind] in E; try discriminate. destruct (IH _ _ _ _ _ Hu Hr Er) as [Pr Pz].
  apply (IH _ _ _ _ _ (K o x r Hx Pr) Pz E).
Qed.
Definition okP {A} (P : A -> Prop) (r : res A) : Prop := forall a, r = Ok a -> P a.
Lemma mapM_Forall {A B} (f : A -> res B) (Q : B -> Prop) l ys : mapM f l = Ok ys -> (forall a, In a l -> okP Q (f a)) -> Forall Q ys.
Proof.
  revert ys. induction l as [|a l IH]; intros ys E H; cbn in E; [injection E as <-; constructor|]. destruct (f a) as [b| | |] eqn:Eb; cbn in E; try discriminate.
  destruct (mapM f l) as [bs| | |] eqn:Em; cbn in E; try discriminate. injection E as <-. constructor; [apply (H a); [left; reflexivity|exact Eb]|].
  apply IH; [reflexivity|]. intros x Hx. apply H. right. exact Hx.
Qed.
Lemma pratt_res_keeps {O T} prec (mk : O -> T -> T -> T) (P : T -> Prop) x xs : (forall o a b, P a -> P b -> P (mk o a b)) ->
  okP P x -> Forall (fun p => okP P (snd p)) xs -> okP P (pratt_res prec mk x xs).
Proof.
  intros K Hx Hs t E. unfold pratt_res in E. destruct x as [y| | |]; cbn [bind] in E; try discriminate.
  destruct (mapM _ xs) as [ys| | |] eqn:Em; cbn [bind] in E; try discriminate.
  assert (F : Forall (fun p => P (snd p)) ys).
  { apply (mapM_Forall _ _ _ _ Em). intros p Hp q Eq. rewrite Forall_forall in Hs. specialize (Hs p Hp). destruct (snd p) as [z| | |]; cbn in Eq; try discriminate.
    injection Eq as <-. cbn. apply Hs. reflexivity. }
  unfold pratt_all in E. destruct (pratt prec mk (S (List.length ys)) 0 y ys) as [[u zs]| | |] eqn:Ep; cbn in E; try discriminate. injection E as <-.
  apply (pratt_keeps prec mk P K _ _ _ _ _ _ (Hx y eq_refl) F Ep).
Qed.
Lemma many_more_keeps {A} (p : parser A) (P : A -> Prop) : (forall s a s', p s = Ok (a, s') -> P a) ->
  forall f s l s', many_more f p s = Ok (l, s') -> Forall P l.
Proof.
  intros H. induction f as [|f IH]; intros s l s' E; [discriminate|]. cbn [many_more] in E. destruct (p (skip s)) as [[a t]| | |] eqn:Ep; try discriminate.
  - destruct (many_more f p t) as [[l' t']| | |] eqn:Em; cbn in E; try discriminate. injection E as <- <-. constructor; [exact (H _ _ _ Ep)|exact (IH _ _ _ Em)].
  - injection E as <- <-. constructor.
Qed.
Lemma many_keeps {A} (p : parser A) (P : A -> Prop) : (forall s a s', p s = Ok (a, s') -> P a) ->
  forall f s l s', many f p s = Ok (l, s') -> Forall P l.
Proof.
  intros H f s l s' E. unfold many in E. destruct (p s) as [[a t]| | |] eqn:Ep; try discriminate.
  - destruct (many_more f p t) as [[l' t']| | |] eqn:Em; cbn in E; try discriminate. injection E as <- <-. constructor; [exact (H _ _ _ Ep)|exact (many_more_keeps p P H _ _ _ _ Em)].
  - injection E as <- <-. constructor.
Qed.
Lemma p_sterm_keeps rec : (forall s a s', rec s = Ok (a, s') -> okP sys_legible a) -> forall s a s', p_sterm rec s = Ok (a, s') -> okP sys_legible a.
Proof.
  intros H s a s' E x Ex. subst a. unfold p_sterm, alt in E. destruct (p_component s) as [[c s1]| | |] eqn:Ec; cbn [bind] in E; try discriminate.
  - injection E as <- <-. cbn. exact (p_component_good _ _ _ Ec).
  - destruct (lit "(" s) as [s1| | |]; cbn [bind] in E; try discriminate. destruct (rec (skip s1)) as [[b s2]| | |] eqn:Er; cbn [bind] in E; try discriminate.
    destruct (lit ")" (skip s2)) as [s3| | |]; cbn [bind] in E; try discriminate. injection E as -> <-. apply (H _ _ _ Er). reflexivity.
Qed.
Lemma p_sys_keeps f : forall s a s', p_sys f s = Ok (a, s') -> okP sys_legible a.
Proof.
  induction f as [|f IH]; intros s a s' E; [discriminate|]. cbn [p_sys] in E. destruct (p_sterm (p_sys f) s) as [[x s1]| | |] eqn:Ex; cbn [bind] in E; try discriminate.
  destruct (many f (p_sop_term (p_sys f)) (skip s1)) as [[xs s2]| | |] eqn:Em; cbn [bind] in E; try discriminate. injection E as <- <-.
  apply pratt_res_keeps; [intros [] y z Hy Hz; cbn; auto|exact (p_sterm_keeps _ IH _ _ _ Ex)|].
  refine (many_keeps _ _ _ _ _ _ _ Em). intros t [o y] t' Et. unfold p_sop_term in Et. destruct (p_sop t) as [[o' t1]| | |]; cbn [bind] in Et; try discriminate.
  destruct (p_sterm (p_sys f) (skip t1)) as [[z t2]| | |] eqn:Ez; cbn [bind] in Et; try discriminate. injection Et as <- <- <-. exact (p_sterm_keeps _ IH _ _ _ Ez).
Qed.
Theorem parsed_legible s e : parse_to_system_expr s = Ok e -> sys_legible e.
Proof.
  unfold parse_to_system_expr, sys_text. destruct (p_sys (S (List.length s)) s) as [[r t]| | |] eqn:E; cbn [bind]; try discriminate. intros ->. exact (p_sys_keeps _ _ _ _ E e eq_refl).
Qed.

(** ** States *)
Lemma p_variable_reads x s : var_legible x -> starts is_name_char s = false -> starts (Ascii.eqb "-") s = false -> p_variable (print_var x ++ s) = Ok (x, s).
Proof.
  intros (H1 & _ & H2 & H3) S1 S2. destruct x as [c i n]. cbn [v_comp v_id v_name] in *. unfold p_variable, print_var. cbn [v_comp v_id v_name]. rewrite <- !app_assoc.
  destruct (p_component_reads c i (txt "." ++ txt n ++ s) H1 H2) as (r & E & K); [repeat split; reflexivity|]. rewrite E. cbn [bind]. rewrite K.
  rewrite skip_visible by (right; reflexivity). rewrite lit_app. cbn [bind]. rewrite (component_skip n s H3), (p_qname_app n s H3 S1 S2). reflexivity.
Qed.
Lemma name_not_int n s : good_name n -> p_int (txt n ++ s) = Err.
Proof.
  intros (c & a & E & Hc & _). unfold txt. rewrite E. cbn [app p_int]. pose proof (alpha_facts c) as F. rewrite Hc in F. cbn [negb orb] in F. rewrite !andb_true_iff, !negb_true_iff in F.
  destruct F as [[[[[[[_ _] _] Fn] Fz] _] _] _]. rewrite Fz, Fn. reflexivity.
Qed.
Lemma p_qterm_reads o s : term_legible o -> starts is_name_char s = false -> starts (Ascii.eqb "-") s = false -> p_qterm (print_operand o ++ s) = Ok (Ok o, s).
Proof.
  intros H S1 S2. destruct o; cbn [term_legible] in H; try contradiction; unfold p_qterm, alt; cbn [print_operand].
  - unfold int_text. replace (Z.ltb k 0) with false by (symmetry; apply Z.ltb_ge; lia). fold (int_text k).
    replace (digits k) with (int_text k) by (unfold int_text; replace (Z.ltb k 0) with false by (symmetry; apply Z.ltb_ge; lia); reflexivity).
    rewrite p_int_app; [|lia|]. 2:{ destruct s as [|d s]; [reflexivity|]. cbn [starts] in *. unfold is_name_char in S1. rewrite !orb_false_iff in S1. tauto. }
    cbn [bind]. unfold i32_of, i32_max. replace (Z.leb k 2147483647) with true by (symmetry; apply Z.leb_le; lia). reflexivity.
  - assert (E : p_int (print_var x ++ s) = Err) by (unfold print_var; rewrite <- !app_assoc; apply name_not_int; apply H). rewrite E. cbn [bind].
    rewrite (p_variable_reads x s H S1 S2). reflexivity.
Qed.
Lemma term_first o s : term_legible o -> exists c t, print_operand o ++ s = c :: t /\ visible c = true /\ (is_alpha c = true \/ is_digit c = true).
Proof.
  destruct o; cbn [term_legible print_operand]; intros H; try contradiction.
  - unfold int_text. replace (Z.ltb k 0) with false by (symmetry; apply Z.ltb_ge; lia). destruct (digits_spec k ltac:(lia)) as (c & ds & E & Hc & _). rewrite E.
    exists c, (ds ++ s). destruct (wordchar_facts c (or_intror Hc)). auto.
  - destruct H as ((c & a & E & Hc & _) & _). unfold print_var, txt. rewrite E. exists c. eexists. cbn. split; [reflexivity|]. destruct (wordchar_facts c (or_introl Hc)). auto.
Qed.
Lemma term_skip o s : term_legible o -> skip (print_operand o ++ s) = print_operand o ++ s.
Proof. intros H. destruct (term_first o s H) as (c & t & -> & V & _). apply skip_visible. right. exact V. Qed.

(** Operands as a first term and a list. *)
Fixpoint o_first (o : operand) : operand := match o with ODiff l _ | OSum l _ => o_first l | _ => o end.
Fixpoint o_rest (o : operand) : list (bool * operand) := match o with ODiff l r => o_rest l ++ [(false, r)] | OSum l r => o_rest l ++ [(true, r)] | _ => [] end.
Definition o_sym (b : bool) : text := if b then txt " + " else txt " - ".
Definition otx (p : bool * operand) : text := o_sym (fst p) ++ print_operand (snd p).
Lemma o_text o : print_operand o = print_operand (o_first o) ++ flat_map otx (o_rest o).
Proof.
  induction o; cbn [o_first o_rest flat_map]; try (rewrite app_nil_r; reflexivity);
  cbn [print_operand]; rewrite flat_map_app; cbn [flat_map]; unfold otx at 2; cbn [o_sym fst snd]; rewrite app_nil_r, IHo1 at 1; rewrite <- !app_assoc; reflexivity.
Qed.
Lemma o_terms o : operand_legible o -> term_legible (o_first o) /\ forall p, In p (o_rest o) -> term_legible (snd p).
Proof.
  induction o as [k|x|l IHl r _|l IHl r _]; cbn [operand_legible o_first o_rest]; intros H; try (split; [exact H|intros p []]);
  (destruct H as [Hl Hr]; destruct (IHl Hl) as [A B]; split; [exact A|]; intros p Hp; apply in_app_iff in Hp; destruct Hp as [Hp|[<-|[]]]; [auto|exact Hr]).
Qed.
Lemma o_fold o : operands (Ok (o_first o)) (map (fun p => (fst p, Ok (snd p))) (o_rest o)) = Ok o.
Proof.
  induction o; cbn [o_first o_rest]; try reflexivity; rewrite map_app; unfold operands in *; rewrite fold_left_app, IHo1; reflexivity.
Qed.
(** The text after an operand. *)
Definition ostop (s : text) : Prop := starts is_name_char s = false /\ starts (Ascii.eqb "-") s = false.
Lemma o_sym_stop b s : ostop (o_sym b ++ s). Proof. destruct b; split; reflexivity. Qed.
Lemma p_diff_reads o s : operand_legible o -> ostop s -> p_qop_term (skip s) = Err -> exists r, p_diff (print_operand o ++ s) = Ok (Ok o, r) /\ skip r = skip s.
Proof.
  intros H S E. destruct (o_terms o H) as [H1 H2]. unfold p_diff. rewrite (o_text o), <- app_assoc.
  assert (ST : forall x s, ostop (otx x ++ s)) by (intros x t; unfold otx; rewrite <- app_assoc; apply o_sym_stop).
  assert (S1 : ostop (flat_map otx (o_rest o) ++ s)) by (destruct (o_rest o) as [|x xs]; [exact S|]; cbn [flat_map]; rewrite <- app_assoc; apply ST).
  rewrite (p_qterm_reads (o_first o) _ H1 (proj1 S1) (proj2 S1)). cbn [bind].
  destruct (many_reads p_qop_term otx (fun p => (fst p, Ok (snd p))) ostop (o_rest o)) with (f := List.length (print_operand (o_first o) ++ flat_map otx (o_rest o) ++ s)) (s := s) (u := flat_map otx (o_rest o) ++ s) as (t & Et & Kt).
  - intros [b x] u Hx [U1 U2]. specialize (H2 _ Hx). cbn [snd] in H2. exists u. split; [|reflexivity]. unfold otx. cbn [fst snd]. rewrite <- app_assoc.
    assert (K : p_qop (skip (o_sym b ++ print_operand x ++ u)) = Ok (b, txt " " ++ print_operand x ++ u)) by (destruct b; reflexivity).
    unfold p_qop_term. rewrite K. cbn [bind txt list_ascii_of_string app skip]. replace (is_blank " ") with true by reflexivity. rewrite (term_skip x u H2), (p_qterm_reads x u H2 U1 U2). reflexivity.
  - intros x u _. apply ST.
  - rewrite !app_length. assert (forall xs, List.length xs <= List.length (flat_map otx xs)).
    { induction xs as [|[b x] xs IH]; [reflexivity|]. cbn [flat_map]. unfold otx at 1. rewrite !app_length. destruct b; cbn [fst o_sym txt list_ascii_of_string List.length]; lia. }
    specialize (H0 (o_rest o)). lia.
  - exact S.
  - exact E.
  - reflexivity.
  - rewrite Et. cbn [bind]. exists t. split; [|exact Kt]. rewrite o_fold. reflexivity.
Qed.

(** The parse tree of a printed state. *)
Fixpoint tree (e : stx) : pair :=
  match e with
  | SCmp o l r => PComp o (Ok l) (Ok r)
  | SAnd l => PAnd (map (fun x => POr [tree x]) l)
  | SOr l => PAnd [POr (map tree l)]
  | SLoc x => PLoc x
  | SNot e' => PNot (PAnd [POr [tree e']])
  | SBool b => PBool b
  end.
Fixpoint ssize (e : stx) : nat :=
  match e with
  | SAnd l | SOr l => S (S (fold_right (fun x n => S (ssize x + n)) 0 l))
  | SNot e' => S (S (ssize e'))
  | _ => 1
  end.
(** The text after a state that is one of the items of a conjunction or disjunction. *)
Definition istop (s : text) : Prop := cstop s /\ ostop s /\ p_qop_term (skip s) = Err /\ p_rel (skip s) = Err /\ lit "." (skip s) = Err.

Lemma rel_reads o l r s : operand_legible l -> operand_legible r -> ostop s -> p_qop_term (skip s) = Err ->
  exists t, (do (a, s1) <- p_diff (print_operand l ++ txt " " ++ rel_text o ++ txt " " ++ print_operand r ++ s); do (c, s2) <- p_rel (skip s1); do (b, s3) <- p_diff (skip s2); Ok (PComp c a b, s3))
    = Ok (PComp o (Ok l) (Ok r), t) /\ skip t = skip s.
Proof.
  intros Hl Hr S E. destruct (p_diff_reads l (txt " " ++ rel_text o ++ txt " " ++ print_operand r ++ s) Hl) as (t & Et & Kt).
  - split; reflexivity.
  - destruct o; reflexivity.
  - rewrite Et. cbn [bind]. rewrite Kt.
    assert (K : p_rel (skip (txt " " ++ rel_text o ++ txt " " ++ print_operand r ++ s)) = Ok (o, txt " " ++ print_operand r ++ s)) by (destruct o; reflexivity).
    rewrite K. cbn [bind]. assert (Sk : skip (txt " " ++ print_operand r ++ s) = print_operand r ++ s).
    { cbn [txt list_ascii_of_string app skip]. replace (is_blank " ") with true by reflexivity. rewrite (o_text r), <- app_assoc. apply term_skip. apply (o_terms r Hr). }
    rewrite Sk. destruct (p_diff_reads r s Hr S E) as (u & Eu & Ku). rewrite Eu. cbn [bind]. exists u. auto.
Qed.

Lemma strip_not n s : good_name n -> no_not n -> starts is_name_char s = false -> lit "not" (txt n ++ s) = Err.
Proof.
  intros (c & a & E & Hc & Ha) Hn S. unfold lit. destruct (strip (txt "not") (txt n ++ s)) as [t|] eqn:Es; [|reflexivity]. exfalso.
  assert (X : exists m, txt n = txt "not" ++ m).
  { unfold txt in *. rewrite E in *. cbn [list_ascii_of_string app strip] in Es.
    destruct (Ascii.eqb "n" c) eqn:E1; [|discriminate]. apply Ascii.eqb_eq in E1. subst c.
    destruct a as [|d a]; cbn [app] in Es.
    - destruct s as [|d s]; [discriminate|]. destruct (Ascii.eqb "o" d) eqn:E2; [|discriminate]. apply Ascii.eqb_eq in E2. subst d. discriminate.
    - destruct (Ascii.eqb "o" d) eqn:E2; [|discriminate]. apply Ascii.eqb_eq in E2. subst d. destruct a as [|d a]; cbn [app] in Es.
      + destruct s as [|d s]; [discriminate|]. destruct (Ascii.eqb "t" d) eqn:E2; [|discriminate]. apply Ascii.eqb_eq in E2. subst d. discriminate.
      + destruct (Ascii.eqb "t" d) eqn:E3; [|discriminate]. apply Ascii.eqb_eq in E3. subst d. exists a. reflexivity. }
  destruct X as (m & X). apply (Hn (string_of_list_ascii m)). rewrite <- (txt_of_txt n), X. reflexivity.
Qed.
Lemma alpha_lits c t : is_alpha c = true -> lit "(" (c :: t) = Err /\ lit "!" (c :: t) = Err.
Proof.
  intros H. unfold lit. cbn [txt list_ascii_of_string strip].
  assert (A : forall c, (negb (is_alpha c) || (negb (Ascii.eqb "(" c) && negb (Ascii.eqb "!" c))) = true) by (apply (fun H => char_fact _ H); vm_compute; reflexivity).
  specialize (A c). rewrite H in A. cbn [negb orb] in A. apply andb_true_iff in A. rewrite !negb_true_iff in A. destruct A as [-> ->]. auto.
Qed.
Lemma digit_lits c t : is_digit c = true -> lit "(" (c :: t) = Err /\ lit "!" (c :: t) = Err /\ lit "not" (c :: t) = Err.
Proof.
  intros H. unfold lit. cbn [txt list_ascii_of_string strip].
  assert (A : forall c, (negb (is_digit c) || (negb (Ascii.eqb "(" c) && negb (Ascii.eqb "!" c) && negb (Ascii.eqb "n" c))) = true) by (apply (fun H => char_fact _ H); vm_compute; reflexivity).
  specialize (A c). rewrite H in A. cbn [negb orb] in A. rewrite !andb_true_iff, !negb_true_iff in A. destruct A as [[-> ->] ->]. auto.
Qed.
(** A term does not look like a parenthesis or a negation. *)
Lemma term_lits o s : term_legible o -> starts is_name_char s = false -> let t := print_operand o ++ s in lit "(" t = Err /\ lit "!" t = Err /\ lit "not" t = Err.
Proof.
  intros H S t. destruct o; cbn [term_legible] in H; try contradiction.
  - unfold t. cbn [print_operand]. unfold int_text. replace (Z.ltb k 0) with false by (symmetry; apply Z.ltb_ge; lia). destruct (digits_spec k ltac:(lia)) as (c & ds & E & Hc & _). rewrite E.
    apply digit_lits. exact Hc.
  - unfold t. cbn [print_operand]. destruct H as (H1 & H2 & H3 & H4). unfold print_var. rewrite <- !app_assoc. set (u := id_text (v_id x) ++ txt "." ++ txt (v_name x) ++ s).
    assert (Su : starts is_name_char u = false) by (unfold u; destruct (v_id x); reflexivity).
    rewrite (strip_not _ u H1 H2 Su). destruct H1 as (c & a & E & Hc & _). unfold txt. rewrite E. cbn [app]. destruct (alpha_lits c (a ++ u) Hc). auto.
Qed.

Lemma p_variable_keyword w s : good_name w -> cstop s -> lit "." (skip s) = Err -> p_variable (txt w ++ s) = Err.
Proof.
  intros Hw S E. unfold p_variable. destruct (p_component_reads w None s Hw I S) as (r & Er & K). cbn [id_text app] in Er. rewrite Er. cbn [bind]. rewrite K, E. reflexivity.
Qed.
Lemma p_diff_keyword w s : good_name w -> cstop s -> lit "." (skip s) = Err -> p_diff (txt w ++ s) = Err.
Proof. intros Hw S E. unfold p_diff, p_qterm, alt. rewrite (name_not_int w s Hw). cbn [bind]. rewrite (p_variable_keyword w s Hw S E). reflexivity. Qed.

Lemma good_word c w : is_alpha c = true -> forallb is_name_char (list_ascii_of_string w) = true -> good_name (String c w).
Proof. intros Hc Hw. exists c, (list_ascii_of_string w). split; [reflexivity|]. split; [exact Hc|]. apply forallb_forall. exact Hw. Qed.

(** Items that are no conjunction. *)
Lemma leaf_reads rec e s : state_legible e -> (match e with SAnd _ | SOr _ => False | _ => True end) -> istop s ->
  exists r, p_sub rec (print_state e ++ s) = Ok (tree e, r) /\ skip r = skip s.
Proof.
  intros H L (SC & SO & SQ & SR & SD). unfold p_sub, alt. destruct e; cbn [state_legible] in H; try contradiction; cbn [print_state tree].
  - destruct H as [Hl Hr]. rewrite <- !app_assoc. set (u := txt " " ++ rel_text o ++ txt " " ++ print_operand r ++ s).
    assert (T : let t := print_operand l ++ u in lit "(" t = Err /\ lit "!" t = Err /\ lit "not" t = Err).
    { rewrite (o_text l), <- app_assoc. apply term_lits; [apply (o_terms l Hl)|]. destruct (o_rest l) as [|[[] y] ys]; reflexivity. }
    cbv zeta in T. destruct T as (-> & -> & ->). cbn [bind]. destruct (rel_reads o l r s Hl Hr SO SQ) as (t & Et & Kt). fold u in Et. rewrite Et. exists t. auto.
  - pose proof (term_lits (OClk x) s H (proj1 SO)) as T. cbv zeta in T. cbn [print_operand] in T. destruct T as (-> & -> & ->). cbn [bind].
    destruct (p_diff_reads (OClk x) s H SO SQ) as (t & Et & Kt). cbn [print_operand] in Et. rewrite Et. cbn [bind]. rewrite Kt, SR. cbn [bind].
    rewrite (p_variable_reads x s H (proj1 SO) (proj2 SO)). cbn [bind]. exists s. auto.
  - destruct b.
    + assert (G : good_name "true") by (apply good_word; reflexivity). replace (lit "(" (txt "true" ++ s)) with (@Err text) by reflexivity. cbn [bind].
      replace (lit "not" (txt "true" ++ s)) with (@Err text) by reflexivity. cbn [bind]. replace (lit "!" (txt "true" ++ s)) with (@Err text) by reflexivity. cbn [bind].
      rewrite (p_diff_keyword _ s G SC SD). cbn [bind]. rewrite (p_variable_keyword _ s G SC SD). cbn [bind]. rewrite lit_app. cbn [bind]. exists s. auto.
    + assert (G : good_name "false") by (apply good_word; reflexivity). replace (lit "(" (txt "false" ++ s)) with (@Err text) by reflexivity. cbn [bind].
      replace (lit "not" (txt "false" ++ s)) with (@Err text) by reflexivity. cbn [bind]. replace (lit "!" (txt "false" ++ s)) with (@Err text) by reflexivity. cbn [bind].
      rewrite (p_diff_keyword _ s G SC SD). cbn [bind]. rewrite (p_variable_keyword _ s G SC SD). cbn [bind].
      replace (lit "true" (txt "false" ++ s)) with (@Err text) by reflexivity. cbn [bind]. rewrite lit_app. cbn [bind]. exists s. auto.
Qed.

Lemma joined_text sep a l : joined sep (a :: l) = a ++ flat_map (fun x => sep ++ x) l.
Proof. revert a. induction l as [|b l IH]; intros a; [cbn; rewrite app_nil_r; reflexivity|]. change (joined sep (a :: b :: l)) with (a ++ sep ++ joined sep (b :: l)). rewrite IH. cbn [flat_map]. rewrite <- app_assoc. reflexivity. Qed.
Lemma state_skip e s : state_legible e -> skip (print_state e ++ s) = print_state e ++ s.
Proof.
  destruct e; cbn [state_legible print_state]; intros H; try contradiction.
  - rewrite (o_text l), <- !app_assoc. apply term_skip. apply o_terms. tauto.
  - apply skip_visible. right. reflexivity.
  - apply skip_visible. right. reflexivity.
  - exact (term_skip (OClk x) s H).
  - apply skip_visible. right. destruct b; reflexivity.
Qed.
Definition or_text (x : stx) : text := txt " || " ++ print_state x.
Definition and_text (x : stx) : text := txt " && " ++ print_state x.
Lemma or_stop x s : istop (or_text x ++ s). Proof. repeat split; reflexivity. Qed.
Lemma and_stop x s : istop (and_text x ++ s) /\ p_word "||" "or" (skip (and_text x ++ s)) = Err. Proof. repeat split; reflexivity. Qed.

Section Items.
  Context (rec : parser pair) (items : list stx).
  Context (Hrec : forall e s, In e items -> istop s -> exists r, p_sub rec (print_state e ++ s) = Ok (tree e, r) /\ skip r = skip s).
  Context (Hleg : forall e, In e items -> state_legible e).
  Lemma p_or_reads f x xs s : incl (x :: xs) items -> List.length xs <= f -> istop s -> p_word "||" "or" (skip s) = Err ->
    exists r, p_or f rec (print_state x ++ flat_map or_text xs ++ s) = Ok (POr (map tree (x :: xs)), r) /\ skip r = skip s.
  Proof.
    intros Hi Hf S E. unfold p_or.
    assert (S1 : istop (flat_map or_text xs ++ s)) by (destruct xs; [exact S|]; cbn [flat_map]; rewrite <- app_assoc; apply or_stop).
    destruct (Hrec x _ (Hi x (or_introl eq_refl)) S1) as (r & Er & Kr). rewrite Er. cbn [bind].
    destruct (many_reads (fun s => do (_, s1) <- p_word "||" "or" s; p_sub rec (skip s1)) or_text tree istop xs) with (f := f) (s := s) (u := r) as (t & Et & Kt).
    - intros y u Hy Su. assert (Iy : In y items) by (apply Hi; right; exact Hy). unfold or_text. rewrite <- app_assoc.
      assert (K : p_word "||" "or" (skip (txt " || " ++ print_state y ++ u)) = Ok (tt, txt " " ++ print_state y ++ u)) by reflexivity. rewrite K. cbn [bind].
      cbn [txt list_ascii_of_string app skip]. replace (is_blank " ") with true by reflexivity. rewrite (state_skip y u (Hleg y Iy)). apply Hrec; assumption.
    - intros y u _. apply or_stop.
    - exact Hf.
    - exact S.
    - rewrite E. reflexivity.
    - exact Kr.
    - rewrite Et. cbn [bind]. exists t. auto.
  Qed.
  Lemma p_and_items f x xs s : rec = p_and f -> incl (x :: xs) items -> List.length xs <= f -> istop s -> p_word "||" "or" (skip s) = Err -> p_word "&&" "and" (skip s) = Err ->
    exists r, p_and (S f) (print_state x ++ flat_map and_text xs ++ s) = Ok (PAnd (map (fun y => POr [tree y]) (x :: xs)), r) /\ skip r = skip s.
  Proof.
    intros Er Hi Hf S E1 E2. cbn [p_and]. rewrite <- Er.
    assert (S1 : istop (flat_map and_text xs ++ s) /\ p_word "||" "or" (skip (flat_map and_text xs ++ s)) = Err)
      by (destruct xs; [auto|]; cbn [flat_map]; rewrite <- app_assoc; apply and_stop). destruct S1 as [S1 S2].
    destruct (p_or_reads f x [] _ (fun y Hy => match Hy with or_introl H => Hi y (or_introl H) | or_intror H => match H with end end) (Nat.le_0_l _) S1 S2) as (r & Ex & Kr).
    cbn [flat_map app map] in Ex. rewrite Ex. cbn [bind].
    destruct (many_reads (fun s => do (_, s1) <- p_word "&&" "and" s; p_or f rec (skip s1)) and_text (fun y => POr [tree y]) (fun s => istop s /\ p_word "||" "or" (skip s) = Err) xs) with (f := f) (s := s) (u := r) as (t & Et & Kt).
    - intros y u Hy [Su Eu]. assert (Iy : In y items) by (apply Hi; right; exact Hy). unfold and_text. rewrite <- app_assoc.
      assert (K : p_word "&&" "and" (skip (txt " && " ++ print_state y ++ u)) = Ok (tt, txt " " ++ print_state y ++ u)) by reflexivity. rewrite K. cbn [bind].
      cbn [txt list_ascii_of_string app skip]. replace (is_blank " ") with true by reflexivity. rewrite (state_skip y u (Hleg y Iy)).
      destruct (p_or_reads f y [] u (fun z Hz => match Hz with or_introl H => eq_ind y (fun z => In z items) Iy z H | or_intror H => match H with end end) (Nat.le_0_l _) Su Eu) as (w & Ew & Kw).
      cbn [flat_map app map] in Ew. exists w. auto.
    - intros y u _. apply and_stop.
    - exact Hf.
    - auto.
    - rewrite E2. reflexivity.
    - exact Kr.
    - rewrite Et. cbn [bind]. exists t. auto.
  Qed.
End Items.

Lemma flat_joined sep l : flat_map (fun x => sep ++ x) (map print_state l) = flat_map (fun x => sep ++ print_state x) l.
Proof. induction l as [|x l IH]; [reflexivity|]. cbn. rewrite IH. reflexivity. Qed.
Lemma all_legible l : fold_right (fun x P => state_legible x /\ P) True l <-> forall e, In e l -> state_legible e.
Proof. induction l as [|x l IH]; cbn; [split; [intros _ e []|auto]|]. rewrite IH. split; [intros [A B] e [<-|H]; auto|auto]. Qed.
Lemma size_item l : forall e, In e l -> ssize e < fold_right (fun x n => S (ssize x + n)) 0 l.
Proof. induction l as [|x l IH]; cbn; intros e H; [contradiction|]. destruct H as [<-|H]; [lia|specialize (IH e H); lia]. Qed.
Lemma size_length l : List.length l <= fold_right (fun x n => S (ssize x + n)) 0 l.
Proof. induction l as [|x l IH]; cbn; lia. Qed.

Lemma sub_reads f : forall e s, state_legible e -> ssize e <= f -> istop s -> exists r, p_sub (p_and f) (print_state e ++ s) = Ok (tree e, r) /\ skip r = skip s.
Proof.
  induction f as [|f IH]; intros e s H Hf S; [destruct e; cbn in Hf; lia|]. destruct e as [o l r|l|l|x|e|b]; try (apply leaf_reads; [exact H|exact I|exact S]).
  - cbn [state_legible] in H. destruct H as [Hl Ha]. rewrite all_legible in Ha. destruct l as [|x l]; [cbn in Hl; lia|]. cbn [ssize] in Hf.
    set (n := fold_right (fun x n => Datatypes.S (ssize x + n)) 0 (x :: l)) in Hf. assert (Hn : n <= f) by lia. clear Hf.
    assert (R : forall e u, In e (x :: l) -> istop u -> exists r, p_sub (p_and f) (print_state e ++ u) = Ok (tree e, r) /\ skip r = skip u).
    { intros e u He Su. apply IH; [apply Ha; exact He| |exact Su]. pose proof (size_item (x :: l) e He). fold n in H. lia. }
    destruct (p_and_items (p_and f) (x :: l) R Ha f x l (txt ")" ++ s) eq_refl (fun y Hy => Hy)) as (t & Et & Kt).
    + pose proof (size_length (x :: l)). fold n in H. cbn [List.length] in H. lia.
    + repeat split; reflexivity.
    + reflexivity.
    + reflexivity.
    + unfold p_sub, alt. cbn [print_state map]. rewrite joined_text, flat_joined, <- !app_assoc, lit_app. cbn [bind]. fold and_text in Et.
      change (flat_map (fun x0 : stx => txt " && " ++ print_state x0) l) with (flat_map and_text l). rewrite (state_skip x _ (Ha x (or_introl eq_refl))), Et. cbn [bind]. rewrite Kt.
      rewrite skip_visible by (right; reflexivity). rewrite lit_app. cbn [bind]. exists s. auto.
  - cbn [state_legible] in H. destruct H as [Hl Ha]. rewrite all_legible in Ha. destruct l as [|x l]; [cbn in Hl; lia|]. cbn [ssize] in Hf.
    set (n := fold_right (fun x n => Datatypes.S (ssize x + n)) 0 (x :: l)) in Hf. assert (Hn : n <= f) by lia. clear Hf.
    assert (R : forall e u, In e (x :: l) -> istop u -> exists r, p_sub (p_and f) (print_state e ++ u) = Ok (tree e, r) /\ skip r = skip u).
    { intros e u He Su. apply IH; [apply Ha; exact He| |exact Su]. pose proof (size_item (x :: l) e He). fold n in H. lia. }
    destruct (p_or_reads (p_and f) (x :: l) R Ha f x l (txt ")" ++ s) (fun y Hy => Hy)) as (t & Et & Kt).
    + pose proof (size_length (x :: l)). fold n in H. cbn [List.length] in H. lia.
    + repeat split; reflexivity.
    + reflexivity.
    + assert (E : exists u, p_and (Datatypes.S f) (print_state x ++ flat_map or_text l ++ txt ")" ++ s) = Ok (PAnd [POr (map tree (x :: l))], u) /\ skip u = txt ")" ++ s).
      { cbn [p_and]. rewrite Et. cbn [bind]. rewrite Kt. exists (txt ")" ++ s). split; reflexivity. }
      destruct E as (u & Eu & Ku).
      unfold p_sub, alt. cbn [print_state map]. rewrite joined_text, flat_joined, <- !app_assoc, lit_app. cbn [bind].
      change (flat_map (fun x0 : stx => txt " || " ++ print_state x0) l) with (flat_map or_text l). rewrite (state_skip x _ (Ha x (or_introl eq_refl))), Eu. cbn [bind]. rewrite Ku.
      rewrite lit_app. cbn [bind]. exists s. auto.
Qed.

Lemma operand_nonempty o : operand_legible o -> 1 <= List.length (print_operand o).
Proof. intros H. rewrite o_text, app_length. destruct (term_first (o_first o) [] (proj1 (o_terms o H))) as (c & t & E & _). rewrite app_nil_r in E. rewrite E. cbn. lia. Qed.
Lemma ssize_length e : state_legible e -> ssize e <= List.length (print_state e).
Proof.
  assert (X : forall n e, ssize e <= n -> state_legible e -> ssize e <= List.length (print_state e)).
  { induction n as [|n IH]; intros e0 Hn H; [destruct e0; cbn in Hn; lia|].
    assert (L : forall sep x l, List.length sep = 4 -> 2 <= List.length (x :: l) -> (forall e, In e (x :: l) -> state_legible e) -> S (S (fold_right (fun x n => S (ssize x + n)) 0 (x :: l))) <= S n ->
      S (S (fold_right (fun x n => S (ssize x + n)) 0 (x :: l))) <= List.length (txt "(" ++ joined sep (map print_state (x :: l)) ++ txt ")")).
    { intros sep x l Hs Hl Ha Hm. cbn [map]. rewrite joined_text, flat_joined, !app_length.
      replace (List.length (txt "(")) with 1 by reflexivity. replace (List.length (txt ")")) with 1 by reflexivity.
      assert (Y : forall ys, incl ys (x :: l) -> fold_right (fun x n => S (ssize x + n)) 0 ys + List.length ys <= List.length (flat_map (fun x => sep ++ print_state x) ys)).
      { induction ys as [|y ys IHy]; intros Hi; [reflexivity|]. cbn [fold_right flat_map List.length]. rewrite !app_length, Hs.
        assert (I1 : In y (x :: l)) by (apply Hi; left; reflexivity). pose proof (size_item _ y I1). specialize (IH y ltac:(lia) (Ha y I1)).
        specialize (IHy (fun z Hz => Hi z (or_intror Hz))). lia. }
      specialize (Y l (fun z Hz => or_intror Hz)). assert (I1 : In x (x :: l)) by (left; reflexivity). pose proof (size_item _ x I1). specialize (IH x ltac:(lia) (Ha x I1)).
      cbn [fold_right]. cbn [List.length] in Hl. lia. }
    destruct e0 as [o l r|l|l|x|e0|b]; cbn [state_legible] in H; try contradiction; cbn [ssize print_state].
    - rewrite app_length. pose proof (operand_nonempty l (proj1 H)). lia.
    - destruct H as [Hl Ha]. rewrite all_legible in Ha. destruct l as [|x l]; [cbn in Hl; lia|]. apply L; [reflexivity|exact Hl|exact Ha|exact Hn].
    - destruct H as [Hl Ha]. rewrite all_legible in Ha. destruct l as [|x l]; [cbn in Hl; lia|]. apply L; [reflexivity|exact Hl|exact Ha|exact Hn].
    - exact (operand_nonempty (OClk x) H).
    - destruct b; cbn; lia. }
  intros H. exact (X _ e (le_n _) H).
Qed.

(** The text after a whole state. *)
Definition ststop (s : text) : Prop := istop s /\ p_word "||" "or" (skip s) = Err /\ p_word "&&" "and" (skip s) = Err.
Theorem state_reads e s : state_legible e -> ststop s -> exists r, state_text (print_state e ++ s) = Ok (PAnd [POr [tree e]], r) /\ skip r = skip s.
Proof.
  intros H (S & E1 & E2). unfold state_text. set (n := List.length (print_state e ++ s)).
  assert (R : forall x u, In x [e] -> istop u -> exists r, p_sub (p_and n) (print_state x ++ u) = Ok (tree x, r) /\ skip r = skip u).
  { intros x u [<-|[]] Su. apply sub_reads; [exact H| |exact Su]. unfold n. rewrite app_length. pose proof (ssize_length e H). lia. }
  destruct (p_and_items (p_and n) [e] R ltac:(intros x [<-|[]]; exact H) n e [] s eq_refl (fun y Hy => Hy) (Nat.le_0_l _) S E1 E2) as (t & Et & Kt).
  cbn [flat_map app map] in Et. exists t. auto.
Qed.
Lemma each_mapM {A} (f : pair -> res A) l : each f l = mapM f l.
Proof. induction l as [|x l IH]; [reflexivity|]. cbn [each mapM]. rewrite <- IH. reflexivity. Qed.
Lemma each_all {A} (f : pair -> res A) (g : stx -> pair) (ok : stx -> bool) (v : stx -> A) l :
  (forall x, In x l -> f (g x) = if ok x then Ok (v x) else Panic) -> each f (map g l) = if forallb ok l then Ok (map v l) else Panic.
Proof.
  induction l as [|x l IH]; intros H; [reflexivity|]. cbn [map each forallb]. rewrite (H x (or_introl eq_refl)). fold (each f). rewrite IH by (intros y Hy; apply H; right; exact Hy).
  destruct (ok x); [|reflexivity]. cbn. destruct (forallb ok l); reflexivity.
Qed.
Lemma primary_tree e : state_legible e -> primary (tree e) = if no_or e then Ok e else Panic.
Proof.
  assert (X : forall n e, ssize e <= n -> state_legible e -> primary (tree e) = if no_or e then Ok e else Panic).
  { induction n as [|n IH]; intros e0 Hn H; [destruct e0; cbn in Hn; lia|]. destruct e0 as [o l r|l|l|x|e0|b]; cbn [state_legible] in H; try contradiction; try reflexivity.
    - destruct H as [Hl Ha]. rewrite all_legible in Ha. cbn [tree no_or].
      pose proof (each_all (fun x => only_child primary x) (fun x => POr [tree x]) no_or (fun x => x) l) as E. rewrite map_id in E.
      destruct l as [|x [|y l]]; cbn in Hl; try lia. cbn [map primary]. cbn [map] in E. rewrite E.
      + destruct (forallb no_or (x :: y :: l)); reflexivity.
      + intros z Hz. cbn [only_child]. apply IH; [cbn [ssize] in Hn; pose proof (size_item _ z Hz); lia|apply Ha; exact Hz].
    - destruct H as [Hl Ha]. destruct l as [|x [|y l]]; cbn in Hl; try lia. reflexivity. }
  intros H. exact (X _ e (le_n _) H).
Qed.
Lemma primary_state e : state_legible e -> primary (PAnd [POr [tree e]]) = if no_or e then Ok e else Panic.
Proof. intros H. cbn [primary only_child]. apply primary_tree. exact H. Qed.
Theorem state_reload e : state_legible e -> parse_to_state_expr (print_state e) = if no_or e then Ok e else Panic.
Proof.
  intros H. unfold parse_to_state_expr. destruct (state_reads e [] H) as (r & E & _); [repeat split; reflexivity|]. rewrite app_nil_r in E. rewrite E. cbn [bind].
  apply primary_state. exact H.
Qed.


(** A negation is evaluated one level too deep. *)
Lemma too_deep e : state_legible e -> only_child primary (tree e) = Panic.
Proof.
  assert (X : forall n e, ssize e <= n -> state_legible e -> only_child primary (tree e) = Panic).
  { induction n as [|n IH]; intros e0 Hn H; [destruct e0; cbn in Hn; lia|]. destruct e0 as [o l r|l|l|x|e0|b]; cbn [state_legible] in H; try contradiction; try reflexivity.
    - destruct H as [Hl Ha]. destruct l as [|x [|y l]]; cbn in Hl; try lia. reflexivity.
    - destruct H as [Hl Ha]. destruct l as [|x [|y l]]; cbn in Hl; try lia. cbn [tree map only_child primary each]. rewrite (IH x); [reflexivity| |apply Ha].
      cbn [ssize fold_right] in Hn. lia. }
  intros H. exact (X _ e (le_n _) H).
Qed.
Theorem negation_aborts e : state_legible e -> parse_to_state_expr (print_state (SNot e)) = Panic.
Proof.
  intros H. unfold parse_to_state_expr, state_text. cbn [print_state]. set (m := S (List.length (print_state e))).
  replace (List.length (txt "!(" ++ print_state e ++ txt ")")) with (S (S m)) by (unfold m; rewrite !app_length; cbn; lia).
  assert (R : forall x u, In x [e] -> istop u -> exists r, p_sub (p_and m) (print_state x ++ u) = Ok (tree x, r) /\ skip r = skip u).
  { intros x u [<-|[]] Su. apply sub_reads; [exact H| |exact Su]. pose proof (ssize_length e H). unfold m. lia. }
  destruct (p_and_items (p_and m) [e] R ltac:(intros x [<-|[]]; exact H) m e [] (txt ")") eq_refl (fun y Hy => Hy) (Nat.le_0_l _)) as (t & Et & Kt); [repeat split; reflexivity|reflexivity|reflexivity|].
  cbn [flat_map app map] in Et.
  assert (E1 : p_sub (p_and (S m)) (txt "(" ++ print_state e ++ txt ")") = Ok (PAnd [POr [tree e]], [])).
  { unfold p_sub, alt. rewrite lit_app. cbn [bind]. rewrite (state_skip e _ H), Et. cbn [bind]. rewrite Kt. reflexivity. }
  assert (E2 : p_and (S (S m)) (txt "(" ++ print_state e ++ txt ")") = Ok (PAnd [POr [PAnd [POr [tree e]]]], [])).
  { change (p_and (S (S m))) with (fun s => do (x, s1) <- p_or (S m) (p_and (S m)) s; do (xs, s2) <- many (S m) (fun s => do (_, s1) <- p_word "&&" "and" s; p_or (S m) (p_and (S m)) (skip s1)) (skip s1); Ok (PAnd (x :: xs), s2)).
    cbv beta. unfold p_or at 1. rewrite E1. reflexivity. }
  assert (E3 : p_sub (p_and (S (S m))) (txt "!(" ++ print_state e ++ txt ")") = Ok (PNot (PAnd [POr [PAnd [POr [tree e]]]]), [])).
  { unfold p_sub, alt. replace (lit "(" (txt "!(" ++ print_state e ++ txt ")")) with (@Err text) by reflexivity. cbn [bind].
    replace (lit "not" (txt "!(" ++ print_state e ++ txt ")")) with (@Err text) by reflexivity. cbn [bind].
    replace (lit "!" (txt "!(" ++ print_state e ++ txt ")")) with (Ok (txt "(" ++ print_state e ++ txt ")")) by reflexivity. cbn [bind snd].
    rewrite skip_visible by (right; reflexivity). rewrite E2. reflexivity. }
  assert (E4 : forall f, p_sub (p_and f) (txt "!(" ++ print_state e ++ txt ")") = Ok (PNot (PAnd [POr [PAnd [POr [tree e]]]]), []) -> p_and (S f) (txt "!(" ++ print_state e ++ txt ")") = Ok (PAnd [POr [PNot (PAnd [POr [PAnd [POr [tree e]]]])]], [])).
  { intros f Ef. cbn [p_and]. unfold p_or at 1. rewrite Ef. reflexivity. }
  rewrite (E4 _ E3). cbn [bind primary only_child]. rewrite (too_deep e H). reflexivity.
Qed.

(** ** Queries *)
Lemma after_colon (w : string) e s : sys_legible e -> skip (txt " " ++ print_sys e ++ s) = print_sys e ++ s.
Proof. intros H. cbn [txt list_ascii_of_string app skip]. replace (is_blank " ") with true by reflexivity. apply print_skip. exact H. Qed.
Lemma p_one_reads w mk e s : sys_legible e -> sstop s -> exists r, p_one w mk (txt w ++ txt " " ++ print_sys e ++ s) = Ok (Ok (mk e), r) /\ skip r = skip s.
Proof.
  intros H S. unfold p_one. rewrite lit_app. cbn [bind]. rewrite (after_colon w e s H). destruct (sys_reads e s H S) as (r & E & K). rewrite E. cbn [bind]. exists r. auto.
Qed.
(** The text after a query: the end, or the next query. *)
Definition qstop (s : text) : Prop := sstop s /\ ststop s /\ lit "save-as" (skip s) = Err.
Lemma p_save_reads w mk e s : sys_legible e -> qstop s -> exists r, p_save w mk (txt w ++ txt " " ++ print_sys e ++ s) = Ok (Ok (mk e None), r) /\ skip r = skip s.
Proof.
  intros H (S & _ & E). unfold p_save. rewrite lit_app. cbn [bind]. rewrite (after_colon w e s H). destruct (sys_reads e s H S) as (r & Er & K). rewrite Er. cbn [bind]. rewrite K.
  unfold popt. rewrite E. cbn [bind]. exists (skip s). split; [reflexivity|apply skip_idem].
Qed.
Lemma p_refinement_reads l r s : sys_legible l -> sys_legible r -> sstop s ->
  exists t, p_refinement (txt "refinement:" ++ txt " " ++ print_sys l ++ txt " <= " ++ print_sys r ++ s) = Ok (Ok (QRefinement l r), t) /\ skip t = skip s.
Proof.
  intros Hl Hr S. unfold p_refinement. rewrite lit_app. cbn [bind]. rewrite (after_colon "" l _ Hl). destruct (sys_reads l (txt " <= " ++ print_sys r ++ s) Hl) as (t & Et & Kt); [repeat split; reflexivity|].
  rewrite Et. cbn [bind]. rewrite Kt. replace (lit "<=" (skip (txt " <= " ++ print_sys r ++ s))) with (Ok (txt " " ++ print_sys r ++ s)) by reflexivity. cbn [bind].
  rewrite (after_colon "" r s Hr). destruct (sys_reads r s Hr S) as (u & Eu & Ku). rewrite Eu. cbn [bind]. exists u. auto.
Qed.
Lemma p_reachability_reads e from to s : sys_legible e -> (forall f, from = Some f -> state_legible f /\ no_or f = true) -> state_legible to -> no_or to = true -> ststop s ->
  exists t, p_reachability (txt "reachability:" ++ txt " " ++ print_sys e ++ txt " @ " ++ (match from with Some f => print_state f | None => txt "init" end) ++ txt " -> " ++ print_state to ++ s)
    = Ok (Ok (QReachability e from to), t) /\ skip t = skip s.
Proof.
  intros He Hf Ht Nt S. unfold p_reachability. rewrite lit_app. cbn [bind]. rewrite (after_colon "" e _ He). set (rest := txt " -> " ++ print_state to ++ s).
  destruct (sys_reads e (txt " @ " ++ (match from with Some f => print_state f | None => txt "init" end) ++ rest) He) as (t & Et & Kt); [repeat split; reflexivity|]. rewrite Et. cbn [bind]. rewrite Kt.
  replace (lit "@" (skip (txt " @ " ++ (match from with Some f => print_state f | None => txt "init" end) ++ rest))) with (Ok (txt " " ++ (match from with Some f => print_state f | None => txt "init" end) ++ rest)) by reflexivity. cbn [bind].
  assert (SR : ststop rest) by (repeat split; reflexivity).
  assert (F : exists u, alt (fun s => do (p, s') <- state_text s; Ok (Some p, s')) (fun s => do s' <- lit "init" s; Ok (None, s')) (skip (txt " " ++ (match from with Some f => print_state f | None => txt "init" end) ++ rest))
     = Ok ((match from with Some f => Some (PAnd [POr [tree f]]) | None => None end), u) /\ skip u = skip rest).
  { cbn [txt list_ascii_of_string app skip]. replace (is_blank " ") with true by reflexivity. unfold alt. destruct from as [f|].
    - destruct (Hf f eq_refl) as [Lf _]. rewrite (state_skip f _ Lf). destruct (state_reads f rest Lf SR) as (u & Eu & Ku). rewrite Eu. cbn [bind]. exists u. auto.
    - rewrite skip_visible by (right; reflexivity). cbn [app]. change ("i" :: "n" :: "i" :: "t" :: rest)%char with (txt "init" ++ rest).
      assert (G : good_name "init") by (apply good_word; reflexivity). destruct SR as ((SC & _ & _ & _ & SD) & _).
      assert (X : state_text (txt "init" ++ rest) = Err).
      { unfold state_text. cbn [p_and]. unfold p_or, p_sub, alt. replace (lit "(" (txt "init" ++ rest)) with (@Err text) by reflexivity. replace (lit "not" (txt "init" ++ rest)) with (@Err text) by reflexivity.
        replace (lit "!" (txt "init" ++ rest)) with (@Err text) by reflexivity. cbn [bind]. rewrite (p_diff_keyword _ _ G SC SD), (p_variable_keyword _ _ G SC SD). reflexivity. }
      rewrite X. cbn [bind]. rewrite lit_app. cbn [bind]. exists rest. auto. }
  destruct F as (u & Eu & Ku). rewrite Eu. cbn [bind]. rewrite Ku. unfold rest. replace (lit "->" (skip (txt " -> " ++ print_state to ++ s))) with (Ok (txt " " ++ print_state to ++ s)) by reflexivity. cbn [bind].
  cbn [txt list_ascii_of_string app skip]. replace (is_blank " ") with true by reflexivity. rewrite (state_skip to s Ht). destruct (state_reads to s Ht S) as (w & Ew & Kw). rewrite Ew. cbn [bind].
  exists w. split; [|exact Kw]. rewrite (primary_state to Ht), Nt. cbn [bind]. destruct from as [f|]; [|reflexivity]. destruct (Hf f eq_refl) as [Lf Nf]. rewrite (primary_state f Lf), Nf. reflexivity.
Qed.
Lemma p_query_reads q s : query_legible q -> qstop s -> exists r, p_query (print_query q ++ s) = Ok (Ok q, r) /\ skip r = skip s.
Proof.
  intros H Q. pose proof Q as (SS & ST & SV). unfold p_query.
  assert (A : forall (p p' : parser (res query)) t, p t = Err -> alt p p' t = p' t) by (intros p p' t E; unfold alt; rewrite E; reflexivity).
  assert (B : forall (p p' : parser (res query)) t x, p t = Ok x -> alt p p' t = Ok x) by (intros p p' t x E; unfold alt; rewrite E; reflexivity).
  destruct q as [l r|e|e from to|e|e|e|e n|e n|e n]; cbn [query_legible print_query] in *; rewrite <- ?app_assoc.
  - destruct H as [Hl Hr]. destruct (p_refinement_reads l r s Hl Hr SS) as (t & Et & Kt). exists t. split; [|exact Kt]. apply B. exact Et.
  - destruct (p_one_reads "consistency:" QConsistency e s H SS) as (t & Et & Kt). exists t. split; [|exact Kt]. rewrite A by reflexivity. apply B. exact Et.
  - destruct H as (He & Hf & Ht & Nt). destruct (p_reachability_reads e from to s He Hf Ht Nt ST) as (t & Et & Kt). exists t. split; [|exact Kt]. do 2 (rewrite A by reflexivity). apply B. exact Et.
  - destruct (p_one_reads "implementation:" QImplementation e s H SS) as (t & Et & Kt). exists t. split; [|exact Kt]. do 3 (rewrite A by reflexivity). apply B. exact Et.
  - destruct (p_one_reads "determinism:" QDeterminism e s H SS) as (t & Et & Kt). exists t. split; [|exact Kt]. do 4 (rewrite A by reflexivity). apply B. exact Et.
  - destruct (p_one_reads "specification:" QSpecification e s H SS) as (t & Et & Kt). exists t. split; [|exact Kt]. do 5 (rewrite A by reflexivity). apply B. exact Et.
  - destruct H as [He ->]. destruct (p_save_reads "get-component:" QGetComponent e s He Q) as (t & Et & Kt). exists t. split; [|exact Kt]. do 6 (rewrite A by reflexivity). apply B. exact Et.
  - destruct H as [He ->]. destruct (p_save_reads "prune:" QPrune e s He Q) as (t & Et & Kt). exists t. split; [|exact Kt]. do 7 (rewrite A by reflexivity). apply B. exact Et.
  - destruct H as [He ->]. destruct (p_save_reads "bisim-minim:" QBisim e s He Q) as (t & Et & Kt). exists t. split; [|exact Kt]. do 8 (rewrite A by reflexivity). exact Et.
Qed.
Lemma query_skip q s : skip (print_query q ++ s) = print_query q ++ s.
Proof. apply skip_visible. right. destruct q; reflexivity. Qed.
Definition semi (q : query) : text := txt "; " ++ print_query q.
Theorem queries_reload q qs : (forall x, In x (q :: qs) -> query_legible x) -> parse_queries (joined (txt "; ") (map print_query (q :: qs))) = Ok (q :: qs).
Proof.
  intros H. cbn [map]. rewrite joined_text. unfold parse_queries.
  assert (FJ : flat_map (fun x => txt "; " ++ x) (map print_query qs) = flat_map semi qs) by (clear; induction qs as [|y ys IH]; [reflexivity|]; cbn [map flat_map]; rewrite IH; reflexivity).
  rewrite FJ. clear FJ. rewrite query_skip.
  assert (ST : forall x s, qstop (semi x ++ s)) by (intros; repeat split; reflexivity).
  assert (S1 : qstop (flat_map semi qs)) by (destruct qs; [repeat split; reflexivity|]; cbn [flat_map]; apply ST).
  destruct (p_query_reads q _ (H q (or_introl eq_refl)) S1) as (r & Er & Kr). rewrite Er. cbn [bind].
  destruct (many_reads (fun s => do s1 <- lit ";" s; p_query (skip s1)) semi (fun q => Ok q) qstop qs) with (f := List.length (print_query q ++ flat_map semi qs)) (s := @nil ascii) (u := r) as (t & Et & Kt).
  - intros x s Hx S. unfold semi. rewrite <- app_assoc. replace (lit ";" (skip (txt "; " ++ print_query x ++ s))) with (Ok (txt " " ++ print_query x ++ s)) by reflexivity. cbn [bind].
    cbn [txt list_ascii_of_string app skip]. replace (is_blank " ") with true by reflexivity. rewrite query_skip. apply p_query_reads; [apply H; right; exact Hx|exact S].
  - intros x s _. apply ST.
  - rewrite app_length. assert (forall ys : list query, List.length ys <= List.length (flat_map semi ys)).
    { induction ys as [|y ys IH]; [reflexivity|]. cbn [flat_map List.length]. unfold semi at 1. rewrite !app_length. change (List.length (txt "; ")) with 2. lia. }
    specialize (H0 qs). lia.
  - repeat split; reflexivity.
  - reflexivity.
  - rewrite app_nil_r. exact Kr.
  - rewrite Et. cbn [bind]. rewrite Kt. cbn [skip mapM bind]. replace (mapM (fun r => r) (map (fun q => Ok q) qs)) with (Ok qs); [reflexivity|].
    clear. induction qs as [|y ys IH]; [reflexivity|]. cbn. rewrite <- IH. reflexivity.
Qed.
