(** C23: guards and updates are read as meant however they are written. *)
From Coq Require Import List String Ascii ZArith Bool Arith Lia.
From Verif Require Import Fed.Zone Model.Base Model.Expr Model.Guard Model.Peg Model.ParseEdge Spec.TextSpec Spec.SpacingSpec Spec.WrittenSpec
  Proofs.GuardFacts Proofs.PegFacts Proofs.ParseFacts Props.Spacing Proofs.OpFacts.
Import ListNotations.
Local Open Scope nat_scope.
Local Open Scope list_scope.

(** ** Arithmetic *)
Definition wstop (s : text) : Prop := starts is_name_char s = false.
Definition asgn (o : aop * text) : Prop := exists w c w', snd o = w ++ txt c ++ w' /\ blank w /\ blank w' /\ In (fst o, c) [(OAdd, "+"); (OSub, "-"); (OMul, "*"); (ODiv, "/"); (OMod, "%")]%string.
Lemma asgn_facts o s : asgn o -> wstop (snd o ++ s) /\ exists t, p_aop (skip (snd o ++ s)) = Ok (fst o, t) /\ skip t = skip s.
Proof.
  intros (w & c & w' & E & B & B' & H). rewrite E, <- !app_assoc. rewrite (blank_skip _ _ B).
  assert (X : wstop (txt c ++ w' ++ s) /\ p_aop (skip (txt c ++ w' ++ s)) = Ok (fst o, w' ++ s)).
  { destruct o as [o q]. cbn [fst] in *. destruct H as [H|[H|[H|[H|[H|[]]]]]]; injection H as <- <-; (split; [reflexivity|reflexivity]). }
  destruct X as [X1 X2]. split; [apply blank_names; assumption|]. exists (w' ++ s). split; [exact X2|apply blank_skip; exact B'].
Qed.
Definition aterm (f : nat) : parser (res arith) := p_term (p_arith f).
Lemma arith_S f s : p_arith (S f) s = do (x, s1) <- aterm f s; do (xs, s2) <- many f (fun s => do (o, s1) <- p_aop s; do (t, s2) <- aterm f (skip s1); Ok (o, t, s2)) (skip s1); Ok (pratt_res aop_prec aop_mk x xs, s2).
Proof. reflexivity. Qed.
Definition aparts := parts aop_prec aop_mk wstop asgn aterm.
Lemma aparts_reads k t e f s : aparts k t e -> List.length t <= f -> astop s -> skip (t ++ s) = t ++ s /\ exists r, p_arith (S f) (t ++ s) = Ok (Ok e, r) /\ skip r = skip s.
Proof. intros P F [A B]. exact (parts_reads aop_prec aop_mk aop_prec_pos p_aop wstop asgn asgn_facts aterm p_arith arith_S k t e f s P F A B). Qed.
Lemma leaf_skip a s : is_leaf a -> a_legible a -> skip (encode_arith a ++ s) = encode_arith a ++ s /\ 0 < List.length (encode_arith a).
Proof.
  intros L H. destruct (leaf_starts a L H) as (c & t & E & Hc). rewrite E. split; [|cbn; lia]. apply skip_visible. right. apply (wordchar_facts c Hc).
Qed.
Lemma leaf_parts k a : is_leaf a -> a_legible a -> aparts k (encode_arith a) a.
Proof.
  intros L H. destruct (leaf_skip a [] L H) as [_ N]. apply parts_leaf; [exact N|]. intros f _ s S. cbn [fst snd]. split; [apply leaf_skip; assumption|]. exists s. split; [|reflexivity]. apply p_term_leaf; assumption.
Qed.
Lemma arith_parts k t e : arith_written k t e -> aparts k t e.
Proof.
  induction 1 as [k n H|k x H|k w t w' e B B' W IH|k p c mk tl w w' tr l r Hc Hk B B' Wl IHl Wr IHr].
  - exact (leaf_parts k (AInt n) I H).
  - exact (leaf_parts k (AVar x) I (proj2 (C23_names x) H)).
  - apply parts_leaf; [rewrite app_length; cbn; lia|]. intros f Hf s S. cbn [fst snd]. rewrite <- !app_assoc. split; [apply skip_visible; right; reflexivity|].
    rewrite !app_length in Hf. change (List.length (txt "(")) with 1 in Hf. destruct f as [|f]; [lia|].
    unfold aterm, p_term, alt. rewrite lit_app. cbn [bind]. rewrite (blank_skip _ _ B).
    destruct (aparts_reads 1 t e f (w' ++ txt ")" ++ s) IH ltac:(lia)) as (K & r & E & Kr); [apply astop_blank; [exact B'|split; reflexivity]|].
    rewrite K, E. cbn [bind]. rewrite Kr, (blank_skip _ _ B'), skip_visible by (right; reflexivity). rewrite lit_app. cbn [bind]. exists s. auto.
  - assert (Q : tl ++ w ++ txt c ++ w' ++ tr = tl ++ (w ++ txt c ++ w') ++ tr) by (rewrite <- !app_assoc; reflexivity). rewrite Q.
    assert (G : forall o, In (o, c) [(OAdd, "+"); (OSub, "-"); (OMul, "*"); (ODiv, "/"); (OMod, "%")]%string -> asgn (o, w ++ txt c ++ w')) by (intros o Ho; exists w, c, w'; auto).
    destruct Hc as [Hc|[Hc|[Hc|[Hc|[Hc|[]]]]]]; injection Hc as <- <- <-;
    [refine (parts_node aop_prec aop_mk wstop asgn aterm k OAdd l r tl tr _ Hk _ IHl IHr)|refine (parts_node aop_prec aop_mk wstop asgn aterm k OSub l r tl tr _ Hk _ IHl IHr)
    |refine (parts_node aop_prec aop_mk wstop asgn aterm k OMul l r tl tr _ Hk _ IHl IHr)|refine (parts_node aop_prec aop_mk wstop asgn aterm k ODiv l r tl tr _ Hk _ IHl IHr)
    |refine (parts_node aop_prec aop_mk wstop asgn aterm k OMod l r tl tr _ Hk _ IHl IHr)]; apply G; cbn; auto 10.
Qed.
Lemma arith_written_reads k t e s : arith_written k t e -> astop s -> skip (t ++ s) = t ++ s /\ exists r, arith_text (t ++ s) = Ok (Ok e, r) /\ skip r = skip s.
Proof. intros W S. unfold arith_text. apply (aparts_reads k); [apply arith_parts; exact W|rewrite app_length; lia|exact S]. Qed.
Lemma arith_starts k t e s : arith_written k t e -> starts (Ascii.eqb "=") (t ++ s) = false.
Proof.
  intros W. revert s. induction W as [k n H|k x H|k w t w' e B B' W IH|k p c mk tl w w' tr l r Hc Hk B B' Wl IHl Wr IHr]; intros s.
  - destruct (encode_starts (AInt n) H) as (c & t & E & _ & _ & Q). cbn [encode_arith] in E. rewrite E. exact Q.
  - destruct (encode_starts (AVar x) (proj2 (C23_names x) H)) as (c & t & E & _ & _ & Q). cbn [encode_arith] in E. rewrite E. exact Q.
  - reflexivity.
  - rewrite <- app_assoc. apply IHl.
Qed.

(** ** Guards *)
Definition bsgn (o : bop * text) : Prop := exists w c w', snd o = w ++ txt c ++ w' /\ blank w /\ blank w' /\ In (fst o, c) [(OAnd, "&&"); (OOr, "||")]%string.
Lemma tstop_blank w s : blank w -> tstop s -> tstop (w ++ s).
Proof. intros B [A C]. split; [apply astop_blank; assumption|]. rewrite (blank_skip w s B). exact C. Qed.
Lemma bsgn_facts o s : bsgn o -> tstop (snd o ++ s) /\ exists t, p_bop (skip (snd o ++ s)) = Ok (fst o, t) /\ skip t = skip s.
Proof.
  intros (w & c & w' & E & B & B' & H). rewrite E, <- !app_assoc. rewrite (blank_skip _ _ B).
  assert (X : tstop (txt c ++ w' ++ s) /\ p_bop (skip (txt c ++ w' ++ s)) = Ok (fst o, w' ++ s)).
  { destruct o as [o q]. cbn [fst] in *. destruct H as [H|[H|[]]]; injection H as <- <-; (split; [repeat split; reflexivity|reflexivity]). }
  destruct X as [X1 X2]. split; [apply tstop_blank; assumption|]. exists (w' ++ s). split; [exact X2|apply blank_skip; exact B'].
Qed.
Definition bterm (f : nat) : parser (res bexpr) := p_bterm (p_bool f).
Lemma bool_S f s : p_bool (S f) s = do (x, s1) <- bterm f s; do (xs, s2) <- many f (fun s => do (o, s1) <- p_bop s; do (t, s2) <- bterm f (skip s1); Ok (o, t, s2)) (skip s1); Ok (pratt_res bop_prec bop_mk x xs, s2).
Proof. reflexivity. Qed.
Definition bparts := parts bop_prec bop_mk tstop bsgn bterm.
Lemma bparts_reads k t e f s : bparts k t e -> List.length t <= f -> bstop s -> skip (t ++ s) = t ++ s /\ exists r, p_bool (S f) (t ++ s) = Ok (Ok e, r) /\ skip r = skip s.
Proof. intros P F [A B]. exact (parts_reads bop_prec bop_mk bop_prec_pos p_bop tstop bsgn bsgn_facts bterm p_bool bool_S k t e f s P F A B). Qed.

Lemma comparison_read c mk tl w w' tr l r s : In (c, mk) comparison_signs -> blank w -> blank w' -> arith_written 1 tl l -> arith_written 1 tr r -> astop s ->
  skip (tl ++ w ++ txt c ++ w' ++ tr ++ s) = tl ++ w ++ txt c ++ w' ++ tr ++ s /\ exists u, p_comparison (tl ++ w ++ txt c ++ w' ++ tr ++ s) = Ok (Ok (mk l r), u) /\ skip u = skip s.
Proof.
  intros Hc B B' Wl Wr S.
  assert (X : exists o, mk = cop_mk o /\ (o = CGe /\ c = ">=" \/ o = CLe /\ c = "<=" \/ o = CEq /\ c = "==" \/ o = CLt /\ c = "<" \/ o = CGt /\ c = ">")%string).
  { destruct Hc as [H|[H|[H|[H|[H|[]]]]]]; injection H as <- <-; [exists CGe|exists CLe|exists CEq|exists CLt|exists CGt]; (split; [reflexivity|]); auto 10. }
  destruct X as (o & -> & Ho). destruct (cop_text_stop o c (w' ++ tr ++ s) Ho) as (S1 & S2 & S3).
  destruct (arith_written_reads 1 tl l (w ++ txt c ++ w' ++ tr ++ s) Wl (astop_blank _ _ B S1)) as (K & u & E & Ku). split; [exact K|].
  unfold p_comparison. rewrite E. cbn [bind]. rewrite Ku, (blank_skip _ _ B), S2, S3. 2:{ apply blank_starts; try reflexivity; [exact B'|]. apply (arith_starts 1 tr r s Wr). }
  cbn [bind]. rewrite (blank_skip _ _ B'). destruct (arith_written_reads 1 tr r s Wr S) as (K2 & v & E2 & Kv). rewrite K2, E2. cbn [bind]. exists v. auto.
Qed.

(** Reading a written guard as an arithmetic expression fails, goes to its end, or stops before a sign that is no closing parenthesis. *)
Definition no_arith (t : text) : Prop := forall f s, List.length t <= f -> tstop s ->
  skip (t ++ s) = t ++ s /\ (p_arith (S f) (t ++ s) = Err \/ exists v r, p_arith (S f) (t ++ s) = Ok (v, r) /\ (skip r = skip s \/ lit ")" (skip r) = Err)).
Lemma guard_skip k t g s : guard_written k t g -> skip (t ++ s) = t ++ s.
Proof.
  intros W. revert s. induction W as [k c mk tl w w' tr l r Hc B B' Wl Wr|k|k|k w t w' g B B' W IH|k p c mk tl w w' tr l r Hc Hk B B' Wl IHl Wr IHr]; intros s; try reflexivity.
  - rewrite <- !app_assoc. assert (Z : forall u, skip (tl ++ u) = tl ++ u).
    { clear - Wl. induction Wl as [k n H|k x H|k w t w' e B B' W IH|k p c mk tl w w' tr l r Hc Hk B B' Wl IHl Wr IHr]; intros u; [apply (leaf_skip (AInt n)); [exact I|exact H]|apply (leaf_skip (AVar x)); [exact I|apply C23_names; exact H]|reflexivity|].
      rewrite <- app_assoc. apply IHl. }
    apply Z.
  - rewrite <- app_assoc. apply IHl.
Qed.
Lemma paren_reads t w w' s f : no_arith t -> blank w -> blank w' -> tstop s -> List.length t <= f ->
  p_arith (S (S f)) (txt "(" ++ w ++ t ++ w' ++ txt ")" ++ s) = Err \/ exists v r, p_arith (S (S f)) (txt "(" ++ w ++ t ++ w' ++ txt ")" ++ s) = Ok (v, r) /\ skip r = skip s.
Proof.
  intros N B B' [[S1 S2] S3] Hf. destruct (N f (w' ++ txt ")" ++ s) Hf) as (K & R). { apply tstop_blank; [exact B'|repeat split; reflexivity]. }
  rewrite arith_S. unfold aterm at 1 3. unfold p_term, alt. rewrite lit_app. cbn [bind]. rewrite (blank_skip _ _ B), K.
  assert (P : forall x, (do (k, s') <- p_int (txt "(" ++ x); Ok (rmap AInt (i32_of k), s')) = Err /\ (do (n, s') <- p_name (txt "(" ++ x); Ok (Ok (AVar n), s')) = Err) by (intros; split; reflexivity).
  assert (FAIL : p_arith (S f) (t ++ w' ++ txt ")" ++ s) = Err \/ (exists v r, p_arith (S f) (t ++ w' ++ txt ")" ++ s) = Ok (v, r) /\ lit ")" (skip r) = Err) \/ exists v r, p_arith (S f) (t ++ w' ++ txt ")" ++ s) = Ok (v, r) /\ skip r = txt ")" ++ s).
  { destruct R as [R|(v & r & R & [Q|Q])]; [left; exact R|right; right|right; left]; exists v, r; (split; [exact R|]); [|exact Q]. rewrite Q, (blank_skip _ _ B'). reflexivity. }
  destruct FAIL as [E|[(v & r & E & Q)|(v & r & E & Q)]]; rewrite E; cbn [bind].
  - left. destruct (P (w ++ t ++ w' ++ txt ")" ++ s)) as [P1 P2]. rewrite P1, P2. reflexivity.
  - left. rewrite Q. cbn [bind]. destruct (P (w ++ t ++ w' ++ txt ")" ++ s)) as [P1 P2]. rewrite P1, P2. reflexivity.
  - right. rewrite Q, lit_app. cbn [bind]. unfold many. rewrite S2. cbn [bind]. eexists _, _. split; [reflexivity|]. apply skip_idem.
Qed.
Lemma guard_no_arith k t g : guard_written k t g -> no_arith t.
Proof.
  induction 1 as [k c mk tl w w' tr l r Hc B B' Wl Wr|k|k|k w t w' g B B' W IH|k p c mk tl w w' tr l r Hc Hk B B' Wl IHl Wr IHr]; intros f s Hf S.
  - split; [apply (guard_skip 1 _ (mk l r)); constructor; assumption|]. rewrite <- !app_assoc. rewrite !app_length in Hf.
    assert (X : astop (txt c ++ w' ++ tr ++ s) /\ lit ")" (skip (txt c ++ w' ++ tr ++ s)) = Err) by (destruct Hc as [H|[H|[H|[H|[H|[]]]]]]; injection H as <- <-; repeat split; reflexivity).
    destruct X as [X1 X2]. destruct (aparts_reads 1 tl l f (w ++ txt c ++ w' ++ tr ++ s) (arith_parts _ _ _ Wl) ltac:(lia) (astop_blank _ _ B X1)) as (K & r' & E & Kr). right. exists (Ok l), r'. split; [exact E|]. right. rewrite Kr, (blank_skip _ _ B). exact X2.
  - split; [reflexivity|]. right. destruct (aparts_reads 1 _ _ f s (leaf_parts 1 (AVar "true") I ltac:(exists "t"%char, (txt "rue"); do 2 (split; [reflexivity|]); apply forallb_forall; reflexivity)) Hf (proj1 S)) as (_ & r & E & Kr). exists (Ok (AVar "true")), r. auto.
  - split; [reflexivity|]. right. destruct (aparts_reads 1 _ _ f s (leaf_parts 1 (AVar "false") I ltac:(exists "f"%char, (txt "alse"); do 2 (split; [reflexivity|]); apply forallb_forall; reflexivity)) Hf (proj1 S)) as (_ & r & E & Kr). exists (Ok (AVar "false")), r. auto.
  - rewrite <- !app_assoc. split; [reflexivity|]. rewrite !app_length in Hf. change (List.length (txt "(")) with 1 in Hf. destruct f as [|f]; [lia|].
    destruct (paren_reads t w w' s f IH B B' S ltac:(lia)) as [E|(v & r & E & Kr)]; [left; exact E|right]. exists v, r. auto.
  - rewrite <- !app_assoc. rewrite !app_length in Hf. set (rest := w ++ txt c ++ w' ++ tr ++ s).
    assert (X : tstop (txt c ++ w' ++ tr ++ s) /\ lit ")" (skip (txt c ++ w' ++ tr ++ s)) = Err) by (destruct Hc as [H|[H|[]]]; injection H as <- <- <-; repeat split; reflexivity).
    destruct X as [X1 X2]. destruct (IHl f rest ltac:(lia) (tstop_blank _ _ B X1)) as (K & R). split; [exact K|]. destruct R as [R|(v & r' & R & Q)]; [left; exact R|right]. exists v, r'. split; [exact R|]. right.
    destruct Q as [Q|Q]; [|exact Q]. rewrite Q. unfold rest. rewrite (blank_skip _ _ B). exact X2.
Qed.

Lemma guard_parts k t g : guard_written k t g -> bparts (2 + k) t g.
Proof.
  induction 1 as [k c mk tl w w' tr l r Hc B B' Wl Wr|k|k|k w t w' g B B' W IH|k p c mk tl w w' tr l r Hc Hk B B' Wl IHl Wr IHr].
  - apply parts_leaf; [rewrite !app_length; destruct Hc as [H|[H|[H|[H|[H|[]]]]]]; injection H as <- <-; cbn; lia|]. intros f Hf s [S _]. cbn [fst snd]. rewrite <- !app_assoc.
    destruct (comparison_read c mk tl w w' tr l r s Hc B B' Wl Wr S) as (K & u & E & Ku). split; [exact K|]. unfold bterm, p_bterm, alt. rewrite E. exists u. auto.
  - apply parts_leaf; [cbn; lia|]. intros f Hf s S. cbn [fst snd]. split; [reflexivity|]. exact (p_bterm_leaf (p_bool f) (BBool true) s I I S).
  - apply parts_leaf; [cbn; lia|]. intros f Hf s S. cbn [fst snd]. split; [reflexivity|]. exact (p_bterm_leaf (p_bool f) (BBool false) s I I S).
  - apply parts_leaf; [rewrite app_length; cbn; lia|]. intros f Hf s S. cbn [fst snd]. rewrite <- !app_assoc. split; [apply skip_visible; right; reflexivity|].
    rewrite !app_length in Hf. change (List.length (txt "(")) with 1 in Hf. destruct f as [|f]; [lia|]. unfold bterm, p_bterm, alt.
    assert (NC : p_comparison (txt "(" ++ w ++ t ++ w' ++ txt ")" ++ s) = Err).
    { unfold p_comparison, arith_text. set (n := List.length (txt "(" ++ w ++ t ++ w' ++ txt ")" ++ s)). assert (Hn : exists m, n = Datatypes.S m /\ List.length t <= m). { unfold n. rewrite !app_length. change (List.length (txt "(")) with 1. eexists. split; [reflexivity|lia]. }
      destruct Hn as (m & -> & Hm). destruct (paren_reads t w w' s m (guard_no_arith _ _ _ W) B B' S Hm) as [E|(v & r & E & Kr)]; rewrite E; cbn [bind]; [reflexivity|]. rewrite Kr. destruct S as [_ ->]. reflexivity. }
    rewrite NC. cbn [bind]. replace (lit "true" (txt "(" ++ w ++ t ++ w' ++ txt ")" ++ s)) with (@Err text) by reflexivity. replace (lit "false" (txt "(" ++ w ++ t ++ w' ++ txt ")" ++ s)) with (@Err text) by reflexivity. cbn [bind].
    rewrite lit_app. cbn [bind]. rewrite (blank_skip _ _ B).
    destruct (bparts_reads _ t g f (w' ++ txt ")" ++ s) IH ltac:(lia)) as (K & r & E & Kr); [apply blank_bstop; [exact B'|repeat split; reflexivity]|].
    rewrite K, E. cbn [bind]. rewrite Kr, (blank_skip _ _ B'), skip_visible by (right; reflexivity). rewrite lit_app. cbn [bind]. exists s. auto.
  - assert (Q : tl ++ w ++ txt c ++ w' ++ tr = tl ++ (w ++ txt c ++ w') ++ tr) by (rewrite <- !app_assoc; reflexivity). rewrite Q.
    assert (G : forall o, In (o, c) [(OAnd, "&&"); (OOr, "||")]%string -> bsgn (o, w ++ txt c ++ w')) by (intros o Ho; exists w, c, w'; auto).
    destruct Hc as [Hc|[Hc|[]]]; injection Hc as <- <- <-;
    [refine (parts_node bop_prec bop_mk tstop bsgn bterm (2 + k) OAnd l r tl tr _ _ _ IHl IHr)|refine (parts_node bop_prec bop_mk tstop bsgn bterm (2 + k) OOr l r tl tr _ _ _ IHl IHr)]; try (apply G; cbn; auto); cbn; lia.
Qed.

(** However a guard is written, it is read as the guard that is meant; white space may be around it and a semicolon behind it. *)
Theorem C23_written : forall t g w w' w'', guard_written 1 t g -> blank w -> blank w' -> blank w'' ->
  parse_guard (w ++ t ++ w') = Ok g /\ parse_guard (w ++ t ++ w' ++ txt ";" ++ w'') = Ok g.
Proof.
  intros t g w w' w'' W B B' B''. unfold parse_guard. rewrite !(blank_skip w _ B), !(guard_skip 1 t g _ W). unfold bool_text, opt. split.
  - destruct (bparts_reads _ t g (List.length (t ++ w')) w' (guard_parts _ _ _ W)) as (_ & r & E & K); [rewrite app_length; lia|rewrite <- (app_nil_r w'); apply blank_bstop; [exact B'|repeat split; reflexivity]|].
    rewrite E. cbn [bind]. rewrite K, (blank_nil w' B'). reflexivity.
  - destruct (bparts_reads _ t g (List.length (t ++ w' ++ txt ";" ++ w'')) (w' ++ txt ";" ++ w'') (guard_parts _ _ _ W)) as (_ & r & E & K); [rewrite app_length; lia|apply blank_bstop; [exact B'|repeat split; reflexivity]|].
    rewrite E. cbn [bind]. rewrite K, (blank_skip w' _ B'). replace (skip (txt ";" ++ w'')) with (txt ";" ++ w'') by reflexivity. unfold p_lit. rewrite lit_app. cbn [bind]. rewrite (blank_nil w'' B''). reflexivity.
Qed.
Print Assumptions C23_written.
(** So no text can mean two guards. *)
Theorem C23_one_meaning : forall t g g', guard_written 1 t g -> guard_written 1 t g' -> g = g'.
Proof. intros t g g' W W'. destruct (C23_written t g [] [] [] W blank_end blank_end blank_end) as [E _]. destruct (C23_written t g' [] [] [] W' blank_end blank_end blank_end) as [E' _]. congruence. Qed.
Print Assumptions C23_one_meaning.

(** ** Updates *)
Lemma update_written_reads u s : wu_ok u -> astop s ->
  exists r, p_assignment (skip (wu_all u ++ s)) = Ok (do a' <- expect (simplify (wu_expr u)); Ok (wu_name u, a'), r) /\ skip r = skip s.
Proof.
  intros (B0 & G & B1 & B2 & W & B3) S. apply C23_names in G. unfold wu_all. rewrite <- !app_assoc, (blank_skip _ _ B0), (name_skip _ _ G). unfold p_assignment.
  set (rest := (if wu_colon u then txt ":=" else txt "=") ++ wu_2 u ++ wu_text u ++ wu_3 u ++ s).
  rewrite (p_name_app (wu_name u) (wu_1 u ++ rest) (good_name_ok _ G)). 2:{ apply blank_names; [exact B1|]. unfold rest. destruct (wu_colon u); reflexivity. }
  cbn [bind]. rewrite (blank_skip _ _ B1). replace (skip rest) with rest by (unfold rest; destruct (wu_colon u); reflexivity).
  assert (X : alt (p_lit "=") (p_lit ":=") rest = Ok (tt, wu_2 u ++ wu_text u ++ wu_3 u ++ s)).
  { unfold rest, alt, p_lit. destruct (wu_colon u); [|rewrite lit_app; reflexivity]. replace (lit "=" _) with (@Err text) by reflexivity. cbn [bind]. rewrite lit_app. reflexivity. }
  rewrite X. cbn [bind]. rewrite (blank_skip _ _ B2).
  destruct (arith_written_reads 1 (wu_text u) (wu_expr u) (wu_3 u ++ s) W (astop_blank _ _ B3 S)) as (K0 & r & E & K). rewrite K0, E. cbn [bind]. exists r. split; [reflexivity|]. rewrite K. apply blank_skip. exact B3.
Qed.
(** Updates are read as the assignments meant, each with its expression evaluated as far as it can be; where that fails (a division by zero, a result that does not fit 32 bits) reading stops the program. *)
Theorem C23_updates_written : forall u us comma, (forall x, In x (u :: us) -> wu_ok x) -> (forall w, comma = Some w -> blank w) ->
  parse_updates (updates_written u us comma) = mapM (fun x => do a <- expect (simplify (wu_expr x)); Ok (wu_name x, a)) (u :: us).
Proof.
  intros u us comma H Hc. set (last := match comma with Some w => txt "," ++ w | None => [] end). set (val := fun x => do a <- expect (simplify (wu_expr x)); Ok (wu_name x, a)).
  assert (SL : astop last) by (unfold last; destruct comma; split; reflexivity).
  assert (ST : forall (x : written_update) s, astop ((txt "," ++ wu_all x) ++ s)) by (intros; split; reflexivity).
  set (rest := flat_map (fun x => txt "," ++ wu_all x) us ++ last).
  assert (SU : astop rest). { unfold rest. destruct us as [|v us]; [exact SL|]. cbn [flat_map]. rewrite <- app_assoc. apply ST. }
  assert (T : updates_written u us comma = wu_all u ++ rest) by reflexivity.
  assert (R : forall x s, In x (u :: us) -> astop s -> exists r, p_assignment (skip (wu_all x ++ s)) = Ok (val x, r) /\ skip r = skip s).
  { intros x s Hx S. apply update_written_reads; [apply H; exact Hx|exact S]. }
  rewrite T. unfold parse_updates, opt, p_assignments. destruct (R u rest (or_introl eq_refl) SU) as (r & E & K). rewrite E. cbn [bind].
  destruct (many_reads (fun s => do (_, s') <- p_lit "," s; p_assignment (skip s')) (fun x => txt "," ++ wu_all x) val astop us) with (f := List.length (skip (wu_all u ++ rest))) (s := last) (u := r) as (t & Et & Kt).
  - intros x s Hx S. rewrite <- app_assoc. replace (skip (txt "," ++ wu_all x ++ s)) with (txt "," ++ wu_all x ++ s) by reflexivity. unfold p_lit. rewrite lit_app. cbn [bind]. apply R; [right; exact Hx|exact S].
  - intros x s _. apply ST.
  - destruct (H u (or_introl eq_refl)) as (B0 & G & _). apply C23_names in G. unfold wu_all at 1. rewrite <- !app_assoc, (blank_skip _ _ B0), (name_skip _ _ G), !app_length.
    assert (Z : forall ys : list written_update, List.length ys <= List.length (flat_map (fun x => txt "," ++ wu_all x) ys)).
    { induction ys as [|y ys IH]; [reflexivity|]. cbn [flat_map List.length]. rewrite !app_length. change (List.length (txt ",")) with 1. lia. }
    specialize (Z us). unfold rest. rewrite app_length. lia.
  - exact SL.
  - unfold last. destruct comma as [w|]; [|reflexivity]. replace (skip (txt "," ++ w)) with (txt "," ++ w) by reflexivity. unfold p_lit. rewrite lit_app. cbn [bind]. rewrite (blank_nil w (Hc w eq_refl)). reflexivity.
  - exact K.
  - rewrite Et. cbn [bind]. rewrite Kt.
    assert (F : exists t', (do (_, s3) <- opt (p_lit ",") (skip last); Ok (val u :: map val us, s3)) = Ok (val u :: map val us, t') /\ skip t' = []).
    { unfold last, opt. destruct comma as [w|]; [|exists []; split; reflexivity]. replace (skip (txt "," ++ w)) with (txt "," ++ w) by reflexivity. unfold p_lit. rewrite lit_app. cbn [bind]. exists w. split; [reflexivity|]. apply blank_nil, Hc. reflexivity. }
    destruct F as (t' & -> & Et'). cbn [bind]. rewrite Et'. cbn [eoi bind]. change (val u :: map val us) with (map val (u :: us)).
    generalize (u :: us). clear. induction l as [|y ys IH]; [reflexivity|]. cbn [map mapM]. rewrite IH. reflexivity.
Qed.
Print Assumptions C23_updates_written.

(** "( x+ 1 ) *2 <= y  || (true) && z>3" with its parts as meant: "||" is grouped before "&&". *)
Example C23_written_nonvacuous :
  guard_written 1 (txt "( x+ 1 ) *2 <= y  || (true) && z>3")
    (BAnd (BOr (BLessEQ (AMultiplication (AAddition (AVar "x") (AInt 1)) (AInt 2)) (AVar "y")) (BBool true)) (BGreatT (AVar "z") (AInt 3))) /\
  parse_guard (txt "( x+ 1 ) *2 <= y  || (true) && z>3") = Ok (BAnd (BOr (BLessEQ (AMultiplication (AAddition (AVar "x") (AInt 1)) (AInt 2)) (AVar "y")) (BBool true)) (BGreatT (AVar "z") (AInt 3))).
Proof.
  split; [|reflexivity]. assert (B1 : blank (txt " ")) by (repeat constructor). assert (B2 : blank (txt "  ")) by (repeat constructor).
  assert (N : forall k x, good_name x -> arith_written k (txt x) (AVar x)) by (intros; apply aw_name, C23_names; assumption).
  assert (Gx : good_name "x") by (exists "x"%char, []; do 2 (split; [reflexivity|]); intros ? []). assert (Gy : good_name "y") by (exists "y"%char, []; do 2 (split; [reflexivity|]); intros ? []). assert (Gz : good_name "z") by (exists "z"%char, []; do 2 (split; [reflexivity|]); intros ? []).
  refine (gw_operator 1 1 "&&" BAnd (txt "( x+ 1 ) *2 <= y  || (true)") (txt " ") (txt " ") (txt "z>3") _ _ _ _ B1 B1 _ _); [cbn; auto|lia| |].
  - refine (gw_operator 1 2 "||" BOr (txt "( x+ 1 ) *2 <= y") (txt "  ") (txt " ") (txt "(true)") _ _ _ _ B2 B1 _ _); [cbn; auto|lia| |].
    + refine (gw_comparison 2 "<=" BLessEQ (txt "( x+ 1 ) *2") (txt " ") (txt " ") (txt "y") _ _ _ B1 B1 _ (N _ _ Gy)); [cbn; auto|].
      refine (aw_operator 1 2 "*" AMultiplication (txt "( x+ 1 )") (txt " ") [] (txt "2") _ _ _ _ B1 blank_end _ (aw_number 3 2 _)); [cbn; auto|lia| |lia].
      refine (aw_parentheses 2 (txt " ") (txt "x+ 1") (txt " ") _ B1 B1 _). refine (aw_operator 1 1 "+" AAddition (txt "x") [] (txt " ") (txt "1") _ _ _ _ blank_end B1 (N _ _ Gx) (aw_number 2 1 _)); [cbn; auto|lia|lia].
    + exact (gw_parentheses 3 [] (txt "true") [] _ blank_end blank_end (gw_true 1)).
  - refine (gw_comparison 2 ">" BGreatT (txt "z") [] [] (txt "3") _ _ _ blank_end blank_end (N _ _ Gz) (aw_number 1 3 _)); [cbn; auto 10|lia].
Qed.
Example C23_updates_written_nonvacuous :
  parse_updates (updates_written (mkWU (txt " ") "x" [] true (txt " ") (txt "(7 - 2) * 3") [] (AMultiplication (ADifference (AInt 7) (AInt 2)) (AInt 3))) [mkWU [] "y" (txt " ") false [] (txt "0") [] (AInt 0)] (Some []))
    = Ok [("x", AInt 15); ("y", AInt 0)]%string /\
  wu_ok (mkWU (txt " ") "x" [] true (txt " ") (txt "(7 - 2) * 3") [] (AMultiplication (ADifference (AInt 7) (AInt 2)) (AInt 3))) /\
  parse_updates (txt "x = 1 / 0") = Panic.
Proof.
  split; [vm_compute; reflexivity|]. split; [|vm_compute; reflexivity]. assert (B1 : blank (txt " ")) by (repeat constructor).
  split; [exact B1|]. split; [apply C23_names; exists "x"%char, []; do 2 (split; [reflexivity|]); intros ? []|]. split; [constructor|]. split; [exact B1|]. split; [|constructor].
  refine (aw_operator 1 2 "*" AMultiplication (txt "(7 - 2)") (txt " ") (txt " ") (txt "3") _ _ _ _ B1 B1 _ (aw_number 3 3 _)); [cbn; auto|lia| |lia].
  refine (aw_parentheses 2 [] (txt "7 - 2") [] _ blank_end blank_end _). refine (aw_operator 1 1 "-" ADifference (txt "7") (txt " ") (txt " ") (txt "2") _ _ _ _ B1 B1 (aw_number 1 7 _) (aw_number 2 2 _)); [cbn; auto|lia|lia|lia].
Qed.
