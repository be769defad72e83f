(** Facts about reading and writing guards. *)
From Coq Require Import List String Ascii ZArith QArith Bool Arith Lia.
From Verif Require Import Fed.Zone Model.Base Model.Expr Model.Guard Model.Peg Model.ParseEdge Spec.GuardSpec Spec.TextSpec Proofs.PegFacts Proofs.GuardFacts Proofs.SystemFacts.
Import ListNotations.
Local Open Scope nat_scope.
Local Open Scope string_scope.
Local Open Scope list_scope.

(** ** Trees of operators *)
Definition rebalance {O A} (prec : O -> nat) (b : @btree O A) : @btree O A :=
  match pratt_all prec (fun o l r => BNode o l r) (BLeaf (first b)) (leafs (ops b)) with Ok b' => b' | _ => b end.
Lemma rebalance_run {O A} (prec : O -> nat) (b : @btree O A) : (forall o, 0 < prec o) ->
  pratt_all prec (fun o l r => BNode o l r) (BLeaf (first b)) (leafs (ops b)) = Ok (rebalance prec b) /\
  canon prec (rebalance prec b) /\ first (rebalance prec b) = first b /\ ops (rebalance prec b) = ops b.
Proof.
  intros P. unfold rebalance. destruct (pratt_result prec (first b) (ops b) P) as (b' & E & C & F & Oo). rewrite E. auto.
Qed.
Lemma rebalance_canon {O A} (prec : O -> nat) (b : @btree O A) : (forall o, 0 < prec o) -> canon prec b -> rebalance prec b = b.
Proof. intros P C. unfold rebalance. rewrite (pratt_canon prec b P C). reflexivity. Qed.

Lemma mapM_Ok {A B} (f : A -> B) l : mapM (fun p => Ok (f p)) l = Ok (map f l).
Proof. induction l as [|a l IH]; [reflexivity|]. cbn. rewrite IH. reflexivity. Qed.
Lemma pratt_res_tree {O A T} (prec : O -> nat) (mk : O -> T -> T -> T) (leaf : A -> T) (b : @btree O A) : (forall o, 0 < prec o) ->
  pratt_res prec mk (Ok (leaf (first b))) (map (fun p => (fst p, Ok (leaf (snd p)))) (ops b)) = Ok (eval leaf mk (rebalance prec b)).
Proof.
  intros P. unfold pratt_res. cbn [bind].
  assert (E : mapM (fun p : O * res T => do z <- snd p; Ok (fst p, z)) (map (fun p => (fst p, Ok (leaf (snd p)))) (ops b)) = Ok (map (fun p => (fst p, leaf (snd p))) (ops b))).
  { induction (ops b) as [|[o a] xs IH]; [reflexivity|]. cbn. rewrite IH. reflexivity. }
  rewrite E. cbn [bind]. rewrite pratt_all_eval. destruct (rebalance_run prec b P) as [-> _]. reflexivity.
Qed.

(** ** Arithmetic *)
Fixpoint atree (e : arith) : @btree aop arith :=
  match e with
  | ADifference l r => BNode OSub (atree l) (atree r)
  | AAddition l r => BNode OAdd (atree l) (atree r)
  | AMultiplication l r => BNode OMul (atree l) (atree r)
  | ADivision l r => BNode ODiv (atree l) (atree r)
  | AModulo l r => BNode OMod (atree l) (atree r)
  | _ => BLeaf e
  end.
Definition aop_char (o : aop) : ascii := match o with OAdd => "+" | OSub => "-" | OMul => "*" | ODiv => "/" | OMod => "%" end.
Definition is_leaf (e : arith) : Prop := match e with AClock _ | AVar _ | AInt _ => True | _ => False end.
Definition aops_text (xs : list (aop * arith)) : text := flat_map (fun p => aop_char (fst p) :: encode_arith (snd p)) xs.
Lemma aops_text_app xs ys : aops_text (xs ++ ys) = aops_text xs ++ aops_text ys. Proof. apply flat_map_app. Qed.
Lemma aop_prec_pos o : 0 < aop_prec o. Proof. destruct o; cbn; lia. Qed.

Lemma atree_eval e : eval (fun a => a) aop_mk (atree e) = e.
Proof. induction e; cbn; congruence. Qed.
Lemma atree_text e : encode_arith e = encode_arith (first (atree e)) ++ aops_text (ops (atree e)).
Proof.
  induction e; cbn [atree first ops aops_text flat_map]; try (rewrite app_nil_r; reflexivity);
  cbn [encode_arith]; rewrite IHe1, IHe2 at 1; fold (aops_text (ops (atree e1))); change (flat_map (fun p : aop * arith => aop_char (fst p) :: encode_arith (snd p))) with aops_text;
  rewrite aops_text_app, <- !app_assoc; reflexivity.
Qed.
Lemma atree_leaves e : is_leaf (first (atree e)) /\ forall p, In p (ops (atree e)) -> is_leaf (snd p).
Proof.
  induction e as [l [F1 O1] r [F2 O2]|l [F1 O1] r [F2 O2]|l [F1 O1] r [F2 O2]|l [F1 O1] r [F2 O2]|l [F1 O1] r [F2 O2]|i|s|k]; cbn [atree first ops];
    try (split; [exact I|intros p []]); (split; [exact F1|]; intros p Hp; apply in_app_iff in Hp; destruct Hp as [Hp|[<-|Hp]]; [auto|exact F2|auto]).
Qed.
Lemma atree_legible e : a_legible e -> a_legible (first (atree e)) /\ forall p, In p (ops (atree e)) -> a_legible (snd p).
Proof.
  induction e as [l IHl r IHr|l IHl r IHr|l IHl r IHr|l IHl r IHr|l IHl r IHr|i|s|k]; cbn [atree first ops a_legible]; intros H;
    try (split; [exact H|intros p []]); destruct H as [Hl Hr]; destruct (IHl Hl) as [F1 O1], (IHr Hr) as [F2 O2];
    (split; [exact F1|]; intros p Hp; apply in_app_iff in Hp; destruct Hp as [Hp|[<-|Hp]]; [auto|exact F2|auto]).
Qed.
Lemma atree_root e p : ge_root aop_prec p (atree e) <-> p <= a_rank e \/ 2 < a_rank e.
Proof. destruct e; cbn; lia. Qed.
Lemma atree_root_gt e p : gt_root aop_prec p (atree e) <-> p < a_rank e \/ 2 < a_rank e.
Proof. destruct e; cbn; lia. Qed.
Lemma a_rank_bound e : 1 <= a_rank e <= 3. Proof. destruct e; cbn; lia. Qed.
Lemma atree_canon e : canon aop_prec (atree e) <-> a_plain e.
Proof.
  induction e; cbn [atree canon a_plain]; try tauto; rewrite IHe1, IHe2, atree_root, atree_root_gt; cbn [aop_prec];
    pose proof (a_rank_bound e1); pose proof (a_rank_bound e2); intuition lia.
Qed.
(** A tree with leaves is read back from the expression. *)
Lemma eval_atree (b : @btree aop arith) : is_leaf (first b) -> (forall p, In p (ops b) -> is_leaf (snd p)) -> atree (eval (fun a => a) aop_mk b) = b.
Proof.
  induction b as [a|o l IHl r IHr]; cbn [first ops eval]; intros F H.
  - destruct a; try contradiction; reflexivity.
  - assert (El : atree (eval (fun a => a) aop_mk l) = l) by (apply IHl; [exact F|intros p Hp; apply H; apply in_app_iff; auto]).
    assert (Er : atree (eval (fun a => a) aop_mk r) = r).
    { apply IHr; [exact (H (o, first r) ltac:(apply in_app_iff; right; left; reflexivity))|intros p Hp; apply H; apply in_app_iff; right; right; exact Hp]. }
    destruct o; cbn [aop_mk atree]; rewrite El, Er; reflexivity.
Qed.

(** The expression the reader makes of the text of [e]. *)
Definition a_reload (e : arith) : arith := eval (fun a => a) aop_mk (rebalance aop_prec (atree e)).
Lemma a_reload_plain e : a_plain e -> a_reload e = e.
Proof. intros H. unfold a_reload. rewrite rebalance_canon; [apply atree_eval|apply aop_prec_pos|apply atree_canon; exact H]. Qed.
Lemma a_reload_tree e : atree (a_reload e) = rebalance aop_prec (atree e).
Proof.
  destruct (rebalance_run aop_prec (atree e) aop_prec_pos) as (_ & _ & F & Oo). destruct (atree_leaves e) as [L1 L2].
  apply eval_atree; [rewrite F; exact L1|rewrite Oo; exact L2].
Qed.
Lemma a_reload_spec e : a_plain (a_reload e) /\ encode_arith (a_reload e) = encode_arith e.
Proof.
  destruct (rebalance_run aop_prec (atree e) aop_prec_pos) as (_ & C & F & Oo). split.
  - apply atree_canon. rewrite a_reload_tree. exact C.
  - rewrite (atree_text (a_reload e)), (atree_text e), a_reload_tree, F, Oo. reflexivity.
Qed.

(** *** Reading the text *)
Lemma good_name_ok n : good_name n -> name_ok n = true.
Proof. intros (c & a & E & Hc & Ha). unfold name_ok, txt. rewrite E, Hc. cbn. apply forallb_forall. exact Ha. Qed.
Definition all_ascii : list ascii := map ascii_of_nat (seq 0 256).
Lemma in_all_ascii c : In c all_ascii.
Proof. unfold all_ascii. rewrite <- (ascii_nat_embedding c). apply in_map. apply in_seq. pose proof (nat_ascii_bounded c). lia. Qed.
(** Facts about single characters, by going through all of them. *)
Lemma char_fact (P : ascii -> bool) : forallb P all_ascii = true -> forall c, P c = true.
Proof. intros H c. exact (proj1 (forallb_forall P all_ascii) H c (in_all_ascii c)). Qed.
Ltac char_tac := apply (fun H => char_fact _ H); vm_compute; reflexivity.
Lemma alpha_facts : forall c, (negb (is_alpha c) || (visible c && is_name_char c && negb (is_digit c) && negb (is_nonzero c) && negb (Ascii.eqb c "0") && negb (Ascii.eqb "(" c) && negb (Ascii.eqb "=" c) && negb (Ascii.eqb ":" c))) = true.
Proof. char_tac. Qed.
Lemma digit_facts : forall c, (negb (is_digit c) || (visible c && is_name_char c && negb (is_alpha c) && negb (Ascii.eqb "(" c) && negb (Ascii.eqb "=" c))) = true.
Proof. char_tac. Qed.

(** The text of a leaf starts with a letter or a digit. *)
Lemma leaf_starts a : is_leaf a -> a_legible a -> exists c t, encode_arith a = c :: t /\ (is_alpha c = true \/ is_digit c = true).
Proof.
  destruct a; cbn [is_leaf a_legible encode_arith]; intros L H; try contradiction.
  - destruct H as (c & a & E & Hc & _). exists c, a. split; [exact E|auto].
  - unfold int_text. replace (Z.ltb k 0) with false by (symmetry; apply Z.ltb_ge; lia). destruct (digits_spec k ltac:(lia)) as (c & ds & E & Hc & _). exists c, ds. auto.
Qed.
Lemma wordchar_facts c : is_alpha c = true \/ is_digit c = true -> visible c = true /\ Ascii.eqb "(" c = false /\ Ascii.eqb "=" c = false.
Proof.
  intros [H|H]; [pose proof (alpha_facts c) as F|pose proof (digit_facts c) as F]; rewrite H in F; cbn [negb orb] in F; rewrite !andb_true_iff, !negb_true_iff in F; tauto.
Qed.
Lemma encode_starts e : a_legible e -> exists c t, encode_arith e = c :: t /\ visible c = true /\ Ascii.eqb "(" c = false /\ Ascii.eqb "=" c = false.
Proof.
  intros H. destruct (atree_legible e H) as [L _]. destruct (atree_leaves e) as [F _]. destruct (leaf_starts _ F L) as (c & t & E & Hc).
  rewrite atree_text, E. destruct (wordchar_facts c Hc). exists c, (t ++ aops_text (ops (atree e))). auto.
Qed.
Lemma encode_skip e s : a_legible e -> skip (encode_arith e ++ s) = encode_arith e ++ s.
Proof. intros H. destruct (encode_starts e H) as (c & t & -> & V & _). apply skip_visible. right. exact V. Qed.

Lemma lit_first a c w s : Ascii.eqb a c = false -> ok_or (strip (a :: w) (c :: s)) = @Err text.
Proof. intros H. cbn. rewrite H. reflexivity. Qed.

Lemma p_term_leaf rec a s : is_leaf a -> a_legible a -> starts is_name_char s = false -> p_term rec (encode_arith a ++ s) = Ok (Ok a, s).
Proof.
  intros L H S. destruct (leaf_starts a L H) as (c & t & E & Hc). destruct (wordchar_facts c Hc) as (_ & Hp & _).
  unfold p_term, alt. rewrite E at 1. cbn [app]. unfold lit. cbn [txt list_ascii_of_string]. rewrite (lit_first _ _ _ _ Hp). cbn [bind].
  destruct a; cbn [is_leaf a_legible encode_arith] in *; try contradiction.
  - assert (X : p_int (txt s0 ++ s) = Err).
    { destruct H as (c' & a & E' & Hc' & _). unfold txt. rewrite E'. cbn [app p_int].
      pose proof (alpha_facts c') as F. rewrite Hc' in F. cbn [negb orb] in F. rewrite !andb_true_iff, !negb_true_iff in F.
      destruct F as [[[[[[[_ _] _] Fn] Fz] _] _] _]. rewrite Fz, Fn. reflexivity. }
    rewrite X. cbn [bind]. rewrite (p_name_app s0 s (good_name_ok _ H) S). reflexivity.
  - rewrite p_int_app; [|lia|]. 2:{ destruct s as [|d s]; [reflexivity|]. cbn [starts] in *. unfold is_name_char in S. rewrite !orb_false_iff in S. tauto. }
    cbn [bind]. unfold i32_of, i32_max. replace (Z.leb k 2147483647) with true by (symmetry; apply Z.leb_le; lia). reflexivity.
Qed.

Lemma aop_char_facts o : visible (aop_char o) = true /\ is_name_char (aop_char o) = false.
Proof. destruct o; split; reflexivity. Qed.
Lemma p_aop_char o s : p_aop (aop_char o :: s) = Ok (o, s).
Proof. destruct o; reflexivity. Qed.

(** The text after an arithmetic expression. *)
Definition astop (s : text) : Prop := starts is_name_char s = false /\ p_aop (skip s) = Err.

Lemma aops_stop xs s : astop s -> starts is_name_char (aops_text xs ++ s) = false.
Proof. intros [H _]. destruct xs as [|[o a] xs]; [exact H|]. cbn. destruct (aop_char_facts o); assumption. Qed.

Lemma aops_more rec xs : (forall p, In p xs -> is_leaf (snd p) /\ a_legible (snd p)) -> forall f s, List.length xs < f -> astop s ->
  many_more f (p_aop_term rec) (aops_text xs ++ s) = Ok (map (fun p => (fst p, Ok (snd p))) xs, s).
Proof.
  induction xs as [|[o a] xs IH]; intros H f s Hf S; (destruct f as [|f]; [cbn in Hf; lia|]); cbn [many_more aops_text flat_map app].
  - unfold p_aop_term. destruct S as [_ ->]. reflexivity.
  - change (flat_map (fun p : aop * arith => aop_char (fst p) :: encode_arith (snd p))) with aops_text. cbn [fst snd]. rewrite <- app_assoc.
    rewrite skip_visible by (right; cbn; apply aop_char_facts). unfold p_aop_term at 1. rewrite p_aop_char. cbn [bind].
    destruct (H (o, a) (or_introl eq_refl)) as [L G]. cbn [snd] in L, G. rewrite (encode_skip a _ G).
    rewrite (p_term_leaf rec a _ L G (aops_stop xs s S)). cbn [bind]. rewrite IH; [|intros p Hp; apply H; right; exact Hp|cbn in Hf; lia|exact S]. reflexivity.
Qed.
Lemma aops_many rec xs : (forall p, In p xs -> is_leaf (snd p) /\ a_legible (snd p)) -> forall f s, List.length xs <= f -> astop s ->
  exists r, many f (p_aop_term rec) (skip (aops_text xs ++ s)) = Ok (map (fun p => (fst p, Ok (snd p))) xs, r) /\ skip r = skip s.
Proof.
  destruct xs as [|[o a] xs]; intros H f s Hf S; cbn [aops_text flat_map app].
  - exists (skip s). split; [|apply skip_idem]. unfold many, p_aop_term. destruct S as [_ ->]. reflexivity.
  - change (flat_map (fun p : aop * arith => aop_char (fst p) :: encode_arith (snd p))) with aops_text. cbn [fst snd]. rewrite <- app_assoc.
    rewrite skip_visible by (right; cbn; apply aop_char_facts). unfold many, p_aop_term at 1. rewrite p_aop_char. cbn [bind].
    destruct (H (o, a) (or_introl eq_refl)) as [L G]. cbn [snd] in L, G. rewrite (encode_skip a _ G).
    rewrite (p_term_leaf rec a _ L G (aops_stop xs s S)). cbn [bind].
    rewrite aops_more; [|intros p Hp; apply H; right; exact Hp|cbn in Hf; lia|exact S]. cbn [bind]. exists s. split; reflexivity.
Qed.
Lemma aops_length xs : List.length xs <= List.length (aops_text xs).
Proof. induction xs as [|[o a] xs IH]; [reflexivity|]. cbn. rewrite app_length. fold (aops_text xs). lia. Qed.

Theorem arith_reads e s : a_legible e -> astop s -> exists r, arith_text (encode_arith e ++ s) = Ok (Ok (a_reload e), r) /\ skip r = skip s.
Proof.
  intros H S. unfold arith_text. remember (List.length (encode_arith e ++ s)) as n eqn:En. cbn [p_arith].
  destruct (atree_legible e H) as [G1 G2]. destruct (atree_leaves e) as [L1 L2]. rewrite (atree_text e), <- app_assoc.
  rewrite (p_term_leaf _ _ _ L1 G1 (aops_stop _ s S)). cbn [bind].
  destruct (aops_many (p_arith n) (ops (atree e)) (fun p Hp => conj (L2 p Hp) (G2 p Hp)) n s) as (r & E & Hr); [|exact S|].
  - rewrite En, (atree_text e), !app_length. pose proof (aops_length (ops (atree e))). lia.
  - rewrite E. cbn [bind]. exists r. split; [|exact Hr]. do 2 f_equal. unfold a_reload. rewrite (pratt_res_tree aop_prec aop_mk (fun a => a) (atree e) aop_prec_pos). reflexivity.
Qed.

(** ** Guards *)
Fixpoint gtree (b : bexpr) : @btree bop bexpr :=
  match b with BAnd l r => BNode OAnd (gtree l) (gtree r) | BOr l r => BNode OOr (gtree l) (gtree r) | _ => BLeaf b end.
Definition bop_text (o : bop) : text := match o with OAnd => txt " && " | OOr => txt " || " end.
Definition bops_text (xs : list (bop * bexpr)) : text := flat_map (fun p => bop_text (fst p) ++ encode_bool (snd p)) xs.
Definition is_bleaf (b : bexpr) : Prop := match b with BAnd _ _ | BOr _ _ => False | _ => True end.
Lemma bop_prec_pos o : 0 < bop_prec o. Proof. destruct o; cbn; lia. Qed.
(** What the reader makes of a single comparison. *)
Definition leaf_reload (b : bexpr) : bexpr :=
  match b with
  | BLessEQ l r => BLessEQ (a_reload l) (a_reload r) | BGreatEQ l r => BGreatEQ (a_reload l) (a_reload r)
  | BLessT l r => BLessT (a_reload l) (a_reload r) | BGreatT l r => BGreatT (a_reload l) (a_reload r)
  | BEQ l r => BEQ (a_reload l) (a_reload r) | _ => b
  end.
Definition b_reload (b : bexpr) : bexpr := eval leaf_reload bop_mk (rebalance bop_prec (gtree b)).

Lemma gtree_text b : encode_bool b = encode_bool (first (gtree b)) ++ bops_text (ops (gtree b)).
Proof.
  induction b; cbn [gtree first ops bops_text flat_map]; try (rewrite app_nil_r; reflexivity);
  cbn [encode_bool]; rewrite IHb1, IHb2 at 1; change (flat_map (fun p : bop * bexpr => bop_text (fst p) ++ encode_bool (snd p))) with bops_text;
  unfold bops_text; rewrite flat_map_app; cbn [flat_map fst snd bop_text]; rewrite <- !app_assoc; reflexivity.
Qed.
Lemma gtree_leaves b : is_bleaf (first (gtree b)) /\ forall p, In p (ops (gtree b)) -> is_bleaf (snd p).
Proof.
  induction b as [l [F1 O1] r [F2 O2]|l [F1 O1] r [F2 O2]|l r|l r|l r|l r|l r|k]; cbn [gtree first ops];
    try (split; [exact I|intros p []]); (split; [exact F1|]; intros p Hp; apply in_app_iff in Hp; destruct Hp as [Hp|[<-|Hp]]; [auto|exact F2|auto]).
Qed.
Lemma gtree_legible b : b_legible b -> b_legible (first (gtree b)) /\ forall p, In p (ops (gtree b)) -> b_legible (snd p).
Proof.
  induction b as [l IHl r IHr|l IHl r IHr|l r|l r|l r|l r|l r|k]; cbn [gtree first ops b_legible]; intros H;
    try (split; [exact H|intros p []]); destruct H as [Hl Hr]; destruct (IHl Hl) as [F1 O1], (IHr Hr) as [F2 O2];
    (split; [exact F1|]; intros p Hp; apply in_app_iff in Hp; destruct Hp as [Hp|[<-|Hp]]; [auto|exact F2|auto]).
Qed.
Lemma gtree_eval b : eval (fun a => a) bop_mk (gtree b) = b.
Proof. induction b; cbn; congruence. Qed.
Lemma eval_gtree (b : @btree bop bexpr) : is_bleaf (first b) -> (forall p, In p (ops b) -> is_bleaf (snd p)) ->
  gtree (eval (fun a => a) bop_mk b) = b.
Proof.
  induction b as [a|o l IHl r IHr]; cbn [first ops eval]; intros F H.
  - destruct a; try contradiction; reflexivity.
  - assert (El : gtree (eval (fun a => a) bop_mk l) = l) by (apply IHl; [exact F|intros p Hp; apply H; apply in_app_iff; auto]).
    assert (Er : gtree (eval (fun a => a) bop_mk r) = r).
    { apply IHr; [exact (H (o, first r) ltac:(apply in_app_iff; right; left; reflexivity))|intros p Hp; apply H; apply in_app_iff; right; right; exact Hp]. }
    destruct o; cbn [bop_mk gtree]; rewrite El, Er; reflexivity.
Qed.

(** The text after a comparison. *)
Definition tstop (s : text) : Prop := astop s /\ p_cop (skip s) = Err.
Lemma cop_text_stop o w s : (o = CGe /\ w = ">=" \/ o = CLe /\ w = "<=" \/ o = CEq /\ w = "==" \/ o = CLt /\ w = "<" \/ o = CGt /\ w = ">") ->
  astop (txt w ++ s) /\ skip (txt w ++ s) = txt w ++ s /\ (starts (Ascii.eqb "=") s = false -> p_cop (txt w ++ s) = Ok (o, s)).
Proof.
  intros H. unfold astop. assert (V : skip (txt w ++ s) = txt w ++ s) by (apply skip_visible; right; destruct H as [[-> ->]|[[-> ->]|[[-> ->]|[[-> ->]|[-> ->]]]]]; reflexivity).
  rewrite V. split; [|split; [reflexivity|]].
  - split; destruct H as [[-> ->]|[[-> ->]|[[-> ->]|[[-> ->]|[-> ->]]]]]; reflexivity.
  - intros Hs. destruct H as [[-> ->]|[[-> ->]|[[-> ->]|[[-> ->]|[-> ->]]]]]; unfold p_cop, alt, lit; cbn [txt list_ascii_of_string app strip]; try reflexivity.
    + destruct s as [|c s]; [reflexivity|]. cbn [starts] in Hs. cbn -[Ascii.eqb]. rewrite Hs. reflexivity.
    + destruct s as [|c s]; [reflexivity|]. cbn [starts] in Hs. cbn -[Ascii.eqb]. rewrite Hs. reflexivity.
Qed.
Lemma p_comparison_reads o w l r s :
  (o = CGe /\ w = ">=" \/ o = CLe /\ w = "<=" \/ o = CEq /\ w = "==" \/ o = CLt /\ w = "<" \/ o = CGt /\ w = ">") ->
  a_legible l -> a_legible r -> astop s ->
  exists t, p_comparison (encode_arith l ++ txt w ++ encode_arith r ++ s) = Ok (Ok (cop_mk o (a_reload l) (a_reload r)), t) /\ skip t = skip s.
Proof.
  intros Hw Hl Hr S. destruct (cop_text_stop o w (encode_arith r ++ s) Hw) as (S1 & S2 & S3).
  destruct (arith_reads l _ Hl S1) as (t1 & E1 & K1). unfold p_comparison. rewrite E1. cbn [bind]. rewrite K1, S2.
  rewrite S3. 2:{ destruct (encode_starts r Hr) as (c & t & -> & _ & _ & Q). cbn. exact Q. }
  cbn [bind]. rewrite (encode_skip r s Hr). destruct (arith_reads r s Hr S) as (t2 & E2 & K2). rewrite E2. cbn [bind]. exists t2. auto.
Qed.

Lemma p_bterm_leaf rec b s : is_bleaf b -> b_legible b -> tstop s ->
  exists t, p_bterm rec (encode_bool b ++ s) = Ok (Ok (leaf_reload b), t) /\ skip t = skip s.
Proof.
  intros L H [S K]. unfold p_bterm, alt.
  assert (X : forall o w l r, b = cop_mk o l r -> encode_bool b = encode_arith l ++ txt w ++ encode_arith r -> leaf_reload b = cop_mk o (a_reload l) (a_reload r) ->
    (o = CGe /\ w = ">=" \/ o = CLe /\ w = "<=" \/ o = CEq /\ w = "==" \/ o = CLt /\ w = "<" \/ o = CGt /\ w = ">") -> a_legible l -> a_legible r ->
    exists t, match p_comparison (encode_bool b ++ s) with
     | Err => match (do s' <- lit "true" (encode_bool b ++ s); Ok (Ok (BBool true), s')) with
        | Err => match (do s' <- lit "false" (encode_bool b ++ s); Ok (Ok (BBool false), s')) with
           | Err => do s1 <- lit "(" (encode_bool b ++ s); do (b0, s2) <- rec (skip s1); do s3 <- lit ")" (skip s2); Ok (b0, s3)
           | x => x end
        | x => x end
     | x => x end = Ok (Ok (leaf_reload b), t) /\ skip t = skip s).
  { intros o w l r Eb Ee El Hw Hl Hr. destruct (p_comparison_reads o w l r s Hw Hl Hr S) as (t & Ec & Kt). rewrite Ee, <- !app_assoc, Ec, El. exists t. auto. }
  destruct b; cbn [is_bleaf b_legible] in L, H; try contradiction.
  - destruct H. eapply (X CLe "<="); try reflexivity; auto.
  - destruct H. eapply (X CGe ">="); try reflexivity; auto.
  - destruct H. eapply (X CLt "<"); try reflexivity; auto 6.
  - destruct H. eapply (X CGt ">"); try reflexivity; auto 7.
  - destruct H. eapply (X CEq "=="); try reflexivity; auto.
  - clear X. assert (N : forall w, good_name w -> p_comparison (txt w ++ s) = Err).
    { intros w Hw. destruct (arith_reads (AVar w) s Hw S) as (t & E & Kt). unfold p_comparison. cbn [encode_arith] in E. rewrite E. cbn [bind]. rewrite Kt, K. reflexivity. }
    assert (G : forall c w, is_alpha c = true -> forallb is_name_char (list_ascii_of_string w) = true -> good_name (String c w)).
    { intros c w Hc Hw. exists c, (list_ascii_of_string w). split; [reflexivity|]. split; [exact Hc|]. apply forallb_forall. exact Hw. }
    destruct b; cbn [encode_bool leaf_reload].
    + rewrite N by (apply G; reflexivity). rewrite lit_app. cbn [bind]. exists s. auto.
    + rewrite N by (apply G; reflexivity). replace (lit "true" (txt "false" ++ s)) with (@Err text) by reflexivity. cbn [bind]. rewrite lit_app. cbn [bind]. exists s. auto.
Qed.

Lemma bop_text_stop o s : tstop (bop_text o ++ s) /\ exists s', skip (bop_text o ++ s) = s' /\ p_bop s' = Ok (o, txt " " ++ s) /\ s' <> [] .
Proof. destruct o; (split; [repeat split; reflexivity|]); eexists; (split; [reflexivity|split; [reflexivity|discriminate]]). Qed.
Lemma bleaf_skip b s : b_legible b -> is_bleaf b -> skip (encode_bool b ++ s) = encode_bool b ++ s.
Proof.
  intros H L. apply skip_visible. right.
  assert (X : forall e t, a_legible e -> starts visible ((encode_arith e ++ t) ++ s) = true).
  { intros e t He. destruct (encode_starts e He) as (c & u & -> & V & _). exact V. }
  destruct b; cbn [b_legible is_bleaf encode_bool] in *; try contradiction; try (apply X; tauto). destruct b; reflexivity.
Qed.
Definition bstop (s : text) : Prop := tstop s /\ p_bop (skip s) = Err.
Lemma bops_stop xs s : bstop s -> tstop (bops_text xs ++ s).
Proof. intros [H _]. destruct xs as [|[o b] xs]; [exact H|]. cbn [bops_text flat_map fst snd]. rewrite <- !app_assoc. apply bop_text_stop. Qed.

Lemma tstop_skip s t : skip t = skip s -> tstop s -> starts is_name_char t = false -> tstop t.
Proof. intros E [[A B] C] D. unfold tstop, astop. rewrite E. auto. Qed.

Lemma bops_more rec xs : (forall p, In p xs -> is_bleaf (snd p) /\ b_legible (snd p)) -> forall f s u, List.length xs < f -> bstop s -> skip u = skip (bops_text xs ++ s) ->
  exists r, many_more f (p_bop_term rec) u = Ok (map (fun p => (fst p, Ok (leaf_reload (snd p)))) xs, r) /\ skip r = skip s.
Proof.
  induction xs as [|[o b] xs IH]; intros H f s u Hf S Hu; (destruct f as [|f]; [cbn in Hf; lia|]); cbn [many_more]; rewrite Hu.
  - cbn [bops_text flat_map app]. unfold p_bop_term at 1. destruct S as [_ S]. rewrite S. cbn [bind map]. exists u. split; [reflexivity|exact Hu].
  - cbn [bops_text flat_map fst snd]. change (flat_map (fun p : bop * bexpr => bop_text (fst p) ++ encode_bool (snd p))) with bops_text. rewrite <- !app_assoc.
    destruct (bop_text_stop o (encode_bool b ++ bops_text xs ++ s)) as (_ & s' & E & P & _). rewrite E. unfold p_bop_term at 1. rewrite P. cbn [bind].
    destruct (H (o, b) (or_introl eq_refl)) as [L G]. cbn [snd] in L, G. cbn [txt list_ascii_of_string app skip]. replace (is_blank " ") with true by reflexivity.
    rewrite (bleaf_skip b _ G L). destruct (p_bterm_leaf rec b (bops_text xs ++ s) L G (bops_stop xs s S)) as (t & Et & Kt). rewrite Et. cbn [bind].
    destruct (IH (fun p Hp => H p (or_intror Hp)) f s t ltac:(cbn in Hf; lia) S Kt) as (r & Er & Kr). rewrite Er. cbn [bind map fst snd]. exists r. auto.
Qed.
Lemma bops_many rec xs : (forall p, In p xs -> is_bleaf (snd p) /\ b_legible (snd p)) -> forall f s u, List.length xs <= f -> bstop s -> skip u = skip (bops_text xs ++ s) ->
  exists r, many f (p_bop_term rec) (skip u) = Ok (map (fun p => (fst p, Ok (leaf_reload (snd p)))) xs, r) /\ skip r = skip s.
Proof.
  destruct xs as [|[o b] xs]; intros H f s u Hf S Hu; rewrite Hu.
  - cbn [bops_text flat_map app]. exists (skip s). split; [|apply skip_idem]. unfold many, p_bop_term. destruct S as [_ ->]. reflexivity.
  - cbn [bops_text flat_map fst snd]. change (flat_map (fun p : bop * bexpr => bop_text (fst p) ++ encode_bool (snd p))) with bops_text. rewrite <- !app_assoc.
    destruct (bop_text_stop o (encode_bool b ++ bops_text xs ++ s)) as (_ & s' & E & P & _). rewrite E. unfold many, p_bop_term at 1. rewrite P. cbn [bind].
    destruct (H (o, b) (or_introl eq_refl)) as [L G]. cbn [snd] in L, G. cbn [txt list_ascii_of_string app skip]. replace (is_blank " ") with true by reflexivity.
    rewrite (bleaf_skip b _ G L). destruct (p_bterm_leaf rec b (bops_text xs ++ s) L G (bops_stop xs s S)) as (t & Et & Kt). rewrite Et. cbn [bind].
    destruct (bops_more rec xs (fun p Hp => H p (or_intror Hp)) f s t ltac:(cbn in Hf; lia) S Kt) as (r & Er & Kr). rewrite Er. cbn [bind map fst snd]. exists r. auto.
Qed.
Lemma bops_length xs : List.length xs <= List.length (bops_text xs).
Proof. induction xs as [|[o a] xs IH]; [reflexivity|]. cbn. rewrite !app_length. fold (bops_text xs). destruct o; cbn; lia. Qed.

Theorem bool_reads b s : b_legible b -> bstop s -> exists r, bool_text (encode_bool b ++ s) = Ok (Ok (b_reload b), r) /\ skip r = skip s.
Proof.
  intros H S. unfold bool_text. remember (List.length (encode_bool b ++ s)) as n eqn:En. cbn [p_bool].
  destruct (gtree_legible b H) as [G1 G2]. destruct (gtree_leaves b) as [L1 L2]. rewrite (gtree_text b), <- app_assoc.
  destruct (p_bterm_leaf (p_bool n) (first (gtree b)) _ L1 G1 (bops_stop (ops (gtree b)) s S)) as (t & Et & Kt). rewrite Et. cbn [bind].
  destruct (bops_many (p_bool n) (ops (gtree b)) (fun p Hp => conj (L2 p Hp) (G2 p Hp)) n s t) as (r & E & Hr); [|exact S|exact Kt|].
  - rewrite En, (gtree_text b), !app_length. pose proof (bops_length (ops (gtree b))). lia.
  - rewrite E. cbn [bind]. exists r. split; [|exact Hr]. do 2 f_equal. unfold b_reload. rewrite (pratt_res_tree bop_prec bop_mk leaf_reload (gtree b) bop_prec_pos). reflexivity.
Qed.

Theorem guard_reads b : b_legible b -> parse_guard (encode_bool b) = Ok (b_reload b).
Proof.
  intros H. unfold parse_guard.
  assert (V : skip (encode_bool b) = encode_bool b).
  { rewrite gtree_text. apply bleaf_skip; [apply gtree_legible; exact H|apply gtree_leaves]. }
  rewrite V. destruct (bool_reads b [] H) as (r & E & K); [repeat split; reflexivity|]. rewrite app_nil_r in E. unfold opt. rewrite E. cbn [bind].
  cbn [skip] in K. rewrite K. reflexivity.
Qed.

(** *** What is read back *)
Lemma leaf_reload_bleaf b : is_bleaf b -> is_bleaf (leaf_reload b) /\ encode_bool (leaf_reload b) = encode_bool b /\ b_plain (leaf_reload b).
Proof.
  destruct b; cbn [is_bleaf leaf_reload encode_bool b_plain]; intros H; try contradiction;
  try (rewrite !(proj2 (a_reload_spec _)); split; [exact I|]; split; [reflexivity|]; split; apply a_reload_spec).
  auto.
Qed.
Lemma eval_map {O A B T} (f : A -> B) (g : B -> T) (mk : O -> T -> T -> T) (b : @btree O A) : eval (fun a => g (f a)) mk b = eval g mk (eval (fun a => BLeaf (f a)) (fun o l r => BNode o l r) b).
Proof. induction b; cbn; congruence. Qed.
Lemma map_first {O A B} (f : A -> B) (b : @btree O A) : first (eval (fun a => BLeaf (f a)) (fun o l r => BNode o l r) b) = f (first b).
Proof. induction b; cbn; auto. Qed.
Lemma map_ops {O A B} (f : A -> B) (b : @btree O A) : ops (eval (fun a => BLeaf (f a)) (fun o l r => BNode o l r) b) = map (fun p => (fst p, f (snd p))) (ops b).
Proof. induction b; cbn; [reflexivity|]. rewrite map_app. cbn. rewrite map_first. congruence. Qed.
Lemma map_canon {O A B} (prec : O -> nat) (f : A -> B) (b : @btree O A) : canon prec b -> canon prec (eval (fun a => BLeaf (f a)) (fun o l r => BNode o l r) b).
Proof.
  induction b as [|o l IHl r IHr]; cbn; [auto|]. intros (G1 & G2 & C1 & C2). repeat split; auto.
  - destruct l; cbn in *; auto.
  - destruct r; cbn in *; auto.
Qed.
Lemma b_reload_tree b : gtree (b_reload b) = eval (fun a => BLeaf (leaf_reload a)) (fun o l r => BNode o l r) (rebalance bop_prec (gtree b)).
Proof.
  unfold b_reload. rewrite (eval_map leaf_reload (fun a => a)). destruct (rebalance_run bop_prec (gtree b) bop_prec_pos) as (_ & _ & F & Oo). destruct (gtree_leaves b) as [L1 L2].
  apply eval_gtree.
  - rewrite map_first, F. apply leaf_reload_bleaf. exact L1.
  - rewrite map_ops, Oo. intros p Hp. apply in_map_iff in Hp. destruct Hp as (q & <- & Hq). apply leaf_reload_bleaf. apply L2. exact Hq.
Qed.
Lemma b_rank_bound b : 1 <= b_rank b <= 3. Proof. destruct b; cbn; lia. Qed.
Lemma gtree_plain b : b_plain b <-> canon bop_prec (gtree b) /\ b_plain (first (gtree b)) /\ forall p, In p (ops (gtree b)) -> b_plain (snd p).
Proof.
  induction b as [l IHl r IHr|l IHl r IHr|l r|l r|l r|l r|l r|k]; cbn [gtree canon first ops b_plain];
    try (split; [intros H; split; [exact I|split; [exact H|intros p []]]|tauto]).
  - rewrite IHl, IHr. clear IHl IHr.
    assert (R1 : ge_root bop_prec 3 (gtree l) <-> 1 <= b_rank l) by (destruct l; cbn; lia).
    assert (R2 : gt_root bop_prec 3 (gtree r) <-> 1 < b_rank r) by (destruct r; cbn; lia).
    cbn [bop_prec]. rewrite R1, R2. split.
    + intros (A & B & (C1 & P1 & Q1) & (C2 & P2 & Q2)). split; [tauto|]. split; [exact P1|]. intros p Hp. apply in_app_iff in Hp. destruct Hp as [Hp|[<-|Hp]]; auto.
    + intros ((A & B & C1 & C2) & P & Q). repeat split; auto; try (intros p Hp; apply Q; apply in_app_iff; auto; right; right; exact Hp).
      apply (Q (OAnd, first (gtree r))). apply in_app_iff. right. left. reflexivity.
  - rewrite IHl, IHr. clear IHl IHr.
    assert (R1 : ge_root bop_prec 4 (gtree l) <-> 2 <= b_rank l) by (destruct l; cbn; lia).
    assert (R2 : gt_root bop_prec 4 (gtree r) <-> 2 < b_rank r) by (destruct r; cbn; lia).
    cbn [bop_prec]. rewrite R1, R2. split.
    + intros (A & B & (C1 & P1 & Q1) & (C2 & P2 & Q2)). split; [tauto|]. split; [exact P1|]. intros p Hp. apply in_app_iff in Hp. destruct Hp as [Hp|[<-|Hp]]; auto.
    + intros ((A & B & C1 & C2) & P & Q). repeat split; auto; try (intros p Hp; apply Q; apply in_app_iff; auto; right; right; exact Hp).
      apply (Q (OOr, first (gtree r))). apply in_app_iff. right. left. reflexivity.
Qed.
Theorem b_reload_spec b : b_plain (b_reload b) /\ encode_bool (b_reload b) = encode_bool b.
Proof.
  destruct (rebalance_run bop_prec (gtree b) bop_prec_pos) as (_ & C & F & Oo). destruct (gtree_leaves b) as [L1 L2]. split.
  - apply gtree_plain. rewrite b_reload_tree, map_first, map_ops, F, Oo. split; [apply map_canon; exact C|]. split; [apply leaf_reload_bleaf; exact L1|].
    intros p Hp. apply in_map_iff in Hp. destruct Hp as (q & <- & Hq). apply leaf_reload_bleaf. apply L2. exact Hq.
  - rewrite (gtree_text (b_reload b)), (gtree_text b), b_reload_tree, map_first, map_ops, F, Oo. f_equal; [apply leaf_reload_bleaf; exact L1|].
    assert (X : forall xs, (forall p, In p xs -> is_bleaf (snd p)) -> bops_text (map (fun p : bop * bexpr => (fst p, leaf_reload (snd p))) xs) = bops_text xs).
    { induction xs as [|p xs IH]; intros H; [reflexivity|]. cbn [map bops_text flat_map fst snd]. rewrite (proj1 (proj2 (leaf_reload_bleaf (snd p) (H p (or_introl eq_refl))))).
      f_equal. apply IH. intros q Hq. apply H. right. exact Hq. }
    apply X. exact L2.
Qed.
Lemma leaf_reload_plain b : b_plain b -> leaf_reload b = b.
Proof. destruct b; cbn [b_plain leaf_reload]; intros H; try reflexivity; destruct H as [H1 H2]; rewrite !a_reload_plain by assumption; reflexivity. Qed.
Lemma eval_ext_leaves {O A T} (f g : A -> T) (mk : O -> T -> T -> T) (b : @btree O A) : f (first b) = g (first b) -> (forall p, In p (ops b) -> f (snd p) = g (snd p)) ->
  eval f mk b = eval g mk b.
Proof.
  induction b as [a|o l IHl r IHr]; cbn [first ops eval]; intros F H; [exact F|]. f_equal.
  - apply IHl; [exact F|]. intros p Hp. apply H. apply in_app_iff. auto.
  - apply IHr; [exact (H (o, first r) ltac:(apply in_app_iff; right; left; reflexivity))|]. intros p Hp. apply H. apply in_app_iff. right. right. exact Hp.
Qed.
Theorem b_reload_plain b : b_plain b -> b_reload b = b.
Proof.
  intros H. apply gtree_plain in H. destruct H as (C & F & Q). unfold b_reload. rewrite rebalance_canon; [|apply bop_prec_pos|exact C].
  rewrite (eval_ext_leaves leaf_reload (fun a => a)); [apply gtree_eval|apply leaf_reload_plain; exact F|]. intros p Hp. apply leaf_reload_plain. apply Q. exact Hp.
Qed.

(** Conjunctions and disjunctions keep their meaning however they are nested. *)
Lemma sides_leaves b : sides_plain b -> b_plain (first (gtree b)) /\ forall p, In p (ops (gtree b)) -> b_plain (snd p).
Proof.
  induction b as [l IHl r IHr|l IHl r IHr|l r|l r|l r|l r|l r|k]; cbn [gtree first ops sides_plain]; intros H;
    try (split; [exact H|intros p []]); destruct H as [Hl Hr]; destruct (IHl Hl) as [F1 O1], (IHr Hr) as [F2 O2];
    (split; [exact F1|]; intros p Hp; apply in_app_iff in Hp; destruct Hp as [Hp|[<-|Hp]]; [auto|exact F2|auto]).
Qed.
Lemma sat_all d v (b : @btree bop bexpr) : (forall p, In p (ops b) -> fst p = OAnd) ->
  (bsat d v (eval (fun a => a) bop_mk b) <-> bsat d v (first b) /\ forall p, In p (ops b) -> bsat d v (snd p)).
Proof.
  induction b as [a|o l IHl r IHr]; cbn [first ops eval]; intros H; [split; [intros S; split; [exact S|intros p []]|tauto]|].
  assert (o = OAnd) by (apply (H (o, first r)); apply in_app_iff; right; left; reflexivity). subst o. cbn [bop_mk bsat].
  rewrite IHl by (intros p Hp; apply H; apply in_app_iff; auto). rewrite IHr by (intros p Hp; apply H; apply in_app_iff; right; right; exact Hp). split.
  - intros [[A B] [C D]]. split; [exact A|]. intros p Hp. apply in_app_iff in Hp. destruct Hp as [Hp|[<-|Hp]]; auto.
  - intros [A B]. repeat split; auto; try (intros p Hp; apply B; apply in_app_iff; auto; right; right; exact Hp).
    apply (B (OAnd, first r)). apply in_app_iff. right. left. reflexivity.
Qed.
Lemma sat_any d v (b : @btree bop bexpr) : (forall p, In p (ops b) -> fst p = OOr) ->
  (bsat d v (eval (fun a => a) bop_mk b) <-> bsat d v (first b) \/ exists p, In p (ops b) /\ bsat d v (snd p)).
Proof.
  induction b as [a|o l IHl r IHr]; cbn [first ops eval]; intros H; [split; [auto|intros [S|(p & [] & _)]; exact S]|].
  assert (o = OOr) by (apply (H (o, first r)); apply in_app_iff; right; left; reflexivity). subst o. cbn [bop_mk bsat].
  rewrite IHl by (intros p Hp; apply H; apply in_app_iff; auto). rewrite IHr by (intros p Hp; apply H; apply in_app_iff; right; right; exact Hp). split.
  - intros [[A|(p & Hp & B)]|[A|(p & Hp & B)]]; [auto|right; exists p|right; exists (OOr, first r)|right; exists p]; (split; [apply in_app_iff; cbn; auto|exact B || exact A]).
  - intros [A|(p & Hp & B)]; [auto|]. apply in_app_iff in Hp. destruct Hp as [Hp|[<-|Hp]]; [left; right; eauto|right; left; exact B|right; right; eauto].
Qed.
Lemma and_only_ops b : and_only b = true -> forall p, In p (ops (gtree b)) -> fst p = OAnd.
Proof.
  induction b; cbn [and_only gtree ops]; intros H p Hp; try contradiction; try discriminate.
  apply andb_true_iff in H. apply in_app_iff in Hp. destruct Hp as [Hp|[<-|Hp]]; [apply IHb1; tauto|reflexivity|apply IHb2; tauto].
Qed.
Lemma or_only_ops b : or_only b = true -> forall p, In p (ops (gtree b)) -> fst p = OOr.
Proof.
  induction b; cbn [or_only gtree ops]; intros H p Hp; try contradiction; try discriminate.
  apply andb_true_iff in H. apply in_app_iff in Hp. destruct Hp as [Hp|[<-|Hp]]; [apply IHb1; tauto|reflexivity|apply IHb2; tauto].
Qed.
Theorem reload_uniform b d v : sides_plain b -> (and_only b = true \/ or_only b = true) -> (bsat d v (b_reload b) <-> bsat d v b).
Proof.
  intros P H. destruct (rebalance_run bop_prec (gtree b) bop_prec_pos) as (_ & _ & F & Oo). destruct (sides_leaves b P) as [P1 P2].
  assert (E : b_reload b = eval (fun a => a) bop_mk (rebalance bop_prec (gtree b))).
  { unfold b_reload. apply eval_ext_leaves; [rewrite F; apply leaf_reload_plain; exact P1|]. rewrite Oo. intros p Hp. apply leaf_reload_plain. apply P2. exact Hp. }
  rewrite E. rewrite <- (gtree_eval b) at 2. destruct H as [H|H].
  - pose proof (and_only_ops b H) as A. rewrite (sat_all d v (rebalance bop_prec (gtree b))), (sat_all d v (gtree b)), F, Oo; [reflexivity|exact A|rewrite Oo; exact A].
  - pose proof (or_only_ops b H) as A. rewrite (sat_any d v (rebalance bop_prec (gtree b))), (sat_any d v (gtree b)), F, Oo; [reflexivity|exact A|rewrite Oo; exact A].
Qed.

(** ** Reading always comes to an end *)
Lemma p_name_tame s : tame (fun _ => True) p_name s.
Proof.
  unfold tame. destruct s as [|c s]; cbn [p_name]; [repeat split; try discriminate|]. destruct (is_alpha c); [|repeat split; try discriminate].
  pose proof (span_shorter is_name_char s). destruct (span is_name_char s) as [a b]. cbn in H. split; [discriminate|]. split; [discriminate|].
  intros n s' E. injection E as _ <-. split; [exact I|cbn; lia].
Qed.
Lemma p_int_tame s : tame (fun _ => True) p_int s.
Proof.
  unfold tame. destruct s as [|c s]; cbn [p_int]; [repeat split; try discriminate|]. destruct (Ascii.eqb c "0").
  - split; [discriminate|]. split; [discriminate|]. intros n s' E. injection E as _ <-. split; [exact I|cbn; lia].
  - destruct (is_nonzero c); [|repeat split; try discriminate].
    pose proof (span_shorter is_digit s). destruct (span is_digit s) as [a b]. cbn in H. split; [discriminate|]. split; [discriminate|].
    intros n s' E. injection E as _ <-. split; [exact I|cbn; lia].
Qed.
Lemma p_aop_tame s : tame (fun _ => True) p_aop s.
Proof.
  unfold tame. destruct s as [|c s]; cbn [p_aop]; [repeat split; discriminate|].
  repeat match goal with |- context[if ?b then _ else _] => destruct b; [split; [discriminate|]; split; [discriminate|]; intros n s' E; injection E as _ <-; split; [exact I|cbn; lia]|] end.
  repeat split; discriminate.
Qed.
(** Parsers built from a literal and a value. *)
Lemma lit_val_tame {A} (V : A -> Prop) w a s : V a -> txt w <> [] -> tame V (fun s => do s' <- lit w s; Ok (a, s')) s.
Proof.
  intros Va Hw. unfold tame. destruct (lit_tame w s) as [N P]. destruct (lit w s) as [s'| | |] eqn:E; cbn [bind]; try congruence; [|repeat split; discriminate].
  split; [discriminate|]. split; [discriminate|]. intros x t X. injection X as <- <-. split; [exact Va|]. apply lit_shorter in E. destruct (txt w); [congruence|]. cbn in E. lia.
Qed.
Lemma paren_tame {A} (V : A -> Prop) (rec : parser A) s : (forall t, List.length t < List.length s -> tame V rec t) ->
  tame V (fun s => do s1 <- lit "(" s; do (a, s2) <- rec (skip s1); do s3 <- lit ")" (skip s2); Ok (a, s3)) s.
Proof.
  intros H. unfold tame. destruct (lit_tame "(" s) as [N P]. destruct (lit "(" s) as [s1| | |] eqn:E; cbn [bind]; try congruence; [|repeat split; discriminate].
  apply lit_shorter in E. cbn in E. pose proof (skip_shorter s1). destruct (H (skip s1) ltac:(lia)) as (N1 & P1 & L1).
  destruct (rec (skip s1)) as [[a s2]| | |]; cbn [bind]; try congruence; [|repeat split; discriminate]. destruct (L1 a s2 eq_refl) as [Va L2].
  destruct (lit_tame ")" (skip s2)) as [N3 P3]. destruct (lit ")" (skip s2)) as [s3| | |] eqn:E3; cbn [bind]; try congruence; [|repeat split; discriminate].
  apply lit_shorter in E3. cbn in E3. pose proof (skip_shorter s2). split; [discriminate|]. split; [discriminate|]. intros x t X. injection X as <- <-. split; [exact Va|lia].
Qed.
(** A head parser followed by another. *)
Lemma seq_tame {A B C} (V : A -> Prop) (W : B -> Prop) (X : C -> Prop) (p : parser A) (q : parser B) (k : A -> B -> C) s :
  tame V p s -> (forall t, List.length t <= List.length s -> tame W q t) -> (forall a b, V a -> W b -> X (k a b)) ->
  tame X (fun s => do (a, s1) <- p s; do (b, s2) <- q (skip s1); Ok (k a b, s2)) s.
Proof.
  intros (N & P & L) H K. unfold tame. destruct (p s) as [[a s1]| | |]; cbn [bind]; try congruence; [|repeat split; discriminate]. destruct (L a s1 eq_refl) as [Va L1].
  pose proof (skip_shorter s1). destruct (H (skip s1) ltac:(lia)) as (N2 & P2 & L2). destruct (q (skip s1)) as [[b s2]| | |]; cbn [bind]; try congruence; [|repeat split; discriminate].
  destruct (L2 b s2 eq_refl) as [Wb L3]. split; [discriminate|]. split; [discriminate|]. intros x t E. injection E as <- <-. split; [auto|lia].
Qed.
Lemma map_tame {A B} (V : A -> Prop) (W : B -> Prop) (p : parser A) (k : A -> B) s : tame V p s -> (forall a, V a -> W (k a)) ->
  tame W (fun s => do (a, s') <- p s; Ok (k a, s')) s.
Proof.
  intros (N & P & L) K. unfold tame. destruct (p s) as [[a s1]| | |]; cbn [bind]; try congruence; [|repeat split; discriminate]. destruct (L a s1 eq_refl) as [Va L1].
  split; [discriminate|]. split; [discriminate|]. intros x t E. injection E as <- <-. auto.
Qed.
Lemma p_term_tame rec s : (forall t, List.length t < List.length s -> tame settled rec t) -> tame settled (p_term rec) s.
Proof.
  intros H. apply alt_tame; [apply paren_tame; exact H|]. apply alt_tame.
  - apply (map_tame (fun _ => True) settled p_int (fun k => rmap AInt (i32_of k))); [apply p_int_tame|]. intros k _. unfold i32_of. destruct (Z.leb k i32_max); exact I.
  - apply (map_tame (fun _ => True) settled p_name (fun n => Ok (AVar n))); [apply p_name_tame|]. intros; exact I.
Qed.
Lemma p_aop_term_tame rec s : (forall t, List.length t <= List.length s -> tame settled rec t) -> tame (fun p => settled (snd p)) (p_aop_term rec) s.
Proof.
  intros H. apply (seq_tame (fun _ => True) settled _ p_aop (p_term rec) (fun o t => (o, t)));
    [apply p_aop_tame|intros t Ht; apply p_term_tame; intros u Hu; apply H; lia|auto].
Qed.
Lemma p_arith_tame f : forall s, List.length s < f -> tame settled (p_arith f) s.
Proof.
  induction f as [|f IH]; intros s Hf; [lia|]. unfold tame. cbn [p_arith].
  destruct (p_term_tame (p_arith f) s) as (N & P & L); [intros t Ht; apply IH; lia|]. destruct (p_term (p_arith f) s) as [[x s1]| | |]; cbn [bind]; try congruence; [|repeat split; discriminate].
  destruct (L x s1 eq_refl) as [Vx L1]. pose proof (skip_shorter s1).
  destruct (many_tame (fun p => settled (snd p)) (p_aop_term (p_arith f)) f (skip s1)) as (N2 & P2 & L2); [lia|intros t Ht; apply p_aop_term_tame; intros u Hu; apply IH; lia|].
  destruct (many f (p_aop_term (p_arith f)) (skip s1)) as [[xs s2]| | |]; cbn [bind]; try congruence; [|repeat split; discriminate]. destruct (L2 xs s2 eq_refl) as [Vs L3].
  split; [discriminate|]. split; [discriminate|]. intros a s' E. injection E as <- <-. split; [apply settled_pratt; assumption|lia].
Qed.
Lemma arith_text_tame s : tame settled arith_text s.
Proof. apply (p_arith_tame (S (List.length s)) s). lia. Qed.
Lemma p_cop_tame s : tame (fun _ => True) p_cop s.
Proof. unfold p_cop. repeat apply alt_tame; apply lit_val_tame; try exact I; discriminate. Qed.
Lemma p_bop_tame s : tame (fun _ => True) p_bop s.
Proof. unfold p_bop. repeat apply alt_tame; apply lit_val_tame; try exact I; discriminate. Qed.
Lemma p_comparison_tame s : tame settled p_comparison s.
Proof.
  unfold tame, p_comparison. destruct (arith_text_tame s) as (N & P & L). destruct (arith_text s) as [[l s1]| | |]; cbn [bind]; try congruence; [|repeat split; discriminate].
  destruct (L l s1 eq_refl) as [Vl L1]. pose proof (skip_shorter s1). destruct (p_cop_tame (skip s1)) as (N2 & P2 & L2).
  destruct (p_cop (skip s1)) as [[o s2]| | |]; cbn [bind]; try congruence; [|repeat split; discriminate]. destruct (L2 o s2 eq_refl) as [_ L3]. pose proof (skip_shorter s2).
  destruct (arith_text_tame (skip s2)) as (N4 & P4 & L4). destruct (arith_text (skip s2)) as [[r s3]| | |]; cbn [bind]; try congruence; [|repeat split; discriminate].
  destruct (L4 r s3 eq_refl) as [Vr L5]. split; [discriminate|]. split; [discriminate|]. intros a s' E. injection E as <- <-. split; [|lia].
  apply settled_bind; [exact Vl|]. intros x _. apply settled_bind; [exact Vr|]. intros; exact I.
Qed.
Lemma p_bterm_tame rec s : (forall t, List.length t < List.length s -> tame settled rec t) -> tame settled (p_bterm rec) s.
Proof.
  intros H. apply alt_tame; [apply p_comparison_tame|]. apply alt_tame; [apply lit_val_tame; [exact I|discriminate]|].
  apply alt_tame; [apply lit_val_tame; [exact I|discriminate]|apply paren_tame; exact H].
Qed.
Lemma p_bop_term_tame rec s : (forall t, List.length t <= List.length s -> tame settled rec t) -> tame (fun p => settled (snd p)) (p_bop_term rec) s.
Proof.
  intros H. apply (seq_tame (fun _ => True) settled _ p_bop (p_bterm rec) (fun o t => (o, t)));
    [apply p_bop_tame|intros t Ht; apply p_bterm_tame; intros u Hu; apply H; lia|auto].
Qed.
Lemma p_bool_tame f : forall s, List.length s < f -> tame settled (p_bool f) s.
Proof.
  induction f as [|f IH]; intros s Hf; [lia|]. unfold tame. cbn [p_bool].
  destruct (p_bterm_tame (p_bool f) s) as (N & P & L); [intros t Ht; apply IH; lia|]. destruct (p_bterm (p_bool f) s) as [[x s1]| | |]; cbn [bind]; try congruence; [|repeat split; discriminate].
  destruct (L x s1 eq_refl) as [Vx L1]. pose proof (skip_shorter s1).
  destruct (many_tame (fun p => settled (snd p)) (p_bop_term (p_bool f)) f (skip s1)) as (N2 & P2 & L2); [lia|intros t Ht; apply p_bop_term_tame; intros u Hu; apply IH; lia|].
  destruct (many f (p_bop_term (p_bool f)) (skip s1)) as [[xs s2]| | |]; cbn [bind]; try congruence; [|repeat split; discriminate]. destruct (L2 xs s2 eq_refl) as [Vs L3].
  split; [discriminate|]. split; [discriminate|]. intros a s' E. injection E as <- <-. split; [apply settled_pratt; assumption|lia].
Qed.
Lemma bool_text_tame s : tame settled bool_text s.
Proof. apply (p_bool_tame (S (List.length s)) s). lia. Qed.
Theorem parse_guard_ends s : parse_guard s <> NoFuel.
Proof.
  unfold parse_guard, opt. destruct (bool_text_tame (skip s)) as (N & P & L). destruct (bool_text (skip s)) as [[b s1]| | |]; cbn [bind]; try congruence.
  - destruct (L b s1 eq_refl) as [Vb _]. unfold p_lit. destruct (lit_tame ";" (skip s1)) as [N2 P2]. destruct (lit ";" (skip s1)) as [s2| | |]; cbn [bind]; try congruence.
    + unfold eoi. destruct (skip s2); cbn [bind]; [|discriminate]. destruct b; try contradiction; discriminate.
    + unfold eoi. destruct (skip (skip s1)); cbn [bind]; [|discriminate]. destruct b; try contradiction; discriminate.
  - unfold p_lit. destruct (lit_tame ";" (skip (skip s))) as [N2 P2]. destruct (lit ";" (skip (skip s))) as [s2| | |]; cbn [bind]; try congruence.
    + unfold eoi. destruct (skip s2); cbn [bind]; discriminate.
    + unfold eoi. destruct (skip (skip (skip s))); cbn [bind]; discriminate.
Qed.

(** ** Federations *)
Lemma constraint_plain nm c g : (forall i n, nm i = Some n -> good_name n) ->
  (let k := if Nat.eqb (ci c) 0 then (- cc c)%Z else cc c in (0 <= k <= 2147483647)%Z) ->
  from_constraint c nm = Ok g -> b_legible g /\ b_plain g /\ is_bleaf g.
Proof.
  intros Hn Hk E. unfold from_constraint, var_of in E.
  assert (U : forall i x, unwrap (nm i) = Ok x -> good_name x) by (intros i x X; apply (Hn i); destruct (nm i); cbn in X; [congruence|discriminate]).
  destruct c as [i j st k]. cbn [ci cj cs cc] in *. destruct i as [|i], j as [|j]; cbn [Nat.eqb] in Hk; [discriminate| | |].
  - destruct (unwrap (nm (S j))) as [x| | |] eqn:Ux; cbn [bind] in E; try discriminate. apply U in Ux. destruct st; injection E as <-; cbn; auto 7.
  - destruct (unwrap (nm (S i))) as [x| | |] eqn:Ux; cbn [bind] in E; try discriminate. apply U in Ux. destruct st; injection E as <-; cbn; auto 7.
  - destruct (unwrap (nm (S i))) as [x| | |] eqn:Ux; cbn [bind] in E; try discriminate. destruct (unwrap (nm (S j))) as [y| | |] eqn:Uy; cbn [bind] in E; try discriminate.
    apply U in Ux. apply U in Uy. destruct (Z.eqb k 0); destruct st; injection E as <-; cbn; repeat split; auto; lia.
Qed.
Lemma fold_and_plain l : forall g, b_legible g -> b_plain g -> (is_bleaf g \/ b_rank g = 1) -> (forall x, In x l -> b_legible x /\ b_plain x /\ is_bleaf x) ->
  exists r, fold_left (fun (acc : option bexpr) e => match acc with None => Some e | Some r => Some (BAnd r e) end) l (Some g) = Some r /\ b_legible r /\ b_plain r.
Proof.
  induction l as [|x l IH]; intros g Lg Pg Rg H; [exists g; auto|]. cbn [fold_left]. destruct (H x (or_introl eq_refl)) as (Lx & Px & Bx).
  apply IH; [split; assumption| |right; reflexivity|intros y Hy; apply H; right; exact Hy].
  cbn [b_plain]. pose proof (b_rank_bound g). repeat split; auto; [lia|]. destruct x; try contradiction; cbn; lia.
Qed.
Lemma conjunction_plain nm z o : (forall i n, nm i = Some n -> good_name n) ->
  (forall c, In c z -> let k := if Nat.eqb (ci c) 0 then (- cc c)%Z else cc c in (0 <= k <= 2147483647)%Z) ->
  from_conjunction z nm = Ok o -> forall g, o = Some g -> b_legible g /\ b_plain g /\ (List.length z <= 1 -> is_bleaf g).
Proof.
  intros Hn Hk E g ->. destruct z as [|c [|c' z]]; cbn [from_conjunction] in E; [discriminate| |].
  - destruct (from_constraint c nm) as [x| | |] eqn:Ec; cbn [bind] in E; try discriminate. injection E as <-.
    destruct (constraint_plain nm c x Hn (Hk c (or_introl eq_refl)) Ec) as (A & B & C). auto.
  - destruct (mapM (fun c => from_constraint c nm) (c :: c' :: z)) as [es| | |] eqn:Em; cbn [bind] in E; try discriminate. injection E as E.
    assert (F : forall x, In x es -> b_legible x /\ b_plain x /\ is_bleaf x).
    { intros x Hx. destruct (proj2 (SystemFacts.mapM_in _ _ _ Em) x Hx) as (k & Hc & Ek). apply (constraint_plain nm k x Hn); [apply Hk; exact Hc|exact Ek]. }
    destruct es as [|e es]; [discriminate|]. unfold fold_opt in E. cbn [fold_left] in E. destruct (F e (or_introl eq_refl)) as (A & B & C).
    destruct (fold_and_plain es e A B (or_introl C) (fun x Hx => F x (or_intror Hx))) as (r & Er & Lr & Pr). rewrite Er in E. injection E as <-.
    split; [exact Lr|]. split; [exact Pr|]. cbn. lia.
Qed.
Lemma disj_plain nm f : (forall i n, nm i = Some n -> good_name n) ->
  (forall z c, In z f -> In c z -> let k := if Nat.eqb (ci c) 0 then (- cc c)%Z else cc c in (0 <= k <= 2147483647)%Z) ->
  (forall z, In z f -> List.length z <= 1) -> forall acc o, (forall g, acc = Some g -> b_legible g /\ b_plain g /\ 2 <= b_rank g) ->
  from_disj_loop f nm acc = Ok o -> forall g, o = Some g -> b_legible g /\ b_plain g.
Proof.
  intros Hn. induction f as [|z f IH]; intros Hk Hl acc o Ha E g Hg; cbn [from_disj_loop] in E.
  - injection E as <-. destruct (Ha g Hg) as (A & B & _). auto.
  - destruct (from_conjunction z nm) as [oe| | |] eqn:Ez; cbn [bind] in E; try discriminate. destruct oe as [e|]; [|congruence].
    destruct (conjunction_plain nm z _ Hn (fun c Hc => Hk z c (or_introl eq_refl) Hc) Ez e eq_refl) as (A & B & C). specialize (C (Hl z (or_introl eq_refl))).
    assert (R : b_rank e = 3) by (destruct e; try contradiction; reflexivity).
    refine (IH _ _ _ _ _ E g Hg); [intros y c Hy Hc; apply (Hk y c); [right; exact Hy|exact Hc]|intros y Hy; apply Hl; right; exact Hy|].
    intros x X. injection X as <-. destruct acc as [r|].
    + destruct (Ha r eq_refl) as (D & F & G). cbn. repeat split; auto; lia.
    + rewrite R. auto.
Qed.
Theorem federation_plain nm f o : savable nm f -> from_disjunction f nm = Ok o -> forall g, o = Some g -> b_legible g /\ b_plain g.
Proof.
  intros (Hn & Hk & Hs) E g Hg. destruct f as [|z [|z' f]]; cbn [from_disjunction] in E.
  - injection E as <-. injection Hg as <-. split; exact I.
  - destruct (conjunction_plain nm z o Hn (fun c Hc => Hk z c (or_introl eq_refl) Hc) E g Hg) as (A & B & _). auto.
  - destruct Hs as [Hs|Hs]; [cbn in Hs; lia|]. refine (disj_plain nm _ Hn Hk Hs None o _ E g Hg). discriminate.
Qed.
Lemma encode_not_empty b : b_legible b -> encode_bool b <> [].
Proof.
  intros H. rewrite gtree_text. destruct (gtree_legible b H) as [L _]. destruct (gtree_leaves b) as [F _]. destruct (first (gtree b)); cbn [is_bleaf b_legible encode_bool] in *; try contradiction;
  try (destruct (encode_starts _ (proj1 L)) as (c & t & -> & _); discriminate). destruct b0; discriminate.
Qed.
Lemma decode_plain o : (forall g, o = Some g -> b_legible g /\ b_plain g) -> decode_guard (encode_opt_bool o) = Ok o.
Proof.
  destruct o as [g|]; intros H; [|reflexivity]. destruct (H g eq_refl) as [L P]. cbn [encode_opt_bool]. unfold decode_guard. pose proof (encode_not_empty g L).
  pose proof (guard_reads g L) as E. destruct (encode_bool g); [congruence|]. rewrite E, (b_reload_plain g P). reflexivity.
Qed.

(** ** Updates *)
Definition utext (u : string * arith) : text := txt (fst u) ++ txt "=" ++ encode_arith (snd u).
Lemma updates_text u us : encode_updates (u :: us) = utext u ++ flat_map (fun u => txt ", " ++ utext u) us.
Proof.
  revert u. induction us as [|v us IH]; intros [x e]; [cbn; rewrite app_nil_r; reflexivity|].
  change (encode_updates ((x, e) :: v :: us)) with (txt x ++ txt "=" ++ encode_arith e ++ txt ", " ++ encode_updates (v :: us)). rewrite IH. unfold utext. cbn [fst snd flat_map]. rewrite <- !app_assoc. reflexivity.
Qed.
Lemma p_assignment_reads u s : good_name (fst u) -> a_legible (snd u) -> astop s ->
  exists r, p_assignment (utext u ++ s) = Ok ((do a' <- expect (simplify (a_reload (snd u))); Ok (fst u, a')), r) /\ skip r = skip s.
Proof.
  destruct u as [x e]. cbn [fst snd]. intros Hx He S. unfold p_assignment, utext. cbn [fst snd]. rewrite <- !app_assoc. rewrite (p_name_app x _ (good_name_ok x Hx)) by reflexivity. cbn [bind].
  rewrite skip_visible by (right; reflexivity). unfold alt, p_lit. rewrite lit_app. cbn [bind]. rewrite (encode_skip e s He).
  destruct (arith_reads e s He S) as (r & E & K). rewrite E. cbn [bind]. exists r. auto.
Qed.
Lemma utext_skip u s : good_name (fst u) -> skip (utext u ++ s) = utext u ++ s.
Proof.
  intros (c & a & E & Hc & _). unfold utext. change (txt (fst u)) with (list_ascii_of_string (fst u)). rewrite E. apply skip_visible. right. cbn. pose proof (alpha_facts c) as F. rewrite Hc in F. cbn [negb orb] in F.
  rewrite !andb_true_iff in F. tauto.
Qed.
Theorem updates_read us : (forall u, In u us -> good_name (fst u) /\ a_legible (snd u)) ->
  parse_updates (encode_updates us) = mapM (fun u => do a' <- expect (simplify (a_reload (snd u))); Ok (fst u, a')) us.
Proof.
  intros H. destruct us as [|u us]; [reflexivity|]. unfold parse_updates. rewrite updates_text. destruct (H u (or_introl eq_refl)) as [Hu Lu]. rewrite (utext_skip u _ Hu).
  unfold opt, p_assignments.
  assert (ST : forall x s, astop (txt ", " ++ utext x ++ s)) by (intros; split; reflexivity).
  assert (SU : astop (flat_map (fun u => txt ", " ++ utext u) us)).
  { destruct us as [|v us]; [split; reflexivity|]. cbn [flat_map]. rewrite <- app_assoc. apply ST. }
  destruct (p_assignment_reads u (flat_map (fun u => txt ", " ++ utext u) us) Hu Lu SU) as (r & E & K). rewrite E. cbn [bind].
  destruct (many_reads (fun s => do (_, s') <- p_lit "," s; p_assignment (skip s')) (fun u => txt ", " ++ utext u)
    (fun u : string * arith => do a' <- expect (simplify (a_reload (snd u))); Ok (fst u, a')) astop us) with (f := List.length (utext u ++ flat_map (fun u => txt ", " ++ utext u) us)) (s := @nil ascii) (u := r) as (t & Et & Kt).
  - intros x s Hx S. destruct (H x (or_intror Hx)) as [Gx Lx]. rewrite <- app_assoc. cbn [txt list_ascii_of_string app]. rewrite skip_visible by (right; reflexivity).
    unfold p_lit. change ("," :: " " :: utext x ++ s)%char with (txt "," ++ (" "%char :: utext x ++ s)). rewrite lit_app. cbn [bind]. cbn [skip]. replace (is_blank " ") with true by reflexivity.
    rewrite (utext_skip x s Gx). apply p_assignment_reads; assumption.
  - intros x s _. rewrite <- app_assoc. apply ST.
  - rewrite app_length. assert (forall l : list (string * arith), List.length l <= List.length (flat_map (fun u => txt ", " ++ utext u) l)).
    { induction l as [|y l IHl]; [reflexivity|]. cbn [flat_map]. rewrite !app_length. change (List.length (txt ", ")) with 2. cbn [List.length]. lia. }
    pose proof (H0 us). lia.
  - split; reflexivity.
  - reflexivity.
  - rewrite app_nil_r. exact K.
  - rewrite Et. cbn [bind]. rewrite Kt. cbn [skip opt p_lit lit txt list_ascii_of_string strip ok_or bind eoi mapM]. unfold opt, p_lit. cbn -[mapM a_reload simplify]. cbn [mapM].
    assert (X : forall l : list (string * arith), mapM (fun r => r) (map (fun u => do a' <- expect (simplify (a_reload (snd u))); Ok (fst u, a')) l) = mapM (fun u => do a' <- expect (simplify (a_reload (snd u))); Ok (fst u, a')) l).
    { induction l as [|y l IHl]; [reflexivity|]. cbn [map mapM]. rewrite IHl. reflexivity. }
    rewrite X. reflexivity.
Qed.
Theorem updates_reload us : (forall u, In u us -> update_savable u) -> parse_updates (encode_updates us) = Ok us.
Proof.
  intros H. rewrite updates_read by (intros u Hu; destruct (H u Hu) as (A & B & _); auto).
  induction us as [|[x e] us IH]; [reflexivity|]. cbn [mapM]. rewrite IH by (intros u Hu; apply H; right; exact Hu). destruct (H (x, e) (or_introl eq_refl)) as (_ & _ & P & E). cbn [fst snd] in *.
  rewrite (a_reload_plain e P), E. reflexivity.
Qed.
