(** Facts about the parsing library. *)
From Coq Require Import List String Ascii ZArith Bool Arith Lia.
From Verif Require Import Model.Base Model.Peg.
Import ListNotations.

(** ** Operator precedence *)
Section PrattFacts.
  Context {O : Type} (prec : O -> nat).
  Inductive btree (A : Type) := BLeaf (a : A) | BNode (o : O) (l r : btree A).
  Arguments BLeaf {A} a. Arguments BNode {A} o l r.
  Context {A : Type}.

  Fixpoint first (b : btree A) : A := match b with BLeaf a => a | BNode _ l _ => first l end.
  Fixpoint ops (b : btree A) : list (O * A) := match b with BLeaf _ => [] | BNode o l r => ops l ++ (o, first r) :: ops r end.
  (** [binds p b]: every operator at the root of [b] binds at least as tight as [p]. *)
  Definition ge_root (p : nat) (b : btree A) : Prop := match b with BLeaf _ => True | BNode o _ _ => p <= prec o end.
  Definition gt_root (p : nat) (b : btree A) : Prop := match b with BLeaf _ => True | BNode o _ _ => p < prec o end.
  Fixpoint canon (b : btree A) : Prop :=
    match b with BLeaf _ => True | BNode o l r => ge_root (prec o) l /\ gt_root (prec o) r /\ canon l /\ canon r end.
  (** The next operator binds at most as tight as [p] / as the root of [b]. *)
  Definition head_le {X} (p : nat) (xs : list (O * X)) : Prop := match xs with [] => True | (o, _) :: _ => prec o <= p end.
  Definition head_root {X} (b : btree A) (xs : list (O * X)) : Prop :=
    match xs with [] => True | (o, _) :: _ => match b with BLeaf _ => True | BNode p _ _ => prec o <= prec p end end.

  Lemma pratt_mono {T} (mk : O -> T -> T -> T) f : forall rbp l xs x, pratt prec mk f rbp l xs = Ok x -> forall f', f <= f' -> pratt prec mk f' rbp l xs = Ok x.
  Proof.
    induction f as [|f IH]; intros rbp l xs x E f' Hf; [discriminate|]. destruct f' as [|f']; [lia|]. cbn [pratt] in *.
    destruct xs as [|[o t] xs]; [exact E|]. destruct (Nat.ltb rbp (prec o)); [|exact E].
    destruct (pratt prec mk f (prec o) t xs) as [[r ys]| | |] eqn:E1; cbn [bind] in E; try discriminate.
    rewrite (IH _ _ _ _ E1) by lia. cbn [bind]. apply (IH _ _ _ _ E). lia.
  Qed.
  Lemma pratt_total {T} (mk : O -> T -> T -> T) f : forall rbp l xs, List.length xs < f ->
    exists t ys, pratt prec mk f rbp l xs = Ok (t, ys) /\ List.length ys <= List.length xs /\ head_le rbp ys.
  Proof.
    induction f as [|f IH]; intros rbp l xs Hf; [lia|]. cbn [pratt]. destruct xs as [|[o t] xs].
    - exists l, []. cbn. auto.
    - destruct (Nat.ltb rbp (prec o)) eqn:L.
      + destruct (IH (prec o) t xs) as (r & ys & E & Ly & _); [cbn in Hf; lia|]. rewrite E. cbn [bind].
        destruct (IH rbp (mk o l r) ys) as (u & zs & E2 & Lz & H); [cbn in Hf; lia|]. exists u, zs. split; [exact E2|]. cbn. split; [lia|exact H].
      + apply Nat.ltb_ge in L. exists l, ((o, t) :: xs). split; [reflexivity|]. cbn. auto.
  Qed.

  (** The parser on trees. *)
  Notation run := (pratt prec (fun o l r => BNode o l r)).
  Definition leafs (xs : list (O * A)) : list (O * btree A) := map (fun p => (fst p, BLeaf (snd p))) xs.
  Lemma leafs_app xs ys : leafs (xs ++ ys) = leafs xs ++ leafs ys. Proof. apply map_app. Qed.

  Lemma pratt_reads (b : btree A) : canon b -> forall rbp rest, gt_root rbp b -> head_root b rest ->
    forall f x, run f rbp b rest = Ok x -> exists f', run f' rbp (BLeaf (first b)) (leafs (ops b) ++ rest) = Ok x.
  Proof.
    induction b as [a|o l IHl r IHr]; intros C rbp rest G H f x E; cbn [first ops leafs map app].
    - exists f. exact E.
    - cbn [canon gt_root] in C, G. destruct C as (Gl & Gr & Cl & Cr).
      assert (E0 : exists f0, run f0 rbp l ((o, BLeaf (first r)) :: leafs (ops r) ++ rest) = Ok x).
      { (* the right operand stops before [rest] *)
        assert (St : run 1 (prec o) r rest = Ok (r, rest)).
        { cbn [pratt]. destruct rest as [|[p t] rest]; [reflexivity|]. cbn [head_root] in H. replace (Nat.ltb (prec o) (prec p)) with false; [reflexivity|].
          symmetry. apply Nat.ltb_ge. exact H. }
        assert (Hr : head_root r rest).
        { destruct rest as [|[p t] rest]; [exact I|]. cbn [head_root] in *. destruct r as [|q ? ?]; [exact I|]. cbn in Gr. lia. }
        destruct (IHr Cr (prec o) rest Gr Hr 1 _ St) as (f1 & E1).
        exists (S (f + f1)). cbn [pratt]. replace (Nat.ltb rbp (prec o)) with true by (symmetry; apply Nat.ltb_lt; exact G).
        rewrite (pratt_mono _ _ _ _ _ _ E1) by lia. cbn [bind]. apply (pratt_mono _ _ _ _ _ _ E). lia. }
      destruct E0 as (f0 & E0).
      assert (Gl' : gt_root rbp l) by (destruct l as [|p ? ?]; [exact I|cbn in *; lia]).
      assert (Hl : head_root l ((o, BLeaf (first r)) :: leafs (ops r) ++ rest)) by (destruct l as [|p ? ?]; [exact I|exact Gl]).
      destruct (IHl Cl rbp _ Gl' Hl f0 x E0) as (f' & E'). exists f'. rewrite leafs_app, <- app_assoc. exact E'.
  Qed.

  (** What comes out is canonical and has the operands and operators that went in. *)
  Lemma pratt_sound f : forall rbp (l : btree A) xs t ys, run f rbp l (leafs xs) = Ok (t, ys) -> canon l -> gt_root rbp l -> head_root l xs ->
    canon t /\ gt_root rbp t /\ exists zs, ys = leafs zs /\ first t = first l /\ ops t ++ zs = ops l ++ xs /\ head_le rbp zs.
  Proof.
    induction f as [|f IH]; intros rbp l xs t ys E C G H; [discriminate|]. cbn [pratt] in E. destruct xs as [|[o a] xs].
    - cbn in E. injection E as <- <-. split; [exact C|]. split; [exact G|]. exists []. repeat split; auto.
    - cbn [leafs map fst snd] in E. destruct (Nat.ltb rbp (prec o)) eqn:L.
      + destruct (run f (prec o) (BLeaf a) (leafs xs)) as [[r rs]| | |] eqn:E1; unfold leafs in E1; rewrite E1 in E; cbn [bind] in E; try discriminate.
        apply Nat.ltb_lt in L. destruct (IH (prec o) (BLeaf a) xs r rs E1 I I) as (Cr & Gr & zs & -> & Fr & Or & Hz).
        { destruct xs as [|[? ?] ?]; exact I. }
        destruct (IH rbp (BNode o l r) zs t ys E) as (Ct & Gt & ws & -> & Ft & Ot & Hw).
        * cbn [canon]. split; [|split; [exact Gr|split; [exact C|exact Cr]]]. destruct l as [|p ? ?]; [exact I|exact H].
        * exact L.
        * cbn [head_root]. destruct zs as [|[p ?] ?]; [exact I|exact Hz].
        * split; [exact Ct|]. split; [exact Gt|]. exists ws. split; [reflexivity|]. split; [exact Ft|]. split; [|exact Hw].
          rewrite Ot. cbn [ops]. rewrite <- app_assoc. f_equal. cbn [app]. rewrite Fr. cbn [first]. f_equal. rewrite Or. reflexivity.
      + injection E as <- <-. apply Nat.ltb_ge in L. split; [exact C|]. split; [exact G|]. exists ((o, a) :: xs). repeat split; auto.
  Qed.

  Theorem pratt_canon (b : btree A) : (forall o, 0 < prec o) -> canon b -> pratt_all prec (fun o l r => BNode o l r) (BLeaf (first b)) (leafs (ops b)) = Ok b.
  Proof.
    intros P C. destruct (pratt_reads b C 0 [] ltac:(destruct b; [exact I|apply P]) I 1 (b, []) eq_refl) as (f & E). rewrite app_nil_r in E.
    unfold pratt_all. destruct (pratt_total (fun o l r => BNode o l r) (S (List.length (leafs (ops b)))) 0 (BLeaf (first b)) (leafs (ops b)) (Nat.lt_succ_diag_r _)) as (t & ys & E1 & _).
    rewrite E1. pose proof (pratt_mono _ _ _ _ _ _ E1 (f + S (List.length (leafs (ops b)))) ltac:(lia)) as M1.
    pose proof (pratt_mono _ _ _ _ _ _ E (f + S (List.length (leafs (ops b)))) ltac:(lia)) as M2. rewrite M1 in M2. injection M2 as -> ->. reflexivity.
  Qed.
  Theorem pratt_result (a : A) xs : (forall o, 0 < prec o) ->
    exists b, pratt_all prec (fun o l r => BNode o l r) (BLeaf a) (leafs xs) = Ok b /\ canon b /\ first b = a /\ ops b = xs.
  Proof.
    intros P. unfold pratt_all.
    destruct (pratt_total (fun o l r => BNode o l r) (S (List.length (leafs xs))) 0 (BLeaf a) (leafs xs) (Nat.lt_succ_diag_r _)) as (t & ys & E1 & _ & H).
    destruct (pratt_sound _ _ _ _ _ _ E1 I I) as (Ct & _ & zs & -> & F & Oo & Hz); [destruct xs as [|[? ?] ?]; exact I|].
    rewrite E1. exists t. split; [reflexivity|]. split; [exact Ct|]. split; [exact F|]. destruct zs as [|[o ?] zs]; [rewrite app_nil_r in Oo; exact Oo|].
    cbn in Hz. pose proof (P o). lia.
  Qed.

  (** Reading the trees in some other type. *)
  Fixpoint eval {T} (leaf : A -> T) (mk : O -> T -> T -> T) (b : btree A) : T :=
    match b with BLeaf a => leaf a | BNode o l r => mk o (eval leaf mk l) (eval leaf mk r) end.
  Lemma pratt_eval {T} (leaf : A -> T) (mk : O -> T -> T -> T) f : forall rbp (l : btree A) xs,
    pratt prec mk f rbp (eval leaf mk l) (map (fun p => (fst p, eval leaf mk (snd p))) xs) =
    rmap (fun p => (eval leaf mk (fst p), map (fun q => (fst q, eval leaf mk (snd q))) (snd p))) (run f rbp l xs).
  Proof.
    induction f as [|f IH]; intros rbp l xs; [reflexivity|]. cbn [pratt]. destruct xs as [|[o t] xs]; [reflexivity|]. cbn [map fst snd].
    destruct (Nat.ltb rbp (prec o)); [|reflexivity]. rewrite IH. destruct (run f (prec o) t xs) as [[r ys]| | |]; cbn [rmap bind fst snd]; try reflexivity.
    specialize (IH rbp (BNode o l r) ys). cbn [eval] in IH. rewrite IH. reflexivity.
  Qed.
  Lemma pratt_all_eval {T} (leaf : A -> T) (mk : O -> T -> T -> T) (a : A) xs :
    pratt_all prec mk (leaf a) (map (fun p => (fst p, leaf (snd p))) xs) =
    rmap (eval leaf mk) (pratt_all prec (fun o l r => BNode o l r) (BLeaf a) (leafs xs)).
  Proof.
    unfold pratt_all, leafs. rewrite !map_length. pose proof (pratt_eval leaf mk (S (List.length xs)) 0 (BLeaf a) (leafs xs)) as H. unfold leafs in H. rewrite map_map in H. cbn [eval fst snd] in H.
    rewrite H. generalize (pratt prec (fun o (l r : btree A) => BNode o l r) (S (List.length xs)) 0 (BLeaf a) (map (fun p : O * A => (fst p, BLeaf (snd p))) xs)).
    intros [[? ?]| | |]; reflexivity.
  Qed.
End PrattFacts.
Arguments BLeaf {O A} a. Arguments BNode {O A} o l r.

(** ** Characters and words *)
Definition visible (c : ascii) : bool := negb (is_blank c) && negb (Ascii.eqb c (ch 13)).
Definition starts (p : ascii -> bool) (s : text) : bool := match s with c :: _ => p c | [] => false end.
Lemma skip_visible s : (s = [] \/ starts visible s = true) -> skip s = s.
Proof.
  intros [->|H]; [reflexivity|]. destruct s as [|c s]; [reflexivity|]. cbn [starts] in H. apply andb_true_iff in H. destruct H as [H1 H2].
  apply negb_true_iff in H1, H2. cbn [skip]. rewrite H1, H2. reflexivity.
Qed.
Lemma skip_shorter s : List.length (skip s) <= List.length s.
Proof.
  assert (H : forall n s, List.length s <= n -> List.length (skip s) <= List.length s).
  { induction n as [|n IH]; intros t Ht; [destruct t; [reflexivity|cbn in Ht; lia]|]. destruct t as [|c t]; [reflexivity|]. cbn [skip]. cbn in Ht.
    destruct (is_blank c); [pose proof (IH t ltac:(lia)); cbn; lia|]. destruct (Ascii.eqb c (ch 13)); [|reflexivity].
    destruct t as [|d t]; [reflexivity|]. destruct (Ascii.eqb d (ch 10)); [|reflexivity]. cbn in Ht. pose proof (IH t ltac:(lia)). cbn. lia. }
  apply (H (List.length s)). reflexivity.
Qed.
Lemma skip_idem s : skip (skip s) = skip s.
Proof.
  assert (H : forall n s, List.length s <= n -> skip (skip s) = skip s).
  { induction n as [|n IH]; intros t Ht; [destruct t; [reflexivity|cbn in Ht; lia]|]. destruct t as [|c t]; [reflexivity|]. cbn [skip]. cbn in Ht.
    destruct (is_blank c) eqn:B; [apply IH; lia|]. destruct (Ascii.eqb c (ch 13)) eqn:R.
    - destruct t as [|d t]; [cbn [skip]; rewrite B, R; reflexivity|]. destruct (Ascii.eqb d (ch 10)) eqn:D; [apply IH; cbn in Ht; lia|].
      cbn [skip]. rewrite B, R, D. reflexivity.
    - cbn [skip]. rewrite B, R. reflexivity. }
  apply (H (List.length s)). reflexivity.
Qed.
Lemma strip_app w s : strip w (w ++ s) = Some s.
Proof. induction w as [|a w IH]; [reflexivity|]. cbn. rewrite Ascii.eqb_refl. exact IH. Qed.
Lemma lit_app w s : lit w (txt w ++ s) = Ok s.
Proof. unfold lit. rewrite strip_app. reflexivity. Qed.
Lemma strip_shorter w s s' : strip w s = Some s' -> List.length s = List.length w + List.length s'.
Proof.
  revert s. induction w as [|a w IH]; intros s E; [injection E as ->; reflexivity|]. destruct s as [|c s]; [discriminate|]. cbn in E.
  destruct (Ascii.eqb a c); [|discriminate]. cbn. rewrite (IH s E). reflexivity.
Qed.
Lemma lit_shorter w s s' : lit w s = Ok s' -> List.length s = List.length (txt w) + List.length s'.
Proof. unfold lit. destruct (strip (txt w) s) eqn:E; intros H; [|discriminate]. cbn in H. injection H as <-. apply strip_shorter. exact E. Qed.

Lemma span_app p a s : forallb p a = true -> starts p s = false -> span p (a ++ s) = (a, s).
Proof.
  intros H S. induction a as [|c a IH]; cbn [span app forallb] in *.
  - destruct s as [|c s]; [reflexivity|]. cbn [starts] in S. cbn [span]. rewrite S. reflexivity.
  - apply andb_true_iff in H. destruct H as [-> H]. rewrite (IH H). reflexivity.
Qed.
Lemma span_shorter p s : List.length (snd (span p s)) <= List.length s.
Proof. induction s as [|c s IH]; [reflexivity|]. cbn [span]. destruct (p c); [|reflexivity]. destruct (span p s). cbn in *. lia. Qed.

(** Names. *)
Definition name_ok (n : string) : bool := match txt n with c :: a => is_alpha c && forallb is_name_char a | [] => false end.
Lemma p_name_app n s : name_ok n = true -> starts is_name_char s = false -> p_name (txt n ++ s) = Ok (n, s).
Proof.
  unfold name_ok, p_name. destruct (txt n) as [|c a] eqn:E; [discriminate|]. intros H S. apply andb_true_iff in H. destruct H as [Ha Hn]. cbn [app].
  rewrite Ha, (span_app _ _ _ Hn S), <- E. unfold txt. rewrite string_of_list_ascii_of_string. reflexivity.
Qed.

(** Numbers. *)
Lemma digit_char_ok d : (0 <= d < 10)%Z -> is_digit (digit_char d) = true /\ digit_val (digit_char d) = d /\ (d <> 0%Z -> is_nonzero (digit_char d) = true) /\
  (d = 0%Z -> digit_char d = "0"%char).
Proof.
  intros H. assert (X : (d = 0 \/ d = 1 \/ d = 2 \/ d = 3 \/ d = 4 \/ d = 5 \/ d = 6 \/ d = 7 \/ d = 8 \/ d = 9)%Z) by lia.
  repeat (destruct X as [->|X]; [repeat split; try reflexivity; intros; try reflexivity; congruence|]). subst d. repeat split; try reflexivity; intros; try reflexivity; lia.
Qed.
Lemma nonzero_not_zero c : is_nonzero c = true -> Ascii.eqb c "0" = false.
Proof. intros H. apply Ascii.eqb_neq. intros ->. discriminate. Qed.

Lemma digits_aux_spec f : forall n acc, (0 <= n < 2 ^ Z.of_nat f)%Z -> (0 < f)%nat ->
  exists ds, digits_aux f n acc = ds ++ acc /\ forallb is_digit ds = true /\ (forall a, fold_left (fun a c => a * 10 + digit_val c)%Z ds a = a * 10 ^ Z.of_nat (List.length ds) + n)%Z /\
    ((n = 0%Z /\ ds = ["0"%char]) \/ (n <> 0%Z /\ starts is_nonzero ds = true)).
Proof.
  induction f as [|f IH]; intros n acc H F; [lia|]. cbn [digits_aux]. pose proof (Z.mod_pos_bound n 10 ltac:(lia)) as M.
  destruct (digit_char_ok (n mod 10) M) as (D1 & D2 & D3 & D4). destruct (Z.ltb_spec n 10) as [L|L].
  - exists [digit_char (n mod 10)]. split; [reflexivity|]. rewrite Z.mod_small in * by lia. cbn [forallb]. rewrite D1. split; [reflexivity|]. split.
    + intros a. cbn [fold_left List.length]. rewrite D2. change (Z.of_nat 1) with 1%Z. lia.
    + destruct (Z.eq_dec n 0) as [->|N]; [left; split; [reflexivity|rewrite (D4 eq_refl); reflexivity]|right; split; [exact N|cbn; auto]].
  - assert (F' : (0 < f)%nat) by (destruct f; [change (2 ^ Z.of_nat 1)%Z with 2%Z in H; lia|lia]).
    assert (Q : (0 <= n / 10 < 2 ^ Z.of_nat f)%Z).
    { split; [apply Z.div_pos; lia|]. apply Z.div_lt_upper_bound; [lia|]. rewrite Nat2Z.inj_succ, Z.pow_succ_r in H by lia. lia. }
    destruct (IH (n / 10)%Z (digit_char (n mod 10) :: acc) Q F') as (ds & E & Hd & V & S). exists (ds ++ [digit_char (n mod 10)]).
    split; [rewrite E, <- app_assoc; reflexivity|]. rewrite forallb_app. cbn [forallb]. rewrite Hd, D1. split; [reflexivity|]. split.
    + intros a. rewrite fold_left_app, V. cbn [fold_left]. rewrite D2, app_length. cbn [List.length]. rewrite Nat2Z.inj_add, Z.pow_add_r by lia. change (10 ^ Z.of_nat 1)%Z with 10%Z.
      pose proof (Z.div_mod n 10 ltac:(lia)). nia.
    + right. split; [lia|]. pose proof (Z.div_le_lower_bound n 10 1 ltac:(lia) ltac:(lia)). destruct S as [[S _]|[_ S]]; [lia|]. destruct ds; [discriminate|exact S].
Qed.
Lemma digits_spec n : (0 <= n)%Z -> exists c ds, digits n = c :: ds /\ is_digit c = true /\ forallb is_digit ds = true /\ dec_val (c :: ds) = n /\
  ((n = 0%Z /\ c = "0"%char /\ ds = []) \/ is_nonzero c = true).
Proof.
  intros H. unfold digits. destruct (digits_aux_spec (S (Z.to_nat (Z.log2 n))) n []) as (ds & E & Hd & V & S).
  - split; [exact H|]. rewrite Nat2Z.inj_succ, Z2Nat.id by apply Z.log2_nonneg. destruct (Z.eq_dec n 0) as [->|N]; [reflexivity|]. apply Z.log2_spec. lia.
  - lia.
  - rewrite app_nil_r in E. rewrite E. destruct ds as [|c ds]; [destruct S as [[_ S]|[_ S]]; discriminate|]. exists c, ds. split; [reflexivity|].
    cbn [forallb] in Hd. apply andb_true_iff in Hd. destruct Hd as [Hc Hd]. split; [exact Hc|]. split; [exact Hd|]. split; [unfold dec_val; rewrite V; lia|].
    destruct S as [[S1 S2]|[_ S]]; [injection S2 as -> ->; auto|right; exact S].
Qed.
Lemma p_int_app k s : (0 <= k)%Z -> starts is_digit s = false -> p_int (int_text k ++ s) = Ok (k, s).
Proof.
  intros H S. unfold int_text. replace (Z.ltb k 0) with false by (symmetry; apply Z.ltb_ge; exact H).
  destruct (digits_spec k H) as (c & ds & E & Hc & Hd & V & D). rewrite E. cbn [app p_int]. destruct D as [(-> & -> & ->)|D].
  - rewrite Ascii.eqb_refl. reflexivity.
  - rewrite (nonzero_not_zero c D), D, (span_app _ _ _ Hd S), V. reflexivity.
Qed.

(** Repetition, for items followed by a text satisfying [stop]. *)
Section Repeat.
  Context {X V : Type} (p : parser V) (tx : X -> text) (vx : X -> V) (stop : text -> Prop).
  Lemma many_more_reads xs :
    (forall x s, In x xs -> stop s -> exists r, p (skip (tx x ++ s)) = Ok (vx x, r) /\ skip r = skip s) ->
    (forall x s, In x xs -> stop (tx x ++ s)) ->
    forall f s u, List.length xs < f -> stop s -> p (skip s) = Err -> skip u = skip (flat_map tx xs ++ s) ->
    exists r, many_more f p u = Ok (map vx xs, r) /\ skip r = skip s.
  Proof.
    induction xs as [|x xs IH]; intros H G f s u Hf S E Hu; (destruct f as [|f]; [cbn in Hf; lia|]); cbn [many_more]; rewrite Hu.
    - cbn [flat_map app map]. rewrite E. exists u. auto.
    - cbn [flat_map map]. rewrite <- app_assoc.
      assert (S' : stop (flat_map tx xs ++ s)) by (destruct xs as [|y ys]; [exact S|]; cbn [flat_map]; rewrite <- app_assoc; apply G; right; left; reflexivity).
      destruct (H x (flat_map tx xs ++ s) (or_introl eq_refl) S') as (r & Er & Kr). rewrite Er.
      destruct (IH (fun y t Hy => H y t (or_intror Hy)) (fun y t Hy => G y t (or_intror Hy)) f s r ltac:(cbn in Hf; lia) S E Kr) as (r' & Er' & Kr').
      rewrite Er'. exists r'. auto.
  Qed.
  Lemma many_reads xs :
    (forall x s, In x xs -> stop s -> exists r, p (skip (tx x ++ s)) = Ok (vx x, r) /\ skip r = skip s) ->
    (forall x s, In x xs -> stop (tx x ++ s)) ->
    forall f s u, List.length xs <= f -> stop s -> p (skip s) = Err -> skip u = skip (flat_map tx xs ++ s) ->
    exists r, many f p (skip u) = Ok (map vx xs, r) /\ skip r = skip s.
  Proof.
    destruct xs as [|x xs]; intros H G f s u Hf S E Hu; rewrite Hu; unfold many.
    - cbn [flat_map app map]. rewrite E. exists (skip s). split; [reflexivity|apply skip_idem].
    - cbn [flat_map map]. rewrite <- app_assoc.
      assert (S' : stop (flat_map tx xs ++ s)) by (destruct xs as [|y ys]; [exact S|]; cbn [flat_map]; rewrite <- app_assoc; apply G; right; left; reflexivity).
      destruct (H x (flat_map tx xs ++ s) (or_introl eq_refl) S') as (r & Er & Kr). rewrite Er.
      destruct (many_more_reads xs (fun y t Hy => H y t (or_intror Hy)) (fun y t Hy => G y t (or_intror Hy)) f s r ltac:(cbn in Hf; lia) S E Kr) as (r' & Er' & Kr').
      rewrite Er'. exists r'. auto.
  Qed.
End Repeat.

(** Repetition always ends: every match shortens the text.  [V] holds of the values. *)
Definition tame {A} (V : A -> Prop) (p : parser A) (s : text) : Prop :=
  p s <> NoFuel /\ p s <> Panic /\ forall a s', p s = Ok (a, s') -> V a /\ List.length s' < List.length s.
Definition tame_le {A} (V : A -> Prop) (r : res (A * text)) (n : nat) : Prop :=
  r <> NoFuel /\ r <> Panic /\ forall a s', r = Ok (a, s') -> V a /\ List.length s' <= n.
Lemma many_more_tame {A} V (p : parser A) f s : List.length s < f -> (forall t, List.length t <= List.length s -> tame V p t) ->
  tame_le (Forall V) (many_more f p s) (List.length s).
Proof.
  unfold tame_le. revert s. induction f as [|f IH]; intros s Hf H; [lia|]. cbn [many_more]. destruct (H (skip s) (skip_shorter s)) as (N & P & L).
  destruct (p (skip s)) as [[a s']| | |] eqn:E; try congruence.
  - destruct (L a s' eq_refl) as [Va Ls]. pose proof (skip_shorter s). destruct (IH s') as (N' & P' & L'); [lia|intros t Ht; apply H; lia|].
    destruct (many_more f p s') as [[l s'']| | |]; cbn [bind]; try congruence; (split; [discriminate|]; split; [discriminate|]; intros a' s3 X; try discriminate).
    injection X as <- <-. destruct (L' l s'' eq_refl). split; [constructor; assumption|lia].
  - split; [discriminate|]. split; [discriminate|]. intros a s' X. injection X as <- <-. split; [constructor|lia].
Qed.
Lemma many_tame {A} V (p : parser A) f s : List.length s <= f -> (forall t, List.length t <= List.length s -> tame V p t) ->
  tame_le (Forall V) (many f p s) (List.length s).
Proof.
  unfold tame_le. intros Hf H. unfold many. destruct (H s (le_n _)) as (N & P & L). destruct (p s) as [[a s']| | |] eqn:E; try congruence.
  - destruct (L a s' eq_refl) as [Va Ls]. destruct (many_more_tame V p f s') as (N' & P' & L'); [lia|intros t Ht; apply H; lia|].
    destruct (many_more f p s') as [[l s'']| | |]; cbn [bind]; try congruence; (split; [discriminate|]; split; [discriminate|]; intros a' s3 X; try discriminate).
    injection X as <- <-. destruct (L' l s'' eq_refl). split; [constructor; assumption|lia].
  - split; [discriminate|]. split; [discriminate|]. intros a s' X. injection X as <- <-. split; [constructor|lia].
Qed.
Lemma alt_tame {A} V (p q : parser A) s : tame V p s -> tame V q s -> tame V (alt p q) s.
Proof. unfold tame, alt. intros (N & P & L) (N' & P' & L'). destruct (p s) as [[a s']| | |]; auto. Qed.
(** Sequences: each step shortens, or at least does not lengthen, the text. *)
Lemma bind_tame {A B} V (r : res (A * text)) W n (k : A * text -> res (B * text)) :
  tame_le V r n -> (forall a s', V a -> List.length s' <= n -> tame_le W (k (a, s')) n) -> tame_le W (bind r k) n.
Proof. unfold tame_le. intros (N & P & L) H. destruct r as [[a s']| | |]; cbn [bind]; try congruence; [|repeat split; discriminate]. destruct (L a s' eq_refl). auto. Qed.
Lemma lit_tame w s : lit w s <> NoFuel /\ lit w s <> Panic.
Proof. unfold lit. destruct (strip (txt w) s); split; discriminate. Qed.

(** Values computed from a parse tree: done, or aborted. *)
Definition settled {A} (r : res A) : Prop := match r with Ok _ | Panic => True | _ => False end.
Lemma settled_bind {A B} (r : res A) (k : A -> res B) : settled r -> (forall a, r = Ok a -> settled (k a)) -> settled (bind r k).
Proof. destruct r; cbn; auto; contradiction. Qed.
Lemma settled_mapM {A B} (f : A -> res B) l : Forall (fun a => settled (f a)) l -> settled (mapM f l).
Proof.
  induction 1 as [|a l Ha Hl IH]; [exact I|]. cbn [mapM]. apply settled_bind; [exact Ha|]. intros b _. apply settled_bind; [exact IH|]. intros; exact I.
Qed.
Lemma settled_pratt {O T} prec (mk : O -> T -> T -> T) x xs : settled x -> Forall (fun p => settled (snd p)) xs -> settled (pratt_res prec mk x xs).
Proof.
  intros H F. unfold pratt_res. apply settled_bind; [exact H|]. intros y _. apply settled_bind.
  - apply settled_mapM. eapply Forall_impl; [|exact F]. intros p Hp. apply settled_bind; [exact Hp|]. intros; exact I.
  - intros ys _. unfold pratt_all. destruct (pratt_total prec mk (S (List.length ys)) 0 y ys (Nat.lt_succ_diag_r _)) as (t & zs & -> & _). exact I.
Qed.
