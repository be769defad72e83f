(** Declarations that are not read. *)
From Coq Require Import List String Ascii ZArith Bool Arith Lia.
From Verif Require Import Model.Base Model.Expr Model.Loc Model.Component Model.Peg Model.ParseEdge Model.Files Model.Xml Spec.FileSpec Proofs.GuardFacts Proofs.FileFacts.
Import ListNotations.
Local Open Scope string_scope.
Local Open Scope list_scope.

Lemma decode_decl_total st s : (exists st', decode_decl st s = Ok st') \/ decode_decl st s = Panic.
Proof.
  destruct st as [d k]. unfold decode_decl. destruct s as [|c s]; [eauto|]. destruct (split_on " " (c :: s)) as [|ty ws]; [auto|].
  destruct (String.eqb (str ty) "clock"); [destruct (fold_left add_clock (decl_vars ws) (d_clocks d, k)); eauto|]. destruct (String.eqb (str ty) "int"); eauto.
Qed.
Lemma fold_total {A S} (f : S -> A -> res S) (T : forall s a, (exists s', f s a = Ok s') \/ f s a = Panic) l : forall s, (exists s', foldM f l s = Ok s') \/ foldM f l s = Panic.
Proof. induction l as [|a l IH]; intros s; cbn; [eauto|]. destruct (T s a) as [[s' ->]| ->]; cbn; auto. Qed.
Lemma fold_aborts {A S} (f : S -> A -> res S) (T : forall s a, (exists s', f s a = Ok s') \/ f s a = Panic) l a : In a l -> (forall s, f s a = Panic) -> forall s, foldM f l s = Panic.
Proof.
  induction l as [|b l IH]; intros H P s; [destruct H|]. cbn. destruct H as [-> |H]; [rewrite P; reflexivity|]. destruct (T s b) as [[s' ->]| ->]; cbn; auto.
Qed.
(** A declaration whose first character starts neither of the two known words. *)
Lemma decl_aborts c s st : c <> "c"%char -> c <> "i"%char -> decode_decl st (c :: s) = Panic.
Proof.
  intros Nc Ni. destruct st as [d k]. unfold decode_decl. cbn [split_on]. destruct (split_cons " " s) as (p & ps & ->). destruct (Ascii.eqb c " "); [reflexivity|].
  cbn [str string_of_list_ascii String.eqb]. apply Ascii.eqb_neq in Nc, Ni. rewrite Nc, Ni. reflexivity.
Qed.
Lemma split_head c x s : x <> c -> exists p ps, split_on c (x :: s) = (x :: p) :: ps.
Proof. intros N. cbn [split_on]. apply Ascii.eqb_neq in N. rewrite N. destruct (split_cons c s) as (p & ps & ->). eauto. Qed.

(** Both readers of declarations. *)
Section Readers.
Variable f : decls * nat -> text -> res (decls * nat).
Hypothesis T : forall st s, (exists st', f st s = Ok st') \/ f st s = Panic.
Definition a_line (st : decls * nat) (s : text) : res (decls * nat) :=
  match s with [] => Ok st | _ => if starts "//" s then Ok st else foldM f (split_on ";" s) st end.
Lemma line_total st s : (exists st', a_line st s = Ok st') \/ a_line st s = Panic.
Proof. unfold a_line. destruct s; [eauto|]. destruct (starts "//" (a :: s)); [eauto|apply fold_total; exact T]. Qed.
Variable c : ascii.
Hypothesis N : c <> ";"%char /\ c <> newline /\ c <> "/"%char.
Hypothesis P : forall s st, f st (c :: s) = Panic.
Lemma piece_aborts s st : f st (c :: s) = Panic.
Proof. apply P. Qed.
Lemma after_line a b st : foldM a_line (split_on newline (a ++ newline :: c :: b)) st = Panic.
Proof.
  rewrite split_app. destruct (split_head newline c b (proj1 (proj2 N))) as (p & ps & ->).
  apply (fold_aborts a_line line_total _ (c :: p)); [apply in_or_app; right; left; reflexivity|]. intros s. unfold a_line.
  assert (E : starts "//" (c :: p) = false). { unfold starts. cbn. destruct N as (_ & _ & N3). apply Ascii.eqb_neq in N3. first [rewrite N3; reflexivity|rewrite Ascii.eqb_sym in N3; rewrite N3; reflexivity|destruct c as [[] [] [] [] [] [] [] []]; solve [reflexivity|discriminate]]. }
  rewrite E. destruct (split_head ";" c p (proj1 N)) as (p' & ps' & ->). apply (fold_aborts f T _ (c :: p')); [left; reflexivity|]. apply piece_aborts.
Qed.
Lemma at_start b st : foldM a_line (split_on newline (c :: b)) st = Panic.
Proof. pose proof (after_line [] b st) as X. cbn [app split_on] in X. change (Ascii.eqb newline newline) with true in X. cbn [foldM a_line bind] in X. exact X. Qed.
Lemma after_piece a b st : ~ In newline a -> starts "//" a = false -> foldM a_line (split_on newline (a ++ ";"%char :: c :: b)) st = Panic.
Proof.
  intros Na Sa. destruct (split_join newline a (";"%char :: c :: b)) as (init & l & h & t & Ea & Eb & ->). rewrite (split_none _ _ Na) in Ea.
  destruct init as [|i1 init]; [|destruct init; discriminate]. injection Ea as <-.
  assert (H : exists p : text, h = ";"%char :: c :: p). { destruct (split_head newline c b (proj1 (proj2 N))) as (p & ps & E). change (split_on newline (";"%char :: c :: b)) with (match split_on newline (c :: b) with [] => [[";"%char]] | p :: ps => (";"%char :: p) :: ps end) in Eb. rewrite E in Eb. injection Eb as <- _. eauto. }
  destruct H as (p & ->). cbn [app]. apply (fold_aborts a_line line_total _ (a ++ ";"%char :: c :: p)); [left; reflexivity|]. intros s. unfold a_line.
  assert (E : starts "//" (a ++ ";"%char :: c :: p) = false).
  { unfold starts in *. change (txt "//") with ["/"; "/"]%char in *. destruct a as [|x a]; [reflexivity|]. cbn [app strip] in *. destruct (Ascii.eqb "/" x); [|reflexivity]. destruct a as [|y a]; [reflexivity|]. cbn [app strip] in *. destruct (Ascii.eqb "/" y); [discriminate|reflexivity]. }
  rewrite E. rewrite split_app. destruct (split_head ";" c p (proj1 N)) as (p' & ps' & ->).
  replace (match a ++ ";"%char :: c :: p with [] => Ok s | _ => foldM f (split_on ";" a ++ (c :: p') :: ps') s end) with (foldM f (split_on ";" a ++ (c :: p') :: ps') s) by (destruct a; reflexivity).
  apply (fold_aborts f T _ (c :: p')); [apply in_or_app; right; left; reflexivity|]. apply piece_aborts.
Qed.
End Readers.
