(** Reading operators and operands: what a text of operands with operators between them is read as, for any kind of operand and operator. *)
From Coq Require Import List Ascii Bool Arith Lia.
From Verif Require Import Model.Base Model.Peg Proofs.PegFacts Proofs.ParseFacts.
Import ListNotations.
Local Open Scope nat_scope.
Local Open Scope list_scope.

Section Operators.
  Context {O V : Type} (prec : O -> nat) (mk : O -> V -> V -> V) (prec_pos : forall o, 0 < prec o).
  Context (p_op : parser O) (stop : text -> Prop) (sgn : O * text -> Prop).
  Context (sgn_facts : forall o s, sgn o -> stop (snd o ++ s) /\ exists t, p_op (skip (snd o ++ s)) = Ok (fst o, t) /\ skip t = skip s).
  Context (term expr : nat -> parser (res V)).
  Context (expr_S : forall f s, expr (S f) s = do (x, s1) <- term f s; do (xs, s2) <- many f (fun s => do (o, s1) <- p_op s; do (t, s2) <- term f (skip s1); Ok (o, t, s2)) (skip s1); Ok (pratt_res prec mk x xs, s2)).

  Definition piece := (text * V)%type.
  Definition reads (f : nat) (x : piece) : Prop := forall s, stop s -> skip (fst x ++ s) = fst x ++ s /\ exists t, term f (fst x ++ s) = Ok (Ok (snd x), t) /\ skip t = skip s.
  Definition sprec (o : O * text) : nat := prec (fst o).
  Definition smk (o : O * text) : V -> V -> V := mk (fst o).
  Fixpoint bare (b : @btree (O * text) piece) : @btree O piece := match b with BLeaf a => BLeaf a | BNode o l r => BNode (fst o) (bare l) (bare r) end.
  Lemma bare_first b : first (bare b) = first b. Proof. induction b; cbn; auto. Qed.
  Lemma bare_ops b : ops (bare b) = map (fun p => (fst (fst p), snd p)) (ops b).
  Proof. induction b; cbn; [reflexivity|]. rewrite map_app, IHb1, IHb2, bare_first. reflexivity. Qed.
  Lemma bare_canon b : canon sprec b -> canon prec (bare b).
  Proof.
    induction b as [a|o l IHl r IHr]; cbn [bare canon]; [auto|]. intros (A & B & C & D). split; [|split; [|auto]].
    - destruct l; [exact I|exact A].
    - destruct r; [exact I|exact B].
  Qed.
  Lemma bare_eval b : eval snd mk (bare b) = eval snd smk b. Proof. induction b as [a|o l IHl r IHr]; cbn; [reflexivity|]. rewrite IHl, IHr. reflexivity. Qed.

  Definition stext (p : (O * text) * piece) : text := snd (fst p) ++ fst (snd p).
  Definition otext (b : @btree (O * text) piece) : text := fst (first b) ++ flat_map stext (ops b).
  Lemma otext_reads f b s : reads f (first b) -> (forall p, In p (ops b) -> reads f (snd p) /\ sgn (fst p)) -> List.length (ops b) <= f -> canon sprec b -> stop s -> p_op (skip s) = Err ->
    exists t, expr (S f) (otext b ++ s) = Ok (Ok (eval snd smk b), t) /\ skip t = skip s.
  Proof.
    intros H1 H2 Hf C S E. rewrite expr_S. unfold otext. rewrite <- app_assoc.
    assert (ST : forall x u, In x (ops b) -> stop (stext x ++ u)) by (intros x u Hx; unfold stext; rewrite <- app_assoc; apply sgn_facts; apply (H2 x Hx)).
    assert (S1 : stop (flat_map stext (ops b) ++ s)) by (destruct (ops b) as [|x xs]; [exact S|]; cbn [flat_map]; rewrite <- app_assoc; apply ST; left; reflexivity).
    destruct (H1 _ S1) as (_ & r & Er & Kr). rewrite Er. cbn [bind].
    destruct (many_reads (fun s => do (o, s1) <- p_op s; do (t, s2) <- term f (skip s1); Ok (o, t, s2)) stext (fun p => (fst (fst p), Ok (snd (snd p)))) stop (ops b)) with (f := f) (s := s) (u := r) as (t & Et & Kt).
    - intros [o x] u Hx Su. destruct (H2 _ Hx) as [R G]. cbn [fst snd] in R, G. unfold stext. cbn [fst snd]. rewrite <- app_assoc. destruct (sgn_facts o (fst x ++ u) G) as (_ & t & Ep & Kp). rewrite Ep. cbn [bind].
      destruct (R u Su) as (K & v & Ev & Kv). rewrite Kp, K, Ev. cbn [bind]. exists v. auto.
    - exact ST.
    - exact Hf.
    - exact S.
    - rewrite E. reflexivity.
    - exact Kr.
    - rewrite Et. cbn [bind]. exists t. split; [|exact Kt]. f_equal. f_equal. pose proof (pratt_res_tree prec mk snd (bare b) prec_pos) as P.
      rewrite bare_first, bare_ops, map_map in P. cbn [fst snd] in P. etransitivity; [exact P|]. f_equal. etransitivity; [|apply bare_eval]. f_equal. exact (rebalance_canon prec (bare b) prec_pos (bare_canon b C)).
  Qed.
  (** What a text consists of. *)
  Definition parts (k : nat) (t : text) (e : V) : Prop := exists b, otext b = t /\ eval snd smk b = e /\ canon sprec b /\ ge_root sprec k b /\ List.length (ops b) < List.length t /\
    (forall p, In p (ops b) -> sgn (fst p)) /\ forall f, List.length t <= f -> reads f (first b) /\ forall p, In p (ops b) -> reads f (snd p).
  Lemma otext_node o l r : otext (BNode o l r) = otext l ++ snd o ++ otext r.
  Proof. unfold otext. cbn [first ops]. rewrite flat_map_app. cbn [flat_map]. unfold stext at 2. cbn [fst snd]. rewrite <- !app_assoc. reflexivity. Qed.
  Lemma parts_node k o l r tl tr w : k <= prec o -> sgn (o, w) -> parts (prec o) tl l -> parts (S (prec o)) tr r -> parts k (tl ++ w ++ tr) (mk o l r).
  Proof.
    intros Hk G (bl & Tl & El & Cl & Rl & Nl & Sl & Al) (br & Tr & Er & Cr & Rr & Nr & Sr & Ar). exists (BNode (o, w) bl br). rewrite otext_node, Tl, Tr. cbn [snd eval]. rewrite El, Er.
    split; [reflexivity|]. split; [reflexivity|]. split; [cbn [canon]; split; [exact Rl|]; split; [exact Rr|]; split; assumption|]. split; [exact Hk|].
    cbn [ops first]. split; [rewrite !app_length; cbn [List.length]; lia|]. split; [intros p Hp; apply in_app_iff in Hp; destruct Hp as [Hp|[<-|Hp]]; auto|].
    intros f Hf. rewrite !app_length in Hf. destruct (Al f ltac:(lia)) as [A1 A2]. destruct (Ar f ltac:(lia)) as [B1 B2]. split; [exact A1|]. intros p Hp. apply in_app_iff in Hp. destruct Hp as [Hp|[<-|Hp]]; auto.
  Qed.
  Lemma parts_leaf k t e : 0 < List.length t -> (forall f, List.length t <= f -> reads f (t, e)) -> parts k t e.
  Proof.
    intros N H. exists (BLeaf (t, e)). unfold otext. cbn [first ops flat_map fst]. rewrite app_nil_r. do 2 (split; [reflexivity|]). do 2 (split; [exact I|]). split; [exact N|]. split; [intros p []|]. intros f Hf. split; [apply H; exact Hf|intros p []].
  Qed.
  Lemma parts_reads k t e f s : parts k t e -> List.length t <= f -> stop s -> p_op (skip s) = Err -> skip (t ++ s) = t ++ s /\ exists r, expr (S f) (t ++ s) = Ok (Ok e, r) /\ skip r = skip s.
  Proof.
    intros (b & T & E & C & R & N & S & A) Hf S1 S2. destruct (A f Hf) as [A1 A2]. split.
    - rewrite <- T. unfold otext. rewrite <- app_assoc. apply A1. destruct (ops b) as [|x xs]; [exact S1|]. cbn [flat_map]. unfold stext at 1. rewrite <- !app_assoc. apply sgn_facts. apply S. left. reflexivity.
    - destruct (otext_reads f b s A1 (fun p Hp => conj (A2 p Hp) (S p Hp))) as (r & Er & Kr); [lia|exact C|exact S1|exact S2|]. rewrite T, E in Er. exists r. auto.
  Qed.
End Operators.
