(** Deciding membership of a concrete valuation, used in examples and refutations. *)
From Coq Require Import List ZArith QArith Bool Arith Lia Lqa.
From Verif Require Import Fed.Zone Fed.ZoneFacts.
Import ListNotations.
Local Open Scope Q_scope.

Definition iltb (s : bool) (a b : Q) : bool := if s then negb (Qle_bool b a) else Qle_bool a b.
Definition csemb (c : dcon) (v : val) : bool := iltb (cs c) (v (ci c) - v (cj c)) (inject_Z (cc c)).
Definition zsemb (z : zone) (v : val) : bool := forallb (fun c => csemb c v) z.
Definition val_okb (dim : nat) (v : val) : bool :=
  Qeq_bool (v 0%nat) 0 && forallb (fun i => Qle_bool 0 (v i)) (seq 0 dim).
Definition fsemb (dim : nat) (f : fed) (v : val) : bool := val_okb dim v && existsb (fun z => zsemb z v) f.

Lemma iltb_spec s a b : iltb s a b = true <-> ilt s a b.
Proof.
  unfold iltb, ilt. destruct s.
  - rewrite negb_true_iff. split.
    + intros H. destruct (Qlt_le_dec a b) as [L|L]; [exact L|]. apply Qle_bool_iff in L. congruence.
    + intros H. destruct (Qle_bool b a) eqn:E; [|reflexivity]. apply Qle_bool_iff in E. lra.
  - apply Qle_bool_iff.
Qed.
Lemma csemb_spec c v : csemb c v = true <-> csem c v. Proof. apply iltb_spec. Qed.
Lemma zsemb_spec z v : zsemb z v = true <-> zsem z v.
Proof. unfold zsemb, zsem. rewrite forallb_forall. split; intros H c Hc; apply csemb_spec; auto. Qed.
Lemma val_okb_spec dim v : val_okb dim v = true <-> val_ok dim v.
Proof.
  unfold val_okb, val_ok. rewrite andb_true_iff, forallb_forall, Qeq_bool_iff. split; intros [A B]; split; auto.
  - intros i Hi. apply Qle_bool_iff, B. apply in_seq; lia.
  - intros i Hi. apply in_seq in Hi. apply Qle_bool_iff, B. lia.
Qed.
Lemma fsemb_spec dim f v : fsemb dim f v = true <-> fsem dim f v.
Proof.
  unfold fsemb, fsem. rewrite andb_true_iff, val_okb_spec, existsb_exists. split; intros [A (z & Hz & B)]; (split; [exact A|]);
  exists z; (split; [exact Hz|]); apply zsemb_spec; exact B.
Qed.
Lemma fsem_yes dim f v : fsemb dim f v = true -> fsem dim f v. Proof. apply fsemb_spec. Qed.
Lemma fsem_no dim f v : fsemb dim f v = false -> ~ fsem dim f v.
Proof. intros H C. apply fsemb_spec in C. congruence. Qed.

(** The valuation with the given values for clocks 1, 2, ... *)
Definition mkval (qs : list Q) : val := fun i => match i with O => 0 | S j => nth j qs 0 end.
