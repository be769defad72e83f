(** Exactness of the operations of Fed/Zone.v with respect to sets of valuations. *)
From Coq Require Import ZArith QArith Qabs List Bool Arith Lia Lqa Setoid Morphisms.
From Verif Require Import Fed.Zone.
Import ListNotations.

(** ** Valuation equality *)

Lemma veq_refl v : veq v v. Proof. intros i; reflexivity. Qed.
Lemma veq_sym v w : veq v w -> veq w v. Proof. intros H i; symmetry; apply H. Qed.
Lemma veq_trans u v w : veq u v -> veq v w -> veq u w.
Proof. intros H1 H2 i; rewrite (H1 i); apply H2. Qed.

#[export] Instance veq_equiv : Equivalence veq.
Proof. split; red; [apply veq_refl|apply veq_sym|apply veq_trans]. Qed.

Lemma ilt_ext s a b a' b' : a == a' -> b == b' -> ilt s a b -> ilt s a' b'.
Proof. destruct s; simpl; intros; lra. Qed.

Lemma csem_ext c v w : veq v w -> csem c v -> csem c w.
Proof.
  intros H. unfold csem. apply ilt_ext; [|reflexivity].
  rewrite (H (ci c)), (H (cj c)). reflexivity.
Qed.

Lemma zsem_ext z v w : veq v w -> zsem z v -> zsem z w.
Proof. intros H Hz c Hc. eapply csem_ext; eauto. Qed.

Lemma val_ok_ext dim v w : veq v w -> val_ok dim v -> val_ok dim w.
Proof.
  intros H [H0 H1]; split.
  - rewrite <- (H 0%nat); auto.
  - intros i Hi. rewrite <- (H i); auto.
Qed.

Lemma fsem_ext dim f v w : veq v w -> fsem dim f v -> fsem dim f w.
Proof.
  intros H [H0 (z & Hz & Hs)]; split; [eapply val_ok_ext; eauto|].
  exists z; split; auto. eapply zsem_ext; eauto.
Qed.

#[export] Instance fsem_proper dim f : Proper (veq ==> iff) (fsem dim f).
Proof. intros v w H; split; apply fsem_ext; auto. now symmetry. Qed.

#[export] Instance val_ok_proper dim : Proper (veq ==> iff) (val_ok dim).
Proof. intros v w H; split; apply val_ok_ext; auto. now symmetry. Qed.

Lemma vset_eq v x q : vset v x q x = q.
Proof. unfold vset. now rewrite Nat.eqb_refl. Qed.
Lemma vset_neq v x q i : i <> x -> vset v x q i = v i.
Proof. unfold vset. intros H. apply Nat.eqb_neq in H. now rewrite H. Qed.

Lemma vset_ext v w x q r : veq v w -> q == r -> veq (vset v x q) (vset w x r).
Proof. intros H Hq i. unfold vset. destruct (Nat.eqb i x); auto. Qed.

Lemma vset_same v x : veq (vset v x (v x)) v.
Proof. intros i. unfold vset. destruct (Nat.eqb_spec i x); subst; reflexivity. Qed.

Lemma vset_vset v x q r : veq (vset (vset v x q) x r) (vset v x r).
Proof. intros i. unfold vset. destruct (Nat.eqb i x); reflexivity. Qed.

Lemma vdelay_0 v d : vdelay v d 0%nat = v 0%nat.
Proof. reflexivity. Qed.
Lemma vdelay_S v d i : i <> 0%nat -> vdelay v d i = (v i + d)%Q.
Proof. unfold vdelay. intros H. apply Nat.eqb_neq in H. now rewrite H. Qed.

Lemma vdelay_ext v w d e : veq v w -> d == e -> veq (vdelay v d) (vdelay w e).
Proof.
  intros H Hd i. unfold vdelay. destruct (Nat.eqb i 0); auto. rewrite (H i), Hd. reflexivity.
Qed.

Lemma vdelay_zero v d : d == 0 -> veq (vdelay v d) v.
Proof.
  intros H i. unfold vdelay. destruct (Nat.eqb_spec i 0); subst; [reflexivity|]. rewrite H. ring.
Qed.

Lemma vdelay_add v d e : veq (vdelay (vdelay v d) e) (vdelay v (d + e)).
Proof.
  intros i. unfold vdelay. destruct (Nat.eqb_spec i 0); subst; simpl; ring.
Qed.

Lemma vdelay_ok dim v d : val_ok dim v -> 0 <= d -> val_ok dim (vdelay v d).
Proof.
  intros [H0 H1] Hd; split; [exact H0|]. intros i Hi. unfold vdelay.
  destruct (Nat.eqb_spec i 0); [lra|]. specialize (H1 i Hi). lra.
Qed.

Lemma vset_ok dim v x q : val_ok dim v -> x <> 0%nat -> ((x < dim)%nat -> 0 <= q) -> val_ok dim (vset v x q).
Proof.
  intros [H0 H1] Hx Hq; split.
  - rewrite vset_neq; auto.
  - intros i Hi. unfold vset. destruct (Nat.eqb_spec i x); subst; auto.
Qed.

(** ** Tidying *)

Lemma dcon_eqb_spec a b : dcon_eqb a b = true <-> a = b.
Proof.
  destruct a as [i j s c], b as [i' j' s' c']. unfold dcon_eqb; simpl.
  rewrite !andb_true_iff, !Nat.eqb_eq, Z.eqb_eq, Bool.eqb_true_iff.
  split; [intros (((-> & ->) & ->) & ->); reflexivity | intros H; injection H; auto].
Qed.

Lemma in_dedup c z : In c (dedup z) <-> In c z.
Proof.
  induction z as [|a z IH]; simpl; [tauto|].
  destruct (existsb (dcon_eqb a) z) eqn:E.
  - rewrite IH. split; auto. intros [->|]; auto.
    apply existsb_exists in E as (b & Hb & Heq). apply dcon_eqb_spec in Heq. now subst.
  - simpl. rewrite IH. tauto.
Qed.

Lemma trivial_con_sem c v : trivial_con c = true -> csem c v.
Proof.
  unfold trivial_con, csem. rewrite andb_true_iff, Nat.eqb_eq. intros [-> H].
  destruct (cs c); simpl.
  - apply Z.ltb_lt in H. assert (0 < inject_Z (cc c)) by (rewrite Zlt_Qlt in H; exact H). lra.
  - apply Z.leb_le in H. assert (0 <= inject_Z (cc c)) by (rewrite Zle_Qle in H; exact H). lra.
Qed.

Lemma zsem_dedup z v : zsem (dedup z) v <-> zsem z v.
Proof. unfold zsem. split; intros H c Hc; apply H; apply in_dedup; auto. Qed.

Lemma zsem_tidy z v : zsem (tidy z) v <-> zsem z v.
Proof.
  unfold tidy. rewrite zsem_dedup. unfold zsem. split; intros H c Hc.
  - destruct (trivial_con c) eqn:E; [now apply trivial_con_sem|].
    apply H. apply filter_In. now rewrite E.
  - apply filter_In in Hc as [Hc _]. auto.
Qed.

Lemma zsem_app z w v : zsem (z ++ w) v <-> zsem z v /\ zsem w v.
Proof.
  unfold zsem. split.
  - intros H; split; intros c Hc; apply H, in_or_app; auto.
  - intros [H1 H2] c Hc. apply in_app_or in Hc as [|]; auto.
Qed.

Lemma zsem_cons c z v : zsem (c :: z) v <-> csem c v /\ zsem z v.
Proof.
  unfold zsem; simpl. split.
  - intros H; split; auto.
  - intros [H1 H2] d [<-|]; auto.
Qed.

(** ** Fourier-Motzkin on bounds *)

Definition lo_sem (v : val) (b : bnd) (d : Q) : Prop := ilt (bs b) (v (bv b) + inject_Z (bc b)) d.
Definition hi_sem (v : val) (b : bnd) (d : Q) : Prop := ilt (bs b) d (v (bv b) + inject_Z (bc b)).

Lemma best_lower v l : l <> [] -> exists b, In b l /\
  forall d, lo_sem v b d -> forall b', In b' l -> lo_sem v b' d.
Proof.
  induction l as [|a l IH]; [congruence|]. intros _.
  destruct l as [|a' l'].
  - exists a; split; [now left|]. intros d Hd b' [<-|[]]; auto.
  - destruct IH as (b & Hb & Hd); [discriminate|].
    assert (Hc : (forall d, lo_sem v a d -> lo_sem v b d) \/ (forall d, lo_sem v b d -> lo_sem v a d)).
    { unfold lo_sem.
      destruct (Qlt_le_dec (v (bv a) + inject_Z (bc a)) (v (bv b) + inject_Z (bc b))) as [L|L].
      - right. intros d. destruct (bs a), (bs b); simpl; intros; lra.
      - destruct (Qlt_le_dec (v (bv b) + inject_Z (bc b)) (v (bv a) + inject_Z (bc a))) as [L'|L'].
        + left. intros d. destruct (bs a), (bs b); simpl; intros; lra.
        + destruct (bs a); [left|destruct (bs b); [right|right]]; intros d; try destruct (bs b); simpl; intros; lra. }
    destruct Hc as [Hc|Hc].
    + exists a; split; [now left|]. intros d Ha b' [<-|Hb']; auto.
    + exists b; split; [now right|]. intros d Hb' b'' [<-|Hb'']; auto.
Qed.

Lemma best_upper v l : l <> [] -> exists b, In b l /\
  forall d, hi_sem v b d -> forall b', In b' l -> hi_sem v b' d.
Proof.
  induction l as [|a l IH]; [congruence|]. intros _.
  destruct l as [|a' l'].
  - exists a; split; [now left|]. intros d Hd b' [<-|[]]; auto.
  - destruct IH as (b & Hb & Hd); [discriminate|].
    assert (Hc : (forall d, hi_sem v a d -> hi_sem v b d) \/ (forall d, hi_sem v b d -> hi_sem v a d)).
    { unfold hi_sem.
      destruct (Qlt_le_dec (v (bv a) + inject_Z (bc a)) (v (bv b) + inject_Z (bc b))) as [L|L].
      - left. intros d. destruct (bs a), (bs b); simpl; intros; lra.
      - destruct (Qlt_le_dec (v (bv b) + inject_Z (bc b)) (v (bv a) + inject_Z (bc a))) as [L'|L'].
        + right. intros d. destruct (bs a), (bs b); simpl; intros; lra.
        + destruct (bs a); [left|destruct (bs b); [right|right]]; intros d; try destruct (bs b); simpl; intros; lra. }
    destruct Hc as [Hc|Hc].
    + exists a; split; [now left|]. intros d Ha b' [<-|Hb']; auto.
    + exists b; split; [now right|]. intros d Hb' b'' [<-|Hb'']; auto.
Qed.

Lemma in_pair_bounds c lo hi : In c (pair_bounds lo hi) <->
  exists l h, In l lo /\ In h hi /\ c = mkC (bv l) (bv h) (bs l || bs h) (bc h - bc l)%Z.
Proof.
  unfold pair_bounds. rewrite in_flat_map. split.
  - intros (l & Hl & Hc). apply in_map_iff in Hc as (h & <- & Hh). eauto.
  - intros (l & h & Hl & Hh & ->). exists l; split; auto. apply in_map_iff. eauto.
Qed.

Lemma inject_Z_sub a b : inject_Z (a - b) == inject_Z a - inject_Z b.
Proof. unfold Zminus. rewrite inject_Z_plus, inject_Z_opp. ring. Qed.

Lemma fm_elim v lo hi :
  zsem (pair_bounds lo hi) v <->
  exists d, (forall b, In b lo -> lo_sem v b d) /\ (forall b, In b hi -> hi_sem v b d).
Proof.
  split.
  - intros H.
    destruct lo as [|l0 lo'] eqn:El; [|rewrite <- El in *].
    + destruct hi as [|h0 hi'] eqn:Eh; [exists 0; split; simpl; tauto|rewrite <- Eh in *].
      destruct (best_upper v hi) as (b & Hb & Hd); [subst; discriminate|].
      exists (v (bv b) + inject_Z (bc b) - 1). split; [simpl; tauto|]. apply Hd.
      unfold hi_sem. destruct (bs b); simpl; lra.
    + destruct (best_lower v lo) as (a & Ha & Hda); [subst; discriminate|].
      destruct hi as [|h0 hi'] eqn:Eh; [|rewrite <- Eh in *].
      * exists (v (bv a) + inject_Z (bc a) + 1). split; [|simpl; tauto]. apply Hda.
        unfold lo_sem. destruct (bs a); simpl; lra.
      * destruct (best_upper v hi) as (b & Hb & Hd); [subst; discriminate|].
        exists ((v (bv a) + inject_Z (bc a) + (v (bv b) + inject_Z (bc b))) * (1#2)).
        assert (Hab : csem (mkC (bv a) (bv b) (bs a || bs b) (bc b - bc a)) v).
        { apply H, in_pair_bounds. eauto 6. }
        unfold csem in Hab; cbn [ci cj cs cc] in Hab.
        split.
        -- apply Hda. unfold lo_sem. destruct (bs a), (bs b); simpl in *;
           rewrite inject_Z_sub in Hab; try lra.
        -- apply Hd. unfold hi_sem. destruct (bs a), (bs b); simpl in *;
           rewrite inject_Z_sub in Hab; try lra.
  - intros (d & Hlo & Hhi) c Hc.
    apply in_pair_bounds in Hc as (l & h & Hl & Hh & ->).
    specialize (Hlo l Hl). specialize (Hhi h Hh). unfold lo_sem, hi_sem in *.
    unfold csem; cbn [ci cj cs cc].
    destruct (bs l), (bs h); simpl in *; rewrite inject_Z_sub; lra.
Qed.

(** ** Freeing a clock *)

Lemma others_spec x z v d : x <> 0%nat ->
  (zsem z (vset v x d) <->
   zsem (others x z) v /\ (forall b, In b (lowers x z) -> lo_sem v b d) /\
   (forall b, In b (uppers x z) -> hi_sem v b d)).
Proof.
  intros Hx. induction z as [|c z IH].
  - simpl. split; [intros _; repeat split; intros ? []|intros _ ? []].
  - rewrite zsem_cons, IH. clear IH.
    unfold others, lowers, uppers. cbn [flat_map].
    fold (others x z). fold (lowers x z). fold (uppers x z).
    destruct c as [i j s k]. cbn [ci cj cs cc].
    destruct (Nat.eqb_spec i x) as [->|Hi]; destruct (Nat.eqb_spec j x) as [->|Hj]; cbn [andb negb app].
    + rewrite zsem_cons.
      assert (csem (mkC x x s k) (vset v x d) <-> csem (mkC 0 0 s k) v) as ->.
      { unfold csem; cbn [ci cj cs cc]. rewrite vset_eq.
        split; apply ilt_ext; try reflexivity; ring. }
      tauto.
    + assert (csem (mkC x j s k) (vset v x d) <-> hi_sem v (mkB j s k) d) as ->.
      { unfold csem, hi_sem; cbn [ci cj cs cc bv bs bc]. rewrite vset_eq, vset_neq by auto.
        destruct s; simpl; split; intros; lra. }
      simpl. split.
      * intros (H1 & H2 & H3 & H4). repeat split; auto. intros b [<-|]; auto.
      * intros (H1 & H2 & H3). repeat split; auto.
    + assert (csem (mkC i x s k) (vset v x d) <-> lo_sem v (mkB i s (-k)) d) as ->.
      { unfold csem, lo_sem; cbn [ci cj cs cc bv bs bc]. rewrite vset_eq, vset_neq by auto.
        rewrite inject_Z_opp. destruct s; simpl; split; intros; lra. }
      simpl. split.
      * intros (H1 & H2 & H3 & H4). repeat split; auto. intros b [<-|]; auto.
      * intros (H1 & H2 & H3). repeat split; auto.
    + rewrite zsem_cons.
      assert (csem (mkC i j s k) (vset v x d) <-> csem (mkC i j s k) v) as ->.
      { unfold csem; cbn [ci cj cs cc]. rewrite !vset_neq by auto. tauto. }
      tauto.
Qed.

Lemma zfree_sem dim x z v : x <> 0%nat -> v 0%nat == 0 ->
  (zsem (zfree dim x z) v <-> exists d, ((x < dim)%nat -> 0 <= d) /\ zsem z (vset v x d)).
Proof.
  intros Hx H0. unfold zfree. rewrite zsem_tidy, zsem_app, fm_elim. split.
  - intros (Ho & d & Hlo & Hhi). exists d. split.
    + intros Hd. specialize (Hlo (mkB 0 false 0)).
      assert (In (mkB 0 false 0) (nonneg_bound dim x ++ lowers x z)) as Hin.
      { apply in_or_app; left. unfold nonneg_bound. apply Nat.ltb_lt in Hd. rewrite Hd. now left. }
      specialize (Hlo Hin). unfold lo_sem in Hlo; simpl in Hlo. change (inject_Z 0) with 0 in Hlo. lra.
    + apply others_spec; auto. repeat split; auto. intros b Hb. apply Hlo, in_or_app; auto.
  - intros (d & Hd & Hz). apply others_spec in Hz as (Ho & Hlo & Hhi); auto.
    split; auto. exists d; split; auto. intros b Hb. apply in_app_or in Hb as [Hb|Hb]; auto.
    unfold nonneg_bound in Hb. destruct (Nat.ltb_spec x dim); [|destruct Hb].
    destruct Hb as [<-|[]]. unfold lo_sem; simpl. change (inject_Z 0) with 0.
    specialize (Hd H). lra.
Qed.

(** ** Delays *)

Lemma shift_spec z v d : v 0%nat == 0 ->
  (zsem z (vdelay v (-d)) <->
   zsem (others 0 z) v /\ (forall b, In b (lowers 0 z) -> lo_sem v b d) /\
   (forall b, In b (uppers 0 z) -> hi_sem v b d)).
Proof.
  intros H0. induction z as [|c z IH].
  - simpl. split; [intros _; repeat split; intros ? []|intros _ ? []].
  - rewrite zsem_cons, IH. clear IH.
    unfold others, lowers, uppers. cbn [flat_map].
    fold (others 0 z). fold (lowers 0 z). fold (uppers 0 z).
    destruct c as [i j s k]. cbn [ci cj cs cc].
    destruct (Nat.eqb_spec i 0) as [->|Hi]; destruct (Nat.eqb_spec j 0) as [->|Hj]; cbn [andb negb app].
    + rewrite zsem_cons.
      assert (csem (mkC 0 0 s k) (vdelay v (-d)) <-> csem (mkC 0 0 s k) v) as ->.
      { unfold csem; cbn [ci cj cs cc]. rewrite vdelay_0. reflexivity. }
      tauto.
    + assert (csem (mkC 0 j s k) (vdelay v (-d)) <-> hi_sem v (mkB j s k) d) as ->.
      { unfold csem, hi_sem; cbn [ci cj cs cc bv bs bc]. rewrite vdelay_0, vdelay_S by auto.
        destruct s; simpl; split; intros; lra. }
      simpl. split.
      * intros (H1 & H2 & H3 & H4). repeat split; auto. intros b [<-|]; auto.
      * intros (H1 & H2 & H3). repeat split; auto.
    + assert (csem (mkC i 0 s k) (vdelay v (-d)) <-> lo_sem v (mkB i s (-k)) d) as ->.
      { unfold csem, lo_sem; cbn [ci cj cs cc bv bs bc]. rewrite vdelay_0, vdelay_S by auto.
        rewrite inject_Z_opp. destruct s; simpl; split; intros; lra. }
      simpl. split.
      * intros (H1 & H2 & H3 & H4). repeat split; auto. intros b [<-|]; auto.
      * intros (H1 & H2 & H3). repeat split; auto.
    + rewrite zsem_cons.
      assert (csem (mkC i j s k) (vdelay v (-d)) <-> csem (mkC i j s k) v) as ->.
      { unfold csem; cbn [ci cj cs cc]. rewrite !vdelay_S by auto.
        split; apply ilt_ext; try reflexivity; ring. }
      tauto.
Qed.

Lemma zup_sem dim z v : val_ok dim v ->
  (zsem (zup dim z) v <-> exists d, 0 <= d /\ val_ok dim (vdelay v (-d)) /\ zsem z (vdelay v (-d))).
Proof.
  intros [H0 Hnn]. unfold zup. rewrite zsem_tidy, zsem_app, fm_elim. split.
  - intros (Ho & d & Hlo & Hhi). exists d. split; [|split].
    + specialize (Hlo (mkB 0 false 0) (or_introl eq_refl)).
      unfold lo_sem in Hlo; simpl in Hlo. change (inject_Z 0) with 0 in Hlo. lra.
    + split; [exact H0|]. intros i Hi. destruct (Nat.eq_dec i 0) as [->|Hi0].
      * rewrite vdelay_0. lra.
      * rewrite vdelay_S by auto. specialize (Hhi (mkB i false 0)).
        assert (hi_sem v (mkB i false 0) d) as Hh.
        { apply Hhi, in_or_app. right. apply in_map_iff. exists i; split; auto. apply in_seq. lia. }
        unfold hi_sem in Hh; simpl in Hh. change (inject_Z 0) with 0 in Hh. lra.
    + apply shift_spec; auto. repeat split; auto.
      * intros b Hb. apply Hlo. now right.
      * intros b Hb. apply Hhi, in_or_app; auto.
  - intros (d & Hd & [_ Hok] & Hz). apply shift_spec in Hz as (Ho & Hlo & Hhi); auto.
    split; auto. exists d; split.
    + intros b [<-|Hb]; auto. unfold lo_sem; simpl. change (inject_Z 0) with 0. lra.
    + intros b Hb. apply in_app_or in Hb as [Hb|Hb]; auto.
      apply in_map_iff in Hb as (i & <- & Hi). apply in_seq in Hi.
      assert (Hlt : (i < dim)%nat) by lia. specialize (Hok i Hlt).
      rewrite vdelay_S in Hok by lia. unfold hi_sem; simpl. change (inject_Z 0) with 0. lra.
Qed.

Lemma zdown_sem z v : v 0%nat == 0 ->
  (zsem (zdown z) v <-> exists d, 0 <= d /\ zsem z (vdelay v d)).
Proof.
  intros H0. unfold zdown. rewrite zsem_tidy, zsem_app, fm_elim. split.
  - intros (Ho & d & Hlo & Hhi). exists (-d). split.
    + specialize (Hhi (mkB 0 false 0) (or_introl eq_refl)).
      unfold hi_sem in Hhi; simpl in Hhi. change (inject_Z 0) with 0 in Hhi. lra.
    + apply shift_spec; auto. repeat split; auto. intros b Hb. apply Hhi. now right.
  - intros (d & Hd & Hz).
    assert (Hz' : zsem z (vdelay v (- - d))).
    { eapply zsem_ext; [|exact Hz]. apply vdelay_ext; [reflexivity|ring]. }
    apply shift_spec in Hz' as (Ho & Hlo & Hhi); auto.
    split; auto. exists (-d); split; auto.
    intros b [<-|Hb]; auto. unfold hi_sem; simpl. change (inject_Z 0) with 0. lra.
Qed.

(** ** Emptiness *)

Definition cvars_in (xs : list nat) (z : zone) : Prop :=
  forall c, In c z -> (ci c = 0%nat \/ In (ci c) xs) /\ (cj c = 0%nat \/ In (cj c) xs).

Lemma tidy_vars xs z : cvars_in xs z -> cvars_in xs (tidy z).
Proof.
  intros H c Hc. unfold tidy in Hc. rewrite in_dedup in Hc. apply filter_In in Hc as [Hc _]. auto.
Qed.

Lemma zfree_vars dim x xs z : x <> 0%nat -> cvars_in (x :: xs) z -> cvars_in xs (zfree dim x z).
Proof.
  intros Hx H. apply tidy_vars. intros c Hc. apply in_app_or in Hc as [Hc|Hc].
  - unfold others in Hc. apply in_flat_map in Hc as (c0 & Hc0 & Hc). destruct (H c0 Hc0) as [A B].
    simpl in A, B.
    destruct (Nat.eqb_spec (ci c0) x); destruct (Nat.eqb_spec (cj c0) x); simpl in Hc; try tauto; destruct Hc as [<-|[]]; simpl; intuition congruence.
  - apply in_pair_bounds in Hc as (l & h & Hl & Hh & ->). cbn [ci cj]. split.
    + apply in_app_or in Hl as [Hl|Hl].
      * unfold nonneg_bound in Hl. destruct (Nat.ltb x dim); simpl in Hl; try tauto; destruct Hl as [<-|[]]. now left.
      * unfold lowers in Hl. apply in_flat_map in Hl as (c0 & Hc0 & Hc). destruct (H c0 Hc0) as [A B].
        destruct (Nat.eqb_spec (ci c0) x); destruct (Nat.eqb_spec (cj c0) x); simpl in Hc; try tauto; destruct Hc as [<-|[]];
        simpl in *; intuition congruence.
    + unfold uppers in Hh. apply in_flat_map in Hh as (c0 & Hc0 & Hc). destruct (H c0 Hc0) as [A B].
      destruct (Nat.eqb_spec (ci c0) x); destruct (Nat.eqb_spec (cj c0) x); simpl in Hc; try tauto; destruct Hc as [<-|[]];
      simpl in *; intuition congruence.
Qed.

Lemma zelim_vars dim xs : forall z, ~ In 0%nat xs -> cvars_in xs z -> cvars_in [] (zelim dim xs z).
Proof.
  induction xs as [|x xs IH]; intros z H0 Hz; simpl; auto.
  apply IH; [simpl in H0; tauto|]. apply zfree_vars; auto. simpl in H0. intros ->. tauto.
Qed.

(** Valuations agreeing outside [xs] and non-negative below [dim] on [xs]. *)
Lemma zelim_sem dim xs : forall z v, ~ In 0%nat xs -> v 0%nat == 0 ->
  (zsem (zelim dim xs z) v <->
   exists w, (forall i, ~ In i xs -> w i == v i) /\ (forall i, In i xs -> (i < dim)%nat -> 0 <= w i) /\ zsem z w).
Proof.
  induction xs as [|x xs IH]; intros z v H0 Hv; simpl.
  - split.
    + intros H. exists v. repeat split; auto; try tauto.
    + intros (w & Hw & _ & Hz). eapply zsem_ext; [|exact Hz]. intros i. apply Hw. auto.
  - assert (Hx : x <> 0%nat) by (intros ->; apply H0; now left).
    assert (H0' : ~ In 0%nat xs) by (intros H; apply H0; now right).
    rewrite (IH (zfree dim x z) v H0' Hv). split.
    + intros (w & Hw & Hnn & Hz).
      assert (Hw0 : w 0%nat == 0) by (rewrite (Hw 0%nat H0'); exact Hv).
      apply zfree_sem in Hz as (d & Hd & Hz); auto.
      exists (vset w x d). repeat split; auto.
      * intros i Hi. unfold vset. destruct (Nat.eqb_spec i x); subst; [tauto|]. apply Hw; tauto.
      * intros i Hi Hlt. unfold vset. destruct (Nat.eqb_spec i x); subst; auto.
        destruct Hi as [->|Hi]; [congruence|]. auto.
    + intros (w & Hw & Hnn & Hz).
      destruct (in_dec Nat.eq_dec x xs) as [Hin|Hnin].
      * exists w. repeat split; auto.
        -- intros i Hi. apply Hw. intros [->|]; auto.
        -- apply zfree_sem; auto.
           { rewrite (Hw 0%nat); auto. }
           exists (w x). split; [intros; apply Hnn; auto|].
           eapply zsem_ext; [symmetry; apply vset_same|]. exact Hz.
      * exists (vset w x (v x)). repeat split; auto.
        -- intros i Hi. unfold vset. destruct (Nat.eqb_spec i x); subst; [reflexivity|]. apply Hw.
           intros [->|]; auto.
        -- intros i Hi Hlt. rewrite vset_neq by (intros ->; tauto). auto.
        -- apply zfree_sem; auto.
           { rewrite vset_neq by auto. rewrite (Hw 0%nat); auto. }
           exists (w x). split; [intros; apply Hnn; auto|].
           eapply zsem_ext; [|exact Hz]. symmetry. etransitivity; [apply vset_vset|]. apply vset_same.
Qed.

Lemma zvars_no0 z : ~ In 0%nat (zvars z).
Proof. unfold zvars. rewrite filter_In. simpl. intuition discriminate. Qed.

Lemma zvars_cover z : cvars_in (zvars z) z.
Proof.
  intros c Hc.
  assert (Hi : forall x, In x [ci c; cj c] -> x = 0%nat \/ In x (zvars z)).
  { intros x Hx. destruct (Nat.eq_dec x 0); auto. right. unfold zvars. apply filter_In. split.
    - apply nodup_In. apply in_flat_map. eauto.
    - apply negb_true_iff, Nat.eqb_neq; auto. }
  split; apply Hi; simpl; auto.
Qed.

Lemma zvars_free_outside z v w : v 0%nat == 0 -> w 0%nat == 0 ->
  (forall i, In i (zvars z) -> v i == w i) -> zsem z v -> zsem z w.
Proof.
  intros Hv Hw H Hz c Hc. destruct (zvars_cover z c Hc) as [A B].
  specialize (Hz c Hc). unfold csem in *.
  assert (forall x, x = 0%nat \/ In x (zvars z) -> v x == w x) as E.
  { intros x [->|Hx]; auto. rewrite Hv, Hw. reflexivity. }
  eapply ilt_ext; [| |exact Hz]; [rewrite (E _ A), (E _ B)|]; reflexivity.
Qed.

Lemma const_sem z : cvars_in [] z -> (forallb const_ok z = true <-> zsem z (fun _ => 0)).
Proof.
  intros H. rewrite forallb_forall. unfold zsem. split; intros Hz c Hc; specialize (Hz c Hc).
  - unfold const_ok in Hz. unfold csem. destruct (cs c); simpl.
    + apply Z.ltb_lt in Hz. rewrite Zlt_Qlt in Hz. change (inject_Z 0) with 0 in Hz. lra.
    + apply Z.leb_le in Hz. rewrite Zle_Qle in Hz. change (inject_Z 0) with 0 in Hz. lra.
  - unfold const_ok. unfold csem in Hz. destruct (cs c); simpl in Hz.
    + apply Z.ltb_lt. rewrite Zlt_Qlt. change (inject_Z 0) with 0. lra.
    + apply Z.leb_le. rewrite Zle_Qle. change (inject_Z 0) with 0. lra.
Qed.

Lemma zempty_false dim z : zempty dim z = false <-> exists v, val_ok dim v /\ zsem z v.
Proof.
  unfold zempty. rewrite negb_false_iff.
  rewrite const_sem by (apply zelim_vars; [apply zvars_no0|apply zvars_cover]).
  rewrite zelim_sem; [|apply zvars_no0|reflexivity]. split.
  - intros (w & Hw & Hnn & Hz).
    exists (fun i => if in_dec Nat.eq_dec i (zvars z) then w i else 0). split.
    + split.
      * destruct (in_dec Nat.eq_dec 0%nat (zvars z)) as [H|]; [|reflexivity].
        exfalso; eapply zvars_no0; eauto.
      * intros i Hi. destruct (in_dec Nat.eq_dec i (zvars z)); auto. lra.
    + eapply zsem_ext; [|exact Hz]. intros i. destruct (in_dec Nat.eq_dec i (zvars z)); [reflexivity|]. auto.
  - intros (v & [H0 Hnn] & Hz).
    exists (fun i => if in_dec Nat.eq_dec i (zvars z) then v i else 0). repeat split.
    + intros i Hi. destruct (in_dec Nat.eq_dec i (zvars z)); [tauto|reflexivity].
    + intros i Hi Hlt. destruct (in_dec Nat.eq_dec i (zvars z)); [|tauto]. auto.
    + eapply zvars_free_outside; [exact H0| | |exact Hz]; simpl.
      * destruct (in_dec Nat.eq_dec 0%nat (zvars z)) as [H|]; [|reflexivity].
        exfalso; eapply zvars_no0; eauto.
      * intros i Hi. destruct (in_dec Nat.eq_dec i (zvars z)); [reflexivity|tauto].
Qed.

Lemma zempty_true dim z : zempty dim z = true <-> forall v, val_ok dim v -> ~ zsem z v.
Proof.
  split.
  - intros H v Hv Hz. assert (zempty dim z = false) by (apply zempty_false; eauto). congruence.
  - intros H. destruct (zempty dim z) eqn:E; auto.
    apply zempty_false in E as (v & Hv & Hz). exfalso; eapply H; eauto.
Qed.

Lemma fempty_true dim f : fempty dim f = true <-> forall v, ~ fsem dim f v.
Proof.
  unfold fempty. rewrite forallb_forall. split.
  - intros H v (Hv & z & Hz & Hs). specialize (H z Hz). rewrite zempty_true in H. eapply H; eauto.
  - intros H z Hz. apply zempty_true. intros v Hv Hs. apply (H v). split; eauto.
Qed.

Lemma fempty_false dim f : fempty dim f = false <-> exists v, fsem dim f v.
Proof.
  split.
  - induction f as [|z f IH]; simpl; [discriminate|]. rewrite andb_false_iff. intros [H|H].
    + apply zempty_false in H as (v & Hv & Hz). exists v; split; auto. exists z; simpl; auto.
    + destruct (IH H) as (v & Hv & z' & Hz & Hs). exists v; split; auto. exists z'; simpl; auto.
  - intros (v & H). destruct (fempty dim f) eqn:E; auto. exfalso. eapply fempty_true; eauto.
Qed.

Lemma fclean_sem dim f v : fsem dim (fclean dim f) v <-> fsem dim f v.
Proof.
  unfold fsem, fclean. split; intros (Hv & z & Hz & Hs); split; auto; exists z; split; auto.
  - apply filter_In in Hz. tauto.
  - apply filter_In; split; auto. apply negb_true_iff. apply zempty_false. eauto.
Qed.

(** ** Federation operations *)

Lemma fsem_ok dim f v : fsem dim f v -> val_ok dim v.
Proof. intros [H _]; exact H. Qed.

Lemma fnone_sem dim v : ~ fsem dim fnone v.
Proof. intros (_ & z & [] & _). Qed.

Lemma funiv_sem dim v : fsem dim funiv v <-> val_ok dim v.
Proof.
  split; [apply fsem_ok|]. intros H; split; auto. exists []; split; [now left|]. intros c [].
Qed.

Lemma fcon_sem dim c f v : fsem dim (fcon c f) v <-> csem c v /\ fsem dim f v.
Proof.
  unfold fsem, fcon. split.
  - intros (Hv & z & Hz & Hs). apply in_map_iff in Hz as (z' & <- & Hz').
    apply zsem_cons in Hs as [H1 H2]. eauto 7.
  - intros (Hc & Hv & z & Hz & Hs). split; auto. exists (c :: z). split.
    + now apply in_map.
    + apply zsem_cons; auto.
Qed.

Lemma fcon_eq_sem dim i j k f v :
  fsem dim (fcon_eq i j k f) v <-> v i - v j == inject_Z k /\ fsem dim f v.
Proof.
  unfold fcon_eq. rewrite !fcon_sem. unfold csem; cbn [ci cj cs cc ilt]. rewrite inject_Z_opp.
  split; [intros (H1 & H2 & H3); split; [lra|exact H3]|intros (H1 & H2); split; [lra|split; [lra|exact H2]]].
Qed.

Lemma ffree_sem dim x f v : x <> 0%nat -> (x < dim)%nat ->
  (fsem dim (ffree dim x f) v <-> val_ok dim v /\ exists d, 0 <= d /\ fsem dim f (vset v x d)).
Proof.
  intros Hx Hdim. unfold fsem, ffree. split.
  - intros (Hv & z & Hz & Hs). split; auto. apply in_map_iff in Hz as (z' & <- & Hz').
    apply zfree_sem in Hs as (d & Hd & Hs); auto; [|apply Hv].
    exists d; split; auto. split; eauto. apply vset_ok; auto.
  - intros (Hv & d & Hd & Hv' & z & Hz & Hs). split; auto. exists (zfree dim x z). split.
    + now apply in_map.
    + apply zfree_sem; auto; [apply Hv|]. eauto.
Qed.

Lemma fup_sem dim f v : fsem dim (fup dim f) v <-> val_ok dim v /\ exists d, 0 <= d /\ fsem dim f (vdelay v (-d)).
Proof.
  unfold fsem, fup. split.
  - intros (Hv & z & Hz & Hs). split; auto. apply in_map_iff in Hz as (z' & <- & Hz').
    apply zup_sem in Hs as (d & Hd & Hok & Hs); auto. eauto 7.
  - intros (Hv & d & Hd & Hok & z & Hz & Hs). split; auto. exists (zup dim z). split.
    + now apply in_map.
    + apply zup_sem; eauto.
Qed.

(** [up] in the forward direction: exactly the delay successors. *)
Lemma fup_sem' dim f v : fsem dim (fup dim f) v <->
  exists w d, 0 <= d /\ fsem dim f w /\ veq v (vdelay w d).
Proof.
  rewrite fup_sem. split.
  - intros (Hv & d & Hd & H). exists (vdelay v (-d)), d. repeat split; auto; try apply H.
    etransitivity; [|symmetry; apply vdelay_add]. symmetry. apply vdelay_zero. ring.
  - intros (w & d & Hd & H & E). split.
    + rewrite E. apply vdelay_ok; auto. now apply fsem_ok in H.
    + exists d; split; auto. eapply fsem_ext; [|exact H].
      symmetry. etransitivity; [apply vdelay_ext; [exact E|reflexivity]|].
      etransitivity; [apply vdelay_add|]. apply vdelay_zero; ring.
Qed.

Lemma fdown_sem dim f v : fsem dim (fdown f) v <-> val_ok dim v /\ exists d, 0 <= d /\ fsem dim f (vdelay v d).
Proof.
  unfold fsem, fdown. split.
  - intros (Hv & z & Hz & Hs). split; auto. apply in_map_iff in Hz as (z' & <- & Hz').
    apply zdown_sem in Hs as (d & Hd & Hs); [|apply Hv]. exists d; split; auto. split; eauto.
    apply vdelay_ok; auto.
  - intros (Hv & d & Hd & Hok & z & Hz & Hs). split; auto. exists (zdown z). split.
    + now apply in_map.
    + apply zdown_sem; [apply Hv|]. eauto.
Qed.

Lemma fzero_sem dim v : fsem dim (fzero dim) v <-> val_ok dim v /\ forall i, (i < dim)%nat -> v i == 0.
Proof.
  unfold fsem, fzero, zero_zone. split.
  - intros (Hv & z & [<-|[]] & Hs). split; auto. intros i Hi.
    destruct (Nat.eq_dec i 0) as [->|H0]; [apply Hv|].
    assert (Hin : forall c, In c [mkC i 0 false 0; mkC 0 i false 0] -> csem c v).
    { intros c Hc. apply Hs. apply in_flat_map. exists i. split; auto. apply in_seq. lia. }
    pose proof (Hin _ (or_introl eq_refl)) as A.
    pose proof (Hin _ (or_intror (or_introl eq_refl))) as B.
    unfold csem in A, B; cbn [ci cj cs cc ilt] in A, B. change (inject_Z 0) with 0 in A, B.
    destruct Hv as [Hv _]. lra.
  - intros (Hv & H). split; auto. eexists. split; [left; reflexivity|].
    intros c Hc. apply in_flat_map in Hc as (i & Hi & Hc). apply in_seq in Hi.
    specialize (H i ltac:(lia)). destruct Hv as [Hv _].
    destruct Hc as [<-|[<-|[]]]; unfold csem; cbn [ci cj cs cc ilt]; change (inject_Z 0) with 0; lra.
Qed.

Lemma funion_sem dim f g v : fsem dim (funion f g) v <-> fsem dim f v \/ fsem dim g v.
Proof.
  unfold fsem, funion. split.
  - intros (Hv & z & Hz & Hs). apply in_app_or in Hz as [|]; [left|right]; eauto.
  - intros [(Hv & z & Hz & Hs)|(Hv & z & Hz & Hs)]; split; auto; exists z; split; auto; apply in_or_app; auto.
Qed.

Lemma finter_sem dim f g v : fsem dim (finter dim f g) v <-> fsem dim f v /\ fsem dim g v.
Proof.
  unfold finter. rewrite fclean_sem. unfold fsem. split.
  - intros (Hv & z & Hz & Hs). apply in_flat_map in Hz as (z1 & H1 & Hz).
    apply in_map_iff in Hz as (z2 & <- & H2). rewrite zsem_dedup, zsem_app in Hs. destruct Hs. eauto 9.
  - intros ((Hv & z1 & H1 & S1) & (_ & z2 & H2 & S2)). split; auto.
    exists (dedup (z1 ++ z2)). split.
    + apply in_flat_map. exists z1; split; auto. apply in_map_iff. eauto.
    + rewrite zsem_dedup, zsem_app; auto.
Qed.

Lemma csem_cneg c v : csem (cneg c) v <-> ~ csem c v.
Proof.
  unfold cneg, csem; cbn [ci cj cs cc]. rewrite inject_Z_opp. destruct (cs c); simpl; split; intros; lra.
Qed.

Lemma csem_dec c v : csem c v \/ ~ csem c v.
Proof.
  unfold csem. destruct (cs c); simpl.
  - destruct (Qlt_le_dec (v (ci c) - v (cj c)) (inject_Z (cc c))); [left|right]; lra.
  - destruct (Qlt_le_dec (inject_Z (cc c)) (v (ci c) - v (cj c))); [right|left]; lra.
Qed.

Lemma zsem_dec z v : zsem z v \/ ~ zsem z v.
Proof.
  induction z as [|c z IH].
  - left. intros c [].
  - rewrite zsem_cons. destruct (csem_dec c v), IH; tauto.
Qed.

Lemma zcompl_sem dim z v : fsem dim (zcompl z) v <-> val_ok dim v /\ ~ zsem z v.
Proof.
  unfold fsem, zcompl. split.
  - intros (Hv & z' & Hz & Hs). split; auto. apply in_map_iff in Hz as (c & <- & Hc).
    intros H. specialize (H c Hc). specialize (Hs (cneg c) (or_introl eq_refl)). now apply csem_cneg in Hs.
  - intros (Hv & H). split; auto. induction z as [|c z IH].
    + exfalso. apply H. intros c [].
    + rewrite zsem_cons in H. destruct (csem_dec c v) as [Hc|Hc].
      * destruct IH as (z' & Hz & Hs); [tauto|]. exists z'; simpl; auto.
      * exists [cneg c]. split; [now left|]. intros d [<-|[]]. now apply csem_cneg.
Qed.

Lemma fsem_dec dim f v : val_ok dim v -> fsem dim f v \/ ~ fsem dim f v.
Proof.
  intros Hv. induction f as [|z f IH].
  - right. intros (_ & z & [] & _).
  - destruct (zsem_dec z v) as [Hz|Hz].
    + left. split; auto. exists z; simpl; auto.
    + destruct IH as [(_ & z' & Hz' & Hs)|IH].
      * left. split; auto. exists z'; simpl; auto.
      * right. intros (_ & z' & [<-|Hz'] & Hs); auto. apply IH. split; eauto.
Qed.

Lemma fcompl_sem dim f v : fsem dim (fcompl dim f) v <-> val_ok dim v /\ ~ fsem dim f v.
Proof.
  induction f as [|z f IH]; simpl.
  - rewrite funiv_sem. split; [intros H; split; auto; apply fnone_sem|tauto].
  - rewrite finter_sem, zcompl_sem, IH. split.
    + intros ((Hv & Hz) & _ & Hf). split; auto. intros (_ & z' & [<-|Hz'] & Hs); auto. apply Hf; split; eauto.
    + intros (Hv & H). repeat split; auto; try apply Hv.
      * intros Hz. apply H. split; auto. exists z; simpl; auto.
      * intros (_ & z' & Hz' & Hs). apply H. split; auto. exists z'; simpl; auto.
Qed.

Lemma fsub_sem dim g : forall f v, fsem dim (fsub dim f g) v <-> fsem dim f v /\ ~ fsem dim g v.
Proof.
  induction g as [|z g IH]; intros f v; simpl.
  - split; [intros H; split; auto; apply fnone_sem|tauto].
  - rewrite IH, finter_sem, zcompl_sem. split.
    + intros ((Hf & Hv & Hz) & Hg). split; auto.
      intros (_ & z' & [<-|Hz'] & Hs); auto. apply Hg; split; eauto.
    + intros (Hf & H). pose proof (fsem_ok _ _ _ Hf) as Hv. repeat split; auto; try apply Hf; try apply Hv.
      * intros Hz. apply H. split; auto. exists z; simpl; auto.
      * intros (_ & z' & Hz' & Hs). apply H. split; auto. exists z'; simpl; auto.
Qed.

Lemma fsubset_true dim f g : fsubset dim f g = true <-> forall v, fsem dim f v -> fsem dim g v.
Proof.
  unfold fsubset. rewrite fempty_true. split.
  - intros H v Hf. destruct (fsem_dec dim g v (fsem_ok _ _ _ Hf)) as [|Hn]; auto.
    exfalso. apply (H v). apply fsub_sem; auto.
  - intros H v Hs. apply fsub_sem in Hs as [Hf Hg]. auto.
Qed.

Lemma fsubset_false dim f g : fsubset dim f g = false <-> exists v, fsem dim f v /\ ~ fsem dim g v.
Proof.
  unfold fsubset. rewrite fempty_false. split; intros (v & H); exists v; apply fsub_sem; auto.
Qed.

Lemma fequals_true dim f g : fequals dim f g = true <-> forall v, fsem dim f v <-> fsem dim g v.
Proof.
  unfold fequals. rewrite andb_true_iff, !fsubset_true. firstorder.
Qed.

Lemma fmeets_true dim f g : fmeets dim f g = true <-> exists v, fsem dim f v /\ fsem dim g v.
Proof.
  unfold fmeets. rewrite negb_true_iff, fempty_false. split; intros (v & H); exists v; apply finter_sem; auto.
Qed.

Lemma fmeets_false dim f g : fmeets dim f g = false <-> forall v, fsem dim f v -> ~ fsem dim g v.
Proof.
  unfold fmeets. rewrite negb_false_iff, fempty_true. split.
  - intros H v Hf Hg. apply (H v). apply finter_sem; auto.
  - intros H v Hs. apply finter_sem in Hs as [? ?]. eapply H; eauto.
Qed.

Lemma fisuniv_true dim f : fisuniv dim f = true <-> forall v, val_ok dim v -> fsem dim f v.
Proof.
  unfold fisuniv. rewrite fempty_true. split.
  - intros H v Hv. destruct (fsem_dec dim f v Hv); auto. exfalso. apply (H v). apply fcompl_sem; auto.
  - intros H v Hs. apply fcompl_sem in Hs as [Hv Hn]. auto.
Qed.

(** Assignment [x := k] is the image of the set. *)
Lemma fassign_sem dim x k f v : x <> 0%nat -> (x < dim)%nat ->
  (fsem dim (fassign dim x k f) v <->
   val_ok dim v /\ v x == inject_Z k /\ exists d, 0 <= d /\ fsem dim f (vset v x d)).
Proof.
  intros Hx Hd. unfold fassign. rewrite fcon_eq_sem, ffree_sem by auto. split.
  - intros (H1 & Hv & H). repeat split; try apply Hv; auto. destruct Hv as [Hv0 _]. lra.
  - intros (Hv & H1 & H). repeat split; try apply Hv; auto. destruct Hv as [Hv0 _]. lra.
Qed.

Lemma fassign_image dim x k f v : x <> 0%nat -> (x < dim)%nat -> (0 <= k)%Z ->
  (fsem dim (fassign dim x k f) v <->
   exists w, fsem dim f w /\ veq v (vset w x (inject_Z k))).
Proof.
  intros Hx Hd Hk. rewrite fassign_sem by auto. split.
  - intros (Hv & Hxk & d & Hd' & Hf). exists (vset v x d). split; auto.
    intros i. unfold vset. destruct (Nat.eqb_spec i x); subst; [exact Hxk|reflexivity].
  - intros (w & Hf & E). pose proof (fsem_ok _ _ _ Hf) as Hw.
    assert (Hk' : 0 <= inject_Z k) by (change 0 with (inject_Z 0); rewrite <- Zle_Qle; auto).
    assert (Hv : val_ok dim v).
    { rewrite E. apply vset_ok; auto. }
    repeat split; try apply Hv.
    + rewrite (E x), vset_eq. reflexivity.
    + exists (w x). split; [apply Hw; auto|]. eapply fsem_ext; [|exact Hf].
      symmetry. etransitivity; [apply vset_ext; [exact E|reflexivity]|].
      etransitivity; [apply vset_vset|]. apply vset_same.
Qed.

Lemma finit_sem dim v : fsem dim (finit dim) v <->
  exists d, 0 <= d /\ v 0%nat == 0 /\ forall i, i <> 0%nat -> (i < dim)%nat -> v i == d.
Proof.
  unfold finit. rewrite fup_sem. split.
  - intros (Hv & d & Hd & H). exists d. repeat split; auto; [apply Hv|].
    intros i H0 Hi. apply fzero_sem in H as [_ H]. specialize (H i Hi).
    rewrite vdelay_S in H by auto. lra.
  - intros (d & Hd & H0 & H).
    assert (Hv : val_ok dim v).
    { split; auto. intros i Hi. destruct (Nat.eq_dec i 0) as [->|Hi0]; [lra|].
      specialize (H i Hi0 Hi). lra. }
    split; auto. exists d; split; auto. apply fzero_sem. split.
    + split; [exact H0|]. intros i Hi. destruct (Nat.eq_dec i 0) as [->|Hi0]; [rewrite vdelay_0; lra|].
      rewrite vdelay_S by auto. specialize (H i Hi0 Hi). lra.
    + intros i Hi. destruct (Nat.eq_dec i 0) as [->|Hi0]; [exact H0|].
      rewrite vdelay_S by auto. specialize (H i Hi0 Hi). lra.
Qed.

(** [can_delay_indefinitely]: some valuation may stay inside one zone forever. *)
Lemma zunbounded_sem dim z :
  zunbounded dim z = true <-> exists v, val_ok dim v /\ forall d, 0 <= d -> zsem z (vdelay v d).
Proof.
  unfold zunbounded. rewrite andb_true_iff, negb_true_iff, zempty_false, forallb_forall. split.
  - intros ((v & Hv & Hz) & Hu). exists v; split; auto. intros d Hd c Hc.
    specialize (Hz c Hc). specialize (Hu c Hc). apply negb_true_iff in Hu.
    unfold csem in *. destruct c as [i j s k]; cbn [ci cj cs cc] in *. destruct Hv as [H0 _].
    destruct (Nat.eq_dec i 0) as [->|Hi]; destruct (Nat.eq_dec j 0) as [->|Hj].
    + rewrite vdelay_0. auto.
    + rewrite vdelay_0, vdelay_S by auto. destruct s; simpl in *; lra.
    + apply Nat.eqb_neq in Hi. rewrite Hi in Hu. discriminate.
    + rewrite !vdelay_S by auto. eapply ilt_ext; [| |exact Hz]; [ring|reflexivity].
  - intros (v & Hv & H). split.
    + exists v; split; auto. eapply zsem_ext; [apply vdelay_zero; reflexivity|]. apply (H 0). lra.
    + intros c Hc. apply negb_true_iff. apply andb_false_iff.
      destruct (Nat.eqb_spec (cj c) 0) as [Ej|]; auto. right.
      destruct (Nat.eqb_spec (ci c) 0) as [|Ei]; auto. exfalso.
      specialize (H (Qabs (v (ci c) - v 0%nat) + Qabs (inject_Z (cc c)) + 1)).
      pose proof (Qabs_nonneg (v (ci c) - v 0%nat)). pose proof (Qabs_nonneg (inject_Z (cc c))).
      pose proof (Qle_Qabs (inject_Z (cc c))). pose proof (Qle_Qabs (- (v (ci c) - v 0%nat))) as Hq.
      rewrite Qabs_opp in Hq.
      specialize (H ltac:(lra) c Hc). unfold csem in H. rewrite Ej in H.
      rewrite vdelay_0, vdelay_S in H by auto.
      destruct (cs c); unfold ilt in H; lra.
Qed.
