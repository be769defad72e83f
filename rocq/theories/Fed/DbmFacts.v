(** The closed matrix of a zone, and what extrapolation adds to it. *)
From Coq Require Import ZArith QArith List Bool Arith Lia Lqa.
From Verif Require Import Fed.Zone Fed.ZoneFacts Fed.Dbm.
Import ListNotations.
Local Open Scope Q_scope.

Lemma nth_map_seq {A} (f : nat -> A) d n i : (i < n)%nat -> nth i (map f (seq 0 n)) d = f i.
Proof. intros H. rewrite (nth_indep _ d (f 0%nat)) by (rewrite map_length, seq_length; exact H). rewrite map_nth, seq_nth by exact H. reflexivity. Qed.
Lemma dget_make dim F i j : (i < dim)%nat -> (j < dim)%nat -> dget (dmake dim F) i j = F i j.
Proof. intros Hi Hj. unfold dget, dmake. rewrite (nth_map_seq (fun i => map (F i) (seq 0 dim)) [] dim i Hi). apply nth_map_seq, Hj. Qed.

(** ** Bounds *)
(** [a] is at least as tight as [b]. *)
Definition ble (a b : bound) : Prop :=
  match b, a with
  | None, _ => True
  | Some _, None => False
  | Some (t, d), Some (s, c) => (c < d)%Z \/ c = d /\ (t = true -> s = true)
  end.
Lemma ble_refl a : ble a a.
Proof. destruct a as [[s c]|]; cbn; auto. Qed.
Lemma ble_trans a b c : ble a b -> ble b c -> ble a c.
Proof. destruct a as [[s x]|], b as [[t y]|], c as [[u z]|]; cbn; try tauto. intros [A|[-> A]] [B|[-> B]]; try (left; lia). right. split; [reflexivity|auto]. Qed.
Lemma ble_sem a b q : ble a b -> bound_sem a q -> bound_sem b q.
Proof.
  destruct a as [[s x]|], b as [[t y]|]; cbn; try tauto. intros [A|[-> A]].
  - rewrite Zlt_Qlt in A. unfold ilt. destruct s, t; lra.
  - destruct t; [rewrite (A eq_refl); auto|]. unfold ilt. destruct s; lra.
Qed.
Lemma bmin_or a b : bmin a b = a \/ bmin a b = b.
Proof.
  destruct a as [[s x]|], b as [[t y]|]; cbn; auto. destruct (Z.ltb_spec x y); [auto|]. destruct (Z.ltb_spec y x); [auto|]. assert (x = y) by lia. subst.
  destruct s, t; cbn; auto.
Qed.
Lemma bmin_l a b : ble (bmin a b) a.
Proof.
  destruct a as [[s x]|], b as [[t y]|]; cbn; auto. destruct (Z.ltb_spec x y); cbn; [auto|]. destruct (Z.ltb_spec y x); cbn; [left; lia|].
  right. split; [reflexivity|]. intros ->. reflexivity.
Qed.
Lemma bmin_r a b : ble (bmin a b) b.
Proof.
  destruct a as [[s x]|], b as [[t y]|]; cbn; auto. destruct (Z.ltb_spec x y); cbn; [left; lia|]. destruct (Z.ltb_spec y x); cbn; [auto|].
  right. split; [lia|]. intros ->. apply orb_true_r.
Qed.
Lemma bmin_glb a b c : ble c a -> ble c b -> ble c (bmin a b).
Proof. intros A B. destruct (bmin_or a b) as [->| ->]; assumption. Qed.
Lemma bmin_sem a b q : bound_sem (bmin a b) q <-> bound_sem a q /\ bound_sem b q.
Proof.
  split; [|destruct (bmin_or a b) as [->| ->]; tauto]. intros H. split; [exact (ble_sem _ _ _ (bmin_l a b) H)|exact (ble_sem _ _ _ (bmin_r a b) H)].
Qed.
Lemma badd_sem a b p q : bound_sem a p -> bound_sem b q -> bound_sem (badd a b) (p + q).
Proof.
  destruct a as [[s x]|], b as [[t y]|]; cbn; auto. unfold ilt. rewrite inject_Z_plus. destruct s, t; cbn; lra.
Qed.
Lemma badd_mono a b a' b' : ble a a' -> ble b b' -> ble (badd a b) (badd a' b').
Proof.
  destruct a as [[s x]|], b as [[t y]|], a' as [[s' x']|], b' as [[t' y']|]; cbn; try tauto.
  intros [A|[-> A]] [B|[-> B]]; try (left; lia). right. split; [reflexivity|]. intros H. apply orb_true_iff in H. apply orb_true_iff. tauto.
Qed.
Lemma badd_assoc a b c : badd (badd a b) c = badd a (badd b c).
Proof. destruct a as [[s x]|], b as [[t y]|], c as [[u z]|]; cbn; try reflexivity. rewrite orb_assoc, Z.add_assoc. reflexivity. Qed.
Definition zero_bound : bound := Some (false, 0%Z).
Lemma badd_zero_l a b : ble zero_bound a -> ble b (badd a b).
Proof. destruct a as [[s x]|], b as [[t y]|]; cbn; auto. intros [A|[<- A]]; [left; lia|]. right. split; [lia|]. intros H. apply orb_true_iff in H. destruct H as [H|H]; auto. discriminate (A H). Qed.
Lemma badd_zero_r a b : ble zero_bound a -> ble b (badd b a).
Proof.
  destruct a as [[s x]|], b as [[t y]|]; cbn; auto. intros [A|[<- A]]; [left; lia|]. right. split; [lia|]. intros H. apply orb_true_iff in H. destruct H as [H|H]; auto. discriminate (A H).
Qed.
Lemma zero_fits a q : q == 0 -> bound_sem a q -> ble zero_bound a.
Proof.
  destruct a as [[s x]|]; cbn; auto. intros E H. unfold ilt in H. destruct s.
  - left. rewrite Zlt_Qlt. change (inject_Z 0) with 0. lra.
  - destruct (Z.eq_dec 0 x) as [->|N]; [auto|]. left. assert (X : (0 <= x)%Z); [|lia]. rewrite Zle_Qle. change (inject_Z 0) with 0. lra.
Qed.
Lemma zero_bound_sem a q : q == 0 -> ble zero_bound a -> bound_sem a q.
Proof. intros E H. apply (ble_sem _ _ _ H). cbn. change (inject_Z 0) with 0. lra. Qed.
Lemma bound_sem_eq a p q : p == q -> bound_sem a p -> bound_sem a q.
Proof. destruct a as [[s x]|]; cbn; auto. intros E. unfold ilt. destruct s; lra. Qed.

(** ** The matrix of a zone *)
Definition bsat (dim : nat) (m : dbm) (v : val) : Prop := forall i j, (i < dim)%nat -> (j < dim)%nat -> bound_sem (dget m i j) (v i - v j).
Lemma zone_bound_sem z i j q : bound_sem (zone_bound z i j) q <->
  ((i = j \/ i = 0%nat) -> q <= 0) /\ forall c, In c z -> ci c = i -> cj c = j -> ilt (cs c) q (inject_Z (cc c)).
Proof.
  induction z as [|c z IH]; cbn [zone_bound fold_right].
  - destruct (Nat.eqb_spec i j) as [->|N]; [|destruct (Nat.eqb_spec i 0) as [->|N']]; cbn; change (inject_Z 0) with 0; split.
    + intros H. split; [auto|intros c []].
    + intros [H _]. apply H. auto.
    + intros H. split; [auto|intros c []].
    + intros [H _]. apply H. auto.
    + intros _. split; [tauto|intros c []].
    + auto.
  - fold (zone_bound z i j) in *. destruct (Nat.eqb_spec (ci c) i) as [E1|N]; [destruct (Nat.eqb_spec (cj c) j) as [E2|N]|]; cbn [andb].
    + rewrite bmin_sem, IH. cbn [bound_sem]. split.
      * intros (A & B & C). split; [exact B|]. intros c' [<-|Hc] X Y; auto.
      * intros (B & C). split; [apply C; [left; reflexivity|exact E1|exact E2]|]. split; [exact B|]. intros c' Hc. apply C. right. exact Hc.
    + rewrite IH. split; intros (B & C); (split; [exact B|]); intros c' Hc X Y; [destruct Hc as [<-|Hc]; [congruence|]; auto|apply C; auto; right; exact Hc].
    + rewrite IH. split; intros (B & C); (split; [exact B|]); intros c' Hc X Y; [destruct Hc as [<-|Hc]; [congruence|]; auto|apply C; auto; right; exact Hc].
Qed.
Lemma dbm_of_sem dim z v : (0 < dim)%nat -> cvars_in (seq 1 (dim - 1)) z -> v 0%nat == 0 -> bsat dim (dbm_of dim z) v <-> val_ok dim v /\ zsem z v.
Proof.
  intros Hd Hz V0. assert (B : forall x, x = 0%nat \/ In x (seq 1 (dim - 1)) -> (x < dim)%nat) by (intros x [->|H]; [exact Hd|apply in_seq in H; lia]). split.
  - intros H. split; [split; [exact V0|]|].
    + intros i Hi. specialize (H 0%nat i Hd Hi). unfold dbm_of in H. rewrite dget_make in H by assumption. apply zone_bound_sem in H. destruct H as [H _]. specialize (H (or_intror eq_refl)). lra.
    + intros c Hc. destruct (Hz c Hc) as [C1 C2]. specialize (H (ci c) (cj c) (B _ C1) (B _ C2)). unfold dbm_of in H. rewrite dget_make in H by (apply B; assumption).
      apply zone_bound_sem in H. exact (proj2 H c Hc eq_refl eq_refl).
  - intros [V S] i j Hi Hj. unfold dbm_of. rewrite dget_make by assumption. apply zone_bound_sem. split.
    + intros [->| ->]; [lra|]. pose proof (proj2 V j Hj). lra.
    + intros c Hc <- <-. exact (S c Hc).
Qed.

(** ** Closing *)
Lemma close_step_sem dim m k v : (k < dim)%nat -> bsat dim (close_step dim m k) v <-> bsat dim m v.
Proof.
  intros Hk. split; intros H i j Hi Hj.
  - specialize (H i j Hi Hj). unfold close_step in H. rewrite dget_make in H by assumption. apply bmin_sem in H. apply H.
  - unfold close_step. rewrite dget_make by assumption. apply bmin_sem. split; [apply H; assumption|].
    eapply bound_sem_eq; [|apply badd_sem; [apply (H i k Hi Hk)|apply (H k j Hk Hj)]]. ring.
Qed.
Definition tri (dim : nat) (m : dbm) (l : nat) : Prop := forall i j, (i < dim)%nat -> (j < dim)%nat -> ble (dget m i j) (badd (dget m i l) (dget m l j)).
Lemma close_step_tri dim m k l : (k < dim)%nat -> (l < dim)%nat -> ble zero_bound (dget m k k) -> (l = k \/ tri dim m l) -> tri dim (close_step dim m k) l.
Proof.
  intros Hk Hl D T i j Hi Hj. unfold close_step. rewrite !dget_make by assumption. destruct T as [->|T].
  - eapply ble_trans; [apply bmin_r|]. apply badd_mono; apply bmin_glb; try apply ble_refl; [apply badd_zero_r, D|apply badd_zero_l, D].
  - assert (K : forall p q, ble (dget m i k) p -> ble (dget m k j) q -> ble (bmin (dget m i j) (badd (dget m i k) (dget m k j))) (badd p q)).
    { intros p q P Q. eapply ble_trans; [apply bmin_r|]. apply badd_mono; assumption. }
    destruct (bmin_or (dget m i l) (badd (dget m i k) (dget m k l))) as [->| ->]; destruct (bmin_or (dget m l j) (badd (dget m l k) (dget m k j))) as [->| ->].
    + eapply ble_trans; [apply bmin_l|apply T; assumption].
    + rewrite <- badd_assoc. apply K; [apply T; assumption|apply ble_refl].
    + rewrite badd_assoc. apply K; [apply ble_refl|apply T; assumption].
    + rewrite badd_assoc. apply K; [apply ble_refl|]. rewrite <- badd_assoc. eapply ble_trans; [apply (badd_zero_l (dget m k k)), D|]. apply badd_mono; [apply T; assumption|apply ble_refl].
Qed.
Lemma close_sem dim m v : bsat dim (close dim m) v <-> bsat dim m v.
Proof.
  unfold close. assert (R : forall k, In k (seq 0 dim) -> (k < dim)%nat) by (intros k H; apply in_seq in H; lia). revert R m.
  induction (seq 0 dim) as [|k ks IH]; intros R m; cbn [fold_left]; [reflexivity|]. rewrite IH by (intros; apply R; right; assumption). apply close_step_sem, R. left. reflexivity.
Qed.
(** A closed matrix: no bound can be tightened by way of another clock. *)
Lemma close_tri dim m v : bsat dim m v -> forall l, (l < dim)%nat -> tri dim (close dim m) l.
Proof.
  intros S. unfold close. assert (R : forall k, In k (seq 0 dim) -> (k < dim)%nat) by (intros k H; apply in_seq in H; lia).
  assert (G : forall ks m0, (forall k, In k ks -> (k < dim)%nat) -> bsat dim m0 v -> forall l, (l < dim)%nat -> In l ks \/ tri dim m0 l -> tri dim (fold_left (close_step dim) ks m0) l).
  { induction ks as [|k ks IH]; intros m0 Rk S0 l Hl T; cbn [fold_left].
    - destruct T as [[]|T]. exact T.
    - assert (Hk : (k < dim)%nat) by (apply Rk; left; reflexivity). apply IH; [intros; apply Rk; right; assumption|apply close_step_sem; assumption|exact Hl|].
      destruct (in_dec Nat.eq_dec l ks) as [X|X]; [left; exact X|right]. apply close_step_tri; auto.
      + apply (zero_fits _ (v k - v k)); [ring|]. apply S0; assumption.
      + destruct T as [[T|T]|T]; [left; symmetry; exact T|contradiction|right; exact T]. }
  intros l Hl. apply G; auto. left. apply in_seq. lia.
Qed.
Lemma close_diag dim m v : bsat dim m v -> forall k, (k < dim)%nat -> ble zero_bound (dget (close dim m) k k).
Proof. intros S k Hk. apply (zero_fits _ (v k - v k)); [ring|]. apply close_sem; assumption. Qed.

Lemma zone_bound_diag z i : ble (zone_bound z i i) zero_bound.
Proof.
  induction z as [|c z IH]; cbn [zone_bound fold_right]; [rewrite Nat.eqb_refl; apply ble_refl|]. fold (zone_bound z i i). destruct (_ && _); [|exact IH].
  eapply ble_trans; [apply bmin_r|exact IH].
Qed.
Lemma close_diag_le dim m k : (k < dim)%nat -> ble (dget m k k) zero_bound -> ble (dget (close dim m) k k) zero_bound.
Proof.
  intros Hk. unfold close. generalize (seq 0 dim). intros ks. revert m. induction ks as [|l ks IH]; intros m H; [exact H|]. cbn [fold_left]. apply IH. unfold close_step. rewrite dget_make by assumption.
  eapply ble_trans; [apply bmin_l|exact H].
Qed.
Lemma close_diag_zero dim z v : bsat dim (dbm_of dim z) v -> forall k, (k < dim)%nat -> dget (close dim (dbm_of dim z)) k k = zero_bound.
Proof.
  intros S k Hk. pose proof (close_diag dim _ v S k Hk) as A. assert (B : ble (dget (close dim (dbm_of dim z)) k k) zero_bound).
  { apply close_diag_le; [exact Hk|]. unfold dbm_of. rewrite dget_make by assumption. apply zone_bound_diag. }
  destruct (dget (close dim (dbm_of dim z)) k k) as [[s c]|]; cbn in *; [|contradiction]. destruct A as [A|[<- A]], B as [B|[B B']]; try lia. destruct s; [discriminate (A eq_refl)|reflexivity].
Qed.

(** ** Values for further clocks *)
Section Extend.
  Variable dim : nat.
  Variable m : dbm.
  Hypothesis T : forall l, (l < dim)%nat -> tri dim m l.
  Hypothesis D : forall k, (k < dim)%nat -> ble zero_bound (dget m k k).
  (** Clocks which have to be beyond a constant. *)
  Variable O : list (nat * Z).
  Hypothesis Od : forall y k, In (y, k) O -> (y < dim)%nat.
  Definition beyond_ok (S : list nat) (w : val) : Prop :=
    forall y k i s c, In (y, k) O -> In i S -> dget m y i = Some (s, c) -> inject_Z k < w i + inject_Z c.
  Definition fits (S : list nat) (w : val) : Prop := forall i j, In i S -> In j S -> bound_sem (dget m i j) (w i - w j).
  Lemma extend_one S w x : In 0%nat S -> (forall i, In i S -> (i < dim)%nat) -> (x < dim)%nat -> ~ In x S -> w 0%nat == 0 -> fits S w -> beyond_ok S w ->
    exists d, fits (x :: S) (vset w x d) /\ beyond_ok (x :: S) (vset w x d).
  Proof.
    intros H0 Hs Hx Nx W0 F B.
    set (lo := flat_map (fun j => match dget m j x with Some (s, c) => [mkB j s (- c)] | None => [] end) S ++
               flat_map (fun yk : nat * Z => match dget m (fst yk) x with Some (s, c) => [mkB 0 true (snd yk - c)] | None => [] end) O).
    set (hi := flat_map (fun i => match dget m x i with Some (s, c) => [mkB i s c] | None => [] end) S).
    assert (P : zsem (pair_bounds lo hi) w).
    { intros c0 Hc. apply in_pair_bounds in Hc. destruct Hc as (l & h & Hl & Hh & ->). apply in_flat_map in Hh. destruct Hh as (i & Hi & Hh). destruct (dget m x i) as [[s c]|] eqn:Ei; [|destruct Hh].
      destruct Hh as [<-|[]]. apply in_app_or in Hl. destruct Hl as [Hl|Hl]; apply in_flat_map in Hl.
      - destruct Hl as (j & Hj & Hl). destruct (dget m j x) as [[s' c']|] eqn:Ej; [|destruct Hl]. destruct Hl as [<-|[]]. unfold csem. cbn [bv bs bc ci cj cs cc].
        pose proof (T x Hx j i (Hs j Hj) (Hs i Hi)) as X. rewrite Ei, Ej in X. pose proof (ble_sem _ _ _ X (F j i Hj Hi)) as Y. cbn [badd bound_sem] in Y. replace (c - - c')%Z with (c' + c)%Z by lia. exact Y.
      - destruct Hl as ((y & k) & Hy & Hl). cbn [fst snd] in Hl. destruct (dget m y x) as [[s' c']|] eqn:Ey; [|destruct Hl]. destruct Hl as [<-|[]]. unfold csem. cbn [bv bs bc ci cj cs cc orb ilt].
        pose proof (T x Hx y i (Od y k Hy) (Hs i Hi)) as X. rewrite Ei, Ey in X. destruct (dget m y i) as [[s0 c1]|] eqn:E0; [|destruct X].
        pose proof (B y k i s0 c1 Hy Hi E0) as Y. cbn in X. assert (L : (c1 <= c' + c)%Z) by (destruct X as [X|[X _]]; lia). rewrite Zle_Qle, inject_Z_plus in L.
        rewrite !inject_Z_sub. rewrite W0. lra. }
    apply fm_elim in P. destruct P as (d & Lo & Hi). exists d.
    assert (Old : forall i, In i S -> vset w x d i = w i) by (intros i Hi'; apply vset_neq; intros ->; contradiction).
    split.
    - intros i j [<-|Hi'] [<-|Hj'].
      + apply zero_bound_sem; [ring|apply D, Hx].
      + rewrite vset_eq, (Old j Hj'). destruct (dget m x j) as [[s c]|] eqn:E; [|exact I]. assert (X : hi_sem w (mkB j s c) d).
        { apply Hi. apply in_flat_map. exists j. split; [exact Hj'|]. rewrite E. left. reflexivity. }
        unfold hi_sem in X. cbn [bv bs bc] in X. cbn [bound_sem]. unfold ilt in *. destruct s; lra.
      + rewrite vset_eq, (Old i Hi'). destruct (dget m i x) as [[s c]|] eqn:E; [|exact I]. assert (X : lo_sem w (mkB i s (- c)) d).
        { apply Lo. apply in_or_app. left. apply in_flat_map. exists i. split; [exact Hi'|]. rewrite E. left. reflexivity. }
        unfold lo_sem in X. cbn [bv bs bc] in X. rewrite inject_Z_opp in X. cbn [bound_sem]. unfold ilt in *. destruct s; lra.
      + rewrite (Old i Hi'), (Old j Hj'). apply F; assumption.
    - intros y k i s c Hy [<-|Hi'] E; [|rewrite (Old i Hi'); exact (B y k i s c Hy Hi' E)]. rewrite vset_eq. assert (X : lo_sem w (mkB 0 true (k - c)) d).
      { apply Lo. apply in_or_app. right. apply in_flat_map. exists (y, k). split; [exact Hy|]. cbn [fst snd]. rewrite E. left. reflexivity. }
      unfold lo_sem in X. cbn [bv bs bc ilt] in X. rewrite inject_Z_sub, W0 in X. lra.
  Qed.
  Lemma extend_all xs : forall S w, In 0%nat S -> (forall i, In i S -> (i < dim)%nat) -> (forall x, In x xs -> (x < dim)%nat /\ ~ In x S) -> NoDup xs -> w 0%nat == 0 -> fits S w -> beyond_ok S w ->
    exists u, (forall i, In i S -> u i = w i) /\ fits (xs ++ S) u /\ beyond_ok (xs ++ S) u.
  Proof.
    induction xs as [|x xs IH]; intros S w H0 Hs Hx N W0 F B; [exists w; auto|]. apply NoDup_cons_iff in N. destruct N as [Nx N]. destruct (Hx x (or_introl eq_refl)) as [Xd Xs].
    destruct (extend_one S w x H0 Hs Xd Xs W0 F B) as (d & F' & B'). assert (X0 : x <> 0%nat) by (intros ->; contradiction).
    destruct (IH (x :: S) (vset w x d)) as (u & E & Fu & Bu); auto.
    - right. exact H0.
    - intros i [<-|Hi]; auto.
    - intros y Hy. destruct (Hx y (or_intror Hy)) as [Y1 Y2]. split; [exact Y1|]. intros [->|Z]; contradiction.
    - rewrite vset_neq by auto. exact W0.
    - exists u. split; [|split].
      + intros i Hi. rewrite (E i (or_intror Hi)). apply vset_neq. intros ->. contradiction.
      + intros i j Hi Hj. assert (Y : forall k, In k ((x :: xs) ++ S) -> In k (xs ++ x :: S)).
        { intros k Hk. cbn in Hk. rewrite in_app_iff in *. cbn. tauto. }
        apply Fu; apply Y; assumption.
      + intros y k i s c Hy Hi. assert (Y : In i (xs ++ x :: S)). { cbn in Hi. rewrite in_app_iff in *. cbn. tauto. } exact (Bu y k i s c Hy Y).
  Qed.
End Extend.

(** ** Extrapolation *)
Lemma extra_more dim b m v : bsat dim m v -> bsat dim (extra dim b m) v.
Proof.
  intros H i j Hi Hj. unfold extra. rewrite dget_make by assumption. specialize (H i j Hi Hj). unfold extra_bound. destruct (Nat.eqb i j); [exact H|].
  destruct (dget m i j) as [[s c]|]; [|exact I]. destruct (max_bound b i) as [u|]; [|exact I]. destruct (max_bound b j) as [l|]; [|exact I].
  destruct (Z.ltb u c); [exact I|]. destruct (Z.ltb_spec c (- l)) as [L|L]; [|exact H]. refine (ble_sem _ _ _ _ H). left. exact L.
Qed.
(** Each valuation of the extrapolated matrix differs from one of the matrix only in clocks that are beyond their bounds in both. *)
Lemma extra_less dim b m v : (0 < dim)%nat -> (forall l, (l < dim)%nat -> tri dim m l) -> (forall k, (k < dim)%nat -> dget m k k = zero_bound) ->
  val_ok dim v -> bsat dim (extra dim b m) v ->
  exists w, w 0%nat == 0 /\ bsat dim m w /\ forall i k, (i < dim)%nat -> b i = Some k -> v i == w i \/ inject_Z k < v i /\ inject_Z k < w i.
Proof.
  intros Hd T D0 V S. assert (D : forall k, (k < dim)%nat -> ble zero_bound (dget m k k)) by (intros k Hk; rewrite (D0 k Hk); apply ble_refl).
  set (inside := fun i => Nat.eqb i 0 || match b i with Some k => Qle_bool (v i) (inject_Z k) | None => false end).
  set (S0 := filter inside (seq 0 dim)). set (xs := filter (fun i => negb (inside i)) (seq 0 dim)).
  set (O := flat_map (fun i => match b i with Some k => [(i, k)] | None => [] end) xs).
  assert (In_ : forall i, In i S0 <-> (i < dim)%nat /\ (i = 0%nat \/ exists k, b i = Some k /\ v i <= inject_Z k)).
  { intros i. unfold S0. rewrite filter_In, in_seq. unfold inside. rewrite orb_true_iff, Nat.eqb_eq. split; intros [A B]; (split; [lia|]).
    - destruct B as [B|B]; [auto|right]. destruct (b i) as [k|]; [|discriminate]. exists k. split; [reflexivity|apply Qle_bool_iff, B].
    - destruct B as [B|(k & E & L)]; [auto|right]. rewrite E. apply Qle_bool_iff, L. }
  assert (Out : forall i, In i xs <-> (i < dim)%nat /\ i <> 0%nat /\ forall k, b i = Some k -> inject_Z k < v i).
  { intros i. unfold xs. rewrite filter_In, in_seq. unfold inside. rewrite negb_true_iff, orb_false_iff, Nat.eqb_neq. split; intros (A & B & C); (split; [lia|]); (split; [exact B|]).
    - intros k E. rewrite E in C. apply Qnot_le_lt. intros L. apply Qle_bool_iff in L. congruence.
    - destruct (b i) as [k|]; [|reflexivity]. destruct (Qle_bool (v i) (inject_Z k)) eqn:Q; [|reflexivity]. apply Qle_bool_iff in Q. pose proof (C k eq_refl). lra. }
  assert (InO : forall y k, In (y, k) O <-> In y xs /\ b y = Some k).
  { intros y k. unfold O. rewrite in_flat_map. split.
    - intros (i & Hi & H). destruct (b i) as [k'|] eqn:E; [|destruct H]. destruct H as [H|[]]. injection H as <- <-. auto.
    - intros [Hy E]. exists y. split; [exact Hy|]. rewrite E. left. reflexivity. }
  (* clocks inside have a maximum bound which they do not exceed *)
  assert (Mx : forall i, In i S0 -> exists k, max_bound b i = Some k /\ v i <= inject_Z k).
  { intros i Hi. apply In_ in Hi. destruct Hi as [_ [->|(k & E & L)]]; unfold max_bound.
    - exists 0%Z. split; [reflexivity|]. destruct V as [V0 _]. rewrite V0. apply Qle_refl.
    - destruct (Nat.eqb_spec i 0) as [->|N]; [exists 0%Z; split; [reflexivity|]; destruct V as [V0 _]; rewrite V0; apply Qle_refl|]. exists k. auto. }
  assert (Nn : forall i, (i < dim)%nat -> 0 <= v i) by (intros i Hi; apply V, Hi).
  assert (F : fits m S0 v).
  { intros i j Hi Hj. destruct (Mx i Hi) as (u & Eu & Lu), (Mx j Hj) as (l & El & Ll). apply In_ in Hi. apply In_ in Hj. destruct Hi as [Hi _], Hj as [Hj _].
    pose proof (Nn i Hi) as Pi. pose proof (Nn j Hj) as Pj.
    specialize (S i j Hi Hj). unfold extra in S. rewrite dget_make in S by assumption. unfold extra_bound in S. destruct (Nat.eqb i j); [exact S|].
    rewrite Eu, El in S. destruct (dget m i j) as [[s c]|]; [|exact I]. destruct (Z.ltb_spec u c) as [L|L].
    - rewrite Zlt_Qlt in L. cbn. unfold ilt. destruct s; lra.
    - destruct (Z.ltb_spec c (- l)) as [L'|L']; [|exact S]. cbn in S. rewrite inject_Z_opp in S. lra. }
  assert (B : beyond_ok m O S0 v).
  { intros y k i s c Hy Hi E. apply InO in Hy. destruct Hy as [Hy Ey]. apply Out in Hy. destruct Hy as (Yd & Y0 & Gy). specialize (Gy k Ey). destruct (Mx i Hi) as (l & El & Ll).
    pose proof (Nn y Yd) as Py. assert (Ny : y <> i). { intros ->. apply In_ in Hi. destruct Hi as [_ [Hi|(k' & E' & L')]]; [contradiction|]. rewrite Ey in E'. injection E' as <-. lra. }
    apply In_ in Hi. destruct Hi as [Hi _]. pose proof (Nn i Hi) as Pi.
    specialize (S y i Yd Hi). unfold extra in S. rewrite dget_make in S by assumption. unfold extra_bound in S. rewrite (proj2 (Nat.eqb_neq y i) Ny), E, El in S.
    assert (Em : max_bound b y = Some k) by (unfold max_bound; rewrite (proj2 (Nat.eqb_neq y 0) Y0); exact Ey). rewrite Em in S.
    destruct (Z.ltb_spec k c) as [L|L]; [rewrite Zlt_Qlt in L; lra|]. destruct (Z.ltb_spec c (- l)) as [L'|L'].
    - cbn in S. rewrite inject_Z_opp in S. lra.
    - cbn in S. unfold ilt in S. destruct s; lra. }
  destruct (extend_all dim m T D O) with (xs := xs) (S := S0) (w := v) as (w & E & Fw & Bw); auto.
  - intros y k Hy. apply InO in Hy. destruct Hy as [Hy _]. apply Out in Hy. apply Hy.
  - apply In_. auto.
  - intros i Hi. apply In_ in Hi. apply Hi.
  - intros x Hx. split; [apply Out in Hx; apply Hx|]. intros X. apply Out in Hx. destruct Hx as (_ & H0 & G). apply In_ in X. destruct X as [_ [X|(k & Ek & L)]]; [contradiction|]. pose proof (G k Ek). lra.
  - apply NoDup_filter, seq_NoDup.
  - apply V.
  - assert (All : forall i, (i < dim)%nat -> In i (xs ++ S0)).
    { intros i Hi. apply in_or_app. unfold xs, S0. rewrite !filter_In. assert (X : In i (seq 0 dim)) by (apply in_seq; lia). destruct (inside i); auto. }
    exists w. split; [|split].
    + rewrite E; [apply V|]. apply In_. auto.
    + intros i j Hi Hj. apply Fw; apply All; assumption.
    + intros i k Hi Ek. assert (X : In i xs \/ In i S0) by (apply in_app_or, All, Hi). destruct X as [X|X].
      * right. split; [apply Out in X; apply X, Ek|]. assert (Y : In (i, k) O) by (apply InO; auto). pose proof (Bw i k i false 0%Z Y (All i Hi) (D0 i Hi)) as L. change (inject_Z 0) with 0 in L. lra.
      * left. rewrite (E i X). reflexivity.
Qed.

Lemma dbm_zone_sem dim m v : zsem (dbm_zone dim m) v <-> bsat dim m v.
Proof.
  split.
  - intros H i j Hi Hj. destruct (dget m i j) as [[s c]|] eqn:E; [|exact I]. cbn [bound_sem]. change (csem (mkC i j s c) v). destruct (trivial_con (mkC i j s c)) eqn:Tr; [apply trivial_con_sem, Tr|].
    apply H. unfold dbm_zone. apply in_flat_map. exists i. split; [apply in_seq; lia|]. apply in_flat_map. exists j. split; [apply in_seq; lia|]. rewrite E, Tr. left. reflexivity.
  - intros H c Hc. unfold dbm_zone in Hc. apply in_flat_map in Hc. destruct Hc as (i & Hi & Hc). apply in_flat_map in Hc. destruct Hc as (j & Hj & Hc). apply in_seq in Hi. apply in_seq in Hj.
    specialize (H i j ltac:(lia) ltac:(lia)). destruct (dget m i j) as [[s k]|]; [|destruct Hc]. destruct (trivial_con _); [destruct Hc|]. destruct Hc as [<-|[]]. exact H.
Qed.
