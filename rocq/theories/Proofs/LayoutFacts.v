(** Facts about drawings. *)
From Coq Require Import List String ZArith QArith Qminmax Bool Arith Lia Lqa.
From Verif Require Import Model.Base Model.Expr Model.Guard Model.Component Model.Layout Spec.LayoutSpec Proofs.GuardFacts.
Import ListNotations.
Local Open Scope Q_scope.

Lemma known_iff c x : known c x = true <-> exists l, In l (c_locs c) /\ l_id l = x.
Proof.
  unfold known. rewrite existsb_exists. split; intros (l & H & E); exists l; (split; [exact H|]); apply String.eqb_eq; exact E.
Qed.
Lemma connect_iff c : connect c = Ok tt <-> connected c.
Proof.
  unfold connect, connected. assert (G : forall es, (exists x, mapM (fun e => if known c (e_src e) && known c (e_tgt e) then Ok tt else Panic) es = Ok x) <->
    forall e, In e es -> (exists l, In l (c_locs c) /\ l_id l = e_src e) /\ (exists l, In l (c_locs c) /\ l_id l = e_tgt e)).
  { induction es as [|e es IH]; cbn [mapM]; [split; [intros _ ? []|eauto]|]. split.
    - intros (x & E). apply bind_ok in E. destruct E as (u & Eu & E). apply bind_ok in E. destruct E as (us & Es & _). destruct (known c (e_src e) && known c (e_tgt e)) eqn:K; [|discriminate].
      apply andb_true_iff in K. destruct K as [K1 K2]. intros e' [<-|H]; [split; apply known_iff; assumption|apply IH; eauto].
    - intros H. destruct (H e (or_introl eq_refl)) as [H1 H2]. apply known_iff in H1, H2. rewrite H1, H2. destruct (proj2 IH (fun e' He => H e' (or_intror He))) as (x & ->). cbn. eauto. }
  rewrite <- G. split.
  - intros E. apply bind_ok in E. destruct E as (x & E & _). eauto.
  - intros (x & ->). reflexivity.
Qed.
Lemma connect_cases c : connect c = Ok tt \/ connect c = Panic.
Proof.
  unfold connect. assert (G : forall es, (exists x, mapM (fun e => if known c (e_src e) && known c (e_tgt e) then Ok tt else Panic) es = Ok x) \/ mapM (fun e => if known c (e_src e) && known c (e_tgt e) then Ok tt else Panic) es = Panic).
  { induction es as [|e es IH]; cbn [mapM]; [eauto|]. destruct (known c (e_src e) && known c (e_tgt e)); [|right; reflexivity]. destruct IH as [[x ->]| ->]; cbn; eauto. }
  destruct (G (c_edges c)) as [[x ->]| ->]; cbn; auto.
Qed.

Lemma least_le p : forall n k, (k < n)%nat -> least p n <= p k.
Proof.
  induction n as [|n IH]; [lia|]. intros k H. destruct n as [|n]; [replace k with 0%nat by lia; apply Qle_refl|]. change (least p (S (S n))) with (Qmin (p (S n)) (least p (S n))).
  destruct (Nat.eq_dec k (S n)) as [->|N]; [apply Q.le_min_l|]. eapply Qle_trans; [apply Q.le_min_r|apply IH; lia].
Qed.
Lemma le_greatest p : forall n k, (k < n)%nat -> p k <= greatest p n.
Proof.
  induction n as [|n IH]; [lia|]. intros k H. destruct n as [|n]; [replace k with 0%nat by lia; apply Qle_refl|]. change (greatest p (S (S n))) with (Qmax (p (S n)) (greatest p (S n))).
  destruct (Nat.eq_dec k (S n)) as [->|N]; [apply Q.le_max_l|]. eapply Qle_trans; [apply IH; lia|apply Q.le_max_r].
Qed.
Lemma spread_lt p n : spread p n -> least p n < greatest p n.
Proof.
  intros (i & j & Hi & Hj & N). pose proof (least_le p n i Hi). pose proof (least_le p n j Hj). pose proof (le_greatest p n i Hi). pose proof (le_greatest p n j Hj).
  destruct (Qlt_le_dec (least p n) (greatest p n)) as [L|L]; [exact L|]. exfalso. apply N. apply Qle_antisym; lra.
Qed.
Lemma flat_same p n : ~ spread p n -> (0 < n)%nat -> greatest p n == least p n.
Proof.
  intros N H. assert (E : forall i, (i < n)%nat -> p i == p 0%nat).
  { intros i Hi. destruct (Qeq_dec (p i) (p 0%nat)) as [E|E]; [exact E|]. exfalso. apply N. exists i, 0%nat. auto. }
  assert (G : forall m, (m < n)%nat -> greatest p (S m) == p 0%nat /\ least p (S m) == p 0%nat).
  { induction m as [|m IH]; intros Hm; [split; reflexivity|]. destruct IH as [I1 I2]; [lia|]. pose proof (E (S m) Hm) as Em.
    change (greatest p (S (S m))) with (Qmax (p (S m)) (greatest p (S m))). change (least p (S (S m))) with (Qmin (p (S m)) (least p (S m))).
    rewrite I1, I2, Em. split; [apply Q.max_id|apply Q.min_id]. }
  destruct n as [|m]; [lia|]. destruct (G m ltac:(lia)) as [-> ->]. reflexivity.
Qed.

Lemma ratio_bounds cf px py n : 1 <= cf_ratio cf -> 1 / cf_ratio cf <= ratio_x cf px py n /\ ratio_x cf px py n <= cf_ratio cf.
Proof.
  intros H. assert (R : 1 / cf_ratio cf <= cf_ratio cf).
  { apply Qle_trans with 1; [|exact H]. apply Qle_shift_div_r; lra. }
  unfold ratio_x, clamp. destruct (Qeq_bool _ 0).
  - split; [apply Q.le_max_r|apply Q.max_lub; lra].
  - split; [apply Q.le_max_r|]. apply Q.max_lub; [apply Q.le_min_r|exact R].
Qed.
Lemma normalize_some cf grid p n r k : (least p n < greatest p n) -> (k < n)%nat -> 0 <= grid * r ->
  exists x, normalize cf grid p n r k = Some x /\ cf_padding cf / 2 <= x /\ x <= grid * r + cf_padding cf / 2 /\ x == (p k - least p n) / (greatest p n - least p n) * (grid * r) + cf_padding cf / 2.
Proof.
  intros L H G. unfold normalize. destruct (Qeq_bool (greatest p n - least p n) 0) eqn:E; [apply Qeq_bool_iff in E; lra|].
  eexists. split; [reflexivity|]. pose proof (least_le p n k H) as A. pose proof (le_greatest p n k H) as B.
  assert (X : 0 <= (p k - least p n) / (greatest p n - least p n)) by (apply Qle_shift_div_l; lra).
  assert (Y : (p k - least p n) / (greatest p n - least p n) <= 1) by (apply Qle_shift_div_r; lra).
  set (u := (p k - least p n) / (greatest p n - least p n)) in *.
  assert (Z : 0 <= u * (grid * r)) by (apply Qmult_le_0_compat; assumption).
  assert (W : u * (grid * r) <= 1 * (grid * r)) by (apply Qmult_le_compat_r; assumption).
  split; [lra|]. split; [lra|reflexivity].
Qed.
Lemma places_all (place : nat -> option Q * option Q) es : forall k, List.concat (nail_places place k es) = map place (seq k (List.length (flat_map nails es))).
Proof.
  induction es as [|e es IH]; intros k; [reflexivity|]. cbn [nail_places List.concat flat_map]. rewrite IH, app_length, seq_app, map_app. reflexivity.
Qed.
Lemma layout_places cf px py root c d : layout cf px py root c = Ok d ->
  places d = map (fun k => (normalize cf (grid_size cf root c) px (node_count c) (ratio_x cf px py (node_count c)) k, normalize cf (grid_size cf root c) py (node_count c) (ratio_y cf px py (node_count c)) k)) (seq 0 (node_count c)).
Proof.
  intros E. unfold layout in E. apply bind_ok in E. destruct E as (u & _ & E). injection E as <-. unfold places. cbn [dr_locs dr_nails]. rewrite places_all, <- map_app. unfold node_count. rewrite seq_app. reflexivity.
Qed.
Lemma nail_lengths place es : forall k, map (@List.length _) (nail_places place k es) = map (fun e => List.length (nails e)) es.
Proof. induction es as [|e es IH]; intros k; [reflexivity|]. cbn [nail_places map]. rewrite IH, map_length, seq_length. reflexivity. Qed.
