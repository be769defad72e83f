(** Facts about the cache, tokens and request handling. *)
From Coq Require Import List String ZArith Bool Arith Lia Permutation.
From Verif Require Import Fed.Zone Model.Base Model.Component Model.Enable Model.Server Spec.ServerSpec.
Import ListNotations.
Local Open Scope Z_scope.

(** ** The cache *)
Definition rem (u : Z) (l : list Z) : list Z := filter (fun x => negb (Z.eqb x u)) l.
Lemma in_rem u x l : In x (rem u l) <-> In x l /\ x <> u.
Proof. unfold rem. rewrite filter_In, negb_true_iff, Z.eqb_neq. reflexivity. Qed.
Lemma rem_id u l : ~ In u l -> rem u l = l.
Proof.
  induction l as [|x l IH]; intros H; [reflexivity|]. cbn. destruct (Z.eqb_spec x u) as [->|N]; cbn.
  - destruct H. left. reflexivity.
  - f_equal. apply IH. intros C. apply H. right. exact C.
Qed.
Lemma distinct_in x l : In x (distinct l) <-> In x l.
Proof.
  induction l as [|u l IH]; [reflexivity|]. cbn [distinct]. fold (rem u (distinct l)). cbn. rewrite in_rem, IH.
  destruct (Z.eq_dec x u) as [->|N]; intuition congruence.
Qed.
Lemma distinct_nodup l : NoDup (distinct l).
Proof.
  induction l as [|u l IH]; cbn; constructor.
  - fold (rem u (distinct l)). rewrite in_rem. tauto.
  - apply NoDup_filter. exact IH.
Qed.

Lemma rem_firstn_in u : forall D c, NoDup D -> In u (firstn (S c) D) -> firstn c (rem u D) = rem u (firstn (S c) D).
Proof.
  induction D as [|x D IH]; intros c N H; [destruct H|]. inversion N as [|? ? Nx ND]; subst.
  cbn [firstn rem filter]. fold (rem u D). destruct (Z.eqb_spec x u) as [->|Ne]; cbn [negb].
  - rewrite (rem_id u D Nx). fold (rem u (firstn c D)). symmetry. apply rem_id. intros C. apply Nx. rewrite <- (firstn_skipn c D). apply in_or_app. auto.
  - destruct H as [H|H]; [congruence|]. destruct c as [|c]; [destruct H|]. cbn [firstn]. f_equal. apply IH; assumption.
Qed.
Lemma rem_firstn_out u : forall D c, ~ In u (firstn (S c) D) -> firstn c (rem u D) = firstn c D.
Proof.
  induction D as [|x D IH]; intros c H; [reflexivity|]. cbn [rem filter]. fold (rem u D).
  destruct (Z.eqb_spec x u) as [->|Ne]; cbn [negb]; [destruct H; left; reflexivity|].
  destruct c as [|c]; [reflexivity|]. cbn [firstn]. f_equal. apply IH. intros C. apply H. right. exact C.
Qed.

Section Cache.
Context {M : Type}.
Implicit Types c : cache M.
Lemma keys_del k c : map fst (lru_del k c) = rem k (map fst c).
Proof. induction c as [|[x v] c IH]; [reflexivity|]. cbn. destruct (Z.eqb x k); cbn; [exact IH|f_equal; exact IH]. Qed.
Lemma keys_removelast c : map fst (removelast c) = removelast (map fst c).
Proof. induction c as [|[x v] c IH]; [reflexivity|]. destruct c; [reflexivity|]. cbn [removelast map fst] in *. f_equal. exact IH. Qed.
Lemma find_key u c e : find (fun e => Z.eqb (fst e) u) c = Some e -> fst e = u /\ In e c.
Proof. intros H. apply find_some in H. destruct H as [H1 H2]. apply Z.eqb_eq in H2. auto. Qed.
Lemma find_nokey u c : find (fun e => Z.eqb (fst e) u) c = None -> ~ In u (map fst c).
Proof.
  intros H C. apply in_map_iff in C. destruct C as (e & E & He). pose proof (find_none _ _ H e He) as F. cbn in F.
  apply Z.eqb_neq in F. congruence.
Qed.
Lemma in_del k e c : In e (lru_del k c) -> In e c /\ fst e <> k.
Proof. unfold lru_del. rewrite filter_In, negb_true_iff, Z.eqb_neq. auto. Qed.
Lemma in_removelast {A} (e : A) l : In e (removelast l) -> In e l.
Proof. induction l as [|x l IH]; [auto|]. destruct l; [intros []|]. cbn [removelast]. intros [->|H]; [left; reflexivity|right; auto]. Qed.

(** What the cache holds after any history. *)
Lemma cache_inv n hist : map fst (after (S n) hist) = recent (S n) (uses (S n) hist) /\
  forall u v, In (u, v) (after (M := M) (S n) hist) -> last_put u hist = Some v.
Proof.
  induction hist as [|[u h|u h m] r [K E]]; [split; [reflexivity|intros u v []]| |].
  - (* lookup *)
    assert (P : existsb (Z.eqb u) (recent (S n) (uses (S n) r)) = true <-> In u (map fst (after (S n) r))).
    { rewrite existsb_exists, K. split; [intros (x & Hx & Ex); apply Z.eqb_eq in Ex; subst; exact Hx|intros H; exists u; split; [exact H|apply Z.eqb_refl]]. }
    cbn [after uses last_put]. unfold get_model. destruct (Z.eqb_spec h 0) as [->|Nh]; cbn [negb andb snd]; [auto|].
    unfold lru_get. destruct (find _ (after (S n) r)) as [e|] eqn:F; cbn [snd].
    + destruct (find_key _ _ _ F) as [<- He].
      assert (In (fst e) (map fst (after (S n) r))) as Hin by (apply in_map; exact He).
      rewrite (proj2 P Hin). split.
      * cbn [map]. rewrite keys_del, K. unfold recent. cbn [distinct firstn]. f_equal. symmetry.
        fold (rem (fst e) (distinct (uses (S n) r))). apply rem_firstn_in; [apply distinct_nodup|]. rewrite K in Hin. exact Hin.
      * intros x v [->|H]; [apply E; exact He|]. apply in_del in H. apply E. apply H.
    + apply find_nokey in F. destruct (existsb _ _) eqn:Ex; [destruct (F (proj1 P eq_refl))|]. auto.
  - (* insertion *)
    cbn [after uses last_put]. unfold insert_model. destruct (Z.eqb_spec h 0) as [->|Nh]; cbn [negb].
    + rewrite andb_false_r || idtac. split; [exact K|]. intros x v H. rewrite andb_false_r. auto.
    + unfold lru_put. split.
      * cbn [map fst]. unfold recent. cbn [distinct firstn]. f_equal. fold (rem u (distinct (uses (S n) r))).
        destruct (find _ (after (S n) r)) as [e|] eqn:F.
        -- destruct (find_key _ _ _ F) as [<- He]. rewrite keys_del, K. symmetry. apply rem_firstn_in; [apply distinct_nodup|].
           fold (recent (S n) (uses (S n) r)). rewrite <- K. apply in_map. exact He.
        -- apply find_nokey in F. rewrite K in F. unfold recent in F. rewrite (rem_firstn_out _ _ _ F).
           destruct (Nat.eqb_spec (List.length (after (S n) r)) (S n)) as [L|L].
           ++ rewrite keys_removelast, K. rewrite <- (map_length fst), K in L. unfold recent in *. apply removelast_firstn.
              rewrite firstn_length in L. lia.
           ++ rewrite K. rewrite <- (map_length fst), K in L. unfold recent in *. rewrite firstn_length in L. rewrite !firstn_all2 by lia. reflexivity.
      * intros x v [H|H].
        -- injection H as <- <-. rewrite Z.eqb_refl. reflexivity.
        -- assert (H' : In (x, v) (after (S n) r) /\ x <> u).
           { destruct (find _ (after (S n) r)) as [e|] eqn:F.
             - apply in_del in H. exact H.
             - apply find_nokey in F. assert (H' : In (x, v) (after (S n) r)) by (destruct (Nat.eqb _ _); [apply in_removelast|]; exact H).
               split; [exact H'|]. intros ->. apply F. change u with (fst (u, v)). apply in_map. exact H'. }
           destruct H' as [H' N']. apply not_eq_sym, Z.eqb_neq in N'. rewrite N'. cbn. auto.
Qed.

Theorem lookup_spec cap hist u h m : (0 < cap)%nat ->
  fst (get_model u h (after (M := M) cap hist)) = Some m <->
  h <> 0 /\ last_put u hist = Some (h, m) /\ In u (recent cap (uses cap hist)).
Proof.
  intros Hc. destruct cap as [|n]; [lia|]. destruct (cache_inv n hist) as [K E]. unfold get_model.
  destruct (Z.eqb_spec h 0) as [->|Nh]; [split; [discriminate|intros [C _]; congruence]|].
  unfold lru_get. destruct (find _ _) as [e|] eqn:F.
  - destruct (find_key _ _ _ F) as [Ee He]. destruct e as [x [h' m']]. cbn [fst] in Ee. subst x. cbn [fst snd].
    pose proof (E _ _ He) as L. rewrite L. rewrite <- K. destruct (Z.eqb_spec h' h) as [->|N].
    + split; [intros H; injection H as <-; split; [exact Nh|split; [reflexivity|]]|intros (_ & H & _); congruence].
      change u with (fst (u, (h, m'))). apply in_map. exact He.
    + split; [discriminate|intros (_ & H & _); congruence].
  - apply find_nokey in F. rewrite K in F. split; [discriminate|intros (_ & _ & H); contradiction].
Qed.

Lemma distinct_app p q : distinct (p ++ q) = distinct p ++ filter (fun x => negb (existsb (Z.eqb x) p)) (distinct q).
Proof.
  induction p as [|x p IH]; cbn [app distinct].
  - cbn. clear. induction (distinct q) as [|y l IH]; [reflexivity|]. cbn. f_equal. exact IH.
  - rewrite IH, filter_app. cbn [app]. f_equal. f_equal. clear. induction (distinct q) as [|y l IH]; [reflexivity|]. cbn.
    destruct (existsb (Z.eqb y) p) eqn:E; cbn; [|destruct (Z.eqb y x)]; cbn; rewrite ?orb_true_r; rewrite ?E; cbn; [exact IH|exact IH|f_equal; exact IH].
Qed.
Lemma uses_app cap later hist : exists p, uses (M := M) cap (later ++ hist) = p ++ uses cap hist /\ forall x, In x p -> exists o, In o later /\ op_user o = x.
Proof.
  induction later as [|o later (p & E & H)]; [exists []; split; [reflexivity|intros x []]|]. cbn [app].
  assert (N : exists p', p' ++ uses cap hist = p ++ uses cap hist /\ forall x, In x p' -> exists o', In o' (o :: later) /\ op_user o' = x).
  { exists p. split; [reflexivity|]. intros x Hx. destruct (H x Hx) as (o' & H1 & H2). exists o'. split; [right; exact H1|exact H2]. }
  assert (Y : forall u, op_user o = u -> exists p', u :: p ++ uses cap hist = p' ++ uses cap hist /\ forall x, In x p' -> exists o', In o' (o :: later) /\ op_user o' = x).
  { intros u Hu. exists (u :: p). split; [reflexivity|]. intros x [<-|Hx]; [exists o; split; [left; reflexivity|exact Hu]|].
    destruct (H x Hx) as (o' & H1 & H2). exists o'. split; [right; exact H1|exact H2]. }
  destruct N as (p0 & E0 & N0). destruct o as [u h|u h m]; cbn [uses]; rewrite E.
  - destruct (negb _ && _); [apply Y; reflexivity|]. exists p0. split; [symmetry; exact E0|exact N0].
  - destruct (Z.eqb h 0); [|apply Y; reflexivity]. exists p0. split; [symmetry; exact E0|exact N0].
Qed.
Lemma last_put_later u h m hist : h <> 0 -> forall later, (forall h' m', In (OPut u h' m') later -> h' = 0) ->
  last_put (M := M) u (later ++ OPut u h m :: hist) = Some (h, m).
Proof.
  intros Nh. induction later as [|[u' h'|u' h' m'] r IH]; cbn [app last_put]; intros H.
  - rewrite Z.eqb_refl. apply Z.eqb_neq in Nh. rewrite Nh. reflexivity.
  - apply IH. intros h0 m0 H0. apply (H h0 m0). right. exact H0.
  - destruct (Z.eqb_spec u' u) as [->|N]; cbn [andb].
    + rewrite (H h' m' (or_introl eq_refl)). cbn. apply IH. intros h0 m0 H0. apply (H h0 m0). right. exact H0.
    + apply IH. intros h0 m0 H0. apply (H h0 m0). right. exact H0.
Qed.
Theorem survives_others cap u h m hist later us : h <> 0 -> (forall h' m', In (OPut u h' m') later -> h' = 0) ->
  (forall o, In o later -> op_user o = u \/ In (op_user o) us) -> (List.length us < cap)%nat ->
  fst (get_model u h (after (M := M) cap (later ++ OPut u h m :: hist))) = Some m.
Proof.
  intros Nh Np Hus Hlen. apply lookup_spec; [lia|]. split; [exact Nh|]. split; [apply last_put_later; assumption|].
  destruct (uses_app cap later (OPut u h m :: hist)) as (p & E & Hp). rewrite E. cbn [uses]. apply Z.eqb_neq in Nh. rewrite Nh.
  unfold recent. rewrite distinct_app. set (F := filter _ _).
  assert (L : (List.length (distinct p) <= S (List.length us))%nat /\ (In u p \/ ~ In u p)).
  { split; [|destruct (in_dec Z.eq_dec u p); auto]. change (S (List.length us)) with (List.length (u :: us)). apply NoDup_incl_length; [apply distinct_nodup|].
    intros x Hx. apply (proj1 (distinct_in _ _)) in Hx. destruct (Hp x Hx) as (o & Ho & <-). destruct (Hus o Ho) as [->|H]; [left; reflexivity|right; exact H]. }
  destruct L as [L [Hu|Hu]].
  - rewrite firstn_app. apply in_or_app. left. rewrite firstn_all2; [apply distinct_in; exact Hu|].
    lia.
  - assert (L' : (List.length (distinct p) <= List.length us)%nat).
    { apply NoDup_incl_length; [apply distinct_nodup|]. intros x Hx. apply (proj1 (distinct_in _ _)) in Hx. destruct (Hp x Hx) as (o & Ho & Eo).
      destruct (Hus o Ho) as [E'|H]; [|rewrite <- Eo; exact H]. destruct Hu. congruence. }
    rewrite firstn_app. apply in_or_app. right. subst F. cbn [distinct filter].
    assert (X : existsb (Z.eqb u) p = false). { destruct (existsb _ _) eqn:Ex; [|reflexivity]. apply existsb_exists in Ex. destruct Ex as (y & Hy & Ey). apply Z.eqb_eq in Ey. subst y. contradiction. }
    rewrite X. cbn [negb]. destruct (cap - List.length (distinct p))%nat eqn:D; [lia|]. cbn [firstn]. left. reflexivity.
Qed.

Theorem cache_size cap hist : (0 < cap)%nat -> (List.length (after (M := M) cap hist) <= cap)%nat /\ NoDup (map fst (after (M := M) cap hist)).
Proof.
  intros Hc. destruct cap as [|n]; [lia|]. destruct (cache_inv n hist) as [K _]. split.
  - rewrite <- (map_length fst), K. unfold recent. rewrite firstn_length. lia.
  - rewrite K. unfold recent. pose proof (distinct_nodup (uses (S n) hist)) as N. rewrite <- (firstn_skipn (S n) (distinct _)) in N.
    revert N. generalize (firstn (S n) (distinct (uses (S n) hist))) as a, (skipn (S n) (distinct (uses (S n) hist))) as b.
    induction a as [|x a IH]; intros b N; constructor; cbn in N; inversion N as [|? ? N1 N2]; subst.
    + intros C. apply N1. apply in_or_app. auto.
    + eapply IH; eauto.
Qed.

Lemma last_put_in u hist v : last_put (M := M) u hist = Some v -> In (OPut u (fst v) (snd v)) hist.
Proof.
  induction hist as [|[u' h|u' h m] r IH]; cbn; intros H; [discriminate|right; auto|].
  destruct (Z.eqb_spec u' u) as [->|N]; cbn in H; [|right; auto]. destruct (Z.eqb h 0); cbn in H; [right; auto|].
  injection H as <-. left. reflexivity.
Qed.
End Cache.

(** ** Lists of threads *)
Lemma set_nth_same {A} (a : A) : forall l i, (i < List.length l)%nat -> nth_error (set_nth i a l) i = Some a.
Proof. induction l as [|b l IH]; intros [|i] H; cbn in *; try lia; auto. apply IH. lia. Qed.
Lemma set_nth_other {A} (a : A) : forall l i j, i <> j -> nth_error (set_nth i a l) j = nth_error l j.
Proof. induction l as [|b l IH]; intros [|i] [|j] H; cbn; auto; congruence. Qed.
Lemma set_nth_in {A} (a x : A) : forall l i, In x (set_nth i a l) -> x = a \/ In x l.
Proof. induction l as [|b l IH]; intros [|i] H; cbn in *; try tauto; [destruct H; auto|]. destruct H as [H|H]; [auto|]. destruct (IH i H); auto. Qed.
Lemma set_nth_map {A B} (f : A -> B) a : forall l i x, nth_error l i = Some x -> f a = f x -> map f (set_nth i a l) = map f l.
Proof. induction l as [|b l IH]; intros [|i] x H E; cbn in *; try discriminate; [injection H as ->; congruence|]. f_equal. eapply IH; eauto. Qed.
Lemma set_nth_flat {A B} (f : A -> list B) a : forall l i x, nth_error l i = Some x ->
  exists p q, flat_map f l = p ++ f x ++ q /\ flat_map f (set_nth i a l) = p ++ f a ++ q.
Proof.
  induction l as [|b l IH]; intros [|i] x H; cbn in *; try discriminate.
  - injection H as ->. exists [], (flat_map f l). auto.
  - destruct (IH i x H) as (p & q & E1 & E2). exists (f b ++ p), q. rewrite E1, E2, <- !app_assoc. auto.
Qed.

Lemma set_nth_last {A} (a b : A) l : set_nth (List.length l) a (l ++ [b]) = l ++ [a].
Proof. induction l as [|x l IH]; [reflexivity|]. cbn. f_equal. exact IH. Qed.

(** ** Tokens *)
Definition token_no (j : nat) : Z := wrap32 (1 + Z.of_nat j).
Lemma token_next j : snd (fetch_add (token_no j)) = token_no (S j).
Proof.
  unfold fetch_add, token_no, wrap32. cbn [snd]. rewrite Nat2Z.inj_succ. f_equal.
  replace ((1 + Z.of_nat j + 2147483648) mod 4294967296 - 2147483648 + 1 + 2147483648)
    with ((1 + Z.of_nat j + 2147483648) mod 4294967296 + 1) by ring.
  rewrite Z.add_mod_idemp_l by lia. f_equal. lia.
Qed.
Lemma token_inj j k : (j < k)%nat -> token_no j = token_no k -> Z.of_nat k - Z.of_nat j >= 4294967296.
Proof.
  intros H E. unfold token_no, wrap32 in E.
  assert (E' : (1 + Z.of_nat j + 2147483648) mod 4294967296 = (1 + Z.of_nat k + 2147483648) mod 4294967296) by lia. clear E.
  pose proof (Z.div_mod (1 + Z.of_nat j + 2147483648) 4294967296 ltac:(lia)) as D1.
  pose proof (Z.div_mod (1 + Z.of_nat k + 2147483648) 4294967296 ltac:(lia)) as D2.
  rewrite E' in D1. set (x := (1 + Z.of_nat j + 2147483648) / 4294967296) in *. set (y := (1 + Z.of_nat k + 2147483648) / 4294967296) in *.
  assert (Z.of_nat j < Z.of_nat k) by lia. assert (x < y) by nia. nia.
Qed.
Definition token_list (k : nat) : list Z := map token_no (seq 0 k).
Lemma token_list_nodup k : Z.of_nat k <= 4294967296 -> NoDup (token_list k).
Proof.
  intros H. unfold token_list. assert (G : forall a n, Z.of_nat a + Z.of_nat n <= 4294967296 -> NoDup (map token_no (seq a n))).
  { intros a n. revert a. induction n as [|n IH]; intros a Ha; cbn; constructor; [|apply IH; lia].
    intros C. apply in_map_iff in C. destruct C as (j & E & Hj). apply in_seq in Hj. pose proof (token_inj a j ltac:(lia) (eq_sym E)). lia. }
  apply G. cbn. lia.
Qed.
Lemma token_list_repeat k : Z.of_nat k > 4294967296 -> ~ NoDup (token_list k).
Proof.
  intros H N. pose (b := Z.to_nat 4294967296). assert (Hb : Z.of_nat b = 4294967296) by (unfold b; apply Z2Nat.id; lia).
  assert (Hk : (b < k)%nat) by lia.
  unfold token_list in N. assert (S : seq 0 k = 0%nat :: seq 1 (k - 1)).
  { destruct k; [lia|]. cbn [seq]. f_equal. f_equal. lia. }
  rewrite S in N. cbn [map] in N. inversion N as [|x l Nin _ Ex]. apply Nin. apply in_map_iff. exists b. split.
  - unfold token_no, wrap32. rewrite Hb. change (Z.of_nat 0) with 0.
    replace (1 + 4294967296 + 2147483648) with (1 + 0 + 2147483648 + 1 * 4294967296) by lia. rewrite Z.mod_add by lia. reflexivity.
  - apply in_seq. lia.
Qed.

(** ** The server *)
Section Server.
Variable minc : nat -> fed -> fed.
Context {proto body resp : Type}.
Variable parse : proto -> res (list component).
Variable prepare : body -> res unit.
Variable answer : body -> cmap -> res resp.
Variable cap : nat.
Hypothesis Hcap : (0 < cap)%nat.
Notation request := (@request proto body).
Notation thread := (@thread proto body resp).
Notation server := (@server proto body resp).
Notation event := (@event proto body).
Notation build := (build minc parse).
Notation handle := (handle minc parse prepare answer cap).
Notation step := (step minc parse prepare answer cap).
Notation run := (run_server minc parse prepare answer cap).

Notation source := (@source proto body).

Definition thread_ok (rs : list request) (t : thread) : Prop :=
  match t with
  | TNew _ => True
  | TMissed r u h ps b => r = RModel u (Some (h, ps)) b /\ prepare b = Ok tt
  | TReady r b m => exists u h ps ps', r = RModel u (Some (h, ps)) b /\ prepare b = Ok tt /\ build ps' = Ok m /\ source rs u h ps ps'
  | TDone r x =>
      match r with
      | RToken => exists id, x = ToToken id
      | RModel _ None _ => x = ToInternal
      | RModel u (Some (h, ps)) b => exists ps', source rs u h ps ps' /\ catch_unwind (do _ <- prepare b; do m <- build ps'; answer b m) = Some x
      end
  end.

Definition cache_from (rs : list request) (c : cache cmap) : Prop :=
  exists hist, c = after cap hist /\
    forall u h m, In (OPut u h m) hist -> exists ps b, In (RModel u (Some (h, ps)) b) rs /\ build ps = Ok m.

Notation token_of := (@token_of proto body resp).
Notation handed_out := (@handed_out proto body resp).

Definition sinv (rs : list request) (s : server) : Prop :=
  map thread_request (sv_threads s) = rs /\ cache_from rs (sv_cache s) /\ (forall t, In t (sv_threads s) -> thread_ok rs t) /\
  exists k, sv_num s = token_no k /\ Permutation (handed_out s) (token_list k).

Lemma source_mono rs rs' u h ps ps' : incl rs rs' -> source rs u h ps ps' -> source rs' u h ps ps'.
Proof. intros I [->|(Nh & b' & H)]; [left; reflexivity|right; split; eauto]. Qed.
Lemma thread_ok_mono rs rs' t : incl rs rs' -> thread_ok rs t -> thread_ok rs' t.
Proof.
  intros I. destruct t as [r|r u h ps b|r b m|r x]; cbn; auto.
  - intros (u & h & ps & ps' & H1 & H2 & H3 & H4). exists u, h, ps, ps'. repeat split; auto. eapply source_mono; eauto.
  - destruct r as [|u [[h ps]|] b]; auto. intros (ps' & H1 & H2). exists ps'. split; [eapply source_mono; eauto|exact H2].
Qed.

Lemma catch_no_token r id : catch_unwind (resp := resp) r <> Some (ToToken id).
Proof. destruct r; discriminate. Qed.
Lemma unit_tt (x : unit) : x = tt. Proof. destruct x. reflexivity. Qed.

(** One step of one handler. *)
Lemma handle_ok rs t c n t' c' n' : In (thread_request t) rs -> cache_from rs c -> thread_ok rs t ->
  handle t c n = (t', c', n') ->
  thread_request t' = thread_request t /\ cache_from rs c' /\ thread_ok rs t' /\
  ((n' = n /\ token_of t' = token_of t) \/ (n' = wrap32 (n + 1) /\ token_of t = [] /\ token_of t' = [n])).
Proof.
  intros Hr (hist & Ec & Hh) Ht E. assert (Cf : cache_from rs c) by (exists hist; auto).
  destruct t as [[|u [[h ps]|] b]|r u h ps b|r b m|r x]; cbn [Server.handle] in E.
  - injection E as <- <- <-. repeat split; eauto. cbn. eauto.
  - destruct (prepare b) as [x| | |] eqn:Ep.
    + rewrite (unit_tt x) in Ep. destruct (get_model u h c) as [o c0] eqn:Eg. injection E as <- <- <-.
      assert (Cf' : cache_from rs c0).
      { exists (OGet u h :: hist). split; [cbn; rewrite <- Ec, Eg; reflexivity|]. intros u' h' m' [C|H]; [discriminate|eauto]. }
      destruct o as [m|]; (split; [reflexivity|]; split; [exact Cf'|]; split; [|left; auto]); [|cbn; auto].
      assert (L : fst (get_model u h (after cap hist)) = Some m) by (rewrite <- Ec, Eg; reflexivity).
      apply (lookup_spec cap hist u h m Hcap) in L. destruct L as (Nh & L & _). apply last_put_in in L. cbn [fst snd] in L.
      destruct (Hh _ _ _ L) as (ps' & b' & H1 & H2). cbn. exists u, h, ps, ps'. repeat split; auto. right. eauto.
    + injection E as <- <- <-. repeat split; auto. cbn. exists ps. split; [left; reflexivity|]. rewrite Ep. reflexivity.
    + injection E as <- <- <-. repeat split; auto. cbn. exists ps. split; [left; reflexivity|]. rewrite Ep. reflexivity.
    + injection E as <- <- <-. repeat split; auto.
  - injection E as <- <- <-. repeat split; auto. 
  - destruct Ht as [-> Hp]. cbn [thread_request] in Hr.
    destruct (build ps) as [m| | |] eqn:Eb; injection E as <- <- <-; (split; [reflexivity|]).
    + split; [|split; [|left; auto]].
      * exists (OPut u h m :: hist). split; [cbn; rewrite <- Ec; reflexivity|]. intros u' h' m' [C|H]; [|eauto].
        injection C as <- <- <-. eauto.
      * cbn. exists u, h, ps, ps. repeat split; auto. left. reflexivity.
    + repeat split; auto. cbn. exists ps. split; [left; reflexivity|]. rewrite Hp. cbn. rewrite Eb. reflexivity.
    + repeat split; auto. cbn. exists ps. split; [left; reflexivity|]. rewrite Hp. cbn. rewrite Eb. reflexivity.
    + repeat split; auto.
  - injection E as <- <- <-. cbn in Ht. destruct Ht as (u & h & ps & ps' & -> & Hp & Hb & Hs).
    destruct (catch_unwind (answer b m)) as [x|] eqn:Ex; cbn [finish].
    + split; [reflexivity|]. split; [exact Cf|]. split; [|left; split; [reflexivity|]].
      * cbn. exists ps'. split; [exact Hs|]. rewrite Hp. cbn. rewrite Hb. exact Ex.
      * cbn. destruct x; auto. destruct (catch_no_token _ _ Ex).
    + split; [reflexivity|]. split; [exact Cf|]. split; [|left; auto]. cbn. exists u, h, ps, ps'. auto.
  - injection E as <- <- <-. repeat split; auto.
Qed.

Lemma step_inv rs s e : sinv rs s -> sinv (rs ++ arrivals [e]) (step s e).
Proof.
  intros (Hr & Hc & Ht & k & Hn & Hp). destruct e as [r|i]; cbn [arrivals Server.step].
  - assert (I : incl rs (rs ++ [r])) by (intros x Hx; apply in_or_app; auto). unfold sinv. cbn [sv_threads sv_cache sv_num].
    split; [rewrite map_app, Hr; reflexivity|]. split.
    { destruct Hc as (hist & Ec & Hh). exists hist. split; [exact Ec|]. intros u h m H. destruct (Hh u h m H) as (ps & b & H1 & H2). exists ps, b. auto. }
    split.
    { intros t H. apply in_app_or in H. destruct H as [H|[<-|[]]]; [eapply thread_ok_mono; eauto|exact Logic.I]. }
    exists k. split; [exact Hn|]. unfold handed_out. cbn [sv_threads]. rewrite flat_map_app. cbn. rewrite app_nil_r. exact Hp.
  - rewrite app_nil_r. destruct (nth_error (sv_threads s) i) as [t|] eqn:Ei; [|unfold sinv; eauto 6].
    destruct (handle t (sv_cache s) (sv_num s)) as [[t' c'] n'] eqn:E.
    pose proof (nth_error_In _ _ Ei) as Hin.
    assert (Hrt : In (thread_request t) rs) by (rewrite <- Hr; apply in_map; exact Hin).
    destruct (handle_ok rs t _ _ _ _ _ Hrt Hc (Ht t Hin) E) as (E1 & E2 & E3 & E4).
    unfold sinv. cbn [sv_threads sv_cache sv_num]. split; [rewrite <- Hr; eapply set_nth_map; eauto|]. split; [exact E2|]. split.
    { intros x H. apply set_nth_in in H. destruct H as [->|H]; auto. }
    unfold handed_out in *. cbn [sv_threads]. destruct (set_nth_flat token_of t' _ _ _ Ei) as (p & q & F1 & F2). rewrite F2.
    destruct E4 as [[En Et]|(En & Et & Et')].
    + exists k. split; [congruence|]. rewrite Et, <- F1. exact Hp.
    + exists (S k). split; [rewrite En, Hn; apply (token_next k)|]. rewrite Et'. rewrite F1, Et in Hp. cbn [app] in *.
      unfold token_list. rewrite seq_S, map_app. cbn [map plus]. rewrite <- Hn. etransitivity; [symmetry; apply Permutation_middle|].
      etransitivity; [|apply Permutation_cons_append]. constructor. exact Hp.
Qed.

Lemma arrivals_app (es es' : list event) : arrivals (es ++ es') = arrivals es ++ arrivals es'.
Proof. induction es as [|[r|i] es IH]; cbn; [reflexivity|f_equal; exact IH|exact IH]. Qed.
Lemma run_snoc es e : run (es ++ [e]) = step (run es) e.
Proof. unfold Server.run_server. rewrite fold_left_app. reflexivity. Qed.
Lemma run_app es es' : run (es ++ es') = fold_left step es' (run es).
Proof. unfold Server.run_server. apply fold_left_app. Qed.

Theorem server_inv es : sinv (arrivals es) (run es).
Proof.
  induction es as [|e es IH] using rev_ind.
  - unfold sinv. cbn. split; [reflexivity|]. split; [exists []; split; [reflexivity|intros u h m []]|]. split; [intros t []|].
    exists 0%nat. split; [reflexivity|constructor].
  - rewrite arrivals_app, run_snoc. apply step_inv. exact IH.
Qed.

(** Under honest hashes every request is answered as if it were alone. *)
Theorem isolated es i r x : honest (arrivals es) -> nth_error (sv_threads (run es)) i = Some (TDone r x) -> r <> RToken ->
  alone build prepare answer r = Some x.
Proof.
  intros Ho Hi Nr. destruct (server_inv es) as (Hr & _ & Ht & _). pose proof (nth_error_In _ _ Hi) as Hin.
  specialize (Ht _ Hin). cbn in Ht. assert (Ha : In r (arrivals es)) by (rewrite <- Hr; change r with (thread_request (TDone r x)); apply in_map; exact Hin).
  destruct r as [|u [[h ps]|] b]; [congruence| |cbn; congruence]. destruct Ht as (ps' & S & E). cbn.
  destruct S as [->|(Nh & b' & H)]; [exact E|]. rewrite (Ho u h ps ps' b b' Nh Ha H). exact E.
Qed.

(** A scheduled handler finishes within three steps. *)
Definition measure (t : thread) : nat := match t with TNew _ => 3 | TMissed _ _ _ _ _ => 2 | TReady _ _ _ => 1 | TDone _ _ => 0 end.
Lemma handle_progress rs t c n : honest rs -> In (thread_request t) rs -> cache_from rs c -> thread_ok rs t ->
  (thread_request t = RToken \/ alone build prepare answer (thread_request t) <> None) ->
  (measure (fst (fst (handle t c n))) <= measure t - 1)%nat.
Proof.
  intros Ho Hr Hc Ht Ha. destruct t as [[|u [[h ps]|] b]|r u h ps b|r b m|r x]; cbn [Server.handle].
  - cbn. lia.
  - destruct Ha as [Ha|Ha]; [discriminate|]. cbn in Ha. destruct (prepare b) as [x| | |] eqn:Ep; cbn in *; try lia; [|congruence].
    destruct (get_model u h c) as [[m|] c0]; cbn; lia.
  - cbn. lia.
  - destruct Ht as [-> Hp]. destruct Ha as [Ha|Ha]; [discriminate|]. cbn in Ha. rewrite Hp in Ha. cbn in Ha.
    destruct (build ps); cbn in *; try lia. congruence.
  - cbn in Ht. destruct Ht as (u & h & ps & ps' & -> & Hp & Hb & Hs). destruct Ha as [Ha|Ha]; [discriminate|]. cbn in Ha, Hr.
    assert (E : ps' = ps). { destruct Hs as [->|(Nh & b' & H)]; [reflexivity|]. symmetry. exact (Ho u h ps ps' b b' Nh Hr H). }
    rewrite E in Hb. rewrite Hp in Ha. cbn in Ha. rewrite Hb in Ha. cbn in Ha.
    destruct (answer b m); cbn in *; try lia. congruence.
  - cbn. lia.
Qed.

Lemma run_once es i r t : honest (arrivals es) -> nth_error (sv_threads (run es)) i = Some t -> thread_request t = r ->
  (r = RToken \/ alone build prepare answer r <> None) ->
  exists t', nth_error (sv_threads (run (es ++ [Run i]))) i = Some t' /\ thread_request t' = r /\ (measure t' <= measure t - 1)%nat.
Proof.
  intros Ho Hi <- Ha. destruct (server_inv es) as (Hr & Hc & Ht & _). pose proof (nth_error_In _ _ Hi) as Hin.
  assert (Hrt : In (thread_request t) (arrivals es)) by (rewrite <- Hr; apply in_map; exact Hin).
  pose proof (handle_progress _ t (sv_cache (run es)) (sv_num (run es)) Ho Hrt Hc (Ht t Hin) Ha) as P.
  rewrite run_snoc. cbn [Server.step]. rewrite Hi.
  destruct (handle t (sv_cache (run es)) (sv_num (run es))) as [[t' c'] n'] eqn:E. cbn [fst] in P.
  destruct (handle_ok _ t _ _ _ _ _ Hrt Hc (Ht t Hin) E) as (E1 & _). cbn [sv_threads]. exists t'.
  split; [apply set_nth_same; apply nth_error_Some; congruence|]. auto.
Qed.

Theorem answered es i r : honest (arrivals es) -> nth_error (arrivals es) i = Some r ->
  (r = RToken \/ alone build prepare answer r <> None) ->
  exists x, nth_error (sv_threads (run (es ++ [Run i; Run i; Run i]))) i = Some (TDone r x).
Proof.
  intros Ho Hi Ha. destruct (server_inv es) as (Hr & _).
  assert (H0 : exists t, nth_error (sv_threads (run es)) i = Some t /\ thread_request t = r).
  { rewrite <- Hr, nth_error_map in Hi. destruct (nth_error (sv_threads (run es)) i) as [t|]; [|discriminate]. exists t. split; [reflexivity|]. cbn in Hi. congruence. }
  destruct H0 as (t0 & H0 & R0).
  destruct (run_once es i r t0 Ho H0 R0 Ha) as (t1 & H1 & R1 & M1).
  assert (A1 : arrivals (es ++ [Run i]) = arrivals es) by (rewrite arrivals_app; apply app_nil_r).
  destruct (run_once (es ++ [Run i]) i r t1 ltac:(rewrite A1; exact Ho) H1 R1 Ha) as (t2 & H2 & R2 & M2).
  assert (A2 : arrivals ((es ++ [Run i]) ++ [Run i]) = arrivals es) by (rewrite arrivals_app, A1; apply app_nil_r).
  destruct (run_once ((es ++ [Run i]) ++ [Run i]) i r t2 ltac:(rewrite A2; exact Ho) H2 R2 Ha) as (t3 & H3 & R3 & M3).
  replace (es ++ [Run i; Run i; Run i]) with (((es ++ [Run i]) ++ [Run i]) ++ [Run i]) by (rewrite <- !app_assoc; reflexivity).
  assert (M : measure t3 = 0%nat). { assert (measure t0 <= 3)%nat by (destruct t0; cbn; lia). lia. }
  destruct t3 as [?|?|?|r3 x]; try discriminate. cbn in R3. subst r3. eauto.
Qed.

(** Tokens. *)
Lemma handed_asked es : (List.length (handed_out (run es)) <= tokens_asked (arrivals es))%nat.
Proof.
  destruct (server_inv es) as (Hr & _ & Ht & _). rewrite <- Hr. unfold handed_out, tokens_asked. clear Hr.
  induction (sv_threads (run es)) as [|t l IH]; [cbn; lia|]. cbn [flat_map map filter]. rewrite app_length.
  specialize (IH (fun x Hx => Ht x (or_intror Hx))). pose proof (Ht t (or_introl eq_refl)) as Htt.
  destruct t as [r|r u h ps b|r b m|r x]; try (cbn [token_of List.length]; destruct (thread_request _); cbn [List.length]; lia).
  cbn [thread_request token_of]. destruct r as [|u [[h ps]|] b]; cbn in Htt; cbn [List.length].
  - destruct x; cbn [List.length]; lia.
  - destruct Htt as (ps' & _ & E). destruct x; cbn [List.length]; try lia. destruct (catch_no_token _ _ E).
  - rewrite Htt. cbn [List.length]. lia.
Qed.
Theorem tokens_unique es : Z.of_nat (tokens_asked (arrivals es)) <= 4294967296 -> NoDup (handed_out (run es)).
Proof.
  intros H. pose proof (handed_asked es) as L. destruct (server_inv es) as (_ & _ & _ & k & _ & P).
  apply (Permutation_NoDup (Permutation_sym P)). apply token_list_nodup. apply Permutation_length in P.
  unfold token_list in P. rewrite map_length, seq_length in P. lia.
Qed.
Theorem tokens_repeat es : Z.of_nat (List.length (handed_out (run es))) > 4294967296 -> ~ NoDup (handed_out (run es)).
Proof.
  intros H N. destruct (server_inv es) as (_ & _ & _ & k & _ & P). apply (Permutation_NoDup P) in N.
  apply Permutation_length in P. unfold token_list in P. rewrite map_length, seq_length in P. apply (token_list_repeat k); [lia|exact N].
Qed.
(** Asking one after the other gives 1, 2, 3, ... *)
Theorem tokens_in_order k : handed_out (run (ask k)) = token_list k /\ List.length (sv_threads (run (ask k))) = k /\ sv_num (run (ask k)) = token_no k.
Proof.
  induction k as [|k (IH1 & IH2 & IH3)]; [repeat split|]. cbn [ask]. rewrite run_app. cbn [fold_left Server.step sv_threads sv_cache sv_num].
  assert (E : nth_error (sv_threads (run (ask k)) ++ [TNew RToken]) k = Some (TNew RToken)).
  { rewrite nth_error_app2 by lia. rewrite IH2, Nat.sub_diag. reflexivity. }
  rewrite E. cbn [Server.handle sv_cache sv_num]. unfold fetch_add. cbn [sv_threads sv_num sv_cache].
  assert (S : set_nth k (TDone RToken (ToToken (sv_num (run (ask k))))) (sv_threads (run (ask k)) ++ [TNew RToken]) =
              sv_threads (run (ask k)) ++ [TDone RToken (ToToken (sv_num (run (ask k))))]).
  { rewrite <- IH2 at 1. apply set_nth_last. }
  unfold handed_out in *. cbn [sv_threads]. rewrite S, flat_map_app, IH1, app_length, IH2. cbn [flat_map token_of app List.length]. rewrite IH3.
  split; [unfold token_list; rewrite seq_S, map_app; reflexivity|]. split; [lia|]. apply (token_next k).
Qed.
End Server.
