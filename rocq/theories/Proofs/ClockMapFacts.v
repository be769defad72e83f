(** The clock names of a saved system. *)
From Coq Require Import List String Ascii ZArith Bool Arith Lia Permutation.
From Verif Require Import Fed.Zone Model.Base Model.Expr Model.Guard Model.Loc Model.Component Model.TS Model.Files Model.Save
  Spec.SaveSpec Proofs.NumFacts Proofs.FileFacts.
Import ListNotations.
Local Open Scope string_scope.
Local Open Scope list_scope.

Lemma ascii_app a b : list_ascii_of_string (a ++ b)%string = list_ascii_of_string a ++ list_ascii_of_string b.
Proof. induction a as [|c a IH]; simpl; [reflexivity|]. rewrite IH. reflexivity. Qed.
Lemma ascii_inj a b : list_ascii_of_string a = list_ascii_of_string b -> a = b.
Proof. intros H. rewrite <- (string_of_list_ascii_of_string a), <- (string_of_list_ascii_of_string b), H. reflexivity. Qed.
Lemma app_split a b x y : (a ++ b = x ++ y)%string -> exists p, (a = (x ++ p)%string /\ y = (p ++ b)%string) \/ (x = (a ++ p)%string /\ b = (p ++ y)%string).
Proof.
  intros H. apply (f_equal list_ascii_of_string) in H. rewrite !ascii_app in H. apply app_eq_app in H.
  destruct H as (l & [[H1 H2]|[H1 H2]]); exists (string_of_list_ascii l); [left|right];
    split; apply ascii_inj; rewrite ascii_app, list_ascii_of_string_of_list_ascii; assumption.
Qed.

Lemma digit_char n : forall c, In c (list_ascii_of_string (digit n)) -> In c digit_chars.
Proof. intros c. unfold digit_chars. do 10 (destruct n as [|n]; [simpl; tauto|]). simpl. tauto. Qed.
Lemma digit_some n : digit n <> "".
Proof. do 10 (destruct n as [|n]; [discriminate|]). discriminate. Qed.
Lemma nat_str_aux_digits f : forall n acc, (forall c, In c (list_ascii_of_string acc) -> In c digit_chars) ->
  forall c, In c (list_ascii_of_string (nat_str_aux f n acc)) -> In c digit_chars.
Proof.
  induction f as [|f IH]; intros n acc H c Hc; cbn [nat_str_aux] in Hc; [auto|].
  assert (H' : forall c, In c (list_ascii_of_string (digit (n mod 10) ++ acc)) -> In c digit_chars).
  { intros x Hx. rewrite ascii_app in Hx. apply in_app_or in Hx. destruct Hx as [Hx|Hx]; [apply (digit_char _ _ Hx)|auto]. }
  destruct (n / 10); [exact (H' c Hc)|exact (IH _ _ H' c Hc)].
Qed.
Lemma nat_str_aux_some f : forall n acc, acc <> "" -> nat_str_aux f n acc <> "".
Proof.
  induction f as [|f IH]; intros n acc H; cbn [nat_str_aux]; [exact H|].
  assert (H' : (digit (n mod 10) ++ acc)%string <> "") by (pose proof (digit_some (n mod 10)); destruct (digit (n mod 10)); [congruence|discriminate]).
  destruct (n / 10); [exact H'|exact (IH _ _ H')].
Qed.
Lemma nat_str_digits n : digits (nat_str n).
Proof.
  split.
  - unfold nat_str. cbn [nat_str_aux]. assert (H' : (digit (n mod 10) ++ "")%string <> "") by (pose proof (digit_some (n mod 10)); destruct (digit (n mod 10)); [congruence|discriminate]).
    destruct (n / 10); [exact H'|apply nat_str_aux_some; exact H'].
  - apply nat_str_aux_digits. intros c [].
Qed.

(** Names that differ in the number appended. *)
Lemma numbered_inj x n y m : digits n -> digits m -> (forall p, digits p -> x <> (y ++ p)%string) -> (forall p, digits p -> y <> (x ++ p)%string) ->
  (x ++ n)%string = (y ++ m)%string -> x = y /\ n = m.
Proof.
  intros Dn Dm H1 H2 E.
  assert (App : forall a, (a ++ "")%string = a) by (intros a; induction a as [|c a IH]; simpl; [reflexivity|rewrite IH; reflexivity]).
  apply app_split in E. destruct E as (p & [[E1 E2]|[E1 E2]]); destruct p as [|c p].
  - rewrite App in E1. auto.
  - exfalso. apply (H1 (String c p)); [|exact E1]. split; [discriminate|]. intros z Hz. apply Dm. rewrite E2, ascii_app. apply in_or_app. auto.
  - rewrite App in E1. split; [congruence|]. exact E2.
  - exfalso. apply (H2 (String c p)); [|exact E1]. split; [discriminate|]. intros z Hz. apply Dn. rewrite E2, ascii_app. apply in_or_app. auto.
Qed.

Section Map.
Variable cord : list (string * nat) -> list (string * nat).
Variable ds : list (list (string * nat)).
Hypothesis Hord : forall d, In d ds -> Permutation (cord d) d.
Hypothesis Hkeys : forall d, In d ds -> NoDup (map fst d).
Hypothesis Hnum : no_numbered_names ds.

Definition has_name (x : string) (d : list (string * nat)) : bool := existsb (fun p => String.eqb x (fst p)) d.
Definition earlier (k : nat) (x : string) : bool := existsb (has_name x) (firstn k ds).
Definition the_name (k : nat) (x : string) : string := if earlier k x then (x ++ nat_str k)%string else x.
Definition entry (k : nat) (p : string * nat) : string * nat := (the_name k (fst p), snd p).
Fixpoint entries (k : nat) (l : list (list (string * nat))) : list (string * nat) :=
  match l with [] => [] | d :: l' => map (entry k) (cord d) ++ entries (S k) l' end.

Lemma has_name_in x d : has_name x d = true <-> exists i, In (x, i) d.
Proof.
  unfold has_name. rewrite existsb_exists. split.
  - intros ([y i] & H & E). cbn [fst] in E. apply String.eqb_eq in E. subst. eauto.
  - intros (i & H). exists (x, i). split; [exact H|]. apply String.eqb_refl.
Qed.
Lemma earlier_in k x : earlier k x = true <-> exists j i, j < k /\ clock_of ds j x i.
Proof.
  unfold earlier. rewrite existsb_exists. split.
  - intros (d & Hd & H). apply has_name_in in H. destruct H as (i & Hi). apply In_nth_error in Hd. destruct Hd as (j & Hj).
    assert (L : j < List.length (firstn k ds)) by (apply nth_error_Some; congruence). rewrite firstn_length in L.
    exists j, i. split; [lia|]. exists d. split; [|exact Hi]. rewrite <- (firstn_skipn k ds). rewrite nth_error_app1; [exact Hj|]. rewrite firstn_length. lia.
  - intros (j & i & L & d & Hd & Hi). exists d. split; [|apply has_name_in; eauto].
    assert (J : j < List.length ds) by (apply nth_error_Some; congruence).
    apply nth_error_In with j. rewrite <- (firstn_skipn k ds) in Hd. rewrite nth_error_app1 in Hd; [exact Hd|]. rewrite firstn_length. lia.
Qed.

Lemma part_nodup k d x i j : nth_error ds k = Some d -> In (x, i) d -> In (x, j) d -> i = j.
Proof.
  intros Hk Hi Hj. apply nth_error_In in Hk. pose proof (Hkeys d Hk) as N. clear - N Hi Hj.
  induction d as [|[y l] d IH]; [contradiction|]. cbn in N. inversion N as [|? ? N1 N2]; subst.
  destruct Hi as [E|Hi], Hj as [E'|Hj].
  - congruence.
  - injection E as -> ->. exfalso. apply N1. apply in_map_iff. exists (x, j). auto.
  - injection E' as -> ->. exfalso. apply N1. apply in_map_iff. exists (x, i). auto.
  - auto.
Qed.

(** The name of a clock is its own. *)
Lemma the_name_inj k x i k' x' i' : clock_of ds k x i -> clock_of ds k' x' i' -> the_name k x = the_name k' x' -> k = k' /\ x = x'.
Proof.
  intros C C' E. unfold the_name in E.
  destruct (earlier k x) eqn:E1, (earlier k' x') eqn:E2.
  - apply numbered_inj in E; try apply nat_str_digits; try (intros p Hp; apply (Hnum _ _ _ _ _ _ _ C' C Hp)); try (intros p Hp; apply (Hnum _ _ _ _ _ _ _ C C' Hp)).
    destruct E as [-> E]. apply nat_str_inj in E. auto.
  - exfalso. symmetry in E. exact (Hnum _ _ _ _ _ _ _ C C' (nat_str_digits k) E).
  - exfalso. exact (Hnum _ _ _ _ _ _ _ C' C (nat_str_digits k') E).
  - subst x'. split; [|reflexivity]. destruct (Nat.lt_trichotomy k k') as [L|[L|L]]; [|exact L|].
    + assert (earlier k' x = true) by (apply earlier_in; eauto). congruence.
    + assert (earlier k x = true) by (apply earlier_in; eauto). congruence.
Qed.

(** If a name occurs earlier, its first occurrence has kept it. *)
Lemma first_name k x : earlier k x = true -> exists j i, j < k /\ clock_of ds j x i /\ the_name j x = x.
Proof.
  induction k as [k IH] using lt_wf_ind. intros H. pose proof H as H'. apply earlier_in in H'. destruct H' as (j & i & L & C).
  destruct (earlier j x) eqn:E.
  - destruct (IH j L E) as (j' & i' & L' & C' & N). exists j', i'. split; [lia|auto].
  - exists j, i. split; [exact L|]. split; [exact C|]. unfold the_name. rewrite E. reflexivity.
Qed.

Lemma in_entries l : forall k n i, In (n, i) (entries k l) <-> exists j d x, nth_error l j = Some d /\ In (x, i) (cord d) /\ n = the_name (k + j) x.
Proof.
  induction l as [|d l IH]; intros k n i; cbn [entries].
  - split; [intros []|]. intros ([|j] & d & x & H & _); discriminate.
  - rewrite in_app_iff, IH, in_map_iff. split.
    + intros [([x i'] & E & H)|(j & d' & x & H & Hx & E)].
      * unfold entry in E. cbn [fst snd] in E. injection E as <- <-. exists 0, d, x. rewrite Nat.add_0_r. auto.
      * exists (S j), d', x. split; [exact H|]. split; [exact Hx|]. rewrite E. f_equal. lia.
    + intros ([|j] & d' & x & H & Hx & E).
      * cbn in H. injection H as <-. left. exists (x, i). split; [unfold entry; cbn [fst snd]; rewrite E, Nat.add_0_r; reflexivity|exact Hx].
      * right. exists j, d', x. split; [exact H|]. split; [exact Hx|]. rewrite E. f_equal. lia.
Qed.

Lemma cord_in k d x i : nth_error ds k = Some d -> In (x, i) (cord d) <-> In (x, i) d.
Proof. intros H. apply nth_error_In in H. split; apply Permutation_in; [|symmetry]; apply Hord, H. Qed.

(** One part. *)
Lemma name_part k d m : nth_error ds k = Some d ->
  (forall n i, In (n, i) m <-> exists j d' x, j < k /\ nth_error ds j = Some d' /\ In (x, i) d' /\ n = the_name j x) ->
  forall todo done, cord d = done ++ todo ->
  fold_left (name_clock k) todo (m ++ map (entry k) done) = m ++ map (entry k) (cord d).
Proof.
  intros Hd Hm. induction todo as [|[x i] todo IH]; intros done E.
  - cbn [fold_left]. rewrite app_nil_r in E. rewrite E. reflexivity.
  - cbn [fold_left].
    assert (Cx : clock_of ds k x i) by (exists d; split; [exact Hd|]; apply (cord_in k d x i Hd); rewrite E; apply in_or_app; right; left; reflexivity).
    assert (Nd : NoDup (map fst (cord d))).
    { eapply Permutation_NoDup; [|apply (Hkeys d (nth_error_In _ _ Hd))]. apply Permutation_map. symmetry. apply Hord. eapply nth_error_In; eauto. }
    assert (Fresh : forall j, ~ In (x, j) done).
    { intros j H. rewrite E, map_app in Nd. cbn in Nd. apply NoDup_remove_2 in Nd. apply Nd. apply in_or_app. left. apply in_map_iff. exists (x, j). auto. }
    assert (In_m : forall n j, In (n, j) (m ++ map (entry k) done) -> exists k' y, clock_of ds k' y j /\ n = the_name k' y /\ (k' < k \/ k' = k /\ y <> x)).
    { intros n j H. apply in_app_or in H. destruct H as [H|H].
      - apply Hm in H. destruct H as (k' & d' & y & L & Hd' & Hy & ->). exists k', y. split; [exists d'; auto|auto].
      - apply in_map_iff in H. destruct H as ([y j'] & Ey & H). unfold entry in Ey. cbn [fst snd] in Ey. injection Ey as <- <-.
        exists k, y. split; [exists d; split; [exact Hd|]; apply (cord_in k d y j' Hd); rewrite E; apply in_or_app; auto|]. split; [reflexivity|]. right. split; [reflexivity|].
        intros ->. exact (Fresh j' H). }
    assert (New : ~ In (the_name k x) (map fst (m ++ map (entry k) done))).
    { intros H. apply in_map_iff in H. destruct H as ([n j] & En & H). cbn [fst] in En. subst n. apply In_m in H. destruct H as (k' & y & C & En & H).
      destruct (the_name_inj _ _ _ _ _ _ Cx C En) as [-> ->]. destruct H as [H|[_ H]]; [lia|congruence]. }
    assert (Step : name_clock k (m ++ map (entry k) done) (x, i) = m ++ map (entry k) (done ++ [(x, i)])).
    { rewrite map_app, app_assoc. cbn [map]. unfold entry at 3. cbn [fst snd]. unfold name_clock. cbn [fst snd]. pose proof New as New'. unfold the_name in New' |- *.
      destruct (earlier k x) eqn:Ee.
      - destruct (first_name k x Ee) as (j & i' & L & (d' & Hd' & Hx') & Nj).
        assert (Hin : In (x, i') (m ++ map (entry k) done)) by (apply in_or_app; left; apply Hm; exists j, d', x; auto).
        destruct (assoc x (m ++ map (entry k) done)) eqn:A; [apply put_new; exact New'|].
        exfalso. clear - Hin A. induction (m ++ map (entry k) done) as [|[y l] r IH]; [contradiction|]. cbn in A. destruct (String.eqb_spec x y) as [->|N]; [discriminate|].
        destruct Hin as [H|H]; [congruence|auto].
      - destruct (assoc x (m ++ map (entry k) done)) eqn:A; [|apply put_new; exact New'].
        exfalso. apply New'. clear - A. induction (m ++ map (entry k) done) as [|[y l] r IH]; [discriminate|]. cbn in A. destruct (String.eqb_spec x y) as [->|N]; [left; reflexivity|right; auto]. }
    rewrite Step. apply IH. rewrite <- app_assoc. exact E.
Qed.

Lemma name_clocks_entries : forall l pre, ds = pre ++ l ->
  name_clocks cord (List.length pre) l (entries 0 pre) = entries 0 ds.
Proof.
  assert (Ent : forall p q k, entries k (p ++ q) = entries k p ++ entries (k + List.length p) q).
  { induction p as [|d p IH]; intros q k; cbn [entries app List.length]; [rewrite Nat.add_0_r; reflexivity|]. rewrite IH, app_assoc. do 2 f_equal. lia. }
  induction l as [|d l IH]; intros pre E; cbn [name_clocks].
  - rewrite app_nil_r in E. rewrite E. reflexivity.
  - assert (Hd : nth_error ds (List.length pre) = Some d) by (rewrite E, nth_error_app2, Nat.sub_diag by lia; reflexivity).
    rewrite <- (app_nil_r (entries 0 pre)). change (@nil (string * nat)) with (map (entry (List.length pre)) []).
    rewrite (name_part (List.length pre) d (entries 0 pre) Hd) with (done := []) by
      (first [reflexivity|
       intros n i; rewrite in_entries; split;
       [intros (j & d' & x & H & Hx & En); exists j, d', x; assert (L : j < List.length pre) by (apply nth_error_Some; congruence);
        split; [exact L|]; assert (H' : nth_error ds j = Some d') by (rewrite E, nth_error_app1 by exact L; exact H);
        split; [exact H'|]; split; [apply (cord_in j d' x i H'); exact Hx|exact En]
       |intros (j & d' & x & L & H & Hx & En); exists j, d', x; split; [rewrite E, nth_error_app1 in H by exact L; exact H|]; split; [apply (cord_in j d' x i H); exact Hx|exact En]]]).
    rewrite <- (IH (pre ++ [d])) by (rewrite <- app_assoc; exact E). rewrite app_length. cbn [List.length]. rewrite Nat.add_1_r. f_equal.
    rewrite Ent. cbn [entries]. rewrite app_nil_r. reflexivity.
Qed.

Lemma clock_map_separate : separate_names ds (clock_map_of cord ds).
Proof.
  assert (G : separate_names ds (entries 0 ds)).
  { assert (I : forall n i, In (n, i) (entries 0 ds) <-> exists k x, clock_of ds k x i /\ n = the_name k x).
    { intros n i. rewrite in_entries. split.
      - intros (k & d & x & H & Hx & E). exists k, x. split; [exists d; split; [exact H|]; apply (cord_in k d x i H); exact Hx|exact E].
      - intros (k & x & (d & H & Hx) & E). exists k, d, x. split; [exact H|]. split; [apply (cord_in k d x i H); exact Hx|exact E]. }
    split.
    - assert (A : forall l pre, ds = pre ++ l -> NoDup (map fst (entries (List.length pre) l))).
      { induction l as [|d l IH]; intros pre E; cbn [entries]; [constructor|]. rewrite map_app.
        assert (Hd : nth_error ds (List.length pre) = Some d) by (rewrite E, nth_error_app2, Nat.sub_diag by lia; reflexivity).
        assert (IH' : NoDup (map fst (entries (S (List.length pre)) l))).
        { specialize (IH (pre ++ [d])). rewrite app_length in IH. cbn [List.length] in IH. rewrite Nat.add_1_r in IH. apply IH. rewrite <- app_assoc. exact E. }
        assert (Nd : NoDup (map fst (cord d))).
        { eapply Permutation_NoDup; [|apply (Hkeys d (nth_error_In _ _ Hd))]. apply Permutation_map. symmetry. apply Hord. eapply nth_error_In; eauto. }
        assert (P : forall x i, In (x, i) (cord d) -> clock_of ds (List.length pre) x i) by (intros x i Hx; exists d; split; [exact Hd|apply (cord_in _ d x i Hd); exact Hx]).
        assert (Q : forall n i, In (n, i) (entries (S (List.length pre)) l) -> exists k x, List.length pre < k /\ clock_of ds k x i /\ n = the_name k x).
        { intros n i H. apply in_entries in H. destruct H as (j & d' & x & H & Hx & En). exists (S (List.length pre) + j), x. split; [lia|].
          assert (H' : nth_error ds (S (List.length pre) + j) = Some d') by (rewrite E; rewrite nth_error_app2 by lia; replace (S (List.length pre) + j - List.length pre) with (S j) by lia; exact H).
          split; [exists d'; split; [exact H'|apply (cord_in _ d' x i H'); exact Hx]|exact En]. }
        clear IH. induction (cord d) as [|[x i] r IHr]; [exact IH'|]. cbn in *. inversion Nd as [|? ? N1 N2]; subst. constructor; [|apply IHr; auto].
        intros H. apply in_app_or in H. destruct H as [H|H].
        - apply in_map_iff in H. destruct H as ([n j] & En & H). apply in_map_iff in H. destruct H as ([y j'] & Ey & H). unfold entry in Ey. cbn [fst snd] in *. injection Ey as <- <-.
          destruct (the_name_inj _ _ _ _ _ _ (P x i (or_introl eq_refl)) (P y j' (or_intror H)) (eq_sym En)) as [_ ->]. apply N1. apply in_map_iff. exists (y, j'). auto.
        - apply in_map_iff in H. destruct H as ([n j] & En & H). cbn [fst] in En. subst n. apply Q in H. destruct H as (k & y & L & C & En).
          destruct (the_name_inj _ _ _ _ _ _ (P x i (or_introl eq_refl)) C En) as [K _]. lia. }
      apply (A ds []). reflexivity.
    - exists the_name. split; [intros k x i C; apply I; eauto|]. split; [exact the_name_inj|]. intros n i H. apply I in H. exact H. }
  assert (E : clock_map_of cord ds = entries 0 ds \/ exists d, ds = [d]).
  { unfold clock_map_of. pose proof (name_clocks_entries ds [] eq_refl) as X. cbn [entries List.length] in X. destruct ds as [|d [|d' l]]; eauto. }
  destruct E as [->|(d & Ed)]; [exact G|]. clear G. rewrite Ed. cbn [clock_map_of].
  assert (Z : forall k x i, clock_of [d] k x i <-> k = 0 /\ In (x, i) d).
  { intros k x i. split; [intros (d' & H & Hx); destruct k as [|[|k]]; try discriminate; injection H as <-; auto|intros [-> H]; exists d; auto]. }
  split; [apply Hkeys; rewrite Ed; left; reflexivity|]. exists (fun _ x => x). split; [intros k x i C; apply Z in C; tauto|]. split.
  - intros k x i k' x' i' C C' E. apply Z in C. apply Z in C'. destruct C as [-> _], C' as [-> _]. auto.
  - intros n i H. exists 0, n. split; [apply Z; auto|reflexivity].
Qed.
End Map.
