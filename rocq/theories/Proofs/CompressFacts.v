(** Proofs about the numbering of clocks after reduction. *)
From Coq Require Import List String ZArith QArith Bool Arith Lia Permutation.
From Verif Require Import Fed.Zone Model.Base Model.Expr Model.Guard Model.Loc Model.Component Model.TS Model.ParseQuery Model.Files Model.Recipe Model.Reduce
  Spec.EnableSpec Spec.RecipeSpec Proofs.GuardFacts Proofs.RecipeFacts Proofs.ReduceFacts Proofs.ClockFacts.
Import ListNotations.
Local Open Scope nat_scope.
Local Open Scope list_scope.

(** ** Renumbering *)
Lemma insert_sorted_In i l x : In x (insert_sorted i l) <-> x = i \/ In x l.
Proof. induction l as [|j l IH]; cbn [insert_sorted]; [cbn; intuition|]. destruct (Nat.leb i j); cbn [In]; [intuition|]. rewrite IH. intuition. Qed.
Lemma sort_In l x : In x (sort l) <-> In x l.
Proof. unfold sort. induction l as [|i l IH]; cbn [fold_right In]; [tauto|]. rewrite insert_sorted_In, IH. intuition. Qed.
Lemma nassoc_some m i k : nassoc i m = Some k -> In (i, k) m.
Proof. induction m as [|[j l] m IH]; cbn [nassoc]; [discriminate|]. destruct (Nat.eqb_spec i j) as [->|Ne]; [intros [= ->]; left; reflexivity|right; auto]. Qed.
Lemma nassoc_none m i : nassoc i m = None <-> ~ In i (map fst m).
Proof.
  induction m as [|[j l] m IH]; cbn [nassoc map fst In]; [tauto|]. destruct (Nat.eqb_spec i j) as [->|Ne]; [split; [discriminate|intros H; destruct H; auto]|].
  rewrite IH. split; [intros H [X|X]; [congruence|auto]|auto].
Qed.
Lemma nassoc_in m i k : NoDup (map fst m) -> In (i, k) m -> nassoc i m = Some k.
Proof.
  induction m as [|[j l] m IH]; cbn [nassoc map fst]; [intros _ []|]. intros N. inversion N as [|? ? N1 N2]; subst. intros [[= -> ->]|H]; [rewrite Nat.eqb_refl; reflexivity|].
  destruct (Nat.eqb_spec i j) as [->|Ne]; [destruct N1; apply in_map_iff; exists (j, k); auto|auto].
Qed.
Lemma renumber_spec l : forall next seen, NoDup (map fst seen) -> map snd seen = rev (seq 1 (List.length seen)) -> next = S (List.length seen) ->
  let m := renumber l next seen in NoDup (map fst m) /\ map snd m = rev (seq 1 (List.length m)) /\ forall i, In i (map fst m) <-> In i l \/ In i (map fst seen).
Proof.
  induction l as [|i l IH]; intros next seen N V E; cbn [renumber]; [split; [exact N|]; split; [exact V|]; intros i; cbn; tauto|].
  destruct (nassoc i seen) as [k|] eqn:A.
  - destruct (IH next seen N V E) as (H1 & H2 & H3). split; [exact H1|]. split; [exact H2|]. intros j. rewrite H3. cbn [In]. apply nassoc_some in A.
    split; [intuition|]. intros [[<-|H]|H]; [right|left; exact H|right; exact H]. apply in_map_iff. exists (i, k). auto.
  - apply nassoc_none in A. destruct (IH (S next) ((i, next) :: seen)) as (H1 & H2 & H3).
    + cbn. constructor; assumption.
    + cbn [map snd List.length]. rewrite seq_S, rev_app_distr. cbn [rev app]. rewrite V. f_equal. lia.
    + cbn. lia.
    + split; [exact H1|]. split; [exact H2|]. intros j. rewrite H3. cbn [map fst In]. intuition.
Qed.
Definition distinct (l : list nat) : nat := List.length (renumber (sort l) 1 []).
Lemma compressed_facts l :
  (forall i, In i l -> 1 <= compressed l i <= distinct l) /\
  (forall i j, In i l -> In j l -> compressed l i = compressed l j -> i = j) /\
  (forall k, 1 <= k <= distinct l -> exists i, In i l /\ compressed l i = k) /\
  (forall T, NoDup T -> (forall i, In i T <-> In i l) -> List.length T = distinct l).
Proof.
  destruct (renumber_spec (sort l) 1 [] (NoDup_nil _) eq_refl eq_refl) as (N & V & M). fold (distinct l) in V. unfold compressed. set (m := renumber (sort l) 1 []) in *.
  assert (Mi : forall i, In i (map fst m) <-> In i l) by (intros i; rewrite M, sort_In; cbn; tauto).
  assert (Vin : forall k, In k (map snd m) <-> 1 <= k <= distinct l) by (intros k; rewrite V, <- in_rev, in_seq; lia).
  assert (Nv : NoDup (map snd m)) by (rewrite V; apply NoDup_rev, seq_NoDup).
  assert (Some_ : forall i, In i l -> exists k, nassoc i m = Some k).
  { intros i Hi. destruct (nassoc i m) as [k|] eqn:A; [eauto|]. apply nassoc_none in A. destruct A. apply Mi, Hi. }
  split; [|split; [|split]].
  - intros i Hi. destruct (Some_ i Hi) as [k A]. rewrite A. apply Vin. apply nassoc_some in A. apply in_map_iff. exists (i, k). auto.
  - intros i j Hi Hj. destruct (Some_ i Hi) as [k A]. destruct (Some_ j Hj) as [k' A']. rewrite A, A'. intros <-. apply nassoc_some in A. apply nassoc_some in A'.
    clear - Nv A A'. induction m as [|[a b] m IH]; [destruct A|]. cbn [map snd] in Nv. inversion Nv as [|? ? N1 N2]; subst.
    destruct A as [A|A], A' as [A'|A']; [congruence| | |auto].
    + injection A as -> ->. destruct N1. apply in_map_iff. exists (j, k). auto.
    + injection A' as -> ->. destruct N1. apply in_map_iff. exists (i, k). auto.
  - intros k Hk. apply Vin in Hk. apply in_map_iff in Hk. destruct Hk as ([i k'] & E & H). cbn in E. subst k'. exists i. split; [apply Mi, in_map_iff; exists (i, k); auto|].
    rewrite (nassoc_in _ _ _ N H). reflexivity.
  - intros T Nt HT. unfold distinct. fold m. rewrite <- (map_length fst m). apply Permutation_length, NoDup_Permutation; [exact Nt|exact N|]. intros i. rewrite HT, Mi. tauto.
Qed.

(** ** Removing some elements *)
Lemma without_length (A us : list nat) : NoDup A -> NoDup us -> incl us A -> List.length (filter (fun i => negb (nin i us)) A) + List.length us = List.length A.
Proof.
  intros NA Nu I. assert (X : Permutation (filter (fun i => nin i us) A) us).
  { apply NoDup_Permutation; [apply NoDup_filter, NA|exact Nu|]. intros i. rewrite filter_In, nin_In. split; [tauto|]. intros H. auto. }
  rewrite <- (Permutation_length X). clear. induction A as [|a A IH]; cbn [filter]; [reflexivity|]. destruct (nin a us); cbn [negb List.length]; lia.
Qed.

(** ** Merging groups *)
Definition others (grp : list nat) : list nat := filter (fun i => negb (Nat.eqb i (lowest grp))) grp.
Definition merge1 (grp : list nat) (i : nat) : nat := if nin i (others grp) then lowest grp else i.
Definition merge (gs : list (list nat)) (i : nat) : nat := fold_left (fun i grp => merge1 grp i) gs i.
Lemma others_In grp i : In i (others grp) <-> In i grp /\ i <> lowest grp.
Proof. unfold others. rewrite filter_In, negb_true_iff, Nat.eqb_neq. tauto. Qed.
Lemma merge1_out grp i : ~ In i grp -> merge1 grp i = i.
Proof. unfold merge1. intros H. destruct (nin i (others grp)) eqn:E; [|reflexivity]. apply nin_In, others_In in E. tauto. Qed.
Lemma merge1_in grp i : In i grp -> merge1 grp i = lowest grp.
Proof.
  unfold merge1. intros H. destruct (nin i (others grp)) eqn:E; [reflexivity|]. apply nin_false in E. rewrite others_In in E.
  destruct (Nat.eq_dec i (lowest grp)); [assumption|tauto].
Qed.
Lemma merge_out gs i : ~ In i (List.concat gs) -> merge gs i = i.
Proof.
  unfold merge. induction gs as [|grp gs IH]; cbn [fold_left List.concat]; intros H; [reflexivity|]. rewrite in_app_iff in H. rewrite merge1_out by tauto. apply IH. tauto.
Qed.
Lemma merge_in gs grp i : NoDup (List.concat gs) -> In grp gs -> In i grp -> merge gs i = lowest grp.
Proof.
  unfold merge. induction gs as [|g1 gs IH]; intros N Hg Hi; [destruct Hg|]. cbn [fold_left List.concat] in *. apply nodup_split in N. destruct N as (N1 & N2 & N3).
  destruct Hg as [->|Hg].
  - rewrite merge1_in by exact Hi. apply (merge_out gs). apply N3, lowest_in. intros ->. destruct Hi.
  - rewrite merge1_out; [apply IH; assumption|]. intros X. apply (N3 i X). apply in_concat. eauto.
Qed.
Lemma merge_cases gs i : NoDup (List.concat gs) -> (~ In i (List.concat gs) /\ merge gs i = i) \/ exists grp, In grp gs /\ In i grp /\ merge gs i = lowest grp.
Proof.
  intros N. destruct (in_dec Nat.eq_dec i (List.concat gs)) as [H|H]; [right|left; split; [exact H|apply merge_out, H]].
  apply in_concat in H. destruct H as (grp & Hg & Hi). exists grp. split; [exact Hg|]. split; [exact Hi|]. apply merge_in; assumption.
Qed.
Definition dropped (gs : list (list nat)) : list nat := flat_map others gs.
Lemma nodup_app {A} (l r : list A) : NoDup l -> NoDup r -> (forall x, In x l -> ~ In x r) -> NoDup (l ++ r).
Proof.
  induction l as [|x l IH]; cbn [app]; intros Nl Nr D; [exact Nr|]. inversion Nl as [|? ? N1 N2]; subst. constructor.
  - intros H. apply in_app_or in H. destruct H as [H|H]; [contradiction|]. apply (D x (or_introl eq_refl) H).
  - apply IH; auto. intros y Hy. apply D. right. exact Hy.
Qed.
Lemma dropped_nodup gs : NoDup (List.concat gs) -> NoDup (dropped gs).
Proof.
  induction gs as [|grp gs IH]; cbn [List.concat]; intros N; [constructor|]. cbn [dropped flat_map]. fold (dropped gs). apply nodup_split in N. destruct N as (N1 & N2 & N3).
  apply nodup_app; [apply NoDup_filter; exact N1|apply IH; exact N2|]. intros x Hx Hy. apply others_In in Hx. apply (N3 x (proj1 Hx)).
  unfold dropped in Hy. apply in_flat_map in Hy. destruct Hy as (g & Hg & Hy). apply others_In in Hy. apply in_concat. exists g. tauto.
Qed.
Lemma dropped_concat gs i : In i (dropped gs) -> In i (List.concat gs).
Proof. unfold dropped. intros H. apply in_flat_map in H. destruct H as (g & Hg & H). apply others_In in H. apply in_concat. exists g. tauto. Qed.
(** The merged numbers are the numbers that are not dropped. *)
Lemma merged_set gs A : NoDup (List.concat gs) -> incl (List.concat gs) A ->
  forall i, In i (filter (fun i => negb (nin i (dropped gs))) A) <-> In i (map (merge gs) A).
Proof.
  intros N I i. rewrite filter_In, negb_true_iff, nin_false, in_map_iff. split.
  - intros [Hi Nd]. exists i. split; [|exact Hi]. destruct (merge_cases gs i N) as [[_ E]|(grp & Hg & Hi' & E)]; [exact E|]. rewrite E.
    destruct (Nat.eq_dec i (lowest grp)) as [X|X]; [auto|]. destruct Nd. unfold dropped. apply in_flat_map. exists grp. split; [exact Hg|]. apply others_In. auto.
  - intros (k & <- & Hk). destruct (merge_cases gs k N) as [[Nk E]|(grp & Hg & Hk' & E)]; rewrite E.
    + split; [exact Hk|]. intros X. apply Nk. apply dropped_concat, X.
    + assert (L : In (lowest grp) grp) by (apply lowest_in; intros ->; destruct Hk'). split; [apply I, in_concat; eauto|].
      intros X. unfold dropped in X. apply in_flat_map in X. destruct X as (g' & Hg' & X). apply others_In in X. destruct X as [X1 X2].
      apply X2. rewrite <- (merge_in gs g' _ N Hg' X1). symmetry. rewrite (merge_in gs grp); auto.
Qed.

(** ** The numbers of a recipe *)
Lemma components_map f r : components (map_components f r) = map f (components r).
Proof. induction r; cbn [map_components components map]; rewrite ?map_app, ?IHr1, ?IHr2; reflexivity. Qed.
Lemma quotients_map f r : quotient_clocks (map_components f r) = quotient_clocks r.
Proof. induction r; cbn [map_components quotient_clocks]; rewrite ?IHr1, ?IHr2; reflexivity. Qed.
Lemma components_change q r : components (change_quotient q r) = components r.
Proof. induction r; cbn [change_quotient components]; rewrite ?IHr1, ?IHr2; reflexivity. Qed.
Lemma quotients_change q r q' : In q' (quotient_clocks (change_quotient q r)) -> q' = q.
Proof.
  induction r as [c|l IHl r IHr|l IHl r IHr|l IHl r IHr q0]; cbn [change_quotient quotient_clocks]; [intros []|intros H; apply in_app_or in H; tauto|intros H; apply in_app_or in H; tauto|].
  intros [<-|H]; [reflexivity|apply in_app_or in H; tauto].
Qed.
Lemma numbers_map f c : numbers (map_clocks f c) = map f (numbers c).
Proof. unfold numbers, map_clocks, with_clocks, with_decls. cbn. rewrite !map_map. reflexivity. Qed.
Lemma all_numbers_map f r : all_numbers (map_components (map_clocks f) r) = map f (all_numbers r).
Proof.
  unfold all_numbers. rewrite components_map. induction (components r) as [|c cs IH]; cbn [map flat_map]; [reflexivity|]. rewrite numbers_map, IH, map_app. reflexivity.
Qed.
Lemma names_map f c : map fst (d_clocks (c_decls (map_clocks f c))) = map fst (d_clocks (c_decls c)).
Proof. unfold map_clocks, with_clocks, with_decls. cbn. rewrite map_map. reflexivity. Qed.
Lemma all_numbers_change q r : all_numbers (change_quotient q r) = all_numbers r.
Proof. unfold all_numbers. rewrite components_change. reflexivity. Qed.

Definition named_once (r : recipe) : Prop := forall c, In c (components r) -> NoDup (map fst (d_clocks (c_decls c))).

(** Filtering the clocks by name is filtering them by number. *)
Lemma by_name_number m n i : NoDup (map fst m) -> NoDup (map snd m) -> In (n, i) m ->
  filter (fun p : string * nat => negb (String.eqb (fst p) n)) m = filter (fun p => negb (Nat.eqb (snd p) i)) m.
Proof.
  intros N1 N2 H. apply filter_ext_in. intros [n' i'] H'. cbn [fst snd]. destruct (String.eqb_spec n' n) as [->|Ne].
  - destruct (Nat.eqb_spec i' i) as [->|X]; [reflexivity|]. apply (assoc_nodup _ _ _ N1) in H. apply (assoc_nodup _ _ _ N1) in H'. congruence.
  - destruct (Nat.eqb_spec i' i) as [->|X]; [|reflexivity]. destruct Ne. exact (snd_inj _ _ _ _ N2 H' H).
Qed.
Lemma map_snd_filter m i : map snd (filter (fun p : string * nat => negb (Nat.eqb (snd p) i)) m) = filter (fun k => negb (Nat.eqb k i)) (map snd m).
Proof. induction m as [|[n k] m IH]; cbn [filter map snd]; [reflexivity|]. destruct (Nat.eqb k i); cbn [negb map snd]; rewrite IH; reflexivity. Qed.
Lemma find_number m i : In i (map snd m) -> exists n, find (fun p : string * nat => Nat.eqb (snd p) i) m = Some (n, i) /\ In (n, i) m.
Proof.
  induction m as [|[n k] m IH]; cbn [map snd In find]; [intros []|]. destruct (Nat.eqb_spec k i) as [->|Ne]; [intros _; exists n; auto|].
  intros [H|H]; [congruence|]. destruct (IH H) as (n' & E & H'). exists n'. auto.
Qed.
Lemma remove_clock_numbers i c : NoDup (map fst (d_clocks (c_decls c))) -> NoDup (numbers c) -> In i (numbers c) ->
  exists c', remove_clock i c = Ok c' /\ numbers c' = filter (fun k => negb (Nat.eqb k i)) (numbers c) /\ NoDup (map fst (d_clocks (c_decls c'))).
Proof.
  intros N1 N2 Hi. unfold remove_clock. destruct (find_number _ _ Hi) as (n & E & H). rewrite E. eexists. split; [reflexivity|]. unfold numbers. cbn [c_decls d_clocks].
  rewrite (by_name_number _ _ _ N1 N2 H). split; [apply map_snd_filter|]. clear - N1. induction (d_clocks (c_decls c)) as [|[n k] m IH]; cbn [filter map fst]; [constructor|].
  cbn [map fst] in N1. inversion N1 as [|? ? X Y]; subst. destruct (negb _); cbn [map fst]; [|auto]. constructor; [|auto].
  intros Z. apply X. apply in_map_iff in Z. destruct Z as (p & Ep & Hp). apply filter_In in Hp. apply in_map_iff. exists p. tauto.
Qed.
Lemma has_clock_In i c : has_clock i c = true <-> In i (numbers c).
Proof. unfold has_clock. apply nin_In. Qed.
Lemma exists_clock i r : existsb (has_clock i) (components r) = true <-> In i (all_numbers r).
Proof. rewrite existsb_exists. unfold all_numbers. rewrite in_flat_map. split; intros (c & Hc & H); exists c; (split; [exact Hc|]); apply has_clock_In; exact H. Qed.
Lemma filter_notin (A : list nat) i : ~ In i A -> filter (fun k => negb (Nat.eqb k i)) A = A.
Proof.
  induction A as [|a A IH]; cbn [filter In]; intros H; [reflexivity|]. destruct (Nat.eqb_spec a i) as [->|Ne]; [destruct H; auto|]. cbn [negb]. rewrite IH by tauto. reflexivity.
Qed.
Lemma remove_from_numbers i r : named_once r -> NoDup (all_numbers r) -> In i (all_numbers r) ->
  exists r', remove_from i r = Ok r' /\ all_numbers r' = filter (fun k => negb (Nat.eqb k i)) (all_numbers r) /\ named_once r' /\ quotient_clocks r' = quotient_clocks r.
Proof.
  assert (Two : forall l r rl rr (cs := components l ++ components r),
    ((forall c, In c (components l) -> NoDup (map fst (d_clocks (c_decls c)))) -> NoDup (all_numbers l) -> In i (all_numbers l) ->
      exists r', rl = Ok r' /\ all_numbers r' = filter (fun k => negb (Nat.eqb k i)) (all_numbers l) /\ named_once r' /\ quotient_clocks r' = quotient_clocks l) ->
    ((forall c, In c (components r) -> NoDup (map fst (d_clocks (c_decls c)))) -> NoDup (all_numbers r) -> In i (all_numbers r) ->
      exists r', rr = Ok r' /\ all_numbers r' = filter (fun k => negb (Nat.eqb k i)) (all_numbers r) /\ named_once r' /\ quotient_clocks r' = quotient_clocks r) ->
    (forall c, In c cs -> NoDup (map fst (d_clocks (c_decls c)))) -> NoDup (all_numbers l ++ all_numbers r) -> In i (all_numbers l ++ all_numbers r) ->
    exists l' r', (if existsb (has_clock i) (components l) then do l' <- rl; Ok (l', r) else do r' <- rr; Ok (l, r')) = Ok (l', r') /\
      all_numbers l' ++ all_numbers r' = filter (fun k => negb (Nat.eqb k i)) (all_numbers l ++ all_numbers r) /\ named_once l' /\ named_once r' /\
      quotient_clocks l' = quotient_clocks l /\ quotient_clocks r' = quotient_clocks r).
  { intros l r0 rl rr cs Hl Hr Hc N Hi. apply nodup_split in N. destruct N as (N1 & N2 & N3). rewrite filter_app.
    assert (Hcl : named_once l) by (intros c H; apply Hc, in_or_app; auto). assert (Hcr : named_once r0) by (intros c H; apply Hc, in_or_app; auto).
    destruct (existsb (has_clock i) (components l)) eqn:E.
    - apply exists_clock in E. destruct (Hl Hcl N1 E) as (l' & -> & A & B & C). exists l', r0. cbn [bind]. split; [reflexivity|]. rewrite A, (filter_notin (all_numbers r0)) by (apply N3; exact E). auto.
    - assert (E' : ~ In i (all_numbers l)) by (rewrite <- exists_clock; congruence). apply in_app_or in Hi. destruct Hi as [Hi|Hi]; [contradiction|].
      destruct (Hr Hcr N2 Hi) as (r' & -> & A & B & C). exists l, r'. cbn [bind]. split; [reflexivity|]. rewrite A, (filter_notin (all_numbers l)) by exact E'. auto. }
  induction r as [c|l IHl r IHr|l IHl r IHr|l IHl r IHr q]; intros Hn N Hi.
  - unfold all_numbers in N, Hi. cbn [components flat_map] in N, Hi. rewrite app_nil_r in N, Hi. cbn [remove_from]. destruct (remove_clock_numbers i c (Hn c (or_introl eq_refl)) N Hi) as (c' & E & A & B).
    apply has_clock_In in Hi. rewrite Hi, E. cbn [bind]. eexists. split; [reflexivity|]. unfold all_numbers. cbn [components flat_map]. rewrite !app_nil_r. split; [exact A|].
    split; [intros c0 [<-|[]]; exact B|reflexivity].
  - assert (Q : forall x y, all_numbers (RComp x y) = all_numbers x ++ all_numbers y) by (intros; apply flat_map_app). rewrite Q in *.
    destruct (Two l r _ _ IHl IHr Hn N Hi) as (l' & r' & E & A & B & C & D & F). exists (RComp l' r'). rewrite Q. split; [|split; [exact A|split; [intros c Hc; apply in_app_or in Hc; destruct Hc; [apply B|apply C]; assumption|cbn; rewrite D, F; reflexivity]]].
    cbn [remove_from]. destruct (existsb _ _); [destruct (remove_from i l)|destruct (remove_from i r)]; cbn [bind] in *; congruence.
  - assert (Q : forall x y, all_numbers (RConj x y) = all_numbers x ++ all_numbers y) by (intros; apply flat_map_app). rewrite Q in *.
    destruct (Two l r _ _ IHl IHr Hn N Hi) as (l' & r' & E & A & B & C & D & F). exists (RConj l' r'). rewrite Q. split; [|split; [exact A|split; [intros c Hc; apply in_app_or in Hc; destruct Hc; [apply B|apply C]; assumption|cbn; rewrite D, F; reflexivity]]].
    cbn [remove_from]. destruct (existsb _ _); [destruct (remove_from i l)|destruct (remove_from i r)]; cbn [bind] in *; congruence.
  - assert (Q : forall x y, all_numbers (RQuot x y q) = all_numbers x ++ all_numbers y) by (intros; apply flat_map_app). rewrite Q in *.
    destruct (Two l r _ _ IHl IHr Hn N Hi) as (l' & r' & E & A & B & C & D & F). exists (RQuot l' r' q). rewrite Q. split; [|split; [exact A|split; [intros c Hc; apply in_app_or in Hc; destruct Hc; [apply B|apply C]; assumption|cbn; rewrite D, F; reflexivity]]].
    cbn [remove_from]. destruct (existsb _ _); [destruct (remove_from i l)|destruct (remove_from i r)]; cbn [bind] in *; congruence.
Qed.
Lemma filter_filter {A} (f g : A -> bool) l : filter f (filter g l) = filter (fun x => g x && f x) l.
Proof. induction l as [|a l IH]; cbn [filter]; [reflexivity|]. destruct (g a); cbn [filter andb]; [destruct (f a); rewrite IH; reflexivity|exact IH]. Qed.
Lemma removals_numbers us : forall r, named_once r -> NoDup (all_numbers r) -> NoDup us -> incl us (all_numbers r) ->
  exists r', reduce_clocks (map RemoveClock us) r = Ok r' /\ all_numbers r' = filter (fun k => negb (nin k us)) (all_numbers r) /\ named_once r' /\ quotient_clocks r' = quotient_clocks r.
Proof.
  unfold reduce_clocks. induction us as [|u us IH]; intros r Hn N Nu I; cbn [map foldM].
  - exists r. split; [reflexivity|]. split; [|auto]. symmetry. clear. induction (all_numbers r) as [|a A IH]; cbn; [reflexivity|]. f_equal. exact IH.
  - inversion Nu as [|? ? N1 N2]; subst. destruct (remove_from_numbers u r Hn N (I u (or_introl eq_refl))) as (r1 & E & A & B & C). cbn [apply_instr]. rewrite E. cbn [bind].
    destruct (IH r1 B) as (r' & E' & A' & B' & C'); [rewrite A; apply NoDup_filter, N|exact N2| |].
    + intros k Hk. rewrite A. apply filter_In. split; [apply I; right; exact Hk|]. apply negb_true_iff, Nat.eqb_neq. intros ->. contradiction.
    + exists r'. split; [exact E'|]. split; [|split; [exact B'|congruence]]. rewrite A', A, filter_filter. apply filter_ext. intros k. cbn [nin existsb]. fold (nin k us). destruct (Nat.eqb k u); reflexivity.
Qed.
Lemma merges_numbers gs : forall r, exists r', reduce_clocks (map replace_group gs) r = Ok r' /\ all_numbers r' = map (merge gs) (all_numbers r) /\ quotient_clocks r' = quotient_clocks r.
Proof.
  unfold reduce_clocks. induction gs as [|grp gs IH]; intros r; cbn [map foldM].
  - exists r. split; [reflexivity|]. split; [symmetry; apply map_id|reflexivity].
  - cbn [apply_instr replace_group bind]. destruct (IH (map_components (replace_clock (lowest grp) (others grp)) r)) as (r' & E & A & B).
    exists r'. split; [exact E|]. rewrite A, B. unfold replace_clock. rewrite all_numbers_map, quotients_map, map_map. split; reflexivity.
Qed.
Lemma foldM_app {S A} (f : S -> A -> res S) l m s : foldM f (l ++ m) s = bind (foldM f l s) (foldM f m).
Proof. revert s. induction l as [|a l IH]; intros s; cbn [app foldM]; [reflexivity|]. destruct (f s a); cbn [bind]; auto. Qed.
Lemma list_sum_app' l m : list_sum (l ++ m) = list_sum l + list_sum m.
Proof. unfold list_sum. rewrite fold_right_app. induction l as [|a l IH]; cbn; [reflexivity|]. rewrite IH. lia. Qed.
Lemma total_removed_facts us gs : total_removed (map RemoveClock us ++ map replace_group gs) = List.length us + List.length (dropped gs).
Proof.
  unfold total_removed. rewrite map_app, list_sum_app', !map_map. f_equal.
  - induction us as [|u us IH]; cbn; [reflexivity|]. rewrite <- IH. reflexivity.
  - induction gs as [|grp gs IH]; cbn [map list_sum fold_right dropped flat_map]; [reflexivity|]. fold (dropped gs). rewrite app_length, <- IH. reflexivity.
Qed.

(** The whole reduction of one system. *)
Section Shrink.
Variables (r : recipe) (dim : nat) (q : option nat) (us : list nat) (gs : list (list nat)).
Hypothesis Hn : named_once r.
Hypothesis P : Permutation (all_numbers r ++ opt_clock q) (seq 1 dim).
Hypothesis Nu : NoDup us.
Hypothesis Iu : incl us (all_numbers r).
Hypothesis Ng : NoDup (List.concat gs).
Hypothesis Ig : incl (List.concat gs) (all_numbers r).
Hypothesis Ug : forall i, In i us -> ~ In i (List.concat gs).

Lemma numbers_nodup : NoDup (all_numbers r).
Proof. apply (nodup_split _ (opt_clock q)). eapply Permutation_NoDup; [symmetry; exact P|apply seq_NoDup]. Qed.
Definition kept_numbers : list nat := filter (fun k => negb (nin k us)) (all_numbers r).
Lemma kept_groups : incl (List.concat gs) kept_numbers.
Proof. intros i Hi. apply filter_In. split; [apply Ig, Hi|]. apply negb_true_iff, nin_false. intros H. exact (Ug i H Hi). Qed.
Lemma shrink_numbers : exists r1, reduce_clocks (map RemoveClock us ++ map replace_group gs) r = Ok r1 /\ all_clocks r1 = map (merge gs) kept_numbers /\ quotient_clocks r1 = quotient_clocks r.
Proof.
  unfold reduce_clocks. rewrite foldM_app. destruct (removals_numbers us r Hn numbers_nodup Nu Iu) as (r0 & E & A & _ & B). unfold reduce_clocks in E. rewrite E. cbn [bind].
  destruct (merges_numbers gs r0) as (r1 & E1 & A1 & B1). exists r1. split; [exact E1|]. split; [|congruence]. change (all_clocks r1) with (all_numbers r1). rewrite A1, A. reflexivity.
Qed.
Lemma shrink_count L : L = map (merge gs) kept_numbers ->
  distinct L + List.length (opt_clock q) + total_removed (map RemoveClock us ++ map replace_group gs) = dim.
Proof.
  intros ->. pose proof (merged_set gs kept_numbers Ng kept_groups) as M. destruct (compressed_facts (map (merge gs) kept_numbers)) as (_ & _ & _ & F).
  rewrite <- (F _ (NoDup_filter _ (NoDup_filter _ numbers_nodup)) M). rewrite total_removed_facts.
  pose proof (without_length kept_numbers (dropped gs) (NoDup_filter _ numbers_nodup) (dropped_nodup gs Ng) (fun i H => kept_groups i (dropped_concat gs i H))) as X.
  pose proof (without_length (all_numbers r) us numbers_nodup Nu Iu) as Y. fold kept_numbers in Y. pose proof (Permutation_length P) as Z. rewrite app_length, seq_length in Z. fold kept_numbers. lia.
Qed.
End Shrink.
