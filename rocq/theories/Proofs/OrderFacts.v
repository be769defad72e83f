(** Sorting the actions of a system. *)
From Coq Require Import List String Bool Arith Permutation Sorted OrderedTypeEx.
From Verif Require Import Fed.Zone Model.Base Model.Search Spec.OrderSpec.
Import ListNotations.

Lemma before_trans a b c : before a b -> before b c -> before a c.
Proof. unfold before. intros A B. apply String_as_OT.cmp_lt in A, B. apply String_as_OT.cmp_lt. exact (String_as_OT.lt_trans _ _ _ A B). Qed.
Lemma before_irrefl a : ~ before a a.
Proof. unfold before. intros H. apply String_as_OT.cmp_lt in H. exact (String_as_OT.lt_not_eq _ _ H eq_refl). Qed.
Lemma insert_perm a l : Permutation (a :: l) (insert_str a l).
Proof.
  induction l as [|b l IH]; [reflexivity|]. cbn [insert_str]. destruct (String.compare a b); try reflexivity.
  etransitivity; [apply perm_swap|]. apply perm_skip. exact IH.
Qed.
Lemma sort_perm l : Permutation l (sort_str l).
Proof. induction l as [|a l IH]; [reflexivity|]. cbn. etransitivity; [apply perm_skip; exact IH|apply insert_perm]. Qed.
Lemma insert_increasing a l : ~ In a l -> StronglySorted before l -> StronglySorted before (insert_str a l).
Proof.
  induction l as [|b l IH]; intros N S; [repeat constructor|]. cbn [insert_str]. inversion S as [|? ? S1 S2]; subst.
  assert (X : forall c, In c l -> before b c) by (apply Forall_forall; exact S2).
  destruct (String.compare a b) eqn:E.
  - exfalso. apply N. left. symmetry. apply String_as_OT.cmp_eq. exact E.
  - constructor; [exact S|]. apply Forall_forall. intros c [<-|Hc]; [exact E|]. exact (before_trans _ _ _ E (X c Hc)).
  - constructor; [apply IH; [intros H; apply N; right; exact H|exact S1]|]. apply Forall_forall. intros c Hc.
    apply (Permutation_in c (Permutation_sym (insert_perm a l))) in Hc. destruct Hc as [<-|Hc]; [|exact (X c Hc)].
    unfold before. change (String_as_OT.cmp b a = Lt). rewrite String_as_OT.cmp_antisym. change (String_as_OT.cmp a b) with (String.compare a b). rewrite E. reflexivity.
Qed.
Lemma sort_increasing l : NoDup l -> StronglySorted before (sort_str l).
Proof.
  induction 1 as [|a l N D IH]; [constructor|]. cbn. apply insert_increasing; [|exact IH]. intros H. apply N. exact (Permutation_in a (Permutation_sym (sort_perm l)) H).
Qed.
Lemma increasing_unique l : forall l', StronglySorted before l -> StronglySorted before l' -> (forall a, In a l <-> In a l') -> l = l'.
Proof.
  induction l as [|a l IH]; intros [|b l'] S S' M.
  - reflexivity.
  - destruct (proj2 (M b) (or_introl eq_refl)).
  - destruct (proj1 (M a) (or_introl eq_refl)).
  - inversion S as [|? ? S1 S2]; inversion S' as [|? ? S1' S2']; subst. rewrite Forall_forall in S2, S2'.
    assert (E : a = b).
    { destruct (proj1 (M a) (or_introl eq_refl)) as [|Ha]; [auto|]. destruct (proj2 (M b) (or_introl eq_refl)) as [|Hb]; [auto|].
      exfalso. exact (before_irrefl a (before_trans _ _ _ (S2 b Hb) (S2' a Ha))). }
    subst b. f_equal. apply IH; [exact S1|exact S1'|]. intros c. split; intros Hc.
    + destruct (proj1 (M c) (or_intror Hc)) as [<-|H]; [|exact H]. exfalso. exact (before_irrefl a (S2 a Hc)).
    + destruct (proj2 (M c) (or_intror Hc)) as [<-|H]; [|exact H]. exfalso. exact (before_irrefl a (S2' a Hc)).
Qed.
Lemma sort_same l l' : NoDup l -> NoDup l' -> (forall a, In a l <-> In a l') -> sort_str l = sort_str l'.
Proof.
  intros D D' M. apply increasing_unique; [apply sort_increasing; exact D|apply sort_increasing; exact D'|]. intros a.
  assert (X : forall l, In a l <-> In a (sort_str l)) by (intros; split; apply Permutation_in; [apply sort_perm|apply Permutation_sym, sort_perm]).
  rewrite <- !X. apply M.
Qed.
Lemma sort_sorted l : StronglySorted before l -> sort_str l = l.
Proof.
  intros S. assert (D : NoDup l). { induction S as [|a l S IH F]; constructor; [|exact IH]. intros H. rewrite Forall_forall in F. exact (before_irrefl a (F a H)). }
  apply increasing_unique; [apply sort_increasing; exact D|exact S|]. intros a. split; apply Permutation_in; [apply Permutation_sym|]; apply sort_perm.
Qed.
