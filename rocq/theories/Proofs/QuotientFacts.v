(** The quotient: fresh input, rules, and well-formed locations of all systems. *)
From Coq Require Import List String ZArith QArith Bool Arith Lia FinFun.
From Verif Require Import Fed.Zone Fed.ZoneFacts Model.Base Model.Expr Model.Guard Model.Loc Model.Component Model.TS
  Spec.StepSpec Spec.SystemSpec Proofs.GuardFacts Proofs.StepFacts Proofs.SystemFacts Proofs.NumFacts.
Import ListNotations.

Definition qname (i : nat) : string := ("quotient_new_input" ++ nat_str i)%string.
Lemma qname_inj i j : qname i = qname j -> i = j.
Proof. unfold qname. intros H. apply sapp_inv_head in H. apply nat_str_inj; exact H. Qed.

Lemma fresh_fuel fuel : forall i ins, fresh_input fuel i ins = NoFuel -> forall j, (i <= j < i + fuel)%nat -> In (qname j) ins.
Proof.
  induction fuel as [|f IH]; intros i ins E j Hj; [lia|].
  cbn [fresh_input] in E. fold (qname i) in E. destruct (sin (qname i) ins) eqn:S; cbn [negb] in E; [|discriminate].
  destruct (Nat.eq_dec i j) as [<-|Hne]; [apply sin_In; exact S|]. apply (IH (Datatypes.S i) ins E). lia.
Qed.
Lemma fresh_total ins : exists n, fresh_input (S (List.length ins)) 0 ins = Ok n.
Proof.
  destruct (fresh_input (S (List.length ins)) 0 ins) as [n| | |] eqn:E; [eauto| | |].
  - exfalso. revert E. generalize (S (List.length ins)) as k, 0%nat as i. induction k; intros i; cbn [fresh_input]; [discriminate|].
    destruct (negb _); [discriminate|apply IHk].
  - exfalso. revert E. generalize (S (List.length ins)) as k, 0%nat as i. induction k; intros i; cbn [fresh_input]; [discriminate|].
    destruct (negb _); [discriminate|apply IHk].
  - exfalso. assert (L : (List.length (map qname (seq 0 (S (List.length ins)))) <= List.length ins)%nat).
    { apply NoDup_incl_length.
      - apply FinFun.Injective_map_NoDup; [intros x y; apply qname_inj|apply seq_NoDup].
      - intros x Hx. apply in_map_iff in Hx. destruct Hx as (j & <- & Hj). apply in_seq in Hj.
        eapply fresh_fuel; [exact E|lia]. }
    rewrite map_length, seq_length in L. lia.
Qed.

(** ** Membership in the offered transitions, at the level of valuations *)
Lemma offers_iff dim ts (R : val -> loctree -> list cupdate -> Prop) : offers dim ts R <->
  forall v l us, (exists t, In t ts /\ fsem dim (t_guard t) v /\ t_target t = l /\ t_updates t = us) <-> R v l us.
Proof. reflexivity. Qed.

Definition tr_fine (dim : nat) (t : transition) : Prop := updates_ok dim (t_updates t) /\ no_conflict (t_updates t).

Lemma q_allowed_sem dim l t v : tr_fine dim t -> fsem dim (q_allowed dim l t) v <-> able dim l t v.
Proof.
  intros [Hu Hc]. unfold q_allowed, able. rewrite apply_inv_sem, allowed_fed_sem by assumption. tauto.
Qed.

Lemma fold_union_sem dim (F : transition -> fed) ts : forall g v,
  fsem dim (fold_left (fun g t => funion g (F t)) ts g) v <-> fsem dim g v \/ exists t, In t ts /\ fsem dim (F t) v.
Proof.
  induction ts as [|t ts IH]; simpl; intros g v.
  - split; [auto|]. intros [H|(t & [] & _)]; exact H.
  - rewrite IH, funion_sem. split.
    + intros [[H|H]|(x & Hx & H)]; eauto.
    + intros [H|(x & [<-|Hx] & H)]; eauto.
Qed.

Lemma apply_inv_univ dim l v : fsem dim (apply_inv dim l funiv) v <-> inv_at dim l v.
Proof. rewrite apply_inv_sem, funiv_sem. split; [tauto|]. intros H. split; [eapply inv_at_ok; eauto|exact H]. Qed.
Lemma q_inv_sem dim l v : fsem dim (q_inv l) v <-> inv_at dim l v.
Proof. unfold q_inv, inv_at. destruct (lt_inv l); [reflexivity|apply funiv_sem]. Qed.

(** What a list of offered transitions allows. *)
Definition off (dim : nat) (ts : list transition) (v : val) (l : loctree) (us : list cupdate) : Prop :=
  exists t, In t ts /\ fsem dim (t_guard t) v /\ t_target t = l /\ t_updates t = us.
Lemma offers_off dim ts R : (forall v l us, off dim ts v l us <-> R v l us) -> offers dim ts R.
Proof. intros H. exact H. Qed.
Lemma off_app dim a b v l us : off dim (a ++ b) v l us <-> off dim a v l us \/ off dim b v l us.
Proof.
  unfold off. split.
  - intros (t & Ht & R). apply in_app_or in Ht. destruct Ht; eauto.
  - intros [(t & Ht & R)|(t & Ht & R)]; exists t; (split; [apply in_or_app; auto|exact R]).
Qed.
Lemma off_nil dim v l us : off dim [] v l us <-> False.
Proof. split; [intros (t & [] & _)|tauto]. Qed.
Lemma off_one dim t v l us : off dim [t] v l us <-> fsem dim (t_guard t) v /\ t_target t = l /\ t_updates t = us.
Proof. split; [intros (x & [<-|[]] & H); exact H|intros H; exists t; split; [left; reflexivity|exact H]]. Qed.
Lemma off_map {A} dim (F : A -> transition) xs v l us :
  off dim (map F xs) v l us <-> exists x, In x xs /\ fsem dim (t_guard (F x)) v /\ t_target (F x) = l /\ t_updates (F x) = us.
Proof.
  unfold off. split.
  - intros (t & Ht & R). apply in_map_iff in Ht. destruct Ht as (x & <- & Hx). eauto.
  - intros (x & Hx & R). exists (F x). split; [apply in_map; exact Hx|exact R].
Qed.
Lemma off_filter dim ts v l us : off dim (filter (fun t => negb (fempty dim (t_guard t))) ts) v l us <-> off dim ts v l us.
Proof.
  unfold off. split.
  - intros (t & Ht & R). apply filter_In in Ht. exists t. tauto.
  - intros (t & Ht & R). exists t. split; [|exact R]. apply filter_In. split; [exact Ht|].
    apply negb_true_iff, fempty_false. exists v. apply R.
Qed.
Lemma off_if dim (b : bool) ts v l us : off dim (if b then ts else []) v l us <-> b = true /\ off dim ts v l us.
Proof. destruct b; [tauto|]. rewrite off_nil. split; [tauto|intros [H _]; discriminate]. Qed.

Lemma quotient_rules_sound dim T S n q lt ls tts sss a :
  (forall t, In t tts -> tr_fine dim t) -> (forall s, In s sss -> tr_fine dim s) ->
  offers dim (quotient_rules dim T S n q lt ls tts sss a) (qstep dim T S n q lt ls tts sss a).
Proof.
  intros Ft Fs v l us. change (off dim (quotient_rules dim T S n q lt ls tts sss a) v l us <-> qstep dim T S n q lt ls tts sss a v l us).
  unfold quotient_rules. rewrite off_filter, !off_app, !off_if, !off_map.
  set (r35 := if sin a (ts_outputs S) then _ else _).
  assert (R35 : off dim r35 v l us <-> l = lt_universal /\ us = [] /\ val_ok dim v /\
     (~ inv_at dim ls v \/ is_output S a /\ forall s, In s sss -> ~ able dim ls s v)).
  { unfold r35. destruct (sin a (ts_outputs S)) eqn:So.
    - rewrite off_one. cbn [t_guard t_target t_updates]. rewrite funion_sem, !fcompl_sem, apply_inv_univ, fold_union_sem.
      apply sin_In in So. split.
      + intros (G & <- & <-). split; [reflexivity|]. split; [reflexivity|]. split; [tauto|].
        destruct G as [G|[_ G]]; [left; tauto|]. right. split; [exact So|]. intros s Hs Ha. apply G. right.
        exists s. split; [exact Hs|]. apply q_allowed_sem; auto.
      + intros (-> & -> & Hv & G). split; [|auto]. destruct G as [G|[_ G]]; [left; tauto|]. right. split; [exact Hv|].
        intros [G'|(s & Hs & G')]; [apply fnone_sem in G'; exact G'|]. apply (G s Hs). apply q_allowed_sem; auto.
    - rewrite off_one. cbn [t_guard t_target t_updates]. rewrite fcompl_sem, apply_inv_univ. apply sin_false in So. split.
      + intros (G & <- & <-). tauto.
      + intros (-> & -> & Hv & [G|[G _]]); [tauto|]. contradiction. }
  rewrite R35. clear r35 R35.
  rewrite !andb_true_iff, !negb_true_iff, !has_action_spec, !has_action_false, !sin_In, String.eqb_eq, off_one.
  cbn [t_guard t_target t_updates]. split.
  - intros [(C & [t s] & Hp & G & <- & <-)|[(C & s & Hs & G & <- & <-)|[(-> & -> & Hv & G)|
            [(C & s & Hs & G & <- & <-)|[(-> & G & <- & <-)|(C & t & Ht & G & <- & <-)]]]]].
    + apply in_prod_iff in Hp. cbn [fst snd t_guard t_target t_updates] in *. apply finter_sem in G. destruct G as [G1 G2].
      apply q_allowed_sem in G1, G2; try (apply Ft; tauto); try (apply Fs; tauto). apply q_both; tauto.
    + cbn [t_guard t_target t_updates] in *. apply q_allowed_sem in G; [|auto]. apply q_s; tauto.
    + destruct G as [G|[Ho G]]; [apply q_univ_inv; assumption|apply q_univ_out; assumption].
    + cbn [t_guard t_target t_updates] in *. apply finter_sem in G. destruct G as [G1 G2].
      apply q_allowed_sem in G1; [|auto]. apply fcompl_sem in G2. destruct G2 as [Hv G2].
      apply (q_err_out _ _ _ _ _ _ _ _ _ _ _ s); try tauto. intros t Ht Ha. apply G2. apply fold_union_sem. right. exists t. split; [exact Ht|].
      apply q_allowed_sem; auto.
    + apply finter_sem in G. destruct G as [G1 G2]. apply fcompl_sem in G1. rewrite q_inv_sem in G1, G2. apply q_err_inv; tauto.
    + cbn [t_guard t_target t_updates] in *. apply apply_inv_sem in G. destruct G as [G1 G2].
      apply q_allowed_sem in G1; [|auto]. apply q_t; tauto.
  - intros H. destruct H as [t s At As Ht Hs Ha Hb|s At As Hs Ha|t At As Ht Ha Hi|Hv Hi|Hv Ho Hn|s Ho Ho' Hs Ha Hn| -> Hi Hn].
    + left. split; [tauto|]. exists (t, s). split; [apply in_prod; assumption|]. cbn [fst snd t_guard t_target t_updates].
      split; [apply finter_sem; split; (apply q_allowed_sem; auto)|auto].
    + right; left. split; [tauto|]. exists s. cbn [t_guard t_target t_updates]. split; [exact Hs|]. split; [apply q_allowed_sem; auto|auto].
    + do 5 right. split; [tauto|]. exists t. cbn [t_guard t_target t_updates]. split; [exact Ht|]. split; [|auto].
      apply apply_inv_sem. split; [apply q_allowed_sem; auto|exact Hi].
    + right; right; left. tauto.
    + right; right; left. tauto.
    + do 3 right; left. split; [tauto|]. exists s. cbn [t_guard t_target t_updates]. split; [exact Hs|]. split; [|auto].
      apply finter_sem. split; [apply q_allowed_sem; auto|]. apply fcompl_sem. split; [exact (inv_at_ok _ _ _ (proj1 Ha))|].
      intros C. apply fold_union_sem in C. destruct C as [C|(t & Ht & C)]; [apply fnone_sem in C; exact C|].
      apply (Hn t Ht). apply q_allowed_sem; auto.
    + do 4 right; left. split; [reflexivity|]. split; [|auto]. apply finter_sem. rewrite fcompl_sem, !q_inv_sem.
      split; [split; [exact (inv_at_ok _ _ _ Hi)|exact Hn]|exact Hi].
Qed.

Lemma quotient_next dim T S ins outs n q loc lt ls a tts sss :
  is_action (TQuot T S ins outs n q) a -> is_inconsistent loc = false -> is_universal loc = false ->
  lt_left loc = Ok lt -> lt_right loc = Ok ls ->
  next_if_available dim T lt a = Ok tts -> next_if_available dim S ls a = Ok sss ->
  next_transitions dim (TQuot T S ins outs n q) loc a = Ok (quotient_rules dim T S n q lt ls tts sss a).
Proof.
  intros Ha Hi Hu Hl Hr Et Es. apply has_action_spec in Ha. cbn [next_transitions]. rewrite Ha, Hi, Hu, Hl, Hr.
  cbn [negb bind]. unfold next_if_available in *. rewrite Et, Es. reflexivity.
Qed.
