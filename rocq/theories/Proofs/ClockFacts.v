(** Proofs about unused and equivalent clocks. *)
From Coq Require Import List String ZArith QArith Bool Arith Lia Lqa Permutation.
From Verif Require Import Fed.Zone Fed.ZoneFacts Model.Base Model.Expr Model.Guard Model.Loc Model.Component Model.TS Model.Files Model.Reduce
  Spec.GuardSpec Spec.StepSpec Spec.SystemSpec Spec.RunSpec Spec.RefineSpec Spec.EnableSpec Spec.IdSpec Spec.ReduceSpec
  Proofs.GuardFacts Proofs.StepFacts Proofs.SystemFacts Proofs.WfFacts Proofs.RunFacts Proofs.ReadsFacts Proofs.ReduceFacts.
Import ListNotations.
Local Open Scope nat_scope.
Local Open Scope list_scope.

Lemma used_In g i : In i (used_clocks g) <-> i <> 0 /\ ((exists e, In e (g_edges g) /\ In i (ae_deps e)) \/ (exists n, In n (g_nodes g) /\ In i (n_deps n))).
Proof.
  unfold used_clocks. rewrite filter_In, nset_In, in_app_iff, !in_flat_map, negb_true_iff, Nat.eqb_neq. tauto.
Qed.
Lemma used_NoDup g : NoDup (used_clocks g).
Proof. apply NoDup_filter, nset_NoDup. Qed.
Lemma unused_In dim g i : In i (unused_clocks dim g) <-> 1 <= i < dim /\ ~ In i (used_clocks g).
Proof. unfold unused_clocks. rewrite filter_In, in_seq, negb_true_iff, nin_false. split; intros [H1 H2]; (split; [lia|exact H2]). Qed.

Section Used.
Variable dim : nat.
Variable minc : fed -> fed.
Variable ord : list string -> list string.
Hypothesis ord_same : same_elements ord.
Hypothesis minc_ok : describes dim minc.
Variable s : ts.
Variable q : nat.
Hypothesis B : built dim s.
Hypothesis K : keyed dim s.
Hypothesis R : reads_ok s.
Hypothesis C : clocks_ok dim q s.
Hypothesis D : clocks_below dim s.
Variable fuel : nat.
Variable g : graph.
Hypothesis G : analysis_graph dim minc ord fuel s = Ok g.

Lemma described xs f : (forall i, In i (con_clocks (minc f)) -> i = 0 \/ In i xs) -> pdep dim (sys_clocks s) (fsem dim f) -> pdep dim xs (fsem dim f).
Proof.
  intros X P. destruct (minc_ok f) as [E _].
  - intros v w Hv Hw A. apply P; auto. intros i Hi. apply A, D, Hi.
  - apply (pdep_iff dim xs (fsem dim (minc f))); [intros v _; apply E|]. apply pdep_fed. intros z c Hz Hc.
    split; apply X, con_clocks_In; exists z, c; auto.
Qed.

(** Guards and invariants that can be reached depend on the used clocks only. *)
Lemma invariants_use l : edge_reach dim s l -> pdep dim (used_clocks g) (inv_at dim l).
Proof.
  intros El. destruct (graph_exact dim minc ord ord_same s fuel g B K G) as [N _].
  pose proof (locations_dep dim s B R l (edge_reach_in dim s B l El)) as P. unfold inv_at in *.
  destruct (lt_inv l) as [f|] eqn:Ei; [|apply pdep_ok]. apply described; [|exact P].
  intros i Hi. destruct (Nat.eq_dec i 0) as [->|Ne]; [left; reflexivity|right]. apply used_In. split; [exact Ne|]. right.
  exists (node_of minc l). split; [apply N; eauto|]. cbn [node_of n_deps]. rewrite Ei. apply nset_In. exact Hi.
Qed.
Lemma guards_use l a t : edge_reach dim s l -> offered dim s l a t -> pdep dim (used_clocks g) (fsem dim (t_guard t)).
Proof.
  intros El O. destruct (graph_exact dim minc ord ord_same s fuel g B K G) as [_ N].
  destruct O as (Ha & ts & Et & Ht). destruct (next_dep dim q s B R C l a ts t (edge_reach_in dim s B l El) Ha Et Ht) as [P _].
  apply described; [|exact P].
  intros i Hi. destruct (Nat.eq_dec i 0) as [->|Ne]; [left; reflexivity|right]. apply used_In. split; [exact Ne|]. left.
  exists (edge_of minc l a t). split; [apply N; exists l, a, t; split; [exact El|]; split; [split; eauto|reflexivity]|]. cbn [edge_of ae_deps]. apply nset_In. exact Hi.
Qed.
Lemma used_below i : In i (used_clocks g) -> 1 <= i < dim.
Proof.
  intros Hi. destruct (graph_exact dim minc ord ord_same s fuel g B K G) as [N E]. apply used_In in Hi. destruct Hi as [Ne Hi]. split; [lia|].
  destruct Hi as [(e & He & Hi)|(n & Hn & Hi)].
  - apply E in He. destruct He as (l & a & t & El & (Ha & ts & Et & Ht) & ->). cbn [edge_of ae_deps] in Hi. rewrite nset_In in Hi. apply con_clocks_In in Hi.
    destruct Hi as (z & c & Hz & Hc & Hi). destruct (next_dep dim q s B R C l a ts t (edge_reach_in dim s B l El) Ha Et Ht) as [P _].
    destruct (minc_ok (t_guard t)) as [_ M]; [intros v w Hv Hw A; apply P; auto; intros j Hj; apply A, D, Hj|].
    destruct (M z c Hz Hc) as (M1 & M2 & _). destruct Hi as [->| ->]; assumption.
  - apply N in Hn. destruct Hn as (l & El & ->). cbn [node_of n_deps] in Hi. pose proof (locations_dep dim s B R l (edge_reach_in dim s B l El)) as P. unfold inv_at in P.
    destruct (lt_inv l) as [f|]; [|contradiction]. rewrite nset_In in Hi. apply con_clocks_In in Hi. destruct Hi as (z & c & Hz & Hc & Hi).
    destruct (minc_ok f) as [_ M]; [intros v w Hv Hw A; apply P; auto; intros j Hj; apply A, D, Hj|].
    destruct (M z c Hz Hc) as (M1 & M2 & _). destruct Hi as [->| ->]; assumption.
Qed.
End Used.

(** ** Equivalent clocks *)
Lemma add_keys m k x key : In key (map fst (add_to m k x)) <-> key = k \/ In key (map fst m).
Proof.
  induction m as [|[k' l] m IH]; cbn [add_to map In fst]; [intuition|].
  destruct (Z.eqb_spec k' k) as [->|Ne]; cbn [map In fst]; [intuition|]. rewrite IH. intuition.
Qed.
Lemma add_nodup m k x : NoDup (map fst m) -> NoDup (map fst (add_to m k x)).
Proof.
  induction m as [|[k' l] m IH]; cbn [add_to map fst]; intros H; [repeat constructor; intros []|].
  inversion H as [|? ? H1 H2]; subst. destruct (Z.eqb_spec k' k) as [->|Ne]; cbn [map fst]; [exact H|]. constructor; [|auto].
  rewrite add_keys. intros [->|X]; [congruence|contradiction].
Qed.
Lemma add_perm m k x : Permutation (List.concat (map snd (add_to m k x))) (x :: List.concat (map snd m)).
Proof.
  induction m as [|[k' l] m IH]; cbn [add_to map snd List.concat app]; [reflexivity|].
  destruct (Z.eqb k' k); cbn [map snd List.concat].
  - rewrite <- app_assoc. cbn [app]. symmetry. apply Permutation_middle.
  - rewrite IH. symmetry. apply Permutation_middle.
Qed.
Lemma add_keyed (P : Z -> nat -> Prop) m k x : P k x -> (forall key l y, In (key, l) m -> In y l -> P key y) -> forall key l y, In (key, l) (add_to m k x) -> In y l -> P key y.
Proof.
  induction m as [|[k' l'] m IH]; cbn [add_to]; intros Px H key l y Hl Hy.
  - destruct Hl as [[= <- <-]|[]]. destruct Hy as [<-|[]]. exact Px.
  - destruct (Z.eqb_spec k' k) as [->|Ne].
    + destruct Hl as [[= <- <-]|Hl]; [|eapply H; [right; exact Hl|exact Hy]]. apply in_app_or in Hy. destruct Hy as [Hy|[<-|[]]]; [|exact Px]. eapply H; [left; reflexivity|exact Hy].
    + destruct Hl as [[= <- <-]|Hl]; [eapply H; [left; reflexivity|exact Hy]|]. eapply IH; eauto. intros key' l0 y' H1 H2. eapply H; [right; exact H1|exact H2].
Qed.
Lemma fold_add us k grp : forall m, let m' := fold_left (fun m x => add_to m (group_key us k x) x) grp m in
  (NoDup (map fst m) -> NoDup (map fst m')) /\ Permutation (List.concat (map snd m')) (grp ++ List.concat (map snd m)) /\
  (forall P : Z -> nat -> Prop, (forall x, In x grp -> P (group_key us k x) x) -> (forall key l y, In (key, l) m -> In y l -> P key y) ->
     forall key l y, In (key, l) m' -> In y l -> P key y).
Proof.
  induction grp as [|x grp IH]; intros m; cbn [fold_left]; [split; [auto|]; split; [reflexivity|intros P _ H; exact H]|].
  destruct (IH (add_to m (group_key us k x) x)) as (H1 & H2 & H3). split; [intros H; apply H1, add_nodup, H|]. split.
  - cbn [fold_left] in *. rewrite H2, add_perm. cbn [app]. symmetry. apply Permutation_middle.
  - intros P Hx Hm. apply H3; [intros y Hy; apply Hx; right; exact Hy|]. apply add_keyed; [apply Hx; left; reflexivity|exact Hm].
Qed.
Lemma split_facts us gs : forall k m, let m' := split_groups us k gs m in
  (NoDup (map fst m) -> NoDup (map fst m')) /\ Permutation (List.concat (map snd m')) (List.concat gs ++ List.concat (map snd m)) /\
  (forall P : Z -> nat -> Prop, (forall j grp x, nth_error gs j = Some grp -> In x grp -> P (group_key us (k + j) x) x) ->
     (forall key l y, In (key, l) m -> In y l -> P key y) -> forall key l y, In (key, l) m' -> In y l -> P key y).
Proof.
  induction gs as [|grp gs IH]; intros k m; cbn [split_groups]; [split; [auto|]; split; [reflexivity|intros P _ H; exact H]|].
  destruct (fold_add us k grp m) as (F1 & F2 & F3). destruct (IH (S k) (fold_left (fun m x => add_to m (group_key us k x) x) grp m)) as (H1 & H2 & H3).
  split; [intros H; apply H1, F1, H|]. split.
  - cbn [List.concat]. rewrite H2, F2. rewrite !app_assoc. apply Permutation_app_tail, Permutation_app_comm.
  - intros P Hg Hm. apply H3.
    + intros j grp' x Hj Hx. replace (S k + j) with (k + S j) by lia. apply (Hg (S j) grp' x Hj Hx).
    + apply F3; [|exact Hm]. intros x Hx. rewrite <- (Nat.add_0_r k). apply (Hg 0 grp x eq_refl Hx).
Qed.

Lemma local_range us x v : local_value us x = Some v -> (0 <= v < 4294967296)%Z.
Proof. unfold local_value. destruct (find _ _); cbn; [intros [= <-]|discriminate]. apply Z.mod_pos_bound. lia. Qed.
Lemma key_inj us k k' x y : (Z.of_nat k < u32_max)%Z -> (Z.of_nat k' < u32_max)%Z -> group_key us k x = group_key us k' y -> k = k' /\ local_value us x = local_value us y.
Proof.
  unfold group_key, u32_max. intros Hk Hk'. destruct (local_value us x) as [v|] eqn:Ex, (local_value us y) as [w|] eqn:Ey; intros E.
  - apply local_range in Ex. apply local_range in Ey. assert (X : k = k') by nia. subst k'. split; [reflexivity|]. f_equal. lia.
  - apply local_range in Ex. nia.
  - apply local_range in Ey. nia.
  - split; [lia|reflexivity].
Qed.

(** The groups are disjoint sets of used clocks with at least two elements that no edge so far tells apart. *)
Record grouped (used : list nat) (es : list aedge) (gs : list (list nat)) : Prop := {
  gr_nodup : NoDup (List.concat gs);
  gr_used : forall x, In x (List.concat gs) -> In x used;
  gr_size : forall grp, In grp gs -> 2 <= List.length grp;
  gr_same : forall grp x y e, In grp gs -> In x grp -> In y grp -> In e es -> local_value (ae_updates e) x = local_value (ae_updates e) y }.
Lemma groups_few used es gs : NoDup used -> grouped used es gs -> 2 * List.length gs <= List.length used.
Proof.
  intros N [N1 U Sz _]. assert (L : List.length (List.concat gs) <= List.length used) by (apply NoDup_incl_length; assumption).
  enough (2 * List.length gs <= List.length (List.concat gs)) by lia. clear - Sz. induction gs as [|grp gs IH]; cbn [List.length List.concat]; [lia|].
  rewrite app_length. specialize (IH (fun g H => Sz g (or_intror H))). specialize (Sz grp (or_introl eq_refl)). lia.
Qed.
Lemma concat_filter_in {A} p (gs : list (list A)) x : In x (List.concat (filter p gs)) -> In x (List.concat gs).
Proof. intros H. apply in_concat in H. destruct H as (l & Hl & Hx). apply filter_In in Hl. apply in_concat. exists l. tauto. Qed.
Lemma concat_filter_nodup {A} p (gs : list (list A)) : NoDup (List.concat gs) -> NoDup (List.concat (filter p gs)).
Proof.
  induction gs as [|grp gs IH]; cbn [filter List.concat]; intros H; [constructor|].
  assert (H' : NoDup (List.concat gs)) by (clear IH; induction grp; [exact H|inversion H; auto]).
  destruct (p grp); [|auto]. cbn [List.concat]. clear - H IH H'. induction grp as [|x grp IHg]; [apply IH; exact H'|]. cbn [app] in *. inversion H as [|? ? H1 H2]; subst.
  constructor; [|apply IHg; assumption]. intros X. apply H1. apply in_app_or in X. apply in_or_app. destruct X as [X|X]; [left; exact X|right; eapply concat_filter_in; eauto].
Qed.
Lemma concat_perm {A} (a b : list (list A)) : Permutation a b -> Permutation (List.concat a) (List.concat b).
Proof.
  induction 1; cbn [List.concat]; [reflexivity|apply Permutation_app_head; assumption| |etransitivity; eauto].
  rewrite !app_assoc. apply Permutation_app_tail, Permutation_app_comm.
Qed.
Lemma refine_grouped gord used es gs e : reorders gord -> NoDup used -> (Z.of_nat (List.length used) < u32_max)%Z ->
  grouped used es gs -> grouped used (es ++ [e]) (refine_groups gord gs e).
Proof.
  intros Go Nu Su Gs. pose proof (groups_few _ _ _ Nu Gs) as Few. destruct Gs as [N U Sz Sm].
  destruct (split_facts (ae_updates e) gs 0 []) as (H1 & H2 & H3). set (m := split_groups (ae_updates e) 0 gs []) in *.
  cbn [map List.concat] in H1, H2. rewrite app_nil_r in H2. specialize (H1 (NoDup_nil _)).
  unfold refine_groups. fold m. pose proof (Go (map snd m)) as Pm.
  assert (Orig : forall grp x, In grp (map snd m) -> In x grp -> exists key, In (key, grp) m).
  { intros grp x Hg _. apply in_map_iff in Hg. destruct Hg as ([key grp'] & <- & H). exists key. exact H. }
  assert (Keyed : forall key l y, In (key, l) m -> In y l -> exists j grp, nth_error gs j = Some grp /\ In y grp /\ key = group_key (ae_updates e) j y).
  { apply H3; [|intros ? ? ? []]. intros j grp x Hj Hx. exists j, grp. auto. }
  constructor.
  - apply concat_filter_nodup. eapply Permutation_NoDup; [symmetry; apply concat_perm; exact Pm|]. eapply Permutation_NoDup; [symmetry; exact H2|exact N].
  - intros x Hx. apply concat_filter_in in Hx. apply U. eapply Permutation_in; [exact H2|]. eapply Permutation_in; [apply concat_perm; exact Pm|exact Hx].
  - intros grp Hg. apply filter_In in Hg. destruct Hg as [_ Hg]. apply Nat.ltb_lt in Hg. lia.
  - intros grp x y e' Hg Hx Hy He. apply filter_In in Hg. destruct Hg as [Hg _]. apply (Permutation_in _ Pm) in Hg.
    destruct (Orig grp x Hg Hx) as (key & Hk). destruct (Keyed _ _ _ Hk Hx) as (j & gj & Nj & Hxj & Ej). destruct (Keyed _ _ _ Hk Hy) as (j' & gj' & Nj' & Hyj & Ej').
    assert (Lt : forall j gj, nth_error gs j = Some gj -> (Z.of_nat j < u32_max)%Z).
    { intros i gi Hi. assert (i < List.length gs) by (apply nth_error_Some; congruence). lia. }
    destruct (key_inj (ae_updates e) j j' x y) as [<- L]; [eauto|eauto|congruence|]. rewrite Nj in Nj'. injection Nj' as <-.
    apply in_app_or in He. destruct He as [He|[<-|[]]]; [|exact L]. eapply Sm; eauto. eapply nth_error_In. exact Nj.
Qed.
Lemma groups_grouped gord g : reorders gord -> (Z.of_nat (List.length (used_clocks g)) < u32_max)%Z -> grouped (used_clocks g) (g_edges g) (equivalent_groups gord g).
Proof.
  intros Go Su. unfold equivalent_groups. destruct (Nat.ltb_spec (List.length (used_clocks g)) 2) as [L|L]; [constructor; cbn; try tauto; constructor|].
  cbn [orb]. assert (Gen : forall es done gs, grouped (used_clocks g) done gs -> grouped (used_clocks g) (done ++ es) (fold_left (refine_groups gord) es gs)).
  { induction es as [|e es IH]; intros done gs H; cbn [fold_left]; [rewrite app_nil_r; exact H|].
    replace (done ++ e :: es) with ((done ++ [e]) ++ es) by (rewrite <- app_assoc; reflexivity). apply IH. apply refine_grouped; auto using used_NoDup. }
  destruct (g_edges g) as [|e es] eqn:Ee; [constructor; cbn; try tauto; constructor|]. rewrite <- Ee. apply (Gen (g_edges g) [] [used_clocks g]).
  constructor; cbn [List.concat In]; [rewrite app_nil_r; apply used_NoDup|intros x; rewrite app_nil_r; auto|intros grp [<-|[]]; lia|intros ? ? ? ? _ _ _ []].
Qed.

(** The last assignment decides. *)
Lemma run_last us x v : run_updates us v x = match find (fun u => Nat.eqb (u_clock u) x) (rev us) with Some u => inject_Z (u_value u) | None => v x end.
Proof.
  revert v. induction us as [|u us IH] using rev_ind; intros v; [reflexivity|].
  unfold run_updates. rewrite fold_left_app. cbn [fold_left]. rewrite rev_app_distr. cbn [rev app find]. unfold vset at 1. rewrite (Nat.eqb_sym x (u_clock u)).
  destruct (Nat.eqb (u_clock u) x); [reflexivity|]. apply IH.
Qed.
Lemma same_local us x y v : (forall u, In u us -> (0 <= u_value u < 4294967296)%Z) -> local_value us x = local_value us y -> (v x == v y)%Q ->
  (run_updates us v x == run_updates us v y)%Q.
Proof.
  intros S L E. rewrite !run_last. unfold local_value in L.
  assert (F : forall i u, find (fun u => Nat.eqb (u_clock u) i) (rev us) = Some u -> (0 <= u_value u < 4294967296)%Z).
  { intros i u H. apply find_some in H. apply S. apply in_rev. apply H. }
  destruct (find (fun u => Nat.eqb (u_clock u) x) (rev us)) as [u|] eqn:Ex, (find (fun u => Nat.eqb (u_clock u) y) (rev us)) as [w|] eqn:Ey; cbn in L; try discriminate; [|exact E].
  injection L as L. apply F in Ex. apply F in Ey. rewrite !Z.mod_small in L by assumption. rewrite L. reflexivity.
Qed.

Lemma lowest_in l : l <> [] -> In (lowest l) l.
Proof.
  destruct l as [|x l]; [congruence|]. intros _. cbn [lowest]. revert x. induction l as [|y l IH]; intros x; cbn [fold_left]; [left; reflexivity|].
  destruct (IH (Nat.min x y)) as [H|H]; [|right; right; exact H]. rewrite <- H. destruct (Nat.min_spec x y) as [[_ ->]|[_ ->]]; [left|right; left]; reflexivity.
Qed.
Lemma lowest_le l x : In x l -> lowest l <= x.
Proof.
  destruct l as [|y l]; [intros []|]. cbn [lowest In].
  assert (X : forall l a, fold_left Nat.min l a <= a /\ forall b, In b l -> fold_left Nat.min l a <= b).
  { clear. induction l as [|c l IH]; intros a; cbn [fold_left]; [split; [lia|intros b []]|]. destruct (IH (Nat.min a c)) as [H1 H2]. split; [lia|]. intros b [<-|Hb]; [lia|auto]. }
  destruct (X l y) as [H1 H2]. intros [<-|H]; auto.
Qed.

Lemma next_small dim s : small_values s -> forall loc a ts, next_transitions dim s loc a = Ok ts ->
  forall t u, In t ts -> In u (t_updates t) -> (u_value u < 4294967296)%Z.
Proof.
  induction s as [c|l IHl r IHr ins outs|l IHl r IHr ins outs lo ro co|T IHT S IHS ins outs n q']; intros V loc a ts E t u Ht Hu.
  - cbn [next_transitions] in E. destruct (negb _); [discriminate|].
    destruct (is_universal loc); [injection E as <-; destruct Ht as [<-|[]]; destruct Hu|].
    destruct (is_inconsistent loc && sin a (cc_inputs c)); [injection E as <-; destruct Ht as [<-|[]]; destruct Hu|].
    unfold assoc_loc in E. destruct (find _ (cc_edges c)) as [[i es]|] eqn:F; [|discriminate]. cbn in E. injection E as <-.
    apply find_some_in in F. apply in_map_iff in Ht. destruct Ht as ([b t'] & Et & Hp). cbn [snd] in Et. subst t'.
    apply filter_In in Hp. destruct Hp as [Hp _]. eapply V; eauto.
  - destruct V as [Vl Vr]. cbn [next_transitions] in E. destruct (negb _); [discriminate|]. inv_bind E. inv_bind E. inv_bind E. inv_bind E.
    destruct (combinations_targets dim _ _ CConj ts (or_introl eq_refl) E t Ht) as (x & y & Hx & Hy & _ & Eu).
    rewrite Eu in Hu. apply in_app_or in Hu. destruct Hu; [eapply (IHl Vl)|eapply (IHr Vr)]; eauto.
  - destruct V as [Vl Vr]. cbn [next_transitions] in E. destruct (negb _); [discriminate|]. inv_bind E. inv_bind E.
    destruct (sin a co); [|destruct (sin a lo); [|destruct (sin a ro); [|discriminate]]].
    + inv_bind E. inv_bind E.
      destruct (combinations_targets dim _ _ CComp ts (or_intror eq_refl) E t Ht) as (x & y & Hx & Hy & _ & Eu).
      rewrite Eu in Hu. apply in_app_or in Hu. destruct Hu; [eapply (IHl Vl)|eapply (IHr Vr)]; eauto.
    + inv_bind E.
      destruct (combinations_targets dim _ _ CComp ts (or_intror eq_refl) E t Ht) as (x & y & Hx & [<-|[]] & _ & Eu).
      rewrite Eu in Hu. apply in_app_or in Hu. destruct Hu as [Hu|[]]. eapply (IHl Vl); eauto.
    + inv_bind E.
      destruct (combinations_targets dim _ _ CComp ts (or_intror eq_refl) E t Ht) as (x & y & [<-|[]] & Hy & _ & Eu).
      rewrite Eu in Hu. apply in_app_or in Hu. destruct Hu as [[]|Hu]. eapply (IHr Vr); eauto.
  - destruct V as [Vt Vs]. cbn [next_transitions] in E. destruct (negb _); [discriminate|].
    destruct (is_inconsistent loc); [injection E as <-; destruct (sin a ins); [destruct Ht as [<-|[]]; destruct Hu|destruct Ht]|].
    destruct (is_universal loc); [injection E as <-; destruct Ht as [<-|[]]; destruct Hu|].
    inv_bind E. inv_bind E. inv_bind E. inv_bind E. injection E as <-.
    assert (FT : forall x u, In x a2 -> In u (t_updates x) -> (u_value u < 4294967296)%Z).
    { destruct (has_action T a); [eapply (IHT Vt); eauto|injection H1 as <-; intros ? ? []]. }
    assert (FS : forall x u, In x a3 -> In u (t_updates x) -> (u_value u < 4294967296)%Z).
    { destruct (has_action S a); [eapply (IHS Vs); eauto|injection H2 as <-; intros ? ? []]. }
    unfold quotient_rules in Ht. apply filter_In in Ht. destruct Ht as [Ht _].
    repeat (apply in_app_or in Ht; destruct Ht as [Ht|Ht]).
    + destruct (has_action S a && has_action T a); [|destruct Ht]. apply in_map_iff in Ht.
      destruct Ht as ([x y] & <- & Hp). apply in_prod_iff in Hp. destruct Hp as [Hx Hy]. cbn [fst snd t_updates] in Hu. apply in_app_or in Hu. destruct Hu; [eapply FT|eapply FS]; eauto.
    + destruct (has_action S a && negb (has_action T a)); [|destruct Ht]. apply in_map_iff in Ht. destruct Ht as (y & <- & Hy). eapply FS; eauto.
    + destruct (sin a (ts_outputs S)); destruct Ht as [<-|[]]; destruct Hu.
    + destruct (sin a (ts_outputs S) && sin a (ts_outputs T)); [|destruct Ht]. apply in_map_iff in Ht. destruct Ht as (y & <- & Hy). destruct Hu as [<-|[]]. reflexivity.
    + destruct (String.eqb a n); [|destruct Ht]. destruct Ht as [<-|[]]. destruct Hu as [<-|[]]. reflexivity.
    + destruct (has_action T a && negb (has_action S a)); [|destruct Ht]. apply in_map_iff in Ht. destruct Ht as (y & <- & Hy). eapply FT; eauto.
Qed.

Section Equal.
Variable dim : nat.
Variable minc : fed -> fed.
Variable ord : list string -> list string.
Variable gord : list (list nat) -> list (list nat).
Hypothesis ord_same : same_elements ord.
Hypothesis gord_ok : reorders gord.
Variable s : ts.
Variable q : nat.
Hypothesis B : built dim s.
Hypothesis K : keyed dim s.
Hypothesis C : clocks_ok dim q s.
Hypothesis Sv : small_values s.
Variable fuel : nat.
Variable g : graph.
Hypothesis G : analysis_graph dim minc ord fuel s = Ok g.
Hypothesis Few : (Z.of_nat (List.length (used_clocks g)) < u32_max)%Z.

Lemma run_edge_reach l0 v0 l v : initial_location dim s = Some l0 -> run dim s l0 v0 l v -> edge_reach dim s l.
Proof. intros Hi Ru. induction Ru; auto; [constructor; exact Hi|eapply er_step; eauto]. Qed.

Lemma grouped_equal grp x y l v : In grp (equivalent_groups gord g) -> In x grp -> In y grp -> reachable dim s l v -> (v x == v y)%Q.
Proof.
  intros Hg Hx Hy (l0 & Hi & _ & Ru). destruct (groups_grouped gord g gord_ok Few) as [_ U _ Sm].
  assert (Nz : forall z, In z grp -> z <> 0). { intros z Hz. assert (X : In z (used_clocks g)) by (apply U, in_concat; eauto). apply used_In in X. apply X. }
  induction Ru as [|l' v' d Ru IH Hd Hinv|l' v' a t Ru IH O A]; [reflexivity| |].
  - unfold vdelay. destruct (Nat.eqb_spec x 0) as [E|_]; [destruct (Nz x Hx E)|]. destruct (Nat.eqb_spec y 0) as [E|_]; [destruct (Nz y Hy E)|]. rewrite IH. reflexivity.
  - apply same_local; [| |exact IH].
    + intros u Hu. destruct O as (Ha & ts & Et & Ht). destruct (next_fine dim q s C l' a ts Et t Ht) as [[Uo _] _]. destruct (Uo u Hu) as (_ & _ & U0).
      split; [exact U0|]. eapply next_small; eauto.
    + destruct (graph_exact dim minc ord ord_same s fuel g B K G) as [_ E].
      apply (Sm grp x y (edge_of minc l' a t) Hg Hx Hy). apply E. exists l', a, t. split; [eapply run_edge_reach; eauto|auto].
Qed.
End Equal.
