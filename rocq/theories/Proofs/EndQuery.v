(** The analysis of clocks, saving, compilation and whole queries end. *)
From Coq Require Import List String ZArith QArith Bool Arith Lia.
From Verif Require Import Fed.Zone Fed.ZoneFacts Model.Base Model.Expr Model.Guard Model.Loc Model.Component Model.TS Model.ParseQuery Model.Files Model.PairList Model.Search Model.Refine
  Model.Recipe Model.Reduce Model.Save Model.Prune Model.Query Model.Exec Spec.StepSpec Spec.SystemSpec Spec.EndSpec
  Proofs.GuardFacts Proofs.SystemFacts Proofs.QuotientFacts Proofs.WfFacts Proofs.DetFacts Proofs.RecipeFacts Proofs.StateFacts Proofs.EndFacts Proofs.EndPairs Proofs.EndPlain Proofs.PruneFacts Proofs.EnteredFacts.
Import ListNotations.
Local Open Scope nat_scope.
Local Open Scope list_scope.

(** ** Composing *)
Definition ends {A} (F : nat -> res A) : Prop := exists n, ended_at F n.
Lemma ends_bind {A B} (F : nat -> res A) (G : nat -> A -> res B) : ends F -> (forall a n, F n = Ok a -> ends (fun m => G m a)) -> ends (fun m => do a <- F m; G m a).
Proof. intros [n H] K. apply (ended_bind F G n H). intros a E. exact (K a n E). Qed.
Lemma ends_nf {A} (r : res A) : nf r -> ends (fun _ => r).
Proof. apply ended_const. Qed.
Lemma ends_same {A} (F G : nat -> res A) : (forall m, F m = G m) -> ends F -> ends G.
Proof. intros S [n [H M]]. exists n. split; [rewrite <- S; exact H|]. intros m L. rewrite <- !S. apply M, L. Qed.
Lemma ends_pair {A B C} (F : nat -> res (A * B)) (G : nat -> A -> B -> res C) : ends F -> (forall a b n, F n = Ok (a, b) -> ends (fun m => G m a b)) ->
  ends (fun m => do (a, b) <- F m; G m a b).
Proof. intros H K. apply (ends_bind F (fun m p => let (a, b) := p in G m a b) H). intros [a b] n E. exact (K a b n E). Qed.
Lemma le_foldM {A S} (f g : S -> A -> res S) : (forall s a, le_res (f s a) (g s a)) -> forall l s, le_res (foldM f l s) (foldM g l s).
Proof. intros H. induction l as [|a l IH]; intros s; [apply le_refl_res|]. cbn [foldM]. apply le_bind; [apply H|intros; apply IH]. Qed.
Lemma safe_foldM {A S} (I : S -> Prop) (f : S -> A -> res S) l : (forall s a, In a l -> I s -> safe I (f s a)) -> forall s, I s -> safe I (foldM f l s).
Proof.
  induction l as [|a l IH]; intros H s Hs; [exact Hs|]. cbn [foldM]. eapply safe_bind; [apply H; [left; reflexivity|exact Hs]|].
  intros s' X. apply IH; [|exact X]. intros; apply H; [right|]; assumption.
Qed.

Lemma next_has dim s l a ts : next_transitions dim s l a = Ok ts -> has_action s a = true.
Proof. destruct s; cbn [next_transitions]; destruct (has_action _ a); cbn [negb]; auto; discriminate. Qed.
Lemma targets_in dim s l a ts : built dim s -> In l (all_locations dim s) -> next_transitions dim s l a = Ok ts -> forall t, In t ts -> In (t_target t) (all_locations dim s).
Proof.
  intros B L E. pose proof (next_has _ _ _ _ _ E) as H. apply has_action_spec in H. destruct (next_wf dim s B l a L H) as (ts' & E' & Ht). rewrite E in E'. injection E' as <-. exact Ht.
Qed.

(** ** Collecting the locations to save *)
Section Collect.
Variable dim : nat.
Variable ord : list string -> list string.
Variable s : ts.
Hypothesis B : built dim s.
Definition unseen (acc : list loctree) : nat := remain loctree (all_locations dim s) (fun u => existsb (lt_eqb u) acc).
Lemma unseen_incl p q : incl p q -> unseen q <= unseen p.
Proof.
  intros I. apply remain_le. intros u _ H. apply existsb_exists in H. destruct H as (x & Hx & E). apply existsb_exists. exists x. auto.
Qed.
Lemma unseen_new l acc : In l (all_locations dim s) -> existsb (lt_eqb l) acc = false -> unseen (acc ++ [l]) < unseen acc.
Proof.
  intros L N. apply (remain_lt _ _ _ _ l); auto.
  - intros u _ H. rewrite existsb_app, H. reflexivity.
  - rewrite existsb_app. cbn [existsb]. rewrite lt_eqb_refl, orb_true_r. reflexivity.
Qed.
Lemma collect_finished : forall fuel l acc, unseen acc < fuel -> In l (all_locations dim s) -> safe (incl acc) (collect_from dim ord fuel s l acc).
Proof.
  induction fuel as [|f IH]; intros l acc U L; [lia|]. cbn [collect_from]. apply safe_foldM; [|apply incl_refl]. intros acc1 a _ I1.
  apply (safe_bind (fun ts => forall t, In t ts -> In (t_target t) (all_locations dim s))).
  - apply safe_of; [apply nf_next|]. intros ts E. exact (targets_in dim s l a ts B L E).
  - intros ts Ht. apply safe_foldM; [|exact I1]. intros acc2 t It I2. unfold visit_target. destruct (existsb _ _) eqn:N; [exact I2|].
    apply (safe_mono (incl (acc2 ++ [t_target t]))).
    + apply IH; [|apply Ht, It]. pose proof (unseen_new _ _ (Ht t It) N). pose proof (unseen_incl _ _ I2). lia.
    + intros acc3 I3. eapply incl_tran; [exact I2|]. eapply incl_tran; [|exact I3]. apply incl_appl, incl_refl.
Qed.
Lemma collect_le : forall f g, f <= g -> forall l acc, le_res (collect_from dim ord f s l acc) (collect_from dim ord g s l acc).
Proof.
  induction f as [|f IH]; intros g L l acc; [left; reflexivity|]. destruct g as [|g]; [lia|]. cbn [collect_from]. apply le_foldM. intros acc1 a.
  apply le_bind; [apply le_refl_res|]. intros ts. apply le_foldM. intros acc2 t. unfold visit_target. destruct (existsb _ _); [apply le_refl_res|]. apply IH. lia.
Qed.
Lemma collect_ends l : In l (all_locations dim s) -> ends (fun m => collect_from dim ord m s l [l]).
Proof.
  intros L. exists (S (unseen [l])). apply ended; [intros; apply collect_le; assumption|]. eapply safe_ends. apply collect_finished; [lia|exact L].
Qed.
Lemma saving_ends minc cord name : ends (fun m => get_component dim minc ord cord m s name).
Proof.
  unfold get_component, combine_components. apply ends_bind.
  - apply ends_bind.
    + cbn [locations_to_save]. destruct (initial_location dim s) as [l|] eqn:E; [apply collect_ends, (initial_wf _ _ B), E|apply ends_nf, nf_ok].
    + intros ls _ _. apply ends_nf. nf_all.
  - intros c _ _. apply ends_nf, nf_ok.
Qed.
End Collect.

(** ** The analysis of clocks *)
Section Graph.
Variable dim : nat.
Variable minc : fed -> fed.
Variable ord : list string -> list string.
Variable s : ts.
Hypothesis B : built dim s.
Definition known (g : graph) (l : loctree) : bool := has_node g (unique_string (lt_id l)).
Definition new_nodes (g : graph) : nat := remain loctree (all_locations dim s) (known g).
(** How many known locations are waiting before the first that is not. *)
Fixpoint before (g : graph) (work : list loctree) : nat :=
  match work with [] => 0 | l :: w => if known g l then S (before g w) else 0 end.
Lemma before_app g w xs : (forall l, In l xs -> known g l = false) -> before g (w ++ xs) = before g w.
Proof.
  intros H. induction w as [|l w IH]; cbn [before app].
  - destruct xs as [|x xs]; [reflexivity|]. cbn [before]. rewrite (H x (or_introl eq_refl)). reflexivity.
  - rewrite IH. reflexivity.
Qed.
Lemma before_same g g' w : (forall l, known g l = known g' l) -> before g w = before g' w.
Proof. intros H. induction w as [|l w IH]; cbn [before]; [reflexivity|]. rewrite H, IH. reflexivity. Qed.
Lemma known_insert g n l : known (insert_node g n) l = String.eqb (unique_string (lt_id l)) (n_id n) || known g l.
Proof.
  unfold known, has_node, insert_node. cbn [g_nodes existsb]. destruct (String.eqb_spec (unique_string (lt_id l)) (n_id n)) as [E|E]; [reflexivity|]. cbn [orb].
  induction (g_nodes g) as [|m ms IH]; [reflexivity|]. cbn [filter existsb]. destruct (String.eqb_spec (n_id n) (n_id m)) as [E'|E']; cbn [negb existsb]; rewrite IH; [|reflexivity].
  destruct (String.eqb_spec (unique_string (lt_id l)) (n_id m)) as [E2|E2]; [congruence|reflexivity].
Qed.
(** What a step leaves: the same nodes and, after what was waiting, only new locations. *)
Definition goes_on (g : graph) (w : list loctree) (st : graph * list loctree) : Prop :=
  (forall l, known (fst st) l = known g l) /\ exists xs, snd st = w ++ xs /\ forall l, In l xs -> In l (all_locations dim s) /\ known g l = false.
Lemma visit_goes_on g w l : In l (all_locations dim s) -> safe (goes_on g w) (foldM (visit_action dim minc s l) (ord (ts_actions s)) (g, w)).
Proof.
  intros L. apply safe_foldM.
  - intros st a _ I. unfold visit_action. apply (safe_bind (fun ts => forall t, In t ts -> In (t_target t) (all_locations dim s))).
    + apply safe_of; [apply nf_available|]. intros ts E. unfold next_if_available in E. destruct (has_action s a); [exact (targets_in dim s l a ts B L E)|]. injection E as <-. intros t [].
    + intros ts. cbn [safe]. revert st I. induction ts as [|t ts IH]; intros st I Ht; [exact I|]. cbn [fold_left]. apply IH; [|intros; apply Ht; right; assumption].
      destruct st as [g1 w1]. destruct I as (K & xs & E & Hx). cbn [fst snd] in *. unfold visit_transition. cbn [fst snd]. split; [exact K|]. cbn [snd].
      change (has_node (push_edge g1 (edge_of minc l a t)) (unique_string (lt_id (t_target t)))) with (known g1 (t_target t)). rewrite K.
      destruct (known g (t_target t)) eqn:N; [exists xs; auto|]. exists (xs ++ [t_target t]). split; [rewrite E, app_assoc; reflexivity|].
      intros x Hi. apply in_app_or in Hi. destruct Hi as [Hi|[<-|[]]]; [apply Hx, Hi|]. split; [apply Ht; left; reflexivity|exact N].
  - split; [reflexivity|]. exists []. rewrite app_nil_r. split; [reflexivity|]. intros x [].
Qed.
Lemma graph_finished : forall c p g w, new_nodes g <= c -> before g w <= p -> (forall l, In l w -> In l (all_locations dim s)) ->
  exists n, find_edges_and_nodes dim minc ord n s w g <> NoFuel.
Proof.
  induction c as [c IHc] using lt_wf_ind. induction p as [p IHp] using lt_wf_ind. intros g w C P W.
  destruct w as [|l w]; [exists 1; discriminate|]. assert (L : In l (all_locations dim s)) by (apply W; left; reflexivity).
  pose proof (visit_goes_on (insert_node g (node_of minc l)) w l L) as V.
  destruct (foldM (visit_action dim minc s l) (ord (ts_actions s)) (insert_node g (node_of minc l), w)) as [[g' w']| | |] eqn:E; [|exists 1; cbn [find_edges_and_nodes]; rewrite E; discriminate|exists 1; cbn [find_edges_and_nodes]; rewrite E; discriminate|destruct V].
  destruct V as (K & xs & Ew & Hx). cbn [fst snd] in *.
  assert (W' : forall x, In x w' -> In x (all_locations dim s)).
  { intros x Hi. rewrite Ew in Hi. apply in_app_or in Hi. destruct Hi as [Hi|Hi]; [apply W; right; exact Hi|apply Hx, Hi]. }
  assert (Bf : before g' w' = before g' w).
  { rewrite Ew. apply before_app. intros x Hi. rewrite K. apply Hx, Hi. }
  assert (Up : forall x, known g x = true -> known g' x = true).
  { intros x Hk. rewrite K, known_insert, Hk, orb_true_r. reflexivity. }
  assert (N : exists n, find_edges_and_nodes dim minc ord n s w' g' <> NoFuel).
  { destruct (known g l) eqn:Kl.
    - assert (Same : forall x, known g' x = known g x).
      { intros x. rewrite K, known_insert. cbn [node_of n_id]. destruct (String.eqb_spec (unique_string (lt_id x)) (unique_string (lt_id l))) as [Ei|Ei]; [|reflexivity].
        unfold known in *. rewrite Ei, Kl. reflexivity. }
      assert (Q : before g' w' < p). { rewrite Bf, (before_same _ _ w Same). cbn [before] in P. rewrite Kl in P. lia. }
      apply (IHp _ Q g' w'); [|apply le_n|exact W']. unfold new_nodes in *. eapply Nat.le_trans; [|exact C]. apply remain_le. intros; apply Up; assumption.
    - assert (Q : new_nodes g' < c).
      { eapply Nat.lt_le_trans; [|exact C]. apply (remain_lt _ _ _ _ l); auto. rewrite K, known_insert. cbn [node_of n_id]. rewrite String.eqb_refl. reflexivity. }
      apply (IHc _ Q (before g' w') g' w'); [apply le_n|apply le_n|exact W']. }
  destruct N as [n N]. exists (S n). cbn [find_edges_and_nodes]. rewrite E. exact N.
Qed.
Lemma graph_le : forall f g, f <= g -> forall w gr, le_res (find_edges_and_nodes dim minc ord f s w gr) (find_edges_and_nodes dim minc ord g s w gr).
Proof.
  induction f as [|f IH]; intros g L w gr; [left; reflexivity|]. destruct g as [|g]; [lia|]. cbn [find_edges_and_nodes]. destruct w as [|l w]; [apply le_refl_res|].
  apply le_bind; [apply le_refl_res|]. intros [g' w']. apply IH. lia.
Qed.
Lemma analysis_ends : ends (fun m => analysis_graph dim minc ord m s).
Proof.
  unfold analysis_graph. apply ends_bind; [apply ends_nf, nf_unwrap|]. intros l _ E. unfold unwrap in E. destruct (initial_location dim s) as [l'|] eqn:I; [|discriminate]. injection E as ->.
  destruct (graph_finished _ _ (mkGraph [] []) [l] (le_n _) (le_n _)) as [n N].
  - intros x [<-|[]]. apply (initial_wf _ _ B), I.
  - exists n. apply ended; [intros; apply graph_le; assumption|exact N].
Qed.
Lemma redundant_ends cord gord : ends (fun m => find_redundant_clocks dim minc ord cord gord m s).
Proof. unfold find_redundant_clocks. apply ends_bind; [apply analysis_ends|]. intros; apply ends_nf, nf_ok. Qed.
End Graph.

(** ** Compiling and reducing *)
Section Compiling.
Variable L P : nat -> nat -> ts -> res bool.
Variable R : nat -> nat -> ts -> res (list instr).
Hypothesis HL : forall d s, 0 < d -> built d s -> ends (fun m => L m d s).
Hypothesis HP : forall d s, 0 < d -> built d s -> ends (fun m => P m d s).
Hypothesis HR : forall d s, 0 < d -> built d s -> ends (fun m => R m d s).

Lemma compile_at_ends d r : 0 < d -> forall k, ends (fun m => compile_at (L m) (P m) d r k).
Proof.
  intros Hd. induction r as [c|l IHl r IHr|l IHl r IHr|l IHl r IHr q]; intros k; cbn [compile_at].
  - apply ends_nf. nf_all.
  - apply ends_pair; [apply IHl|]. intros l' k1 n1 E1. apply ends_pair; [apply IHr|]. intros r' k2 n2 E2. apply ends_nf. nf_all.
  - apply ends_pair; [apply IHl|]. intros l' k1 n1 E1. apply ends_pair; [apply IHr|]. intros r' k2 n2 E2. apply ends_bind; [|intros; apply ends_nf, nf_ok].
    apply compile_built in E1, E2. unfold conjunction_ts. apply ends_bind; [apply ends_nf, nf_conjunction|]. intros s _ Es. apply ends_bind.
    + apply HL; [exact Hd|]. exact (b_conj _ l' r' s E1 E2 Es).
    + intros b _ _. apply ends_nf. nf_all.
  - apply ends_pair; [apply IHl|]. intros l' k1 n1 E1. apply ends_pair; [apply IHr|]. intros r' k2 n2 E2. apply ends_bind; [|intros; apply ends_nf, nf_ok].
    apply compile_built in E1, E2. unfold quotient_ts. destruct (negb _); [apply ends_nf, nf_err|]. apply ends_bind; [apply HP; assumption|]. intros [|] _ _; [|apply ends_nf, nf_err].
    apply ends_bind; [apply HP; assumption|]. intros [|] _ _; apply ends_nf; nf_all.
Qed.
Lemma compile_ends d r : ends (fun m => compile (L m) (P m) d r).
Proof. unfold compile. apply ends_pair; [apply compile_at_ends; lia|]. intros; apply ends_nf, nf_ok. Qed.
Lemma compile_is_built l p d r s : compile l p d r = Ok s -> built (d + 1) s.
Proof. intros E. apply compile_at_of in E. destruct E as [k E]. eapply compile_built; exact E. Qed.
Lemma compile_two_ends d l r : ends (fun m => compile_two (L m) (P m) d l r).
Proof.
  unfold compile_two. apply ends_pair; [apply compile_at_ends; lia|]. intros s k n E. apply ends_pair; [apply compile_at_ends; lia|]. intros; apply ends_nf, nf_ok.
Qed.
Lemma compile_two_built l p d a b s t : compile_two l p d a b = Ok (s, t) -> built (d + 1) s /\ built (d + 1) t.
Proof.
  unfold compile_two. intros E. inv_bind E. destruct a0 as [x k]. inv_bind E. destruct a0 as [y k']. injection E as <- <-.
  split; eapply compile_built; eassumption.
Qed.
Lemma reduce_single_ends r d q : ends (fun m => clock_reduce_single (L m) (P m) (R m) r d q).
Proof.
  unfold clock_reduce_single. apply ends_bind; [apply compile_ends|]. intros s n E. apply compile_is_built in E.
  apply ends_bind; [apply HR; [lia|exact E]|]. intros xs _ _. apply ends_nf. nf_all.
Qed.
Lemma reduce_two_ends l r d q : ends (fun m => clock_reduce_two (L m) (P m) (R m) l r d q).
Proof.
  unfold clock_reduce_two. apply ends_bind; [apply compile_ends|]. intros s n E. apply compile_is_built in E.
  apply ends_bind; [apply HR; [lia|exact E]|]. intros xs _ _.
  apply ends_bind; [apply compile_ends|]. intros t n' E'. apply compile_is_built in E'.
  apply ends_bind; [apply HR; [lia|exact E']|]. intros ys _ _. apply ends_nf. nf_all.
Qed.
Lemma reduce_ends l r d q : ends (fun m => clock_reduce (L m) (P m) (R m) l r d q).
Proof.
  unfold clock_reduce. destruct (Nat.eqb d 0); [apply ends_nf, nf_ok|]. destruct r as [r|].
  - apply ends_pair; [apply reduce_two_ends|]. intros; apply ends_nf, nf_ok.
  - apply ends_pair; [apply reduce_single_ends|]. intros; apply ends_nf, nf_ok.
Qed.
Lemma reach_query_ends load e from to : ends (fun m => reach_query (L m) (P m) load e from to).
Proof.
  unfold reach_query. apply ends_pair; [apply ends_nf, nf_recipe|]. intros r st _ _. apply ends_bind; [apply compile_ends|]. intros s n E.
  apply ends_nf. nf_all.
Qed.
End Compiling.

(** The start of a reachability query is a location of the system. *)
Lemma reach_query_start l p load e from to d s start target : reach_query l p load e from to = Ok (d, s, start, target) ->
  0 < d /\ built d s /\ In (s_loc start) (all_locations d s).
Proof.
  unfold reach_query. intros E. apply bind_ok in E. destruct E as ([r [dim q]] & _ & E). cbn [fst] in E. apply bind_ok in E. destruct E as (s' & Ec & E).
  apply bind_ok in E. destruct E as (st & Es & E). apply bind_ok in E. destruct E as (tg & _ & E). injection E as <- <- <- _.
  pose proof (compile_is_built _ _ _ _ _ Ec) as Bs. split; [lia|]. split; [exact Bs|]. destruct from as [f|].
  - apply bind_ok in Es. destruct Es as (x & Ex & Es). destruct (is_partial (lt_id (s_loc x))) eqn:Pa; [discriminate|]. injection Es as <-.
    apply get_state_inv in Ex. destruct Ex as (ls & b & t & z & A & El & Al & Et & _ & _ & ->).
    cbn [s_loc] in *. apply compile_at_of in Ec. destruct Ec as [k C]. destruct (tree_pattern l p (dim + 1) (dedup ls) (unambiguous _ Al) r _ _ _ _ C Et) as (_ & In' & _). exact (In' Pa).
  - unfold ok_or in Es. destruct (initial_state (dim + 1) s') as [x|] eqn:I; [|discriminate]. injection Es as ->. eapply state_at; eassumption.
Qed.

(** ** Pruning *)
(** The pruned component does not depend on the fuel when no location is inconsistent. *)
Lemma pruned_plain dim minc predt c fuel : (forall l, In l (c_locs c) -> l_type l <> Inconsistent) -> pruned dim minc predt c (S fuel) = pruned dim minc predt c 1.
Proof.
  intros N. unfold pruned. destruct (inconsistent_ids dim c) as [ids| | |] eqn:E; try reflexivity. cbn [bind].
  assert (Z : ids = []).
  { destruct ids as [|n ids]; [reflexivity|]. destruct (inconsistent_ids_in _ _ _ _ E (or_introl eq_refl)) as (l & Hl & _ & T). destruct (N l Hl T). }
  rewrite Z. reflexivity.
Qed.
Lemma nf_pruned dim minc predt c : (forall l, In l (c_locs c) -> l_type l <> Inconsistent) -> nf (pruned dim minc predt c 1).
Proof.
  intros N. unfold pruned. destruct (inconsistent_ids dim c) as [ids| | |] eqn:E; cbn [bind]; try (unfold nf; discriminate).
  - assert (Z : ids = []).
    { destruct ids as [|n ids]; [reflexivity|]. destruct (inconsistent_ids_in _ _ _ _ E (or_introl eq_refl)) as (l & Hl & _ & T). destruct (N l Hl T). }
    rewrite Z. cbn [rev fold_left prune_loop p_todo bind]. apply nf_bind; [|intros; apply nf_ok]. unfold shrink_invariant. cbn [assoc p_parts]. nf_all.
  - exfalso. revert E. change (nf (inconsistent_ids dim c)). unfold inconsistent_ids. nf_all.
Qed.
Lemma prune_system_ends tdim dim minc predt ext sord ord cord s : ends (fun m => precheck tdim ext sord m s) ->
  ends (fun m => prune_system tdim dim minc predt ext sord ord cord m s).
Proof.
  intros P. unfold prune_system. apply ends_bind; [exact P|]. intros [|] _ _; cbn [negb]; [|apply ends_nf; unfold nf; discriminate].
  apply ends_bind.
  - unfold combine_components. cbn [locations_to_save bind]. apply ends_nf. nf_all.
  - intros c n E. pose proof (not_inconsistent _ _ _ _ _ _ _ _ E) as N.
    exists 1. split.
    + unfold prune. pose proof (nf_pruned dim minc predt c N) as X. destruct (pruned dim minc predt c 1) as [c'| | |]; cbn [bind]; try discriminate; [|destruct (X eq_refl)].
      assert (Y : nf (compile_with_actions dim c' (ts_inputs s) (ts_outputs s) 0)) by nf_all. destruct (compile_with_actions _ _ _ _ _); try discriminate. destruct (Y eq_refl).
    + intros m L. destruct m as [|m]; [lia|]. unfold prune. rewrite (pruned_plain dim minc predt c m N). reflexivity.
Qed.
Lemma prune_system_built tdim dim minc predt ext sord ord cord m s p : prune_system tdim dim minc predt ext sord ord cord m s = Ok p -> built dim (TSimple p).
Proof.
  unfold prune_system. intros E. inv_bind E. destruct (negb a); [discriminate|]. inv_bind E. unfold prune in E. destruct (pruned _ _ _ _ _) as [c'| | |]; cbn [bind] in E; try discriminate.
  destruct (compile_with_actions _ _ _ _ _) eqn:C; try discriminate. injection E as <-. eapply b_simple. exact C.
Qed.

(** ** Queries *)
Section Queries.
Variable ch : choices.
Variable reduce : bool.
Variable load : string -> option component.
Hypothesis F : few_zones ch.
Hypothesis M : only_members ch.

Let L m := the_least (with_fuel m ch).
Let P m := the_pre (with_fuel m ch).
Let R m := the_redundant (with_fuel m ch).
Lemma least_ok d s : 0 < d -> built d s -> ends (fun m => L m d s).
Proof. intros Hd B. destruct (least_search_ends d (ch_ext ch d) (fun s l => proj1 F d s l Hd) s B) as [n H]. exists n. exact (answered_ended _ _ (H _ (proj1 M))). Qed.
Lemma pre_ok d s : 0 < d -> built d s -> ends (fun m => P m d s).
Proof. intros Hd B. destruct (precheck_ends d (ch_ext ch d) (fun s l => proj1 F d s l Hd) s B) as [n H]. exists n. exact (answered_ended _ _ (H _ (proj1 M))). Qed.
Lemma redundant_ok d s : 0 < d -> built d s -> ends (fun m => R m d s).
Proof. intros _ B. apply (redundant_ends d _ _ s B). Qed.

Lemma one_system_ends e : ends (fun m => one_system (with_fuel m ch) reduce load e).
Proof.
  unfold one_system. apply ends_pair; [apply ends_nf, nf_recipe|]. intros r [dim q] _ _.
  apply ends_pair.
  - destruct reduce; [|apply ends_nf, nf_ok]. apply ends_pair; [apply (reduce_ends L P R least_ok pre_ok redundant_ok)|]. intros; apply ends_nf, nf_ok.
  - intros r' dim' _ _. apply ends_bind; [apply (compile_ends L P least_ok pre_ok)|]. intros; apply ends_nf, nf_ok.
Qed.
Lemma one_system_built m e s dim : one_system (with_fuel m ch) reduce load e = Ok (s, dim) -> built (dim + 1) s.
Proof.
  unfold one_system. intros E. inv_bind E. destruct a as [r [d q]]. inv_bind E. destruct a as [r' d']. inv_bind E. injection E as <- <-. eapply compile_is_built; eassumption.
Qed.
Lemma two_systems_ends e f : ends (fun m => two_systems (with_fuel m ch) reduce load e f).
Proof.
  unfold two_systems, two_recipes. apply ends_pair.
  - apply ends_pair; [apply ends_nf, nf_recipe|]. intros l st _ _. apply ends_pair; [apply ends_nf, nf_recipe|]. intros r [dim q] _ _.
    destruct reduce; [|apply ends_nf, nf_ok]. apply ends_pair; [apply (reduce_ends L P R least_ok pre_ok redundant_ok)|]. intros; apply ends_nf. nf_all.
  - intros p dim _ _. apply ends_pair; [apply (compile_two_ends L P least_ok pre_ok)|]. intros; apply ends_nf, nf_ok.
Qed.
Lemma two_systems_built m e f s t dim : two_systems (with_fuel m ch) reduce load e f = Ok (s, t, dim) -> built (dim + 1) s /\ built (dim + 1) t.
Proof.
  unfold two_systems. intros E. inv_bind E. destruct a as [p d]. inv_bind E. destruct a as [x y]. injection E as <- <- <-. eapply compile_two_built; eassumption.
Qed.
Lemma query_ends q : ends (fun m => run_query (with_fuel m ch) reduce load q).
Proof.
  destruct q as [e f|e|e from to|e|e|e|e n|e n|e f]; cbn [run_query].
  - apply ends_pair; [apply two_systems_ends|]. intros [s t] dim n E. apply two_systems_built in E. destruct E as [Bs Bt]. cbn [fst snd]. cbv zeta. apply ends_bind; [|intros; apply ends_nf, nf_ok].
    assert (Hd : 0 < dim + 1) by lia. destruct (refinement_ends (dim + 1) (ch_ext ch (dim + 1)) (ch_pext ch (dim + 1) s t) s t Bs Bt) as [k H].
    + intros; apply F; exact Hd.
    + intros; apply F; exact Hd.
    + exists k. exact (answered_ended _ _ (H (ch_sord ch) (ch_aord ch) (proj1 M) (proj2 M))).
  - apply ends_pair; [apply one_system_ends|]. intros s dim n E. apply one_system_built in E. apply ends_bind; [apply pre_ok; [lia|exact E]|]. intros; apply ends_nf, nf_ok.
  - apply (ends_pair _ (fun m p target => let '(d, s, start) := p in do o <- find_path d (ch_fuel (with_fuel m ch)) s (ch_xext (with_fuel m ch) d s (s_zone target)) start target; Ok (AReachability o))).
    + apply (reach_query_ends L P least_ok pre_ok).
    + intros [[d s] start] target n E. apply reach_query_start in E. destruct E as (Hd & Bs & Is). apply ends_bind; [|intros; apply ends_nf, nf_ok].
      destruct (reachability_ends d s (ch_xext ch d s (s_zone target)) start Bs) as [k H]; [intros; apply F; exact Hd|exact Is|]. exists k. apply H.
  - apply ends_nf, nf_err.
  - apply ends_pair; [apply one_system_ends|]. intros s dim n E. apply one_system_built in E. apply ends_bind; [|intros; apply ends_nf, nf_ok].
    assert (Hd : 0 < dim + 1) by lia. destruct (determinism_ends (dim + 1) (ch_ext ch (dim + 1)) (fun s l => proj1 F _ s l Hd) s E) as [k H]. exists k. exact (answered_ended _ _ (H (ch_sord ch) (proj1 M))).
  - apply ends_nf, nf_err.
  - apply ends_pair; [apply one_system_ends|]. intros s dim k E. apply one_system_built in E. apply ends_bind; [exact (saving_ends (dim + 1) (ch_ord ch) s E (ch_minc ch (dim + 1)) (ch_kord ch) (result_name n))|]. intros; apply ends_nf, nf_ok.
  - apply ends_pair; [apply one_system_ends|]. intros s dim k E. apply one_system_built in E.
    apply (ends_bind (fun m => prune_system (dim + 1) dim (ch_minc ch (dim + 1)) (ch_predt ch dim) (ch_ext ch (dim + 1)) (ch_sord ch) (ch_ord ch) (ch_kord ch) m s)
             (fun m p => do c <- get_component dim (ch_minc ch dim) (ch_ord ch) (ch_kord ch) m (TSimple p) (result_name n); Ok (AComponent c))).
    { apply prune_system_ends. exact (pre_ok (dim + 1) s ltac:(lia) E). }
    intros p k' Ep. apply prune_system_built in Ep.
    apply ends_bind; [exact (saving_ends dim (ch_ord ch) (TSimple p) Ep (ch_minc ch dim) (ch_kord ch) (result_name n))|]. intros; apply ends_nf, nf_ok.
  - apply ends_nf, nf_err.
Qed.
End Queries.
