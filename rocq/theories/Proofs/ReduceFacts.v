(** Proofs about the clock analysis. *)
From Coq Require Import List String ZArith QArith Bool Arith Lia Lqa Permutation.
From Verif Require Import Fed.Zone Fed.ZoneFacts Model.Base Model.Expr Model.Guard Model.Loc Model.Component Model.TS Model.Files Model.Reduce
  Spec.GuardSpec Spec.StepSpec Spec.SystemSpec Spec.RunSpec Spec.EnableSpec Spec.IdSpec
  Proofs.GuardFacts Proofs.StepFacts Proofs.SystemFacts Proofs.WfFacts Proofs.RunFacts.
Import ListNotations.
Local Open Scope nat_scope.
Local Open Scope list_scope.

(** ** Sets of clocks *)
Lemma nin_In i l : nin i l = true <-> In i l.
Proof.
  unfold nin. rewrite existsb_exists. split.
  - intros (x & Hx & E). apply Nat.eqb_eq in E. subst. exact Hx.
  - intros H. exists i. split; [exact H|apply Nat.eqb_refl].
Qed.
Lemma nin_false i l : nin i l = false <-> ~ In i l.
Proof. rewrite <- nin_In. destruct (nin i l); split; congruence. Qed.
Lemma nset_In i l : In i (nset l) <-> In i l.
Proof.
  induction l as [|x l IH]; cbn [nset]; [tauto|]. destruct (nin x (nset l)) eqn:E; cbn [In].
  - rewrite IH. split; [auto|]. intros [<-|H]; [|exact H]. apply IH, nin_In. exact E.
  - rewrite IH. tauto.
Qed.
Lemma nset_NoDup l : NoDup (nset l).
Proof. induction l as [|x l IH]; cbn [nset]; [constructor|]. destruct (nin x (nset l)) eqn:E; [exact IH|]. constructor; [apply nin_false; exact E|exact IH]. Qed.
Lemma con_clocks_In f i : In i (con_clocks f) <-> exists z c, In z f /\ In c z /\ (i = ci c \/ i = cj c).
Proof.
  unfold con_clocks. rewrite in_flat_map. split.
  - intros (z & Hz & H). apply in_flat_map in H. destruct H as (c & Hc & [<-|[<-|[]]]); eauto 7.
  - intros (z & c & Hz & Hc & H). exists z. split; [exact Hz|]. apply in_flat_map. exists c. split; [exact Hc|]. cbn. destruct H as [->| ->]; auto.
Qed.

(** ** The graph *)
Section Graph.
Variable dim : nat.
Variable minc : fed -> fed.
Variable ord : list string -> list string.
Hypothesis ord_same : forall l x, In x (ord l) <-> In x l.

Lemma has_node_In g i : has_node g i = true <-> exists n, In n (g_nodes g) /\ n_id n = i.
Proof.
  unfold has_node. rewrite existsb_exists. split; intros (n & Hn & E); exists n; (split; [exact Hn|]).
  - apply String.eqb_eq in E. auto.
  - subst. apply String.eqb_refl.
Qed.
Lemma has_node_ext g g' i : g_nodes g = g_nodes g' -> has_node g i = has_node g' i.
Proof. unfold has_node. intros ->. reflexivity. Qed.

(** Visiting the transitions of one location. *)
Lemma visit_one l a g w t : visit_transition minc l a (g, w) t =
  (mkGraph (g_nodes g) (g_edges g ++ [edge_of minc l a t]), if has_node g (unique_string (lt_id (t_target t))) then w else w ++ [t_target t]).
Proof. reflexivity. Qed.
Lemma visit_transitions l a ts : forall st, exists new,
  fold_left (visit_transition minc l a) ts st =
    (mkGraph (g_nodes (fst st)) (g_edges (fst st) ++ map (edge_of minc l a) ts), snd st ++ new) /\
  forall u, In u new <-> (exists t, In t ts /\ u = t_target t) /\ has_node (fst st) (unique_string (lt_id u)) = false.
Proof.
  induction ts as [|t ts IH]; intros [g w]; cbn [fold_left map fst snd].
  - exists []. rewrite !app_nil_r. split; [destruct g; reflexivity|]. intros u. split; [intros []|intros [(t & [] & _) _]].
  - rewrite visit_one. destruct (IH (mkGraph (g_nodes g) (g_edges g ++ [edge_of minc l a t]), if has_node g (unique_string (lt_id (t_target t))) then w else w ++ [t_target t])) as (new & E & N).
    cbn [fst snd g_nodes g_edges] in E, N. rewrite E.
    assert (X : forall i, has_node (mkGraph (g_nodes g) (g_edges g ++ [edge_of minc l a t])) i = has_node g i) by reflexivity.
    destruct (has_node g (unique_string (lt_id (t_target t)))) eqn:H.
    + exists new. rewrite <- app_assoc. split; [reflexivity|].
      intros u. rewrite N, X. split.
      * intros [(t' & Ht & ->) F]. split; [exists t'; split; [right; exact Ht|reflexivity]|exact F].
      * intros [(t' & [<-|Ht] & ->) F]; [congruence|]. split; [exists t'; auto|exact F].
    + exists (t_target t :: new). rewrite <- !app_assoc. split; [reflexivity|].
      intros u. cbn [In]. rewrite N, X. split.
      * intros [<-|[(t' & Ht & ->) F]]; [split; [exists t; split; [left; reflexivity|reflexivity]|exact H]|split; [exists t'; split; [right; exact Ht|reflexivity]|exact F]].
      * intros [(t' & [<-|Ht] & ->) F]; [left; reflexivity|right; split; [exists t'; auto|exact F]].
Qed.

Lemma visit_actions s l acts : forall st g' w', foldM (visit_action dim minc s l) acts st = Ok (g', w') ->
  exists es new, g' = mkGraph (g_nodes (fst st)) (g_edges (fst st) ++ es) /\ w' = snd st ++ new /\
  (forall e, In e es <-> exists a t ts, In a acts /\ next_if_available dim s l a = Ok ts /\ In t ts /\ e = edge_of minc l a t) /\
  (forall u, In u new <-> (exists a t ts, In a acts /\ next_if_available dim s l a = Ok ts /\ In t ts /\ u = t_target t) /\ has_node (fst st) (unique_string (lt_id u)) = false).
Proof.
  induction acts as [|a acts IH]; intros [g w] g' w' E; cbn [foldM] in E.
  - injection E as <- <-. exists [], []. rewrite !app_nil_r. cbn [fst snd]. split; [destruct g; reflexivity|]. split; [reflexivity|].
    split; intros x; (split; [intros []|]); [intros (? & ? & ? & [] & _)|intros [(? & ? & ? & [] & _) _]].
  - unfold visit_action at 1 in E. destruct (next_if_available dim s l a) as [ts| | |] eqn:Ea; cbn [bind] in E; try discriminate.
    destruct (visit_transitions l a ts (g, w)) as (new & Ef & N). rewrite Ef in E. cbn [fst snd] in *.
    destruct (IH _ _ _ E) as (es & new' & -> & -> & He & Hn). cbn [fst snd g_nodes g_edges] in *.
    exists (map (edge_of minc l a) ts ++ es), (new ++ new'). rewrite <- !app_assoc. split; [reflexivity|]. split; [reflexivity|]. split.
    + intros e. rewrite in_app_iff, He. split.
      * intros [H|(b & t & ts' & Hb & Et & Ht & ->)]; [|exists b, t, ts'; cbn; auto]. apply in_map_iff in H. destruct H as (t & <- & Ht). exists a, t, ts. cbn. auto.
      * intros (b & t & ts' & [<-|Hb] & Et & Ht & ->); [left|right; exists b, t, ts'; auto]. rewrite Ea in Et. injection Et as <-. apply in_map. exact Ht.
    + intros u. rewrite in_app_iff, N, Hn. rewrite (has_node_ext (mkGraph (g_nodes g) (g_edges g ++ map (edge_of minc l a) ts)) g) by reflexivity. split.
      * intros [[(t & Ht & ->) F]|[(b & t & ts' & Hb & Et & Ht & ->) F]]; (split; [|exact F]); [exists a, t, ts|exists b, t, ts']; cbn; auto.
      * intros [(b & t & ts' & [<-|Hb] & Et & Ht & ->) F]; [left|right]; (split; [|exact F]); [|exists b, t, ts'; auto]. rewrite Ea in Et. injection Et as <-. exists t. auto.
Qed.

Lemma visit_total s l acts : built dim s -> In l (all_locations dim s) -> forall st, exists p, foldM (visit_action dim minc s l) acts st = Ok p.
Proof.
  intros B Hl. induction acts as [|a acts IH]; intros st; cbn [foldM]; [eauto|].
  assert (X : exists ts, next_if_available dim s l a = Ok ts).
  { unfold next_if_available. destruct (has_action s a) eqn:H; [|eauto]. apply has_action_spec in H. destruct (next_wf dim s B l a Hl H) as (ts & E & _). eauto. }
  destruct X as (ts & E). unfold visit_action at 1. rewrite E. cbn [bind]. apply IH.
Qed.

Lemma offered_next s l a t : offered dim s l a t <-> exists ts, In a (ord (ts_actions s)) /\ next_if_available dim s l a = Ok ts /\ In t ts.
Proof.
  unfold offered. rewrite <- has_action_spec. unfold next_if_available. split.
  - intros (Ha & ts & E & Ht). exists ts. rewrite Ha. split; [|auto]. apply ord_same. unfold has_action in Ha. apply sin_In. exact Ha.
  - intros (ts & Ha & E & Ht). destruct (has_action s a) eqn:H; [|injection E as <-; contradiction]. split; [reflexivity|]. eauto.
Qed.

(** What is known while the graph is built. *)
Record building (s : ts) (work : list loctree) (g : graph) : Prop := {
  bd_nodes : forall n, In n (g_nodes g) -> exists l, edge_reach dim s l /\ n = node_of minc l;
  bd_edges : forall e, In e (g_edges g) -> exists l a t, edge_reach dim s l /\ offered dim s l a t /\ e = edge_of minc l a t;
  bd_work : forall l, In l work -> edge_reach dim s l;
  bd_done : forall l, edge_reach dim s l -> In (node_of minc l) (g_nodes g) -> forall a t, offered dim s l a t ->
    In (edge_of minc l a t) (g_edges g) /\ (In (node_of minc (t_target t)) (g_nodes g) \/ In (t_target t) work);
  bd_init : forall l, initial_location dim s = Some l -> In (node_of minc l) (g_nodes g) \/ In l work }.

(** Keys tell the locations apart. *)
Definition keyed (s : ts) : Prop := forall a b, In a (all_locations dim s) -> In b (all_locations dim s) ->
  unique_string (lt_id a) = unique_string (lt_id b) -> a = b.

Lemma edge_reach_in s : built dim s -> forall l, edge_reach dim s l -> In l (all_locations dim s).
Proof.
  intros B l E. induction E as [l Hi|l a t E IH [Ha (ts & Ets & Ht)]]; [eapply initial_wf; eauto|].
  destruct (next_wf dim s B l a IH Ha) as (ts' & E' & T). rewrite Ets in E'. injection E' as <-. auto.
Qed.
Lemma insert_In g n m : In m (g_nodes (insert_node g n)) <-> m = n \/ (In m (g_nodes g) /\ n_id m <> n_id n).
Proof.
  unfold insert_node. cbn [g_nodes In]. rewrite filter_In, negb_true_iff, String.eqb_neq. split.
  - intros [<-|[H N]]; auto.
  - intros [->|[H N]]; auto.
Qed.

Lemma building_step s l work g g' w' : built dim s -> keyed s -> building s (l :: work) g ->
  foldM (visit_action dim minc s l) (ord (ts_actions s)) (insert_node g (node_of minc l), work) = Ok (g', w') -> building s w' g'.
Proof.
  intros B K [Bn Be Bw Bd Bi] E. destruct (visit_actions _ _ _ _ _ _ E) as (es & new & -> & -> & He & Hn). cbn [fst snd] in *.
  assert (Rl : edge_reach dim s l) by (apply Bw; left; reflexivity).
  assert (He' : forall e, In e es <-> exists a t, offered dim s l a t /\ e = edge_of minc l a t).
  { intros e. rewrite He. split.
    - intros (a & t & ts & Ha & Ea & Ht & ->). exists a, t. split; [apply offered_next; eauto|reflexivity].
    - intros (a & t & O & ->). apply offered_next in O. destruct O as (ts & Ha & Ea & Ht). eauto 8. }
  assert (Same : forall u, edge_reach dim s u -> unique_string (lt_id u) = unique_string (lt_id l) -> u = l).
  { intros u Hu Ek. apply K; auto using edge_reach_in. }
  (* membership of nodes of reachable locations *)
  assert (Ins : forall u, edge_reach dim s u -> (In (node_of minc u) (g_nodes (insert_node g (node_of minc l))) <-> u = l \/ In (node_of minc u) (g_nodes g))).
  { intros u Hu. rewrite insert_In. cbn [node_of n_id]. split.
    - intros [X|[X _]]; [left|auto]. apply Same; [exact Hu|]. injection X. auto.
    - intros [->|X]; [auto|]. destruct (String.string_dec (unique_string (lt_id u)) (unique_string (lt_id l))) as [Y|Y]; [left; rewrite (Same u Hu Y); reflexivity|auto]. }
  assert (Hnew : forall u, edge_reach dim s u -> has_node (insert_node g (node_of minc l)) (unique_string (lt_id u)) = true -> In (node_of minc u) (g_nodes (insert_node g (node_of minc l)))).
  { intros u Hu X. apply has_node_In in X. destruct X as (n & Hn' & En). apply Ins; [exact Hu|]. apply insert_In in Hn'. destruct Hn' as [->|[Hn' _]].
    - left. apply Same; [exact Hu|]. cbn in En. auto.
    - right. destruct (Bn n Hn') as (u' & Ru' & ->). cbn in En. rewrite <- (K u' u); auto using edge_reach_in. }
  assert (Tgt : forall a t, offered dim s l a t -> In (node_of minc (t_target t)) (g_nodes (insert_node g (node_of minc l))) \/ In (t_target t) new).
  { intros a t O. assert (Rt : edge_reach dim s (t_target t)) by (eapply er_step; eauto).
    destruct (has_node (insert_node g (node_of minc l)) (unique_string (lt_id (t_target t)))) eqn:H; [left; apply Hnew; assumption|right].
    apply Hn. split; [|exact H]. apply offered_next in O. destruct O as (ts & Ha & Ea & Ht). exists a, t, ts. auto. }
  constructor; cbn [g_nodes g_edges].
  - intros n H. apply insert_In in H. destruct H as [->|[H _]]; eauto.
  - intros e H. apply in_app_iff in H. destruct H as [H|H]; [apply Be; exact H|]. apply He' in H. destruct H as (a & t & O & ->). exists l, a, t. auto.
  - intros u H. apply in_app_iff in H. destruct H as [H|H]; [apply Bw; right; exact H|]. apply Hn in H. destruct H as [(a & t & ts & Ha & Ea & Ht & ->) _].
    eapply er_step; [exact Rl|]. apply offered_next. eauto.
  - intros u Ru Hu a t O. apply Ins in Hu; [|exact Ru]. rewrite in_app_iff.
    destruct (String.string_dec (unique_string (lt_id u)) (unique_string (lt_id l))) as [X|X].
    + rewrite (Same u Ru X) in *. split; [right; apply He'; eauto|]. rewrite in_app_iff. destruct (Tgt a t O); auto.
    + destruct Hu as [->|Hu]; [congruence|]. destruct (Bd u Ru Hu a t O) as [De Dt]. split; [left; exact De|]. rewrite in_app_iff.
      assert (Rt : edge_reach dim s (t_target t)) by (eapply er_step; eauto).
      destruct Dt as [Dt|[Dt|Dt]]; [left; apply Ins; auto|left; apply Ins; auto|right; left; exact Dt].
  - intros u Hu. rewrite in_app_iff. assert (Ru : edge_reach dim s u) by (constructor; exact Hu).
    destruct (Bi u Hu) as [H|[H|H]]; [left; apply Ins; auto|left; apply Ins; auto|right; left; exact H].
Qed.

Lemma find_building s fuel : built dim s -> keyed s -> forall work g g', building s work g -> find_edges_and_nodes dim minc ord fuel s work g = Ok g' -> building s [] g'.
Proof.
  intros B K. induction fuel as [|f IH]; intros work g g' Bg E; cbn [find_edges_and_nodes] in E; [discriminate|].
  destruct work as [|l work]; [injection E as <-; exact Bg|].
  destruct (foldM (visit_action dim minc s l) (ord (ts_actions s)) (insert_node g (node_of minc l), work)) as [[g1 w1]| | |] eqn:Ef; cbn [bind] in E; try discriminate.
  eapply IH; [|exact E]. eapply building_step; eauto.
Qed.

(** The graph has exactly the locations that can be reached by edges, and the edges between them. *)
Lemma graph_exact s fuel g : built dim s -> keyed s -> analysis_graph dim minc ord fuel s = Ok g ->
  (forall n, In n (g_nodes g) <-> exists l, edge_reach dim s l /\ n = node_of minc l) /\
  (forall e, In e (g_edges g) <-> exists l a t, edge_reach dim s l /\ offered dim s l a t /\ e = edge_of minc l a t).
Proof.
  intros B K E. unfold analysis_graph in E. destruct (initial_location dim s) as [l0|] eqn:Hi; cbn [unwrap bind] in E; [|discriminate].
  assert (B0 : building s [l0] (mkGraph [] [])).
  { constructor; cbn; try tauto.
    - intros l [<-|[]]. constructor. exact Hi.
    - intros l H. rewrite Hi in H. injection H as ->. auto. }
  destruct (find_building s fuel B K _ _ _ B0 E) as [Bn Be _ Bd Bi].
  assert (All : forall l, edge_reach dim s l -> In (node_of minc l) (g_nodes g)).
  { intros l R. induction R as [l Hl|l a t R IH O]; [destruct (Bi l Hl) as [H|[]]; exact H|]. destruct (Bd l R IH a t O) as [_ [H|[]]]. exact H. }
  split; intros x; split; [apply Bn| |apply Be|].
  - intros (l & R & ->). auto.
  - intros (l & a & t & R & O & ->). apply (Bd l R (All l R) a t O).
Qed.

(** The search ends. *)
Definition missing (U : list string) (g : graph) : list string := filter (fun i => negb (has_node g i)) U.
Definition stale (g : graph) (work : list loctree) : list loctree := filter (fun l => has_node g (unique_string (lt_id l))) work.
Lemma filter_le {A} (p q : A -> bool) l : (forall x, In x l -> p x = true -> q x = true) -> List.length (filter p l) <= List.length (filter q l).
Proof.
  induction l as [|x l IH]; intros H; cbn [filter]; [lia|]. specialize (IH (fun y Hy => H y (or_intror Hy))).
  specialize (H x (or_introl eq_refl)). destruct (p x), (q x); cbn [List.length]; try lia; specialize (H eq_refl); discriminate.
Qed.
Lemma filter_lt {A} (p q : A -> bool) l y : (forall x, In x l -> p x = true -> q x = true) -> In y l -> p y = false -> q y = true -> List.length (filter p l) < List.length (filter q l).
Proof.
  induction l as [|x l IH]; intros H Hy Py Qy; [contradiction|]. cbn [filter].
  pose proof (filter_le p q l (fun z Hz => H z (or_intror Hz))) as L. destruct Hy as [->|Hy].
  - rewrite Py, Qy. cbn [List.length]. lia.
  - specialize (IH (fun z Hz => H z (or_intror Hz)) Hy Py Qy). specialize (H x (or_introl eq_refl)). destruct (p x), (q x); cbn [List.length]; try lia; specialize (H eq_refl); discriminate.
Qed.
Lemma has_insert g n i : has_node (insert_node g n) i = String.eqb i (n_id n) || has_node g i.
Proof.
  destruct (has_node (insert_node g n) i) eqn:H; symmetry.
  - apply has_node_In in H. destruct H as (m & Hm & <-). apply insert_In in Hm. destruct Hm as [->|[Hm _]]; [rewrite String.eqb_refl; reflexivity|].
    apply orb_true_iff. right. apply has_node_In. eauto.
  - apply orb_false_iff. split.
    + apply String.eqb_neq. intros ->. assert (X : has_node (insert_node g n) (n_id n) = true) by (apply has_node_In; exists n; split; [apply insert_In; auto|reflexivity]). congruence.
    + destruct (has_node g i) eqn:G; [|reflexivity]. apply has_node_In in G. destruct G as (m & Hm & E).
      destruct (String.string_dec (n_id m) (n_id n)) as [X|X].
      * assert (Y : has_node (insert_node g n) i = true) by (apply has_node_In; exists n; split; [apply insert_In; auto|congruence]). congruence.
      * assert (Y : has_node (insert_node g n) i = true) by (apply has_node_In; exists m; split; [apply insert_In; auto|exact E]). congruence.
Qed.

Lemma find_total s U : built dim s -> (forall l, In l (all_locations dim s) -> In (unique_string (lt_id l)) U) ->
  forall m k work g, (forall l, In l work -> In l (all_locations dim s)) -> List.length (missing U g) <= m -> List.length (stale g work) <= k ->
  exists fuel g', find_edges_and_nodes dim minc ord fuel s work g = Ok g'.
Proof.
  intros B HU. induction m as [m IHm] using lt_wf_ind. induction k as [|k IHk]; intros work g Hw Hm Hk.
  all: destruct work as [|l work]; [exists 1, g; reflexivity|].
  all: destruct (visit_total s l (ord (ts_actions s)) B (Hw l (or_introl eq_refl)) (insert_node g (node_of minc l), work)) as ([g1 w1] & Ef).
  all: destruct (visit_actions _ _ _ _ _ _ Ef) as (es & new & -> & -> & _ & Hn); cbn [fst snd] in *.
  all: set (g1 := mkGraph (g_nodes (insert_node g (node_of minc l))) (g_edges (insert_node g (node_of minc l)) ++ es)) in *.
  all: assert (Hg : forall i, has_node g1 i = String.eqb i (unique_string (lt_id l)) || has_node g i)
    by (intros i; rewrite (has_node_ext g1 (insert_node g (node_of minc l)) i eq_refl), has_insert; reflexivity).
  all: assert (Hw1 : forall u, In u (work ++ new) -> In u (all_locations dim s)).
  1,3: intros u Hu; apply in_app_iff in Hu; destruct Hu as [Hu|Hu]; [apply Hw; right; exact Hu|]; apply Hn in Hu; destruct Hu as [(a & t & ts & _ & Ea & Ht & ->) _];
    unfold next_if_available in Ea; destruct (has_action s a) eqn:Ha; [|injection Ea as <-; contradiction]; apply has_action_spec in Ha;
    destruct (next_wf dim s B l a (Hw l (or_introl eq_refl)) Ha) as (ts' & E' & T); rewrite Ea in E'; injection E' as <-; auto.
  all: assert (St : stale g1 (work ++ new) = stale g1 work).
  1,3: unfold stale; rewrite filter_app; replace (filter (fun l0 => has_node g1 (unique_string (lt_id l0))) new) with (@nil loctree); [apply app_nil_r|];
    symmetry; assert (Z : forall u, In u new -> has_node g1 (unique_string (lt_id u)) = false) by (intros u Hu; apply Hn in Hu; destruct Hu as [_ F]; rewrite <- F; apply has_node_ext; reflexivity);
    clear - Z; induction new as [|u new IH]; [reflexivity|]; cbn [filter]; rewrite (Z u (or_introl eq_refl)); apply IH; intros; apply Z; right; assumption.
  all: destruct (has_node g (unique_string (lt_id l))) eqn:Hl.
  - exfalso. cbn [stale filter] in Hk. rewrite Hl in Hk. cbn in Hk. lia.
  - assert (L : List.length (missing U g1) < List.length (missing U g)).
    { apply (filter_lt _ _ U (unique_string (lt_id l))).
      - intros x _. rewrite Hg, !negb_true_iff, orb_false_iff. tauto.
      - apply HU, Hw. left. reflexivity.
      - rewrite Hg, String.eqb_refl. reflexivity.
      - rewrite Hl. reflexivity. }
    destruct (IHm (List.length (missing U g1)) ltac:(lia) (List.length (stale g1 (work ++ new))) (work ++ new) g1 Hw1 (le_n _) (le_n _)) as (f & g' & E).
    exists (S f), g'. cbn [find_edges_and_nodes]. rewrite Ef. exact E.
  - assert (Hs : forall i, has_node g1 i = has_node g i).
    { intros i. rewrite Hg. destruct (String.eqb_spec i (unique_string (lt_id l))) as [->|]; [rewrite Hl; reflexivity|reflexivity]. }
    destruct (IHk (work ++ new) g1 Hw1) as (f & g' & E).
    + unfold missing in *. rewrite (filter_ext _ (fun i => negb (has_node g i))); [exact Hm|]. intros i. rewrite Hs. reflexivity.
    + rewrite St. unfold stale in *. cbn [filter] in Hk. rewrite Hl in Hk. cbn [List.length] in Hk.
      rewrite (filter_ext _ (fun l => has_node g (unique_string (lt_id l)))) by (intros; apply Hs). lia.
    + exists (S f), g'. cbn [find_edges_and_nodes]. rewrite Ef. exact E.
  - assert (L : List.length (missing U g1) < List.length (missing U g)).
    { apply (filter_lt _ _ U (unique_string (lt_id l))).
      - intros x _. rewrite Hg, !negb_true_iff, orb_false_iff. tauto.
      - apply HU, Hw. left. reflexivity.
      - rewrite Hg, String.eqb_refl. reflexivity.
      - rewrite Hl. reflexivity. }
    destruct (IHm (List.length (missing U g1)) ltac:(lia) (List.length (stale g1 (work ++ new))) (work ++ new) g1 Hw1 (le_n _) (le_n _)) as (f & g' & E).
    exists (S f), g'. cbn [find_edges_and_nodes]. rewrite Ef. exact E.
Qed.
Lemma graph_total s l0 : built dim s -> initial_location dim s = Some l0 -> exists fuel g, analysis_graph dim minc ord fuel s = Ok g.
Proof.
  intros B Hi. unfold analysis_graph. rewrite Hi. cbn [unwrap bind].
  eapply (find_total s (map (fun l => unique_string (lt_id l)) (all_locations dim s)) B); [|  |apply le_n|apply le_n].
  - intros l Hl. apply (in_map (fun l => unique_string (lt_id l))). exact Hl.
  - intros l [<-|[]]. eapply initial_wf; eauto.
Qed.
End Graph.
