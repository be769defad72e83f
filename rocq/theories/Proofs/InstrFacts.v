(** Proofs about carrying out the instructions of the clock analysis. *)
From Coq Require Import List String ZArith QArith Bool Arith Lia Permutation.
From Verif Require Import Fed.Zone Fed.ZoneFacts Model.Base Model.Expr Model.Guard Model.Loc Model.Component Model.TS Model.ParseQuery Model.Files Model.Recipe Model.Reduce
  Spec.GuardSpec Spec.StepSpec Spec.SystemSpec Spec.RunSpec Spec.RefineSpec Spec.EnableSpec Spec.RecipeSpec Spec.ReduceSpec Spec.SameSpec
  Proofs.GuardFacts Proofs.StepFacts Proofs.SystemFacts Proofs.WfFacts Proofs.RunFacts Proofs.ReadsFacts Proofs.RecipeFacts Proofs.ReduceFacts Proofs.ClockFacts
  Proofs.RenFacts Proofs.SameFacts Proofs.BisimFacts Proofs.ShrinkFacts Proofs.CompressFacts.
Import ListNotations.
Local Open Scope nat_scope.
Local Open Scope list_scope.

(** ** The used clocks are clocks of the system, whatever the names of the locations are *)
Section Sound.
Variable dim : nat.
Variable minc : fed -> fed.
Variable ord : list string -> list string.
Hypothesis ord_same : same_elements ord.
Variable s : ts.
Record sounding (work : list loctree) (g : graph) : Prop := {
  so_nodes : forall n, In n (g_nodes g) -> exists l, edge_reach dim s l /\ n = node_of minc l;
  so_edges : forall e, In e (g_edges g) -> exists l a t, edge_reach dim s l /\ offered dim s l a t /\ e = edge_of minc l a t;
  so_work : forall l, In l work -> edge_reach dim s l }.
Lemma sounding_find fuel : forall work g g', sounding work g -> find_edges_and_nodes dim minc ord fuel s work g = Ok g' -> sounding [] g'.
Proof.
  induction fuel as [|f IH]; intros work g g' So E; cbn [find_edges_and_nodes] in E; [discriminate|].
  destruct work as [|l work]; [injection E as <-; exact So|].
  destruct (foldM (visit_action dim minc s l) (ord (ts_actions s)) (insert_node g (node_of minc l), work)) as [[g1 w1]| | |] eqn:Ef; cbn [bind] in E; try discriminate.
  eapply IH; [|exact E]. destruct (visit_actions dim minc _ _ _ _ _ _ Ef) as (es & new & -> & -> & He & Hn). cbn [fst snd] in *. destruct So as [Sn Se Sw].
  assert (Rl : edge_reach dim s l) by (apply Sw; left; reflexivity).
  assert (Of : forall a t ts, In a (ord (ts_actions s)) -> next_if_available dim s l a = Ok ts -> In t ts -> offered dim s l a t).
  { intros a t ts Ha Ea Ht. apply (offered_next dim ord ord_same). eauto. }
  constructor; cbn [g_nodes g_edges].
  - intros n H. apply insert_In in H. destruct H as [->|[H _]]; eauto.
  - intros e H. apply in_app_iff in H. destruct H as [H|H]; [apply Se; exact H|]. apply He in H. destruct H as (a & t & ts & Ha & Ea & Ht & ->). exists l, a, t. eauto.
  - intros u H. apply in_app_iff in H. destruct H as [H|H]; [apply Sw; right; exact H|]. apply Hn in H. destruct H as [(a & t & ts & Ha & Ea & Ht & ->) _]. eapply er_step; eauto.
Qed.
Lemma graph_sound fuel g : analysis_graph dim minc ord fuel s = Ok g -> sounding [] g.
Proof.
  intros E. unfold analysis_graph in E. destruct (initial_location dim s) as [l0|] eqn:Hi; cbn [unwrap bind] in E; [|discriminate].
  eapply sounding_find; [|exact E]. constructor; cbn; try tauto. intros l [<-|[]]. constructor. exact Hi.
Qed.
Variable q : nat.
Hypothesis minc_ok : describes dim minc.
Hypothesis B : built dim s.
Hypothesis R : reads_ok s.
Hypothesis C : clocks_ok dim q s.
Hypothesis D : clocks_below dim s.
Lemma used_in_system fuel g i : analysis_graph dim minc ord fuel s = Ok g -> In i (used_clocks g) -> 1 <= i < dim.
Proof.
  intros G Hi. destruct (graph_sound fuel g G) as [N E _]. apply used_In in Hi. destruct Hi as [Ne Hi]. split; [lia|].
  destruct Hi as [(e & He & Hi)|(n & Hn & Hi)].
  - apply E in He. destruct He as (l & a & t & El & (Ha & ts & Et & Ht) & ->). cbn [edge_of ae_deps] in Hi. rewrite nset_In in Hi. apply con_clocks_In in Hi.
    destruct Hi as (z & c & Hz & Hc & Hi). destruct (next_dep dim q s B R C l a ts t (edge_reach_in dim s B l El) Ha Et Ht) as [P _].
    destruct (minc_ok (t_guard t)) as [_ M]; [intros v w Hv Hw A; apply P; auto; intros j Hj; apply A, D, Hj|].
    destruct (M z c Hz Hc) as (M1 & M2 & _). destruct Hi as [->| ->]; assumption.
  - apply N in Hn. destruct Hn as (l & El & ->). cbn [node_of n_deps] in Hi. pose proof (locations_dep dim s B R l (edge_reach_in dim s B l El)) as P. unfold inv_at in P.
    destruct (lt_inv l) as [f|]; [|contradiction]. rewrite nset_In in Hi. apply con_clocks_In in Hi. destruct Hi as (z & c & Hz & Hc & Hi).
    destruct (minc_ok f) as [_ M]; [intros v w Hv Hw A; apply P; auto; intros j Hj; apply A, D, Hj|].
    destruct (M z c Hz Hc) as (M1 & M2 & _). destruct Hi as [->| ->]; assumption.
Qed.
Lemma used_few fuel g : analysis_graph dim minc ord fuel s = Ok g -> (Z.of_nat dim < u32_max)%Z -> (Z.of_nat (List.length (used_clocks g)) < u32_max)%Z.
Proof.
  intros G L. assert (X : List.length (used_clocks g) <= List.length (seq 0 dim)).
  { apply NoDup_incl_length; [apply used_NoDup|]. intros j Hj. apply in_seq. pose proof (used_in_system fuel g j G Hj). lia. }
  rewrite seq_length in X. lia.
Qed.
End Sound.

Lemma below_of dim q s : clocks_ok dim q s -> (forall x, In x (comp_clocks s) -> x < dim) -> clocks_below dim s.
Proof.
  intros C H. unfold clocks_below. induction s as [c|l IHl r IHr i o|l IHl r IHr i o lo ro co|t IHt d IHd i o n q']; cbn [sys_clocks comp_clocks clocks_ok] in *; intros x Hx; auto.
  - destruct C as (C1 & C2 & _). apply in_app_or in Hx. destruct Hx; [apply IHl|apply IHr]; auto; intros; apply H, in_or_app; auto.
  - destruct C as (C1 & C2 & _). apply in_app_or in Hx. destruct Hx; [apply IHl|apply IHr]; auto; intros; apply H, in_or_app; auto.
  - destruct C as (C1 & C2 & _ & -> & _ & C3). destruct Hx as [<-|Hx]; [exact C3|]. apply in_app_or in Hx. destruct Hx; [apply IHt|apply IHd]; auto; intros; apply H, in_or_app; auto.
Qed.

(** ** The instructions that are carried out *)
Lemma filter_map_comm {A B} (f : A -> B) p l : filter p (map f l) = map f (filter (fun x => p (f x)) l).
Proof. induction l as [|a l IH]; cbn [map filter]; [reflexivity|]. destruct (p (f a)); cbn [map]; rewrite IH; reflexivity. Qed.
Definition carried_us (q : nat) (l : list nat) : list nat := filter (fun i => negb (Nat.eqb i q)) l.
Definition carried_gs (q : nat) (gs : list (list nat)) : list (list nat) := filter (fun grp => negb (Nat.eqb (lowest grp) q)) gs.
Lemma carried dim cord gord g q : filter (fun x => negb (Nat.eqb (instr_clock x) q)) (redundancies dim cord gord g) =
  map RemoveClock (carried_us q (cord (unused_clocks dim g))) ++ map replace_group (carried_gs q (equivalent_groups gord g)).
Proof. unfold redundancies. rewrite filter_app, !filter_map_comm. reflexivity. Qed.

Section Carried.
Variables (dim : nat) (q : option nat) (r : recipe) (minc : fed -> fed) (ord : list string -> list string) (cord : list nat -> list nat) (gord : list (list nat) -> list (list nat)) (fuel : nat) (s : ts) (g : graph).
Hypothesis ord_same : same_elements ord.
Hypothesis cord_ok : reorders cord.
Hypothesis gord_ok : reorders gord.
Hypothesis minc_ok : describes (dim + 1) minc.
Hypothesis P : Permutation (all_numbers r ++ opt_clock q) (seq 1 dim).
Hypothesis B : built (dim + 1) s.
Hypothesis R : reads_ok s.
Hypothesis C : clocks_ok (dim + 1) (q_default q) s.
Hypothesis Cs : comp_clocks s = all_numbers r.
Hypothesis Small : (Z.of_nat (dim + 1) < u32_max)%Z.
Hypothesis G : analysis_graph (dim + 1) minc ord fuel s = Ok g.
Let us := carried_us (q_default q) (cord (unused_clocks (dim + 1) g)).
Let gs := carried_gs (q_default q) (equivalent_groups gord g).
(** The clock of the quotients is not replaced by another one. *)
Hypothesis Qg : forall grp q', In grp (equivalent_groups gord g) -> q = Some q' -> lowest grp <> q' -> ~ In q' grp.

Lemma number_range i : In i (all_numbers r) -> 1 <= i <= dim.
Proof. intros H. assert (X : In i (seq 1 dim)) by (apply (Permutation_in _ P), in_or_app; auto). apply in_seq in X. lia. Qed.
Lemma carried_below : clocks_below (dim + 1) s.
Proof. eapply below_of; [exact C|]. intros x Hx. rewrite Cs in Hx. apply number_range in Hx. lia. Qed.
Lemma in_numbers i : 1 <= i <= dim -> i <> q_default q -> In i (all_numbers r).
Proof.
  intros H Hq. assert (X : In i (all_numbers r ++ opt_clock q)) by (apply (Permutation_in _ (Permutation_sym P)), in_seq; lia).
  apply in_app_or in X. destruct X as [X|X]; [exact X|]. destruct q as [q'|]; cbn in *; [destruct X as [->|[]]; congruence|destruct X].
Qed.
Lemma carried_groups : grouped (used_clocks g) (g_edges g) (equivalent_groups gord g).
Proof. apply groups_grouped; [exact gord_ok|]. eapply used_few; eauto using carried_below. Qed.
Lemma us_facts : NoDup us /\ incl us (all_numbers r) /\ forall i, In i us <-> In i (unused_clocks (dim + 1) g) /\ i <> q_default q.
Proof.
  assert (X : forall i, In i us <-> In i (unused_clocks (dim + 1) g) /\ i <> q_default q).
  { intros i. unfold us, carried_us. rewrite filter_In, negb_true_iff, Nat.eqb_neq. split; intros [H1 H2]; (split; [|exact H2]); [apply (Permutation_in _ (cord_ok _)), H1|apply (Permutation_in _ (Permutation_sym (cord_ok _))), H1]. }
  split; [|split; [|exact X]].
  - apply NoDup_filter. eapply Permutation_NoDup; [symmetry; apply cord_ok|]. apply NoDup_filter, seq_NoDup.
  - intros i Hi. apply X in Hi. destruct Hi as [Hi Hq]. apply unused_In in Hi. apply in_numbers; [lia|exact Hq].
Qed.
Lemma gs_facts : NoDup (List.concat gs) /\ incl (List.concat gs) (all_numbers r) /\ (forall i, In i us -> ~ In i (List.concat gs)) /\ incl gs (equivalent_groups gord g).
Proof.
  destruct carried_groups as [N U _ _]. split; [apply concat_filter_nodup, N|]. split; [|split].
  - intros i Hi. apply in_concat in Hi. destruct Hi as (grp & Hg & Hi). unfold gs, carried_gs in Hg. apply filter_In in Hg. destruct Hg as [Hg Hl]. apply negb_true_iff, Nat.eqb_neq in Hl.
    assert (Ui : In i (used_clocks g)) by (apply U, in_concat; eauto). pose proof (used_in_system (dim + 1) minc ord ord_same s (q_default q) minc_ok B R C carried_below fuel g i G Ui) as Ri.
    apply in_numbers; [lia|]. destruct q as [q'|]; cbn in *; [|lia]. intros ->. exact (Qg grp q' Hg eq_refl Hl Hi).
  - intros i Hi Hc. apply us_facts in Hi. destruct Hi as [Hi _]. apply unused_In in Hi. apply Hi. apply U. apply concat_filter_in in Hc. exact Hc.
  - intros grp Hg. unfold gs, carried_gs in Hg. apply filter_In in Hg. apply Hg.
Qed.
End Carried.

(** ** Carrying out the instructions is a renaming *)
Lemma ren_comp_ext rho rho' c : (forall i, In i (numbers c) -> rho i = rho' i) -> ren_comp rho c = ren_comp rho' c.
Proof.
  intros H. unfold ren_comp. f_equal.
  - f_equal. unfold ren_clocks. assert (X : forall p, In p (d_clocks (c_decls c)) -> rho (snd p) = rho' (snd p)) by (intros p Hp; apply H; apply in_map_iff; exists p; auto).
    clear H. induction (d_clocks (c_decls c)) as [|p m IH]; cbn [flat_map]; [reflexivity|]. rewrite (X p (or_introl eq_refl)), IH; [reflexivity|]. intros; apply X; right; assumption.
  - apply map_ext. intros e. unfold ren_edge. f_equal. destruct (e_update e) as [us|]; [|reflexivity]. cbn [option_map]. f_equal. apply filter_ext. intros [x a]. unfold keep_update. cbn [fst].
    destruct (assoc x (d_clocks (c_decls c))) as [i|] eqn:A; [|reflexivity]. rewrite (H i); [reflexivity|]. apply assoc_in in A. apply in_map_iff. exists (x, i). auto.
Qed.
Lemma ren_clocks_comp rho1 rho2 m : ren_clocks rho2 (ren_clocks rho1 m) = ren_clocks (fun i => match rho1 i with Some j => rho2 j | None => None end) m.
Proof.
  unfold ren_clocks. induction m as [|[n i] m IH]; cbn [flat_map fst snd]; [reflexivity|]. rewrite flat_map_app, IH. f_equal. destruct (rho1 i) as [j|]; cbn [flat_map app fst snd]; [|reflexivity].
  destruct (rho2 j); reflexivity.
Qed.
Lemma ren_comp_comp rho1 rho2 c : NoDup (map fst (d_clocks (c_decls c))) ->
  ren_comp rho2 (ren_comp rho1 c) = ren_comp (fun i => match rho1 i with Some j => rho2 j | None => None end) c.
Proof.
  intros N. unfold ren_comp. cbn [c_name c_decls c_locs c_edges c_special d_clocks d_ints]. rewrite ren_clocks_comp. f_equal. rewrite map_map. apply map_ext. intros e. unfold ren_edge. cbn [e_id e_src e_tgt e_type e_guard e_update e_sync].
  f_equal. destruct (e_update e) as [us|]; [|reflexivity]. cbn [option_map]. f_equal. rewrite filter_filter. apply filter_ext. intros [x a]. unfold keep_update. cbn [fst d_clocks].
  rewrite assoc_ren by exact N. destruct (assoc x (d_clocks (c_decls c))) as [i|]; [|reflexivity]. destruct (rho1 i); reflexivity.
Qed.
Lemma filter_all {A} (f : A -> bool) l : (forall x, In x l -> f x = true) -> filter f l = l.
Proof. induction l as [|a l IH]; cbn [filter]; intros H; [reflexivity|]. rewrite (H a (or_introl eq_refl)), IH; [reflexivity|]. intros; apply H; right; assumption. Qed.
Lemma map_id' {A} (f : A -> A) l : (forall x, f x = x) -> map f l = l.
Proof. intros H. rewrite (map_ext _ (fun x => x) H). apply map_id. Qed.
Lemma map_clocks_ren f c : map_clocks f c = ren_comp (fun i => Some (f i)) c.
Proof.
  unfold map_clocks, with_clocks, with_decls, ren_comp.
  assert (A : map (fun p => (fst p, f (snd p))) (d_clocks (c_decls c)) = ren_clocks (fun i => Some (f i)) (d_clocks (c_decls c))).
  { unfold ren_clocks. induction (d_clocks (c_decls c)) as [|[n i] m IH]; cbn [map flat_map fst snd app]; [reflexivity|]. rewrite IH. reflexivity. }
  rewrite A. f_equal.
  apply eq_sym, map_id'. intros [i s t ty g u sy]. unfold ren_edge. cbn. f_equal. destruct u as [us|]; [|reflexivity]. cbn. f_equal. apply filter_all. intros [x a] _. unfold keep_update. cbn.
  destruct (assoc x (d_clocks (c_decls c))); reflexivity.
Qed.
Definition drop (us : list nat) (i : nat) : option nat := if nin i us then None else Some i.
Lemma ren_comp_id rho c : (forall i, In i (numbers c) -> rho i = Some i) -> ren_comp rho c = c.
Proof.
  intros H. rewrite (ren_comp_ext rho (fun i => Some ((fun i => i) i)) c H), <- (map_clocks_ren (fun i => i)). destruct c as [n [cl ints] ls es sp]. unfold map_clocks, with_clocks, with_decls. cbn.
  f_equal. f_equal. apply map_id'. intros [x i]. reflexivity.
Qed.
Lemma remove_clock_ren i c : NoDup (map fst (d_clocks (c_decls c))) -> NoDup (numbers c) -> In i (numbers c) -> unread (drop [i]) c -> remove_clock i c = Ok (ren_comp (drop [i]) c).
Proof.
  intros N1 N2 Hi U. unfold remove_clock. destruct (find_number _ _ Hi) as (n & E & H). rewrite E. f_equal. destruct (U n i H) as [Ul Ue]; [unfold drop; cbn; rewrite Nat.eqb_refl; reflexivity|].
  unfold ren_comp. f_equal.
  - f_equal. rewrite (by_name_number _ _ _ N1 N2 H). unfold ren_clocks, drop. clear. induction (d_clocks (c_decls c)) as [|[m k] cl IH]; cbn [filter flat_map snd fst nin existsb]; [reflexivity|].
    rewrite orb_false_r. destruct (Nat.eqb k i); cbn [negb app]; rewrite IH; reflexivity.
  - clear - Ul. induction (c_locs c) as [|[li inv ty ur] ls IH]; cbn [map]; [reflexivity|]. rewrite IH by (intros; eapply Ul; [right|]; eauto). f_equal. cbn. f_equal. destruct inv as [g|]; [|reflexivity]. cbn.
    rewrite (Ul _ g (or_introl eq_refl) eq_refl). reflexivity.
  - assert (K : forall u, negb (String.eqb (fst u) n) = keep_update (drop [i]) (c_decls c) u).
    { intros [x a]. unfold keep_update, drop. cbn [fst]. destruct (String.eqb_spec x n) as [->|Ne].
      - rewrite (assoc_nodup _ _ _ N1 H). cbn. rewrite Nat.eqb_refl. reflexivity.
      - destruct (assoc x (d_clocks (c_decls c))) as [k|] eqn:A; [|reflexivity]. cbn. rewrite orb_false_r. destruct (Nat.eqb_spec k i) as [->|]; [|reflexivity]. apply assoc_in in A. destruct Ne. exact (snd_inj _ _ _ _ N2 A H). }
    revert Ue. generalize (c_edges c). intros es Ue. induction es as [|[ei es0 et ety eg eu esy] es IH]; cbn [map]; [reflexivity|]. rewrite IH by (intros; eapply Ue; [right|]; eauto).
    f_equal. unfold ren_edge. cbn. f_equal; [destruct eg as [g|]; [|reflexivity]; cbn; rewrite (Ue _ g (or_introl eq_refl) eq_refl); reflexivity|].
    destruct eu as [us|]; [|reflexivity]. cbn. f_equal. apply filter_ext. exact K.
Qed.
Lemma map_components_ext f g r : (forall c, In c (components r) -> f c = g c) -> map_components f r = map_components g r.
Proof. induction r; cbn [map_components components]; intros H; [rewrite H by (left; reflexivity); reflexivity| | |]; rewrite IHr1, IHr2; auto; intros; apply H, in_or_app; auto. Qed.
Lemma map_components_id f r : (forall c, In c (components r) -> f c = c) -> map_components f r = r.
Proof. induction r; cbn [map_components components]; intros H; [rewrite H by (left; reflexivity); reflexivity| | |]; rewrite IHr1, IHr2; auto; intros; apply H, in_or_app; auto. Qed.
Lemma map_components_comp f g r : map_components f (map_components g r) = map_components (fun c => f (g c)) r.
Proof. induction r; cbn [map_components]; rewrite ?IHr1, ?IHr2; reflexivity. Qed.
Definition unread_all (rho : nat -> option nat) (r : recipe) : Prop := forall c, In c (components r) -> unread rho c.
Lemma remove_from_ren i r : named_once r -> NoDup (all_numbers r) -> In i (all_numbers r) -> unread_all (drop [i]) r -> remove_from i r = Ok (map_components (ren_comp (drop [i])) r).
Proof.
  assert (Same : forall r, ~ In i (all_numbers r) -> map_components (ren_comp (drop [i])) r = r).
  { intros r0 H. apply map_components_id. intros c Hc. apply ren_comp_id. intros k Hk. unfold drop. cbn. rewrite orb_false_r. destruct (Nat.eqb_spec k i) as [->|]; [|reflexivity].
    destruct H. eapply component_numbers; eauto. }
  induction r as [c|l IHl r IHr|l IHl r IHr|l IHl r IHr q]; intros Hn N Hi U; cbn [remove_from map_components].
  - unfold all_numbers in N, Hi. cbn [components flat_map] in N, Hi. rewrite app_nil_r in N, Hi. rewrite remove_clock_ren; [|apply Hn; left; reflexivity|exact N|exact Hi|apply U; left; reflexivity].
    apply has_clock_In in Hi. rewrite Hi. reflexivity.
  - assert (Q : all_numbers (RComp l r) = all_numbers l ++ all_numbers r) by apply flat_map_app. rewrite Q in *. apply nodup_split in N. destruct N as (N1 & N2 & N3).
    destruct (existsb (has_clock i) (components l)) eqn:E.
    + apply exists_clock in E. rewrite IHl; [|intros c Hc; apply Hn, in_or_app; auto|exact N1|exact E|intros c Hc; apply U, in_or_app; auto]. cbn [bind]. rewrite (Same r) by (apply N3, E). reflexivity.
    + assert (E' : ~ In i (all_numbers l)) by (rewrite <- exists_clock; congruence). apply in_app_or in Hi. destruct Hi as [Hi|Hi]; [contradiction|].
      rewrite IHr; [|intros c Hc; apply Hn, in_or_app; auto|exact N2|exact Hi|intros c Hc; apply U, in_or_app; auto]. cbn [bind]. rewrite (Same l) by exact E'. reflexivity.
  - assert (Q : all_numbers (RConj l r) = all_numbers l ++ all_numbers r) by apply flat_map_app. rewrite Q in *. apply nodup_split in N. destruct N as (N1 & N2 & N3).
    destruct (existsb (has_clock i) (components l)) eqn:E.
    + apply exists_clock in E. rewrite IHl; [|intros c Hc; apply Hn, in_or_app; auto|exact N1|exact E|intros c Hc; apply U, in_or_app; auto]. cbn [bind]. rewrite (Same r) by (apply N3, E). reflexivity.
    + assert (E' : ~ In i (all_numbers l)) by (rewrite <- exists_clock; congruence). apply in_app_or in Hi. destruct Hi as [Hi|Hi]; [contradiction|].
      rewrite IHr; [|intros c Hc; apply Hn, in_or_app; auto|exact N2|exact Hi|intros c Hc; apply U, in_or_app; auto]. cbn [bind]. rewrite (Same l) by exact E'. reflexivity.
  - assert (Q : all_numbers (RQuot l r q) = all_numbers l ++ all_numbers r) by apply flat_map_app. rewrite Q in *. apply nodup_split in N. destruct N as (N1 & N2 & N3).
    destruct (existsb (has_clock i) (components l)) eqn:E.
    + apply exists_clock in E. rewrite IHl; [|intros c Hc; apply Hn, in_or_app; auto|exact N1|exact E|intros c Hc; apply U, in_or_app; auto]. cbn [bind]. rewrite (Same r) by (apply N3, E). reflexivity.
    + assert (E' : ~ In i (all_numbers l)) by (rewrite <- exists_clock; congruence). apply in_app_or in Hi. destruct Hi as [Hi|Hi]; [contradiction|].
      rewrite IHr; [|intros c Hc; apply Hn, in_or_app; auto|exact N2|exact Hi|intros c Hc; apply U, in_or_app; auto]. cbn [bind]. rewrite (Same l) by exact E'. reflexivity.
Qed.
Lemma removals_ren us : forall r, named_once r -> NoDup (all_numbers r) -> NoDup us -> incl us (all_numbers r) -> unread_all (drop us) r ->
  reduce_clocks (map RemoveClock us) r = Ok (map_components (ren_comp (drop us)) r).
Proof.
  unfold reduce_clocks. induction us as [|u us IH]; intros r Hn N Nu I U; cbn [map foldM].
  - rewrite map_components_id; [reflexivity|]. intros c _. apply ren_comp_id. intros i _. reflexivity.
  - inversion Nu as [|? ? N1 N2]; subst. cbn [apply_instr].
    assert (U1 : unread_all (drop [u]) r). { intros c Hc n i Hi E. apply (U c Hc n i Hi). unfold drop in *. cbn in *. rewrite orb_false_r in E. destruct (Nat.eqb i u); [reflexivity|discriminate]. }
    destruct (remove_from_numbers u r Hn N (I u (or_introl eq_refl))) as (r1 & E & A & B & _). pose proof (remove_from_ren u r Hn N (I u (or_introl eq_refl)) U1) as E'. rewrite E. cbn [bind].
    rewrite E in E'. injection E' as ->. rewrite IH; [|exact B|rewrite A; apply NoDup_filter, N|exact N2| |].
    + rewrite map_components_comp. f_equal. apply map_components_ext. intros c Hc. rewrite ren_comp_comp by (apply Hn, Hc). apply ren_comp_ext. intros i _. unfold drop. cbn [nin existsb]. rewrite orb_false_r. fold (nin i us).
      destruct (Nat.eqb i u); reflexivity.
    + intros k Hk. rewrite A. apply filter_In. split; [apply I; right; exact Hk|]. apply negb_true_iff, Nat.eqb_neq. intros ->. contradiction.
    + intros c' Hc'. rewrite components_map in Hc'. apply in_map_iff in Hc'. destruct Hc' as (c & <- & Hc). intros n i Hi E1. cbn [ren_comp c_decls d_clocks c_locs c_edges] in *.
      apply ren_clocks_in in Hi. destruct Hi as (i0 & Hi & E0). unfold drop in E0. cbn in E0. destruct (Nat.eqb_spec i0 u) as [->|Ne]; [discriminate|]. cbn in E0. injection E0 as ->.
      destruct (U c Hc n i Hi) as [Ul Ue]; [unfold drop in *; cbn; destruct (Nat.eqb_spec i u); [contradiction|]; exact E1|]. split; [exact Ul|].
      intros e g He Hg. apply in_map_iff in He. destruct He as (e0 & <- & He). cbn in Hg. eapply Ue; eauto.
Qed.
Lemma merges_ren gs : forall r, named_once r -> reduce_clocks (map replace_group gs) r = Ok (map_components (ren_comp (fun i => Some (merge gs i))) r).
Proof.
  unfold reduce_clocks. induction gs as [|grp gs IH]; intros r Hn; cbn [map foldM].
  - rewrite map_components_id; [reflexivity|]. intros c _. apply ren_comp_id. intros i _. reflexivity.
  - cbn [apply_instr replace_group bind]. rewrite IH.
    + f_equal. rewrite map_components_comp. apply map_components_ext. intros c Hc. unfold replace_clock. rewrite map_clocks_ren, ren_comp_comp by (apply Hn, Hc). reflexivity.
    + intros c Hc. rewrite components_map in Hc. apply in_map_iff in Hc. destruct Hc as (c0 & <- & Hc). unfold replace_clock. rewrite names_map. apply Hn, Hc.
Qed.
Lemma named_once_ren rho r : named_once r -> named_once (map_components (ren_comp rho) r).
Proof. intros H c Hc. rewrite components_map in Hc. apply in_map_iff in Hc. destruct Hc as (c0 & <- & Hc). cbn. apply ren_clocks_nodup, H, Hc. Qed.
Lemma ren_recipe_change rho f q r : (forall c, In c (components r) -> f c = ren_comp rho c) -> (forall q', In q' (quotient_clocks r) -> total rho q' = q) ->
  change_quotient q (map_components f r) = ren_recipe rho r.
Proof.
  induction r as [c|l IHl r IHr|l IHl r IHr|l IHl r IHr q']; cbn [map_components change_quotient ren_recipe components quotient_clocks]; intros Hc Hq.
  - rewrite Hc by (left; reflexivity). reflexivity.
  - rewrite IHl, IHr; auto; intros; [apply Hc|apply Hq|apply Hc|apply Hq]; apply in_or_app; auto.
  - rewrite IHl, IHr; auto; intros; [apply Hc|apply Hq|apply Hc|apply Hq]; apply in_or_app; auto.
  - rewrite IHl, IHr, (Hq q' (or_introl eq_refl)); auto; intros; [apply Hc|apply Hq; right|apply Hc|apply Hq; right]; apply in_or_app; auto.
Qed.
Lemma change_none q r : quotient_clocks r = [] -> change_quotient q r = r.
Proof.
  induction r as [c|l IHl r IHr|l IHl r IHr|l IHl r IHr q']; cbn [change_quotient quotient_clocks]; intros H; [reflexivity| | |discriminate];
  apply app_eq_nil in H; destruct H as [H1 H2]; rewrite IHl, IHr; auto.
Qed.
Lemma merge_eq gs i k : NoDup (List.concat gs) -> merge gs i = merge gs k -> i = k \/ exists grp, In grp gs /\ In i grp /\ In k grp.
Proof.
  intros N E. destruct (merge_cases gs i N) as [[Ni Ei]|(g1 & G1 & Hi & Ei)], (merge_cases gs k N) as [[Nk Ek]|(g2 & G2 & Hk & Ek)].
  - left. congruence.
  - destruct Ni. assert (L : In (lowest g2) g2) by (apply lowest_in; intros ->; destruct Hk). apply in_concat. exists g2. split; [exact G2|]. congruence.
  - destruct Nk. assert (L : In (lowest g1) g1) by (apply lowest_in; intros ->; destruct Hi). apply in_concat. exists g1. split; [exact G1|]. congruence.
  - right. exists g1. split; [exact G1|]. split; [exact Hi|]. assert (L1 : In (lowest g1) g1) by (apply lowest_in; intros ->; destruct Hi). assert (L2 : In (lowest g2) g2) by (apply lowest_in; intros ->; destruct Hk).
    assert (E' : lowest g1 = lowest g2) by congruence. rewrite <- E' in L2. clear - N G1 G2 L1 L2 Hk. induction gs as [|g gs IH]; [destruct G1|]. cbn [List.concat] in N. apply nodup_split in N. destruct N as (_ & N2 & N3).
    destruct G1 as [->|G1], G2 as [->|G2]; [exact Hk| | |auto].
    + destruct (N3 _ L1). apply in_concat. eauto.
    + destruct (N3 _ L2). apply in_concat. eauto.
Qed.

(** The renaming as a whole. *)
Section Whole.
Variables (r : recipe) (dim : nat) (q : option nat) (us : list nat) (gs : list (list nat)).
Hypothesis Hn : named_once r.
Hypothesis P : Permutation (all_numbers r ++ opt_clock q) (seq 1 dim).
Hypothesis Q : forall q', In q' (quotient_clocks r) -> q = Some q'.
Hypothesis Nu : NoDup us.
Hypothesis Iu : incl us (all_numbers r).
Hypothesis Ng : NoDup (List.concat gs).
Hypothesis Ig : incl (List.concat gs) (all_numbers r).
Hypothesis Ug : forall i, In i us -> ~ In i (List.concat gs).
Hypothesis U : unread_all (drop us) r.
Let L : list nat := map (merge gs) (kept_numbers r us).
Let dim' : nat := dim - total_removed (map RemoveClock us ++ map replace_group gs).
Definition shrink (i : nat) : option nat :=
  if Nat.eqb i 0 then Some 0
  else if nin i (all_numbers r) then (if nin i us then None else Some (compressed L (merge gs i)))
  else match q with Some q' => if Nat.eqb i q' then Some dim' else None | None => None end.

Lemma zero_out : ~ In 0 (all_numbers r).
Proof. intros H. assert (X : In 0 (seq 1 dim)) by (apply (Permutation_in _ P), in_or_app; auto). apply in_seq in X. lia. Qed.
Lemma shrink_number i : In i (all_numbers r) -> shrink i = if nin i us then None else Some (compressed L (merge gs i)).
Proof.
  intros H. unfold shrink. destruct (Nat.eqb_spec i 0) as [->|]; [destruct (zero_out H)|]. apply nin_In in H. rewrite H. reflexivity.
Qed.
Lemma shrink_q q' : q = Some q' -> shrink q' = Some dim'.
Proof.
  intros Eq. rewrite Eq in P. cbn [opt_clock] in P. assert (X : In q' (seq 1 dim)) by (apply (Permutation_in _ P), in_or_app; cbn; auto). apply in_seq in X.
  assert (Y : ~ In q' (all_numbers r)).
  { assert (N : NoDup (all_numbers r ++ [q'])) by (eapply Permutation_NoDup; [symmetry; exact P|apply seq_NoDup]). apply nodup_split in N. destruct N as (_ & _ & N). intros H. apply (N q' H). left. reflexivity. }
  apply nin_false in Y. unfold shrink. destruct (Nat.eqb_spec q' 0); [lia|]. rewrite Y, Eq, Nat.eqb_refl. reflexivity.
Qed.
Lemma merged_in i : In i (all_numbers r) -> ~ In i us -> In (merge gs i) L.
Proof. intros H1 H2. apply in_map, filter_In. split; [exact H1|]. apply negb_true_iff, nin_false, H2. Qed.
Lemma whole_count : distinct L + List.length (opt_clock q) = dim'.
Proof. pose proof (shrink_count r dim q us gs P Nu Iu Ng Ig Ug L eq_refl). unfold dim'. lia. Qed.
Lemma shrink_renames : renames shrink (dim + 1) (dim' + 1).
Proof.
  constructor; [reflexivity|]. intros i j E Hi. unfold shrink in E. destruct (Nat.eqb_spec i 0); [contradiction|]. pose proof whole_count as W.
  destruct (nin i (all_numbers r)) eqn:Ei.
  - apply nin_In in Ei. destruct (nin i us) eqn:Eu; [discriminate|]. apply nin_false in Eu. injection E as <-. destruct (compressed_facts L) as (F & _). specialize (F _ (merged_in i Ei Eu)).
    assert (X : In i (seq 1 dim)) by (apply (Permutation_in _ P), in_or_app; auto). apply in_seq in X. lia.
  - destruct q as [q'|]; [|discriminate]. cbn in W. destruct (Nat.eqb_spec i q') as [->|]; [|discriminate]. injection E as <-.
    assert (X : In q' (seq 1 dim)) by (apply (Permutation_in _ P), in_or_app; cbn; auto). apply in_seq in X. lia.
Qed.
Lemma shrink_same i k j : shrink i = Some j -> shrink k = Some j -> i = k \/ exists grp, In grp gs /\ In i grp /\ In k grp.
Proof.
  intros Ei Ek. destruct (Nat.eq_dec i 0) as [->|Ni], (Nat.eq_dec k 0) as [->|Nk]; [auto| | |].
  - destruct (rn_range _ _ _ shrink_renames _ _ Ek Nk) as [X _]. cbn in Ei. congruence.
  - destruct (rn_range _ _ _ shrink_renames _ _ Ei Ni) as [X _]. cbn in Ek. congruence.
  - unfold shrink in Ei, Ek. destruct (Nat.eqb_spec i 0); [contradiction|]. destruct (Nat.eqb_spec k 0); [contradiction|]. pose proof whole_count as W. destruct (compressed_facts L) as (F1 & F2 & _).
    destruct (nin i (all_numbers r)) eqn:Ai, (nin k (all_numbers r)) eqn:Ak.
    + apply nin_In in Ai. apply nin_In in Ak. destruct (nin i us) eqn:Bi; [discriminate|]. destruct (nin k us) eqn:Bk; [discriminate|]. apply nin_false in Bi. apply nin_false in Bk.
      injection Ei as <-. injection Ek as Ek. apply F2 in Ek; [|apply merged_in; assumption|apply merged_in; assumption]. destruct (merge_eq gs k i Ng Ek) as [->|(grp & G & H1 & H2)]; [auto|]. right. exists grp. auto.
    + apply nin_In in Ai. destruct (nin i us) eqn:Bi; [discriminate|]. apply nin_false in Bi. injection Ei as <-. specialize (F1 _ (merged_in i Ai Bi)).
      destruct q as [q'|]; [|discriminate]. destruct (Nat.eqb_spec k q'); [|discriminate]. injection Ek as Ek. cbn in W. lia.
    + apply nin_In in Ak. destruct (nin k us) eqn:Bk; [discriminate|]. apply nin_false in Bk. injection Ek as <-. specialize (F1 _ (merged_in k Ak Bk)).
      destruct q as [q'|]; [|discriminate]. destruct (Nat.eqb_spec i q'); [|discriminate]. injection Ei as Ei. cbn in W. lia.
    + destruct q as [q'|]; [|discriminate]. destruct (Nat.eqb_spec i q'); [|discriminate]. destruct (Nat.eqb_spec k q'); [|discriminate]. left. congruence.
Qed.
Lemma whole_reduce : exists r1, reduce_clocks (map RemoveClock us ++ map replace_group gs) r = Ok r1 /\
  (match q with Some _ => change_quotient dim' (map_components (map_clocks (compressed (all_clocks r1))) r1) | None => map_components (map_clocks (compressed (all_clocks r1))) r1 end) = ren_recipe shrink r.
Proof.
  destruct (shrink_numbers r dim q us gs Hn P Nu Iu) as (r1 & E & A & B). exists r1. split; [exact E|]. rewrite A. fold L.
  unfold reduce_clocks in E. rewrite foldM_app in E. pose proof (removals_ren us r Hn (numbers_nodup r dim q P) Nu Iu U) as E1. unfold reduce_clocks in E1. rewrite E1 in E. cbn [bind] in E.
  pose proof (merges_ren gs (map_components (ren_comp (drop us)) r) (named_once_ren _ _ Hn)) as E2. unfold reduce_clocks in E2. rewrite E2 in E. injection E as <-.
  set (f := fun c => map_clocks (compressed L) (ren_comp (fun i => Some (merge gs i)) (ren_comp (drop us) c))). rewrite !map_components_comp. fold f.
  assert (F : forall c, In c (components r) -> f c = ren_comp shrink c).
  { intros c Hc. unfold f. rewrite map_clocks_ren, ren_comp_comp; [|cbn; apply ren_clocks_nodup, Hn, Hc]. rewrite ren_comp_comp by (apply Hn, Hc). apply ren_comp_ext. intros i Hi.
    rewrite shrink_number by (eapply component_numbers; eauto). unfold drop. destruct (nin i us); reflexivity. }
  assert (T : forall q', In q' (quotient_clocks r) -> total shrink q' = dim'). { intros q' Hq. unfold total. rewrite (shrink_q q' (Q q' Hq)). reflexivity. }
  destruct q as [q'|] eqn:Eq; [apply ren_recipe_change; assumption|].
  assert (Z : quotient_clocks r = []) by (destruct (quotient_clocks r) as [|x l]; [reflexivity|specialize (Q x (or_introl eq_refl)); discriminate]).
  rewrite <- (change_none dim' (map_components f r)) by (rewrite quotients_map; exact Z). apply ren_recipe_change; assumption.
Qed.
Lemma shrink_unread c : In c (components r) -> unread shrink c.
Proof.
  intros Hc n i Hi E. apply (U c Hc n i Hi). rewrite shrink_number in E; [unfold drop; destruct (nin i us); [reflexivity|discriminate]|]. eapply component_numbers; [exact Hc|]. apply in_map_iff. exists (n, i). auto.
Qed.
Lemma shrink_injective : gs = [] -> injective shrink.
Proof. intros E i k j Hi Hk. destruct (shrink_same i k j Hi Hk) as [X|(grp & G & _)]; [exact X|]. rewrite E in G. destruct G. Qed.
End Whole.
