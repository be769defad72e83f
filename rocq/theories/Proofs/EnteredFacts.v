(** Pruning a component takes away every edge into an inconsistent location. *)
From Coq Require Import List String ZArith QArith Bool Arith Lia.
From Verif Require Import Fed.Zone Fed.ZoneFacts Model.Base Model.Expr Model.Guard Model.Loc Model.Component Model.TS Model.Enable Model.Files Model.Search Model.Save Model.Prune
  Spec.GuardSpec Spec.ConvSpec Spec.StepSpec Spec.SystemSpec Spec.RunSpec Spec.EnableSpec Spec.PruneSpec
  Proofs.GuardFacts Proofs.SystemFacts Proofs.WfFacts Proofs.EnableFacts Proofs.CompileFacts Proofs.FileFacts Proofs.PruneFacts.
Import ListNotations.
Local Open Scope nat_scope.
Local Open Scope list_scope.

Section Entered.
Variables (dim : nat) (minc : fed -> fed) (predt : fed -> fed -> fed) (c : component) (ids : list string).
Let cnt (x : pctx) (e : edge) : nat := count_occ edge_dec (p_edges x) e.

Definition all_parts (x : pctx) : Prop := forall n, In n ids -> exists p, assoc n (p_parts x) = Some p /\ forall v, val_ok dim v -> fsem dim p v.

Lemma count_remove e es e' : count_occ edge_dec (remove_first e es) e' = if edge_dec e e' then pred (count_occ edge_dec es e') else count_occ edge_dec es e'.
Proof.
  induction es as [|y es IH]; cbn [remove_first count_occ]; [destruct (edge_dec e e'); reflexivity|].
  unfold edge_eqb. destruct (edge_dec y e) as [->|N].
  - destruct (edge_dec e e'); reflexivity.
  - cbn [count_occ]. rewrite IH. destruct (edge_dec y e') as [->|N'], (edge_dec e e') as [->|N2]; try reflexivity. congruence.
Qed.
Lemma count_guard e g es e' : e_tgt e' <> e_tgt e -> count_occ edge_dec (guard_first e g es) e' = count_occ edge_dec es e'.
Proof.
  intros T. induction es as [|y es IH]; cbn [guard_first count_occ]; [reflexivity|]. unfold edge_eqb. destruct (edge_dec y e) as [->|N].
  - cbn [count_occ]. destruct (edge_dec (with_guard e g) e') as [<-|_]; [destruct T; reflexivity|]. destruct (edge_dec e e') as [<-|_]; [destruct T; reflexivity|reflexivity].
  - cbn [count_occ]. rewrite IH. reflexivity.
Qed.

Record goes (x x' : pctx) : Prop := {
  gs_parts : all_parts x -> all_parts x';
  gs_todo : incl (p_todo x) (p_todo x');
  gs_cnt : forall e', In (e_tgt e') ids -> cnt x' e' <= cnt x e' }.
Lemma goes_refl x : goes x x.
Proof. split; [auto|apply incl_refl|auto]. Qed.
Lemma goes_trans x y z : goes x y -> goes y z -> goes x z.
Proof. intros [A1 A2 A3] [B1 B2 B3]. split; [auto|eapply incl_tran; eauto|]. intros e' H. specialize (A3 e' H). specialize (B3 e' H). lia. Qed.

Lemma goes_remove x e : goes x (remove_edge x e).
Proof.
  split; [auto|apply incl_refl|]. intros e' _. unfold cnt, remove_edge. cbn [p_edges]. rewrite count_remove. destruct (edge_dec e e'); lia.
Qed.
Lemma goes_source x n f : goes x (process_source dim n f x).
Proof.
  unfold process_source. destruct (fempty dim f); [apply goes_refl|].
  assert (P : forall t ps, all_parts x -> all_parts (mkP (p_edges x) t (put n (match incons x n with Some p => funion f p | None => f end) (p_parts x)) ps)).
  { intros t ps A k Hk. cbn [p_parts]. rewrite assoc_put. destruct (A k Hk) as (p & E & U). destruct (String.eqb_spec k n) as [->|N]; [|eauto].
    eexists. split; [reflexivity|]. intros v Hv. unfold incons. rewrite E. apply funion_sem. right. auto. }
  destruct (existsb _ _); (split; [apply P| |intros e' _; unfold cnt; cbn [p_edges]; lia]); [apply incl_refl|intros k Hk; right; exact Hk].
Qed.
Lemma goes_unsat e x x' : remove_if_unsat dim c e x = Ok x' -> goes x x'.
Proof.
  intros E. unfold remove_if_unsat in E. inv_bind E. inv_bind E. inv_bind E. inv_bind E. inv_bind E. inv_bind E.
  destruct (fempty _ _); injection E as <-; [apply goes_remove|apply goes_refl].
Qed.
Lemma goes_input e x x' : handle_input dim predt c e x = Ok x' -> goes x x'.
Proof.
  intros E. unfold handle_input in E. inv_bind E. inv_bind E. inv_bind E. inv_bind E.
  destruct (fempty dim a2); [injection E as <-; apply goes_refl|]. inv_bind E. inv_bind E. eapply goes_trans; [|eapply goes_unsat; exact E].
  destruct (fempty dim a3); [injection H4 as <-; apply goes_refl|]. inv_bind H4. inv_bind H4. injection H4 as <-. apply goes_source.
Qed.
Lemma goes_shrink e x x' : all_parts x -> shrink_edge dim minc c e x = Ok x' ->
  goes x x' /\ (In (e_tgt e) ids -> cnt x' e <= pred (cnt x e)).
Proof.
  intros A E. unfold shrink_edge in E. inv_bind E.
  assert (R : cnt (remove_edge x e) e <= pred (cnt x e)).
  { unfold cnt, remove_edge. cbn [p_edges]. rewrite count_remove. destruct (edge_dec e e); [lia|congruence]. }
  destruct (fisuniv dim a) eqn:U; [injection E as <-; split; [apply goes_remove|auto]|].
  assert (N : ~ In (e_tgt e) ids).
  { intros Hin. destruct (A _ Hin) as (p & Ep & Up). unfold incons in H. rewrite Ep in H. injection H as <-.
    assert (X : fisuniv dim p = true) by (apply fisuniv_true; exact Up). congruence. }
  split; [|intros Hin; destruct (N Hin)].
  inv_bind E. inv_bind E. destruct (fempty _ _); [injection E as <-; apply goes_remove|]. unfold update_edge_guard in E.
  destruct (existsb _ _); [|injection E as <-; apply goes_refl]. inv_bind E. injection E as <-. split; [auto|apply incl_refl|].
  intros e' He'. unfold cnt. cbn [p_edges]. rewrite count_guard; [lia|]. intros T. apply N. congruence.
Qed.
Lemma goes_edge e x x' : all_parts x -> handle_edge dim minc predt c x e = Ok x' -> goes x x' /\ (In (e_tgt e) ids -> cnt x' e <= pred (cnt x e)).
Proof.
  intros A E. unfold handle_edge in E. inv_bind E. assert (G1 : goes x a) by (destruct (synctype_eqb _ _); [eapply goes_input; exact H|injection H as <-; apply goes_refl]).
  unfold handle_output in E. inv_bind E. inv_bind E. inv_bind E. destruct (goes_shrink e a a0 (gs_parts _ _ G1 A) H0) as [G2 D].
  assert (G3 : goes a0 x') by (destruct (fcan_delay _ _); [injection E as <-; apply goes_refl|inv_bind E; injection E as <-; apply goes_source]).
  split; [exact (goes_trans _ _ _ G1 (goes_trans _ _ _ G2 G3))|]. intros Hin. pose proof (gs_cnt _ _ G1 e Hin). pose proof (gs_cnt _ _ G3 e Hin). specialize (D Hin). lia.
Qed.
Lemma goes_edges n : In n ids -> forall es x x', (forall e, In e es -> e_tgt e = n) -> all_parts x -> foldM (handle_edge dim minc predt c) es x = Ok x' ->
  goes x x' /\ forall e', In (e_tgt e') ids -> cnt x' e' <= cnt x e' - count_occ edge_dec es e'.
Proof.
  intros Hn es. induction es as [|e es IH]; intros x x' T A E; cbn [foldM] in E.
  - injection E as <-. split; [apply goes_refl|]. intros e' _. cbn [count_occ]. lia.
  - inv_bind E. destruct (goes_edge e x a A H) as [G D].
    destruct (IH a x' (fun y Hy => T y (or_intror Hy)) (gs_parts _ _ G A) E) as [G' D'].
    split; [eapply goes_trans; eauto|]. intros e' He'. specialize (D' e' He'). pose proof (gs_cnt _ _ G e' He'). cbn [count_occ].
    destruct (edge_dec e e') as [<-|Ne]; [specialize (D He')|]; lia.
Qed.
Lemma goes_any es x x' : all_parts x -> foldM (handle_edge dim minc predt c) es x = Ok x' -> goes x x'.
Proof.
  revert x. induction es as [|e es IH]; intros x A E; cbn [foldM] in E; [injection E as <-; apply goes_refl|]. inv_bind E.
  destruct (goes_edge e x a A H) as [G _]. eapply goes_trans; [exact G|]. apply IH; [apply (gs_parts _ _ G A)|exact E].
Qed.
Lemma count_filter n es e : e_tgt e = n -> count_occ edge_dec (filter (fun e => String.eqb (e_tgt e) n) es) e = count_occ edge_dec es e.
Proof.
  intros T. induction es as [|y es IH]; cbn [filter count_occ]; [reflexivity|]. destruct (String.eqb_spec (e_tgt y) n) as [Ey|Ny]; cbn [count_occ].
  - rewrite IH. reflexivity.
  - destruct (edge_dec y e) as [->|_]; [congruence|exact IH].
Qed.

Lemma entered_loop fuel : forall x x', all_parts x ->
  (forall e, In (e_tgt e) ids -> cnt x e <= count_occ edge_dec (c_edges c) e /\ (In (e_tgt e) (p_todo x) \/ cnt x e = 0)) ->
  prune_loop dim minc predt c fuel x = Ok x' -> all_parts x' /\ forall e, In (e_tgt e) ids -> cnt x' e = 0.
Proof.
  induction fuel as [|f IH]; intros x x' A I E; cbn [prune_loop] in E; [discriminate|]. destruct (p_todo x) as [|n rest] eqn:T.
  - injection E as <-. split; [exact A|]. intros e He. destruct (I e He) as [_ [[]|Z]]. exact Z.
  - inv_bind E. unfold prune_location in H. set (y := mkP (p_edges x) rest (p_parts x) (p_passed x)) in *.
    assert (Ay : all_parts y) by exact A.
    pose proof (goes_any _ _ _ Ay H) as G.
    eapply IH; [apply (gs_parts _ _ G Ay)| |exact E]. intros e He. destruct (I e He) as [L O]. pose proof (gs_cnt _ _ G e He) as M. change (cnt y e) with (cnt x e) in M.
    split; [lia|]. destruct O as [[->|O]|O].
    + right. destruct (goes_edges (e_tgt e) He _ y a ltac:(intros e0 H0; apply filter_In in H0; apply String.eqb_eq; apply H0) Ay H) as [_ D].
      specialize (D e He). rewrite count_filter in D by reflexivity. change (cnt y e) with (cnt x e) in D. lia.
    + left. apply (gs_todo _ _ G). exact O.
    + right. lia.
Qed.
End Entered.

Lemma init_all : forall l m n, In n l \/ assoc n m = Some funiv -> assoc n (fold_left (fun m n => put n funiv m) l m) = Some funiv.
Proof.
  intros l. induction l as [|k l IH]; intros m n H; cbn [fold_left]; [destruct H as [[]|H]; exact H|]. apply IH. rewrite assoc_put.
  destruct (String.eqb_spec n k) as [->|N]; [right; reflexivity|]. destruct H as [[->|H]|H]; [congruence|left; exact H|right; exact H].
Qed.
Lemma inconsistent_ids_all dim c ids l : inconsistent_ids dim c = Ok ids -> In l (c_locs c) -> l_type l = Inconsistent -> In (l_id l) ids.
Proof.
  unfold inconsistent_ids. intros E Hl T. inv_bind E. injection E as <-. destruct (mapM_in _ _ _ H) as [M _]. destruct (M l Hl) as (x & Hx & Ex). inv_bind Ex.
  destruct (lt_simple_id _ _ _ _ H0) as [_ Ty]. unfold is_inconsistent in Ex. rewrite Ty, T in Ex. injection Ex as <-. apply in_concat. exists [l_id l]. split; [exact Hx|left; reflexivity].
Qed.

Lemma pruned_entered dim minc predt c fuel c' : pruned dim minc predt c fuel = Ok c' ->
  forall l e, In l (c_locs c) -> l_type l = Inconsistent -> In e (c_edges c') -> e_tgt e <> l_id l.
Proof.
  intros E l e Hl T He Te. destruct (pruned_inv _ _ _ _ _ _ E) as (ids & x & ls & E1 & E2 & E3 & ->). cbn [c_edges] in He.
  pose proof (inconsistent_ids_all _ _ _ _ E1 Hl T) as Hin.
  edestruct (entered_loop dim minc predt c ids fuel) as [_ Z]; [| |exact E2|].
  - intros n Hn. exists funiv. split; [cbn [p_parts]; apply init_all; left; exact Hn|]. intros v Hv. apply funiv_sem. exact Hv.
  - intros e0 H0. cbn [p_edges p_todo]. split; [lia|]. left. rewrite <- in_rev. exact H0.
  - specialize (Z e ltac:(rewrite Te; exact Hin)). apply (count_occ_In edge_dec) in He. lia.
Qed.

(** The compiled result never enters one. *)
Lemma never_entered dim c ins outs id cc : compile_with_actions dim c ins outs id = Ok cc ->
  (forall l e, In l (c_locs c) -> l_type l = Inconsistent -> In e (c_edges c) -> e_tgt e <> l_id l) ->
  forall l a t, lt_type l <> Inconsistent -> offered dim (TSimple cc) l a t -> lt_type (t_target t) <> Inconsistent.
Proof.
  intros E N l a t Hl (Ha & ts & Ets & Ht). apply has_action_spec in Ha. cbn [next_transitions] in Ets. rewrite Ha in Ets. cbn [negb] in Ets.
  destruct (is_universal l); [injection Ets as <-; destruct Ht as [<-|[]]; exact Hl|].
  destruct (is_inconsistent l && sin a (cc_inputs cc)); [injection Ets as <-; destruct Ht as [<-|[]]; exact Hl|].
  inv_bind Ets. injection Ets as <-. apply in_map_iff in Ht. destruct Ht as ([b t'] & <- & Ht). apply filter_In in Ht. destruct Ht as [Ht _]. cbn [snd].
  destruct (assoc_loc (lt_id l) (cc_edges cc)) as [es|] eqn:A; [|discriminate]. injection H as ->.
  unfold assoc_loc in A. destruct (find _ (cc_edges cc)) as [[i es']|] eqn:Fi; [|discriminate]. cbn in A. injection A as ->. apply find_some in Fi. destruct Fi as [Hi _]. destruct (compiled_edge _ _ _ _ _ _ E _ _ _ _ Hi Ht) as (e & He & _ & _ & F).
  unfold from_component_and_edge in F. inv_bind F. inv_bind F. inv_bind F. inv_bind F. injection F as <-. cbn [t_target].
  destruct (get_location_unique _ _ _ H) as (Hin & Hid & _). destruct (lt_simple_id _ _ _ _ H0) as [_ Ty]. rewrite Ty. intros C. exact (N _ e Hin C He (eq_sym Hid)).
Qed.

Lemma run_stays dim c ins outs id cc : compile_with_actions dim c ins outs id = Ok cc ->
  (forall l e, In l (c_locs c) -> l_type l = Inconsistent -> In e (c_edges c) -> e_tgt e <> l_id l) ->
  forall l v, reachable dim (TSimple cc) l v -> lt_type l <> Inconsistent.
Proof.
  intros E N l v (l0 & E0 & _ & R). induction R as [|l' v' t R IH Ht Hi|l' v' a t R IH Ho Ha].
  - cbn [initial_location] in E0. destruct (compile_inv _ _ _ _ _ _ E) as (ls & es & _ & _ & _ & _ & _ & _ & Ei). rewrite Ei in E0. apply find_some in E0. destruct E0 as [_ E0].
    intros C. unfold is_initial in E0. rewrite C in E0. discriminate.
  - exact IH.
  - eapply never_entered; eassumption.
Qed.

(** No saved location is an inconsistent one. *)
Lemma not_inconsistent dim minc ord cord fuel s st c : combine_components dim minc ord cord fuel s st = Ok c -> forall l, In l (c_locs c) -> l_type l <> Inconsistent.
Proof.
  unfold combine_components. intros E l Hl. inv_bind E. inv_bind E. inv_bind E. injection E as <-. cbn [c_locs] in Hl.
  destruct (mapM_in _ _ _ H1) as [_ M]. destruct (M l Hl) as (u & _ & Eu). unfold save_location in Eu. inv_bind Eu. injection Eu as <-. cbn [l_type]. destruct (is_initial u); discriminate.
Qed.
