(** Pruning keeps what can never fail, and all consistent states when no output is passed over. *)
From Coq Require Import List String ZArith QArith Bool Arith Lia Lqa.
From Verif Require Import Fed.Zone Fed.ZoneFacts Model.Base Model.Expr Model.Guard Model.Loc Model.Component Model.TS Model.Enable Model.Files Model.Search Model.Save Model.Prune
  Spec.GuardSpec Spec.ConvSpec Spec.StepSpec Spec.EnableSpec Spec.PruneSpec
  Proofs.GuardFacts Proofs.ConvFacts Proofs.StepFacts Proofs.SystemFacts Proofs.WfFacts Proofs.EnableFacts Proofs.CompileFacts Proofs.FileFacts.
Import ListNotations.
Local Open Scope list_scope.

Lemma edge_eqb_spec a b : edge_eqb a b = true <-> a = b.
Proof. unfold edge_eqb. destruct (edge_dec a b); split; congruence. Qed.

Lemma with_guard_same e g : same_but_guard e (with_guard e g).
Proof. repeat split. Qed.
Lemma same_refl e : same_but_guard e e.
Proof. repeat split. Qed.
Lemma same_trans a b e : same_but_guard a b -> same_but_guard b e -> same_but_guard a e.
Proof. intros (A1 & A2 & A3 & A4 & A5 & A6) (B1 & B2 & B3 & B4 & B5 & B6). repeat split; congruence. Qed.

Lemma in_remove x e es : In x (remove_first e es) -> In x es.
Proof. induction es as [|y es IH]; cbn [remove_first]; [auto|]. destruct (edge_eqb y e); [intros; right; auto|]. intros [->|H]; [left|right]; auto. Qed.
Lemma in_remove_other x e es : In x es -> x <> e -> In x (remove_first e es).
Proof.
  intros H N. induction es as [|y es IH]; [destruct H|]. cbn [remove_first]. destruct (edge_eqb y e) eqn:E.
  - apply edge_eqb_spec in E. subst y. destruct H as [->|H]; [congruence|exact H].
  - destruct H as [->|H]; [left; reflexivity|right; auto].
Qed.
Lemma in_guard x e g es : In x (guard_first e g es) -> In x es \/ (x = with_guard e g /\ In e es).
Proof.
  induction es as [|y es IH]; cbn [guard_first]; [intros []|]. destruct (edge_eqb y e) eqn:E.
  - apply edge_eqb_spec in E. subst y. intros [<-|H]; [right; split; [reflexivity|left; reflexivity]|left; right; exact H].
  - intros [->|H]; [left; left; reflexivity|]. destruct (IH H) as [X|[X Y]]; [left; right; exact X|right; split; [exact X|right; exact Y]].
Qed.
Lemma in_guard_other x e g es : In x es -> x <> e -> In x (guard_first e g es).
Proof.
  intros H N. induction es as [|y es IH]; [destruct H|]. cbn [guard_first]. destruct (edge_eqb y e) eqn:E.
  - apply edge_eqb_spec in E. subst y. destruct H as [->|H]; [congruence|right; exact H].
  - destruct H as [->|H]; [left; reflexivity|right; auto].
Qed.
Lemma in_guard_self e g es : In e es -> In (with_guard e g) (guard_first e g es).
Proof.
  intros H. induction es as [|y es IH]; [destruct H|]. cbn [guard_first]. destruct (edge_eqb y e) eqn:E.
  - apply edge_eqb_spec in E. subst y. left. reflexivity.
  - destruct H as [->|H]; [assert (edge_eqb e e = true) by (apply edge_eqb_spec; reflexivity); congruence|right; auto].
Qed.
Lemma filter_remove (b : edge -> bool) e es : b e = false -> filter b (remove_first e es) = filter b es.
Proof.
  intros N. induction es as [|y es IH]; cbn [remove_first filter]; [reflexivity|]. destruct (edge_eqb y e) eqn:E.
  - apply edge_eqb_spec in E. subst y. rewrite N. reflexivity.
  - cbn [filter]. rewrite IH. reflexivity.
Qed.
Lemma filter_guard (b : edge -> bool) e g es : b e = false -> b (with_guard e g) = false -> filter b (guard_first e g es) = filter b es.
Proof.
  intros N N'. induction es as [|y es IH]; cbn [guard_first filter]; [reflexivity|]. destruct (edge_eqb y e) eqn:E.
  - apply edge_eqb_spec in E. subst y. cbn [filter]. rewrite N, N'. reflexivity.
  - cbn [filter]. rewrite IH. reflexivity.
Qed.

Lemma assoc_put_in {V} (m : list (string * V)) n x k y : assoc k (put n x m) = Some y -> (k = n /\ y = x) \/ assoc k m = Some y.
Proof.
  rewrite assoc_put. destruct (String.eqb_spec k n) as [->|N].
  - intros H. injection H as <-. left. auto.
  - auto.
Qed.

(** ** Whatever the guards say *)
Section Any.
Variables (dim : nat) (minc : fed -> fed) (predt : fed -> fed -> fed) (c : component).

Lemma inconsistent_ids_in ids n : inconsistent_ids dim c = Ok ids -> In n ids -> exists l, In l (c_locs c) /\ l_id l = n /\ l_type l = Inconsistent.
Proof.
  unfold inconsistent_ids. intros E H. inv_bind E. injection E as <-. apply in_concat in H. destruct H as (x & Hx & H).
  destruct (mapM_in _ _ _ H0) as [_ M]. destruct (M x Hx) as (l & Hl & El). inv_bind El.
  destruct (lt_simple_id _ _ _ _ H1) as [_ T]. unfold is_inconsistent in El. rewrite T in El.
  destruct (l_type l) eqn:Ty; injection El as <-; try (destruct H; fail). destruct H as [<-|[]]. exists l. auto.
Qed.

(** What changes: edges into locations that can fail, parts of such locations. *)
Record keeps (x : pctx) : Prop := {
  ke_parts : forall n p, assoc n (p_parts x) = Some p -> can_fail c n;
  ke_todo : forall n, In n (p_todo x) -> can_fail c n;
  ke_edges : forall e', In e' (p_edges x) -> exists e, In e (c_edges c) /\ same_but_guard e e';
  ke_same : forall b : string -> bool, (forall n, b n = true -> ~ can_fail c n) ->
      filter (fun e => b (e_tgt e)) (p_edges x) = filter (fun e => b (e_tgt e)) (c_edges c) }.

Lemma keeps_remove e x : can_fail c (e_tgt e) -> keeps x -> keeps (remove_edge x e).
Proof.
  intros F K. split; cbn [remove_edge p_parts p_todo p_edges]; try apply K.
  - intros e' H. apply in_remove in H. apply (ke_edges _ K _ H).
  - intros b Hb. rewrite filter_remove; [apply K; exact Hb|]. destruct (b (e_tgt e)) eqn:E; [destruct (Hb _ E F)|reflexivity].
Qed.
Lemma keeps_guard e f x x' : can_fail c (e_tgt e) -> keeps x -> update_edge_guard minc c x e f = Ok x' -> keeps x'.
Proof.
  intros F K E. unfold update_edge_guard in E. destruct (existsb _ _) eqn:X; [|injection E as <-; exact K]. inv_bind E. injection E as <-.
  split; cbn [p_parts p_todo p_edges]; try apply K.
  - intros e' H1. apply in_guard in H1. destruct H1 as [H1|[-> H1]]; [apply (ke_edges _ K _ H1)|].
    destruct (ke_edges _ K _ H1) as (e0 & H2 & S). exists e0. split; [exact H2|]. eapply same_trans; [exact S|apply with_guard_same].
  - intros b Hb. assert (N : b (e_tgt e) = false) by (destruct (b (e_tgt e)) eqn:E; [destruct (Hb _ E F)|reflexivity]).
    rewrite filter_guard; [apply K; exact Hb|exact N|exact N].
Qed.
Lemma keeps_source n f x : can_fail c n -> keeps x -> keeps (process_source dim n f x).
Proof.
  intros F K. unfold process_source. destruct (fempty dim f); [exact K|].
  assert (P : forall k p, assoc k (put n (match incons x n with Some p => funion f p | None => f end) (p_parts x)) = Some p -> can_fail c k).
  { intros k p H. apply assoc_put_in in H. destruct H as [[-> _]|H]; [exact F|apply (ke_parts _ K _ _ H)]. }
  destruct (existsb _ _); split; cbn [p_parts p_todo p_edges]; try apply K; try exact P.
  intros k [<-|H]; [exact F|apply (ke_todo _ K _ H)].
Qed.
Lemma keeps_unsat e x x' : can_fail c (e_tgt e) -> keeps x -> remove_if_unsat dim c e x = Ok x' -> keeps x'.
Proof.
  intros F K E. unfold remove_if_unsat in E. inv_bind E. inv_bind E. inv_bind E. inv_bind E. inv_bind E. inv_bind E.
  destruct (fempty _ _); injection E as <-; [apply keeps_remove; assumption|exact K].
Qed.
Lemma keeps_input e x x' : In e (c_edges c) -> can_fail c (e_tgt e) -> keeps x -> handle_input dim predt c e x = Ok x' -> keeps x'.
Proof.
  intros He F K E. unfold handle_input in E. inv_bind E. inv_bind E. inv_bind E. inv_bind E.
  destruct (fempty dim a2); [injection E as <-; exact K|]. inv_bind E. inv_bind E. eapply keeps_unsat; [exact F| |exact E].
  destruct (fempty dim a3); [injection H4 as <-; exact K|]. inv_bind H4. inv_bind H4. injection H4 as <-.
  apply keeps_source; [apply cf_edge; assumption|exact K].
Qed.
Lemma keeps_shrink e x x' : can_fail c (e_tgt e) -> keeps x -> shrink_edge dim minc c e x = Ok x' -> keeps x'.
Proof.
  intros F K E. unfold shrink_edge in E. inv_bind E. destruct (fisuniv dim a); [injection E as <-; apply keeps_remove; assumption|].
  inv_bind E. inv_bind E. destruct (fempty _ _); [injection E as <-; apply keeps_remove; assumption|]. eapply keeps_guard; eassumption.
Qed.
Lemma keeps_output e x x' : In e (c_edges c) -> can_fail c (e_tgt e) -> keeps x -> handle_output dim minc c e x = Ok x' -> keeps x'.
Proof.
  intros He F K E. unfold handle_output in E. inv_bind E. inv_bind E. inv_bind E. apply (keeps_shrink _ _ _ F K) in H.
  destruct (fcan_delay _ _); [injection E as <-; exact H|]. inv_bind E. injection E as <-. apply keeps_source; [apply cf_edge; assumption|exact H].
Qed.
Lemma keeps_loop fuel : forall x x', keeps x -> prune_loop dim minc predt c fuel x = Ok x' -> keeps x'.
Proof.
  induction fuel as [|f IH]; intros x x' K E; cbn [prune_loop] in E; [discriminate|]. destruct (p_todo x) as [|n rest] eqn:T; [injection E as <-; exact K|].
  inv_bind E. eapply IH; [|exact E].
  assert (F : can_fail c n) by (apply (ke_todo _ K); rewrite T; left; reflexivity).
  assert (K1 : keeps (mkP (p_edges x) rest (p_parts x) (p_passed x))).
  { split; cbn [p_parts p_todo p_edges]; try apply K. intros k Hk. apply (ke_todo _ K). rewrite T. right. exact Hk. }
  unfold prune_location in H. refine (foldM_inv _ _ keeps _ _ _ _ _ K1 H). intros e y y' He Ky Ey. apply filter_In in He. destruct He as [He Te].
  apply String.eqb_eq in Te. rewrite <- Te in F. unfold handle_edge in Ey. inv_bind Ey.
  eapply keeps_output; [exact He|exact F| |exact Ey]. destruct (synctype_eqb (e_type e) SInput); [|injection H0 as <-; exact Ky]. eapply keeps_input; eassumption.
Qed.

Lemma init_parts ids n p : forall m, (forall n p, assoc n m = Some p -> In n ids /\ p = funiv) -> forall l, incl l ids ->
  assoc n (fold_left (fun m n => put n funiv m) l m) = Some p -> In n ids /\ p = funiv.
Proof.
  intros m Hm l. revert m Hm. induction l as [|k l IH]; intros m Hm Hl H; cbn [fold_left] in H; [auto|].
  apply IH in H; [exact H| |intros y Hy; apply Hl; right; exact Hy]. intros k' p' H'. apply assoc_put_in in H'. destruct H' as [[-> ->]|H']; [|auto].
  split; [apply Hl; left; reflexivity|reflexivity].
Qed.

Lemma pruned_inv fuel c' : pruned dim minc predt c fuel = Ok c' ->
  exists ids x ls, inconsistent_ids dim c = Ok ids /\
    prune_loop dim minc predt c fuel (mkP (c_edges c) (rev ids) (fold_left (fun m n => put n funiv m) ids []) []) = Ok x /\
    mapM (shrink_invariant dim minc c (p_parts x)) (c_locs c) = Ok ls /\
    c' = mkComp (c_name c) (c_decls c) ls (p_edges x) (c_special c).
Proof. unfold pruned. intros E. inv_bind E. inv_bind E. inv_bind E. injection E as <-. exists a, a0, a1. auto. Qed.

Lemma keeps_init ids : inconsistent_ids dim c = Ok ids -> keeps (mkP (c_edges c) (rev ids) (fold_left (fun m n => put n funiv m) ids []) []).
Proof.
  intros E.
  assert (F : forall n, In n ids -> can_fail c n).
  { intros n Hn. destruct (inconsistent_ids_in ids n E Hn) as (l & Hl & <- & T). apply cf_here; assumption. }
  split; cbn [p_parts p_todo p_edges].
  - intros n p H. apply F. eapply (init_parts ids n p [] ltac:(discriminate) ids); [apply incl_refl|exact H].
  - intros n H. apply F. apply in_rev. exact H.
  - intros e' H. exists e'. split; [exact H|apply same_refl].
  - reflexivity.
Qed.

Lemma mapM_Forall2 {A B} (f : A -> res B) (R : A -> B -> Prop) l : (forall a b, In a l -> f a = Ok b -> R a b) ->
  forall bs, mapM f l = Ok bs -> Forall2 R l bs.
Proof.
  induction l as [|a l IH]; cbn [mapM]; intros H bs E; [injection E as <-; constructor|]. inv_bind E. inv_bind E. injection E as <-. constructor.
  - apply H; [left; reflexivity|assumption].
  - apply IH; [intros x b Hx; apply H; right; exact Hx|assumption].
Qed.
Lemma Forall2_mapM {A B} (f : A -> res B) l bs : mapM f l = Ok bs -> Forall2 (fun a b => f a = Ok b) l bs.
Proof. apply mapM_Forall2. auto. Qed.

(** Nothing that cannot fail is touched. *)
Lemma pruned_untouched fuel c' : pruned dim minc predt c fuel = Ok c' ->
  c_name c' = c_name c /\ c_decls c' = c_decls c /\
  Forall2 (fun l l' => l_id l' = l_id l /\ l_type l' = l_type l /\ l_urgency l' = l_urgency l /\ (~ can_fail c (l_id l) -> l' = l)) (c_locs c) (c_locs c') /\
  (forall e', In e' (c_edges c') -> exists e, In e (c_edges c) /\ same_but_guard e e') /\
  (forall b : string -> bool, (forall n, b n = true -> ~ can_fail c n) ->
     filter (fun e => b (e_tgt e)) (c_edges c') = filter (fun e => b (e_tgt e)) (c_edges c)).
Proof.
  intros E. destruct (pruned_inv _ _ E) as (ids & x & ls & E1 & E2 & E3 & ->). cbn [c_name c_decls c_locs c_edges].
  pose proof (keeps_loop _ _ _ (keeps_init ids E1) E2) as K. split; [reflexivity|]. split; [reflexivity|]. split.
  - revert E3. apply mapM_Forall2. intros l l' Hl El. unfold shrink_invariant in El. destruct (assoc (l_id l) (p_parts x)) as [p|] eqn:P.
    + inv_bind El. inv_bind El. injection El as <-. cbn [l_id l_type l_urgency]. repeat split. intros N. destruct (N (ke_parts _ K _ _ P)).
    + injection El as <-. auto.
  - split; [apply K|apply K].
Qed.

(** A component without inconsistent locations is not changed. *)
Lemma pruned_nothing fuel : (forall l, In l (c_locs c) -> l_type l <> Inconsistent) -> (forall l, In l (c_locs c) -> exists t, lt_simple dim (c_decls c) l = Ok t) ->
  pruned dim minc predt c (S fuel) = Ok c.
Proof.
  intros N T. assert (I : inconsistent_ids dim c = Ok []).
  { unfold inconsistent_ids. assert (X : exists ls, mapM (fun l => do t <- lt_simple dim (c_decls c) l; Ok (if is_inconsistent t then [l_id l] else [])) (c_locs c) = Ok ls).
    { apply mapM_total. intros l Hl. destruct (T l Hl) as (t & ->). cbn [bind]. eauto. }
    destruct X as (ls & E). rewrite E. cbn [bind]. f_equal. destruct (mapM_in _ _ _ E) as [_ M].
    assert (A : forall x, In x ls -> x = []).
    { intros x Hx. destruct (M x Hx) as (l & Hl & El). inv_bind El. destruct (lt_simple_id _ _ _ _ H) as [_ Ty]. unfold is_inconsistent in El. rewrite Ty in El.
      specialize (N l Hl). destruct (l_type l); injection El as <-; try reflexivity. congruence. }
    clear - A. induction ls as [|x ls IH]; [reflexivity|]. cbn [List.concat]. rewrite (A x) by (left; reflexivity). apply IH. intros y Hy. apply A. right. exact Hy. }
  unfold pruned. rewrite I. cbn [bind rev fold_left prune_loop p_todo p_parts p_edges].
  assert (M : mapM (shrink_invariant dim minc c []) (c_locs c) = Ok (c_locs c)).
  { induction (c_locs c) as [|l ls IH]; [reflexivity|]. cbn [mapM]. unfold shrink_invariant at 1. cbn [assoc bind]. rewrite IH; [reflexivity|intros; apply N|intros; apply T]; right; assumption. }
  rewrite M. cbn [bind]. destruct c. reflexivity.
Qed.
End Any.
