(** Renaming the clocks of guards: the evaluation of guards does not look at clock numbers. *)
From Coq Require Import List String ZArith QArith Bool Arith Lia.
From Verif Require Import Fed.Zone Fed.ZoneFacts Model.Base Model.Expr Model.Guard Spec.EnableSpec Spec.RunSpec Proofs.GuardFacts Proofs.RecipeFacts.
Import ListNotations.

Section Ren.
Variable p : nat -> nat.
Fixpoint ren (e : arith) : arith :=
  match e with
  | ADifference l r => ADifference (ren l) (ren r)
  | AAddition l r => AAddition (ren l) (ren r)
  | AMultiplication l r => AMultiplication (ren l) (ren r)
  | ADivision l r => ADivision (ren l) (ren r)
  | AModulo l r => AModulo (ren l) (ren r)
  | AClock i => AClock (p i)
  | AVar s => AVar s
  | AInt k => AInt k
  end.

Lemma mk_dif_ren l r : mk_dif (ren l) (ren r) = ren (mk_dif l r).
Proof. destruct r; cbn; try (destruct l; reflexivity). destruct k; destruct l; reflexivity. Qed.
Lemma mk_add_ren l r : mk_add (ren l) (ren r) = ren (mk_add l r).
Proof. destruct r; try (destruct l; try reflexivity; destruct k; reflexivity); destruct k; try reflexivity; destruct l; try reflexivity; destruct k; reflexivity. Qed.
Lemma is_zero_ren e : is_zero (ren e) = is_zero e.
Proof. destruct e; reflexivity. Qed.
Lemma mk_mul_ren l r : mk_mul (ren l) (ren r) = ren (mk_mul l r).
Proof. unfold mk_mul. rewrite !is_zero_ren. destruct (is_zero r || is_zero l); [reflexivity|]. destruct l, r; reflexivity. Qed.
Lemma mk_div_ren l r : mk_div (ren l) (ren r) = ren (mk_div l r).
Proof. unfold mk_div. rewrite !is_zero_ren. destruct (is_zero r || is_zero l); [reflexivity|]. destruct l, r; reflexivity. Qed.
Lemma mk_mod_ren l r : mk_mod (ren l) (ren r) = rmap ren (mk_mod l r).
Proof. destruct l, r; try reflexivity. cbn. destruct (Z.eqb k0 0); reflexivity. Qed.
Lemma count_ren e : clock_var_count (ren e) = clock_var_count e.
Proof. induction e; cbn; congruence. Qed.
Lemma asize_ren e : asize (ren e) = asize e.
Proof. induction e; cbn; congruence. Qed.
Lemma clone_ren a b err : clone_expr (ren a) (ren b) err = rmap (option_map ren) (clone_expr a b err).
Proof. destruct a; cbn; try reflexivity. destruct err; reflexivity. Qed.

Definition ren_o (x : option (arith * operation)) := option_map (fun y => (ren (fst y), snd y)) x.
Lemma move_ren e : forall prev,
  move_clock_and_vars (ren e) prev = rmap (fun x => (ren_o (fst x), ren (snd x))) (move_clock_and_vars e prev).
Proof.
  induction e; intros prev; cbn [ren move_clock_and_vars]; try reflexivity;
  rewrite !count_ren, !clone_ren;
  (destruct (Nat.ltb 0 (clock_var_count e1));
   [destruct (clone_expr e1 e2 _) as [sw| | |]; cbn [rmap bind]; try reflexivity; rewrite IHe1;
    destruct (move_clock_and_vars e1 _) as [[o l']| | |]; try reflexivity; destruct sw; reflexivity|
    destruct (Nat.ltb 0 (clock_var_count e2)); [|reflexivity];
    destruct (clone_expr e2 e1 _) as [sw| | |]; cbn [rmap bind]; try reflexivity; rewrite IHe2;
    destruct (move_clock_and_vars e2 _) as [[o l']| | |]; try reflexivity; destruct sw; reflexivity]).
Qed.
Lemma pull_ren n : forall e op,
  pull_all n (ren e) op = rmap (fun x => (map (fun y => (ren (fst y), snd y)) (fst x), ren (snd x))) (pull_all n e op).
Proof.
  induction n as [|n IH]; intros e op; cbn [pull_all]; [reflexivity|]. rewrite move_ren.
  destruct (move_clock_and_vars e op) as [[o e']| | |]; try reflexivity. cbn [rmap bind fst snd].
  destruct o as [[w op']|]; cbn [ren_o option_map fst snd]; [|reflexivity]. rewrite IH.
  destruct (pull_all n e' op') as [[ds fin]| | |]; reflexivity.
Qed.
Lemma rebuild_step_ren w op out : rebuild_step (ren w) op (ren out) = rmap ren (rebuild_step w op out).
Proof.
  destruct op as [[|]|[|]|[|]|[|]|[|]|]; cbn; try reflexivity;
  rewrite ?mk_dif_ren, ?mk_add_ren, ?mk_mul_ren, ?mk_div_ren, ?mk_mod_ren; reflexivity.
Qed.
Lemma rebuild_ren ds out : rebuild (map (fun y => (ren (fst y), snd y)) ds) (ren out) = rmap ren (rebuild ds out).
Proof.
  induction ds as [|[w op] ds IH]; cbn; [reflexivity|]. rewrite IH.
  destruct (rebuild ds out); try reflexivity. cbn. apply rebuild_step_ren.
Qed.
Lemma helper_ren e : simplify_helper (ren e) = rmap (fun x => (ren (fst x), snd x)) (simplify_helper e).
Proof.
  induction e; cbn [ren simplify_helper]; try reflexivity; rewrite IHe1, IHe2;
  (destruct (simplify_helper e1) as [[l' cl]| | |]; try reflexivity; cbn [rmap bind fst snd];
   destruct (simplify_helper e2) as [[r' cr]| | |]; try reflexivity; cbn [rmap bind fst snd];
   destruct l'; try reflexivity; destruct r'; try reflexivity; cbn; destruct (Z.eqb k0 0); reflexivity).
Qed.
Lemma loop_ren n : forall e, simplify_loop n (ren e) = rmap ren (simplify_loop n e).
Proof.
  induction n as [|n IH]; intros e; cbn [simplify_loop]; [reflexivity|]. rewrite helper_ren.
  destruct (simplify_helper e) as [[e' []]| | |]; try reflexivity. cbn. apply IH.
Qed.
Lemma simplify_ren e : simplify (ren e) = rmap ren (simplify e).
Proof.
  unfold simplify. rewrite count_ren, pull_ren. destruct (pull_all _ e ONone) as [[ds out]| | |]; try reflexivity.
  cbn [rmap bind fst snd]. rewrite rebuild_ren. destruct (rebuild ds out) as [o'| | |]; try reflexivity.
  cbn [rmap bind]. rewrite asize_ren. apply loop_ren.
Qed.

(** The two sets of declarations agree on a name, up to the numbers of the clocks. *)
Definition same_name (d d' : decls) (n : string) : Prop := assoc n (d_clocks d') = option_map p (assoc n (d_clocks d)).

Section Decls.
Variables d d' : decls.
Hypothesis Ints : d_ints d' = d_ints d.
Lemma replace_ren e : by_name e = true -> (forall n, a_has_var e n = true -> same_name d d' n) ->
  replace_vars e d' = rmap ren (replace_vars e d).
Proof.
  induction e; cbn [by_name]; intros B Hn; try (apply andb_prop in B; destruct B as [B1 B2]);
  try (cbn [replace_vars]; rewrite IHe1, IHe2 by (auto; intros n Hv; apply Hn; cbn; rewrite Hv; auto using orb_true_r);
       destruct (replace_vars e1 d); try reflexivity; destruct (replace_vars e2 d); try reflexivity; cbn [rmap bind];
       rewrite ?mk_dif_ren, ?mk_add_ren, ?mk_mul_ren, ?mk_div_ren, ?mk_mod_ren; reflexivity).
  - discriminate.
  - assert (H1 := Hn s). cbn in H1. rewrite String.eqb_refl in H1. specialize (H1 eq_refl). unfold same_name in H1. cbn. rewrite H1, Ints.
    destruct (assoc s (d_clocks d)); [reflexivity|]. cbn. destruct (assoc s (d_ints d)); reflexivity.
  - reflexivity.
Qed.
Lemma const_ren e : get_const (ren e) d' = get_const e d.
Proof. induction e; cbn; rewrite ?Ints, ?IHe1, ?IHe2; reflexivity. Qed.
Definition ren_sc (c : sclock) : sclock := mkSC (p (sc_value c)) (sc_neg c).
Lemma here_ren e b : clock_here (ren e) b =
  rmap (fun x => (ren_sc (fst x), option_map (fun y => (ren (fst y), snd y)) (snd x))) (clock_here e b).
Proof.
  destruct e as [l r|l r|l r|l r|l r|i|s|k]; try reflexivity;
  destruct l; try reflexivity; destruct r; reflexivity.
Qed.
Lemma val1_ren e : get_clock_val1 (ren e) = rmap ren_sc (get_clock_val1 e).
Proof. unfold get_clock_val1. rewrite here_ren. destruct (clock_here e false) as [[c n]| | |]; reflexivity. Qed.
Lemma val2_ren e : get_clock_val2 (ren e) = rmap (fun x => (ren_sc (fst x), ren_sc (snd x))) (get_clock_val2 e).
Proof.
  unfold get_clock_val2. rewrite here_ren. destruct (clock_here e false) as [[c n]| | |]; try reflexivity. cbn [rmap bind fst snd].
  destruct n as [[e' ng]|]; [|reflexivity]. cbn [option_map unwrap bind fst snd]. rewrite here_ren. destruct (clock_here e' ng) as [[c' n']| | |]; reflexivity.
Qed.
Definition ren_ijc (x : nat * nat * Z) : nat * nat * Z := (p (fst (fst x)), p (snd (fst x)), snd x).
Lemma combine_ren c1 c2 k b : combine_clocks (ren_sc c1) (ren_sc c2) k b = rmap ren_ijc (combine_clocks c1 c2 k b).
Proof. unfold combine_clocks. cbn [ren_sc sc_neg sc_value]. destruct (_ || _); [reflexivity|]. destruct (negb _); reflexivity. Qed.
Hypothesis Zero : p 0 = 0%nat.
Lemma indices_ren l r : by_name l = true -> by_name r = true -> (forall n, a_has_var l n || a_has_var r n = true -> same_name d d' n) ->
  get_indices l r d' = rmap ren_ijc (get_indices l r d).
Proof.
  intros Bl Br N. unfold get_indices.
  rewrite (replace_ren l Bl (fun n H => N n (orb_true_intro _ _ (or_introl H)))). rewrite (replace_ren r Br (fun n H => N n (orb_true_intro _ _ (or_intror H)))).
  destruct (replace_vars l d) as [l0| | |]; try reflexivity. cbn [rmap bind]. rewrite simplify_ren. destruct (simplify l0) as [l1| | |]; try reflexivity. cbn [rmap bind].
  destruct (replace_vars r d) as [r0| | |]; try reflexivity. cbn [rmap bind]. rewrite simplify_ren. destruct (simplify r0) as [r1| | |]; try reflexivity. cbn [rmap bind].
  rewrite !count_ren. destruct (Nat.eqb _ 0); [reflexivity|]. destruct (Nat.ltb 2 _); [reflexivity|]. rewrite !const_ren.
  destruct (get_const l1 d) as [lk| | |]; try reflexivity. cbn [rmap bind]. destruct (get_const r1 d) as [rk| | |]; try reflexivity. cbn [rmap bind].
  rewrite !val1_ren, !val2_ren.
  destruct (clock_var_count l1) as [|[|[|]]]; try reflexivity; destruct (clock_var_count r1) as [|[|[|]]]; try reflexivity.
  - destruct (get_clock_val1 r1) as [c| | |]; try reflexivity. cbn. unfold ren_ijc. destruct (sc_neg c); cbn; rewrite Zero; reflexivity.
  - destruct (get_clock_val2 r1) as [[c1 c2]| | |]; try reflexivity. cbn [rmap bind fst snd]. apply (combine_ren (sc_invert c1) (sc_invert c2)).
  - destruct (get_clock_val1 l1) as [c| | |]; try reflexivity. cbn. unfold ren_ijc. destruct (sc_neg c); cbn; rewrite Zero; reflexivity.
  - destruct (get_clock_val1 l1) as [c1| | |]; try reflexivity. cbn [rmap bind]. destruct (get_clock_val1 r1) as [c2| | |]; try reflexivity. cbn [rmap bind]. apply combine_ren.
  - destruct (get_clock_val2 l1) as [[c1 c2]| | |]; try reflexivity. cbn [rmap bind fst snd]. apply combine_ren.
Qed.
End Decls.
End Ren.

(** ** Valuations that agree up to a renaming *)
Definition total (rho : nat -> option nat) (i : nat) : nat := match rho i with Some j => j | None => i end.
Definition agree (rho : nat -> option nat) (v v' : val) : Prop := forall i j, rho i = Some j -> (v i == v' j)%Q.

Section Agree.
Variable rho : nat -> option nat.
Variables dim dim' : nat.
Definition frel (f f' : fed) : Prop := forall v v', val_ok dim v -> val_ok dim' v' -> agree rho v v' -> (fsem dim f v <-> fsem dim' f' v').
Hypothesis Zero : rho 0 = Some 0%nat.

Lemma frel_univ : frel funiv funiv.
Proof. intros v v' Hv Hv' _. rewrite !funiv_sem. tauto. Qed.
Lemma frel_none : frel fnone fnone.
Proof. intros v v' Hv Hv' _. split; intros H; destruct (fnone_sem _ _ H). Qed.
Lemma frel_inter f f' g g' : frel f f' -> frel g g' -> frel (finter dim f g) (finter dim' f' g').
Proof. intros F G v v' Hv Hv' A. rewrite !finter_sem, (F v v' Hv Hv' A), (G v v' Hv Hv' A). tauto. Qed.
Lemma frel_union f f' g g' : frel f f' -> frel g g' -> frel (funion f g) (funion f' g').
Proof. intros F G v v' Hv Hv' A. rewrite !funion_sem, (F v v' Hv Hv' A), (G v v' Hv Hv' A). tauto. Qed.
Lemma frel_compl f f' : frel f f' -> frel (fcompl dim f) (fcompl dim' f').
Proof. intros F v v' Hv Hv' A. rewrite !fcompl_sem, (F v v' Hv Hv' A). tauto. Qed.
Definition kept (i : nat) : Prop := exists j, rho i = Some j.
Lemma total_agree v v' i : agree rho v v' -> kept i -> (v i == v' (total rho i))%Q.
Proof. intros A [j E]. unfold total. rewrite E. apply A, E. Qed.
Lemma frel_con i j s k f f' : kept i -> kept j -> frel f f' -> frel (fcon (mkC i j s k) f) (fcon (mkC (total rho i) (total rho j) s k) f').
Proof.
  intros Ki Kj F v v' Hv Hv' A. rewrite !fcon_sem, (F v v' Hv Hv' A).
  pose proof (total_agree v v' i A Ki) as Ei. pose proof (total_agree v v' j A Kj) as Ej.
  assert (E : csem (mkC i j s k) v <-> csem (mkC (total rho i) (total rho j) s k) v').
  { unfold csem. cbn [ci cj cs cc]. split; apply ilt_ext; try reflexivity; rewrite Ei, Ej; reflexivity. }
  rewrite E. tauto.
Qed.

Lemma fcon_less c f v d : fsem d (fcon c f) v -> fsem d f v.
Proof. rewrite fcon_sem. tauto. Qed.
Lemma apply_less d g : forall dd f f', apply_constraints d g dd f = Ok f' -> forall v, fsem d f' v -> fsem d f v.
Proof.
  induction g; intros dd f f' E v Hv; cbn [apply_constraints] in E; (destruct (fempty d f); [injection E as <-; exact Hv|]).
  - inv_bind E. eapply IHg1; eauto.
  - inv_bind E. inv_bind E. injection E as <-. apply funion_sem in Hv. destruct Hv; eauto.
  - inv_bind E. destruct a as [[i j] k]. injection E as <-. eapply fcon_less; eauto.
  - inv_bind E. destruct a as [[i j] k]. injection E as <-. eapply fcon_less; eauto.
  - inv_bind E. destruct a as [[i j] k]. injection E as <-. eapply fcon_less; eauto.
  - inv_bind E. destruct a as [[i j] k]. injection E as <-. eapply fcon_less; eauto.
  - inv_bind E. destruct a as [[i j] k]. injection E as <-. eapply fcon_less, fcon_less; eauto.
  - injection E as <-. destruct b; [exact Hv|destruct (fnone_sem _ _ Hv)].
Qed.

(** Applying a guard under declarations that agree on the names it mentions. *)
Variables d d' : decls.
Hypothesis Ints : d_ints d' = d_ints d.
Definition fits (n : string) : Prop := same_name (total rho) d d' n /\ forall i, assoc n (d_clocks d) = Some i -> kept i.
Lemma indices_fit l r i j k i' j' k' : by_name l = true -> by_name r = true -> (forall n, a_has_var l n || a_has_var r n = true -> fits n) ->
  get_indices l r d = Ok (i, j, k) -> get_indices l r d' = Ok (i', j', k') -> i' = total rho i /\ j' = total rho j /\ k' = k /\ kept i /\ kept j.
Proof.
  intros Bl Br N E E'. rewrite (indices_ren (total rho) d d' Ints) in E'; [|unfold total; rewrite Zero; reflexivity|assumption|assumption|intros n H; apply N; exact H].
  rewrite E in E'. cbn in E'. unfold ren_ijc in E'. cbn [fst snd] in E'. injection E' as <- <- <-. split; [reflexivity|]. split; [reflexivity|]. split; [reflexivity|].
  set (ks := flat_map (fun p => match rho (snd p) with Some _ => [snd p] | None => [] end) (d_clocks d)).
  assert (Kk : forall x, within ks x -> kept x).
  { intros x [->|H]; [exists 0%nat; exact Zero|]. apply in_flat_map in H. destruct H as ([n y] & _ & H). cbn in H. destruct (rho y) eqn:Ey; [|destruct H]. destruct H as [<-|[]]. eexists; exact Ey. }
  destruct (over_indices ks d l r i j k Bl Br) as [Wi Wj]; [|exact E|auto].
  intros x y Hx Ax. destruct (N x Hx) as [_ Nx]. destruct (Nx y Ax) as [z Ez]. apply in_flat_map. exists (x, y). split; [apply assoc_in; exact Ax|]. cbn. rewrite Ez. left. reflexivity.
Qed.
Lemma apply_rel g : g_by_name g = true -> (forall n, b_has_var g n = true -> fits n) ->
  forall f f' r r', frel f f' -> apply_constraints dim g d f = Ok r -> apply_constraints dim' g d' f' = Ok r' -> frel r r'.
Proof.
  assert (Emp : forall g f f' r r', frel f f' -> apply_constraints dim g d f = Ok r -> apply_constraints dim' g d' f' = Ok r' -> fempty dim f = true -> frel r r').
  { intros g0 f f' r r' F E E' X v v' Hv Hv' A. assert (r = f) by (destruct g0; cbn [apply_constraints] in E; rewrite X in E; injection E as <-; reflexivity). subst r. rewrite fempty_true in X.
    split; [intros H; destruct (X v H)|intros H; apply (apply_less _ _ _ _ _ E') in H; apply (F v v' Hv Hv' A) in H; destruct (X v H)]. }
  assert (Emp' : forall g f f' r r', frel f f' -> apply_constraints dim g d f = Ok r -> apply_constraints dim' g d' f' = Ok r' -> fempty dim' f' = true -> frel r r').
  { intros g0 f f' r r' F E E' X v v' Hv Hv' A. assert (r' = f') by (destruct g0; cbn [apply_constraints] in E'; rewrite X in E'; injection E' as <-; reflexivity). subst r'. rewrite fempty_true in X.
    split; [intros H; apply (apply_less _ _ _ _ _ E) in H; apply (F v v' Hv Hv' A) in H; destruct (X v' H)|intros H; destruct (X v' H)]. }
  induction g; cbn [g_by_name b_has_var]; intros B N f f' r0 r0' F E E';
  (destruct (fempty dim f) eqn:X; [eapply Emp; eauto|]); (destruct (fempty dim' f') eqn:X'; [eapply Emp'; eauto|]);
  cbn [apply_constraints] in E, E'; rewrite X in E; rewrite X' in E'; try (apply andb_true_iff in B; destruct B as [B1 B2]);
  try (specialize (IHg1 B1 (fun n H => N n (orb_true_intro _ _ (or_introl H)))); specialize (IHg2 B2 (fun n H => N n (orb_true_intro _ _ (or_intror H))))).
  - inv_bind E. inv_bind E'. eapply IHg2; [|exact E|exact E']. eapply IHg1; eauto.
  - inv_bind E. inv_bind E. injection E as <-. inv_bind E'. inv_bind E'. injection E' as <-. apply frel_union; [eapply IHg1|eapply IHg2]; eauto.
  - inv_bind E. destruct a as [[i j] k]. injection E as <-. inv_bind E'. destruct a as [[i' j'] k']. injection E' as <-.
    destruct (indices_fit _ _ _ _ _ _ _ _ B1 B2 N H H0) as (-> & -> & -> & Ki & Kj). apply frel_con; assumption.
  - inv_bind E. destruct a as [[i j] k]. injection E as <-. inv_bind E'. destruct a as [[i' j'] k']. injection E' as <-.
    destruct (indices_fit _ _ _ _ _ _ _ _ B2 B1 (fun x Hx => N x (eq_trans (orb_comm _ _) Hx)) H H0) as (-> & -> & -> & Ki & Kj). apply frel_con; assumption.
  - inv_bind E. destruct a as [[i j] k]. injection E as <-. inv_bind E'. destruct a as [[i' j'] k']. injection E' as <-.
    destruct (indices_fit _ _ _ _ _ _ _ _ B1 B2 N H H0) as (-> & -> & -> & Ki & Kj). apply frel_con; assumption.
  - inv_bind E. destruct a as [[i j] k]. injection E as <-. inv_bind E'. destruct a as [[i' j'] k']. injection E' as <-.
    destruct (indices_fit _ _ _ _ _ _ _ _ B2 B1 (fun x Hx => N x (eq_trans (orb_comm _ _) Hx)) H H0) as (-> & -> & -> & Ki & Kj). apply frel_con; assumption.
  - inv_bind E. destruct a as [[i j] k]. injection E as <-. inv_bind E'. destruct a as [[i' j'] k']. injection E' as <-.
    destruct (indices_fit _ _ _ _ _ _ _ _ B1 B2 N H H0) as (-> & -> & -> & Ki & Kj). apply frel_con; auto. apply frel_con; assumption.
  - injection E as <-. injection E' as <-. destruct b; [exact F|apply frel_none].
Qed.
End Agree.
