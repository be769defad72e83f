(** Paths found with zones that are enlarged beyond the bounds only. *)
From Coq Require Import List String ZArith QArith Bool Arith Lia Lqa.
From Verif Require Import Fed.Zone Fed.ZoneFacts Fed.Dbm Fed.DbmFacts Model.Base Model.Expr Model.Guard Model.Loc Model.Component Model.TS Model.Search Model.Extrapolate
  Spec.StepSpec Spec.SystemSpec Spec.RunSpec Spec.ReachSpec Spec.PruneSpec Spec.ReduceSpec Spec.BoundSpec Proofs.GuardFacts Proofs.StepFacts Proofs.SystemFacts Proofs.QuotientFacts
  Proofs.WfFacts Proofs.RunFacts Proofs.DetFacts Proofs.ConsFacts Proofs.ReachFacts Proofs.BoundFacts Proofs.NearFacts Proofs.LinkFacts Proofs.ExtraFacts.
Import ListNotations.
Local Open Scope Q_scope.

Section Bounded.
Variable dim : nat.
Variable s : ts.
Variable q : nat.
Variable xext : loctree -> fed -> fed.
Hypothesis Hbuilt : built dim s.
Hypothesis Hclocks : clocks_ok dim q s.
Hypothesis Hs : bounds_suffice dim s.
Hypothesis Hd : clocks_below dim s.
Variable tb : bounds.
Hypothesis Hx : forall l b f, local_bounds s l = Ok b -> bounds_below dim b -> loosened dim (bounds_join b tb) f (xext l f).

(** Alike for the system and for the target. *)
Definition near2 (l : loctree) (v w : val) : Prop := near dim s l v w /\ alike tb v w.

Lemma xext_near l f v : In l (all_locations dim s) -> fsem dim (xext l f) v -> exists w, fsem dim f w /\ near2 l v w.
Proof.
  intros Hl H. destruct (local_bounds_total dim s Hbuilt l Hl) as (b & Eb). destruct (Hx l b f Eb (own_below dim s l b Hbuilt Hd Hl Eb)) as (_ & A & _).
  destruct (A v H) as (w & Hw & X). exists w. split; [exact Hw|]. split.
  - split; [exact (fsem_ok _ _ _ H)|]. split; [exact (fsem_ok _ _ _ Hw)|]. exists b. split; [exact Eb|]. eapply below_alike; [apply below_join_l|exact X].
  - eapply below_alike; [apply below_join_r|exact X].
Qed.
Lemma xext_more l f v : In l (all_locations dim s) -> fsem dim f v -> fsem dim (xext l f) v.
Proof.
  intros Hl H. destruct (local_bounds_total dim s Hbuilt l Hl) as (b & Eb). destruct (Hx l b f Eb (own_below dim s l b Hbuilt Hd Hl Eb)) as (A & _). auto.
Qed.

(** The path's own zones render those of the search. *)
Lemma sp_near start : In (s_loc start) (all_locations dim s) -> forall p, sp_ok dim s xext start p ->
  exists st', chain dim s start (sp_steps p []) st' /\ s_loc st' = s_loc (sp_state p) /\ In (s_loc st') (all_locations dim s) /\
    forall v, fsem dim (s_zone (sp_state p)) v -> exists w, fsem dim (s_zone st') w /\ (v = w \/ near2 (s_loc st') v w).
Proof.
  intros Hl. induction p as [st|p IH st t a]; cbn [sp_ok sp_steps sp_state].
  - intros ->. exists start. split; [constructor|]. split; [reflexivity|]. split; [exact Hl|]. intros v Hv. exists v. auto.
  - intros (Hp & Ho & ns & Eu & ->). destruct (IH Hp) as (st1 & C & El & Hi & Ez).
    destruct (offered_fine dim s q Hclocks _ _ _ Ho) as [Hu _]. rewrite <- El in Ho.
    pose proof (offered_loc dim s Hbuilt _ _ _ Hi Ho) as Ht.
    destruct (use_transition dim t st1) as [b st2] eqn:Ey.
    destruct (use_transition_zone dim t (sp_state p) true ns Hu Eu) as (Hlx & Hbx & Hzx). destruct (use_transition_zone dim t st1 b st2 Hu Ey) as (Hly & Hby & Hzy).
    specialize (Hlx eq_refl). specialize (Hzx eq_refl).
    assert (Step : forall v w d, fsem dim (s_zone (sp_state p)) w -> fsem dim (t_guard t) w -> 0 <= d -> veq v (vdelay (run_updates (t_updates t) w) d) -> inv_at dim (t_target t) v ->
      exists w' d' v', fsem dim (s_zone st1) w' /\ fsem dim (t_guard t) w' /\ 0 <= d' /\ veq v' (vdelay (run_updates (t_updates t) w') d') /\ inv_at dim (t_target t) v' /\ near2 (t_target t) v v').
    { intros v w d Hw Hg D Ev Iv. destruct (Ez w Hw) as (u & Hu' & N).
      assert (N' : near2 (s_loc st1) w u).
      { destruct N as [<-|N]; [|exact N]. split; [|apply alike_refl]. apply (agree_near dim s Hbuilt); auto; try (eapply fsem_ok; eassumption). intros i _. reflexivity. }
      destruct N' as [N1 N2]. destruct (near_able dim s Hbuilt Hs q _ a t Hclocks Hi Ho) as [G _].
      exists u, d, (vdelay (run_updates (t_updates t) u) d).
      assert (M : near dim s (t_target t) (vdelay (run_updates (t_updates t) w) d) (vdelay (run_updates (t_updates t) u) d)).
      { apply near_delay; [exact D|]. exact (near_step dim s Hbuilt Hs q _ a t w u Hclocks Hi Ho N1). }
      assert (M' : near dim s (t_target t) v (vdelay (run_updates (t_updates t) u) d)).
      { eapply near_trans; [|exact M]. destruct M as (V1 & _). apply (agree_near dim s Hbuilt); auto; [eapply val_ok_ext; [apply veq_sym; exact Ev|exact V1]|]. intros i _. apply Ev. }
      split; [exact Hu'|]. split; [apply (G w u N1 Hg)|]. split; [exact D|]. split; [apply veq_refl|]. split; [apply (near_inv dim s Hbuilt Hs _ Ht v _ M' Iv)|]. split; [exact M'|].
      eapply alike_trans; [apply alike_veq; exact Ev|]. destruct N1 as ([W0 _] & [U0 _] & _).
      pose proof (alike_updates tb (t_updates t) w u N2) as A. apply alike_delay; [exact D| |exact A].
      destruct M as ([X _] & [Y _] & _). cbn in X, Y. rewrite X, Y. reflexivity. }
    assert (b = true).
    { apply Hby. destruct (proj1 Hbx eq_refl) as (v & w & d & Hw & Hg & D & Ev & Iv). destruct (Step v w d Hw Hg D Ev Iv) as (w' & d' & v' & H1 & H2 & H3 & H4 & H5 & _).
      exists v', w', d'. auto. }
    subst b. specialize (Hly eq_refl). specialize (Hzy eq_refl). exists st2. split; [rewrite sp_steps_app; eapply chain_snoc; eauto|]. cbn [s_loc s_zone]. split; [congruence|].
    rewrite Hly. split; [exact Ht|]. intros v Hv. rewrite Hlx in Hv. destruct (xext_near _ _ _ Ht Hv) as (v1 & Hv1 & [N1 N2]). apply Hzx in Hv1. destruct Hv1 as (w & d & Hw & Hg & D & Ev & Iv).
    destruct (Step v1 w d Hw Hg D Ev Iv) as (w' & d' & v' & H1 & H2 & H3 & H4 & H5 & [N3 N4]). exists v'. split; [apply Hzy; exists w', d'; auto|]. right.
    split; [eapply near_trans; eassumption|eapply alike_trans; eassumption].
Qed.
(** From an alike valuation the same path can be taken. *)
Lemma path_near l v steps l' v' : path_run dim s l v steps l' v' -> In l (all_locations dim s) -> forall w, near2 l v w ->
  exists w', path_run dim s l w steps l' w' /\ near2 l' v' w'.
Proof.
  induction 1 as [l v|l v t a d rest l' v' Ho Ha D Hi R IH]; intros Hl w [N1 N2]; [exists w; split; [constructor|split; assumption]|].
  pose proof (offered_loc dim s Hbuilt _ _ _ Hl Ho) as Ht. destruct (near_able dim s Hbuilt Hs q _ a t Hclocks Hl Ho) as [_ G].
  pose proof (near_step dim s Hbuilt Hs q _ a t v w Hclocks Hl Ho N1) as M.
  destruct (IH Ht (vdelay (run_updates (t_updates t) w) d)) as (w' & R' & N').
  { split; [apply near_delay; assumption|]. apply alike_delay; [exact D| |apply alike_updates; exact N2]. destruct M as ([X _] & [Y _] & _). rewrite X, Y. reflexivity. }
  exists w'. split; [|exact N']. econstructor; [exact Ho|exact (G v w N1 Ha)|exact D| |exact R'].
  intros e E1 E2. apply (near_inv dim s Hbuilt Hs _ Ht (vdelay (run_updates (t_updates t) v) e)); [apply near_delay; assumption|auto].
Qed.
End Bounded.

Section Accurate.
Variable dim : nat.
Variable s : ts.
Variable q : nat.
Variable xext : loctree -> fed -> fed.
Variable target : state.
Hypothesis Hbuilt : built dim s.
Hypothesis Hclocks : clocks_ok dim q s.

(** What the search sees of the target is also on the path itself. *)
Lemma sp_meets acc start : search_accurate acc dim xext s (s_zone target) -> In (s_loc start) (all_locations dim s) -> forall p, sp_ok dim s xext start p ->
  exists st', chain dim s start (sp_steps p []) st' /\ s_loc st' = s_loc (sp_state p) /\
    forall v, fsem dim (s_zone (sp_state p)) v -> fsem dim (s_zone target) v -> exists w, fsem dim (s_zone st') w /\ fsem dim (s_zone target) w.
Proof.
  intros Hacc Hl p Hp. unfold search_accurate in Hacc. destruct acc.
  - destruct (sp_chain dim s q xext Hclocks start Hacc p Hp) as (st' & C & El & Ez). exists st'. split; [exact C|]. split; [exact El|]. intros v Hv Ht. exists v. split; [apply Ez; exact Hv|exact Ht].
  - destruct Hacc as (Hs & Hd & tb & Hb & St & Hx). destruct (sp_near dim s q xext Hbuilt Hclocks Hs Hd tb Hx start Hl p Hp) as (st' & C & El & _ & Ez). exists st'. split; [exact C|]. split; [exact El|].
    intros v Hv Ht. destruct (Ez v Hv) as (w & Hw & N). exists w. split; [exact Hw|]. destruct N as [<-|[_ N]]; [exact Ht|]. apply (St v w); auto; eapply fsem_ok; eassumption.
Qed.

Theorem path_sound fuel start ds : upper_invariants dim s -> In (s_loc start) (all_locations dim s) -> pattern dim s (s_loc target) ->
  find_path dim fuel s xext start target = Ok (Some ds) ->
  exists v l' v', fsem dim (s_zone start) v /\ inv_at dim (s_loc start) v /\
    path_run dim s (s_loc start) v (map taken ds) l' v' /\ fits (lt_id l') (lt_id (s_loc target)) /\
    (forall acc, search_accurate acc dim xext s (s_zone target) -> hits dim target l' v').
Proof.
  intros Up Hs Hp E. unfold find_path, find_listed in E. destruct (trivially_unreachable dim start target); [discriminate|].
  set (st := mkS (s_loc start) (apply_inv dim (s_loc start) (s_zone start))) in *.
  assert (Hin : forall v, fsem dim (s_zone st) v -> inv_at dim (s_loc st) v) by (intros v Hv; apply apply_inv_sem in Hv; apply Hv).
  destruct (search_some dim s xext target fuel st [PStart st] [(lt_id (s_loc st), [s_zone st])] ds) as (sp & Hsp & Re & Mp); [constructor; [reflexivity|constructor]|exact E|].
  pose proof (sp_locs dim s q xext Hclocks st sp Hsp) as L. pose proof (locs_in dim s Hbuilt _ _ _ (Hs : In (s_loc st) _) L) as Hl.
  destruct (reached_true dim s target Hbuilt _ Hl Hp Re) as (Fit & vt & Hvt & Htt).
  destruct (decisions_chain dim s q Hclocks _ _ _ _ L Mp) as (Em & st' & C & El & Ne). rewrite Em.
  assert (X : exists v2, fsem dim (s_zone st') v2 /\ forall acc, search_accurate acc dim xext s (s_zone target) -> fsem dim (s_zone target) v2).
  { assert (D : forall acc, search_accurate acc dim xext s (s_zone target) -> exists w, fsem dim (s_zone st') w /\ fsem dim (s_zone target) w).
    { intros acc Hx. destruct (sp_meets acc st Hx Hs sp Hsp) as (st2 & C2 & _ & Ez). rewrite (chain_det dim s _ _ _ C _ C2). exact (Ez vt Hvt Htt). }
    destruct (fmeets dim (s_zone st') (s_zone target)) eqn:Em'.
    - apply fmeets_true in Em'. destruct Em' as (w & A & B). exists w. auto.
    - pose proof (proj1 (fmeets_false _ _ _) Em') as No. destruct (sp_steps sp []) as [|x steps] eqn:Es.
      + inversion C; subst. destruct sp as [s0|? ? ? ?]; [|cbn [sp_steps] in Es; rewrite sp_steps_app in Es; destruct (sp_steps sp []); discriminate].
        cbn [sp_ok sp_state] in *. subst s0. exists vt. auto.
      + destruct (Ne ltac:(discriminate)) as (v2 & Hv2). exists v2. split; [exact Hv2|]. intros acc Hx. destruct (D acc Hx) as (w & A & B). contradiction (No w A B). }
  destruct X as (v2 & Hv2 & Ht2).
  destruct (realise dim s q Hbuilt Hclocks Up st _ st' C Hs Hin v2 Hv2) as (v & v' & Hv & R & Ev). rewrite El in R.
  exists v, (s_loc (sp_state sp)), v'. cbn [s_zone st] in Hv. apply apply_inv_sem in Hv. destruct Hv as [Hv Hi].
  split; [exact Hv|]. split; [exact Hi|]. split; [exact R|]. split; [exact Fit|]. intros acc Hx. split; [exact Fit|].
  eapply fsem_ext; [apply veq_sym; exact Ev|eauto].
Qed.

(** The answer is never an abort. *)
Theorem find_path_no_abort acc fuel start : upper_invariants dim s -> search_accurate acc dim xext s (s_zone target) ->
  In (s_loc start) (all_locations dim s) -> pattern dim s (s_loc target) ->
  find_path dim fuel s xext start target = NoFuel \/ exists r, find_path dim fuel s xext start target = Ok r.
Proof.
  intros Up Hx Hs Hp. unfold find_path, find_listed. destruct (trivially_unreachable dim start target); [eauto|].
  set (st := mkS (s_loc start) (apply_inv dim (s_loc start) (s_zone start))).
  assert (HF : Forall (sp_ok dim s xext st) [PStart st]) by (constructor; [reflexivity|constructor]).
  revert HF. generalize [PStart st] as F. generalize ([(lt_id (s_loc st), [s_zone st])] : visited) as V.
  induction fuel as [|f IH]; intros V F HF; change (list (locid * list fed)) with visited in V; cbn [search_loop]; [auto|].
  destruct F as [|sp F]; [eauto|]. inversion HF; subst.
  pose proof (locs_in dim s Hbuilt _ _ _ (Hs : In (s_loc st) _) (sp_locs dim s q xext Hclocks st sp H1)) as Hl.
  unfold reached_end. destruct (compare_spec _ _ (location_named _ _ Hbuilt _ Hl) (pattern_named _ _ Hbuilt _ Hp)) as (r & Er & _).
  rewrite Er. cbn [bind]. destruct (r && fmeets dim (s_zone (sp_state sp)) (s_zone target)).
  - destruct (sp_meets acc st Hx Hs sp H1) as (st' & C & _). destruct (chain_decisions dim s q Hbuilt Hclocks Up _ _ _ C Hs) as (ds & Ed).
    unfold make_path. rewrite Ed. cbn [bind]. eauto.
  - destruct (expand_total dim s xext Hbuilt sp Hl (sort_str (ts_actions s)) (fun a Ha => proj1 (actions_in s a) Ha) (F, V)) as ([F' V'] & Ee).
    rewrite Ee. cbn [bind fst snd]. apply IH. eapply expand_sp; [exact H1| |exact Ee|exact H2]. intros a Ha. apply (actions_in s a). exact Ha.
Qed.
End Accurate.

(** ** The classical extrapolation with the bounds of the target *)
Lemma close_step_le dim m k i j : (i < dim)%nat -> (j < dim)%nat -> ble (dget (close_step dim m k) i j) (dget m i j).
Proof. intros Hi Hj. unfold close_step. rewrite dget_make by assumption. apply bmin_l. Qed.
Lemma close_le dim m i j : (i < dim)%nat -> (j < dim)%nat -> ble (dget (close dim m) i j) (dget m i j).
Proof.
  intros Hi Hj. unfold close. revert m. induction (seq 0 dim) as [|k ks IH]; intros m; cbn [fold_left]; [apply ble_refl|].
  eapply ble_trans; [apply IH|apply close_step_le; assumption].
Qed.
Lemma zone_bound_le z c : In c z -> ble (zone_bound z (ci c) (cj c)) (Some (cs c, cc c)).
Proof.
  induction z as [|d z IH]; [intros []|]. intros H. cbn [zone_bound fold_right]. fold (zone_bound z (ci c) (cj c)). destruct H as [->|H].
  - rewrite !Nat.eqb_refl. cbn [andb]. apply bmin_l.
  - destruct (_ && _); [eapply ble_trans; [apply bmin_r|apply IH, H]|apply IH, H].
Qed.
Lemma fed_bounds_below dim f : bounds_below dim (fed_bounds dim f).
Proof.
  intros i k. unfold fed_bounds. induction (fclean dim f) as [|z zs IH]; cbn [map fold_right]; [discriminate|]. intros E. apply join_some in E. destruct E as [E|E]; [|auto].
  unfold zone_bounds in E. destruct (Nat.ltb_spec 0 i), (Nat.ltb_spec i dim); cbn [andb] in E; try discriminate. assumption.
Qed.
Lemma fed_bounds_zone dim f z : In z (fclean dim f) -> below (zone_bounds dim z) (fed_bounds dim f).
Proof.
  unfold fed_bounds. induction (fclean dim f) as [|y ys IH]; [intros []|]. cbn [map fold_right]. intros [->|H] i k E; [apply join_l; exact (below_refl _ i k E)|apply join_r; exact (IH H i k E)].
Qed.
Lemma omax_l a b k : a = Some k -> exists m, omax a b = Some m /\ (k <= m)%Z.
Proof. intros ->. destruct b; cbn; eexists; (split; [reflexivity|lia]). Qed.
Lemma omax_r a b k : b = Some k -> exists m, omax a b = Some m /\ (k <= m)%Z.
Proof. intros ->. destruct a; cbn; eexists; (split; [reflexivity|lia]). Qed.
Theorem fed_bounds_decide dim f : no_differences dim f -> decided_by dim (fed_bounds dim f) f.
Proof.
  intros Pl v w V W A Hv. apply fclean_sem in Hv. destruct Hv as (_ & z & Hz & S). assert (Hzf : In z f) by (apply filter_In in Hz; apply Hz).
  pose proof (below_alike _ _ _ _ (fed_bounds_zone dim f z Hz) A) as Az. split; [exact W|]. exists z. split; [exact Hzf|]. intros c Hc. pose proof (S c Hc) as Sc. unfold csem in *.
  destruct (Pl z c Hzf Hc) as (Hi & Hj & P). assert (Hd : (0 < dim)%nat) by lia.
  assert (Bm : bsat dim (close dim (dbm_of dim z)) v).
  { apply (proj2 (close_sem _ _ _)). intros i j I J. unfold dbm_of. rewrite dget_make by assumption. apply zone_bound_sem. split.
    - intros [->| ->]; [lra|]. pose proof (proj2 V j J). destruct V as [V0 _]. lra.
    - intros c' Hc' <- <-. exact (S c' Hc'). }
  pose proof (close_le dim (dbm_of dim z) (ci c) (cj c) Hi Hj) as L. unfold dbm_of in L at 2. rewrite dget_make in L by assumption.
  pose proof (ble_trans _ _ _ L (zone_bound_le z c Hc)) as Lc. specialize (Bm (ci c) (cj c) Hi Hj).
  destruct (dget (close dim (dbm_of dim z)) (ci c) (cj c)) as [[sx x]|] eqn:Ex; [|destruct Lc].
  assert (Q : bound_sem (Some (sx, x)) (w (ci c) - w (cj c)) -> bound_sem (Some (cs c, cc c)) (w (ci c) - w (cj c))) by (apply ble_sem, Lc).
  destruct V as [V0 _], W as [W0 _].
  destruct (Nat.eq_dec (ci c) 0) as [Ei|Ni]; [destruct (Nat.eq_dec (cj c) 0) as [Ej|Nj]|].
  - rewrite Ei, Ej in *. unfold ilt in *. destruct (cs c); rewrite ?V0, ?W0 in *; exact Sc.
  - assert (Ez : exists k, zone_bounds dim z (cj c) = Some k /\ (- x <= k)%Z).
    { unfold zone_bounds. destruct (Nat.ltb_spec 0 (cj c)); [|lia]. destruct (Nat.ltb_spec (cj c) dim); [|lia]. cbn [andb]. unfold clock_bound. rewrite Ei in Ex. rewrite Ex. apply omax_r. reflexivity. }
    destruct Ez as (k & Ek & Hk). rewrite Ei in *. destruct (Az (cj c) k Ek) as [E|[K1 K2]].
    + unfold ilt in *. destruct (cs c); rewrite ?V0, ?W0, <- ?E in *; exact Sc.
    + apply Q. rewrite Zle_Qle, inject_Z_opp in Hk. cbn. unfold ilt. destruct sx; rewrite W0; lra.
  - destruct P as [P|P]; [contradiction|]. rewrite P in *.
    assert (Ez : exists k, zone_bounds dim z (ci c) = Some k /\ (x <= k)%Z).
    { unfold zone_bounds. destruct (Nat.ltb_spec 0 (ci c)); [|lia]. destruct (Nat.ltb_spec (ci c) dim); [|lia]. cbn [andb]. unfold clock_bound. rewrite Ex. apply omax_l. reflexivity. }
    destruct Ez as (k & Ek & Hk). destruct (Az (ci c) k Ek) as [E|[K1 K2]].
    + unfold ilt in *. destruct (cs c); rewrite ?V0, ?W0, <- ?E in *; exact Sc.
    + exfalso. rewrite Zle_Qle in Hk. cbn in Bm. unfold ilt in Bm. destruct sx; rewrite V0 in Bm; lra.
Qed.
Theorem classical_accurate dim s f : bounds_suffice dim s -> clocks_below dim s -> no_differences dim f -> search_accurate Bounded dim (max_xext dim s (fed_bounds dim f)) s f.
Proof.
  intros Hs Hd Hf. split; [exact Hs|]. split; [exact Hd|]. exists (fed_bounds dim f). split; [apply fed_bounds_below|]. split; [apply fed_bounds_decide, Hf|].
  intros l b g E D. unfold max_xext. rewrite E. apply fextra_loosened. intros i k X. apply join_some in X. destruct X as [X|X]; [eapply D; exact X|eapply fed_bounds_below; exact X].
Qed.

(** The states in the zone of the initial state are those reached by waiting. *)
Lemma initial_zone dim s st v : initial_state dim s = Some st -> fsem dim (s_zone st) v -> exists d, 0 <= d /\ forall i, (i < dim)%nat -> v i == vdelay zero_val d i.
Proof.
  intros E Hv. assert (Fi : fsem dim (finit dim) v).
  { unfold initial_state in E. destruct (initial_location dim s) as [l0|]; [|discriminate]. unfold state_from_location in E.
    destruct s; try (destruct (fempty _ _); [discriminate|]); injection E as <-; cbn [s_zone] in Hv; try (apply apply_inv_sem in Hv; apply Hv). exact Hv. }
  apply finit_sem in Fi. destruct Fi as (d & D & V0 & Vi). exists d. split; [exact D|]. intros [|i] Hi; [rewrite V0, vdelay_0; reflexivity|].
  rewrite (Vi (S i)), vdelay_S by (auto; discriminate). unfold zero_val. ring.
Qed.
