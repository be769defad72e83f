(** Composite systems are deterministic when their components passed the check. *)
From Coq Require Import List String ZArith QArith Bool Arith Lia Lqa.
From Verif Require Import Fed.Zone Fed.ZoneFacts Model.Base Model.Expr Model.Guard Model.Loc Model.Component Model.TS Model.Search
  Spec.StepSpec Spec.SystemSpec Spec.RunSpec Proofs.GuardFacts Proofs.StepFacts Proofs.SystemFacts Proofs.QuotientFacts Proofs.WfFacts
  Proofs.RunFacts Proofs.DetFacts.
Import ListNotations.
Local Open Scope Q_scope.

(** ** Pairwise relations on lists *)
Lemma FOP_app {A} (R : A -> A -> Prop) l1 l2 : ForallOrdPairs R l1 -> ForallOrdPairs R l2 ->
  (forall a b, In a l1 -> In b l2 -> R a b) -> ForallOrdPairs R (l1 ++ l2).
Proof.
  intros H1 H2 X. induction H1 as [|a l Ha Hl IH]; [exact H2|]. simpl. constructor.
  - apply Forall_app. split; [exact Ha|]. apply Forall_forall. intros b Hb. apply X; [left; reflexivity|exact Hb].
  - apply IH. intros x y Hx Hy. apply X; [right; exact Hx|exact Hy].
Qed.
Lemma FOP_mapf {A B} (f : A -> B) (R : B -> B -> Prop) l :
  ForallOrdPairs (fun a b => R (f a) (f b)) l -> ForallOrdPairs R (map f l).
Proof.
  induction 1 as [|a l Ha Hl IH]; simpl; constructor; [|exact IH].
  rewrite Forall_forall in *. intros y Hy. apply in_map_iff in Hy. destruct Hy as (x & <- & Hx). auto.
Qed.
Lemma FOP_filter {A} (R : A -> A -> Prop) p l : ForallOrdPairs R l -> ForallOrdPairs R (filter p l).
Proof.
  induction 1 as [|a l Ha Hl IH]; simpl; [constructor|]. destruct (p a); [|exact IH]. constructor; [|exact IH].
  rewrite Forall_forall in *. intros y Hy. apply filter_In in Hy. destruct Hy. auto.
Qed.
Lemma FOP_mapM {A B} (f : A -> res B) (R : A -> A -> Prop) (R' : B -> B -> Prop) l : forall ys,
  mapM f l = Ok ys -> ForallOrdPairs R l ->
  (forall x x' y y', In x l -> In x' l -> f x = Ok y -> f x' = Ok y' -> R x x' -> R' y y') -> ForallOrdPairs R' ys.
Proof.
  induction l as [|a l IH]; simpl; intros ys E F H.
  - injection E as <-. constructor.
  - inv_bind E. inv_bind E. injection E as <-. inversion F as [|? ? Fa Fl]; subst. constructor.
    + apply Forall_forall. intros y' Hy'. destruct (mapM_in _ _ _ H1) as [_ M]. destruct (M y' Hy') as (x' & Hx' & Ex').
      rewrite Forall_forall in Fa. eapply H; [left; reflexivity|right; exact Hx'|exact H0|exact Ex'|auto].
    + eapply IH; eauto.
Qed.
Lemma FOP_prod {A B} (P : A -> Prop) (Q : B -> Prop) la lb :
  ForallOrdPairs (fun a b => ~ (P a /\ P b)) la -> ForallOrdPairs (fun a b => ~ (Q a /\ Q b)) lb ->
  ForallOrdPairs (fun x y => ~ ((P (fst x) /\ Q (snd x)) /\ (P (fst y) /\ Q (snd y)))) (list_prod la lb).
Proof.
  intros Fa Fb. induction Fa as [|a la Ha Hla IH]; simpl; [constructor|]. apply FOP_app; [|exact IH|].
  - apply FOP_mapf. eapply FOP_map; [|exact Fb]. cbn [fst snd]. intros x y _ _ N [[_ ?] [_ ?]]. apply N; auto.
  - intros x y Hx Hy. apply in_map_iff in Hx. destruct Hx as (b & <- & Hb). destruct y as [a' b']. apply in_prod_iff in Hy.
    cbn [fst snd]. rewrite Forall_forall in Ha. intros [[? _] [? _]]. apply (Ha a'); tauto.
Qed.
Lemma FOP_nth {A} (R : A -> A -> Prop) l : (forall a b, R a b -> R b a) -> ForallOrdPairs R l ->
  forall i j a b, i <> j -> nth_error l i = Some a -> nth_error l j = Some b -> R a b.
Proof.
  intros Sym. induction 1 as [|x l Hx Hl IH]; intros i j a b N Ei Ej.
  - destruct i; discriminate.
  - rewrite Forall_forall in Hx. destruct i, j; simpl in Ei, Ej.
    + contradiction.
    + injection Ei as <-. apply Hx. eapply nth_error_In; eauto.
    + injection Ej as <-. apply Sym. apply Hx. eapply nth_error_In; eauto.
    + eapply IH; [|exact Ei|exact Ej]. congruence.
Qed.

(** ** Invariants of the components only *)
Fixpoint cinv (dim : nat) (s : ts) (l : loctree) (v : val) : Prop :=
  match s with
  | TSimple _ => inv_at dim l v
  | TConj a b _ _ | TComp a b _ _ _ _ _ => match l with LNode _ _ _ x y => cinv dim a x v /\ cinv dim b y v | _ => True end
  | TQuot _ _ _ _ _ _ => True
  end.

(** What reachable states look like for the components of a system. *)
Fixpoint dinv (dim : nat) (s : ts) (l : loctree) (v : val) : Prop :=
  match s with
  | TSimple _ => exists w d, entry dim s l w /\ 0 <= d /\ agree (comp_clocks s) v (vdelay w d)
  | TConj a b _ _ | TComp a b _ _ _ _ _ => match l with LNode _ _ _ x y => dinv dim a x v /\ dinv dim b y v | _ => False end
  | TQuot a b _ _ _ q => l = lt_universal \/ l = lt_error q \/
      match l with LNode _ _ _ x y => dinv dim a x v /\ dinv dim b y v | _ => False end
  end.

Lemma compose_node dim a b c p : lt_compose dim a b c = Ok p -> exists i f y, p = LNode i f y a b.
Proof. unfold lt_compose. destruct c; simpl; intros E; try discriminate; injection E as <-; eauto. Qed.

Lemma inv_cinv dim s : built dim s -> forall l v, In l (all_locations dim s) -> inv_at dim l v -> cinv dim s l v.
Proof.
  induction 1 as [c ins outs id cc E|l r s Hl IHl Hr IHr E|l r s Hl IHl Hr IHr E|T S q s HT IHT HS IHS E]; intros loc v Hloc Hi.
  - exact Hi.
  - apply conjunction_new_inv in E. destruct E as (-> & _ & _). cbn [all_locations cinv] in *.
    apply in_all_compose in Hloc; [|left; reflexivity]. destruct Hloc as (a & b & Ha & Hb & Ep).
    destruct (lt_compose_spec dim a b CConj loc (or_introl eq_refl) Ep) as (_ & _ & _ & Iv).
    destruct (compose_node _ _ _ _ _ Ep) as (i & f & y & ->). apply Iv in Hi. destruct Hi. auto.
  - apply composition_new_inv in E. destruct E as (_ & ins & outs & lo & ro & co & -> & _). cbn [all_locations cinv] in *.
    apply in_all_compose in Hloc; [|right; reflexivity]. destruct Hloc as (a & b & Ha & Hb & Ep).
    destruct (lt_compose_spec dim a b CComp loc (or_intror eq_refl) Ep) as (_ & _ & _ & Iv).
    destruct (compose_node _ _ _ _ _ Ep) as (i & f & y & ->). apply Iv in Hi. destruct Hi. auto.
  - apply quotient_new_inv in E. destruct E as (n & ins & outs & -> & _). exact I.
Qed.

Lemma cinv_agree dim s : built dim s -> reads_ok s -> forall l v w, In l (all_locations dim s) ->
  agree (comp_clocks s) v w -> val_ok dim v -> val_ok dim w -> cinv dim s l v -> cinv dim s l w.
Proof.
  induction 1 as [c ins outs id cc E|l r s Hl IHl Hr IHr E|l r s Hl IHl Hr IHr E|T S q s HT IHT HS IHS E]; intros R loc v w Hloc A Hv Hw Hi.
  - cbn [cinv all_locations reads_ok] in *. unfold inv_at in *. destruct (lt_inv loc) as [f|] eqn:Ef; [|exact Hw].
    eapply fclocks_sem; [|exact A| | |exact Hi]; auto. eapply R; eauto.
  - apply conjunction_new_inv in E. destruct E as (-> & _ & _). cbn [all_locations cinv reads_ok comp_clocks] in *.
    apply in_all_compose in Hloc; [|left; reflexivity]. destruct Hloc as (a & b & Ha & Hb & Ep).
    destruct (compose_node _ _ _ _ _ Ep) as (i & f & y & ->). apply agree_app in A. destruct A, R, Hi. split; eauto.
  - apply composition_new_inv in E. destruct E as (_ & ins & outs & lo & ro & co & -> & _). cbn [all_locations cinv reads_ok comp_clocks] in *.
    apply in_all_compose in Hloc; [|right; reflexivity]. destruct Hloc as (a & b & Ha & Hb & Ep).
    destruct (compose_node _ _ _ _ _ Ep) as (i & f & y & ->). apply agree_app in A. destruct A, R, Hi. split; eauto.
  - apply quotient_new_inv in E. destruct E as (n & ins & outs & -> & _). exact I.
Qed.

Lemma dinv_agree dim s : forall l v w, agree (comp_clocks s) v w -> dinv dim s l v -> dinv dim s l w.
Proof.
  induction s as [c|a IHa b IHb ins outs|a IHa b IHb ins outs lo ro co|a IHa b IHb ins outs n q]; cbn [dinv comp_clocks]; intros l v w A H.
  - destruct H as (u & d & E & Hd & G). exists u, d. split; [exact E|]. split; [exact Hd|]. eapply agree_trans; [apply agree_sym; exact A|exact G].
  - apply agree_app in A. destruct A. destruct l; [exact H|]. destruct H. split; eauto.
  - apply agree_app in A. destruct A. destruct l; [exact H|]. destruct H. split; eauto.
  - apply agree_app in A. destruct A. destruct H as [H|[H|H]]; [auto|auto|]. destruct l; [contradiction|]. destruct H. right; right. split; eauto.
Qed.

Lemma entry_ok dim q s : clocks_ok dim q s -> forall l w, entry dim s l w -> val_ok dim w.
Proof.
  intros K l w E. induction E as [l Hi|l w d a t E IH Hd (Ha & ts & Ets & Ht) Hab].
  - split; [reflexivity|]. intros i _. unfold zero_val. lra.
  - destruct (next_fine dim q s K _ _ _ Ets t Ht) as [[U _] _]. apply run_updates_ok; [exact U|]. apply vdelay_ok; assumption.
Qed.

Lemma dinv_delay dim q s : clocks_ok dim q s -> forall l v d, val_ok dim v -> 0 <= d -> dinv dim s l v -> dinv dim s l (vdelay v d).
Proof.
  induction s as [c|a IHa b IHb ins outs|a IHa b IHb ins outs lo ro co|a IHa b IHb ins outs n q']; intros K l v d Hv Hd H.
  - cbn [dinv] in *. destruct H as (u & e & E & He & G). exists u, (e + d). split; [exact E|]. split; [lra|].
    eapply agree_trans; [apply agree_delay; [|exact G]|apply agree_veq, vdelay_add].
    right. destruct (entry_ok dim q _ K _ _ E) as [E0 _]. destruct Hv as [-> _]. rewrite vdelay_0. symmetry; exact E0.
  - cbn [dinv clocks_ok] in *. destruct K as (K1 & K2 & _). destruct l; [exact H|]. destruct H. auto.
  - cbn [dinv clocks_ok] in *. destruct K as (K1 & K2 & _). destruct l; [exact H|]. destruct H. auto.
  - cbn [dinv clocks_ok] in *. destruct K as (K1 & K2 & _). destruct H as [H|[H|H]]; [auto|auto|]. destruct l; [contradiction|]. destruct H. right; right. auto.
Qed.

Lemma dinv_init dim s : forall l, initial_location dim s = Some l -> dinv dim s l zero_val.
Proof.
  induction s as [c|a IHa b IHb ins outs|a IHa b IHb ins outs lo ro co|a IHa b IHb ins outs n q]; intros l Hi.
  - cbn [dinv]. exists zero_val, 0. split; [constructor; exact Hi|]. split; [lra|]. apply agree_veq. symmetry. apply vdelay_zero. reflexivity.
  - cbn [initial_location dinv] in *. destruct (initial_location dim a) as [x|]; [|discriminate]. destruct (initial_location dim b) as [y|]; [|discriminate].
    destruct (lt_compose dim x y CConj) eqn:E; try discriminate. injection Hi as ->. destruct (compose_node _ _ _ _ _ E) as (i & f & z & ->). auto.
  - cbn [initial_location dinv] in *. destruct (initial_location dim a) as [x|]; [|discriminate]. destruct (initial_location dim b) as [y|]; [|discriminate].
    destruct (lt_compose dim x y CComp) eqn:E; try discriminate. injection Hi as ->. destruct (compose_node _ _ _ _ _ E) as (i & f & z & ->). auto.
  - cbn [initial_location dinv] in *. destruct (initial_location dim a) as [x|]; [|discriminate]. destruct (initial_location dim b) as [y|]; [|discriminate].
    injection Hi as <-. right; right. cbn. auto.
Qed.

(** Being able to take a transition, as far as the components are concerned. *)
Definition cable (dim : nat) (s : ts) (l : loctree) (v : val) (t : transition) : Prop :=
  fsem dim (t_guard t) v /\ cinv dim s l v /\ cinv dim s (t_target t) (run_updates (t_updates t) v).

Lemma able_cable dim s l t v : built dim s -> In l (all_locations dim s) -> In (t_target t) (all_locations dim s) ->
  able dim l t v -> cable dim s l v t.
Proof. intros B Hl Ht (A1 & A2 & A3). split; [exact A2|]. split; apply inv_cinv; auto. Qed.

(** The conclusion carried through the induction. *)
Definition det_at (dim : nat) (s : ts) (l : loctree) (v : val) (ts : list transition) : Prop :=
  (forall t, In t ts -> cable dim s l v t -> dinv dim s (t_target t) (run_updates (t_updates t) v)) /\
  ForallOrdPairs (fun t u => ~ (cable dim s l v t /\ cable dim s l v u)) ts.

Definition foreign (xs : list nat) (us : list cupdate) : Prop := forall u, In u us -> ~ In (u_clock u) xs.

Lemma own_foreign dim q l r t : clocks_ok dim q l -> (forall x, In x (comp_clocks l) -> ~ In x (comp_clocks r)) ->
  own r q t -> foreign (comp_clocks l) (t_updates t).
Proof.
  intros K D O u Hu C. destruct (O u Hu) as [H| ->]; [eapply D; eauto|]. eapply q_not_own; eauto.
Qed.
Lemma own_foreign' dim q l r t : clocks_ok dim q r -> (forall x, In x (comp_clocks l) -> ~ In x (comp_clocks r)) ->
  own l q t -> foreign (comp_clocks r) (t_updates t).
Proof.
  intros K D O u Hu C. destruct (O u Hu) as [H| ->]; [eapply D; eauto|]. eapply q_not_own; eauto.
Qed.

Lemma pair_case dim q l r c s ll lr loc v tl tr ts :
  built dim l -> built dim r -> clocks_ok dim q l -> clocks_ok dim q r -> reads_ok l -> reads_ok r ->
  (forall x, In x (comp_clocks l) -> ~ In x (comp_clocks r)) ->
  (forall i f y x1 x2 w, cinv dim s (LNode i f y x1 x2) w <-> cinv dim l x1 w /\ cinv dim r x2 w) ->
  (forall i f y x1 x2 w, dinv dim s (LNode i f y x1 x2) w <-> dinv dim l x1 w /\ dinv dim r x2 w) ->
  proper c -> lt_compose dim ll lr c = Ok loc -> val_ok dim v ->
  (forall t, In t tl -> tr_fine dim t /\ own l q t /\ In (t_target t) (all_locations dim l)) ->
  (forall t, In t tr -> tr_fine dim t /\ own r q t /\ In (t_target t) (all_locations dim r)) ->
  combinations dim tl tr c = Ok ts -> det_at dim l ll v tl -> det_at dim r lr v tr -> det_at dim s loc v ts.
Proof.
  intros Bl Br Kl Kr Rl Rr D CI DI Hc Eloc Hv Fl Fr E [Sl Dl] [Sr Dr].
  destruct (compose_node _ _ _ _ _ Eloc) as (i0 & f0 & y0 & ->).
  assert (Part : forall t1 t2 t, In t1 tl -> In t2 tr -> combine_pair dim c t1 t2 = Ok t -> cable dim s (LNode i0 f0 y0 ll lr) v t ->
            cable dim l ll v t1 /\ cable dim r lr v t2).
  { intros t1 t2 t H1 H2 Et (G & C1 & C2). unfold combine_pair in Et. inv_bind Et. inv_bind Et. injection Et as <-.
    destruct (compose_node _ _ _ _ _ H) as (i & f & y & ->). cbn [t_guard t_target t_updates] in *.
    apply finter_sem in G. apply CI in C1. apply CI in C2. destruct G as [G1 G2], C1 as [C1 C1'], C2 as [C2 C2'].
    destruct (Fl t1 H1) as ([U1 _] & O1 & T1), (Fr t2 H2) as ([U2 _] & O2 & T2). rewrite run_updates_app in *.
    pose proof (run_updates_ok dim _ U1 v Hv) as V1. pose proof (run_updates_ok dim _ U2 v Hv) as V2.
    pose proof (run_updates_ok dim _ U2 _ V1) as V12.
    split; (split; [assumption|split; [assumption|]]).
    - eapply cinv_agree; [exact Bl|exact Rl|exact T1| | | |exact C2]; auto.
      apply agree_foreign. eapply own_foreign; eauto.
    - eapply cinv_agree; [exact Br|exact Rr|exact T2| | | |exact C2']; auto.
      apply agree_updates. apply agree_foreign. eapply own_foreign'; eauto. }
  split.
  - intros t Ht Hc'. unfold combinations in E. destruct (mapM_in _ _ _ E) as [_ M]. destruct (M t Ht) as ([t1 t2] & Hp & Et).
    apply in_prod_iff in Hp. destruct Hp as [H1 H2]. cbn [fst snd] in Et.
    destruct (Part t1 t2 t H1 H2 Et Hc') as [P1 P2]. specialize (Sl t1 H1 P1). specialize (Sr t2 H2 P2).
    unfold combine_pair in Et. inv_bind Et. inv_bind Et. injection Et as <-.
    destruct (compose_node _ _ _ _ _ H) as (i & f & y & ->). cbn [t_guard t_target t_updates] in *. apply DI.
    destruct (Fl t1 H1) as (_ & O1 & _), (Fr t2 H2) as (_ & O2 & _). rewrite run_updates_app. split.
    + eapply dinv_agree; [|exact Sl]. apply agree_sym, agree_foreign. eapply own_foreign; eauto.
    + eapply dinv_agree; [|exact Sr]. apply agree_sym, agree_updates, agree_foreign. eapply own_foreign'; eauto.
  - unfold combinations in E. eapply FOP_mapM; [exact E|apply FOP_prod; [exact Dl|exact Dr]|].
    intros [t1 t2] [u1 u2] y y' Hp Hp' Ey Ey' N [C1 C2]. apply in_prod_iff in Hp, Hp'. cbn [fst snd] in *. apply N.
    split; [apply (Part t1 t2 y)|apply (Part u1 u2 y')]; tauto.
Qed.

(** Every component passed the determinism check (in the sense of [det_search_sound]). *)
Fixpoint comps_det (dim : nat) (s : ts) : Prop :=
  match s with
  | TSimple _ => forall l w d v a ts, entry dim s l w -> 0 <= d -> inv_at dim l (vdelay w d) -> veq v (vdelay w d) -> is_action s a ->
      next_transitions dim s l a = Ok ts -> ForallOrdPairs (fun t u => ~ (able dim l t v /\ able dim l u v)) ts
  | TConj a b _ _ | TComp a b _ _ _ _ _ | TQuot a b _ _ _ _ => comps_det dim a /\ comps_det dim b
  end.

Lemma quotient_free_plain s : quotient_free s = true -> plain_divisors s = true.
Proof. induction s; simpl; auto; try discriminate; intros H; apply andb_true_iff in H; destruct H; rewrite IHs1, IHs2; auto. Qed.

Lemma fine_targets dim q s : built dim s -> clocks_ok dim q s -> forall loc a ts, In loc (all_locations dim s) -> is_action s a ->
  next_transitions dim s loc a = Ok ts -> forall t, In t ts -> tr_fine dim t /\ own s q t /\ In (t_target t) (all_locations dim s).
Proof.
  intros B K loc a ts Hl Ha E t Ht. destruct (next_fine dim q s K _ _ _ E t Ht) as [F O]. split; [exact F|]. split; [exact O|].
  destruct (next_wf dim s B loc a Hl Ha) as (ts' & E' & T). rewrite E in E'. injection E' as <-. auto.
Qed.

Lemma FOP_single {A} (R : A -> A -> Prop) a : ForallOrdPairs R [a].
Proof. constructor; constructor. Qed.

Lemma det_everywhere dim q s : built dim s -> clocks_ok dim q s -> reads_ok s -> no_reserved s = true -> plain_divisors s = true ->
  comps_det dim s -> forall l v a ts, In l (all_locations dim s) -> val_ok dim v -> dinv dim s l v -> is_action s a ->
  next_transitions dim s l a = Ok ts -> det_at dim s l v ts.
Proof.
  induction 1 as [c ins outs id cc E|l r s Hl IHl Hr IHr E|l r s Hl IHl Hr IHr E|T S qc s HT IHT HS IHS E];
    intros K R N P CD loc v a ts Hloc Hv Hd Ha Ets.
  - (* component *)
    assert (B : built dim (TSimple cc)) by (eapply b_simple; eauto).
    destruct Hd as (w & d & En & Hd & A).
    pose proof (entry_ok dim q _ K _ _ En) as Hw. assert (Hwd : val_ok dim (vdelay w d)) by (apply vdelay_ok; assumption).
    assert (Tr : forall t, In t ts -> cable dim (TSimple cc) loc v t -> able dim loc t (vdelay w d)).
    { intros t Ht (G & C1 & C2). destruct (fine_targets dim q _ B K _ _ _ Hloc Ha Ets t Ht) as ([U _] & O & Tg).
      split; [|split].
      - eapply (cinv_agree dim (TSimple cc)); [exact B|exact R|exact Hloc|exact A| | |exact C1]; auto.
      - cbn [next_transitions] in Ets. destruct (negb _); [discriminate|].
        destruct (is_universal loc); [injection Ets as <-; destruct Ht as [<-|[]]; apply funiv_sem; exact Hwd|].
        destruct (is_inconsistent loc && sin a (cc_inputs cc)); [injection Ets as <-; destruct Ht as [<-|[]]; apply funiv_sem; exact Hwd|].
        unfold assoc_loc in Ets. destruct (find _ (cc_edges cc)) as [[i es]|] eqn:F; [|discriminate]. cbn in Ets. injection Ets as <-.
        apply find_some_in in F. apply in_map_iff in Ht. destruct Ht as ([b t'] & Et & Hp). cbn [snd] in Et. subst t'.
        apply filter_In in Hp. destruct Hp as [Hp _]. destruct R as [_ R]. eapply fclocks_sem; [eapply R; eauto|exact A| | |exact G]; auto.
      - eapply (cinv_agree dim (TSimple cc)); [exact B|exact R|exact Tg|apply agree_updates; exact A| | |exact C2];
          apply run_updates_ok; auto. }
    split.
    + intros t Ht Hc. exists (run_updates (t_updates t) (vdelay w d)), 0. split; [|split; [lra|]].
      * eapply entry_step; [exact En|exact Hd| |apply Tr; assumption]. split; [exact Ha|eauto].
      * eapply agree_trans; [apply agree_updates; exact A|]. apply agree_veq. symmetry. apply vdelay_zero. reflexivity.
    + destruct (inv_at_dec dim loc (vdelay w d) Hwd) as [Hi|Hi].
      * eapply FOP_map; [|eapply CD; [exact En|exact Hd|exact Hi|reflexivity|exact Ha|exact Ets]].
        intros t u Ht Hu Nn [C1 C2]. apply Nn. split; apply Tr; assumption.
      * eapply FOP_map with (R := fun _ _ => True); [|clear; induction ts; constructor; auto; apply Forall_forall; auto].
        intros t u Ht Hu _ [C1 C2]. apply Hi. apply (Tr t Ht C1).
  - (* conjunction *)
    apply conjunction_new_inv in E. destruct E as (-> & _ & _).
    cbn [clocks_ok reads_ok no_reserved plain_divisors comps_det] in K, R, N, P, CD. apply andb_true_iff in N, P.
    destruct K as (K1 & K2 & D), R as [R1 R2], N as [N1 N2], P as [P1 P2], CD as [CD1 CD2].
    cbn [all_locations] in Hloc. apply in_all_compose in Hloc; [|left; reflexivity]. destruct Hloc as (ll & lr & Hll & Hlr & Eloc).
    destruct (compose_node _ _ _ _ _ Eloc) as (i & f & y & ->). cbn [dinv] in Hd. destruct Hd as [Dl Dr].
    assert (Hal : is_action l a /\ is_action r a).
    { unfold is_action, is_input, is_output in *. cbn [ts_inputs ts_outputs] in Ha. rewrite !in_sinter in Ha. tauto. }
    destruct Hal as [Hal Har].
    cbn [next_transitions] in Ets. destruct (negb _); [discriminate|]. cbn [lt_left lt_right bind] in Ets. inv_bind Ets. inv_bind Ets.
    eapply (pair_case dim q l r CConj); eauto; try reflexivity; try (left; reflexivity).
    + eapply fine_targets; eauto.
    + eapply fine_targets; eauto.
  - (* composition *)
    apply composition_new_inv in E. destruct E as (_ & ins & outs & lo & ro & co & -> & _ & _ & Elo & Ero & Eco).
    cbn [clocks_ok reads_ok no_reserved plain_divisors comps_det] in K, R, N, P, CD. apply andb_true_iff in N, P.
    destruct K as (K1 & K2 & D), R as [R1 R2], N as [N1 N2], P as [P1 P2], CD as [CD1 CD2].
    cbn [all_locations] in Hloc. apply in_all_compose in Hloc; [|right; reflexivity]. destruct Hloc as (ll & lr & Hll & Hlr & Eloc).
    destruct (compose_node _ _ _ _ _ Eloc) as (i & f & y & ->). cbn [dinv] in Hd. destruct Hd as [Dl Dr].
    cbn [next_transitions] in Ets. destruct (negb _); [discriminate|]. cbn [lt_left lt_right bind] in Ets.
    assert (Stay : forall s x, dinv dim s x v -> det_at dim s x v [t_without_id x]).
    { intros s x Hx. split; [|apply FOP_single]. intros t [<-|[]] _. exact Hx. }
    destruct (sin a co) eqn:S1; [|destruct (sin a lo) eqn:S2; [|destruct (sin a ro) eqn:S3; [|discriminate]]].
    + apply sin_In, Eco in S1. destruct S1. inv_bind Ets. inv_bind Ets.
      eapply (pair_case dim q l r CComp); eauto; try reflexivity; try (right; reflexivity).
      * eapply fine_targets; eauto.
      * eapply fine_targets; eauto.
    + apply sin_In, Elo in S2. destruct S2. inv_bind Ets.
      eapply (pair_case dim q l r CComp); eauto; try reflexivity; try (right; reflexivity).
      * eapply fine_targets; eauto.
      * intros t [<-|[]]. destruct (without_fine dim q r lr). auto.
    + apply sin_In, Ero in S3. destruct S3. inv_bind Ets.
      eapply (pair_case dim q l r CComp); eauto; try reflexivity; try (right; reflexivity).
      * intros t [<-|[]]. destruct (without_fine dim q l ll). auto.
      * eapply fine_targets; eauto.
  - (* quotient *)
    pose proof E as E0. apply quotient_new_inv in E. destruct E as (n & ins & outs & -> & Ei & Eo & Nn & On & (j & Ej) & Dis).
    cbn [clocks_ok reads_ok no_reserved plain_divisors comps_det] in K, R, N, P, CD. apply andb_true_iff in N, P.
    destruct K as (K1 & K2 & D & -> & Q0 & Qd), R as [R1 R2], N as [N1 N2], P as [P1 P2], CD as [CD1 CD2].
    pose proof (quotient_free_plain S P2) as P2'.
    assert (Sn : ~ is_action S n).
    { intros C. destruct (reserved_alphabet dim S HS N2 P2') as [_ RA]. specialize (RA P2 n C). rewrite Ej, reserved_prefix in RA. discriminate. }
    assert (Loop : forall t, ts = [t] -> t_target t = loc -> t_updates t = [] -> det_at dim (TQuot T S ins outs n q) loc v ts).
    { intros t -> E1 E2. split; [|apply FOP_single]. intros t' [<-|[]] _. rewrite E1, E2. exact Hd. }
    cbn [next_transitions] in Ets. destruct (negb _); [discriminate|].
    cbn [all_locations] in Hloc. apply in_app_or in Hloc. destruct Hloc as [Hloc|[<-|[<-|[]]]].
    2:{ change (is_inconsistent (lt_error q)) with true in Ets. cbn iota in Ets. injection Ets as <-.
        destruct (sin a ins); [eapply Loop; reflexivity|]. split; [intros t []|constructor]. }
    2:{ change (is_inconsistent lt_universal) with false in Ets. change (is_universal lt_universal) with true in Ets. cbn iota in Ets.
        injection Ets as <-. eapply Loop; reflexivity. }
    apply in_map_iff in Hloc. destruct Hloc as ([lt ls] & <- & Hp). apply in_prod_iff in Hp. destruct Hp as [Hlt Hls]. cbn [fst snd] in *.
    assert (X1 : is_inconsistent (lt_quotient lt ls) = false) by (unfold is_inconsistent; cbn [lt_type lt_quotient]; destruct (lt_type lt), (lt_type ls); reflexivity).
    assert (X2 : is_universal (lt_quotient lt ls) = false) by (unfold is_universal; cbn [lt_type lt_quotient]; destruct (lt_type lt), (lt_type ls); reflexivity).
    rewrite X1, X2 in Ets. cbn [lt_left lt_right lt_quotient bind] in Ets.
    assert (Hd' : dinv dim T lt v /\ dinv dim S ls v).
    { cbn [dinv lt_quotient] in Hd. destruct Hd as [Hd|[Hd|Hd]]; [discriminate|discriminate|exact Hd]. }
    destruct Hd' as [DT DS]. inv_bind Ets. inv_bind Ets. injection Ets as <-. rename a0 into tts. rename a1 into sss.
    assert (FT : forall t, In t tts -> tr_fine dim t /\ own T q t /\ In (t_target t) (all_locations dim T)).
    { destruct (has_action T a) eqn:HA; [apply has_action_spec in HA; eapply fine_targets; eauto|injection H as <-; intros t []]. }
    assert (FS : forall t, In t sss -> tr_fine dim t /\ own S q t /\ In (t_target t) (all_locations dim S)).
    { destruct (has_action S a) eqn:HA; [apply has_action_spec in HA; eapply fine_targets; eauto|injection H0 as <-; intros t []]. }
    assert (AT : det_at dim T lt v tts).
    { destruct (has_action T a) eqn:HA; [apply has_action_spec in HA; eapply IHT; eauto|injection H as <-; split; [intros t []|constructor]]. }
    assert (AS : det_at dim S ls v sss).
    { destruct (has_action S a) eqn:HA; [apply has_action_spec in HA; eapply IHS; eauto|injection H0 as <-; split; [intros t []|constructor]]. }
    destruct AT as [ST OT], AS as [SS OS].
    assert (ET : ForallOrdPairs (fun t u => ~ (able dim lt t v /\ able dim lt u v)) tts).
    { eapply FOP_map; [|exact OT]. intros t u Ht Hu Nx [A1 A2]. apply Nx.
      destruct (FT t Ht) as (_ & _ & I1), (FT u Hu) as (_ & _ & I2). split; apply able_cable; auto. }
    assert (ES : ForallOrdPairs (fun t u => ~ (able dim ls t v /\ able dim ls u v)) sss).
    { eapply FOP_map; [|exact OS]. intros t u Ht Hu Nx [A1 A2]. apply Nx.
      destruct (FS t Ht) as (_ & _ & I1), (FS u Hu) as (_ & _ & I2). split; apply able_cable; auto. }
    assert (DT' : forall t, In t tts -> able dim lt t v -> dinv dim T (t_target t) (run_updates (t_updates t) v)).
    { intros t Ht Hab. apply ST; [exact Ht|]. destruct (FT t Ht) as (_ & _ & I1). apply able_cable; auto. }
    assert (DS' : forall t, In t sss -> able dim ls t v -> dinv dim S (t_target t) (run_updates (t_updates t) v)).
    { intros t Ht Hab. apply SS; [exact Ht|]. destruct (FS t Ht) as (_ & _ & I1). apply able_cable; auto. }
    split.
    + intros t Ht (G & _ & _).
      assert (Hoff : off dim (quotient_rules dim T S n q lt ls tts sss a) v (t_target t) (t_updates t)).
      { exists t. auto. }
      apply (quotient_rules_sound dim T S n q lt ls tts sss a) in Hoff;
        [|intros x Hx; apply (FT x Hx)|intros x Hx; apply (FS x Hx)].
      cbn [dinv]. destruct Hoff as [x y _ _ Hx Hy Ax Ay|y _ _ Hy Ay|x _ _ Hx Ax _|_ _|_ _ _|y _ _ _ _ _|_ _ _]; auto; right; right; cbn [lt_quotient].
      * rewrite run_updates_app. destruct (FT x Hx) as (_ & Ox & _), (FS y Hy) as (_ & Oy & _). split.
        -- eapply dinv_agree; [|exact (DT' x Hx Ax)]. apply agree_sym, agree_foreign. eapply own_foreign; eauto.
        -- eapply dinv_agree; [|exact (DS' y Hy Ay)]. apply agree_sym, agree_updates, agree_foreign. eapply own_foreign'; eauto.
      * destruct (FS y Hy) as (_ & Oy & _). split; [|exact (DS' y Hy Ay)].
        eapply dinv_agree; [|exact DT]. apply agree_sym, agree_foreign. eapply own_foreign; eauto.
      * destruct (FT x Hx) as (_ & Ox & _). split; [exact (DT' x Hx Ax)|].
        eapply dinv_agree; [|exact DS]. apply agree_sym, agree_foreign. eapply own_foreign'; eauto.
    + eapply (FOP_map (fun t u => ~ (fsem dim (t_guard t) v /\ fsem dim (t_guard u) v))); [intros t u _ _ Nx [[A1 _] [A2 _]]; apply Nx; auto|].
      unfold quotient_rules. apply FOP_filter.
      assert (QT : forall t, In t tts -> fsem dim (q_allowed dim lt t) v <-> able dim lt t v) by (intros t Ht; apply q_allowed_sem, (FT t Ht)).
      assert (QS : forall t, In t sss -> fsem dim (q_allowed dim ls t) v <-> able dim ls t v) by (intros t Ht; apply q_allowed_sem, (FS t Ht)).
      set (r1 := if has_action S a && has_action T a then _ else _).
      set (r2 := if has_action S a && negb (has_action T a) then _ else _).
      set (r35 := if sin a (ts_outputs S) then [_] else [_]).
      set (r6 := if sin a (ts_outputs S) && sin a (ts_outputs T) then _ else _).
      set (r7 := if String.eqb a n then _ else _).
      set (r8 := if has_action T a && negb (has_action S a) then _ else _).
      (* what a transition of each group needs *)
      assert (I1 : forall t, In t r1 -> fsem dim (t_guard t) v -> is_action S a /\ is_action T a /\ inv_at dim lt v /\
          (exists x, In x tts /\ able dim lt x v) /\ exists y, In y sss /\ able dim ls y v).
      { unfold r1. intros t Ht G. destruct (has_action S a && has_action T a) eqn:C; [|destruct Ht].
        apply andb_true_iff in C. rewrite !has_action_spec in C. apply in_map_iff in Ht. destruct Ht as ([x y] & <- & Hp).
        apply in_prod_iff in Hp. cbn [fst snd t_guard] in *. apply finter_sem in G. rewrite QT, QS in G by tauto.
        split; [tauto|]. split; [tauto|]. split; [apply G|]. split; [exists x|exists y]; tauto. }
      assert (I2 : forall t, In t r2 -> fsem dim (t_guard t) v -> is_action S a /\ ~ is_action T a /\ exists y, In y sss /\ able dim ls y v).
      { unfold r2. intros t Ht G. destruct (has_action S a && negb (has_action T a)) eqn:C; [|destruct Ht].
        apply andb_true_iff in C. rewrite negb_true_iff, has_action_spec, has_action_false in C. apply in_map_iff in Ht. destruct Ht as (y & <- & Hy).
        cbn [t_guard] in *. rewrite QS in G by exact Hy. split; [tauto|]. split; [tauto|]. exists y. auto. }
      assert (I35 : forall t, In t r35 -> fsem dim (t_guard t) v -> ~ inv_at dim ls v \/ (is_output S a /\ forall y, In y sss -> ~ able dim ls y v)).
      { unfold r35. intros t Ht G. destruct (sin a (ts_outputs S)) eqn:C; destruct Ht as [<-|[]]; cbn [t_guard] in G.
        - apply sin_In in C. apply funion_sem in G. rewrite !fcompl_sem, apply_inv_univ, fold_union_sem in G. destruct G as [[_ G]|[_ G]]; [auto|].
          right. split; [exact C|]. intros y Hy Ay. apply G. right. exists y. split; [exact Hy|]. apply QS; assumption.
        - rewrite fcompl_sem, apply_inv_univ in G. left; apply G. }
      assert (I6 : forall t, In t r6 -> fsem dim (t_guard t) v -> is_output S a /\ (exists y, In y sss /\ able dim ls y v) /\
          forall x, In x tts -> ~ able dim lt x v).
      { unfold r6. intros t Ht G. destruct (sin a (ts_outputs S) && sin a (ts_outputs T)) eqn:C; [|destruct Ht].
        apply andb_true_iff in C. rewrite !sin_In in C. apply in_map_iff in Ht. destruct Ht as (y & <- & Hy). cbn [t_guard] in G.
        apply finter_sem in G. rewrite QS, fcompl_sem, fold_union_sem in G by exact Hy. split; [apply C|]. split; [exists y; tauto|].
        intros x Hx Ax. destruct G as [_ [_ G]]. apply G. right. exists x. split; [exact Hx|]. apply QT; assumption. }
      assert (I7 : forall t, In t r7 -> fsem dim (t_guard t) v -> a = n /\ ~ inv_at dim lt v /\ inv_at dim ls v).
      { unfold r7. intros t Ht G. destruct (String.eqb a n) eqn:C; [|destruct Ht]. apply String.eqb_eq in C. destruct Ht as [<-|[]].
        cbn [t_guard] in G. apply finter_sem in G. rewrite fcompl_sem, !q_inv_sem in G. tauto. }
      assert (I8 : forall t, In t r8 -> fsem dim (t_guard t) v -> ~ is_action S a /\ is_action T a /\ inv_at dim lt v /\ inv_at dim ls v).
      { unfold r8. intros t Ht G. destruct (has_action T a && negb (has_action S a)) eqn:C; [|destruct Ht].
        apply andb_true_iff in C. rewrite negb_true_iff, has_action_spec, has_action_false in C. apply in_map_iff in Ht. destruct Ht as (x & <- & Hx).
        cbn [t_guard] in *. apply apply_inv_sem in G. rewrite QT in G by exact Hx. split; [tauto|]. split; [tauto|]. split; [apply G|apply G]. }
      assert (Sout : forall b, is_output S b -> is_action S b) by (intros b Hb; right; exact Hb).
      assert (AI : forall y, able dim ls y v -> inv_at dim ls v) by (intros y Hy; apply Hy).
      apply FOP_app; [|apply FOP_app; [|apply FOP_app; [|apply FOP_app; [|apply FOP_app|]|]|]|].
      * unfold r1. destruct (has_action S a && has_action T a); [|constructor]. apply FOP_mapf.
        eapply FOP_map; [|apply (FOP_prod (fun t => able dim lt t v) (fun y => able dim ls y v)); [exact ET|exact ES]].
        intros [x y] [x' y'] Hp Hp' Nx [A1 A2]. apply in_prod_iff in Hp, Hp'. cbn [fst snd t_guard] in *. apply finter_sem in A1, A2.
        rewrite QT, QS in A1, A2 by tauto. apply Nx. auto.
      * unfold r2. destruct (has_action S a && negb (has_action T a)); [|constructor]. apply FOP_mapf.
        eapply FOP_map; [|exact ES]. intros x y Hx Hy Nx [A1 A2]. cbn [t_guard] in *. rewrite QS in A1, A2 by assumption. auto.
      * unfold r35. destruct (sin a (ts_outputs S)); apply FOP_single.
      * unfold r6. destruct (sin a (ts_outputs S) && sin a (ts_outputs T)); [|constructor]. apply FOP_mapf.
        eapply FOP_map; [|exact ES]. intros x y Hx Hy Nx [A1 A2]. cbn [t_guard] in *. apply finter_sem in A1, A2. rewrite QS in A1, A2 by assumption.
        apply Nx. tauto.
      * unfold r7. destruct (String.eqb a n); [apply FOP_single|constructor].
      * unfold r8. destruct (has_action T a && negb (has_action S a)); [|constructor]. apply FOP_mapf.
        eapply FOP_map; [|exact ET]. intros x y Hx Hy Nx [A1 A2]. cbn [t_guard] in *. apply apply_inv_sem in A1, A2. rewrite QT in A1, A2 by assumption.
        apply Nx. tauto.
      * intros t u Ht Hu [A1 A2]. destruct (I7 t Ht A1) as (_ & H7 & _), (I8 u Hu A2) as (_ & _ & H8 & _). contradiction.
      * intros t u Ht Hu [A1 A2]. destruct (I6 t Ht A1) as (O & (y & Hy & Ay) & Nt). apply in_app_or in Hu. destruct Hu as [Hu|Hu].
        -- destruct (I7 u Hu A2) as (-> & _). apply Sn. auto.
        -- destruct (I8 u Hu A2) as (NS & _). auto.
      * intros t u Ht Hu [A1 A2]. destruct (I35 t Ht A1) as [C|[O C]].
        -- apply in_app_or in Hu. destruct Hu as [Hu|Hu]; [destruct (I6 u Hu A2) as (_ & (y & Hy & Ay) & _); eauto|].
           apply in_app_or in Hu. destruct Hu as [Hu|Hu]; [apply C, (I7 u Hu A2)|apply C, (I8 u Hu A2)].
        -- apply in_app_or in Hu. destruct Hu as [Hu|Hu]; [destruct (I6 u Hu A2) as (_ & (y & Hy & Ay) & _); eapply C; eauto|].
           apply in_app_or in Hu. destruct Hu as [Hu|Hu]; [destruct (I7 u Hu A2) as (-> & _); auto|destruct (I8 u Hu A2) as (NS & _); auto].
      * intros t u Ht Hu [A1 A2]. destruct (I2 t Ht A1) as (HSa & HTa & y & Hy & Ay).
        apply in_app_or in Hu. destruct Hu as [Hu|Hu]; [destruct (I35 u Hu A2) as [C|[O C]]; [eauto|eapply C; eauto]|].
        apply in_app_or in Hu. destruct Hu as [Hu|Hu].
        { unfold r6 in Hu. destruct (sin a (ts_outputs S) && sin a (ts_outputs T)) eqn:C; [|destruct Hu].
          apply andb_true_iff in C. rewrite !sin_In in C. apply HTa. right. apply C. }
        apply in_app_or in Hu. destruct Hu as [Hu|Hu]; [destruct (I7 u Hu A2) as (-> & _); auto|destruct (I8 u Hu A2) as (NS & _); auto].
      * intros t u Ht Hu [A1 A2]. destruct (I1 t Ht A1) as (HSa & HTa & Hit & (x & Hx & Ax) & y & Hy & Ay).
        apply in_app_or in Hu. destruct Hu as [Hu|Hu]; [destruct (I2 u Hu A2) as (_ & C & _); auto|].
        apply in_app_or in Hu. destruct Hu as [Hu|Hu]; [destruct (I35 u Hu A2) as [C|[O C]]; [eauto|eapply C; eauto]|].
        apply in_app_or in Hu. destruct Hu as [Hu|Hu]; [destruct (I6 u Hu A2) as (_ & _ & C); eapply C; eauto|].
        apply in_app_or in Hu. destruct Hu as [Hu|Hu]; [destruct (I7 u Hu A2) as (_ & C & _); auto|destruct (I8 u Hu A2) as (NS & _); auto].
Qed.

(** Entries of a composite satisfy the invariant. *)
Lemma entry_dinv dim q s : built dim s -> clocks_ok dim q s -> reads_ok s -> no_reserved s = true -> plain_divisors s = true ->
  comps_det dim s -> forall l w, entry dim s l w -> dinv dim s l w.
Proof.
  intros B K R N P CD l w E. induction E as [l Hi|l w d a t E IH Hd (Ha & ts & Ets & Ht) Hab]; [apply dinv_init; exact Hi|].
  pose proof (entry_wf dim s B l w E) as Hwf. pose proof (entry_ok dim q s K l w E) as Hw.
  assert (Hwd : val_ok dim (vdelay w d)) by (apply vdelay_ok; assumption).
  pose proof (dinv_delay dim q s K l w d Hw Hd IH) as Hdd.
  destruct (det_everywhere dim q s B K R N P CD l (vdelay w d) a ts Hwf Hwd Hdd Ha Ets) as [St _].
  apply St; [exact Ht|]. destruct (fine_targets dim q s B K _ _ _ Hwf Ha Ets t Ht) as (_ & _ & Tg). apply able_cable; auto.
Qed.

Lemma comps_deterministic dim q s : built dim s -> clocks_ok dim q s -> reads_ok s -> no_reserved s = true -> plain_divisors s = true ->
  comps_det dim s -> deterministic dim s.
Proof.
  intros B K R N P CD l v a ts Hr Ha Ets i j t u Nij Ei Ej [A1 A2].
  destruct (reachable_entry dim s l v Hr) as (Hinv & w & d & E & Hd & Ev).
  pose proof (entry_wf dim s B l w E) as Hwf. pose proof (entry_ok dim q s K l w E) as Hw.
  assert (Hwd : val_ok dim (vdelay w d)) by (apply vdelay_ok; assumption).
  pose proof (dinv_delay dim q s K l w d Hw Hd (entry_dinv dim q s B K R N P CD l w E)) as Hdd.
  destruct (det_everywhere dim q s B K R N P CD l (vdelay w d) a ts Hwf Hwd Hdd Ha Ets) as [_ O].
  assert (X : forall x, In x ts -> able dim l x v -> cable dim s l (vdelay w d) x).
  { intros x Hx (X1 & X2 & X3). destruct (fine_targets dim q s B K _ _ _ Hwf Ha Ets x Hx) as (_ & _ & Tg). apply able_cable; auto.
    split; [eapply inv_at_ext; eauto|]. split; [eapply fsem_ext; eauto|]. eapply inv_at_ext; [|exact X3]. apply run_updates_ext; exact Ev. }
  eapply (FOP_nth _ ts) in O; [|intros x y Nxy [? ?]; apply Nxy; auto|exact Nij|exact Ei|exact Ej].
  apply O. split; apply X; auto; eapply nth_error_In; eauto.
Qed.

Section Check.
Variable dim : nat.
Variable ext : ts -> loctree -> fed -> fed.
Variable ord : list state -> list string -> list string.
Hypothesis ext_extensive : forall s l f v, fsem dim f v -> fsem dim (ext s l f) v.
Hypothesis ord_members : forall p l a, In a (ord p l) <-> In a l.

Lemma check_comps q s fuel : built dim s -> clocks_ok dim q s -> check_determinism dim ext ord fuel s = Ok None -> comps_det dim s.
Proof.
  induction 1 as [c ins outs id cc E|l r s Hl IHl Hr IHr E|l r s Hl IHl Hr IHr E|T S qc s HT IHT HS IHS E]; intros K H.
  - cbn [check_determinism comps_det] in *. eapply (det_search_sound dim ext ord ext_extensive ord_members); eauto. eapply b_simple; eauto.
  - apply conjunction_new_inv in E. destruct E as (-> & _ & _). cbn [check_determinism comps_det clocks_ok] in *. inv_bind H.
    destruct a; [discriminate|]. destruct K as (K1 & K2 & _). auto.
  - apply composition_new_inv in E. destruct E as (_ & ins & outs & lo & ro & co & -> & _). cbn [check_determinism comps_det clocks_ok] in *. inv_bind H.
    destruct a; [discriminate|]. destruct K as (K1 & K2 & _). auto.
  - apply quotient_new_inv in E. destruct E as (n & ins & outs & -> & _). cbn [check_determinism comps_det clocks_ok] in *. inv_bind H.
    destruct a; [discriminate|]. destruct K as (K1 & K2 & _). auto.
Qed.

Theorem check_determinism_sound q s fuel : built dim s -> clocks_ok dim q s -> reads_ok s -> no_reserved s = true -> plain_divisors s = true ->
  check_determinism dim ext ord fuel s = Ok None -> deterministic dim s.
Proof. intros B K R N P H. eapply comps_deterministic; eauto. eapply check_comps; eauto. Qed.
End Check.
