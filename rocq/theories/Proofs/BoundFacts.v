(** Facts about maximum bounds. *)
From Coq Require Import List String ZArith QArith Bool Arith Lia Lqa.
From Verif Require Import Fed.Zone Model.Base Model.Expr Model.Guard Model.Loc Model.Component Model.TS Spec.GuardSpec Spec.SystemSpec Spec.BoundSpec
  Proofs.GuardFacts Proofs.SystemFacts Proofs.WfFacts Proofs.DetComp Proofs.EnableFacts.
Import ListNotations.

Lemma atom_constraints g l r : atom g l r <-> In (l, r) (constraints g).
Proof.
  split.
  - induction 1; cbn; auto; apply in_app_iff; auto.
  - induction g; cbn; intros H; try (destruct H as [H|[]]; injection H as <- <-; constructor); try contradiction;
      apply in_app_iff in H; destruct H; [apply at_and_l|apply at_and_r|apply at_or_l|apply at_or_r]; auto.
Qed.

Lemma fold_max_ge (f : arith * arith -> Z) l : forall m, (m <= fold_left (fun m '(a, b) => if Z.ltb m (f (a, b)) then f (a, b) else m) l m /\
  forall p, In p l -> f p <= fold_left (fun m '(a, b) => if Z.ltb m (f (a, b)) then f (a, b) else m) l m)%Z.
Proof.
  induction l as [|[a b] l IH]; intros m; cbn [fold_left]; [split; [lia|intros p []]|].
  destruct (IH (if Z.ltb m (f (a, b)) then f (a, b) else m)) as [I1 I2].
  assert (M : (m <= (if Z.ltb m (f (a, b)) then f (a, b) else m) /\ f (a, b) <= (if Z.ltb m (f (a, b)) then f (a, b) else m))%Z)
    by (destruct (Z.ltb_spec m (f (a, b))); lia).
  split; [lia|]. intros p [<-|Hp]; [lia|auto].
Qed.
Lemma max_constant_ge g i n l r : atom g l r -> (get_constant l r i n <= get_max_constant g i n)%Z.
Proof.
  intros H. apply atom_constraints in H. unfold get_max_constant.
  destruct (fold_max_ge (fun p => get_constant (fst p) (snd p) i n) (constraints g) 0%Z) as [_ F]. exact (F (l, r) H).
Qed.
Lemma fold_zmax l : forall m, (m <= fold_left Z.max l m /\ forall x, In x l -> x <= fold_left Z.max l m)%Z.
Proof.
  induction l as [|a l IH]; intros m; cbn [fold_left]; [split; [lia|intros x []]|]. destruct (IH (Z.max m a)) as [I1 I2].
  split; [lia|]. intros x [<-|Hx]; [lia|auto].
Qed.
Lemma max_or_default_ge l x : In x l -> (x <= max_or_default l)%Z.
Proof. destruct l as [|a l]; intros H; [destruct H|]. cbn. destruct (fold_zmax l a) as [F G]. destruct H as [<-|H]; auto. Qed.
Lemma in_opt_list {A B} (f : A -> option B) l a b : In a l -> f a = Some b -> In b (opt_list f l).
Proof. intros Ha E. apply in_flat_map. exists a. split; [exact Ha|]. rewrite E. left. reflexivity. Qed.
Lemma clock_max_ge c n i g : condition c g -> (get_max_constant g i n <= clock_max c n i)%Z.
Proof.
  assert (X : forall l, In g l -> (get_max_constant g i n <= max_or_default (map (fun g => get_max_constant g i n) l))%Z).
  { intros l Hl. apply max_or_default_ge. apply (in_map (fun g => get_max_constant g i n)). exact Hl. }
  unfold clock_max. intros [(e & He & Eg)|(l & Hl & El)].
  - pose proof (X _ (in_opt_list e_guard _ e g He Eg)). lia.
  - pose proof (X _ (in_opt_list l_inv _ l g Hl El)). lia.
Qed.

Definition at_least (b : bounds) (i : nat) (k : Z) : Prop := exists m, b i = Some m /\ (k <= m)%Z.
Lemma add_keeps b j x i k : at_least b i k -> at_least (bounds_add b j x) i k.
Proof. intros (m & E & H). unfold at_least, bounds_add. destruct (Nat.eqb j i); [|eauto]. rewrite E. cbn. eexists. split; [reflexivity|lia]. Qed.
Lemma add_new b j x : at_least (bounds_add b j x) j x.
Proof. unfold at_least, bounds_add. rewrite Nat.eqb_refl. destruct (b j); cbn; eexists; (split; [reflexivity|lia]). Qed.
Lemma max_bounds_ge c n i : In (n, i) (d_clocks (c_decls c)) -> at_least (get_max_bounds c) i (clock_max c n i).
Proof.
  unfold get_max_bounds. generalize bounds_new. generalize (d_clocks (c_decls c)) as cl.
  assert (K : forall cl b j k, at_least b j k -> at_least (fold_left (fun b p => bounds_add b (snd p) (clock_max c (fst p) (snd p))) cl b) j k).
  { induction cl as [|p cl IH]; intros b j k H; [exact H|]. cbn. apply IH, add_keeps, H. }
  induction cl as [|p cl IH]; intros b H; [destruct H|]. cbn [fold_left]. destruct H as [->|H]; [apply K, add_new|apply IH, H].
Qed.
Lemma constant_left d l i k : the_clock d l i -> exists n, In (n, i) (d_clocks d) /\ get_constant l (AInt k) i n = k.
Proof.
  intros [Hi H]. destruct H as [->|(s & -> & E)].
  - apply in_map_iff in Hi. destruct Hi as ([n j] & Ej & Hn). cbn in Ej. subst j. exists n. split; [exact Hn|]. cbn. rewrite Nat.eqb_refl. reflexivity.
  - exists s. split; [apply assoc_In; exact E|]. cbn. rewrite String.eqb_refl. reflexivity.
Qed.
Lemma constant_right d r i k : the_clock d r i -> exists n, In (n, i) (d_clocks d) /\ get_constant (AInt k) r i n = k.
Proof.
  intros [Hi H]. destruct H as [->|(s & -> & E)].
  - apply in_map_iff in Hi. destruct Hi as ([n j] & Ej & Hn). cbn in Ej. subst j. exists n. split; [exact Hn|]. cbn. rewrite Nat.eqb_refl. reflexivity.
  - exists s. split; [apply assoc_In; exact E|]. cbn. rewrite String.eqb_refl. reflexivity.
Qed.

Theorem bounds_dominate c i k : compared_literal c i k -> at_least (get_max_bounds c) i k.
Proof.
  intros (g & l & r & Hg & Ha & H).
  assert (X : exists n, In (n, i) (d_clocks (c_decls c)) /\ get_constant l r i n = k).
  { destruct H as [[H ->]|[H ->]]; [eapply constant_left|eapply constant_right]; eauto. }
  destruct X as (n & Hn & Ek). destruct (max_bounds_ge c n i Hn) as (m & Em & Hm). exists m. split; [exact Em|].
  pose proof (max_constant_ge g i n l r Ha). pose proof (clock_max_ge c n i g Hg). lia.
Qed.

(** ** Beyond the bounds *)
Local Open Scope Q_scope.
Definition same_order (a b a' b' : Q) : Prop := (a < b /\ a' < b') \/ (a == b /\ a' == b') \/ (b < a /\ b' < a').
Lemma same_order_atoms d v w g :
  (forall l r, atom g l r -> exists a b a' b', aev d v l = Some a /\ aev d v r = Some b /\ aev d w l = Some a' /\ aev d w r = Some b' /\ same_order a b a' b') ->
  (bsat d v g <-> bsat d w g).
Proof.
  assert (C : forall (R : Q -> Q -> Prop) l r, (forall a b a' b', same_order a b a' b' -> (R a b <-> R a' b')) ->
    (exists a b a' b', aev d v l = Some a /\ aev d v r = Some b /\ aev d w l = Some a' /\ aev d w r = Some b' /\ same_order a b a' b') ->
    (cmp d v R l r <-> cmp d w R l r)).
  { intros R l r HR (a & b & a' & b' & E1 & E2 & E3 & E4 & S). unfold cmp. split.
    - intros (x & y & Ex & Ey & H). exists a', b'. split; [exact E3|]. split; [exact E4|]. apply (HR _ _ _ _ S). congruence.
    - intros (x & y & Ex & Ey & H). exists a, b. split; [exact E1|]. split; [exact E2|]. apply (HR _ _ _ _ S). congruence. }
  induction g; intros H; cbn [bsat].
  - rewrite IHg1, IHg2; [reflexivity| |]; intros l r A; apply H; [apply at_and_r|apply at_and_l]; exact A.
  - rewrite IHg1, IHg2; [reflexivity| |]; intros l r A; apply H; [apply at_or_r|apply at_or_l]; exact A.
  - apply C; [|apply H; constructor]. intros a b a' b' [[? ?]|[[? ?]|[? ?]]]; split; intros; lra.
  - apply C; [|apply H; constructor]. intros a b a' b' [[? ?]|[[? ?]|[? ?]]]; split; intros; lra.
  - apply C; [|apply H; constructor]. intros a b a' b' [[? ?]|[[? ?]|[? ?]]]; split; intros; lra.
  - apply C; [|apply H; constructor]. intros a b a' b' [[? ?]|[[? ?]|[? ?]]]; split; intros; lra.
  - apply C; [|apply H; constructor]. intros a b a' b' [[? ?]|[[? ?]|[? ?]]]; split; intros; lra.
  - reflexivity.
Qed.

Lemma the_clock_val d v e i : the_clock d e i -> aev d v e = Some (v i).
Proof. intros [_ [->|(s & -> & E)]]; cbn; [reflexivity|]. rewrite E. reflexivity. Qed.

Theorem alike_guard c g v w : condition c g -> literal_guard (c_decls c) g -> alike (get_max_bounds c) v w ->
  (bsat (c_decls c) v g <-> bsat (c_decls c) w g).
Proof.
  intros Hg Hl A. apply same_order_atoms. intros l r Ha. destruct (Hl l r Ha) as (i & k & H).
  assert (L : at_least (get_max_bounds c) i k) by (apply bounds_dominate; exists g, l, r; auto).
  destruct L as (m & Em & Hm). specialize (A i m Em). rewrite Zle_Qle in Hm. destruct H as [[H ->]|[H ->]].
  - exists (v i), (inject_Z k), (w i), (inject_Z k). rewrite !(the_clock_val _ _ _ _ H). repeat (split; [reflexivity|]). unfold same_order.
    destruct A as [A|[A1 A2]]; [|right; right; split; lra]. destruct (Q_dec (v i) (inject_Z k)) as [[D|D]|D]; [left|right; right|right; left]; split; lra.
  - exists (inject_Z k), (v i), (inject_Z k), (w i). rewrite !(the_clock_val _ _ _ _ H). repeat (split; [reflexivity|]). unfold same_order.
    destruct A as [A|[A1 A2]]; [|left; split; lra]. destruct (Q_dec (v i) (inject_Z k)) as [[D|D]|D]; [right; right|left|right; left]; split; lra.
Qed.

(** ** Bounds of systems *)
Lemma join_l a b i k : at_least a i k -> at_least (bounds_join a b) i k.
Proof. intros (m & E & H). unfold at_least, bounds_join. rewrite E. destruct (b i); cbn; eexists; (split; [reflexivity|lia]). Qed.
Lemma join_r a b i k : at_least b i k -> at_least (bounds_join a b) i k.
Proof. intros (m & E & H). unfold at_least, bounds_join. rewrite E. destruct (a i); cbn; eexists; (split; [reflexivity|lia]). Qed.

Theorem local_bounds_dominate s loc b c l i k : local_bounds s loc = Ok b -> part s loc c l ->
  is_universal l = false -> is_inconsistent l = false -> at_least (cc_bounds c) i k -> at_least b i k.
Proof.
  intros E P U I H. revert b E. induction P; intros B E; cbn [local_bounds] in E.
  - rewrite U, I in E. cbn in E. injection E as <-. exact H.
  - rewrite H0 in E. cbn [bind] in E. inv_bind E. inv_bind E. inv_bind E. injection E as <-. apply join_l. eauto.
  - inv_bind E. rewrite H0 in E. cbn [bind] in E. inv_bind E. inv_bind E. injection E as <-. apply join_r. eauto.
  - rewrite H0 in E. cbn [bind] in E. inv_bind E. inv_bind E. inv_bind E. injection E as <-. apply join_l. eauto.
  - inv_bind E. rewrite H0 in E. cbn [bind] in E. inv_bind E. inv_bind E. injection E as <-. apply join_r. eauto.
  - rewrite H0, H1 in E. cbn [orb] in E. rewrite H2 in E. cbn [bind] in E. inv_bind E. inv_bind E. inv_bind E. injection E as <-. apply add_keeps, join_l. eauto.
  - rewrite H0, H1 in E. cbn [orb] in E. inv_bind E. rewrite H2 in E. cbn [bind] in E. inv_bind E. inv_bind E. injection E as <-. apply add_keeps, join_r. eauto.
Qed.

(** Asking for the bounds never fails. *)
Theorem local_bounds_total dim s : built dim s -> forall loc, In loc (all_locations dim s) -> exists b, local_bounds s loc = Ok b.
Proof.
  induction 1 as [c ins outs id cc E|l r s Hl IHl Hr IHr E|l r s Hl IHl Hr IHr E|T S q s HT IHT HS IHS E]; intros loc Hloc.
  - cbn. eauto.
  - apply conjunction_new_inv in E. destruct E as (-> & _ & _). cbn [all_locations] in Hloc.
    apply in_all_compose in Hloc; [|left; reflexivity]. destruct Hloc as (a & b & Ha & Hb & Ep). destruct (compose_node _ _ _ _ _ Ep) as (i & f & y & ->).
    cbn [local_bounds lt_left lt_right bind]. destruct (IHl a Ha) as (x & ->), (IHr b Hb) as (z & ->). cbn. eauto.
  - apply composition_new_inv in E. destruct E as (_ & ins & outs & lo & ro & co & -> & _). cbn [all_locations] in Hloc.
    apply in_all_compose in Hloc; [|right; reflexivity]. destruct Hloc as (a & b & Ha & Hb & Ep). destruct (compose_node _ _ _ _ _ Ep) as (i & f & y & ->).
    cbn [local_bounds lt_left lt_right bind]. destruct (IHl a Ha) as (x & ->), (IHr b Hb) as (z & ->). cbn. eauto.
  - apply quotient_new_inv in E. destruct E as (n & ins & outs & -> & _). cbn [all_locations] in Hloc. cbn [local_bounds].
    destruct (is_universal loc || is_inconsistent loc) eqn:U; [eauto|].
    apply in_app_iff in Hloc. destruct Hloc as [Hloc|[<-|[<-|[]]]]; try discriminate.
    apply in_map_iff in Hloc. destruct Hloc as ([a b] & <- & Hp). apply in_prod_iff in Hp. destruct Hp as [Ha Hb]. cbn [fst snd].
    cbn [lt_quotient lt_left lt_right bind]. destruct (IHT a Ha) as (x & ->), (IHS b Hb) as (z & ->). cbn. eauto.
Qed.
