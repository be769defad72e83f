(** The components that queries produce can be written to files. *)
From Coq Require Import List String ZArith Bool Arith Lia.
From Verif Require Import Fed.Zone Model.Base Model.Expr Model.Guard Model.Loc Model.Component Model.Layout Model.TS Model.Files Model.Save
  Spec.LayoutSpec Spec.LoaderSpec Proofs.GuardFacts Proofs.WfFacts Proofs.LayoutFacts.
Import ListNotations.

Lemma same_id a b : lt_eqb a b = true -> lt_id a = lt_id b.
Proof. unfold lt_eqb. intros H. apply andb_true_iff in H. apply locid_eqb_eq. apply H. Qed.

Section Store.
Variable dim : nat.
Variable minc : fed -> fed.
Variable ord : list string -> list string.
Variable cord : list (string * nat) -> list (string * nat).
Variable s : ts.

(** The targets of the transitions of a location have the id of one of the list. *)
Definition led (ls : list loctree) (acts : list string) (x : loctree) : Prop :=
  forall a ts t, In a acts -> next_transitions dim s x a = Ok ts -> In t ts -> exists y, In y ls /\ lt_id y = lt_id (t_target t).
Lemma led_more ls more acts x : led ls acts x -> led (ls ++ more) acts x.
Proof. intros H a ts t A E T. destruct (H a ts t A E T) as (y & Hy & Ey). exists y. split; [apply in_or_app; left; exact Hy|exact Ey]. Qed.
Let acts := (ord (ts_inputs s) ++ ord (ts_outputs s))%list.
Definition grows (l : loctree) (acc acc' : list loctree) : Prop :=
  exists more, acc' = (acc ++ more)%list /\ led acc' acts l /\ forall x, In x more -> led acc' acts x.
Lemma visits rec ts : (forall l acc acc', rec l acc = Ok acc' -> grows l acc acc') -> forall acc acc', foldM (visit_target rec) ts acc = Ok acc' ->
  exists more, acc' = (acc ++ more)%list /\ (forall x, In x more -> led acc' acts x) /\ forall t, In t ts -> exists y, In y acc' /\ lt_id y = lt_id (t_target t).
Proof.
  intros R. induction ts as [|t ts IH]; intros acc acc' E; cbn [foldM] in E.
  - injection E as <-. exists []. rewrite app_nil_r. split; [reflexivity|]. split; intros ? [].
  - apply bind_ok in E. destruct E as (acc1 & E1 & E2). destruct (IH _ _ E2) as (more & -> & M & T). unfold visit_target in E1. cbv zeta in E1. destruct (existsb (lt_eqb (t_target t)) acc) eqn:X.
    + injection E1 as <-. exists more. split; [reflexivity|]. split; [exact M|]. intros t' [<-|H]; [|apply T, H]. apply existsb_exists in X. destruct X as (y & Hy & X). exists y. split; [apply in_or_app; left; exact Hy|symmetry; apply same_id; exact X].
    + destruct (R _ _ _ E1) as (m & -> & L & Ls). exists ([t_target t] ++ m ++ more)%list. rewrite !app_assoc. split; [reflexivity|]. rewrite <- !app_assoc in *. split.
      * intros x Hx. change (In x (t_target t :: m ++ more)) in Hx. rewrite !app_assoc in *. destruct Hx as [<-|Hx]; [apply led_more, L|]. apply in_app_or in Hx. destruct Hx as [Hx|Hx]; [apply led_more, Ls, Hx|apply M, Hx].
      * intros t' [<-|H]; [|rewrite !app_assoc in *; apply T, H]. exists (t_target t). split; [|reflexivity]. apply in_or_app. right. left. reflexivity.
Qed.
Lemma collects fuel : forall l acc acc', collect_from dim ord fuel s l acc = Ok acc' -> grows l acc acc'.
Proof.
  induction fuel as [|f IH]; intros l acc acc' E; [discriminate|]. cbn [collect_from] in E. fold acts in E.
  assert (G : forall as_ acc acc', foldM (fun acc a => do ts <- next_transitions dim s l a; foldM (visit_target (collect_from dim ord f s)) ts acc) as_ acc = Ok acc' ->
    exists more, acc' = (acc ++ more)%list /\ led acc' as_ l /\ forall x, In x more -> led acc' acts x).
  { clear E acc acc'. induction as_ as [|a as_ IHa]; intros acc acc' E; cbn [foldM] in E.
    - injection E as <-. exists []. rewrite app_nil_r. split; [reflexivity|]. split; [intros a ts t []|intros ? []].
    - apply bind_ok in E. destruct E as (acc1 & E1 & E2). destruct (IHa _ _ E2) as (more & -> & L & M). apply bind_ok in E1. destruct E1 as (ts & Et & E1). destruct (visits _ ts IH _ _ E1) as (m & -> & Mm & T).
      exists (m ++ more)%list. split; [rewrite app_assoc; reflexivity|]. split.
      + intros b ts' t [<-|Hb] Eb Ht; [|exact (L b ts' t Hb Eb Ht)]. assert (ts' = ts) as -> by congruence. destruct (T t Ht) as (y & Hy & Ey). exists y. split; [apply in_or_app; left; exact Hy|exact Ey].
      + intros x Hx. apply in_app_or in Hx. destruct Hx as [Hx|Hx]; [apply led_more, Mm, Hx|apply M, Hx]. }
  exact (G acts acc acc' E).
Qed.
Lemma mapM_all {A B} (f : A -> res B) l bs : mapM f l = Ok bs -> (forall b, In b bs -> exists a, In a l /\ f a = Ok b) /\ (forall a, In a l -> exists b, In b bs /\ f a = Ok b).
Proof.
  revert bs. induction l as [|a l IH]; intros bs E; cbn [mapM] in E; [injection E as <-; split; intros ? []|]. apply bind_ok in E. destruct E as (b & Eb & E). apply bind_ok in E. destruct E as (bs' & Es & E). injection E as <-.
  destruct (IH _ Es) as [I1 I2]. split.
  - intros x [<-|H]; [exists a; split; [left; reflexivity|exact Eb]|]. destruct (I1 x H) as (y & Hy & Ey). exists y. split; [right; exact Hy|exact Ey].
  - intros x [<-|H]; [exists b; split; [left; reflexivity|exact Eb]|]. destruct (I2 x H) as (y & Hy & Ey). exists y. split; [right; exact Hy|exact Ey].
Qed.
Lemma saved_edge clk ls x es e : mapM (save_edges dim minc ord s clk) ls = Ok es -> (forall y, In y ls -> led ls acts y) -> In x es -> In e x ->
  (exists y, In y ls /\ e_src e = id_string (lt_id y)) /\ exists y, In y ls /\ e_tgt e = id_string (lt_id y).
Proof.
  intros E L Hx He. destruct (proj1 (mapM_all _ _ _ E) x Hx) as (l & Hl & El). unfold save_edges in El.
  apply bind_ok in El. destruct El as (ins & E1 & El). apply bind_ok in El. destruct El as (outs & E2 & El). injection El as <-.
  assert (G : forall ty as_ gs g, incl as_ acts -> mapM (save_action dim minc s clk ty l) as_ = Ok gs -> In g gs -> In e g ->
    (exists y, In y ls /\ e_src e = id_string (lt_id y)) /\ exists y, In y ls /\ e_tgt e = id_string (lt_id y)).
  { intros ty as_ gs g I Eg Hg Hge. destruct (proj1 (mapM_all _ _ _ Eg) g Hg) as (a & Ha & Ea). unfold save_action in Ea. apply bind_ok in Ea. destruct Ea as (ts & Et & Ea). apply bind_ok in Ea. destruct Ea as (hs & Eh & Ea). injection Ea as <-.
    apply in_concat in Hge. destruct Hge as (h & Hh & Hge). destruct (proj1 (mapM_all _ _ _ Eh) h Hh) as (t & Ht & Eth). unfold save_edge in Eth. apply bind_ok in Eth. destruct Eth as (gd & _ & Eth).
    assert (X : h = [] \/ exists us, h = [mkE (tid_string (t_id t)) (id_string (lt_id l)) (id_string (lt_id (t_target t))) ty gd us a]).
    { destruct gd as [[]|]; try (apply bind_ok in Eth; destruct Eth as (us & _ & Eth); injection Eth as <-; right; eauto). destruct b; [apply bind_ok in Eth; destruct Eth as (us & _ & Eth); injection Eth as <-; right; eauto|injection Eth as <-; left; reflexivity]. }
    destruct X as [->|(us & ->)]; [destruct Hge|]. destruct Hge as [<-|[]]. cbn [e_src e_tgt]. split; [exists l; auto|]. destruct (L l Hl a ts t (I a Ha) Et Ht) as (y & Hy & Ey). exists y. split; [exact Hy|congruence]. }
  apply in_app_or in He. destruct He as [He|He]; apply in_concat in He; destruct He as (g & Hg & He).
  - refine (G _ _ _ _ _ E1 Hg He). intros a Ha. apply in_or_app. left. exact Ha.
  - refine (G _ _ _ _ _ E2 Hg He). intros a Ha. apply in_or_app. right. exact Ha.
Qed.
Lemma remade_ends k es e : In e (remake_edge_ids k es) -> exists e', In e' es /\ e_src e = e_src e' /\ e_tgt e = e_tgt e'.
Proof.
  revert k. induction es as [|x es IH]; intros k H; [destruct H|]. cbn [remake_edge_ids] in H. destruct H as [<-|H].
  - exists x. split; [left; reflexivity|]. split; reflexivity.
  - destruct (IH _ H) as (e' & He & Ee). exists e'. split; [right; exact He|exact Ee].
Qed.
Lemma saved_storable fuel name c : get_component dim minc ord cord fuel s name = Ok c -> storable c.
Proof.
  intros E. unfold get_component in E. apply bind_ok in E. destruct E as (c0 & Ec & E). injection E as <-. unfold combine_components in Ec. cbv zeta in Ec.
  apply bind_ok in Ec. destruct Ec as (ls & El & Ec). apply bind_ok in Ec. destruct Ec as (es & Ee & Ec). apply bind_ok in Ec. destruct Ec as (xs & Ex & Ec). injection Ec as <-. cbn [c_locs c_edges c_decls c_special].
  assert (L : forall y, In y ls -> led ls acts y).
  { cbn [locations_to_save] in El. destruct (initial_location dim s) as [l0|]; [|injection El as <-; intros ? []]. destruct (collects _ _ _ _ El) as (more & -> & L0 & Lm). intros y [<-|Hy]; [exact L0|apply Lm, Hy]. }
  assert (X : forall y, In y ls -> exists x, In x xs /\ l_id x = id_string (lt_id y)).
  { intros y Hy. destruct (proj2 (mapM_all _ _ _ Ex) y Hy) as (x & Hx & Exy). unfold save_location in Exy. apply bind_ok in Exy. destruct Exy as (g & _ & Exy). injection Exy as <-. eexists. split; [exact Hx|reflexivity]. }
  split; cbn [c_locs c_edges].
  - intros l Hl. destruct (proj1 (mapM_all _ _ _ Ex) l Hl) as (y & _ & Exy). unfold save_location in Exy. apply bind_ok in Exy. destruct Exy as (g & _ & Exy). injection Exy as <-. cbn [l_type]. destruct (is_initial y); discriminate.
  - intros e He. cbn [c_edges c_locs] in *. destruct (remade_ends _ _ _ He) as (e' & He' & -> & ->). apply in_concat in He'. destruct He' as (g & Hg & He').
    destruct (saved_edge _ ls g es e' Ee L Hg He') as ((y & Hy & ->) & (z & Hz & ->)). split.
    + destruct (X y Hy) as (x & Hx & Ei). exists x. auto.
    + destruct (X z Hz) as (x & Hx & Ei). exists x. auto.
Qed.
End Store.
