(** Identifiers written as text. *)
From Coq Require Import List String Ascii ZArith Bool Arith Lia.
From Verif Require Import Fed.Zone Model.Base Model.Expr Model.Guard Model.Loc Model.Component Model.TS Spec.StepSpec Spec.SystemSpec Spec.IdSpec
  Proofs.SystemFacts Proofs.WfFacts Proofs.RunFacts.
Import ListNotations.
Local Open Scope string_scope.

Notation las := list_ascii_of_string.
Lemma las_app a b : las (a ++ b) = (las a ++ las b)%list.
Proof. induction a as [|c a IH]; cbn; [reflexivity|]. rewrite IH. reflexivity. Qed.
Lemma las_inj a b : las a = las b -> a = b.
Proof. intros E. rewrite <- (string_of_list_ascii_of_string a), <- (string_of_list_ascii_of_string b), E. reflexivity. Qed.

Local Open Scope list_scope.
(** What may follow a name. *)
Definition closer (c : ascii) : Prop := In c [")"; "|"; "&"; "\"]%char.
Definition ends (s : list ascii) : Prop := match s with [] => True | c :: _ => closer c end.
Lemma closer_mark c : closer c -> In c marks.
Proof. unfold closer, marks. cbn. intuition. Qed.

Lemma name_split n : forall m s t, (forall c, In c n -> ~ In c marks) -> (forall c, In c m -> ~ In c marks) -> ends s -> ends t -> n ++ s = m ++ t -> n = m /\ s = t.
Proof.
  induction n as [|a n IH]; intros [|b m] s t Hn Hm Hs Ht E; cbn [app] in E.
  - auto.
  - subst s. exfalso. apply (Hm b); [left; reflexivity|]. apply closer_mark. exact Hs.
  - subst t. exfalso. apply (Hn a); [left; reflexivity|]. apply closer_mark. exact Ht.
  - injection E as -> E. destruct (IH m s t) as [-> ->]; auto; intros; [apply Hn|apply Hm]; right; assumption.
Qed.
Lemma name_not_mark n s c t : (forall x, In x n -> ~ In x marks) -> ends s -> In c marks -> ~ closer c -> n ++ s <> c :: t.
Proof.
  intros Hn Hs Hc NC E. destruct n as [|a n]; cbn [app] in E.
  - subst s. exact (NC Hs).
  - injection E as -> _. apply (Hn c); [left; reflexivity|exact Hc].
Qed.
Lemma lp_mark : In "("%char marks. Proof. left. reflexivity. Qed.
Lemma lb_mark : In "["%char marks. Proof. cbn. tauto. Qed.
Lemma lp_not : ~ closer "(". Proof. unfold closer. cbn. intuition congruence. Qed.
Lemma lb_not : ~ closer "[". Proof. unfold closer. cbn. intuition congruence. Qed.

(** Wildcards behave as names. *)
Lemma any_split s t : ends s -> ends t -> "_"%char :: s = "_"%char :: t -> s = t. Proof. intros _ _ E. injection E. auto. Qed.
Lemma any_plain : forall c, In c (las "_") -> ~ In c marks.
Proof. intros c [<-|[]]. unfold marks. cbn. intuition congruence. Qed.
Lemma special_split a b s t : las (special_str a) ++ s = las (special_str b) ++ t -> a = b /\ s = t.
Proof. destruct a, b; cbn; intros E; try discriminate; injection E as ->; auto. Qed.
Lemma special_head a s : exists t, las (special_str a) ++ s = "["%char :: t.
Proof. destruct a; cbn; eauto. Qed.

(** The fully parenthesised form. *)
Lemma unique_split i : forall j s t, plain_id i -> plain_id j -> ends s -> ends t -> las (unique_string i) ++ s = las (unique_string j) ++ t -> i = j /\ s = t.
Proof.
  assert (C1 : closer "|") by (unfold closer; cbn; tauto). assert (C2 : closer "&") by (unfold closer; cbn; tauto).
  assert (C3 : closer "\") by (unfold closer; cbn; tauto). assert (C4 : closer ")") by (unfold closer; cbn; tauto).
  induction i as [a IHa b IHb|a IHa b IHb|a IHa b IHb|n|p|]; intros j s t Hi Hj Hs Ht E.
  1-3: destruct Hi as [Ha Hb]; destruct j as [x y|x y|x y|m|q|]; cbn [unique_string] in E; rewrite ?las_app, <- ?app_assoc in E; cbn [las app] in E;
    [destruct Hj as [Hx Hy]; injection E as E; apply IHa in E; auto; destruct E as [-> E]; try discriminate E; injection E as E; apply IHb in E; auto; destruct E as [-> E]; injection E as ->; auto ..|
     exfalso; symmetry in E; revert E; apply name_not_mark; [apply Hj|exact Ht|apply lp_mark|apply lp_not]|
     destruct (special_head q t) as [z Ez]; rewrite Ez in E; discriminate|
     discriminate].
  - destruct j as [x y|x y|x y|m|q|]; cbn [unique_string] in E.
    1-3: exfalso; revert E; rewrite ?las_app, <- ?app_assoc; cbn [las app]; apply name_not_mark; [apply Hi|exact Hs|apply lp_mark|apply lp_not].
    + destruct (name_split _ _ _ _ (proj1 Hi) (proj1 Hj) Hs Ht E) as [En ->]. apply las_inj in En. subst. auto.
    + destruct (special_head q t) as [z Ez]. rewrite Ez in E. exfalso. revert E. apply name_not_mark; [apply Hi|exact Hs|apply lb_mark|apply lb_not].
    + destruct (name_split _ (las "_") _ _ (proj1 Hi) any_plain Hs Ht E) as [En ->]. apply las_inj in En. destruct Hi as [_ K]. contradiction.
  - destruct (special_head p s) as [z Ez]. destruct j as [x y|x y|x y|m|q|]; cbn [unique_string] in E.
    1-3: rewrite Ez in E; rewrite ?las_app, <- ?app_assoc in E; discriminate.
    + rewrite Ez in E. symmetry in E. exfalso. revert E. apply name_not_mark; [apply Hj|exact Ht|apply lb_mark|apply lb_not].
    + destruct (special_split _ _ _ _ E) as [-> ->]. auto.
    + rewrite Ez in E. discriminate.
  - destruct j as [x y|x y|x y|m|q|]; cbn [unique_string] in E.
    1-3: rewrite ?las_app, <- ?app_assoc in E; discriminate.
    + symmetry in E. destruct (name_split _ (las "_") _ _ (proj1 Hj) any_plain Ht Hs E) as [En ->]. apply las_inj in En. destruct Hj as [_ K]. contradiction.
    + destruct (special_head q t) as [z Ez]. rewrite Ez in E. discriminate.
    + cbn [las app] in E. injection E as ->. auto.
Qed.
Theorem unique_string_inj i j : plain_id i -> plain_id j -> unique_string i = unique_string j -> i = j.
Proof. intros Hi Hj E. apply (unique_split i j [] []); auto; try exact I. rewrite E. reflexivity. Qed.

(** The form shown to the user, for locations of one system. *)
Inductive alike : locid -> locid -> Prop :=
| al_simple n m : alike (LSimple n) (LSimple m)
| al_special p q : alike (LSpecial p) (LSpecial q)
| al_quot_l a b q : alike (LQuot a b) (LSpecial q)
| al_quot_r a b q : alike (LSpecial q) (LQuot a b)
| al_quot a b x y : alike a x -> alike b y -> alike (LQuot a b) (LQuot x y)
| al_conj a b x y : alike a x -> alike b y -> alike (LConj a b) (LConj x y)
| al_comp a b x y : alike a x -> alike b y -> alike (LComp a b) (LComp x y).

Definition wrapped (b : bool) (t : list ascii) : list ascii := if b then t else "("%char :: t ++ [")"%char].
Lemma las_wrap (b : bool) (t : string) : las (if b then t else ("(" ++ t ++ ")")%string) = wrapped b (las t).
Proof. destruct b; cbn [wrapped]; [reflexivity|]. rewrite !las_app. reflexivity. Qed.

Definition splits (i j : locid) : Prop := forall s t, ends s -> ends t -> las (id_string i) ++ s = las (id_string j) ++ t -> i = j /\ s = t.
Lemma wrap_split b i j s t : splits i j -> ends s -> ends t -> wrapped b (las (id_string i)) ++ s = wrapped b (las (id_string j)) ++ t -> i = j /\ s = t.
Proof.
  intros H Hs Ht E. destruct b; cbn [wrapped] in E; [apply H; auto|]. cbn [app] in E. rewrite <- !app_assoc in E. injection E as E.
  apply H in E; [|unfold ends, closer; cbn; tauto|unfold ends, closer; cbn; tauto]. destruct E as [-> E]. injection E as ->. auto.
Qed.
Lemma quot_head a b s : plain_id a -> exists c t, las (id_string (LQuot a b)) ++ s = c :: t /\ c <> "["%char.
Proof.
  intros Ha. cbn [id_string]. rewrite !las_app, !las_wrap. destruct a as [x y|x y|x y|n|p|]; cbn [wrapped app]; try (do 2 eexists; split; [reflexivity|discriminate]).
  cbn [id_string]. destruct (las n) as [|c n'] eqn:En; cbn [app]; do 2 eexists; (split; [reflexivity|]); [discriminate|].
  intros ->. destruct Ha as [Ha _]. apply (Ha "["%char); [rewrite En; left; reflexivity|apply lb_mark].
Qed.
Lemma display_split i j : alike i j -> plain_id i -> plain_id j -> splits i j.
Proof.
  assert (C : forall b c a x m u d w, splits a x -> b = c -> closer m -> wrapped b (las (id_string a)) ++ m :: u = wrapped c (las (id_string x)) ++ d :: w -> closer d -> a = x /\ m :: u = d :: w).
  { intros b c a x m u d w H -> Hm E Hd. eapply wrap_split; eauto. }
  assert (C1 : closer "|") by (unfold closer; cbn; tauto). assert (C2 : closer "&") by (unfold closer; cbn; tauto). assert (C3 : closer "\") by (unfold closer; cbn; tauto).
  induction 1 as [n m|p q|a b q|a b q|a b x y Ha IHa Hb IHb|a b x y Ha IHa Hb IHb|a b x y Ha IHa Hb IHb]; intros Hi Hj s t Hs Ht E.
  - cbn [id_string] in E. destruct (name_split _ _ _ _ (proj1 Hi) (proj1 Hj) Hs Ht E) as [En ->]. apply las_inj in En. subst. auto.
  - cbn [id_string] in E. destruct (special_split _ _ _ _ E) as [-> ->]. auto.
  - destruct (quot_head a b s) as (c & z & Ez & Nc); [apply Hi|]. rewrite Ez in E. cbn [id_string] in E. destruct (special_head q t) as [w Ew]. rewrite Ew in E. injection E as -> _. contradiction.
  - destruct (quot_head a b t) as (c & z & Ez & Nc); [apply Hj|]. rewrite Ez in E. cbn [id_string] in E. destruct (special_head q s) as [w Ew]. rewrite Ew in E. injection E as <- _. contradiction.
  - destruct Hi as [H1 H2], Hj as [H3 H4]. cbn [id_string] in E. rewrite !las_app, !las_wrap, <- !app_assoc in E. cbn [las app] in E.
    apply C in E; auto; [|destruct Ha; reflexivity]. destruct E as [-> E]. injection E as E.
    replace (match y with LSimple _ => true | _ => false end) with (match b with LSimple _ => true | _ => false end) in E by (destruct Hb; reflexivity).
    apply wrap_split in E; auto. destruct E as [-> ->]. auto.
  - destruct Hi as [H1 H2], Hj as [H3 H4]. cbn [id_string] in E. rewrite !las_app, !las_wrap, <- !app_assoc in E. cbn [las app] in E.
    apply C in E; auto; [|destruct Ha; reflexivity]. destruct E as [-> E]. injection E as E.
    replace (match y with LConj _ _ | LSimple _ => true | _ => false end) with (match b with LConj _ _ | LSimple _ => true | _ => false end) in E by (destruct Hb; reflexivity).
    apply wrap_split in E; auto. destruct E as [-> ->]. auto.
  - destruct Hi as [H1 H2], Hj as [H3 H4]. cbn [id_string] in E. rewrite !las_app, !las_wrap, <- !app_assoc in E. cbn [las app] in E.
    apply C in E; auto; [|destruct Ha; reflexivity]. destruct E as [-> E]. injection E as E.
    replace (match y with LComp _ _ | LSimple _ => true | _ => false end) with (match b with LComp _ _ | LSimple _ => true | _ => false end) in E by (destruct Hb; reflexivity).
    apply wrap_split in E; auto. destruct E as [-> ->]. auto.
Qed.

Lemma locations_alike dim s : built dim s -> forall a b, In a (all_locations dim s) -> In b (all_locations dim s) -> alike (lt_id a) (lt_id b).
Proof.
  induction 1 as [c ins outs id cc E|l r s Hl IHl Hr IHr E|l r s Hl IHl Hr IHr E|T S q s HT IHT HS IHS E]; intros a b Ha Hb.
  - cbn [all_locations] in *. destruct (compile_inv _ _ _ _ _ _ E) as (ls & es & H1 & _ & Ec & _).
    rewrite Ec in *. apply keep_last_in in Ha. apply keep_last_in in Hb. apply (proj2 (mapM_in _ _ _ H1)) in Ha. apply (proj2 (mapM_in _ _ _ H1)) in Hb.
    destruct Ha as (la & _ & Ea), Hb as (lb & _ & Eb). rewrite (proj1 (lt_simple_id _ _ _ _ Ea)), (proj1 (lt_simple_id _ _ _ _ Eb)). constructor.
  - apply conjunction_new_inv in E. destruct E as (-> & _ & _). cbn [all_locations] in *.
    apply in_all_compose in Ha; [|left; reflexivity]. apply in_all_compose in Hb; [|left; reflexivity].
    destruct Ha as (a1 & a2 & A1 & A2 & Ea), Hb as (b1 & b2 & B1 & B2 & Eb).
    destruct (compose_id _ _ _ _ _ Ea) as [[_ Ia]|[? _]]; [|discriminate]. destruct (compose_id _ _ _ _ _ Eb) as [[_ Ib]|[? _]]; [|discriminate].
    rewrite Ia, Ib. constructor; auto.
  - apply composition_new_inv in E. destruct E as (_ & ins & outs & lo & ro & co & -> & _). cbn [all_locations] in *.
    apply in_all_compose in Ha; [|right; reflexivity]. apply in_all_compose in Hb; [|right; reflexivity].
    destruct Ha as (a1 & a2 & A1 & A2 & Ea), Hb as (b1 & b2 & B1 & B2 & Eb).
    destruct (compose_id _ _ _ _ _ Ea) as [[? _]|[_ Ia]]; [discriminate|]. destruct (compose_id _ _ _ _ _ Eb) as [[? _]|[_ Ib]]; [discriminate|].
    rewrite Ia, Ib. constructor; auto.
  - apply quotient_new_inv in E. destruct E as (n & ins & outs & -> & _). cbn [all_locations] in *.
    apply in_app_or in Ha. apply in_app_or in Hb.
    destruct Ha as [Ha|[<-|[<-|[]]]], Hb as [Hb|[<-|[<-|[]]]]; try constructor; try (apply in_map_iff in Ha; destruct Ha as ((a1 & a2) & <- & Ha); apply in_prod_iff in Ha);
      try (apply in_map_iff in Hb; destruct Hb as ((b1 & b2) & <- & Hb); apply in_prod_iff in Hb); cbn; try constructor; [apply IHT|apply IHS]; tauto.
Qed.
Lemma locations_plain dim s : built dim s -> plain_names s -> forall a, In a (all_locations dim s) -> plain_id (lt_id a).
Proof.
  induction 1 as [c ins outs id cc E|l r s Hl IHl Hr IHr E|l r s Hl IHl Hr IHr E|T S q s HT IHT HS IHS E]; intros P a Ha.
  - cbn [all_locations] in *. apply P. exact Ha.
  - apply conjunction_new_inv in E. destruct E as (-> & _ & _). cbn [all_locations plain_names] in *.
    apply in_all_compose in Ha; [|left; reflexivity]. destruct Ha as (a1 & a2 & A1 & A2 & Ea).
    destruct (compose_id _ _ _ _ _ Ea) as [[_ Ia]|[? _]]; [|discriminate]. rewrite Ia. split; [apply IHl|apply IHr]; tauto.
  - apply composition_new_inv in E. destruct E as (_ & ins & outs & lo & ro & co & -> & _). cbn [all_locations plain_names] in *.
    apply in_all_compose in Ha; [|right; reflexivity]. destruct Ha as (a1 & a2 & A1 & A2 & Ea).
    destruct (compose_id _ _ _ _ _ Ea) as [[? _]|[_ Ia]]; [discriminate|]. rewrite Ia. split; [apply IHl|apply IHr]; tauto.
  - apply quotient_new_inv in E. destruct E as (n & ins & outs & -> & _). cbn [all_locations plain_names] in *.
    apply in_app_or in Ha. destruct Ha as [Ha|[<-|[<-|[]]]]; [|exact I|exact I]. apply in_map_iff in Ha. destruct Ha as ((a1 & a2) & <- & Ha). apply in_prod_iff in Ha.
    cbn. split; [apply IHT|apply IHS]; tauto.
Qed.
