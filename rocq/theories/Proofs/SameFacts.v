(** Systems that are the same up to a renaming of the clocks. *)
From Coq Require Import List String ZArith QArith Bool Arith Lia.
From Verif Require Import Fed.Zone Fed.ZoneFacts Model.Base Model.Expr Model.Guard Model.Loc Model.Component Model.TS
  Spec.StepSpec Spec.SystemSpec Spec.RunSpec Proofs.GuardFacts Proofs.StepFacts Proofs.SystemFacts Proofs.WfFacts Proofs.QuotientFacts Proofs.RenFacts.
Import ListNotations.
Local Open Scope nat_scope.

(** Two results are both good and related, or the same failure. *)
Definition rres {A B} (R : A -> B -> Prop) (x : res A) (y : res B) : Prop :=
  match x, y with Ok a, Ok b => R a b | Err, Err | Panic, Panic | NoFuel, NoFuel => True | _, _ => False end.
Lemma rres_bind {A B C D} (R : A -> B -> Prop) (Q : C -> D -> Prop) x y f g :
  rres R x y -> (forall a b, x = Ok a -> y = Ok b -> R a b -> rres Q (f a) (g b)) -> rres Q (bind x f) (bind y g).
Proof. intros H F. destruct x, y; cbn in *; try contradiction; auto. Qed.
Lemma rres_mapM {A B C D} (R : A -> B -> Prop) (Q : C -> D -> Prop) f g l m :
  Forall2 R l m -> (forall a b, In a l -> In b m -> R a b -> rres Q (f a) (g b)) -> rres (Forall2 Q) (mapM f l) (mapM g m).
Proof.
  induction 1 as [|a b l m H F IH]; intros X; cbn [mapM]; [constructor|].
  eapply rres_bind; [apply X; [left; reflexivity|left; reflexivity|exact H]|]. intros c d _ _ Hcd.
  eapply rres_bind; [apply IH; intros; apply X; [right|right|]; assumption|]. intros cs ds _ _ Hcs. constructor; assumption.
Qed.
Definition orel {A B} (R : A -> B -> Prop) (x : option A) (y : option B) : Prop :=
  match x, y with Some a, Some b => R a b | None, None => True | _, _ => False end.

Lemma Forall2_prod {A B C D} (R : A -> B -> Prop) (Q : C -> D -> Prop) l l' m m' :
  Forall2 R l l' -> Forall2 Q m m' -> Forall2 (fun x y => R (fst x) (fst y) /\ Q (snd x) (snd y)) (list_prod l m) (list_prod l' m').
Proof.
  intros F G. induction F as [|a b l l' H F IH]; cbn; [constructor|]. apply Forall2_app; [|exact IH].
  clear - H G. induction G; cbn; constructor; auto.
Qed.
Lemma Forall2_filter {A B} (R : A -> B -> Prop) f g l m :
  Forall2 R l m -> (forall a b, In a l -> In b m -> R a b -> f a = g b) -> Forall2 R (filter f l) (filter g m).
Proof.
  induction 1 as [|a b l m H F IH]; intros X; cbn; [constructor|]. rewrite (X a b (or_introl eq_refl) (or_introl eq_refl) H).
  specialize (IH (fun a b Ha Hb => X a b (or_intror Ha) (or_intror Hb))). destruct (g b); auto.
Qed.
Lemma Forall2_map {A B C D} (R : A -> B -> Prop) (Q : C -> D -> Prop) f g l m :
  Forall2 R l m -> (forall a b, In a l -> In b m -> R a b -> Q (f a) (g b)) -> Forall2 Q (map f l) (map g m).
Proof.
  induction 1 as [|a b l m H F IH]; intros X; cbn; [constructor|]. constructor; [apply X; auto; left; reflexivity|].
  apply IH. intros; apply X; auto; right; assumption.
Qed.
Lemma Forall2_find {A B} (R : A -> B -> Prop) f g l m :
  Forall2 R l m -> (forall a b, R a b -> f a = g b) -> orel R (find f l) (find g m).
Proof. induction 1 as [|a b l m H F IH]; intros X; cbn; [exact I|]. rewrite (X a b H). destruct (g b); [exact H|auto]. Qed.
Lemma Forall2_in_l {A B} (R : A -> B -> Prop) l m a : Forall2 R l m -> In a l -> exists b, In b m /\ R a b.
Proof. induction 1; intros []; [subst; eexists; split; [left; reflexivity|assumption]|]. destruct (IHForall2 H1) as (b & Hb & Rb). exists b. split; [right; exact Hb|exact Rb]. Qed.
Lemma Forall2_in_r {A B} (R : A -> B -> Prop) l m b : Forall2 R l m -> In b m -> exists a, In a l /\ R a b.
Proof. induction 1; intros []; [subst; eexists; split; [left; reflexivity|assumption]|]. destruct (IHForall2 H1) as (a & Ha & Ra). exists a. split; [right; exact Ha|exact Ra]. Qed.

Section Same.
Variable rho : nat -> option nat.
Variables dim dim' : nat.
Local Notation frel := (frel rho dim dim').
Record renames : Prop := {
  rn_zero : rho 0 = Some 0;
  rn_range : forall i j, rho i = Some j -> i <> 0 -> j <> 0 /\ j < dim' /\ i < dim }.
Definition injective : Prop := forall i k j, rho i = Some j -> rho k = Some j -> i = k.
Hypothesis RN : renames.

Inductive lrel : loctree -> loctree -> Prop :=
| lrel_leaf id o o' ty : orel frel o o' -> lrel (LLeaf id o ty) (LLeaf id o' ty)
| lrel_node id o o' ty l l' r r' : orel frel o o' -> lrel l l' -> lrel r r' -> lrel (LNode id o ty l r) (LNode id o' ty l' r').
Definition ren_updates (us : list cupdate) : list cupdate :=
  flat_map (fun u => match rho (u_clock u) with Some j => [mkU j (u_value u)] | None => [] end) us.
Record trel (t t' : transition) : Prop := {
  tr_id : t_id t' = t_id t;
  tr_guard : frel (t_guard t) (t_guard t');
  tr_target : lrel (t_target t) (t_target t');
  tr_updates : t_updates t' = ren_updates (t_updates t) }.
Record ccrel (c c' : ccomp) : Prop := {
  cr_in : cc_inputs c' = cc_inputs c;
  cr_out : cc_outputs c' = cc_outputs c;
  cr_locs : Forall2 lrel (cc_locs c) (cc_locs c');
  cr_edges : Forall2 (fun p p' => fst p = fst p' /\ Forall2 (fun e e' => fst e = fst e' /\ trel (snd e) (snd e')) (snd p) (snd p')) (cc_edges c) (cc_edges c');
  cr_init : orel lrel (cc_init c) (cc_init c') }.
Inductive srel : ts -> ts -> Prop :=
| srel_simple c c' : ccrel c c' -> srel (TSimple c) (TSimple c')
| srel_conj l l' r r' i o : srel l l' -> srel r r' -> srel (TConj l r i o) (TConj l' r' i o)
| srel_comp l l' r r' i o lo ro co : srel l l' -> srel r r' -> srel (TComp l r i o lo ro co) (TComp l' r' i o lo ro co)
| srel_quot t t' s s' i o n q q' : srel t t' -> srel s s' -> rho q = Some q' -> srel (TQuot t s i o n q) (TQuot t' s' i o n q').

Lemma lrel_id l l' : lrel l l' -> lt_id l' = lt_id l.
Proof. destruct 1; reflexivity. Qed.
Lemma lrel_type l l' : lrel l l' -> lt_type l' = lt_type l.
Proof. destruct 1; reflexivity. Qed.
Lemma lrel_inv l l' : lrel l l' -> orel frel (lt_inv l) (lt_inv l').
Proof. destruct 1; assumption. Qed.
Lemma lrel_left l l' : lrel l l' -> rres lrel (lt_left l) (lt_left l').
Proof. destruct 1; cbn; auto. Qed.
Lemma lrel_right l l' : lrel l l' -> rres lrel (lt_right l) (lt_right l').
Proof. destruct 1; cbn; auto. Qed.
Lemma lrel_inv_at l l' v v' : lrel l l' -> val_ok dim v -> val_ok dim' v' -> agree rho v v' -> (inv_at dim l v <-> inv_at dim' l' v').
Proof. intros L Hv Hv' A. apply lrel_inv in L. unfold inv_at. destruct (lt_inv l), (lt_inv l'); cbn in L; try contradiction; [auto|tauto]. Qed.
Lemma lrel_universal : lrel lt_universal lt_universal.
Proof. constructor. exact I. Qed.
Lemma frel_eq0 q q' : rho q = Some q' -> frel (fcon_eq q 0 0 funiv) (fcon_eq q' 0 0 funiv).
Proof.
  intros E v v' Hv Hv' A. rewrite !fcon_eq_sem, !funiv_sem. pose proof (A _ _ E) as Eq. pose proof (proj1 Hv) as Z. pose proof (proj1 Hv') as Z'.
  split; intros [H1 H2]; (split; [|assumption]); revert H1; rewrite Eq, Z, Z'; auto.
Qed.
Lemma lrel_error q q' : rho q = Some q' -> lrel (lt_error q) (lt_error q').
Proof. intros E. constructor. cbn. apply frel_eq0, E. Qed.
Lemma lrel_quotient a a' b b' : lrel a a' -> lrel b b' -> lrel (lt_quotient a b) (lt_quotient a' b').
Proof.
  intros A B. unfold lt_quotient. rewrite (lrel_id _ _ A), (lrel_id _ _ B), (lrel_type _ _ A), (lrel_type _ _ B). constructor; [exact I|assumption|assumption].
Qed.
Lemma lrel_compose a a' b b' c : lrel a a' -> lrel b b' -> rres lrel (lt_compose dim a b c) (lt_compose dim' a' b' c).
Proof.
  intros A B. unfold lt_compose. rewrite (lrel_id _ _ A), (lrel_id _ _ B), (lrel_type _ _ A), (lrel_type _ _ B).
  assert (X : orel frel (inv_inter dim (lt_inv a) (lt_inv b)) (inv_inter dim' (lt_inv a') (lt_inv b'))).
  { pose proof (lrel_inv _ _ A) as Ia. pose proof (lrel_inv _ _ B) as Ib. destruct (lt_inv a), (lt_inv a'); cbn in Ia; try contradiction;
    destruct (lt_inv b), (lt_inv b'); cbn in Ib; try contradiction; cbn; auto using frel_inter. }
  destruct c; cbn; auto; constructor; assumption.
Qed.
Lemma ren_app us ws : ren_updates (us ++ ws) = ren_updates us ++ ren_updates ws.
Proof. apply flat_map_app. Qed.
Lemma trel_without l l' : lrel l l' -> trel (t_without_id l) (t_without_id l').
Proof. intros L. constructor; cbn; [reflexivity|apply frel_univ|exact L|reflexivity]. Qed.
Lemma combinations_rel l l' r r' c : Forall2 trel l l' -> Forall2 trel r r' -> rres (Forall2 trel) (combinations dim l r c) (combinations dim' l' r' c).
Proof.
  intros L R. unfold combinations. eapply rres_mapM; [apply Forall2_prod; eassumption|]. intros [a b] [a' b'] _ _ [Ha Hb]. cbn [fst snd] in *.
  unfold combine_pair. eapply rres_bind; [apply lrel_compose; [apply (tr_target _ _ Ha)|apply (tr_target _ _ Hb)]|]. intros p p' _ _ Hp.
  rewrite (tr_id _ _ Ha), (tr_id _ _ Hb). destruct (combine_ids c (t_id a) (t_id b)); cbn; auto.
  constructor; cbn; [reflexivity|apply frel_inter; [apply (tr_guard _ _ Ha)|apply (tr_guard _ _ Hb)]|exact Hp|].
  rewrite (tr_updates _ _ Ha), (tr_updates _ _ Hb), ren_app. reflexivity.
Qed.

Lemma srel_inputs s s' : srel s s' -> ts_inputs s' = ts_inputs s.
Proof. destruct 1; cbn; auto. apply (cr_in _ _ H). Qed.
Lemma srel_outputs s s' : srel s s' -> ts_outputs s' = ts_outputs s.
Proof. destruct 1; cbn; auto. apply (cr_out _ _ H). Qed.
Lemma srel_has s s' a : srel s s' -> has_action s' a = has_action s a.
Proof. intros S. unfold has_action, ts_actions. rewrite (srel_inputs _ _ S), (srel_outputs _ _ S). reflexivity. Qed.
Lemma srel_initial s s' : srel s s' -> orel lrel (initial_location dim s) (initial_location dim' s').
Proof.
  induction 1 as [c c' C|l l' r r' i o L IHl R IHr|l l' r r' i o lo ro co L IHl R IHr|t t' s s' i o n q q' T IHt S IHs Q]; cbn [initial_location].
  - apply (cr_init _ _ C).
  - destruct (initial_location dim l), (initial_location dim' l'); cbn in IHl; try contradiction; [|exact I].
    destruct (initial_location dim r), (initial_location dim' r'); cbn in IHr; try contradiction; [|exact I].
    pose proof (lrel_compose _ _ _ _ CConj IHl IHr) as X. destruct (lt_compose dim _ _ _), (lt_compose dim' _ _ _); cbn in X; try contradiction; cbn; auto.
  - destruct (initial_location dim l), (initial_location dim' l'); cbn in IHl; try contradiction; [|exact I].
    destruct (initial_location dim r), (initial_location dim' r'); cbn in IHr; try contradiction; [|exact I].
    pose proof (lrel_compose _ _ _ _ CComp IHl IHr) as X. destruct (lt_compose dim _ _ _), (lt_compose dim' _ _ _); cbn in X; try contradiction; cbn; auto.
  - destruct (initial_location dim t), (initial_location dim' t'); cbn in IHt; try contradiction; [|exact I].
    destruct (initial_location dim s), (initial_location dim' s'); cbn in IHs; try contradiction; [|exact I].
    apply lrel_quotient; assumption.
Qed.

(** ** Updates *)
Lemma ren_ok us : updates_ok dim us -> updates_ok dim' (ren_updates us).
Proof.
  intros U u Hu. apply in_flat_map in Hu. destruct Hu as (w & Hw & Hu). destruct (U w Hw) as (H1 & H2 & H3).
  destruct (rho (u_clock w)) as [j|] eqn:E; [|destruct Hu]. destruct Hu as [<-|[]]. cbn. destruct (rn_range RN _ _ E H1). tauto.
Qed.
Lemma ren_conflict us : injective -> no_conflict us -> no_conflict (ren_updates us).
Proof.
  intros J N u w Hu Hw. apply in_flat_map in Hu, Hw. destruct Hu as (a & Ha & Hu), Hw as (b & Hb & Hw).
  destruct (rho (u_clock a)) as [j|] eqn:E; [|destruct Hu]. destruct Hu as [<-|[]].
  destruct (rho (u_clock b)) as [k|] eqn:E2; [|destruct Hw]. destruct Hw as [<-|[]]. cbn. intros ->. apply (N a b Ha Hb). eapply J; eauto.
Qed.
(** Clocks that become one clock get the same value. *)
Definition together (us : list cupdate) : Prop :=
  forall i k j u, rho i = Some j -> rho k = Some j -> find (fun u => Nat.eqb (u_clock u) k) (rev us) = Some u ->
    exists w, find (fun u => Nat.eqb (u_clock u) i) (rev us) = Some w /\ u_value w = u_value u.
Lemma together_inj us : injective -> together us.
Proof. intros J i k j u Hi Hk F. rewrite (J _ _ _ Hi Hk). eauto. Qed.
Lemma run_last' us x v : run_updates us v x = match find (fun u => Nat.eqb (u_clock u) x) (rev us) with Some u => inject_Z (u_value u) | None => v x end.
Proof.
  revert v. induction us as [|u us IH] using rev_ind; intros v; [reflexivity|].
  unfold run_updates. rewrite fold_left_app. cbn [fold_left]. rewrite rev_app_distr. cbn [rev app find]. unfold vset at 1. rewrite (Nat.eqb_sym x (u_clock u)).
  destruct (Nat.eqb (u_clock u) x); [reflexivity|]. apply IH.
Qed.
Lemma ren_last us j : match find (fun u => Nat.eqb (u_clock u) j) (rev (ren_updates us)) with
  | Some u => exists k w, rho k = Some j /\ find (fun u => Nat.eqb (u_clock u) k) (rev us) = Some w /\ u_value w = u_value u
  | None => forall k, rho k = Some j -> find (fun u => Nat.eqb (u_clock u) k) (rev us) = None end.
Proof.
  induction us as [|u us IH] using rev_ind; [cbn; intros; reflexivity|]. rewrite ren_app, !rev_app_distr. cbn [ren_updates flat_map].
  destruct (rho (u_clock u)) as [k|] eqn:E; cbn [app rev find].
  - cbn [u_clock]. destruct (Nat.eqb_spec k j) as [->|Ne].
    + exists (u_clock u), u. rewrite Nat.eqb_refl. auto.
    + destruct (find _ (rev (ren_updates us))) as [w|].
      * destruct IH as (i & w' & Hi & F & V). exists i, w'. destruct (Nat.eqb_spec (u_clock u) i) as [<-|_]; [congruence|]. auto.
      * intros i Hi. destruct (Nat.eqb_spec (u_clock u) i) as [<-|_]; [congruence|]. auto.
  - destruct (find _ (rev (ren_updates us))) as [w|].
    + destruct IH as (i & w' & Hi & F & V). exists i, w'. destruct (Nat.eqb_spec (u_clock u) i) as [<-|_]; [congruence|]. auto.
    + intros i Hi. destruct (Nat.eqb_spec (u_clock u) i) as [<-|_]; [congruence|]. auto.
Qed.
Lemma run_agree us v v' : together us -> agree rho v v' -> agree rho (run_updates us v) (run_updates (ren_updates us) v').
Proof.
  intros T A i j E. rewrite !run_last'. pose proof (ren_last us j) as L. destruct (find _ (rev (ren_updates us))) as [u|].
  - destruct L as (k & w & Hk & F & V). destruct (T i k j w E Hk F) as (x & Fx & Vx). rewrite Fx, Vx, V. reflexivity.
  - rewrite (L i E). apply A, E.
Qed.
Lemma delay_agree v v' d : agree rho v v' -> agree rho (vdelay v d) (vdelay v' d).
Proof.
  intros A i j E. unfold vdelay. destruct (Nat.eqb_spec i 0) as [->|Ni].
  - rewrite (rn_zero RN) in E. injection E as <-. cbn. apply A, (rn_zero RN).
  - destruct (rn_range RN _ _ E Ni) as [Nj _]. destruct (Nat.eqb_spec j 0); [contradiction|]. rewrite (A i j E). reflexivity.
Qed.

(** ** Without merging, every valuation has a counterpart *)
Lemma back v' : val_ok dim' v' -> 0 < dim' -> exists v, val_ok dim v /\ agree rho v v'.
Proof.
  intros [Z P] D. exists (fun i => match rho i with Some j => v' j | None => 0%Q end). split.
  - split; [rewrite (rn_zero RN); exact Z|]. intros i _. destruct (rho i) as [j|] eqn:E; [|apply Qle_refl].
    destruct (Nat.eq_dec i 0) as [->|Ni]; [rewrite (rn_zero RN) in E; injection E as <-; rewrite Z; apply Qle_refl|]. apply P. apply (rn_range RN _ _ E Ni).
  - intros i j E. rewrite E. reflexivity.
Qed.
Lemma forth v : injective -> val_ok dim v -> 0 < dim -> exists v', val_ok dim' v' /\ agree rho v v'.
Proof.
  intros J [Z P] D. set (pick := fun j => find (fun i => match rho i with Some k => Nat.eqb k j | None => false end) (seq 0 dim)).
  exists (fun j => match pick j with Some i => v i | None => 0%Q end).
  assert (Pk : forall i j, rho i = Some j -> i < dim -> pick j = Some i).
  { intros i j E Li. unfold pick. destruct (find _ (seq 0 dim)) as [k|] eqn:F.
    - apply find_some in F. destruct F as [_ F]. destruct (rho k) as [m|] eqn:Ek; [|discriminate]. apply Nat.eqb_eq in F. subst m. rewrite (J _ _ _ E Ek). reflexivity.
    - exfalso. assert (X := find_none _ _ F i). cbn beta in X. rewrite E, Nat.eqb_refl in X. discriminate X. apply in_seq; lia. }
  assert (Lt : forall i j, rho i = Some j -> i < dim) by (intros i j E; destruct (Nat.eq_dec i 0) as [->|Ni]; [exact D|apply (rn_range RN _ _ E Ni)]).
  split.
  - split; [rewrite (Pk 0 0 (rn_zero RN) D); exact Z|]. intros j _. unfold pick. destruct (find _ (seq 0 dim)) as [k|] eqn:F; [|apply Qle_refl].
    apply find_some in F. destruct F as [F _]. apply P. apply in_seq in F. lia.
  - intros i j E. rewrite (Pk i j E (Lt _ _ E)). reflexivity.
Qed.
Lemma frel_empty f f' : injective -> 0 < dim -> 0 < dim' -> frel f f' -> fempty dim f = fempty dim' f'.
Proof.
  intros J D D' F. destruct (fempty dim f) eqn:E, (fempty dim' f') eqn:E'; auto; exfalso.
  - rewrite fempty_true in E. apply fempty_false in E'. destruct E' as [v' Hv']. destruct (back v' (fsem_ok _ _ _ Hv') D') as (v & Hv & A).
    apply (E v). apply (F v v' Hv (fsem_ok _ _ _ Hv') A). exact Hv'.
  - rewrite fempty_true in E'. apply fempty_false in E. destruct E as [v Hv]. destruct (forth v J (fsem_ok _ _ _ Hv) D) as (v' & Hv' & A).
    apply (E' v'). apply (F v v' (fsem_ok _ _ _ Hv) Hv' A). exact Hv.
Qed.

Lemma trel_fine t t' : injective -> trel t t' -> tr_fine dim t -> tr_fine dim' t'.
Proof. intros J T [U N]. split; rewrite (tr_updates _ _ T); [apply ren_ok, U|apply ren_conflict; assumption]. Qed.
Lemma able_rel l l' t t' v v' : lrel l l' -> trel t t' -> updates_ok dim (t_updates t) -> together (t_updates t) ->
  val_ok dim v -> val_ok dim' v' -> agree rho v v' -> (able dim l t v <-> able dim' l' t' v').
Proof.
  intros L T U G Hv Hv' A. unfold able. rewrite (lrel_inv_at _ _ _ _ L Hv Hv' A), (tr_guard _ _ T v v' Hv Hv' A).
  rewrite (lrel_inv_at _ _ (run_updates (t_updates t) v) (run_updates (t_updates t') v') (tr_target _ _ T)); [tauto| | |].
  - apply run_updates_ok; assumption.
  - rewrite (tr_updates _ _ T). apply run_updates_ok; [apply ren_ok, U|assumption].
  - rewrite (tr_updates _ _ T). apply run_agree; assumption.
Qed.
Lemma q_allowed_rel l l' t t' : injective -> lrel l l' -> trel t t' -> tr_fine dim t -> frel (q_allowed dim l t) (q_allowed dim' l' t').
Proof.
  intros J L T F v v' Hv Hv' A. rewrite !q_allowed_sem by (try assumption; eapply trel_fine; eauto).
  apply able_rel; auto using together_inj. apply F.
Qed.
Lemma apply_inv_rel l l' f f' : lrel l l' -> frel f f' -> frel (apply_inv dim l f) (apply_inv dim' l' f').
Proof. intros L F. apply lrel_inv in L. unfold apply_inv. destruct (lt_inv l), (lt_inv l'); cbn in L; try contradiction; auto using frel_inter. Qed.
Lemma q_inv_rel l l' : lrel l l' -> frel (q_inv l) (q_inv l').
Proof. intros L. apply lrel_inv in L. unfold q_inv. destruct (lt_inv l), (lt_inv l'); cbn in L; try contradiction; auto using frel_univ. Qed.
Lemma fold_rel l l' ts ts' : injective -> lrel l l' -> Forall2 trel ts ts' -> (forall t, In t ts -> tr_fine dim t) ->
  frel (fold_left (fun g s => funion g (q_allowed dim l s)) ts fnone) (fold_left (fun g s => funion g (q_allowed dim' l' s)) ts' fnone).
Proof.
  intros J L F. assert (X : frel fnone fnone) by apply frel_none. revert X. generalize fnone at 1 3. generalize fnone.
  induction F as [|t t' ts ts' T F IH]; cbn [fold_left]; intros g' g G Fi; [exact G|].
  apply IH; [|intros; apply Fi; right; assumption]. apply frel_union; [exact G|]. apply q_allowed_rel; auto. apply Fi. left. reflexivity.
Qed.
Lemma tids_rel ts ts' : Forall2 trel ts ts' -> map t_id ts' = map t_id ts.
Proof. induction 1 as [|t t' ts ts' T F IH]; cbn; [reflexivity|]. rewrite IH, (tr_id _ _ T). reflexivity. Qed.

Lemma quotient_rel T T' S S' n q q' lt lt' ls ls' tts tts' sss sss' a : injective -> 0 < dim -> 0 < dim' ->
  srel T T' -> srel S S' -> rho q = Some q' -> lrel lt lt' -> lrel ls ls' -> Forall2 trel tts tts' -> Forall2 trel sss sss' ->
  (forall t, In t tts -> tr_fine dim t) -> (forall t, In t sss -> tr_fine dim t) ->
  Forall2 trel (quotient_rules dim T S n q lt ls tts sss a) (quotient_rules dim' T' S' n q' lt' ls' tts' sss' a).
Proof.
  intros J D D' RT RS Q Lt Ls FT FS Ft Fs. unfold quotient_rules.
  rewrite (srel_has _ _ a RT), (srel_has _ _ a RS), (srel_outputs _ _ RT), (srel_outputs _ _ RS).
  assert (Rq : ren_updates [mkU q 0] = [mkU q' 0]) by (cbn; rewrite Q; reflexivity).
  assert (Iv : frel (apply_inv dim ls funiv) (apply_inv dim' ls' funiv)) by (apply apply_inv_rel; auto using frel_univ).
  apply Forall2_filter; [|intros x y _ _ H; f_equal; apply frel_empty; auto; apply (tr_guard _ _ H)].
  repeat apply Forall2_app.
  - destruct (has_action S a && has_action T a); [|constructor]. eapply Forall2_map; [apply Forall2_prod; eassumption|]. intros [t s] [t' s'] Hp _ [Ht Hs].
    apply in_prod_iff in Hp. cbn [fst snd] in *. constructor; cbn.
    + rewrite (tr_id _ _ Ht), (tr_id _ _ Hs). reflexivity.
    + apply frel_inter; apply q_allowed_rel; auto; [apply Ft|apply Fs]; tauto.
    + apply lrel_quotient; [apply (tr_target _ _ Ht)|apply (tr_target _ _ Hs)].
    + rewrite (tr_updates _ _ Ht), (tr_updates _ _ Hs), ren_app. reflexivity.
  - destruct (has_action S a && negb (has_action T a)); [|constructor]. eapply Forall2_map; [eassumption|]. intros s s' Hi _ Hs. constructor; cbn.
    + rewrite (tr_id _ _ Hs). reflexivity.
    + apply q_allowed_rel; auto.
    + apply lrel_quotient; [exact Lt|apply (tr_target _ _ Hs)].
    + apply (tr_updates _ _ Hs).
  - destruct (sin a (ts_outputs S)); (constructor; [|constructor]); constructor; cbn; auto using lrel_universal, frel_compl.
    + rewrite (tids_rel _ _ FS). reflexivity.
    + apply frel_union; apply frel_compl; [exact Iv|]. apply fold_rel; auto.
  - destruct (sin a (ts_outputs S) && sin a (ts_outputs T)); [|constructor]. eapply Forall2_map; [eassumption|]. intros s s' Hi _ Hs. constructor; cbn -[ren_updates].
    + rewrite (tids_rel _ _ FT), (tr_id _ _ Hs). reflexivity.
    + apply frel_inter; [apply q_allowed_rel; auto|]. apply frel_compl, fold_rel; auto.
    + apply lrel_error, Q.
    + symmetry. exact Rq.
  - destruct (String.eqb a n); [|constructor]. constructor; [|constructor]. constructor; cbn -[ren_updates]; auto using lrel_error.
    apply frel_inter; [apply frel_compl|]; apply q_inv_rel; assumption.
  - destruct (has_action T a && negb (has_action S a)); [|constructor]. eapply Forall2_map; [eassumption|]. intros t t' Hi _ Ht. constructor; cbn.
    + rewrite (tr_id _ _ Ht). reflexivity.
    + apply apply_inv_rel; [exact Ls|]. apply q_allowed_rel; auto.
    + apply lrel_quotient; [apply (tr_target _ _ Ht)|exact Ls].
    + apply (tr_updates _ _ Ht).
Qed.

Lemma next_rel s s' : srel s s' -> forall q, clocks_ok dim q s -> 0 < dim -> 0 < dim' -> (quotient_free s = true \/ injective) ->
  forall l l' a, lrel l l' -> rres (Forall2 trel) (next_transitions dim s l a) (next_transitions dim' s' l' a).
Proof.
  intros S qc C D D'. induction S as [c c' R|l l' r r' i o L IHl R IHr|l l' r r' i o lo ro co L IHl R IHr|t t' s s' i o n q q' T IHt S IHs Q];
  intros QF loc loc' a Lo; cbn [next_transitions].
  - rewrite (srel_has (TSimple c) (TSimple c') a (srel_simple _ _ R)). destruct (negb _); [exact I|].
    unfold is_universal, is_inconsistent. rewrite (lrel_type _ _ Lo), (lrel_id _ _ Lo), (cr_in _ _ R).
    destruct (loctype_eqb _ _); [cbn; constructor; [apply trel_without, Lo|constructor]|].
    destruct (loctype_eqb _ _ && _); [cbn; constructor; [apply trel_without, Lo|constructor]|].
    unfold assoc_loc. pose proof (Forall2_find _ (fun p => locid_eqb (lt_id loc) (fst p)) (fun p => locid_eqb (lt_id loc) (fst p)) _ _ (cr_edges _ _ R)) as F.
    assert (X : forall a b : locid * list (string * transition), (fst a = fst b /\ Forall2 (fun e e' => fst e = fst e' /\ trel (snd e) (snd e')) (snd a) (snd b)) -> locid_eqb (lt_id loc) (fst a) = locid_eqb (lt_id loc) (fst b)) by (intros ? ? [-> _]; reflexivity).
    specialize (F X). destruct (find _ (cc_edges c)) as [p|], (find _ (cc_edges c')) as [p'|]; cbn in F; try contradiction; [|exact I]. cbn. destruct F as [_ F].
    eapply Forall2_map; [apply Forall2_filter; [exact F|]; intros ? ? _ _ [-> _]; reflexivity|]. intros x y _ _ [_ H]. exact H.
  - rewrite (srel_has (TConj l r i o) (TConj l' r' i o) a (srel_conj _ _ _ _ _ _ L R)). destruct (negb _); [exact I|].
    destruct C as (Cl & Cr & _). assert (QF' : (quotient_free l = true \/ injective) /\ (quotient_free r = true \/ injective)).
    { destruct QF as [QF|J]; [cbn in QF; apply andb_true_iff in QF; tauto|tauto]. } destruct QF' as [Ql Qr].
    eapply rres_bind; [apply lrel_left, Lo|]. intros x x' _ _ Hx. eapply rres_bind; [apply lrel_right, Lo|]. intros y y' _ _ Hy.
    eapply rres_bind; [apply IHl; assumption|]. intros tl tl' _ _ Htl. eapply rres_bind; [apply IHr; assumption|]. intros tr tr' _ _ Htr. apply combinations_rel; assumption.
  - rewrite (srel_has (TComp l r i o lo ro co) (TComp l' r' i o lo ro co) a (srel_comp _ _ _ _ _ _ _ _ _ L R)). destruct (negb _); [exact I|].
    destruct C as (Cl & Cr & _). assert (QF' : (quotient_free l = true \/ injective) /\ (quotient_free r = true \/ injective)).
    { destruct QF as [QF|J]; [cbn in QF; apply andb_true_iff in QF; tauto|tauto]. } destruct QF' as [Ql Qr].
    eapply rres_bind; [apply lrel_left, Lo|]. intros x x' _ _ Hx. eapply rres_bind; [apply lrel_right, Lo|]. intros y y' _ _ Hy.
    destruct (sin a co); [|destruct (sin a lo); [|destruct (sin a ro); [|exact I]]].
    + eapply rres_bind; [apply IHl; assumption|]. intros tl tl' _ _ Htl. eapply rres_bind; [apply IHr; assumption|]. intros tr tr' _ _ Htr. apply combinations_rel; assumption.
    + eapply rres_bind; [apply IHl; assumption|]. intros tl tl' _ _ Htl. apply combinations_rel; [assumption|]. constructor; [apply trel_without, Hy|constructor].
    + eapply rres_bind; [apply IHr; assumption|]. intros tr tr' _ _ Htr. apply combinations_rel; [|assumption]. constructor; [apply trel_without, Hx|constructor].
  - rewrite (srel_has (TQuot t s i o n q) (TQuot t' s' i o n q') a (srel_quot _ _ _ _ _ _ _ _ _ T S Q)). destruct (negb _); [exact I|].
    destruct C as (Ct & Cs & _). destruct QF as [QF|J]; [discriminate|].
    unfold is_universal, is_inconsistent. rewrite (lrel_type _ _ Lo).
    destruct (loctype_eqb (lt_type loc) Inconsistent); [cbn; destruct (sin a i); [|constructor]; constructor; [|constructor]; constructor; [reflexivity|apply frel_eq0, Q|exact Lo|reflexivity]|].
    destruct (loctype_eqb (lt_type loc) Universal); [cbn; constructor; [apply trel_without, Lo|constructor]|].
    eapply rres_bind; [apply lrel_left, Lo|]. intros x x' _ _ Hx. eapply rres_bind; [apply lrel_right, Lo|]. intros y y' _ _ Hy.
    rewrite (srel_has _ _ a T), (srel_has _ _ a S).
    eapply rres_bind with (R := Forall2 trel); [destruct (has_action t a); [apply IHt; auto|constructor]|]. intros tts tts' Et _ Ht.
    eapply rres_bind with (R := Forall2 trel); [destruct (has_action s a); [apply IHs; auto|constructor]|]. intros sss sss' Es _ Hs.
    cbn. apply quotient_rel; auto.
    + intros z Hz. destruct (has_action t a); [apply (next_fine dim qc t Ct x a tts Et z Hz)|injection Et as <-; destruct Hz].
    + intros z Hz. destruct (has_action s a); [apply (next_fine dim qc s Cs y a sss Es z Hz)|injection Es as <-; destruct Hz].
Qed.
End Same.
