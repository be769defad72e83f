(** Proofs about reducing the clocks of two systems at once. *)
From Coq Require Import List String ZArith QArith Bool Arith Lia Permutation.
From Verif Require Import Fed.Zone Fed.ZoneFacts Model.Base Model.Expr Model.Guard Model.Loc Model.Component Model.TS Model.ParseQuery Model.Files Model.Recipe Model.Reduce
  Spec.GuardSpec Spec.StepSpec Spec.SystemSpec Spec.RunSpec Spec.RefineSpec Spec.EnableSpec Spec.RecipeSpec Spec.ReduceSpec Spec.SameSpec
  Proofs.GuardFacts Proofs.StepFacts Proofs.SystemFacts Proofs.WfFacts Proofs.RunFacts Proofs.ReadsFacts Proofs.RecipeFacts Proofs.ReduceFacts Proofs.ClockFacts
  Proofs.RenFacts Proofs.SameFacts Proofs.BisimFacts Proofs.ShrinkFacts Proofs.CompressFacts Proofs.InstrFacts.
Import ListNotations.
Local Open Scope nat_scope.
Local Open Scope list_scope.

(** ** Clocks that nobody uses, reported for both systems *)
Fixpoint removals (xs : list instr) : list nat :=
  match xs with [] => [] | RemoveClock i :: r => i :: removals r | ReplaceClocks _ _ :: r => removals r end.
Lemma removals_In xs i : In i (removals xs) <-> In (RemoveClock i) xs.
Proof.
  induction xs as [|[j|j o] xs IH]; cbn [removals In]; [tauto| |]; rewrite IH.
  - split; (intros [H|H]; [left; congruence|auto]).
  - split; [auto|]. intros [H|H]; [discriminate|exact H].
Qed.
Lemma only_removals xs : (forall x, In x xs -> exists i, x = RemoveClock i) -> xs = map RemoveClock (removals xs).
Proof.
  induction xs as [|x xs IH]; intros H; cbn [removals map]; [reflexivity|]. destruct (H x (or_introl eq_refl)) as [i ->]. cbn [removals map]. f_equal. apply IH. intros; apply H; right; assumption.
Qed.
Lemma removals_redundancies dim cord gord g : removals (redundancies dim cord gord g) = cord (unused_clocks dim g).
Proof.
  unfold redundancies. generalize (equivalent_groups gord g). intros gs. induction (cord (unused_clocks dim g)) as [|i l IH]; cbn [map app removals]; [|f_equal; exact IH].
  induction gs as [|grp gs IH]; cbn [map removals replace_group]; [reflexivity|exact IH].
Qed.
Lemma removals_filter f xs : removals (filter f xs) = filter (fun i => f (RemoveClock i)) (removals xs).
Proof. induction xs as [|[i|i o] xs IH]; cbn [filter removals]; [reflexivity| |]; destruct (f _); cbn [removals filter]; rewrite ?IH; reflexivity. Qed.
Lemma instr_eqb_remove i y : instr_eqb (RemoveClock i) y = true <-> y = RemoveClock i.
Proof. destruct y as [j|j o]; cbn [instr_eqb]; [rewrite Nat.eqb_eq; split; congruence|split; discriminate]. Qed.

Lemma subset_In a b : subset a b = true <-> incl a b.
Proof. unfold subset. rewrite forallb_forall. split; intros H i Hi; [apply nin_In, H, Hi|apply nin_In, H, Hi]. Qed.
(** No replacement of clocks is reported for both systems. *)
Definition apart (xl xr : list instr) : Prop := forall i o p, In (ReplaceClocks i o) xl -> In (ReplaceClocks i p) xr -> ~ (forall k, In k o <-> In k p).
Lemma apart_sym xl xr : apart xl xr -> apart xr xl.
Proof. intros H i o p H1 H2 X. apply (H i p o H2 H1). intros k. symmetry. apply X. Qed.
Lemma apart_eqb xl xr i o j p : apart xl xr -> In (ReplaceClocks i o) xl -> In (ReplaceClocks j p) xr -> instr_eqb (ReplaceClocks i o) (ReplaceClocks j p) = false.
Proof.
  intros A H1 H2. destruct (instr_eqb _ _) eqn:E; [|reflexivity]. cbn [instr_eqb] in E. apply andb_prop in E. destruct E as [E E2]. apply andb_prop in E. destruct E as [E E1].
  apply Nat.eqb_eq in E. subst j. apply subset_In in E1. apply subset_In in E2. destruct (A i o p H1 H2). intros k. split; auto.
Qed.
Lemma unique_removals xl xr q bound : apart xl xr -> unique_redundant xl xr q bound = map RemoveClock (removals (unique_redundant xl xr q bound)).
Proof.
  intros A. apply only_removals. intros x Hx. unfold unique_redundant in Hx. apply filter_In in Hx. destruct Hx as [Hx E]. destruct x as [i|i o]; [eauto|].
  apply andb_prop in E. destruct E as [E _]. apply andb_prop in E. destruct E as [E _]. apply existsb_exists in E. destruct E as (y & Hy & E).
  destruct y as [j|j p]; [discriminate|]. rewrite (apart_eqb xl xr i o j p A Hx Hy) in E. discriminate.
Qed.
Lemma unique_In xl xr q bound i : In i (removals (unique_redundant xl xr q bound)) <-> In (RemoveClock i) xl /\ In (RemoveClock i) xr /\ bound i = true /\ i <> q.
Proof.
  rewrite removals_In. unfold unique_redundant. rewrite filter_In, !andb_true_iff, negb_true_iff, existsb_exists. cbn [instr_clock]. rewrite Nat.eqb_neq.
  split.
  - intros (H & ((y & Hy & E) & B) & N). apply instr_eqb_remove in E. subst y. auto.
  - intros (H & H' & B & N). split; [exact H|]. split; [split; [|exact B]|exact N]. exists (RemoveClock i). split; [exact H'|]. apply instr_eqb_remove. reflexivity.
Qed.
Lemma unique_NoDup xl xr q bound : NoDup (removals xl) -> NoDup (removals (unique_redundant xl xr q bound)).
Proof. intros N. unfold unique_redundant. rewrite removals_filter. apply NoDup_filter, N. Qed.

Lemma maximum_ge l : forall m, (forall x, In x l -> x <= fold_left Nat.max l m) /\ m <= fold_left Nat.max l m.
Proof.
  induction l as [|a l IH]; intros m; cbn [fold_left In]; [split; [tauto|lia]|]. destruct (IH (Nat.max m a)) as [H1 H2]. split; [|lia]. intros x [<-|H]; [lia|auto].
Qed.
Lemma maximum_in l : forall m, fold_left Nat.max l m = m \/ In (fold_left Nat.max l m) l.
Proof.
  induction l as [|a l IH]; intros m; cbn [fold_left In]; [auto|]. destruct (IH (Nat.max m a)) as [H|H]; [|auto]. rewrite H. destruct (Nat.max_spec m a) as [[_ ->]|[_ ->]]; auto.
Qed.

(** ** The clocks used by a system are its own *)
Section Own.
Variable dim : nat.
Variable minc : fed -> fed.
Variable ord : list string -> list string.
Hypothesis ord_same : same_elements ord.
Variable s : ts.
Variable q : nat.
Hypothesis minc_ok : confined dim minc.
Hypothesis B : built dim s.
Hypothesis R : reads_ok s.
Hypothesis C : clocks_ok dim q s.
Lemma used_own fuel g i : analysis_graph dim minc ord fuel s = Ok g -> In i (used_clocks g) -> In i (sys_clocks s).
Proof.
  intros G Hi. destruct (graph_sound dim minc ord ord_same s fuel g G) as [N E _]. apply used_In in Hi. destruct Hi as [Ne Hi].
  assert (Own : forall f z c, (forall v w, val_ok dim v -> val_ok dim w -> (forall i, In i (sys_clocks s) -> (v i == w i)%Q) -> fsem dim f v -> fsem dim f w) -> In z (minc f) -> In c z -> i = ci c \/ i = cj c -> In i (sys_clocks s)).
  { intros f z c D Hz Hc X. destruct (minc_ok (sys_clocks s) f D z c Hz Hc) as [[M1|M1] [M2|M2]]; destruct X as [->| ->]; auto; congruence. }
  destruct Hi as [(e & He & Hi)|(n & Hn & Hi)].
  - apply E in He. destruct He as (l & a & t & El & (Ha & ts & Et & Ht) & ->). cbn [edge_of ae_deps] in Hi. rewrite nset_In in Hi. apply con_clocks_In in Hi.
    destruct Hi as (z & c & Hz & Hc & Hi). destruct (next_dep dim q s B R C l a ts t (edge_reach_in dim s B l El) Ha Et Ht) as [P _].
    eapply (Own (t_guard t)); eauto; intros; eapply P; eauto.
  - apply N in Hn. destruct Hn as (l & El & ->). cbn [node_of n_deps] in Hi. pose proof (locations_dep dim s B R l (edge_reach_in dim s B l El)) as P. unfold inv_at in P.
    destruct (lt_inv l) as [f|]; [|contradiction]. rewrite nset_In in Hi. apply con_clocks_In in Hi. destruct Hi as (z & c & Hz & Hc & Hi).
    eapply (Own f); eauto; intros; eapply P; eauto.
Qed.
End Own.
Lemma sys_of dim q s x : clocks_ok dim q s -> In x (sys_clocks s) -> In x (comp_clocks s) \/ x = q.
Proof.
  induction s as [c|l IHl r IHr i o|l IHl r IHr i o lo ro co|t IHt d IHd i o n q']; cbn [sys_clocks comp_clocks clocks_ok]; intros C Hx; auto.
  - destruct C as (C1 & C2 & _). apply in_app_or in Hx. destruct Hx as [H|H]; [destruct (IHl C1 H)|destruct (IHr C2 H)]; auto; left; apply in_or_app; auto.
  - destruct C as (C1 & C2 & _). apply in_app_or in Hx. destruct Hx as [H|H]; [destruct (IHl C1 H)|destruct (IHr C2 H)]; auto; left; apply in_or_app; auto.
  - destruct C as (C1 & C2 & _ & -> & _). destruct Hx as [H|Hx]; [auto|]. apply in_app_or in Hx. destruct Hx as [H|H]; [destruct (IHt C1 H)|destruct (IHd C2 H)]; auto; left; apply in_or_app; auto.
Qed.
(** Two systems that share no clock but [q] share no replacement. *)
Lemma own_apart dim minc ord cord gord fuel s t q xl xr : same_elements ord -> reorders gord -> describes dim minc -> confined dim minc -> (Z.of_nat dim < u32_max)%Z ->
  built dim s -> reads_ok s -> clocks_ok dim q s -> clocks_below dim s -> built dim t -> reads_ok t -> clocks_ok dim q t -> clocks_below dim t ->
  (forall x, In x (comp_clocks s) -> ~ In x (comp_clocks t)) ->
  find_redundant_clocks dim minc ord cord gord fuel s = Ok xl -> find_redundant_clocks dim minc ord cord gord fuel t = Ok xr -> apart xl xr.
Proof.
  intros So Go M Cf Sm B R C D B' R' C' D' Sep Fl Fr i o p H1 H2 X.
  assert (Grp : forall x xs i o, built dim x -> reads_ok x -> clocks_ok dim q x -> clocks_below dim x -> find_redundant_clocks dim minc ord cord gord fuel x = Ok xs -> In (ReplaceClocks i o) xs ->
    In i (sys_clocks x) /\ (forall k, In k o -> In k (sys_clocks x) /\ k <> i) /\ o <> []).
  { clear - So Go M Cf Sm. intros x xs i o B R C D Fx Hi. unfold find_redundant_clocks in Fx. destruct (analysis_graph dim minc ord fuel x) as [g| | |] eqn:G; try discriminate. injection Fx as <-.
    unfold redundancies in Hi. apply in_app_or in Hi. destruct Hi as [Hi|Hi]; [apply in_map_iff in Hi; destruct Hi as (? & X & _); discriminate|].
    apply in_map_iff in Hi. destruct Hi as (grp & X & Hg). unfold replace_group in X. injection X as X1 X2.
    pose proof (groups_grouped gord g Go (used_few dim minc ord So x q M B R C D fuel g G Sm)) as [Nd U Sz _].
    assert (Own : forall k, In k grp -> In k (sys_clocks x)). { intros k Hk. apply (used_own dim minc ord So x q Cf B R C fuel g k G). apply U, in_concat. eauto. }
    pose proof (Sz grp Hg) as Sg. assert (Lo : In (lowest grp) grp) by (apply lowest_in; intros ->; cbn in Sg; lia).
    assert (Ng : NoDup grp). { clear - Nd Hg. induction (equivalent_groups gord g) as [|h gs IH]; [destruct Hg|]. cbn [List.concat] in Nd. apply nodup_split in Nd. destruct Nd as (N1 & N2 & _). destruct Hg as [->|Hg]; auto. }
    change (others grp = o) in X2. subst i o. split; [apply Own, Lo|]. split; [intros k Hk; apply others_In in Hk; destruct Hk as [Hk Ne]; auto|].
    intros Z. assert (One : incl grp [lowest grp]). { intros k Hk. destruct (Nat.eq_dec k (lowest grp)) as [->|Ne]; [left; reflexivity|]. assert (Y : In k (others grp)) by (apply others_In; auto). rewrite Z in Y. destruct Y. }
    apply NoDup_incl_length in One; [cbn in One; lia|exact Ng]. }
  destruct (Grp s xl i o B R C D Fl H1) as (I1 & O1 & N1). destruct (Grp t xr i p B' R' C' D' Fr H2) as (I2 & O2 & N2).
  assert (Sh : forall k, In k (sys_clocks s) -> In k (sys_clocks t) -> k = q).
  { intros k K1 K2. destruct (sys_of dim q s k C K1) as [K3|K3]; [|exact K3]. destruct (sys_of dim q t k C' K2) as [K4|K4]; [|exact K4]. destruct (Sep k K3 K4). }
  destruct o as [|k o]; [congruence|]. destruct (O1 k (or_introl eq_refl)) as [K1 K2]. destruct (O2 k) as [K3 _]; [apply X; left; reflexivity|].
  apply K2. rewrite (Sh k K1 K3), (Sh i I1 I2). reflexivity.
Qed.

(** ** Two recipes, numbered one after the other *)
Section Two.
Variables (l r : recipe) (dim : nat) (q : option nat) (ul ur : list nat).
Hypothesis Hl : named_once l.
Hypothesis Hr : named_once r.
Hypothesis P : Permutation (all_numbers l ++ all_numbers r ++ opt_clock q) (seq 1 dim).
Hypothesis Q : forall q', In q' (quotient_clocks l ++ quotient_clocks r) -> q = Some q'.
Hypothesis Nl : NoDup ul.
Hypothesis Nr : NoDup ur.
Hypothesis Il : incl ul (all_numbers l).
Hypothesis Ir : incl ur (all_numbers r).

Definition both : recipe := RComp l r.
Definition gone : list nat := ul ++ ur.
Lemma both_numbers : all_numbers both = all_numbers l ++ all_numbers r.
Proof. apply flat_map_app. Qed.
Lemma both_once : named_once both.
Proof. intros c Hc. cbn [both components] in Hc. apply in_app_or in Hc. destruct Hc; auto. Qed.
Lemma both_perm : Permutation (all_numbers both ++ opt_clock q) (seq 1 dim).
Proof. rewrite both_numbers, <- app_assoc. exact P. Qed.
Lemma both_nodup : NoDup (all_numbers l) /\ NoDup (all_numbers r) /\ forall i, In i (all_numbers l) -> ~ In i (all_numbers r).
Proof. apply nodup_split. rewrite <- both_numbers. eapply numbers_nodup, both_perm. Qed.
Lemma gone_nodup : NoDup gone.
Proof. apply nodup_app; auto. intros i Hi Hj. destruct both_nodup as (_ & _ & D). exact (D i (Il i Hi) (Ir i Hj)). Qed.
Lemma gone_incl : incl gone (all_numbers both).
Proof. rewrite both_numbers. intros i Hi. apply in_or_app. apply in_app_or in Hi. destruct Hi; auto. Qed.
Lemma gone_left i : In i (all_numbers l) -> nin i gone = nin i ul.
Proof.
  intros Hi. unfold gone, nin. rewrite existsb_app. fold (nin i ul) (nin i ur). replace (nin i ur) with false; [apply orb_false_r|]. symmetry. apply nin_false. intros H.
  destruct both_nodup as (_ & _ & D). exact (D i Hi (Ir i H)).
Qed.
Lemma gone_right i : In i (all_numbers r) -> nin i gone = nin i ur.
Proof.
  intros Hi. unfold gone, nin. rewrite existsb_app. fold (nin i ul) (nin i ur). replace (nin i ul) with false; [reflexivity|]. symmetry. apply nin_false. intros H.
  destruct both_nodup as (_ & _ & D). exact (D i (Il i H) Hi).
Qed.
Lemma kept_both : kept_numbers both gone = filter (fun k => negb (nin k ul)) (all_numbers l) ++ filter (fun k => negb (nin k ur)) (all_numbers r).
Proof.
  unfold kept_numbers. rewrite both_numbers, filter_app. f_equal; apply filter_ext_in; intros i Hi; f_equal; [apply gone_left|apply gone_right]; exact Hi.
Qed.
Definition dim2 : nat := dim - (List.length ul + List.length ur).
Definition ren2 : nat -> option nat := shrink both dim q gone [].
Lemma dim2_eq : dim - total_removed (map RemoveClock gone ++ map replace_group []) = dim2.
Proof. rewrite total_removed_facts. unfold gone, dim2. rewrite app_length. cbn. lia. Qed.
Lemma count2 : distinct (kept_numbers both gone) + List.length (opt_clock q) + (List.length ul + List.length ur) = dim.
Proof.
  pose proof (shrink_count both dim q gone [] both_perm gone_nodup gone_incl (NoDup_nil _) (fun i (H : In i []) => match H with end) (fun i _ H => H) _ eq_refl) as W.
  rewrite total_removed_facts, (map_id' (merge [])) in W by reflexivity. assert (G : List.length gone = List.length ul + List.length ur) by apply app_length.
  change (List.length (dropped [])) with 0 in W. lia.
Qed.
Lemma ren2_renames : renames ren2 (dim + 1) (dim2 + 1).
Proof.
  rewrite <- dim2_eq. apply shrink_renames; [exact both_perm|exact Q|exact gone_nodup|exact gone_incl|constructor|intros i []|intros i _ []].
Qed.
Lemma ren2_injective : injective ren2.
Proof. apply shrink_injective; [exact both_perm|exact Q|exact gone_nodup|exact gone_incl|constructor|intros i []|intros i _ []|reflexivity]. Qed.
Lemma ren2_q q' : q = Some q' -> ren2 q' = Some dim2.
Proof. intros E. rewrite <- dim2_eq. apply shrink_q; [exact both_perm|exact E]. Qed.
Lemma ren2_number i : In i (all_numbers l ++ all_numbers r) -> ren2 i = if nin i gone then None else Some (compressed (kept_numbers both gone) i).
Proof.
  intros H. unfold ren2. rewrite (shrink_number both dim q gone [] both_perm) by (rewrite both_numbers; exact H). rewrite (map_id' (merge [])) by reflexivity. reflexivity.
Qed.

(** The numbers afterwards. *)
Lemma two_numbers : exists l1 r1, reduce_clocks (map RemoveClock ul) l = Ok l1 /\ reduce_clocks (map RemoveClock ur) r = Ok r1 /\
  all_clocks l1 ++ all_clocks r1 = kept_numbers both gone /\ quotient_clocks l1 = quotient_clocks l /\ quotient_clocks r1 = quotient_clocks r.
Proof.
  destruct both_nodup as (D1 & D2 & _). destruct (removals_numbers ul l Hl D1 Nl Il) as (l1 & E1 & A1 & _ & Q1). destruct (removals_numbers ur r Hr D2 Nr Ir) as (r1 & E2 & A2 & _ & Q2).
  exists l1, r1. split; [exact E1|]. split; [exact E2|]. split; [|auto]. change (all_clocks l1) with (all_numbers l1). change (all_clocks r1) with (all_numbers r1). rewrite A1, A2. symmetry. apply kept_both.
Qed.

(** One side. *)
Definition finish (d : nat) (L : list nat) (x : recipe) : recipe :=
  let f := map_clocks (compressed L) in match q with Some _ => change_quotient d (map_components f x) | None => map_components f x end.
Lemma two_ren : unread_all (drop ul) l -> unread_all (drop ur) r ->
  exists l1 r1, reduce_clocks (map RemoveClock ul) l = Ok l1 /\ reduce_clocks (map RemoveClock ur) r = Ok r1 /\
    finish dim2 (all_clocks l1 ++ all_clocks r1) l1 = ren_recipe ren2 l /\ finish dim2 (all_clocks l1 ++ all_clocks r1) r1 = ren_recipe ren2 r.
Proof.
  intros Ul Ur. destruct both_nodup as (D1 & D2 & _). destruct two_numbers as (l1 & r1 & E1 & E2 & A & _). exists l1, r1. split; [exact E1|]. split; [exact E2|]. rewrite A.
  pose proof (removals_ren ul l Hl D1 Nl Il Ul) as F1. pose proof (removals_ren ur r Hr D2 Nr Ir Ur) as F2. rewrite E1 in F1. rewrite E2 in F2. injection F1 as ->. injection F2 as ->.
  assert (Side : forall x us, named_once x -> (forall i, In i (all_numbers x) -> In i (all_numbers l ++ all_numbers r) /\ nin i gone = nin i us) ->
    (forall q', In q' (quotient_clocks x) -> q = Some q') -> finish dim2 (kept_numbers both gone) (map_components (ren_comp (drop us)) x) = ren_recipe ren2 x).
  { intros x us Hn Hg Hq. unfold finish. rewrite map_components_comp.
    set (f := fun c => map_clocks (compressed (kept_numbers both gone)) (ren_comp (drop us) c)).
    assert (F : forall c, In c (components x) -> f c = ren_comp ren2 c).
    { intros c Hc. unfold f. rewrite map_clocks_ren, ren_comp_comp by (apply Hn, Hc). apply ren_comp_ext. intros i Hi. destruct (Hg i) as [Gi Gn]; [eapply component_numbers; eauto|].
      rewrite ren2_number by exact Gi. unfold drop. rewrite Gn. destruct (nin i us); reflexivity. }
    assert (T : forall q', In q' (quotient_clocks x) -> total ren2 q' = dim2). { intros q' H. unfold total. rewrite (ren2_q q' (Hq q' H)). reflexivity. }
    destruct q as [q0|] eqn:Eq; [apply ren_recipe_change; assumption|].
    assert (Z : quotient_clocks x = []) by (destruct (quotient_clocks x) as [|y m]; [reflexivity|specialize (Hq y (or_introl eq_refl)); discriminate]).
    rewrite <- (change_none dim2 (map_components f x)) by (rewrite quotients_map; exact Z). apply ren_recipe_change; assumption. }
  split; apply Side; auto.
  - intros i Hi. split; [apply in_or_app; auto|apply gone_left, Hi].
  - intros q' H. apply Q, in_or_app. auto.
  - intros i Hi. split; [apply in_or_app; auto|apply gone_right, Hi].
  - intros q' H. apply Q, in_or_app. auto.
Qed.
Lemma two_unread x us c : (x = l /\ us = ul \/ x = r /\ us = ur) -> unread_all (drop us) x -> In c (components x) -> unread ren2 c.
Proof.
  intros X U Hc n i Hi E. apply (U c Hc n i Hi). assert (Ni : In i (all_numbers x)) by (eapply component_numbers; [exact Hc|]; apply in_map_iff; exists (n, i); auto).
  unfold drop. rewrite ren2_number in E by (apply in_or_app; destruct X as [[<- _]|[<- _]]; auto).
  destruct X as [[-> ->]|[-> ->]]; [rewrite gone_left in E by exact Ni|rewrite gone_right in E by exact Ni]; destruct (nin i _); congruence.
Qed.
(** The renamed system behaves like the original one. *)
Lemma two_same least pre least' pre' x us s s' k k1 k' k1' : (x = l /\ us = ul \/ x = r /\ us = ur) -> (forall c, In c (components x) -> named_guards c) -> unread_all (drop us) x ->
  clocks_ok (dim + 1) (q_default q) s ->
  compile_at least pre (dim + 1) x k = Ok (s, k1) -> compile_at least' pre' (dim2 + 1) (ren_recipe ren2 x) k' = Ok (s', k1') ->
  srel ren2 (dim + 1) (dim2 + 1) s s' /\ same_behaviour (dim + 1) s (dim2 + 1) s'.
Proof.
  intros X Cp U Ck C0 C1. assert (S : srel ren2 (dim + 1) (dim2 + 1) s s').
  { eapply (system_ren ren2 (dim + 1) (dim2 + 1) ren2_renames least pre least' pre' x); [| |exact C0|exact C1].
    - intros c Hc. split; [destruct X as [[-> _]|[-> _]]; [apply Hl|apply Hr]; exact Hc|]. split; [apply Cp, Hc|]. eapply two_unread; eauto.
    - intros q' Hq'. exists dim2. apply ren2_q. apply Q, in_or_app. destruct X as [[-> _]|[-> _]]; auto. }
  split; [exact S|]. apply (sim_same ren2 (dim + 1) (dim2 + 1) (q_default q) s s' ren2_renames S Ck ltac:(lia) ltac:(lia) (or_intror ren2_injective)).
  intros l0 a t El O i j u0 u Hi Hk F. pose proof (ren2_injective _ _ _ Hi Hk) as ->. eauto.
Qed.
End Two.

(** ** Refinement between systems that behave like others *)
Lemma same_sym dim s dim' s' : same_behaviour dim s dim' s' -> same_behaviour dim' s' dim s.
Proof.
  intros (Hi & Ho & R & B & I). split; [intros a; symmetry; apply Hi|]. split; [intros a; symmetry; apply Ho|]. exists (fun x y => R y x). split.
  - destruct B as [B1 B2 B3 B4 B5 B6]. constructor.
    + intros l v l' v' H. destruct (B1 _ _ _ _ H) as (X & Y & Z). split; [congruence|]. split; [congruence|]. symmetry. exact Z.
    + intros. apply B2; assumption.
    + intros l v l' v' a t H O A. destruct (B4 _ _ _ _ _ _ H O A) as (t0 & X & Y & Z). eauto.
    + intros l v l' v' a t H O A. destruct (B3 _ _ _ _ _ _ H O A) as (t0 & X & Y & Z). eauto.
    + intros l v l' v' a ts H Ha Et. destruct (B6 _ _ _ _ _ _ H Ha Et) as (ts0 & X & Y). exists ts0. split; [exact X|].
      clear - Y. induction Y as [|t t' m m' [T1 T2] Y IH]; constructor; auto. split; [congruence|]. symmetry. exact T2.
    + intros l v l' v' a ts H Ha Et. destruct (B5 _ _ _ _ _ _ H Ha Et) as (ts0 & X & Y). exists ts0. split; [exact X|].
      clear - Y. induction Y as [|t t' m m' [T1 T2] Y IH]; constructor; auto. split; [congruence|]. symmetry. exact T2.
  - destruct (initial_location dim s), (initial_location dim' s'); auto.
Qed.
Lemma same_refines_one dim s t dim' s' t' : same_behaviour dim s dim' s' -> same_behaviour dim t dim' t' -> refines dim s t -> refines dim' s' t'.
Proof.
  intros (Hi & Ho & S & BS & IS) (Ki & Ko & T & BT & IT) Hr. unfold refines in *.
  destruct (initial_location dim s) as [l1|], (initial_location dim t) as [l2|], (initial_location dim' s') as [l1'|], (initial_location dim' t') as [l2'|]; try contradiction; auto.
  destruct Hr as (R & HR & R0). exists (fun l1' v1' l2' v2' => exists l1 v1 l2 v2, S (l1, v1) (l1', v1') /\ T (l2, v2) (l2', v2') /\ R l1 v1 l2 v2).
  split; [|exists l1, zero_val, l2, zero_val; auto]. clear - Hi Ho Ki Ko BS BT HR. intros m1 w1 m2 w2 (l1 & v1 & l2 & v2 & X & Y & Z).
  destruct (HR _ _ _ _ Z) as (I1 & I2 & Hout & Hin & Hd). destruct BS as [S1 S2 S3 S4 _ _]. destruct BT as [T1 T2 T3 T4 _ _].
  split; [apply (S1 _ _ _ _ X), I1|]. split; [apply (T1 _ _ _ _ Y), I2|]. split; [|split].
  - intros a t1 Oa Of Ab. destruct (S4 _ _ _ _ _ _ X Of Ab) as (u1 & Ou & Au & Xu). destruct (Hout a u1 ltac:(apply Ho, Oa) Ou Au) as [H1 H2]. split.
    + intros O2. destruct (H1 ltac:(apply Ko, O2)) as (u2 & Ou2 & Au2 & Z2). destruct (T3 _ _ _ _ _ _ Y Ou2 Au2) as (t2 & Ot2 & At2 & Yu). exists t2. split; [exact Ot2|]. split; [exact At2|]. eauto 10.
    + intros N2. exists (t_target u1), (run_updates (t_updates u1) v1), l2, v2. split; [exact Xu|]. split; [exact Y|]. apply H2. intros H. apply N2, Ko, H.
  - intros a t2 Ia Of Ab. destruct (T4 _ _ _ _ _ _ Y Of Ab) as (u2 & Ou & Au & Yu). destruct (Hin a u2 ltac:(apply Ki, Ia) Ou Au) as [H1 H2]. split.
    + intros I1'. destruct (H1 ltac:(apply Hi, I1')) as (u1 & Ou1 & Au1 & Z1). destruct (S3 _ _ _ _ _ _ X Ou1 Au1) as (t1 & Ot1 & At1 & Xu). exists t1. split; [exact Ot1|]. split; [exact At1|]. eauto 10.
    + intros N1. exists l1, v1, (t_target u2), (run_updates (t_updates u2) v2). split; [exact X|]. split; [exact Yu|]. apply H2. intros H. apply N1, Hi, H.
  - intros d Dd Inv. exists l1, (vdelay v1 d), l2, (vdelay v2 d). split; [apply S2; assumption|]. split; [apply T2; assumption|]. apply Hd; [exact Dd|].
    intros e E1 E2. apply (S1 _ _ _ _ (S2 _ _ _ _ e X E1)), Inv; assumption.
Qed.
Lemma same_refines dim s t dim' s' t' : same_behaviour dim s dim' s' -> same_behaviour dim t dim' t' -> (refines dim s t <-> refines dim' s' t').
Proof. intros S T. split; apply same_refines_one; auto using same_sym. Qed.
