(** Two searches for one state. *)
From Coq Require Import List String ZArith QArith Bool Arith Lia Lqa.
From Verif Require Import Fed.Zone Fed.ZoneFacts Model.Base Model.Expr Model.Guard Model.Loc Model.Component Model.TS Model.Search
  Spec.StepSpec Spec.SystemSpec Spec.RunSpec Spec.ReachSpec Proofs.GuardFacts Proofs.StepFacts Proofs.SystemFacts Proofs.QuotientFacts Proofs.WfFacts
  Proofs.RunFacts Proofs.ReachFacts.
Import ListNotations.
Local Open Scope Q_scope.

Section Again.
Variable dim : nat.
Variable s : ts.
Variable q : nat.
Variables xext xext' : loctree -> fed -> fed.
Variable target : state.
Hypothesis Hbuilt : built dim s.
Hypothesis Hclocks : clocks_ok dim q s.
Hypothesis extensive : forall l f v, fsem dim f v -> fsem dim (xext l f) v.
Hypothesis exact' : forall l f v, fsem dim (xext' l f) v <-> fsem dim f v.

Lemma sp_covered X V start : settled dim s target X V -> In (s_loc start) (all_locations dim s) -> (forall v, fsem dim (s_zone start) v -> cov dim V (s_loc start) v) ->
  forall sp, sp_ok dim s xext' start sp -> In (s_loc (sp_state sp)) (all_locations dim s) /\ forall v, fsem dim (s_zone (sp_state sp)) v -> cov dim V (s_loc (sp_state sp)) v.
Proof.
  intros [P C] Hs C0. induction sp as [st|p IH st t a]; cbn [sp_ok sp_state].
  - intros ->. auto.
  - intros (Hp & Ho & ns & Eu & ->). destruct (IH Hp) as [Hl Cp]. destruct (offered_fine dim s q Hclocks _ _ _ Ho) as [Hu _].
    destruct (use_transition_zone dim t _ _ _ Hu Eu) as (Hloc & _ & Hz). specialize (Hloc eq_refl). specialize (Hz eq_refl). cbn [s_loc s_zone]. rewrite Hloc.
    split; [eapply offered_loc; eauto|]. intros v Hv. apply exact', Hz in Hv. destruct Hv as (w & d & Hw & R). destruct (Cp w Hw) as (z & Hzz & Hwz).
    destruct (P _ _ Hzz) as (x & Hx & Ex & <-). destruct (C x Hx) as (Lx & _ & Cx). assert (EL : s_loc x = s_loc (sp_state p)) by (eapply location_inj; eauto).
    rewrite <- EL in Ho. eapply Cx; [exact Ho|]. exists w, d. auto.
Qed.

Lemma path_again fuel fuel' start ds : In (s_loc start) (all_locations dim s) ->
  find_path dim fuel s xext start target = Ok None -> find_path dim fuel' s xext' start target <> Ok (Some ds).
Proof.
  intros Hs E E'. unfold find_path, find_listed in *. destruct (trivially_unreachable dim start target); [discriminate|].
  set (st := mkS (s_loc start) (apply_inv dim (s_loc start) (s_zone start))) in *.
  destruct (search_none dim s q xext target Hbuilt Hclocks extensive fuel st [PStart st] [(lt_id (s_loc st), [s_zone st])] []) as (X & V & S & St).
  - intros i z Hz. simpl in *. unfold zones_of in Hz. rewrite assoc_loc_cons in Hz. destruct (locid_eqb i (lt_id (s_loc start))) eqn:Ei; [|destruct Hz].
    apply locid_eqb_eq in Ei. destruct Hz as [<-|[]]. exists st. split; [left; reflexivity|]. auto.
  - intros p [<-|[]]. exact Hs.
  - intros x [].
  - exact E.
  - destruct (search_some dim s xext' target fuel' st [PStart st] _ ds ltac:(constructor; [reflexivity|constructor]) E') as (sp & Hsp & Re & _).
    assert (C0 : forall v, fsem dim (s_zone st) v -> cov dim V (s_loc st) v).
    { intros v Hv. apply (cov_mono dim _ _ _ _ S). exists (s_zone st). split; [|exact Hv]. unfold zones_of. rewrite assoc_loc_cons, locid_eqb_refl. left; reflexivity. }
    destruct (sp_covered X V st St Hs C0 sp Hsp) as [Hl Cv]. unfold reached_end in Re. inv_bind Re. injection Re as Re. apply andb_true_iff in Re. destruct Re as [-> Re].
    apply fmeets_true in Re. destruct Re as (v & V1 & V2). destruct (Cv v V1) as (z & Hz & Hvz). destruct St as [P C]. destruct (P _ _ Hz) as (x & Hx & Ex & <-).
    destruct (C x Hx) as (Lx & Rx & _). assert (EL : s_loc x = s_loc (sp_state sp)) by (eapply location_inj; eauto). unfold reached_end in Rx. rewrite EL, H in Rx. cbn [bind andb] in Rx.
    injection Rx as Rx. rewrite fmeets_false in Rx. exact (Rx v Hvz V2).
Qed.
End Again.
