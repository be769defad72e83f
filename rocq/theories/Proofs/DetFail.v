(** What a failing determinism check has found. *)
From Coq Require Import List String ZArith QArith Bool Arith Lia Lqa.
From Verif Require Import Fed.Zone Fed.ZoneFacts Model.Base Model.Expr Model.Guard Model.Loc Model.Component Model.TS Model.Search
  Spec.StepSpec Spec.SystemSpec Spec.RunSpec Proofs.GuardFacts Proofs.StepFacts Proofs.SystemFacts Proofs.QuotientFacts Proofs.WfFacts
  Proofs.RunFacts Proofs.DetFacts.
Import ListNotations.
Local Open Scope Q_scope.

Section Fail.
Variable dim : nat.
Variable ext : ts -> loctree -> fed -> fed.
Variable ord : list state -> list string -> list string.
Hypothesis ord_members : forall p l a, In a (ord p l) <-> In a l.

Definition clash (s : ts) (a : string) (l : loctree) : Prop :=
  edge_reach dim s l /\ is_action s a /\ exists ts i j t u v, next_transitions dim s l a = Ok ts /\ i <> j /\
    nth_error ts i = Some t /\ nth_error ts j = Some u /\ able dim l t v /\ able dim l u v.

Lemma all_of_able s q l a ts t x v : clocks_ok dim q s -> next_transitions dim s l a = Ok ts -> In t ts ->
  s_loc x = l -> fsem dim (all_of dim t x) v -> able dim l t v.
Proof.
  intros K E Ht <- H. destruct (next_fine dim q s K _ _ _ E t Ht) as [[U C] _]. unfold all_of in H.
  rewrite apply_inv_sem, allowed_fed_sem in H by assumption. unfold able. tauto.
Qed.

Lemma det_helper_fail s q : clocks_ok dim q s -> forall fuel st p e p', edge_reach dim s (s_loc st) ->
  det_helper dim ext ord fuel s st p = Ok (Some e, p') -> clash s (fst e) (s_loc (snd e)).
Proof.
  intros K. induction fuel as [|f IH]; intros st p e p' Hr E; cbn [det_helper] in E; [discriminate|].
  destruct (state_in_list dim st p); [discriminate|]. inv_bind E. destruct a as [pf|[o p2]]; [discriminate|]. injection E as -> ->.
  set (p0 := p ++ [st]) in *.
  assert (X : forall e', fst (Some e, p') = Some e' -> clash s (fst e') (s_loc (snd e'))); [|apply X; reflexivity].
  refine (loopM_inr (det_action dim ext s (det_helper dim ext ord f s) st) (fun _ _ => True)
    (fun r => forall e', fst r = Some e' -> clash s (fst e') (s_loc (snd e'))) _ _ _ [] _ _ I H); [auto|]. clear H e p'.
  intros _ a s0 r Hin _ Eb. apply ord_members in Hin. unfold det_action in Eb. inv_bind Eb. rename a0 into tss. rename H into Ets.
  assert (Ha : is_action s a) by (apply has_action_spec; unfold has_action; apply sin_In; exact Hin).
  inv_bind Eb. destruct a0 as [[? ?]|r1]; [discriminate|]. injection Eb as ->. rename H into El.
  assert (Loop : forall rest done acc, done ++ rest = tss ->
     (forall v, fsem dim (snd acc) v -> exists i t, nth_error done i = Some t /\ able dim (s_loc st) t v) ->
     loopM (det_body dim ext s (det_helper dim ext ord f s) st a) rest acc = Ok (inr r) ->
     forall e', fst r = Some e' -> clash s (fst e') (s_loc (snd e'))).
  { induction rest as [|t rest IHr]; intros done [pa lf] Ed Inv El' e' Ee; cbn [loopM] in El'; [discriminate|].
    assert (Ht : In t tss) by (rewrite <- Ed; apply in_or_app; right; left; reflexivity).
    inv_bind El'. unfold det_body in H. destruct (use_transition dim t st) as [ok ns] eqn:Eu.
    assert (Next : forall acc', (forall v, fsem dim (snd acc') v -> fsem dim lf v \/ fsem dim (all_of dim t st) v) ->
       loopM (det_body dim ext s (det_helper dim ext ord f s) st a) rest acc' = Ok (inr r) -> clash s (fst e') (s_loc (snd e'))).
    { intros acc' Hacc El2. eapply (IHr (done ++ [t]) acc'); [rewrite <- app_assoc; exact Ed| |exact El2|exact Ee].
      intros v Hv. destruct (Hacc v Hv) as [H1|H1].
      - destruct (Inv v H1) as (i & t' & Hi & A). exists i, t'. split; [|exact A]. rewrite nth_error_app1; [exact Hi|].
        apply nth_error_Some. congruence.
      - exists (List.length done), t. split; [rewrite nth_error_app2, Nat.sub_diag by lia; reflexivity|].
        eapply all_of_able; eauto. }
    destruct ok.
    - destruct (fmeets dim (apply_inv dim (s_loc st) (allowed_fed dim t)) lf) eqn:M.
      + injection H as <-. injection El' as <-. cbn [fst] in Ee. injection Ee as <-. cbn [fst snd].
        apply fmeets_true in M. destruct M as (v & M1 & M2). destruct (Inv v M2) as (i & t' & Hi & A).
        split; [exact Hr|]. split; [exact Ha|]. exists tss, i, (List.length done), t', t, v. split; [exact Ets|].
        assert (i < List.length done)%nat by (apply nth_error_Some; congruence).
        split; [lia|]. rewrite <- Ed. rewrite nth_error_app1 by assumption. split; [exact Hi|].
        rewrite nth_error_app2, Nat.sub_diag by lia. split; [reflexivity|]. split; [exact A|]. eapply all_of_able; eauto.
      + inv_bind H. destruct a1 as [r1 p1]. destruct r1 as [e1|].
        * injection H as <-. injection El' as <-. cbn [fst] in Ee. injection Ee as <-. eapply IH; [|exact H0].
          unfold extrapolate. cbn [s_loc]. replace (s_loc ns) with (t_target t); [eapply er_step; [exact Hr|split; eauto]|].
          unfold use_transition in Eu. destruct (fempty _ _) in Eu; [discriminate|]. injection Eu as _ <-. reflexivity.
        * injection H as <-. eapply Next; [|exact El']. cbn [snd]. intros v. rewrite funion_sem. auto.
    - injection H as <-. eapply Next; [|exact El']. auto. }
  eapply (Loop tss [] (s0, fnone)); [reflexivity| |exact El].
  intros v Hv. apply fnone_sem in Hv. destruct Hv.
Qed.

Lemma det_search_fail s q fuel a st : clocks_ok dim q s -> det_search dim ext ord fuel s = Ok (Some (a, st)) -> clash s a (s_loc st).
Proof.
  intros K E. unfold det_search in E. destruct (initial_state dim s) as [st0|] eqn:Es; [|discriminate]. inv_bind E.
  destruct a0 as [r p]. injection E as ->. refine (det_helper_fail s q K _ _ _ _ _ _ H). cbn [s_loc]. constructor.
  unfold initial_state in Es. destruct (initial_location dim s) as [l0|]; [|discriminate].
  unfold state_from_location in Es. destruct s; try (destruct (fempty _ _); [discriminate|]); injection Es as <-; reflexivity.
Qed.

Lemma check_determinism_fail s q fuel a st : clocks_ok dim q s -> check_determinism dim ext ord fuel s = Ok (Some (a, st)) ->
  exists c, part_of c s /\ clash c a (s_loc st).
Proof.
  induction s as [c|l IHl r IHr i o|l IHl r IHr i o lo ro co|l IHl r IHr i o n k]; intros K E.
  - exists (TSimple c). split; [reflexivity|]. eapply det_search_fail; eauto.
  - cbn [check_determinism clocks_ok part_of] in *. destruct K as (K1 & K2 & _). inv_bind E. destruct a0 as [e|]; [injection E as ->|].
    + destruct (IHl K1 H) as (c & P & C). eauto.
    + destruct (IHr K2 E) as (c & P & C). eauto.
  - cbn [check_determinism clocks_ok part_of] in *. destruct K as (K1 & K2 & _). inv_bind E. destruct a0 as [e|]; [injection E as ->|].
    + destruct (IHl K1 H) as (c & P & C). eauto.
    + destruct (IHr K2 E) as (c & P & C). eauto.
  - cbn [check_determinism clocks_ok part_of] in *. destruct K as (K1 & K2 & _). inv_bind E. destruct a0 as [e|]; [injection E as ->|].
    + destruct (IHl K1 H) as (c & P & C). eauto.
    + destruct (IHr K2 E) as (c & P & C). eauto.
Qed.
End Fail.
