(** Bisimilar systems can be exchanged in conjunctions, compositions and quotients. *)
From Coq Require Import List String ZArith QArith Bool Arith Lia Lqa.
From Verif Require Import Fed.Zone Fed.ZoneFacts Model.Base Model.Expr Model.Guard Model.Loc Model.Component Model.TS Model.ParseQuery Model.Recipe
  Spec.StepSpec Spec.SystemSpec Spec.RunSpec Spec.RefineSpec Spec.SameSpec Spec.SaveSpec Spec.RecipeSpec Spec.ExecSpec Spec.LawSpec Spec.SubstSpec
  Proofs.GuardFacts Proofs.StepFacts Proofs.SystemFacts Proofs.QuotientFacts Proofs.WfFacts Proofs.RunFacts Proofs.ReadsFacts Proofs.RecipeFacts Proofs.LawFacts Proofs.LawProofs Proofs.LawQuot Proofs.PlaceFacts Proofs.AcrossFacts Proofs.StandFacts.
Import ListNotations.
Local Open Scope Q_scope.

(** ** Relations that look at the clocks of the two systems only *)
Definition own (d : nat) (s : ts) (d' : nat) (s' : ts) (R : loctree -> val -> loctree -> val -> Prop) (l : loctree) (v : val) (l' : loctree) (v' : val) : Prop :=
  In l (all_locations d s) /\ In l' (all_locations d' s') /\ exists w w', like d s v w /\ like d' s' v' w' /\ R l w l' w'.

Section Own.
Variables (d : nat) (s : ts) (d' : nat) (s' : ts) (R : loctree -> val -> loctree -> val -> Prop).
Hypothesis G : good d s.
Hypothesis G' : good d' s'.
Hypothesis B : timed_bisimulation d s d' s' R.
Notation O := (own d s d' s' R).

Lemma own_like l v l' v' w w' : O l v l' v' -> like d s w v -> like d' s' w' v' -> O l w l' w'.
Proof. intros (H1 & H2 & u & u' & L & L' & H) K K'. split; [exact H1|]. split; [exact H2|]. exists u, u'. split; [eapply like_trans; eauto|]. split; [eapply like_trans; eauto|exact H]. Qed.
Lemma own_inv l v l' v' : O l v l' v' -> (inv_at d l v <-> inv_at d' l' v').
Proof.
  intros (H1 & H2 & w & w' & L & L' & H). pose proof (tb_inv _ _ _ _ _ B _ _ _ _ H) as X. split; intros I.
  - apply (inv_like d' s' l' w' v' G' H2 (like_sym _ _ _ _ L')), X, (inv_like d s l v w G H1 L), I.
  - apply (inv_like d s l w v G H1 (like_sym _ _ _ _ L)), X, (inv_like d' s' l' v' w' G' H2 L'), I.
Qed.
Lemma own_delay l v l' v' x : O l v l' v' -> 0 <= x -> O l (vdelay v x) l' (vdelay v' x).
Proof. intros (H1 & H2 & w & w' & L & L' & H) Hx. split; [exact H1|]. split; [exact H2|]. exists (vdelay w x), (vdelay w' x). split; [apply like_delay; assumption|]. split; [apply like_delay; assumption|]. eapply tb_delay; eauto. Qed.
Lemma own_forth l v l' v' a p u : O l v l' v' -> can d s l v a p u -> exists p' u', can d' s' l' v' a p' u' /\ O p u p' u'.
Proof.
  intros (H1 & H2 & w & w' & L & L' & H) C. destruct (can_like d s l v w a p u G H1 L C) as (x & Cx & Lx). destruct (tb_forth _ _ _ _ _ B _ _ _ _ _ _ _ H Cx) as (p' & x' & Cx' & H').
  destruct (can_like d' s' l' w' v' a p' x' G' H2 (like_sym _ _ _ _ L') Cx') as (u' & Cu & Lu). exists p', u'. split; [exact Cu|]. split; [apply (can_in d s l v a p u G H1 C)|]. split; [apply (can_in d' s' l' v' a p' u' G' H2 Cu)|].
  exists x, x'. split; [exact Lx|]. split; [apply like_sym, Lu|exact H'].
Qed.
Lemma own_back l v l' v' a p' u' : O l v l' v' -> can d' s' l' v' a p' u' -> exists p u, can d s l v a p u /\ O p u p' u'.
Proof.
  intros (H1 & H2 & w & w' & L & L' & H) C. destruct (can_like d' s' l' v' w' a p' u' G' H2 L' C) as (x' & Cx & Lx). destruct (tb_back _ _ _ _ _ B _ _ _ _ _ _ _ H Cx) as (p & x & Cx' & H').
  destruct (can_like d s l w v a p x G H1 (like_sym _ _ _ _ L) Cx') as (u & Cu & Lu). exists p, u. split; [exact Cu|]. split; [apply (can_in d s l v a p u G H1 Cu)|]. split; [apply (can_in d' s' l' v' a p' u' G' H2 C)|].
  exists x, x'. split; [apply like_sym, Lu|]. split; [exact Lx|exact H'].
Qed.
Lemma own_val l v l' v' : O l v l' v' -> val_ok d v /\ val_ok d' v'.
Proof. intros (_ & _ & w & w' & L & L' & _). split; [apply L|apply L']. Qed.
End Own.

(** What two bisimilar systems have in common. *)
Record paired (d : nat) (s : ts) (d' : nat) (s' : ts) (R : loctree -> val -> loctree -> val -> Prop) : Prop := {
  pa_in : forall l v l' v', R l v l' v' -> In l (all_locations d s) /\ In l' (all_locations d' s') /\ val_ok d v /\ val_ok d' v';
  pa_like : forall l v l' v' w w', R l v l' v' -> like d s w v -> like d' s' w' v' -> R l w l' w';
  pa_bis : timed_bisimulation d s d' s' R;
  pa_start : match initial_location d s, initial_location d' s' with
    | Some l, Some l' => R l zero_val l' zero_val
    | None, None => True
    | _, _ => False
    end }.
Lemma bisimilar_paired d s d' s' : good d s -> good d' s' -> bisimilar d s d' s' -> exists R, paired d s d' s' R.
Proof.
  intros G G' (_ & _ & R & B & I). exists (own d s d' s' R). constructor.
  - intros l v l' v' H. destruct (own_val d s d' s' R _ _ _ _ H) as [V V']. destruct H as (H1 & H2 & _). auto.
  - intros. eapply own_like; eauto.
  - constructor; intros; [eapply own_inv; eauto|eapply own_delay; eauto|eapply own_forth; eauto|eapply own_back; eauto].
  - destruct (initial_location d s) as [l|] eqn:E, (initial_location d' s') as [l'|] eqn:E'; auto. split; [apply (initial_wf d s (g_built _ _ G)), E|]. split; [apply (initial_wf d' s' (g_built _ _ G')), E'|].
    exists zero_val, zero_val. split; [apply like_refl, zero_ok|]. split; [apply like_refl, zero_ok|exact I].
Qed.

Section Ops.
Variables (d d' : nat) (A B A' B' : ts).
Hypothesis GA : good d A.
Hypothesis GB : good d B.
Hypothesis GA' : good d' A'.
Hypothesis GB' : good d' B'.
Hypothesis Sep : separate A B.
Hypothesis Sep' : separate A' B'.
Hypothesis EA : bisimilar d A d' A'.
Hypothesis EB : bisimilar d B d' B'.

Lemma action_iff s s' : (forall a, is_input s' a <-> is_input s a) -> (forall a, is_output s' a <-> is_output s a) -> forall a, is_action s' a <-> is_action s a.
Proof. intros H1 H2 a. unfold is_action. rewrite H1, H2. reflexivity. Qed.

Definition joined (RA RB : loctree -> val -> loctree -> val -> Prop) (l : loctree) (v : val) (l' : loctree) (v' : val) : Prop :=
  exists a b a' b', both d A B l a b /\ both d' A' B' l' a' b' /\ RA a v a' v' /\ RB b v b' v'.

Lemma conj_bisimilar s s' : conjunction_new A B = Ok s -> conjunction_new A' B' = Ok s' -> bisimilar d s d' s'.
Proof.
  intros E E'. destruct (bisimilar_paired _ _ _ _ GA GA' EA) as (RA & PA). destruct (bisimilar_paired _ _ _ _ GB GB' EB) as (RB & PB). destruct EA as (IA & OA & _). destruct EB as (IB & OB & _).
  assert (Ii : forall a, is_input s' a <-> is_input s a) by (intros a; rewrite (proj1 (conj_alphabet A' B' s' E' a)), (proj1 (conj_alphabet A B s E a)), IA, IB; reflexivity).
  assert (Oo : forall a, is_output s' a <-> is_output s a) by (intros a; rewrite (proj1 (proj2 (conj_alphabet A' B' s' E' a))), (proj1 (proj2 (conj_alphabet A B s E a))), OA, OB; reflexivity).
  split; [exact Ii|]. split; [exact Oo|]. exists (joined RA RB). split; [constructor|].
  - intros l v l' v' (a & b & a' & b' & H & H' & Ha & Hb). destruct H as (_ & _ & _ & _ & H), H' as (_ & _ & _ & _ & H'). rewrite H, H', (tb_inv _ _ _ _ _ (pa_bis _ _ _ _ _ PA) _ _ _ _ Ha), (tb_inv _ _ _ _ _ (pa_bis _ _ _ _ _ PB) _ _ _ _ Hb). reflexivity.
  - intros l v l' v' x (a & b & a' & b' & H & H' & Ha & Hb) Hx. exists a, b, a', b'. split; [exact H|]. split; [exact H'|]. split; [apply (tb_delay _ _ _ _ _ (pa_bis _ _ _ _ _ PA)); assumption|apply (tb_delay _ _ _ _ _ (pa_bis _ _ _ _ _ PB)); assumption].
  - intros l v l' v' k p w (a & b & a' & b' & H & H' & Ha & Hb) C. assert (Ak : is_action s k) by (destruct C as (t & [O _] & _); exact O).
    destruct (conj_can d A B GA GB Sep s E l a b v k p w H C) as (pa & pb & va & vb & Ca & Cb & Hp & La & Lb).
    destruct (tb_forth _ _ _ _ _ (pa_bis _ _ _ _ _ PA) _ _ _ _ _ _ _ Ha Ca) as (pa' & va' & Ca' & Ra). destruct (tb_forth _ _ _ _ _ (pa_bis _ _ _ _ _ PB) _ _ _ _ _ _ _ Hb Cb) as (pb' & vb' & Cb' & Rb).
    destruct (conj_can_join d' A' B' GA' GB' Sep' s' E' l' a' b' v' k pa' pb' va' vb' H' (proj2 (action_iff s s' Ii Oo k) Ak) Ca' Cb') as (p' & w' & C' & Hp' & La' & Lb').
    exists p', w'. split; [exact C'|]. exists pa, pb, pa', pb'. split; [exact Hp|]. split; [exact Hp'|]. split; [eapply (pa_like _ _ _ _ _ PA); eauto|eapply (pa_like _ _ _ _ _ PB); eauto].
  - intros l v l' v' k p' w' (a & b & a' & b' & H & H' & Ha & Hb) C. assert (Ak : is_action s' k) by (destruct C as (t & [O _] & _); exact O).
    destruct (conj_can d' A' B' GA' GB' Sep' s' E' l' a' b' v' k p' w' H' C) as (pa' & pb' & va' & vb' & Ca' & Cb' & Hp' & La' & Lb').
    destruct (tb_back _ _ _ _ _ (pa_bis _ _ _ _ _ PA) _ _ _ _ _ _ _ Ha Ca') as (pa & va & Ca & Ra). destruct (tb_back _ _ _ _ _ (pa_bis _ _ _ _ _ PB) _ _ _ _ _ _ _ Hb Cb') as (pb & vb & Cb & Rb).
    destruct (conj_can_join d A B GA GB Sep s E l a b v k pa pb va vb H (proj1 (action_iff s s' Ii Oo k) Ak) Ca Cb) as (p & w & C0 & Hp & La & Lb).
    exists p, w. split; [exact C0|]. exists pa, pb, pa', pb'. split; [exact Hp|]. split; [exact Hp'|]. split; [eapply (pa_like _ _ _ _ _ PA); eauto|eapply (pa_like _ _ _ _ _ PB); eauto].
  - pose proof (conj_start d A B GA GB s E) as X. pose proof (conj_start d' A' B' GA' GB' s' E') as X'. pose proof (pa_start _ _ _ _ _ PA) as SA. pose proof (pa_start _ _ _ _ _ PB) as SB.
    destruct (initial_location d s) as [l|], (initial_location d' s') as [l'|]; auto.
    + destruct X as (a & b & Ea & Eb & H), X' as (a' & b' & Ea' & Eb' & H'). rewrite Ea, Ea' in SA. rewrite Eb, Eb' in SB. exists a, b, a', b'. auto.
    + destruct X as (a & b & Ea & Eb & H). rewrite Ea in SA. rewrite Eb in SB. destruct X' as [Z|Z]; rewrite Z in *; contradiction.
    + destruct X' as (a & b & Ea & Eb & H). rewrite Ea in SA. rewrite Eb in SB. destruct X as [Z|Z]; rewrite Z in *; contradiction.
Qed.

Lemma part_forth s s' R l v l' v' k p w : paired d s d' s' R -> (forall a, is_action s' a <-> is_action s a) -> R l v l' v' -> part d s l v k p w -> exists p' w', part d' s' l' v' k p' w' /\ R p w p' w'.
Proof.
  intros P Al H [[Ak C]|(Ak & -> & -> & I)].
  - destruct (tb_forth _ _ _ _ _ (pa_bis _ _ _ _ _ P) _ _ _ _ _ _ _ H C) as (p' & w' & C' & H'). exists p', w'. split; [left; split; [apply Al, Ak|exact C']|exact H'].
  - exists l', v'. split; [right; split; [rewrite Al; exact Ak|]; split; [reflexivity|]; split; [reflexivity|]; apply (tb_inv _ _ _ _ _ (pa_bis _ _ _ _ _ P) _ _ _ _ H), I|exact H].
Qed.
Lemma part_back s s' R l v l' v' k p' w' : paired d s d' s' R -> (forall a, is_action s' a <-> is_action s a) -> R l v l' v' -> part d' s' l' v' k p' w' -> exists p w, part d s l v k p w /\ R p w p' w'.
Proof.
  intros P Al H [[Ak C]|(Ak & -> & -> & I)].
  - destruct (tb_back _ _ _ _ _ (pa_bis _ _ _ _ _ P) _ _ _ _ _ _ _ H C) as (p & w & C' & H'). exists p, w. split; [left; split; [apply Al, Ak|exact C']|exact H'].
  - exists l, v. split; [right; split; [rewrite <- Al; exact Ak|]; split; [reflexivity|]; split; [reflexivity|]; apply (tb_inv _ _ _ _ _ (pa_bis _ _ _ _ _ P) _ _ _ _ H), I|exact H].
Qed.

Lemma comp_bisimilar s s' : composition_new A B = Ok s -> composition_new A' B' = Ok s' -> bisimilar d s d' s'.
Proof.
  intros E E'. destruct (bisimilar_paired _ _ _ _ GA GA' EA) as (RA & PA). destruct (bisimilar_paired _ _ _ _ GB GB' EB) as (RB & PB). destruct EA as (IA & OA & _). destruct EB as (IB & OB & _).
  assert (Ii : forall a, is_input s' a <-> is_input s a) by (intros a; rewrite (proj1 (comp_alphabet A' B' s' E' a)), (proj1 (comp_alphabet A B s E a)), IA, IB, OA, OB; reflexivity).
  assert (Oo : forall a, is_output s' a <-> is_output s a) by (intros a; rewrite (proj1 (proj2 (comp_alphabet A' B' s' E' a))), (proj1 (proj2 (comp_alphabet A B s E a))), OA, OB; reflexivity).
  pose proof (action_iff A A' IA OA) as AA. pose proof (action_iff B B' IB OB) as AB.
  split; [exact Ii|]. split; [exact Oo|]. exists (joined RA RB). split; [constructor|].
  - intros l v l' v' (a & b & a' & b' & H & H' & Ha & Hb). destruct H as (_ & _ & _ & _ & H), H' as (_ & _ & _ & _ & H'). rewrite H, H', (tb_inv _ _ _ _ _ (pa_bis _ _ _ _ _ PA) _ _ _ _ Ha), (tb_inv _ _ _ _ _ (pa_bis _ _ _ _ _ PB) _ _ _ _ Hb). reflexivity.
  - intros l v l' v' x (a & b & a' & b' & H & H' & Ha & Hb) Hx. exists a, b, a', b'. split; [exact H|]. split; [exact H'|]. split; [apply (tb_delay _ _ _ _ _ (pa_bis _ _ _ _ _ PA)); assumption|apply (tb_delay _ _ _ _ _ (pa_bis _ _ _ _ _ PB)); assumption].
  - intros l v l' v' k p w (a & b & a' & b' & H & H' & Ha & Hb) C. assert (Ak : is_action s k) by (destruct C as (t & [O _] & _); exact O).
    destruct (comp_can d A B GA GB Sep s E l a b v k p w H C) as (pa & pb & va & vb & Ca & Cb & Hp & La & Lb).
    destruct (part_forth _ _ _ _ _ _ _ _ _ _ PA AA Ha Ca) as (pa' & va' & Ca' & Ra). destruct (part_forth _ _ _ _ _ _ _ _ _ _ PB AB Hb Cb) as (pb' & vb' & Cb' & Rb).
    destruct (comp_can_join d' A' B' GA' GB' Sep' s' E' l' a' b' v' k pa' pb' va' vb' H' (proj2 (action_iff s s' Ii Oo k) Ak) Ca' Cb') as (p' & w' & C' & Hp' & La' & Lb').
    exists p', w'. split; [exact C'|]. exists pa, pb, pa', pb'. split; [exact Hp|]. split; [exact Hp'|]. split; [eapply (pa_like _ _ _ _ _ PA); eauto|eapply (pa_like _ _ _ _ _ PB); eauto].
  - intros l v l' v' k p' w' (a & b & a' & b' & H & H' & Ha & Hb) C. assert (Ak : is_action s' k) by (destruct C as (t & [O _] & _); exact O).
    destruct (comp_can d' A' B' GA' GB' Sep' s' E' l' a' b' v' k p' w' H' C) as (pa' & pb' & va' & vb' & Ca' & Cb' & Hp' & La' & Lb').
    destruct (part_back _ _ _ _ _ _ _ _ _ _ PA AA Ha Ca') as (pa & va & Ca & Ra). destruct (part_back _ _ _ _ _ _ _ _ _ _ PB AB Hb Cb') as (pb & vb & Cb & Rb).
    destruct (comp_can_join d A B GA GB Sep s E l a b v k pa pb va vb H (proj1 (action_iff s s' Ii Oo k) Ak) Ca Cb) as (p & w & C0 & Hp & La & Lb).
    exists p, w. split; [exact C0|]. exists pa, pb, pa', pb'. split; [exact Hp|]. split; [exact Hp'|]. split; [eapply (pa_like _ _ _ _ _ PA); eauto|eapply (pa_like _ _ _ _ _ PB); eauto].
  - pose proof (comp_start d A B GA GB s E) as X. pose proof (comp_start d' A' B' GA' GB' s' E') as X'. pose proof (pa_start _ _ _ _ _ PA) as SA. pose proof (pa_start _ _ _ _ _ PB) as SB.
    destruct (initial_location d s) as [l|], (initial_location d' s') as [l'|]; auto.
    + destruct X as (a & b & Ea & Eb & H), X' as (a' & b' & Ea' & Eb' & H'). rewrite Ea, Ea' in SA. rewrite Eb, Eb' in SB. exists a, b, a', b'. auto.
    + destruct X as (a & b & Ea & Eb & H). rewrite Ea in SA. rewrite Eb in SB. destruct X' as [Z|Z]; rewrite Z in *; contradiction.
    + destruct X' as (a & b & Ea & Eb & H). rewrite Ea in SA. rewrite Eb in SB. destruct X as [Z|Z]; rewrite Z in *; contradiction.
Qed.
End Ops.

(** ** Quotients *)
Lemma fresh_same ins ins' : (forall a, In a ins <-> In a ins') -> forall f f' i n n', fresh_input f i ins = Ok n -> fresh_input f' i ins' = Ok n' -> n = n'.
Proof.
  intros H f. induction f as [|f IH]; intros [|f'] i n n' E E'; cbn [fresh_input] in E, E'; try discriminate.
  assert (X : sin ("quotient_new_input" ++ nat_str i) ins = sin ("quotient_new_input" ++ nat_str i) ins').
  { destruct (sin _ ins') eqn:Y; [apply sin_In, H, sin_In, Y|apply sin_false; rewrite H; apply sin_false, Y]. }
  rewrite X in E. destruct (negb (sin _ ins')); [congruence|eapply IH; eauto].
Qed.
Lemma paired_flip d s d' s' R : paired d s d' s' R -> paired d' s' d s (fun l' v' l v => R l v l' v').
Proof.
  intros [A B [C1 C2 C3 C4] D]. constructor; [intros; edestruct A as (? & ? & ? & ?); eauto|intros; eapply B; eauto| |destruct (initial_location d s), (initial_location d' s'); auto].
  constructor; [intros; symmetry; apply C1; assumption|intros; apply C2; assumption|intros; eapply C4; eauto|intros; eapply C3; eauto].
Qed.

Section QuotOne.
Variables (d : nat) (T S : ts) (ins outs : list string) (n : string) (q : nat).
Let Q := TQuot T S ins outs n q.
Lemma err_can v a : is_input Q a -> val_ok d v -> v q == 0 -> can d Q (lt_error q) v a (lt_error q) v.
Proof.
  intros Ia V Z. assert (I0 : inv_at d (lt_error q) v) by (apply quot_err_inv; auto). exists (mkT TINone (fcon_eq q 0 0 funiv) (lt_error q) []).
  split; [|split; [split; [exact I0|split; [exact I0|exact I0]]|auto]]. split; [left; exact Ia|]. exists [mkT TINone (fcon_eq q 0 0 funiv) (lt_error q) []].
  assert (Ha : has_action Q a = true) by (apply has_action_spec; left; exact Ia). unfold Q in *. cbn [next_transitions]. rewrite Ha. cbn. unfold is_input in Ia. cbn [ts_inputs] in Ia. apply sin_In in Ia. rewrite Ia. split; [reflexivity|left; reflexivity].
Qed.
Lemma err_can_to v a p w : can d Q (lt_error q) v a p w -> is_input Q a /\ p = lt_error q /\ w = v /\ v q == 0.
Proof.
  intros C. pose proof C as (t & (Ha & ts & Ets & Ht) & Ab & -> & ->). pose proof (err_can_inv d T S ins outs n q _ _ _ _ C) as Ia. unfold Q in *. cbn [next_transitions] in Ets. apply has_action_spec in Ha. rewrite Ha in Ets. cbn in Ets. injection Ets as <-. destruct (sin a ins); [|destruct Ht]. destruct Ht as [<-|[]].
  split; [exact Ia|]. split; [reflexivity|]. split; [reflexivity|]. apply (quot_err_inv d q v), Ab.
Qed.
Lemma quot_out lT lS v a : good d T -> good d S -> In lT (all_locations d T) -> In lS (all_locations d S) -> val_ok d v -> is_action Q a -> is_output S a -> (forall l w, ~ can d S lS v a l w) ->
  can d Q (lt_quotient lT lS) v a lt_universal v.
Proof.
  intros GT GS HT HS V Ha Os Nn. destruct (quot_offers d T S ins outs n q GT GS lT lS HT HS a Ha) as (ts & tts & sss & Ets & Of & It & Is).
  refine (quot_step d T S ins outs n q lT lS v V a ts tts sss lt_universal [] Ha Ets Of _ V). apply q_univ_out; [exact V|exact Os|]. intros t Ht Ab. apply (Nn (t_target t) (run_updates (t_updates t) v)). exists t. split; [apply Is, Ht|auto].
Qed.
End QuotOne.

Definition qrel (d d' : nat) (RT RS : loctree -> val -> loctree -> val -> Prop) (q q' : nat) (l : loctree) (v : val) (l' : loctree) (v' : val) : Prop :=
  (exists lT lS lT' lS', l = lt_quotient lT lS /\ l' = lt_quotient lT' lS' /\ RT lT v lT' v' /\ RS lS v lS' v') \/
  (l = lt_universal /\ l' = lt_universal /\ val_ok d v /\ val_ok d' v') \/
  (l = lt_error q /\ l' = lt_error q' /\ val_ok d v /\ val_ok d' v' /\ v q == v' q').

Section QuotSim.
Variables (d d' : nat) (T S T' S' : ts) (RT RS : loctree -> val -> loctree -> val -> Prop) (ins outs ins' outs' : list string) (n : string) (q q' : nat).
Let Q := TQuot T S ins outs n q.
Let Q' := TQuot T' S' ins' outs' n q'.
Hypothesis GT : good d T.
Hypothesis GS : good d S.
Hypothesis GQ : good d Q.
Hypothesis GT' : good d' T'.
Hypothesis GS' : good d' S'.
Hypothesis GQ' : good d' Q'.
Hypothesis Sep : separate T S.
Hypothesis Sep' : separate T' S'.
Hypothesis E : quotient_new T S q = Ok Q.
Hypothesis E' : quotient_new T' S' q' = Ok Q'.
Hypothesis PT : paired d T d' T' RT.
Hypothesis PS : paired d S d' S' RS.
Hypothesis IT : forall a, is_input T' a <-> is_input T a.
Hypothesis OT : forall a, is_output T' a <-> is_output T a.
Hypothesis IS : forall a, is_input S' a <-> is_input S a.
Hypothesis OS : forall a, is_output S' a <-> is_output S a.
Notation qrel := (qrel d d' RT RS q q').

Lemma quot_alphabets : (forall a, is_input Q' a <-> is_input Q a) /\ (forall a, is_output Q' a <-> is_output Q a).
Proof.
  destruct (quot_alphabet d T S ins outs n q GQ E) as (A1 & A2 & _). destruct (quot_alphabet d' T' S' ins' outs' n q' GQ' E') as (B1 & B2 & _). split; intros a.
  - unfold Q, Q'. rewrite B1, A1, IT, OS. reflexivity.
  - unfold Q, Q'. rewrite B2, A2, OT, OS, IS, IT. reflexivity.
Qed.
Lemma quot_action a : is_action Q' a <-> is_action Q a.
Proof. destruct quot_alphabets as [A B]. apply action_iff; assumption. Qed.

Lemma quot_forth l v l' v' a p w : qrel l v l' v' -> can d Q l v a p w -> exists p' w', can d' Q' l' v' a p' w' /\ qrel p w p' w'.
Proof.
  intros H C. assert (Ha : is_action Q a) by (destruct C as (t & [O _] & _); exact O). assert (Ha' : is_action Q' a) by (apply quot_action, Ha).
  assert (AT : forall k, is_action T' k <-> is_action T k) by (apply action_iff; assumption). assert (AS : forall k, is_action S' k <-> is_action S k) by (apply action_iff; assumption).
  destruct H as [(lT & lS & lT' & lS' & -> & -> & HT & HS)|[(-> & -> & V & V')|(-> & -> & V & V' & Z)]].
  - destruct (pa_in _ _ _ _ _ PT _ _ _ _ HT) as (I1 & I1' & V & V'). destruct (pa_in _ _ _ _ _ PS _ _ _ _ HS) as (I2 & I2' & _ & _).
    destruct (quot_can d T S ins outs n q GT GS GQ Sep E lT lS I1 I2 v V a p w C) as [M W].
    destruct M as [pT vT pS vS u At As Ct Cs Lt Ls|pS vS u At As Cs Lt Ls|pT vT u At As Iv Ct Lt Ls|u Nv Vu|u Os Nn Vu|pS vS u Os Ot Cs Nn Zu|u En Iv Nv Zu].
    + destruct (tb_forth _ _ _ _ _ (pa_bis _ _ _ _ _ PT) _ _ _ _ _ _ _ HT Ct) as (pT' & vT' & Ct' & HT'). destruct (tb_forth _ _ _ _ _ (pa_bis _ _ _ _ _ PS) _ _ _ _ _ _ _ HS Cs) as (pS' & vS' & Cs' & HS').
      destruct (quot_both d' T' S' ins' outs' n q' GT' GS' Sep' lT' lS' I1' I2' v' V' a pT' vT' pS' vS' Ha' (proj2 (AT a) At) (proj2 (AS a) As) Ct' Cs') as (u' & C' & Lt' & Ls').
      exists (lt_quotient pT' pS'), u'. split; [exact C'|]. left. exists pT, pS, pT', pS'. split; [reflexivity|]. split; [reflexivity|]. split; [eapply (pa_like _ _ _ _ _ PT); eauto|eapply (pa_like _ _ _ _ _ PS); eauto].
    + destruct (tb_forth _ _ _ _ _ (pa_bis _ _ _ _ _ PS) _ _ _ _ _ _ _ HS Cs) as (pS' & vS' & Cs' & HS').
      destruct (quot_s d' T' S' ins' outs' n q' GT' GS' Sep' lT' lS' I1' I2' v' V' a pS' vS' Ha' ltac:(rewrite AT; exact At) (proj2 (AS a) As) Cs') as (u' & C' & Lt' & Ls').
      exists (lt_quotient lT' pS'), u'. split; [exact C'|]. left. exists lT, pS, lT', pS'. split; [reflexivity|]. split; [reflexivity|]. split; [eapply (pa_like _ _ _ _ _ PT); eauto|eapply (pa_like _ _ _ _ _ PS); eauto].
    + destruct (tb_forth _ _ _ _ _ (pa_bis _ _ _ _ _ PT) _ _ _ _ _ _ _ HT Ct) as (pT' & vT' & Ct' & HT').
      destruct (quot_t d' T' S' ins' outs' n q' GT' GS' Sep' lT' lS' I1' I2' v' V' a pT' vT' Ha' (proj2 (AT a) At) ltac:(rewrite AS; exact As) (proj1 (tb_inv _ _ _ _ _ (pa_bis _ _ _ _ _ PS) _ _ _ _ HS) Iv) Ct') as (u' & C' & Lt' & Ls').
      exists (lt_quotient pT' lS'), u'. split; [exact C'|]. left. exists pT, lS, pT', lS'. split; [reflexivity|]. split; [reflexivity|]. split; [eapply (pa_like _ _ _ _ _ PT); eauto|eapply (pa_like _ _ _ _ _ PS); eauto].
    + exists lt_universal, v'. split; [|right; left; auto]. apply quot_dead; auto. rewrite <- (tb_inv _ _ _ _ _ (pa_bis _ _ _ _ _ PS) _ _ _ _ HS). exact Nv.
    + exists lt_universal, v'. split; [|right; left; auto]. apply quot_out; auto; [apply OS, Os|]. intros l x Cx. destruct (tb_back _ _ _ _ _ (pa_bis _ _ _ _ _ PS) _ _ _ _ _ _ _ HS Cx) as (y & z & Cy & _). exact (Nn _ _ Cy).
    + destruct (tb_forth _ _ _ _ _ (pa_bis _ _ _ _ _ PS) _ _ _ _ _ _ _ HS Cs) as (pS' & vS' & Cs' & HS').
      destruct (quot_err d' T' S' ins' outs' n q' GT' GS' GQ' E' lT' lS' I1' I2' v' V' a pS' vS' (proj2 (OS a) Os) (proj2 (OT a) Ot) Cs') as (u' & C').
      { intros l x Cx. destruct (tb_back _ _ _ _ _ (pa_bis _ _ _ _ _ PT) _ _ _ _ _ _ _ HT Cx) as (y & z & Cy & _). exact (Nn _ _ Cy). }
      exists (lt_error q'), u'. split; [exact C'|]. right; right. assert (X : inv_at d' (lt_error q') u') by (destruct C' as (t & _ & Ab & Et & ->); rewrite Et; apply Ab). apply quot_err_inv in X. destruct X as [X1 X2].
      split; [reflexivity|]. split; [reflexivity|]. split; [exact W|]. split; [exact X1|]. rewrite Zu, X2. reflexivity.
    + destruct (quot_new_input d' T' S' ins' outs' n q' GT' GS' GQ' E' lT' lS' I1' I2' v' V' a En (proj1 (tb_inv _ _ _ _ _ (pa_bis _ _ _ _ _ PS) _ _ _ _ HS) Iv)) as (u' & C').
      { rewrite <- (tb_inv _ _ _ _ _ (pa_bis _ _ _ _ _ PT) _ _ _ _ HT). exact Nv. }
      exists (lt_error q'), u'. split; [exact C'|]. right; right. assert (X : inv_at d' (lt_error q') u') by (destruct C' as (t & _ & Ab & Et & ->); rewrite Et; apply Ab). apply quot_err_inv in X. destruct X as [X1 X2].
      split; [reflexivity|]. split; [reflexivity|]. split; [exact W|]. split; [exact X1|]. rewrite Zu, X2. reflexivity.
  - destruct (univ_can_inv d T S ins outs n q _ _ _ _ C) as [-> ->]. exists lt_universal, v'. split; [apply univ_can; assumption|right; left; auto].
  - destruct (err_can_to d T S ins outs n q _ _ _ _ C) as (Ia & -> & -> & Zv). exists (lt_error q'), v'. split; [|right; right; auto]. apply err_can; [apply quot_alphabets, Ia|exact V'|]. rewrite <- Z. exact Zv.
Qed.
End QuotSim.

Lemma quot_bisimilar d d' T S T' S' q q' Q Q' : good d T -> good d S -> good d Q -> good d' T' -> good d' S' -> good d' Q' -> separate T S -> separate T' S' ->
  bisimilar d T d' T' -> bisimilar d S d' S' -> quotient_new T S q = Ok Q -> quotient_new T' S' q' = Ok Q' -> bisimilar d Q d' Q'.
Proof.
  intros GT GS GQ GT' GS' GQ' Sep Sep' ET ES E E'. destruct (bisimilar_paired _ _ _ _ GT GT' ET) as (RT & PT). destruct (bisimilar_paired _ _ _ _ GS GS' ES) as (RS & PS). destruct ET as (IT & OT & _). destruct ES as (IS & OS & _).
  assert (X : exists ins outs ins' outs' n, Q = TQuot T S ins outs n q /\ Q' = TQuot T' S' ins' outs' n q').
  { unfold quotient_new in E, E'. destruct (disjoint (ts_outputs S) (ts_inputs T)), (disjoint (ts_outputs S') (ts_inputs T')); cbn [negb] in E, E'; try discriminate. apply bind_ok in E. destruct E as (m & Em & E). apply bind_ok in E'. destruct E' as (m' & Em' & E'). injection E as <-. injection E' as <-.
    assert (m = m') as <-; [|do 5 eexists; split; reflexivity]. eapply fresh_same; [|exact Em|exact Em']. intros a. rewrite !in_sunion. unfold is_input, is_output in *. rewrite IT, OS. reflexivity. }
  destruct X as (ins & outs & ins' & outs' & n & -> & ->).
  pose proof (quot_alphabets d d' T S T' S' ins outs ins' outs' n q q' GQ GQ' E E' IT OT IS OS) as [Ii Oo]. split; [exact Ii|]. split; [exact Oo|]. exists (qrel d d' RT RS q q'). split; [constructor|].
  - intros l v l' v' [(lT & lS & lT' & lS' & -> & -> & HT & HS)|[(-> & -> & V & V')|(-> & -> & V & V' & Z)]].
    + destruct (pa_in _ _ _ _ _ PT _ _ _ _ HT) as (_ & _ & V & V'). split; intros _; [exact V'|exact V].
    + split; intros _; [exact V'|exact V].
    + rewrite !quot_err_inv, Z. tauto.
  - intros l v l' v' x H Hx. destruct H as [(lT & lS & lT' & lS' & -> & -> & HT & HS)|[(-> & -> & V & V')|(-> & -> & V & V' & Z)]].
    + left. exists lT, lS, lT', lS'. split; [reflexivity|]. split; [reflexivity|]. split; [apply (tb_delay _ _ _ _ _ (pa_bis _ _ _ _ _ PT)); assumption|apply (tb_delay _ _ _ _ _ (pa_bis _ _ _ _ _ PS)); assumption].
    + right; left. split; [reflexivity|]. split; [reflexivity|]. split; apply vdelay_ok; assumption.
    + right; right. split; [reflexivity|]. split; [reflexivity|]. split; [apply vdelay_ok; assumption|]. split; [apply vdelay_ok; assumption|]. destruct (quot_clocks d T S ins outs n q GQ E) as [N _]. destruct (quot_clocks d' T' S' ins' outs' n q' GQ' E') as [N' _].
      unfold vdelay. apply Nat.eqb_neq in N. apply Nat.eqb_neq in N'. rewrite N, N', Z. reflexivity.
  - intros l v l' v' a p w H C. eapply (quot_forth d d' T S T' S' RT RS); eauto.
  - intros l v l' v' a p' w' H C.
    assert (Fl : forall l v l' v', qrel d d' RT RS q q' l v l' v' <-> qrel d' d (fun l' v' l v => RT l v l' v') (fun l' v' l v => RS l v l' v') q' q l' v' l v).
    { clear. intros l v l' v'. unfold qrel. split; (intros [(lT & lS & lT' & lS' & -> & -> & HT & HS)|[(-> & -> & V & V')|(-> & -> & V & V' & Z)]]; [left; do 4 eexists; eauto|right; left; auto|right; right; do 4 (split; [auto|]); symmetry; exact Z]). }
    apply Fl in H. assert (IT' : forall a, is_input T a <-> is_input T' a) by (intros; symmetry; auto). assert (OT' : forall a, is_output T a <-> is_output T' a) by (intros; symmetry; auto). assert (IS' : forall a, is_input S a <-> is_input S' a) by (intros; symmetry; auto). assert (OS' : forall a, is_output S a <-> is_output S' a) by (intros; symmetry; auto).
    destruct (quot_forth d' d T' S' T S _ _ ins' outs' ins outs n q' q GT' GS' GQ' GT GS GQ Sep' Sep E' E (paired_flip _ _ _ _ _ PT) (paired_flip _ _ _ _ _ PS) IT' OT' IS' OS' _ _ _ _ _ _ _ H C) as (p & w & C' & H'). exists p, w. split; [exact C'|]. apply Fl, H'.
  - cbn [initial_location]. pose proof (pa_start _ _ _ _ _ PT) as X. pose proof (pa_start _ _ _ _ _ PS) as Y. destruct (initial_location d T), (initial_location d' T'), (initial_location d S), (initial_location d' S'); auto; try contradiction. left. do 4 eexists; eauto.
Qed.
