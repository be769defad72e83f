(** C21: the lists of the refinement search. *)
From Coq Require Import List String ZArith QArith Bool Arith Lia Lqa.
From Verif Require Import Fed.Zone Fed.ZoneFacts Fed.Check Model.Base Model.Expr Model.Guard Model.Loc Model.Component Model.TS Model.PairList
  Spec.RefineSpec Proofs.PairListFacts Props.Examples.
Import ListNotations.
Local Open Scope string_scope.

Lemma waiting_run_ok ops : forall w, wok w -> exists w', waiting_run ops w = Ok (fst (stack_run ops (w_queue w)), w') /\
  w_queue w' = snd (stack_run ops (w_queue w)) /\ wok w'.
Proof.
  induction ops as [|[p|] ops IH]; intros w H; cbn [waiting_run stack_run].
  - exists w. auto.
  - destruct (IH (waiting_put p w) (wok_put p w H)) as (w' & E & Q & K). exists w'. auto.
  - destruct (wok_pop w H) as [E P]. destruct (w_queue w) as [|p q] eqn:Q.
    + rewrite E. cbn [bind]. destruct (IH w H) as (w' & E' & Q' & K'). rewrite Q in E', Q'. rewrite E'. cbn [bind].
      destruct (stack_run ops []) as [o st]. exists w'. auto.
    + destruct (waiting_pop w) as [[[p1 w1]|]| | |] eqn:Ep; try discriminate. injection E as ->. cbn [bind].
      destruct (P p w1 eq_refl) as [Q1 K1]. injection Q1 as ->. destruct (IH w1 K1) as (w' & E' & Q' & K'). rewrite E'. cbn [bind].
      destruct (stack_run ops (w_queue w1)) as [o st]. exists w'. auto.
Qed.

(** The waiting list never panics and is a stack: pops return what the puts stored, each
    pair once, latest first; and it reports a pair as present exactly when a queued pair
    with the same locations has a containing zone. *)
Theorem C21_waiting_list : forall ops, exists w,
  waiting_run ops waiting_new = Ok (fst (stack_run ops []), w) /\ w_queue w = snd (stack_run ops []) /\
  (waiting_is_empty w = true <-> snd (stack_run ops []) = []) /\
  forall dim p, waiting_has dim p w = true <-> exists x, In x (snd (stack_run ops [])) /\ same_locations p x /\ zone_within dim p x.
Proof.
  intros ops. destruct (waiting_run_ok ops waiting_new wok_new) as (w & E & Q & K). cbn [w_queue waiting_new] in E, Q.
  exists w. split; [exact E|]. split; [exact Q|]. rewrite <- Q. split.
  - unfold waiting_is_empty. destruct (w_queue w); split; congruence.
  - intros dim p. rewrite (wok_has dim p w K). unfold pair_key, same_locations, zone_within.
    split; intros (x & Hx & S & Z); exists x; (split; [exact Hx|]; split; [|exact Z]).
    + injection S; auto.
    + destruct S as [-> ->]. reflexivity.
Qed.
Print Assumptions C21_waiting_list.

(** The passed list reports a pair as seen exactly when its locations have been put and the
    zones put with them together cover its zone. *)
Theorem C21_passed_list : forall dim ps p, passed_has dim p (fold_left (fun m p => passed_put p m) ps []) = true <->
  (exists x, In x ps /\ same_locations p x) /\
  forall v, fsem dim (p_zone p) v -> exists x, In x ps /\ same_locations p x /\ fsem dim (p_zone x) v.
Proof.
  intros dim ps p. rewrite passed_has_spec. unfold pair_key, same_locations.
  assert (K : forall x, (lt_id (p_l1 x), lt_id (p_l2 x)) = (lt_id (p_l1 p), lt_id (p_l2 p)) <-> lt_id (p_l1 p) = lt_id (p_l1 x) /\ lt_id (p_l2 p) = lt_id (p_l2 x)).
  { intros x. split; [intros E; injection E; auto|intros [-> ->]; reflexivity]. }
  split; intros [(x & Hx & E) H]; (split; [exists x; split; [exact Hx|apply K; exact E]|]); intros v Hv; destruct (H v Hv) as (y & Hy & Ey & Z);
    exists y; (split; [exact Hy|]; split; [apply K; exact Ey|exact Z]).
Qed.
Print Assumptions C21_passed_list.
(** The variant keeping zones apart answers yes exactly when one of them covers. *)
Theorem C21_passed_list_vec : forall dim ps p, vec_has dim p (fold_left (fun m p => vec_put p m) ps []) = true <->
  exists x, In x ps /\ same_locations p x /\ zone_within dim p x.
Proof.
  intros dim ps p. rewrite vec_has_spec. unfold pair_key, same_locations, zone_within.
  split; intros (x & Hx & S & Z); exists x; (split; [exact Hx|]; split; [|exact Z]).
  - injection S; auto.
  - destruct S as [-> ->]. reflexivity.
Qed.
Print Assumptions C21_passed_list_vec.

(** Two zones covering a third only together: seen by the passed list, not by the variant. *)
Definition pz (z : fed) : pair := mkP lt_any lt_universal z.
Definition lowz : fed := fcon (mkC 1 0 false 4) funiv.
Definition highz : fed := fcon (mkC 0 1 false (-3)) funiv.
Example C21_nonvacuous :
  passed_has 2 (pz funiv) (fold_left (fun m p => passed_put p m) [pz lowz; pz highz] []) = true /\
  vec_has 2 (pz funiv) (fold_left (fun m p => vec_put p m) [pz lowz; pz highz] []) = false /\
  passed_has 2 (pz funiv) (fold_left (fun m p => passed_put p m) [pz lowz] []) = false /\
  stack_run [OPut (pz lowz); OPut (pz highz); OPop; OPop; OPop] [] = ([Some (pz highz); Some (pz lowz); None], []).
Proof. vm_compute. auto. Qed.
