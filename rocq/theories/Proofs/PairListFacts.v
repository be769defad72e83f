(** The waiting list is a stack; both lists answer membership exactly. *)
From Coq Require Import List String ZArith QArith Bool Arith Lia.
From Verif Require Import Fed.Zone Fed.ZoneFacts Model.Base Model.Expr Model.Guard Model.Loc Model.PairList Proofs.WfFacts.
Import ListNotations.

Lemma key_eqb_eq a b : key_eqb a b = true <-> a = b.
Proof.
  destruct a as [a1 a2], b as [b1 b2]. unfold key_eqb. cbn [fst snd]. rewrite andb_true_iff, !locid_eqb_eq.
  split; [intros [-> ->]; reflexivity|intros E; injection E; auto].
Qed.
Lemma key_eqb_refl a : key_eqb a a = true. Proof. apply key_eqb_eq. reflexivity. Qed.
Lemma kget_kset {V} k (v : V) m k' : kget k' (kset k v m) = if key_eqb k' k then Some v else kget k' m.
Proof.
  unfold kset. cbn [kget]. destruct (key_eqb k' k) eqn:E; [reflexivity|].
  assert (N : key_eqb k k' = false).
  { destruct (key_eqb k k') eqn:E'; [|reflexivity]. apply key_eqb_eq in E'. subst. rewrite key_eqb_refl in E. discriminate. }
  induction m as [|[j w] m IH]; [reflexivity|]. cbn [filter fst kget]. destruct (key_eqb k j) eqn:Ej; cbn [negb].
  - apply key_eqb_eq in Ej. subst j. rewrite E. exact IH.
  - cbn [kget]. rewrite IH. reflexivity.
Qed.

(** ** Waiting *)
Definition same_key (p x : pair) : bool := key_eqb (pair_key p) (pair_key x).
Definition wentry (k : key) (w : wlist) : list fed := match kget k (w_map w) with Some l => l | None => [] end.
Definition wok (w : wlist) : Prop := forall k, wentry k w = map p_zone (filter (fun x => key_eqb k (pair_key x)) (w_queue w)).
Lemma wok_new : wok waiting_new. Proof. intros k. reflexivity. Qed.
Lemma wok_put p w : wok w -> wok (waiting_put p w).
Proof.
  intros H k. unfold wentry, waiting_put. cbn [w_map w_queue]. rewrite kget_kset. cbn [filter].
  destruct (key_eqb k (pair_key p)) eqn:E.
  - apply key_eqb_eq in E. subst k. cbn [map]. specialize (H (pair_key p)). unfold wentry in H.
    destruct (kget (pair_key p) (w_map w)); rewrite <- H; reflexivity.
  - exact (H k).
Qed.
Lemma wok_pop w : wok w -> waiting_pop w = Ok (match w_queue w with [] => None | p :: q => Some (p, match waiting_pop w with Ok (Some (_, w')) => w' | _ => w end) end) /\
  forall p w', waiting_pop w = Ok (Some (p, w')) -> w_queue w = p :: w_queue w' /\ wok w'.
Proof.
  intros H. unfold waiting_pop. destruct (w_queue w) as [|p q] eqn:Q; [split; [reflexivity|discriminate]|].
  pose proof (H (pair_key p)) as Hp. rewrite Q in Hp. cbn [filter] in Hp. rewrite key_eqb_refl in Hp. cbn [map] in Hp.
  unfold wentry in Hp. destruct (kget (pair_key p) (w_map w)) as [[|z l]|] eqn:G; try discriminate. injection Hp as -> Hl.
  split; [reflexivity|]. intros p' w' E. injection E as <- <-. cbn [w_queue]. split; [reflexivity|].
  intros k. unfold wentry. cbn [w_map w_queue]. rewrite kget_kset. destruct (key_eqb k (pair_key p)) eqn:E.
  - apply key_eqb_eq in E. subst k. exact Hl.
  - specialize (H k). unfold wentry in H. rewrite Q in H. cbn [filter] in H. rewrite E in H. exact H.
Qed.
Lemma wok_has dim p w : wok w -> waiting_has dim p w = true <->
  exists x, In x (w_queue w) /\ pair_key x = pair_key p /\ forall v, fsem dim (p_zone p) v -> fsem dim (p_zone x) v.
Proof.
  intros H. unfold waiting_has. specialize (H (pair_key p)). unfold wentry in H.
  assert (X : existsb (fsubset dim (p_zone p)) (map p_zone (filter (fun x => key_eqb (pair_key p) (pair_key x)) (w_queue w))) = true <->
    exists x, In x (w_queue w) /\ pair_key x = pair_key p /\ forall v, fsem dim (p_zone p) v -> fsem dim (p_zone x) v).
  { rewrite existsb_exists. split.
    - intros (z & Hz & S). apply in_map_iff in Hz. destruct Hz as (x & <- & Hx). apply filter_In in Hx. destruct Hx as [Hx E].
      apply key_eqb_eq in E. exists x. rewrite fsubset_true in S. auto.
    - intros (x & Hx & E & S). exists (p_zone x). split; [apply in_map, filter_In; split; [exact Hx|apply key_eqb_eq; auto]|].
      apply fsubset_true. exact S. }
  rewrite <- X, <- H. destruct (kget (pair_key p) (w_map w)); [reflexivity|]. simpl. split; discriminate.
Qed.

(** ** Passed *)
Lemma passed_get ps k : forall m, kget k (fold_left (fun m p => passed_put p m) ps m) = kget k m /\ (forall p, In p ps -> pair_key p <> k) \/
  exists f, kget k (fold_left (fun m p => passed_put p m) ps m) = Some f /\ (exists p, In p ps /\ pair_key p = k) /\
    forall dim v, fsem dim f v <-> (exists g, kget k m = Some g /\ fsem dim g v) \/ exists p, In p ps /\ pair_key p = k /\ fsem dim (p_zone p) v.
Proof.
  induction ps as [|p ps IH]; intros m; cbn [fold_left]; [left; split; [reflexivity|intros p []]|].
  assert (G : kget k (passed_put p m) = if key_eqb k (pair_key p) then Some (match kget (pair_key p) m with Some f => funion (p_zone p) f | None => p_zone p end) else kget k m)
    by (unfold passed_put; apply kget_kset).
  destruct (key_eqb k (pair_key p)) eqn:E.
  - apply key_eqb_eq in E. subst k. right.
    set (f0 := match kget (pair_key p) m with Some f => funion (p_zone p) f | None => p_zone p end) in *.
    assert (S0 : forall dim v, fsem dim f0 v <-> fsem dim (p_zone p) v \/ exists g, kget (pair_key p) m = Some g /\ fsem dim g v).
    { intros dim v. unfold f0. destruct (kget (pair_key p) m) as [g|].
      - rewrite funion_sem. split; [intros [A|A]; eauto|intros [A|(g' & Eg & A)]; [auto|injection Eg as <-; auto]].
      - split; [auto|intros [A|(g & Eg & _)]; [exact A|discriminate]]. }
    destruct (IH (passed_put p m)) as [[E1 N]|(f & E1 & _ & S)].
    + exists f0. split; [rewrite E1; exact G|]. split; [exists p; split; [left; reflexivity|reflexivity]|].
      intros dim v. rewrite S0. split; [intros [A|A]; [right; exists p; simpl; auto|auto]|].
      intros [A|(x & [<-|Hx] & Ex & A)]; [auto|auto|]. contradiction (N x Hx Ex).
    + exists f. split; [exact E1|]. split; [exists p; split; [left; reflexivity|reflexivity]|].
      intros dim v. rewrite S. split.
      * intros [(g & Eg & A)|(x & Hx & Ex & A)]; [|right; exists x; simpl; auto].
        assert (g = f0) by congruence. subst g. apply S0 in A. destruct A as [A|A]; [right; exists p; simpl; auto|auto].
      * intros [A|(x & [<-|Hx] & Ex & A)]; [left; exists f0; split; [exact G|apply S0; auto]|left; exists f0; split; [exact G|apply S0; auto]|].
        right. exists x. auto.
  - assert (N0 : pair_key p <> k) by (intros C; subst k; rewrite key_eqb_refl in E; discriminate).
    destruct (IH (passed_put p m)) as [[E1 N]|(f & E1 & (x & Hx & Ex) & S)].
    + left. split; [congruence|]. intros y [<-|Hy]; auto.
    + right. exists f. split; [exact E1|]. split; [exists x; simpl; auto|]. intros dim v. rewrite S, G.
      split; (intros [A|(y & Hy & Ey & A)]; [auto|right; exists y]).
      * simpl; auto.
      * destruct Hy as [<-|Hy]; [contradiction|auto].
Qed.

Lemma passed_has_spec dim ps p : passed_has dim p (fold_left (fun m p => passed_put p m) ps []) = true <->
  (exists x, In x ps /\ pair_key x = pair_key p) /\
  forall v, fsem dim (p_zone p) v -> exists x, In x ps /\ pair_key x = pair_key p /\ fsem dim (p_zone x) v.
Proof.
  unfold passed_has. destruct (passed_get ps (pair_key p) []) as [[E N]|(f & E & X & S)]; rewrite E.
  - cbn [kget]. split; [discriminate|]. intros [(x & Hx & Ex) _]. contradiction (N x Hx Ex).
  - rewrite fsubset_true. split.
    + intros I. split; [exact X|]. intros v Hv. apply I, S in Hv. destruct Hv as [(g & Eg & _)|Hv]; [discriminate|exact Hv].
    + intros [_ I] v Hv. apply S. right. apply I. exact Hv.
Qed.

Lemma vec_get ps k : forall m, kget k (fold_left (fun m p => vec_put p m) ps m) =
  match kget k m with
  | Some l => Some (l ++ map p_zone (filter (fun x => key_eqb k (pair_key x)) ps))
  | None => match filter (fun x => key_eqb k (pair_key x)) ps with [] => None | l => Some (map p_zone l) end
  end.
Proof.
  induction ps as [|p ps IH]; intros m; cbn [fold_left filter].
  - destruct (kget k m); [rewrite app_nil_r|]; reflexivity.
  - rewrite IH. unfold vec_put. rewrite kget_kset. destruct (key_eqb k (pair_key p)) eqn:E.
    + apply key_eqb_eq in E. subst k. destruct (kget (pair_key p) m) as [l|]; [rewrite <- app_assoc|]; reflexivity.
    + reflexivity.
Qed.
Lemma vec_has_spec dim ps p : vec_has dim p (fold_left (fun m p => vec_put p m) ps []) = true <->
  exists x, In x ps /\ pair_key x = pair_key p /\ forall v, fsem dim (p_zone p) v -> fsem dim (p_zone x) v.
Proof.
  unfold vec_has. rewrite vec_get. cbn [kget].
  assert (X : existsb (fsubset dim (p_zone p)) (map p_zone (filter (fun x => key_eqb (pair_key p) (pair_key x)) ps)) = true <->
    exists x, In x ps /\ pair_key x = pair_key p /\ forall v, fsem dim (p_zone p) v -> fsem dim (p_zone x) v).
  { rewrite existsb_exists. split.
    - intros (z & Hz & S). apply in_map_iff in Hz. destruct Hz as (x & <- & Hx). apply filter_In in Hx. destruct Hx as [Hx E].
      apply key_eqb_eq in E. exists x. rewrite fsubset_true in S. auto.
    - intros (x & Hx & E & S). exists (p_zone x). split; [apply in_map, filter_In; split; [exact Hx|apply key_eqb_eq; auto]|].
      apply fsubset_true. exact S. }
  rewrite <- X. destruct (filter _ ps); [simpl; split; discriminate|reflexivity].
Qed.
