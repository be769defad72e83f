(** Runs, location identity, and what guards and invariants read. *)
From Coq Require Import List String ZArith QArith Bool Arith Lia Lqa.
From Verif Require Import Fed.Zone Fed.ZoneFacts Model.Base Model.Expr Model.Guard Model.Loc Model.Component Model.TS
  Spec.StepSpec Spec.SystemSpec Spec.RunSpec Proofs.GuardFacts Proofs.StepFacts Proofs.SystemFacts Proofs.QuotientFacts Proofs.WfFacts.
Import ListNotations.
Local Open Scope Q_scope.

(** ** A location is determined by its id *)
Lemma keep_last_inj l : forall a b, In a (keep_last l) -> In b (keep_last l) -> lt_id a = lt_id b -> a = b.
Proof.
  induction l as [|x l IH]; simpl; intros a b Ha Hb E; [contradiction|].
  destruct (existsb (fun u => locid_eqb (lt_id x) (lt_id u)) l) eqn:X; [auto|].
  assert (N : forall u, In u (keep_last l) -> lt_id u <> lt_id x).
  { intros u Hu C. apply keep_last_in in Hu.
    assert (existsb (fun u => locid_eqb (lt_id x) (lt_id u)) l = true); [|congruence].
    apply existsb_exists. exists u. split; [exact Hu|]. apply locid_eqb_eq. auto. }
  destruct Ha as [<-|Ha], Hb as [<-|Hb]; auto; exfalso; eapply N; eauto.
Qed.

Lemma compose_id dim a b c p : lt_compose dim a b c = Ok p -> 
  (c = CConj /\ lt_id p = LConj (lt_id a) (lt_id b)) \/ (c = CComp /\ lt_id p = LComp (lt_id a) (lt_id b)).
Proof. unfold lt_compose. destruct c; simpl; intros E; try discriminate; injection E as <-; auto. Qed.

Lemma location_inj dim s : built dim s -> forall a b, In a (all_locations dim s) -> In b (all_locations dim s) ->
  lt_id a = lt_id b -> a = b.
Proof.
  induction 1 as [c ins outs id cc E|l r s Hl IHl Hr IHr E|l r s Hl IHl Hr IHr E|T S q s HT IHT HS IHS E]; intros a b Ha Hb Eid.
  - cbn [all_locations] in *. destruct (compile_inv _ _ _ _ _ _ E) as (ls & es & _ & _ & Ec & _).
    rewrite Ec in *. eapply keep_last_inj; eauto.
  - apply conjunction_new_inv in E. destruct E as (-> & _ & _). cbn [all_locations] in *.
    apply in_all_compose in Ha; [|left; reflexivity]. apply in_all_compose in Hb; [|left; reflexivity].
    destruct Ha as (a1 & a2 & A1 & A2 & Ea), Hb as (b1 & b2 & B1 & B2 & Eb).
    destruct (compose_id _ _ _ _ _ Ea) as [[_ Ia]|[? _]]; [|discriminate].
    destruct (compose_id _ _ _ _ _ Eb) as [[_ Ib]|[? _]]; [|discriminate].
    rewrite Ia, Ib in Eid. injection Eid as E1 E2. rewrite (IHl _ _ A1 B1 E1), (IHr _ _ A2 B2 E2) in Ea. congruence.
  - apply composition_new_inv in E. destruct E as (_ & ins & outs & lo & ro & co & -> & _). cbn [all_locations] in *.
    apply in_all_compose in Ha; [|right; reflexivity]. apply in_all_compose in Hb; [|right; reflexivity].
    destruct Ha as (a1 & a2 & A1 & A2 & Ea), Hb as (b1 & b2 & B1 & B2 & Eb).
    destruct (compose_id _ _ _ _ _ Ea) as [[? _]|[_ Ia]]; [discriminate|].
    destruct (compose_id _ _ _ _ _ Eb) as [[? _]|[_ Ib]]; [discriminate|].
    rewrite Ia, Ib in Eid. injection Eid as E1 E2. rewrite (IHl _ _ A1 B1 E1), (IHr _ _ A2 B2 E2) in Ea. congruence.
  - apply quotient_new_inv in E. destruct E as (n & ins & outs & -> & _). cbn [all_locations] in *.
    apply in_app_or in Ha, Hb.
    assert (Q : forall x, In x (map (fun p => lt_quotient (fst p) (snd p)) (list_prod (all_locations dim T) (all_locations dim S))) ->
              exists u w, In u (all_locations dim T) /\ In w (all_locations dim S) /\ x = lt_quotient u w).
    { intros x Hx. apply in_map_iff in Hx. destruct Hx as ([u w] & <- & Hp). apply in_prod_iff in Hp. exists u, w. tauto. }
    destruct Ha as [Ha|Ha], Hb as [Hb|Hb].
    + apply Q in Ha, Hb. destruct Ha as (a1 & a2 & A1 & A2 & ->), Hb as (b1 & b2 & B1 & B2 & ->).
      cbn [lt_id lt_quotient] in Eid. injection Eid as E1 E2. rewrite (IHT _ _ A1 B1 E1), (IHS _ _ A2 B2 E2). reflexivity.
    + apply Q in Ha. destruct Ha as (a1 & a2 & A1 & A2 & ->). destruct Hb as [<-|[<-|[]]]; discriminate.
    + apply Q in Hb. destruct Hb as (a1 & a2 & A1 & A2 & ->). destruct Ha as [<-|[<-|[]]]; discriminate.
    + destruct Ha as [<-|[<-|[]]], Hb as [<-|[<-|[]]]; try discriminate; reflexivity.
Qed.

(** ** Weak runs: only the moments of action count *)
Inductive entry (dim : nat) (s : ts) : loctree -> val -> Prop :=
| entry_init l : initial_location dim s = Some l -> entry dim s l zero_val
| entry_step l w d a t : entry dim s l w -> 0 <= d -> offered dim s l a t -> able dim l t (vdelay w d) ->
    entry dim s (t_target t) (run_updates (t_updates t) (vdelay w d)).

Lemma entry_ext_run dim s l0 : initial_location dim s = Some l0 ->
  forall l v, run dim s l0 zero_val l v -> exists w d, entry dim s l w /\ 0 <= d /\ veq v (vdelay w d).
Proof.
  intros Hi l v R. induction R as [|l' v' d R IH Hd Hinv|l' v' a t R IH Ho Ha].
  - exists zero_val, 0. split; [constructor; exact Hi|]. split; [lra|]. symmetry. apply vdelay_zero. reflexivity.
  - destruct IH as (w & e & He & He0 & Ev). exists w, (e + d). split; [exact He|]. split; [lra|].
    rewrite <- vdelay_add. apply vdelay_ext; [exact Ev|reflexivity].
  - destruct IH as (w & e & He & He0 & Ev). exists (run_updates (t_updates t) (vdelay w e)), 0.
    split; [|split; [lra|]].
    + eapply entry_step; eauto. destruct Ha as (A1 & A2 & A3). split; [|split].
      * eapply inv_at_ext; eauto.
      * eapply fsem_ext; eauto.
      * eapply inv_at_ext; [|exact A3]. apply run_updates_ext. exact Ev.
    + rewrite vdelay_zero by reflexivity. apply run_updates_ext. exact Ev.
Qed.

Lemma run_inv dim s l0 v0 l v : run dim s l0 v0 l v -> inv_at dim l0 v0 -> inv_at dim l v.
Proof.
  induction 1 as [|l' v' d R IH Hd Hinv|l' v' a t R IH Ho Ha]; intros H0; auto.
  - apply Hinv; lra.
  - apply Ha.
Qed.

Lemma reachable_entry dim s l v : reachable dim s l v ->
  inv_at dim l v /\ exists w d, entry dim s l w /\ 0 <= d /\ veq v (vdelay w d).
Proof.
  intros (l0 & Hi & H0 & R). split; [eapply run_inv; eauto|]. eapply entry_ext_run; eauto.
Qed.

Lemma entry_wf dim s : built dim s -> forall l w, entry dim s l w -> In l (all_locations dim s).
Proof.
  intros B l w E. induction E as [l Hi|l w d a t E IH Hd [Ha (ts & Ets & Ht)] Hab].
  - eapply initial_wf; eauto.
  - destruct (next_wf dim s B l a IH Ha) as (ts' & E' & T). rewrite Ets in E'. injection E' as <-. auto.
Qed.

Lemma run_wf dim s : built dim s -> forall l0 v0 l v, run dim s l0 v0 l v -> In l0 (all_locations dim s) -> In l (all_locations dim s).
Proof.
  intros B l0 v0 l v R H0. induction R as [|l' v' d R IH Hd Hinv|l' v' a t R IH [Ha (ts & Ets & Ht)] Hab]; auto.
  destruct (next_wf dim s B l' a IH Ha) as (ts' & E' & T). rewrite Ets in E'. injection E' as <-. auto.
Qed.

(** ** Reading only some clocks *)
Definition agree (xs : list nat) (v w : val) : Prop := forall x, In x xs -> v x == w x.

Lemma fclocks_sem dim xs f v w : fclocks_in xs f -> agree xs v w -> val_ok dim v -> val_ok dim w -> fsem dim f v -> fsem dim f w.
Proof.
  intros F A Hv Hw (_ & z & Hz & Hs). split; [exact Hw|]. exists z. split; [exact Hz|]. intros c Hc.
  destruct (F z c Hz Hc) as [Fi Fj]. specialize (Hs c Hc). unfold csem in *.
  assert (Ei : v (ci c) == w (ci c)). { destruct Fi as [->|Fi]; [destruct Hv as [-> _], Hw as [-> _]; reflexivity|apply A; exact Fi]. }
  assert (Ej : v (cj c) == w (cj c)). { destruct Fj as [->|Fj]; [destruct Hv as [-> _], Hw as [-> _]; reflexivity|apply A; exact Fj]. }
  eapply ilt_ext; [| |exact Hs]; [rewrite Ei, Ej|]; reflexivity.
Qed.

Lemma agree_sym xs v w : agree xs v w -> agree xs w v.
Proof. intros H x Hx. symmetry. auto. Qed.
Lemma agree_trans xs u v w : agree xs u v -> agree xs v w -> agree xs u w.
Proof. intros H1 H2 x Hx. rewrite (H1 x Hx). auto. Qed.
Lemma agree_veq xs v w : veq v w -> agree xs v w.
Proof. intros H x _. apply H. Qed.
Lemma agree_app xs ys v w : agree (xs ++ ys) v w <-> agree xs v w /\ agree ys v w.
Proof.
  unfold agree. split.
  - intros H. split; intros x Hx; apply H, in_or_app; auto.
  - intros [H1 H2] x Hx. apply in_app_or in Hx. destruct Hx; auto.
Qed.
Lemma agree_delay xs v w d : ~ In 0%nat xs \/ v 0%nat == w 0%nat -> agree xs v w -> agree xs (vdelay v d) (vdelay w d).
Proof.
  intros H0 H x Hx. unfold vdelay. destruct (Nat.eqb_spec x 0); [|rewrite (H x Hx); reflexivity].
  subst x. destruct H0 as [H0|H0]; [contradiction|exact H0].
Qed.
Lemma agree_updates xs us v w : agree xs v w -> agree xs (run_updates us v) (run_updates us w).
Proof.
  revert v w. induction us as [|u us IH]; intros v w H; [exact H|]. cbn [run_updates fold_left].
  apply IH. intros x Hx. unfold vset. destruct (Nat.eqb x (u_clock u)); [reflexivity|auto].
Qed.
Lemma agree_foreign xs us v : (forall u, In u us -> ~ In (u_clock u) xs) -> agree xs (run_updates us v) v.
Proof. intros H x Hx. rewrite run_updates_out; [reflexivity|]. intros u Hu E. eapply H; eauto. rewrite E. exact Hx. Qed.
