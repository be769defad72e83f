(** Finitely many sets: what cannot be told apart with constants up to a bound, and enlarging zones beyond the bounds completely. *)
From Coq Require Import List String ZArith QArith Bool Arith Lia Lqa.
From Verif Require Import Fed.Zone Fed.ZoneFacts Fed.Dbm Model.Base Model.Expr Model.Guard Model.Loc Model.Component Model.TS
  Spec.StepSpec Spec.SystemSpec Spec.RunSpec Spec.PruneSpec Spec.BoundSpec Spec.EndSpec Proofs.GuardFacts.
Import ListNotations.
Local Open Scope Q_scope.

(** ** Cells *)
(** The differences of two clocks compare in the same way with the constants from [-K] to [K]. *)
Definition agree (K : Z) (dim : nat) (v w : val) : Prop :=
  forall i j s c, (i < dim)%nat -> (j < dim)%nat -> (- K <= c <= K)%Z -> csem (mkC i j s c) v <-> csem (mkC i j s c) w.
Lemma agree_sym K dim v w : agree K dim v w -> agree K dim w v.
Proof. intros H i j s c I J C. symmetry. apply H; assumption. Qed.

Definition constants (K : Z) : list Z := map (fun n => Z.of_nat n - K)%Z (seq 0 (Z.to_nat (2 * K + 1))).
Lemma in_constants K c : (- K <= c <= K)%Z -> In c (constants K).
Proof. intros H. apply in_map_iff. exists (Z.to_nat (c + K)). split; [lia|]. apply in_seq. lia. Qed.
Definition signs (K : Z) (dim : nat) : list dcon :=
  flat_map (fun i => flat_map (fun j => flat_map (fun c => [mkC i j false c; mkC i j true c]) (constants K)) (seq 0 dim)) (seq 0 dim).
Lemma in_signs K dim i j s c : (i < dim)%nat -> (j < dim)%nat -> (- K <= c <= K)%Z -> In (mkC i j s c) (signs K dim).
Proof.
  intros I J C. apply in_flat_map. exists i. split; [apply in_seq; lia|]. apply in_flat_map. exists j. split; [apply in_seq; lia|].
  apply in_flat_map. exists c. split; [apply in_constants, C|]. destruct s; cbn; auto.
Qed.
(** Every choice of constraints and negated constraints. *)
Fixpoint cells (cs : list dcon) : list zone :=
  match cs with [] => [[]] | c :: cs' => map (cons c) (cells cs') ++ map (cons (cneg c)) (cells cs') end.
Lemma cell_of cs v : exists z, In z (cells cs) /\ zsem z v.
Proof.
  induction cs as [|c cs (z & Hz & S)]; [exists []; split; [left; reflexivity|intros c []]|].
  destruct (csem_dec c v) as [T|F].
  - exists (c :: z). split; [apply in_or_app; left; apply in_map, Hz|]. apply zsem_cons. auto.
  - exists (cneg c :: z). split; [apply in_or_app; right; apply in_map, Hz|]. apply zsem_cons. split; [apply csem_cneg, F|exact S].
Qed.
Lemma cell_agree cs : forall z v w, In z (cells cs) -> zsem z v -> zsem z w -> forall c, In c cs -> csem c v <-> csem c w.
Proof.
  induction cs as [|c cs IH]; intros z v w Hz V W x Hx; [destruct Hx|]. cbn [cells] in Hz. apply in_app_or in Hz.
  destruct Hz as [Hz|Hz]; apply in_map_iff in Hz; destruct Hz as (z' & <- & Hz); apply zsem_cons in V, W; destruct V as [V1 V2], W as [W1 W2];
    (destruct Hx as [<-|Hx]; [|exact (IH z' v w Hz V2 W2 x Hx)]).
  - tauto.
  - apply csem_cneg in V1, W1. tauto.
Qed.
Fixpoint sublists {A} (l : list A) : list (list A) :=
  match l with [] => [[]] | a :: l' => map (cons a) (sublists l') ++ sublists l' end.
Lemma filter_sublist {A} (p : A -> bool) l : In (filter p l) (sublists l).
Proof. induction l as [|a l IH]; [left; reflexivity|]. cbn [filter sublists]. apply in_or_app. destruct (p a); [left; apply in_map, IH|right; exact IH]. Qed.

(** Sets that do not tell apart what agrees are finitely many. *)
Lemma few_agree dim K (F : fed -> fed) : (forall f v w, fsem dim (F f) v -> val_ok dim w -> agree K dim v w -> fsem dim (F f) w) -> few dim F.
Proof.
  intros H. exists (sublists (cells (signs K dim))). intros f.
  exists (filter (fun z => fmeets dim [z] (F f)) (cells (signs K dim))). split; [apply filter_sublist|]. intros v. split.
  - intros Hv. destruct (cell_of (signs K dim) v) as (z & Hz & S). split; [exact (fsem_ok _ _ _ Hv)|]. exists z. split; [|exact S].
    apply filter_In. split; [exact Hz|]. apply fmeets_true. exists v. split; [|exact Hv]. split; [exact (fsem_ok _ _ _ Hv)|]. exists z. split; [left; reflexivity|exact S].
  - intros (V & z & Hz & S). apply filter_In in Hz. destruct Hz as [Hz Me]. apply fmeets_true in Me. destruct Me as (u & (_ & z' & [<-|[]] & Su) & Hu).
    apply (H f u v Hu V). intros i j s c I J C. exact (cell_agree _ z u v Hz Su S _ (in_signs K dim i j s c I J C)).
Qed.

(** ** Clocks that do not exist *)
Lemma zelim_rest dim xs ys : forall z, ~ In 0%nat xs -> cvars_in (xs ++ ys) z -> cvars_in ys (zelim dim xs z).
Proof.
  induction xs as [|x xs IH]; intros z H0 Hz; [exact Hz|]. cbn [zelim fold_left]. apply IH; [intros H; apply H0; right; exact H|]. apply zfree_vars; [|exact Hz].
  intros ->. apply H0. left. reflexivity.
Qed.
Lemma ztrim_vars dim z : cvars_in (seq 1 (dim - 1)) (ztrim dim z).
Proof.
  unfold ztrim. assert (N : ~ In 0%nat (filter (fun i => Nat.leb dim i) (zvars z))).
  { intros H. apply filter_In in H. exact (zvars_no0 z (proj1 H)). }
  apply zelim_rest; [exact N|]. intros c Hc. destruct (zvars_cover z c Hc) as [A B].
  assert (X : forall x, x = 0%nat \/ In x (zvars z) -> x = 0%nat \/ In x (filter (fun i => Nat.leb dim i) (zvars z) ++ seq 1 (dim - 1))).
  { intros x [->|Hx]; [left; reflexivity|]. destruct (Nat.eq_dec x 0) as [->|Nx]; [left; reflexivity|]. right. apply in_or_app.
    destruct (Nat.leb_spec dim x) as [L|L]; [left; apply filter_In; split; [exact Hx|apply Nat.leb_le, L]|right; apply in_seq; lia]. }
  split; apply X; assumption.
Qed.
Lemma ftrim_sem dim f v : (0 < dim)%nat -> fsem dim (ftrim dim f) v <-> val_ok dim v /\ exists w, (forall i, (i < dim)%nat -> w i == v i) /\ fsem dim f w.
Proof.
  intros Hd. assert (N : forall z, ~ In 0%nat (filter (fun i => Nat.leb dim i) (zvars z))).
  { intros z H. apply filter_In in H. exact (zvars_no0 z (proj1 H)). }
  split.
  - intros (V & z & Hz & S). split; [exact V|]. apply in_map_iff in Hz. destruct Hz as (z0 & <- & Hz). apply (zelim_sem dim _ z0 v (N z0) (proj1 V)) in S.
    destruct S as (w & E & _ & S). assert (E' : forall i, (i < dim)%nat -> w i == v i).
    { intros i Hi. apply E. intros H. apply filter_In in H. destruct H as [_ H]. apply Nat.leb_le in H. lia. }
    exists w. split; [exact E'|]. split; [|exists z0; auto]. split; [rewrite E' by lia; apply V|]. intros i Hi. rewrite E' by exact Hi. apply V, Hi.
  - intros (V & w & E & (W & z & Hz & S)). split; [exact V|]. exists (ztrim dim z). split; [apply in_map, Hz|]. apply (zelim_sem dim _ z v (N z) (proj1 V)).
    exists (fun i => if existsb (Nat.eqb i) (filter (fun i => Nat.leb dim i) (zvars z)) then w i else v i). cbv beta. split; [|split].
    + intros i Hi. destruct (existsb _ _) eqn:X; [|reflexivity]. exfalso. apply Hi. apply existsb_exists in X. destruct X as (j & Hj & X). apply Nat.eqb_eq in X. subst. exact Hj.
    + intros i Hi L. apply filter_In in Hi. destruct Hi as [_ Hi]. apply Nat.leb_le in Hi. lia.
    + eapply zvars_free_outside; [apply W| | |exact S].
      * destruct (existsb _ _); [apply W|apply V].
      * intros i Hi. destruct (existsb _ _) eqn:X; [reflexivity|]. destruct (Nat.ltb_spec i dim) as [L|L]; [apply E, L|]. exfalso. apply not_true_iff_false in X. apply X.
        apply existsb_exists. exists i. split; [|apply Nat.eqb_refl]. apply filter_In. split; [exact Hi|apply Nat.leb_le, L].
Qed.
