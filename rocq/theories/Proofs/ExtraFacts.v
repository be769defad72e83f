(** The classical extrapolation stays within the bounds and leaves finitely many zones. *)
From Coq Require Import List String ZArith QArith Bool Arith Lia Lqa.
From Verif Require Import Fed.Zone Fed.ZoneFacts Fed.Dbm Fed.DbmFacts Model.Base Model.Expr Model.Guard Model.Loc Model.Component Model.TS Model.Extrapolate
  Spec.StepSpec Spec.SystemSpec Spec.RunSpec Spec.PruneSpec Spec.BoundSpec Spec.EndSpec Proofs.GuardFacts Proofs.NearFacts Proofs.FewFacts.
Import ListNotations.
Local Open Scope Q_scope.

Lemma trim_one dim z v : (0 < dim)%nat -> val_ok dim v -> zsem (ztrim dim z) v <-> exists w, (forall i, (i < dim)%nat -> w i == v i) /\ val_ok dim w /\ zsem z w.
Proof.
  intros Hd V. pose proof (ftrim_sem dim [z] v Hd) as F. unfold fsem in F. cbn [ftrim map] in F. split.
  - intros S. destruct (proj1 F) as (_ & w & E & W & z' & [<-|[]] & S'); [split; [exact V|]; exists (ztrim dim z); split; [left; reflexivity|exact S]|]. exists w. auto.
  - intros (w & E & W & S). destruct (proj2 F) as (_ & z' & [<-|[]] & S'); [|exact S']. split; [exact V|]. exists w. split; [exact E|]. split; [exact W|]. exists z. split; [left; reflexivity|exact S].
Qed.
Lemma bsat_same dim m v w : (forall i, (i < dim)%nat -> v i == w i) -> bsat dim m v -> bsat dim m w.
Proof. intros E H i j Hi Hj. eapply bound_sem_eq; [|exact (H i j Hi Hj)]. rewrite (E i Hi), (E j Hj). reflexivity. Qed.
Lemma val_ok_trim dim w : (0 < dim)%nat -> w 0%nat == 0 -> (forall i, (i < dim)%nat -> 0 <= w i) -> val_ok dim w.
Proof. intros _ A B. split; assumption. Qed.

(** What a zone is extrapolated to. *)
Lemma zextra_more dim b z v : (0 < dim)%nat -> val_ok dim v -> zsem z v -> zsem (zextra dim b z) v.
Proof.
  intros Hd V S. unfold zextra. apply dbm_zone_sem, extra_more, close_sem. apply dbm_of_sem; [exact Hd|apply ztrim_vars|apply V|]. split; [exact V|].
  apply trim_one; auto. exists v. split; [reflexivity|auto].
Qed.
Lemma zextra_less dim b z v : (0 < dim)%nat -> zempty dim z = false -> val_ok dim v -> zsem (zextra dim b z) v ->
  exists w, val_ok dim w /\ zsem z w /\ forall i k, (i < dim)%nat -> b i = Some k -> v i == w i \/ inject_Z k < v i /\ inject_Z k < w i.
Proof.
  intros Hd Ne V S. apply zempty_false in Ne. destruct Ne as (u & U & Su).
  assert (Bu : bsat dim (dbm_of dim (ztrim dim z)) u).
  { apply dbm_of_sem; [exact Hd|apply ztrim_vars|apply U|]. split; [exact U|]. apply trim_one; auto. exists u. split; [reflexivity|auto]. }
  unfold zextra in S. apply dbm_zone_sem in S.
  destruct (extra_less dim b _ v Hd (close_tri dim _ u Bu) (close_diag_zero dim _ u Bu) V S) as (w & W0 & Sw & A).
  apply (proj1 (close_sem _ _ _)) in Sw. apply dbm_of_sem in Sw; [|exact Hd|apply ztrim_vars|exact W0]. destruct Sw as [W Sw]. apply trim_one in Sw; auto. destruct Sw as (x & E & X & Sx).
  exists x. split; [exact X|]. split; [exact Sx|]. intros i k Hi Ek. rewrite (E i Hi). apply A; assumption.
Qed.
Lemma zextra_same dim b z v w : (forall i, (i < dim)%nat -> v i == w i) -> zsem (zextra dim b z) v -> zsem (zextra dim b z) w.
Proof. intros E S. unfold zextra in *. apply dbm_zone_sem in S. apply dbm_zone_sem. eapply bsat_same; eassumption. Qed.

Lemma zextra_0 b z : zextra 0 b z = [].
Proof. reflexivity. Qed.
Lemma fextra_more dim b f v : fsem dim f v -> fsem dim (fextra dim b f) v.
Proof.
  intros H. apply fclean_sem in H. destruct H as (V & z & Hz & S). split; [exact V|]. exists (zextra dim b z). split; [apply in_map, Hz|]. destruct dim; [intros c []|]. apply zextra_more; auto; lia.
Qed.
Lemma fextra_loosened dim b f : bounds_below dim b -> loosened dim b f (fextra dim b f).
Proof.
  intros Hb. split; [|split].
  - intros v. apply fextra_more.
  - intros v (V & y & Hy & S). apply in_map_iff in Hy. destruct Hy as (z & <- & Hz). apply filter_In in Hz. destruct Hz as [Hz Ne]. apply negb_true_iff in Ne.
    destruct (Nat.eq_dec dim 0) as [->|Nd].
    { apply zempty_false in Ne. destruct Ne as (w & W & Sw). exists w. split; [split; [exact W|exists z; auto]|]. intros i k E. pose proof (Hb i k E). lia. }
    assert (Hd : (0 < dim)%nat) by lia. destruct (zextra_less dim b z v Hd Ne V S) as (w & W & Sw & A). exists w. split; [split; [exact W|exists z; auto]|]. intros i k E. apply A; [apply (Hb i k E)|exact E].
  - intros _ v w V W E (_ & y & Hy & S). split; [exact W|]. exists y. split; [exact Hy|]. apply in_map_iff in Hy. destruct Hy as (z & <- & Hz). eapply zextra_same; eassumption.
Qed.

(** ** Finitely many zones *)
Definition greatest (dim : nat) (b : nat -> option Z) : Z := fold_right Z.max 0%Z (map (fun i => match b i with Some k => Z.abs k | None => 0%Z end) (seq 0 dim)).
Lemma greatest_ge dim b i k : (i < dim)%nat -> b i = Some k -> (- greatest dim b <= k <= greatest dim b)%Z.
Proof.
  intros Hi E. assert (H : (Z.abs k <= greatest dim b)%Z); [|lia]. unfold greatest. assert (Hin : In i (seq 0 dim)) by (apply in_seq; lia).
  induction (seq 0 dim) as [|j js IH]; [destruct Hin|]. cbn [map fold_right]. destruct Hin as [->|Hin]; [rewrite E; lia|specialize (IH Hin); lia].
Qed.
Lemma greatest_pos dim b : (0 <= greatest dim b)%Z.
Proof. unfold greatest. induction (seq 0 dim) as [|j js IH]; [apply Z.le_refl|]. cbn [map fold_right]. lia. Qed.
Lemma max_bound_ge dim b i k : (i < dim)%nat -> max_bound b i = Some k -> (- greatest dim b <= k <= greatest dim b)%Z.
Proof. intros Hi E. unfold max_bound in E. destruct (Nat.eqb i 0); [injection E as <-; pose proof (greatest_pos dim b); lia|]. apply (greatest_ge dim b i); assumption. Qed.
Lemma fextra_agree dim b f v w : fsem dim (fextra dim b f) v -> val_ok dim w -> agree (greatest dim b) dim v w -> fsem dim (fextra dim b f) w.
Proof.
  intros (V & y & Hy & S) W A. split; [exact W|]. exists y. split; [exact Hy|]. apply in_map_iff in Hy. destruct Hy as (z & <- & Hz). unfold zextra in *. apply dbm_zone_sem in S. apply dbm_zone_sem.
  set (m := close dim (dbm_of dim (ztrim dim z))) in *. intros i j Hi Hj. specialize (S i j Hi Hj). unfold extra in *. rewrite dget_make in * by assumption. unfold extra_bound in *.
  destruct (Nat.eqb_spec i j) as [->|N]; [eapply bound_sem_eq; [|exact S]; ring|]. destruct (dget m i j) as [[s c]|]; [|exact I].
  destruct (max_bound b i) as [u|] eqn:Eu; [|exact I]. destruct (max_bound b j) as [l|] eqn:El; [|exact I].
  pose proof (max_bound_ge dim b i u Hi Eu). pose proof (max_bound_ge dim b j l Hj El). destruct (Z.ltb_spec u c); [exact I|].
  destruct (Z.ltb_spec c (- l)); [change (csem (mkC i j true (- l)) w); change (csem (mkC i j true (- l)) v) in S|change (csem (mkC i j s c) w); change (csem (mkC i j s c) v) in S]; apply A in S; auto; lia.
Qed.
Lemma fextra_few dim b : few dim (fextra dim b).
Proof. apply (few_agree dim (greatest dim b)). intros f v w H W A. eapply fextra_agree; eauto. Qed.

(** ** Of states and pairs *)
Lemma constant_few dim g : few dim (fun _ => g).
Proof. exists [g]. intros f. exists g. split; [left; reflexivity|reflexivity]. Qed.
Lemma max_ext_few dim s l : few dim (max_ext dim s l).
Proof. unfold max_ext. destruct (local_bounds s l); try apply constant_few. apply fextra_few. Qed.
Lemma max_xext_few dim s b l : few dim (max_xext dim s b l).
Proof. unfold max_xext. destruct (local_bounds s l); try apply constant_few. apply fextra_few. Qed.
Lemma max_pext_few dim s1 s2 l1 l2 : few dim (max_pext dim s1 s2 l1 l2).
Proof. unfold max_pext. destruct (local_bounds s1 l1); try apply constant_few. destruct (local_bounds s2 l2); try apply constant_few. apply fextra_few. Qed.
Lemma max_ext_more dim s l f v : fsem dim f v -> fsem dim (max_ext dim s l f) v.
Proof. intros H. unfold max_ext. destruct (local_bounds s l); try (apply funiv_sem; eapply fsem_ok; exact H). apply fextra_more, H. Qed.
Lemma max_xext_more dim s b l f v : fsem dim f v -> fsem dim (max_xext dim s b l f) v.
Proof. intros H. unfold max_xext. destruct (local_bounds s l); try (apply funiv_sem; eapply fsem_ok; exact H). apply fextra_more, H. Qed.
Lemma max_pext_more dim s1 s2 l1 l2 f v : fsem dim f v -> fsem dim (max_pext dim s1 s2 l1 l2 f) v.
Proof.
  intros H. unfold max_pext. destruct (local_bounds s1 l1); try (apply funiv_sem; eapply fsem_ok; exact H). destruct (local_bounds s2 l2); try (apply funiv_sem; eapply fsem_ok; exact H). apply fextra_more, H.
Qed.
Lemma max_within dim s : within_bounds dim (max_ext dim) s.
Proof. intros l b f E D. unfold max_ext. rewrite E. apply fextra_loosened, D. Qed.
Lemma max_pair_within dim s1 s2 : pair_within_bounds dim (max_pext dim s1 s2) s1 s2.
Proof.
  intros l1 l2 b1 b2 f E1 E2 D1 D2. unfold max_pext. rewrite E1, E2. apply fextra_loosened. intros i k E. unfold bounds_join in E.
  pose proof (D1 i) as X. pose proof (D2 i) as Y. destruct (b1 i) as [a|], (b2 i) as [c|]; cbn in E; try discriminate; eauto.
Qed.
