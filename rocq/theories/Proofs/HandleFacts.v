(** Facts about the requests of the server. *)
From Coq Require Import List String Ascii ZArith QArith Bool Arith Lia.
From Verif Require Import Fed.Zone Model.Base Model.Expr Model.Guard Model.Loc Model.Component Model.Enable Model.TS Model.ParseQuery Model.Peg Model.ParseEdge Model.Files Model.Xml Model.Server
  Model.Recipe Model.Reduce Model.Loader Model.Search Model.Sim Model.Wire Model.Exec Model.Failure Model.Handle
  Spec.FileSpec Spec.RecipeSpec Spec.EnableSpec Spec.LoaderSpec Spec.ServerSpec Spec.ExecSpec Spec.HandleSpec Proofs.GuardFacts Proofs.FileFacts Proofs.LoaderFacts Proofs.ServerFacts.
Import ListNotations.
Local Open Scope nat_scope.

Lemma parsed_decodes : forall ps cs, parsed decode_rep ps = Ok cs <-> decodes ps cs.
Proof.
  induction ps as [|p ps IH]; intros cs; cbn [parsed].
  - split; [intros [= <-]; constructor|]. intros H. inversion H. reflexivity.
  - split.
    + destruct (decode_rep p) as [l| | |] eqn:E; cbn [bind]; try discriminate; intros H; inv_bind H; injection H as <-; apply IH in H0; [apply dec_take|apply dec_skip]; assumption.
    + intros H. inversion H; subst; rewrite H2; cbn [bind]; match goal with X : decodes ps _ |- _ => apply IH in X; rewrite X end; reflexivity.
Qed.
Lemma built_container minc : forall cs m, build_map minc cs m = container minc cs m.
Proof. induction cs as [|c cs IH]; intros m; [reflexivity|]. cbn. destruct (make_input_enabled _ _ _); cbn; auto. Qed.
Lemma built_sent minc ps m : build minc decode_rep ps = Ok m -> as_sent minc ps (in_container m).
Proof.
  unfold build. intros E. inv_bind E. exists a. split; [apply parsed_decodes; exact H|]. rewrite built_container in E. intros n c.
  rewrite <- (container_prepared minc a m E n c). unfold in_container. destruct (get_loaded m n); split; congruence.
Qed.
Lemma as_sent_same minc ps load load' : as_sent minc ps load -> as_sent minc ps load' -> forall n, load n = load' n.
Proof.
  intros (cs & D & H) (cs' & D' & H') n. apply parsed_decodes in D, D'. rewrite D in D'. injection D' as <-.
  destruct (load n) as [c|] eqn:E; [symmetry; apply H', H; exact E|]. destruct (load' n) as [c|] eqn:E'; [|reflexivity]. rewrite <- E. apply H, H'. exact E'.
Qed.

Lemma decoded_sound f c : sound_file f -> decode_component f = Ok c -> clocks_numbered (c_decls c) /\ good_resets c /\ named_guards c.
Proof.
  intros S E. apply (in_file_sound (fun _ f => f) (fun _ => Some f) (mkSpec [] [] []) (c_name c) c); [intros f' [= <-]; exact S|].
  exists f, c. repeat split; auto.
Qed.
Lemma sent_loadable minc ps load : (forall p, In p ps -> sound_rep p) -> as_sent minc ps load -> loadable load.
Proof.
  intros S (cs & D & H) n c E. apply H in E. destruct E as (c0 & (pre & post & -> & _) & P).
  assert (G : forall ps cs, (forall p, In p ps -> sound_rep p) -> decodes ps cs -> forall x, In x cs -> clocks_numbered (c_decls x) /\ good_resets x /\ named_guards x).
  { clear. intros ps cs S D. induction D as [|p ps cs E D IH|p l ps cs E D IH]; intros x Hx; [destruct Hx|apply IH; [intros; apply S; right; assumption|exact Hx]|].
    apply in_app_or in Hx. destruct Hx as [Hx|Hx]; [|apply IH; [intros; apply S; right; assumption|exact Hx]]. pose proof (S p (or_introl eq_refl)) as Sp. destruct p as [|[f|]|root]; cbn in E, Sp.
    - injection E as <-. destruct Hx.
    - inv_bind E. injection E as <-. destruct Hx as [<-|[]]. eapply decoded_sound; eassumption.
    - discriminate.
    - inv_bind E. destruct a as [cs' sp]. injection E as <-. eapply Sp; eauto. }
  destruct (G _ _ S D c0) as (K & R & N); [apply in_or_app; right; left; reflexivity|].
  destruct (enabled_edges _ _ _ _ P) as (es & -> & X). unfold good_resets, named_guards. cbn [c_decls c_locs c_edges]. split; [exact K|]. split.
  - intros e us He Eu. apply in_app_or in He. destruct He as [He|He]; [eapply R; eassumption|]. destruct (X e He). congruence.
  - split; [apply N|]. intros e g He Eg. apply in_app_or in He. destruct He as [He|He]; [eapply N; eassumption|]. destruct (X e He) as [_ Y]. auto.
Qed.

(** What a reply was made of. *)
Lemma served_own chs minc cap es sv u h ps c x : serve chs minc cap es = Ok sv -> honest (arrivals es) -> got sv u h ps c x ->
  catch_unwind (do _ <- prepare c; do m <- build minc decode_rep ps; respond chs c m) = Some x.
Proof.
  unfold serve. destruct (Nat.eqb_spec cap 0) as [|Nz]; [discriminate|]. intros [= <-] Ho G. apply In_nth_error in G. destruct G as [i G].
  exact (isolated minc decode_rep prepare (respond chs) cap ltac:(lia) es i _ x Ho G ltac:(discriminate)).
Qed.
Lemma served_ok chs minc cap es sv u h ps c y : serve chs minc cap es = Ok sv -> honest (arrivals es) -> got sv u h ps c (ToOk y) ->
  exists m, as_sent minc ps (in_container m) /\ respond chs c m = Ok y.
Proof.
  intros E Ho G. pose proof (served_own _ _ _ _ _ _ _ _ _ _ E Ho G) as X.
  assert (Y : (do _ <- prepare c; do m <- build minc decode_rep ps; respond chs c m) = Ok y).
  { destruct (do _ <- prepare c; do m <- build minc decode_rep ps; respond chs c m); cbn in X; try discriminate. injection X as ->. reflexivity. }
  inv_bind Y. inv_bind Y. exists a0. split; [apply built_sent; assumption|exact Y].
Qed.
