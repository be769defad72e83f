(** The component a query creates stands for the expression it was made of. *)
From Coq Require Import List String ZArith QArith Bool Arith Lia Lqa Permutation.
From Verif Require Import Fed.Zone Fed.ZoneFacts Model.Base Model.Expr Model.Guard Model.Loc Model.Component Model.TS Model.ParseQuery Model.Files Model.Recipe Model.Reduce Model.Enable Model.Save
  Spec.GuardSpec Spec.ConvSpec Spec.StepSpec Spec.SystemSpec Spec.RunSpec Spec.EnableSpec Spec.RecipeSpec Spec.RefineSpec Spec.ReduceSpec Spec.SameSpec Spec.IdSpec Spec.SaveSpec Spec.ExecSpec Spec.LawSpec Spec.StandSpec
  Proofs.GuardFacts Proofs.EnableFacts Proofs.StepFacts Proofs.SystemFacts Proofs.WfFacts Proofs.RunFacts Proofs.ReadsFacts Proofs.RecipeFacts Proofs.TwoFacts Proofs.ReduceFacts Proofs.RenFacts Proofs.SameFacts Proofs.BisimFacts Proofs.ShrinkFacts Proofs.ClockMapFacts Proofs.SaveFacts Proofs.SavedFacts Proofs.StoreFacts Proofs.LoaderFacts Proofs.ExecFacts Proofs.LawFacts Proofs.PlaceFacts Proofs.AcrossFacts.
Import ListNotations.
Local Open Scope nat_scope.
Local Open Scope list_scope.

(** ** Systems that refine the same systems *)
Definition startable (d : nat) (s : ts) : Prop := forall l, initial_location d s = Some l -> inv_at d l zero_val.
Definition alike (d : nat) (s : ts) (d' : nat) (s' : ts) : Prop :=
  (forall a, is_input s' a <-> is_input s a) /\ (forall a, is_output s' a <-> is_output s a) /\ (startable d s <-> startable d' s') /\
  (startable d s -> hrefines d s d' s' /\ hrefines d' s' d s).
Lemma alike_sym d s d' s' : alike d s d' s' -> alike d' s' d s.
Proof. intros (A & B & C & D). repeat split; try (intros; symmetry; auto); try apply C; apply A || apply B || (intros; apply D, C; assumption) || auto. all: apply D, C; assumption. Qed.
Lemma alike_trans d1 s1 d2 s2 d3 s3 : alike d1 s1 d2 s2 -> alike d2 s2 d3 s3 -> alike d1 s1 d3 s3.
Proof.
  intros (A & B & C & D) (A' & B' & C' & D'). split; [intros a; rewrite A'; apply A|]. split; [intros a; rewrite B'; apply B|]. split; [tauto|].
  intros St. destruct (D St) as [D1 D2]. destruct (D' (proj1 C St)) as [E1 E2]. split.
  - eapply hrefines_trans; [| |exact D1|exact E1]; intros a H1 _; [apply B|apply A]; exact H1.
  - eapply hrefines_trans; [| |exact E2|exact D2]; intros a H1 H2; [apply B|apply A]; assumption.
Qed.
Lemma same_alike d s d' s' : same_behaviour d s d' s' -> alike d s d' s'.
Proof.
  intros Sm. pose proof (same_sym _ _ _ _ Sm) as Ms. split; [apply Sm|]. split; [apply Sm|]. assert (I : startable d s <-> startable d' s') by (split; intros St l E; [eapply (same_startable _ _ _ _ Sm); eauto|eapply (same_startable _ _ _ _ Ms); eauto]).
  split; [exact I|]. intros St. split; [apply same_hrefines; [exact Sm|exact St]|apply same_hrefines; [exact Ms|apply I, St]].
Qed.
Lemma alike_refines d s t d' s' t' : alike d s d' s' -> alike d t d' t' -> (refines d s t <-> refines d' s' t').
Proof.
  assert (K : forall d s t d' s' t', alike d s d' s' -> alike d t d' t' -> refines d s t -> refines d' s' t').
  { clear. intros d s t d' s' t' (A & B & C & D) (A' & B' & C' & D') R. destruct (D (refines_starts _ _ _ R)) as [_ H1]. destruct (D' (refines_ends _ _ _ R)) as [H3 _]. apply hrefines_one in R. apply hrefines_one.
    assert (R2 : hrefines d' s' d t) by (eapply hrefines_trans; [| |exact H1|exact R]; intros a X Y; [apply B|apply A]; assumption).
    eapply hrefines_trans; [| |exact R2|exact H3]; intros a X Y; [apply B'|apply A']; assumption. }
  intros S T. split; apply K; auto; apply alike_sym; assumption.
Qed.

(** A saved system and its component. *)
Lemma behaves_alike d s ls s' : behaves_as d s ls s' -> alike d s d s'.
Proof.
  intros (Hi & Ho & M & I). split; [exact Hi|]. split; [exact Ho|].
  assert (St : startable d s <-> startable d s').
  { unfold startable. destruct (initial_location d s) as [l|], (initial_location d s') as [l'|]; try contradiction; [|split; discriminate].
    split; intros H x [= <-]; apply (mi_inv _ _ _ _ M _ _ I), H; reflexivity. }
  split; [exact St|]. intros H0. unfold hrefines. destruct (initial_location d s) as [l|] eqn:El, (initial_location d s') as [l'|] eqn:El'; try contradiction; auto.
  assert (I0 : inv_at d l zero_val) by (apply H0, El).
  assert (F : forall l l' v, stands_for ls s' l l' -> inv_at d l v -> forall a p w, can d s l v a p w -> exists p', can d s' l' v a p' w /\ stands_for ls s' p p' /\ inv_at d p w).
  { clear - M. intros l l' v H Iv a p w (t & O & (A1 & A2 & A3) & -> & ->). destruct (mi_forth _ _ _ _ M l l' a t H O (ex_intro _ v A2)) as (t' & O' & [G U] & H').
    exists (t_target t'). split; [|split; [exact H'|exact A3]]. exists t'. split; [exact O'|]. split; [|split; [reflexivity|rewrite U; reflexivity]]. split; [apply (mi_inv _ _ _ _ M _ _ H), A1|]. split; [apply G, A2|]. rewrite U. apply (mi_inv _ _ _ _ M _ _ H'), A3. }
  assert (B : forall l l' v, stands_for ls s' l l' -> inv_at d l v -> forall a p' w, can d s' l' v a p' w -> exists p, can d s l v a p w /\ stands_for ls s' p p' /\ inv_at d p w).
  { clear - M. intros l l' v H Iv a p w (t' & O & (A1 & A2 & A3) & -> & ->). destruct (mi_back _ _ _ _ M l l' a t' H O) as (t & O' & [G U] & H').
    assert (A3' : inv_at d (t_target t) (run_updates (t_updates t) v)) by (rewrite <- U; apply (mi_inv _ _ _ _ M _ _ H'), A3).
    exists (t_target t). split; [|split; [exact H'|rewrite U; exact A3']]. exists t. split; [exact O'|]. split; [|split; [reflexivity|rewrite U; reflexivity]]. split; [exact Iv|]. split; [apply G, A2|exact A3']. }
  split.
  - exists (fun l v l' v' => stands_for ls s' l l' /\ v' = v /\ inv_at d l v). split; [|auto]. intros l1 v1 l2 v2 (H & -> & I1). split; [exact I1|]. split; [apply (mi_inv _ _ _ _ M _ _ H), I1|]. split; [|split].
    + intros a p w Oa Ca. split; [|intros N; exfalso; apply N, Ho, Oa]. intros _. destruct (F _ _ _ H I1 _ _ _ Ca) as (p' & C' & X & Y). exists p', w. auto.
    + intros a p w Ia Ca. split; [|intros N; exfalso; apply N, Hi, Ia]. intros _. destruct (B _ _ _ H I1 _ _ _ Ca) as (p' & C' & X & Y). exists p', w. auto.
    + intros x Hx W. split; [exact H|]. split; [reflexivity|]. apply W; [exact Hx|apply Qle_refl].
  - exists (fun l' v' l v => stands_for ls s' l l' /\ v' = v /\ inv_at d l v). split; [|auto]. intros l2 v2 l1 v1 (H & -> & I1). split; [apply (mi_inv _ _ _ _ M _ _ H), I1|]. split; [exact I1|]. split; [|split].
    + intros a p w Oa Ca. split; [|intros N; exfalso; apply N, Ho, Oa]. intros _. destruct (B _ _ _ H I1 _ _ _ Ca) as (p' & C' & X & Y). exists p', w. auto.
    + intros a p w Ia Ca. split; [|intros N; exfalso; apply N, Hi, Ia]. intros _. destruct (F _ _ _ H I1 _ _ _ Ca) as (p' & C' & X & Y). exists p', w. auto.
    + intros x Hx W. split; [exact H|]. split; [reflexivity|]. apply (mi_inv _ _ _ _ M _ _ H), W; [exact Hx|apply Qle_refl].
Qed.

(** ** What is created can be loaded *)
Lemma decls_numbers d r s : assembled d r s -> Permutation (map snd (List.concat (ts_decls s))) (all_numbers r ++ quotient_clocks r).
Proof.
  induction 1 as [c k cc H|l r l' r' s Hl IHl Hr IHr H|l r l' r' s Hl IHl Hr IHr H|l r q l' r' s Hl IHl Hr IHr H].
  - cbn [ts_decls List.concat]. unfold all_numbers. cbn [components flat_map quotient_clocks]. rewrite !app_nil_r. rewrite (RecipeFacts.compile_decls _ _ _ _ H). reflexivity.
  - apply composition_new_inv in H. destruct H as (_ & ? & ? & ? & ? & ? & -> & _). cbn [ts_decls quotient_clocks]. unfold all_numbers in *. cbn [components]. rewrite concat_app, map_app, flat_map_app, IHl, IHr, <- !app_assoc. apply Permutation_app_head.
    rewrite !app_assoc. apply Permutation_app_tail, Permutation_app_comm.
  - apply conjunction_new_inv in H. destruct H as (-> & _). cbn [ts_decls quotient_clocks]. unfold all_numbers in *. cbn [components]. rewrite concat_app, map_app, flat_map_app, IHl, IHr, <- !app_assoc. apply Permutation_app_head.
    rewrite !app_assoc. apply Permutation_app_tail, Permutation_app_comm.
  - apply quotient_new_inv in H. destruct H as (? & ? & ? & -> & _). cbn [ts_decls quotient_clocks]. unfold all_numbers in *. cbn [components]. rewrite !concat_app, !map_app, flat_map_app, IHl, IHr, <- !app_assoc. apply Permutation_app_head.
    cbn [List.concat map snd app]. transitivity (flat_map numbers (components r) ++ quotient_clocks l ++ quotient_clocks r ++ [q]).
    + rewrite !app_assoc. do 2 apply Permutation_app_tail. apply Permutation_app_comm.
    + apply Permutation_app_head. rewrite app_assoc. symmetry. apply Permutation_cons_append.
Qed.

Lemma parts_once parts : NoDup (map snd (List.concat parts)) -> forall k x k' x' i, clock_of parts k x i -> clock_of parts k' x' i -> k = k' /\ x = x'.
Proof.
  induction parts as [|p parts IH]; intros N k x k' x' i (m & E & H) (m' & E' & H'); [destruct k; discriminate|].
  cbn [List.concat] in N. rewrite map_app in N. apply nodup_split in N. destruct N as (N1 & N2 & N3).
  assert (Later : forall j y m0, nth_error parts j = Some m0 -> In (y, i) m0 -> In i (map snd (List.concat parts))).
  { intros j y m0 Ej Hj. apply in_map_iff. exists (y, i). split; [reflexivity|]. apply in_concat. exists m0. split; [eapply nth_error_In; eauto|exact Hj]. }
  destruct k as [|k], k' as [|k']; cbn [nth_error] in E, E'.
  - injection E as <-. injection E' as <-. split; [reflexivity|]. clear - N1 H H'. induction p as [|[y j] p IH]; [destruct H|]. cbn [map snd] in N1. inversion N1; subst.
    destruct H as [[= -> ->]|H], H' as [[= -> ]|H']; [reflexivity| | |apply IH; auto]; [exfalso; apply H2; apply in_map_iff; exists (x', i); auto|subst; exfalso; apply H2; apply in_map_iff; exists (x, i); auto].
  - injection E as <-. exfalso. apply (N3 i); [apply in_map_iff; exists (x, i); auto|eapply Later; eauto].
  - injection E' as <-. exfalso. apply (N3 i); [apply in_map_iff; exists (x', i); auto|eapply Later; eauto].
  - destruct (IH N2 k x k' x' i) as [-> ->]; [exists m; auto|exists m'; auto|auto].
Qed.

Section Created.
Variables (dim : nat) (minc : fed -> fed) (ord : list string -> list string) (cord : list (string * nat) -> list (string * nat)) (s : ts) (fuel : nat) (name : string) (c : component).
Hypothesis Sv : saveable dim s.
Hypothesis Hm : describes dim minc.
Hypothesis Ho : same_elements ord.
Hypothesis Hc : reorders cord.
Hypothesis Hf : List.length (all_locations dim s) <= fuel.
Hypothesis Once : NoDup (map snd (List.concat (ts_decls s))).
Hypothesis Pos : 0 < dim.
Hypothesis E : get_component dim minc ord cord fuel s name = Ok c.
Let clk := clock_map cord s.

Lemma created_decls : c_decls c = mkDecls clk [] /\ c_special c = None.
Proof.
  unfold get_component in E. apply bind_ok in E. destruct E as (c0 & Ec & X). injection X as <-. unfold combine_components in Ec. cbv zeta in Ec.
  apply bind_ok in Ec. destruct Ec as (ls & El & Ec). apply bind_ok in Ec. destruct Ec as (es & Ee & Ec). apply bind_ok in Ec. destruct Ec as (xs & Ex & Ec). injection Ec as <-. auto.
Qed.
Lemma created_numbers : NoDup (map fst clk) /\ NoDup (map snd clk) /\ (forall i, In i (map snd clk) <-> 0 < i < dim) /\ S (List.length clk) = dim.
Proof.
  destruct (clk_separate dim cord s Sv Hc) as (N & nm & N1 & N2 & N3). fold clk in N, N1, N3.
  assert (N4 : NoDup (map snd clk)).
  { apply nodup_map_in; [apply (NoDup_map_inv fst), N|]. intros [x i] [y j] Hx Hy Z. cbn in Z. subst j. destruct (N3 _ _ Hx) as (k & x0 & C1 & ->). destruct (N3 _ _ Hy) as (k' & y0 & C2 & ->).
    destruct (parts_once _ Once _ _ _ _ _ C1 C2) as [-> ->]. reflexivity. }
  assert (N5 : forall i, In i (map snd clk) <-> 0 < i < dim).
  { intros i. rewrite <- (sv_clocks _ _ Sv), clocks_declared. rewrite in_map_iff. split.
    - intros ([n j] & <- & H). destruct (N3 _ _ H) as (k & x & C & _). eauto.
    - intros (k & x & H). exists (nm k x, i). auto. }
  split; [exact N|]. split; [exact N4|]. split; [exact N5|].
  assert (P : Permutation (map snd clk) (seq 1 (dim - 1))). { apply NoDup_Permutation; [exact N4|apply seq_NoDup|]. intros i. rewrite N5, in_seq. lia. }
  apply Permutation_length in P. rewrite map_length, seq_length in P. lia.
Qed.

Lemma created_parts : exists ls, (forall l, In l ls -> In l (all_locations dim s)) /\
  (forall x, In x (c_locs c) -> exists l, In l ls /\ save_location minc clk l = Ok x) /\
  (forall e, In e (c_edges c) -> exists l a t e0 es ty, In l ls /\ offered dim s l a t /\ save_edge minc clk ty l a t = Ok es /\ In e0 es /\ e_guard e = e_guard e0 /\ e_update e = e_update e0).
Proof.
  destruct (locations_chosen dim ord s Sv Ho fuel Reachable Hf) as (ls & El & Nd & Hls). assert (X := E). unfold get_component in X. apply bind_ok in X. destruct X as (c0 & Ec & X). injection X as <-. unfold combine_components in Ec. cbv zeta in Ec.
  rewrite El in Ec. cbn [bind] in Ec. apply bind_ok in Ec. destruct Ec as (es & Ee & Ec). apply bind_ok in Ec. destruct Ec as (xs & Ex & Ec). injection Ec as <-. exists ls. split; [intros l Hl; apply (chosen_in dim s Sv Reachable), Hls, Hl|]. cbn [c_locs c_edges]. split.
  - intros x Hx. apply (proj1 (mapM_all _ _ _ Ex) x Hx).
  - intros e He. destruct (remade (List.concat es) 0) as [_ B]. destruct (B e He) as (e1 & He1 & _ & _ & _ & Rg & Ru & _). clear B He. apply in_concat in He1. destruct He1 as (g & Hg & He1).
    destruct (proj1 (mapM_all _ _ _ Ee) g Hg) as (l & Hl & El'). unfold save_edges in El'. apply bind_ok in El'. destruct El' as (ins & E1 & El'). apply bind_ok in El'. destruct El' as (outs & E2 & El'). injection El' as <-.
    assert (G : forall ty as_ gs g, (forall a, In a as_ -> is_action s a) -> mapM (save_action dim minc s clk ty l) as_ = Ok gs -> In g gs -> In e1 g ->
      exists a t es ty, offered dim s l a t /\ save_edge minc clk ty l a t = Ok es /\ In e1 es).
    { intros ty as_ gs g0 I Eg Hg0 Hge. destruct (proj1 (mapM_all _ _ _ Eg) g0 Hg0) as (a & Ha & Ea). unfold save_action in Ea. apply bind_ok in Ea. destruct Ea as (ts & Et & Ea). apply bind_ok in Ea. destruct Ea as (hs & Eh & Ea). injection Ea as <-.
      apply in_concat in Hge. destruct Hge as (h & Hh & Hge). destruct (proj1 (mapM_all _ _ _ Eh) h Hh) as (t & Ht & Eth). exists a, t, h, ty. split; [|auto]. split; [apply I, Ha|eauto]. }
    apply in_app_or in He1. assert (K : exists a t es ty, offered dim s l a t /\ save_edge minc clk ty l a t = Ok es /\ In e1 es).
    { destruct He1 as [He1|He1]; apply in_concat in He1; destruct He1 as (g & Hg' & He1).
      - refine (G _ _ _ _ _ E1 Hg' He1). intros a Ha. left. apply Ho, Ha.
      - refine (G _ _ _ _ _ E2 Hg' He1). intros a Ha. right. apply Ho, Ha. }
    destruct K as (a & t & es' & ty & O & Ese & H1). exists l, a, t, e1, es', ty. auto 10.
Qed.

Lemma created_loadable : clocks_numbered (c_decls c) /\ good_resets c /\ named_guards c.
Proof.
  destruct created_decls as [Ed _]. destruct created_numbers as (N1 & N2 & N3 & N4). destruct created_parts as (ls & Hin & Hx & He).
  assert (Ed' : forall e0 ty l a t es, save_edge minc clk ty l a t = Ok es -> In e0 es -> (exists g, from_disjunction (minc (t_guard t)) (naming_of clk) = Ok g /\ e_guard e0 = g) /\ renamed_updates clk (t_updates t) = Ok (e_update e0)).
  { intros e0 ty l a t es X H. unfold save_edge in X. apply bind_ok in X. destruct X as (gd & Eg & X).
    assert (Y : es = [] \/ exists us, renamed_updates clk (t_updates t) = Ok us /\ es = [mkE (tid_string (t_id t)) (id_string (lt_id l)) (id_string (lt_id (t_target t))) ty gd us a]).
    { destruct gd as [[]|]; try (apply bind_ok in X; destruct X as (us & Eu & X); injection X as <-; right; eauto). destruct b; [apply bind_ok in X; destruct X as (us & Eu & X); injection X as <-; right; eauto|injection X as <-; left; reflexivity]. }
    destruct Y as [->|(us & Eu & ->)]; [destruct H|]. destruct H as [<-|[]]. cbn [e_guard e_update]. eauto. }
  split; [|split].
  - rewrite Ed. cbn [d_clocks]. split; [exact N1|]. split; [exact N2|]. intros x i Hi. assert (H : In i (map snd clk)) by (apply in_map_iff; exists (x, i); auto). apply N3 in H. cbn [d_clocks]. lia.
  - intros e us Hee Hu. destruct (He e Hee) as (l & a & t & e0 & es & ty & Hl & O & Es & H0 & _ & Ru). destruct (Ed' _ _ _ _ _ _ Es H0) as [_ Er]. rewrite <- Ru, Hu in Er.
    destruct (sv_ok _ _ Sv) as (q & K). destruct (ReadsFacts.offered_dep dim q s l a t (sv_built _ _ Sv) (sv_reads _ _ Sv) K (Hin l Hl) O) as ([Uo Nc] & _).
    unfold renamed_updates in Er. apply bind_ok in Er. destruct Er as (ms & Em & Er).
    assert (Z : forall x k, In (x, k) us -> exists u, In u (t_updates t) /\ In (x, u_clock u) clk /\ k = AInt (u_value u)).
    { assert (us = ms) as -> by (destruct ms; [discriminate|injection Er as <-; reflexivity]). intros x k Hxk. destruct (proj1 (mapM_all _ _ _ Em) _ Hxk) as (u & Hu' & Eu). unfold as_update in Eu. destruct (naming_of clk (u_clock u)) as [n|] eqn:En; [|discriminate]. cbn in Eu. injection Eu as <- <-.
      exists u. split; [exact Hu'|]. split; [apply naming_in, En|reflexivity]. }
    split.
    + intros x k H. destruct (Z x _ H) as (u & Hu' & _ & [= ->]). apply (Uo u Hu').
    + intros x k k' H H'. destruct (Z x _ H) as (u & Hu1 & C1 & ->). destruct (Z x _ H') as (w & Hu2 & C2 & ->). f_equal. apply Nc; auto.
      apply (In_assoc _ _ _ N1) in C1. apply (In_assoc _ _ _ N1) in C2. congruence.
  - split.
    + intros x g H Hg. destruct (Hx x H) as (l & _ & Es). unfold save_location in Es. apply bind_ok in Es. destruct Es as (o & Eo & Es). injection Es as <-. cbn [l_inv] in Hg. subst o. destruct (lt_inv l); [|discriminate]. apply (disj_named _ _ _ Eo).
    + intros e g H Hg. destruct (He e H) as (l & a & t & e0 & es & ty & Hl & O & Es & H0 & Rg & _). destruct (Ed' _ _ _ _ _ _ Es H0) as [(g0 & Eg & X) _]. apply disj_named in Eg. rewrite <- X, <- Rg, Hg in Eg. exact Eg.
Qed.
End Created.
