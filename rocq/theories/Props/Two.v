(** C29 and C46 for the two systems of a refinement query. *)
From Coq Require Import List String Ascii ZArith QArith Bool Arith Lia Lqa Permutation.
From Verif Require Import Fed.Zone Fed.ZoneFacts Fed.Check Model.Base Model.Expr Model.Guard Model.Loc Model.Component Model.TS Model.ParseQuery Model.Recipe Model.Reduce
  Spec.StepSpec Spec.SystemSpec Spec.RunSpec Spec.RefineSpec Spec.EnableSpec Spec.IdSpec Spec.RecipeSpec Spec.ReduceSpec Spec.SameSpec
  Proofs.SystemFacts Proofs.WfFacts Proofs.ReadsFacts Proofs.RunFacts Proofs.ReduceFacts Proofs.ClockFacts Proofs.RecipeFacts Proofs.RenFacts Proofs.SameFacts Proofs.BisimFacts
  Proofs.ShrinkFacts Proofs.CompressFacts Proofs.InstrFacts Proofs.TwoFacts Props.Examples Props.Enabling Props.Ids Props.Recipes Props.Reduction Props.Compression.
Import ListNotations.
Local Open Scope string_scope.
Local Open Scope list_scope.
Local Open Scope nat_scope.

Section Loaded.
Variables (load : string -> option component) (e f : sysx) (l r : recipe) (n : nat) (p : option nat) (dim : nat) (q : option nat).
Hypothesis L : forall n c, load n = Some c -> clocks_numbered (c_decls c) /\ good_resets c /\ named_guards c.
Hypothesis E : get_system_recipe load e (0, None) = Ok (l, (n, p)).
Hypothesis F : get_system_recipe load f (n, p) = Ok (r, (dim, q)).
Let L1 : forall n c, load n = Some c -> clocks_numbered (c_decls c) := fun n c H => proj1 (L n c H).

Lemma two_split i j : In i (all_numbers l) -> In j (all_numbers r) -> i <= n < j.
Proof.
  intros Hi Hj. destruct (recipe_numbers load L1 e _ _ _ E) as (_ & _ & _ & P & _). destruct (recipe_numbers load L1 f _ _ _ F) as (_ & Le & _ & P' & _). cbn [fst snd] in *.
  assert (X : In i (seq 1 (n - 0))) by (apply (Permutation_in _ P), in_or_app; auto). assert (Y : In j (seq (S n) (dim - n))) by (apply (Permutation_in _ P'), in_or_app; auto).
  apply in_seq in X. apply in_seq in Y. lia.
Qed.
Lemma two_once : named_once l /\ named_once r.
Proof.
  destruct (C29_numbering_two load e f l r n p dim q L1 E F) as (I & I' & _).
  split; intros c Hc; [destruct (instance_component _ _ _ I _ Hc) as (m & c0 & Ln & (_ & _ & _ & _ & R))|destruct (instance_component _ _ _ I' _ Hc) as (m & c0 & Ln & (_ & _ & _ & _ & R))]; rewrite R; apply (L1 m c0 Ln).
Qed.
Lemma two_named : forall c, In c (components l ++ components r) -> named_guards c.
Proof.
  destruct (C29_numbering_two load e f l r n p dim q L1 E F) as (I & I' & _). intros c Hc. apply in_app_or in Hc. destruct Hc as [Hc|Hc].
  - destruct (instance_component _ _ _ I _ Hc) as (m & c0 & Ln & Re). eapply named_guards_re; [exact Re|]. apply (L _ _ Ln).
  - destruct (instance_component _ _ _ I' _ Hc) as (m & c0 & Ln & Re). eapply named_guards_re; [exact Re|]. apply (L _ _ Ln).
Qed.
(** Both sides compile to well-numbered systems, whatever the index of their first component. *)
Lemma two_good least pre x k s k' : x = l \/ x = r -> compile_at least pre (dim + 1) x k = Ok (s, k') ->
  built (dim + 1) s /\ comp_clocks s = all_numbers x /\ clocks_ok (dim + 1) (q_default q) s /\ reads_ok s.
Proof.
  intros X Cs. destruct (C29_numbering_two load e f l r n p dim q L1 E F) as (I & I' & B & P & Q & _).
  split; [eapply compile_built; exact Cs|]. split; [eapply compile_clocks; exact Cs|].
  assert (Nd : NoDup (all_numbers l ++ all_numbers r ++ opt_clock q)) by (eapply Permutation_NoDup; [symmetry; exact P|apply seq_NoDup]).
  assert (R : forall i, In i (all_numbers l ++ all_numbers r ++ opt_clock q) -> 1 <= i < dim + 1).
  { intros i Hi. apply (Permutation_in _ P) in Hi. apply in_seq in Hi. lia. }
  apply nodup_split in Nd. destruct Nd as (N1 & N2 & N3). apply nodup_split in N2. destruct N2 as (N2 & _ & N4).
  assert (Inc : incl (all_numbers x) (all_numbers l ++ all_numbers r)) by (destruct X as [-> | ->]; intros i Hi; apply in_or_app; auto).
  assert (Oc : forall c, In c (components x) -> In c (components l ++ components r)) by (destruct X as [-> | ->]; intros i Hi; apply in_or_app; auto).
  assert (Qc : incl (quotient_clocks x) (quotient_clocks l ++ quotient_clocks r)) by (destruct X as [-> | ->]; intros i Hi; apply in_or_app; auto).
  assert (Low : forall i, In i (all_numbers x) -> 1 <= i < dim + 1) by (intros i Hi; apply R; rewrite app_assoc; apply in_or_app; left; apply Inc, Hi).
  eapply system_good; [| | | |exact Cs].
  - intros c Hc. assert (Fit : exists m c0, load m = Some c0 /\ renumbered c0 c).
    { destruct X as [-> | ->]; [destruct (instance_component _ _ _ I _ Hc) as (m & c0 & Ln & Re)|destruct (instance_component _ _ _ I' _ Hc) as (m & c0 & Ln & Re)]; eauto. }
    destruct Fit as (m & c0 & Ln & Re). destruct (L _ _ Ln) as (_ & G & Na).
    split; [apply block_nodup, B, Oc, Hc|]. split; [intros i Hi; apply Low; eapply component_numbers; eauto|].
    split; [eapply good_resets_re; eauto|eapply named_guards_re; eauto].
  - destruct X as [-> | ->]; assumption.
  - intros H. destruct q as [q0|]; [|specialize (Low _ H); cbn in Low; lia]. apply Inc, in_app_or in H. cbn in H. destruct H as [H|H]; [apply (N3 _ H); apply in_or_app; right; left; reflexivity|apply (N4 _ H); left; reflexivity].
  - intros q' Hq. apply Qc, Q in Hq. assert (Rq : 1 <= q' < dim + 1) by (apply R; rewrite Hq; apply in_or_app; right; apply in_or_app; right; left; reflexivity).
    rewrite Hq. cbn. split; [reflexivity|lia].
Qed.
End Loaded.

Section Both.
Variables (minc : fed -> fed) (ord : list string -> list string) (cord : list nat -> list nat) (gord : list (list nat) -> list (list nat)) (fuel : nat).
Variables (load : string -> option component) (e f : sysx) (l r : recipe) (n : nat) (p : option nat) (dim : nat) (q : option nat) (s t : ts) (xl xr : list instr).
Hypothesis L : forall n c, load n = Some c -> clocks_numbered (c_decls c) /\ good_resets c /\ named_guards c.
Hypothesis E : get_system_recipe load e (0, None) = Ok (l, (n, p)).
Hypothesis F : get_system_recipe load f (n, p) = Ok (r, (dim, q)).
Hypothesis Co : reorders cord.
Hypothesis Fl : find_redundant_clocks (dim + 1) minc ord cord gord fuel s = Ok xl.
Hypothesis Fr : find_redundant_clocks (dim + 1) minc ord cord gord fuel t = Ok xr.
Definition left_gone : list nat := removals (unique_redundant xl xr (q_default q) (fun c => Nat.leb c (maximum (all_clocks l)))).
Definition right_gone : list nat := removals (unique_redundant xr xl (q_default q) (fun c => Nat.ltb (maximum (all_clocks l)) c)).
Lemma reported x xs i : find_redundant_clocks (dim + 1) minc ord cord gord fuel x = Ok xs -> In (RemoveClock i) xs -> 1 <= i <= dim.
Proof.
  intros Fx H. apply removals_In in H. unfold find_redundant_clocks in Fx. destruct (analysis_graph (dim + 1) minc ord fuel x) as [g| | |]; try discriminate. injection Fx as <-.
  rewrite removals_redundancies in H. apply (Permutation_in _ (Co _)) in H. apply unused_In in H. lia.
Qed.
Lemma reported_nodup x xs : find_redundant_clocks (dim + 1) minc ord cord gord fuel x = Ok xs -> NoDup (removals xs).
Proof.
  intros Fx. unfold find_redundant_clocks in Fx. destruct (analysis_graph (dim + 1) minc ord fuel x) as [g| | |]; try discriminate. injection Fx as <-.
  rewrite removals_redundancies. eapply Permutation_NoDup; [symmetry; apply Co|]. apply NoDup_filter, seq_NoDup.
Qed.
Lemma gone_facts : NoDup left_gone /\ NoDup right_gone /\ incl left_gone (all_numbers l) /\ incl right_gone (all_numbers r).
Proof.
  destruct (C29_numbering_two load e f l r n p dim q (fun n c H => proj1 (L n c H)) E F) as (_ & _ & _ & P & _ & _).
  assert (Cases : forall i, 1 <= i <= dim -> i <> q_default q -> In i (all_numbers l) \/ In i (all_numbers r)).
  { intros i Hi Hq. assert (X : In i (all_numbers l ++ all_numbers r ++ opt_clock q)) by (apply (Permutation_in _ (Permutation_sym P)), in_seq; lia).
    apply in_app_or in X. destruct X as [X|X]; [auto|]. apply in_app_or in X. destruct X as [X|X]; [auto|]. destruct q as [q0|]; cbn in *; [destruct X as [->|[]]; congruence|destruct X]. }
  destruct (maximum_ge (all_clocks l) 0) as [Mx _]. fold (maximum (all_clocks l)) in Mx.
  assert (Mr : forall j, In j (all_numbers r) -> maximum (all_clocks l) < j).
  { intros j Hj. assert (1 <= j). { assert (X : In j (seq 1 dim)) by (apply (Permutation_in _ P), in_or_app; right; apply in_or_app; auto). apply in_seq in X. lia. }
    destruct (maximum_in (all_clocks l) 0) as [H0|H0]; fold (maximum (all_clocks l)) in H0; [lia|]. pose proof (two_split load e f l r n p dim q L E F _ _ H0 Hj). lia. }
  split; [apply unique_NoDup; eapply reported_nodup; exact Fl|]. split; [apply unique_NoDup; eapply reported_nodup; exact Fr|]. split; intros i Hi; apply unique_In in Hi; destruct Hi as (H1 & H2 & B & Nq).
  - apply Nat.leb_le in B. destruct (Cases i (reported _ _ _ Fl H1) Nq) as [X|X]; [exact X|]. specialize (Mr i X). lia.
  - apply Nat.ltb_lt in B. destruct (Cases i (reported _ _ _ Fl H2) Nq) as [X|X]; [|exact X]. specialize (Mx i X). lia.
Qed.
End Both.

Lemma removed_removals us : total_removed (map RemoveClock us) = List.length us.
Proof. pose proof (total_removed_facts us []) as H. cbn [map] in H. rewrite app_nil_r in H. rewrite H. cbn. lia. Qed.

(** C29, after the reduction of the two systems of a refinement query: the clocks in use are again exactly 1..dim', no
    clock is used by two components, each quotient has the clock dim' and no component shares it; the reduction does
    not fail.  It holds if no replacement of clocks is reported for both systems. *)
Theorem C29_reduced_two_partial : forall least pre minc ord cord gord fuel load e f l r n p dim q s t xl xr,
  (forall n c, load n = Some c -> clocks_numbered (c_decls c) /\ good_resets c /\ named_guards c) ->
  get_system_recipe load e (0, None) = Ok (l, (n, p)) -> get_system_recipe load f (n, p) = Ok (r, (dim, q)) -> reorders cord ->
  compile least pre dim l = Ok s -> compile least pre dim r = Ok t ->
  find_redundant_clocks (dim + 1) minc ord cord gord fuel s = Ok xl -> find_redundant_clocks (dim + 1) minc ord cord gord fuel t = Ok xr ->
  (forall i o p, In (ReplaceClocks i o) xl -> In (ReplaceClocks i p) xr -> ~ (forall k, In k o <-> In k p)) ->
  exists l' r' dim', clock_reduce least pre (fun d => find_redundant_clocks d minc ord cord gord fuel) l (Some r) dim q = Ok (l', Some r', dim') /\ dim' <= dim /\
    NoDup (all_numbers l' ++ all_numbers r') /\
    (forall i, In i (all_numbers l' ++ all_numbers r') \/ (q <> None /\ i = dim') <-> 1 <= i <= dim') /\
    (forall q', In q' (quotient_clocks l' ++ quotient_clocks r') -> q' = dim' /\ q <> None) /\
    (q <> None -> ~ In dim' (all_numbers l' ++ all_numbers r')).
Proof.
  intros least pre minc ord cord gord fuel load e f l r n p dim q s t xl xr L E F Co Cl Cr Fl Fr Ap.
  destruct (C29_numbering_two load e f l r n p dim q (fun n c H => proj1 (L n c H)) E F) as (I & I' & B & P & Q & N).
  destruct (two_once load e f l r n p dim q L E F) as [Hl Hr].
  unfold clock_reduce. destruct (Nat.eqb_spec dim 0) as [Ez|Nz].
  { exists l, r, dim. split; [reflexivity|]. subst dim. cbn in P. apply Permutation_sym, Permutation_nil, app_eq_nil in P. destruct P as [P1 P2]. apply app_eq_nil in P2. destruct P2 as [P2 P3].
    rewrite P1, P2. destruct q as [q'|]; [discriminate|]. split; [lia|]. split; [constructor|]. split; [intros i; cbn; split; [intros [[]|[H _]]; congruence|lia]|]. split; [intros q' H; specialize (Q q' H); discriminate|congruence]. }
  destruct (gone_facts minc ord cord gord fuel load e f l r n p dim q s t xl xr L E F Co Fl Fr) as (Nl & Nr & Il & Ir).
  unfold clock_reduce_two. rewrite Cl. cbn [bind]. rewrite Fl. cbn [bind]. rewrite Cr. cbn [bind]. rewrite Fr. cbn [bind].
  rewrite (unique_removals xl xr _ _ Ap), (unique_removals xr xl _ _ (apart_sym _ _ Ap)). fold (left_gone l q xl xr) (right_gone l q xl xr).
  set (ul := left_gone l q xl xr) in *. set (ur := right_gone l q xl xr) in *.
  destruct (two_numbers l r dim q ul ur Hl Hr P Nl Nr Il Ir) as (l1 & r1 & E1 & E2 & A & Q1 & Q2).
  pose proof (count2 l r dim q ul ur P Nl Nr Il Ir) as W. rewrite <- A in W. rewrite !removed_removals.
  unfold minus_usize. destruct (Nat.ltb_spec dim (List.length ul + List.length ur)) as [Lt|_]; [lia|]. cbn [bind]. rewrite E2. cbn [bind]. rewrite E1. cbn [bind].
  set (K := all_clocks l1 ++ all_clocks r1) in *. set (d := dim - (List.length ul + List.length ur)) in *.
  eexists _, _, d. cbn [fst snd]. split; [reflexivity|]. split; [lia|].
  assert (Al : forall x, all_numbers (match q with Some _ => change_quotient d (map_components (map_clocks (compressed K)) x) | None => map_components (map_clocks (compressed K)) x end) = map (compressed K) (all_numbers x)).
  { intros x. destruct q; rewrite ?all_numbers_change, all_numbers_map; reflexivity. }
  rewrite !Al, <- map_app. change (all_numbers l1 ++ all_numbers r1) with K.
  destruct (compressed_facts K) as (F1 & F2 & F3 & _).
  assert (Num : forall i, In i (map (compressed K) K) <-> 1 <= i <= distinct K).
  { intros i. rewrite in_map_iff. split; [intros (k & <- & Hk); auto|]. intros H. destruct (F3 i H) as (k & Hk & Ek). eauto. }
  split; [|split; [|split]].
  - assert (Nk : NoDup K) by (rewrite A; apply NoDup_filter; eapply numbers_nodup; apply (both_perm l r dim q P)).
    clear - Nk F2. assert (S : incl K K) by (intros i Hi; exact Hi). revert S Nk. generalize K at 1 3 5. intros T. induction T as [|a T IH]; intros S Nk; cbn [map]; [constructor|].
    inversion Nk as [|? ? X Y]; subst. constructor; [|apply IH; [intros i Hi; apply S; right; exact Hi|exact Y]].
    intros Hi. apply in_map_iff in Hi. destruct Hi as (b & Eb & Hb). apply X. rewrite <- (F2 b a); auto; apply S; cbn; auto.
  - intros i. rewrite Num. destruct q as [q'|]; cbn in W; [|split; [intros [H|[H _]]; [lia|congruence]|intros H; left; lia]].
    split; [intros [H|[_ ->]]; lia|]. intros H. destruct (Nat.eq_dec i d) as [->|Ne]; [right; split; [discriminate|reflexivity]|left; lia].
  - intros q' Hq'. destruct q as [q0|]; [split; [|discriminate]; apply in_app_or in Hq'; destruct Hq' as [H|H]; eapply quotients_change; exact H|]. rewrite !quotients_map, Q1, Q2 in Hq'. specialize (Q q' Hq'). discriminate.
  - intros Nq H. apply Num in H. destruct q as [q0|]; [cbn in W; lia|congruence].
Qed.
Print Assumptions C29_reduced_two_partial.

(** Reducing two systems is a renumbering of their clocks without the ones that are dropped. *)
Definition renumbering (l r : recipe) (dim : nat) (q : option nat) (l' r' : recipe) (dim' : nat) (ul ur : list nat) : Prop :=
  NoDup ul /\ NoDup ur /\ incl ul (all_numbers l) /\ incl ur (all_numbers r) /\ unread_all (drop ul) l /\ unread_all (drop ur) r /\
  l' = ren_recipe (ren2 l r dim q ul ur) l /\ r' = ren_recipe (ren2 l r dim q ul ur) r /\ dim' = dim2 dim ul ur.
Lemma shape_zero : forall load e f l r n p q,
  (forall n c, load n = Some c -> clocks_numbered (c_decls c) /\ good_resets c /\ named_guards c) ->
  get_system_recipe load e (0, None) = Ok (l, (n, p)) -> get_system_recipe load f (n, p) = Ok (r, (0, q)) -> renumbering l r 0 q l r 0 [] [].
Proof.
  intros load e f l r n p q L E F. destruct (C29_numbering_two load e f l r n p 0 q (fun n c H => proj1 (L n c H)) E F) as (I & I' & B & P & Q & N).
  assert (Er : forall i, In i (all_numbers l ++ all_numbers r) -> False).
  { intros i Hi. assert (X : In i (seq 1 0)) by (apply (Permutation_in _ P); rewrite app_assoc; apply in_or_app; auto). destruct X. }
  assert (Zq : q = None). { destruct q as [q'|]; [|reflexivity]. apply Permutation_length in P. rewrite !app_length in P. cbn in P. lia. }
  assert (Same : forall x, (x = l \/ x = r) -> x = ren_recipe (ren2 l r 0 q [] []) x).
  { intros x X. rewrite <- (ren_recipe_change (ren2 l r 0 q [] []) (fun c => c) 0 x).
    - assert (Z : quotient_clocks x = []). { destruct (quotient_clocks x) as [|y m] eqn:Ex; [reflexivity|]. assert (Y : q = Some y) by (apply Q, in_or_app; destruct X as [-> | ->]; rewrite Ex; cbn; auto). congruence. }
      rewrite change_none; [symmetry; apply map_components_id; auto|rewrite quotients_map; exact Z].
    - intros c Hc. symmetry. apply ren_comp_id. intros i Hi. destruct (Er i). apply in_or_app. destruct X as [-> | ->]; [left|right]; eapply component_numbers; eauto.
    - intros q' H. assert (Y : q = Some q') by (apply Q, in_or_app; destruct X as [-> | ->]; auto). congruence. }
  split; [constructor|]. split; [constructor|]. split; [intros ? []|]. split; [intros ? []|]. split; [intros c Hc m i Hi X; discriminate|]. split; [intros c Hc m i Hi X; discriminate|].
  split; [apply Same; auto|]. split; [apply Same; auto|]. reflexivity.
Qed.
Lemma shape_some : forall least pre minc ord cord gord fuel load e f l r n p dim q s t xl xr l' r' dim',
  (forall n c, load n = Some c -> clocks_numbered (c_decls c) /\ good_resets c /\ named_guards c) ->
  get_system_recipe load e (0, None) = Ok (l, (n, p)) -> get_system_recipe load f (n, p) = Ok (r, (dim, q)) -> reorders cord ->
  compile least pre dim l = Ok s -> compile least pre dim r = Ok t ->
  find_redundant_clocks (dim + 1) minc ord cord gord fuel s = Ok xl -> find_redundant_clocks (dim + 1) minc ord cord gord fuel t = Ok xr ->
  (forall i o p, In (ReplaceClocks i o) xl -> In (ReplaceClocks i p) xr -> ~ (forall k, In k o <-> In k p)) ->
  (forall c n i, In c (components l ++ components r) -> In (n, i) (d_clocks (c_decls c)) -> In (RemoveClock i) xl -> In (RemoveClock i) xr ->
    (forall l g, In l (c_locs c) -> l_inv l = Some g -> b_has_var g n = false) /\ (forall e g, In e (c_edges c) -> e_guard e = Some g -> b_has_var g n = false)) ->
  clock_reduce least pre (fun d => find_redundant_clocks d minc ord cord gord fuel) l (Some r) dim q = Ok (l', Some r', dim') ->
  exists ul ur, renumbering l r dim q l' r' dim' ul ur.
Proof.
  intros least pre minc ord cord gord fuel load e f l r n p dim q s t xl xr l' r' dim' L E F Co Cl Cr Fl Fr Ap Un Er.
  destruct (C29_numbering_two load e f l r n p dim q (fun n c H => proj1 (L n c H)) E F) as (I & I' & B & P & Q & N).
  destruct (two_once load e f l r n p dim q L E F) as [Hl Hr].
  unfold clock_reduce in Er. destruct (Nat.eqb_spec dim 0) as [Ez|Nz].
  - injection Er as <- <- <-. subst dim. exists [], []. eapply shape_zero; eassumption.
  - destruct (gone_facts minc ord cord gord fuel load e f l r n p dim q s t xl xr L E F Co Fl Fr) as (Nl & Nr & Il & Ir).
    unfold clock_reduce_two in Er. rewrite Cl in Er. cbn [bind] in Er. rewrite Fl in Er. cbn [bind] in Er. rewrite Cr in Er. cbn [bind] in Er. rewrite Fr in Er. cbn [bind] in Er.
    rewrite (unique_removals xl xr _ _ Ap), (unique_removals xr xl _ _ (apart_sym _ _ Ap)) in Er. fold (left_gone l q xl xr) (right_gone l q xl xr) in Er.
    assert (Ul : unread_all (drop (left_gone l q xl xr)) l).
    { intros c Hc m i Hi X. unfold drop in X. destruct (nin i (left_gone l q xl xr)) eqn:Y; [|discriminate]. apply nin_In, unique_In in Y. destruct Y as (Y1 & Y2 & _). apply (Un c m i); auto. apply in_or_app. auto. }
    assert (Ur : unread_all (drop (right_gone l q xl xr)) r).
    { intros c Hc m i Hi X. unfold drop in X. destruct (nin i (right_gone l q xl xr)) eqn:Y; [|discriminate]. apply nin_In, unique_In in Y. destruct Y as (Y1 & Y2 & _). apply (Un c m i); auto. apply in_or_app. auto. }
    set (ul := left_gone l q xl xr) in *. set (ur := right_gone l q xl xr) in *.
    destruct (two_ren l r dim q ul ur Hl Hr P Q Nl Nr Il Ir Ul Ur) as (l1 & r1 & E1 & E2 & W1 & W2).
    rewrite !removed_removals in Er. unfold minus_usize in Er. destruct (Nat.ltb_spec dim (List.length ul + List.length ur)) as [Lt|_]; [discriminate|]. cbn [bind] in Er. rewrite E2 in Er. cbn [bind] in Er. rewrite E1 in Er. cbn [bind fst snd] in Er.
    injection Er as El Er Ed. exists ul, ur. repeat (split; [assumption|]). split; [|split]; [rewrite <- W1|rewrite <- W2|]; unfold finish, dim2; symmetry; assumption.
Qed.

(** C46 for the two systems of a refinement query: each of them behaves as without the reduction, if no replacement of
    clocks is reported for both systems and no clock reported as unused for both is mentioned by a guard or an invariant.
    There may be quotients on either side. *)
Theorem C46_two_partial : forall least pre minc ord cord gord fuel load e f l r n p dim q s t xl xr l' r' dim' s1 t1 s2 t2,
  (forall n c, load n = Some c -> clocks_numbered (c_decls c) /\ good_resets c /\ named_guards c) ->
  get_system_recipe load e (0, None) = Ok (l, (n, p)) -> get_system_recipe load f (n, p) = Ok (r, (dim, q)) -> reorders cord ->
  compile least pre dim l = Ok s -> compile least pre dim r = Ok t ->
  find_redundant_clocks (dim + 1) minc ord cord gord fuel s = Ok xl -> find_redundant_clocks (dim + 1) minc ord cord gord fuel t = Ok xr ->
  (forall i o p, In (ReplaceClocks i o) xl -> In (ReplaceClocks i p) xr -> ~ (forall k, In k o <-> In k p)) ->
  (forall c n i, In c (components l ++ components r) -> In (n, i) (d_clocks (c_decls c)) -> In (RemoveClock i) xl -> In (RemoveClock i) xr ->
    (forall l g, In l (c_locs c) -> l_inv l = Some g -> b_has_var g n = false) /\ (forall e g, In e (c_edges c) -> e_guard e = Some g -> b_has_var g n = false)) ->
  clock_reduce least pre (fun d => find_redundant_clocks d minc ord cord gord fuel) l (Some r) dim q = Ok (l', Some r', dim') ->
  compile_two least pre dim l r = Ok (s1, t1) -> compile_two least pre dim' l' r' = Ok (s2, t2) ->
  same_behaviour (dim + 1) s1 (dim' + 1) s2 /\ same_behaviour (dim + 1) t1 (dim' + 1) t2.
Proof.
  intros least pre minc ord cord gord fuel load e f l r n p dim q s t xl xr l' r' dim' s1 t1 s2 t2 L E F Co Cl Cr Fl Fr Ap Un Er C1 C2.
  destruct (C29_numbering_two load e f l r n p dim q (fun n c H => proj1 (L n c H)) E F) as (I & I' & B & P & Q & N).
  destruct (two_once load e f l r n p dim q L E F) as [Hl Hr]. pose proof (two_named load e f l r n p dim q L E F) as Na.
  unfold compile_two in C1, C2. destruct (compile_at least pre (dim + 1) l 0) as [[a1 k1]| | |] eqn:A1; cbn [bind] in C1; try discriminate.
  destruct (compile_at least pre (dim + 1) r k1) as [[b1 m1]| | |] eqn:B1; cbn [bind] in C1; try discriminate. injection C1 as -> ->.
  destruct (compile_at least pre (dim' + 1) l' 0) as [[a2 k2]| | |] eqn:A2; cbn [bind] in C2; try discriminate.
  destruct (compile_at least pre (dim' + 1) r' k2) as [[b2 m2]| | |] eqn:B2; cbn [bind] in C2; try discriminate. injection C2 as -> ->.
  destruct (two_good load e f l r n p dim q L E F least pre l 0 s1 k1 (or_introl eq_refl) A1) as (_ & _ & Ck1 & _).
  destruct (two_good load e f l r n p dim q L E F least pre r k1 t1 m1 (or_intror eq_refl) B1) as (_ & _ & Ck2 & _).
  destruct (shape_some least pre minc ord cord gord fuel load e f l r n p dim q s t xl xr l' r' dim' L E F Co Cl Cr Fl Fr Ap Un Er) as (ul & ur & Nl & Nr & Il & Ir & Ul & Ur & Hl' & Hr' & Hd).
  subst l' r' dim'.
  split; [eapply (two_same l r dim q ul ur Hl Hr P Q Nl Nr Il Ir least pre least pre l ul)|eapply (two_same l r dim q ul ur Hl Hr P Q Nl Nr Il Ir least pre least pre r ur)]; eauto;
    intros c Hc; apply Na, in_or_app; auto.
Qed.
Print Assumptions C46_two_partial.

(** What the description of sets by constraints guarantees: no replacement is reported for both systems of a query. *)
Lemma two_apart : forall least pre minc ord cord gord fuel load e f l r n p dim q s t xl xr,
  (forall n c, load n = Some c -> clocks_numbered (c_decls c) /\ good_resets c /\ named_guards c) ->
  get_system_recipe load e (0, None) = Ok (l, (n, p)) -> get_system_recipe load f (n, p) = Ok (r, (dim, q)) ->
  describes (dim + 1) minc -> confined (dim + 1) minc -> same_elements ord -> reorders gord -> (Z.of_nat (dim + 1) < 4294967295)%Z ->
  compile least pre dim l = Ok s -> compile least pre dim r = Ok t ->
  find_redundant_clocks (dim + 1) minc ord cord gord fuel s = Ok xl -> find_redundant_clocks (dim + 1) minc ord cord gord fuel t = Ok xr ->
  forall i o p, In (ReplaceClocks i o) xl -> In (ReplaceClocks i p) xr -> ~ (forall k, In k o <-> In k p).
Proof.
  intros least pre minc ord cord gord fuel load e f l r n p dim q s t xl xr L E F M Cf So Go Sm Cl Cr Fl Fr.
  destruct (C29_numbering_two load e f l r n p dim q (fun n c H => proj1 (L n c H)) E F) as (_ & _ & _ & P & _ & _).
  unfold compile in Cl, Cr. destruct (compile_at least pre (dim + 1) l 0) as [[s0 k0]| | |] eqn:C0; try discriminate. injection Cl as ->.
  destruct (compile_at least pre (dim + 1) r 0) as [[t0 k1]| | |] eqn:C1; try discriminate. injection Cr as ->.
  destruct (two_good load e f l r n p dim q L E F least pre l 0 s k0 (or_introl eq_refl) C0) as (B1 & Cc1 & Ck1 & R1).
  destruct (two_good load e f l r n p dim q L E F least pre r 0 t k1 (or_intror eq_refl) C1) as (B2 & Cc2 & Ck2 & R2).
  assert (R : forall i, In i (all_numbers l ++ all_numbers r) -> i < dim + 1).
  { intros i Hi. assert (X : In i (seq 1 dim)) by (apply (Permutation_in _ P); rewrite app_assoc; apply in_or_app; auto). apply in_seq in X. lia. }
  apply (own_apart (dim + 1) minc ord cord gord fuel s t (q_default q) xl xr); auto.
  - eapply below_of; [exact Ck1|]. rewrite Cc1. intros x Hx. apply R, in_or_app. auto.
  - eapply below_of; [exact Ck2|]. rewrite Cc2. intros x Hx. apply R, in_or_app. auto.
  - rewrite Cc1, Cc2. eapply both_nodup, P.
Qed.
(** C29, reduction of two systems, for every description of sets by constraints that only mentions the clocks a set
    depends on. *)
Theorem C29_reduced_two : forall least pre minc ord cord gord fuel load e f l r n p dim q s t xl xr,
  (forall n c, load n = Some c -> clocks_numbered (c_decls c) /\ good_resets c /\ named_guards c) ->
  get_system_recipe load e (0, None) = Ok (l, (n, p)) -> get_system_recipe load f (n, p) = Ok (r, (dim, q)) ->
  describes (dim + 1) minc -> confined (dim + 1) minc -> same_elements ord -> reorders cord -> reorders gord -> (Z.of_nat (dim + 1) < 4294967295)%Z ->
  compile least pre dim l = Ok s -> compile least pre dim r = Ok t ->
  find_redundant_clocks (dim + 1) minc ord cord gord fuel s = Ok xl -> find_redundant_clocks (dim + 1) minc ord cord gord fuel t = Ok xr ->
  exists l' r' dim', clock_reduce least pre (fun d => find_redundant_clocks d minc ord cord gord fuel) l (Some r) dim q = Ok (l', Some r', dim') /\ dim' <= dim /\
    NoDup (all_numbers l' ++ all_numbers r') /\
    (forall i, In i (all_numbers l' ++ all_numbers r') \/ (q <> None /\ i = dim') <-> 1 <= i <= dim') /\
    (forall q', In q' (quotient_clocks l' ++ quotient_clocks r') -> q' = dim' /\ q <> None) /\
    (q <> None -> ~ In dim' (all_numbers l' ++ all_numbers r')).
Proof.
  intros least pre minc ord cord gord fuel load e f l r n p dim q s t xl xr L E F M Cf So Co Go Sm Cl Cr Fl Fr.
  eapply C29_reduced_two_partial; try eassumption. eapply two_apart; eassumption.
Qed.
Print Assumptions C29_reduced_two.

(** C46 for refinement: whether the left system of a query refines the right one does not depend on the reduction, if no
    clock reported as unused for both systems is mentioned by a guard or an invariant. *)
Theorem C46_refinement_partial : forall least pre minc ord cord gord fuel load e f l r n p dim q s t xl xr l' r' dim' s1 t1 s2 t2,
  (forall n c, load n = Some c -> clocks_numbered (c_decls c) /\ good_resets c /\ named_guards c) ->
  get_system_recipe load e (0, None) = Ok (l, (n, p)) -> get_system_recipe load f (n, p) = Ok (r, (dim, q)) ->
  describes (dim + 1) minc -> confined (dim + 1) minc -> same_elements ord -> reorders cord -> reorders gord -> (Z.of_nat (dim + 1) < 4294967295)%Z ->
  compile least pre dim l = Ok s -> compile least pre dim r = Ok t ->
  find_redundant_clocks (dim + 1) minc ord cord gord fuel s = Ok xl -> find_redundant_clocks (dim + 1) minc ord cord gord fuel t = Ok xr ->
  (forall c n i, In c (components l ++ components r) -> In (n, i) (d_clocks (c_decls c)) -> In (RemoveClock i) xl -> In (RemoveClock i) xr ->
    (forall l g, In l (c_locs c) -> l_inv l = Some g -> b_has_var g n = false) /\ (forall e g, In e (c_edges c) -> e_guard e = Some g -> b_has_var g n = false)) ->
  clock_reduce least pre (fun d => find_redundant_clocks d minc ord cord gord fuel) l (Some r) dim q = Ok (l', Some r', dim') ->
  compile_two least pre dim l r = Ok (s1, t1) -> compile_two least pre dim' l' r' = Ok (s2, t2) ->
  (refines (dim' + 1) s2 t2 <-> refines (dim + 1) s1 t1).
Proof.
  intros least pre minc ord cord gord fuel load e f l r n p dim q s t xl xr l' r' dim' s1 t1 s2 t2 L E F M Cf So Co Go Sm Cl Cr Fl Fr Un Er C1 C2.
  destruct (C46_two_partial least pre minc ord cord gord fuel load e f l r n p dim q s t xl xr l' r' dim' s1 t1 s2 t2) as [S T]; try eassumption; [eapply two_apart; eassumption|].
  symmetry. apply same_refines; assumption.
Qed.
Print Assumptions C46_refinement_partial.

(** A description that is confined: clocks that do not matter are projected away first. *)
Definition own_step (dim : nat) (f : fed) (x : nat) : fed := let g := ffree dim x f in if fsubset dim g f then g else f.
Definition own (dim : nat) (f : fed) : fed := fold_left (own_step dim) (seq 1 (dim - 1)) f.
Definition min_own (dim : nat) (f : fed) : fed := min_desc dim (own dim f).
Lemma own_step_sem dim f x v : x <> 0 -> x < dim -> (fsem dim (own_step dim f x) v <-> fsem dim f v).
Proof.
  intros Hx Hd. unfold own_step. destruct (fsubset dim (ffree dim x f) f) eqn:S; [|tauto]. rewrite fsubset_true in S. split; [apply S|].
  intros H. apply ffree_sem; auto. split; [exact (fsem_ok _ _ _ H)|]. exists (v x). split; [apply (fsem_ok _ _ _ H); lia|].
  eapply fsem_ext; [|exact H]. intros i. unfold vset. destruct (Nat.eqb_spec i x) as [->|]; reflexivity.
Qed.
Lemma own_steps_sem dim xs : forall f v, (forall x, In x xs -> x <> 0 /\ x < dim) -> (fsem dim (fold_left (own_step dim) xs f) v <-> fsem dim f v).
Proof.
  induction xs as [|x xs IH]; intros f v H; cbn [fold_left]; [tauto|]. rewrite IH by (intros; apply H; right; assumption). apply own_step_sem; apply H; left; reflexivity.
Qed.
Lemma own_sem dim f v : fsem dim (own dim f) v <-> fsem dim f v.
Proof. apply own_steps_sem. intros x H. apply in_seq in H. lia. Qed.
Lemma min_own_describes dim : 0 < dim -> describes dim (min_own dim).
Proof.
  intros Hd f Hf. destruct (min_desc_describes dim Hd (own dim f)) as [A B].
  - intros v w Hv Hw X. rewrite !own_sem. apply Hf; assumption.
  - split; [|exact B]. intros v. unfold min_own. rewrite A. apply own_sem.
Qed.
Definition avoids (x : nat) (f : fed) : Prop := forall z, In z f -> exists X, ~ In x X /\ cvars_in X z.
Lemma avoids_free dim x y f : y <> 0 -> avoids x f -> avoids x (ffree dim y f).
Proof.
  intros Hy H z Hz. unfold ffree in Hz. apply in_map_iff in Hz. destruct Hz as (z0 & <- & Hz). destruct (H z0 Hz) as (X & N & C). exists X. split; [exact N|]. apply zfree_vars; [exact Hy|].
  intros c Hc. destruct (C c Hc) as [C1 C2]. split; [destruct C1|destruct C2]; auto; right; right; assumption.
Qed.
Lemma avoids_freed dim x f : x <> 0 -> avoids x (ffree dim x f).
Proof.
  intros Hx z Hz. unfold ffree in Hz. apply in_map_iff in Hz. destruct Hz as (z0 & <- & Hz). exists (filter (fun y => negb (Nat.eqb y x)) (zvars z0)).
  split; [intros H; apply filter_In in H; destruct H as [_ H]; rewrite Nat.eqb_refl in H; discriminate|]. apply zfree_vars; [exact Hx|]. intros c Hc. destruct (zvars_cover z0 c Hc) as [C1 C2].
  assert (Y : forall i, In i (zvars z0) -> In i (x :: filter (fun y => negb (Nat.eqb y x)) (zvars z0))).
  { intros i Hi. destruct (Nat.eq_dec i x) as [->|Ne]; [left; reflexivity|right]. apply filter_In. split; [exact Hi|]. apply negb_true_iff, Nat.eqb_neq, Ne. }
  split; [destruct C1|destruct C2]; auto.
Qed.
Lemma avoids_step dim x y f : y <> 0 -> avoids x f -> avoids x (own_step dim f y).
Proof. intros Hy H. unfold own_step. destruct (fsubset _ _ _); [apply avoids_free; assumption|exact H]. Qed.
Lemma avoids_steps dim x ys : forall f, ~ In 0 ys -> avoids x f -> avoids x (fold_left (own_step dim) ys f).
Proof. induction ys as [|y ys IH]; intros f N H; cbn [fold_left]; [exact H|]. apply IH; [cbn in N; tauto|]. apply avoids_step; [intros ->; cbn in N; tauto|exact H]. Qed.
Lemma min_own_confined dim : 0 < dim -> confined dim (min_own dim).
Proof.
  intros Hd xs f Hf z c Hz Hc.
  assert (Low : forall x, x <> 0 -> x < dim -> ~ In x xs -> avoids x (own dim f)).
  { intros x Hx Hl Ni. unfold own. assert (Sp : exists a b, seq 1 (dim - 1) = a ++ x :: b) by (apply in_split, in_seq; lia). destruct Sp as (a & b & Sp).
    assert (Rg : forall y, In y (seq 1 (dim - 1)) -> y <> 0 /\ y < dim) by (intros y Hy; apply in_seq in Hy; lia). rewrite Sp in *. rewrite fold_left_app. cbn [fold_left].
    apply avoids_steps; [intros H; destruct (Rg 0) as [X _]; [apply in_or_app; right; right; exact H|congruence]|].
    set (g := fold_left (own_step dim) a f). assert (G : forall v, fsem dim g v <-> fsem dim f v) by (intros v; apply own_steps_sem; intros y Hy; apply Rg, in_or_app; auto).
    unfold own_step. replace (fsubset dim (ffree dim x g) g) with true; [apply avoids_freed, Hx|]. symmetry. apply fsubset_true. intros v H. apply ffree_sem in H; auto.
    destruct H as (Hv & d & Hdd & H). apply G. apply G in H. apply (Hf (vset v x d) v (fsem_ok _ _ _ H) Hv); [|exact H]. intros i Hi. unfold vset. destruct (Nat.eqb_spec i x) as [->|]; [contradiction|reflexivity]. }
  assert (V : forall x, x = ci c \/ x = cj c -> x < dim /\ (x <> 0 -> ~ avoids x (own dim f))).
  { intros x X. unfold min_own, min_desc in Hz. apply in_map_iff in Hz. destruct Hz as (z1 & <- & Hz). apply filter_In in Hz. destruct Hz as [Hz _]. apply in_map_iff in Hz. destruct Hz as (z0 & <- & Hz).
    apply filter_In in Hc. destruct Hc as [Hc _].
    assert (Lv : forall X, cvars_in X z0 -> cvars_in X (low dim z0)).
    { intros Y HY. unfold low. apply zelim_rest; [intros X0; apply filter_In in X0; destruct X0 as [X0 _]; exact (zvars_no0 _ X0)|]. intros c0 Hc0. destruct (HY c0 Hc0) as [C1 C2]. split; [destruct C1|destruct C2]; auto; right; apply in_or_app; auto. }
    split.
    - assert (V : cvars_in (filter (fun x => negb (Nat.leb dim x)) (zvars z0)) (low dim z0)).
      { apply zelim_rest; [intros X0; apply filter_In in X0; destruct X0 as [X0 _]; exact (zvars_no0 _ X0)|].
        intros y Hy. destruct (zvars_cover z0 y Hy) as [V1 V2].
        assert (Q : forall i, In i (zvars z0) -> In i (filter (fun x => Nat.leb dim x) (zvars z0) ++ filter (fun x => negb (Nat.leb dim x)) (zvars z0))).
        { intros i Hi. apply in_or_app. destruct (Nat.leb dim i) eqn:Le; [left|right]; apply filter_In; rewrite Le; auto. }
        split; [destruct V1|destruct V2]; auto. }
      destruct (V c Hc) as [V1 V2].
      assert (Q : forall i, i = 0%nat \/ In i (filter (fun x => negb (Nat.leb dim x)) (zvars z0)) -> (i < dim)%nat).
      { intros i [->|Hi]; [exact Hd|]. apply filter_In in Hi. destruct Hi as [_ Hi]. apply negb_true_iff, Nat.leb_gt in Hi. exact Hi. }
      destruct X as [->| ->]; auto.
    - intros Nx A. destruct (A z0 Hz) as (Y & NY & CY). destruct (Lv Y CY c Hc) as [C1 C2]. destruct X as [->| ->]; [destruct C1|destruct C2]; contradiction. }
  assert (Fin : forall x, x = ci c \/ x = cj c -> x = 0 \/ In x xs).
  { intros x X. destruct (Nat.eq_dec x 0) as [->|Nx]; [auto|]. destruct (V x X) as [Lx Ax]. destruct (in_dec Nat.eq_dec x xs) as [|Ni]; [auto|]. destruct (Ax Nx (Low x Nx Lx Ni)). }
  split; apply Fin; auto.
Qed.

(** Non-vacuity: D || N on the left and a quotient of D by N on the right: clocks 1 to 4 on the left, 5 to 8 on the right and the
    quotient clock 9.  The clock z of D (3 and 7) is never read: it is removed on both sides. *)
Definition two_e : sysx := XPar (XComp "D" None) (XComp "N" None).
Definition two_f : sysx := XQuot (XComp "D" (Some "2")) (XComp "N" (Some "2")).
Definition two_l : recipe := Eval vm_compute in get no_recipe (rmap fst (get_system_recipe red_load two_e (0, None))).
Definition two_r : recipe := Eval vm_compute in get no_recipe (rmap fst (get_system_recipe red_load two_f (4, None))).
Definition two_s : ts := Eval vm_compute in get ts_m (compile no_check no_check 9 two_l).
Definition two_t : ts := Eval vm_compute in get ts_m (compile no_check no_check 9 two_r).
Definition two_redundant (d : nat) : ts -> res (list instr) := find_redundant_clocks d (min_own 10) (fun l => l) (fun l => l) (fun l => l) 30.
Definition two_after : recipe * option recipe * nat :=
  Eval vm_compute in get (no_recipe, None, 0) (clock_reduce no_check no_check two_redundant two_l (Some two_r) 9 (Some 9)).
Definition two_l' : recipe := Eval vm_compute in fst (fst two_after).
Definition two_r' : recipe := Eval vm_compute in match snd (fst two_after) with Some r => r | None => no_recipe end.
Definition two_full : ts * ts := Eval vm_compute in get (ts_m, ts_m) (compile_two no_check no_check 9 two_l two_r).
Definition two_small : ts * ts := Eval vm_compute in get (ts_m, ts_m) (compile_two no_check no_check 7 two_l' two_r').
Example C29_C46_two_nonvacuous :
  clock_reduce no_check no_check two_redundant two_l (Some two_r) 9 (Some 9) = Ok (two_l', Some two_r', 7) /\
  all_numbers two_l' = [1; 2; 3] /\ all_numbers two_r' = [4; 5; 6] /\ quotient_clocks two_r' = [7] /\
  same_behaviour 10 (fst two_full) 8 (fst two_small) /\ same_behaviour 10 (snd two_full) 8 (snd two_small) /\
  (refines 8 (fst two_small) (snd two_small) <-> refines 10 (fst two_full) (snd two_full)).
Proof.
  assert (E1 : get_system_recipe red_load two_e (0, None) = Ok (two_l, (4, None))) by (vm_compute; reflexivity).
  assert (E2 : get_system_recipe red_load two_f (4, None) = Ok (two_r, (9, Some 9))) by (vm_compute; reflexivity).
  assert (Cl : compile no_check no_check 9 two_l = Ok two_s) by (vm_compute; reflexivity).
  assert (Cr : compile no_check no_check 9 two_r = Ok two_t) by (vm_compute; reflexivity).
  assert (Rr : clock_reduce no_check no_check two_redundant two_l (Some two_r) 9 (Some 9) = Ok (two_l', Some two_r', 7)) by (vm_compute; reflexivity).
  assert (C1 : compile_two no_check no_check 9 two_l two_r = Ok (fst two_full, snd two_full)) by (vm_compute; reflexivity).
  assert (C2 : compile_two no_check no_check 7 two_l' two_r' = Ok (fst two_small, snd two_small)) by (vm_compute; reflexivity).
  set (xl := [RemoveClock 3; RemoveClock 5; RemoveClock 6; RemoveClock 7; RemoveClock 8; RemoveClock 9; ReplaceClocks 1 [2]]).
  set (xr := [RemoveClock 1; RemoveClock 2; RemoveClock 3; RemoveClock 4; RemoveClock 7; ReplaceClocks 5 [6]]).
  assert (Fl : two_redundant 10 two_s = Ok xl) by (vm_compute; reflexivity).
  assert (Fr : two_redundant 10 two_t = Ok xr) by (vm_compute; reflexivity).
  assert (Un : forall c n i, In c (components two_l ++ components two_r) -> In (n, i) (d_clocks (c_decls c)) -> In (RemoveClock i) xl -> In (RemoveClock i) xr ->
    (forall l g, In l (c_locs c) -> l_inv l = Some g -> b_has_var g n = false) /\ (forall e g, In e (c_edges c) -> e_guard e = Some g -> b_has_var g n = false)).
  { intros c n i Hc Hn Hi Hj. assert (Z : i = 3 \/ i = 7). { unfold xl, xr in *. cbn in Hi, Hj. intuition congruence. }
    vm_compute in Hc. destruct Hc as [<-|[<-|[<-|[<-|[]]]]]; cbn in Hn;
      (destruct Hn as [[= <- <-]|[[= <- <-]|[[= <- <-]|[]]]] || destruct Hn as [[= <- <-]|[]]); try (exfalso; lia);
      (split; [intros l g [<-|[<-|[]]]; cbn; intros [= <-]; reflexivity|intros e g [<-|[<-|[]]]; cbn; intros [= <-]; reflexivity]). }
  assert (M : describes (9 + 1) (min_own 10)) by (apply min_own_describes; lia). assert (Cf : confined (9 + 1) (min_own 10)) by (apply min_own_confined; lia).
  assert (So : same_elements (fun l : list string => l)) by (intros l x; reflexivity). assert (Co : reorders (fun l : list nat => l)) by (intros l; reflexivity). assert (Go : reorders (fun l : list (list nat) => l)) by (intros l; reflexivity).
  split; [exact Rr|]. split; [reflexivity|]. split; [reflexivity|]. split; [reflexivity|].
  destruct (C46_two_partial no_check no_check (min_own 10) _ _ _ 30 red_load two_e two_f two_l two_r 4 None 9 (Some 9) two_s two_t xl xr two_l' two_r' 7 (fst two_full) (snd two_full) (fst two_small) (snd two_small)
    red_load_ok E1 E2 Co Cl Cr Fl Fr) as [S T]; auto.
  { intros i o p H1 H2. unfold xl, xr in *. cbn in H1, H2. intuition congruence. }
  split; [exact S|]. split; [exact T|].
  exact (C46_refinement_partial no_check no_check (min_own 10) _ _ _ 30 red_load two_e two_f two_l two_r 4 None 9 (Some 9) two_s two_t xl xr two_l' two_r' 7 (fst two_full) (snd two_full) (fst two_small) (snd two_small)
    red_load_ok E1 E2 M Cf So Co Go eq_refl Cl Cr Fl Fr Un Rr C1 C2).
Qed.
