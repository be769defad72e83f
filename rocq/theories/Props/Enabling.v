(** C20, C44: input enabling, and the compilation of components. *)
From Coq Require Import List String ZArith QArith Bool Arith Lia Lqa.
From Verif Require Import Fed.Zone Fed.ZoneFacts Fed.Check Model.Base Model.Expr Model.Guard Model.Loc Model.Component Model.TS Model.Enable
  Spec.GuardSpec Spec.ConvSpec Spec.StepSpec Spec.SystemSpec Spec.EnableSpec
  Proofs.GuardFacts Proofs.StepFacts Proofs.EnableFacts Proofs.CompileFacts Props.Examples.
Import ListNotations.
Local Open Scope Q_scope.
Local Open Scope string_scope.

(** *** C20 *)

(** Nothing is removed; every listed input can be taken in every location with any clock
    values the invariant allows; and every added edge is a self-loop without updates on a
    listed input, with a guard of supported shape, enabled exactly where the invariant holds and no original edge for that
    input (or for the wildcard) could be taken.
    Missing for the full statement: wildcard edges do not accept the input once the
    component is compiled, and edges with conflicting updates are misjudged (both below). *)
Theorem C20_input_enabling_partial : forall c ins minc c',
  clocks_numbered (c_decls c) -> NoDup (map l_id (c_locs c)) ->
  plain_component c -> sane_updates (comp_dim c) c -> describes (comp_dim c) minc ->
  make_input_enabled minc c ins = Ok c' ->
  c_locs c' = c_locs c /\ c_decls c' = c_decls c /\ (forall e, In e (c_edges c) -> In e (c_edges c')) /\
  (forall l a v, In l (c_locs c) -> In a ins -> val_ok (comp_dim c) v -> osat (c_decls c) v (l_inv l) ->
     exists e, In e (c_edges c') /\ listens_any l a e /\ edge_enabled c' e v) /\
  (forall e, In e (c_edges c') -> In e (c_edges c) \/
     exists l a, In l (c_locs c) /\ In a ins /\ listens l a e /\ e_tgt e = l_id l /\ e_update e = None /\
       (forall b, e_guard e = Some b -> basic_guard (c_decls c) b = true) /\
       forall v, val_ok (comp_dim c) v -> (osat (c_decls c) v (e_guard e) <-> osat (c_decls c) v (l_inv l) /\
          ~ exists e0, In e0 (c_edges c) /\ listens_any l a e0 /\ edge_enabled c e0 v)).
Proof.
  intros c ins minc c' Hn Hi Hp Hs Hm E.
  exact (enable_spec c (comp_dim c) Hp Hs Hn eq_refl minc Hm Hi ins c' E).
Qed.
Print Assumptions C20_input_enabling_partial.

(** Components with supported guards and resets are always processed. *)
Theorem C20_no_abort : forall c ins minc,
  clocks_numbered (c_decls c) -> NoDup (map l_id (c_locs c)) ->
  plain_component c -> sane_updates (comp_dim c) c -> describes (comp_dim c) minc -> supported_component c ->
  exists c', make_input_enabled minc c ins = Ok c'.
Proof.
  intros c ins minc Hn Hi Hp Hs Hm Hu.
  exact (enable_total c (comp_dim c) Hp Hs Hn eq_refl minc Hm Hi Hu ins).
Qed.
Print Assumptions C20_no_abort.

(** Without wildcard edges the compiled component accepts every listed input in every
    ordinary location, at all clock values the invariant allows. *)
Theorem C20_system_accepts_partial : forall c ins minc c' allins outs id cc,
  clocks_numbered (c_decls c) -> NoDup (map l_id (c_locs c)) ->
  plain_component c -> sane_updates (comp_dim c) c -> describes (comp_dim c) minc ->
  (forall e, In e (c_edges c) -> e_sync e <> "*") -> ~ In "*" ins ->
  make_input_enabled minc c ins = Ok c' ->
  compile_with_actions (comp_dim c) c' allins outs id = Ok cc ->
  forall l u a v, In l (c_locs c) -> In u (cc_locs cc) -> lt_id u = LSimple (l_id l) ->
    l_type l <> Universal -> l_type l <> Inconsistent -> In a ins -> In a allins -> inv_at (comp_dim c) u v ->
    exists ts t v', next_transitions (comp_dim c) (TSimple cc) u a = Ok ts /\ In t ts /\ t_fires (comp_dim c) t v v'.
Proof.
  intros c ins minc c' allins outs id cc Hn Hi Hp Hs Hm Hw Hw' E Ec l u a v Hl Hu Eu N1 N2 Ha Ha' Hv.
  destruct (C20_input_enabling_partial c ins minc c' Hn Hi Hp Hs Hm E) as (El & Ed & Ekeep & Eall & Enew).
  assert (Sc : simple_component c').
  { rewrite <- Ed in Enew. split.
    - intros l0 g H1 H2. rewrite El in H1. rewrite Ed. apply (proj1 Hp l0 g H1 H2).
    - intros e g H1 H2. destruct (Enew e H1) as [O|(_ & _ & _ & _ & _ & _ & _ & B & _)].
      + rewrite Ed. apply (proj2 Hp e g O H2).
      + apply basic_simple. apply B. exact H2. }
  assert (Hi' : NoDup (map l_id (c_locs c'))) by (rewrite El; exact Hi).
  assert (Hl' : In l (c_locs c')) by (rewrite El; exact Hl).
  assert (Hinv : val_ok (comp_dim c) v /\ osat (c_decls c) v (l_inv l)).
  { pose proof (proj1 (compiled_locations _ c' Hi' _ _ _ _ Ec u) Hu) as (l' & Hl2 & El2).
    pose proof (proj1 (Proofs.WfFacts.lt_simple_id _ _ _ _ El2)) as I1. rewrite Eu in I1. injection I1 as I1.
    assert (l' = l) by (apply (own_location c' Hi' l Hl'); [exact Hl2|congruence]). subst l'.
    rewrite <- Ed. exact (proj1 (lt_simple_inv _ c' Sc l u Hl' El2 v) Hv). }
  destruct (Eall l a v Hl Ha (proj1 Hinv) (proj2 Hinv)) as (e & He & (L1 & L2 & L3) & En).
  assert (Ls : e_sync e = a).
  { destruct L3 as [Z|Z]; [exact Z|]. destruct (Enew e He) as [O|(l3 & a3 & _ & Ha3 & (_ & _ & L) & _)]; [destruct (Hw e O Z)|].
    exfalso. apply Hw'. congruence. }
  destruct (compiled_next _ c' Sc Hi' _ _ _ _ Ec l u a Hl' Hu Eu N1 N2 (or_introl Ha')) as (ts & Ets & T1 & _).
  destruct (T1 e He L2 Ls) as (t & Ht & (_ & _ & F)).
  destruct En as (G & us & l2 & Eus & T2 & X).
  exists ts, t, (run_updates us v). split; [exact Ets|]. split; [exact Ht|]. apply F. split; [apply Hinv|].
  split.
  - destruct (Enew e He) as [O|(l3 & a3 & _ & _ & _ & _ & U & _)].
    + assert (Eus' : updates_of c e = Some us) by (unfold updates_of in *; rewrite <- Ed; exact Eus).
      apply run_updates_ok; [apply (Hs e us O Eus')|apply Hinv].
    + unfold updates_of in Eus. rewrite U in Eus. injection Eus as <-. apply Hinv.
  - split; [exact G|]. exists us, l2. split; [exact Eus|]. split; [apply veq_refl|]. auto.
Qed.
Print Assumptions C20_system_accepts_partial.

(** A description as the theorems require: clocks beyond the dimension are projected away,
    constraints on the reference clock alone are decided. *)
Definition refcon (c : dcon) : bool := Nat.eqb (ci c) 0 && Nat.eqb (cj c) 0.
Definition low (dim : nat) (z : zone) : zone := zelim dim (filter (fun x => Nat.leb dim x) (zvars z)) z.
Definition min_desc (dim : nat) (f : fed) : fed :=
  map (filter (fun c => negb (refcon c)))
      (filter (fun z => forallb (fun c => negb (refcon c) || const_ok c) z) (map (low dim) f)).

Lemma refcon_sem c v : v 0%nat == 0 -> refcon c = true -> (csem c v <-> const_ok c = true).
Proof.
  intros Hv H. unfold refcon in H. apply andb_true_iff in H. destruct H as [H1 H2]. apply Nat.eqb_eq in H1. apply Nat.eqb_eq in H2.
  unfold csem, const_ok, ilt. rewrite H1, H2. destruct (cs c).
  - rewrite Z.ltb_lt, Zlt_Qlt. change (inject_Z 0) with 0. split; intros; lra.
  - rewrite Z.leb_le, Zle_Qle. change (inject_Z 0) with 0. split; intros; lra.
Qed.

Lemma zelim_rest dim xs rest : forall z, ~ In 0%nat xs -> cvars_in (xs ++ rest) z -> cvars_in rest (zelim dim xs z).
Proof.
  induction xs as [|x xs IH]; intros z H0 Hz; simpl; auto.
  apply IH; [simpl in H0; tauto|]. apply zfree_vars; auto. simpl in H0. intros ->. tauto.
Qed.

Lemma min_desc_describes dim : (0 < dim)%nat -> describes dim (min_desc dim).
Proof.
  intros Hdim f Hf. split.
  - intros v. split.
    + intros [Hv (z & Hz & Hs)]. unfold min_desc in Hz. apply in_map_iff in Hz. destruct Hz as (z1 & <- & Hz).
      apply filter_In in Hz. destruct Hz as [Hz Hok]. apply in_map_iff in Hz. destruct Hz as (z0 & <- & Hz).
      assert (S1 : zsem (low dim z0) v).
      { intros c Hc. destruct (refcon c) eqn:R.
        - apply refcon_sem; [apply Hv|exact R|]. rewrite forallb_forall in Hok. specialize (Hok c Hc). rewrite R in Hok. exact Hok.
        - apply Hs. apply filter_In. rewrite R. auto. }
      unfold low in S1. apply zelim_sem in S1; [|intros X; apply filter_In in X; destruct X as [X _]; exact (zvars_no0 _ X)|apply Hv].
      destruct S1 as (w & W1 & W2 & W3).
      assert (B : forall i, (i < dim)%nat -> w i == v i).
      { intros i Hi. apply W1. intros X. apply filter_In in X. destruct X as [_ X]. apply Nat.leb_le in X. lia. }
      assert (Hw : val_ok dim w).
      { split; [rewrite (B 0%nat Hdim); apply Hv|]. intros i Hi. rewrite (B i Hi). apply Hv. exact Hi. }
      apply (Hf w v Hw Hv B). split; [exact Hw|]. eauto.
    + intros [Hv (z & Hz & Hs)].
      assert (S1 : zsem (low dim z) v).
      { unfold low. apply zelim_sem; [intros X; apply filter_In in X; destruct X as [X _]; exact (zvars_no0 _ X)|apply Hv|].
        exists v. split; [intros; reflexivity|]. split; [intros i _ Hi; apply Hv; exact Hi|exact Hs]. }
      split; [exact Hv|]. exists (filter (fun c => negb (refcon c)) (low dim z)). split.
      * unfold min_desc. apply in_map. apply filter_In. split; [apply in_map; exact Hz|]. apply forallb_forall. intros c Hc.
        destruct (refcon c) eqn:R; [|reflexivity]. simpl. apply (refcon_sem c v); [apply Hv|exact R|]. apply S1; exact Hc.
      * intros c Hc. apply filter_In in Hc. apply S1. apply Hc.
  - intros z c Hz Hc. unfold min_desc in Hz. apply in_map_iff in Hz. destruct Hz as (z1 & <- & Hz).
    apply filter_In in Hz. destruct Hz as [Hz _]. apply in_map_iff in Hz. destruct Hz as (z0 & <- & Hz).
    apply filter_In in Hc. destruct Hc as [Hc R].
    assert (V : cvars_in (filter (fun x => negb (Nat.leb dim x)) (zvars z0)) (low dim z0)).
    { apply zelim_rest; [intros X; apply filter_In in X; destruct X as [X _]; exact (zvars_no0 _ X)|].
      intros x Hx. destruct (zvars_cover z0 x Hx) as [V1 V2].
      assert (Q : forall i, In i (zvars z0) -> In i (filter (fun x => Nat.leb dim x) (zvars z0) ++ filter (fun x => negb (Nat.leb dim x)) (zvars z0))).
      { intros i Hi. apply in_or_app. destruct (Nat.leb dim i) eqn:L; [left|right]; apply filter_In; rewrite L; auto. }
      split; [destruct V1|destruct V2]; auto. }
    destruct (V c Hc) as [V1 V2].
    assert (Q : forall i, i = 0%nat \/ In i (filter (fun x => negb (Nat.leb dim x)) (zvars z0)) -> (i < dim)%nat).
    { intros i [->|Hi]; [exact Hdim|]. apply filter_In in Hi. destruct Hi as [_ Hi]. apply negb_true_iff, Nat.leb_gt in Hi. exact Hi. }
    split; [exact (Q _ V1)|]. split; [exact (Q _ V2)|]. unfold refcon in R. apply negb_true_iff, andb_false_iff in R.
    destruct R as [R|R]; apply Nat.eqb_neq in R; auto.
Qed.

(** A component with a conditional input edge that resets its clock; input j is not handled at all. *)
Definition comp_e : component :=
  mkComp "E" (mkDecls [("x", 1%nat)] [])
    [mkL "L0" (Some (BLessEQ (AVar "x") (AInt 10))) Initial "NORMAL"; mkL "L1" (Some (BLessEQ (AVar "x") (AInt 5))) Normal "NORMAL"]
    [mkE "E1" "L0" "L1" SInput (Some (BGreatEQ (AVar "x") (AInt 3))) (Some [("x", AInt 0)]) "i";
     mkE "E2" "L1" "L0" SOutput (Some (BGreatEQ (AVar "x") (AInt 2))) None "o"] None.
Lemma comp_e_ok : clocks_numbered (c_decls comp_e) /\ NoDup (map l_id (c_locs comp_e)) /\ plain_component comp_e /\
  sane_updates (comp_dim comp_e) comp_e /\ supported_component comp_e.
Proof.
  split; [|split; [|split; [|split]]].
  - split; [repeat constructor; simpl; tauto|]. split; [repeat constructor; simpl; tauto|].
    intros x i [H|[]]. injection H as <- <-. simpl. lia.
  - repeat constructor; simpl; intuition discriminate.
  - split.
    + intros l g [<-|[<-|[]]] E; injection E as <-; split; reflexivity.
    + intros e g [<-|[<-|[]]] E; injection E as <-; split; reflexivity.
  - intros e us [<-|[<-|[]]] E; vm_compute in E; injection E as <-; (split; [apply upd_okb_spec|apply no_conflictb_spec]); reflexivity.
  - split; [|split; [|split]].
    + intros l g [<-|[<-|[]]] E; injection E as <-; reflexivity.
    + intros e g [<-|[<-|[]]] E; injection E as <-; reflexivity.
    + intros e [<-|[<-|[]]]; vm_compute; eauto.
    + intros e [<-|[<-|[]]]; [exists (mkL "L1" (Some (BLessEQ (AVar "x") (AInt 5))) Normal "NORMAL")|exists (mkL "L0" (Some (BLessEQ (AVar "x") (AInt 10))) Initial "NORMAL")];
        simpl; auto.
Qed.

(** In L0 input i gets x < 3 as its missing part (within x <= 10), input j the whole invariant. *)
Example C20_nonvacuous :
  clocks_numbered (c_decls comp_e) /\ NoDup (map l_id (c_locs comp_e)) /\ plain_component comp_e /\
  sane_updates (comp_dim comp_e) comp_e /\ describes (comp_dim comp_e) (min_desc (comp_dim comp_e)) /\ supported_component comp_e /\
  exists c', make_input_enabled (min_desc (comp_dim comp_e)) comp_e ["i"; "j"] = Ok c' /\
    map e_id (c_edges c') = ["E1"; "E2"; "input_L0_i"; "input_L0_j"; "input_L1_i"; "input_L1_j"] /\
    option_map e_guard (nth_error (c_edges c') 2) =
      Some (Some (BAnd (BLessEQ (AVar "x") (AInt 10)) (BLessT (AVar "x") (AInt 3)))).
Proof.
  destruct comp_e_ok as (A & B & C & D & E). repeat (split; [assumption|]).
  split; [apply min_desc_describes; unfold comp_dim; lia|]. split; [exact E|].
  eexists. split; [vm_compute; reflexivity|]. split; reflexivity.
Qed.

(** Wildcard edges: input enabling counts the edge "*" as handling input i, so nothing is
    added, but the compiled component offers no transition at all for i. *)
Definition comp_star : component :=
  mkComp "S" (mkDecls [("x", 1%nat)] [])
    [mkL "L0" None Initial "NORMAL"]
    [mkE "E1" "L0" "L0" SInput None None "*"; mkE "E2" "L0" "L0" SOutput None None "o"] None.
Theorem C20_star_refuted : exists c ins minc c' cc l u,
  clocks_numbered (c_decls c) /\ NoDup (map l_id (c_locs c)) /\ plain_component c /\
  sane_updates (comp_dim c) c /\ describes (comp_dim c) minc /\ supported_component c /\
  make_input_enabled minc c ins = Ok c' /\
  compile_with_actions (comp_dim c) c' ins (output_actions c') 1 = Ok cc /\
  In l (c_locs c) /\ In u (cc_locs cc) /\ lt_id u = LSimple (l_id l) /\ In "i" ins /\
  next_transitions (comp_dim c) (TSimple cc) u "i" = Ok [].
Proof.
  exists comp_star, ["i"], (min_desc (comp_dim comp_star)). eexists. eexists.
  exists (mkL "L0" None Initial "NORMAL"), (LLeaf (LSimple "L0") None Initial).
  split; [|split; [|split; [|split; [|split; [|split; [|split; [vm_compute; reflexivity|split; [vm_compute; reflexivity|]]]]]]]].
  - split; [repeat constructor; simpl; tauto|]. split; [repeat constructor; simpl; tauto|].
    intros x i [H|[]]. injection H as <- <-. simpl. lia.
  - repeat constructor; simpl; tauto.
  - split; [intros l g [<-|[]] E; discriminate|intros e g [<-|[<-|[]]] E; discriminate].
  - intros e us [<-|[<-|[]]] E; vm_compute in E; injection E as <-; (split; [apply upd_okb_spec|apply no_conflictb_spec]); reflexivity.
  - apply min_desc_describes. unfold comp_dim. lia.
  - split; [intros l g [<-|[]] E; discriminate|]. split; [intros e g [<-|[<-|[]]] E; discriminate|].
    split; [intros e [<-|[<-|[]]]; vm_compute; eauto|].
    intros e [<-|[<-|[]]]; exists (mkL "L0" None Initial "NORMAL"); simpl; auto.
  - simpl. repeat (split; [auto|]). reflexivity.
Qed.
Print Assumptions C20_star_refuted.

(** Conflicting updates: "x := 1, x := 9" into the invariant x <= 5.  The edge cannot be
    taken, yet input enabling believes it can and adds nothing: input i is refused. *)
Definition comp_twice : component :=
  mkComp "W" (mkDecls [("x", 1%nat)] [])
    [mkL "L0" None Initial "NORMAL"; mkL "L1" (Some (BLessEQ (AVar "x") (AInt 5))) Normal "NORMAL"]
    [mkE "E1" "L0" "L1" SInput None (Some [("x", AInt 1); ("x", AInt 9)]) "i"] None.
Theorem C20_conflict_refuted : exists c ins minc c' l v,
  clocks_numbered (c_decls c) /\ NoDup (map l_id (c_locs c)) /\ plain_component c /\
  describes (comp_dim c) minc /\ supported_component c /\
  make_input_enabled minc c ins = Ok c' /\
  In l (c_locs c) /\ In "i" ins /\ val_ok (comp_dim c) v /\ osat (c_decls c) v (l_inv l) /\
  ~ exists e, In e (c_edges c') /\ listens_any l "i" e /\ edge_enabled c' e v.
Proof.
  exists comp_twice, ["i"], (min_desc (comp_dim comp_twice)). eexists.
  exists (mkL "L0" None Initial "NORMAL"), (mkval []).
  split; [|split; [|split; [|split; [|split; [|split; [vm_compute; reflexivity|]]]]]].
  - split; [repeat constructor; simpl; tauto|]. split; [repeat constructor; simpl; tauto|].
    intros x i [H|[]]. injection H as <- <-. simpl. lia.
  - repeat constructor; simpl; intuition discriminate.
  - split; [intros l g [<-|[<-|[]]] E; try discriminate; injection E as <-; split; reflexivity|intros e g [<-|[]] E; discriminate].
  - apply min_desc_describes. unfold comp_dim. lia.
  - split; [intros l g [<-|[<-|[]]] E; try discriminate; injection E as <-; reflexivity|]. split; [intros e g [<-|[]] E; discriminate|].
    split; [intros e [<-|[]]; vm_compute; eauto|].
    intros e [<-|[]]. exists (mkL "L1" (Some (BLessEQ (AVar "x") (AInt 5))) Normal "NORMAL"). simpl; auto.
  - split; [left; reflexivity|]. split; [left; reflexivity|]. split; [apply val_okb_spec; reflexivity|]. split; [exact I|].
    cbn [c_edges]. intros (e & [<-|[<-|[]]] & (_ & L & _) & (_ & us & l & Eus & (Hl & El & _) & X)); [|discriminate].
    vm_compute in Eus. injection Eus as <-. cbn [c_locs] in Hl. destruct Hl as [<-|[<-|[]]]; [discriminate|].
    simpl in X. destruct X as (a & b & Ea & Eb & H). vm_compute in Ea, Eb. injection Ea as <-. injection Eb as <-.
    unfold Qle in H. simpl in H. lia.
Qed.
Print Assumptions C20_conflict_refuted.

(** *** C44 *)

(** The compiled locations are the component's, with the invariants as written. *)
Theorem C44_locations : forall dim c ins outs id cc,
  simple_component c -> NoDup (map l_id (c_locs c)) -> compile_with_actions dim c ins outs id = Ok cc ->
  (forall l, In l (c_locs c) -> exists u, In u (cc_locs cc) /\ lt_id u = LSimple (l_id l)) /\
  (forall u, In u (cc_locs cc) -> exists l, In l (c_locs c) /\ lt_id u = LSimple (l_id l) /\ lt_type u = l_type l /\
     forall v, inv_at dim u v <-> val_ok dim v /\ osat (c_decls c) v (l_inv l)).
Proof.
  intros dim c ins outs id cc Hp Hi E. split.
  - intros l Hl. destruct (Proofs.WfFacts.compile_inv _ _ _ _ _ _ E) as (ls & es & El & _).
    destruct (Proofs.SystemFacts.mapM_in _ _ _ El) as [M _]. destruct (M l Hl) as (u & _ & Eu). exists u.
    split; [apply (compiled_locations dim c Hi ins outs id cc E); eauto|apply (Proofs.WfFacts.lt_simple_id _ _ _ _ Eu)].
  - intros u Hu. apply (compiled_locations dim c Hi ins outs id cc E) in Hu. destruct Hu as (l & Hl & El). exists l.
    split; [exact Hl|]. destruct (Proofs.WfFacts.lt_simple_id _ _ _ _ El) as [A B]. split; [exact A|]. split; [exact B|].
    exact (lt_simple_inv dim c Hp l u Hl El).
Qed.
Print Assumptions C44_locations.

(** In every ordinary location and for every action the transitions offered are exactly the
    edges leaving the location with that action, and they fire exactly as written. *)
Theorem C44_transitions : forall dim c ins outs id cc,
  simple_component c -> NoDup (map l_id (c_locs c)) -> compile_with_actions dim c ins outs id = Ok cc ->
  forall l u a, In l (c_locs c) -> In u (cc_locs cc) -> lt_id u = LSimple (l_id l) ->
  l_type l <> Universal -> l_type l <> Inconsistent -> In a ins \/ In a outs ->
  exists ts, next_transitions dim (TSimple cc) u a = Ok ts /\
    (forall e, In e (c_edges c) -> e_src e = l_id l -> e_sync e = a -> exists t, In t ts /\ is_edge dim c e t) /\
    (forall t, In t ts -> exists e, In e (c_edges c) /\ e_src e = l_id l /\ e_sync e = a /\ is_edge dim c e t).
Proof. intros dim c ins outs id cc Hp Hi E. exact (compiled_next dim c Hp Hi ins outs id cc E). Qed.
Print Assumptions C44_transitions.

Example C44_nonvacuous :
  simple_component comp_e /\ NoDup (map l_id (c_locs comp_e)) /\
  exists cc, compile_with_actions 2 comp_e ["i"] ["o"] 1 = Ok cc /\ List.length (cc_locs cc) = 2%nat /\
  forall v, val_ok 2 v -> 3 <= v 1%nat -> edge_fires 2 comp_e (mkE "E1" "L0" "L1" SInput (Some (BGreatEQ (AVar "x") (AInt 3))) (Some [("x", AInt 0)]) "i") v (vset v 1 0).
Proof.
  destruct comp_e_ok as (_ & B & C & _). split; [split; intros; [eapply (proj1 C)|eapply (proj2 C)]; eassumption|]. split; [exact B|].
  eexists. split; [vm_compute; reflexivity|]. split; [reflexivity|]. intros v Hv H. split; [exact Hv|].
  split; [apply vset_ok; [exact Hv|discriminate|intros; lra]|]. split.
  - simpl. unfold cmp. simpl. do 2 eexists. split; [reflexivity|]. split; [reflexivity|]. exact H.
  - exists [mkU 1 0], (mkL "L1" (Some (BLessEQ (AVar "x") (AInt 5))) Normal "NORMAL"). split; [reflexivity|]. split; [apply veq_refl|]. split.
    + split; [simpl; auto|]. split; [reflexivity|]. intros l' [<-|[<-|[]]] E; [discriminate|reflexivity].
    + simpl. unfold cmp. simpl. do 2 eexists. split; [reflexivity|]. split; [reflexivity|]. rewrite vset_eq. unfold Qle; simpl; lia.
Qed.
