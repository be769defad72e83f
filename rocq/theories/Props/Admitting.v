(** C49: which systems a query is answered for. *)
From Coq Require Import List String ZArith QArith Bool Arith Lia.
From Verif Require Import Fed.Zone Fed.ZoneFacts Fed.Check Model.Base Model.Expr Model.Guard Model.Loc Model.Component Model.TS Model.ParseQuery Model.Search Model.Recipe
  Spec.StepSpec Spec.SystemSpec Spec.RunSpec Spec.ConsistencySpec Spec.EnableSpec Spec.RecipeSpec Spec.AdmitSpec
  Proofs.GuardFacts Proofs.StepFacts Proofs.SystemFacts Proofs.QuotientFacts Proofs.RecipeFacts Props.Examples Props.Determinism Props.Consistency Props.Recipes.
Import ListNotations.
Local Open Scope string_scope.
Local Open Scope nat_scope.

Lemma disjoint_no a b : disjoint a b = false -> exists x, In x a /\ In x b.
Proof.
  unfold disjoint. intros H. induction a as [|x a IH]; [discriminate|]. cbn [forallb] in H. apply andb_false_iff in H. destruct H as [H|H].
  - exists x. apply negb_false_iff, sin_In in H. simpl. auto.
  - destruct (IH H) as (y & H1 & H2). exists y. simpl. auto.
Qed.

(** A composition is accepted exactly if the operands are and share no output; otherwise the query is rejected. *)
Theorem C49_composition : forall least pre dim l r k s1 k1 s2 k2,
  compile_at least pre dim l k = Ok (s1, k1) -> compile_at least pre dim r k1 = Ok (s2, k2) ->
  (compatible Composition s1 s2 ->
     exists s, compile_at least pre dim (RComp l r) k = Ok (s, k2) /\ operands s = Some (Composition, s1, s2)) /\
  ((exists a, is_output s1 a /\ is_output s2 a) -> compile_at least pre dim (RComp l r) k = Err).
Proof.
  intros least pre dim l r k s1 k1 s2 k2 E1 E2. cbn [compile_at]. rewrite E1. cbn [bind]. rewrite E2. cbn [bind]. unfold composition_new. split.
  - intros H. assert (D : disjoint (ts_outputs s1) (ts_outputs s2) = true) by (apply disjoint_spec; intros a A B; exact (H a (conj A B))).
    rewrite D. cbn. eexists. split; reflexivity.
  - intros (a & A & B). destruct (disjoint (ts_outputs s1) (ts_outputs s2)) eqn:D; [|reflexivity].
    rewrite disjoint_spec in D. destruct (D a A B).
Qed.
Print Assumptions C49_composition.

(** A conjunction is accepted exactly if the operands are, no action is an input of one and an output of the other,
    and the conjunction passes the consistency check. *)
Theorem C49_conjunction : forall least pre dim l r k s1 k1 s2 k2,
  compile_at least pre dim l k = Ok (s1, k1) -> compile_at least pre dim r k1 = Ok (s2, k2) ->
  (compatible Conjunction s1 s2 -> exists s, operands s = Some (Conjunction, s1, s2) /\
     (least dim s = Ok true -> compile_at least pre dim (RConj l r) k = Ok (s, k2)) /\
     (least dim s = Ok false -> compile_at least pre dim (RConj l r) k = Err)) /\
  ((exists a, is_input s1 a /\ is_output s2 a \/ is_output s1 a /\ is_input s2 a) -> compile_at least pre dim (RConj l r) k = Err).
Proof.
  intros least pre dim l r k s1 k1 s2 k2 E1 E2. cbn [compile_at]. rewrite E1. cbn [bind]. rewrite E2. cbn [bind]. unfold conjunction_ts, conjunction_new. split.
  - intros H. assert (D : disjoint (ts_inputs s1) (ts_outputs s2) = true) by (apply disjoint_spec; intros a A B; exact (proj1 (H a) (conj A B))).
    assert (D' : disjoint (ts_outputs s1) (ts_inputs s2) = true) by (apply disjoint_spec; intros a A B; exact (proj2 (H a) (conj A B))).
    rewrite D, D'. cbn [negb bind]. eexists. split; [|split]; [|intros L; rewrite L; reflexivity|intros L; rewrite L; reflexivity]. reflexivity.
  - intros (a & [[A B]|[A B]]).
    + destruct (disjoint (ts_inputs s1) (ts_outputs s2)) eqn:D; [|reflexivity]. rewrite disjoint_spec in D. destruct (D a A B).
    + destruct (disjoint (ts_inputs s1) (ts_outputs s2)) eqn:D; [|reflexivity].
      destruct (disjoint (ts_outputs s1) (ts_inputs s2)) eqn:D'; [|reflexivity]. rewrite disjoint_spec in D'. destruct (D' a A B).
Qed.
Print Assumptions C49_conjunction.

(** A quotient is accepted exactly if the operands are, no output of the divisor is an input of the dividend, and
    both operands pass the check for determinism and consistency. *)
Theorem C49_quotient : forall least pre dim l r q k s1 k1 s2 k2,
  compile_at least pre dim l k = Ok (s1, k1) -> compile_at least pre dim r k1 = Ok (s2, k2) ->
  (compatible Quotient s1 s2 -> exists s, operands s = Some (Quotient, s1, s2) /\
     (pre dim s1 = Ok true -> pre dim s2 = Ok true -> compile_at least pre dim (RQuot l r q) k = Ok (s, k2)) /\
     (pre dim s1 = Ok false -> compile_at least pre dim (RQuot l r q) k = Err) /\
     (pre dim s1 = Ok true -> pre dim s2 = Ok false -> compile_at least pre dim (RQuot l r q) k = Err)) /\
  ((exists a, is_output s2 a /\ is_input s1 a) -> compile_at least pre dim (RQuot l r q) k = Err).
Proof.
  intros least pre dim l r q k s1 k1 s2 k2 E1 E2. cbn [compile_at]. rewrite E1. cbn [bind]. rewrite E2. cbn [bind]. unfold quotient_ts, quotient_new. split.
  - intros H. assert (D : disjoint (ts_outputs s2) (ts_inputs s1) = true) by (apply disjoint_spec; intros a A B; exact (H a (conj A B))).
    rewrite D. cbn [negb]. destruct (fresh_total (sunion (ts_inputs s1) (ts_outputs s2))) as [n En]. rewrite En. cbn [bind].
    eexists. split; [|split; [|split]]; [|intros P1 P2; rewrite P1; cbn [bind]; rewrite P2; reflexivity
      |intros P1; rewrite P1; reflexivity|intros P1 P2; rewrite P1; cbn [bind]; rewrite P2; reflexivity]. reflexivity.
  - intros (a & A & B). destruct (disjoint (ts_outputs s2) (ts_inputs s1)) eqn:D; [|reflexivity].
    rewrite disjoint_spec in D. destruct (D a A B).
Qed.
Print Assumptions C49_quotient.

(** If an operand is not accepted the whole system is not, for the same reason; the left operand comes first. *)
Definition failure {A B} (x : res A) : option (res B) :=
  match x with Ok _ => None | Err => Some Err | Panic => Some Panic | NoFuel => Some NoFuel end.
Theorem C49_operand_rejected : forall least pre dim l r q k x,
  failure (compile_at least pre dim l k) = Some x \/
  (exists s1 k1, compile_at least pre dim l k = Ok (s1, k1) /\ failure (compile_at least pre dim r k1) = Some x) ->
  compile_at least pre dim (RComp l r) k = x /\ compile_at least pre dim (RConj l r) k = x /\ compile_at least pre dim (RQuot l r q) k = x.
Proof.
  intros least pre dim l r q k x [H|(s1 & k1 & E & H)]; cbn [compile_at].
  - destruct (compile_at least pre dim l k) as [[]| | |]; cbn in H; [discriminate| | |]; injection H as <-; auto.
  - rewrite E. cbn [bind]. destruct (compile_at least pre dim r k1) as [[]| | |]; cbn in H; [discriminate| | |]; injection H as <-; auto.
Qed.
Print Assumptions C49_operand_rejected.

(** So in an accepted system everything, at any depth, was acceptable. *)
Theorem C49_every_part : forall least pre dim r s,
  compile least pre dim r = Ok s -> forall p k a b, inside p s -> operands p = Some (k, a, b) ->
  compatible k a b /\ (k = Conjunction -> least (dim + 1) p = Ok true) /\
  (k = Quotient -> pre (dim + 1) a = Ok true /\ pre (dim + 1) b = Ok true).
Proof.
  intros least pre dim r s C. unfold compile in C. destruct (compile_at least pre (dim + 1) r 0) as [[s' k']| | |] eqn:E; try discriminate. injection C as ->.
  revert s k' E. generalize (dim + 1) as D0. intros D0. generalize 0 as k0. induction r as [c|l IHl r IHr|l IHl r IHr|l IHl r IHr q]; intros k0 s k' E p k a b I O; cbn [compile_at] in E.
  - inv_bind E. injection E as <- <-. inversion I; subst; [discriminate O|discriminate|discriminate].
  - inv_bind E. destruct a0 as [l' k1]. inv_bind E. destruct a0 as [r' k2]. inv_bind E. injection E as <- <-.
    apply composition_new_inv in H1. destruct H1 as (D & ins & outs & lo & ro & co & -> & _). inversion I; subst.
    + injection O as <- <- <-. split; [|split; discriminate]. intros x [X Y]. rewrite disjoint_spec in D. exact (D x X Y).
    + cbn [operands] in *; match goal with X : Some _ = Some _ |- _ => injection X as <- <- <- end. exact (IHl _ _ _ H _ _ _ _ ltac:(eassumption) O).
    + cbn [operands] in *; match goal with X : Some _ = Some _ |- _ => injection X as <- <- <- end. exact (IHr _ _ _ H0 _ _ _ _ ltac:(eassumption) O).
  - inv_bind E. destruct a0 as [l' k1]. inv_bind E. destruct a0 as [r' k2]. inv_bind E. injection E as <- <-.
    unfold conjunction_ts in H1. inv_bind H1. inv_bind H1. destruct a2; [|discriminate]. injection H1 as <-.
    apply conjunction_new_inv in H2. destruct H2 as (-> & D & D'). inversion I; subst.
    + injection O as <- <- <-. split; [|split; [|discriminate]].
      * intros x. split; intros [X Y]; [exact (D x X Y)|exact (D' x X Y)].
      * intros _. assumption.
    + cbn [operands] in *; match goal with X : Some _ = Some _ |- _ => injection X as <- <- <- end. exact (IHl _ _ _ H _ _ _ _ ltac:(eassumption) O).
    + cbn [operands] in *; match goal with X : Some _ = Some _ |- _ => injection X as <- <- <- end. exact (IHr _ _ _ H0 _ _ _ _ ltac:(eassumption) O).
  - inv_bind E. destruct a0 as [l' k1]. inv_bind E. destruct a0 as [r' k2]. inv_bind E. injection E as <- <-.
    unfold quotient_ts in H1. destruct (disjoint (ts_outputs r') (ts_inputs l')) eqn:D; cbn [negb] in H1; [|discriminate].
    inv_bind H1. destruct a1; [|discriminate]. inv_bind H1. destruct a1; [|discriminate].
    apply quotient_new_inv in H1. destruct H1 as (n & ins & outs & -> & _). inversion I; subst.
    + injection O as <- <- <-. split; [|split; [discriminate|]].
      * rewrite disjoint_spec in D. intros x [X Y]. exact (D x X Y).
      * intros _. split; assumption.
    + cbn [operands] in *; match goal with X : Some _ = Some _ |- _ => injection X as <- <- <- end. exact (IHl _ _ _ H _ _ _ _ ltac:(eassumption) O).
    + cbn [operands] in *; match goal with X : Some _ = Some _ |- _ => injection X as <- <- <- end. exact (IHr _ _ _ H0 _ _ _ _ ltac:(eassumption) O).
Qed.
Print Assumptions C49_every_part.

(** What passing the checks means.  With the checks of the tool, both operands of every quotient in an accepted
    system are deterministic, and their components can survive every environment; so can every conjunction. *)
Lemma inside_facts dim q p s : inside p s -> built dim s -> clocks_ok dim q s -> reads_ok s -> no_reserved s = true -> plain_divisors s = true ->
  built dim p /\ clocks_ok dim q p /\ reads_ok p /\ no_reserved p = true /\ plain_divisors p = true.
Proof.
  assert (QF : forall s, quotient_free s = true -> plain_divisors s = true).
  { intros s0. induction s0; cbn; intros F; try discriminate F; auto;
    apply andb_true_iff in F; destruct F as [F1 F2]; apply andb_true_iff; auto. }
  induction 1 as [|s k l r O I IH|s k l r O I IH]; intros B K R N P; [auto| |]; apply IH; destruct s; try discriminate O;
    injection O as <- <- <-; cbn [reads_ok no_reserved plain_divisors clocks_ok] in *; try (apply andb_true_iff in N; destruct N as [N1 N2]);
    try (apply andb_true_iff in P; destruct P as [P1 P2]); try tauto; try (apply QF; assumption);
    inversion B as [c0 ins0 outs0 id0 cc0 E|l' r' s' Hl Hr E|l' r' s' Hl Hr E|T0 S0 q' s' HT HS E]; subst; auto;
    try (apply conjunction_new_inv in E; destruct E as (E & _)); try (apply composition_new_inv in E; destruct E as (_ & ? & ? & ? & ? & ? & E & _));
    try (apply quotient_new_inv in E; destruct E as (? & ? & ? & E & _)); try discriminate E; injection E; intros; subst; assumption.
Qed.

Theorem C49_operands_checked_partial : forall ext ord fuel load e r dim q s,
  (forall d s l f v, fsem d f v -> fsem d (ext d s l f) v) ->
  (forall p l a, In a (ord p l) <-> In a l) -> (forall p l, NoDup (ord p l)) ->
  (forall n c, load n = Some c -> clocks_numbered (c_decls c) /\ good_resets c /\ named_guards c) ->
  get_system_recipe load e (0, None) = Ok (r, (dim, q)) ->
  compile (fun d => is_least_consistent d (ext d) ord fuel) (fun d => precheck d (ext d) ord fuel) dim r = Ok s ->
  no_reserved s = true -> plain_divisors s = true ->
  forall p k a b, inside p s -> operands p = Some (k, a, b) ->
  (k = Quotient -> deterministic (dim + 1) a /\ deterministic (dim + 1) b /\
     forall c, part_of c a \/ part_of c b -> single_output (dim + 1) c -> survivable (dim + 1) c) /\
  (k = Conjunction -> single_output (dim + 1) p -> survivable (dim + 1) p).
Proof.
  intros ext ord fuel load e r dim q s He Ho Hn L G C N P p k a b I O.
  destruct (C29_compiled _ _ load e r dim q s L G C) as (B & _ & K & R).
  destruct (C49_every_part _ _ dim r s C p k a b I O) as (_ & H1 & H2).
  destruct (inside_facts _ _ _ _ I B K R N P) as (Bp & Kp & _). split.
  - intros ->. destruct (H2 eq_refl) as [Pa Pb]. unfold precheck in Pa, Pb. inv_bind Pa. inv_bind Pb. destruct a0; [discriminate|]. destruct a1; [discriminate|].
    assert (Ia : inside a s).
    { clear - I O. induction I; [eapply in_left; [exact O|constructor]|eapply in_left; eauto|eapply in_right; eauto]. }
    assert (Ib : inside b s).
    { clear - I O. induction I; [eapply in_right; [exact O|constructor]|eapply in_left; eauto|eapply in_right; eauto]. }
    destruct (inside_facts _ _ _ _ Ia B K R N P) as (Ba & Ka & Ra & Na & Pl). destruct (inside_facts _ _ _ _ Ib B K R N P) as (Bb & Kb & Rb & Nb & Plb).
    split; [eapply (C16_determinism_sound_partial (dim + 1) _ (ext _)); eauto|]. split; [eapply (C16_determinism_sound_partial (dim + 1) _ (ext _)); eauto|].
    intros c [Hc|Hc] So; [apply (C18_every_component_partial (dim + 1) _ _ _ _ _ (He _) Ho Hn Ba Ka Pa c Hc So)|apply (C18_every_component_partial (dim + 1) _ _ _ _ _ (He _) Ho Hn Bb Kb Pb c Hc So)].
  - intros -> So. eapply (C18_least_consistent_partial (dim + 1)); eauto.
Qed.
Print Assumptions C49_operands_checked_partial.

(** Non-vacuity: [(M || N) \\ M] is accepted with the real checks; [M || M] is not, nor a quotient by a
    nondeterministic component. *)
Definition ext_id : nat -> ts -> loctree -> fed -> fed := fun _ _ _ f => f.
Definition id_ord : list state -> list string -> list string := fun _ l => nodup String.string_dec l.
Definition comp_2 : component :=
  mkComp "D" (mkDecls [("x", 1)] []) [mkL "L0" None Initial "NORMAL"]
    [mkE "E0" "L0" "L0" SOutput None None "o"; mkE "E1" "L0" "L0" SOutput None (Some [("x", AInt 0)]) "o"] None.
Definition ex_load2 (n : string) : option component := if String.eqb n "D" then Some comp_2 else ex_load n.
Definition asked (e : sysx) : res ts :=
  do (r, st) <- get_system_recipe ex_load2 e (0, None);
  compile (fun d => is_least_consistent d (ext_id d) id_ord 50) (fun d => precheck d (ext_id d) id_ord 50) (fst st) r.
Definition ex_accepted := Eval vm_compute in get ts_m (asked ex_query).
Example C49_nonvacuous :
  (forall d s l f v, fsem d f v -> fsem d (ext_id d s l f) v) /\
  (forall p l a, In a (id_ord p l) <-> In a l) /\ (forall p l, NoDup (id_ord p l)) /\
  asked ex_query = Ok ex_accepted /\ no_reserved ex_accepted = true /\ plain_divisors ex_accepted = true /\
  (exists a b, operands ex_accepted = Some (Quotient, a, b)) /\
  asked (XPar (XComp "M" None) (XComp "M" None)) = Err /\
  asked (XConj (XComp "M" None) (XComp "N" None)) = Err /\
  (exists s, asked (XComp "D" None) = Ok s) /\ asked (XQuot (XComp "M" None) (XComp "D" None)) = Err /\
  asked (XQuot (XComp "D" None) (XComp "M" None)) = Err /\ asked (XPar (XComp "Z" None) (XComp "M" None)) = Panic.
Proof.
  split; [auto|]. split; [intros p l a; apply nodup_In|]. split; [intros p l; apply NoDup_nodup|].
  split; [vm_compute; reflexivity|]. split; [vm_compute; reflexivity|]. split; [vm_compute; reflexivity|].
  split; [eexists _, _; vm_compute; reflexivity|]. split; [vm_compute; reflexivity|]. split; [vm_compute; reflexivity|].
  split; [eexists; vm_compute; reflexivity|]. split; [vm_compute; reflexivity|]. split; vm_compute; reflexivity.
Qed.

(** Finding: an operand of a quotient that is accepted need not be deterministic.  The two quotients of W \\ (W \\ W) have the same new
    input, which is offered twice, and the check of (W \\ (W \\ W)) \\ V does not see it (as found for C16). *)
Definition comp_v : component := mkComp "V" (mkDecls [] []) [mkL "L0" None Initial "NORMAL"] [mkE "E0" "L0" "L0" SOutput None None "p"] None.
Definition nq_load (n : string) : option component := if String.eqb n "W" then Some (comp_w 1) else if String.eqb n "V" then Some comp_v else None.
Definition nq_w : sysx := XComp "W" None.
Definition nq_query : sysx := XQuot (XQuot nq_w (XQuot nq_w nq_w)) (XComp "V" None).
Definition nq_recipe : recipe := Eval vm_compute in match get_system_recipe nq_load nq_query (0, None) with Ok (r, _) => r | _ => RSimple comp_v end.
Definition nq_ts : ts := Eval vm_compute in get ts_m (compile (fun d => is_least_consistent d (ext_id d) id_ord 50) (fun d => precheck d (ext_id d) id_ord 50) 4 nq_recipe).
Definition nq_left : ts := Eval vm_compute in match nq_ts with TQuot t _ _ _ _ _ => t | t => t end.
Definition nq_right : ts := Eval vm_compute in match nq_ts with TQuot _ d _ _ _ _ => d | t => t end.
Definition nq_l0 : loctree := Eval vm_compute in match initial_location 5 nq_left with Some l => l | None => lt_any end.
Theorem C49_nested_quotient_refuted : exists ext ord fuel load e r dim q s a b,
  (forall d s l f v, fsem d f v -> fsem d (ext d s l f) v) /\ (forall p l a, In a (ord p l) <-> In a l) /\ (forall p l, NoDup (ord p l)) /\
  (forall n c, load n = Some c -> clocks_numbered (c_decls c) /\ good_resets c /\ named_guards c) /\
  get_system_recipe load e (0, None) = Ok (r, (dim, q)) /\
  compile (fun d => is_least_consistent d (ext d) ord fuel) (fun d => precheck d (ext d) ord fuel) dim r = Ok s /\ no_reserved s = true /\
  operands s = Some (Quotient, a, b) /\ ~ deterministic (dim + 1) a.
Proof.
  exists ext_id, id_ord, 50, nq_load, nq_query, nq_recipe, 4, (Some 4), nq_ts, nq_left, nq_right.
  split; [auto|]. split; [intros p l a; apply nodup_In|]. split; [intros p l; apply NoDup_nodup|]. split.
  { intros n c H. unfold nq_load in H. destruct (String.eqb n "W"); [|destruct (String.eqb n "V"); [|discriminate]]; injection H as <-.
    - split; [split; [|split]; [repeat constructor; intros []|repeat constructor; intros []|intros x i [[= <- <-]|[]]; cbn; lia]|].
      split; [intros e us [<-|[]] E; discriminate E|]. split; [intros l g [<-|[]] [= <-]; reflexivity|intros e g [<-|[]] E; discriminate E].
    - split; [split; [|split]; [constructor|constructor|intros x i []]|]. split; [intros e us [<-|[]] E; discriminate E|]. split; [intros l g [<-|[]] E; discriminate E|intros e g [<-|[]] E; discriminate E]. }
  split; [vm_compute; reflexivity|]. split; [vm_compute; reflexivity|]. split; [reflexivity|]. split; [reflexivity|].
  intros D. change (4 + 1) with 5 in D. destruct (next_transitions 5 nq_left nq_l0 "quotient_new_input0") as [ts| | |] eqn:E; try (vm_compute in E; discriminate).
  assert (R : reachable 5 nq_left nq_l0 (vdelay zero_val 2)).
  { exists nq_l0. split; [vm_compute; reflexivity|]. split; [apply zero_ok|]. apply run_delay; [constructor|discriminate|]. intros e He _. change (val_ok 5 (vdelay zero_val e)). apply vdelay_ok; [apply zero_ok|exact He]. }
  specialize (D _ _ _ _ R (or_introl (or_introl eq_refl)) E).
  vm_compute in E. injection E as <-. refine (D 0 2 _ _ _ eq_refl eq_refl _); [discriminate|]. split; apply able_yes; vm_compute; reflexivity.
Qed.
Print Assumptions C49_nested_quotient_refuted.
