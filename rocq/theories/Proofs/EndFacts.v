(** The searches end: every step adds a state, or a pair of states, which is not covered by what has been explored. *)
From Coq Require Import List String ZArith QArith Bool Arith Lia Wf_nat.
From Verif Require Import Fed.Zone Fed.ZoneFacts Model.Base Model.Expr Model.Guard Model.Loc Model.Component Model.TS Model.PairList Model.Search Model.Refine
  Spec.StepSpec Spec.SystemSpec Spec.EndSpec Proofs.GuardFacts Proofs.SystemFacts Proofs.QuotientFacts Proofs.WfFacts Proofs.DetFacts.
Import ListNotations.
Local Open Scope nat_scope.

(** ** Results of finished computations *)
Definition safe {A} (P : A -> Prop) (r : res A) : Prop := match r with NoFuel => False | Ok a => P a | _ => True end.
Lemma safe_bind {A B} (P : A -> Prop) (Q : B -> Prop) r f : safe P r -> (forall a, P a -> safe Q (f a)) -> safe Q (bind r f).
Proof. destruct r; simpl; auto; contradiction. Qed.
Lemma safe_ends {A} P (r : res A) : safe P r -> r <> NoFuel.
Proof. intros H E. rewrite E in H. exact H. Qed.
Lemma safe_mono {A} (P Q : A -> Prop) r : safe P r -> (forall a, P a -> Q a) -> safe Q r.
Proof. destruct r; simpl; auto. Qed.
Lemma safe_of {A} (P : A -> Prop) r : r <> NoFuel -> (forall a, r = Ok a -> P a) -> safe P r.
Proof. destruct r; simpl; auto; congruence. Qed.
Lemma safe_loop {A S R} (I : S -> Prop) (J : R -> Prop) (body : A -> S -> res (S + R)) l :
  (forall a s, In a l -> I s -> safe (fun x => match x with inl s => I s | inr r => J r end) (body a s)) ->
  forall s, I s -> safe (fun x => match x with inl s => I s | inr r => J r end) (loopM body l s).
Proof.
  induction l as [|a l IH]; intros H s Hs; [exact Hs|]. cbn [loopM]. eapply safe_bind; [apply H; [left; reflexivity|exact Hs]|].
  intros [s'|r] X; [|exact X]. apply IH; [|exact X]. intros; apply H; [right|]; assumption.
Qed.

(** The same, with an answer. *)
Definition sure {A} (P : A -> Prop) (r : res A) : Prop := match r with Ok a => P a | _ => False end.
Lemma sure_safe {A} (P : A -> Prop) r : sure P r -> safe P r.
Proof. destruct r; simpl; auto; contradiction. Qed.
Lemma sure_bind {A B} (P : A -> Prop) (Q : B -> Prop) r f : sure P r -> (forall a, P a -> sure Q (f a)) -> sure Q (bind r f).
Proof. destruct r; simpl; auto; contradiction. Qed.
Lemma sure_mono {A} (P Q : A -> Prop) r : sure P r -> (forall a, P a -> Q a) -> sure Q r.
Proof. destruct r; simpl; auto. Qed.
Lemma sure_ok {A} (P : A -> Prop) r : sure P r -> exists a, r = Ok a /\ P a.
Proof. destruct r; simpl; try contradiction. eauto. Qed.
Lemma sure_loop {A S R} (I : S -> Prop) (J : R -> Prop) (body : A -> S -> res (S + R)) l :
  (forall a s, In a l -> I s -> sure (fun x => match x with inl s => I s | inr r => J r end) (body a s)) ->
  forall s, I s -> sure (fun x => match x with inl s => I s | inr r => J r end) (loopM body l s).
Proof.
  induction l as [|a l IH]; intros H s Hs; [exact Hs|]. cbn [loopM]. eapply sure_bind; [apply H; [left; reflexivity|exact Hs]|].
  intros [s'|r] X; [|exact X]. apply IH; [|exact X]. intros; apply H; [right|]; assumption.
Qed.

(** ** More steps do not change an answer *)
Definition le_res {A} (r r' : res A) : Prop := r = NoFuel \/ r = r'.
Lemma le_refl_res {A} (r : res A) : le_res r r.
Proof. right; reflexivity. Qed.
Lemma le_bind {A B} (r r' : res A) (f g : A -> res B) : le_res r r' -> (forall a, le_res (f a) (g a)) -> le_res (bind r f) (bind r' g).
Proof. intros [->| ->] H; [left; reflexivity|]. destruct r'; simpl; try (right; reflexivity); auto. Qed.
Lemma le_loop {A S R} (body body' : A -> S -> res (S + R)) : (forall a s, le_res (body a s) (body' a s)) ->
  forall l s, le_res (loopM body l s) (loopM body' l s).
Proof. intros H. induction l as [|a l IH]; intros s; [apply le_refl_res|]. cbn [loopM]. apply le_bind; [apply H|]. intros [s'|r]; [apply IH|apply le_refl_res]. Qed.
Lemma ended {A} (F : nat -> res A) n : (forall m k, m <= k -> le_res (F m) (F k)) -> F n <> NoFuel -> ended_at F n.
Proof. intros M H. split; [exact H|]. intros m L. destruct (M n m L) as [E|E]; [contradiction|congruence]. Qed.
Lemma ended_bind {A B} (F : nat -> res A) (G : nat -> A -> res B) n : ended_at F n -> (forall a, F n = Ok a -> exists k, ended_at (fun m => G m a) k) ->
  exists k, ended_at (fun m => do a <- F m; G m a) k.
Proof.
  intros [H M] K. destruct (F n) as [a| | |] eqn:E; [|exists n|exists n|congruence].
  - destruct (K a eq_refl) as (k & N & Same). exists (Nat.max n k). assert (V : forall m, Nat.max n k <= m -> (do a <- F m; G m a) = G k a).
    { intros m L. rewrite M by lia. cbn [bind]. apply Same. lia. }
    split; [rewrite V by lia; exact N|]. intros m L. rewrite !V by lia. reflexivity.
  - split; [rewrite E; discriminate|]. intros m L. rewrite (M m L), E. reflexivity.
  - split; [rewrite E; discriminate|]. intros m L. rewrite (M m L), E. reflexivity.
Qed.
Lemma answered {A} (F : nat -> res A) n : (forall m k, m <= k -> le_res (F m) (F k)) -> (exists a, F n = Ok a) -> answered_at F n.
Proof. intros M [a H]. exists a. intros m L. destruct (M n m L) as [E|E]; congruence. Qed.
Lemma answered_ended {A} (F : nat -> res A) n : answered_at F n -> ended_at F n.
Proof. intros [a H]. split; [rewrite H by apply le_n; discriminate|]. intros m L. rewrite !H by lia. reflexivity. Qed.
Lemma answered_later {A} (F : nat -> res A) n m : answered_at F n -> n <= m -> answered_at F m.
Proof. intros [a H] L. exists a. intros k K. apply H. lia. Qed.
Lemma ended_const {A} (r : res A) : r <> NoFuel -> exists n, ended_at (fun _ => r) n.
Proof. intros H. exists 0. split; auto. Qed.
Lemma ended_later {A} (F : nat -> res A) n m : ended_at F n -> n <= m -> ended_at F m.
Proof. intros [H M] L. split; [rewrite M by exact L; exact H|]. intros k K. rewrite (M k), (M m) by lia. reflexivity. Qed.

(** ** Counting what is left *)
Section Count.
Variable T : Type.
Variable U : list T.
Definition remain (c : T -> bool) : nat := List.length (filter (fun u => negb (c u)) U).
Lemma remain_le c c' : (forall u, In u U -> c u = true -> c' u = true) -> remain c' <= remain c.
Proof.
  unfold remain. induction U as [|u us IH]; intros H; [apply le_n|]. cbn [filter]. assert (L := IH (fun u Hu => H u (or_intror Hu))). pose proof (H u (or_introl eq_refl)).
  destruct (c u), (c' u); cbn [negb List.length]; try lia; discriminate (H0 eq_refl).
Qed.
Lemma remain_lt c c' u : (forall u, In u U -> c u = true -> c' u = true) -> In u U -> c u = false -> c' u = true -> remain c' < remain c.
Proof.
  unfold remain. intros H Hu F Tr. revert H Hu. induction U as [|x us IH]; intros H Hu; [destruct Hu|]. cbn [filter].
  assert (L : forall u, In u us -> c u = true -> c' u = true) by (intros; apply H; [right|]; assumption). pose proof (H x (or_introl eq_refl)) as Hx.
  destruct Hu as [<-|Hu].
  - rewrite F, Tr. cbn [negb List.length]. apply Nat.lt_succ_r. revert L. clear. induction us as [|u us IH]; intros H; [apply le_n|]. cbn [filter].
    assert (L := IH (fun u Hu => H u (or_intror Hu))). pose proof (H u (or_introl eq_refl)). destruct (c u), (c' u); cbn [negb List.length]; try lia; discriminate (H0 eq_refl).
  - specialize (IH L Hu). destruct (c x), (c' x); cbn [negb List.length]; try lia; discriminate (Hx eq_refl).
Qed.
End Count.

(** ** Searches over one system *)
Section One.
Variable dim : nat.
Variable ext : ts -> loctree -> fed -> fed.

Definition same_state (a b : state) : Prop := s_loc a = s_loc b /\ forall v, fsem dim (s_zone a) v <-> fsem dim (s_zone b) v.
Lemma subset_same a b c : same_state a b -> state_subset dim a c = state_subset dim b c.
Proof.
  intros [L Z]. unfold state_subset. rewrite L. f_equal. apply Bool.eq_iff_eq_true. rewrite !fsubset_true. split; intros H v Hv; apply H, Z, Hv.
Qed.
Lemma in_list_same a b p : same_state a b -> state_in_list dim a p = state_in_list dim b p.
Proof. intros S. unfold state_in_list. induction p as [|x p IH]; [reflexivity|]. cbn [existsb]. rewrite (subset_same _ _ _ S), IH. reflexivity. Qed.
Lemma in_list_incl p q a : incl p q -> state_in_list dim a p = true -> state_in_list dim a q = true.
Proof. intros I H. apply in_list_covered in H. apply in_list_covered. eapply covered_incl; eauto. Qed.

(** All the zones that can be met. *)
Lemma few_states (F : loctree -> fed -> fed) ls : (forall l, In l ls -> few dim (F l)) ->
  exists U : list state, forall l f, In l ls -> exists u, In u U /\ same_state u (mkS l (F l f)).
Proof.
  induction ls as [|l ls IH]; intros H; [exists []; intros l f []|].
  destruct IH as [U HU]; [intros; apply H; right; assumption|]. destruct (H l (or_introl eq_refl)) as [zs Hz].
  exists (map (mkS l) zs ++ U). intros l' f [<-|Hl].
  - destruct (Hz f) as (z & Iz & E). exists (mkS l z). split; [apply in_or_app; left; apply in_map; exact Iz|]. split; [reflexivity|]. intros v. symmetry. apply E.
  - destruct (HU l' f Hl) as (u & Iu & E). exists u. split; [apply in_or_app; right; exact Iu|exact E].
Qed.

Section Searches.
Variable s : ts.
Hypothesis B : built dim s.
Variable U : list state.
Variable ord : list state -> list string -> list string.
Hypothesis Hord : listed ord.

Definition met (st : state) : Prop := In (s_loc st) (all_locations dim s) /\ exists u, In u U /\ same_state u st.
Hypothesis HU : forall l f, In l (all_locations dim s) -> met (mkS l (ext s l f)).

Definition room (p : list state) : nat := remain state U (fun u => state_in_list dim u p).
Lemma room_incl p q : incl p q -> room q <= room p.
Proof. intros I. apply remain_le. intros u _. apply in_list_incl, I. Qed.
Lemma room_new st p : met st -> state_in_list dim st p = false -> room (p ++ [st]) < room p.
Proof.
  intros (_ & u & Hu & S) N. apply (remain_lt _ _ _ _ u); [| exact Hu | |].
  - intros x _. apply in_list_incl. apply incl_appl, incl_refl.
  - rewrite (in_list_same _ _ _ S). exact N.
  - rewrite (in_list_same _ _ _ S). apply in_list_covered. exists st. split; [apply in_or_app; right; left; reflexivity|apply state_subset_refl].
Qed.
Lemma next_met loc a : In loc (all_locations dim s) -> is_action s a ->
  sure (fun ts => forall t st, In t ts -> fst (use_transition dim t st) = true -> met (extrapolate ext s (snd (use_transition dim t st)))) (next_transitions dim s loc a).
Proof.
  intros L A. destruct (next_wf dim s B loc a L A) as (ts & E & Ht). rewrite E. cbn. intros t st It Us. unfold use_transition in *. destruct (fempty dim (apply_guards dim t (s_zone st))); [discriminate|].
  cbn [fst snd] in *. unfold extrapolate. cbn [s_loc s_zone]. apply HU, Ht, It.
Qed.
Lemma input_action a p : In a (ord p (ts_inputs s)) -> is_action s a.
Proof. intros H. left. exact (Hord _ _ _ H). Qed.
Lemma output_action a p : In a (ord p (ts_outputs s)) -> is_action s a.
Proof. intros H. right. exact (Hord _ _ _ H). Qed.
Lemma any_action a p : In a (ord p (ts_actions s)) -> is_action s a.
Proof. intros H. apply Hord in H. apply has_action_spec. apply sin_In. exact H. Qed.

(** What a search leaves behind. *)
Definition kept {A} (p : list state) (x : A * list state) : Prop := incl p (snd x).

Lemma det_ends : forall fuel st p, room p < fuel -> met st -> sure (kept p) (det_helper dim ext ord fuel s st p).
Proof.
  induction fuel as [|f IH]; intros st p L M; [lia|]. cbn [det_helper]. destruct (state_in_list dim st p) eqn:N; [apply incl_refl|].
  pose proof (room_new st p M N) as R. set (p0 := p ++ [st]) in *. assert (I0 : incl p p0) by apply incl_appl, incl_refl.
  eapply sure_bind; [apply (sure_loop (fun q => incl p0 q) (kept p0))|].
  - intros a q Ha Hq. unfold det_action. eapply sure_bind; [apply next_met; [exact (proj1 M)|exact (any_action _ _ Ha)]|].
    intros ts Ht. cbv beta in Ht. eapply sure_bind; [apply (sure_loop (fun x => incl p0 (fst x)) (kept p0)); [|exact Hq]|].
    + intros t [q' lf] It Hq'. unfold det_body. cbn [fst] in Hq'. specialize (Ht t st It). destruct (use_transition dim t st) as [ok ns]. cbn [fst snd] in Ht. destruct ok; [|exact Hq'].
      destruct (fmeets dim _ lf); [exact Hq'|]. eapply sure_bind; [apply (IH (extrapolate ext s ns) q'); [|apply Ht; reflexivity]|].
      * pose proof (room_incl p0 q' Hq'). lia.
      * intros [r q2] K. unfold kept in K. cbn [snd] in K. destruct r; cbn [sure]; unfold kept; cbn [fst snd]; eapply incl_tran; eassumption.
    + intros [[q' lf]|r] K; exact K.
  - apply incl_refl.
  - intros [q|r] K; unfold kept in *; cbn [sure snd]; eapply incl_tran; eassumption.
Qed.

Lemma least_ends : forall fuel st p, room p < fuel -> met st -> sure (kept p) (least_helper dim ext ord fuel s st p).
Proof.
  induction fuel as [|f IH]; intros st p L M; [lia|]. cbn [least_helper]. destruct (state_in_list dim st p) eqn:N; [apply incl_refl|].
  destruct (is_universal (s_loc st)); [apply incl_refl|]. destruct (is_inconsistent (s_loc st)); [apply incl_refl|].
  pose proof (room_new st p M N) as R. set (p0 := p ++ [st]) in *. assert (I0 : incl p p0) by apply incl_appl, incl_refl.
  assert (Rec : forall q ns, incl p0 q -> met (extrapolate ext s ns) -> sure (fun x => incl p0 (snd x)) (least_helper dim ext ord f s (extrapolate ext s ns) q)).
  { intros q ns Hq Hm. eapply sure_mono; [apply IH; [pose proof (room_incl p0 q Hq); lia|exact Hm]|]. intros x K. eapply incl_tran; eassumption. }
  eapply sure_bind; [apply (sure_loop (fun q => incl p0 q) (kept p0))|].
  - intros a q Ha Hq. unfold each_transition. eapply sure_bind; [apply next_met; [exact (proj1 M)|exact (input_action _ _ Ha)]|].
    intros ts Ht. cbv beta in Ht. apply (sure_loop (fun q => incl p0 q) (kept p0)); [|exact Hq].
    intros t q' It Hq'. unfold input_body. specialize (Ht t st It). destruct (use_transition dim t st) as [ok ns]. cbn [fst snd] in Ht. destruct ok; [|exact Hq'].
    eapply sure_bind; [apply (Rec q' ns Hq'), Ht; reflexivity|]. intros [r q2] K. destruct r; exact K.
  - apply incl_refl.
  - intros [q|r] K; [|unfold kept in *; cbn [sure]; eapply incl_tran; eassumption]. destruct (fcan_delay dim (s_zone st)); [unfold kept; cbn [sure snd]; eapply incl_tran; eassumption|].
    eapply sure_bind; [apply (sure_loop (fun q => incl p0 q) (kept p0)); [|exact K]|].
    + intros a q' Ha Hq. unfold each_transition. eapply sure_bind; [apply next_met; [exact (proj1 M)|exact (output_action _ _ Ha)]|].
      intros ts Ht. cbv beta in Ht. apply (sure_loop (fun q => incl p0 q) (kept p0)); [|exact Hq].
      intros t q2 It Hq'. unfold output_body. specialize (Ht t st It). destruct (use_transition dim t st) as [ok ns]. cbn [fst snd] in Ht. destruct ok; [|exact Hq'].
      eapply sure_bind; [apply (Rec q2 ns Hq'), Ht; reflexivity|]. intros [r q3] K2. destruct r; exact K2.
    + intros [q'|r] K'; unfold kept in *; cbn [sure snd]; eapply incl_tran; eassumption.
Qed.

Lemma full_ends : forall fuel st p, room p < fuel -> met st -> sure (kept p) (full_helper dim ext ord fuel s st p).
Proof.
  induction fuel as [|f IH]; intros st p L M; [lia|]. cbn [full_helper]. destruct (state_in_list dim st p) eqn:N; [apply incl_refl|].
  pose proof (room_new st p M N) as R. set (p0 := p ++ [st]) in *. assert (I0 : incl p p0) by apply incl_appl, incl_refl.
  assert (Rec : forall q ns, incl p0 q -> met (extrapolate ext s ns) -> sure (fun x => incl p0 (snd x)) (full_helper dim ext ord f s (extrapolate ext s ns) q)).
  { intros q ns Hq Hm. eapply sure_mono; [apply IH; [pose proof (room_incl p0 q Hq); lia|exact Hm]|]. intros x K. eapply incl_tran; eassumption. }
  eapply sure_bind; [apply (sure_loop (fun q => incl p0 q) (kept p0))|].
  - intros a q Ha Hq. unfold each_transition. eapply sure_bind; [apply next_met; [exact (proj1 M)|exact (input_action _ _ Ha)]|].
    intros ts Ht. cbv beta in Ht. apply (sure_loop (fun q => incl p0 q) (kept p0)); [|exact Hq].
    intros t q' It Hq'. unfold full_input_body. specialize (Ht t st It). destruct (use_transition dim t st) as [ok ns]. cbn [fst snd] in Ht. destruct ok; [|exact Hq'].
    destruct (state_subset dim _ st); [exact Hq'|]. eapply sure_bind; [apply (Rec q' ns Hq'), Ht; reflexivity|]. intros [r q2] K. destruct r; exact K.
  - apply incl_refl.
  - intros [q|r] K; [|unfold kept in *; cbn [sure]; eapply incl_tran; eassumption].
    eapply sure_bind; [apply (sure_loop (fun x => incl p0 (fst x)) (kept p0)); [|exact K]|].
    + intros a q' Ha Hq. eapply sure_bind; [apply next_met; [exact (proj1 M)|exact (output_action _ _ Ha)]|].
      intros ts Ht. cbv beta in Ht. apply (sure_loop (fun x => incl p0 (fst x)) (kept p0)); [|exact Hq].
      intros t [q2 b] It Hq'. unfold full_output_body. specialize (Ht t st It). destruct (use_transition dim t st) as [ok ns]. cbn [fst snd] in *. destruct ok; [|exact Hq'].
      destruct (state_subset dim _ st); [exact Hq'|]. eapply sure_bind; [apply (Rec q2 ns Hq'), Ht; reflexivity|]. intros [r q3] K2. destruct r; exact K2.
    + intros [[q' b]|r] K'; [destruct b|]; unfold kept in *; cbn [sure snd fst] in *; eapply incl_tran; eassumption.
Qed.
End Searches.

Lemma det_le s ord : forall f g, f <= g -> forall st p, le_res (det_helper dim ext ord f s st p) (det_helper dim ext ord g s st p).
Proof.
  induction f as [|f IH]; intros [|g] L st p; try (left; reflexivity); [lia|]. cbn [det_helper]. destruct (state_in_list dim st p); [apply le_refl_res|].
  apply le_bind; [|intros; apply le_refl_res]. apply le_loop. intros a q. unfold det_action. apply le_bind; [apply le_refl_res|]. intros ts. apply le_bind; [|intros; apply le_refl_res].
  apply le_loop. intros t [q' lf]. unfold det_body. destruct (use_transition dim t st) as [[] ns]; [|apply le_refl_res]. destruct (fmeets dim _ lf); [apply le_refl_res|].
  apply le_bind; [apply IH; lia|]. intros; apply le_refl_res.
Qed.
Lemma least_le s ord : forall f g, f <= g -> forall st p, le_res (least_helper dim ext ord f s st p) (least_helper dim ext ord g s st p).
Proof.
  induction f as [|f IH]; intros [|g] L st p; try (left; reflexivity); [lia|]. cbn [least_helper]. destruct (state_in_list dim st p); [apply le_refl_res|].
  destruct (is_universal (s_loc st)); [apply le_refl_res|]. destruct (is_inconsistent (s_loc st)); [apply le_refl_res|].
  apply le_bind.
  - apply le_loop. intros a q. apply le_bind; [apply le_refl_res|]. intros ts. apply le_loop. intros t q'. unfold input_body. destruct (use_transition dim t st) as [[] ns]; [|apply le_refl_res].
    apply le_bind; [apply IH; lia|]. intros; apply le_refl_res.
  - intros [q|r]; [|apply le_refl_res]. destruct (fcan_delay dim (s_zone st)); [apply le_refl_res|]. apply le_bind; [|intros; apply le_refl_res].
    apply le_loop. intros a q2. apply le_bind; [apply le_refl_res|]. intros ts. apply le_loop. intros t q'. unfold output_body. destruct (use_transition dim t st) as [[] ns]; [|apply le_refl_res].
    apply le_bind; [apply IH; lia|]. intros; apply le_refl_res.
Qed.
Lemma full_le s ord : forall f g, f <= g -> forall st p, le_res (full_helper dim ext ord f s st p) (full_helper dim ext ord g s st p).
Proof.
  induction f as [|f IH]; intros [|g] L st p; try (left; reflexivity); [lia|]. cbn [full_helper]. destruct (state_in_list dim st p); [apply le_refl_res|].
  apply le_bind.
  - apply le_loop. intros a q. apply le_bind; [apply le_refl_res|]. intros ts. apply le_loop. intros t q'. unfold full_input_body. destruct (use_transition dim t st) as [[] ns]; [|apply le_refl_res].
    destruct (state_subset dim _ st); [apply le_refl_res|]. apply le_bind; [apply IH; lia|]. intros; apply le_refl_res.
  - intros [q|r]; [|apply le_refl_res]. apply le_bind; [|intros; apply le_refl_res].
    apply le_loop. intros a q2. apply le_bind; [apply le_refl_res|]. intros ts. apply le_loop. intros t [q' b]. unfold full_output_body. destruct (use_transition dim t st) as [[] ns]; [|apply le_refl_res].
    destruct (state_subset dim _ st); [apply le_refl_res|]. apply le_bind; [apply IH; lia|]. intros; apply le_refl_res.
Qed.

Lemma all_met s st : (forall l, In l (all_locations dim s) -> few dim (ext s l)) -> In (s_loc st) (all_locations dim s) ->
  exists U, met s U st /\ forall l f, In l (all_locations dim s) -> met s U (mkS l (ext s l f)).
Proof.
  intros H Hs. destruct (few_states (ext s) (all_locations dim s) H) as [U HU]. exists (st :: U). split.
  - split; [exact Hs|]. exists st. split; [left; reflexivity|]. split; [reflexivity|tauto].
  - intros l f Hl. split; [exact Hl|]. destruct (HU l f Hl) as (u & Iu & E). exists u. split; [right; exact Iu|exact E].
Qed.
Lemma room_bound U p : room U p <= List.length U.
Proof. unfold room, remain. induction U as [|u us IH]; [apply le_n|]. cbn [filter]. destruct (negb _); cbn [List.length]; lia. Qed.
End One.

(** *** The checks of one system *)
Lemma ended_bind_at {A B} (F : nat -> res A) (G : nat -> A -> res B) n : ended_at F n -> (forall a, F n = Ok a -> ended_at (fun m => G m a) n) ->
  ended_at (fun m => do a <- F m; G m a) n.
Proof.
  intros [H M] K. split.
  - destruct (F n) as [a| | |] eqn:E; cbn [bind]; try discriminate; [apply (K a eq_refl)|congruence].
  - intros m L. rewrite (M m L). destruct (F n) as [a| | |] eqn:E; cbn [bind]; try reflexivity. apply (K a eq_refl), L.
Qed.
Lemma answered_bind_at {A B} (F : nat -> res A) (G : nat -> A -> res B) n : answered_at F n -> (forall a, F n = Ok a -> answered_at (fun m => G m a) n) ->
  answered_at (fun m => do a <- F m; G m a) n.
Proof. intros [a H] K. destruct (K a (H n (le_n n))) as [b Hb]. exists b. intros m L. rewrite (H m L). apply Hb, L. Qed.
Lemma answered_here {A} (a : A) n : answered_at (fun _ => Ok a) n.
Proof. exists a. reflexivity. Qed.
Lemma ended_here {A} (r : res A) n : r <> NoFuel -> ended_at (fun _ => r) n.
Proof. split; auto. Qed.

Lemma sure_answer {A} (P : A -> Prop) r : sure P r -> exists a, r = Ok a.
Proof. intros H. destruct (sure_ok P r H) as (a & E & _). eauto. Qed.

Section Checks.
Variable dim : nat.
Variable ext : ts -> loctree -> fed -> fed.
Hypothesis Few : forall s l, few dim (ext s l).

Lemma state_at s st : built dim s -> initial_state dim s = Some st -> In (s_loc st) (all_locations dim s).
Proof.
  intros B E. unfold initial_state in E. destruct (initial_location dim s) as [l|] eqn:El; [|discriminate]. apply (initial_wf dim s B) in El.
  destruct s; cbn [s_loc] in E |- *; try (unfold state_from_location in E; destruct (fempty dim _); [discriminate|]); injection E as <-; exact El.
Qed.
Lemma det_search_ends s : built dim s -> exists n, forall ord, listed ord -> answered_at (fun m => det_search dim ext ord m s) n.
Proof.
  intros B. unfold det_search. destruct (initial_state dim s) as [st|] eqn:E; [|exists 0; intros ord _; apply answered_here].
  destruct (all_met dim ext s (mkS (s_loc st) funiv)) as (U & M & HU); [intros; apply Few|exact (state_at s st B E)|]. exists (S (List.length U)). intros ord Ho.
  apply answered_bind_at; [|intros [r p] _; apply answered_here]. apply answered; [intros; apply det_le; assumption|].
  eapply sure_answer. apply (det_ends dim ext s B U ord Ho HU); [pose proof (room_bound dim U []); lia|exact M].
Qed.
Lemma least_search_ends s : built dim s -> exists n, forall ord, listed ord -> answered_at (fun m => is_least_consistent dim ext ord m s) n.
Proof.
  intros B. unfold is_least_consistent. destruct (initial_state dim s) as [st|] eqn:E; [|exists 0; intros ord _; apply answered_here].
  destruct (all_met dim ext s (extrapolate ext s st)) as (U & M & HU); [intros; apply Few|exact (state_at s st B E)|]. exists (S (List.length U)). intros ord Ho.
  apply answered_bind_at; [|intros [r p] _; apply answered_here]. apply answered; [intros; apply least_le; assumption|].
  eapply sure_answer. apply (least_ends dim ext s B U ord Ho HU); [pose proof (room_bound dim U []); lia|exact M].
Qed.
Lemma full_search_ends s : built dim s -> exists n, forall ord, listed ord -> answered_at (fun m => is_fully_consistent dim ext ord m s) n.
Proof.
  intros B. unfold is_fully_consistent. destruct (initial_state dim s) as [st|] eqn:E; [|exists 0; intros ord _; apply answered_here].
  destruct (all_met dim ext s st) as (U & M & HU); [intros; apply Few|exact (state_at s st B E)|]. exists (S (List.length U)). intros ord Ho.
  apply answered_bind_at; [|intros [r p] _; apply answered_here]. apply answered; [intros; apply full_le; assumption|].
  eapply sure_answer. apply (full_ends dim ext s B U ord Ho HU); [pose proof (room_bound dim U []); lia|exact M].
Qed.
Lemma determinism_ends s : built dim s -> exists n, forall ord, listed ord -> answered_at (fun m => check_determinism dim ext ord m s) n.
Proof.
  assert (Two : forall l r, (exists n, forall ord, listed ord -> answered_at (fun m => check_determinism dim ext ord m l) n) ->
    (exists n, forall ord, listed ord -> answered_at (fun m => check_determinism dim ext ord m r) n) ->
    exists n, forall ord, listed ord -> answered_at (fun m => do x <- check_determinism dim ext ord m l; match x with None => check_determinism dim ext ord m r | Some e => Ok (Some e) end) n).
  { intros l r [n Hn] [k Hk]. exists (Nat.max n k). intros ord Ho. apply answered_bind_at; [eapply answered_later; [apply Hn, Ho|lia]|].
    intros [e|] _; [apply answered_here|]. eapply answered_later; [apply Hk, Ho|lia]. }
  intros B. pose proof B as B'. induction B as [c ins outs id cc E|l r s Hl IHl Hr IHr E|l r s Hl IHl Hr IHr E|T S q s HT IHT HS IHS E].
  - apply (det_search_ends _ B').
  - apply conjunction_new_inv in E. destruct E as (-> & _ & _). cbn [check_determinism]. apply Two; auto.
  - apply composition_new_inv in E. destruct E as (_ & ins & outs & lo & ro & co & -> & _). cbn [check_determinism]. apply Two; auto.
  - apply quotient_new_inv in E. destruct E as (n & ins & outs & -> & _). cbn [check_determinism]. apply Two; auto.
Qed.
Lemma consistency_ends s : built dim s -> exists n, forall ord, listed ord -> answered_at (fun m => check_local_consistency dim ext ord m s) n.
Proof.
  assert (Two : forall l r, (exists n, forall ord, listed ord -> answered_at (fun m => check_local_consistency dim ext ord m l) n) ->
    (exists n, forall ord, listed ord -> answered_at (fun m => check_local_consistency dim ext ord m r) n) ->
    exists n, forall ord, listed ord -> answered_at (fun m => do x <- check_local_consistency dim ext ord m l; if x : bool then check_local_consistency dim ext ord m r else Ok false) n).
  { intros l r [n Hn] [k Hk]. exists (Nat.max n k). intros ord Ho. apply answered_bind_at; [eapply answered_later; [apply Hn, Ho|lia]|].
    intros [|] _; [|apply answered_here]. eapply answered_later; [apply Hk, Ho|lia]. }
  intros B. pose proof B as B'. induction B as [c ins outs id cc E|l r s Hl IHl Hr IHr E|l r s Hl IHl Hr IHr E|T S q s HT IHT HS IHS E].
  - apply (least_search_ends _ B').
  - apply conjunction_new_inv in E. destruct E as (-> & _ & _). cbn [check_local_consistency]. apply Two; auto.
  - apply composition_new_inv in E. destruct E as (_ & ins & outs & lo & ro & co & -> & _). cbn [check_local_consistency]. apply Two; auto.
  - apply quotient_new_inv in E. destruct E as (n & ins & outs & -> & _). cbn [check_local_consistency]. apply Two; auto.
Qed.
Lemma precheck_ends s : built dim s -> exists n, forall ord, listed ord -> answered_at (fun m => precheck dim ext ord m s) n.
Proof.
  intros B. destruct (determinism_ends s B) as [n Hn]. destruct (consistency_ends s B) as [k Hk]. exists (Nat.max n k). intros ord Ho. unfold precheck.
  apply answered_bind_at; [eapply answered_later; [apply Hn, Ho|lia]|]. intros [e|] _; [apply answered_here|]. eapply answered_later; [apply Hk, Ho|lia].
Qed.
End Checks.
