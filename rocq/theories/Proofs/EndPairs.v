(** The searches with lists of states to visit end: reachability and refinement. *)
From Coq Require Import List String ZArith QArith Bool Arith Lia.
From Verif Require Import Fed.Zone Fed.ZoneFacts Model.Base Model.Expr Model.Guard Model.Loc Model.Component Model.TS Model.PairList Model.Search Model.Refine
  Spec.StepSpec Spec.SystemSpec Spec.EndSpec Proofs.GuardFacts Proofs.SystemFacts Proofs.QuotientFacts Proofs.WfFacts Proofs.DetFacts Proofs.ReachFacts Proofs.PairListFacts Proofs.EndFacts.
Import ListNotations.
Local Open Scope nat_scope.

(** ** Reachability *)
Lemma compare_finished : forall a b, compare_partial a b <> NoFuel.
Proof.
  assert (Two : forall (x y : res bool), x <> NoFuel -> y <> NoFuel -> (do b <- x; if b : bool then y else Ok false) <> NoFuel).
  { intros [[]| | |] y Hx Hy; cbn [bind]; auto; discriminate. }
  induction a as [i iv t|i iv t l IHl r IHr]; intros b; destruct b as [j jv u|j jv u l' r']; cbn [compare_partial lt_id]; destruct i; try discriminate; destruct j; try discriminate; apply Two; auto.
Qed.
Lemma decisions_finished dim steps : forall st, decisions dim st steps <> NoFuel.
Proof.
  induction steps as [|[t a] steps IH]; intros st; [discriminate|]. cbn [decisions]. unfold from_state_transition. destruct (negb _); [|discriminate].
  destruct (use_transition_alt dim t _); cbn [unwrap bind]; [|discriminate]. specialize (IH (snd (use_transition dim t st))). destruct (decisions dim _ steps); cbn [bind]; congruence.
Qed.

Section Reach.
Variable dim : nat.
Variable s : ts.
Hypothesis B : built dim s.
Variable xext : loctree -> fed -> fed.
Variable U : list state.
Hypothesis HU : forall l f, In l (all_locations dim s) -> exists u, In u U /\ same_state dim u (mkS l (xext l f)).

Definition seen (V : visited) (u : state) : bool := existsb (fsubset dim (s_zone u)) (zones_of V (lt_id (s_loc u))).
Definition cost (F : list subpath) (V : visited) : nat := List.length F + remain state U (seen V).
Definition fok (F : list subpath) : Prop := forall sp, In sp F -> In (s_loc (sp_state sp)) (all_locations dim s).

Lemma seen_same V a b : same_state dim a b -> seen V a = seen V b.
Proof.
  intros [L Z]. unfold seen. rewrite L. induction (zones_of V (lt_id (s_loc b))) as [|z zs IH]; [reflexivity|]. cbn [existsb]. rewrite IH. f_equal.
  apply Bool.eq_iff_eq_true. rewrite !fsubset_true. split; intros H v Hv; apply H, Z, Hv.
Qed.
Lemma take_cost sp a t F V F' V' : In (t_target t) (all_locations dim s) -> fok F -> take_transition dim s xext sp a t (F, V) = (F', V') -> fok F' /\ cost F' V' <= cost F V.
Proof.
  intros Ht Hf E. unfold take_transition in E. destruct (use_transition dim t (sp_state sp)) as [ok ns] eqn:Eu. destruct ok; [|injection E as <- <-; auto].
  assert (El : s_loc ns = t_target t).
  { unfold use_transition in Eu. destruct (fempty dim _); [discriminate|]. injection Eu as _ <-. reflexivity. }
  cbv zeta in E. cbn [s_loc s_zone] in E. rewrite El in E. set (z := xext (t_target t) (s_zone ns)) in *. destruct (existsb (fsubset dim z) _) eqn:Ex; [injection E as <- <-; auto|].
  injection E as <- <-. split.
  - intros p Hp. apply in_app_or in Hp. destruct Hp as [Hp|[<-|[]]]; [apply Hf, Hp|]. cbn [sp_state s_loc]. exact Ht.
  - destruct (HU (t_target t) (s_zone ns) Ht) as (u & Iu & Su). fold z in Su. unfold cost. rewrite app_length. cbn [List.length].
    assert (remain state U (seen (set_zones V (lt_id (t_target t)) (filter (fun x => negb (fsubset dim x z)) (zones_of V (lt_id (t_target t))) ++ [z]))) < remain state U (seen V)); [|lia].
    apply (remain_lt _ _ _ _ u).
    + intros x _ Hx. unfold seen in *. rewrite zones_set. destruct (locid_eqb _ (lt_id (s_loc x))) eqn:Ei; [|exact Hx]. apply locid_eqb_eq in Ei. rewrite Ei.
      apply existsb_exists in Hx. destruct Hx as (y & Hy & Sy). apply existsb_exists. destruct (fsubset dim y z) eqn:Ey.
      * exists z. split; [apply in_or_app; right; left; reflexivity|]. rewrite fsubset_true in *. auto.
      * exists y. split; [|exact Sy]. apply in_or_app. left. apply filter_In. rewrite Ey. auto.
    + exact Iu.
    + rewrite (seen_same _ _ _ Su). exact Ex.
    + rewrite (seen_same _ _ _ Su). unfold seen. cbn [s_loc s_zone]. rewrite zones_set, locid_eqb_refl. apply existsb_exists. exists z. split; [apply in_or_app; right; left; reflexivity|]. apply fsubset_true. auto.
Qed.
Lemma takes_cost sp a ts : (forall t, In t ts -> In (t_target t) (all_locations dim s)) -> forall F V F' V', fok F ->
  fold_left (fun acc t => take_transition dim s xext sp a t acc) ts (F, V) = (F', V') -> fok F' /\ cost F' V' <= cost F V.
Proof.
  induction ts as [|t ts IH]; intros Ht F V F' V' Hf E; cbn [fold_left] in E; [injection E as <- <-; auto|].
  destruct (take_transition dim s xext sp a t (F, V)) as [F1 V1] eqn:E1. destruct (take_cost _ _ _ _ _ _ _ (Ht t (or_introl eq_refl)) Hf E1) as [H1 C1].
  destruct (IH (fun x Hx => Ht x (or_intror Hx)) F1 V1 F' V' H1 E) as [H2 C2]. split; [exact H2|lia].
Qed.
Lemma expand_cost sp acts : In (s_loc (sp_state sp)) (all_locations dim s) -> (forall a, In a acts -> is_action s a) -> forall F V, fok F ->
  sure (fun acc => fok (fst acc) /\ cost (fst acc) (snd acc) <= cost F V) (expand dim s xext sp acts (F, V)).
Proof.
  intros Hl. induction acts as [|a acts IH]; intros Ha F V Hf; [cbn; auto|]. cbn [expand]. unfold expand_action.
  destruct (next_wf dim s B _ a Hl (Ha a (or_introl eq_refl))) as (ts & E & Ht). rewrite E. cbn [bind]. destruct (fold_left _ ts (F, V)) as [F1 V1] eqn:E1.
  destruct (takes_cost _ _ _ Ht _ _ _ _ Hf E1) as [H1 C1]. eapply sure_mono; [apply IH; [intros; apply Ha; right; assumption|exact H1]|].
  cbv beta. intros x [H2 C2]. split; [exact H2|lia].
Qed.
Lemma search_finished start target : forall fuel F V, cost F V < fuel -> fok F ->
  search_loop dim fuel s xext (sort_str (ts_actions s)) start target F V <> NoFuel.
Proof.
  induction fuel as [|f IH]; intros F V L Hf; [lia|]. cbn [search_loop]. destruct F as [|sp F]; [discriminate|].
  unfold reached_end. pose proof (compare_finished (s_loc (sp_state sp)) (s_loc target)) as C. destruct (compare_partial _ _) as [b| | |]; cbn [bind]; try discriminate; [|congruence].
  destruct (b && _).
  - unfold make_path. pose proof (decisions_finished dim (sp_steps sp []) start). destruct (decisions dim start _); cbn [bind]; congruence.
  - pose proof (expand_cost sp (sort_str (ts_actions s)) (Hf sp (or_introl eq_refl)) (fun a Ha => proj1 (actions_in s a) Ha) F V (fun x Hx => Hf x (or_intror Hx))) as X.
    destruct (expand dim s xext sp _ (F, V)) as [[F' V']| | |]; cbn [bind sure fst snd] in *; try discriminate; [|contradiction]. destruct X as [H2 C2].
    apply IH; [|exact H2]. unfold cost in L, C2. cbn [List.length] in L. unfold cost. lia.
Qed.
End Reach.

Lemma search_le dim s xext acts start target : forall f g, f <= g -> forall F V, le_res (search_loop dim f s xext acts start target F V) (search_loop dim g s xext acts start target F V).
Proof.
  induction f as [|f IH]; intros [|g] L F V; try (left; reflexivity); [lia|]. cbn [search_loop]. destruct F as [|sp F]; [apply le_refl_res|].
  apply le_bind; [apply le_refl_res|]. intros []; [apply le_refl_res|]. apply le_bind; [apply le_refl_res|]. intros acc. apply IH. lia.
Qed.
Lemma reachability_ends dim s xext start : built dim s -> (forall l, In l (all_locations dim s) -> few dim (xext l)) -> In (s_loc start) (all_locations dim s) ->
  exists n, forall target, ended_at (fun m => find_path dim m s xext start target) n.
Proof.
  intros B Few Hs. destruct (few_states dim xext (all_locations dim s) Few) as [U HU]. exists (S (S (List.length U))). intros target.
  unfold find_path, find_listed. destruct (trivially_unreachable dim start target); [apply ended_here; discriminate|].
  apply ended; [intros; apply search_le; assumption|]. apply (search_finished dim s B xext U HU).
  - unfold cost. cbn [List.length]. assert (remain state U (seen dim [(lt_id (s_loc start), [apply_inv dim (s_loc start) (s_zone start)])]) <= List.length U); [|cbn [s_loc s_zone]; lia].
    unfold remain. generalize (seen dim [(lt_id (s_loc start), [apply_inv dim (s_loc start) (s_zone start)])]). intros c. clear. induction U as [|u us IH]; [apply le_n|]. cbn [filter]. destruct (negb _); cbn [List.length]; lia.
  - intros sp [<-|[]]. exact Hs.
Qed.

(** ** Refinement *)
Section Refine.
Variable dim : nat.
Variables s1 s2 : ts.
Hypothesis B1 : built dim s1.
Hypothesis B2 : built dim s2.
Variable pext : loctree -> loctree -> fed -> fed.
Variable U : list pair.
Definition same_pair (a b : pair) : Prop := p_l1 a = p_l1 b /\ p_l2 a = p_l2 b /\ forall v, fsem dim (p_zone a) v <-> fsem dim (p_zone b) v.
Hypothesis HU : forall l1 l2 f, In l1 (all_locations dim s1) -> In l2 (all_locations dim s2) -> exists u, In u U /\ same_pair u (mkP l1 l2 (pext l1 l2 f)).

Definition known (c : ctx) (u : pair) : bool := passed_has dim u (fst c) || waiting_has dim u (snd c).
Definition inside (p : pair) : Prop := In (p_l1 p) (all_locations dim s1) /\ In (p_l2 p) (all_locations dim s2).
Definition cok (c : ctx) : Prop := wok (snd c) /\ forall p, In p (w_queue (snd c)) -> inside p.
Definition price (c : ctx) : nat := List.length (w_queue (snd c)) + remain pair U (known c).

Lemma known_same c a b : same_pair a b -> known c a = known c b.
Proof.
  intros (L1 & L2 & Z). unfold known. assert (K : pair_key a = pair_key b) by (unfold pair_key; rewrite L1, L2; reflexivity).
  assert (S : forall z, fsubset dim (p_zone a) z = fsubset dim (p_zone b) z) by (intros z; apply Bool.eq_iff_eq_true; rewrite !fsubset_true; split; intros H v Hv; apply H, Z, Hv).
  f_equal.
  - unfold passed_has. rewrite K. destruct (kget _ (fst c)); [apply S|reflexivity].
  - unfold waiting_has. rewrite K. destruct (kget _ (w_map (snd c))) as [l|]; [|reflexivity]. induction l as [|z l IH]; [reflexivity|]. cbn [existsb]. rewrite S, IH. reflexivity.
Qed.
Lemma put_known m w p : wok w -> forall u, known (m, w) u = true -> known (m, waiting_put p w) u = true.
Proof.
  intros W u H. unfold known in *. cbn [fst snd] in *. apply orb_true_iff in H. apply orb_true_iff. destruct H as [H|H]; [auto|right].
  apply (wok_has dim u w W) in H. apply (wok_has dim u _ (wok_put p w W)). destruct H as (x & Hx & E). exists x. split; [right; exact Hx|exact E].
Qed.
Lemma build_price t1 t2 cur (is1 : bool) c : cok c -> (if is1 then In (t_target t1) (all_locations dim s1) /\ In (t_target t2) (all_locations dim s2) else In (t_target t2) (all_locations dim s1) /\ In (t_target t1) (all_locations dim s2)) ->
  forall c', build_pair dim pext t1 t2 cur is1 c = Some c' -> cok c' /\ price c' <= price c.
Proof.
  intros Hc Hl c' E. unfold build_pair in E. destruct (fempty dim (apply_guards dim t2 _)); [injection E as <-; auto|]. cbv zeta in E.
  destruct (_ || _); [injection E as <-; auto|]. destruct (negb (fsubset dim _ _)); [discriminate|].
  set (l1 := if is1 then t_target t1 else t_target t2) in *. set (l2 := if is1 then t_target t2 else t_target t1) in *.
  assert (Hl1 : In l1 (all_locations dim s1)) by (unfold l1; destruct is1; tauto). assert (Hl2 : In l2 (all_locations dim s2)) by (unfold l2; destruct is1; tauto).
  match type of E with context [mkP l1 l2 (pext l1 l2 ?f)] => destruct (HU l1 l2 f Hl1 Hl2) as (u & Iu & Su); set (p := mkP l1 l2 (pext l1 l2 f)) in * end.
  destruct (_ && _) eqn:N; [|injection E as <-; auto]. injection E as <-. apply andb_true_iff in N. destruct N as [N1 N2]. apply negb_true_iff in N1, N2.
  destruct c as [m w]. cbn [fst snd] in *. destruct Hc as [W Q]. cbn [snd] in W, Q. split.
  - split; [apply wok_put, W|]. cbn [snd waiting_put w_queue]. intros x [<-|Hx]; [split; assumption|apply Q, Hx].
  - unfold price. cbn [snd waiting_put w_queue List.length].
    assert (remain pair U (known (m, waiting_put p w)) < remain pair U (known (m, w))); [|unfold waiting_put in *; lia].
    apply (remain_lt _ _ _ _ u); [intros x _; apply put_known, W|exact Iu| |].
    + rewrite (known_same _ _ _ Su). unfold known. cbn [fst snd]. rewrite N1, N2. reflexivity.
    + rewrite (known_same _ _ _ Su). unfold known. apply orb_true_iff. right. cbn [snd]. apply (wok_has dim p _ (wok_put p w W)). exists p. split; [left; reflexivity|]. auto.
Qed.
Lemma builds_price cur is1 ps : (forall t1 t2, In (t1, t2) ps -> if is1 : bool then In (t_target t1) (all_locations dim s1) /\ In (t_target t2) (all_locations dim s2) else In (t_target t2) (all_locations dim s1) /\ In (t_target t1) (all_locations dim s2)) ->
  forall c c', cok c -> build_pairs dim pext ps cur is1 c = Some c' -> cok c' /\ price c' <= price c.
Proof.
  induction ps as [|[t1 t2] ps IH]; intros Hp c c' Hc E; cbn [build_pairs] in E; [injection E as <-; auto|].
  destruct (build_pair dim pext t1 t2 cur is1 c) as [c1|] eqn:E1; [|discriminate]. destruct (build_price _ _ _ _ _ Hc (Hp t1 t2 (or_introl eq_refl)) _ E1) as [H1 P1].
  destruct (IH (fun a b H => Hp a b (or_intror H)) c1 c' H1 E) as [H2 P2]. split; [exact H2|lia].
Qed.
Definition cheap (k : nat) (x : ctx + outcome) : Prop := match x with inl c => cok c /\ price c <= k | inr _ => True end.
Lemma valid_price a ts1 ts2 cur (is1 : bool) c : cok c ->
  (forall t1 t2, In t1 ts1 -> In t2 ts2 -> if is1 then In (t_target t1) (all_locations dim s1) /\ In (t_target t2) (all_locations dim s2) else In (t_target t2) (all_locations dim s1) /\ In (t_target t1) (all_locations dim s2)) ->
  cheap (price c) (valid_pairs dim pext a ts1 ts2 cur is1 c).
Proof.
  intros Hc Hl. unfold valid_pairs. destruct (fempty dim (guard_fed dim ts1 _)); [split; auto|]. destruct (fempty dim (guard_fed dim ts2 _)); [exact I|].
  destruct (negb _); [exact I|]. destruct (build_pairs dim pext (list_prod ts1 ts2) cur is1 c) as [c'|] eqn:E; [|exact I].
  refine (builds_price _ _ _ _ _ _ Hc E). intros t1 t2 H. apply in_prod_iff in H. apply Hl; tauto.
Qed.
Lemma next_in s l a : built dim s -> In l (all_locations dim s) -> is_action s a -> sure (fun ts => forall t, In t ts -> In (t_target t) (all_locations dim s)) (next_transitions dim s l a).
Proof. intros B L A. destruct (next_wf dim s B l a L A) as (ts & E & H). rewrite E. exact H. Qed.
Lemma output_price cur a c k : cok c -> price c <= k -> inside cur -> is_output s1 a -> sure (cheap k) (output_step dim pext s1 s2 cur a c).
Proof.
  intros Hc Hk [L1 L2] Ha. unfold output_step. eapply sure_bind; [apply (next_in s1); [exact B1|exact L1|right; exact Ha]|]. intros t1 H1.
  assert (X : sure (fun ts => forall t, In t ts -> In (t_target t) (all_locations dim s2)) (if extra_output s1 s2 a then Ok [t_without_id (p_l2 cur)] else next_transitions dim s2 (p_l2 cur) a)).
  { destruct (extra_output s1 s2 a) eqn:E; [cbn; intros t [<-|[]]; exact L2|]. unfold extra_output in E. apply sin_In in Ha. rewrite Ha in E. cbn [andb] in E. apply negb_false_iff, sin_In in E.
    apply (next_in s2); [exact B2|exact L2|right; exact E]. }
  eapply sure_bind; [exact X|]. intros t2 H2. cbn [sure]. pose proof (valid_price a t1 t2 cur true c Hc (fun x y Hx Hy => conj (H1 x Hx) (H2 y Hy))) as V.
  destruct (valid_pairs dim pext a t1 t2 cur true c); [|exact I]. cbn [cheap] in *. split; [tauto|]. lia.
Qed.
Lemma input_price cur a c k : cok c -> price c <= k -> inside cur -> is_input s2 a -> sure (cheap k) (input_step dim pext s1 s2 cur a c).
Proof.
  intros Hc Hk [L1 L2] Ha. unfold input_step.
  assert (X : sure (fun ts => forall t, In t ts -> In (t_target t) (all_locations dim s1)) (if extra_input s1 s2 a then Ok [t_without_id (p_l1 cur)] else next_transitions dim s1 (p_l1 cur) a)).
  { destruct (extra_input s1 s2 a) eqn:E; [cbn; intros t [<-|[]]; exact L1|]. unfold extra_input in E. apply sin_In in Ha. rewrite Ha in E. cbn [andb] in E. apply negb_false_iff, sin_In in E.
    apply (next_in s1); [exact B1|exact L1|left; exact E]. }
  eapply sure_bind; [exact X|]. intros t1 H1. eapply sure_bind; [apply (next_in s2); [exact B2|exact L2|left; apply sin_In; apply sin_In; exact Ha]|]. intros t2 H2. cbn [sure].
  pose proof (valid_price a t2 t1 cur false c Hc (fun x y Hx Hy => conj (H1 y Hy) (H2 x Hx))) as V.
  destruct (valid_pairs dim pext a t2 t1 cur false c); [|exact I]. cbn [cheap] in *. split; [tauto|]. lia.
Qed.
Lemma pop_price m w cur w' : wok w -> waiting_pop w = Ok (Some (cur, w')) -> remain pair U (known (passed_put cur m, w')) <= remain pair U (known (m, w)).
Proof.
  intros W E. destruct (wok_pop w W) as [_ P]. destruct (P cur w' E) as [Q W']. apply remain_le. intros u _ H. unfold known in *. cbn [fst snd] in *. apply orb_true_iff in H. apply orb_true_iff.
  assert (G : forall z, (match kget (pair_key u) m with Some f => fsubset dim (p_zone u) f | None => false end = true \/ pair_key cur = pair_key u /\ fsubset dim (p_zone u) (p_zone cur) = true) -> passed_has dim u (passed_put cur m) = z -> z = true).
  { intros z Hz <-. unfold passed_has, passed_put. rewrite kget_kset. destruct (key_eqb (pair_key u) (pair_key cur)) eqn:Ek.
    - apply key_eqb_eq in Ek. rewrite <- Ek. destruct Hz as [Hz|[_ Hz]].
      + destruct (kget (pair_key u) m) as [f|]; [|discriminate]. rewrite fsubset_true in *. intros v Hv. apply funion_sem. auto.
      + destruct (kget (pair_key u) m) as [f|]; [|exact Hz]. rewrite fsubset_true in *. intros v Hv. apply funion_sem. auto.
    - destruct Hz as [Hz|[Ek' _]]; [exact Hz|]. rewrite Ek', key_eqb_refl in Ek. discriminate. }
  destruct H as [H|H]; [left; apply (G _ (or_introl H) eq_refl)|]. apply (wok_has dim u w W) in H. destruct H as (x & Hx & Ek & Z). rewrite Q in Hx. destruct Hx as [<-|Hx].
  - left. refine (G _ (or_intror (conj Ek _)) eq_refl). apply fsubset_true. exact Z.
  - right. apply (wok_has dim u w' W'). exists x. auto.
Qed.
Variable aord : pair -> list string -> list string.
Hypothesis Ho : pair_listed aord.
Lemma refine_finished : forall fuel c, price c < fuel -> cok c -> exists r, refine_loop dim pext aord s1 s2 fuel c = Ok r.
Proof.
  induction fuel as [|f IH]; intros [m w] L [W Q]; [lia|]. cbn [refine_loop snd fst] in *. destruct (wok_pop w W) as [E P]. destruct (waiting_pop w) as [[[cur w']|]| | |] eqn:Ep; cbn [bind]; [|eauto|congruence|congruence|congruence].
  destruct (P cur w' eq_refl) as [Eq W']. assert (Hcur : inside cur) by (apply Q; rewrite Eq; left; reflexivity).
  assert (C0 : cok (passed_put cur m, w')) by (split; [exact W'|]; cbn [snd]; intros p Hp; apply Q; rewrite Eq; right; exact Hp).
  assert (P0 : price (passed_put cur m, w') < f).
  { unfold price in *. cbn [snd] in *. rewrite Eq in L. cbn [List.length] in L. pose proof (pop_price m w cur w' W Ep). lia. }
  assert (X : sure (cheap (price (passed_put cur m, w'))) (loopM (output_step dim pext s1 s2 cur) (aord cur (ts_outputs s1)) (passed_put cur m, w'))).
  { apply (sure_loop (fun c => cok c /\ price c <= price (passed_put cur m, w')) (fun _ => True)); [|split; [exact C0|apply le_n]].
    intros a c Ha [Hc Hk]. apply output_price; auto. exact (Ho _ _ _ Ha). }
  destruct (loopM (output_step dim pext s1 s2 cur) _ _) as [[c|r]| | |]; cbn [bind sure] in *; try contradiction; [|eauto]. destruct X as [Hc Hk].
  assert (Y : sure (cheap (price c)) (loopM (input_step dim pext s1 s2 cur) (aord cur (ts_inputs s2)) c)).
  { apply (sure_loop (fun c' => cok c' /\ price c' <= price c) (fun _ => True)); [|split; [exact Hc|apply le_n]].
    intros a c' Ha [Hc' Hk']. apply input_price; auto. exact (Ho _ _ _ Ha). }
  destruct (loopM (input_step dim pext s1 s2 cur) _ _) as [[c'|r]| | |]; cbn [bind sure] in *; try contradiction; [|eauto]. destruct Y as [Hc' Hk'].
  apply IH; [lia|exact Hc'].
Qed.
End Refine.

Lemma refine_le dim pext aord s1 s2 : forall f g, f <= g -> forall c, le_res (refine_loop dim pext aord s1 s2 f c) (refine_loop dim pext aord s1 s2 g c).
Proof.
  induction f as [|f IH]; intros [|g] L c; try (left; reflexivity); [lia|]. cbn [refine_loop]. apply le_bind; [apply le_refl_res|]. intros [[cur w]|]; [|apply le_refl_res].
  apply le_bind; [apply le_refl_res|]. intros [c'|r]; [|apply le_refl_res]. apply le_bind; [apply le_refl_res|]. intros [c2|r]; [apply IH; lia|apply le_refl_res].
Qed.
Lemma few_pairs dim (F : loctree -> loctree -> fed -> fed) ls ms : (forall l m, In l ls -> In m ms -> few dim (F l m)) ->
  exists U : list pair, forall l m f, In l ls -> In m ms -> exists u, In u U /\ same_pair dim u (mkP l m (F l m f)).
Proof.
  intros H. assert (X : forall lm : list (loctree * loctree), (forall l m, In (l, m) lm -> few dim (F l m)) ->
    exists U : list pair, forall l m f, In (l, m) lm -> exists u, In u U /\ same_pair dim u (mkP l m (F l m f))).
  { induction lm as [|[l m] lm IH]; intros K; [exists []; intros l m f []|].
    destruct IH as [U HU]; [intros; apply K; right; assumption|]. destruct (K l m (or_introl eq_refl)) as [zs Hz].
    exists (map (mkP l m) zs ++ U). intros l' m' f [[= <- <-]|Hl].
    - destruct (Hz f) as (z & Iz & E). exists (mkP l m z). split; [apply in_or_app; left; apply in_map; exact Iz|]. split; [reflexivity|]. split; [reflexivity|]. intros v. symmetry. apply E.
    - destruct (HU l' m' f Hl) as (u & Iu & E). exists u. split; [apply in_or_app; right; exact Iu|exact E]. }
  destruct (X (list_prod ls ms)) as [U HU]; [intros l m I; apply in_prod_iff in I; apply H; tauto|]. exists U. intros l m f Hl Hm. apply HU, in_prod_iff. auto.
Qed.
Lemma refinement_ends dim ext pext s1 s2 : built dim s1 -> built dim s2 -> (forall s l, few dim (ext s l)) -> (forall l m, few dim (pext l m)) ->
  exists n, forall ord aord, listed ord -> pair_listed aord -> answered_at (fun k => check_refinement dim ext pext ord aord s1 s2 k) n.
Proof.
  intros B1 B2 Few Fewp. destruct (precheck_ends dim ext Few s1 B1) as [n1 H1]. destruct (precheck_ends dim ext Few s2 B2) as [n2 H2].
  destruct (few_pairs dim pext (all_locations dim s1) (all_locations dim s2)) as [U HU]; [intros; apply Fewp|].
  exists (Nat.max (Nat.max n1 n2) (S (S (List.length U)))). intros ord aord Ho Ha. unfold check_refinement, check_preconditions.
  apply answered_bind_at.
  - apply answered_bind_at; [eapply answered_later; [apply H1, Ho|lia]|]. intros [] _; cbn [negb]; [|apply answered_here].
    apply answered_bind_at; [eapply answered_later; [apply H2, Ho|lia]|]. intros [] _; apply answered_here.
  - intros [r|] _; [apply answered_here|]. unfold explore. destruct (initial_location dim s1) as [l1|] eqn:E1, (initial_location dim s2) as [l2|] eqn:E2; try (apply answered_here).
    destruct (fempty dim _); [apply answered_here|]. apply answered; [intros; apply refine_le; assumption|]. apply (refine_finished dim s1 s2 B1 B2 pext U HU aord Ha).
    + unfold price. cbn [snd waiting_put waiting_new w_queue List.length].
      match goal with |- context [remain pair U ?c] => assert (remain pair U c <= List.length U); [generalize c|lia] end.
      intros c. unfold remain. clear. induction U as [|u us IH]; [apply le_n|]. cbn [filter]. destruct (negb _); cbn [List.length]; lia.
    + split; [apply wok_put, wok_new|]. cbn [snd waiting_put waiting_new w_queue]. intros p [<-|[]]. split; [exact (initial_wf dim s1 B1 _ E1)|exact (initial_wf dim s2 B2 _ E2)].
Qed.
