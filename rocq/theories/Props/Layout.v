(** C56: the drawing of a saved component. *)
From Coq Require Import List String ZArith QArith Qminmax Bool Arith Lia Lqa.
From Verif Require Import Fed.Zone Model.Base Model.Expr Model.Guard Model.Loc Model.Component Model.Layout Spec.LayoutSpec Proofs.GuardFacts Proofs.LayoutFacts.
Import ListNotations.
Local Open Scope string_scope.
Local Open Scope Q_scope.

(** A component can be drawn exactly if its edges lead from and to its own locations; otherwise the program aborts. *)
Theorem C56_drawable : forall cf px py root c,
  (connected c -> exists d, layout cf px py root c = Ok d) /\ (~ connected c -> layout cf px py root c = Panic).
Proof.
  intros cf px py root c. unfold layout. split.
  - intros H. apply connect_iff in H. rewrite H. cbn. eauto.
  - intros H. destruct (connect_cases c) as [E|E]; [exfalso; apply H, connect_iff, E|rewrite E; reflexivity].
Qed.
Print Assumptions C56_drawable.

(** Every location and every label of an edge has a place, in order; an edge has a label for its action and one each for its guard
    and its update, if there are any. *)
Theorem C56_all_placed : forall cf px py root c d, layout cf px py root c = Ok d ->
  List.length (dr_locs d) = List.length (c_locs c) /\
  map (@List.length _) (dr_nails d) = map (fun e => List.length (nails e)) (c_edges c) /\
  forall e k, In k (nails e) <-> labelled e k.
Proof.
  intros cf px py root c d E. unfold layout in E. apply bind_ok in E. destruct E as (u & _ & E). injection E as <-. cbn [dr_locs dr_nails].
  split; [rewrite map_length, seq_length; reflexivity|]. split; [apply nail_lengths|].
  intros e k. unfold nails, labelled. destruct (e_guard e), (e_update e); cbn [app List.length Nat.ltb Nat.leb andb]; try (destruct (String.eqb_spec (e_src e) (e_tgt e))); cbn [In app];
    intuition (try congruence; subst; auto).
Qed.
Print Assumptions C56_all_placed.

(** If the nodes are neither all above each other nor all at one height, every place is a point in the frame, half the padding away
    from its sides; the frame is centred, as wide as the locations need, and its sides are in a ratio within the limit. *)
Theorem C56_inside_partial : forall cf px py root c d, 0 <= cf_padding cf -> 1 <= cf_ratio cf ->
  layout cf px py root c = Ok d -> spread px (node_count c) -> spread py (node_count c) ->
  (forall p, In p (places d) -> inside (cf_padding cf / 2) d p) /\
  dr_x d + dr_width d / 2 == 0 /\ dr_y d + dr_height d / 2 == 0 /\
  let w := dr_width d - cf_padding cf in let h := dr_height d - cf_padding cf in
  0 < w /\ 0 < h /\ w / h <= cf_ratio cf * cf_ratio cf /\ h / w <= cf_ratio cf * cf_ratio cf /\ w * h == grid_size cf root c * grid_size cf root c.
Proof.
  intros cf px py root c d Pd Rt E Sx Sy. pose proof (layout_places _ _ _ _ _ _ E) as Pl. unfold layout in E. apply bind_ok in E. destruct E as (u & _ & E). injection E as <-. cbn [dr_x dr_y dr_width dr_height] in *.
  set (n := node_count c) in *. set (g := grid_size cf root c) in *. set (r := ratio_x cf px py n) in *.
  destruct (ratio_bounds cf px py n Rt) as [R1 R2]. fold r in R1, R2.
  assert (C0 : 0 < cf_ratio cf) by lra.
  assert (I0 : 0 < 1 / cf_ratio cf) by (apply Qlt_shift_div_l; lra).
  assert (R0 : 0 < r) by lra. assert (G : 200 <= g) by apply Q.le_max_r.
  unfold ratio_y in *. fold r in Pl |- *. set (s := 1 / r) in *.
  assert (S0 : 0 < s) by (apply Qlt_shift_div_l; lra).
  assert (RS : r * s == 1) by (unfold s; field; lra).
  assert (GR : 0 < g * r) by (apply Qmult_lt_0_compat; lra). assert (GS : 0 < g * s) by (apply Qmult_lt_0_compat; lra).
  split; [|split; [field|split; [field|]]].
  - intros p H. rewrite Pl in H. apply in_map_iff in H. destruct H as (k & <- & Hk). apply in_seq in Hk.
    destruct (normalize_some cf g px n r k (spread_lt _ _ Sx) ltac:(lia) ltac:(lra)) as (x & -> & X1 & X2 & _).
    destruct (normalize_some cf g py n s k (spread_lt _ _ Sy) ltac:(lia) ltac:(lra)) as (y & -> & Y1 & Y2 & _).
    exists x, y. cbn [dr_width dr_height]. split; [reflexivity|]. assert (P2 : cf_padding cf == cf_padding cf / 2 + cf_padding cf / 2) by field. repeat split; lra.
  - cbn zeta. assert (W : g * r + cf_padding cf - cf_padding cf == g * r) by ring. assert (H : g * s + cf_padding cf - cf_padding cf == g * s) by ring. rewrite W, H.
    split; [exact GR|]. split; [exact GS|].
    assert (RR : r * r <= cf_ratio cf * cf_ratio cf).
    { apply Qle_trans with (cf_ratio cf * r); [apply Qmult_le_compat_r; lra|rewrite (Qmult_comm (cf_ratio cf) r); apply Qmult_le_compat_r; lra]. }
    assert (S1 : s <= cf_ratio cf).
    { apply Qle_shift_div_r; [exact R0|]. assert (Z : 1 / cf_ratio cf * cf_ratio cf == 1) by (field; lra).
      apply Qle_trans with (1 / cf_ratio cf * cf_ratio cf); [lra|]. rewrite (Qmult_comm (cf_ratio cf) r). apply Qmult_le_compat_r; lra. }
    assert (SS : s * s <= cf_ratio cf * cf_ratio cf).
    { apply Qle_trans with (cf_ratio cf * s); [apply Qmult_le_compat_r; lra|rewrite (Qmult_comm (cf_ratio cf) s); apply Qmult_le_compat_r; lra]. }
    split; [|split].
    + assert (X : g * r / (g * s) == r * r) by (unfold s; field; split; lra). rewrite X. exact RR.
    + assert (X : g * s / (g * r) == s * s) by (unfold s; field; split; lra). rewrite X. exact SS.
    + unfold s. field. lra.
Qed.
Print Assumptions C56_inside_partial.

(** The picture is the one the simulation gives, scaled: what is to the left stays to the left, what is above stays above. *)
Theorem C56_scaled_partial : forall cf px py root c d i j, 1 <= cf_ratio cf ->
  layout cf px py root c = Ok d -> spread px (node_count c) -> spread py (node_count c) -> (i < node_count c)%nat -> (j < node_count c)%nat ->
  exists xi yi xj yj, nth_error (places d) i = Some (Some xi, Some yi) /\ nth_error (places d) j = Some (Some xj, Some yj) /\
    (px i <= px j <-> xi <= xj) /\ (py i <= py j <-> yi <= yj).
Proof.
  intros cf px py root c d i j Rt E Sx Sy Hi Hj. pose proof (layout_places _ _ _ _ _ _ E) as Pl. rewrite Pl. clear Pl E.
  set (n := node_count c) in *. set (g := grid_size cf root c) in *. set (r := ratio_x cf px py n) in *.
  destruct (ratio_bounds cf px py n Rt) as [R1 R2]. fold r in R1, R2.
  assert (I0 : 0 < 1 / cf_ratio cf) by (apply Qlt_shift_div_l; lra).
  assert (R0 : 0 < r) by lra. assert (G : 200 <= g) by apply Q.le_max_r.
  unfold ratio_y. fold r. set (s := 1 / r) in *. assert (S0 : 0 < s) by (apply Qlt_shift_div_l; lra).
  assert (GR : 0 < g * r) by (apply Qmult_lt_0_compat; lra). assert (GS : 0 < g * s) by (apply Qmult_lt_0_compat; lra).
  assert (Nth : forall k, (k < n)%nat -> nth_error (map (fun k => (normalize cf g px n r k, normalize cf g py n s k)) (seq 0 n)) k = Some (normalize cf g px n r k, normalize cf g py n s k)).
  { intros k Hk. apply map_nth_error with (d := k). rewrite nth_error_nth' with (d := 0%nat) by (rewrite seq_length; exact Hk). rewrite seq_nth by exact Hk. reflexivity. }
  rewrite (Nth i Hi), (Nth j Hj).
  assert (Ord : forall p t, spread p n -> 0 < g * t -> exists x y, normalize cf g p n t i = Some x /\ normalize cf g p n t j = Some y /\ (p i <= p j <-> x <= y)).
  { intros p t Sp T. pose proof (spread_lt _ _ Sp) as L. destruct (normalize_some cf g p n t i L Hi ltac:(lra)) as (x & Ex & _ & _ & Vx). destruct (normalize_some cf g p n t j L Hj ltac:(lra)) as (y & Ey & _ & _ & Vy).
    exists x, y. split; [exact Ex|]. split; [exact Ey|]. rewrite Vx, Vy. set (lo := least p n) in *. set (hi := greatest p n) in *.
    assert (F : 0 < (g * t) / (hi - lo)) by (apply Qlt_shift_div_l; lra).
    assert (Dx : forall k, (p k - lo) / (hi - lo) * (g * t) == (p k - lo) * (g * t / (hi - lo))) by (intros k; field; lra). rewrite !Dx.
    set (f := g * t / (hi - lo)) in *. split.
    - intros H. assert (Z : (p i - lo) * f <= (p j - lo) * f) by (apply Qmult_le_compat_r; lra). lra.
    - intros H. destruct (Qlt_le_dec (p j) (p i)) as [X|X]; [|exact X]. exfalso. assert (Z : (p j - lo) * f < (p i - lo) * f) by (apply Qmult_lt_compat_r; lra). lra. }
  destruct (Ord px r Sx GR) as (xi & xj & E1 & E2 & Ox). destruct (Ord py s Sy GS) as (yi & yj & E3 & E4 & Oy).
  exists xi, yi, xj, yj. rewrite E1, E2, E3, E4. auto.
Qed.
Print Assumptions C56_scaled_partial.

(** Finding: if all nodes have the same coordinate they have no place; a component that consists of a single location always is such. *)
Theorem C56_single_refuted : forall cf px py root,
  (forall c d p, ~ spread px (node_count c) -> layout cf px py root c = Ok d -> In p (places d) -> fst p = None) /\
  exists c d, c_locs c <> [] /\ connected c /\ layout cf px py root c = Ok d /\ dr_locs d = [(None, None)].
Proof.
  intros cf px py root. split.
  - intros c d p N E H. rewrite (layout_places _ _ _ _ _ _ E) in H. apply in_map_iff in H. destruct H as (k & <- & Hk). apply in_seq in Hk. cbn [fst]. unfold normalize.
    rewrite (proj2 (Qeq_bool_iff _ _)); [reflexivity|]. rewrite (flat_same _ _ N) by lia. ring.
  - exists (mkComp "One" (mkDecls [] []) [mkL "L" None Loc.Initial "NORMAL"] [] None). eexists. split; [discriminate|]. split; [intros e []|]. split; [reflexivity|].
    cbn [dr_locs c_locs List.length seq map node_count c_edges flat_map Nat.add]. unfold normalize. cbn [least greatest].
    rewrite !(proj2 (Qeq_bool_iff _ _)) by ring. reflexivity.
Qed.
Print Assumptions C56_single_refuted.

(** A component with two locations and two edges; an edge with a guard and an update has three labels. *)
Definition ly_comp : component :=
  mkComp "M" (mkDecls [("x", 1%nat)] []) [mkL "L0" None Loc.Initial "NORMAL"; mkL "L1" None Loc.Normal "NORMAL"]
    [mkE "E0" "L0" "L1" SInput (Some (BGreatEQ (AVar "x") (AInt 1))) (Some [("x", AInt 0)]) "a"; mkE "E1" "L1" "L1" SOutput None None "b"] None.
Definition ly_px (k : nat) : Q := inject_Z (Z.of_nat k).
Definition ly_py (k : nat) : Q := inject_Z (Z.of_nat (k * k)).
Example C56_nonvacuous : connected ly_comp /\ node_count ly_comp = 7%nat /\ map nails (c_edges ly_comp) = [["GUARD"; "UPDATE"; "SYNCHRONIZATION"]; ["SYNCHRONIZATION"; "NONE"]] /\
  spread ly_px 7 /\ spread ly_py 7 /\ 0 <= cf_padding default_config /\ 1 <= cf_ratio default_config /\
  exists d, layout default_config ly_px ly_py (fun _ => 1) ly_comp = Ok d.
Proof.
  split; [apply connect_iff; vm_compute; reflexivity|]. split; [reflexivity|]. split; [reflexivity|].
  split; [exists 0%nat, 1%nat; split; [lia|split; [lia|discriminate]]|]. split; [exists 0%nat, 1%nat; split; [lia|split; [lia|discriminate]]|].
  split; [discriminate|]. split; [discriminate|]. eexists. reflexivity.
Qed.
(** An edge to a location that is not there. *)
Example C56_dangling : layout default_config ly_px ly_py (fun _ => 1) (mkComp "M" (mkDecls [] []) [mkL "L0" None Loc.Initial "NORMAL"] [mkE "E0" "L0" "L1" SInput None None "a"] None) = Panic.
Proof. reflexivity. Qed.
