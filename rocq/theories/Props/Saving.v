(** C31, C32: saving a system as one component. *)
From Coq Require Import List String Ascii ZArith QArith Bool Arith Lia Permutation.
From Verif Require Import Fed.Zone Fed.ZoneFacts Fed.Check Model.Base Model.Expr Model.Guard Model.Loc Model.Component Model.TS Model.Enable Model.Files Model.Save
  Spec.GuardSpec Spec.ConvSpec Spec.StepSpec Spec.SystemSpec Spec.RunSpec Spec.EnableSpec Spec.RefineSpec Spec.ReduceSpec Spec.IdSpec Spec.SaveSpec
  Proofs.GuardFacts Proofs.EnableFacts Proofs.RunFacts Proofs.ClockMapFacts Proofs.SaveFacts Proofs.SavedFacts Props.Examples Props.Enabling Props.Ids Props.Determinism.
Import ListNotations.
Local Open Scope string_scope.

(** ** C32 *)

(** Full statement: for all declarations and all orders the table has a name of its own for every clock.
    Proved when no clock is called like another one with a number appended; refuted without that. *)
Theorem C32_names_partial : forall cord parts, reorders cord -> (forall d, In d parts -> NoDup (map fst d)) -> no_numbered_names parts ->
  separate_names parts (clock_map_of cord parts).
Proof. intros cord parts Hc Hk Hn. apply clock_map_separate; auto. Qed.
Print Assumptions C32_names_partial.

Definition ex_parts : list (list (string * nat)) := [[("x", 1%nat); ("y", 2%nat)]; [("x", 3%nat); ("z", 4%nat)]; [("y", 5%nat); ("x", 6%nat)]].
Definition unnumbered (parts : list (list (string * nat))) : bool :=
  let names := map fst (List.concat parts) in
  forallb (fun x => forallb (fun y => negb (String.prefix x y) || String.eqb x y || negb (forallb (fun c => existsb (Ascii.eqb c) digit_chars)
    (list_ascii_of_string (String.substring (String.length x) (String.length y - String.length x) y)))) names) names.
Lemma substring_tail a : forall b, String.substring (String.length a) (String.length (a ++ b) - String.length a) (a ++ b) = b.
Proof.
  induction a as [|c a IH]; intros b; cbn [String.append String.length].
  - rewrite Nat.sub_0_r. induction b as [|c b IH]; [reflexivity|]. cbn. f_equal. exact IH.
  - cbn [String.substring Nat.sub]. apply IH.
Qed.
Lemma prefix_app a b : String.prefix a (a ++ b) = true.
Proof. induction a as [|c a IH]; [destruct b; reflexivity|]. cbn. destruct (Ascii.ascii_dec c c); [exact IH|congruence]. Qed.
Lemma app_shorter a b : b <> "" -> String.eqb a (a ++ b) = false.
Proof.
  intros N. apply String.eqb_neq. intros E. apply N. apply (f_equal list_ascii_of_string) in E.
  assert (A : forall u w, list_ascii_of_string (u ++ w) = (list_ascii_of_string u ++ list_ascii_of_string w)%list) by (clear; induction u as [|c u IH]; intros w; cbn; [|f_equal]; auto).
  rewrite A in E. rewrite <- (app_nil_r (list_ascii_of_string a)) in E at 1. apply app_inv_head in E. destruct b; [reflexivity|discriminate].
Qed.
Lemma unnumbered_spec parts : unnumbered parts = true -> no_numbered_names parts.
Proof.
  intros H k x i k' x' i' n (d & Hd & Hx) (d' & Hd' & Hx') [N D] ->. unfold unnumbered in H. rewrite forallb_forall in H.
  assert (I1 : In x (map fst (List.concat parts))) by (apply in_map_iff; exists (x, i); split; [reflexivity|]; apply in_concat; exists d; split; [eapply nth_error_In; eauto|exact Hx]).
  assert (I2 : In (x ++ n) (map fst (List.concat parts))) by (apply in_map_iff; exists (x ++ n, i'); split; [reflexivity|]; apply in_concat; exists d'; split; [eapply nth_error_In; eauto|exact Hx']).
  specialize (H _ I1). rewrite forallb_forall in H. specialize (H _ I2). rewrite prefix_app, app_shorter, substring_tail in H by exact N. cbn [negb orb] in H. apply negb_true_iff in H.
  assert (X : forallb (fun c => existsb (Ascii.eqb c) digit_chars) (list_ascii_of_string n) = true).
  { apply forallb_forall. intros c Hc. apply existsb_exists. exists c. split; [apply D; exact Hc|apply Ascii.eqb_refl]. } congruence.
Qed.
Fixpoint nodupb (l : list string) : bool := match l with [] => true | x :: l' => negb (existsb (String.eqb x) l') && nodupb l' end.
Lemma nodupb_spec l : nodupb l = true -> NoDup l.
Proof.
  induction l as [|x l IH]; cbn [nodupb]; intros H; [constructor|]. apply andb_true_iff in H. destruct H as [H1 H2]. constructor; [|auto].
  intros C. apply negb_true_iff in H1. assert (X : existsb (String.eqb x) l = true) by (apply existsb_exists; exists x; split; [exact C|apply String.eqb_refl]). congruence.
Qed.

Example C32_nonvacuous : (forall d, In d ex_parts -> NoDup (map fst d)) /\ no_numbered_names ex_parts /\ reorders (@rev (string * nat)) /\
  clock_map_of (fun d => d) ex_parts = [("x", 1%nat); ("y", 2%nat); ("x1", 3%nat); ("z", 4%nat); ("y2", 5%nat); ("x2", 6%nat)].
Proof.
  split; [intros d Hd; apply nodupb_spec; revert d Hd; apply Forall_forall; repeat constructor|].
  split; [apply unnumbered_spec; vm_compute; reflexivity|]. split; [intros l; apply Permutation_sym, Permutation_rev|]. vm_compute. reflexivity.
Qed.

(** With clocks x and x1 in the first part and x in the second, the clock x1 of the first part is lost. *)
Definition lost_parts : list (list (string * nat)) := [[("x", 1%nat); ("x1", 2%nat)]; [("x", 3%nat)]].
Theorem C32_collision_refuted : exists parts, (forall d, In d parts -> NoDup (map fst d)) /\
  forall cord, reorders cord -> exists k x i, clock_of parts k x i /\ forall n, ~ In (n, i) (clock_map_of cord parts).
Proof.
  exists lost_parts. split; [intros d Hd; apply nodupb_spec; revert d Hd; apply Forall_forall; repeat constructor|].
  intros cord Hc. exists 0%nat, "x1", 2%nat. split; [exists [("x", 1%nat); ("x1", 2%nat)]; split; [reflexivity|right; left; reflexivity]|].
  assert (E2 : cord [("x", 3%nat)] = [("x", 3%nat)]) by (apply Permutation_length_1_inv, Permutation_sym, Hc).
  assert (E1 : cord [("x", 1%nat); ("x1", 2%nat)] = [("x", 1%nat); ("x1", 2%nat)] \/ cord [("x", 1%nat); ("x1", 2%nat)] = [("x1", 2%nat); ("x", 1%nat)]).
  { apply Permutation_length_2_inv, Permutation_sym, Hc. }
  intros n Hn. unfold clock_map_of, lost_parts in Hn. cbn [name_clocks] in Hn. rewrite E2 in Hn. destruct E1 as [E1|E1]; rewrite E1 in Hn; vm_compute in Hn; intuition congruence.
Qed.
Print Assumptions C32_collision_refuted.

(** ** C31 *)

(** Full statement: for every system.  Proved for systems whose location names can be told apart when put
    together and whose clock names when numbered; refuted without either of these. *)
Theorem C31_component_partial : forall dim minc ord cord s fuel st,
  saveable dim s -> describes dim minc -> same_elements ord -> reorders cord -> (List.length (all_locations dim s) <= fuel)%nat ->
  exists ls c, combine_components dim minc ord cord fuel s st = Ok c /\
    (forall l, In l ls <-> to_save dim s st l) /\ saved_as dim s ls c.
Proof.
  intros dim minc ord cord s fuel st Sv Hm Ho Hc Hf. destruct (combine_saved dim minc ord cord s Sv Hm Ho Hc fuel st Hf) as (ls & c & E & _ & Hls & G).
  exists ls, c. split; [exact E|]. split; [exact Hls|]. apply G.
Qed.
Print Assumptions C31_component_partial.

(** Read back with the actions of the system, the saved component behaves like the system. *)
Theorem C31_behaviour_partial : forall dim minc ord cord s fuel name id,
  saveable dim s -> io_disjoint s -> single_initials s -> describes dim minc -> same_elements ord -> reorders cord -> (List.length (all_locations dim s) <= fuel)%nat ->
  exists ls c cc, get_component dim minc ord cord fuel s name = Ok c /\ c_name c = name /\
    (forall l, In l ls <-> edge_reach dim s l) /\ saved_as dim s ls c /\
    compile_with_actions dim c (ts_inputs s) (ts_outputs s) id = Ok cc /\ behaves_as dim s ls (TSimple cc).
Proof.
  intros dim minc ord cord s fuel name id Sv Io Si Hm Ho Hc Hf. destruct (combine_saved dim minc ord cord s Sv Hm Ho Hc fuel Reachable Hf) as (ls & c & E & _ & Hls & G).
  apply (good_remade dim cord s ls c name 0) in G. unfold get_component. rewrite E. cbn [bind].
  assert (Gcl : forall l a t, In l ls -> offered dim s l a t -> In (t_target t) ls) by (intros l a t Hl Hof; apply Hls; eapply chosen_closed; [exact Sv|apply Hls; exact Hl|exact Hof]).
  assert (Gin : forall l, In l ls -> In l (all_locations dim s)) by (intros l Hl; apply (chosen_in dim s Sv Reachable); apply Hls; exact Hl).
  assert (Gi : forall l, initial_location dim s = Some l -> In l ls) by (intros l El; apply Hls; apply er_init; exact El).
  destruct (comp_compiles dim cord s ls _ G Gcl Io (ts_inputs s) (ts_outputs s) (fun a => iff_refl _) (fun a => iff_refl _) id) as (cc & Ecc).
  eexists ls, _, cc. split; [reflexivity|]. split; [reflexivity|]. split; [exact Hls|]. split; [apply G|]. split; [exact Ecc|].
  exact (saved_behaviour dim cord s Sv ls _ G Gin Gcl Gi Si _ _ (fun a => iff_refl _) (fun a => iff_refl _) id cc Ecc).
Qed.
Print Assumptions C31_behaviour_partial.

(** Read back with its own actions (as a loaded component is), provided every action is used. *)
Theorem C31_reloaded_partial : forall dim minc ord cord s fuel name id,
  saveable dim s -> io_disjoint s -> single_initials s -> actions_used dim s ->
  describes dim minc -> same_elements ord -> reorders cord -> (List.length (all_locations dim s) <= fuel)%nat ->
  exists ls c cc, get_component dim minc ord cord fuel s name = Ok c /\ (forall l, In l ls <-> edge_reach dim s l) /\
    compile_component dim c id = Ok cc /\ behaves_as dim s ls (TSimple cc) /\
    (forall l v, reachable dim s l v -> exists l', reachable dim (TSimple cc) l' v /\ lt_id l' = LSimple (id_string (lt_id l))) /\
    (forall l' v, reachable dim (TSimple cc) l' v -> exists l, reachable dim s l v /\ lt_id l' = LSimple (id_string (lt_id l))).
Proof.
  intros dim minc ord cord s fuel name id Sv Io Si Us Hm Ho Hc Hf. destruct (combine_saved dim minc ord cord s Sv Hm Ho Hc fuel Reachable Hf) as (ls & c & E & _ & Hls & G).
  apply (good_remade dim cord s ls c name 0) in G. unfold get_component. rewrite E. cbn [bind].
  assert (Gcl : forall l a t, In l ls -> offered dim s l a t -> In (t_target t) ls) by (intros l a t Hl Hof; apply Hls; eapply chosen_closed; [exact Sv|apply Hls; exact Hl|exact Hof]).
  assert (Gin : forall l, In l ls -> In l (all_locations dim s)) by (intros l Hl; apply (chosen_in dim s Sv Reachable); apply Hls; exact Hl).
  assert (Gi : forall l, initial_location dim s = Some l -> In l ls) by (intros l El; apply Hls; apply er_init; exact El).
  destruct (saved_own_actions dim s ls _ (gc_saved _ _ _ _ _ G)) as [Ai Ao].
  { intros a ty Os. destruct (Us a) as (N & l & t & Hl & Hof & Hs); [destruct ty; [left|right]; exact Os|]. split; [exact N|]. exists l, t. split; [apply Hls; exact Hl|]. auto. }
  destruct (comp_compiles dim cord s ls _ G Gcl Io _ _ Ai Ao id) as (cc & Ecc).
  pose proof (saved_behaviour dim cord s Sv ls _ G Gin Gcl Gi Si _ _ Ai Ao id cc Ecc) as B.
  eexists ls, _, cc. split; [reflexivity|]. split; [exact Hls|]. split; [exact Ecc|]. split; [exact B|].
  destruct (behaves_reach _ _ _ _ B) as [R1 R2]. split; intros l v H.
  - destruct (R1 l v H) as (l' & H' & St). exists l'. split; [exact H'|apply St].
  - destruct (R2 l v H) as (l' & H' & St). exists l'. split; [exact H'|apply St].
Qed.
Print Assumptions C31_reloaded_partial.

(** The quotient of two machines that both call their clock x. *)
Lemma plain_by n : forallb (fun c => negb (existsb (Ascii.eqb c) marks)) (list_ascii_of_string n) && negb (String.eqb n "_") = true -> plain_name n.
Proof.
  intros H. apply andb_true_iff in H. destruct H as [H1 H2]. split; [|intros ->; discriminate]. intros c Hc Hm. rewrite forallb_forall in H1. specialize (H1 c Hc).
  apply negb_true_iff in H1. assert (X : existsb (Ascii.eqb c) marks = true) by (apply existsb_exists; exists c; split; [exact Hm|apply Ascii.eqb_refl]). congruence.
Qed.
Lemma saveable_quot : saveable ex_dim ts_quot.
Proof.
  split.
  - exact built_quot.
  - split; [exact reads_m|exact reads_m2].
  - exists 3%nat. exact clocks_quot.
  - intros i. split; [intros H; vm_compute in H; destruct H as [<-|[<-|[<-|[]]]]; vm_compute; lia|]. intros H. unfold ex_dim in H.
    assert (E : i = 1%nat \/ i = 2%nat \/ i = 3%nat) by lia. destruct E as [-> | [-> | ->]]; vm_compute; auto 6.
  - split; intros l Hl; vm_compute in Hl; destruct Hl as [<-|[<-|[]]]; apply plain_by; reflexivity.
  - apply Forall_forall. repeat constructor; intros [].
  - apply unnumbered_spec. vm_compute. reflexivity.
Qed.
Definition universal_step : transition := match next_transitions ex_dim ts_quot lt_universal "i" with Ok (t :: _) => t | _ => t_without_id lt_any end.
Definition to_universal : transition := nth 0 (get [] (next_transitions ex_dim ts_quot (nth 0 (all_locations ex_dim ts_quot) lt_any) "o")) (t_without_id lt_any).
Example C31_nonvacuous : saveable ex_dim ts_quot /\ io_disjoint ts_quot /\ single_initials ts_quot /\ actions_used ex_dim ts_quot /\ describes ex_dim (min_desc ex_dim) /\
  same_elements (fun l : list string => l) /\ reorders (fun l : list (string * nat) => l) /\ List.length (all_locations ex_dim ts_quot) = 6%nat /\
  option_map (fun c => (d_clocks (c_decls c), map l_id (c_locs c), List.length (c_edges c), nth_error (c_edges c) 3))
    (match get_component ex_dim (min_desc ex_dim) (fun l => l) (fun l => l) 6 ts_quot "Q" with Ok c => Some c | _ => None end) =
  Some ([("x", 1%nat); ("x1", 2%nat); ("quotient_xnew", 3%nat)], ["L0\\L0"; "L1\\L1"; "[Universal]"; "[Error]"], 14%nat,
    Some (mkE "E3" "L1\\L1" "L0\\L0" SInput
      (Some (BAnd (BAnd (BAnd (BGreatEQ (AVar "x") (AInt 2)) (BLessEQ (AVar "x") (AInt 5))) (BGreatEQ (AVar "x1") (AInt 2))) (BLessEQ (AVar "x1") (AInt 5)))) None "o")).
Proof.
  split; [exact saveable_quot|]. split; [intros a _ Ha; vm_compute in Ha; exact Ha|].
  split; [split; intros a b Ha Hb Ta Tb; vm_compute in Ha, Hb; destruct Ha as [<-|[<-|[]]], Hb as [<-|[<-|[]]]; try reflexivity; discriminate|].
  split.
  { assert (U : edge_reach ex_dim ts_quot lt_universal).
    { change lt_universal with (t_target to_universal). apply (er_step ex_dim ts_quot (nth 0 (all_locations ex_dim ts_quot) lt_any) "o").
      - apply er_init. vm_compute. reflexivity.
      - split; [left; vm_compute; tauto|]. eexists. split; [vm_compute; reflexivity|]. vm_compute. tauto. }
    intros a Ha. assert (Ea : a = "i" \/ a = "o" \/ a = "quotient_new_input0") by (unfold is_action, is_input, is_output in Ha; vm_compute in Ha; intuition congruence).
    split; [intros ->; destruct Ea as [E|[E|E]]; discriminate|]. exists lt_universal, universal_step. split; [exact U|]. split.
    - split; [exact Ha|]. destruct Ea as [-> | [-> | ->]]; (eexists; split; [vm_compute; reflexivity|]; vm_compute; tauto).
    - apply fempty_false. vm_compute. reflexivity. }
  split; [apply min_desc_describes; vm_compute; lia|]. split; [intros l x; reflexivity|]. split; [intros l; reflexivity|]. split; vm_compute; reflexivity.
Qed.

(** Clocks x, x1 in one part and x in the other: the guard on x1 cannot be written and saving aborts. *)
Definition lost_1 : component := mkComp "P" (mkDecls [("x", 1%nat); ("x1", 2%nat)] []) [mkL "A" None Initial "NORMAL"]
  [mkE "E1" "A" "A" SOutput (Some (BGreatEQ (AVar "x1") (AInt 2))) None "go"] None.
Definition lost_2 : component := mkComp "R" (mkDecls [("x", 3%nat)] []) [mkL "B" None Initial "NORMAL"] [] None.
Definition lost_l := TSimple (get no_cc (compile_component 4 lost_1 1)).
Definition lost_r := TSimple (get no_cc (compile_component 4 lost_2 2)).
Definition lost_ts : ts := get lost_l (composition_new lost_l lost_r).
Lemma built_lost : built 4 lost_ts.
Proof.
  apply (b_comp 4 lost_l lost_r).
  - apply (b_simple 4 lost_1 [] ["go"] 1). vm_compute. reflexivity.
  - apply (b_simple 4 lost_2 [] [] 2). vm_compute. reflexivity.
  - vm_compute. reflexivity.
Qed.
Theorem C31_clocks_refuted : exists dim s minc, built dim s /\ reads_ok s /\ (exists q, clocks_ok dim q s) /\ (forall i, In i (sys_clocks s) <-> (0 < i < dim)%nat) /\
  plain_names s /\ (forall d, In d (ts_decls s) -> NoDup (map fst d)) /\ describes dim minc /\
  combine_components dim minc (fun l => l) (fun l => l) (List.length (all_locations dim s)) s NoPruning = Panic.
Proof.
  exists 4%nat, lost_ts, (min_desc 4). split; [exact built_lost|]. split; [split; apply simple_readsb_spec; vm_compute; reflexivity|].
  split; [exists 0%nat; split; [apply simple_clocks_okb_spec; vm_compute; reflexivity|]; split; [apply simple_clocks_okb_spec; vm_compute; reflexivity|]; vm_compute; intros x; intuition congruence|].
  split; [intros i; split; [intros H; vm_compute in H; destruct H as [<-|[<-|[<-|[]]]]; lia|]; intros H; assert (E : i = 1%nat \/ i = 2%nat \/ i = 3%nat) by lia; destruct E as [-> | [-> | ->]]; vm_compute; auto 6|].
  split; [split; intros l Hl; vm_compute in Hl; destruct Hl as [<-|[]]; apply plain_by; reflexivity|].
  split; [intros d Hd; apply nodupb_spec; revert d Hd; apply Forall_forall; repeat constructor|].
  split; [apply min_desc_describes; lia|]. vm_compute. reflexivity.
Qed.
Print Assumptions C31_clocks_refuted.

(** Locations (a, b||c) and (a||b, c) get one name: the saved component cannot be read back. *)
Definition joined_1 : component := mkComp "P" (mkDecls [] []) [mkL "a" None Initial "NORMAL"; mkL "a||b" None Normal "NORMAL"] [mkE "E1" "a" "a||b" SOutput None None "go"] None.
Definition joined_2 : component := mkComp "R" (mkDecls [] []) [mkL "b||c" None Initial "NORMAL"; mkL "c" None Normal "NORMAL"] [mkE "E1" "b||c" "c" SOutput None None "run"] None.
Definition joined_l := TSimple (get no_cc (compile_component 1 joined_1 1)).
Definition joined_r := TSimple (get no_cc (compile_component 1 joined_2 2)).
Definition joined_ts : ts := get joined_l (composition_new joined_l joined_r).
Lemma built_joined : built 1 joined_ts.
Proof.
  apply (b_comp 1 joined_l joined_r).
  - apply (b_simple 1 joined_1 [] ["go"] 1). vm_compute. reflexivity.
  - apply (b_simple 1 joined_2 [] ["run"] 2). vm_compute. reflexivity.
  - vm_compute. reflexivity.
Qed.
Theorem C31_locations_refuted : exists dim s minc c, built dim s /\ reads_ok s /\ (exists q, clocks_ok dim q s) /\ (forall i, In i (sys_clocks s) <-> (0 < i < dim)%nat) /\
  (forall d, In d (ts_decls s) -> NoDup (map fst d)) /\ no_numbered_names (ts_decls s) /\ describes dim minc /\
  get_component dim minc (fun l => l) (fun l => l) (List.length (all_locations dim s)) s "S" = Ok c /\
  ~ NoDup (map l_id (c_locs c)) /\ compile_component dim c 0 = Panic.
Proof.
  exists 1%nat, joined_ts, (min_desc 1). eexists. split; [exact built_joined|]. split; [split; apply simple_readsb_spec; vm_compute; reflexivity|].
  split; [exists 0%nat; split; [apply simple_clocks_okb_spec; vm_compute; reflexivity|]; split; [apply simple_clocks_okb_spec; vm_compute; reflexivity|]; vm_compute; intros x; tauto|].
  split; [intros i; split; [intros H; vm_compute in H; contradiction|lia]|].
  split; [intros d Hd; apply nodupb_spec; revert d Hd; apply Forall_forall; repeat constructor|]. split; [apply unnumbered_spec; vm_compute; reflexivity|].
  split; [apply min_desc_describes; lia|]. split; [vm_compute; reflexivity|]. split.
  - intros N. cbn in N. repeat (match type of N with NoDup (_ :: _) => inversion N as [|? ? N1 N2]; subst; clear N; rename N2 into N; try (apply N1; cbn; tauto) end). 
  - vm_compute. reflexivity.
Qed.
Print Assumptions C31_locations_refuted.

(** An action that occurs only on a location that is not reached is no action of the saved component. *)
Definition idle_comp : component := mkComp "I" (mkDecls [] []) [mkL "A" None Initial "NORMAL"; mkL "U" None Normal "NORMAL"] [mkE "E1" "U" "U" SInput None None "z"] None.
Definition idle_ts : ts := TSimple (get no_cc (compile_component 1 idle_comp 1)).
Theorem C31_actions_refuted : exists dim s minc c cc, saveable dim s /\ io_disjoint s /\ single_initials s /\ describes dim minc /\
  get_component dim minc (fun l => l) (fun l => l) (List.length (all_locations dim s)) s "S" = Ok c /\ compile_component dim c 0 = Ok cc /\
  is_input s "z" /\ ~ is_input (TSimple cc) "z".
Proof.
  exists 1%nat, idle_ts, (min_desc 1). eexists _, _. split.
  { split.
    - apply (b_simple 1 idle_comp ["z"] [] 1). vm_compute. reflexivity.
    - apply simple_readsb_spec. vm_compute. reflexivity.
    - exists 0%nat. apply simple_clocks_okb_spec. vm_compute. reflexivity.
    - intros i. split; [intros H; vm_compute in H; contradiction|lia].
    - intros l Hl. vm_compute in Hl. destruct Hl as [<-|[<-|[]]]; apply plain_by; reflexivity.
    - intros d Hd. apply nodupb_spec. revert d Hd. apply Forall_forall. repeat constructor.
    - apply unnumbered_spec. vm_compute. reflexivity. }
  split; [intros a _ Ha; vm_compute in Ha; exact Ha|].
  split; [intros a b Ha Hb Ta Tb; vm_compute in Ha, Hb; destruct Ha as [<-|[<-|[]]], Hb as [<-|[<-|[]]]; try reflexivity; discriminate|].
  split; [apply min_desc_describes; lia|]. split; [vm_compute; reflexivity|]. split; [vm_compute; reflexivity|]. split; [vm_compute; tauto|]. vm_compute. tauto.
Qed.
Print Assumptions C31_actions_refuted.
