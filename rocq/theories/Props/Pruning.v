(** C37, C48: pruning. *)
From Coq Require Import List String Ascii ZArith QArith Bool Arith Lia Lqa Permutation.
From Verif Require Import Fed.Zone Fed.ZoneFacts Fed.Check Model.Base Model.Expr Model.Guard Model.Loc Model.Component Model.TS Model.Enable Model.Files Model.Search Model.Save Model.Recipe Model.Prune
  Spec.GuardSpec Spec.ConvSpec Spec.StepSpec Spec.SystemSpec Spec.RunSpec Spec.EnableSpec Spec.RefineSpec Spec.ReduceSpec Spec.IdSpec Spec.SaveSpec Spec.PruneSpec
  Proofs.GuardFacts Proofs.SystemFacts Proofs.WfFacts Proofs.EnableFacts Proofs.RunFacts Proofs.SameFacts Proofs.ClockMapFacts Proofs.SaveFacts Proofs.SavedFacts Proofs.PruneFacts Proofs.ConsistentFacts Proofs.EnteredFacts
  Props.Examples Props.Enabling Props.Ids Props.Determinism Props.Saving.
Import ListNotations.
Local Open Scope string_scope.

(** ** C37 *)

(** Full statement: pruning keeps all consistent states and the transitions between them.  Proved for components
    in which locations with an input towards an inconsistent location have no outputs; refuted otherwise (below). *)
Theorem C37_consistent_partial : forall c minc predt fuel ins outs cc,
  plain_component c -> sane_updates (comp_dim c) c -> clocks_numbered (c_decls c) -> describes (comp_dim c) minc -> timed_pred (comp_dim c) predt -> bad_inputs_alone c ->
  prune (comp_dim c) minc predt c fuel ins outs = Ok cc ->
  exists c', compile_with_actions (comp_dim c) c' ins outs 0 = Ok cc /\ keeps_consistent (comp_dim c) c c'.
Proof.
  intros c minc predt fuel ins outs cc Hp Hs Hn Hm Ht Hb E. unfold prune in E. inv_bind E. exists a. split; [exact E|].
  exact (pruned_sound _ minc predt c Hp Hs Hn eq_refl Hm Ht Hb fuel a H).
Qed.
Print Assumptions C37_consistent_partial.

(** Whatever the component: locations from which no inconsistent location can be reached along edges stay as
    they are, and so do the edges into them, in their order. *)
Theorem C37_untouched_partial : forall dim minc predt c fuel ins outs cc,
  prune dim minc predt c fuel ins outs = Ok cc ->
  exists c', compile_with_actions dim c' ins outs 0 = Ok cc /\ c_decls c' = c_decls c /\
    Forall2 (fun l l' => l_id l' = l_id l /\ l_type l' = l_type l /\ l_urgency l' = l_urgency l /\ (~ can_fail c (l_id l) -> l' = l)) (c_locs c) (c_locs c') /\
    (forall e', In e' (c_edges c') -> exists e, In e (c_edges c) /\ same_but_guard e e') /\
    (forall b : string -> bool, (forall n, b n = true -> ~ can_fail c n) ->
       filter (fun e => b (e_tgt e)) (c_edges c') = filter (fun e => b (e_tgt e)) (c_edges c)).
Proof.
  intros dim minc predt c fuel ins outs cc E. unfold prune in E. inv_bind E. exists a. split; [exact E|].
  destruct (pruned_untouched _ _ _ _ _ _ H) as (_ & A & B & C & D). auto.
Qed.
Print Assumptions C37_untouched_partial.

(** A whole system, pruned at its own dimension, behaves as before. *)
Theorem C37_system_partial : forall dim minc predt ext sord ord cord fuel s,
  saveable dim s -> io_disjoint s -> single_initials s -> describes dim minc -> same_elements ord -> reorders cord -> (List.length (all_locations dim s) < fuel)%nat ->
  precheck dim ext sord fuel s = Ok true ->
  exists ls cc, prune_system dim dim minc predt ext sord ord cord fuel s = Ok cc /\
    (forall l, In l ls <-> In l (all_locations dim s)) /\ behaves_as dim s ls (TSimple cc).
Proof.
  intros dim minc predt ext sord ord cord fuel s Sv Io Si Hm Ho Hc Hf Hpre.
  destruct (combine_saved dim minc ord cord s Sv Hm Ho Hc fuel NoPruning ltac:(lia)) as (ls & c & E & _ & Hls & G).
  assert (Gcl : forall l a t, In l ls -> offered dim s l a t -> In (t_target t) ls) by (intros l a t Hl Hof; apply Hls; eapply chosen_closed; [exact Sv|apply Hls; exact Hl|exact Hof]).
  assert (Gin : forall l, In l ls -> In l (all_locations dim s)) by (intros l Hl; apply (chosen_in dim s Sv NoPruning); apply Hls; exact Hl).
  assert (Gi : forall l, initial_location dim s = Some l -> In l ls) by (intros l El; apply Hls; exact (initial_wf dim s (sv_built _ _ Sv) l El)).
  destruct (comp_compiles dim cord s ls _ G Gcl Io (ts_inputs s) (ts_outputs s) (fun a => iff_refl _) (fun a => iff_refl _) 0) as (cc & Ecc).
  exists ls, cc. unfold prune_system. rewrite Hpre. cbn [bind negb]. rewrite E. cbn [bind]. split; [|split; [exact Hls|]].
  - unfold prune. destruct fuel as [|f]; [lia|]. rewrite pruned_nothing.
    + cbn [bind]. rewrite Ecc. reflexivity.
    + apply (not_inconsistent dim minc ord cord (S f) s NoPruning c E).
    + intros l Hl. destruct (compile_inv _ _ _ _ _ _ Ecc) as (us & es & El & _). destruct (mapM_in _ _ _ El) as [M _]. destruct (M l Hl) as (t & _ & Et). eauto.
  - exact (saved_behaviour dim cord s Sv ls _ G Gin Gcl Gi Si _ _ (fun a => iff_refl _) (fun a => iff_refl _) 0 cc Ecc).
Qed.
Print Assumptions C37_system_partial.

(** *** Cases that meet the conditions *)
Lemma down_timed dim : (0 < dim)%nat -> timed_pred dim (fun f _ => fdown f).
Proof.
  intros Hd. split.
  - intros f _ Hf _ v w Hv Hw A H. apply fdown_sem in H. destruct H as (Hv' & t & Ht & H). apply fdown_sem. split; [exact Hw|]. exists t. split; [exact Ht|].
    apply (Hf (vdelay v t)); [apply vdelay_ok; assumption|apply vdelay_ok; assumption| |exact H].
    intros i Hi. unfold vdelay. destruct (Nat.eqb i 0); [apply A; exact Hd|]. rewrite (A i Hi). reflexivity.
  - intros f g v H. apply fdown_sem in H. destruct H as (_ & t & Ht & H). exists t. auto.
Qed.

(** A, with invariant x<=5, can leave for I from x>=4 and for B any time; in B input i leads to I while x<=1. *)
Definition safe_comp : component := mkComp "S" (mkDecls [("x", 1%nat)] [])
  [mkL "A" (Some (BLessEQ (AVar "x") (AInt 5))) Initial "NORMAL"; mkL "B" None Normal "NORMAL"; mkL "I" None Inconsistent "NORMAL"]
  [mkE "E0" "A" "I" SOutput (Some (BGreatEQ (AVar "x") (AInt 4))) None "o";
   mkE "E1" "A" "B" SOutput None None "p";
   mkE "E2" "B" "I" SInput (Some (BLessEQ (AVar "x") (AInt 1))) None "i"] None.
(** In A output o is possible up to x=2, and input i leads to I from x>=3. *)
Definition saved_comp : component := mkComp "S" (mkDecls [("x", 1%nat)] [])
  [mkL "A" None Initial "NORMAL"; mkL "C" None Normal "NORMAL"; mkL "I" None Inconsistent "NORMAL"]
  [mkE "E0" "A" "I" SInput (Some (BGreatEQ (AVar "x") (AInt 3))) None "i";
   mkE "E1" "A" "C" SOutput (Some (BLessEQ (AVar "x") (AInt 2))) None "o"] None.
Lemma x_numbered : clocks_numbered (mkDecls [("x", 1%nat)] []).
Proof. split; [|split]; [repeat constructor; intros []|repeat constructor; intros []|]. intros x i [E|[]]. injection E as <- <-. cbn. lia. Qed.
Lemma no_resets_sane dim c : (forall e, In e (c_edges c) -> e_update e = None) -> sane_updates dim c.
Proof.
  intros H e us He E. unfold updates_of in E. rewrite (H e He) in E. injection E as <-. split; [intros u []|]. intros u w [].
Qed.
Lemma safe_ok : plain_component safe_comp /\ sane_updates 2 safe_comp /\ clocks_numbered (c_decls safe_comp) /\ bad_inputs_alone safe_comp.
Proof.
  split; [|split; [|split]].
  - split; [intros l g Hl E; destruct Hl as [<-|[<-|[<-|[]]]]|intros e g He E; destruct He as [<-|[<-|[<-|[]]]]]; cbn in E; try discriminate; injection E as <-; split; reflexivity.
  - apply no_resets_sane. intros e [<-|[<-|[<-|[]]]]; reflexivity.
  - exact x_numbered.
  - intros e o He Ho Te _ Es. destruct He as [<-|[<-|[<-|[]]]]; try discriminate. destruct Ho as [<-|[<-|[<-|[]]]]; try discriminate. reflexivity.
Qed.
Lemma saved_ok : plain_component saved_comp /\ sane_updates 2 saved_comp /\ clocks_numbered (c_decls saved_comp).
Proof.
  split; [|split].
  - split; [intros l g Hl E; destruct Hl as [<-|[<-|[<-|[]]]]|intros e g He E; destruct He as [<-|[<-|[]]]]; cbn in E; try discriminate; injection E as <-; split; reflexivity.
  - apply no_resets_sane. intros e [<-|[<-|[]]]; reflexivity.
  - exact x_numbered.
Qed.

Lemma x_le v k : bsat (mkDecls [("x", 1%nat)] []) v (BLessEQ (AVar "x") (AInt k)) <-> (v 1%nat <= inject_Z k)%Q.
Proof. cbn. unfold cmp. cbn. split; [intros (a & b & E1 & E2 & H); injection E1 as <-; injection E2 as <-; exact H|]. intros H. do 2 eexists. split; [reflexivity|]. split; [reflexivity|exact H]. Qed.
Lemma x_ge v k : bsat (mkDecls [("x", 1%nat)] []) v (BGreatEQ (AVar "x") (AInt k)) <-> (inject_Z k <= v 1%nat)%Q.
Proof. cbn. unfold cmp. cbn. split; [intros (a & b & E1 & E2 & H); injection E1 as <-; injection E2 as <-; exact H|]. intros H. do 2 eexists. split; [reflexivity|]. split; [reflexivity|exact H]. Qed.
Definition safe_states (n : string) (v : val) : Prop := val_ok 2 v /\ (n = "A" /\ (v 1%nat <= 5)%Q \/ n = "B" /\ (1 < v 1%nat)%Q).
Lemma safe_goes : goes_on 2 safe_comp safe_states.
Proof.
  assert (LA : forall l, the_location safe_comp "A" l -> l = mkL "A" (Some (BLessEQ (AVar "x") (AInt 5))) Initial "NORMAL").
  { intros l (H & E & _). destruct H as [<-|[<-|[<-|[]]]]; try discriminate. reflexivity. }
  assert (LB : forall l, the_location safe_comp "B" l -> l_inv l = None).
  { intros l (H & E & _). destruct H as [<-|[<-|[<-|[]]]]; try discriminate. reflexivity. }
  split.
  - intros n v (Hv & [[-> H]|[-> H]]); (split; [exact Hv|]).
    + exists (mkL "A" (Some (BLessEQ (AVar "x") (AInt 5))) Initial "NORMAL"). split; [|split; [discriminate|apply x_le; exact H]].
      split; [left; reflexivity|]. split; [reflexivity|]. intros l' [<-|[<-|[<-|[]]]] E; try discriminate. reflexivity.
    + exists (mkL "B" None Normal "NORMAL"). split; [|split; [discriminate|exact I]].
      split; [right; left; reflexivity|]. split; [reflexivity|]. intros l' [<-|[<-|[<-|[]]]] E; try discriminate. reflexivity.
  - intros n v t (Hv & [[-> H]|[-> H]]) Ht.
    + destruct (Qlt_le_dec 5 (v 1%nat + t)) as [L|L].
      * left. exists (5 - v 1%nat)%Q. split; [lra|]. split.
        { intros l Hl. rewrite (LA l Hl). cbn [l_inv osat]. apply x_le. rewrite vdelay_S by discriminate. change (inject_Z 5) with 5%Q. lra. }
        exists (mkE "E1" "A" "B" SOutput None None "p"), []. split; [right; left; reflexivity|]. split; [reflexivity|]. split; [reflexivity|]. split; [exact I|]. split; [reflexivity|].
        cbn [run_updates fold_left e_tgt]. split; [apply vdelay_ok; [exact Hv|lra]|]. right. split; [reflexivity|]. rewrite vdelay_S by discriminate. lra.
      * right. split; [intros l Hl; rewrite (LA l Hl); cbn [l_inv osat]; apply x_le; rewrite vdelay_S by discriminate; exact L|].
        intros e us He Te Es _ _. destruct He as [<-|[<-|[<-|[]]]]; discriminate.
    + right. split; [intros l Hl; rewrite (LB l Hl); exact I|].
      intros e us He Te Es (G & _) _. destruct He as [<-|[<-|[<-|[]]]]; try discriminate. cbn [e_guard osat] in G. apply x_le in G. rewrite vdelay_S in G by discriminate.
      change (inject_Z 1) with 1%Q in G. lra.
Qed.
Example C37_nonvacuous : plain_component safe_comp /\ sane_updates (comp_dim safe_comp) safe_comp /\ clocks_numbered (c_decls safe_comp) /\ bad_inputs_alone safe_comp /\
  describes 2 (min_desc 2) /\ timed_pred 2 (fun f _ => fdown f) /\ consistent 2 safe_comp "A" zero_val /\ can_fail safe_comp "A" /\
  match pruned 2 (min_desc 2) (fun f _ => fdown f) safe_comp 10 with
  | Ok c => map l_inv (c_locs c) = [Some (BLessEQ (AVar "x") (AInt 5)); Some (BGreatT (AVar "x") (AInt 1)); Some (BBool false)] /\
            c_edges c = [mkE "E1" "A" "B" SOutput (Some (BGreatT (AVar "x") (AInt 1))) None "p"]
  | _ => False end /\
  exists cc, prune (comp_dim safe_comp) (min_desc 2) (fun f _ => fdown f) safe_comp 10 ["i"] ["o"; "p"] = Ok cc.
Proof.
  destruct safe_ok as (A & B & C & D). repeat (split; [assumption|]). split; [apply min_desc_describes; lia|]. split; [apply down_timed; lia|].
  split; [exists safe_states; split; [exact safe_goes|]; split; [split; [reflexivity|intros i Hi; apply Qle_refl]|left; split; [reflexivity|discriminate]]|].
  split; [apply (cf_edge safe_comp (mkE "E0" "A" "I" SOutput (Some (BGreatEQ (AVar "x") (AInt 4))) None "o")); [left; reflexivity|]; apply (cf_here safe_comp (mkL "I" None Inconsistent "NORMAL")); [right; right; left; reflexivity|reflexivity]|].
  split; [vm_compute; split; reflexivity|]. eexists. vm_compute. reflexivity.
Qed.

(** The quotient of two machines passes the check; all six locations stay. *)
Example C37_system_nonvacuous : saveable ex_dim ts_quot /\ io_disjoint ts_quot /\ single_initials ts_quot /\ (List.length (all_locations ex_dim ts_quot) < 30)%nat /\
  precheck ex_dim (fun _ _ f => f) (fun _ l => l) 30 ts_quot = Ok true /\
  match prune_system ex_dim ex_dim (min_desc ex_dim) (fun f _ => fdown f) (fun _ _ f => f) (fun _ l => l) (fun l => l) (fun l => l) 30 ts_quot with
  | Ok cc => List.length (cc_locs cc) = 6%nat | _ => False end.
Proof.
  destruct C31_nonvacuous as (A & B & C & _). repeat (split; [assumption|]). split; [vm_compute; lia|]. split; [vm_compute; reflexivity|]. vm_compute. reflexivity.
Qed.

(** *** What is false *)

(** Output o saves A at x=0: one can always leave for C before input i is possible.  But the outputs of the
    target of the edge are looked at, not those of its source, and A is removed altogether. *)
Definition saved_states (n : string) (v : val) : Prop := val_ok 2 v /\ (n = "A" /\ (v 1%nat <= 2)%Q \/ n = "C").
Lemma saved_goes : goes_on 2 saved_comp saved_states.
Proof.
  assert (LN : forall n l, the_location saved_comp n l -> l_inv l = None).
  { intros n l (H & E & _). destruct H as [<-|[<-|[<-|[]]]]; reflexivity. }
  split.
  - intros n v (Hv & [[-> H]| ->]); (split; [exact Hv|]).
    + exists (mkL "A" None Initial "NORMAL"). split; [|split; [discriminate|exact I]].
      split; [left; reflexivity|]. split; [reflexivity|]. intros l' [<-|[<-|[<-|[]]]] E; try discriminate. reflexivity.
    + exists (mkL "C" None Normal "NORMAL"). split; [|split; [discriminate|exact I]].
      split; [right; left; reflexivity|]. split; [reflexivity|]. intros l' [<-|[<-|[<-|[]]]] E; try discriminate. reflexivity.
  - intros n v t (Hv & [[-> H]| ->]) Ht.
    + left. exists 0%Q. split; [lra|]. split; [intros l Hl; rewrite (LN _ l Hl); exact I|].
      exists (mkE "E1" "A" "C" SOutput (Some (BLessEQ (AVar "x") (AInt 2))) None "o"), []. split; [right; left; reflexivity|]. split; [reflexivity|]. split; [reflexivity|].
      split; [cbn [e_guard osat]; apply x_le; rewrite vdelay_S by discriminate; change (inject_Z 2) with 2%Q; lra|]. split; [reflexivity|].
      split; [apply vdelay_ok; [exact Hv|lra]|]. right. reflexivity.
    + right. split; [intros l Hl; rewrite (LN _ l Hl); exact I|]. intros e us He Te Es _ _. destruct He as [<-|[<-|[]]]; discriminate.
Qed.
Theorem C37_outputs_refuted : exists c minc, plain_component c /\ sane_updates (comp_dim c) c /\ clocks_numbered (c_decls c) /\ describes (comp_dim c) minc /\
  consistent (comp_dim c) c "A" zero_val /\
  forall predt, exists c', pruned (comp_dim c) minc predt c 5 = Ok c' /\ exists l', In l' (c_locs c') /\ l_id l' = "A" /\ forall v, ~ osat (c_decls c) v (l_inv l').
Proof.
  exists saved_comp, (min_desc 2). destruct saved_ok as (A & B & C). repeat (split; [assumption|]). split; [apply min_desc_describes; cbn; lia|].
  split; [exists saved_states; split; [exact saved_goes|]; split; [split; [reflexivity|intros i Hi; apply Qle_refl]|left; split; [reflexivity|discriminate]]|].
  intros predt. eexists. split; [vm_compute; reflexivity|]. eexists. split; [left; reflexivity|]. split; [reflexivity|]. intros v H. cbn in H. discriminate.
Qed.
Print Assumptions C37_outputs_refuted.

(** A prune query counts clocks without the reference clock: the last clock of the system lies outside the
    dimension of the result. *)
Definition one_load (n : string) : option component :=
  if String.eqb n "M" then Some (mkComp "M" (mkDecls [("x", 1%nat)] []) [mkL "A" None Initial "NORMAL"] [mkE "E0" "A" "A" SOutput (Some (BGreatEQ (AVar "x") (AInt 2))) (Some [("x", AInt 0%Z)]) "o"] None) else None.
Theorem C37_dimension_refuted : exists load e r dim q, get_system_recipe load e (0%nat, None) = Ok (r, (dim, q)) /\
  exists minc predt, describes (dim + 1) minc /\ timed_pred (dim + 1) predt /\
  exists cc, prune_query (fun d s => Ok true) (fun d s => precheck d (fun _ _ f => f) (fun _ l => l) 20 s) minc predt (fun _ _ f => f) (fun _ l => l) (fun l => l) (fun l => l) 20 dim r = Ok cc /\
  exists i es a t, In (i, es) (cc_edges cc) /\ In (a, t) es /\ ~ within dim (t_guard t).
Proof.
  exists one_load, (ParseQuery.XComp "M" None). eexists _, _, _. split; [vm_compute; reflexivity|]. exists (min_desc 2), (fun f _ => fdown f).
  split; [apply min_desc_describes; lia|]. split; [apply down_timed; lia|]. eexists. split; [vm_compute; reflexivity|].
  cbn [cc_edges]. eexists _, _, _, _. split; [left; reflexivity|]. split; [left; reflexivity|]. intros W. specialize (W _ _ (or_introl eq_refl) (or_introl eq_refl)). cbn in W. lia.
Qed.
Print Assumptions C37_dimension_refuted.

(** ** C48 *)

(** Full statement: after pruning, no inconsistent location can be entered.  This holds of a pruned component,
    whatever it is, but not of a pruned system (below). *)
Theorem C48_component_partial : forall dim minc predt c fuel ins outs cc,
  prune dim minc predt c fuel ins outs = Ok cc ->
  forall l v, reachable dim (TSimple cc) l v -> exists x, In x (c_locs c) /\ lt_id l = LSimple (l_id x) /\ l_type x <> Inconsistent.
Proof.
  intros dim minc predt c fuel ins outs cc E l v R. unfold prune in E. inv_bind E. rename a into c'.
  pose proof (pruned_entered _ _ _ _ _ _ H) as N. destruct (pruned_untouched _ _ _ _ _ _ H) as (_ & _ & F & _).
  assert (N' : forall l e, In l (c_locs c') -> l_type l = Inconsistent -> In e (c_edges c') -> e_tgt e <> l_id l).
  { intros l1 e Hl Ty He. destruct (Forall2_in_r _ _ _ _ F Hl) as (l0 & H0 & I1 & I2 & _). rewrite I1. apply N; [exact H0|congruence|exact He]. }
  pose proof (run_stays _ _ _ _ _ _ E N' l v R) as T.
  assert (B : built dim (TSimple cc)) by (eapply b_simple; exact E).
  assert (Hl : In l (all_locations dim (TSimple cc))) by (destruct R as (l0 & E0 & _ & R); exact (run_wf _ _ B _ _ _ _ R (initial_wf _ _ B _ E0))). cbn [all_locations] in Hl. destruct (compile_inv _ _ _ _ _ _ E) as (us & es & El & _ & Ec & _). rewrite Ec in Hl. apply keep_last_in in Hl.
  destruct (mapM_in _ _ _ El) as [_ M]. destruct (M l Hl) as (x' & Hx & Ex). destruct (lt_simple_id _ _ _ _ Ex) as [I Ty].
  destruct (Forall2_in_r _ _ _ _ F Hx) as (x & H0 & I1 & I2 & _). exists x. split; [exact H0|]. split; [congruence|]. congruence.
Qed.
Print Assumptions C48_component_partial.

(** B can be entered from A in the pruned example, I cannot any more. *)
Definition safe_cc : ccomp := get no_cc (prune 2 (min_desc 2) (fun f _ => fdown f) safe_comp 10 ["i"] ["o"; "p"]).
Definition safe_init : loctree := match initial_location 2 (TSimple safe_cc) with Some l => l | None => lt_any end.
Example C48_nonvacuous : prune 2 (min_desc 2) (fun f _ => fdown f) safe_comp 10 ["i"] ["o"; "p"] = Ok safe_cc /\
  reachable 2 (TSimple safe_cc) safe_init zero_val /\ lt_id safe_init = LSimple "A" /\
  (exists e, In e (c_edges safe_comp) /\ e_src e = "A" /\ e_tgt e = "I").
Proof.
  split; [vm_compute; reflexivity|]. split; [|split; [vm_compute; reflexivity|eexists; split; [left; reflexivity|split; reflexivity]]].
  exists safe_init. split; [vm_compute; reflexivity|]. split; [|apply run_nil]. apply fsem_yes. vm_compute. reflexivity.
Qed.

(** Output o leads from A to the inconsistent location I.  A system is first turned into a component without
    inconsistent locations, so nothing is pruned and I can still be entered. *)
Definition fail_comp : component := mkComp "F" (mkDecls [] []) [mkL "A" None Initial "NORMAL"; mkL "I" None Inconsistent "NORMAL"] [mkE "E0" "A" "I" SOutput None None "o"] None.
Definition fail_ts : ts := TSimple (get no_cc (compile_component 1 fail_comp 0)).
Definition fail_cc : ccomp := get no_cc (prune_system 1 1 (min_desc 1) (fun f _ => fdown f) (fun _ _ f => f) (fun _ l => l) (fun l => l) (fun l => l) 10 fail_ts).
Definition fail_step : transition := nth 0 (get [] (next_transitions 1 (TSimple fail_cc) (nth 0 (cc_locs fail_cc) lt_any) "o")) (t_without_id lt_any).
Theorem C48_system_refuted : exists dim s minc predt ext sord ord cord fuel cc,
  saveable dim s /\ io_disjoint s /\ single_initials s /\ describes dim minc /\ timed_pred dim predt /\ same_elements ord /\ reorders cord /\
  precheck dim ext sord fuel s = Ok true /\ prune_system dim dim minc predt ext sord ord cord fuel s = Ok cc /\
  exists u l v, In u (all_locations dim s) /\ lt_type u = Inconsistent /\ lt_id u = LSimple "I" /\ reachable dim (TSimple cc) l v /\ lt_id l = LSimple "I".
Proof.
  exists 1%nat, fail_ts, (min_desc 1), (fun f _ => fdown f), (fun _ _ f => f), (fun _ l => l), (fun l => l), (fun l => l), 10%nat, fail_cc. split.
  { split.
    - apply (b_simple 1 fail_comp [] ["o"] 0). vm_compute. reflexivity.
    - apply simple_readsb_spec. vm_compute. reflexivity.
    - exists 0%nat. apply simple_clocks_okb_spec. vm_compute. reflexivity.
    - intros i. split; [intros H; vm_compute in H; contradiction|lia].
    - intros l Hl. vm_compute in Hl. destruct Hl as [<-|[<-|[]]]; apply plain_by; reflexivity.
    - intros d Hd. apply nodupb_spec. revert d Hd. apply Forall_forall. repeat constructor.
    - apply unnumbered_spec. vm_compute. reflexivity. }
  split; [intros a Ha _; vm_compute in Ha; exact Ha|].
  split; [intros a b Ha Hb Ta Tb; vm_compute in Ha, Hb; destruct Ha as [<-|[<-|[]]], Hb as [<-|[<-|[]]]; try reflexivity; discriminate|].
  split; [apply min_desc_describes; lia|]. split; [apply down_timed; lia|]. split; [intros l x; reflexivity|]. split; [intros l; reflexivity|].
  split; [vm_compute; reflexivity|]. split; [vm_compute; reflexivity|].
  exists (nth 1 (all_locations 1 fail_ts) lt_any), (t_target fail_step), (run_updates (t_updates fail_step) zero_val).
  split; [vm_compute; tauto|]. split; [vm_compute; reflexivity|]. split; [vm_compute; reflexivity|]. split; [|vm_compute; reflexivity].
  assert (Z : val_ok 1 zero_val) by (split; [reflexivity|intros; apply Qle_refl]).
  exists (nth 0 (cc_locs fail_cc) lt_any). split; [vm_compute; reflexivity|]. split; [exact Z|].
  eapply run_act with (a := "o"); [apply run_nil| |].
  - split; [right; vm_compute; tauto|]. eexists. split; [vm_compute; reflexivity|]. vm_compute. tauto.
  - split; [exact Z|]. split; [apply funiv_sem; exact Z|exact Z].
Qed.
Print Assumptions C48_system_refuted.
