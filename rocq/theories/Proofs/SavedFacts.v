(** What the saved component is, and how it behaves. *)
From Coq Require Import List String Ascii ZArith QArith Bool Arith Lia Permutation.
From Verif Require Import Fed.Zone Fed.ZoneFacts Model.Base Model.Expr Model.Guard Model.Loc Model.Component Model.TS Model.Enable Model.Files Model.Save
  Spec.GuardSpec Spec.ConvSpec Spec.StepSpec Spec.SystemSpec Spec.RunSpec Spec.EnableSpec Spec.RefineSpec Spec.ReduceSpec Spec.IdSpec Spec.SaveSpec
  Proofs.GuardFacts Proofs.ConvFacts Proofs.StepFacts Proofs.SystemFacts Proofs.QuotientFacts Proofs.WfFacts Proofs.RunFacts Proofs.ReadsFacts Proofs.EnableFacts Proofs.CompileFacts
  Proofs.FileFacts Proofs.IdFacts Proofs.ClockMapFacts Proofs.SaveFacts.
Import ListNotations.
Local Open Scope nat_scope.
Local Open Scope list_scope.

Lemma naming_in clk i x : naming_of clk i = Some x -> In (x, i) clk.
Proof.
  unfold naming_of. destruct (find _ _) as [[s' i']|] eqn:F; [|discriminate]. simpl. intros H. injection H as ->.
  apply find_some in F. destruct F as [F1 F2]. simpl in F2. apply Nat.eqb_eq in F2. subst i'. apply in_rev in F1. exact F1.
Qed.
Lemma naming_some clk i x : In (x, i) clk -> naming_of clk i <> None.
Proof.
  intros I. unfold naming_of. destruct (find _ _) eqn:F; [discriminate|]. apply find_none with (x := (x, i)) in F.
  - simpl in F. apply Nat.eqb_neq in F. congruence.
  - apply in_rev in I. exact I.
Qed.

Lemma mapM_map {A B C} (f : A -> res B) (g : B -> C) (h : A -> C) l : (forall a b, In a l -> f a = Ok b -> g b = h a) ->
  forall bs, mapM f l = Ok bs -> map g bs = map h l.
Proof.
  induction l as [|a l IH]; cbn [mapM]; intros H bs E; [injection E as <-; reflexivity|]. inv_bind E. inv_bind E. injection E as <-. cbn [map]. f_equal.
  - apply H; [left; reflexivity|assumption].
  - apply IH; [|assumption]. intros x b Hx. apply H. right. exact Hx.
Qed.
Lemma nodup_map_in {A B} (f : A -> B) l : NoDup l -> (forall a b, In a l -> In b l -> f a = f b -> a = b) -> NoDup (map f l).
Proof.
  induction l as [|x l IH]; intros N H; cbn [map]; [constructor|]. inversion N; subst. constructor.
  - intros C. apply in_map_iff in C. destruct C as (y & E & Hy). assert (y = x) by (apply H; [right; exact Hy|left; reflexivity|exact E]). subst. contradiction.
  - apply IH; [assumption|]. intros a b Ha Hb. apply H; right; assumption.
Qed.

Lemma kept us : forall i, In i (map lt_id us) -> exists y, In y (keep_last us) /\ lt_id y = i.
Proof.
  induction us as [|z us IH]; [intros i []|]. intros i H. cbn [keep_last]. destruct (existsb (fun y => locid_eqb (lt_id z) (lt_id y)) us) eqn:E.
  - apply IH. destruct H as [<-|H]; [|exact H]. apply existsb_exists in E. destruct E as (y & Hy & Ey). apply locid_eqb_eq in Ey. rewrite Ey. apply in_map. exact Hy.
  - destruct H as [<-|H]; [exists z; split; [left; reflexivity|reflexivity]|]. destruct (IH i H) as (y & Hy & Ey). exists y. split; [right; exact Hy|exact Ey].
Qed.

Section Saved.
Variables (dim : nat) (minc : fed -> fed) (ord : list string -> list string) (cord : list (string * nat) -> list (string * nat)) (s : ts).
Hypothesis Sv : saveable dim s.
Hypothesis Hm : describes dim minc.
Hypothesis Ho : same_elements ord.
Hypothesis Hc : reorders cord.
Let L := all_locations dim s.
Let clk := clock_map cord s.
Let d := mkDecls clk [].
Let nm := naming_of clk.
Let c0 := mkComp "" d [] [] None.

Lemma clk_separate : separate_names (ts_decls s) clk.
Proof. apply clock_map_separate; [intros; apply Hc|apply (sv_keys _ _ Sv)|apply (sv_names _ _ Sv)]. Qed.
Lemma nm_declared : names_declared d nm.
Proof. intros i x H. apply naming_in in H. apply In_assoc; [apply clk_separate|exact H]. Qed.
Lemma nm_total i : 0 < i < dim -> nm i <> None.
Proof.
  intros H. apply (sv_clocks _ _ Sv) in H. apply clocks_declared in H. destruct H as (k & x & H).
  destruct clk_separate as (_ & name & N1 & _). apply N1 in H. eapply naming_some. exact H.
Qed.

Lemma guard_saved f : pdep dim (sys_clocks s) (fsem dim f) ->
  exists g, from_disjunction (minc f) nm = Ok g /\ (forall b, g = Some b -> basic_guard d b = true) /\
    forall v, val_ok dim v -> (osat d v g <-> fsem dim f v).
Proof.
  intros D. destruct (Hm f) as [M1 M2].
  { intros v w Hv Hw E. apply D; [exact Hv|exact Hw|]. intros x Hx. apply E. apply (sv_clocks _ _ Sv) in Hx. lia. }
  destruct (from_disjunction_ok d nm nm_declared (minc f)) as (g & Eg & Bg & Sg).
  { intros z x Hz Hx. destruct (M2 z x Hz Hx) as (A & B & C). split; [exact C|]. split; intros H; apply nm_total; lia. }
  exists g. split; [exact Eg|]. split; [exact Bg|]. intros v Hv. rewrite (Sg dim v Hv). apply M1.
Qed.

Definition basic_opt (g : option bexpr) : Prop := forall b, g = Some b -> basic_guard d b = true.

Lemma location_saved l : In l L -> exists x, save_location minc clk l = Ok x /\ saved_location dim d l x /\ basic_opt (l_inv x) /\
  (l_type x = Initial \/ l_type x = Normal).
Proof.
  intros Hl. pose proof (locations_dep dim s (sv_built _ _ Sv) (sv_reads _ _ Sv) l Hl) as D.
  assert (T : (if is_initial l then Initial else Normal) = Initial <-> lt_type l = Initial).
  { unfold is_initial. destruct (lt_type l); cbn; split; try discriminate; reflexivity. }
  assert (T2 : (if is_initial l then Initial else Normal) = Initial \/ (if is_initial l then Initial else Normal) = Normal) by (destruct (is_initial l); auto).
  unfold save_location. unfold inv_at in D. destruct (lt_inv l) as [f|] eqn:F.
  - destruct (guard_saved f D) as (g & Eg & Bg & Sg). fold nm. rewrite Eg. cbn [bind]. eexists. split; [reflexivity|].
    unfold saved_location. cbn [l_id l_type l_inv]. unfold inv_at. rewrite F. auto.
  - cbn [bind]. eexists. split; [reflexivity|]. unfold saved_location. cbn [l_id l_type l_inv]. unfold inv_at. rewrite F.
    split; [|split; [intros b H; discriminate|exact T2]]. split; [reflexivity|]. split; [exact T|]. intros v Hv. simpl. tauto.
Qed.

Lemma updates_saved us : (forall u, In u us -> In (u_clock u) (sys_clocks s)) ->
  exists l, mapM (as_update clk) us = Ok l /\ edge_updates d l = Some us.
Proof.
  induction us as [|[i k] us IH]; intros H; cbn [mapM]; [eexists; split; reflexivity|].
  assert (Hi : 0 < i < dim) by (apply (sv_clocks _ _ Sv); apply (H (mkU i k)); left; reflexivity).
  unfold as_update at 1. cbn [u_clock u_value]. fold nm. destruct (nm i) as [x|] eqn:E; [|destruct (nm_total i Hi E)]. cbn [unwrap bind].
  destruct IH as (l & El & Eu); [intros u Hu; apply H; right; exact Hu|]. rewrite El. cbn [bind]. eexists. split; [reflexivity|].
  cbn [edge_updates]. rewrite (nm_declared i x E), Eu. reflexivity.
Qed.

Lemma edge_saved l a t ty : In l L -> offered dim s l a t ->
  exists es, save_edge minc clk ty l a t = Ok es /\
    (forall e, In e es -> e_type e = ty /\ saved_edge dim c0 l a t e /\ basic_opt (e_guard e)) /\
    ((exists v, fsem dim (t_guard t) v) -> exists e, In e es).
Proof.
  intros Hl Hof. destruct (sv_ok _ _ Sv) as (q & K).
  destruct (offered_dep dim q s l a t (sv_built _ _ Sv) (sv_reads _ _ Sv) K Hl Hof) as (_ & _ & T & D & _).
  destruct (guard_saved (t_guard t) D) as (g & Eg & Bg & Sg). unfold save_edge. fold nm. rewrite Eg. cbn [bind].
  destruct (updates_saved (t_updates t) T) as (us & Eu & Uu).
  assert (X : exists o, renamed_updates clk (t_updates t) = Ok o /\ edge_updates d (match o with Some us => us | None => [] end) = Some (t_updates t)).
  { unfold renamed_updates. rewrite Eu. cbn [bind]. destruct us; eauto. }
  destruct X as (o & Eo & Uo).
  assert (Gen : exists es, (do us <- renamed_updates clk (t_updates t);
     Ok [mkE (tid_string (t_id t)) (id_string (lt_id l)) (id_string (lt_id (t_target t))) ty g us a]) = Ok es /\
    (forall e, In e es -> e_type e = ty /\ saved_edge dim c0 l a t e /\ basic_opt (e_guard e)) /\
    ((exists v, fsem dim (t_guard t) v) -> exists e, In e es)).
  { rewrite Eo. cbn [bind]. eexists. split; [reflexivity|]. split; [|intros _; eexists; left; reflexivity].
    intros e [<-|[]]. split; [reflexivity|]. split; [|exact Bg]. unfold saved_edge, updates_of. cbn [e_src e_tgt e_sync e_update e_guard c0 c_decls]. auto. }
  destruct g as [b|]; [|exact Gen]. destruct b; try exact Gen. destruct b; [exact Gen|].
  exists []. split; [reflexivity|]. split; [intros e []|]. intros (v & Hv). exfalso. apply Sg in Hv; [|eapply fsem_ok; exact Hv]. simpl in Hv. discriminate.
Qed.

Lemma action_saved l a ty : In l L -> is_action s a ->
  exists es, save_action dim minc s clk ty l a = Ok es /\
    (forall e, In e es -> exists t, offered dim s l a t /\ e_type e = ty /\ saved_edge dim c0 l a t e /\ basic_opt (e_guard e)) /\
    (forall t, offered dim s l a t -> (exists v, fsem dim (t_guard t) v) -> exists e, In e es /\ e_type e = ty /\ saved_edge dim c0 l a t e).
Proof.
  intros Hl Ha. unfold save_action. destruct (next_wf dim s (sv_built _ _ Sv) l a Hl Ha) as (ts & Ets & _). rewrite Ets. cbn [bind].
  assert (Of : forall t, In t ts <-> offered dim s l a t).
  { intros t. split; [intros H; split; [exact Ha|eauto]|]. intros [_ (ts' & E' & H)]. congruence. }
  destruct (mapM_total (save_edge minc clk ty l a) ts) as (ess & Ess).
  { intros t Ht. apply Of in Ht. destruct (edge_saved l a t ty Hl Ht) as (es & E & _). eauto. }
  rewrite Ess. cbn [bind]. destruct (mapM_in _ _ _ Ess) as [M1 M2]. exists (List.concat ess). split; [reflexivity|]. split.
  - intros e He. apply in_concat in He. destruct He as (es & Hes & He). destruct (M2 es Hes) as (t & Ht & E). apply Of in Ht.
    destruct (edge_saved l a t ty Hl Ht) as (es' & E' & S1 & _). rewrite E in E'. injection E' as <-. exists t. split; [exact Ht|]. apply S1. exact He.
  - intros t Ht Hs. destruct (edge_saved l a t ty Hl Ht) as (es & E & S1 & S2). destruct (S2 Hs) as (e & He).
    apply Of in Ht. destruct (M1 t Ht) as (es' & Hes & E'). rewrite E in E'. injection E' as <-.
    exists e. split; [apply in_concat; eauto|]. destruct (S1 e He) as (A & B & _). auto.
Qed.

Lemma edges_saved l : In l L -> exists es, save_edges dim minc ord s clk l = Ok es /\
  (forall e, In e es -> exists a t, offered dim s l a t /\ on_side s a (e_type e) /\ saved_edge dim c0 l a t e /\ basic_opt (e_guard e)) /\
  (forall a t ty, offered dim s l a t -> on_side s a ty -> (exists v, fsem dim (t_guard t) v) -> exists e, In e es /\ e_type e = ty /\ saved_edge dim c0 l a t e).
Proof.
  intros Hl. unfold save_edges.
  destruct (mapM_total (save_action dim minc s clk SInput l) (ord (ts_inputs s))) as (es1 & E1).
  { intros a Ha. rewrite (Ho _ _) in Ha. destruct (action_saved l a SInput Hl (or_introl Ha)) as (es & E & _). eauto. }
  destruct (mapM_total (save_action dim minc s clk SOutput l) (ord (ts_outputs s))) as (es2 & E2).
  { intros a Ha. rewrite (Ho _ _) in Ha. destruct (action_saved l a SOutput Hl (or_intror Ha)) as (es & E & _). eauto. }
  rewrite E1. cbn [bind]. rewrite E2. cbn [bind]. destruct (mapM_in _ _ _ E1) as [A1 A2], (mapM_in _ _ _ E2) as [B1 B2].
  eexists. split; [reflexivity|]. split.
  - intros e He. apply in_app_or in He. destruct He as [He|He]; apply in_concat in He; destruct He as (es & Hes & He).
    + destruct (A2 es Hes) as (a & Ha & E). rewrite (Ho _ _) in Ha. destruct (action_saved l a SInput Hl (or_introl Ha)) as (es' & E' & S1 & _).
      rewrite E in E'. injection E' as <-. destruct (S1 e He) as (t & Ht & Ty & Se & Bg). exists a, t. rewrite Ty. auto.
    + destruct (B2 es Hes) as (a & Ha & E). rewrite (Ho _ _) in Ha. destruct (action_saved l a SOutput Hl (or_intror Ha)) as (es' & E' & S1 & _).
      rewrite E in E'. injection E' as <-. destruct (S1 e He) as (t & Ht & Ty & Se & Bg). exists a, t. rewrite Ty. auto.
  - intros a t ty Hof Os Hs. destruct ty.
    + destruct (action_saved l a SInput Hl (or_introl Os)) as (es & E & _ & S2). destruct (S2 t Hof Hs) as (e & He & Ty & Se).
      destruct (A1 a) as (es' & Hes & E'); [rewrite (Ho _ _); exact Os|]. rewrite E in E'. injection E' as <-.
      exists e. split; [|auto]. apply in_or_app. left. apply in_concat. eauto.
    + destruct (action_saved l a SOutput Hl (or_intror Os)) as (es & E & _ & S2). destruct (S2 t Hof Hs) as (e & He & Ty & Se).
      destruct (B1 a) as (es' & Hes & E'); [rewrite (Ho _ _); exact Os|]. rewrite E in E'. injection E' as <-.
      exists e. split; [|auto]. apply in_or_app. right. apply in_concat. eauto.
Qed.

Lemma shown_inj a b : In a L -> In b L -> id_string (lt_id a) = id_string (lt_id b) -> a = b.
Proof.
  intros Ha Hb E. apply (location_inj dim s (sv_built _ _ Sv)); auto.
  refine (proj1 (display_split _ _ (locations_alike dim s (sv_built _ _ Sv) a b Ha Hb) (locations_plain dim s (sv_built _ _ Sv) (sv_plain _ _ Sv) a Ha)
    (locations_plain dim s (sv_built _ _ Sv) (sv_plain _ _ Sv) b Hb) [] [] I I _)). rewrite E. reflexivity.
Qed.

(** The saved locations: all of them, or the ones reached. *)
Definition chosen (st : strategy) (l : loctree) : Prop := match st with NoPruning => In l L | Reachable => edge_reach dim s l end.

Lemma reach_in l : edge_reach dim s l -> In l L.
Proof.
  induction 1 as [l El|l a t _ IH Hof]; [apply (initial_wf dim s (sv_built _ _ Sv)); exact El|].
  destruct Hof as [Ha (ts & Ets & Ht)]. destruct (next_wf dim s (sv_built _ _ Sv) l a IH Ha) as (ts' & E' & W). rewrite Ets in E'. injection E' as <-. auto.
Qed.

Lemma locations_chosen fuel st : List.length L <= fuel -> exists ls, locations_to_save dim ord fuel s st = Ok ls /\ NoDup ls /\ forall l, In l ls <-> chosen st l.
Proof.
  intros Hf. destruct st; cbn [locations_to_save chosen].
  - destruct (initial_location dim s) as [l0|] eqn:E.
    + apply (collected dim ord s (sv_built _ _ Sv) Ho l0 fuel E Hf).
    + exists []. split; [reflexivity|]. split; [constructor|]. intros l. split; [intros []|]. induction 1; [congruence|assumption].
  - exists L. split; [reflexivity|]. split; [|intros l; reflexivity]. apply (NoDup_map_inv lt_id), locations_nodup, Sv.
Qed.
Lemma chosen_in st l : chosen st l -> In l L.
Proof. destruct st; cbn [chosen]; [apply reach_in|auto]. Qed.
Lemma chosen_closed st l a t : chosen st l -> offered dim s l a t -> chosen st (t_target t).
Proof.
  destruct st; cbn [chosen]; intros H Hof; [econstructor 2; eauto|].
  destruct Hof as [Ha (ts & Ets & Ht)]. destruct (next_wf dim s (sv_built _ _ Sv) l a H Ha) as (ts' & E' & W). rewrite Ets in E'. injection E' as <-. auto.
Qed.

Record good_comp (ls : list loctree) (c : component) : Prop := {
  gc_saved : saved_as dim s ls c;
  gc_decls : c_decls c = d;
  gc_invs : forall x, In x (c_locs c) -> basic_opt (l_inv x) /\ (l_type x = Initial \/ l_type x = Normal);
  gc_guards : forall e, In e (c_edges c) -> basic_opt (e_guard e) }.

Lemma component_saved ls : NoDup ls -> (forall l, In l ls -> In l L) ->
  exists es xs, mapM (save_edges dim minc ord s clk) ls = Ok es /\ mapM (save_location minc clk) ls = Ok xs /\
    good_comp ls (mkComp "" d xs (List.concat es) None).
Proof.
  intros Nd Hls.
  destruct (mapM_total (save_edges dim minc ord s clk) ls) as (es & Ee).
  { intros l Hl. destruct (edges_saved l (Hls l Hl)) as (es & E & _). eauto. }
  destruct (mapM_total (save_location minc clk) ls) as (xs & Ex).
  { intros l Hl. destruct (location_saved l (Hls l Hl)) as (x & E & _). eauto. }
  exists es, xs. split; [exact Ee|]. split; [exact Ex|].
  destruct (mapM_in _ _ _ Ee) as [E1 E2], (mapM_in _ _ _ Ex) as [X1 X2]. split.
  - split; [split|split; [|split]]; cbn [c_locs c_edges c_decls].
    + intros l Hl. destruct (X1 l Hl) as (x & Hx & E). exists x. split; [exact Hx|]. destruct (location_saved l (Hls l Hl)) as (x' & E' & S & _). congruence.
    + intros x Hx. destruct (X2 x Hx) as (l & Hl & E). exists l. split; [exact Hl|]. destruct (location_saved l (Hls l Hl)) as (x' & E' & S & _). congruence.
    + rewrite (mapM_map (save_location minc clk) l_id (fun l => id_string (lt_id l)) ls) with (bs := xs); [|intros l x Hl E; destruct (location_saved l (Hls l Hl)) as (x' & E' & S & _); replace x with x' by congruence; apply S|exact Ex].
      apply nodup_map_in; [exact Nd|]. intros a b Ha Hb. apply shown_inj; auto.
    + intros l a t ty Hl Hof Os Hs. destruct (edges_saved l (Hls l Hl)) as (es' & E' & _ & S2). destruct (S2 a t ty Hof Os Hs) as (e & He & Ty & Se).
      destruct (E1 l Hl) as (es2 & Hes & E''). rewrite E' in E''. injection E'' as <-. exists e. split; [apply in_concat; eauto|]. split; [exact Ty|]. exact Se.
    + intros e He. apply in_concat in He. destruct He as (es' & Hes & He). destruct (E2 es' Hes) as (l & Hl & E). destruct (edges_saved l (Hls l Hl)) as (es2 & E' & S1 & _).
      rewrite E in E'. injection E' as <-. destruct (S1 e He) as (a & t & Hof & Os & Se & _). exists l, a, t. split; [exact Hl|]. split; [exact Hof|]. split; [exact Os|]. exact Se.
  - reflexivity.
  - cbn [c_locs]. intros x Hx. destruct (X2 x Hx) as (l & Hl & E). destruct (location_saved l (Hls l Hl)) as (x' & E' & _ & B & T). replace x with x' by congruence. auto.
  - cbn [c_edges]. intros e He. apply in_concat in He. destruct He as (es' & Hes & He). destruct (E2 es' Hes) as (l & Hl & E). destruct (edges_saved l (Hls l Hl)) as (es2 & E' & S1 & _).
    rewrite E in E'. injection E' as <-. destruct (S1 e He) as (a & t & _ & _ & _ & B). exact B.
Qed.

Lemma combine_saved fuel st : List.length L <= fuel ->
  exists ls c, combine_components dim minc ord cord fuel s st = Ok c /\ NoDup ls /\ (forall l, In l ls <-> chosen st l) /\ good_comp ls c.
Proof.
  intros Hf. destruct (locations_chosen fuel st Hf) as (ls & El & Nd & Hls). unfold combine_components. rewrite El. cbn [bind]. fold clk.
  destruct (component_saved ls Nd) as (es & xs & Ee & Ex & G); [intros l Hl; apply (chosen_in st), Hls, Hl|].
  rewrite Ee. cbn [bind]. rewrite Ex. cbn [bind]. eauto 8.
Qed.

(** ** Renumbering the edges *)
Lemma remade es : forall k, (forall e, In e es -> exists e', In e' (remake_edge_ids k es) /\ e_src e' = e_src e /\ e_tgt e' = e_tgt e /\ e_type e' = e_type e /\ e_guard e' = e_guard e /\ e_update e' = e_update e /\ e_sync e' = e_sync e) /\
  (forall e', In e' (remake_edge_ids k es) -> exists e, In e es /\ e_src e' = e_src e /\ e_tgt e' = e_tgt e /\ e_type e' = e_type e /\ e_guard e' = e_guard e /\ e_update e' = e_update e /\ e_sync e' = e_sync e).
Proof.
  induction es as [|e es IH]; intros k; cbn [remake_edge_ids]; [split; intros e []|]. destruct (IH (S k)) as [A B]. split.
  - intros x [<-|Hx]; [eexists; split; [left; reflexivity|repeat split]|]. destruct (A x Hx) as (e' & He & R). exists e'. split; [right; exact He|exact R].
  - intros x [<-|Hx]; [exists e; split; [left; reflexivity|repeat split]|]. destruct (B x Hx) as (e' & He & R). exists e'. split; [right; exact He|exact R].
Qed.
Lemma good_remade ls c n k : good_comp ls c -> good_comp ls (mkComp n (c_decls c) (c_locs c) (remake_edge_ids k (c_edges c)) (c_special c)).
Proof.
  intros [(S1 & S2 & S3 & S4) G2 G3 G4]. destruct (remade (c_edges c) k) as [A B].
  assert (T : forall e e' l a t, e_src e' = e_src e -> e_tgt e' = e_tgt e -> e_guard e' = e_guard e -> e_update e' = e_update e -> e_sync e' = e_sync e ->
    saved_edge dim c l a t e -> saved_edge dim (mkComp n (c_decls c) (c_locs c) (remake_edge_ids k (c_edges c)) (c_special c)) l a t e').
  { intros e e' l a t R1 R2 R3 R4 R5. unfold saved_edge, updates_of. cbn [c_decls]. rewrite R1, R2, R3, R4, R5. auto. }
  split; [|exact G2|exact G3|].
  - split; [exact S1|]. split; [exact S2|]. cbn [c_edges]. split.
    + intros l a t ty Hl Hof Os Hs. destruct (S3 l a t ty Hl Hof Os Hs) as (e & He & Ty & Se). destruct (A e He) as (e' & He' & R1 & R2 & R3 & R4 & R5 & R6).
      exists e'. split; [exact He'|]. split; [congruence|]. apply (T e e'); auto.
    + intros e' He'. destruct (B e' He') as (e & He & R1 & R2 & R3 & R4 & R5 & R6). destruct (S4 e He) as (l & a & t & Hl & Hof & Os & Se).
      exists l, a, t. split; [exact Hl|]. split; [exact Hof|]. split; [rewrite R3; exact Os|]. apply (T e e'); auto.
  - cbn [c_edges]. intros e' He'. destruct (B e' He') as (e & He & R1 & R2 & R3 & R4 & R5 & R6). rewrite R4. apply G4. exact He.
Qed.

(** ** Behaviour *)
Section Behaviour.
Variables (ls : list loctree) (c : component).
Hypothesis G : good_comp ls c.
Hypothesis Gin : forall l, In l ls -> In l L.
Hypothesis Gcl : forall l a t, In l ls -> offered dim s l a t -> In (t_target t) ls.
Hypothesis Gi : forall l, initial_location dim s = Some l -> In l ls.
Hypothesis Io : io_disjoint s.
Hypothesis Si : single_initials s.
Variables ins outs : list string.
Hypothesis Hins : forall a, In a ins <-> is_input s a.
Hypothesis Houts : forall a, In a outs <-> is_output s a.

Lemma comp_supported : supported_component c.
Proof.
  destruct G as [(S1 & S2 & S3 & S4) G2 G3 G4]. split; [|split; [|split]].
  - intros x g Hx E. rewrite G2. apply (proj1 (G3 x Hx)). exact E.
  - intros e g He E. rewrite G2. apply (G4 e He). exact E.
  - intros e He. destruct (S4 e He) as (l & a & t & _ & _ & _ & (_ & _ & _ & U & _)). eauto.
  - intros e He. destruct (S4 e He) as (l & a & t & Hl & Hof & _ & (_ & T & _)). destruct (proj1 S1 (t_target t) (Gcl l a t Hl Hof)) as (x & Hx & Ex). exists x. split; [exact Hx|]. rewrite T. apply Ex.
Qed.
Lemma comp_simple : simple_component c.
Proof. destruct comp_supported as (A & B & _). split; intros x g Hx E; apply basic_simple; eauto. Qed.
Lemma comp_ids : NoDup (map l_id (c_locs c)).
Proof. apply G. Qed.

Lemma comp_simple_total x : In x (c_locs c) -> exists u, lt_simple dim (c_decls c) x = Ok u.
Proof.
  intros Hx. unfold lt_simple. destruct (l_inv x) as [g|] eqn:E; [|cbn; eauto]. destruct (basic_apply dim (c_decls c) g (proj1 comp_supported x g Hx E) funiv) as (f & ->). cbn. eauto.
Qed.
Lemma updates_total us : forall cus, edge_updates (c_decls c) us = Some cus -> exists r, mapM (fun u => compile_update u (c_decls c)) us = Ok r.
Proof.
  induction us as [|[x e] us IH]; cbn [edge_updates mapM]; intros cus H; [eauto|]. destruct e; try discriminate. unfold compile_update at 1. cbn [snd fst].
  destruct (assoc x (d_clocks (c_decls c))); [|discriminate]. destruct (edge_updates (c_decls c) us) eqn:E; [|discriminate]. cbn [unwrap bind]. destruct (IH _ eq_refl) as (r & ->). cbn [bind]. eauto.
Qed.
Lemma comp_edge_total e : In e (c_edges c) -> exists t, from_component_and_edge dim c e = Ok t.
Proof.
  intros He. destruct comp_supported as (S1 & S2 & S3 & S4). unfold from_component_and_edge. destruct (S4 e He) as (x & Hx & Ex). rewrite (find_location c comp_ids (e_tgt e) x Hx Ex). cbn [bind].
  destruct (comp_simple_total x Hx) as (u & ->). cbn [bind]. destruct (S3 e He) as (cus & Eu). destruct (updates_total _ _ Eu) as (r & ->). cbn [bind].
  unfold edge_apply_guard. destruct (e_guard e) as [g|] eqn:E; [|cbn; eauto]. destruct (basic_apply dim (c_decls c) g (S2 e g He E) funiv) as (f & ->). cbn. eauto.
Qed.

Lemma comp_compiles id : exists cc, compile_with_actions dim c ins outs id = Ok cc.
Proof.
  unfold compile_with_actions. assert (D : disjoint ins outs = true) by (apply disjoint_spec; intros a Ha; rewrite Houts; apply Io; apply Hins; exact Ha). rewrite D. cbn [negb].
  destruct (mapM_total (lt_simple dim (c_decls c)) (c_locs c)) as (us & Eu); [apply comp_simple_total|]. rewrite Eu. cbn [bind].
  destruct (mapM_total (fun e => do t <- from_component_and_edge dim c e; Ok (e, t)) (c_edges c)) as (es & Ee).
  { intros e He. destruct (comp_edge_total e He) as (t & ->). cbn. eauto. }
  rewrite Ee. cbn [bind]. match goal with |- context [if ?b then _ else _] => assert (X : b = true) end; [|rewrite X; eauto].
  apply forallb_forall. intros e He. apply existsb_exists. destruct (gc_saved _ _ G) as (S1 & _ & _ & S4).
  destruct (S4 e He) as (l & a & t & Hl & _ & _ & (Sr & _)). destruct (proj1 S1 l Hl) as (x & Hx & Ex). destruct (proj1 (mapM_in _ _ _ Eu) x Hx) as (u & Hu & Eu').
  apply lt_simple_id in Eu'. destruct Eu' as [Eu' _].
  destruct (kept us (lt_id u) (in_map lt_id _ _ Hu)) as (w & Hw & Ew). exists w. split; [exact Hw|]. apply locid_eqb_eq. rewrite Ew, Eu', Sr. f_equal. symmetry. apply Ex.
Qed.

Variables (id : nat) (cc : ccomp).
Hypothesis Ecc : compile_with_actions dim c ins outs id = Ok cc.
Let s' := TSimple cc.

Lemma stands_inv l l' : stands_for ls s' l l' -> exists x, In x (c_locs c) /\ lt_simple dim (c_decls c) x = Ok l' /\ l_id x = id_string (lt_id l) /\ saved_location dim d l x.
Proof.
  intros (Hl & Ei & Hl'). cbn [s'] in Hl'. apply (compiled_locations dim c comp_ids _ _ _ _ Ecc) in Hl'. destruct Hl' as (x & Hx & Ex). exists x. split; [exact Hx|]. split; [exact Ex|].
  apply lt_simple_id in Ex. destruct Ex as [Ex _]. rewrite Ei in Ex. injection Ex as Ex. split; [auto|].
  destruct (gc_saved _ _ G) as (S1 & _). destruct (proj2 S1 x Hx) as (l2 & Hl2 & Sx). rewrite (gc_decls _ _ G) in Sx.
  assert (l2 = l) by (apply shown_inj; auto; rewrite Ex; symmetry; apply Sx). subst l2. exact Sx.
Qed.
Lemma stands_there l : In l ls -> exists l', stands_for ls s' l l'.
Proof.
  intros Hl. destruct (gc_saved _ _ G) as (S1 & _). destruct (proj1 S1 l Hl) as (x & Hx & Sx). destruct (comp_simple_total x Hx) as (u & Eu). exists u. split; [exact Hl|]. split.
  - apply lt_simple_id in Eu. destruct Eu as [-> _]. f_equal. apply Sx.
  - cbn [s']. apply (compiled_locations dim c comp_ids _ _ _ _ Ecc). eauto.
Qed.

Lemma step_saved l l' a t e t' : stands_for ls s' l l' -> offered dim s l a t -> In e (c_edges c) -> saved_edge dim c l a t e -> from_component_and_edge dim c e = Ok t' ->
  same_step dim t t' /\ stands_for ls s' (t_target t) (t_target t').
Proof.
  intros St Hof He (E1 & E2 & E3 & E4 & E5) Et. destruct (edge_parts dim c comp_simple e t' He Et) as (U & Gd & y & Ty & Ey). split; [split|].
  - intros v. rewrite Gd. split; [intros [Hv X]; apply E5; assumption|]. intros X. assert (Hv : val_ok dim v) by (eapply fsem_ok; exact X). split; [exact Hv|]. apply E5; assumption.
  - congruence.
  - split; [apply (Gcl l a t); [apply St|exact Hof]|]. split.
    + apply lt_simple_id in Ey. destruct Ey as [-> _]. f_equal. rewrite <- E2. apply Ty.
    + cbn [s']. apply (compiled_locations dim c comp_ids _ _ _ _ Ecc). exists y. split; [apply Ty|exact Ey].
Qed.

Lemma saved_actions a : is_action s' a <-> is_action s a.
Proof. destruct (compile_io _ _ _ _ _ _ Ecc) as (E1 & E2 & _). unfold is_action, is_input, is_output, s'. cbn [ts_inputs ts_outputs]. rewrite E1, E2, Hins, Houts. reflexivity. Qed.

Lemma stands_edges l l' a : stands_for ls s' l l' -> is_action s a ->
  exists ts, next_transitions dim s' l' a = Ok ts /\
    (forall e, In e (c_edges c) -> e_src e = id_string (lt_id l) -> e_sync e = a -> exists t, In t ts /\ from_component_and_edge dim c e = Ok t) /\
    (forall t, In t ts -> exists e, In e (c_edges c) /\ e_src e = id_string (lt_id l) /\ e_sync e = a /\ from_component_and_edge dim c e = Ok t).
Proof.
  intros St Ha. destruct (stands_inv l l' St) as (x & Hx & Ex & Ix & Sx). destruct (gc_invs _ _ G x Hx) as [_ Tx]. rewrite <- Ix.
  apply (compiled_edges dim c comp_ids _ _ _ _ Ecc x l' a Hx); [apply St|apply lt_simple_id in Ex; apply Ex|destruct Tx as [-> | ->]; discriminate|destruct Tx as [-> | ->]; discriminate|rewrite Hins, Houts; exact Ha].
Qed.

Lemma saved_behaviour : behaves_as dim s ls s'.
Proof.
  destruct (compile_io _ _ _ _ _ _ Ecc) as (E1 & E2 & _). destruct (gc_saved _ _ G) as (S1 & S2 & S3 & S4).
  split; [|split; [|split; [split|]]].
  - intros a. unfold is_input, s'. cbn [ts_inputs]. rewrite E1, Hins. reflexivity.
  - intros a. unfold is_output, s'. cbn [ts_outputs]. rewrite E2, Houts. reflexivity.
  - intros l l' St v. destruct (stands_inv l l' St) as (x & Hx & Ex & _ & (_ & _ & Sx)). rewrite (lt_simple_inv dim c comp_simple x l' Hx Ex v), (gc_decls _ _ G).
    split; [intros [Hv X]; apply Sx; assumption|]. intros X. assert (Hv : val_ok dim v) by (unfold inv_at in X; destruct (lt_inv l); [eapply fsem_ok; exact X|exact X]). split; [exact Hv|]. apply Sx; assumption.
  - intros l l' a t St Hof Hs. assert (Ha : is_action s a) by apply Hof.
    assert (Os : exists ty, on_side s a ty) by (destruct Ha as [Ha|Ha]; [exists SInput|exists SOutput]; exact Ha). destruct Os as (ty & Os).
    destruct (S3 l a t ty (proj1 St) Hof Os Hs) as (e & He & _ & Se). destruct (stands_edges l l' a St Ha) as (ts & Ets & F & _).
    destruct (F e He (proj1 Se)) as (t' & Ht' & Et'); [apply Se|]. exists t'. destruct (step_saved l l' a t e t' St Hof He Se Et') as [X Y].
    split; [|auto]. split; [apply saved_actions; exact Ha|eauto].
  - intros l l' a t' St [Ha' (ts & Ets & Ht')]. assert (Ha : is_action s a) by (apply saved_actions; exact Ha').
    destruct (stands_edges l l' a St Ha) as (ts' & Ets' & _ & Bk). rewrite Ets in Ets'. injection Ets' as <-. destruct (Bk t' Ht') as (e & He & Es & Ea & Et').
    destruct (S4 e He) as (l2 & a2 & t & Hl2 & Hof & _ & Se). assert (l2 = l) by (apply shown_inj; [apply Gin; exact Hl2|apply Gin, St|rewrite <- Es; symmetry; apply Se]). subst l2.
    assert (a2 = a) by (rewrite <- Ea; symmetry; apply Se). subst a2. exists t. destruct (step_saved l l' a t e t' St Hof He Se Et') as [X Y]. auto.
  - destruct (initial_type dim s (sv_built _ _ Sv)) as [I1 I2]. cbn [initial_location s']. destruct (compile_inv _ _ _ _ _ _ Ecc) as (us & es & _ & _ & Ec & _ & _ & _ & Ein).
    assert (Back : forall u, find is_initial (keep_last us) = Some u -> exists l, stands_for ls s' l u /\ lt_type l = Initial).
    { intros u Hu. apply find_some in Hu. destruct Hu as [Hu Iu]. rewrite <- Ec in Hu. pose proof Hu as Hu'. apply (compiled_locations dim c comp_ids _ _ _ _ Ecc) in Hu'. destruct Hu' as (x & Hx & Ex).
      destruct (proj2 S1 x Hx) as (l & Hl & Sx). apply lt_simple_id in Ex. destruct Ex as [X1 X2]. exists l. split.
      - split; [exact Hl|]. split; [rewrite X1; f_equal; apply Sx|exact Hu].
      - apply Sx. rewrite <- X2. unfold is_initial in Iu. destruct (lt_type u); try discriminate. reflexivity. }
    rewrite Ein. destruct (initial_location dim s) as [l0|] eqn:E0.
    + destruct (stands_there l0 (Gi l0 eq_refl)) as (u0 & St0). destruct (find is_initial (keep_last us)) as [u|] eqn:Ef.
      * destruct (Back u eq_refl) as (l & St & Il). assert (l = l0) by (apply (initial_unique dim s (sv_built _ _ Sv) Si); [apply Gin, St|apply Gin, Gi; reflexivity|exact Il|apply I1; reflexivity]). subst l. exact St.
      * assert (Hu : In u0 (keep_last us)) by (rewrite <- Ec; apply St0). pose proof (find_none _ _ Ef u0 Hu) as Nf. destruct (stands_inv l0 u0 St0) as (x & Hx & Ex & _ & Sx).
        apply lt_simple_id in Ex. destruct Ex as [_ Tx]. unfold is_initial in Nf. rewrite Tx in Nf. replace (l_type x) with Initial in Nf; [discriminate|]. symmetry. apply Sx. apply I1. reflexivity.
    + destruct (find is_initial (keep_last us)) as [u|] eqn:Ef; [|exact I]. destruct (Back u eq_refl) as (l & St & Il). apply (I2 eq_refl l (Gin l (proj1 St)) Il).
Qed.
End Behaviour.
End Saved.

(** ** The actions of a saved component *)
Lemma unique_aux_in a l : forall seen, In a (unique_aux seen l) <-> In a l /\ ~ In a seen.
Proof.
  induction l as [|x l IH]; intros seen; cbn [unique_aux]; [simpl; tauto|].
  destruct (sin x seen) eqn:E.
  - apply sin_In in E. rewrite IH. simpl. split; [tauto|]. intros [[->|H] N]; [contradiction|tauto].
  - assert (N : ~ In x seen) by (intros C; apply sin_In in C; congruence). cbn [In]. rewrite IH. simpl.
    destruct (string_dec x a) as [->|D]; [tauto|]. intuition congruence.
Qed.
Lemma specific_in c ty a : In a (specific_actions c ty) <-> a <> "*"%string /\ exists e, In e (c_edges c) /\ e_type e = ty /\ e_sync e = a.
Proof.
  unfold specific_actions, unique. rewrite unique_aux_in, in_map_iff. split.
  - intros [(e & <- & H) _]. apply filter_In in H. destruct H as [He H]. apply andb_true_iff in H. destruct H as [H1 H2]. apply negb_true_iff, String.eqb_neq in H2.
    split; [exact H2|]. exists e. split; [exact He|]. split; [destruct (e_type e), ty; try discriminate; reflexivity|reflexivity].
  - intros [N (e & He & Ty & Es)]. split; [|intros []]. exists e. split; [exact Es|]. apply filter_In. split; [exact He|]. rewrite Ty, Es. apply andb_true_iff.
    split; [destruct ty; reflexivity|]. apply negb_true_iff, String.eqb_neq. exact N.
Qed.
Lemma saved_own_actions dim s ls c : saved_as dim s ls c ->
  (forall a ty, on_side s a ty -> a <> "*"%string /\ exists l t, In l ls /\ offered dim s l a t /\ exists v, fsem dim (t_guard t) v) ->
  (forall a, In a (input_actions c) <-> is_input s a) /\ (forall a, In a (output_actions c) <-> is_output s a).
Proof.
  intros (_ & _ & S3 & S4) U.
  assert (X : forall ty a, In a (specific_actions c ty) <-> on_side s a ty).
  { intros ty a. rewrite specific_in. split.
    - intros [_ (e & He & Ty & Es)]. destruct (S4 e He) as (l & b & t & _ & _ & Os & (_ & _ & E3 & _)). rewrite Ty in Os. congruence.
    - intros Os. destruct (U a ty Os) as (N & l & t & Hl & Hof & Hs). split; [exact N|]. destruct (S3 l a t ty Hl Hof Os Hs) as (e & He & Ty & Se). exists e. split; [exact He|]. split; [exact Ty|apply Se]. }
  split; intros a; apply X.
Qed.

(** ** Runs *)
Lemma inv_ok dim l v : inv_at dim l v -> val_ok dim v.
Proof. unfold inv_at. destruct (lt_inv l); [apply fsem_ok|auto]. Qed.
Section Mirror.
Variables (dim : nat) (s s' : ts) (R : loctree -> loctree -> Prop).
Hypothesis M : mirrors dim s s' R.
Lemma mirror_forth l0 v0 l v : run dim s l0 v0 l v -> forall l0', R l0 l0' -> exists l', run dim s' l0' v0 l' v /\ R l l'.
Proof.
  induction 1 as [|l v dd H IH Hd Hi|l v a t H IH Hof Ab]; intros l0' HR.
  - exists l0'. split; [apply run_nil|exact HR].
  - destruct (IH l0' HR) as (l' & H' & HR'). exists l'. split; [|exact HR']. apply run_delay; auto. intros e H0 H1. apply (mi_inv _ _ _ _ M l l' HR'). auto.
  - destruct (IH l0' HR) as (l' & H' & HR'). destruct Ab as (A1 & A2 & A3). destruct (mi_forth _ _ _ _ M l l' a t HR' Hof (ex_intro _ v A2)) as (t' & Hof' & [G U] & HT).
    exists (t_target t'). split; [|exact HT]. rewrite <- U. apply (run_act dim s' l0' v0 l' v a t'); auto. split; [apply (mi_inv _ _ _ _ M l l' HR'); exact A1|]. split; [apply G; exact A2|].
    rewrite U. apply (mi_inv _ _ _ _ M _ _ HT). exact A3.
Qed.
Lemma mirror_back l0' v0 l' v : run dim s' l0' v0 l' v -> forall l0, R l0 l0' -> exists l, run dim s l0 v0 l v /\ R l l'.
Proof.
  induction 1 as [|l v dd H IH Hd Hi|l v a t H IH Hof Ab]; intros l0 HR.
  - exists l0. split; [apply run_nil|exact HR].
  - destruct (IH l0 HR) as (l1 & H' & HR'). exists l1. split; [|exact HR']. apply run_delay; auto. intros e H0 H1. apply (mi_inv _ _ _ _ M l1 l HR'). auto.
  - destruct (IH l0 HR) as (l1 & H' & HR'). destruct Ab as (A1 & A2 & A3). destruct (mi_back _ _ _ _ M l1 l a t HR' Hof) as (t1 & Hof' & [G U] & HT).
    exists (t_target t1). split; [|exact HT]. rewrite U. apply (run_act dim s l0 v0 l1 v a t1); auto. split; [apply (mi_inv _ _ _ _ M l1 l HR'); exact A1|]. split; [apply G; exact A2|].
    rewrite <- U. apply (mi_inv _ _ _ _ M _ _ HT). exact A3.
Qed.
End Mirror.

Lemma behaves_reach dim s ls s' : behaves_as dim s ls s' ->
  (forall l v, reachable dim s l v -> exists l', reachable dim s' l' v /\ stands_for ls s' l l') /\
  (forall l' v, reachable dim s' l' v -> exists l, reachable dim s l v /\ stands_for ls s' l l').
Proof.
  intros (_ & _ & M & I). unfold reachable. split.
  - intros l v (l0 & E0 & I0 & H). rewrite E0 in I. destruct (initial_location dim s') as [l0'|] eqn:E'; [|contradiction].
    destruct (mirror_forth dim s s' _ M _ _ _ _ H l0' I) as (l' & H' & HR). exists l'. split; [|exact HR]. exists l0'. split; [reflexivity|]. split; [apply (mi_inv _ _ _ _ M _ _ I); exact I0|exact H'].
  - intros l' v (l0' & E0 & I0 & H). rewrite E0 in I. destruct (initial_location dim s) as [l0|] eqn:E'; [|contradiction].
    destruct (mirror_back dim s s' _ M _ _ _ _ H l0 I) as (l & H' & HR). exists l. split; [|exact HR]. exists l0. split; [reflexivity|]. split; [apply (mi_inv _ _ _ _ M _ _ I); exact I0|exact H'].
Qed.
