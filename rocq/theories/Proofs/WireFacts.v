(** Facts about the wire form of locations and zones. *)
From Coq Require Import List String ZArith QArith Bool Arith Lia Permutation.
From Verif Require Import Fed.Zone Fed.ZoneFacts Model.Base Model.Expr Model.Guard Model.Loc Model.Component Model.TS Model.Search Model.Sim Model.Recipe Model.Wire
  Spec.StepSpec Spec.SystemSpec Spec.RunSpec Spec.ReduceSpec Spec.EnableSpec Spec.RefineSpec Spec.RecipeSpec Spec.WireSpec
  Proofs.GuardFacts Proofs.StepFacts Proofs.SystemFacts Proofs.WfFacts Proofs.RunFacts Proofs.RecipeFacts Proofs.FileFacts.
Import ListNotations.

Lemma iter_instances s : info_iter (comp_infos s) = instances s.
Proof. induction s; cbn; congruence. Qed.

(** ** Locations *)
Lemma find_unique {A} (f : A -> bool) l x : In x l -> f x = true -> (forall y, In y l -> f y = true -> y = x) -> find f l = Some x.
Proof.
  induction l as [|y l IH]; intros Hx Fx U; [destruct Hx|]. cbn. destruct (f y) eqn:E; [rewrite (U y (or_introl eq_refl) E); reflexivity|].
  destruct Hx as [->|Hx]; [congruence|]. apply IH; auto. intros z Hz. apply U. right. exact Hz.
Qed.

Lemma compiled_simple dim c ins outs id cc l : compile_with_actions dim c ins outs id = Ok cc -> In l (cc_locs cc) -> exists n, lt_id l = LSimple n.
Proof.
  intros E Hl. destruct (compile_inv _ _ _ _ _ _ E) as (ls & es & El & _ & Ec & _). rewrite Ec in Hl. apply keep_last_in in Hl.
  apply mapM_in in El. destruct El as [_ El]. destruct (El l Hl) as (x & _ & Ex). unfold lt_simple in Ex. inv_bind Ex. injection Ex as <-. cbn. eauto.
Qed.

Lemma location_round dim s : built dim s -> forall l, In l (all_locations dim s) ->
  exists x p, specific_location (lt_id l) s = Ok x /\ shows_location s l x /\ loc_to_proto x = Ok p /\ loc_from_proto p = Ok x /\ construct_location dim s x = Ok l.
Proof.
  unfold specific_location.
  induction 1 as [c ins outs id cc E|l r s Hl IHl Hr IHr E|l r s Hl IHl Hr IHr E|T S q s HT IHT HS IHS E]; intros loc Hloc.
  - pose proof (location_inj dim (TSimple cc) (b_simple _ _ _ _ _ _ E)) as Inj. cbn [all_locations] in *.
    destruct (compiled_simple _ _ _ _ _ _ _ E Hloc) as (n & En). rewrite En. cbn [comp_infos location_in info_get bind].
    eexists _, _. split; [reflexivity|]. split; [cbn; eauto|]. split; [reflexivity|]. split; [reflexivity|].
    cbn [construct_location comp_of sc_name]. rewrite String.eqb_refl.
    rewrite (find_unique _ _ loc Hloc); [reflexivity|apply locid_eqb_eq; exact En|].
    intros y Hy Ey. apply locid_eqb_eq in Ey. apply Inj; auto. congruence.
  - apply conjunction_new_inv in E. destruct E as (-> & _ & _). cbn [all_locations] in Hloc.
    apply in_all_compose in Hloc; [|left; reflexivity]. destruct Hloc as (a & b & Ha & Hb & Ep).
    destruct (IHl a Ha) as (x & p & X1 & X2 & X3 & X4 & X5). destruct (IHr b Hb) as (y & p' & Y1 & Y2 & Y3 & Y4 & Y5).
    pose proof (lt_compose_spec dim a b CConj loc (or_introl eq_refl) Ep) as (_ & El & Er & _).
    destruct (compose_id _ _ _ _ _ Ep) as [[_ Ei]|[? _]]; [|discriminate]. rewrite Ei. cbn [comp_infos location_in info_split bind].
    rewrite X1, Y1. cbn [bind]. eexists _, _. split; [reflexivity|]. split; [cbn; eauto 10|]. cbn [loc_to_proto]. rewrite X3, Y3. cbn [bind]. split; [reflexivity|].
    split; [cbn; rewrite X4, Y4; reflexivity|]. cbn [construct_location]. rewrite X5, Y5. exact Ep.
  - apply composition_new_inv in E. destruct E as (_ & ins & outs & lo & ro & co & -> & _). cbn [all_locations] in Hloc.
    apply in_all_compose in Hloc; [|right; reflexivity]. destruct Hloc as (a & b & Ha & Hb & Ep).
    destruct (IHl a Ha) as (x & p & X1 & X2 & X3 & X4 & X5). destruct (IHr b Hb) as (y & p' & Y1 & Y2 & Y3 & Y4 & Y5).
    pose proof (lt_compose_spec dim a b CComp loc (or_intror eq_refl) Ep) as (_ & El & Er & _).
    destruct (compose_id _ _ _ _ _ Ep) as [[? _]|[_ Ei]]; [discriminate|]. rewrite Ei. cbn [comp_infos location_in info_split bind].
    rewrite X1, Y1. cbn [bind]. eexists _, _. split; [reflexivity|]. split; [cbn; eauto 10|]. cbn [loc_to_proto]. rewrite X3, Y3. cbn [bind]. split; [reflexivity|].
    split; [cbn; rewrite X4, Y4; reflexivity|]. cbn [construct_location]. rewrite X5, Y5. exact Ep.
  - apply quotient_new_inv in E. destruct E as (n & ins & outs & -> & _). cbn [all_locations] in Hloc. apply in_app_or in Hloc.
    destruct Hloc as [Hloc|[<-|[<-|[]]]].
    + apply in_map_iff in Hloc. destruct Hloc as ([a b] & <- & Hp). cbn [fst snd]. apply in_prod_iff in Hp. destruct Hp as [Ha Hb].
      destruct (IHT a Ha) as (x & p & X1 & X2 & X3 & X4 & X5). destruct (IHS b Hb) as (y & p' & Y1 & Y2 & Y3 & Y4 & Y5).
      cbn [lt_id lt_quotient comp_infos location_in info_split bind]. rewrite X1, Y1. cbn [bind]. eexists _, _. split; [reflexivity|].
      split; [right; right; exists a, b, x, y; cbn; auto|]. cbn [loc_to_proto]. rewrite X3, Y3. cbn [bind]. split; [reflexivity|].
      split; [cbn; rewrite X4, Y4; reflexivity|]. cbn [construct_location]. rewrite X5, Y5. reflexivity.
    + eexists _, _. split; [reflexivity|]. split; [right; left; auto|]. split; [reflexivity|]. split; reflexivity.
    + eexists _, _. split; [reflexivity|]. split; [left; auto|]. split; [reflexivity|]. split; reflexivity.
Qed.

(** ** Zones *)
Lemma last_entry_in {V} k (m : list (nat * V)) v : last_entry k m = Some v -> In (k, v) m.
Proof.
  unfold last_entry. destruct (find _ (rev m)) as [[k' v']|] eqn:F; [|discriminate]. cbn. intros E. injection E as ->.
  apply find_some in F. destruct F as [F1 F2]. cbn in F2. apply Nat.eqb_eq in F2. subst k'. apply in_rev. exact F1.
Qed.
Lemma last_entry_none {V} k (m : list (nat * V)) : last_entry k m = None -> forall v, ~ In (k, v) m.
Proof.
  unfold last_entry. destruct (find _ (rev m)) as [[k' v']|] eqn:F; [discriminate|]. intros _ v H. apply in_rev in H.
  pose proof (find_none _ _ F _ H) as N. cbn in N. rewrite Nat.eqb_refl in N. discriminate.
Qed.
Lemma last_entry_unique {V} k (m : list (nat * V)) v : NoDup (map fst m) -> In (k, v) m -> last_entry k m = Some v.
Proof.
  intros N H. destruct (last_entry k m) as [w|] eqn:E; [|exfalso; eapply last_entry_none; eauto]. apply last_entry_in in E. f_equal.
  clear - N H E. induction m as [|[k' u] m IH]; [destruct H|]. cbn in N. inversion_clear N as [|? ? N1 N2].
  destruct H as [H|H], E as [E|E].
  - congruence.
  - injection H as -> ->. exfalso. apply N1. apply (in_map fst) in E. exact E.
  - injection E as -> ->. exfalso. apply N1. apply (in_map fst) in H. exact H.
  - auto.
Qed.

Section Zones.
Variables (dim : nat) (s : ts) (cord : list (string * nat) -> list (string * nat)).
Hypothesis Hinst : distinct_instances s.
Hypothesis Hnames : distinct_clock_names s.
Hypothesis H32 : fits_u32 dim.
Hypothesis Hcord : same_elements cord.

Lemma clock_map_in x n c : In (x, (n, c)) (clock_comp_map cord s) <->
  exists i, In i (instances s) /\ c = mkSC (cc_name i) (cc_id i) /\ In (n, x) (d_clocks (cc_decls i)).
Proof.
  unfold clock_comp_map. rewrite iter_instances, in_flat_map. split.
  - intros (i & Hi & H). apply in_map_iff in H. destruct H as ([n' x'] & E & H). cbn in E. injection E as -> -> <-. rewrite (Hcord _ _) in H. exists i. unfold comp_of. auto.
  - intros (i & Hi & -> & H). exists i. split; [exact Hi|]. apply in_map_iff. exists (n, x). split; [reflexivity|]. rewrite (Hcord _ _). exact H.
Qed.

Lemma clock_round x : (x < dim)%nat ->
  exists p, shows_clock s x (map_clock (clock_comp_map cord s) x) /\ clock_to_proto (map_clock (clock_comp_map cord s) x) = Ok p /\
    determine_index (decls_map s) p = Ok x.
Proof.
  intros Hx. unfold map_clock. destruct (Nat.eqb x 0) eqn:E0.
  - apply Nat.eqb_eq in E0. subst x. exists PCZero. split; [reflexivity|]. split; reflexivity.
  - destruct (last_entry x (clock_comp_map cord s)) as [[n c]|] eqn:E.
    + apply last_entry_in in E. apply clock_map_in in E. destruct E as (i & Hi & -> & Hn).
      eexists. split; [cbn; eauto|]. split; [reflexivity|]. cbn [determine_index unwrap bind comp_to_proto pc_index pc_name sc_id sc_name].
      rewrite (last_entry_unique _ _ (cc_name i, cc_decls i)).
      * cbn [unwrap bind]. rewrite String.eqb_refl. rewrite (assoc_nodup n _ x (Hnames i Hi) Hn). reflexivity.
      * unfold decls_map. rewrite iter_instances, map_map. cbn [fst]. exact Hinst.
      * unfold decls_map. rewrite iter_instances. apply in_map_iff. exists i. auto.
    + exists (PCSystem x). split; [split; [reflexivity|]|].
      * intros i n Hi Hn. apply (last_entry_none _ _ E (n, mkSC (cc_name i) (cc_id i))). apply clock_map_in. eauto.
      * split; [|reflexivity]. cbn. unfold fits_u32 in H32. destruct (Z.ltb_spec (Z.of_nat x) 4294967296); [reflexivity|lia].
Qed.

Lemma con_round c : (ci c < dim)%nat -> (cj c < dim)%nat ->
  shows_constraint s c (specific_con (clock_comp_map cord s) c) /\
  exists p, con_to_proto (specific_con (clock_comp_map cord s) c) = Ok p /\ con_from_proto (decls_map s) p = Ok c.
Proof.
  intros Hi Hj. destruct (clock_round (ci c) Hi) as (p & P1 & P2 & P3). destruct (clock_round (cj c) Hj) as (r & R1 & R2 & R3).
  split; [split; [exact P1|]; split; [exact R1|]; auto|].
  unfold con_to_proto, specific_con. cbn [sk_i sk_j sk_strict sk_c]. rewrite P2, R2. cbn [bind]. eexists. split; [reflexivity|].
  unfold con_from_proto. cbn. rewrite P3, R3. cbn. destruct c; reflexivity.
Qed.

Lemma mapM_round {A B C} (h : A -> B) (f : B -> res C) (g : C -> res A) l : (forall a, In a l -> exists b, f (h a) = Ok b /\ g b = Ok a) ->
  exists bs, mapM f (map h l) = Ok bs /\ mapM g bs = Ok l.
Proof.
  induction l as [|a l IH]; intros H; [exists []; auto|]. destruct (H a (or_introl eq_refl)) as (b & E1 & E2).
  destruct IH as (bs & F1 & F2); [intros; apply H; right; auto|]. exists (b :: bs). cbn. rewrite E1, F1, E2, F2. auto.
Qed.

Lemma zone_round f : (forall z c, In z f -> In c z -> (ci c < dim)%nat /\ (cj c < dim)%nat) ->
  Forall2 (Forall2 (shows_constraint s)) f (map (map (specific_con (clock_comp_map cord s))) f) /\
  exists p, zone_to_proto (map (map (specific_con (clock_comp_map cord s))) f) = Ok p /\ zone_from_proto dim s p = Ok f.
Proof.
  intros H. split.
  - induction f as [|z f IH]; cbn; constructor; [|apply IH; intros; eapply H; [right; eassumption|assumption]].
    assert (Hz : forall c, In c z -> (ci c < dim)%nat /\ (cj c < dim)%nat) by (intros c Hc; eapply H; [left; reflexivity|exact Hc]).
    clear - Hz H32 Hinst Hnames Hcord. induction z as [|c z IH]; cbn; constructor; [|apply IH; intros; apply Hz; right; assumption].
    apply con_round; apply Hz; left; reflexivity.
  - destruct (mapM_round (map (specific_con (clock_comp_map cord s))) (mapM con_to_proto) (mapM (con_from_proto (decls_map s))) f) as (p & E1 & E2).
    { intros z Hz. apply mapM_round. intros c Hc. destruct (H z c Hz Hc). apply con_round; assumption. }
    exists p. split; [exact E1|]. unfold zone_from_proto. rewrite E2. cbn [bind]. unfold from_disjunction.
    replace (forallb _ f) with true; [reflexivity|]. symmetry. apply forallb_forall. intros z Hz. apply forallb_forall. intros c Hc.
    destruct (H z c Hz Hc) as [A B]. apply andb_true_iff. split; apply Nat.ltb_lt; assumption.
Qed.
End Zones.

(** ** Transition identifiers *)

(** The identifier has the shape of the system wherever it says something. *)
Fixpoint fits (s : ts) (id : transid) : Prop :=
  id = TINone \/
  match s with
  | TSimple _ => exists e, id = TISimple e
  | TConj l r _ _ => exists a b, id = TIConj a b /\ fits l a /\ fits r b
  | TComp l r _ _ _ _ _ => exists a b, id = TIComp a b /\ fits l a /\ fits r b
  | TQuot t d _ _ _ _ => exists ls rs, id = TIQuot ls rs /\ (forall a, In a ls -> fits t a) /\ (forall b, In b rs -> fits d b)
  end.

Lemma fits_edges s : forall id, fits s id -> exists es, specific_edges id s = Ok es.
Proof.
  induction s as [c|l IHl r IHr i o|l IHl r IHr i o lo ro co|t IHt d IHd i o n q]; intros id [->|F]; try (eexists; reflexivity).
  - destruct F as (e & ->). eexists; reflexivity.
  - destruct F as (a & b & -> & Fa & Fb). destruct (IHl a Fa) as (x & X). destruct (IHr b Fb) as (y & Y). cbn. rewrite X, Y. eexists; reflexivity.
  - destruct F as (a & b & -> & Fa & Fb). destruct (IHl a Fa) as (x & X). destruct (IHr b Fb) as (y & Y). cbn. rewrite X, Y. eexists; reflexivity.
  - destruct F as (ls & rs & -> & Fl & Fr). cbn [specific_edges].
    set (go := fix go (ids : list transid) (s : ts) {struct ids} : res (list specedge) :=
       match ids with [] => Ok [] | i0 :: ids' => do x <- specific_edges i0 s; do y <- go ids' s; Ok (x ++ y) end).
    assert (G : forall u, (forall id, fits u id -> exists es, specific_edges id u = Ok es) -> forall ids, (forall a, In a ids -> fits u a) -> exists es, go ids u = Ok es).
    { intros u IH. induction ids as [|j ids IHi]; intros H; [eexists; reflexivity|]. destruct (IH j) as (x & X); [apply H; left; reflexivity|].
      destruct IHi as (y & Y); [intros; apply H; right; assumption|]. cbn. rewrite X. cbn. rewrite Y. eexists; reflexivity. }
    destruct (G t IHt ls Fl) as (x & X). destruct (G d IHd rs Fr) as (y & Y). rewrite X, Y. eexists; reflexivity.
Qed.

Lemma specific_edges_spec id : forall s es, specific_edges id s = Ok es ->
  forall x, In x es <-> exists c, takes_edge id s c (se_edge x) /\ se_comp x = mkSC (cc_name c) (cc_id c).
Proof.
  revert id. fix F 1. intros [a b|a b|ls rs|e|] s es E x.
  - cbn [specific_edges] in E. destruct s as [c|l r i o|l r i o lo ro co|t d i o n q]; try discriminate. inv_bind E. inv_bind E. injection E as <-. cbn [takes_edge].
    rewrite in_app_iff, (F a l _ ltac:(eassumption)), (F b r _ ltac:(eassumption)). split; [intros [(k & HH & Q)|(k & HH & Q)]; eauto|intros (k & [HH|HH] & Q); eauto].
  - cbn [specific_edges] in E. destruct s as [c|l r i o|l r i o lo ro co|t d i o n q]; try discriminate. inv_bind E. inv_bind E. injection E as <-. cbn [takes_edge].
    rewrite in_app_iff, (F a l _ ltac:(eassumption)), (F b r _ ltac:(eassumption)). split; [intros [(k & HH & Q)|(k & HH & Q)]; eauto|intros (k & [HH|HH] & Q); eauto].
  - cbn [specific_edges] in E. destruct s as [c|l r i o|l r i o lo ro co|t d i o n q]; try discriminate. cbn [takes_edge].
    inv_bind E. inv_bind E. injection E as <-. rewrite in_app_iff.
    assert (G : forall u ids es, (fix go (ids : list transid) (s : ts) {struct ids} : res (list specedge) :=
         match ids with [] => Ok [] | i0 :: ids' => do x <- specific_edges i0 s; do y <- go ids' s; Ok (x ++ y) end) ids u = Ok es ->
       (In x es <-> exists c, (fix any l := match l with [] => False | i :: l' => takes_edge i u c (se_edge x) \/ any l' end) ids /\ se_comp x = mkSC (cc_name c) (cc_id c))).
    { intros u. fix G 1. intros [|j ids] es' E'; [injection E' as <-; cbn; split; [intros []|intros (? & [] & _)]|].
      inv_bind E'. inv_bind E'. injection E' as <-. rewrite in_app_iff, (F j u _ ltac:(eassumption)), (G ids _ ltac:(eassumption)).
      split; [intros [(k & HH & Q)|(k & HH & Q)]; eauto|intros (k & [HH|HH] & Q); eauto]. }
    rewrite (G t ls _ ltac:(eassumption)), (G d rs _ ltac:(eassumption)). split; [intros [(k & HH & Q)|(k & HH & Q)]; eauto|intros (k & [HH|HH] & Q); eauto].
  - cbn [specific_edges] in E. destruct s as [c|l r i o|l r i o lo ro co|t d i o n q]; try discriminate. injection E as <-. cbn [takes_edge]. split.
    + intros [<-|[]]. cbn. eauto.
    + intros (k & [-> ->] & Q). left. destruct x as [xc xe]. cbn in *. subst xc. reflexivity.
  - cbn in E. injection E as <-. cbn. split; [intros []|]. intros (k & HH & _). destruct s; exact HH.
Qed.

(** ** Systems made from queries *)
Lemma compile_ids least pre dim r : forall k s k', compile_at least pre dim r k = Ok (s, k') -> (k <= k')%nat /\ map cc_id (instances s) = seq k (k' - k).
Proof.
  assert (J : forall (A B : list nat) k k1 k2, (k <= k1)%nat -> (k1 <= k2)%nat -> A = seq k (k1 - k) -> B = seq k1 (k2 - k1) -> A ++ B = seq k (k2 - k)).
  { intros A B k k1 k2 H1 H2 -> ->. replace (k2 - k)%nat with ((k1 - k) + (k2 - k1))%nat by lia. rewrite seq_app. replace (k + (k1 - k))%nat with k1 by lia. reflexivity. }
  induction r as [c|l IHl r IHr|l IHl r IHr|l IHl r IHr q]; intros k s k' E; cbn [compile_at] in E.
  - inv_bind E. injection E as <- <-. split; [lia|]. replace (S k - k)%nat with 1%nat by lia. cbn. f_equal.
    unfold compile_component, compile_with_actions in H. destruct (negb _); [discriminate|]. inv_bind H. inv_bind H. destruct (forallb _ _); [|discriminate]. injection H as <-. reflexivity.
  - inv_bind E. destruct a as [l' k1]. inv_bind E. destruct a as [r' k2]. inv_bind E. injection E as <- <-.
    apply composition_new_inv in H1. destruct H1 as (_ & ? & ? & ? & ? & ? & -> & _). destruct (IHl _ _ _ H), (IHr _ _ _ H0). split; [lia|]. cbn [instances]. rewrite map_app. eapply J; eauto.
  - inv_bind E. destruct a as [l' k1]. inv_bind E. destruct a as [r' k2]. inv_bind E. injection E as <- <-.
    unfold conjunction_ts in H1. inv_bind H1. inv_bind H1. destruct a1; [|discriminate]. injection H1 as <-.
    apply conjunction_new_inv in H2. destruct H2 as (-> & _ & _). destruct (IHl _ _ _ H), (IHr _ _ _ H0). split; [lia|]. cbn [instances]. rewrite map_app. eapply J; eauto.
  - inv_bind E. destruct a as [l' k1]. inv_bind E. destruct a as [r' k2]. inv_bind E. injection E as <- <-.
    unfold quotient_ts in H1. destruct (negb _); [discriminate|]. inv_bind H1. destruct a0; [|discriminate]. inv_bind H1. destruct a0; [|discriminate].
    apply quotient_new_inv in H1. destruct H1 as (? & ? & ? & -> & _). destruct (IHl _ _ _ H), (IHr _ _ _ H0). split; [lia|]. cbn [instances]. rewrite map_app. eapply J; eauto.
Qed.

Lemma compile_instances least pre dim r : forall k s k', compile_at least pre dim r k = Ok (s, k') -> map cc_decls (instances s) = map c_decls (components r).
Proof.
  induction r as [c|l IHl r IHr|l IHl r IHr|l IHl r IHr q]; intros k s k' E; cbn [compile_at] in E; cbn [components].
  - inv_bind E. injection E as <- <-. cbn. rewrite (compile_decls _ _ _ _ H). reflexivity.
  - inv_bind E. destruct a as [l' k1]. inv_bind E. destruct a as [r' k2]. inv_bind E. injection E as <- <-. rewrite map_app, <- (IHl _ _ _ H), <- (IHr _ _ _ H0).
    apply composition_new_inv in H1. destruct H1 as (_ & ? & ? & ? & ? & ? & -> & _). cbn [instances]. apply map_app.
  - inv_bind E. destruct a as [l' k1]. inv_bind E. destruct a as [r' k2]. inv_bind E. injection E as <- <-. rewrite map_app, <- (IHl _ _ _ H), <- (IHr _ _ _ H0).
    unfold conjunction_ts in H1. inv_bind H1. inv_bind H1. destruct a1; [|discriminate]. injection H1 as <-.
    apply conjunction_new_inv in H2. destruct H2 as (-> & _ & _). cbn [instances]. apply map_app.
  - inv_bind E. destruct a as [l' k1]. inv_bind E. destruct a as [r' k2]. inv_bind E. injection E as <- <-. rewrite map_app, <- (IHl _ _ _ H), <- (IHr _ _ _ H0).
    unfold quotient_ts in H1. destruct (negb _); [discriminate|]. inv_bind H1. destruct a0; [|discriminate]. inv_bind H1. destruct a0; [|discriminate].
    apply quotient_new_inv in H1. destruct H1 as (? & ? & ? & -> & _). cbn [instances]. apply map_app.
Qed.

Lemma sys_clocks_below dim q s : clocks_ok dim q s -> (forall x, In x (comp_clocks s) -> (x < dim)%nat) -> forall x, In x (sys_clocks s) -> (x < dim)%nat.
Proof.
  induction s as [c|l IHl r IHr i o|l IHl r IHr i o lo ro co|t IHt d IHd i o n q']; intros K H x Hx; cbn [clocks_ok comp_clocks sys_clocks] in *.
  - apply H. exact Hx.
  - apply in_app_or in Hx. destruct Hx as [Hx|Hx]; [apply IHl|apply IHr]; try tauto; intros y Hy; apply H, in_or_app; auto.
  - apply in_app_or in Hx. destruct Hx as [Hx|Hx]; [apply IHl|apply IHr]; try tauto; intros y Hy; apply H, in_or_app; auto.
  - destruct Hx as [<-|Hx]; [destruct K as (_ & _ & _ & -> & _ & K); exact K|].
    apply in_app_or in Hx. destruct Hx as [Hx|Hx]; [apply IHt|apply IHd]; try tauto; intros y Hy; apply H, in_or_app; auto.
Qed.
