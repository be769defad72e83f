(** Facts about the leaves of transition identifiers. *)
From Coq Require Import List String ZArith Bool Arith Lia.
From Verif Require Import Fed.Zone Model.Base Model.Expr Model.Guard Model.Loc Model.Component Model.TS Model.Leaves
  Spec.SystemSpec Spec.RunSpec Spec.LeavesSpec Proofs.GuardFacts Proofs.StepFacts Proofs.SystemFacts Proofs.WfFacts Proofs.DetComp.
Import ListNotations.

Lemma merge_nil_r {A} (a : list (list A)) : merge a [] = a. Proof. destruct a; reflexivity. Qed.
Lemma merge_assoc {A} (a : list (list A)) : forall b c, merge (merge a b) c = merge a (merge b c).
Proof. induction a as [|x a IH]; intros [|y b] [|z c]; cbn; try reflexivity. rewrite app_assoc, IH. reflexivity. Qed.
Lemma merge_length {A} n (a b : list (list A)) : (a = [] \/ List.length a = n) -> List.length b = n -> List.length (merge a b) = n.
Proof.
  intros [->|Ha] Hb; [exact Hb|]. revert b n Ha Hb. induction a as [|x a IH]; intros [|y b] [|n] Ha Hb; cbn in *; try congruence.
  f_equal. apply IH; congruence.
Qed.
Lemma merge_app {A} (a b a' b' : list (list A)) : List.length a = List.length a' -> merge (a ++ b) (a' ++ b') = merge a a' ++ merge b b'.
Proof. revert a'. induction a as [|x a IH]; intros [|y a'] H; cbn in *; try discriminate; [reflexivity|]. f_equal. apply IH. congruence. Qed.

Lemma ncomp_pos s : 0 < ncomp s.
Proof. induction s; cbn; lia. Qed.

Lemma fold_merge_length {A} n (es : list (list (list A))) : es <> [] -> (forall e, In e es -> List.length e = n) -> List.length (fold_right merge [] es) = n.
Proof.
  induction es as [|e es IH]; intros N H; [congruence|]. cbn. destruct es as [|e' es].
  - cbn. rewrite merge_nil_r. apply H. left. reflexivity.
  - apply merge_length; [right; apply H; left; reflexivity|]. apply IH; [discriminate|]. intros x Hx. apply H. right. exact Hx.
Qed.

Lemma edges_length s : forall id, covers s id -> List.length (edges_of s id) = ncomp s.
Proof.
  induction s as [c|l IHl r IHr i o|l IHl r IHr i o lo ro co|t IHt d IHd i o n q]; intros id C; cbn [covers] in C.
  - reflexivity.
  - destruct C as (a & b & -> & Ca & Cb). cbn. rewrite app_length, IHl, IHr; auto.
  - destruct C as (a & b & -> & Ca & Cb). cbn. rewrite app_length, IHl, IHr; auto.
  - destruct C as (ls & rs & -> & Nl & Nr & Cl & Cr). cbn. rewrite app_length. f_equal; apply fold_merge_length.
    + destruct ls; [congruence|discriminate].
    + intros e He. apply in_map_iff in He. destruct He as (x & <- & Hx). auto.
    + destruct rs; [congruence|discriminate].
    + intros e He. apply in_map_iff in He. destruct He as (x & <- & Hx). auto.
Qed.

Lemma push_at_spec {A} (a : A) x post : forall pre, push_at (List.length pre) a (pre ++ x :: post) = Some (pre ++ (x ++ [a]) :: post).
Proof. induction pre as [|y pre IH]; [reflexivity|]. cbn. rewrite IH. reflexivity. Qed.

(** Where the leaves of a part go: either behind everything so far, or onto the places
    of the same part. *)
Definition room (n : nat) (mid post : list (list transid)) : Prop := (mid = [] /\ post = []) \/ List.length mid = n.

Lemma leaf_spec id pre mid post : (id = TINone \/ exists e, id = TISimple e) -> room 1 mid post ->
  leaves_helper id (pre ++ mid ++ post) (List.length pre) = Ok (pre ++ merge mid [[id]] ++ post, List.length pre).
Proof.
  intros Hid R.
  assert (E : leaves_helper id (pre ++ mid ++ post) (List.length pre) =
    (do acc <- unwrap (push_at (List.length pre) id (if Nat.leb (List.length (pre ++ mid ++ post)) (List.length pre) then (pre ++ mid ++ post) ++ [[]] else pre ++ mid ++ post)); Ok (acc, List.length pre))).
  { destruct Hid as [->|(e & ->)]; reflexivity. }
  rewrite E. clear E. destruct R as [[-> ->]|R].
  - cbn [app]. rewrite !app_nil_r, Nat.leb_refl. rewrite push_at_spec. reflexivity.
  - destruct mid as [|x [|]]; try discriminate. cbn [app merge].
    replace (Nat.leb _ _) with false by (symmetry; apply Nat.leb_gt; rewrite app_length; cbn; lia).
    rewrite push_at_spec. reflexivity.
Qed.

Lemma helper_spec s : forall id, covers s id -> forall pre mid post, room (ncomp s) mid post ->
  leaves_helper id (pre ++ mid ++ post) (List.length pre) = Ok (pre ++ merge mid (edges_of s id) ++ post, List.length pre + ncomp s - 1).
Proof.
  induction s as [c|l IHl r IHr i o|l IHl r IHr i o lo ro co|t IHt d IHd i o n q]; intros id C pre mid post R; cbn [covers] in C; cbn [edges_of ncomp] in *.
  - rewrite (leaf_spec id pre mid post C R). do 2 f_equal. lia.
  - destruct C as (a & b & -> & Ca & Cb).
    pose proof (ncomp_pos l) as Pl. pose proof (ncomp_pos r) as Pr. pose proof (edges_length l a Ca) as Ll. pose proof (edges_length r b Cb) as Lr.
    assert (X : exists ml mr, mid = ml ++ mr /\ room (ncomp l) ml (mr ++ post) /\ (ml = [] /\ mr = [] /\ post = [] \/ List.length ml = ncomp l /\ List.length mr = ncomp r)).
    { destruct R as [[-> ->]|R].
      - exists [], []. split; [reflexivity|]. split; [left; auto|left; auto].
      - exists (firstn (ncomp l) mid), (skipn (ncomp l) mid). split; [symmetry; apply firstn_skipn|].
        assert (L1 : List.length (firstn (ncomp l) mid) = ncomp l) by (rewrite firstn_length; lia).
        assert (L2 : List.length (skipn (ncomp l) mid) = ncomp r) by (rewrite skipn_length; lia).
        split; [right; exact L1|right; auto]. }
    destruct X as (ml & mr & -> & Rl & X). cbn [leaves_helper]. rewrite <- app_assoc.
    rewrite (IHl a Ca pre ml (mr ++ post) Rl). cbn [bind].
    assert (Lm : List.length (merge ml (edges_of l a)) = ncomp l) by (apply merge_length; [destruct X as [(-> & _)|[X _]]; auto|exact Ll]).
    replace (S (List.length pre + ncomp l - 1)) with (List.length (pre ++ merge ml (edges_of l a))) by (rewrite app_length; lia).
    rewrite (app_assoc pre). rewrite (IHr b Cb (pre ++ merge ml (edges_of l a)) mr post).
    + f_equal. f_equal; [|rewrite app_length; lia]. rewrite <- !app_assoc. f_equal. rewrite app_assoc. f_equal.
      destruct X as [(-> & -> & _)|[X1 X2]]; [reflexivity|]. symmetry. apply merge_app. congruence.
    + destruct X as [(_ & -> & ->)|[_ X]]; [left; auto|right; exact X].
  - destruct C as (a & b & -> & Ca & Cb).
    pose proof (ncomp_pos l) as Pl. pose proof (ncomp_pos r) as Pr. pose proof (edges_length l a Ca) as Ll. pose proof (edges_length r b Cb) as Lr.
    assert (X : exists ml mr, mid = ml ++ mr /\ room (ncomp l) ml (mr ++ post) /\ (ml = [] /\ mr = [] /\ post = [] \/ List.length ml = ncomp l /\ List.length mr = ncomp r)).
    { destruct R as [[-> ->]|R].
      - exists [], []. split; [reflexivity|]. split; [left; auto|left; auto].
      - exists (firstn (ncomp l) mid), (skipn (ncomp l) mid). split; [symmetry; apply firstn_skipn|].
        assert (L1 : List.length (firstn (ncomp l) mid) = ncomp l) by (rewrite firstn_length; lia).
        assert (L2 : List.length (skipn (ncomp l) mid) = ncomp r) by (rewrite skipn_length; lia).
        split; [right; exact L1|right; auto]. }
    destruct X as (ml & mr & -> & Rl & X). cbn [leaves_helper]. rewrite <- app_assoc.
    rewrite (IHl a Ca pre ml (mr ++ post) Rl). cbn [bind].
    assert (Lm : List.length (merge ml (edges_of l a)) = ncomp l) by (apply merge_length; [destruct X as [(-> & _)|[X _]]; auto|exact Ll]).
    replace (S (List.length pre + ncomp l - 1)) with (List.length (pre ++ merge ml (edges_of l a))) by (rewrite app_length; lia).
    rewrite (app_assoc pre). rewrite (IHr b Cb (pre ++ merge ml (edges_of l a)) mr post).
    + f_equal. f_equal; [|rewrite app_length; lia]. rewrite <- !app_assoc. f_equal. rewrite app_assoc. f_equal.
      destruct X as [(-> & -> & _)|[X1 X2]]; [reflexivity|]. symmetry. apply merge_app. congruence.
    + destruct X as [(_ & -> & ->)|[_ X]]; [left; auto|right; exact X].
  - destruct C as (ls & rs & -> & Nl & Nr & Cl & Cr).
    pose proof (ncomp_pos t) as Pt. pose proof (ncomp_pos d) as Pd.
    set (el := fold_right merge [] (map (edges_of t) ls)). set (er := fold_right merge [] (map (edges_of d) rs)).
    assert (Lel : List.length el = ncomp t).
    { apply fold_merge_length; [destruct ls; [congruence|discriminate]|]. intros e He. apply in_map_iff in He. destruct He as (x & <- & Hx). apply edges_length. auto. }
    assert (Ler : List.length er = ncomp d).
    { apply fold_merge_length; [destruct rs; [congruence|discriminate]|]. intros e He. apply in_map_iff in He. destruct He as (x & <- & Hx). apply edges_length. auto. }
    assert (X : exists ml mr, mid = ml ++ mr /\ room (ncomp t) ml (mr ++ post) /\ (ml = [] /\ mr = [] /\ post = [] \/ List.length ml = ncomp t /\ List.length mr = ncomp d)).
    { destruct R as [[-> ->]|R].
      - exists [], []. split; [reflexivity|]. split; [left; auto|left; auto].
      - exists (firstn (ncomp t) mid), (skipn (ncomp t) mid). split; [symmetry; apply firstn_skipn|].
        assert (L1 : List.length (firstn (ncomp t) mid) = ncomp t) by (rewrite firstn_length; lia).
        assert (L2 : List.length (skipn (ncomp t) mid) = ncomp d) by (rewrite skipn_length; lia).
        split; [right; exact L1|right; auto]. }
    destruct X as (ml & mr & -> & Rl & X). cbn [leaves_helper].
    (* one side of the quotient *)
    assert (Side : forall (u : ts), (forall id, covers u id -> forall pre mid post, room (ncomp u) mid post ->
        leaves_helper id (pre ++ mid ++ post) (List.length pre) = Ok (pre ++ merge mid (edges_of u id) ++ post, List.length pre + ncomp u - 1)) ->
      forall ids pre mid post k, (forall x, In x ids -> covers u x) -> room (ncomp u) mid post -> (ids = [] -> k = List.length pre + ncomp u - 1) ->
      (fix go (ts : list transid) (acc : list (list transid)) (il : nat) :=
         match ts with [] => Ok (acc, il) | t0 :: ts' => do (a, i0) <- leaves_helper t0 acc (List.length pre); go ts' a i0 end) ids (pre ++ mid ++ post) k =
      Ok (pre ++ merge mid (fold_right merge [] (map (edges_of u) ids)) ++ post, List.length pre + ncomp u - 1)).
    { intros u IHu. induction ids as [|x ids IH]; intros pre0 mid0 post0 k Hx R0 Hk.
      - cbn [map fold_right]. rewrite merge_nil_r, (Hk eq_refl). reflexivity.
      - rewrite (IHu x (Hx x (or_introl eq_refl)) pre0 mid0 post0 R0). cbn [bind].
        rewrite IH; [|intros y Hy; apply Hx; right; exact Hy| |reflexivity].
        + cbn [map fold_right]. rewrite merge_assoc. reflexivity.
        + right. apply merge_length; [destruct R0 as [[-> _]|R0]; auto|]. apply edges_length. apply Hx. left. reflexivity. }
    rewrite <- app_assoc. rewrite (Side t IHt ls pre ml (mr ++ post) (List.length pre) Cl Rl); [|intros ->; congruence]. cbn [bind]. fold el.
    assert (Lm : List.length (merge ml el) = ncomp t) by (apply merge_length; [destruct X as [(-> & _)|[X _]]; auto|exact Lel]).
    replace (S (List.length pre + ncomp t - 1)) with (List.length (pre ++ merge ml el)) by (rewrite app_length; lia).
    rewrite (app_assoc pre).
    rewrite (Side d IHd rs (pre ++ merge ml el) mr post (List.length pre + ncomp t - 1) Cr); [|destruct X as [(_ & -> & ->)|[_ X]]; [left; auto|right; exact X]|intros ->; congruence].
    fold er. f_equal. f_equal; [|rewrite app_length; lia]. rewrite <- !app_assoc. f_equal. rewrite app_assoc. f_equal.
    destruct X as [(-> & -> & _)|[X1 X2]]; [reflexivity|]. symmetry. apply merge_app. congruence.
Qed.

Theorem leaves_spec s id : covers s id -> get_leaves id = Ok (edges_of s id).
Proof.
  intros C. unfold get_leaves. pose proof (helper_spec s id C [] [] [] (or_introl (conj eq_refl eq_refl))) as H. cbn [app List.length] in H.
  rewrite H. cbn. rewrite app_nil_r. reflexivity.
Qed.

(** Splitting a path. *)
Definition drop_none (l : list transid) : list transid := filter (fun id => negb (is_none id)) l.
Lemma push_leaves_spec n : forall leaves pre mid, List.length mid = List.length leaves ->
  push_leaves n n (List.length pre) leaves (pre ++ mid) = Ok (pre ++ map (fun p => fst p ++ [drop_none (snd p)]) (combine mid leaves)).
Proof.
  induction leaves as [|t leaves IH]; intros pre [|x mid] H; try discriminate; [reflexivity|]. cbn [push_leaves]. rewrite Nat.eqb_refl. cbn [negb].
  rewrite push_at_spec. cbn [unwrap bind]. change (pre ++ (x ++ [filter (fun id => negb (is_none id)) t]) :: mid) with (pre ++ [x ++ [drop_none t]] ++ mid).
  rewrite app_assoc. replace (S (List.length pre)) with (List.length (pre ++ [x ++ [drop_none t]])) by (rewrite app_length; cbn; lia).
  rewrite IH by (cbn in H; congruence). rewrite <- app_assoc. reflexivity.
Qed.

Lemma nth_combine {A B} (f : A * B -> A) (a0 : A) (b0 : B) : forall (l : list A) (m : list B) k, (k < List.length l)%nat -> List.length l = List.length m ->
  nth k (map f (combine l m)) a0 = f (nth k l a0, nth k m b0).
Proof. induction l as [|a l IH]; intros [|b m] [|k] Hk H; cbn in *; try lia; try congruence. apply IH; [lia|congruence]. Qed.

Theorem split_spec s path : path <> [] -> (forall id, In id path -> covers s id) ->
  exists paths, split_paths path = Ok paths /\ List.length paths = ncomp s /\
    forall k, (k < ncomp s)%nat -> nth k paths [] = map (fun id => drop_none (nth k (edges_of s id) [])) path.
Proof.
  intros Ne C.
  assert (G : forall ids acc, (forall id, In id ids -> covers s id) -> List.length acc = ncomp s ->
    exists paths, (fix go (ids : list transid) (paths : list (list (list transid))) :=
         match ids with
         | [] => Ok paths
         | id :: ids' => do l <- get_leaves id; do paths <- push_leaves (ncomp s) (List.length l) 0 l paths; go ids' paths
         end) ids acc = Ok paths /\ List.length paths = ncomp s /\
      forall k, (k < ncomp s)%nat -> nth k paths [] = nth k acc [] ++ map (fun id => drop_none (nth k (edges_of s id) [])) ids).
  { induction ids as [|id ids IH]; intros acc Ci La.
    - exists acc. split; [reflexivity|]. split; [exact La|]. intros k _. cbn. rewrite app_nil_r. reflexivity.
    - rewrite (leaves_spec s id (Ci id (or_introl eq_refl))). cbn [bind]. pose proof (edges_length s id (Ci id (or_introl eq_refl))) as Le.
      rewrite Le. pose proof (push_leaves_spec (ncomp s) (edges_of s id) [] acc ltac:(congruence)) as Pl. cbn [List.length app] in Pl. rewrite Pl. cbn [bind].
      set (acc' := map _ (combine acc (edges_of s id))).
      assert (La' : List.length acc' = ncomp s) by (unfold acc'; rewrite map_length, combine_length; lia).
      destruct (IH acc' (fun x Hx => Ci x (or_intror Hx)) La') as (paths & E & L & H). exists paths. split; [exact E|]. split; [exact L|].
      intros k Hk. rewrite (H k Hk). unfold acc'. rewrite (nth_combine _ [] []) by lia. cbn [fst snd map]. rewrite <- app_assoc. reflexivity. }
  destruct (G path (repeat [] (ncomp s)) C (repeat_length _ _)) as (paths & E & L & H). exists paths. split.
  { destruct path as [|id0 path0]; [congruence|]. unfold split_paths. rewrite (leaves_spec s id0) by (apply C; left; reflexivity). cbn [bind].
    rewrite (leaves_spec s id0) in E by (apply C; left; reflexivity). cbn [bind] in E.
    rewrite (edges_length s id0) in * by (apply C; left; reflexivity). exact E. }
  split; [exact L|].
  intros k Hk. rewrite (H k Hk). rewrite nth_repeat. reflexivity.
Qed.

(** What systems without quotients offer. *)
Lemma in_combinations dim c ls rs ts t : proper c -> combinations dim ls rs c = Ok ts -> In t ts ->
  exists a b, In a ls /\ In b rs /\ combine_ids c (t_id a) (t_id b) = Ok (t_id t).
Proof.
  intros Hc E Ht. unfold combinations in E. apply mapM_in in E. destruct E as [_ E]. destruct (E t Ht) as ([a b] & Hp & F).
  apply in_prod_iff in Hp. cbn [fst snd] in F. unfold combine_pair in F. inv_bind F. inv_bind F. injection F as <-. exists a, b. cbn [t_id]. tauto.
Qed.

Theorem offered_ids dim s : built dim s -> forall loc a t, In loc (all_locations dim s) -> offered dim s loc a t -> all_take_part s a ->
  covers s (t_id t) /\ took s loc a (t_id t).
Proof.
  induction 1 as [c ins outs id cc E|l r s Hl IHl Hr IHr E|l r s Hl IHl Hr IHr E|T S q s HT IHT HS IHS E]; intros loc a t Hloc [Ha (ts & Ets & Ht)] P.
  - cbn [next_transitions] in Ets. apply has_action_spec in Ha. rewrite Ha in Ets. cbn [negb] in Ets. cbn [covers took].
    destruct (is_universal loc) eqn:Eu; [injection Ets as <-; destruct Ht as [<-|[]]; cbn [t_without_id t_id]; split; [left; reflexivity|left; split; [reflexivity|auto]]|].
    destruct (is_inconsistent loc && sin a (cc_inputs cc)) eqn:Ei.
    { injection Ets as <-. destruct Ht as [<-|[]]. apply andb_true_iff in Ei. destruct Ei as [Ei _]. cbn [t_without_id t_id]. split; [left; reflexivity|left; split; [reflexivity|auto]]. }
    destruct (assoc_loc (lt_id loc) (cc_edges cc)) as [es|] eqn:Ee; [|discriminate]. cbn in Ets. injection Ets as <-.
    apply in_map_iff in Ht. destruct Ht as ([b t'] & Et & Hp). cbn [snd] in Et. subst t'. apply filter_In in Hp. destruct Hp as [Hp Eb].
    cbn [fst] in Eb. apply String.eqb_eq in Eb. subst b.
    assert (F : exists e, t_id t = TISimple e).
    { pose proof Ee as Ee'. unfold assoc_loc in Ee'. destruct (find _ (cc_edges cc)) as [[i es']|] eqn:Ff; [|discriminate]. cbn in Ee'. injection Ee' as ->.
      apply find_some_in in Ff. destruct (compiled_edge _ _ _ _ _ _ E i es a t Ff Hp) as (e & _ & _ & _ & Fe).
      unfold from_component_and_edge in Fe. inv_bind Fe. inv_bind Fe. inv_bind Fe. inv_bind Fe. injection Fe as <-. cbn. eauto. }
    destruct F as (e & F). split; [right; eauto|]. right. exists es, t, e. auto.
  - pose proof E as E'. apply conjunction_new_inv in E. destruct E as (-> & _ & _). cbn [all_locations] in Hloc.
    apply in_all_compose in Hloc; [|left; reflexivity]. destruct Hloc as (ll & lr & Hll & Hlr & Ep).
    destruct (compose_node _ _ _ _ _ Ep) as (i & f & y0 & ->).
    assert (Al : is_action l a /\ is_action r a).
    { unfold is_action, is_input, is_output in *. cbn [ts_inputs ts_outputs] in Ha. rewrite !in_sinter in Ha. tauto. }
    apply has_action_spec in Ha. cbn [next_transitions] in Ets. rewrite Ha in Ets. cbn [negb lt_left lt_right bind] in Ets. inv_bind Ets. inv_bind Ets.
    destruct (in_combinations _ _ _ _ _ _ (or_introl eq_refl) Ets Ht) as (x & y & Hx & Hy & Ec). cbn in Ec. injection Ec as Ec. cbn [all_take_part] in P.
    destruct (IHl ll a x Hll) as [C1 T1]; [split; [tauto|eauto]|tauto|]. destruct (IHr lr a y Hlr) as [C2 T2]; [split; [tauto|eauto]|tauto|].
    rewrite <- Ec. cbn [covers took]. split; [eauto 6|]. exists (t_id x), (t_id y), ll, lr. auto.
  - apply composition_new_inv in E. destruct E as (_ & ins & outs & lo & ro & co & -> & _ & _ & Lo & Ro & Co). cbn [all_locations] in Hloc.
    apply in_all_compose in Hloc; [|right; reflexivity]. destruct Hloc as (ll & lr & Hll & Hlr & Ep).
    destruct (compose_node _ _ _ _ _ Ep) as (i & f & y0 & ->).
    apply has_action_spec in Ha. cbn [next_transitions] in Ets. rewrite Ha in Ets. cbn [negb lt_left lt_right bind] in Ets. cbn [all_take_part] in P. destruct P as [P1 P2].
    assert (NA : forall u, ~ is_action u a -> has_action u a = false).
    { intros u H. destruct (has_action u a) eqn:F; [|reflexivity]. apply has_action_spec in F. contradiction. }
    assert (Go : forall u, (has_action u a = true /\ all_take_part u a \/ (exists c, u = TSimple c)) -> is_action u a -> all_take_part u a).
    { intros u [[_ H]|(c & ->)] _; [exact H|exact I]. }
    destruct (sin a co) eqn:Sc; [|destruct (sin a lo) eqn:Sl; [|destruct (sin a ro) eqn:Sr; [|discriminate]]].
    + apply sin_In in Sc. apply Co in Sc. inv_bind Ets. inv_bind Ets.
      destruct (in_combinations _ _ _ _ _ _ (or_intror eq_refl) Ets Ht) as (x & y & Hx & Hy & Ec). cbn in Ec. injection Ec as Ec.
      destruct (IHl ll a x Hll) as [C1 T1]; [split; [tauto|eauto]|apply (Go l P1); tauto|].
      destruct (IHr lr a y Hlr) as [C2 T2]; [split; [tauto|eauto]|apply (Go r P2); tauto|].
      rewrite <- Ec. cbn [covers took]. split; [eauto 6|]. exists (t_id x), (t_id y), ll, lr. auto.
    + apply sin_In in Sl. apply Lo in Sl. destruct Sl as [Sl Nr]. inv_bind Ets.
      destruct (in_combinations _ _ _ _ _ _ (or_intror eq_refl) Ets Ht) as (x & y & Hx & [<-|[]] & Ec). cbn in Ec. injection Ec as Ec.
      destruct (IHl ll a x Hll) as [C1 T1]; [split; [tauto|eauto]|apply (Go l P1); tauto|].
      apply NA in Nr. destruct P2 as [[P2 _]|(c2 & ->)]; [congruence|].
      rewrite <- Ec. cbn [covers took]. split; [exists (t_id x), TINone; auto|]. exists (t_id x), TINone, ll, lr. auto 8.
    + apply sin_In in Sr. apply Ro in Sr. destruct Sr as [Sr Nl]. inv_bind Ets.
      destruct (in_combinations _ _ _ _ _ _ (or_intror eq_refl) Ets Ht) as (x & y & [<-|[]] & Hy & Ec). cbn in Ec. injection Ec as Ec.
      destruct (IHr lr a y Hlr) as [C2 T2]; [split; [tauto|eauto]|apply (Go r P2); tauto|].
      apply NA in Nl. destruct P1 as [[P1 _]|(c1 & ->)]; [congruence|].
      rewrite <- Ec. cbn [covers took]. split; [exists TINone, (t_id y); auto|]. exists TINone, (t_id y), ll, lr. auto 8.
  - apply quotient_new_inv in E. destruct E as (n & ins & outs & -> & _). destruct P.
Qed.
