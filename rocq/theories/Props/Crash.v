(** C67: interrupted command lines. *)
From Coq Require Import List String Ascii ZArith QArith Bool Arith Lia.
From Verif Require Import Fed.Zone Fed.ZoneFacts Fed.Check Model.Base Model.Expr Model.Guard Model.Loc Model.Component Model.Enable Model.ParseQuery Model.Peg Model.ParseEdge Model.Files Model.Xml Model.Server
  Model.TS Model.Recipe Model.Reduce Model.Refine Model.Query Model.Exec Model.Loader Model.Cli Model.Crash
  Spec.SystemSpec Spec.RunSpec Spec.TextSpec Spec.FileSpec Spec.QuerySpec Spec.RefineSpec Spec.ExecSpec Spec.LoaderSpec Spec.CliSpec Spec.StandSpec Spec.CrashSpec
  Proofs.GuardFacts Proofs.LoaderFacts Proofs.StoreFacts Props.Exec Props.Xml Props.Loader Props.Store Props.Queries Props.Stand Props.Cli.
Import ListNotations.
Local Open Scope string_scope.
Local Open Scope list_scope.
Local Open Scope nat_scope.

Lemma run_query_elsewhere ch reduce load load' q : (forall n, asks n q -> load' n = load n) -> run_query ch reduce load' q = run_query ch reduce load q.
Proof.
  intros X.
  assert (One : forall e, (forall n, mentions n e -> load' n = load n) -> one_system ch reduce load' e = one_system ch reduce load e) by (intros e H; unfold one_system; rewrite (recipe_elsewhere load load' e H); reflexivity).
  assert (Two : forall e f, (forall n, mentions n e \/ mentions n f -> load' n = load n) -> two_systems ch reduce load' e f = two_systems ch reduce load e f).
  { intros e f H. unfold two_systems, two_recipes. rewrite (recipe_elsewhere load load' e) by auto. destruct (get_system_recipe load e (0, None)) as [[a b]| | |]; cbn [bind]; try reflexivity. rewrite (recipe_elsewhere load load' f) by auto. reflexivity. }
  assert (Reach : forall e from to, (forall n, mentions n e -> load' n = load n) -> reach_query (the_least ch) (the_pre ch) load' e from to = reach_query (the_least ch) (the_pre ch) load e from to).
  { intros e from to H. unfold reach_query. rewrite (recipe_elsewhere load load' e H). reflexivity. }
  destruct q; cbn [run_query asks] in *; try reflexivity; first [rewrite Two by assumption|rewrite Reach by assumption|rewrite One by assumption]; reflexivity.
Qed.
Lemma looked_up_file minc fs fs' sp n : fs' n = fs n -> looked_up minc (AJson (json_new fs' sp)) n = looked_up minc (AJson (json_new fs sp)) n.
Proof.
  intros E. unfold looked_up, get_component, json_get, load_component, read_json_component, json_new. cbn [jp_loaded jp_files jp_spec assoc bind]. rewrite E. destruct (fs n) as [f|]; [|reflexivity].
  destruct (expect (decode_component f)) as [c| | |]; cbn [bind]; try reflexivity. destruct (enable_declared minc sp c); cbn [bind jp_loaded]; try reflexivity. destruct (get_loaded _ n); reflexivity.
Qed.

Lemma nth_error_firstn {A} : forall k (l : list A) i, i < k -> nth_error (firstn k l) i = nth_error l i.
Proof. induction k as [|k IH]; intros l i Li; [lia|]. destruct l as [|x l]; [reflexivity|]. destruct i as [|i]; [reflexivity|]. cbn [firstn nth_error]. apply IH. lia. Qed.

(** ** The moments *)
Lemma whole_intact fs : intact (whole fs) fs.
Proof. intros n. reflexivity. Qed.
Lemma run_all_snoc chs minc reduce q a p1 p2 : forall qs p i as_, run_all chs minc reduce p i (map Some qs) = Ok (as_, p1) -> run_query (chs (i + List.length qs)) reduce (looked_up minc p1) q = Ok a ->
  (match a with AComponent c => Loader.save_component p1 c | _ => Ok p1 end) = Ok p2 -> run_all chs minc reduce p i (map Some (qs ++ [q])) = Ok (as_ ++ [a], p2).
Proof.
  induction qs as [|q0 qs IH]; intros p i as_ E Q Sv; cbn [map app run_all List.length] in *.
  - injection E as <- <-. rewrite Nat.add_0_r in Q. cbn [unwrap bind]. rewrite Q. cbn [bind]. rewrite Sv. reflexivity.
  - cbn [unwrap bind] in *. apply bind_ok in E. destruct E as (b & Eb & E). apply bind_ok in E. destruct E as (p3 & E3 & E). apply bind_ok in E. destruct E as ([rest p4] & E4 & E). injection E as <- <-.
    rewrite Eb. cbn [bind]. rewrite E3. cbn [bind]. rewrite Nat.add_succ_r in Q. rewrite (IH p3 (S i) rest E4 Q Sv). reflexivity.
Qed.
Lemma run_all_last chs minc reduce q a p1 p2 : forall qs p i as_, run_all chs minc reduce p i (map Some qs) = Ok (as_, p1) -> run_all chs minc reduce p i (map Some (qs ++ [q])) = Ok (as_ ++ [a], p2) ->
  run_query (chs (i + List.length qs)) reduce (looked_up minc p1) q = Ok a.
Proof.
  induction qs as [|q0 qs IH]; intros p i as_ E E'; cbn [map app run_all List.length] in *.
  - injection E as <- <-. cbn [unwrap bind app] in E'. apply bind_ok in E'. destruct E' as (b & Eb & E). apply bind_ok in E. destruct E as (p3 & E3 & E). injection E as <- <-. rewrite Nat.add_0_r. destruct (run_query _ _ _ _); try discriminate Eb. exact Eb.
  - cbn [unwrap bind] in *. apply bind_ok in E. destruct E as (b & Eb & E). apply bind_ok in E. destruct E as (p3 & E3 & E). apply bind_ok in E. destruct E as ([rest p4] & E4 & E). injection E as <- <-.
    rewrite Eb in E'. cbn [bind] in E'. rewrite E3 in E'. cbn [bind app] in E'. apply bind_ok in E'. destruct E' as ([rest' p5] & E5 & E'). injection E' as -> ->. rewrite Nat.add_succ_r. exact (IH p3 (S i) rest E4 E5).
Qed.
(** The contents one after the other, in terms of what was run. *)
Lemma moments_run chs minc reduce m : forall qs j i, In m (moments chs minc reduce j i (map Some qs)) <->
  exists k as_ j', k <= List.length qs /\ run_all chs minc reduce (AJson j) i (map Some (firstn k qs)) = Ok (as_, AJson j') /\
    (m = whole (jp_files j') \/ exists q c, nth_error qs k = Some q /\ run_query (chs (i + k)) reduce (looked_up minc (AJson j')) q = Ok (AComponent c) /\ m = emptied (c_name c) (whole (jp_files j'))).
Proof.
  induction qs as [|q qs IH]; intros j i.
  - cbn [map moments In]. split.
    + intros [<-|[]]. exists 0, [], j. split; [apply Nat.le_0_l|]. split; [reflexivity|left; reflexivity].
    + intros (k & as_ & j' & K & E & D). rewrite firstn_nil in E. cbn [map run_all] in E. injection E as <- <-. destruct D as [->|(q & c & Q & _)]; [left; reflexivity|]. destruct k; discriminate Q.
  - cbn [map moments]. split.
    + intros [<-|H]; [exists 0, [], j; split; [apply Nat.le_0_l|]; split; [reflexivity|left; reflexivity]|].
      destruct (run_query (chs i) reduce (looked_up minc (AJson j)) q) as [a| | |] eqn:Q; try destruct H.
      assert (Go : forall j1, (match a with AComponent c => Loader.save_component (AJson j) c | _ => Ok (AJson j) end) = Ok (AJson j1) -> In m (moments chs minc reduce j1 (S i) (map Some qs)) ->
        exists k as_ j', k <= List.length (q :: qs) /\ run_all chs minc reduce (AJson j) i (map Some (firstn k (q :: qs))) = Ok (as_, AJson j') /\
        (m = whole (jp_files j') \/ exists q0 c, nth_error (q :: qs) k = Some q0 /\ run_query (chs (i + k)) reduce (looked_up minc (AJson j')) q0 = Ok (AComponent c) /\ m = emptied (c_name c) (whole (jp_files j')))).
      { intros j1 S1 H1. apply IH in H1. destruct H1 as (k & as_ & j' & K & E & D). exists (S k), (a :: as_), j'. split; [cbn [List.length]; lia|]. split.
        - cbn [firstn map run_all unwrap bind]. rewrite Q. cbn [bind]. rewrite S1. cbn [bind]. rewrite E. reflexivity.
        - cbn [nth_error]. rewrite Nat.add_succ_r. exact D. }
      destruct a as [o|o|b|o|c]; try (apply (Go j); [reflexivity|exact H]).
      destruct H as [<-|H].
      * exists 0, [], j. split; [apply Nat.le_0_l|]. split; [reflexivity|]. right. exists q, c. rewrite Nat.add_0_r. auto.
      * destruct (json_save j c) as [j1| | |] eqn:Sv; try destruct H. apply (Go j1); [|exact H]. cbn [Loader.save_component]. rewrite Sv. reflexivity.
    + intros (k & as_ & j' & K & E & D). destruct k as [|k].
      * cbn [firstn map run_all] in E. injection E as <- <-. destruct D as [->|(q0 & c & Q0 & Q & ->)]; [left; reflexivity|]. cbn [nth_error] in Q0. injection Q0 as <-. rewrite Nat.add_0_r in Q. rewrite Q. right. left. reflexivity.
      * right. cbn [firstn map run_all unwrap bind] in E. cbn [nth_error List.length] in *. apply bind_ok in E. destruct E as (a & Ea & E). apply bind_ok in E. destruct E as (p1 & E1 & E). apply bind_ok in E. destruct E as ([rest p2] & E2 & E). injection E as <- ->.
        destruct (run_query (chs i) reduce (looked_up minc (AJson j)) q) as [a'| | |]; try discriminate Ea. injection Ea as ->.
        assert (Back : forall j1, p1 = AJson j1 -> In m (moments chs minc reduce j1 (S i) (map Some qs))).
        { intros j1 ->. apply IH. exists k, rest, j'. split; [lia|]. split; [exact E2|]. rewrite Nat.add_succ_r in D. exact D. }
        destruct a as [o|o|b|o|c]; try (injection E1 as <-; apply Back; reflexivity). right. cbn [Loader.save_component] in E1. apply bind_ok in E1. destruct E1 as (j1 & Ej & E1). injection E1 as <-. rewrite Ej. apply Back. reflexivity.
Qed.
Lemma created_saves ch reduce load q c j : run_query ch reduce load q = Ok (AComponent c) -> exists j', Loader.save_component (AJson j) c = Ok (AJson j').
Proof. intros Q. destruct (C56_saved _ _ _ _ _ Q) as (_ & _ & Sj). destruct (Sj j) as (f & _ & j' & Ej & _). exists j'. cbn [Loader.save_component]. rewrite Ej. reflexivity. Qed.
Lemma opened_json minc a dk p pqs : project_kind (ag_input a) = JsonProject -> open_project minc (ag_input a) dk = Ok (p, pqs) -> exists sp, p = AJson (json_new (dk_components dk) sp).
Proof.
  intros Pk Eo. unfold open_project in Eo. rewrite Pk in Eo. unfold open_json in Eo. apply bind_ok in Eo. destruct Eo as (sy & _ & Eo). apply bind_ok in Eo. destruct Eo as (sp & _ & Eo). apply bind_ok in Eo. destruct Eo as (ts & _ & Eo). apply bind_ok in Eo. destruct Eo as (qs' & _ & Eo). injection Eo as <- _. eauto.
Qed.
Lemma disk_same before fs fs' as_ : left_on_disk before fs as_ -> left_on_disk before fs' as_ -> forall n, fs n = fs' n.
Proof.
  intros H H' n. specialize (H n). specialize (H' n). destruct (find (saved_under n) (rev as_)) as [[o|o|b|o|c]|]; try congruence. destruct H as (f & E & ->), H' as (f' & E' & ->). congruence.
Qed.

(** Everything a command on a JSON project may leave behind: the folder is seen in just the states in which some of the queries are done and
    at most the file of the component made by the next one is being written. *)
Theorem C67_moments : forall chs minc a dk qs p pqs,
  project_kind (ag_input a) = JsonProject -> ag_save a = false -> parse_queries (ag_query a) = Ok qs -> open_project minc (ag_input a) dk = Ok (p, pqs) ->
  forall m, (exists m', In m' (command_moments chs minc a dk) /\ forall n, m' n = m n) <-> part_done chs (ag_reduce a) (looked_up minc p) (dk_components dk) qs m.
Proof.
  intros chs minc a dk qs p pqs Pk Sv Pq Op m. destruct (opened_json minc a dk p pqs Pk Op) as (sp & ->).
  assert (Mo : command_moments chs minc a dk = moments chs minc (ag_reduce a) (json_new (dk_components dk) sp) 0 (map Some qs)).
  { unfold command_moments, query_check, parse_args. rewrite Sv, Op, Pq. cbn [bind]. destruct (ag_query a) as [|ch0 s] eqn:Ea; [vm_compute in Pq; discriminate|]. rewrite Pq. reflexivity. }
  rewrite Mo. split.
  - intros (m' & I & X). apply moments_run in I. destruct I as (k & as_ & j' & K & E & D). exists k, as_, (jp_files j').
    destruct (run_all_disk _ _ _ _ _ _ _ _ E) as (L & j2 & Ej & Ld). injection Ej as <-. split; [exact K|]. split; [apply answered_iff; exact (proj1 (run_all_as chs minc (ag_reduce a) (firstn k qs) (AJson (json_new (dk_components dk) sp)) 0) _ _ E)|]. split; [exact Ld|].
    destruct D as [->|(q & c & Q & R & ->)]; [left; intros n; rewrite <- X; reflexivity|]. right. exists c. assert (Kl : k < List.length qs) by (apply nth_error_Some; congruence). split; [exact Kl|]. split.
    + destruct (created_saves _ _ _ _ _ j' R) as (j3 & E3). replace (firstn (S k) qs) with (firstn k qs ++ [q]).
      * apply answered_iff. refine (proj1 (run_all_as chs minc (ag_reduce a) (firstn k qs ++ [q]) (AJson (json_new (dk_components dk) sp)) 0) _ (AJson j3) _).
        apply (run_all_snoc chs minc (ag_reduce a) q (AComponent c) (AJson j') (AJson j3)); [exact E|rewrite firstn_length_le by lia; exact R|exact E3].
      * clear - Q. revert k Q. induction qs as [|q0 qs IH]; intros [|k] Q; try discriminate Q; cbn [nth_error firstn app] in *; [injection Q as ->; reflexivity|]. rewrite (IH k Q). reflexivity.
    + split; [rewrite <- X; unfold emptied; rewrite String.eqb_refl; reflexivity|]. intros n N. rewrite <- X. unfold emptied. destruct (String.eqb_spec n (c_name c)); [contradiction|reflexivity].
  - intros (k & as_ & fs & K & An & Ld & D). apply answered_iff in An. destruct (proj2 (run_all_as chs minc (ag_reduce a) (firstn k qs) (AJson (json_new (dk_components dk) sp)) 0) _ An) as (p' & E).
    destruct (run_all_disk _ _ _ _ _ _ _ _ E) as (L & j' & -> & Ld'). pose proof (disk_same _ _ _ _ Ld Ld') as Fs. destruct D as [I|(c & Kl & An' & I)].
    + exists (whole (jp_files j')). split; [|intros n; rewrite I, Fs; reflexivity]. apply moments_run. exists k, as_, j'. auto.
    + exists (emptied (c_name c) (whole (jp_files j'))). split.
      * apply moments_run. exists k, as_, j'. split; [exact K|]. split; [exact E|]. right. destruct (nth_error qs k) as [q|] eqn:Q; [|apply nth_error_None in Q; lia]. exists q, c. split; [reflexivity|]. split; [|reflexivity].
        apply answered_iff in An'. destruct (proj2 (run_all_as chs minc (ag_reduce a) (firstn (S k) qs) (AJson (json_new (dk_components dk) sp)) 0) _ An') as (p2 & E2).
        assert (F : firstn (S k) qs = firstn k qs ++ [q]).
        { clear - Q. revert k Q. induction qs as [|q0 qs IH]; intros [|k] Q; try discriminate Q; cbn [nth_error firstn app] in *; [injection Q as ->; reflexivity|]. rewrite <- (IH k Q). reflexivity. }
        rewrite F in E2. replace (0 + k) with (0 + List.length (firstn k qs)) by (rewrite firstn_length_le by lia; reflexivity). exact (run_all_last chs minc (ag_reduce a) q (AComponent c) (AJson j') p2 (firstn k qs) _ 0 as_ E E2).
      * destruct I as [Ix In']. intros n. unfold emptied. destruct (String.eqb_spec n (c_name c)) as [->|N]; [rewrite Ix; reflexivity|]. rewrite (In' n N), Fs. reflexivity.
Qed.
Print Assumptions C67_moments.

(** A command that is not accepted, whose project cannot be opened or that works on an XML document changes nothing. *)
Theorem C67_nothing : forall chs minc a dk m,
  project_kind (ag_input a) = XmlProject \/ ag_save a = true \/ (forall qs, parse_queries (ag_query a) <> Ok qs) \/ (forall x, open_project minc (ag_input a) dk <> Ok x) ->
  In m (command_moments chs minc a dk) -> intact m (dk_components dk).
Proof.
  intros chs minc a dk m H I. assert (J : m = whole (dk_components dk)); [|rewrite J; apply whole_intact]. unfold command_moments, query_check, parse_args in I.
  destruct (parse_queries (ag_query a)) as [qs| | |] eqn:Pq; cbn [bind] in I; try (destruct I as [<-|[]]; reflexivity). destruct (ag_save a) eqn:Sv; [destruct I as [<-|[]]; reflexivity|].
  destruct (open_project minc (ag_input a) dk) as [[p pqs]| | |] eqn:Op; cbn [bind] in I; try (destruct I as [<-|[]]; reflexivity).
  destruct H as [H|[H|[H|H]]]; [|discriminate|destruct (H qs eq_refl)|destruct (H _ eq_refl)].
  unfold open_project in Op. rewrite H in Op. apply bind_ok in Op. destruct Op as (root & _ & Op). apply bind_ok in Op. destruct Op as (p1 & Ep & Op). injection Op as <- _.
  unfold xml_new in Ep. apply bind_ok in Ep. destruct Ep as ([cs sp] & _ & Ep). apply bind_ok in Ep. destruct Ep as (mm & _ & Ep). injection Ep as <-.
  destruct (ag_query a) as [|ch0 s]; [|rewrite Pq in I]; cbn [expect bind] in I; destruct I as [<-|[]]; reflexivity.
Qed.
Print Assumptions C67_nothing.

(** So every file is at all times the one before, the text of a component made by one of the queries, or the one that is being written; and
    there is at most one of these, under a name that one of the queries saves to. *)
Lemma made ch reduce load q c : run_query ch reduce load q = Ok (AComponent c) -> makes (c_name c) q.
Proof.
  assert (G : forall dim mi o ko fu s n, Save.get_component dim mi o ko fu s (result_name n) = Ok c -> match n with Some n => n = c_name c | None => c_name c = "Unnamed"%string end).
  { intros dim mi o ko fu s n E. unfold Save.get_component in E. apply bind_ok in E. destruct E as (c1 & _ & E). injection E as <-. destruct n; reflexivity. }
  destruct q as [e f|e|e from to|e|e|e|e n|e n|e n]; cbn [run_query makes]; intros E; try discriminate E; apply bind_ok in E; destruct E as ([s d] & _ & E).
  - apply bind_ok in E. destruct E as (x & _ & E). discriminate E.
  - apply bind_ok in E. destruct E as (x & _ & E). discriminate E.
  - destruct s as [[? ?] ?]. apply bind_ok in E. destruct E as (x & _ & E). discriminate E.
  - apply bind_ok in E. destruct E as (x & _ & E). discriminate E.
  - apply bind_ok in E. destruct E as (x & Ex & E). injection E as ->. exact (G _ _ _ _ _ _ _ Ex).
  - apply bind_ok in E. destruct E as (x & _ & E). apply bind_ok in E. destruct E as (y & Ex & E). injection E as ->. exact (G _ _ _ _ _ _ _ Ex).
Qed.
Theorem C67_files : forall chs minc a dk m, In m (command_moments chs minc a dk) ->
  (forall n, m n = match dk_components dk n with Some f => Some (Whole f) | None => None end \/
     exists qs q i, parse_queries (ag_query a) = Ok qs /\ nth_error qs i = Some q /\ makes n q /\
       (m n = Some Cut \/ exists c f load, run_query (chs i) (ag_reduce a) load q = Ok (AComponent c) /\ c_name c = n /\ encode_component c = Ok f /\ m n = Some (Whole f))) /\
  (forall n n', m n = Some Cut -> m n' = Some Cut -> n = n').
Proof.
  intros chs minc a dk m I.
  assert (Nothing : intact m (dk_components dk) -> (forall n, m n = match dk_components dk n with Some f => Some (Whole f) | None => None end) /\ (forall n n', m n = Some Cut -> m n' = Some Cut -> n = n')).
  { intros J. split; [exact J|]. intros n n' H. rewrite (J n) in H. destruct (dk_components dk n); discriminate. }
  assert (Weak : forall P Q : string -> Prop, (forall n, P n) /\ (forall n n', m n = Some Cut -> m n' = Some Cut -> n = n') -> (forall n, P n \/ Q n) /\ (forall n n', m n = Some Cut -> m n' = Some Cut -> n = n')) by (intros P Q [A B]; split; [intros n; left; apply A|exact B]).
  destruct (project_kind (ag_input a)) eqn:Pk; [apply Weak, Nothing; refine (C67_nothing chs minc a dk m _ I); left; exact Pk|].
  destruct (ag_save a) eqn:Sv; [apply Weak, Nothing; refine (C67_nothing chs minc a dk m _ I); auto|].
  destruct (parse_queries (ag_query a)) as [qs| | |] eqn:Pq; try (apply Weak, Nothing; refine (C67_nothing chs minc a dk m _ I); right; right; left; intros; congruence).
  destruct (open_project minc (ag_input a) dk) as [[p pqs]| | |] eqn:Op; try (apply Weak, Nothing; refine (C67_nothing chs minc a dk m _ I); right; right; right; intros; congruence).
  destruct (proj1 (C67_moments chs minc a dk qs p pqs Pk Sv Pq Op m)) as (k & as_ & fs & K & An & Ld & D); [eauto|].
  assert (Fs : forall n, fs n = dk_components dk n \/ exists q i c f load, nth_error qs i = Some q /\ run_query (chs i) (ag_reduce a) load q = Ok (AComponent c) /\ c_name c = n /\ encode_component c = Ok f /\ fs n = Some f).
  { intros n. specialize (Ld n). destruct (find (saved_under n) (rev as_)) as [x|] eqn:F; [|left; exact Ld]. apply find_some in F. destruct F as [Ix Sx]. destruct x as [o|o|b|o|c]; try discriminate Sx. apply String.eqb_eq in Sx. destruct Ld as (f & Ef & Fn).
    right. apply in_rev in Ix. apply In_nth_error in Ix. destruct Ix as (i & Ni). destruct An as (L & An & _). assert (Li : i < List.length (firstn k qs)) by (rewrite <- L; apply nth_error_Some; congruence). destruct (nth_error (firstn k qs) i) as [q|] eqn:Nq; [|apply nth_error_None in Nq; lia].
    exists q, i, c, f. eexists. split; [|split; [exact (An i q _ Nq Ni)|auto]]. rewrite <- Nq. symmetry. apply nth_error_firstn. rewrite firstn_length in Li. lia. }
  assert (Whole_ok : forall n, m n = match fs n with Some f => Some (Whole f) | None => None end -> m n = match dk_components dk n with Some f => Some (Whole f) | None => None end \/
     exists qs0 q i, Ok qs = Ok qs0 /\ nth_error qs0 i = Some q /\ makes n q /\
       (m n = Some Cut \/ exists c f load, run_query (chs i) (ag_reduce a) load q = Ok (AComponent c) /\ c_name c = n /\ encode_component c = Ok f /\ m n = Some (Whole f))).
  { intros n J. destruct (Fs n) as [Fn|(q & i & c & f & load & Q & R & Cn & Ef & Fn)]; [left; rewrite J, Fn; reflexivity|]. right. exists qs, q, i. split; [reflexivity|]. split; [exact Q|]. split; [rewrite <- Cn; exact (made _ _ _ _ _ R)|]. right. exists c, f, load. rewrite Fn in J. auto. }
  destruct D as [J|(c & Kl & An' & Jx & J)].
  - split; [intros n; apply Whole_ok, J|]. intros n n' H. rewrite (J n) in H. destruct (fs n); discriminate.
  - split.
    + intros n. destruct (String.eqb_spec n (c_name c)) as [->|N]; [|apply Whole_ok, J, N]. right. destruct (nth_error qs k) as [q|] eqn:Q; [|apply nth_error_None in Q; lia]. exists qs, q, k. split; [reflexivity|]. split; [exact Q|]. split; [|left; exact Jx].
      destruct An' as (L & A & _). destruct An as (L0 & _). rewrite firstn_length_le in L0 by lia.
      apply (made (chs k) (ag_reduce a) (visible JsonLoader (looked_up minc p) (firstn k (as_ ++ [AComponent c])))). apply (A k q); [rewrite nth_error_firstn by lia; exact Q|]. rewrite nth_error_app2 by lia. rewrite L0, Nat.sub_diag. reflexivity.
    + intros n n' H H'. destruct (String.eqb_spec n (c_name c)) as [->|N]; [|rewrite (J n N) in H; destruct (fs n); discriminate]. destruct (String.eqb_spec n' (c_name c)) as [->|N']; [reflexivity|]. rewrite (J n' N') in H'. destruct (fs n'); discriminate.
Qed.
Print Assumptions C67_files.

(** ** Commands afterwards *)
Lemma answered_elsewhere chs reduce k load load' x qs as_ : (forall n, n <> x -> load' n = load n) ->
  (forall i q, nth_error qs i = Some q -> asks x q -> k = JsonLoader /\ exists i' q', i' < i /\ nth_error qs i' = Some q' /\ makes x q') ->
  answered chs reduce k load qs as_ -> answered chs reduce k load' qs as_.
Proof.
  intros X Ok_ (L & A & B). split; [exact L|]. split; [|exact B]. intros i q an Q Na. rewrite <- (A i q an Q Na). apply run_query_elsewhere. intros n As. unfold visible.
  destruct (String.eqb_spec n x) as [->|N]; [|rewrite (X n N); destruct k, (find (saved_under n) (rev (firstn i as_))) as [[]|]; reflexivity].
  destruct (Ok_ i q Q As) as (-> & i' & q' & Li & Q' & Mk). destruct (nth_error as_ i') as [an'|] eqn:Na'; [|apply nth_error_None in Na'; assert (i' < List.length qs) by (apply nth_error_Some; congruence); lia].
  assert (Sv : saved_under x an' = true).
  { specialize (A i' q' an' Q' Na'). assert (Ec : exists c, an' = AComponent c).
    { destruct q' as [e f|e|e from to|e|e|e|e n|e n|e n]; try destruct Mk; cbn [run_query] in A; apply bind_ok in A; destruct A as ([s d] & _ & A); apply bind_ok in A; destruct A as (y & _ & A); [|apply bind_ok in A; destruct A as (z & _ & A)]; injection A as <-; eauto. }
    destruct Ec as (c & ->). apply made in A. cbn [saved_under]. apply String.eqb_eq. destruct q' as [e f|e|e from to|e|e|e|e n|e n|e n]; try destruct Mk; cbn [makes] in A, Mk; destruct n; congruence. }
  destruct (find (saved_under x) (rev (firstn i as_))) as [y|] eqn:F; [apply find_some in F; destruct F as [_ F]; destruct y; try discriminate F; reflexivity|]. exfalso.
  assert (In an' (rev (firstn i as_))) by (apply -> in_rev; apply nth_error_In with i'; rewrite nth_error_firstn by lia; exact Na'). rewrite (find_none _ _ F an' H) in Sv. discriminate.
Qed.
(** After an interruption while [x] was written: a command that does not ask about [x] before it makes [x] anew is answered, and prints, what
    it would have if nothing had happened. *)
Theorem C67_others : forall chs minc a dk m fs x qs ls,
  intact_but x m fs -> project_kind (ag_input a) = JsonProject -> parse_queries (ag_query a) = Ok qs ->
  (forall i q, nth_error qs i = Some q -> asks x q -> exists i' q', i' < i /\ nth_error qs i' = Some q' /\ makes x q') ->
  ((exists p, command_line chs minc a (mkDisk (dk_system dk) (dk_queries dk) (readable m) (dk_xml dk)) = Ok (ls, p)) <->
   (exists p, command_line chs minc a (mkDisk (dk_system dk) (dk_queries dk) fs (dk_xml dk)) = Ok (ls, p))).
Proof.
  intros chs minc a dk m fs x qs ls [Ix I] Pk Pq Ok_.
  assert (Rd : forall n, n <> x -> readable m n = fs n) by (intros n N; unfold readable; rewrite (I n N); destruct (fs n); reflexivity).
  assert (G : forall f1 f2, (forall n, n <> x -> f2 n = f1 n) -> (exists p, command_line chs minc a (mkDisk (dk_system dk) (dk_queries dk) f1 (dk_xml dk)) = Ok (ls, p)) -> exists p, command_line chs minc a (mkDisk (dk_system dk) (dk_queries dk) f2 (dk_xml dk)) = Ok (ls, p)).
  { intros f1 f2 Ff H. apply C55_printed in H. apply C55_printed. destruct H as (qs' & p & pqs & as_ & Pq' & Sv & Op & An & Pr). rewrite Pq in Pq'. injection Pq' as <-.
    unfold open_project in *. rewrite Pk in *. unfold open_json in *. cbn [dk_system dk_queries dk_components] in *. apply bind_ok in Op. destruct Op as (sy & Es & Eo). apply bind_ok in Eo. destruct Eo as (sp & Ep & Eo). apply bind_ok in Eo. destruct Eo as (ts & Et & Eo). apply bind_ok in Eo. destruct Eo as (qs' & Eq & Eo). injection Eo as <- <-.
    exists qs, (AJson (json_new f2 sp)), qs', as_. rewrite Es. cbn [bind]. rewrite Ep. cbn [bind]. rewrite Et. cbn [bind]. rewrite Eq. cbn [bind]. split; [exact Pq|]. split; [exact Sv|]. split; [reflexivity|]. split; [|exact Pr].
    apply (answered_elsewhere chs (ag_reduce a) _ (looked_up minc (AJson (json_new f1 sp))) _ x); [|intros i q Q As; split; [reflexivity|exact (Ok_ i q Q As)]|exact An]. intros n N. apply looked_up_file, Ff, N. }
  split; apply G; [intros n N; symmetry; exact (Rd n N)|exact Rd].
Qed.
Print Assumptions C67_others.
(** The component that was being written cannot be used until it is made or put there again. *)
Theorem C67_broken : forall minc m fs x sp, intact_but x m fs -> looked_up minc (AJson (json_new (readable m) sp)) x = None.
Proof. intros minc m fs x sp [Ix _]. unfold looked_up, Loader.get_component, json_get, load_component, read_json_component, json_new. cbn [jp_loaded jp_files assoc]. unfold readable. rewrite Ix. reflexivity. Qed.
Print Assumptions C67_broken.

(** Finding: that a component that is made under the name of an existing one is there at all times, before or after, does not hold: the file
    is emptied first, so a command that is interrupted then has lost the component. *)
Definition cr_chs : nat -> choices := fun _ => plain_choices 40.
Definition cr_over : args := mkArgs (txt "get-component: M save-as M") ["samples"; "Machine"] false false.
Definition cr_lost : contents := nth 1 (command_moments cr_chs ld_minc cr_over cl_disk) (fun _ => None).
Theorem C67_lost_refuted : exists chs minc a dk m n sp,
  project_kind (ag_input a) = JsonProject /\ In m (command_moments chs minc a dk) /\
  looked_up minc (AJson (json_new (dk_components dk) sp)) n <> None /\ (exists r, command_line chs minc a dk = Ok r) /\
  looked_up minc (AJson (json_new (readable m) sp)) n = None.
Proof.
  exists cr_chs, ld_minc, cr_over, cl_disk, cr_lost, "M", ld_spec. split; [reflexivity|]. split; [apply nth_In; vm_compute; repeat constructor|]. split; [vm_compute; discriminate|]. split; [eexists; vm_compute; reflexivity|]. vm_compute. reflexivity.
Qed.
Print Assumptions C67_lost_refuted.
(** Finding: that a command that panics and prints nothing leaves the project as it was does not hold: what was made for the queries before
    stays. *)
Definition cr_silent : args := mkArgs (txt "get-component: M save-as N; consistency: X") ["samples"; "Machine"] false false.
Definition cr_left : contents := nth 2 (command_moments cr_chs ld_minc cr_silent cl_disk) (fun _ => None).
Theorem C67_silent_refuted : exists chs minc a dk m n f,
  command_line chs minc a dk = Panic /\ last (command_moments chs minc a dk) (fun _ => None) n = Some (Whole f) /\ dk_components dk n = None /\ In m (command_moments chs minc a dk) /\ m n = Some (Whole f).
Proof.
  exists cr_chs, ld_minc, cr_silent, cl_disk, cr_left, "N". eexists. split; [vm_compute; reflexivity|]. split; [vm_compute; reflexivity|]. split; [reflexivity|]. split; [apply nth_In; vm_compute; repeat constructor|]. vm_compute. reflexivity.
Qed.
Print Assumptions C67_silent_refuted.

(** The command of C55 is seen with N being written; asked again, it prints what it would have printed. *)
Definition cr_m : contents := nth 1 (command_moments cr_chs ld_minc cl_args cl_disk) (fun _ => None).
Example C67_nonvacuous : exists qs p pqs,
  project_kind (ag_input cl_args) = JsonProject /\ ag_save cl_args = false /\ parse_queries (ag_query cl_args) = Ok qs /\ open_project ld_minc (ag_input cl_args) cl_disk = Ok (p, pqs) /\
  List.length (command_moments cr_chs ld_minc cl_args cl_disk) = 5 /\
  In cr_m (command_moments cr_chs ld_minc cl_args cl_disk) /\ intact_but "N" cr_m ld_files /\
  (forall i q, nth_error qs i = Some q -> asks "N" q -> exists i' q', i' < i /\ nth_error qs i' = Some q' /\ makes "N" q') /\ (exists i q, nth_error qs i = Some q /\ asks "N" q) /\
  (exists ls q, command_line cr_chs ld_minc cl_args (mkDisk (dk_system cl_disk) (dk_queries cl_disk) (readable cr_m) (dk_xml cl_disk)) = Ok (ls, q) /\ List.length ls = 3).
Proof.
  eexists _, _, _. split; [reflexivity|]. split; [reflexivity|]. split; [vm_compute; reflexivity|]. split; [vm_compute; reflexivity|]. split; [vm_compute; reflexivity|]. split; [apply nth_In; vm_compute; repeat constructor|]. split; [|split; [|split]].
  - split; [vm_compute; reflexivity|]. intros n N. unfold cr_m.
    assert (E : forall n, nth 1 (command_moments cr_chs ld_minc cl_args cl_disk) (fun _ => None) n = emptied "N" (whole ld_files) n) by (intros; vm_compute; reflexivity).
    rewrite E. unfold emptied. destruct (String.eqb_spec n "N"); [contradiction|reflexivity].
  - intros [|[|[|i]]] q Q A; cbn [nth_error] in Q; try (destruct i; discriminate Q); injection Q as <-; [cbn in A; discriminate A|exists 0; eexists; split; [lia|]; split; reflexivity|cbn in A; discriminate A].
  - exists 1. eexists. split; [reflexivity|]. right. reflexivity.
  - eexists _, _. split; vm_compute; reflexivity.
Qed.
