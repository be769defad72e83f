(** Facts about the component loaders. *)
From Coq Require Import List String Ascii ZArith Bool Arith Lia.
From Verif Require Import Fed.Zone Model.Base Model.Expr Model.Guard Model.Loc Model.Component Model.Enable Model.ParseQuery Model.Peg Model.ParseEdge Model.Files Model.Xml Model.Server Model.Recipe Model.Loader
  Spec.TextSpec Spec.LayoutSpec Spec.FileSpec Spec.EnableSpec Spec.RecipeSpec Spec.LoaderSpec Proofs.GuardFacts Proofs.LayoutFacts Proofs.FileFacts.
Import ListNotations.
Local Open Scope string_scope.
Local Open Scope list_scope.
Local Open Scope nat_scope.

Lemma assoc_insert k c m n : assoc n (map_insert k c m) = if String.eqb n k then Some c else assoc n m.
Proof.
  unfold map_insert. cbn [assoc]. destruct (String.eqb_spec n k) as [->|N]; [reflexivity|].
  induction m as [|[a b] m IH]; [reflexivity|]. cbn [filter assoc fst]. destruct (String.eqb_spec a k) as [->|Na]; cbn [negb].
  - rewrite IH. destruct (String.eqb_spec n k); [congruence|reflexivity].
  - cbn [assoc]. rewrite IH. reflexivity.
Qed.
Lemma enabled_name minc c ins c' : make_input_enabled minc c ins = Ok c' ->
  exists es, c' = mkComp (c_name c) (c_decls c) (c_locs c) (c_edges c ++ es) (c_special c).
Proof. unfold make_input_enabled. intros E. inv_bind E. injection E as <-. eauto. Qed.
Lemma prepare_iff minc sp c0 c : enable_declared minc sp c0 = Ok c <-> prepared minc sp c0 c.
Proof. unfold enable_declared, prepared. destruct (assoc (c_name c0) (sp_ins sp)); [reflexivity|]. split; congruence. Qed.
Lemma prepared_name minc sp c0 c : prepared minc sp c0 c -> c_name c = c_name c0.
Proof. unfold prepared. destruct (assoc (c_name c0) (sp_ins sp)); [|congruence]. intros E. destruct (enabled_name _ _ _ _ E) as [es ->]. reflexivity. Qed.
Lemma last_app n a x : last_saved n (a ++ [x]) = match x with OSave c => if String.eqb (c_name c) n then Some c else last_saved n a | OGet _ => last_saved n a end.
Proof. unfold last_saved. rewrite fold_left_app. reflexivity. Qed.
Lemma last_name n ops c : last_saved n ops = Some c -> c_name c = n.
Proof.
  induction ops as [|x ops IH] using rev_ind; [discriminate|]. rewrite last_app. destruct x as [m|c']; [exact IH|]. destruct (String.eqb_spec (c_name c') n) as [E|]; [|exact IH]. intros [= <-]. exact E.
Qed.
Lemma encode_iff c : storable c <-> exists f, encode_component c = Ok f.
Proof.
  unfold encode_component. assert (M : (exists ls, mapM encode_loc (c_locs c) = Ok ls) <-> forall l, In l (c_locs c) -> l_type l <> AnyType).
  { induction (c_locs c) as [|l ls IH]; cbn [mapM]; [split; [intros _ ? []|eauto]|].
    assert (L : (exists x, encode_loc l = Ok x) <-> l_type l <> AnyType).
    { unfold encode_loc, encode_type. destruct (l_type l); cbn; split; intros H; try congruence; eauto. destruct H. discriminate. }
    split.
    - intros (xs & E). inv_bind E. inv_bind E. intros l' [<-|H']; [apply L; eauto|apply IH; eauto].
    - intros H. destruct (proj2 L (H l (or_introl eq_refl))) as (x & ->). destruct (proj2 IH (fun l' Hl => H l' (or_intror Hl))) as (xs & ->). cbn. eauto. }
  unfold storable. rewrite <- M, <- connect_iff. split.
  - intros ((ls & ->) & ->). cbn. eauto.
  - intros (f & E). apply bind_ok in E. destruct E as ([] & Ec & E). inv_bind E. eauto.
Qed.

(** ** JSON projects *)
Section Json.
Variable minc : nat -> fed -> fed.
Variable files : folder.
Variable sp : sysspec.
Record stands (before : list op) (p : json_project) : Prop := {
  st_spec : jp_spec p = sp;
  st_files : forall n, match last_saved n before with Some c => exists f, encode_component c = Ok f /\ jp_files p n = Some f | None => jp_files p n = files n end;
  st_some : forall n c, assoc n (jp_loaded p) = Some c -> provides minc files sp before n c;
  st_none : forall n, assoc n (jp_loaded p) = None -> last_saved n before = None }.
Lemma stands_new : stands [] (json_new files sp). Proof. constructor; cbn; auto; discriminate. Qed.
Lemma in_file_unique n c c' : in_file minc files sp n c -> in_file minc files sp n c' -> c = c'.
Proof.
  intros (f & c0 & E1 & E2 & _ & P) (f' & c0' & E1' & E2' & _ & P'). rewrite E1 in E1'. injection E1' as <-. rewrite E2 in E2'. injection E2' as <-.
  apply prepare_iff in P, P'. congruence.
Qed.
Lemma provides_name before n c : provides minc files sp before n c -> c_name c = n.
Proof.
  unfold provides. destruct (last_saved n before) eqn:E; [intros ->; eapply last_name, E|]. intros (f & c0 & _ & _ & N & P). rewrite (prepared_name _ _ _ _ P). exact N.
Qed.
Lemma provides_get before n m c : provides minc files sp (before ++ [OGet n]) m c <-> provides minc files sp before m c.
Proof. unfold provides. rewrite last_app. reflexivity. Qed.
Lemma get_sound before p n c p' : stands before p -> json_get minc p n = Ok (c, p') -> provides minc files sp before n c /\ stands (before ++ [OGet n]) p'.
Proof.
  intros [S F A B] E. unfold json_get in E. inv_bind E. inv_bind E. injection E as <- <-.
  assert (K : (forall n c, assoc n (jp_loaded a) = Some c -> c_name c = n -> provides minc files sp before n c) /\ jp_spec a = sp /\ jp_files a = jp_files p /\ (forall m, m <> n -> assoc m (jp_loaded a) = assoc m (jp_loaded p))).
  { destruct (assoc n (jp_loaded p)) as [c|] eqn:El.
    - injection H as <-. auto.
    - unfold load_component in H. inv_bind H. inv_bind H. injection H as <-. cbn [jp_loaded jp_spec jp_files]. split; [|split; [exact S|split; [reflexivity|]]].
      + intros m c Hm Hc. rewrite assoc_insert in Hm. destruct (String.eqb_spec m n) as [->|N]; [|apply A; exact Hm]. injection Hm as ->.
        unfold provides. rewrite (B n El). unfold read_json_component in H1. specialize (F n). rewrite (B n El) in F. rewrite F in H1. destruct (files n) as [f|] eqn:Ef; [|discriminate].
        destruct (decode_component f) as [c0| | |] eqn:Ed; try discriminate. injection H1 as ->. rewrite S in H2. apply prepare_iff in H2. exists f, a1. split; [exact Ef|]. split; [exact Ed|]. split; [|exact H2].
        rewrite <- Hc. symmetry. eapply prepared_name, H2.
      + intros m N. rewrite assoc_insert. destruct (String.eqb_spec m n); [contradiction|reflexivity]. }
  destruct K as (K1 & K2 & K3 & K4). unfold get_loaded in H0. destruct (assoc n (jp_loaded a)) as [c|] eqn:Ea; [|discriminate]. destruct (String.eqb_spec n (c_name c)) as [En|]; [|discriminate]. injection H0 as ->.
  pose proof (K1 n a0 Ea (eq_sym En)) as P. split; [exact P|]. constructor.
  - exact K2.
  - intros m. rewrite last_app, K3. apply F.
  - intros m c Hm. apply provides_get. destruct (String.eqb_spec m n) as [->|N]; [congruence|]. apply A. rewrite <- K4; assumption.
  - intros m Hm. rewrite last_app. apply B. destruct (String.eqb_spec m n) as [->|N]; [congruence|]. rewrite <- K4; assumption.
Qed.
Lemma get_complete before p n c : stands before p -> provides minc files sp before n c -> exists p', json_get minc p n = Ok (c, p').
Proof.
  intros [S F A B] P. unfold json_get. pose proof (provides_name _ _ _ P) as Nm. destruct (assoc n (jp_loaded p)) as [c'|] eqn:El.
  - cbn [bind]. unfold get_loaded. rewrite El. pose proof (A n c' El) as P'. rewrite (proj2 (String.eqb_eq n (c_name c')) (eq_sym (provides_name _ _ _ P'))). cbn [bind].
    assert (c' = c) as -> by (unfold provides in P, P'; destruct (last_saved n before); [congruence|eapply in_file_unique; eassumption]). eauto.
  - unfold provides in P. rewrite (B n El) in P. destruct P as (f & c0 & Ef & Ed & En & Pr). unfold load_component, read_json_component. specialize (F n). rewrite (B n El) in F. rewrite F, Ef, Ed. cbn [expect bind].
    rewrite S. rewrite (proj2 (prepare_iff _ _ _ _) Pr). cbn [bind]. unfold get_loaded. cbn [jp_loaded]. rewrite assoc_insert, String.eqb_refl, (proj2 (String.eqb_eq n (c_name c)) (eq_sym Nm)). cbn [bind]. eauto.
Qed.
Lemma save_sound before p c : stands before p -> (forall p', json_save p c = Ok p' -> stands (before ++ [OSave c]) p') /\ ((exists p', json_save p c = Ok p') <-> storable c).
Proof.
  intros [S F A B]. split.
  - intros p' E. unfold json_save in E. inv_bind E. injection E as <-. constructor; cbn [jp_spec jp_files jp_loaded].
    + exact S.
    + intros n. rewrite last_app, (String.eqb_sym n). destruct (String.eqb (c_name c) n); [eauto|apply F].
    + intros n c' Hn. rewrite assoc_insert in Hn. unfold provides. rewrite last_app, (String.eqb_sym (c_name c)). destruct (String.eqb_spec n (c_name c)) as [En|N]; [congruence|]. apply A, Hn.
    + intros n Hn. rewrite assoc_insert in Hn. rewrite last_app, (String.eqb_sym (c_name c)). destruct (String.eqb_spec n (c_name c)) as [En|N]; [congruence|]. apply B, Hn.
  - rewrite encode_iff. unfold json_save. split.
    + intros (p' & E). inv_bind E. eauto.
    + intros (f & ->). cbn. eauto.
Qed.
Lemma json_runs ops : forall before p, stands before p ->
  (forall cs p', run_ops minc ops (AJson p) = Ok (cs, p') -> answers minc files sp before ops cs /\ exists j, p' = AJson j /\ stands (before ++ ops) j) /\
  (forall cs, answers minc files sp before ops cs -> exists p', run_ops minc ops (AJson p) = Ok (cs, p')).
Proof.
  induction ops as [|[n|c] ops IH]; intros before p St.
  - split; [intros cs p' E; injection E as <- <-; split; [constructor|]; exists p; rewrite app_nil_r; auto|]. intros cs H. inversion H; subst. cbn. eauto.
  - cbn [run_ops get_component]. split.
    + intros cs p' E. inv_bind E. destruct a as [c p1]. inv_bind E. destruct a as [cs' p2]. injection E as <- <-. inv_bind H. destruct a as [c' j']. injection H as -> <-.
      destruct (get_sound _ _ _ _ _ St H1) as [P St']. destruct (proj1 (IH _ _ St') _ _ H0) as (An & j & -> & Sj). split; [constructor; assumption|]. exists j. split; [reflexivity|]. rewrite <- app_assoc in Sj. exact Sj.
    + intros cs H. inversion H as [|? ? ? ? ? Hp Ha|]; subst. destruct (get_complete _ _ _ _ St Hp) as (p' & E). rewrite E. cbn [bind]. destruct (get_sound _ _ _ _ _ St E) as [_ St'].
      destruct (proj2 (IH _ _ St') _ Ha) as (p2 & ->). cbn. eauto.
  - cbn [run_ops save_component]. destruct (save_sound before p c St) as [S1 S2]. split.
    + intros cs p' E. inv_bind E. inv_bind H. injection H as <-. destruct (proj1 (IH _ _ (S1 _ H0)) _ _ E) as (An & j & -> & Sj). split; [constructor; [apply S2; eauto|exact An]|]. exists j. split; [reflexivity|]. rewrite <- app_assoc in Sj. exact Sj.
    + intros cs H. inversion H as [| |? ? ? ? Hs Ha]; subst. destruct (proj2 S2 Hs) as (p1 & E). rewrite E. cbn [bind]. apply (proj2 (IH _ _ (S1 _ E))). exact Ha.
Qed.
End Json.

(** ** Maps *)
Lemma last_named_snoc n cs c x : last_named n (cs ++ [x]) c <-> (c_name x = n /\ c = x) \/ (c_name x <> n /\ last_named n cs c).
Proof.
  split.
  - intros (pre & post & E & Nm & H). destruct post as [|y post] using rev_ind.
    + apply app_inj_tail in E. destruct E as [-> ->]. auto.
    + rewrite app_comm_cons, app_assoc in E. apply app_inj_tail in E. destruct E as [-> ->]. right. split; [apply H, in_or_app; right; left; reflexivity|].
      exists pre, post. split; [reflexivity|]. split; [exact Nm|]. intros c' Hc. apply H, in_or_app. left. exact Hc.
  - intros [[N ->]|[N (pre & post & -> & Nm & H)]].
    + exists cs, []. split; [reflexivity|]. split; [exact N|]. intros ? [].
    + exists pre, (post ++ [x]). split; [rewrite <- app_assoc; reflexivity|]. split; [exact Nm|]. intros c' Hc. apply in_app_or in Hc. destruct Hc as [Hc|[<-|[]]]; auto.
Qed.
(** Folding a preparation that keeps names into a map. *)
Lemma fold_map (prep : component -> res component) (fill : list component -> cmap -> res cmap) :
  (forall m, fill [] m = Ok m) -> (forall c cs m, fill (c :: cs) m = do c' <- prep c; fill cs (map_insert (c_name c') c' m)) ->
  (forall c c', prep c = Ok c' -> c_name c' = c_name c) ->
  forall cs m, fill cs [] = Ok m -> forall n c', get_loaded m n = Ok c' <-> exists c, last_named n cs c /\ prep c = Ok c'.
Proof.
  intros F0 F1 Pn. 
  assert (G : forall cs pre m0 m, (forall n c', assoc n m0 = Some c' <-> exists c, last_named n pre c /\ prep c = Ok c') -> fill cs m0 = Ok m ->
    forall n c', assoc n m = Some c' <-> exists c, last_named n (pre ++ cs) c /\ prep c = Ok c').
  { induction cs as [|x cs IH]; intros pre m0 m H E.
    - rewrite F0 in E. injection E as <-. rewrite app_nil_r. exact H.
    - rewrite F1 in E. inv_bind E. rename a into x'. pose proof (Pn _ _ H0) as Nx.
      assert (R : pre ++ x :: cs = (pre ++ [x]) ++ cs) by (rewrite <- app_assoc; reflexivity). rewrite R. apply (IH (pre ++ [x]) _ _ ) with (2 := E).
      intros n c'. rewrite assoc_insert, Nx. destruct (String.eqb_spec n (c_name x)) as [->|N].
      + split.
        * intros [= <-]. exists x. split; [apply last_named_snoc; auto|exact H0].
        * intros (c & L & P). apply last_named_snoc in L. destruct L as [[_ ->]|[C _]]; [congruence|contradiction].
      + rewrite H. split; intros (c & L & P); exists c; (split; [|exact P]).
        * apply last_named_snoc. auto.
        * apply last_named_snoc in L. destruct L as [[C _]|[_ L]]; [congruence|exact L]. }
  intros cs m E n c'. specialize (G cs [] [] m).
  assert (G0 : forall n c', assoc n m = Some c' <-> exists c, last_named n cs c /\ prep c = Ok c').
  { apply G; [|exact E]. intros n0 c0. split; [discriminate|]. intros (c & (pre & post & X & _) & _). destruct pre; discriminate. }
  unfold get_loaded. destruct (assoc n m) as [c0|] eqn:A.
  - destruct (proj1 (G0 n c0) A) as (c1 & L & P). assert (N : n = c_name c0) by (rewrite (Pn _ _ P); destruct L as (? & ? & _ & X & _); congruence).
    rewrite (proj2 (String.eqb_eq _ _) N). split; [intros [= <-]; eauto|]. intros (c & L' & P'). pose proof (proj2 (G0 n c') (ex_intro _ c (conj L' P'))). congruence.
  - split; [discriminate|]. intros X. apply G0 in X. congruence.
Qed.
Lemma xml_prepared minc sp : forall cs m, xml_map minc sp cs [] = Ok m -> forall n c', get_loaded m n = Ok c' <-> exists c, last_named n cs c /\ prepared minc sp c c'.
Proof.
  intros cs m E n c'. rewrite (fold_map (enable_declared minc sp) (xml_map minc sp)) with (4 := E); try reflexivity.
  - split; intros (c & L & P); exists c; (split; [exact L|]); apply prepare_iff; exact P.
  - intros c c0 P. apply prepare_iff in P. eapply prepared_name, P.
Qed.
Lemma container_prepared minc : forall cs m, container minc cs [] = Ok m -> forall n c', get_loaded m n = Ok c' <-> exists c, last_named n cs c /\ make_input_enabled (minc (comp_dim c)) c (input_actions c) = Ok c'.
Proof.
  intros cs m E n c'. apply (fold_map (fun c => make_input_enabled (minc (comp_dim c)) c (input_actions c)) (container minc)) with (4 := E); try reflexivity.
  intros c c0 P. destruct (enabled_name _ _ _ _ P) as [es ->]. reflexivity.
Qed.

(** ** Loaders as functions *)
Section Loads.
Variable minc : nat -> fed -> fed.
Local Notation looked_up := (Loader.looked_up minc).
Lemma json_get_loaded p n c p' : json_get minc p n = Ok (c, p') -> n = c_name c /\ jp_files p' = jp_files p /\ jp_spec p' = jp_spec p /\ assoc n (jp_loaded p') = Some c /\ (forall m, m <> n -> assoc m (jp_loaded p') = assoc m (jp_loaded p)).
Proof.
  intros E. unfold json_get in E. inv_bind E. inv_bind E. injection E as <- <-. unfold get_loaded in H0. destruct (assoc n (jp_loaded a)) as [c|] eqn:Ea; [|discriminate].
  destruct (String.eqb_spec n (c_name c)) as [En|]; [|discriminate]. injection H0 as ->. split; [exact En|].
  destruct (assoc n (jp_loaded p)) eqn:El; [injection H as <-; auto|]. unfold load_component in H. inv_bind H. inv_bind H. injection H as <-. cbn [jp_files jp_spec jp_loaded] in *.
  split; [reflexivity|]. split; [reflexivity|]. split; [reflexivity|]. intros m N. rewrite assoc_insert. destruct (String.eqb_spec m n); [contradiction|reflexivity].
Qed.
Lemma json_get_memo p n c p' : json_get minc p n = Ok (c, p') -> forall m, looked_up (AJson p') m = looked_up (AJson p) m.
Proof.
  intros E m. destruct (json_get_loaded p n c p' E) as (N & Ff & Fs & An & Am). unfold looked_up. cbn [get_component]. destruct (String.eqb_spec m n) as [->|Nm].
  - rewrite E. cbn [bind]. unfold json_get at 1. rewrite An. cbn [bind]. unfold get_loaded. rewrite An, (proj2 (String.eqb_eq _ _) N). reflexivity.
  - specialize (Am m Nm). unfold json_get. rewrite Am. destruct (assoc m (jp_loaded p)) as [c'|] eqn:El; cbn [bind].
    + unfold get_loaded. rewrite Am, El. destruct (String.eqb m (c_name c')); reflexivity.
    + unfold load_component, read_json_component. rewrite Ff, Fs. destruct (jp_files p m) as [f|]; [|reflexivity]. destruct (expect (decode_component f)); cbn [bind]; try reflexivity.
      destruct (enable_declared minc (jp_spec p) a); cbn [bind]; try reflexivity. unfold get_loaded. cbn [jp_loaded]. rewrite !assoc_insert, !String.eqb_refl. destruct (String.eqb m (c_name a0)); reflexivity.
Qed.
Lemma get_memo p n c p' : get_component minc p n = Ok (c, p') -> forall m, looked_up p' m = looked_up p m.
Proof.
  destruct p as [j|m0|m0]; cbn [get_component]; intros E m.
  - inv_bind E. destruct a as [c' j']. injection E as -> <-. eapply json_get_memo, H.
  - inv_bind E. injection E as _ <-. reflexivity.
  - inv_bind E. injection E as _ <-. reflexivity.
Qed.
Lemma recipe_ext' load load' : (forall n, load n = load' n) -> forall e st, get_system_recipe load e st = get_system_recipe load' e st.
Proof.
  intros H. induction e as [n id|l IHl r IHr|l IHl r IHr|l IHl r IHr]; intros st; cbn [get_system_recipe]; rewrite ?H; try reflexivity; rewrite IHl;
    destruct (get_system_recipe load' l st) as [[l' st1]| | |]; cbn [bind]; try reflexivity; rewrite IHr; reflexivity.
Qed.
Lemma recipe_as_loaded : forall e p st,
  (forall r p' st', recipe_with minc e p st = Ok (r, p', st') -> get_system_recipe (looked_up p) e st = Ok (r, st') /\ forall n, looked_up p' n = looked_up p n) /\
  (forall r st', get_system_recipe (looked_up p) e st = Ok (r, st') -> exists p', recipe_with minc e p st = Ok (r, p', st')).
Proof.
  assert (Two : forall l r,
    (forall p st, (forall x p' st', recipe_with minc l p st = Ok (x, p', st') -> get_system_recipe (looked_up p) l st = Ok (x, st') /\ forall n, looked_up p' n = looked_up p n) /\
      (forall x st', get_system_recipe (looked_up p) l st = Ok (x, st') -> exists p', recipe_with minc l p st = Ok (x, p', st'))) ->
    (forall p st, (forall x p' st', recipe_with minc r p st = Ok (x, p', st') -> get_system_recipe (looked_up p) r st = Ok (x, st') /\ forall n, looked_up p' n = looked_up p n) /\
      (forall x st', get_system_recipe (looked_up p) r st = Ok (x, st') -> exists p', recipe_with minc r p st = Ok (x, p', st'))) ->
    forall p st,
      (forall l' p1 st1 r' p2 st2, recipe_with minc l p st = Ok (l', p1, st1) -> recipe_with minc r p1 st1 = Ok (r', p2, st2) ->
        get_system_recipe (looked_up p) l st = Ok (l', st1) /\ get_system_recipe (looked_up p) r st1 = Ok (r', st2) /\ forall n, looked_up p2 n = looked_up p n) /\
      (forall l' st1 r' st2, get_system_recipe (looked_up p) l st = Ok (l', st1) -> get_system_recipe (looked_up p) r st1 = Ok (r', st2) ->
        exists p1 p2, recipe_with minc l p st = Ok (l', p1, st1) /\ recipe_with minc r p1 st1 = Ok (r', p2, st2))).
  { intros l r IHl IHr p st. split.
    - intros l' p1 st1 r' p2 st2 El Er. destruct (proj1 (IHl p st) _ _ _ El) as [A B]. destruct (proj1 (IHr p1 st1) _ _ _ Er) as [C D]. split; [exact A|].
      rewrite (recipe_ext' _ _ B) in C. split; [exact C|]. intros n. rewrite D. apply B.
    - intros l' st1 r' st2 El Er. destruct (proj2 (IHl p st) _ _ El) as (p1 & E1). destruct (proj1 (IHl p st) _ _ _ E1) as [_ B]. rewrite <- (recipe_ext' _ _ B) in Er.
      destruct (proj2 (IHr p1 st1) _ _ Er) as (p2 & E2). eauto. }
  induction e as [n id|l IHl r IHr|l IHl r IHr|l IHl r IHr]; intros p st; cbn [recipe_with get_system_recipe].
  - split.
    + intros r p' st' E. inv_bind E. destruct a as [c p1]. injection E as <- <- <-. pose proof (get_memo _ _ _ _ H) as M. split; [|exact M]. unfold looked_up. rewrite H. reflexivity.
    + intros r st' E. inv_bind E. injection E as <- <-. unfold looked_up in H. destruct (get_component minc p n) as [[c p']| | |]; try discriminate. injection H as ->. cbn. eauto.
  - destruct (Two l r IHl IHr p st) as [T1 T2]. split.
    + intros x p' st' E. inv_bind E. destruct a as [[l' p1] st1]. inv_bind E. destruct a as [[r' p2] st2]. destruct (T1 _ _ _ _ _ _ H H0) as (A & B & C). rewrite A. cbn [bind]. rewrite B. cbn [bind].
      destruct (snd st2); injection E as <- <- <-; auto.
    + intros x st' E. inv_bind E. destruct a as [l' st1]. inv_bind E. destruct a as [r' st2]. destruct (T2 _ _ _ _ H H0) as (p1 & p2 & -> & E2). cbn [bind]. rewrite E2. cbn [bind].
      destruct (snd st2); injection E as <- <-; eauto.
  - destruct (Two l r IHl IHr p st) as [T1 T2]. split.
    + intros x p' st' E. inv_bind E. destruct a as [[l' p1] st1]. inv_bind E. destruct a as [[r' p2] st2]. destruct (T1 _ _ _ _ _ _ H H0) as (A & B & C). rewrite A. cbn [bind]. rewrite B. cbn [bind].
      injection E as <- <- <-; auto.
    + intros x st' E. inv_bind E. destruct a as [l' st1]. inv_bind E. destruct a as [r' st2]. destruct (T2 _ _ _ _ H H0) as (p1 & p2 & -> & E2). cbn [bind]. rewrite E2. cbn [bind].
      injection E as <- <-; eauto.
  - destruct (Two l r IHl IHr p st) as [T1 T2]. split.
    + intros x p' st' E. inv_bind E. destruct a as [[l' p1] st1]. inv_bind E. destruct a as [[r' p2] st2]. destruct (T1 _ _ _ _ _ _ H H0) as (A & B & C). rewrite A. cbn [bind]. rewrite B. cbn [bind].
      injection E as <- <- <-; auto.
    + intros x st' E. inv_bind E. destruct a as [l' st1]. inv_bind E. destruct a as [r' st2]. destruct (T2 _ _ _ _ H H0) as (p1 & p2 & -> & E2). cbn [bind]. rewrite E2. cbn [bind].
      injection E as <- <-; eauto.
Qed.
End Loads.

Lemma json_save_looks minc p c p' n : json_save p c = Ok p' -> looked_up minc (AJson p') n = if String.eqb n (c_name c) then Some c else looked_up minc (AJson p) n.
Proof.
  intros E. unfold json_save in E. inv_bind E. injection E as <-. unfold looked_up. cbn [get_component]. unfold json_get. cbn [jp_loaded]. rewrite assoc_insert. destruct (String.eqb_spec n (c_name c)) as [->|N].
  - cbn [bind jp_loaded]. unfold get_loaded. cbn [jp_loaded]. rewrite assoc_insert, String.eqb_refl, String.eqb_refl. reflexivity.
  - destruct (assoc n (jp_loaded p)) as [c'|] eqn:El; cbn [bind jp_loaded].
    + unfold get_loaded. cbn [jp_loaded]. rewrite assoc_insert, (proj2 (String.eqb_neq n (c_name c)) N), El. destruct (String.eqb n (c_name c')); reflexivity.
    + unfold load_component, read_json_component. cbn [jp_files jp_spec jp_loaded]. rewrite (proj2 (String.eqb_neq n (c_name c)) N). destruct (jp_files p n) as [f|]; [|reflexivity].
      destruct (expect (decode_component f)) as [c0| | |]; cbn [bind]; try reflexivity. destruct (enable_declared minc (jp_spec p) c0) as [c1| | |]; cbn [bind]; try reflexivity.
      unfold get_loaded. cbn [jp_loaded]. rewrite !assoc_insert, !String.eqb_refl. destruct (String.eqb n (c_name c1)); reflexivity.
Qed.

(** ** Guards by name *)
Lemma legible_arith e : a_legible e -> by_name e = true.
Proof. induction e; cbn; try tauto; intros [A B]; rewrite IHe1, IHe2 by assumption; reflexivity. Qed.
Lemma legible_named g : b_legible g -> g_by_name g = true.
Proof. induction g; cbn; try reflexivity; intros [A B]; try (rewrite IHg1, IHg2 by assumption; reflexivity); rewrite !legible_arith by assumption; reflexivity. Qed.
Lemma con_named x nm e : from_constraint x nm = Ok e -> g_by_name e = true.
Proof.
  assert (V : forall i a, var_of nm i = Ok a -> by_name a = true) by (intros i a E; unfold var_of in E; inv_bind E; injection E as <-; reflexivity).
  unfold from_constraint. destruct (ci x) as [|i], (cj x) as [|j]; intros E; try discriminate.
  - inv_bind E. injection E as <-. destruct (cs x); cbn; rewrite (V _ _ H); reflexivity.
  - inv_bind E. injection E as <-. destruct (cs x); cbn; rewrite (V _ _ H); reflexivity.
  - inv_bind E. inv_bind E. destruct (Z.eqb (cc x) 0); injection E as <-; destruct (cs x); cbn; rewrite (V _ _ H), (V _ _ H0); reflexivity.
Qed.
Lemma conj_named z nm o : from_conjunction z nm = Ok o -> match o with Some e => g_by_name e = true | None => True end.
Proof.
  assert (F : forall es, (forall e, In e es -> g_by_name e = true) -> forall acc, match acc with Some e => g_by_name e = true | None => True end ->
    match fold_left (fun acc e => match acc with None => Some e | Some r => Some (BAnd r e) end) es acc with Some e => g_by_name e = true | None => True end).
  { induction es as [|e es IH]; intros H acc Ha; [exact Ha|]. cbn [fold_left]. apply IH; [intros; apply H; right; assumption|]. destruct acc as [r|]; cbn; [rewrite Ha|]; rewrite (H e (or_introl eq_refl)); reflexivity. }
  assert (M : forall z es, mapM (fun c => from_constraint c nm) z = Ok es -> forall e, In e es -> g_by_name e = true).
  { induction z0 as [|x z0 IH]; intros es E e He; cbn in E; [injection E as <-; destruct He|]. inv_bind E. inv_bind E. injection E as <-. destruct He as [<-|He]; [eapply con_named, H|eapply IH; eassumption]. }
  unfold from_conjunction. destruct z as [|x [|y z]]; intros E.
  - injection E as <-. exact I.
  - inv_bind E. injection E as <-. eapply con_named, H.
  - inv_bind E. injection E as <-. apply F; [|exact I]. eapply M, H.
Qed.
Lemma disj_named f nm o : from_disjunction f nm = Ok o -> match o with Some e => g_by_name e = true | None => True end.
Proof.
  assert (L : forall f acc o, match acc with Some e => g_by_name e = true | None => True end -> from_disj_loop f nm acc = Ok o -> match o with Some e => g_by_name e = true | None => True end).
  { induction f0 as [|z f0 IH]; intros acc o0 Ha E; cbn [from_disj_loop] in E; [injection E as <-; exact Ha|]. inv_bind E. pose proof (conj_named _ _ _ H) as C. destruct a as [e|]; [|injection E as <-; exact I].
    eapply IH; [|exact E]. destruct acc as [r|]; cbn; [rewrite Ha|]; rewrite C; reflexivity. }
  unfold from_disjunction. destruct f as [|z [|y f]]; intros E.
  - injection E as <-. reflexivity.
  - eapply conj_named, E.
  - eapply L; [|exact E]. exact I.
Qed.
Lemma enabled_edges minc c ins c' : make_input_enabled minc c ins = Ok c' ->
  exists es, c' = mkComp (c_name c) (c_decls c) (c_locs c) (c_edges c ++ es) (c_special c) /\ forall e, In e es -> e_update e = None /\ forall g, e_guard e = Some g -> g_by_name g = true.
Proof.
  assert (M : forall A B (f : A -> res B) l bs b, mapM f l = Ok bs -> In b bs -> exists a, In a l /\ f a = Ok b).
  { clear. intros A B f. induction l as [|a l IH]; intros bs b E Hb; cbn in E; [injection E as <-; destruct Hb|]. inv_bind E. inv_bind E. injection E as <-.
    destruct Hb as [<-|Hb]; [eauto using in_eq|]. destruct (IH _ _ H0 Hb) as (a' & X & Y). eauto using in_cons. }
  unfold make_input_enabled. intros E. inv_bind E. injection E as <-. eexists. split; [reflexivity|]. intros e He. apply in_concat in He. destruct He as (es & Hes & He).
  destruct (M _ _ _ _ _ _ H Hes) as (l & _ & El). unfold new_edges_at in El. inv_bind El. inv_bind El. injection El as <-. apply in_concat in He. destruct He as (ns & Hns & He).
  destruct (M _ _ _ _ _ _ H1 Hns) as (x & _ & Ex). unfold new_edge in Ex. inv_bind Ex. match type of Ex with (if ?b then _ else _) = _ => destruct b end; [injection Ex as <-; destruct He|].
  inv_bind Ex. injection Ex as <-. destruct He as [<-|[]]. cbn. split; [reflexivity|]. intros g ->. exact (disj_named _ _ _ H3).
Qed.
Lemma numbered_text ls s d : s = decl_text ls -> (forall l, In l ls -> dline_ok l) -> NoDup (declared ls) -> decode_declarations s = Ok d -> clocks_numbered d.
Proof.
  intros -> H N E. rewrite (decl_reads ls H N) in E. injection E as <-. unfold clocks_numbered. cbn [d_clocks]. generalize dependent (declared ls). clear. intros ns N.
  assert (C : forall (ns : list string) k, map fst (combine ns (seq k (List.length ns))) = ns /\ map snd (combine ns (seq k (List.length ns))) = seq k (List.length ns)).
  { clear. induction ns as [|x ns IH]; intros k; [auto|]. cbn. destruct (IH (S k)) as [-> ->]. auto. }
  destruct (C ns 1) as [C1 C2]. rewrite C1, C2. split; [exact N|]. split; [apply seq_NoDup|]. intros x i Hi. apply in_combine_r, in_seq in Hi. rewrite combine_length, seq_length, Nat.min_id. lia.
Qed.
Lemma in_file_sound minc files sp n c : (forall f, files n = Some f -> sound_file f) -> in_file minc files sp n c -> clocks_numbered (c_decls c) /\ good_resets c /\ named_guards c.
Proof.
  intros S (f & c0 & Ef & Ed & _ & P). destruct (S f Ef) as ((ls & Et & L & N) & R). specialize (R c0 Ed).
  destruct (decoded_writable f c0 Ed) as (_ & _ & _ & Gl & Ge).
  assert (K : clocks_numbered (c_decls c0)).
  { unfold decode_component in Ed. inv_bind Ed. inv_bind Ed. inv_bind Ed. injection Ed as <-. eapply numbered_text; eassumption. }
  assert (G : named_guards c0) by (split; intros; apply legible_named; eauto).
  unfold prepared in P. destruct (assoc (c_name c0) (sp_ins sp)) as [ins|]; [|subst c; auto].
  destruct (enabled_edges _ _ _ _ P) as (es & -> & H). unfold good_resets, named_guards. cbn [c_decls c_locs c_edges]. split; [exact K|]. split.
  - intros e us He Eu. apply in_app_or in He. destruct He as [He|He]; [eapply R; eassumption|]. destruct (H e He). congruence.
  - split; [apply G|]. intros e g He Eg. apply in_app_or in He. destruct He as [He|He]; [eapply G; eassumption|]. destruct (H e He) as [_ X]. auto.
Qed.
