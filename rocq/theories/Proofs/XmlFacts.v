(** Reading XML documents. *)
From Coq Require Import List String Ascii ZArith Bool Arith Lia.
From Verif Require Import Fed.Zone Model.Base Model.Expr Model.Guard Model.Loc Model.Component Model.Peg Model.ParseEdge Model.Files Model.Xml
  Spec.TextSpec Spec.FileSpec Spec.XmlSpec Proofs.GuardFacts Proofs.FileFacts.
Import ListNotations.
Local Open Scope string_scope.
Local Open Scope list_scope.

(** ** Windows line ends *)
Fixpoint add_cr (ls : list text) : list text := match ls with [] => [] | [l] => [l] | l :: ls' => (l ++ [cr]) :: add_cr ls' end.
Lemma add_cr_cons l ls : ls <> [] -> add_cr (l :: ls) = (l ++ [cr]) :: add_cr ls.
Proof. destruct ls; [congruence|reflexivity]. Qed.
Lemma split_crlf s : split_on newline (crlf s) = add_cr (split_on newline s).
Proof.
  induction s as [|c s IH]; [reflexivity|]. unfold crlf in *. cbn [flat_map split_on]. change eol with newline in *. destruct (Ascii.eqb c newline) eqn:E.
  - cbn [app split_on]. change (Ascii.eqb (ascii_of_nat 13) newline) with false. change (Ascii.eqb newline newline) with true. cbv iota. rewrite IH.
    destruct (split_cons newline s) as (p & ps & Ep). rewrite Ep. reflexivity.
  - cbn [app split_on]. rewrite E, IH. destruct (split_cons newline s) as (p & ps & Ep). rewrite Ep. destruct ps; reflexivity.
Qed.
Lemma foldM_cr {S} (f g : S -> text -> res S) ls : (forall l st, In l ls -> f st l = g st l /\ f st (l ++ [cr]) = g st l) ->
  forall st, foldM f ls st = foldM g ls st /\ foldM f (add_cr ls) st = foldM g ls st.
Proof.
  induction ls as [|l ls IH]; intros H st; [split; reflexivity|].
  assert (I : forall st, foldM f ls st = foldM g ls st /\ foldM f (add_cr ls) st = foldM g ls st) by (apply IH; intros; apply H; right; assumption).
  destruct (H l st (or_introl eq_refl)) as [A B]. split.
  - cbn [foldM]. rewrite A. destruct (g st l); cbn [bind]; try reflexivity. apply I.
  - destruct ls as [|m ls]; [cbn [add_cr foldM]; rewrite A; reflexivity|]. rewrite add_cr_cons by discriminate. cbn [foldM]. rewrite B. destruct (g st l); cbn [bind]; try reflexivity. apply I.
Qed.
Lemma foldM_eq {A S} (f g : S -> A -> res S) l : (forall a st, In a l -> f st a = g st a) -> forall st, foldM f l st = foldM g l st.
Proof. induction l as [|a l IH]; intros H st; [reflexivity|]. cbn [foldM]. rewrite (H a st (or_introl eq_refl)). destruct (g st a); cbn [bind]; try reflexivity. apply IH. intros; apply H; right; assumption. Qed.
Lemma foldM_app {A S} (f : S -> A -> res S) l m st : foldM f (l ++ m) st = bind (foldM f l st) (foldM f m).
Proof. revert st. induction l as [|a l IH]; intros st; [reflexivity|]. cbn [app foldM]. destruct (f st a); cbn [bind]; try reflexivity. apply IH. Qed.
Lemma starts_app w a b : starts w a = true -> starts w (a ++ b) = true.
Proof.
  unfold starts. intros H. destruct (strip (txt w) a) as [r|] eqn:E; [|discriminate]. clear H.
  assert (G : forall w a r, strip w a = Some r -> strip w (a ++ b) = Some (r ++ b)).
  { clear. induction w as [|x w IH]; intros a r E; [injection E as <-; reflexivity|]. destruct a as [|y a]; [discriminate|]. cbn [strip app] in *. destruct (Ascii.eqb x y); [|discriminate]. apply IH, E. }
  rewrite (G _ _ _ E). reflexivity.
Qed.
Lemma starts_one w a c : starts w (a ++ [c]) = true -> starts w a = true \/ In c (txt w).
Proof.
  unfold starts. generalize (txt w). clear w. intros w. revert a. induction w as [|x w IH]; intros a H; [left; reflexivity|].
  destruct a as [|y a].
  - cbn [app strip] in H. destruct (Ascii.eqb_spec x c) as [->|]; [right; left; reflexivity|discriminate].
  - cbn [app strip] in *. destruct (Ascii.eqb_spec x y); [|discriminate]. destruct (IH a H) as [I|I]; [left; exact I|right; right; exact I].
Qed.
Lemma starts_cr s : starts "//" (s ++ [cr]) = starts "//" s.
Proof.
  destruct (starts "//" s) eqn:E; [apply starts_app, E|]. destruct (starts "//" (s ++ [cr])) eqn:F; [|reflexivity]. destruct (starts_one _ _ _ F) as [X|X]; [congruence|].
  cbn in X. destruct X as [X|[X|[]]]; discriminate.
Qed.

(** ** Declarations *)
Lemma xml_line st s : ~ In cr s -> xml_decl_line st s = decode_line st s /\ xml_decl_line st (s ++ [cr]) = decode_line st s.
Proof.
  intros N.
  assert (P : forall l st, (forall p, In p l -> ~ In cr p) -> foldM (fun st d => decode_decl st (without cr d)) l st = foldM decode_decl l st).
  { intros l st0 H. apply foldM_eq. intros a st1 Ha. rewrite without_none; auto. }
  assert (Pc : forall p, In p (split_on ";" s) -> ~ In cr p) by (intros p Hp; destruct (split_piece _ _ _ Hp) as [_ I]; intros C; apply N, I, C).
  split.
  - unfold xml_decl_line, decode_line. destruct s as [|c s]; [reflexivity|]. destruct (starts "//" (c :: s)); [reflexivity|]. apply P, Pc.
  - unfold xml_decl_line. rewrite starts_cr. destruct (split_join ";" s [cr]) as (i & l & h & t & E1 & E2 & E3). cbn in E2. injection E2 as <- <-.
    destruct s as [|c s].
    + reflexivity.
    + cbn [app]. unfold decode_line. destruct (starts "//" (c :: s)); [reflexivity|]. change (c :: s ++ [cr]) with ((c :: s) ++ [cr]). rewrite E3, E1.
      rewrite E1 in Pc. rewrite !foldM_app. rewrite P by (intros p Hp; apply Pc, in_or_app; left; exact Hp).
      destruct (foldM decode_decl i st); cbn [bind]; try reflexivity. cbn [foldM]. rewrite without_app.
      rewrite (without_none cr l) by (apply Pc, in_or_app; right; left; reflexivity). cbn. rewrite app_nil_r. reflexivity.
Qed.
Lemma xml_decls s : ~ In cr s -> parse_declarations s = decode_declarations s /\ parse_declarations (crlf s) = decode_declarations s.
Proof.
  intros N. unfold parse_declarations, decode_declarations. rewrite split_crlf.
  assert (P : forall l st, In l (split_on newline s) -> xml_decl_line st l = decode_line st l /\ xml_decl_line st (l ++ [cr]) = decode_line st l).
  { intros l st Hl. apply xml_line. destruct (split_piece _ _ _ Hl) as [_ I]. intros C. apply N, I, C. }
  destruct (foldM_cr xml_decl_line decode_line _ P (mkDecls [] [], 1)) as [A B]. rewrite A, B. split; reflexivity.
Qed.

(** ** System declarations *)
Lemma space_code c : is_space c = true -> In (nat_of_ascii c) [9; 10; 11; 12; 13; 32].
Proof.
  unfold is_space. rewrite existsb_exists. intros (x & Hx & E). apply Ascii.eqb_eq in E. subst x. apply in_map_iff in Hx. destruct Hx as (n & <- & Hn).
  rewrite nat_ascii_embedding; [exact Hn|]. cbn in Hn. lia.
Qed.
Definition solid (w : text) : Prop := forall c, In c w -> is_space c = false.
Lemma solid_spaces w : solid w -> no_space w = w.
Proof. intros H. unfold no_space. induction w as [|c w IH]; [reflexivity|]. cbn [filter]. rewrite (H c (or_introl eq_refl)). cbn [negb]. f_equal. apply IH. intros x Hx. apply H. right. exact Hx. Qed.
Lemma code_ascii c n : nat_of_ascii c = n -> c = ascii_of_nat n.
Proof. intros <-. symmetry. apply ascii_nat_embedding. Qed.
Lemma words_solid s w : plain_spaces s -> ~ In newline s -> In w (split_on " " s) -> solid w.
Proof.
  intros P N Hw c Hc. destruct (split_piece _ _ _ Hw) as [Sp I]. destruct (is_space c) eqn:E; [exfalso|reflexivity]. apply space_code in E. pose proof (P c (I c Hc)) as Q. cbn in E, Q.
  destruct E as [E|[E|[E|[E|[E|[E|[]]]]]]]; symmetry in E; try (apply Q; rewrite E; tauto).
  - apply code_ascii in E. apply N. change newline with (ascii_of_nat 10). rewrite <- E. apply I, Hc.
  - apply code_ascii in E. apply Sp. change " "%char with (ascii_of_nat 32). rewrite <- E. exact Hc.
Qed.
Lemma solid_not w c : solid w -> is_space c = true -> ~ In c w.
Proof. intros S E H. rewrite (S c H) in E. discriminate. Qed.
Lemma xml_actions_eq ws : (forall w, In w ws -> solid w) -> xml_actions ws = io_actions ws.
Proof.
  intros H. unfold xml_actions, io_actions. induction ws as [|w ws IH]; [reflexivity|]. cbn [flat_map]. rewrite IH by (intros; apply H; right; assumption). f_equal. f_equal. f_equal.
  assert (S : forall c, is_space c = true -> ~ In c (without "{" w)) by (intros c E C; apply filter_In in C; revert C; intros [C _]; revert C; apply solid_not; [apply H; left; reflexivity|exact E]).
  rewrite (without_none cr) by (apply S; reflexivity). apply without_none, S. reflexivity.
Qed.
Lemma xml_actions_cr ws l : (forall w, In w (ws ++ [l]) -> solid w) -> xml_actions (ws ++ [l ++ [cr]]) = io_actions (ws ++ [l]).
Proof.
  intros H. rewrite <- (xml_actions_eq _ H). unfold xml_actions. rewrite !flat_map_app. f_equal. cbn [flat_map]. rewrite !app_nil_r.
  rewrite !without_app. cbn. rewrite !app_nil_r. reflexivity.
Qed.
Lemma str_inj a b : str a = str b -> a = b. Proof. intros H. rewrite <- (txt_str a), <- (txt_str b), H. reflexivity. Qed.
Lemma cr_word l w : ~ In cr (txt w) -> String.eqb (str (l ++ [cr])) w = false.
Proof. intros H. apply String.eqb_neq. intros E. apply H. rewrite <- E, txt_str. apply in_or_app. right. left. reflexivity. Qed.
Lemma blank_app a b : blank (a ++ b) = blank a && blank b. Proof. apply forallb_app. Qed.
Lemma blank_first s : blank s = true -> plain_spaces s -> ~ In newline s -> s <> [] -> exists ws, split_on " " s = [] :: ws.
Proof.
  intros B P N H. destruct s as [|c s]; [congruence|]. unfold blank in B. cbn [forallb] in B. apply andb_true_iff in B. destruct B as [B _]. apply space_code in B. pose proof (P c (or_introl eq_refl)) as Q. cbn in B, Q.
  assert (E : c = " "%char).
  { destruct B as [E|[E|[E|[E|[E|[E|[]]]]]]]; symmetry in E; try (exfalso; apply Q; rewrite E; tauto); apply code_ascii in E; [|exact E]. exfalso. apply N. left. exact E. }
  subst c. cbn [split_on]. eexists. reflexivity.
Qed.
Lemma xml_sys_ok (e : text) st s st' : e = [] \/ e = [cr] /\ (forall ws, split_on " " s = txt "IO" :: ws -> 2 <= List.length ws) ->
  plain_spaces s -> ~ In newline s -> decode_sys_line st s = Ok st' -> xml_sys_line st (s ++ e) = Ok st'.
Proof.
  intros He P N E.
  assert (So : forall w, In w (split_on " " s) -> solid w) by (intros w; apply words_solid; assumption).
  destruct s as [|c0 s0] eqn:Es.
  { cbn in E. injection E as <-. destruct He as [->|[-> _]]; reflexivity. }
  assert (Ne : s <> []) by congruence. rewrite <- Es in *. clear Es. assert (Ne' : exists c r, s ++ e = c :: r) by (destruct s; [congruence|]; eexists _, _; reflexivity).
  destruct Ne' as (c1 & r1 & Er). unfold xml_sys_line. rewrite Er, <- Er. clear c1 r1 Er.
  unfold decode_sys_line in E. destruct s as [|c1 r1] eqn:Es; [congruence|]. rewrite <- Es in *. clear Es c1 r1 c0 s0.
  assert (Q1 : starts "//" (s ++ e) = starts "//" s) by (destruct He as [->|[-> _]]; [rewrite app_nil_r; reflexivity|apply starts_cr]).
  assert (Q2 : blank (s ++ e) = blank s) by (rewrite blank_app; destruct He as [->|[-> _]]; apply andb_true_r).
  rewrite Q1, Q2. destruct (starts "//" s); [exact E|]. destruct (blank s) eqn:B.
  - destruct (blank_first s B P N Ne) as [ws Ew]. unfold decode_io in E. rewrite Ew in E. destruct st as [[names|] sp]; cbn in E; [|discriminate]. exact E.
  - assert (W : exists i l, split_on " " s = i ++ [l] /\ split_on " " (s ++ e) = i ++ [l ++ e]).
    { destruct (split_join " " s e) as (i & l & h & t & E1 & E2 & E3). exists i, l. split; [exact E1|]. destruct He as [->|[-> _]]; cbn in E2; injection E2 as <- <-; exact E3. }
    destruct W as (i & l & W1 & W2). unfold xml_io. rewrite W2. unfold decode_io in E. rewrite W1 in E, So.
    assert (M : map no_space (i ++ [l ++ e]) = i ++ [l]).
    { assert (I0 : map no_space i = i) by (transitivity (map (fun x : text => x) i); [apply map_ext_in; intros w Hw; apply solid_spaces, So, in_or_app; left; exact Hw|apply map_id]).
      rewrite map_app, I0. f_equal. cbn [map]. f_equal. unfold no_space. rewrite filter_app. assert (L : no_space l = l) by (apply solid_spaces, So, in_or_app; right; left; reflexivity). unfold no_space in L. rewrite L.
      destruct He as [->|[-> _]]; apply app_nil_r. }
    assert (IO : forall names sp sp',
      match i ++ [l] with
      | io :: words => if String.eqb (str io) "IO" then match words with n :: words' => if existsb (fun m => String.eqb (str m) (str n)) names then foldM (decode_action (str n)) (io_actions words') sp else Panic | [] => Panic end else Ok sp
      | [] => Panic end = Ok sp' ->
      match i ++ [l ++ e] with
      | io :: words => if String.eqb (str io) "IO" then match words with n :: words' => if existsb (fun m => String.eqb (str m) (str n)) names then foldM (decode_action (str n)) (xml_actions words') sp else Panic | [] => Panic end else Ok sp
      | [] => Panic end = Ok sp').
    { intros names sp sp' X. destruct He as [->|[-> Hw]].
      - assert (Z : i ++ [l ++ []] = (i ++ [l] : list text)) by (f_equal; f_equal; apply app_nil_r). rewrite Z. clear Z. destruct (i ++ [l]) as [|io ws] eqn:Ei; [discriminate|]. destruct (String.eqb (str io) "IO"); [|exact X]. destruct ws as [|n ws]; [discriminate|].
        rewrite xml_actions_eq; [exact X|]. intros w Hw. apply So. right. right. exact Hw.
      - destruct i as [|io i]; cbn [app] in X |- *.
        + rewrite cr_word by (cbn; intros [C|[C|[]]]; discriminate). destruct (String.eqb (str l) "IO"); [discriminate|exact X].
        + destruct (String.eqb (str io) "IO") eqn:Eio; [|exact X]. apply String.eqb_eq in Eio. destruct i as [|n i]; cbn [app] in X |- *.
          * exfalso. assert (Z : io = txt "IO") by (rewrite <- Eio, txt_str; reflexivity). subst io. specialize (Hw [l] W1). cbn in Hw. lia.
          * rewrite xml_actions_cr; [exact X|]. intros w Hw'. apply So. right. right. exact Hw'. }
    rewrite M. destruct st as [[names|] sp]; cbn [fst snd bind] in *.
    + inv_bind E. injection E as <-. rewrite (IO _ _ _ H). reflexivity.
    + destruct (i ++ [l]) as [|first words] eqn:Ei; [discriminate|]. destruct (String.eqb (str first) "system"); [|discriminate]. cbn [bind] in *.
      inv_bind E. injection E as <-. rewrite (IO _ _ _ H). reflexivity.
Qed.
Lemma xml_system_ok s sp : plain_spaces s -> decode_system s = Ok sp -> xml_system s = Ok sp.
Proof.
  intros P E. unfold decode_system in E. inv_bind E. injection E as <-. unfold xml_system.
  assert (G : forall ls st st', (forall l, In l ls -> plain_spaces l /\ ~ In newline l) -> foldM decode_sys_line ls st = Ok st' -> foldM xml_sys_line ls st = Ok st').
  { induction ls as [|l ls IH]; intros st st' Hl F; [exact F|]. cbn [foldM] in *. inv_bind F. destruct (Hl l (or_introl eq_refl)) as [Pl Nl].
    pose proof (xml_sys_ok [] st l _ (or_introl eq_refl) Pl Nl H0) as X. rewrite app_nil_r in X. rewrite X. cbn [bind]. apply IH; [|exact F]. intros; apply Hl; right; assumption. }
  rewrite (G _ _ _) with (2 := H); [reflexivity|]. intros l Hl. destruct (split_piece _ _ _ Hl) as [N I]. split; [|exact N]. intros c Hc. apply P, I, Hc.
Qed.
Lemma xml_system_crlf s sp : plain_spaces s -> (forall l ws, In l (split_on newline s) -> split_on " " l = txt "IO" :: ws -> 2 <= List.length ws) ->
  decode_system s = Ok sp -> xml_system (crlf s) = Ok sp.
Proof.
  intros P Hw E. unfold decode_system in E. inv_bind E. injection E as <-. unfold xml_system. rewrite split_crlf.
  assert (G : forall ls st st', (forall l, In l ls -> plain_spaces l /\ ~ In newline l /\ forall ws, split_on " " l = txt "IO" :: ws -> 2 <= List.length ws) -> foldM decode_sys_line ls st = Ok st' -> foldM xml_sys_line (add_cr ls) st = Ok st').
  { induction ls as [|l ls IH]; intros st st' Hl F; [exact F|]. cbn [foldM] in F. inv_bind F. destruct (Hl l (or_introl eq_refl)) as (Pl & Nl & Wl).
    assert (Ht : forall l, In l ls -> plain_spaces l /\ ~ In newline l /\ forall ws, split_on " " l = txt "IO" :: ws -> 2 <= List.length ws) by (intros; apply Hl; right; assumption).
    destruct ls as [|m ls].
    - cbn [add_cr foldM]. pose proof (xml_sys_ok [] st l _ (or_introl eq_refl) Pl Nl H0) as X. rewrite app_nil_r in X. rewrite X. exact F.
    - rewrite add_cr_cons by discriminate. cbn [foldM]. rewrite (xml_sys_ok [cr] st l _ (or_intror (conj eq_refl Wl)) Pl Nl H0). cbn [bind]. apply IH; assumption. }
  rewrite (G _ _ _) with (2 := H); [reflexivity|]. intros l Hl. destruct (split_piece _ _ _ Hl) as [N I]. split; [intros c Hc; apply P, I, Hc|]. split; [exact N|]. intros ws. apply Hw, Hl.
Qed.

(** ** Components *)
Lemma shows_find x ks t : shows t x ks -> find_all t x = ks. Proof. destruct x as [tg at_ b kids]. exact (fun H => H). Qed.
Lemma parse_guard_rt g : b_legible g -> b_plain g -> encode_bool g <> [] -> parse_guard (encode_bool g) = Ok g.
Proof.
  intros L P N. pose proof (guard_rt (Some g) (conj L P)) as H. cbn [encode_opt_bool] in H. unfold decode_guard in H. destruct (encode_bool g) as [|c s]; [congruence|].
  unfold rmap in H. destruct (parse_guard (c :: s)); cbn in H; try discriminate. congruence.
Qed.
Lemma guard_text g : b_legible g -> b_plain g -> encode_bool g <> [].
Proof. intros L P N. pose proof (guard_rt (Some g) (conj L P)) as H. cbn [encode_opt_bool] in H. rewrite N in H. discriminate. Qed.
Lemma parse_updates_rt us : us <> [] -> (forall u, In u us -> update_savable u) -> parse_updates (encode_updates us) = Ok us.
Proof.
  intros N S. pose proof (updates_rt (Some us) (conj N S)) as H. cbn [encode_opt_updates] in H. unfold decode_update in H. destruct (encode_updates us) as [|c s]; [discriminate|].
  unfold rmap in H. destruct (parse_updates (c :: s)); cbn in H; try discriminate. congruence.
Qed.

Lemma read_location init l x : location_elem l x -> guard_writable (l_inv l) ->
  xml_location init x = Ok (mkL (l_id l) (l_inv l) (if String.eqb (l_id l) init then Initial else Normal) "").
Proof.
  intros (T & I & L) G. unfold xml_location, find_first. rewrite I. cbn [unwrap bind].
  destruct (l_inv l) as [g|].
  - destruct L as (lab & S & Tl & Kl & Bl). rewrite (shows_find _ _ _ S). cbn [hd_error].
    rewrite Bl. destruct G as [Lg Pg]. rewrite (parse_guard_rt g Lg Pg (guard_text g Lg Pg)). reflexivity.
  - rewrite (shows_find _ _ _ L). reflexivity.
Qed.
Lemma without_sync e : (forall a, In a (txt (e_sync e)) -> a <> "!"%char /\ a <> "?"%char) ->
  existsb (Ascii.eqb "?") (sync_text e) = match e_type e with SInput => true | SOutput => false end /\ str (without "?" (without "!" (sync_text e))) = e_sync e.
Proof.
  intros H. assert (N1 : ~ In "!"%char (txt (e_sync e))) by (intros C; destruct (H _ C); congruence). assert (N2 : ~ In "?"%char (txt (e_sync e))) by (intros C; destruct (H _ C); congruence).
  unfold sync_text. split.
  - rewrite existsb_app. replace (existsb (Ascii.eqb "?") (txt (e_sync e))) with false; [destruct (e_type e); reflexivity|].
    symmetry. apply not_true_is_false. rewrite existsb_exists. intros (c & Hc & E). apply Ascii.eqb_eq in E. subst c. contradiction.
  - rewrite without_app, (without_none "!" (txt (e_sync e)) N1), without_app, (without_none "?" (txt (e_sync e)) N2). destruct (e_type e); cbn; rewrite app_nil_r, str_txt; reflexivity.
Qed.
Definition reads_as {A B} (k : string) (f : elem -> res A) (w : A -> B) (ls : list elem) (b b' : B) : Prop :=
  of_kind k ls = [] /\ b' = b \/ exists y v, of_kind k ls = [y] /\ f y = Ok v /\ b' = w v.
Lemma reads_skip {A B} k (f : elem -> res A) (w : A -> B) y ls b b' : reads_as k f w (y :: ls) b b' -> of_kind k [y] = [] -> reads_as k f w ls b b'.
Proof. unfold reads_as, of_kind. cbn [filter]. destruct (match get_attr "kind" y with Some k' => String.eqb k' k | None => false end); [discriminate|]. auto. Qed.
Lemma reads_here {A B} k (f : elem -> res A) (w : A -> B) y ls b b' : reads_as k f w (y :: ls) b b' -> of_kind k [y] = [y] -> exists v, f y = Ok v /\ reads_as k f w ls (w v) b'.
Proof.
  unfold reads_as, of_kind. cbn [filter]. destruct (match get_attr "kind" y with Some k' => String.eqb k' k | None => false end); [|discriminate]. intros [[X _]|(z & v & E & F & ->)] _; [discriminate|].
  injection E as -> E. exists v. split; [exact F|]. left. auto.
Qed.
Lemma read_labels : forall ls g u s g' u' s', (forall y, In y ls -> exists k, has_attr "kind" k y) ->
  reads_as "guard" (fun y => parse_guard (el_text y)) Some ls g g' -> reads_as "assignment" (fun y => parse_updates (el_text y)) Some ls u u' -> reads_as "synchronisation" (fun y => Ok (el_text y)) (fun t => t) ls s s' ->
  foldM xml_label ls (g, u, s) = Ok (g', u', s').
Proof.
  induction ls as [|y ls IH]; intros g u s g' u' s' K G U S.
  { destruct G as [[_ ->]|(? & ? & X & _)]; [|discriminate]. destruct U as [[_ ->]|(? & ? & X & _)]; [|discriminate]. destruct S as [[_ ->]|(? & ? & X & _)]; [|discriminate]. reflexivity. }
  destruct (K y (or_introl eq_refl)) as [k Hk]. assert (K' : forall y, In y ls -> exists k, has_attr "kind" k y) by (intros; apply K; right; assumption).
  assert (O : forall w, of_kind w [y] = if String.eqb k w then [y] else []) by (intros w; unfold of_kind; cbn [filter]; rewrite Hk; reflexivity).
  cbn [foldM]. unfold xml_label at 1. rewrite Hk. cbn [unwrap bind].
  destruct (String.eqb_spec k "guard") as [->|N1].
  { destruct (reads_here _ _ _ _ _ _ _ G (O "guard")) as (v & E & G'). rewrite E. cbn [expect bind].
    apply IH; [exact K'|exact G'|eapply reads_skip; [exact U|exact (O _)]|eapply reads_skip; [exact S|exact (O _)]]. }
  assert (G' := reads_skip _ _ _ _ _ _ _ G). rewrite O, (proj2 (String.eqb_neq k "guard") N1) in G'. specialize (G' eq_refl).
  destruct (String.eqb_spec k "synchronisation") as [->|N2].
  { destruct (reads_here _ _ _ _ _ _ _ S (O "synchronisation")) as (v & E & S'). injection E as <-. cbn [bind]. apply IH; [exact K'|exact G'|eapply reads_skip; [exact U|exact (O _)]|exact S']. }
  assert (S' := reads_skip _ _ _ _ _ _ _ S). rewrite O, (proj2 (String.eqb_neq k "synchronisation") N2) in S'. specialize (S' eq_refl).
  destruct (String.eqb_spec k "assignment") as [->|N3].
  { destruct (reads_here _ _ _ _ _ _ _ U (O "assignment")) as (v & E & U'). rewrite E. cbn [expect bind]. apply IH; assumption. }
  assert (U' := reads_skip _ _ _ _ _ _ _ U). rewrite O, (proj2 (String.eqb_neq k "assignment") N3) in U'. specialize (U' eq_refl).
  cbn [bind]. apply IH; assumption.
Qed.
Lemma read_edge e x : transition_elem e x -> guard_writable (e_guard e) -> updates_writable (e_update e) -> (forall a, In a (txt (e_sync e)) -> a <> "!"%char /\ a <> "?"%char) ->
  xml_edge x = Ok (mkE "NotImplemented" (e_src e) (e_tgt e) (e_type e) (e_guard e) (e_update e) (e_sync e)).
Proof.
  intros (T & (src & Ss & As) & (tgt & St & At) & ls & Sl & K & G & U & sy & Ey & _ & _ & By) Wg Wu Ws.
  unfold xml_edge, find_first. rewrite (shows_find _ _ _ Ss), (shows_find _ _ _ St), (shows_find _ _ _ Sl). cbn [hd_error].
  match goal with |- context [foldM xml_label ls ?st] => replace (foldM xml_label ls st) with (Ok (e_guard e, e_update e, sync_text e) : res edge_labels); [|symmetry; apply (read_labels ls None None [] _ _ _ K)] end.
  - unfold has_attr in As, At. cbn [bind unwrap fst snd]. rewrite As. cbn [bind unwrap fst snd]. rewrite At. cbn [bind unwrap fst snd]. destruct (without_sync e Ws) as [W1 W2]. rewrite W1, W2. destruct (e_type e); reflexivity.
  - unfold guard_label in G. destruct (e_guard e) as [g|]; [|left; auto]. destruct G as (y & Eg & _ & _ & Bg). right. exists y, g. rewrite Bg. destruct Wg as [Lg Pg]. auto using parse_guard_rt, guard_text.
  - unfold update_label in U. destruct (e_update e) as [us|]; [|left; auto]. destruct U as (y & Eu & _ & _ & Bu). right. exists y, us. rewrite Bu. destruct Wu as [Nu Su]. auto using parse_updates_rt.
  - right. exists sy, (sync_text e). rewrite By. auto.
Qed.
Lemma mapM_read {A B} (P : A -> B -> Prop) (f : B -> res A) (g : A -> A) : forall l ks, Forall2 P l ks -> (forall a k, In a l -> P a k -> f k = Ok (g a)) -> mapM f ks = Ok (map g l).
Proof.
  intros l ks F. induction F as [|a k l ks H F IH]; intros E; [reflexivity|]. cbn [mapM map]. rewrite (E a k (or_introl eq_refl) H). cbn [bind]. rewrite IH by (intros; apply E; [right|]; assumption). reflexivity.
Qed.
Lemma read_template init dt c x d : template_elem init dt c x -> parse_declarations dt = Ok d ->
  (forall l, In l (c_locs c) -> guard_writable (l_inv l)) ->
  (forall e, In e (c_edges c) -> guard_writable (e_guard e) /\ updates_writable (e_update e) /\ forall a, In a (txt (e_sync e)) -> a <> "!"%char /\ a <> "?"%char) ->
  xml_component x = Ok (in_xml init c d).
Proof.
  intros (T & (nm & Sn & Bn) & (dc & Sd & Bd) & (ls & Sl & Fl) & (it & Si & Ai) & es & Se & Fe) Ed Wl We.
  unfold xml_component, find_first. rewrite (shows_find _ _ _ Sn), (shows_find _ _ _ Sd), (shows_find _ _ _ Sl), (shows_find _ _ _ Si), (shows_find _ _ _ Se). cbn [hd_error].
  rewrite Bd, Ed. cbn [bind unwrap].
  rewrite (mapM_read _ _ (fun e => mkE "NotImplemented" (e_src e) (e_tgt e) (e_type e) (e_guard e) (e_update e) (e_sync e)) _ _ Fe).
  2: { intros e k He' Hk. destruct (We e He') as (W1 & W2 & W3). apply read_edge; assumption. }
  cbn [bind unwrap]. unfold has_attr in Ai. rewrite Ai. cbn [bind unwrap].
  rewrite (mapM_read _ _ (fun l => mkL (l_id l) (l_inv l) (if String.eqb (l_id l) init then Initial else Normal) "") _ _ Fl).
  2: { intros l k Hl' Hk. apply read_location; [exact Hk|apply Wl, Hl']. }
  cbn [bind]. unfold has_text in Bn. rewrite Bn, str_txt. reflexivity.
Qed.

Lemma plain_cr s : plain_spaces s -> ~ In cr s. Proof. intros H C. apply (H _ C). cbn. tauto. Qed.
Lemma read_written t x : template_ok t -> written t x -> xml_component x = Ok (as_read t).
Proof.
  intros [L N P Gl Ge] (s & E & T). apply (read_template _ _ _ _ _ T); [|exact Gl|exact Ge].
  destruct (xml_decls _ (plain_cr _ P)) as [A B]. destruct E as [-> | ->]; [rewrite A|rewrite B]; apply decl_reads; assumption.
Qed.
Lemma system_words ns ls : ns <> [] -> (forall n, In n ns -> word sep_comps n) -> (forall l, In l ls -> line_ok ns l) ->
  forall l ws, In l (split_on newline (system_text ns ls)) -> split_on " " l = txt "IO" :: ws -> 2 <= List.length ws.
Proof.
  intros Ne W H l ws Hl E. unfold system_text in Hl.
  set (first := txt "system " ++ comps_text ns ++ [";"%char]) in *.
  replace (txt "system " ++ comps_text ns ++ txt ";" ++ flat_map (fun l => eol :: line_text l) ls) with (first ++ flat_map (fun l => eol :: line_text l) ls) in Hl by (unfold first; rewrite <- !app_assoc; reflexivity).
  rewrite split_lines in Hl.
  2: { intros l' Hl'. eapply line_no_eol; [exact W|apply H; exact Hl']. }
  2: { unfold first. intros X. apply in_app_or in X. destruct X as [X|X]; [simpl in X; repeat (destruct X as [X|X]; [discriminate|]); exact X|].
       apply in_app_or in X. destruct X as [X|[X|[]]]; [|discriminate]. destruct (comps_chars ns _ X) as [Y|(n & Hn & Y)].
       - simpl in Y. repeat (destruct Y as [Y|Y]; [discriminate|]). exact Y.
       - revert Y. eapply word_sep; [apply W; exact Hn|simpl; tauto]. }
  destruct Hl as [<-|Hl].
  { exfalso. unfold first in E. change (txt "system " ++ comps_text ns ++ [";"%char]) with (txt "system" ++ " "%char :: comps_text ns ++ [";"%char]) in E. rewrite split_app in E. discriminate. }
  apply in_map_iff in Hl. destruct Hl as (sl & <- & Hs). specialize (H sl Hs). destruct sl as [n acts| |s].
  - destruct H as [Hn _]. cbn [line_text] in E. change (txt "IO " ++ txt n ++ txt " {" ++ acts_text acts ++ txt "}") with (txt "IO" ++ " "%char :: (txt n ++ " "%char :: "{"%char :: acts_text acts ++ txt "}")) in E.
    rewrite split_app in E. rewrite split_app in E. change (split_on " " (txt "IO")) with [txt "IO"] in E.
    destruct (split_cons " " (txt n)) as (p1 & q1 & E1). destruct (split_cons " " ("{"%char :: acts_text acts ++ txt "}")) as (p2 & q2 & E2). rewrite E1, E2 in E.
    apply (f_equal (@List.length text)) in E. cbn in E. rewrite app_length in E. cbn in E. lia.
  - discriminate.
  - exfalso. change (line_text (LComment s)) with ("/"%char :: "/"%char :: s) in E. cbn in E. destruct (split_cons " " s) as (p1 & q1 & E1). rewrite E1 in E. discriminate.
Qed.
Lemma read_document ts ns ls root : document ts ns ls root -> (forall t, In t ts -> template_ok t) ->
  ns <> [] -> (forall n, In n ns -> word sep_comps n) -> (forall l, In l ls -> line_ok ns l) -> plain_spaces (system_text ns ls) ->
  exists sp, parse_xml root = Ok (map as_read ts, sp) /\ decode_system (system_text ns ls) = Ok sp.
Proof.
  intros ((xs & St & F) & s & sys & Ss & E & B) Hk Ne W H P. destruct (system_reads ns ls Ne W H) as (sp & D & _). exists sp. split; [|exact D].
  unfold parse_xml, find_first. rewrite (shows_find _ _ _ St), (shows_find _ _ _ Ss). cbn [hd_error].
  assert (M : mapM xml_component xs = Base.Ok (map as_read ts)).
  { clear - F Hk. induction F as [|t x ts xs H F IH]; [reflexivity|]. cbn [mapM map]. rewrite (read_written t x (Hk t (or_introl eq_refl)) H). cbn [bind]. rewrite IH by (intros; apply Hk; right; assumption). reflexivity. }
  rewrite M. cbn [bind unwrap]. rewrite B.
  destruct E as [-> | ->]; [rewrite (xml_system_ok _ _ P D)|rewrite (xml_system_crlf _ _ P (system_words ns ls Ne W H) D)]; reflexivity.
Qed.
