(** Facts about file texts. *)
From Coq Require Import List String Ascii ZArith Bool Arith Lia Permutation.
From Verif Require Import Fed.Zone Model.Base Model.Expr Model.Guard Model.Loc Model.Component Model.Peg Model.ParseEdge Model.Files
  Model.Layout Spec.TextSpec Spec.LayoutSpec Spec.FileSpec Proofs.GuardFacts Proofs.LayoutFacts Proofs.ParseFacts Proofs.LoadFacts Proofs.SystemFacts.
Import ListNotations.
Local Open Scope string_scope.
Local Open Scope list_scope.

(** ** Splitting *)
Lemma split_cons : forall c s, exists p ps, split_on c s = p :: ps.
Proof. intros c s. destruct s as [|x s]; simpl; eauto. destruct (Ascii.eqb x c); eauto. destruct (split_on c s); eauto. Qed.
Lemma split_app : forall c a b, split_on c (a ++ c :: b) = (split_on c a ++ split_on c b)%list.
Proof.
  intros c a b. induction a as [|x a IH]; simpl.
  - rewrite Ascii.eqb_refl. reflexivity.
  - destruct (Ascii.eqb x c); [rewrite IH; reflexivity|]. rewrite IH. destruct (split_cons c a) as (p & ps & ->). reflexivity.
Qed.
Lemma split_none : forall c s, ~ In c s -> split_on c s = [s].
Proof.
  intros c s. induction s as [|x s IH]; intros H; simpl; [reflexivity|].
  destruct (Ascii.eqb x c) eqn:E; [apply Ascii.eqb_eq in E; subst; destruct H; left; reflexivity|]. rewrite IH; [reflexivity|]. intros X. apply H. right. exact X.
Qed.
Lemma split_piece : forall c s p, In p (split_on c s) -> ~ In c p /\ forall x, In x p -> In x s.
Proof.
  intros c s. induction s as [|x s IH]; intros p H; simpl in H; [destruct H as [<-|[]]; split; [intros []|intros ? []]|].
  destruct (Ascii.eqb x c) eqn:E.
  - destruct H as [<-|H]; [split; [intros []|intros ? []]|]. destruct (IH p H) as [A B]. split; [exact A|]. intros y Y. right. auto.
  - destruct (split_cons c s) as (q & qs & Eq). rewrite Eq in *. destruct H as [<-|H].
    + destruct (IH q (or_introl eq_refl)) as [A B]. split.
      * intros [->|Y]; [rewrite Ascii.eqb_refl in E; discriminate|]. auto.
      * intros y [->|Y]; [left; reflexivity|right; auto].
    + destruct (IH p (or_intror H)) as [A B]. split; [exact A|]. intros y Y. right. auto.
Qed.
Lemma split_without : forall b c s, b <> c -> map (without b) (split_on c s) = split_on c (without b s).
Proof.
  intros b c s N. induction s as [|x s IH]; simpl; [reflexivity|]. destruct (Ascii.eqb x c) eqn:E.
  - apply Ascii.eqb_eq in E. subst x. assert (Eb : Ascii.eqb c b = false) by (apply Ascii.eqb_neq; congruence). rewrite Eb. simpl. rewrite Ascii.eqb_refl. rewrite IH. reflexivity.
  - destruct (Ascii.eqb x b) eqn:Eb; simpl; rewrite <- ?IH; destruct (split_cons c s) as (q & qs & ->); simpl; rewrite ?E, ?Eb; simpl; reflexivity.
Qed.
Lemma without_app : forall c a b, without c (a ++ b) = (without c a ++ without c b)%list.
Proof. intros. apply filter_app. Qed.
Lemma without_none : forall c s, ~ In c s -> without c s = s.
Proof.
  intros c s. induction s as [|x s IH]; intros H; simpl; [reflexivity|].
  destruct (Ascii.eqb x c) eqn:E; [apply Ascii.eqb_eq in E; subst; destruct H; left; reflexivity|]. simpl. rewrite IH; [reflexivity|]. intros X. apply H. right. exact X.
Qed.

(** The pieces between spaces and commas that are not empty. *)
Definition some (s : text) : bool := match s with [] => false | _ => true end.
Definition fields (s : text) : list text := filter some (flat_map (split_on ",") (split_on " " s)).
Lemma fields_space : forall a b, fields (a ++ " "%char :: b) = (fields a ++ fields b)%list.
Proof. intros a b. unfold fields. rewrite split_app, flat_map_app. apply filter_app. Qed.
Lemma split_join : forall c a b, exists init l h t, split_on c a = (init ++ [l])%list /\ split_on c b = h :: t /\ split_on c (a ++ b) = (init ++ (l ++ h) :: t)%list.
Proof.
  intros c a b. induction a as [|x a (init & l & h & t & Ea & Eb & E)]; simpl.
  - destruct (split_cons c b) as (h & t & E). exists [], [], h, t. auto.
  - destruct (Ascii.eqb x c).
    + exists ([] :: init), l, h, t. rewrite Ea, E. auto.
    + rewrite Ea, E. destruct init as [|i init]; simpl.
      * exists [], (x :: l), h, t. auto.
      * exists ((x :: i) :: init), l, h, t. auto.
Qed.
Lemma fields_comma : forall a b, fields (a ++ ","%char :: b) = (fields a ++ fields b)%list.
Proof.
  intros a b. unfold fields. destruct (split_join " " a (","%char :: b)) as (init & l & h & t & Ea & Eb & ->).
  simpl in Eb. destruct (split_cons " " b) as (h' & t' & Eb'). rewrite Eb' in *. injection Eb as <- <-.
  rewrite Ea. rewrite !flat_map_app. simpl. rewrite split_app, app_nil_r, !filter_app, <- !app_assoc. reflexivity.
Qed.
Lemma fields_word : forall w, w <> [] -> ~ In " "%char w -> ~ In ","%char w -> fields w = [w].
Proof. intros w N S C. unfold fields. rewrite (split_none " " w S). simpl. rewrite (split_none "," w C). destruct w; [congruence|reflexivity]. Qed.
Lemma str_txt : forall s, str (txt s) = s.
Proof. apply string_of_list_ascii_of_string. Qed.
Lemma txt_str : forall s, txt (str s) = s.
Proof. apply list_ascii_of_string_of_list_ascii. Qed.
Lemma txt_nil : forall n, n <> "" -> txt n <> [].
Proof. intros [|c n] H; [congruence|discriminate]. Qed.

(** ** Maps *)
Lemma put_new : forall V k (v : V) m, ~ In k (map fst m) -> put k v m = (m ++ [(k, v)])%list.
Proof.
  intros V k v m H. unfold put. f_equal. induction m as [|[k' v'] m IH]; simpl in *; [reflexivity|].
  destruct (String.eqb k k') eqn:E; [apply String.eqb_eq in E; subst; tauto|]. simpl. rewrite IH; tauto.
Qed.
Lemma put_keys : forall V k (v : V) m x, In x (map fst (put k v m)) <-> x = k \/ In x (map fst m).
Proof.
  intros V k v m x. unfold put. rewrite map_app, in_app_iff. simpl. split.
  - intros [H|[H|[]]]; auto. right. apply in_map_iff in H. destruct H as (p & <- & H). apply filter_In in H. apply in_map. apply H.
  - intros [->|H]; auto. destruct (String.eqb k x) eqn:E; [apply String.eqb_eq in E; auto|]. left.
    apply in_map_iff in H. destruct H as (p & <- & H). apply in_map. apply filter_In. rewrite E. auto.
Qed.
Lemma put_nodup : forall V k (v : V) m, NoDup (map fst m) -> NoDup (map fst (put k v m)).
Proof.
  intros V k v m H. unfold put. rewrite map_app. apply Permutation_NoDup with (l := k :: map fst (filter (fun p => negb (String.eqb k (fst p))) m)).
  - apply Permutation_cons_append.
  - constructor.
    + intros X. apply in_map_iff in X. destruct X as (p & E & X). apply filter_In in X. destruct X as [_ X]. subst k. rewrite String.eqb_refl in X. discriminate.
    + induction m as [|[a b] m IH]; simpl; [constructor|]. inversion H; subst. destruct (String.eqb k a); simpl; auto. constructor; auto.
      intros X. apply in_map_iff in X. destruct X as (p & E & X). apply filter_In in X. apply H2. rewrite <- E. apply in_map. apply X.
Qed.
Lemma assoc_put : forall V k (v : V) m x, assoc x (put k v m) = if String.eqb x k then Some v else assoc x m.
Proof.
  intros V k v m x. unfold put. induction m as [|[a b] m IH]; simpl.
  - destruct (String.eqb x k); reflexivity.
  - destruct (String.eqb k a) eqn:E; simpl.
    + rewrite IH. apply String.eqb_eq in E. subst a. destruct (String.eqb x k); reflexivity.
    + destruct (String.eqb x a) eqn:F; [|exact IH]. apply String.eqb_eq in F. subst a. rewrite String.eqb_sym, E. reflexivity.
Qed.

(** ** Declarations *)
Lemma add_clock_fields : forall l st, fold_left add_clock l st = fold_left add_clock (filter some l) st.
Proof. induction l as [|[|c w] l IH]; intros st; simpl; auto. Qed.
Lemma add_clock_names : forall ns (m : list (string * nat)) k, (forall n, In n ns -> n <> "") -> NoDup ns -> (forall n, In n ns -> ~ In n (map fst m)) ->
  fold_left add_clock (map txt ns) (m, k) = (m ++ combine ns (seq k (List.length ns)), k + List.length ns)%list.
Proof.
  induction ns as [|n ns IH]; intros m k Ne Nd Nm; simpl; [rewrite app_nil_r, Nat.add_0_r; reflexivity|].
  inversion Nd; subst. assert (E : add_clock (m, k) (txt n) = ((m ++ [(n, k)])%list, S k)).
  { unfold add_clock. pose proof (txt_nil n (Ne n (or_introl eq_refl))) as H. rewrite str_txt. rewrite put_new by (apply Nm; left; reflexivity). destruct (txt n); [congruence|reflexivity]. }
  rewrite E, IH.
  - rewrite <- app_assoc. f_equal. lia.
  - intros x Hx. apply Ne. right. exact Hx.
  - assumption.
  - intros x Hx. rewrite map_app, in_app_iff. simpl. intros [X|[X|[]]]; [eapply Nm; [right; exact Hx|exact X]|]. subst x. contradiction.
Qed.

Definition tail_text (ns : list string) : text := flat_map (fun m => txt ", " ++ txt m)%list ns.
Lemma fields_names : forall ns n, clock_name n -> (forall m, In m ns -> clock_name m) -> fields (txt n ++ tail_text ns) = map txt (n :: ns).
Proof.
  induction ns as [|m ns IH]; intros n [N1 N2] H; simpl.
  - rewrite app_nil_r. apply fields_word; [apply txt_nil; exact N1| |]; intros X; apply (N2 _ X); simpl; tauto.
  - change (txt n ++ txt ", " ++ txt m ++ tail_text ns)%list with (txt n ++ ","%char :: " "%char :: txt m ++ tail_text ns)%list.
    rewrite fields_comma. change (" "%char :: txt m ++ tail_text ns)%list with ([] ++ " "%char :: txt m ++ tail_text ns)%list. rewrite fields_space.
    rewrite IH; [|apply H; left; reflexivity|intros x Hx; apply H; right; exact Hx].
    rewrite fields_word; [reflexivity|apply txt_nil; exact N1| |]; intros X; apply (N2 _ X); simpl; tauto.
Qed.
Lemma tail_chars : forall ns c, In c (tail_text ns) -> c = ","%char \/ c = " "%char \/ exists n, In n ns /\ In c (txt n).
Proof.
  intros ns c H. unfold tail_text in H. apply in_flat_map in H. destruct H as (m & Hm & H). simpl in H.
  destruct H as [<-|[<-|H]]; auto. right. right. exists m. auto.
Qed.

Lemma nodup_parts {A} (a b : list A) : NoDup (a ++ b) -> NoDup a /\ NoDup b.
Proof.
  induction a as [|x a IH]; cbn; intros H; [split; [constructor|exact H]|]. inversion H; subst. destruct (IH H3) as [X Y]. split; [|exact Y].
  constructor; [|exact X]. intros C. apply H2, in_or_app. left. exact C.
Qed.
(** One line of clocks. *)
Lemma clocks_line : forall n ns m i k, (forall x, In x (n :: ns) -> clock_name x) -> NoDup (n :: ns) -> (forall x, In x (n :: ns) -> ~ In x (map fst m)) ->
  decode_line (mkDecls m i, k) (dline_text (DClocks n ns)) = Ok (mkDecls (m ++ combine (n :: ns) (seq k (List.length (n :: ns)))) i, k + List.length (n :: ns))%list.
Proof.
  intros n ns m i k W N Fr. cbn [dline_text].
  set (body := (txt "clock " ++ txt n ++ tail_text ns)%list).
  assert (Ebody : (txt "clock " ++ txt n ++ flat_map (fun m => txt ", " ++ txt m) ns ++ txt ";")%list = (body ++ ";"%char :: [])%list).
  { unfold body, tail_text. rewrite !app_assoc. reflexivity. }
  rewrite Ebody.
  assert (Hc : forall c, In c body -> In c (txt "clock ,") \/ exists m, In m (n :: ns) /\ In c (txt m)).
  { intros c H. unfold body in H. apply in_app_or in H. destruct H as [H|H]; [left; simpl in H |- *; tauto|]. apply in_app_or in H. destruct H as [H|H]; [right; exists n; split; [left; reflexivity|exact H]|].
    destruct (tail_chars ns c H) as [->|[->|(x & Hm & H')]]; [left; simpl; tauto|left; simpl; tauto|]. right. exists x. split; [right; exact Hm|exact H']. }
  assert (Hsc : ~ In ";"%char body).
  { intros H. destruct (Hc _ H) as [X|(x & Hm & X)].
    - simpl in X. repeat (destruct X as [X|X]; [discriminate|]). exact X.
    - destruct (W x Hm) as [_ Y]. apply (Y _ X). simpl. tauto. }
  assert (El : decode_line (mkDecls m i, k) (body ++ ";"%char :: [])%list = decode_decl (mkDecls m i, k) body).
  { unfold decode_line. rewrite split_app, (split_none ";" body Hsc). unfold body at 1. simpl app at 1. cbv beta iota.
    unfold body at 1. simpl starts. cbv beta iota. simpl split_on. simpl app. unfold foldM. destruct (decode_decl _ body) as [[d' k']| | |]; reflexivity. }
  rewrite El. clear El.
  assert (Es : split_on " " body = txt "clock" :: split_on " " (txt n ++ tail_text ns)).
  { unfold body. change (txt "clock " ++ txt n ++ tail_text ns)%list with (txt "clock" ++ " "%char :: txt n ++ tail_text ns)%list. rewrite split_app. reflexivity. }
  unfold decode_decl. rewrite Es. unfold body at 1. simpl app at 1. cbv beta iota. rewrite str_txt. change (String.eqb "clock" "clock") with true. cbv beta iota.
  unfold decl_vars. rewrite add_clock_fields. change (filter some (flat_map (split_on ",") (split_on " " (txt n ++ tail_text ns)%list))) with (fields (txt n ++ tail_text ns)).
  rewrite fields_names; [|apply W; left; reflexivity|intros x Hm; apply W; right; exact Hm]. cbn [d_clocks d_ints].
  rewrite add_clock_names; [reflexivity| |exact N|exact Fr].
  intros x Hx. apply (W x Hx).
Qed.
Lemma clocks_no_eol : forall n ns, (forall x, In x (n :: ns) -> clock_name x) -> ~ In eol (dline_text (DClocks n ns)).
Proof.
  intros n ns W H. cbn [dline_text] in H. fold (tail_text ns) in H.
  assert (X : forall m, In m (n :: ns) -> ~ In eol (txt m)) by (intros m Hm X; apply (proj2 (W m Hm) _ X); simpl; tauto).
  repeat (apply in_app_or in H; destruct H as [H|H]).
  - simpl in H. repeat (destruct H as [H|H]; [discriminate|]). exact H.
  - apply (X n); [left; reflexivity|exact H].
  - destruct (tail_chars ns _ H) as [E|[E|(m & Hm & E)]]; try discriminate. apply (X m); [right; exact Hm|exact E].
  - destruct H as [H|[]]. discriminate.
Qed.
(** Any number of lines. *)
Lemma lines_read : forall ls m k, (forall l, In l ls -> dline_ok l) -> NoDup (declared ls) -> (forall x, In x (declared ls) -> ~ In x (map fst m)) ->
  foldM decode_line (map dline_text ls) (mkDecls m [], k) = Ok (mkDecls (m ++ combine (declared ls) (seq k (List.length (declared ls)))) [], k + List.length (declared ls))%list.
Proof.
  induction ls as [|l ls IH]; intros m k H N F; [cbn; rewrite app_nil_r, Nat.add_0_r; reflexivity|]. cbn [map foldM].
  assert (Hl : forall l, In l ls -> dline_ok l) by (intros; apply H; right; assumption). pose proof (H l (or_introl eq_refl)) as H1.
  change (declared (l :: ls)) with ((match l with DClocks n ns => n :: ns | _ => [] end) ++ declared ls)%list in *.
  assert (Q : decode_line (mkDecls m [], k) (dline_text l) = Ok (mkDecls (m ++ combine (match l with DClocks n ns => n :: ns | _ => [] end) (seq k (List.length (match l with DClocks n ns => n :: ns | _ => [] end)))) [], k + List.length (match l with DClocks n ns => n :: ns | _ => [] end))%list).
  { destruct l as [n ns| |s].
    - apply clocks_line; [exact H1|apply nodup_parts in N; apply N|intros x Hx; apply F, in_or_app; left; exact Hx].
    - cbn. rewrite app_nil_r, Nat.add_0_r. reflexivity.
    - cbn. rewrite app_nil_r, Nat.add_0_r. reflexivity. }
  rewrite Q. cbn [bind]. set (a := match l with DClocks n ns => n :: ns | _ => [] end) in *.
  rewrite IH; [|exact Hl|apply nodup_parts in N; apply N|].
  - rewrite <- app_assoc, app_length, seq_app, Nat.add_assoc. do 4 f_equal. clear. revert k. induction a as [|x a IHa]; intros k; [cbn; rewrite Nat.add_0_r; reflexivity|].
    cbn. f_equal. rewrite <- Nat.add_succ_comm. apply IHa.
  - intros x Hx. rewrite map_app. intros C. apply in_app_or in C. destruct C as [C|C]; [revert C; apply F, in_or_app; right; exact Hx|].
    apply in_map_iff in C. destruct C as ((y & j) & <- & C). apply in_combine_l in C. cbn [fst] in Hx.
    clear - N C Hx. revert C Hx N. induction a as [|z a IHa]; intros C Hx N; [destruct C|]. inversion N; subst. destruct C as [->|C]; [apply H1, in_or_app; right; exact Hx|apply IHa; assumption].
Qed.
Lemma decl_reads : forall ls, (forall l, In l ls -> dline_ok l) -> NoDup (declared ls) ->
  decode_declarations (decl_text ls) = Ok (mkDecls (combine (declared ls) (seq 1 (List.length (declared ls)))) []).
Proof.
  intros ls H N. unfold decode_declarations. destruct ls as [|l ls]; [reflexivity|].
  assert (E : forall l, dline_ok l -> ~ In eol (dline_text l)).
  { intros [n ns| |s] X; [apply clocks_no_eol, X|intros []|]. cbn in X |- *. intros [C|[C|C]]; try discriminate. contradiction. }
  assert (S : forall ls, (forall l, In l ls -> dline_ok l) -> forall a, ~ In eol a -> split_on newline (a ++ flat_map (fun l => eol :: dline_text l) ls) = a :: map dline_text ls).
  { clear - E. induction ls as [|l ls IH]; intros H a Ha; simpl; [rewrite app_nil_r; apply split_none; exact Ha|].
    change eol with newline at 1. rewrite split_app, (split_none newline a Ha). simpl. f_equal. apply IH; [intros x Hx; apply H; right; exact Hx|apply E, H; left; reflexivity]. }
  cbn [decl_text]. rewrite S; [|intros; apply H; right; assumption|apply E, H; left; reflexivity].
  change (dline_text l :: map dline_text ls) with (map dline_text (l :: ls)). rewrite (lines_read (l :: ls) [] 1 H N); [reflexivity|intros x _ []].
Qed.
Lemma decode_encode : forall d, (forall x, In x (map fst (d_clocks d)) -> clock_name x) -> NoDup (map fst (d_clocks d)) ->
  decode_declarations (encode_declarations d) = Ok (mkDecls (combine (map fst (d_clocks d)) (seq 1 (List.length (d_clocks d)))) []).
Proof.
  intros d W N. rewrite <- (map_length fst (d_clocks d)). unfold encode_declarations. destruct (map fst (d_clocks d)) as [|n ns] eqn:E; [reflexivity|].
  pose proof (decl_reads [DClocks n ns]) as R. cbn [decl_text flat_map declared] in R. rewrite !app_nil_r in R. apply R; [|exact N]. intros l [<-|[]]. exact W.
Qed.

(** What is read has proper names, each once. *)
Definition decls_good (d : decls) : Prop := (forall x, In x (map fst (d_clocks d)) -> clock_name x) /\ NoDup (map fst (d_clocks d)).
Lemma add_clocks_good : forall l (m : list (string * nat)) k m' k', (forall w, In w l -> forall c, In c w -> ~ In c [" "; ","; ";"; eol]%char) ->
  (forall x, In x (map fst m) -> clock_name x) -> NoDup (map fst m) -> fold_left add_clock l (m, k) = (m', k') ->
  (forall x, In x (map fst m') -> clock_name x) /\ NoDup (map fst m').
Proof.
  induction l as [|w l IH]; intros m k m' k' Hl W N E; simpl in E; [injection E as <- <-; auto|].
  destruct w as [|c w]; [simpl in E; eapply IH; eauto; intros; eapply Hl; eauto; right; auto|].
  eapply IH; [| | |exact E].
  - intros u Hu. apply Hl. right. exact Hu.
  - intros x Hx. apply put_keys in Hx. destruct Hx as [->|Hx]; [|apply W; exact Hx]. split; [discriminate|].
    intros a Ha. change (In a (txt (str (c :: w)))) in Ha. rewrite txt_str in Ha. exact (Hl _ (or_introl eq_refl) a Ha).
  - apply put_nodup. exact N.
Qed.
Lemma foldM_inv : forall A S (P : S -> Prop) (f : S -> A -> res S) l s s', (forall a s s', In a l -> P s -> f s a = Ok s' -> P s') -> P s -> foldM f l s = Ok s' -> P s'.
Proof.
  induction l as [|a l IH]; intros s s' H Hs E; simpl in E; [injection E as <-; exact Hs|]. destruct (f s a) as [s1| | |] eqn:F; try discriminate.
  simpl in E. eapply IH; [|eapply H; [left; reflexivity|exact Hs|exact F]|exact E]. intros; eapply H; eauto; right; auto.
Qed.
Lemma decode_good : forall s d, decode_declarations s = Ok d -> decls_good d.
Proof.
  intros s d E. unfold decode_declarations in E. destruct (foldM decode_line _ _) as [[d1 k1]| | |] eqn:F; try discriminate. injection E as <-. simpl.
  refine (foldM_inv _ _ (fun st => decls_good (fst st)) _ _ _ _ _ _ F); [|split; [intros ? []|constructor]].
  intros line st st' Hl G El. destruct (split_piece _ _ _ Hl) as [Nl _].
  unfold decode_line in El. destruct line as [|c0 line0] eqn:Eline; [injection El as <-; exact G|]. rewrite <- Eline in *. clear Eline.
  destruct (starts "//" line); [injection El as <-; exact G|].
  refine (foldM_inv _ _ (fun st => decls_good (fst st)) _ _ _ _ _ G El).
  intros p st1 st2 Hp G1 Ep. destruct (split_piece _ _ _ Hp) as [Np Ip]. unfold decode_decl in Ep.
  destruct p as [|c1 p0] eqn:Epp; [injection Ep as <-; exact G1|]. rewrite <- Epp in *. clear Epp.
  destruct st1 as [d2 k2]. destruct (split_on " " p) as [|ty ws] eqn:Ews; [discriminate|].
  destruct (String.eqb (str ty) "clock").
  - destruct (fold_left add_clock (decl_vars ws) (d_clocks d2, k2)) as [cl k'] eqn:Ef. injection Ep as <-. simpl. destruct G1 as [G1 G2].
    refine (add_clocks_good _ _ _ _ _ _ G1 G2 Ef). intros w Hw c Hc. unfold decl_vars in Hw. apply in_flat_map in Hw. destruct Hw as (u & Hu & Hw).
    assert (Hu' : In u (split_on " " p)) by (rewrite Ews; right; exact Hu). destruct (split_piece _ _ _ Hu') as [Nu Iu]. destruct (split_piece _ _ _ Hw) as [Nw Iw].
    simpl. intros [X|[X|[X|[X|[]]]]]; subst c; auto.
  - destruct (String.eqb (str ty) "int"); [|discriminate]. injection Ep as <-. exact G1.
Qed.

(** ** System declarations *)
Lemma decode_action_fields : forall n l sp, foldM (decode_action n) l sp = foldM (decode_action n) (filter some l) sp.
Proof.
  intros n l. induction l as [|[|c w] l IH]; intros sp; [reflexivity|apply IH|]. cbn [filter some foldM]. destruct (decode_action n sp (c :: w)); cbn [bind]; auto.
Qed.
Lemma io_actions_fields : forall s, filter some (io_actions (split_on " " s)) = fields (without "}" (without "{" s)).
Proof.
  intros s. unfold io_actions, fields. f_equal. rewrite <- (split_without "}" " ") by discriminate. rewrite <- (split_without "{" " ") by discriminate.
  rewrite map_map. induction (split_on " " s) as [|w ws IH]; simpl; [reflexivity|]. rewrite IH. reflexivity.
Qed.
Lemma ends_app : forall c s, ends_with c (s ++ [c]) = true.
Proof. intros c s. unfold ends_with. rewrite rev_app_distr. simpl. apply Ascii.eqb_refl. Qed.
Lemma ends_other : forall c x s, x <> c -> ends_with c (s ++ [x]) = false.
Proof. intros c x s H. unfold ends_with. rewrite rev_app_distr. simpl. apply Ascii.eqb_neq. exact H. Qed.

Definition listed_in (m : list (string * list string)) (n : string) : list string := match assoc n m with Some l => l | None => [] end.
Definition is_listed (m : list (string * list string)) (f : string -> list string) : Prop :=
  forall n, match assoc n m with Some l => l = f n /\ l <> [] | None => f n = [] end.
Lemma is_listed_push : forall m f k v, is_listed m f -> is_listed (push k v m) (fun n => if String.eqb k n then (f n ++ [v])%list else f n).
Proof.
  intros m f k v H n. unfold push. rewrite assoc_put. rewrite (String.eqb_sym n k). destruct (String.eqb k n) eqn:E.
  - apply String.eqb_eq in E. subst n. specialize (H k). destruct (assoc k m) as [l|].
    + destruct H as [-> _]. split; [reflexivity|]. destruct (f k); discriminate.
    + rewrite H. split; [reflexivity|discriminate].
  - apply H.
Qed.
Lemma is_listed_ext : forall m f g, is_listed m f -> (forall n, f n = g n) -> is_listed m g.
Proof. intros m f g H E n. specialize (H n). rewrite <- E. exact H. Qed.

Definition acts_of (b : bool) (acts : list io) : list string := map io_name (filter (fun a => Bool.eqb (io_input a) b) acts).
Lemma word_sep : forall seps n c, word seps n -> In c seps -> ~ In c (txt n).
Proof. intros seps n c [_ W] H X. exact (W c X H). Qed.
Lemma decode_acts : forall n acts sp fi fo, (forall a, In a acts -> word sep_acts (io_name a)) -> is_listed (sp_ins sp) fi -> is_listed (sp_outs sp) fo ->
  exists sp', foldM (decode_action n) (map io_text acts) sp = Ok sp' /\ sp_comps sp' = sp_comps sp /\
    is_listed (sp_ins sp') (fun m => if String.eqb n m then fi m ++ acts_of true acts else fi m)%list /\
    is_listed (sp_outs sp') (fun m => if String.eqb n m then fo m ++ acts_of false acts else fo m)%list.
Proof.
  induction acts as [|a acts IH]; intros sp fi fo W Hi Ho; simpl.
  - exists sp. split; [reflexivity|]. split; [reflexivity|]. split; [eapply is_listed_ext; [exact Hi|]|eapply is_listed_ext; [exact Ho|]]; intros m; rewrite app_nil_r; destruct (String.eqb n m); reflexivity.
  - pose proof (W a (or_introl eq_refl)) as Wa. assert (Wt : forall x, In x acts -> word sep_acts (io_name x)) by (intros; apply W; right; auto).
    assert (Ne : io_text a <> []) by (unfold io_text; pose proof (txt_nil _ (proj1 Wa)); destruct (txt (io_name a)); [congruence|discriminate]).
    destruct a as [an ai asp]. unfold io_text in *. simpl io_name in *. simpl io_input in *.
    assert (Ed : decode_action n sp (txt an ++ txt (if ai then "?" else "!"))%list = Ok (if ai then mkSpec (sp_comps sp) (push n an (sp_ins sp)) (sp_outs sp) else mkSpec (sp_comps sp) (sp_ins sp) (push n an (sp_outs sp)))).
    { assert (Q : ~ In "?"%char (txt an)) by (eapply word_sep; [exact Wa|simpl; tauto]). assert (X : ~ In "!"%char (txt an)) by (eapply word_sep; [exact Wa|simpl; tauto]).
      unfold decode_action. destruct ai; simpl txt in *.
      - rewrite ends_app, without_app, (without_none "?" _ Q). simpl without. rewrite app_nil_r, str_txt. destruct (txt an ++ _)%list; [congruence|reflexivity].
      - rewrite ends_other by discriminate. rewrite ends_app, without_app, (without_none "!" _ X). simpl without. rewrite app_nil_r, str_txt. destruct (txt an ++ _)%list; [congruence|reflexivity]. }
    rewrite Ed. simpl. destruct ai; simpl.
    + destruct (IH (mkSpec (sp_comps sp) (push n an (sp_ins sp)) (sp_outs sp)) _ _ Wt (is_listed_push _ _ n an Hi) Ho) as (sp' & E & C & I & O).
      exists sp'. split; [exact E|]. split; [exact C|]. unfold acts_of in *. simpl. split; [|exact O].
      eapply is_listed_ext; [exact I|]. intros m. simpl. destruct (String.eqb n m); [rewrite <- app_assoc|]; reflexivity.
    + destruct (IH (mkSpec (sp_comps sp) (sp_ins sp) (push n an (sp_outs sp))) _ _ Wt Hi (is_listed_push _ _ n an Ho)) as (sp' & E & C & I & O).
      exists sp'. split; [exact E|]. split; [exact C|]. unfold acts_of in *. simpl. split; [exact I|].
      eapply is_listed_ext; [exact O|]. intros m. simpl. destruct (String.eqb n m); [rewrite <- app_assoc|]; reflexivity.
Qed.

Lemma io_text_word : forall a, word sep_acts (io_name a) -> fields (io_text a) = [io_text a].
Proof.
  intros a W. apply fields_word.
  - unfold io_text. pose proof (txt_nil _ (proj1 W)). destruct (txt (io_name a)); [congruence|discriminate].
  - unfold io_text. intros X. apply in_app_or in X. destruct X as [X|X]; [eapply word_sep; [exact W| |exact X]; simpl; tauto|]. destruct (io_input a); simpl in X; destruct X as [X|[]]; discriminate.
  - unfold io_text. intros X. apply in_app_or in X. destruct X as [X|X]; [eapply word_sep; [exact W| |exact X]; simpl; tauto|]. destruct (io_input a); simpl in X; destruct X as [X|[]]; discriminate.
Qed.
Lemma acts_fields : forall acts, (forall a, In a acts -> word sep_acts (io_name a)) -> fields (acts_text acts) = map io_text acts.
Proof.
  induction acts as [|a acts IH]; intros W; [reflexivity|]. assert (Wt : forall x, In x acts -> word sep_acts (io_name x)) by (intros; apply W; right; auto).
  pose proof (io_text_word a (W a (or_introl eq_refl))) as Fa. destruct acts as [|b acts]; [exact Fa|].
  change (acts_text (a :: b :: acts)) with (io_text a ++ txt (if io_space a then ", " else ",") ++ acts_text (b :: acts))%list.
  change (map io_text (a :: b :: acts)) with (io_text a :: map io_text (b :: acts)). destruct (io_space a).
  - change (txt ", " ++ acts_text (b :: acts))%list with (","%char :: ([] ++ " "%char :: acts_text (b :: acts)))%list. rewrite fields_comma, fields_space, Fa, IH; auto.
  - change (txt "," ++ acts_text (b :: acts))%list with (","%char :: acts_text (b :: acts))%list. rewrite fields_comma, Fa, IH; auto.
Qed.
Lemma acts_chars : forall acts c, In c (acts_text acts) -> In c (txt ", ?!") \/ exists a, In a acts /\ In c (txt (io_name a)).
Proof.
  induction acts as [|a acts IH]; intros c H; [destruct H|].
  assert (Ha : forall c, In c (io_text a) -> In c (txt ", ?!") \/ exists x, In x (a :: acts) /\ In c (txt (io_name x))).
  { intros x X. unfold io_text in X. apply in_app_or in X. destruct X as [X|X]; [right; exists a; split; [left; reflexivity|exact X]|]. left. destruct (io_input a); simpl in *; tauto. }
  destruct acts as [|b acts]; [apply Ha; exact H|].
  change (acts_text (a :: b :: acts)) with (io_text a ++ txt (if io_space a then ", " else ",") ++ acts_text (b :: acts))%list in H.
  apply in_app_or in H. destruct H as [H|H]; [apply Ha; exact H|]. apply in_app_or in H. destruct H as [H|H]; [left; destruct (io_space a); simpl in *; tauto|].
  destruct (IH c H) as [X|(x & Hx & X)]; [left; exact X|]. right. exists x. split; [right; exact Hx|exact X].
Qed.

Lemma without_braces : forall acts, (forall a, In a acts -> word sep_acts (io_name a)) ->
  without "}" (without "{" ("{"%char :: acts_text acts ++ ["}"%char])%list) = acts_text acts.
Proof.
  intros acts W. assert (H : forall b, b = "{"%char \/ b = "}"%char -> ~ In b (acts_text acts)).
  { intros b Hb X. destruct (acts_chars acts b X) as [Y|(a & Ha & Y)].
    - destruct Hb as [->| ->]; simpl in Y; repeat (destruct Y as [Y|Y]; [discriminate|]); exact Y.
    - destruct (W a Ha) as [_ Z]. apply (Z _ Y). destruct Hb as [->| ->]; simpl; tauto. }
  change ("{"%char :: acts_text acts ++ ["}"%char])%list with (["{"%char] ++ acts_text acts ++ ["}"%char])%list.
  rewrite !without_app, (without_none "{" (acts_text acts)) by (apply H; tauto). simpl. rewrite ?without_app, (without_none "}" (acts_text acts)) by (apply H; tauto). simpl. apply app_nil_r.
Qed.

Lemma decode_io_line : forall names n acts sp fi fo, word sep_comps n -> In n names -> (forall a, In a acts -> word sep_acts (io_name a)) ->
  is_listed (sp_ins sp) fi -> is_listed (sp_outs sp) fo -> exists sp',
  decode_sys_line (Some (txt "system" :: map txt names), sp) (line_text (LIO n acts)) = Ok (Some (txt "system" :: map txt names), sp') /\ sp_comps sp' = sp_comps sp /\
    is_listed (sp_ins sp') (fun m => if String.eqb n m then fi m ++ acts_of true acts else fi m)%list /\
    is_listed (sp_outs sp') (fun m => if String.eqb n m then fo m ++ acts_of false acts else fo m)%list.
Proof.
  intros names n acts sp fi fo Wn Hn W Hi Ho.
  destruct (decode_acts n acts sp fi fo W Hi Ho) as (sp' & E & C & I & O). exists sp'. split; [|auto].
  assert (Es : split_on " " (line_text (LIO n acts)) = txt "IO" :: txt n :: split_on " " ("{"%char :: acts_text acts ++ ["}"%char])%list).
  { simpl line_text. change ("I"%char :: "O"%char :: " "%char :: txt n ++ " "%char :: "{"%char :: acts_text acts ++ ["}"%char])%list
      with (txt "IO" ++ " "%char :: txt n ++ " "%char :: ("{"%char :: acts_text acts ++ ["}"%char]))%list.
    rewrite split_app, split_app. rewrite (split_none " " (txt n)) by (eapply word_sep; [exact Wn|simpl; tauto]). reflexivity. }
  unfold decode_sys_line, decode_io. rewrite Es. unfold line_text at 1. simpl app at 1. cbv beta iota.
  change (starts "//" (line_text (LIO n acts))) with false. cbv beta iota. simpl fst. simpl snd. cbv beta iota.
  rewrite !str_txt. change (String.eqb "IO" "IO") with true. cbv beta iota.
  assert (Hex : existsb (fun m => String.eqb (str m) n) (txt "system" :: map txt names) = true).
  { apply existsb_exists. exists (txt n). split; [right; apply in_map; exact Hn|]. rewrite str_txt. apply String.eqb_refl. }
  cbn [bind]. change ["s"%char; "y"%char; "s"%char; "t"%char; "e"%char; "m"%char] with (txt "system"). rewrite Hex, decode_action_fields, io_actions_fields, (without_braces acts W), (acts_fields acts W), E. reflexivity.
Qed.

Lemma comps_split : forall ns, ns <> [] -> (forall n, In n ns -> word sep_comps n) ->
  map (fun w => without ";" (without "," w)) (split_on " " (comps_text ns ++ [";"%char])) = map txt ns.
Proof.
  induction ns as [|n ns IH]; intros Ne W; [congruence|]. clear Ne.
  assert (Sp : forall c, In c sep_comps -> ~ In c (txt n)) by (intros c Hc; eapply word_sep; [apply W; left; reflexivity|exact Hc]).
  destruct ns as [|m ns].
  - simpl comps_text. rewrite split_none by (intros X; apply in_app_or in X; destruct X as [X|[X|[]]]; [revert X; apply Sp; simpl; tauto|discriminate]).
    cbn [map]. rewrite !without_app, (without_none "," (txt n)) by (apply Sp; simpl; tauto). simpl. rewrite ?without_app, (without_none ";" (txt n)) by (apply Sp; simpl; tauto). simpl. rewrite app_nil_r. reflexivity.
  - change (comps_text (n :: m :: ns)) with (txt n ++ [","%char; " "%char] ++ comps_text (m :: ns)).
    replace ((txt n ++ [","%char; " "%char] ++ comps_text (m :: ns)) ++ [";"%char]) with ((txt n ++ [","%char]) ++ " "%char :: comps_text (m :: ns) ++ [";"%char]) by (rewrite <- !app_assoc; reflexivity).
    rewrite split_app, map_app, IH; [|discriminate|intros x Hx; apply W; right; exact Hx].
    rewrite split_none by (intros X; apply in_app_or in X; destruct X as [X|[X|[]]]; [revert X; apply Sp; simpl; tauto|discriminate]).
    cbn [map]. rewrite !without_app, (without_none "," (txt n)) by (apply Sp; simpl; tauto). simpl. rewrite app_nil_r, (without_none ";" (txt n)) by (apply Sp; simpl; tauto). reflexivity.
Qed.
Lemma comps_chars : forall ns c, In c (comps_text ns) -> In c (txt ", ") \/ exists n, In n ns /\ In c (txt n).
Proof.
  induction ns as [|n ns IH]; intros c H; [destruct H|]. destruct ns as [|m ns]; [right; exists n; split; [left; reflexivity|exact H]|].
  change (comps_text (n :: m :: ns)) with (txt n ++ txt ", " ++ comps_text (m :: ns)) in H. apply in_app_or in H. destruct H as [H|H]; [right; exists n; split; [left; reflexivity|exact H]|].
  apply in_app_or in H. destruct H as [H|H]; [left; exact H|]. destruct (IH c H) as [X|(x & Hx & X)]; [left; exact X|right; exists x; split; [right; exact Hx|exact X]].
Qed.
Lemma split_lines : forall ls, (forall l, In l ls -> ~ In eol (line_text l)) -> forall a, ~ In eol a -> split_on newline (a ++ flat_map (fun l => eol :: line_text l) ls) = a :: map line_text ls.
Proof.
  induction ls as [|l ls IH]; intros H a Ha; simpl; [rewrite app_nil_r; apply split_none; exact Ha|].
  change eol with newline at 1. rewrite split_app, (split_none newline a Ha). simpl. f_equal. apply IH; [intros x Hx; apply H; right; exact Hx|apply H; left; reflexivity].
Qed.
Lemma line_no_eol : forall ns l, (forall n, In n ns -> word sep_comps n) -> line_ok ns l -> ~ In eol (line_text l).
Proof.
  intros ns [n acts| |s] W H X; simpl in H; [|exact X|].
  - destruct H as [Hn Ha]. simpl in X. destruct X as [X|[X|[X|X]]]; try discriminate. apply in_app_or in X. destruct X as [X|X]; [revert X; eapply word_sep; [apply W; exact Hn|simpl; tauto]|].
    simpl in X. destruct X as [X|[X|X]]; try discriminate. apply in_app_or in X. destruct X as [X|[X|[]]]; [|discriminate].
    destruct (acts_chars acts _ X) as [Y|(a & Hx & Y)].
    + simpl in Y. repeat (destruct Y as [Y|Y]; [discriminate|]). exact Y.
    + revert Y. eapply word_sep; [apply Ha; exact Hx|simpl; tauto].
  - simpl in X. destruct X as [X|[X|X]]; try discriminate. auto.
Qed.
Lemma decode_lines : forall ns ls sp fi fo, (forall n, In n ns -> word sep_comps n) -> (forall l, In l ls -> line_ok ns l) -> is_listed (sp_ins sp) fi -> is_listed (sp_outs sp) fo ->
  exists sp', foldM decode_sys_line (map line_text ls) (Some (txt "system" :: map txt ns), sp) = Ok (Some (txt "system" :: map txt ns), sp') /\ sp_comps sp' = sp_comps sp /\
    is_listed (sp_ins sp') (fun m => fi m ++ listed true ls m) /\ is_listed (sp_outs sp') (fun m => fo m ++ listed false ls m).
Proof.
  intros ns. induction ls as [|l ls IH]; intros sp fi fo W H Hi Ho.
  - exists sp. split; [reflexivity|]. split; [reflexivity|]. split; [eapply is_listed_ext; [exact Hi|]|eapply is_listed_ext; [exact Ho|]]; intros m; symmetry; apply app_nil_r.
  - assert (Ht : forall x, In x ls -> line_ok ns x) by (intros; apply H; right; auto). pose proof (H l (or_introl eq_refl)) as Hl. cbn [map foldM].
    destruct l as [n acts| |s].
    + destruct Hl as [Hn Ha]. destruct (decode_io_line ns n acts sp fi fo (W n Hn) Hn Ha Hi Ho) as (sp1 & E1 & C1 & I1 & O1). rewrite E1. cbn [bind].
      destruct (IH sp1 _ _ W Ht I1 O1) as (sp' & E & C & I & O). exists sp'. split; [exact E|]. split; [congruence|].
      split; [eapply is_listed_ext; [exact I|]|eapply is_listed_ext; [exact O|]]; intros m; cbn [listed flat_map]; destruct (String.eqb n m); [rewrite <- app_assoc| |rewrite <- app_assoc|]; reflexivity.
    + destruct (IH sp fi fo W Ht Hi Ho) as (sp' & E & C & I & O). exists sp'. auto.
    + destruct (IH sp fi fo W Ht Hi Ho) as (sp' & E & C & I & O). exists sp'. auto.
Qed.
Lemma system_reads : forall ns ls, ns <> [] -> (forall n, In n ns -> word sep_comps n) -> (forall l, In l ls -> line_ok ns l) ->
  exists sp, decode_system (system_text ns ls) = Ok sp /\ sp_comps sp = ns /\ is_listed (sp_ins sp) (listed true ls) /\ is_listed (sp_outs sp) (listed false ls).
Proof.
  intros ns ls Ne W H.
  destruct (decode_lines ns ls (mkSpec ns [] []) (fun _ => []) (fun _ => []) W H (fun _ => eq_refl) (fun _ => eq_refl)) as (sp & E & C & I & O).
  exists sp. split; [|auto]. unfold decode_system, system_text.
  set (first := txt "system " ++ comps_text ns ++ [";"%char]).
  replace (txt "system " ++ comps_text ns ++ txt ";" ++ flat_map (fun l => eol :: line_text l) ls) with (first ++ flat_map (fun l => eol :: line_text l) ls) by (unfold first; rewrite <- !app_assoc; reflexivity).
  rewrite split_lines.
  2: { intros l Hl. eapply line_no_eol; [exact W|apply H; exact Hl]. }
  2: { unfold first. intros X. apply in_app_or in X. destruct X as [X|X]; [simpl in X; repeat (destruct X as [X|X]; [discriminate|]); exact X|].
       apply in_app_or in X. destruct X as [X|[X|[]]]; [|discriminate]. destruct (comps_chars ns _ X) as [Y|(n & Hn & Y)].
       - simpl in Y. repeat (destruct Y as [Y|Y]; [discriminate|]). exact Y.
       - revert Y. eapply word_sep; [apply W; exact Hn|simpl; tauto]. }
  cbn [foldM].
  assert (Es : split_on " " first = txt "system" :: split_on " " (comps_text ns ++ [";"%char])).
  { unfold first. change (txt "system " ++ comps_text ns ++ [";"%char]) with (txt "system" ++ " "%char :: comps_text ns ++ [";"%char]). rewrite split_app. reflexivity. }
  assert (E1 : decode_sys_line (None, mkSpec [] [] []) first = Ok (Some (txt "system" :: map txt ns), mkSpec ns [] [])).
  { unfold decode_sys_line, decode_io. rewrite Es. unfold first at 1. simpl app at 1. cbv beta iota. change (starts "//" first) with false. cbv beta iota. simpl fst. simpl snd. cbv beta iota.
    change (String.eqb (str (txt "system")) "system") with true. cbv beta iota.
    rewrite (comps_split ns Ne W). cbn [bind]. change (String.eqb (str (txt "system")) "IO") with false. cbv beta iota. cbn [bind sp_comps sp_ins sp_outs app].
    assert (Em : map str (map txt ns) = ns) by (rewrite map_map; erewrite map_ext; [apply map_id|intros n; apply str_txt]). rewrite Em. reflexivity. }
  rewrite E1. cbn [bind]. rewrite E. reflexivity.
Qed.

(** ** Components *)
Lemma guard_rt : forall o, guard_writable o -> decode_guard (encode_opt_bool o) = Ok o.
Proof. intros o H. apply decode_plain. intros g ->. exact H. Qed.
Lemma updates_rt : forall o, updates_writable o -> decode_update (encode_opt_updates o) = Ok o.
Proof.
  intros [us|] H; [|reflexivity]. destruct H as [Ne H]. simpl. unfold decode_update. pose proof (updates_reload us H) as R.
  destruct (encode_updates us) as [|c s] eqn:E; [|rewrite R; reflexivity].
  exfalso. destruct us as [|[x e] us]; [congruence|]. destruct us; simpl in E; apply app_eq_nil in E; destruct E as [_ E]; discriminate.
Qed.
Lemma sync_rt : forall s, (forall a, In a (txt s) -> a <> "!"%char /\ a <> "?"%char) -> decode_sync (txt s) = txt s.
Proof.
  intros s H. unfold decode_sync. assert (X : forall c, c = "!"%char \/ c = "?"%char -> existsb (Ascii.eqb c) (txt s) = false).
  { intros c Hc. apply Bool.not_true_iff_false. intros X. apply existsb_exists in X. destruct X as (a & Ha & E). apply Ascii.eqb_eq in E. subst a. destruct (H c Ha). destruct Hc; congruence. }
  rewrite !X by auto. reflexivity.
Qed.
Lemma mapM_id : forall A B (f : A -> res B) (g : B -> res A) l, (forall a, In a l -> exists b, f a = Ok b /\ g b = Ok a) -> exists bs, mapM f l = Ok bs /\ mapM g bs = Ok l.
Proof.
  induction l as [|a l IH]; intros H; [exists []; auto|]. destruct (H a (or_introl eq_refl)) as (b & E1 & E2).
  destruct IH as (bs & F1 & F2); [intros; apply H; right; auto|]. exists (b :: bs). simpl. rewrite E1, F1, E2, F2. auto.
Qed.
Lemma component_rt : forall c, writable c -> exists f, encode_component c = Ok f /\
  decode_component f = Ok (mkComp (c_name c) (mkDecls (combine (map fst (d_clocks (c_decls c))) (seq 1 (List.length (d_clocks (c_decls c))))) []) (c_locs c) (c_edges c) None).
Proof.
  intros c [Wc Nd Wl We Wk]. unfold encode_component. rewrite (proj2 (connect_iff c) Wk). cbn [bind].
  destruct (mapM_id _ _ encode_loc decode_loc (c_locs c)) as (ls & E1 & E2).
  { intros l Hl. destruct (Wl l Hl) as [G T]. unfold encode_loc. destruct l as [i inv t u]. simpl in *.
    assert (exists s, encode_type t = Ok s /\ decode_type s = Ok t) as (s & F1 & F2) by (destruct t; try congruence; eexists; split; reflexivity).
    rewrite F1. eexists. split; [reflexivity|]. unfold decode_loc, decode_invariant. cbn [fl_inv fl_type fl_id fl_urgency]. rewrite (guard_rt inv G), F2. simpl. rewrite !str_txt. reflexivity. }
  rewrite E1. eexists. split; [reflexivity|]. unfold decode_component. cbn [fc_decls fc_locs fc_edges fc_name]. rewrite (decode_encode _ Wc Nd), E2. cbn [bind].
  assert (E3 : mapM decode_edge (map encode_edge (c_edges c)) = Ok (c_edges c)).
  { clear - We. induction (c_edges c) as [|e es IH]; [reflexivity|]. cbn [map mapM]. rewrite IH by (intros; apply We; right; auto).
    destruct (We e (or_introl eq_refl)) as (G & U & S). destruct e as [i a b t g u s]. unfold decode_edge, encode_edge. cbn [e_id e_src e_tgt e_type e_guard e_update e_sync fe_id fe_src fe_tgt fe_status fe_guard fe_update fe_sync] in *.
    rewrite (guard_rt g G), (updates_rt u U), (sync_rt s S). destruct t; simpl; rewrite !str_txt; reflexivity. }
  rewrite E3. simpl. rewrite str_txt. reflexivity.
Qed.

Lemma decoded_writable : forall f c, decode_component f = Ok c ->
  (forall x, In x (map fst (d_clocks (c_decls c))) -> clock_name x) /\ NoDup (map fst (d_clocks (c_decls c))) /\ (forall l, In l (c_locs c) -> l_type l <> AnyType) /\
  (forall l g, In l (c_locs c) -> l_inv l = Some g -> b_legible g) /\ (forall e g, In e (c_edges c) -> e_guard e = Some g -> b_legible g).
Proof.
  intros f c E. unfold decode_component in E. destruct (decode_declarations (fc_decls f)) as [d| | |] eqn:Ed; cbn [bind] in E; try discriminate.
  destruct (mapM decode_loc (fc_locs f)) as [ls| | |] eqn:El; cbn [bind] in E; try discriminate. destruct (mapM decode_edge (fc_edges f)) as [es| | |] eqn:Ee; cbn [bind] in E; try discriminate.
  injection E as <-. cbn [c_decls c_locs c_edges]. destruct (decode_good _ _ Ed) as [G1 G2]. split; [exact G1|]. split; [exact G2|].
  assert (DG : forall s o g, decode_guard s = Ok o -> o = Some g -> b_legible g).
  { intros s o g E ->. unfold decode_guard in E. destruct s as [|a s]; [discriminate|]. destruct (parse_guard (a :: s)) as [g'| | |] eqn:Eg; try discriminate. injection E as ->. exact (guard_legible _ _ Eg). }
  assert (L : forall l, In l ls -> l_type l <> AnyType /\ forall g, l_inv l = Some g -> b_legible g).
  { intros l Hl. destruct (proj2 (mapM_in _ _ _ El) l Hl) as (fl & _ & E). unfold decode_loc, decode_invariant in E. destruct (decode_guard (fl_inv fl)) as [i| | |] eqn:Ei; cbn [expect bind] in E; try discriminate.
    unfold decode_type in E. repeat match type of E with context [if ?b then _ else _] => destruct b end; cbn [bind] in E; try discriminate; injection E as <-; cbn [l_type l_inv]; (split; [discriminate|]; intros g Hg; exact (DG _ _ _ Ei Hg)). }
  split; [intros l Hl; apply L; exact Hl|]. split; [intros l g Hl; apply L; exact Hl|].
  intros e g He Hg. destruct (proj2 (mapM_in _ _ _ Ee) e He) as (fe & _ & E). unfold decode_edge in E. destruct (decode_status (fe_status fe)) as [t| | |]; cbn [bind] in E; try discriminate.
  destruct (decode_guard (fe_guard fe)) as [o| | |] eqn:Eo; cbn [bind] in E; try discriminate. destruct (decode_update (fe_update fe)) as [u| | |]; cbn [bind] in E; try discriminate.
  injection E as <-. exact (DG _ _ _ Eo Hg).
Qed.
Lemma loaded_writable : forall f c, decode_component f = Ok c -> tidy c -> writable c.
Proof.
  intros f c E (T1 & T2 & T3). destruct (decoded_writable f c E) as (A & B & C & D & F). constructor; auto.
  - intros l Hl. split; [|auto]. specialize (T1 l Hl). unfold guard_writable. destruct (l_inv l) as [g|] eqn:Eg; [|exact I]. split; [exact (D l g Hl Eg)|exact T1].
  - intros e He. destruct (T2 e He) as (P & U & S). split; [|auto]. unfold guard_writable. destruct (e_guard e) as [g|] eqn:Eg; [|exact I]. split; [exact (F e g He Eg)|exact P].
Qed.
