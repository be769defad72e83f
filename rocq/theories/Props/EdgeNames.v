(** C72: every edge of a component has an identifier of its own. *)
From Coq Require Import List String Ascii ZArith QArith Bool Arith Lia.
From Verif Require Import Fed.Zone Model.Base Model.Expr Model.Guard Model.Loc Model.Component Model.TS Model.Enable Model.Save Model.Prune Model.ParseQuery Model.Recipe Model.Wire Model.Exec
  Spec.SystemSpec Spec.EnableSpec Spec.WireSpec Spec.ExecSpec Spec.NameSpec Proofs.GuardFacts Proofs.SystemFacts Proofs.WfFacts Proofs.NumFacts Proofs.WireFacts Proofs.EndQuery Proofs.CompressFacts Props.Examples Props.Exec.
Import ListNotations.
Local Open Scope string_scope.
Local Open Scope list_scope.
Local Open Scope nat_scope.

Lemma app_left_inj p : forall a b, (p ++ a)%string = (p ++ b)%string -> a = b.
Proof. induction p as [|x p IH]; intros a b E; [exact E|]. injection E as E. auto. Qed.
Lemma remade_names es : forall k, map e_id (remake_edge_ids k es) = map (fun i => "E" ++ nat_str i)%string (seq k (List.length es)).
Proof. induction es as [|e es IH]; intros k; [reflexivity|]. cbn [remake_edge_ids map List.length seq e_id]. f_equal. apply IH. Qed.
Lemma numbered_apart k n : NoDup (map (fun i => "E" ++ nat_str i)%string (seq k n)).
Proof. apply FinFun.Injective_map_NoDup; [|apply seq_NoDup]. intros a b E. apply app_left_inj in E. apply nat_str_inj, E. Qed.

Lemma get_named d minc ord kord fuel s n c : get_component d minc ord kord fuel s n = Ok c ->
  c_name c = n /\ map e_id (c_edges c) = map (fun i => "E" ++ nat_str i)%string (seq 0 (List.length (c_edges c))).
Proof.
  unfold get_component. intros E. destruct (combine_components _ _ _ _ _ _ _) as [x| | |]; cbn [bind] in E; try discriminate. injection E as <-. split; [reflexivity|].
  cbn [c_edges]. rewrite remade_names. do 2 f_equal. generalize 0. induction (c_edges x) as [|y l IH]; intros k; [reflexivity|]. cbn [remake_edge_ids List.length]. f_equal. apply IH.
Qed.

(** The component that is created, whole or pruned, has the name that was asked for, and its edges are called E0, E1, E2, ... *)
Theorem C72_created_partial : forall ch reduce load e n c q, q = QGetComponent e n \/ q = QPrune e n -> run_query ch reduce load q = Ok (AComponent c) ->
  c_name c = match n with Some n => n | None => "Unnamed" end /\ edges_apart c /\
  forall k, k < List.length (c_edges c) -> exists x, nth_error (c_edges c) k = Some x /\ e_id x = ("E" ++ nat_str k)%string.
Proof.
  intros ch reduce load e n c q Q E.
  assert (G : c_name c = result_name n /\ map e_id (c_edges c) = map (fun i => "E" ++ nat_str i)%string (seq 0 (List.length (c_edges c)))).
  { destruct Q as [-> | ->]; cbn [run_query] in E.
    - destruct (one_system _ _ _ _) as [[s dim]| | |]; cbn [bind] in E; try discriminate.
      destruct (get_component _ _ _ _ _ _ _) as [x| | |] eqn:G; cbn [bind] in E; try discriminate. injection E as <-. exact (get_named _ _ _ _ _ _ _ _ G).
    - destruct (one_system _ _ _ _) as [[s dim]| | |]; cbn [bind] in E; try discriminate.
      destruct (prune_system _ _ _ _ _ _ _ _ _ _) as [p| | |]; cbn [bind] in E; try discriminate.
      destruct (get_component _ _ _ _ _ _ _) as [x| | |] eqn:G; cbn [bind] in E; try discriminate. injection E as <-. exact (get_named _ _ _ _ _ _ _ _ G). }
  destruct G as [N G]. split; [exact N|]. split; [unfold edges_apart; rewrite G; apply numbered_apart|].
  intros k Hk. destruct (nth_error (c_edges c) k) as [x|] eqn:X; [|apply nth_error_None in X; lia]. exists x. split; [reflexivity|].
  apply (map_nth_error e_id) in X. rewrite G in X. rewrite (map_nth_error (fun i => ("E" ++ nat_str i)%string) k (seq 0 (List.length (c_edges c))) (d := k)) in X; [congruence|].
  rewrite (nth_error_nth' _ 0) by (rewrite seq_length; exact Hk). rewrite seq_nth by exact Hk. reflexivity.
Qed.
Print Assumptions C72_created_partial.

(** Edges the program adds so that every input is accepted. *)
Lemma split_under : forall a b x y, no_underscore a -> no_underscore b -> (a ++ "_" ++ x)%string = (b ++ "_" ++ y)%string -> a = b /\ x = y.
Proof.
  induction a as [|c a IH]; intros [|c' b] x y Na Nb E; cbn in E.
  - injection E as E. auto.
  - injection E as <- _. destruct Nb. left. reflexivity.
  - injection E as -> _. destruct Na. left. reflexivity.
  - injection E as <- E. destruct (IH b x y) as [-> ->]; [intros H; apply Na; right; exact H|intros H; apply Nb; right; exact H|exact E|auto].
Qed.
Definition made (l a : string) : string := ("input_" ++ l ++ "_" ++ a)%string.
Lemma made_inj l a l' a' : no_underscore l -> no_underscore l' -> made l a = made l' a' -> l = l' /\ a = a'.
Proof. intros N N' E. apply app_left_inj in E. exact (split_under l l' a a' N N' E). Qed.
Lemma new_edge_names minc dim c l inv a es : new_edge minc dim c l inv a = Ok es -> es = [] \/ exists e, es = [e] /\ e_id e = made (l_id l) a.
Proof.
  unfold new_edge. destruct (edges_zone _ _ _ _ _) as [f| | |]; cbn [bind]; try discriminate. destruct (fempty dim (fsub dim inv f)); [intros [= <-]; auto|].
  match goal with |- bind ?x _ = _ -> _ => destruct x as [g| | |] end; cbn [bind]; try discriminate. intros [= <-]. right. eexists. split; reflexivity.
Qed.
Lemma new_at_names minc dim c l inv : no_underscore (l_id l) -> forall ins ess, NoDup ins -> mapM (new_edge minc dim c l inv) ins = Ok ess ->
  NoDup (map e_id (List.concat ess)) /\ forall n, In n (map e_id (List.concat ess)) -> exists a, In a ins /\ n = made (l_id l) a.
Proof.
  intros Nl. induction ins as [|a ins IH]; intros ess D E; cbn [mapM] in E.
  - injection E as <-. split; [constructor|intros n []].
  - destruct (new_edge minc dim c l inv a) as [es| | |] eqn:N; cbn [bind] in E; try discriminate.
    destruct (mapM _ ins) as [r| | |] eqn:M; cbn [bind] in E; try discriminate. injection E as <-. inversion D as [|? ? Da Dr]; subst.
    destruct (IH r Dr eq_refl) as [A B]. cbn [List.concat]. destruct (new_edge_names _ _ _ _ _ _ _ N) as [->|(x & -> & X)]; cbn [app map].
    + split; [exact A|]. intros n Hn. destruct (B n Hn) as (b & Hb & ->). exists b. split; [right; exact Hb|reflexivity].
    + split.
      * constructor; [|exact A]. rewrite X. intros Hn. destruct (B _ Hn) as (b & Hb & E). apply made_inj in E; [|exact Nl|exact Nl]. destruct E as [_ ->]. exact (Da Hb).
      * intros n [<-|Hn]; [exists a; split; [left; reflexivity|exact X]|]. destruct (B n Hn) as (b & Hb & ->). exists b. split; [right; exact Hb|reflexivity].
Qed.
Lemma new_names minc dim c ins : NoDup ins -> forall ls ess, NoDup (map l_id ls) -> (forall l, In l ls -> no_underscore (l_id l)) -> mapM (new_edges_at minc dim c ins) ls = Ok ess ->
  NoDup (map e_id (List.concat ess)) /\ forall n, In n (map e_id (List.concat ess)) -> exists l a, In l ls /\ In a ins /\ n = made (l_id l) a.
Proof.
  intros D. induction ls as [|l ls IH]; intros ess DL U E; cbn [mapM] in E.
  - injection E as <-. split; [constructor|intros n []].
  - destruct (new_edges_at minc dim c ins l) as [es| | |] eqn:N; cbn [bind] in E; try discriminate.
    destruct (mapM _ ls) as [r| | |] eqn:M; cbn [bind] in E; try discriminate. injection E as <-. inversion DL as [|? ? Dl Dr]; subst.
    destruct (IH r Dr (fun l' H => U l' (or_intror H)) eq_refl) as [A B].
    unfold new_edges_at in N. destruct (inv_fed _ _ _) as [inv| | |]; cbn [bind] in N; try discriminate. destruct (mapM _ ins) as [q| | |] eqn:Q; cbn [bind] in N; try discriminate. injection N as <-.
    destruct (new_at_names _ _ _ _ _ (U l (or_introl eq_refl)) _ _ D Q) as [A' B']. cbn [List.concat]. rewrite map_app. split.
    + apply nodup_app; [exact A'|exact A|]. intros n H1 H2. destruct (B' n H1) as (a & _ & ->). destruct (B _ H2) as (l' & b & Hl' & _ & E).
      apply made_inj in E; [|apply U; left; reflexivity|apply U; right; exact Hl']. destruct E as [E _]. apply Dl. rewrite E. apply in_map, Hl'.
    + intros n Hn. apply in_app_or in Hn. destruct Hn as [Hn|Hn].
      * destruct (B' n Hn) as (a & Ha & ->). exists l, a. auto using in_eq.
      * destruct (B n Hn) as (l' & b & Hl' & Hb & ->). exists l', b. auto using in_cons.
Qed.

(** The edges that are added have identifiers of their own if no location has an underscore in its name and no edge of the user is called [input_...]. *)
Theorem C72_enabled_partial : forall minc c ins c', edges_apart c -> locations_apart c -> NoDup ins ->
  (forall l, In l (c_locs c) -> no_underscore (l_id l)) -> (forall e, In e (c_edges c) -> own_name (e_id e)) ->
  make_input_enabled minc c ins = Ok c' -> edges_apart c'.
Proof.
  intros minc c ins c' Ae Al D U O E. unfold make_input_enabled in E. destruct (mapM _ (c_locs c)) as [ess| | |] eqn:M; cbn [bind] in E; try discriminate. injection E as <-.
  destruct (new_names _ _ _ _ D _ _ Al U M) as [A B]. unfold edges_apart. cbn [c_edges]. rewrite map_app. apply nodup_app; [exact Ae|exact A|].
  intros n H1 H2. destruct (B n H2) as (l & a & _ & _ & ->). apply in_map_iff in H1. destruct H1 as (e & E & He). exact (O e He _ E).
Qed.
Print Assumptions C72_enabled_partial.

(** So it is for a component that was created and is then read again. *)
Theorem C72_read_again_partial : forall ch reduce load e n c q minc ins c', q = QGetComponent e n \/ q = QPrune e n -> run_query ch reduce load q = Ok (AComponent c) ->
  locations_apart c -> NoDup ins -> (forall l, In l (c_locs c) -> no_underscore (l_id l)) -> make_input_enabled minc c ins = Ok c' -> edges_apart c'.
Proof.
  intros ch reduce load e n c q minc ins c' Q E Al D U M. destruct (C72_created_partial ch reduce load e n c q Q E) as (_ & A & K).
  apply (C72_enabled_partial minc c ins c' A Al D U); [|exact M]. intros x Hx m X. apply In_nth_error in Hx. destruct Hx as [k Hk].
  destruct (K k) as (y & Hy & Y); [apply nth_error_Some; congruence|]. rewrite Hy in Hk. injection Hk as ->. rewrite Y in X. discriminate X.
Qed.
Print Assumptions C72_read_again_partial.

(** The inputs of a component are listed once each. *)
Lemma unique_once l : NoDup (unique l).
Proof.
  assert (G : forall l seen, NoDup (unique_aux seen l) /\ forall x, In x (unique_aux seen l) -> ~ In x seen).
  { induction l0 as [|a l0 IH]; intros seen; cbn [unique_aux]; [split; [constructor|intros x []]|]. destruct (sin a seen) eqn:S; [apply IH|].
    destruct (IH (a :: seen)) as [A B]. split; [constructor; [intros H; apply (B a H); left; reflexivity|exact A]|].
    intros x [<-|H] Hs; [|apply (B x H); right; exact Hs]. apply sin_false in S. exact (S Hs). }
  apply G.
Qed.
Theorem C72_loaded_partial : forall minc c c', edges_apart c -> locations_apart c -> (forall l, In l (c_locs c) -> no_underscore (l_id l)) -> (forall e, In e (c_edges c) -> own_name (e_id e)) ->
  make_input_enabled minc c (input_actions c) = Ok c' -> edges_apart c'.
Proof. intros minc c c' Ae Al U O. apply (C72_enabled_partial minc c _ c' Ae Al (unique_once _) U O). Qed.
Print Assumptions C72_loaded_partial.

Definition lamp : component :=
  mkComp "Lamp" (mkDecls [("x", 1)] []) [mkL "Off" None Initial "NORMAL"; mkL "On" (Some (BLessEQ (AVar "x") (AInt 5))) Normal "NORMAL"]
    [mkE "E1" "Off" "On" SInput (Some (BGreatEQ (AVar "x") (AInt 2))) (Some [("x", AInt 0)]) "press"; mkE "E2" "On" "Off" SOutput None None "out"; mkE "E3" "On" "Off" SInput None None "kill_it"] None.
Example C72_nonvacuous : edges_apart lamp /\ locations_apart lamp /\ NoDup ["press"; "kill_it"] /\ (forall l, In l (c_locs lamp) -> no_underscore (l_id l)) /\ (forall e, In e (c_edges lamp) -> own_name (e_id e)) /\
  (exists c', make_input_enabled (fun f => f) lamp ["press"; "kill_it"] = Ok c' /\ map e_id (c_edges c') = ["E1"; "E2"; "E3"; "input_Off_press"; "input_Off_kill_it"; "input_On_press"]) /\
  exists c, run_query (plain_choices 30) true (fun _ => Some lamp) (QGetComponent (XComp "Lamp" None) (Some "Copy")) = Ok (AComponent c) /\ c_name c = "Copy" /\ map e_id (c_edges c) = ["E0"; "E1"; "E2"] /\
    locations_apart c /\ (forall l, In l (c_locs c) -> no_underscore (l_id l)) /\ exists c'', make_input_enabled (fun f => f) c ["press"; "kill_it"] = Ok c''.
Proof.
  split; [repeat constructor; cbn; intuition discriminate|]. split; [repeat constructor; cbn; intuition discriminate|]. split; [repeat constructor; cbn; intuition discriminate|].
  split; [intros l Hl; cbn in Hl; destruct Hl as [<-|[<-|[]]]; unfold no_underscore, has_char; cbn; intuition discriminate|].
  split; [intros e He m; cbn in He; destruct He as [<-|[<-|[<-|[]]]]; cbn; discriminate|].
  split; [eexists; split; [vm_compute; reflexivity|reflexivity]|]. eexists. split; [vm_compute; reflexivity|]. split; [reflexivity|]. split; [reflexivity|].
  split; [repeat constructor; cbn; intuition discriminate|].
  split; [intros l Hl; cbn in Hl; destruct Hl as [<-|[<-|[]]]; unfold no_underscore, has_char; cbn; intuition discriminate|].
  eexists. vm_compute. reflexivity.
Qed.

(** Finding: "input_A_b_c" is what the program calls the edge for the input [b_c] in the location [A], and the one for [c] in [A_b]. *)
Definition snake : component :=
  mkComp "Snake" (mkDecls [] []) [mkL "A" None Initial "NORMAL"; mkL "A_b" None Normal "NORMAL"]
    [mkE "E1" "A" "A_b" SInput None None "c"; mkE "E2" "A_b" "A" SInput None None "b_c"] None.
Theorem C72_enabled_refuted : exists c c' e e', edges_apart c /\ locations_apart c /\ (forall e, In e (c_edges c) -> own_name (e_id e)) /\
  make_input_enabled (fun f => f) c (input_actions c) = Ok c' /\ In e (c_edges c') /\ In e' (c_edges c') /\ e_id e = e_id e' /\ e_src e <> e_src e' /\ e_sync e <> e_sync e'.
Proof.
  exists snake. eexists. eexists. eexists. split; [repeat constructor; cbn; intuition discriminate|]. split; [repeat constructor; cbn; intuition discriminate|].
  split; [intros e He m; cbn in He; destruct He as [<-|[<-|[]]]; cbn; discriminate|].
  split; [vm_compute; reflexivity|]. split; [right; right; left; reflexivity|]. split; [right; right; right; left; reflexivity|]. cbn. repeat split; discriminate.
Qed.
Print Assumptions C72_enabled_refuted.

(** A step is known from where it starts and the identifiers of the edges it takes. *)
Lemma combined dim ls rs k ts t : combinations dim ls rs k = Ok ts -> In t ts -> exists a b, In a ls /\ In b rs /\ combine_pair dim k a b = Ok t.
Proof.
  intros E Ht. destruct (mapM_in _ _ _ E) as [_ M]. destruct (M t Ht) as ([a b] & Hp & P). apply in_prod_iff in Hp. exists a, b. tauto.
Qed.
Lemma conj_id dim a b t : combine_pair dim CConj a b = Ok t -> t_id t = TIConj (t_id a) (t_id b).
Proof. unfold combine_pair. destruct (lt_compose _ _ _ _) as [g| | |]; cbn [bind combine_ids]; try discriminate. intros [= <-]. reflexivity. Qed.
Lemma comp_id dim a b t : combine_pair dim CComp a b = Ok t -> t_id t = TIComp (t_id a) (t_id b).
Proof. unfold combine_pair. destruct (lt_compose _ _ _ _) as [g| | |]; cbn [bind combine_ids]; try discriminate. intros [= <-]. reflexivity. Qed.
Lemma simple_edge dim c ins outs id cc l a ts t : compile_with_actions dim c ins outs id = Ok cc -> lt_type l <> Universal -> lt_type l <> Inconsistent ->
  next_transitions dim (TSimple cc) l a = Ok ts -> In t ts -> exists e, In e (c_edges c) /\ e_sync e = a /\ from_component_and_edge dim c e = Ok t.
Proof.
  intros E U I Et Ht. cbn [next_transitions] in Et. destruct (negb _); [discriminate|].
  destruct (is_universal l) eqn:X; [unfold is_universal in X; destruct (lt_type l); discriminate || congruence|].
  destruct (is_inconsistent l) eqn:Y; [unfold is_inconsistent in Y; destruct (lt_type l); discriminate || congruence|]. cbn [andb] in Et.
  destruct (assoc_loc (lt_id l) (cc_edges cc)) as [es|] eqn:F; [|discriminate]. cbn [unwrap bind] in Et. injection Et as <-.
  unfold assoc_loc in F. destruct (find _ (cc_edges cc)) as [[i es']|] eqn:F'; [|discriminate]. injection F as ->. apply find_some in F'. destruct F' as [Hi _].
  apply in_map_iff in Ht. destruct Ht as ([b u] & <- & Hu). apply filter_In in Hu. destruct Hu as [Hu Eb]. cbn [fst] in Eb. apply String.eqb_eq in Eb. subst b.
  destruct (compiled_edge _ _ _ _ _ _ E _ _ _ _ Hi Hu) as (e & He & Es & _ & Fe). exists e. auto.
Qed.
Lemma edge_id dim c e t : from_component_and_edge dim c e = Ok t -> t_id t = TISimple (e_id e).
Proof. unfold from_component_and_edge. intros E. repeat inv_bind E. injection E as <-. reflexivity. Qed.
Lemma apart_eq (es : list edge) : NoDup (map e_id es) -> forall e e', In e es -> In e' es -> e_id e = e_id e' -> e = e'.
Proof.
  induction es as [|x es IH]; intros D e e' He He' E; [destruct He|]. cbn [map] in D. inversion D as [|? ? Dx Dr]; subst.
  destruct He as [<-|He], He' as [<-|He']; auto; destruct Dx; [rewrite E|rewrite <- E]; apply in_map; assumption.
Qed.
Lemma step_known dim s : parts_apart dim s -> forall l, ordinary l -> forall a ts t, next_transitions dim s l a = Ok ts -> In t ts ->
  t_id t <> TINone /\ forall a' ts' t', next_transitions dim s l a' = Ok ts' -> In t' ts' -> t_id t = t_id t' -> a = a' /\ t = t'.
Proof.
  induction 1 as [c ins outs id cc E A|l0 r0 s Hl IHl Hr IHr E|l0 r0 s Hl IHl Hr IHr E]; intros l O a ts t Et Ht.
  - assert (U : lt_type l <> Universal /\ lt_type l <> Inconsistent) by (destruct l; destruct O as (? & ? & _); auto). destruct U as [U I].
    destruct (simple_edge _ _ _ _ _ _ _ _ _ _ E U I Et Ht) as (e & He & Ea & F). split; [rewrite (edge_id _ _ _ _ F); discriminate|].
    intros a' ts' t' Et' Ht' Q. destruct (simple_edge _ _ _ _ _ _ _ _ _ _ E U I Et' Ht') as (e' & He' & Ea' & F').
    rewrite (edge_id _ _ _ _ F), (edge_id _ _ _ _ F') in Q. injection Q as Q. apply (apart_eq _ A e e' He He') in Q. subst e'. rewrite F in F'. injection F' as <-. split; congruence.
  - unfold conjunction_new in E. destruct (negb _); [discriminate|]. destruct (negb _); [discriminate|]. injection E as <-.
    assert (G : forall a ts t, next_transitions dim (TConj l0 r0 (sinter (ts_inputs l0) (ts_inputs r0)) (sinter (ts_outputs l0) (ts_outputs r0))) l a = Ok ts -> In t ts ->
      exists i f k x y tl tr u v, l = LNode i f k x y /\ next_transitions dim l0 x a = Ok tl /\ next_transitions dim r0 y a = Ok tr /\ In u tl /\ In v tr /\ combine_pair dim CConj u v = Ok t).
    { clear. intros a ts t Et Ht. cbn [next_transitions] in Et. destruct (negb _); [discriminate|]. destruct l as [|i f k x y]; [discriminate|]. cbn [lt_left lt_right bind] in Et.
      destruct (next_transitions dim l0 x a) as [tl| | |] eqn:El; cbn [bind] in Et; try discriminate. destruct (next_transitions dim r0 y a) as [tr| | |] eqn:Er; cbn [bind] in Et; try discriminate.
      destruct (combined _ _ _ _ _ _ Et Ht) as (u & v & Hu & Hv & P). exists i, f, k, x, y, tl, tr, u, v. auto 9. }
    destruct (G a ts t Et Ht) as (i & f & k & x & y & tl & tr & u & v & -> & El & Er & Hu & Hv & P). destruct O as (_ & _ & Ox & Oy).
    destruct (IHl x Ox a tl u El Hu) as [_ Kl]. destruct (IHr y Oy a tr v Er Hv) as [_ Kr].
    split; [rewrite (conj_id _ _ _ _ P); discriminate|]. intros a' ts' t' Et' Ht' Q.
    destruct (G a' ts' t' Et' Ht') as (i' & f' & k' & x' & y' & tl' & tr' & u' & v' & L & El' & Er' & Hu' & Hv' & P'). injection L as <- <- <- <- <-.
    rewrite (conj_id _ _ _ _ P), (conj_id _ _ _ _ P') in Q. injection Q as Q1 Q2. destruct (Kl a' tl' u' El' Hu' Q1) as [<- <-]. destruct (Kr a tr' v' Er' Hv' Q2) as [_ <-]. split; [reflexivity|congruence].
  - unfold composition_new in E. destruct (negb _); [discriminate|]. injection E as <-.
    match goal with |- context [TComp ?a ?b ?c ?d ?e ?f ?g] => set (s := TComp a b c d e f g) in * end.
    assert (G : forall a ts t, next_transitions dim s l a = Ok ts -> In t ts -> exists i f k x y u v, l = LNode i f k x y /\ combine_pair dim CComp u v = Ok t /\
      ((exists tl, next_transitions dim l0 x a = Ok tl /\ In u tl) /\ (exists tr, next_transitions dim r0 y a = Ok tr /\ In v tr) \/
       (exists tl, next_transitions dim l0 x a = Ok tl /\ In u tl) /\ v = t_without_id y \/ u = t_without_id x /\ exists tr, next_transitions dim r0 y a = Ok tr /\ In v tr)).
    { clear. intros a ts t Et Ht. unfold s in Et. cbn [next_transitions] in Et. destruct (negb _); [discriminate|]. destruct l as [|i f k x y]; [discriminate|]. cbn [lt_left lt_right bind] in Et.
      exists i, f, k, x, y. destruct (sin a _).
      - destruct (next_transitions dim l0 x a) as [tl| | |] eqn:El; cbn [bind] in Et; try discriminate. destruct (next_transitions dim r0 y a) as [tr| | |] eqn:Er; cbn [bind] in Et; try discriminate.
        destruct (combined _ _ _ _ _ _ Et Ht) as (u & v & Hu & Hv & P). exists u, v. split; [reflexivity|]. split; [exact P|]. left. split; [exists tl|exists tr]; auto.
      - destruct (sin a _); [|destruct (sin a _); [|discriminate]].
        + destruct (next_transitions dim l0 x a) as [tl| | |] eqn:El; cbn [bind] in Et; try discriminate.
          destruct (combined _ _ _ _ _ _ Et Ht) as (u & v & Hu & [<-|[]] & P). eexists _, _. split; [reflexivity|]. split; [exact P|]. right. left. split; [exists tl; auto|reflexivity].
        + destruct (next_transitions dim r0 y a) as [tr| | |] eqn:Er; cbn [bind] in Et; try discriminate.
          destruct (combined _ _ _ _ _ _ Et Ht) as (u & v & [<-|[]] & Hv & P). eexists _, _. split; [reflexivity|]. split; [exact P|]. right. right. split; [reflexivity|exists tr; auto]. }
    destruct (G a ts t Et Ht) as (i & f & k & x & y & u & v & -> & P & C). destruct O as (_ & _ & Ox & Oy).
    split; [rewrite (comp_id _ _ _ _ P); discriminate|]. intros a' ts' t' Et' Ht' Q.
    destruct (G a' ts' t' Et' Ht') as (i' & f' & k' & x' & y' & u' & v' & L & P' & C'). injection L as <- <- <- <- <-.
    rewrite (comp_id _ _ _ _ P), (comp_id _ _ _ _ P') in Q. injection Q as Q1 Q2.
    assert (Kl : forall a tl u, next_transitions dim l0 x a = Ok tl -> In u tl -> t_id u <> TINone) by (intros b tl0 u0 E0 H0; exact (proj1 (IHl x Ox b tl0 u0 E0 H0))).
    assert (Kr : forall a tr v, next_transitions dim r0 y a = Ok tr -> In v tr -> t_id v <> TINone) by (intros b tr0 v0 E0 H0; exact (proj1 (IHr y Oy b tr0 v0 E0 H0))).
    destruct C as [[(tl & El & Hu) (tr & Er & Hv)]|[[(tl & El & Hu) ->]|[-> (tr & Er & Hv)]]]; destruct C' as [[(tl' & El' & Hu') (tr' & Er' & Hv')]|[[(tl' & El' & Hu') ->]|[-> (tr' & Er' & Hv')]]];
      try (exfalso; first [eapply (Kr _ _ _ Er Hv); exact Q2|eapply (Kl _ _ _ El Hu); exact Q1|eapply (Kr _ _ _ Er' Hv'); symmetry; exact Q2|eapply (Kl _ _ _ El' Hu'); symmetry; exact Q1]).
    + destruct (proj2 (IHl x Ox a tl u El Hu) a' tl' u' El' Hu' Q1) as [<- <-]. destruct (proj2 (IHr y Oy a tr v Er Hv) a tr' v' Er' Hv' Q2) as [_ <-]. split; [reflexivity|congruence].
    + destruct (proj2 (IHl x Ox a tl u El Hu) a' tl' u' El' Hu' Q1) as [<- <-]. split; [reflexivity|congruence].
    + destruct (proj2 (IHr y Oy a tr v Er Hv) a' tr' v' Er' Hv' Q2) as [<- <-]. split; [reflexivity|congruence].
Qed.
Theorem C72_step_partial : forall dim s l a ts t a' ts' t', parts_apart dim s -> ordinary l -> next_transitions dim s l a = Ok ts -> In t ts ->
  next_transitions dim s l a' = Ok ts' -> In t' ts' -> t_id t = t_id t' -> a = a' /\ t = t'.
Proof. intros dim s l a ts t a' ts' t' A O E H E' H'. exact (proj2 (step_known dim s A l O a ts t E H) a' ts' t' E' H'). Qed.
Print Assumptions C72_step_partial.

Example C72_step_nonvacuous : parts_apart ex_dim ts_comp /\ exists l ts t, In l (all_locations ex_dim ts_comp) /\ ordinary l /\ next_transitions ex_dim ts_comp l "o" = Ok ts /\ In t ts /\ t_id t = TIComp (TISimple "E2") (TISimple "E3").
Proof.
  split.
  - refine (pa_comp ex_dim ts_m ts_n ts_comp _ _ new_comp).
    + apply (pa_simple ex_dim (comp_m 1) ["i"] ["o"] 1); [vm_compute; reflexivity|]. repeat constructor; cbn; intuition discriminate.
    + apply (pa_simple ex_dim (comp_n 2) ["o"] ["p"] 2); [vm_compute; reflexivity|]. repeat constructor; cbn; intuition discriminate.
  - exists (nth 2 (all_locations ex_dim ts_comp) lt_any). eexists. eexists. split; [apply nth_In; vm_compute; lia|]. split; [cbn; repeat split; discriminate|].
    split; [vm_compute; reflexivity|]. split; [left; reflexivity|reflexivity].
Qed.

(** Finding: in a quotient the step that both sides take and the one to the error location are shown with the same edges. *)
Theorem C72_quotient_refuted : exists dim s l a ts t t', built dim s /\ In l (all_locations dim s) /\ ordinary l /\ next_transitions dim s l a = Ok ts /\ In t ts /\ In t' ts /\
  t_id t = t_id t' /\ lt_id (t_target t) <> lt_id (t_target t') /\ t_id t <> TINone.
Proof.
  exists ex_dim, ts_quot, (nth 3 (all_locations ex_dim ts_quot) lt_any), "o". eexists. eexists. eexists. split; [exact built_quot|]. split; [apply nth_In; vm_compute; lia|].
  split; [cbn; repeat split; discriminate|]. split; [vm_compute; reflexivity|]. split; [left; reflexivity|]. split; [right; right; left; reflexivity|]. repeat split; discriminate.
Qed.
Print Assumptions C72_quotient_refuted.

(** The client need not know identifiers of steps: which instance takes which edge is enough. *)
Inductive shaped : ts -> transid -> Prop :=
| sh_simple c e : shaped (TSimple c) (TISimple e)
| sh_conj l r a b i j : shaped l i -> shaped r j -> shaped (TConj l r a b) (TIConj i j)
| sh_both l r a b c d e i j : shaped l i -> shaped r j -> shaped (TComp l r a b c d e) (TIComp i j)
| sh_left l r a b c d e i : shaped l i -> shaped (TComp l r a b c d e) (TIComp i TINone)
| sh_right l r a b c d e j : shaped r j -> shaped (TComp l r a b c d e) (TIComp TINone j).
Lemma step_shaped dim s : parts_apart dim s -> forall l, ordinary l -> forall a ts t, next_transitions dim s l a = Ok ts -> In t ts -> shaped s (t_id t).
Proof.
  induction 1 as [c ins outs id cc E A|l0 r0 s Hl IHl Hr IHr E|l0 r0 s Hl IHl Hr IHr E]; intros l O a ts t Et Ht.
  - assert (U : lt_type l <> Universal /\ lt_type l <> Inconsistent) by (destruct l; destruct O as (? & ? & _); auto). destruct U as [U I].
    destruct (simple_edge _ _ _ _ _ _ _ _ _ _ E U I Et Ht) as (e & He & Ea & F). rewrite (edge_id _ _ _ _ F). constructor.
  - unfold conjunction_new in E. destruct (negb _); [discriminate|]. destruct (negb _); [discriminate|]. injection E as <-.
    cbn [next_transitions] in Et. destruct (negb _); [discriminate|]. destruct l as [|i f k x y]; [discriminate|]. cbn [lt_left lt_right bind] in Et. destruct O as (_ & _ & Ox & Oy).
    destruct (next_transitions dim l0 x a) as [tl| | |] eqn:El; cbn [bind] in Et; try discriminate. destruct (next_transitions dim r0 y a) as [tr| | |] eqn:Er; cbn [bind] in Et; try discriminate.
    destruct (combined _ _ _ _ _ _ Et Ht) as (u & v & Hu & Hv & P). rewrite (conj_id _ _ _ _ P). constructor; eauto.
  - unfold composition_new in E. destruct (negb _); [discriminate|]. injection E as <-.
    cbn [next_transitions] in Et. destruct (negb _); [discriminate|]. destruct l as [|i f k x y]; [discriminate|]. cbn [lt_left lt_right bind] in Et. destruct O as (_ & _ & Ox & Oy).
    destruct (sin a _); [|destruct (sin a _); [|destruct (sin a _); [|discriminate]]].
    + destruct (next_transitions dim l0 x a) as [tl| | |] eqn:El; cbn [bind] in Et; try discriminate. destruct (next_transitions dim r0 y a) as [tr| | |] eqn:Er; cbn [bind] in Et; try discriminate.
      destruct (combined _ _ _ _ _ _ Et Ht) as (u & v & Hu & Hv & P). rewrite (comp_id _ _ _ _ P). apply sh_both; eauto.
    + destruct (next_transitions dim l0 x a) as [tl| | |] eqn:El; cbn [bind] in Et; try discriminate.
      destruct (combined _ _ _ _ _ _ Et Ht) as (u & v & Hu & [<-|[]] & P). rewrite (comp_id _ _ _ _ P). apply sh_left; eauto.
    + destruct (next_transitions dim r0 y a) as [tr| | |] eqn:Er; cbn [bind] in Et; try discriminate.
      destruct (combined _ _ _ _ _ _ Et Ht) as (u & v & [<-|[]] & Hv & P). rewrite (comp_id _ _ _ _ P). apply sh_right; eauto.
Qed.
Lemma shown_instance s i : shaped s i -> forall k e, shown s i k e -> In k (instance_names s).
Proof.
  induction 1; intros k x (w & T & ->); cbn [takes_edge instance_names] in *; try apply in_or_app.
  - destruct T as [-> _]. left. reflexivity.
  - destruct T as [T|T]; [left; apply (IHshaped1 _ x)|right; apply (IHshaped2 _ x)]; exists w; auto.
  - destruct T as [T|T]; [left; apply (IHshaped1 _ x)|right; apply (IHshaped2 _ x)]; exists w; auto.
  - destruct T as [T|T]; [left; apply (IHshaped _ x); exists w; auto|destruct r; destruct T].
  - destruct T as [T|T]; [destruct l; destruct T|right; apply (IHshaped _ x); exists w; auto].
Qed.
Lemma shown_some s i : shaped s i -> exists k e, shown s i k e.
Proof.
  induction 1 as [c e|? ? ? ? ? ? _ (k & x & w & T & E)|? ? ? ? ? ? ? ? ? _ (k & x & w & T & E)|? ? ? ? ? ? ? ? _ (k & x & w & T & E)|? ? ? ? ? ? ? ? _ (k & x & w & T & E)].
  - exists (cc_name c, cc_id c), e, c. cbn. auto.
  - exists k, x, w. cbn [takes_edge]. auto.
  - exists k, x, w. cbn [takes_edge]. auto.
  - exists k, x, w. cbn [takes_edge]. auto.
  - exists k, x, w. cbn [takes_edge]. auto.
Qed.
Lemma none_shown s k e : ~ shown s TINone k e.
Proof. intros (w & T & _). destruct s; exact T. Qed.
Definition alike (s : ts) (i j : transid) : Prop := forall k e, shown s i k e <-> shown s j k e.
Definition some_shape (s : ts) (i : transid) : Prop := i = TINone \/ shaped s i.
Lemma some_instance s i k e : some_shape s i -> shown s i k e -> In k (instance_names s).
Proof. intros [-> | H] S; [destruct (none_shown _ _ _ S)|exact (shown_instance s i H k e S)]. Qed.
Lemma both_sides l r (i j i' j' : transid) : NoDup (instance_names l ++ instance_names r) -> some_shape l i -> some_shape r j -> some_shape l i' -> some_shape r j' ->
  (forall k e, shown l i k e \/ shown r j k e <-> shown l i' k e \/ shown r j' k e) -> alike l i i' /\ alike r j j'.
Proof.
  intros D Si Sj Si' Sj' Q.
  assert (X : forall k, In k (instance_names l) -> ~ In k (instance_names r)).
  { intros k H1 H2. induction (instance_names l) as [|x m IH]; [destruct H1|]. inversion D as [|? ? Dx Dr]; subst. destruct H1 as [->|H1]; [apply Dx, in_or_app; auto|auto]. }
  split; intros k e; split; intros H.
  - destruct (proj1 (Q k e) (or_introl H)) as [G|G]; [exact G|]. destruct (X k (some_instance l i k e Si H) (some_instance r j' k e Sj' G)).
  - destruct (proj2 (Q k e) (or_introl H)) as [G|G]; [exact G|]. destruct (X k (some_instance l i' k e Si' H) (some_instance r j k e Sj G)).
  - destruct (proj1 (Q k e) (or_intror H)) as [G|G]; [|exact G]. destruct (X k (some_instance l i' k e Si' G) (some_instance r j k e Sj H)).
  - destruct (proj2 (Q k e) (or_intror H)) as [G|G]; [|exact G]. destruct (X k (some_instance l i k e Si G) (some_instance r j' k e Sj' H)).
Qed.
Lemma nodup_parts {A} (l r : list A) : NoDup (l ++ r) -> NoDup l /\ NoDup r.
Proof.
  induction l as [|x l IH]; intros D; [split; [constructor|exact D]|]. inversion D as [|? ? Dx Dr]; subst. destruct (IH Dr) as [A1 A2].
  split; [constructor; [intros H; apply Dx, in_or_app; auto|exact A1]|exact A2].
Qed.
Lemma shown_known s : NoDup (instance_names s) -> forall i j, some_shape s i -> some_shape s j -> alike s i j -> i = j.
Proof.
  assert (W : forall s i j, some_shape s i -> some_shape s j -> alike s i j -> (shaped s i -> shaped s j -> i = j) -> i = j).
  { intros t i j [-> | Hi] [-> | Hj] A K; auto.
    - destruct (shown_some _ _ Hj) as (k & e & H). apply A in H. destruct (none_shown _ _ _ H).
    - destruct (shown_some _ _ Hi) as (k & e & H). apply A in H. destruct (none_shown _ _ _ H). }
  induction s as [c|l IHl r IHr a b|l IHl r IHr a b lo ro co|t IHt d IHd a b n q]; intros D i j Si Sj A; apply (W _ _ _ Si Sj A); intros Hi Hj.
  - inversion Hi; subst. inversion Hj; subst. destruct (proj1 (A (cc_name c, cc_id c) e)) as (w & [_ ->] & _); [exists c; cbn; auto|reflexivity].
  - cbn [instance_names] in D. assert (Dl : NoDup (instance_names l) /\ NoDup (instance_names r)) by (apply nodup_parts, D). destruct Dl as [Dl Dr].
    inversion Hi; subst. inversion Hj; subst.
    match goal with H1 : shaped l ?x, H2 : shaped r ?y, H3 : shaped l ?x', H4 : shaped r ?y' |- TIConj ?x ?y = TIConj ?x' ?y' =>
      destruct (both_sides l r x y x' y' D (or_intror H1) (or_intror H2) (or_intror H3) (or_intror H4)) as [Q1 Q2];
        [|rewrite (IHl Dl x x' (or_intror H1) (or_intror H3) Q1), (IHr Dr y y' (or_intror H2) (or_intror H4) Q2); reflexivity] end.
    intros k e. specialize (A k e). unfold shown in *. cbn [takes_edge] in A. split; intros H.
    + destruct A as [A _]. destruct A as (w & T & E); [destruct H as [(w & T & E)|(w & T & E)]; exists w; auto|]. destruct T; [left|right]; exists w; auto.
    + destruct A as [_ A]. destruct A as (w & T & E); [destruct H as [(w & T & E)|(w & T & E)]; exists w; auto|]. destruct T; [left|right]; exists w; auto.
  - cbn [instance_names] in D. assert (Dl : NoDup (instance_names l) /\ NoDup (instance_names r)) by (apply nodup_parts, D). destruct Dl as [Dl Dr].
    assert (G : forall i, shaped (TComp l r a b lo ro co) i -> exists x y, i = TIComp x y /\ some_shape l x /\ some_shape r y) by (intros x Hx; inversion Hx; subst; eexists _, _; (split; [reflexivity|]); unfold some_shape; auto).
    destruct (G i Hi) as (x & y & -> & Sx & Sy). destruct (G j Hj) as (x' & y' & -> & Sx' & Sy').
    destruct (both_sides l r x y x' y' D Sx Sy Sx' Sy') as [Q1 Q2]; [|rewrite (IHl Dl x x' Sx Sx' Q1), (IHr Dr y y' Sy Sy' Q2); reflexivity].
    intros k e. specialize (A k e). unfold shown in *. cbn [takes_edge] in A. split; intros H.
    + destruct A as [A _]. destruct A as (w & T & E); [destruct H as [(w & T & E)|(w & T & E)]; exists w; auto|]. destruct T; [left|right]; exists w; auto.
    + destruct A as [_ A]. destruct A as (w & T & E); [destruct H as [(w & T & E)|(w & T & E)]; exists w; auto|]. destruct T; [left|right]; exists w; auto.
  - inversion Hi.
Qed.
Theorem C72_shown_partial : forall dim s l a ts t a' ts' t', parts_apart dim s -> NoDup (instance_names s) -> ordinary l -> next_transitions dim s l a = Ok ts -> In t ts ->
  next_transitions dim s l a' = Ok ts' -> In t' ts' -> (forall k e, shown s (t_id t) k e <-> shown s (t_id t') k e) -> a = a' /\ t = t'.
Proof.
  intros dim s l a ts t a' ts' t' A D O E H E' H' Q. apply (C72_step_partial dim s l a ts t a' ts' t' A O E H E' H').
  apply (shown_known s D); [right; exact (step_shaped dim s A l O a ts t E H)|right; exact (step_shaped dim s A l O a' ts' t' E' H')|exact Q].
Qed.
Print Assumptions C72_shown_partial.
(** So it is for every system a query names without a quotient: components of one name are told apart by their numbers. *)
Lemma names_instances s : instance_names s = map (fun c => (cc_name c, cc_id c)) (instances s).
Proof. induction s; cbn [instance_names instances]; rewrite ?map_app, ?IHs1, ?IHs2; reflexivity. Qed.
Lemma recipe_edges load : (forall n c, load n = Some c -> edges_apart c) -> forall e st r st', get_system_recipe load e st = Ok (r, st') -> forall c, In c (components r) -> edges_apart c.
Proof.
  intros L. induction e as [n id|l IHl r IHr|l IHl r IHr|l IHl r IHr]; intros st x st' E c Hc; cbn [get_system_recipe] in E.
  - destruct (load n) as [c0|] eqn:F; [|discriminate]. cbn [unwrap bind] in E. injection E as <- <-. destruct Hc as [<-|[]]. exact (L n c0 F).
  - inv_bind E. destruct a as [l' st1]. inv_bind E. destruct a as [r' st2]. assert (C : components x = components l' ++ components r') by (destruct (snd st2); injection E as <- <-; reflexivity).
    rewrite C in Hc. apply in_app_or in Hc. destruct Hc as [Hc|Hc]; [exact (IHl _ _ _ H c Hc)|exact (IHr _ _ _ H0 c Hc)].
  - inv_bind E. destruct a as [l' st1]. inv_bind E. destruct a as [r' st2]. injection E as <- <-.
    apply in_app_or in Hc. destruct Hc as [Hc|Hc]; [exact (IHl _ _ _ H c Hc)|exact (IHr _ _ _ H0 c Hc)].
  - inv_bind E. destruct a as [l' st1]. inv_bind E. destruct a as [r' st2]. injection E as <- <-.
    apply in_app_or in Hc. destruct Hc as [Hc|Hc]; [exact (IHl _ _ _ H c Hc)|exact (IHr _ _ _ H0 c Hc)].
Qed.
Lemma compiled_apart dim r : forall k s k', compile_at unchecked unchecked dim r k = Ok (s, k') -> quotient_free s = true -> (forall c, In c (components r) -> edges_apart c) -> parts_apart dim s.
Proof.
  induction r as [c|l IHl r IHr|l IHl r IHr|l IHl r IHr q]; intros k s k' E Q A; cbn [compile_at] in E; cbn [components] in A.
  - inv_bind E. injection E as <- <-. exact (pa_simple dim c _ _ k _ H (A c (or_introl eq_refl))).
  - inv_bind E. destruct a as [l' k1]. inv_bind E. destruct a as [r' k2]. inv_bind E. injection E as <- <-.
    pose proof H1 as N. apply composition_new_inv in H1. destruct H1 as (_ & ? & ? & ? & ? & ? & -> & _). cbn [quotient_free] in Q. apply andb_true_iff in Q. destruct Q as [Ql Qr].
    refine (pa_comp dim l' r' _ (IHl _ _ _ H Ql _) (IHr _ _ _ H0 Qr _) N); intros c Hc; apply A, in_or_app; auto.
  - inv_bind E. destruct a as [l' k1]. inv_bind E. destruct a as [r' k2]. inv_bind E. injection E as <- <-.
    unfold conjunction_ts in H1. inv_bind H1. inv_bind H1. destruct a1; [|discriminate]. injection H1 as <-. pose proof H2 as N.
    apply conjunction_new_inv in H2. destruct H2 as (-> & _ & _). cbn [quotient_free] in Q. apply andb_true_iff in Q. destruct Q as [Ql Qr].
    refine (pa_conj dim l' r' _ (IHl _ _ _ H Ql _) (IHr _ _ _ H0 Qr _) N); intros c Hc; apply A, in_or_app; auto.
  - inv_bind E. destruct a as [l' k1]. inv_bind E. destruct a as [r' k2]. inv_bind E. injection E as <- <-.
    unfold quotient_ts in H1. destruct (negb _); [discriminate|]. inv_bind H1. destruct a0; [|discriminate]. inv_bind H1. destruct a0; [|discriminate].
    apply quotient_new_inv in H1. destruct H1 as (? & ? & ? & -> & _). discriminate Q.
Qed.
Theorem C72_named_partial : forall load e d s l a ts t a' ts' t', (forall n c, load n = Some c -> edges_apart c) -> names_one load e d s -> quotient_free s = true -> ordinary l ->
  next_transitions d s l a = Ok ts -> In t ts -> next_transitions d s l a' = Ok ts' -> In t' ts' -> (forall k e, shown s (t_id t) k e <-> shown s (t_id t') k e) -> a = a' /\ t = t'.
Proof.
  intros load e d s l a ts t a' ts' t' L (r & dim & q & E & C & ->) Q. unfold compile in C. inv_bind C. destruct a0 as [s' k']. injection C as ->.
  apply (C72_shown_partial (dim + 1) s l a ts t a' ts' t'); [exact (compiled_apart _ _ _ _ _ H Q (recipe_edges load L _ _ _ _ E))|].
  apply (NoDup_map_inv snd). rewrite names_instances, map_map. cbn [snd]. destruct (compile_ids _ _ _ _ _ _ _ H) as [_ I]. change (NoDup (map cc_id (instances s))). rewrite I. apply seq_NoDup.
Qed.
Print Assumptions C72_named_partial.
Definition lamps : sysx := XConj (XComp "Lamp" None) (XComp "Lamp" (Some "2")).
Definition two_lamps : ts := Eval vm_compute in
  match get_system_recipe (fun _ => Some lamp) lamps (0, None) with Ok (r, (n, _)) => match compile unchecked unchecked n r with Ok s => s | _ => ts_m end | _ => ts_m end.
Example C72_named_nonvacuous : (forall n c, (fun _ : string => Some lamp) n = Some c -> edges_apart c) /\ names_one (fun _ => Some lamp) lamps 3 two_lamps /\ quotient_free two_lamps = true /\
  instance_names two_lamps = [("Lamp", 0); ("Lamp", 1)] /\ exists l ts t, ordinary l /\ In l (all_locations 3 two_lamps) /\ next_transitions 3 two_lamps l "press" = Ok ts /\ In t ts /\
  shown two_lamps (t_id t) ("Lamp", 1) "E1".
Proof.
  split; [intros n c [= <-]; exact (proj1 C72_nonvacuous)|]. split; [eexists; eexists; eexists; split; [vm_compute; reflexivity|]; split; vm_compute; reflexivity|]. split; [reflexivity|]. split; [reflexivity|].
  exists (nth 0 (all_locations 3 two_lamps) lt_any). eexists. eexists. split; [cbn; repeat split; discriminate|]. split; [apply nth_In; vm_compute; lia|].
  split; [vm_compute; reflexivity|]. split; [left; reflexivity|]. eexists. split; [right; split; reflexivity|reflexivity].
Qed.
Example C72_shown_nonvacuous : NoDup (instance_names ts_comp) /\ shown ts_comp (TIComp (TISimple "E2") (TISimple "E3")) ("M", 1) "E2".
Proof. split; [vm_compute; repeat constructor; cbn; intuition discriminate|]. exists cc_m. split; [left; split; reflexivity|reflexivity]. Qed.

(** A path is known from where it starts and the edges shown of its steps. *)
Lemma apart_built dim s : parts_apart dim s -> built dim s.
Proof. induction 1 as [c ins outs id cc E _|l r s _ IHl _ IHr E|l r s _ IHl _ IHr E]; [exact (b_simple dim c ins outs id cc E)|exact (b_conj dim l r s IHl IHr E)|exact (b_comp dim l r s IHl IHr E)]. Qed.
Lemma named_facts load e d s : (forall n c, load n = Some c -> edges_apart c) -> names_one load e d s -> quotient_free s = true -> parts_apart d s /\ NoDup (instance_names s).
Proof.
  intros L (r & dim & q & E & C & ->) Q. unfold compile in C. inv_bind C. destruct a as [s' k']. injection C as ->.
  split; [exact (compiled_apart _ _ _ _ _ H Q (recipe_edges load L _ _ _ _ E))|].
  apply (NoDup_map_inv snd). rewrite names_instances, map_map. cbn [snd]. destruct (compile_ids _ _ _ _ _ _ _ H) as [_ I]. change (NoDup (map cc_id (instances s))). rewrite I. apply seq_NoDup.
Qed.
Theorem C72_path_partial : forall load e d s l w w', (forall n c, load n = Some c -> edges_apart c) -> names_one load e d s -> quotient_free s = true ->
  (forall m, In m (all_locations d s) -> ordinary m) -> In l (all_locations d s) -> walk d s l w -> walk d s l w' -> look_alike s w w' -> w = w'.
Proof.
  intros load e d s l w w' L N Q O Hl W W' A. destruct (named_facts load e d s L N Q) as [P D]. pose proof (apart_built d s P) as B.
  revert l Hl W W'. induction A as [|[a t] [a' t'] w w' X A IH]; intros l Hl W W'; [reflexivity|]. destruct W as [(ts & E & H) W], W' as [(ts' & E' & H') W']. cbn [snd] in X.
  destruct (C72_shown_partial d s l a ts t a' ts' t' P D (O l Hl) E H E' H' X) as [<- <-]. f_equal. apply (IH (t_target t)); [exact (targets_in d s l a ts B Hl E t H)|exact W|exact W'].
Qed.
Print Assumptions C72_path_partial.
Example C72_path_nonvacuous : (forall m, In m (all_locations 3 two_lamps) -> ordinary m) /\ exists l w, In l (all_locations 3 two_lamps) /\ walk 3 two_lamps l w /\ map fst w = ["press"; "out"].
Proof.
  split; [intros m Hm; vm_compute in Hm; repeat (destruct Hm as [<-|Hm]; [cbn; repeat split; discriminate|]); destruct Hm|].
  set (l0 := nth 0 (all_locations 3 two_lamps) lt_any). set (t0 := match next_transitions 3 two_lamps l0 "press" with Ok (t :: _) => t | _ => t_without_id l0 end).
  set (t1 := match next_transitions 3 two_lamps (t_target t0) "out" with Ok (t :: _) => t | _ => t_without_id l0 end). exists l0, [("press", t0); ("out", t1)].
  split; [apply nth_In; vm_compute; lia|]. split; [|reflexivity]. cbn [walk].
  split; [eexists; split; [vm_compute; reflexivity|vm_compute; left; reflexivity]|]. split; [eexists; split; [vm_compute; reflexivity|vm_compute; left; reflexivity]|exact I].
Qed.
