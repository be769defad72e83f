(** Proofs about expression simplification and guard application. *)
From Coq Require Import List String ZArith QArith Bool Arith Lia Lqa.
From Verif Require Import Fed.Zone Fed.ZoneFacts Model.Base Model.Expr Model.Guard Spec.GuardSpec.
Import ListNotations.
Local Open Scope Q_scope.

Lemma bind_ok {A B} (r : res A) (f : A -> res B) b :
  bind r f = Ok b -> exists a, r = Ok a /\ f a = Ok b.
Proof. destruct r; simpl; try discriminate; eauto. Qed.

Ltac inv_bind H :=
  let a := fresh "a" in let Ha := fresh "H" in
  apply bind_ok in H; destruct H as (a & Ha & H).

(** ** Internal normal fragment: names already resolved *)

Inductive psum : arith -> Prop :=
| ps_int k : psum (AInt k)
| ps_clk i : psum (AClock i)
| ps_add l r : psum l -> psum r -> psum (AAddition l r).

Inductive isum : arith -> Prop :=
| is_int k : isum (AInt k)
| is_clock i : isum (AClock i)
| is_add l r : isum l -> isum r -> isum (AAddition l r)
| is_dif k i : isum (ADifference (AInt k) (AClock i)).

Inductive top : arith -> Prop :=
| tp_i e : isum e -> top e
| tp_cp i p : psum p -> top (ADifference (AClock i) p)
| tp_ik e k : isum e -> top (ADifference e (AInt k)).

Lemma psum_isum e : psum e -> isum e.
Proof. induction 1; constructor; auto. Qed.

(** Value, when names are resolved. *)
Fixpoint nev (v : val) (e : arith) : Q :=
  match e with
  | AInt k => inject_Z k
  | AClock i => v i
  | AAddition l r => nev v l + nev v r
  | ADifference l r => nev v l - nev v r
  | _ => 0
  end.

Definition bare (e : arith) : Prop := match e with AClock _ | AVar _ => True | _ => False end.

(** Constant expressions left over by the extraction. *)
Inductive kexp : arith -> Z -> Prop :=
| ke_int k : kexp (AInt k) k
| ke_add l r a b : kexp l a -> kexp r b -> kexp (AAddition l r) (a + b)
| ke_dif l r a b : kexp l a -> kexp r b -> kexp (ADifference l r) (a - b).

Lemma kexp_nev v e k : kexp e k -> nev v e == inject_Z k.
Proof.
  induction 1; simpl; try reflexivity.
  - rewrite IHkexp1, IHkexp2, inject_Z_plus. reflexivity.
  - rewrite IHkexp1, IHkexp2, inject_Z_sub. reflexivity.
Qed.

Lemma kexp_count e k : kexp e k -> clock_var_count e = 0%nat.
Proof. induction 1; simpl; lia. Qed.

Lemma isum_count0 e : isum e -> clock_var_count e = 0%nat -> exists k, kexp e k.
Proof.
  induction 1; simpl; intros Hc; try discriminate.
  - eexists; constructor.
  - destruct IHisum1 as [a Ha]; [lia|]. destruct IHisum2 as [b Hb]; [lia|].
    eexists; econstructor; eauto.
Qed.

Definition is_add_op (o : operation) := match o with OAdd _ => True | _ => False end.

Definition move_post (e : arith) (c : nat) (o : operation) (e' : arith) : Prop :=
  isum e' /\ S (clock_var_count e') = clock_var_count e /\
  ((is_add_op o /\ forall v, nev v e == v c + nev v e') \/
   (o = ODif true /\ ~ bare e' /\ forall v, nev v e == nev v e' - v c)).

Lemma isum_nobare_count e : isum e -> clock_var_count e = 0%nat -> ~ bare e.
Proof. destruct 1; simpl; auto; discriminate. Qed.

Lemma move_isum e : isum e -> (0 < clock_var_count e)%nat -> ~ bare e ->
  forall p, exists c o e', move_clock_and_vars e p = Ok (Some (AClock c, o), e') /\ move_post e c o e'.
Proof.
  induction 1 as [k|i|l r Hl IHl Hr IHr|k i]; intros Hc Hb p.
  - simpl in Hc; lia.
  - exfalso; apply Hb; exact I.
  - cbn [move_clock_and_vars].
    destruct (Nat.ltb 0 (clock_var_count l)) eqn:El.
    + apply Nat.ltb_lt in El.
      inversion Hl; subst; simpl in El; try lia.
      * (* clock *) simpl. exists i, (OAdd false), r. split; [reflexivity|].
        split; [assumption|]. split; [reflexivity|]. left; split; [exact I|]. intros v; simpl; reflexivity.
      * destruct (IHl El ltac:(intros []) (OAdd false)) as (c & o & e' & E & P1 & P2 & P3).
        rewrite E. simpl. exists c, o, (AAddition e' r). split; [reflexivity|].
        split; [constructor; auto|]. split; [simpl in *; lia|].
        destruct P3 as [[Ha Hv]|[-> [Hnb Hv]]]; [left|right]; repeat split; auto; intros v; simpl; specialize (Hv v); simpl in Hv; rewrite Hv; ring.
      * destruct (IHl El ltac:(intros []) (OAdd false)) as (c & o & e' & E & P1 & P2 & P3).
        rewrite E. simpl. exists c, o, (AAddition e' r). split; [reflexivity|].
        split; [constructor; auto|]. split; [simpl in *; lia|].
        destruct P3 as [[Ha Hv]|[-> [Hnb Hv]]]; [left|right]; repeat split; auto; intros v; simpl; specialize (Hv v); simpl in Hv; rewrite Hv; ring.
    + apply Nat.ltb_ge in El. destruct (Nat.ltb 0 (clock_var_count r)) eqn:Er.
      2:{ apply Nat.ltb_ge in Er. simpl in Hc. lia. }
      apply Nat.ltb_lt in Er.
      inversion Hr; subst; simpl in Er; try lia.
      * simpl. exists i, (OAdd true), l. split; [reflexivity|]. split; [assumption|].
        split; [simpl; lia|]. left; split; [exact I|]. intros v; simpl; ring.
      * destruct (IHr Er ltac:(intros []) (OAdd true)) as (c & o & e' & E & P1 & P2 & P3).
        rewrite E. simpl. exists c, o, (AAddition l e'). split; [reflexivity|].
        split; [constructor; auto|]. split; [simpl in *; lia|].
        destruct P3 as [[Ha Hv]|[-> [Hnb Hv]]]; [left|right]; repeat split; auto; intros v; simpl; specialize (Hv v); simpl in Hv; rewrite Hv; ring.
      * destruct (IHr Er ltac:(intros []) (OAdd true)) as (c & o & e' & E & P1 & P2 & P3).
        rewrite E. simpl. exists c, o, (AAddition l e'). split; [reflexivity|].
        split; [constructor; auto|]. split; [simpl in *; lia|].
        destruct P3 as [[Ha Hv]|[-> [Hnb Hv]]]; [left|right]; repeat split; auto; intros v; simpl; specialize (Hv v); simpl in Hv; rewrite Hv; ring.
  - simpl. exists i, (ODif true), (AInt k). split; [reflexivity|]. split; [constructor|].
    split; [reflexivity|]. right; split; [reflexivity|]. split; [intros []|]. intros v; simpl; reflexivity.
Qed.

Lemma move_none e : clock_var_count e = 0%nat -> isum e -> forall p, move_clock_and_vars e p = Ok (None, e).
Proof.
  intros Hc He p. destruct He; simpl in *; try discriminate; try reflexivity.
  assert (E1 : clock_var_count l = 0%nat) by lia. assert (E2 : clock_var_count r = 0%nat) by lia.
  rewrite E1, E2. reflexivity.
Qed.

(** Value of a list of extracted clocks on top of a rest. *)
Fixpoint vops (v : val) (ds : list (arith * operation)) (k : Q) : Q :=
  match ds with
  | [] => k
  | (c, o) :: ds' =>
      let r := vops v ds' k in
      match o with
      | OAdd _ => nev v c + r
      | ODif false => nev v c - r
      | ODif true => r - nev v c
      | _ => nev v c
      end
  end.

Definition is_cl (e : arith) : Prop := match e with AClock _ => True | _ => False end.

(** Which operation may follow which. *)
Definition op_ok (o : operation) : Prop := match o with OAdd _ | ODif _ => True | _ => False end.
Fixpoint good_ops (ds : list (arith * operation)) : Prop :=
  match ds with
  | [] => True
  | (c, o) :: ds' => is_cl c /\ op_ok o /\
      (o = ODif false -> match ds' with (_, ODif true) :: _ => False | _ => True end) /\ good_ops ds'
  end.

(** Extraction from a linear sum, entered with operation [p]. *)
Definition add_or_dif0 (p : operation) : Prop := match p with OAdd _ | ODif false => True | _ => False end.

Lemma vops_ext v ds a b : a == b -> vops v ds a == vops v ds b.
Proof.
  intros E. induction ds as [|[c o] ds IH]; simpl; [exact E|].
  destruct o as [[]|[]|[]|[]|[]|]; try reflexivity; rewrite IH; reflexivity.
Qed.

Lemma move_psum e : psum e -> forall p c o e',
  move_clock_and_vars e p = Ok (Some (c, o), e') -> ~ bare e -> is_add_op o.
Proof.
  induction 1 as [k|i|l r Hl IHl Hr IHr]; intros p c o e' E Hb.
  - discriminate.
  - exfalso; apply Hb; exact I.
  - cbn [move_clock_and_vars] in E.
    destruct (Nat.ltb 0 (clock_var_count l)).
    + inv_bind E. inv_bind E. destruct a0 as [o' l']. injection E as -> _.
      destruct Hl; [discriminate|injection H0 as _ <- _; exact I|].
      eapply IHl; [exact H0|intros []].
    + destruct (Nat.ltb 0 (clock_var_count r)); [|discriminate].
      inv_bind E. inv_bind E. destruct a0 as [o' r']. injection E as -> _.
      destruct Hr; [discriminate|injection H0 as _ <- _; exact I|].
      eapply IHr; [exact H0|intros []].
Qed.

Lemma pull_isum n : forall e p, isum e -> (clock_var_count e < n)%nat ->
  (bare e -> add_or_dif0 p) ->
  exists ds out k, pull_all n e p = Ok (ds, out) /\ kexp out k /\ List.length ds = clock_var_count e /\
    good_ops ds /\ (forall v, nev v e == vops v ds (inject_Z k)) /\
    (psum e -> match ds with (_, ODif true) :: _ => False | _ => True end).
Proof.
  induction n as [|n IH]; intros e p He Hn Hp; [lia|].
  destruct (Nat.eq_dec (clock_var_count e) 0) as [Hz|Hz].
  - destruct (isum_count0 e He Hz) as [k Hk].
    exists [], e, k. simpl. rewrite (move_none e Hz He). simpl. repeat split; auto.
    intros v. apply kexp_nev; assumption.
  - destruct (match e with AClock i => Some i | _ => None end) as [i|] eqn:Ei.
    + destruct e; try discriminate. injection Ei as ->.
      specialize (Hp I).
      exists [(AClock i, p)], (AInt 0), 0%Z. destruct n as [|n]; [simpl in Hn; lia|].
      simpl. repeat split; auto; try (intros v; simpl).
      * constructor.
      * destruct p as [[]| | | | |]; simpl in *; auto.
      * destruct p as [[]| | | | |]; simpl in *; try contradiction; unfold inject_Z; ring.
      * destruct p as [[]| | | | |]; simpl in *; auto.
    + assert (Hnb : ~ bare e).
      { intros Hb. destruct He; simpl in *; try contradiction; discriminate. }
      destruct (move_isum e He ltac:(lia) Hnb p) as (c & o & e' & E & P1 & P2 & P3).
      assert (Hp' : bare e' -> add_or_dif0 o).
      { destruct P3 as [[Ha _]|[-> [Hb _]]]; [destruct o; simpl in *; tauto|tauto]. }
      destruct (IH e' o P1 ltac:(lia) Hp') as (ds & out & k & E1 & K & L & G & V & PS).
      exists ((AClock c, o) :: ds), out, k. cbn [pull_all]. rewrite E. simpl. rewrite E1. simpl.
      repeat split; auto; try lia.
      * destruct P3 as [[Ha _]|[-> [Hb _]]]; [destruct o; simpl in *; tauto|exact I].
      * intros ->. destruct P3 as [[Ha _]|[? _]]; [contradiction|discriminate].
      * intros v. destruct P3 as [[Ha Hv]|[-> [Hb Hv]]].
        -- destruct o; simpl in Ha; try contradiction. simpl. rewrite <- V. apply Hv.
        -- simpl. rewrite <- V. apply Hv.
      * intros Hps. destruct P3 as [[Ha _]|[-> [Hb Hv]]]; [destruct o; simpl in *; tauto|].
        specialize (move_psum e Hps p _ _ _ E Hnb). simpl. tauto.
Qed.

Lemma pull_ik n : forall e k p, isum e -> (clock_var_count e < n)%nat ->
  exists ds out k', pull_all n (ADifference e (AInt k)) p = Ok (ds, out) /\ kexp out k' /\
    List.length ds = clock_var_count e /\ good_ops ds /\
    (forall v, nev v e - inject_Z k == vops v ds (inject_Z k')).
Proof.
  induction n as [|n IH]; intros e k p He Hn; [lia|].
  cbn [pull_all move_clock_and_vars].
  destruct (Nat.ltb 0 (clock_var_count e)) eqn:Ez.
  - apply Nat.ltb_lt in Ez.
    destruct (match e with AClock i => Some i | _ => None end) as [i|] eqn:Ei.
    + destruct e; try discriminate. injection Ei as ->. simpl.
      destruct n as [|n]; [simpl in Hn; lia|]. simpl.
      exists [(AClock i, ODif false)], (AInt k), k. repeat split; auto; try reflexivity. constructor.
    + assert (Hnb : ~ bare e).
      { intros Hb. destruct He; simpl in *; try contradiction; discriminate. }
      destruct (move_isum e He ltac:(lia) Hnb (ODif false)) as (c & o & e' & E & P1 & P2 & P3).
      assert (Ec : clone_expr e (AInt k) false = Ok None).
      { destruct e; simpl in *; try reflexivity; tauto || discriminate. }
      rewrite Ec, E. simpl.
      destruct (IH e' k o P1 ltac:(lia)) as (ds & out & k' & E1 & K & L & G & V).
      rewrite E1. simpl. exists ((AClock c, o) :: ds), out, k'.
      repeat split; auto; try lia.
      * simpl; lia.
      * destruct P3 as [[Ha _]|[-> [Hb _]]]; [destruct o; simpl in *; tauto|exact I].
      * intros ->. destruct P3 as [[Ha _]|[? _]]; [contradiction|discriminate].
      * intros v. destruct P3 as [[Ha Hv]|[-> [Hb Hv]]].
        -- destruct o; simpl in Ha; try contradiction. simpl. rewrite <- V, Hv. ring.
        -- simpl. rewrite <- V, Hv. ring.
  - apply Nat.ltb_ge in Ez. simpl.
    destruct (isum_count0 e He ltac:(lia)) as [a Ha].
    exists [], (ADifference e (AInt k)), (a - k)%Z. repeat split; auto.
    + constructor; [assumption|constructor].
    + simpl. lia.
    + intros v. simpl. rewrite (kexp_nev v e a Ha), inject_Z_sub. reflexivity.
Qed.

Lemma pull_top e p : top e -> ~ bare e ->
  exists ds out k, pull_all (S (clock_var_count e)) e p = Ok (ds, out) /\ kexp out k /\
    List.length ds = clock_var_count e /\ good_ops ds /\
    (forall v, nev v e == vops v ds (inject_Z k)).
Proof.
  intros He Hb. destruct He as [e He|i q Hq|e k He].
  - destruct (pull_isum (S (clock_var_count e)) e p He ltac:(lia) ltac:(tauto)) as (ds & out & k & A & B & C & D & E & _).
    exists ds, out, k. auto.
  - destruct (pull_isum (S (clock_var_count q)) q (ODif false) (psum_isum _ Hq) ltac:(lia) ltac:(simpl; tauto))
      as (ds & out & k & A & B & C & D & E & F).
    exists ((AClock i, ODif false) :: ds), out, k.
    cbn [clock_var_count]. cbn [pull_all move_clock_and_vars]. change (Nat.ltb 0 (clock_var_count (AClock i))) with true.
    cbn [clone_expr bind move_clock_and_vars]. cbn [Nat.add].
    match goal with |- context [pull_all ?n q ?o] => replace (pull_all n q o) with (Ok (ds, out)) end.
    split; [reflexivity|]. split; [assumption|]. split; [simpl; lia|].
    split; [simpl; split; [exact I|split; [exact I|split; [intros _; exact (F Hq)|assumption]]]|]. intros v. specialize (E v). simpl. rewrite <- E. reflexivity.
  - destruct (pull_ik (S (clock_var_count e)) e k p He ltac:(lia)) as (ds & out & k' & A & B & C & D & E).
    exists ds, out, k'. cbn [clock_var_count]. rewrite Nat.add_0_r. auto.
Qed.

Lemma kexp_helper e k : kexp e k -> exists b, simplify_helper e = Ok (AInt k, b).
Proof.
  induction 1; simpl.
  - eauto.
  - destruct IHkexp1 as [? ->], IHkexp2 as [? ->]. simpl. eauto.
  - destruct IHkexp1 as [? ->], IHkexp2 as [? ->]. simpl. eauto.
Qed.

(** What the translation needs to know of a simplified side, for 0, 1 or 2 clocks. *)
Definition sgn (b : bool) (q : Q) : Q := if b then - q else q.

Definition side_spec (n : nat) (d : decls) (r : arith) (w : val -> Q) : Prop :=
  clock_var_count r = n /\
  exists k, get_const r d = Ok k /\
  match n with
  | 0%nat => forall v, w v == inject_Z k
  | 1%nat => exists c s, get_clock_val1 r = Ok (mkSC c s) /\ forall v, w v == sgn s (v c) + inject_Z k
  | 2%nat => exists c1 s1 c2 s2, get_clock_val2 r = Ok (mkSC c1 s1, mkSC c2 s2) /\
               (s1 <> s2 -> forall v, w v == sgn s1 (v c1) + sgn s2 (v c2) + inject_Z k)
  | _ => True
  end.

(** The result of folding the constants below the (at most two) clocks. *)
Lemma simplify_loop_step fuel e e' b :
  simplify_helper e = Ok (e', b) -> simplify_helper e' = Ok (e', false) ->
  simplify_loop (S (S fuel)) e = Ok e'.
Proof. intros H1 H2. cbn [simplify_loop]. rewrite H1. simpl. destruct b; [rewrite H2; reflexivity|reflexivity]. Qed.

Ltac kfin :=
  match goal with
  | |- clock_var_count _ = _ => reflexivity
  | _ => idtac
  end.

Lemma asize_pos e : (0 < asize e)%nat. Proof. destruct e; simpl; lia. Qed.

Lemma simp_shape d ds out k : good_ops ds -> (List.length ds <= 2)%nat -> kexp out k ->
  exists r, (do r0 <- rebuild ds out; simplify_loop (S (asize r0)) r0) = Ok r /\
    side_spec (List.length ds) d r (fun v => vops v ds (inject_Z k)).
Proof.
  intros G L K.
  destruct (kexp_helper out k K) as [b Hb].
  assert (Hout : (out = AInt 0 /\ k = 0%Z) \/ (True /\
     forall c o, o = ODif false \/ o = ODif true \/ o = OAdd true \/ o = OAdd false ->
        rebuild_step (AClock c) o out = Ok (match o with ODif false => ADifference (AClock c) out
            | ODif true => ADifference out (AClock c) | OAdd true => AAddition out (AClock c)
            | _ => AAddition (AClock c) out end))).
  { inversion K; subst; [destruct k as [|p|p]; [left; split; reflexivity| |]| |]; right; split; try exact I;
    intros c o [->|[->|[->| ->]]]; reflexivity. }
  destruct ds as [|[c1 o1] ds].
  - exists (AInt k). split.
    + simpl. destruct (asize out) eqn:Es; [pose proof (asize_pos out); lia|].
      eapply simplify_loop_step; [exact Hb|reflexivity].
    + split; [reflexivity|]. exists k. split; [reflexivity|]. intros v; simpl; reflexivity.
  - destruct G as (C1 & O1 & N1 & G). destruct c1; simpl in C1; try contradiction. rename i into c1.
    destruct ds as [|[c2 o2] ds].
    + destruct Hout as [[-> ->]|[_ Hr]].
      * destruct o1 as [[]|[]| | | |]; simpl in O1; try contradiction; cbn [rebuild bind rebuild_step];
        (eexists; split;
         [ reflexivity
         | split; [reflexivity|]; eexists; split; [reflexivity|]; eexists; eexists; split; [reflexivity|];
           intros v; simpl; unfold inject_Z; ring ]).
      * assert (Ho : o1 = ODif false \/ o1 = ODif true \/ o1 = OAdd true \/ o1 = OAdd false).
        { destruct o1 as [[]|[]| | | |]; simpl in O1; tauto. }
        cbn [rebuild bind]. rewrite (Hr c1 o1 Ho).
        destruct Ho as [->|[->|[->| ->]]]; cbn [bind asize];
        (eexists; split;
         [ eapply simplify_loop_step; [simpl; rewrite Hb; simpl; reflexivity|reflexivity]
         | split; [reflexivity|]; eexists; split; [reflexivity|]; eexists; eexists; split; [reflexivity|];
           intros v; simpl; rewrite ?Z.add_0_r, ?Z.sub_0_r; try rewrite inject_Z_opp; ring ]).
    + destruct ds; [|simpl in L; lia].
      destruct G as (C2 & O2 & _ & _). destruct c2; simpl in C2; try contradiction. rename i into c2.
      destruct Hout as [[-> ->]|[_ Hr]].
      * destruct o2 as [[]|[]| | | |]; simpl in O2; try contradiction;
        destruct o1 as [[]|[]| | | |]; simpl in O1; try contradiction; try (exfalso; apply N1; reflexivity);
        cbn [rebuild bind rebuild_step];
        (eexists; split;
         [ reflexivity
         | split; [reflexivity|]; eexists; split; [reflexivity|]; eexists; eexists; eexists; eexists; split; [reflexivity|];
           intros Hs v; try (exfalso; apply Hs; reflexivity); simpl; unfold inject_Z; ring ]).
      * assert (Ho : o2 = ODif false \/ o2 = ODif true \/ o2 = OAdd true \/ o2 = OAdd false).
        { destruct o2 as [[]|[]| | | |]; simpl in O2; tauto. }
        cbn [rebuild bind]. rewrite (Hr c2 o2 Ho).
        destruct Ho as [->|[->|[->| ->]]];
        destruct o1 as [[]|[]| | | |]; simpl in O1; try contradiction; try (exfalso; apply N1; reflexivity);
        cbn [rebuild bind rebuild_step mk_dif mk_add asize];
        (eexists; split;
         [ eapply simplify_loop_step; [simpl; rewrite Hb; simpl; reflexivity|reflexivity]
         | split; [reflexivity|]; eexists; split; [reflexivity|]; eexists; eexists; eexists; eexists; split; [reflexivity|];
           intros Hs v; try (exfalso; apply Hs; reflexivity); simpl; rewrite ?Z.add_0_r, ?Z.sub_0_r; try rewrite inject_Z_opp; ring ]).
Qed.

Lemma count_mk_add l r : clock_var_count (mk_add l r) = (clock_var_count l + clock_var_count r)%nat.
Proof.
  destruct r as [| | | | | | |[]], l as [| | | | | | |[]]; simpl; try lia.
Qed.
Lemma count_mk_dif l r : clock_var_count (mk_dif l r) = (clock_var_count l + clock_var_count r)%nat.
Proof.
  destruct r as [| | | | | | |[]], l as [| | | | | | |[]]; simpl; try lia.
Qed.

Lemma count_rebuild ds out : good_ops ds -> forall r, rebuild ds out = Ok r ->
  clock_var_count r = (List.length ds + clock_var_count out)%nat.
Proof.
  induction ds as [|[c o] ds IH]; simpl; intros G r E.
  - injection E as ->. reflexivity.
  - destruct G as (C & O & _ & G). inv_bind E. specialize (IH G _ H).
    destruct c; simpl in C; try contradiction.
    destruct o as [[]|[]| | | |]; simpl in O; try contradiction; unfold rebuild_step in E; (match type of E with Ok ?x = Ok _ => assert (Hx : x = r) by congruence; rewrite <- Hx end);
    rewrite ?count_mk_add, ?count_mk_dif; simpl; lia.
Qed.

Lemma count_helper e : forall e' b, simplify_helper e = Ok (e', b) -> clock_var_count e' = clock_var_count e.
Proof.
  induction e; intros e' b E; simpl in E; try (injection E as <- <-; reflexivity);
  (inv_bind E; destruct a as [l' cl]; inv_bind E; destruct a as [r' cr];
   specialize (IHe1 _ _ H); specialize (IHe2 _ _ H0); simpl;
   destruct l' , r'; try (injection E as <- <-; simpl in *; lia); simpl in *; try lia).
  - destruct (Z.eqb k0 0); [discriminate|]. injection E as <- <-. simpl; lia.
  - destruct (Z.eqb k0 0); [discriminate|]. injection E as <- <-. simpl; lia.
Qed.

Lemma count_loop n : forall e r, simplify_loop n e = Ok r -> clock_var_count r = clock_var_count e.
Proof.
  induction n as [|n IH]; simpl; intros e r E; [discriminate|].
  inv_bind E. destruct a as [e' b]. destruct b.
  - rewrite (IH _ _ E). eapply count_helper; eauto.
  - injection E as <-. eapply count_helper; eauto.
Qed.

Lemma simplify_top d e r : top e -> simplify e = Ok r ->
  clock_var_count r = clock_var_count e /\
  ((clock_var_count e <= 2)%nat -> side_spec (clock_var_count e) d r (fun v => nev v e)).
Proof.
  intros He E.
  destruct (match e with AClock i => Some i | _ => None end) as [i|] eqn:Ei.
  - destruct e; try discriminate. cbv in E. injection E as <-. split; [reflexivity|].
    intros _. split; [reflexivity|]. exists 0%Z. split; [reflexivity|]. exists i0, false.
    split; [reflexivity|]. intros v; simpl. unfold inject_Z. ring.
  - assert (Hnb : ~ bare e).
    { intros Hb. destruct He as [e He|i q Hq|e k He]; try contradiction.
      destruct He; simpl in *; try contradiction; discriminate. }
    destruct (pull_top e ONone He Hnb) as (ds & out & k & A & B & C & D & V).
    unfold simplify in E. rewrite A in E. cbn [bind] in E.
    split.
    + inv_bind E. rewrite (count_loop _ _ _ E), (count_rebuild _ _ D _ H), (kexp_count _ _ B), C. lia.
    + intros Hle. destruct (simp_shape d ds out k D ltac:(lia) B) as (r' & E' & S').
      rewrite E' in E. injection E as <-. rewrite <- C.
      destruct S' as (S1 & k' & S2 & S3). split; [exact S1|]. exists k'. split; [exact S2|].
      destruct (List.length ds) as [|[|[|]]]; auto.
      * intros v. rewrite V. apply S3.
      * destruct S3 as (c & s & S4 & S5). exists c, s. split; [exact S4|]. intros v. rewrite V. apply S5.
      * destruct S3 as (c & s & c' & s' & S4 & S5). exists c, s, c', s'. split; [exact S4|].
        intros Hs v. rewrite V. apply S5; exact Hs.
Qed.

(** ** Resolving names *)

Lemma is_zero_spec e : is_zero e = true <-> e = AInt 0.
Proof. destruct e as [| | | | | | |[]]; simpl; split; congruence. Qed.

Lemma replace_const d e k : ieval d e = Some k ->
  replace_vars e d = Ok (AInt k) /\ forall v, exists q, aev d v e = Some q /\ q == inject_Z k.
Proof.
  revert k. induction e; intros k' E; simpl in E; try discriminate;
  try (destruct (ieval d e1) as [a|] eqn:E1; [|discriminate]; destruct (ieval d e2) as [b|] eqn:E2; [|discriminate];
       destruct (IHe1 _ eq_refl) as [R1 V1]; destruct (IHe2 _ eq_refl) as [R2 V2]; simpl; rewrite R1, R2; simpl).
  - injection E as <-. split.
    + unfold mk_dif. destruct b; rewrite ?Z.sub_0_r; reflexivity.
    + intros v. destruct (V1 v) as (p & -> & Hp), (V2 v) as (q & -> & Hq). exists (p - q). split; [reflexivity|].
      rewrite Hp, Hq, inject_Z_sub. reflexivity.
  - injection E as <-. split.
    + unfold mk_add. destruct b; rewrite ?Z.add_0_r; try reflexivity; destruct a; reflexivity.
    + intros v. destruct (V1 v) as (p & -> & Hp), (V2 v) as (q & -> & Hq). exists (p + q). split; [reflexivity|].
      rewrite Hp, Hq, inject_Z_plus. reflexivity.
  - injection E as <-. split.
    + unfold mk_mul. destruct b; destruct a; reflexivity.
    + intros v. destruct (V1 v) as (p & -> & Hp), (V2 v) as (q & -> & Hq). exists (p * q). split; [reflexivity|].
      rewrite Hp, Hq, inject_Z_mult. reflexivity.
  - destruct (Z.eqb b 0) eqn:Eb; [discriminate|]. injection E as <-. apply Z.eqb_neq in Eb. split.
    + unfold mk_div. destruct b; [congruence| |]; destruct a; reflexivity.
    + intros v. rewrite E1, E2. apply Z.eqb_neq in Eb. rewrite Eb. eexists; split; reflexivity.
  - destruct (Z.eqb b 0) eqn:Eb; [discriminate|]. injection E as <-. split; [reflexivity|].
    intros v. rewrite E1, E2, Eb. eexists; split; reflexivity.
  - simpl. destruct (assoc s (d_clocks d)); [discriminate|]. rewrite E. split; [reflexivity|].
    intros v. eexists; split; reflexivity.
  - injection E as <-. split; [reflexivity|]. intros v. eexists; split; reflexivity.
Qed.

Lemma replace_clk d e : is_clk d e = true -> exists i, replace_vars e d = Ok (AClock i) /\
  forall v, aev d v e = Some (v i).
Proof.
  destruct e; simpl; try discriminate; intros H.
  - eauto.
  - destruct (assoc s (d_clocks d)) as [i|]; [|discriminate]. exists i. split; reflexivity.
Qed.

Lemma is_const_some d e : is_const d e = true -> exists k, ieval d e = Some k.
Proof. unfold is_const. destruct (ieval d e); [eauto|discriminate]. Qed.

Lemma nev_mk_add v l r : nev v (mk_add l r) == nev v l + nev v r.
Proof.
  destruct r as [| | | | | | |[]], l as [| | | | | | |[]]; simpl; try reflexivity;
  try (unfold inject_Z; ring); rewrite <- inject_Z_plus; simpl; reflexivity.
Qed.
Lemma nev_mk_dif v l r : nev v (mk_dif l r) == nev v l - nev v r.
Proof.
  destruct r as [| | | | | | |[]]; simpl; try reflexivity;
  try (unfold inject_Z; ring); destruct l; simpl; try reflexivity; rewrite <- inject_Z_sub; reflexivity.
Qed.

Lemma isum_mk_add l r : isum l -> isum r -> isum (mk_add l r).
Proof.
  intros Hl Hr. unfold mk_add.
  destruct Hr as [[]| | |]; destruct Hl as [[]| | |]; repeat (constructor; auto).
Qed.
Lemma psum_mk_add l r : psum l -> psum r -> psum (mk_add l r).
Proof.
  intros Hl Hr. unfold mk_add.
  destruct Hr as [[]| |]; destruct Hl as [[]| |]; repeat (constructor; auto).
Qed.

Definition resolves (P : arith -> Prop) (d : decls) (e : arith) : Prop :=
  exists e', replace_vars e d = Ok e' /\ P e' /\ forall v, exists q, aev d v e = Some q /\ q == nev v e'.

Lemma replace_psum d e : pure_sum d e = true -> resolves psum d e.
Proof.
  assert (Base : forall e, is_const d e || is_clk d e = true -> resolves psum d e).
  { intros e0 H. apply orb_true_iff in H. destruct H as [H|H].
    - apply is_const_some in H. destruct H as [k H]. destruct (replace_const d e0 k H) as [R V].
      exists (AInt k). split; [exact R|]. split; [constructor|exact V].
    - apply replace_clk in H. destruct H as (i & R & V). exists (AClock i). split; [exact R|].
      split; [constructor|]. intros v. exists (v i). split; [apply V|reflexivity]. }
  induction e; cbn [pure_sum]; intros H; apply orb_true_iff in H; (destruct H as [H|H]; [apply Base; exact H|]); try discriminate.
  apply andb_true_iff in H. destruct H as [H1 H2].
  destruct (IHe1 H1) as (l & R1 & P1 & V1). destruct (IHe2 H2) as (r & R2 & P2 & V2).
  exists (mk_add l r). simpl. rewrite R1, R2. split; [reflexivity|]. split; [apply psum_mk_add; assumption|].
  intros v. destruct (V1 v) as (p & -> & Hp), (V2 v) as (q & -> & Hq). exists (p + q). split; [reflexivity|].
  rewrite nev_mk_add, Hp, Hq. reflexivity.
Qed.

Lemma replace_isum d e : lin_sum d e = true -> resolves isum d e.
Proof.
  assert (Base : forall e, is_const d e || is_clk d e = true -> resolves isum d e).
  { intros e0 H. apply orb_true_iff in H. destruct H as [H|H].
    - apply is_const_some in H. destruct H as [k H]. destruct (replace_const d e0 k H) as [R V].
      exists (AInt k). split; [exact R|]. split; [constructor|exact V].
    - apply replace_clk in H. destruct H as (i & R & V). exists (AClock i). split; [exact R|].
      split; [constructor|]. intros v. exists (v i). split; [apply V|reflexivity]. }
  induction e; cbn [lin_sum]; intros H; apply orb_true_iff in H; (destruct H as [H|H]; [apply Base; exact H|]); try discriminate;
  apply andb_true_iff in H; destruct H as [H1 H2].
  - apply is_const_some in H1. destruct H1 as [k H1]. destruct (replace_const d e1 k H1) as [R V].
    apply replace_clk in H2. destruct H2 as (i & R2 & V2).
    exists (ADifference (AInt k) (AClock i)). simpl. rewrite R, R2. split; [reflexivity|]. split; [constructor|].
    intros v. destruct (V v) as (p & -> & Hp). rewrite V2. exists (p - v i). split; [reflexivity|].
    rewrite Hp. reflexivity.
  - destruct (IHe1 H1) as (l & R1 & P1 & V1). destruct (IHe2 H2) as (r & R2 & P2 & V2).
    exists (mk_add l r). simpl. rewrite R1, R2. split; [reflexivity|]. split; [apply isum_mk_add; assumption|].
    intros v. destruct (V1 v) as (p & -> & Hp), (V2 v) as (q & -> & Hq). exists (p + q). split; [reflexivity|].
    rewrite nev_mk_add, Hp, Hq. reflexivity.
Qed.

Lemma replace_top d e : simple_side d e = true -> resolves top d e.
Proof.
  unfold simple_side. intros H. apply orb_true_iff in H. destruct H as [H|H].
  - destruct (replace_isum d e H) as (e' & R & P & V). exists e'. split; [exact R|]. split; [constructor; exact P|exact V].
  - destruct e; try discriminate. apply orb_true_iff in H. destruct H as [H|H]; apply andb_true_iff in H; destruct H as [H1 H2].
    + apply replace_clk in H1. destruct H1 as (i & R1 & V1). destruct (replace_psum d e2 H2) as (r & R2 & P2 & V2).
      exists (mk_dif (AClock i) r). simpl. rewrite R1, R2. split; [reflexivity|]. split.
      * destruct P2 as [[]| |]; simpl; [apply tp_i; constructor|apply tp_cp; constructor; auto ..].
      * intros v. rewrite V1. destruct (V2 v) as (q & -> & Hq). exists (v i - q). split; [reflexivity|].
        rewrite nev_mk_dif, Hq. reflexivity.
    + destruct (replace_isum d e1 H1) as (l & R1 & P1 & V1).
      apply is_const_some in H2. destruct H2 as [k H2]. destruct (replace_const d e2 k H2) as [R2 V2].
      exists (mk_dif l (AInt k)). cbn [replace_vars]. rewrite R1, R2. split; [reflexivity|]. split.
      * unfold mk_dif. destruct k; [constructor; exact P1| |]; destruct P1; first [apply tp_ik; constructor; assumption | apply tp_i; constructor; assumption].
      * intros v. destruct (V1 v) as (p & E1 & Hp), (V2 v) as (q & E2 & Hq). exists (p - q).
        split; [simpl; rewrite E1, E2; reflexivity|]. rewrite nev_mk_dif, Hp, Hq. reflexivity.
Qed.

(** ** The translation of a comparison *)

Lemma eqb_refl_ne a b : Bool.eqb a b = false -> a <> b.
Proof. destruct a, b; simpl; congruence. Qed.

Lemma get_indices_sound d l r i j k :
  simple_side d l = true -> simple_side d r = true -> get_indices l r d = Ok (i, j, k) ->
  forall v, v 0%nat == 0 -> exists a b, aev d v l = Some a /\ aev d v r = Some b /\
    a - b == v i - v j - inject_Z k.
Proof.
  intros Hl Hr E v Hv0.
  destruct (replace_top d l Hl) as (l0 & Rl & Tl & Vl).
  destruct (replace_top d r Hr) as (r0 & Rr & Tr & Vr).
  destruct (Vl v) as (a & Ea & Ha), (Vr v) as (b & Eb & Hb).
  exists a, b. split; [exact Ea|]. split; [exact Eb|]. rewrite Ha, Hb. clear Ea Eb Ha Hb a b Vl Vr.
  unfold get_indices in E. rewrite Rl, Rr in E. simpl in E.
  inv_bind E. rename a into l1. rename H into El. inv_bind E. rename a into r1. rename H into Er.
  destruct (simplify_top d l0 l1 Tl El) as [Cl Sl]. destruct (simplify_top d r0 r1 Tr Er) as [Cr Sr].
  rewrite Cl, Cr in E.
  destruct (Nat.eqb (clock_var_count l0 + clock_var_count r0) 0) eqn:E0; [discriminate|].
  destruct (Nat.ltb 2 (clock_var_count l0 + clock_var_count r0)) eqn:E2; [discriminate|].
  apply Nat.ltb_ge in E2. specialize (Sl ltac:(lia)). specialize (Sr ltac:(lia)).
  destruct Sl as (_ & lk & Gl & Sl). destruct Sr as (_ & rk & Gr & Sr).
  rewrite Gl, Gr in E. simpl in E.
  destruct (clock_var_count l0) as [|[|[|nl]]]; destruct (clock_var_count r0) as [|[|[|nr]]]; simpl in E2, E0;
    try discriminate; try lia.
  - (* 0,1 *) destruct Sr as (c & s & G & S). rewrite G in E. simpl in E. injection E as E.
    rewrite Sl, S. destruct s; simpl in E; injection E as <- <- <-; rewrite inject_Z_sub, Hv0; simpl; ring.
  - (* 0,2 *) destruct Sr as (c1 & s1 & c2 & s2 & G & S). rewrite G in E. simpl in E.
    rewrite Sl. destruct s1, s2; unfold combine_clocks in E; simpl in E; try discriminate; injection E as <- <- <-;
    rewrite S by discriminate; simpl; rewrite inject_Z_sub; ring.
  - (* 1,0 *) destruct Sl as (c & s & G & S). rewrite G in E. simpl in E. injection E as E.
    rewrite Sr, S. destruct s; simpl in E; injection E as <- <- <-; rewrite inject_Z_sub, Hv0; simpl; ring.
  - (* 1,1 *) destruct Sl as (c1 & s1 & G1 & S1). destruct Sr as (c2 & s2 & G2 & S2). rewrite G1, G2 in E. simpl in E.
    rewrite S1, S2. destruct s1, s2; unfold combine_clocks in E; simpl in E; try discriminate; injection E as <- <- <-;
    simpl; rewrite inject_Z_sub; ring.
  - (* 2,0 *) destruct Sl as (c1 & s1 & c2 & s2 & G & S). rewrite G in E. simpl in E.
    rewrite Sr. destruct s1, s2; unfold combine_clocks in E; simpl in E; try discriminate; injection E as <- <- <-;
    rewrite S by discriminate; simpl; rewrite inject_Z_sub; ring.
Qed.

Lemma cmp_csem d l r i j k s v : v 0%nat == 0 ->
  simple_side d l = true -> simple_side d r = true -> get_indices l r d = Ok (i, j, k) ->
  csem (mkC i j s k) v <-> cmp d v (fun a b => ilt s a b) l r.
Proof.
  intros H0 Hl Hr E. destruct (get_indices_sound d l r i j k Hl Hr E v H0) as (a & b & Ea & Eb & Hab).
  unfold cmp, csem; simpl. split.
  - intros H. exists a, b. split; [exact Ea|]. split; [exact Eb|]. unfold ilt in *. destruct s; lra.
  - intros (a' & b' & Ea' & Eb' & H). rewrite Ea in Ea'. rewrite Eb in Eb'. injection Ea' as <-. injection Eb' as <-.
    unfold ilt in *. destruct s; lra.
Qed.

Lemma cmp_impl d v (R S : Q -> Q -> Prop) l r : (forall a b, R a b -> S a b) -> cmp d v R l r -> cmp d v S l r.
Proof. intros H (a & b & Ea & Eb & HR). exists a, b. auto. Qed.
Lemma cmp_swap d v (R S : Q -> Q -> Prop) l r : (forall a b, R a b <-> S b a) -> cmp d v R l r <-> cmp d v S r l.
Proof.
  intros H. split; intros (a & b & Ea & Eb & HR); exists b, a; split; auto; split; auto; apply H; auto.
Qed.
Lemma cmp_iff d v (R S : Q -> Q -> Prop) l r : (forall a b, R a b <-> S a b) -> cmp d v R l r <-> cmp d v S l r.
Proof. intros H. split; apply cmp_impl; intros; apply H; auto. Qed.

Lemma fcon_cmp dim d l r i j k s f v :
  simple_side d l = true -> simple_side d r = true -> get_indices l r d = Ok (i, j, k) ->
  fsem dim (fcon (mkC i j s k) f) v <-> fsem dim f v /\ cmp d v (fun a b => ilt s a b) l r.
Proof.
  intros Hl Hr E. rewrite fcon_sem. split; intros [H1 H2].
  - split; [exact H2|]. apply (cmp_csem d l r i j k s v); auto. apply fsem_ok in H2. apply H2.
  - split; [|exact H1]. apply (cmp_csem d l r i j k s v); auto. apply fsem_ok in H1. apply H1.
Qed.

Lemma apply_constraints_sound dim d g : simple_guard d g = true ->
  forall f f', apply_constraints dim g d f = Ok f' ->
  forall v, fsem dim f' v <-> fsem dim f v /\ bsat d v g.
Proof.
  assert (Emp : forall f v (P : Prop), fempty dim f = true -> (fsem dim f v <-> fsem dim f v /\ P)).
  { intros f v P H. rewrite fempty_true in H. specialize (H v). tauto. }
  induction g; cbn [simple_guard apply_constraints]; intros Hs f f' E v;
    (destruct (fempty dim f) eqn:Ef; [injection E as <-; apply Emp; exact Ef|]);
    try (apply andb_true_iff in Hs; destruct Hs as [Hl Hr]).
  - inv_bind E. rewrite (IHg2 Hr _ _ E v), (IHg1 Hl _ _ H v). simpl. tauto.
  - inv_bind E. inv_bind E. injection E as <-. rewrite funion_sem, (IHg1 Hl _ _ H v), (IHg2 Hr _ _ H0 v). simpl. tauto.
  - inv_bind E. destruct a as [[i j] k]. injection E as <-. cbn [bsat].
    apply (fcon_cmp dim d l r i j k false f v); assumption.
  - inv_bind E. destruct a as [[i j] k]. injection E as <-. cbn [bsat].
    rewrite (cmp_swap d v (fun a b => b <= a) Qle l r) by (intros; reflexivity).
    apply (fcon_cmp dim d r l i j k false f v); assumption.
  - inv_bind E. destruct a as [[i j] k]. injection E as <-. cbn [bsat].
    apply (fcon_cmp dim d l r i j k true f v); assumption.
  - inv_bind E. destruct a as [[i j] k]. injection E as <-. cbn [bsat].
    rewrite (cmp_swap d v (fun a b => b < a) Qlt l r) by (intros; reflexivity).
    apply (fcon_cmp dim d r l i j k true f v); assumption.
  - inv_bind E. destruct a as [[i j] k]. injection E as <-. rewrite !fcon_sem. simpl.
    assert (Hv : fsem dim f v -> v 0%nat == 0) by (intros Hf; apply fsem_ok in Hf; apply Hf).
    split.
    + intros [H1 [H2 H3]]. split; [exact H3|].
      destruct (get_indices_sound d l r i j k Hl Hr H v (Hv H3)) as (a & b & Ea & Eb & Hab).
      exists a, b. split; [exact Ea|]. split; [exact Eb|]. unfold csem, ilt in *; simpl in *. rewrite inject_Z_opp in H1. lra.
    + intros [H3 (a' & b' & Ea' & Eb' & Hq)].
      destruct (get_indices_sound d l r i j k Hl Hr H v (Hv H3)) as (a & b & Ea & Eb & Hab).
      rewrite Ea in Ea'. rewrite Eb in Eb'. injection Ea' as <-. injection Eb' as <-.
      unfold csem, ilt in *; simpl in *. rewrite inject_Z_opp. split; [lra|]. split; [lra|exact H3].
  - injection E as <-. simpl. destruct b; [tauto|]. split; [intros H; destruct (fnone_sem dim v H)|intros [_ H]; discriminate].
Qed.

(** ** Guards of the documented shapes are never rejected *)

Lemma simplify_int k : simplify (AInt k) = Ok (AInt k). Proof. reflexivity. Qed.
Lemma simplify_clk i : simplify (AClock i) = Ok (AClock i). Proof. reflexivity. Qed.
Lemma simplify_diff i j : simplify (ADifference (AClock i) (AClock j)) = Ok (ADifference (AClock i) (AClock j)).
Proof. reflexivity. Qed.

Lemma basic_indices d l r : basic_cmp d l r = true -> exists i j k, get_indices l r d = Ok (i, j, k).
Proof.
  unfold basic_cmp, is_diff, get_indices. intros H. repeat (apply orb_true_iff in H; destruct H as [H|H]).
  - apply andb_true_iff in H. destruct H as [H1 H2]. apply replace_clk in H1. destruct H1 as (i & -> & _).
    apply is_const_some in H2. destruct H2 as [k H2]. destruct (replace_const d r k H2) as [-> _].
    simpl. eauto.
  - apply andb_true_iff in H. destruct H as [H2 H1]. apply replace_clk in H1. destruct H1 as (i & -> & _).
    apply is_const_some in H2. destruct H2 as [k H2]. destruct (replace_const d l k H2) as [-> _].
    simpl. eauto.
  - apply andb_true_iff in H. destruct H as [H1 H2]. apply replace_clk in H1. destruct H1 as (i & -> & _).
    apply replace_clk in H2. destruct H2 as (j & -> & _). simpl. unfold combine_clocks; simpl. eauto.
  - apply andb_true_iff in H. destruct H as [H1 H2]. destruct l as [l1 l2| | | | | | |]; try discriminate.
    apply andb_true_iff in H1. destruct H1 as [Ha Hb]. apply replace_clk in Ha. destruct Ha as (i & Ri & _).
    apply replace_clk in Hb. destruct Hb as (j & Rj & _). simpl. rewrite Ri, Rj.
    apply is_const_some in H2. destruct H2 as [k H2]. destruct (replace_const d r k H2) as [-> _].
    simpl. unfold combine_clocks; simpl. eauto.
  - apply andb_true_iff in H. destruct H as [H2 H1]. destruct r as [l1 l2| | | | | | |]; try discriminate.
    apply andb_true_iff in H1. destruct H1 as [Ha Hb]. apply replace_clk in Ha. destruct Ha as (i & Ri & _).
    apply replace_clk in Hb. destruct Hb as (j & Rj & _). simpl. rewrite Ri, Rj.
    apply is_const_some in H2. destruct H2 as [k H2]. destruct (replace_const d l k H2) as [-> _].
    simpl. unfold combine_clocks; simpl. eauto.
Qed.

Lemma basic_cmp_sym d l r : basic_cmp d l r = basic_cmp d r l.
Proof.
  unfold basic_cmp. destruct (is_clk d l), (is_const d r), (is_const d l), (is_clk d r), (is_diff d l), (is_diff d r); reflexivity.
Qed.

Lemma basic_apply dim d g : basic_guard d g = true -> forall f, exists f', apply_constraints dim g d f = Ok f'.
Proof.
  induction g; cbn [basic_guard apply_constraints]; intros Hs f;
    (destruct (fempty dim f); [eauto|]);
    try (destruct (basic_indices d l r Hs) as (i & j & k & ->); simpl; eauto; fail);
    try (rewrite basic_cmp_sym in Hs; destruct (basic_indices d r l Hs) as (i & j & k & ->); simpl; eauto; fail).
  - apply andb_true_iff in Hs; destruct Hs as [Hl Hr]. destruct (IHg1 Hl f) as [f1 ->]. simpl. apply IHg2; exact Hr.
  - apply andb_true_iff in Hs; destruct Hs as [Hl Hr]. destruct (IHg1 Hl f) as [f1 ->]. simpl.
    destruct (IHg2 Hr f) as [f2 ->]. simpl. eauto.
  - eauto.
Qed.

Lemma is_clk_simple d e : is_clk d e = true -> simple_side d e = true.
Proof. intros H. unfold simple_side. destruct e; try discriminate; cbn [lin_sum]; rewrite H, ?orb_true_r; reflexivity. Qed.
Lemma is_const_simple d e : is_const d e = true -> simple_side d e = true.
Proof. intros H. unfold simple_side. destruct e; cbn [lin_sum]; rewrite H; reflexivity. Qed.
Lemma is_diff_simple d e : is_diff d e = true -> simple_side d e = true.
Proof.
  intros H. destruct e; try discriminate. simpl in H. apply andb_true_iff in H. destruct H as [H1 H2].
  unfold simple_side. rewrite H1. replace (pure_sum d e2) with true; [simpl; rewrite orb_true_r; reflexivity|].
  symmetry. destruct e2; try discriminate; cbn [pure_sum]; rewrite H2, ?orb_true_r; reflexivity.
Qed.

Lemma basic_simple d g : basic_guard d g = true -> simple_guard d g = true.
Proof.
  assert (C : forall l r, basic_cmp d l r = true -> simple_side d l && simple_side d r = true).
  { intros l r H. unfold basic_cmp in H. apply andb_true_iff.
    repeat (apply orb_true_iff in H; destruct H as [H|H]); apply andb_true_iff in H; destruct H as [H1 H2];
    split; auto using is_clk_simple, is_const_simple, is_diff_simple. }
  induction g; cbn [basic_guard simple_guard]; intros H; auto;
  apply andb_true_iff in H; destruct H; apply andb_true_iff; auto.
Qed.
