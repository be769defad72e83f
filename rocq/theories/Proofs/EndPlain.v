(** The parts of the model without a search always finish: [NoFuel] is not among their results. *)
From Coq Require Import List String ZArith Bool Arith Lia.
From Verif Require Import Fed.Zone Model.Base Model.Expr Model.Guard Model.Loc Model.Component Model.TS Model.ParseQuery Model.Files Model.Recipe Model.Reduce Model.Save Model.Search Model.Query
  Proofs.GuardFacts Proofs.QuotientFacts.
Import ListNotations.
Local Open Scope nat_scope.
Local Open Scope list_scope.

Definition nf {A} (r : res A) : Prop := r <> NoFuel.
Lemma nf_ok {A} (a : A) : nf (Ok a). Proof. intros E; discriminate E. Qed.
Lemma nf_err {A} : nf (@Err A). Proof. intros E; discriminate E. Qed.
Lemma nf_panic {A} : nf (@Panic A). Proof. intros E; discriminate E. Qed.
Lemma nf_bind {A B} (r : res A) (f : A -> res B) : nf r -> (forall a, r = Ok a -> nf (f a)) -> nf (bind r f).
Proof. unfold nf. intros H K. destruct r; simpl in *; auto; congruence. Qed.
Lemma nf_unwrap {A} (o : option A) : nf (unwrap o). Proof. destruct o; cbn; intros E; discriminate E. Qed.
Lemma nf_ok_or {A} (o : option A) : nf (ok_or o). Proof. destruct o; cbn; intros E; discriminate E. Qed.
Lemma nf_expect {A} (r : res A) : nf r -> nf (expect r). Proof. unfold nf. destruct r; simpl; auto; congruence. Qed.
Lemma nf_mapM {A B} (f : A -> res B) l : (forall a, In a l -> nf (f a)) -> nf (mapM f l).
Proof.
  induction l as [|a l IH]; intros H; [apply nf_ok|]. cbn [mapM]. apply nf_bind; [apply H; left; reflexivity|]. intros b _.
  apply nf_bind; [apply IH; intros; apply H; right; assumption|]. intros; apply nf_ok.
Qed.
Lemma nf_foldM {A S} (f : S -> A -> res S) l : (forall s a, nf (f s a)) -> forall s, nf (foldM f l s).
Proof. intros H. induction l as [|a l IH]; intros s; [apply nf_ok|]. cbn [foldM]. apply nf_bind; [apply H|]. intros; apply IH. Qed.
Global Hint Resolve nf_ok nf_err nf_panic nf_unwrap nf_ok_or nf_expect nf_mapM nf_foldM : nf.
(** One step through sequencing and case distinctions. *)
Ltac nf_step :=
  match goal with
  | |- nf (bind _ _) => apply nf_bind; [|intros ? _]
  | |- nf (expect _) => apply nf_expect
  | |- nf (mapM _ _) => apply nf_mapM; intros ? _
  | |- nf (foldM _ _ _) => apply nf_foldM; intros ? ?
  | |- nf (if ?c then _ else _) => destruct c
  | |- nf (match ?x with _ => _ end) => destruct x
  | |- nf (let '(_, _) := ?x in _) => destruct x
  end.
Ltac nf_all := repeat (cbv beta iota zeta; first [solve [auto with nf] | nf_step]).

(** ** Expressions *)
Lemma nf_clone a b e : nf (clone_expr a b e).
Proof. unfold clone_expr. nf_all. Qed.
Global Hint Resolve nf_clone : nf.
(** What has been moved out is gone. *)
Lemma move_spec : forall e op, match move_clock_and_vars e op with
  | Ok (Some _, e') => clock_var_count e' < clock_var_count e
  | Ok (None, e') => clock_var_count e = 0
  | NoFuel => False
  | _ => True
  end.
Proof.
  assert (Node : forall l r (err : bool) (f : bool -> operation) mk ml mr,
    (forall x y, clock_var_count (mk x y) = clock_var_count x + clock_var_count y) ->
    (forall op, match ml op with Ok (Some _, e') => clock_var_count e' < clock_var_count l | Ok (None, e') => clock_var_count l = 0 | NoFuel => False | _ => True end) ->
    (forall op, match mr op with Ok (Some _, e') => clock_var_count e' < clock_var_count r | Ok (None, e') => clock_var_count r = 0 | NoFuel => False | _ => True end) ->
    match (if Nat.ltb 0 (clock_var_count l) then
             do sw <- clone_expr l r err; do (o, l') <- ml (f false); Ok (o, match sw with Some x => x | None => mk l' r end)
           else if Nat.ltb 0 (clock_var_count r) then
             do sw <- clone_expr r l err; do (o, r') <- mr (f true); Ok (o, match sw with Some x => x | None => mk l r' end)
           else Ok (@None (arith * operation), mk l r)) with
    | Ok (Some _, e') => clock_var_count e' < clock_var_count l + clock_var_count r
    | Ok (None, e') => clock_var_count l + clock_var_count r = 0
    | NoFuel => False
    | _ => True
    end).
  { intros l r err f mk ml mr Hk Hl Hr. destruct (Nat.ltb_spec 0 (clock_var_count l)) as [L|L].
    - destruct (clone_expr l r err) as [sw| | |] eqn:C; cbn [bind]; auto; [|exact (nf_clone _ _ _ C)].
      specialize (Hl (f false)). destruct (ml (f false)) as [[[p|] l']| | |]; cbn [bind]; auto; [|lia].
      unfold clone_expr in C. destruct l; try (destruct err; try discriminate); injection C as <-; cbn [clock_var_count] in *; rewrite ?Hk; cbn [clock_var_count] in *; lia.
    - destruct (Nat.ltb_spec 0 (clock_var_count r)) as [R|R]; [|lia].
      destruct (clone_expr r l err) as [sw| | |] eqn:C; cbn [bind]; auto; [|exact (nf_clone _ _ _ C)].
      specialize (Hr (f true)). destruct (mr (f true)) as [[[p|] r']| | |]; cbn [bind]; auto; [|lia].
      unfold clone_expr in C. destruct r; try (destruct err; try discriminate); injection C as <-; cbn [clock_var_count] in *; rewrite ?Hk; cbn [clock_var_count] in *; lia. }
  induction e as [l IHl r IHr|l IHl r IHr|l IHl r IHr|l IHl r IHr|l IHl r IHr|x|s|k]; intros op; cbn [move_clock_and_vars clock_var_count]; auto;
    apply (Node l r); auto.
Qed.
Lemma nf_move e op : nf (move_clock_and_vars e op).
Proof. intros E. pose proof (move_spec e op) as H. rewrite E in H. exact H. Qed.
Lemma nf_pull : forall fuel e op, clock_var_count e < fuel -> nf (pull_all fuel e op).
Proof.
  induction fuel as [|f IH]; intros e op L; [lia|]. cbn [pull_all]. apply nf_bind; [apply nf_move|]. intros [[[v o]|] e'] E; [|apply nf_ok].
  pose proof (move_spec e op) as H. rewrite E in H. apply nf_bind; [apply IH; lia|]. intros [ds fin] _. apply nf_ok.
Qed.
Lemma nf_mod a b : nf (mk_mod a b).
Proof. unfold mk_mod. nf_all. Qed.
Global Hint Resolve nf_mod nf_move : nf.
Lemma nf_rebuild ds out : nf (rebuild ds out).
Proof. induction ds as [|[v o] ds IH]; [apply nf_ok|]. cbn [rebuild]. apply nf_bind; [exact IH|]. intros r _. unfold rebuild_step. nf_all. Qed.
Lemma asize_pos e : 0 < asize e. Proof. destruct e; cbn; lia. Qed.
(** A change makes the expression smaller. *)
Lemma helper_spec : forall e, match simplify_helper e with
  | Ok (e', true) => asize e' < asize e
  | Ok (e', false) => asize e' <= asize e
  | NoFuel => False
  | _ => True
  end.
Proof.
  assert (Node : forall l r rl rr mk (f : Z -> Z -> res Z), (forall x y, asize (mk x y) = S (asize x + asize y)) -> (forall x y, nf (f x y)) ->
    match rl with Ok (e', true) => asize e' < asize l | Ok (e', false) => asize e' <= asize l | NoFuel => False | _ => True end ->
    match rr with Ok (e', true) => asize e' < asize r | Ok (e', false) => asize e' <= asize r | NoFuel => False | _ => True end ->
    match (do (l', cl) <- rl; do (r', cr) <- rr;
           match l', r' with AInt x, AInt y => do k <- f x y; Ok (AInt k, true) | _, _ => Ok (mk l' r', cl || cr) end) with
    | Ok (e', true) => asize e' < S (asize l + asize r)
    | Ok (e', false) => asize e' <= S (asize l + asize r)
    | NoFuel => False
    | _ => True
    end).
  { intros l r rl rr mk f Hk Hf Hl Hr. destruct rl as [[l' cl]| | |]; cbn [bind]; auto. destruct rr as [[r' cr]| | |]; cbn [bind]; auto.
    assert (G : match @Ok (arith * bool) (mk l' r', cl || cr) with Ok (e', true) => asize e' < S (asize l + asize r) | Ok (e', false) => asize e' <= S (asize l + asize r) | NoFuel => False | _ => True end).
    { pose proof (Hk l' r') as K. destruct cl, cr; cbn [orb]; lia. }
    destruct l'; try exact G. destruct r'; try exact G. destruct (f k k0) as [z| | |] eqn:F; cbn [bind]; auto; [|exact (Hf _ _ F)].
    pose proof (asize_pos l). cbn. lia. }
  induction e as [l IHl r IHr|l IHl r IHr|l IHl r IHr|l IHl r IHr|l IHl r IHr|x|s|k]; cbn [simplify_helper]; auto;
    try (cbn [asize]; apply Node; auto; intros; nf_all).
Qed.
Lemma nf_simplify_loop : forall fuel e, asize e <= fuel -> nf (simplify_loop fuel e).
Proof.
  induction fuel as [|f IH]; intros e L; [pose proof (asize_pos e); lia|]. cbn [simplify_loop]. pose proof (helper_spec e) as H.
  destruct (simplify_helper e) as [[e' c]| | |]; cbn [bind]; try (intros E; discriminate E); [|destruct H]. destruct c; [|apply nf_ok]. apply IH. lia.
Qed.
Lemma nf_simplify e : nf (simplify e).
Proof.
  unfold simplify. apply nf_bind; [apply nf_pull; lia|]. intros [ds out] _. apply nf_bind; [apply nf_rebuild|]. intros o _. apply nf_simplify_loop. lia.
Qed.
Lemma nf_replace e d : nf (replace_vars e d).
Proof. induction e; cbn [replace_vars]; nf_all. Qed.
Lemma nf_const e d : nf (get_const e d).
Proof. induction e; cbn [get_const]; nf_all. Qed.
Lemma nf_combine c1 c2 k b : nf (combine_clocks c1 c2 k b).
Proof. unfold combine_clocks. nf_all. Qed.
Lemma nf_here e b : nf (clock_here e b).
Proof. unfold clock_here. nf_all. Qed.
Global Hint Resolve nf_simplify nf_replace nf_const nf_combine nf_here : nf.
Lemma nf_val1 e : nf (get_clock_val1 e).
Proof. unfold get_clock_val1. nf_all. Qed.
Lemma nf_val2 e : nf (get_clock_val2 e).
Proof. unfold get_clock_val2. nf_all. Qed.
Global Hint Resolve nf_val1 nf_val2 : nf.
Lemma nf_indices l r d : nf (get_indices l r d).
Proof. unfold get_indices. nf_all. Qed.
Global Hint Resolve nf_indices : nf.
Lemma nf_apply dim g d : forall f, nf (apply_constraints dim g d f).
Proof. induction g; intros f; cbn [apply_constraints]; nf_all. Qed.
Global Hint Resolve nf_apply : nf.

(** ** Components *)
Lemma nf_lt_simple dim d l : nf (lt_simple dim d l).
Proof. unfold lt_simple. nf_all. Qed.
Lemma nf_update u d : nf (compile_update u d).
Proof. unfold compile_update. nf_all. Qed.
Lemma nf_by_name c n : nf (get_location_by_name c n).
Proof. unfold get_location_by_name. nf_all. Qed.
Lemma nf_edge_guard dim d e f : nf (edge_apply_guard dim d e f).
Proof. unfold edge_apply_guard. nf_all. Qed.
Global Hint Resolve nf_lt_simple nf_update nf_by_name nf_edge_guard : nf.
Lemma nf_from_edge dim c e : nf (from_component_and_edge dim c e).
Proof. unfold from_component_and_edge. nf_all. Qed.
Global Hint Resolve nf_from_edge : nf.
Lemma nf_compile_actions dim c i o k : nf (compile_with_actions dim c i o k).
Proof. unfold compile_with_actions. nf_all. Qed.
Lemma nf_compile_component dim c k : nf (compile_component dim c k).
Proof. apply nf_compile_actions. Qed.
Global Hint Resolve nf_compile_actions nf_compile_component : nf.

(** ** Transition systems *)
Lemma nf_left l : nf (lt_left l). Proof. unfold lt_left. nf_all. Qed.
Lemma nf_right l : nf (lt_right l). Proof. unfold lt_right. nf_all. Qed.
Lemma nf_lt_compose dim l r c : nf (lt_compose dim l r c). Proof. unfold lt_compose. nf_all. Qed.
Lemma nf_ids c a b : nf (combine_ids c a b). Proof. unfold combine_ids. nf_all. Qed.
Global Hint Resolve nf_left nf_right nf_lt_compose nf_ids : nf.
Lemma nf_combine_pair dim c l r : nf (combine_pair dim c l r). Proof. unfold combine_pair. nf_all. Qed.
Global Hint Resolve nf_combine_pair : nf.
Lemma nf_combinations dim l r c : nf (combinations dim l r c). Proof. unfold combinations. nf_all. Qed.
Global Hint Resolve nf_combinations : nf.
Lemma nf_next dim s : forall l a, nf (next_transitions dim s l a).
Proof. induction s; intros loc x; cbn [next_transitions]; nf_all. Qed.
Global Hint Resolve nf_next : nf.
Lemma nf_available dim s l a : nf (next_if_available dim s l a).
Proof. unfold next_if_available. nf_all. Qed.
Lemma nf_composition l r : nf (composition_new l r). Proof. unfold composition_new. nf_all. Qed.
Lemma nf_conjunction l r : nf (conjunction_new l r). Proof. unfold conjunction_new. nf_all. Qed.
Global Hint Resolve nf_available nf_composition nf_conjunction : nf.
Lemma nf_quotient t s q : nf (quotient_new t s q).
Proof.
  unfold quotient_new. nf_step; [apply nf_err|]. cbv zeta. apply nf_bind; [|intros; apply nf_ok]. intros E.
  destruct (fresh_total (sunion (ts_inputs t) (ts_outputs s))) as [n H]. rewrite H in E. discriminate E.
Qed.
Global Hint Resolve nf_quotient : nf.

(** ** Recipes *)
Lemma nf_recipe load e : forall st, nf (get_system_recipe load e st).
Proof. induction e; intros st; cbn [get_system_recipe]; nf_all. Qed.
Lemma nf_remove i c : nf (remove_clock i c).
Proof. unfold remove_clock. nf_all. Qed.
Global Hint Resolve nf_recipe nf_remove : nf.
Lemma nf_remove_from i r : nf (remove_from i r).
Proof. induction r; cbn [remove_from]; nf_all. Qed.
Global Hint Resolve nf_remove_from : nf.
Lemma nf_reduce_clocks xs r : nf (reduce_clocks xs r).
Proof. unfold reduce_clocks, apply_instr. nf_all. Qed.
Lemma nf_minus a b : nf (minus_usize a b).
Proof. unfold minus_usize. nf_all. Qed.
Global Hint Resolve nf_reduce_clocks nf_minus : nf.

(** ** States *)
Lemma nf_to_arith cs o : nf (to_arith cs o).
Proof. induction o; cbn [to_arith]; nf_all. Qed.
Global Hint Resolve nf_to_arith : nf.
Lemma nf_fold_ops mk l : nf (fold_ops mk l).
Proof. unfold fold_ops. nf_all. Qed.
Global Hint Resolve nf_fold_ops : nf.
Fixpoint nf_to_bool cs e : nf (to_bool cs e).
Proof.
  assert (L : forall l, nf ((fix all (l : list stx) : res (list bexpr) :=
    match l with [] => Ok [] | x :: l' => do b <- to_bool cs x; do bs <- all l'; Ok (b :: bs) end) l)).
  { fix IH 1. intros [|x l]; [apply nf_ok|]. apply nf_bind; [apply nf_to_bool|]. intros b _. apply nf_bind; [apply IH|]. intros; apply nf_ok. }
  destruct e; cbn [to_bool]; try (apply nf_bind; [apply L|intros; auto with nf]); nf_all.
Qed.
Fixpoint nf_get_locations e : nf (get_locations e).
Proof.
  assert (L : forall l, nf ((fix all (l : list stx) : res (list cvar) :=
    match l with [] => Ok [] | x :: l' => do a <- get_locations x; do b <- all l'; Ok (a ++ b) end) l)).
  { fix IH 1. intros [|x l]; [apply nf_ok|]. apply nf_bind; [apply nf_get_locations|]. intros b _. apply nf_bind; [apply IH|]. intros; apply nf_ok. }
  destruct e; cbn [get_locations]; try (apply nf_bind; [apply L|intros; nf_all]); try apply L; nf_all.
Qed.
Lemma nf_tree dim ls r : forall s, nf (construct_tree dim ls r s).
Proof. induction r; intros s; cbn [construct_tree]; nf_all. Qed.
Global Hint Resolve nf_to_bool nf_get_locations nf_tree : nf.
Lemma nf_get_state dim e r s : nf (get_state dim e r s).
Proof. unfold get_state. nf_all. Qed.
Global Hint Resolve nf_get_state : nf.

(** ** Saving *)
Lemma nf_var nm i : nf (var_of nm i). Proof. unfold var_of. nf_all. Qed.
Global Hint Resolve nf_var : nf.
Lemma nf_from_constraint c nm : nf (from_constraint c nm). Proof. unfold from_constraint. nf_all. Qed.
Global Hint Resolve nf_from_constraint : nf.
Lemma nf_from_conjunction z nm : nf (from_conjunction z nm). Proof. unfold from_conjunction. nf_all. Qed.
Global Hint Resolve nf_from_conjunction : nf.
Lemma nf_from_disj f nm : forall acc, nf (from_disj_loop f nm acc).
Proof. induction f; intros acc; cbn [from_disj_loop]; nf_all. Qed.
Global Hint Resolve nf_from_disj : nf.
Lemma nf_disjunction f nm : nf (from_disjunction f nm). Proof. unfold from_disjunction. nf_all. Qed.
Global Hint Resolve nf_disjunction : nf.
Lemma nf_save_location minc clk l : nf (save_location minc clk l). Proof. unfold save_location. nf_all. Qed.
Lemma nf_as_update clk u : nf (as_update clk u). Proof. unfold as_update. nf_all. Qed.
Global Hint Resolve nf_save_location nf_as_update : nf.
Lemma nf_renamed clk us : nf (renamed_updates clk us). Proof. unfold renamed_updates. nf_all. Qed.
Global Hint Resolve nf_renamed : nf.
Lemma nf_save_edge minc clk ty l a t : nf (save_edge minc clk ty l a t). Proof. unfold save_edge. nf_all. Qed.
Global Hint Resolve nf_save_edge : nf.
Lemma nf_save_action dim minc s clk ty l a : nf (save_action dim minc s clk ty l a). Proof. unfold save_action. nf_all. Qed.
Global Hint Resolve nf_save_action : nf.
Lemma nf_save_edges dim minc ord s clk l : nf (save_edges dim minc ord s clk l). Proof. unfold save_edges. nf_all. Qed.
Global Hint Resolve nf_save_edges : nf.
