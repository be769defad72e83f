(** C25, C26, C42: the model cache, user tokens and request handling. *)
From Coq Require Import List String ZArith Bool Arith Lia.
From Verif Require Import Fed.Zone Model.Base Model.Expr Model.Guard Model.Loc Model.Component Model.Enable Model.Server Spec.ServerSpec Proofs.ServerFacts
  Props.Examples Props.Enabling.
Import ListNotations.
Local Open Scope Z_scope.

(** A lookup answers exactly when the user's latest insertion carried that hash and the
    user is among the [cap] most recently active ones; it answers what was inserted. *)
Theorem C25_lookup : forall (M : Type) (cap : nat) (hist : list (cop M)) u h m, (0 < cap)%nat ->
  fst (get_model u h (after cap hist)) = Some m <->
  h <> 0 /\ last_put u hist = Some (h, m) /\ In u (recent cap (uses cap hist)).
Proof. intros M cap hist u h m Hc. exact (lookup_spec cap hist u h m Hc). Qed.
Print Assumptions C25_lookup.

(** There are never more entries than the capacity, and one per user. *)
Theorem C25_capacity : forall (M : Type) (cap : nat) (hist : list (cop M)), (0 < cap)%nat ->
  (List.length (after cap hist) <= cap)%nat /\ NoDup (map fst (after cap hist)).
Proof. intros M cap hist Hc. exact (cache_size cap hist Hc). Qed.
Print Assumptions C25_capacity.

(** A model stays available while fewer than [cap] other users are active, however often. *)
Theorem C25_survives : forall (M : Type) (cap : nat) u h (m : M) hist later us,
  h <> 0 -> (forall h' m', In (OPut u h' m') later -> h' = 0) ->
  (forall o, In o later -> op_user o = u \/ In (op_user o) us) -> (List.length us < cap)%nat ->
  fst (get_model u h (after cap (later ++ OPut u h m :: hist))) = Some m.
Proof. intros M cap u h m hist later us H1 H2 H3 H4. exact (survives_others cap u h m hist later us H1 H2 H3 H4). Qed.
Print Assumptions C25_survives.

(** Under every interleaving of requests the cache is one that a sequence of lookups and
    insertions produces, and every insertion is the model of a request that arrived, under
    that request's user and hash. *)
Theorem C25_interleavings : forall minc (proto body resp : Type) (parse : proto -> res (list component)) (prepare : body -> res unit)
    (answer : body -> cmap -> res resp) cap es, (0 < cap)%nat ->
  exists hist, sv_cache (run_server minc parse prepare answer cap es) = after cap hist /\
    forall u h m, In (OPut u h m) hist -> exists ps b, In (RModel u (Some (h, ps)) b) (arrivals es) /\ build minc parse ps = Ok m.
Proof.
  intros minc proto body resp parse prepare answer cap es Hc.
  destruct (server_inv minc parse prepare answer cap Hc es) as (_ & C & _). exact C.
Qed.
Print Assumptions C25_interleavings.

(** Every answer uses the request's own components or those of a request by the same user
    with the same hash; never another user's, and never cached ones for hash zero. *)
Theorem C25_served : forall minc (proto body resp : Type) (parse : proto -> res (list component)) (prepare : body -> res unit)
    (answer : body -> cmap -> res resp) cap es i u h ps b x, (0 < cap)%nat ->
  nth_error (sv_threads (run_server minc parse prepare answer cap es)) i = Some (TDone (RModel u (Some (h, ps)) b) x) ->
  exists ps', source (arrivals es) u h ps ps' /\
    catch_unwind (do _ <- prepare b; do m <- build minc parse ps'; answer b m) = Some x.
Proof.
  intros minc proto body resp parse prepare answer cap es i u h ps b x Hc Hi.
  destruct (server_inv minc parse prepare answer cap Hc es) as (_ & _ & T & _). exact (T _ (nth_error_In _ _ Hi)).
Qed.
Print Assumptions C25_served.

(** Two users, capacity two: the second user's lookup keeps them, the third insertion
    evicts the first user. *)
Definition ex_hist : list (cop nat) := [OPut 3 7 30%nat; OGet 2 5; OPut 1 5 10%nat; OPut 2 5 20%nat].
Example C25_nonvacuous : recent 2 (uses 2 ex_hist) = [3; 2] /\ fst (get_model 2 5 (after 2 ex_hist)) = Some 20%nat /\
  fst (get_model 1 5 (after 2 ex_hist)) = None /\ fst (get_model 2 6 (after 2 ex_hist)) = None /\
  fst (get_model 1 5 (after 2 (tl ex_hist))) = Some 10%nat.
Proof. vm_compute. auto. Qed.

(** Tokens are pairwise different under every interleaving, up to 2^32 requests. *)
Theorem C26_unique : forall minc (proto body resp : Type) (parse : proto -> res (list component)) (prepare : body -> res unit)
    (answer : body -> cmap -> res resp) cap es, (0 < cap)%nat ->
  Z.of_nat (tokens_asked (arrivals es)) <= 2 ^ 32 -> NoDup (handed_out (run_server minc parse prepare answer cap es)).
Proof. intros minc proto body resp parse prepare answer cap es Hc H. exact (tokens_unique minc parse prepare answer cap Hc es H). Qed.
Print Assumptions C26_unique.

(** Beyond that they repeat, always. *)
Theorem C26_repeats : forall minc (proto body resp : Type) (parse : proto -> res (list component)) (prepare : body -> res unit)
    (answer : body -> cmap -> res resp) cap es, (0 < cap)%nat ->
  Z.of_nat (List.length (handed_out (run_server minc parse prepare answer cap es))) > 2 ^ 32 ->
  ~ NoDup (handed_out (run_server minc parse prepare answer cap es)).
Proof. intros minc proto body resp parse prepare answer cap es Hc H. exact (tokens_repeat minc parse prepare answer cap Hc es H). Qed.
Print Assumptions C26_repeats.

(** One after the other, the tokens are 1, 2, 3, ... (wrapping), so both cases above occur. *)
Theorem C26_in_order : forall minc (proto body resp : Type) (parse : proto -> res (list component)) (prepare : body -> res unit)
    (answer : body -> cmap -> res resp) cap k, (0 < cap)%nat ->
  handed_out (run_server minc parse prepare answer cap (ask k)) = map (fun j => wrap32 (1 + Z.of_nat j)) (seq 0 k).
Proof.
  intros minc proto body resp parse prepare answer cap k Hc.
  exact (proj1 (tokens_in_order minc parse prepare answer cap Hc k)).
Qed.
Print Assumptions C26_in_order.
Example C26_nonvacuous : map (fun j => wrap32 (1 + Z.of_nat j)) (seq 0 3) = [1; 2; 3] /\ wrap32 2147483648 = -2147483648 /\
  arrivals (proto := unit) (body := unit) (ask 2) = [RToken; RToken].
Proof. vm_compute. auto. Qed.

(** Every request is answered, once its handler is scheduled three times, whatever the
    others do; a panic of its own is answered too. *)
Theorem C42_answered : forall minc (proto body resp : Type) (parse : proto -> res (list component)) (prepare : body -> res unit)
    (answer : body -> cmap -> res resp) cap es i r, (0 < cap)%nat ->
  honest (arrivals es) -> nth_error (arrivals es) i = Some r ->
  (r = RToken \/ alone (build minc parse) prepare answer r <> None) ->
  exists x, nth_error (sv_threads (run_server minc parse prepare answer cap (es ++ [Run i; Run i; Run i]))) i = Some (TDone r x).
Proof. intros minc proto body resp parse prepare answer cap es i r Hc Ho Hi Ha. exact (answered minc parse prepare answer cap Hc es i r Ho Hi Ha). Qed.
Print Assumptions C42_answered.

(** The answer is the one the request would get from a fresh server: other requests,
    panicking or not, do not influence it. *)
Theorem C42_isolated : forall minc (proto body resp : Type) (parse : proto -> res (list component)) (prepare : body -> res unit)
    (answer : body -> cmap -> res resp) cap es i r x, (0 < cap)%nat ->
  honest (arrivals es) -> nth_error (sv_threads (run_server minc parse prepare answer cap es)) i = Some (TDone r x) -> r <> RToken ->
  alone (build minc parse) prepare answer r = Some x.
Proof. intros minc proto body resp parse prepare answer cap es i r x Hc Ho Hi Nr. exact (isolated minc parse prepare answer cap Hc es i r x Ho Hi Nr). Qed.
Print Assumptions C42_isolated.

(** A handler that panics in any phase answers with an internal error, and the cache keeps
    every entry it had. *)
Theorem C42_panic_contained : forall minc (proto body resp : Type) (parse : proto -> res (list component)) (prepare : body -> res unit)
    (answer : body -> cmap -> res resp) cap u h ps b c n t, (0 < cap)%nat ->
  (prepare b = Panic /\ t = TNew (RModel u (Some (h, ps)) b) \/
   build minc parse ps = Panic /\ t = TMissed (RModel u (Some (h, ps)) b) u h ps b \/
   exists m, answer b m = Panic /\ t = TReady (RModel u (Some (h, ps)) b) b m) ->
  handle minc parse prepare answer cap t c n = (TDone (RModel u (Some (h, ps)) b) ToInternal, c, n).
Proof.
  intros minc proto body resp parse prepare answer cap u h ps b c n t Hc [[E ->]|[[E ->]|(m & E & ->)]]; cbn [handle]; rewrite E; reflexivity.
Qed.
Print Assumptions C42_panic_contained.

(** Three users: one sends a component whose edge updates an unknown clock, which aborts
    while the model is built; one asks something that aborts; one gets its answer. *)
Definition ex_parse (c : component) : res (list component) := if String.eqb (c_name c) "Undecodable" then Err else Ok [c].
Definition ex_prepare (b : nat) : res unit := if Nat.eqb b 7 then Err else Ok tt.
Definition ex_answer (b : nat) (m : cmap) : res nat := if Nat.eqb b 0 then Panic else Ok (b + List.length m)%nat.
Definition comp_bad := mkComp "Bad" (mkDecls [] []) [mkL "L" None Initial "NORMAL"] [mkE "E" "L" "L" SInput None (Some [("z", AInt 0)]) "i"]%string None.
Definition ex_events : list (@event component nat) :=
  [Arrive (RModel 1 (Some (11, [comp_bad])) 5%nat); Arrive (RModel 2 (Some (12, [comp_m 1])) 0%nat); Run 0; Run 1;
   Arrive (RModel 3 (Some (12, [comp_m 1; comp_n 1])) 4%nat); Run 2; Run 0; Run 1; Run 2; Run 1; Run 2;
   Arrive (RModel 3 (Some (12, [comp_m 1; comp_n 1])) 9%nat); Run 3; Run 3].
Example C42_nonvacuous : honest (arrivals ex_events) /\
  map (fun t => match t with TDone _ x => Some x | _ => None end) (sv_threads (run_server min_desc ex_parse ex_prepare ex_answer 2 ex_events)) =
    [Some ToInternal; Some ToInternal; Some (ToOk 6%nat); Some (ToOk 11%nat)].
Proof.
  split; [|vm_compute; reflexivity]. intros u h ps ps' b b' _. cbn [arrivals ex_events In].
  intros H H'. repeat destruct H as [H|H]; repeat destruct H' as [H'|H']; congruence || contradiction.
Qed.
(** Finding: the hash is trusted.  The second request carries other components under the
    same hash and is answered from the first one's. *)
Example C42_hash_trusted :
  let es := [Arrive (RModel 1 (Some (11, [comp_m 1])) 5%nat); Run 0; Run 0; Arrive (RModel 1 (Some (11, [comp_m 1; comp_n 1])) 5%nat); Run 1; Run 1] in
  nth_error (map (fun t => match t with TDone _ x => Some x | _ => None end) (sv_threads (run_server min_desc ex_parse ex_prepare ex_answer 2 es))) 1 =
    Some (Some (ToOk 6%nat)) /\
  alone (build min_desc ex_parse) ex_prepare ex_answer (RModel 1 (Some (11, [comp_m 1; comp_n 1])) 5%nat) = Some (ToOk 7%nat).
Proof. vm_compute. auto. Qed.
(** Finding: a component that cannot be decoded is dropped without a word. *)
Example C42_undecodable_dropped : build min_desc ex_parse [mkComp "Undecodable" (mkDecls [] []) [] [] None; comp_m 1] = build min_desc ex_parse [comp_m 1].
Proof. vm_compute. reflexivity. Qed.
