(** C35: the edges behind a transition identifier. *)
From Coq Require Import List String ZArith QArith Bool Arith.
From Verif Require Import Fed.Zone Fed.ZoneFacts Fed.Check Model.Base Model.Expr Model.Guard Model.Loc Model.Component Model.TS Model.Leaves
  Spec.StepSpec Spec.SystemSpec Spec.RunSpec Spec.LeavesSpec Proofs.LeavesFacts Props.Examples.
Import ListNotations.
Local Open Scope string_scope.

(** C35, the part that holds: extracting the leaves of an identifier which says something
    about every component gives one list per component, in order, holding the edges the
    identifier names for that component; it does not abort.  Missing: identifiers which
    leave components out, see the refutations below. *)
Theorem C35_leaves_partial s id : covers s id -> get_leaves id = Ok (edges_of s id) /\ List.length (edges_of s id) = ncomp s.
Proof. intros C. split; [exact (leaves_spec s id C)|exact (edges_length s id C)]. Qed.
Print Assumptions C35_leaves_partial.

(** C35: in a system of conjunctions and compositions in which every composed part takes
    part in the action, every transition offered has such an identifier, and the edges in
    it are edges of the components in question, for that action, from that location. *)
Theorem C35_offered dim s loc a t : built dim s -> In loc (all_locations dim s) -> offered dim s loc a t -> all_take_part s a ->
  covers s (t_id t) /\ took s loc a (t_id t).
Proof. intros B L O P. exact (offered_ids dim s B loc a t L O P). Qed.
Print Assumptions C35_offered.

(** C35: a path of such identifiers splits into one path per component. *)
Theorem C35_split s path : path <> [] -> (forall id, In id path -> covers s id) ->
  exists paths, split_paths path = Ok paths /\ List.length paths = ncomp s /\
    forall k, (k < ncomp s)%nat -> nth k paths [] = map (fun id => filter (fun x => negb (is_none x)) (nth k (edges_of s id) [])) path.
Proof. intros N C. exact (split_spec s path N C). Qed.
Print Assumptions C35_split.

Definition loc_of (s : ts) (k : nat) : loctree := nth k (all_locations ex_dim s) lt_universal.
Definition offer_ids (s : ts) (loc : loctree) (a : string) : list transid :=
  match next_transitions ex_dim s loc a with Ok ts => map t_id ts | _ => [] end.
Lemma offer_ids_in s loc a id : In id (offer_ids s loc a) -> is_action s a -> exists t, offered ex_dim s loc a t /\ t_id t = id.
Proof.
  unfold offer_ids. destruct (next_transitions ex_dim s loc a) as [ts| | |] eqn:E; intros H A; try contradiction.
  apply in_map_iff in H. destruct H as (t & <- & Ht). exists t. split; [|reflexivity]. split; [exact A|]. eauto.
Qed.

(** M || N: i moves M alone, o moves both. *)
Example C35_nonvacuous :
  built ex_dim ts_comp /\ ncomp ts_comp = 2%nat /\ all_take_part ts_comp "i" /\ all_take_part ts_comp "o" /\
  (exists loc t, In loc (all_locations ex_dim ts_comp) /\ offered ex_dim ts_comp loc "o" t /\
     get_leaves (t_id t) = Ok [[TISimple "E2"]; [TISimple "E3"]]) /\
  (exists loc t, In loc (all_locations ex_dim ts_comp) /\ offered ex_dim ts_comp loc "i" t /\
     get_leaves (t_id t) = Ok [[TISimple "E1"]; [TINone]]) /\
  split_paths [TIComp (TISimple "E1") TINone; TIComp (TISimple "E2") (TISimple "E3")] =
    Ok [[[TISimple "E1"]; [TISimple "E2"]]; [[]; [TISimple "E3"]]].
Proof.
  split; [exact built_comp|]. split; [reflexivity|]. split; [split; right; eexists; vm_compute; reflexivity|]. split; [split; right; eexists; vm_compute; reflexivity|].
  split; [|split; [|vm_compute; reflexivity]].
  - exists (loc_of ts_comp 2). destruct (offer_ids_in ts_comp (loc_of ts_comp 2) "o" (TIComp (TISimple "E2") (TISimple "E3"))) as (t & O & E).
    + vm_compute. auto.
    + right. vm_compute. auto.
    + exists t. split; [unfold loc_of; apply nth_In; vm_compute; auto 6|]. split; [exact O|]. rewrite E. vm_compute. reflexivity.
  - exists (loc_of ts_comp 0). destruct (offer_ids_in ts_comp (loc_of ts_comp 0) "i" (TIComp (TISimple "E1") TINone)) as (t & O & E).
    + vm_compute. auto.
    + left. vm_compute. auto.
    + exists t. split; [unfold loc_of; apply nth_In; vm_compute; auto 6|]. split; [exact O|]. rewrite E. vm_compute. reflexivity.
Qed.

(** C35 as stated is false: a quotient offers transitions in which only the divisor moves,
    and extracting the leaves of their identifiers aborts. *)
Theorem C35_abort_refuted : exists dim s loc a t,
  built dim s /\ In loc (all_locations dim s) /\ offered dim s loc a t /\ get_leaves (t_id t) = Panic.
Proof.
  destruct (offer_ids_in ts_quot (loc_of ts_quot 3) "o" (TIQuot [] [TISimple "E2"])) as (t & O & E).
  - vm_compute. auto.
  - vm_compute. auto.
  - exists ex_dim, ts_quot, (loc_of ts_quot 3), "o", t. split; [exact built_quot|]. split; [unfold loc_of; apply nth_In; vm_compute; auto 10|].
    split; [exact O|]. rewrite E. vm_compute. reflexivity.
Qed.
Print Assumptions C35_abort_refuted.

(** A third component, with an action of its own. *)
Definition comp_r : component :=
  mkComp "R" (mkDecls [("z", 3%nat)] []) [mkL "R0" None Initial "NORMAL"] [mkE "E5" "R0" "R0" SOutput None None "r"] None.
Definition ts_r := TSimple (get no_cc (compile_component ex_dim comp_r 3)).
Definition ts_three := get ts_m (composition_new ts_comp ts_r).
Lemma built_three : built ex_dim ts_three.
Proof.
  eapply (b_comp ex_dim ts_comp ts_r); [exact built_comp| |vm_compute; reflexivity].
  apply (b_simple ex_dim comp_r [] ["r"] 3). vm_compute. reflexivity.
Qed.

(** C35 as stated is false: when a composed part stays put, its components are left out,
    so the edge of the third component is reported as the second component's. *)
Theorem C35_misaligned_refuted : exists dim s loc a t,
  built dim s /\ ncomp s = 3%nat /\ In loc (all_locations dim s) /\ offered dim s loc a t /\
  get_leaves (t_id t) = Ok [[TINone]; [TISimple "E5"]].
Proof.
  destruct (offer_ids_in ts_three (loc_of ts_three 0) "r" (TIComp TINone (TISimple "E5"))) as (t & O & E).
  - vm_compute. auto.
  - vm_compute. auto.
  - exists ex_dim, ts_three, (loc_of ts_three 0), "r", t. split; [exact built_three|]. split; [reflexivity|]. split; [unfold loc_of; apply nth_In; vm_compute; auto 10|].
    split; [exact O|]. rewrite E. vm_compute. reflexivity.
Qed.
Print Assumptions C35_misaligned_refuted.
