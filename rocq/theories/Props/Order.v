(** C70: the path a reachability query reports does not depend on the order in which the actions are listed. *)
From Coq Require Import List String ZArith Bool Arith Sorted.
From Verif Require Import Fed.Zone Model.Base Model.Expr Model.Guard Model.Loc Model.Component Model.TS Model.Search Spec.OrderSpec
  Proofs.GuardFacts Proofs.SystemFacts Proofs.OrderFacts Props.Examples Props.Determinism Props.Reachability.
Import ListNotations.
Local Open Scope string_scope.

(** Whatever order the hash set of actions has in two runs, both give the same answer, down to every step of the path. *)
Theorem C70_same_path : forall dim acts acts' fuel s xext start target, listing s acts -> listing s acts' ->
  find_listed dim acts fuel s xext start target = find_listed dim acts' fuel s xext start target.
Proof.
  intros dim acts acts' fuel s xext start target [D M] [D' M']. unfold find_listed. rewrite (sort_same acts acts' D D'); [reflexivity|]. intros a. rewrite M, M'. reflexivity.
Qed.
Print Assumptions C70_same_path.
(** What is said of paths elsewhere is said of all these runs: they are what [find_path] gives, if the sets of actions hold every action once. *)
Theorem C70_every_listing : forall dim acts fuel s xext start target, NoDup (ts_inputs s) -> NoDup (ts_outputs s) -> listing s acts ->
  find_listed dim acts fuel s xext start target = find_path dim fuel s xext start target.
Proof.
  intros dim acts fuel s xext start target Di Do L. apply C70_same_path; [exact L|]. unfold ts_actions, sunion. split.
  - assert (X : forall (a b : list string), NoDup a -> NoDup b -> (forall x, In x a -> ~ In x b) -> NoDup (a ++ b)).
    { induction a as [|x a IH]; intros b Ha Hb H; [exact Hb|]. inversion Ha; subst. cbn. constructor; [|apply IH; [assumption|assumption|intros y Hy; apply H; right; exact Hy]].
      intros Hx. apply in_app_iff in Hx. destruct Hx as [Hx|Hx]; [contradiction|]. exact (H x (or_introl eq_refl) Hx). }
    apply X; [exact Di|apply NoDup_filter; exact Do|]. intros x Hx Hf. apply filter_In in Hf. destruct Hf as [_ Hf]. apply negb_true_iff in Hf. rewrite (proj2 (sin_In x _) Hx) in Hf. discriminate Hf.
  - intros a. rewrite in_app_iff, filter_In. split; [tauto|]. intros [H|H]; [auto|]. destruct (sin a (ts_inputs s)) eqn:E; [left; apply sin_In; exact E|right; auto].
Qed.
Print Assumptions C70_every_listing.
(** The actions are tried in alphabetical order. *)
Theorem C70_alphabetical : forall dim acts acts' fuel s xext start target, listing s acts -> listing s acts' -> alphabetical acts' ->
  find_listed dim acts fuel s xext start target =
  if trivially_unreachable dim start target then Ok None
  else let start := mkS (s_loc start) (apply_inv dim (s_loc start) (s_zone start)) in
       search_loop dim fuel s xext acts' start target [PStart start] [(lt_id (s_loc start), [s_zone start])].
Proof.
  intros dim acts acts' fuel s xext start target L L' A. rewrite (C70_same_path dim acts acts' fuel s xext start target L L'). unfold find_listed. rewrite (sort_sorted acts' A). reflexivity.
Qed.
Print Assumptions C70_alphabetical.

(** Two actions lead from O0 to O1.  Listed as b, a and searched in that order, the path would be b; the path reported is a, however they are listed. *)
Definition comp_o : component :=
  mkComp "O" (mkDecls [("x", 1%nat)] []) [mkL "O0" None Initial "NORMAL"; mkL "O1" None Normal "NORMAL"]
    [mkE "E0" "O0" "O1" SOutput None None "b"; mkE "E1" "O0" "O1" SOutput None None "a"] None.
Definition cc_o := get no_cc (compile_component 2 comp_o 1).
Definition ts_o := TSimple cc_o.
Definition o_start : state := Eval vm_compute in match initial_state 2 ts_o with Some st => st | None => mkS lt_any fnone end.
Definition o_target : state := mkS (nth 1 (cc_locs cc_o) lt_any) funiv.
Definition path_of (r : res (option (list decision))) : list string := match r with Ok (Some p) => map d_action p | _ => [] end.
Example C70_nonvacuous : listing ts_o ["b"; "a"] /\ listing ts_o ["a"; "b"] /\ alphabetical ["a"; "b"] /\ NoDup (ts_inputs ts_o) /\ NoDup (ts_outputs ts_o) /\
  path_of (find_listed 2 ["b"; "a"] 5 ts_o id_ext o_start o_target) = ["a"] /\
  path_of (search_loop 2 5 ts_o id_ext ["b"; "a"] o_start o_target [PStart o_start] []) = ["b"].
Proof.
  assert (E : ts_inputs ts_o = [] /\ (ts_outputs ts_o = ["b"; "a"] \/ ts_outputs ts_o = ["a"; "b"])) by (split; [vm_compute; reflexivity|vm_compute; (left; reflexivity) || (right; reflexivity)]). destruct E as [Ei Eo].
  assert (D : forall a b : string, a <> b -> NoDup [a; b]) by (intros a b N; constructor; [intros [H|[]]; congruence|constructor; [intros []|constructor]]).
  split; [|split; [|split; [|split; [|split; [|split; vm_compute; reflexivity]]]]].
  - split; [apply D; discriminate|]. intros a. rewrite Ei. destruct Eo as [-> | ->]; cbn; tauto.
  - split; [apply D; discriminate|]. intros a. rewrite Ei. destruct Eo as [-> | ->]; cbn; tauto.
  - repeat constructor.
  - rewrite Ei. constructor.
  - destruct Eo as [-> | ->]; apply D; discriminate.
Qed.
