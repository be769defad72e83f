(** C29: clock numbering of the systems of a query. *)
From Coq Require Import List String ZArith QArith Bool Arith Lia Permutation.
From Verif Require Import Fed.Zone Model.Base Model.Expr Model.Guard Model.Loc Model.Component Model.TS Model.ParseQuery Model.Peg Model.Files Model.Recipe
  Spec.StepSpec Spec.SystemSpec Spec.RunSpec Spec.EnableSpec Spec.RecipeSpec Proofs.RecipeFacts Props.Examples.
Import ListNotations.
Local Open Scope string_scope.
Local Open Scope list_scope.
Local Open Scope nat_scope.

(** C29, one system.  Every component instance has a block of consecutive numbers; the numbers of all instances
    and the clock of the quotients, if any, are exactly 1..dim, each once; all quotients have the same clock. *)
Theorem C29_numbering : forall load e r dim q,
  (forall n c, load n = Some c -> clocks_numbered (c_decls c)) ->
  get_system_recipe load e (0, None) = Ok (r, (dim, q)) ->
  instance_of load e r /\ (forall c, In c (components r) -> block (numbers c)) /\
  Permutation (all_numbers r ++ opt_clock q) (seq 1 dim) /\
  (forall q', In q' (quotient_clocks r) -> q = Some q') /\ (quotient_clocks r = [] -> q = None).
Proof.
  intros load e r dim q L E. destruct (recipe_numbers load L e _ _ _ E) as (I & _ & B & P & _ & Q & N). cbn [fst snd new_q] in *.
  rewrite Nat.sub_0_r in P. auto 6.
Qed.
Print Assumptions C29_numbering.

(** C29, the two systems of a refinement: numbered one after the other. *)
Theorem C29_numbering_two : forall load e f l r n p dim q,
  (forall n c, load n = Some c -> clocks_numbered (c_decls c)) ->
  get_system_recipe load e (0, None) = Ok (l, (n, p)) -> get_system_recipe load f (n, p) = Ok (r, (dim, q)) ->
  instance_of load e l /\ instance_of load f r /\ (forall c, In c (components l ++ components r) -> block (numbers c)) /\
  Permutation (all_numbers l ++ all_numbers r ++ opt_clock q) (seq 1 dim) /\
  (forall q', In q' (quotient_clocks l ++ quotient_clocks r) -> q = Some q') /\
  (quotient_clocks l ++ quotient_clocks r = [] -> q = None).
Proof.
  intros load e f l r n p dim q L E F.
  destruct (recipe_numbers load L e _ _ _ E) as (I & _ & B & P & _ & Q & N). destruct (recipe_numbers load L f _ _ _ F) as (I' & Le & B' & P' & K' & Q' & N').
  cbn [fst snd new_q] in *. rewrite Nat.sub_0_r in P.
  split; [exact I|]. split; [exact I'|]. split; [intros c Hc; apply in_app_or in Hc; destruct Hc; auto|]. split; [|split].
  - replace dim with (n + (dim - n)) by lia. rewrite seq_app. cbn [Nat.add].
    rewrite <- P, <- P'. rewrite <- !app_assoc. apply Permutation_app_head.
    assert (X : Permutation (opt_clock p ++ new_q p q) (opt_clock q)).
    { destruct p as [p|]; cbn [opt_clock new_q app]; [rewrite K' by discriminate; reflexivity|reflexivity]. }
    rewrite <- X. rewrite !app_assoc. apply Permutation_app_tail. apply Permutation_app_comm.
  - intros q' Hq. apply in_app_or in Hq. destruct Hq as [Hq|Hq]; [|auto]. rewrite (Q _ Hq) in K'. apply K'. discriminate.
  - intros X. apply app_eq_nil in X. destruct X as [X Y]. apply N'; auto.
Qed.
Print Assumptions C29_numbering_two.

(** C29, compiled.  The compiled system has the numbered clocks, they lie below its dimension, components only
    assign and read their own clocks, and quotients only the shared one. *)
Theorem C29_compiled : forall least pre load e r dim q s,
  (forall n c, load n = Some c -> clocks_numbered (c_decls c) /\ good_resets c /\ named_guards c) ->
  get_system_recipe load e (0, None) = Ok (r, (dim, q)) -> compile least pre dim r = Ok s ->
  built (dim + 1) s /\ comp_clocks s = all_numbers r /\ clocks_ok (dim + 1) (match q with Some q => q | None => 0 end) s /\ reads_ok s.
Proof.
  intros least pre load e r dim q s L E C. destruct (C29_numbering load e r dim q (fun n c H => proj1 (L n c H)) E) as (I & B & P & Q & N).
  unfold compile in C. destruct (compile_at least pre (dim + 1) r 0) as [[s' k]| | |] eqn:Cs; try discriminate. injection C as ->.
  split; [eapply compile_built; exact Cs|]. split; [eapply compile_clocks; exact Cs|].
  assert (Nd : NoDup (all_numbers r ++ opt_clock q)) by (eapply Permutation_NoDup; [symmetry; exact P|apply seq_NoDup]).
  assert (R : forall i, In i (all_numbers r ++ opt_clock q) -> 1 <= i < dim + 1).
  { intros i Hi. apply (Permutation_in _ P) in Hi. apply in_seq in Hi. lia. }
  apply nodup_split in Nd. destruct Nd as (N1 & _ & N2).
  eapply system_good; [| | | |exact Cs].
  - intros c Hc. destruct (instance_component _ _ _ I _ Hc) as (n & c0 & Ln & Re). destruct (L _ _ Ln) as (_ & G & Na).
    split; [apply block_nodup; auto|]. split; [intros i Hi; apply R, in_or_app; left; eapply component_numbers; eauto|].
    split; [eapply good_resets_re; eauto|eapply named_guards_re; eauto].
  - exact N1.
  - intros H. destruct q as [q|]; [apply (N2 _ H); left; reflexivity|]. specialize (R 0 (in_or_app _ _ _ (or_introl H))). lia.
  - intros q' Hq. rewrite (Q _ Hq). split; [reflexivity|]. specialize (R q'). rewrite (Q _ Hq) in R. assert (1 <= q' < dim + 1) by (apply R, in_or_app; right; left; reflexivity). lia.
Qed.
Print Assumptions C29_compiled.

(** Non-vacuity: (M || N) \\ M, with the clocks of the components numbered 1, 2, 3 and the quotient clock 4. *)
Definition ex_load (n : string) : option component :=
  if String.eqb n "M" then Some (comp_m 1) else if String.eqb n "N" then Some (comp_n 1) else None.
Definition ex_query : sysx := XQuot (XPar (XComp "M" None) (XComp "N" None)) (XComp "M" (Some "2")).
Lemma ex_load_ok : forall n c, ex_load n = Some c -> clocks_numbered (c_decls c) /\ good_resets c /\ named_guards c.
Proof.
  intros n c. unfold ex_load. destruct (String.eqb n "M"); [intros [= <-]|destruct (String.eqb n "N"); [intros [= <-]|discriminate]].
  all: split; [split; [repeat constructor; cbn; tauto|split; [repeat constructor; cbn; tauto|intros x i [[= <- <-]|[]]; cbn; lia]]|].
  all: split; [intros e us [<-|[<-|[]]]; cbn; intros [= <-]; (split; [intros x k [[= <- <-]|[]]; lia|intros x a b [[= <- <-]|[]] [[= <-]|[]]; reflexivity])|].
  all: split; [intros l g [<-|[<-|[]]]; cbn; intros [= <-]; reflexivity|intros e g [<-|[<-|[]]]; cbn; intros [= <-]; reflexivity].
Qed.
Example C29_nonvacuous : exists r s, get_system_recipe ex_load ex_query (0, None) = Ok (r, (4, Some 4)) /\
  map numbers (components r) = [[1]; [2]; [3]] /\ quotient_clocks r = [4] /\
  compile (fun _ _ => Ok true) (fun _ _ => Ok true) 4 r = Ok s.
Proof. eexists _, _. repeat split; vm_compute; reflexivity. Qed.
(** The two sides of [M || N <= M \\ N]: 1, 2 and 3, 4, 5. *)
Example C29_two_nonvacuous : exists l r, get_system_recipe ex_load (XPar (XComp "M" None) (XComp "N" None)) (0, None) = Ok (l, (2, None)) /\
  get_system_recipe ex_load (XQuot (XComp "M" None) (XComp "N" None)) (2, None) = Ok (r, (5, Some 5)) /\
  map numbers (components l) = [[1]; [2]] /\ map numbers (components r) = [[3]; [4]] /\ quotient_clocks r = [5].
Proof. eexists _, _. repeat split; vm_compute; reflexivity. Qed.

(** The hypothesis on the clock tables is needed, and a file can break it: a clock declared twice takes two numbers
    but is counted once.  Then the last clock of a component is the first of the next one, and lies outside the
    dimension if there is no next one. *)
Theorem C29_repeated_refuted : exists d r r2 q q2,
  decode_declarations (txt "clock y, x, x;") = Ok d /\
  get_system_recipe (fun _ => Some (with_decls (comp_m 1) d)) (XComp "A" None) (0, None) = Ok (r, (2, q)) /\
  ~ (forall i, In i (all_numbers r) -> i < 2 + 1) /\
  get_system_recipe (fun _ => Some (with_decls (comp_m 1) d)) (XPar (XComp "A" None) (XComp "B" None)) (0, None) = Ok (r2, (4, q2)) /\
  (exists a b i, components r2 = [a; b] /\ In i (numbers a) /\ In i (numbers b)).
Proof.
  eexists _, _, _, _, _. split; [vm_compute; reflexivity|]. split; [vm_compute; reflexivity|]. split; [|split; [vm_compute; reflexivity|]].
  - intros H. specialize (H 3). cbn in H. lia.
  - exists (with_clocks (comp_m 1) [("y", 1); ("x", 3)]), (with_clocks (comp_m 1) [("y", 3); ("x", 5)]), 3. cbn. auto.
Qed.
Print Assumptions C29_repeated_refuted.
