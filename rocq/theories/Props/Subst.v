(** C64: created components inside larger expressions; C65: the order and grouping of operands inside larger expressions. *)
From Coq Require Import List String ZArith QArith Bool Arith Lia Lqa Permutation.
From Verif Require Import Fed.Zone Fed.ZoneFacts Fed.Check Model.Base Model.Expr Model.Guard Model.Loc Model.Component Model.TS Model.ParseQuery Model.Files Model.Recipe Model.Reduce Model.Search Model.PairList Model.Refine Model.Save Model.Query Model.Exec
  Spec.BoundSpec Spec.StepSpec Spec.SystemSpec Spec.RunSpec Spec.ReachSpec Spec.RefineSpec Spec.EnableSpec Spec.RecipeSpec Spec.ReduceSpec Spec.SameSpec Spec.IdSpec Spec.SaveSpec Spec.ExecSpec Spec.LawSpec Spec.PlaceSpec Spec.StandSpec Spec.SubstSpec
  Proofs.GuardFacts Proofs.RunFacts Proofs.RecipeFacts Proofs.LawFacts Proofs.LawMore Proofs.LawQuot Proofs.PlaceFacts Proofs.AcrossFacts Proofs.StandFacts Proofs.SubstFacts Proofs.SubstMore
  Props.Examples Props.Determinism Props.Reachability Props.Refinement Props.Recipes Props.Saving Props.Exec Props.Laws Props.Place Props.Stand.
Import ListNotations.
Local Open Scope string_scope.
Local Open Scope list_scope.
Local Open Scope nat_scope.

(** *** C64 *)
(** Systems that cannot be told apart cannot be told apart as parts of a conjunction, a composition or a quotient. *)
Theorem C64_conjunction : forall d A B s d' A' B' s', LawSpec.good d A -> LawSpec.good d B -> LawSpec.good d' A' -> LawSpec.good d' B' -> separate A B -> separate A' B' ->
  bisimilar d A d' A' -> bisimilar d B d' B' -> conjunction_new A B = Ok s -> conjunction_new A' B' = Ok s' -> bisimilar d s d' s'.
Proof. intros. eapply (conj_bisimilar d d' A B A' B'); eauto. Qed.
Print Assumptions C64_conjunction.
Theorem C64_composition : forall d A B s d' A' B' s', LawSpec.good d A -> LawSpec.good d B -> LawSpec.good d' A' -> LawSpec.good d' B' -> separate A B -> separate A' B' ->
  bisimilar d A d' A' -> bisimilar d B d' B' -> composition_new A B = Ok s -> composition_new A' B' = Ok s' -> bisimilar d s d' s'.
Proof. intros. eapply (comp_bisimilar d d' A B A' B'); eauto. Qed.
Print Assumptions C64_composition.
Theorem C64_quotient : forall d T S q s d' T' S' q' s', LawSpec.good d T -> LawSpec.good d S -> LawSpec.good d s -> LawSpec.good d' T' -> LawSpec.good d' S' -> LawSpec.good d' s' -> separate T S -> separate T' S' ->
  bisimilar d T d' T' -> bisimilar d S d' S' -> quotient_new T S q = Ok s -> quotient_new T' S' q' = Ok s' -> bisimilar d s d' s'.
Proof. intros. eapply (quot_bisimilar d d' T S T' S' q q'); eauto. Qed.
Print Assumptions C64_quotient.
(** They refine the same systems, and are refined by the same systems. *)
Theorem C64_refines : forall d s t d' s' t', bisimilar d s d' s' -> bisimilar d t d' t' -> (refines d s t <-> refines d' s' t').
Proof. intros. apply alike_refines; apply bisimilar_alike; assumption. Qed.
Print Assumptions C64_refines.
(** Expressions that name such systems alone can be exchanged inside every expression. *)
Theorem C64_inside : forall load m e e' f d s d' s' d1 s1 d2 s2, loadable load -> names_one load e d s -> names_one load e' d' s' -> bisimilar d s d' s' ->
  quotients_apart (put m e f) = true -> quotients_apart (put m e' f) = true ->
  names_one load (put m e f) d1 s1 -> names_one load (put m e' f) d2 s2 -> bisimilar d1 s1 d2 s2.
Proof.
  intros load m e e' f d s d' s' d1 s1 d2 s2 L N N' B Q Q' N1 N2. apply (placed_put load m e e' f L); [|exact Q|exact Q'|apply names_one_placed; assumption|apply names_one_placed; assumption].
  intros x1 y1 x2 y2 P1 P2. eapply bisimilar_trans; [apply same_bisimilar, (placed_same load e x1 y1 d s L P1), names_one_placed; assumption|]. eapply bisimilar_trans; [exact B|].
  apply same_bisimilar, (placed_same load e' d' s' x2 y2 L); [apply names_one_placed; assumption|exact P2].
Qed.
Print Assumptions C64_inside.

(** A created component can be used inside every expression for the expression it was made of. *)
Lemma put_self m f : put m (XComp m None) f = f.
Proof. induction f as [n [i|]|a IHa b IHb|a IHa b IHb|a IHa b IHb]; cbn [put]; try congruence. destruct (String.eqb_spec n m); congruence. Qed.
Lemma created_put ch reduce load e m d s c f d1 s1 d2 s2 : loadable load -> created ch reduce load e m d s c -> quotients_apart (put m e f) = true -> quotients_apart f = true ->
  placed (storing m c load) (put m e f) d1 s1 -> placed (storing m c load) f d2 s2 -> bisimilar d1 s1 d2 s2.
Proof.
  intros L Cr Q Q' P1 P2. rewrite <- (put_self m f) in P2, Q'. pose proof (C63_loadable ch reduce load e m d s c L Cr) as L'.
  eapply (placed_put (storing m c load) m e (XComp m None) f L'); eauto. intros x1 y1 x2 y2 X1 X2. eapply (created_bisimilar ch reduce load e m d s c); eauto.
Qed.
Theorem C64_created : forall ch reduce load e m d s c f d1 s1 d2 s2, loadable load -> created ch reduce load e m d s c -> quotients_apart (put m e f) = true -> quotients_apart f = true ->
  names_one (storing m c load) (put m e f) d1 s1 -> names_one (storing m c load) f d2 s2 -> bisimilar d1 s1 d2 s2.
Proof.
  intros ch reduce load e m d s c f d1 s1 d2 s2 L Cr Q Q' N1 N2. pose proof (C63_loadable ch reduce load e m d s c L Cr) as L'. apply (created_put ch reduce load e m d s c f); auto; apply names_one_placed; assumption.
Qed.
Print Assumptions C64_created.
(** Both sides of a refinement may contain it. *)
Theorem C64_created_refines : forall ch reduce load e m d s c f g d1 s1 t1 d2 s2 t2, loadable load -> created ch reduce load e m d s c ->
  quotients_apart (put m e f) = true -> quotients_apart f = true -> quotients_apart (put m e g) = true -> quotients_apart g = true ->
  names_two (storing m c load) (put m e f) (put m e g) d1 s1 t1 -> names_two (storing m c load) f g d2 s2 t2 -> (refines d2 s2 t2 <-> refines d1 s1 t1).
Proof.
  intros ch reduce load e m d s c f g d1 s1 t1 d2 s2 t2 L Cr Q1 Q2 Q3 Q4 N1 N2. pose proof (C63_loadable ch reduce load e m d s c L Cr) as L'.
  destruct (beside_placed _ _ _ _ _ _ (names_two_beside _ _ _ _ _ _ L' N1)) as [P1 R1]. destruct (beside_placed _ _ _ _ _ _ (names_two_beside _ _ _ _ _ _ L' N2)) as [P2 R2].
  symmetry. apply C64_refines; [apply (created_put ch reduce load e m d s c f)|apply (created_put ch reduce load e m d s c g)]; assumption.
Qed.
Print Assumptions C64_created_refines.
Theorem C64_created_answers : forall ch reduce load e m d s c f g ch1 r1 ch2 r2 d1 s1 t1 d2 s2 t2, loadable load -> created ch reduce load e m d s c ->
  quotients_apart (put m e f) = true -> quotients_apart f = true -> quotients_apart (put m e g) = true -> quotients_apart g = true ->
  (trusted_yes ch1 r1 (storing m c load) (put m e f) (put m e g) d1 s1 t1 -> trusted_no ch2 r2 (storing m c load) f g d2 s2 t2 ->
     yes ch1 r1 (storing m c load) (put m e f) (put m e g) -> ~ no ch2 r2 (storing m c load) f g) /\
  (trusted_yes ch2 r2 (storing m c load) f g d2 s2 t2 -> trusted_no ch1 r1 (storing m c load) (put m e f) (put m e g) d1 s1 t1 ->
     yes ch2 r2 (storing m c load) f g -> ~ no ch1 r1 (storing m c load) (put m e f) (put m e g)).
Proof.
  intros ch reduce load e m d s c f g ch1 r1 ch2 r2 d1 s1 t1 d2 s2 t2 L Cr Q1 Q2 Q3 Q4. pose proof (C63_loadable ch reduce load e m d s c L Cr) as L'. split; intros T1 T2 Y; apply (no_right _ _ _ _ _ _ _ _ L' T2).
  - apply (C64_created_refines ch reduce load e m d s c f g d1 s1 t1 d2 s2 t2 L Cr Q1 Q2 Q3 Q4 (ty_names _ _ _ _ _ _ _ _ T1) (tn_names _ _ _ _ _ _ _ _ T2)). eapply yes_right; eauto.
  - apply (C64_created_refines ch reduce load e m d s c f g d1 s1 t1 d2 s2 t2 L Cr Q1 Q2 Q3 Q4 (tn_names _ _ _ _ _ _ _ _ T2) (ty_names _ _ _ _ _ _ _ _ T1)). eapply yes_right; eauto.
Qed.
Print Assumptions C64_created_answers.

(** *** C65 *)
Theorem C65_bisimilar : forall load e f d s d' s', loadable load -> rearranged load e f -> quotients_apart e = true -> names_one load e d s -> names_one load f d' s' -> bisimilar d s d' s'.
Proof. intros load e f d s d' s' L R Q N N'. eapply placed_rearranged; eauto; apply names_one_placed; assumption. Qed.
Print Assumptions C65_bisimilar.
Theorem C65_refines : forall load e f e' f' d1 s1 t1 d2 s2 t2, loadable load -> rearranged load e e' -> rearranged load f f' -> quotients_apart e = true -> quotients_apart f = true ->
  names_two load e f d1 s1 t1 -> names_two load e' f' d2 s2 t2 -> (refines d2 s2 t2 <-> refines d1 s1 t1).
Proof.
  intros load e f e' f' d1 s1 t1 d2 s2 t2 L R1 R2 Q1 Q2 N1 N2. destruct (beside_placed _ _ _ _ _ _ (names_two_beside _ _ _ _ _ _ L N1)) as [P1 S1]. destruct (beside_placed _ _ _ _ _ _ (names_two_beside _ _ _ _ _ _ L N2)) as [P2 S2].
  symmetry. apply C64_refines; [apply (placed_rearranged load L e e')|apply (placed_rearranged load L f f')]; assumption.
Qed.
Print Assumptions C65_refines.
Theorem C65_answers : forall load e f e' f' ch1 r1 ch2 r2 d1 s1 t1 d2 s2 t2, loadable load -> rearranged load e e' -> rearranged load f f' -> quotients_apart e = true -> quotients_apart f = true ->
  trusted_yes ch1 r1 load e f d1 s1 t1 -> trusted_no ch2 r2 load e' f' d2 s2 t2 -> yes ch1 r1 load e f -> ~ no ch2 r2 load e' f'.
Proof.
  intros load e f e' f' ch1 r1 ch2 r2 d1 s1 t1 d2 s2 t2 L R1 R2 Q1 Q2 T1 T2 Y. apply (no_right _ _ _ _ _ _ _ _ L T2).
  apply (C65_refines load e f e' f' d1 s1 t1 d2 s2 t2 L R1 R2 Q1 Q2 (ty_names _ _ _ _ _ _ _ _ T1) (tn_names _ _ _ _ _ _ _ _ T2)). eapply yes_right; eauto.
Qed.
Print Assumptions C65_answers.

(** ** Examples *)
(** M was made of A && B: (A && B) || C and M || C, and T \\ (A && B) and T \\ M. *)
Definition mc : sysx := XPar (nm "M") (nm "C").
Definition ad : sysx := XPar (nm "A") (nm "D").
Definition tm : sysx := XQuot (nm "T") (nm "M").
Lemma one_ok load e r q dim s : get_system_recipe load e (0, None) = Ok (r, (dim, q)) -> compile unchecked unchecked dim r = Ok s -> names_one load e (dim + 1) s.
Proof. intros E C. exists r, dim, q. auto. Qed.
Definition recipe_of (e : sysx) : recipe := get (RSimple (replying "A" 2 5)) (rmap fst (get_system_recipe made_load e (0, None))).
Definition mc_r := Eval vm_compute in recipe_of mc.
Definition abc_r := Eval vm_compute in recipe_of (put "M" ab mc).
Definition tm_r := Eval vm_compute in recipe_of tm.
Definition tab_r := Eval vm_compute in recipe_of (put "M" ab tm).
Definition mc_s := Eval vm_compute in get ts_m (compile unchecked unchecked 3 mc_r).
Definition abc_s := Eval vm_compute in get ts_m (compile unchecked unchecked 3 abc_r).
Definition tm_s := Eval vm_compute in get ts_m (compile unchecked unchecked 4 tm_r).
Definition tab_s := Eval vm_compute in get ts_m (compile unchecked unchecked 4 tab_r).
Example C64_nonvacuous : names_one made_load (put "M" ab mc) 4 abc_s /\ names_one made_load mc 4 mc_s /\ quotients_apart (put "M" ab mc) = true /\ quotients_apart mc = true /\ bisimilar 4 abc_s 4 mc_s /\
  names_one made_load (put "M" ab tm) 5 tab_s /\ names_one made_load tm 5 tm_s /\ quotients_apart (put "M" ab tm) = true /\ quotients_apart tm = true /\ bisimilar 5 tab_s 5 tm_s /\ abc_s <> mc_s /\ tab_s <> tm_s.
Proof.
  destruct C63_nonvacuous as (L & Cr & _).
  assert (N1 : names_one made_load (put "M" ab mc) 4 abc_s) by (apply (one_ok made_load (put "M" ab mc) abc_r None 3 abc_s); vm_compute; reflexivity). assert (N2 : names_one made_load mc 4 mc_s) by (apply (one_ok made_load mc mc_r None 3 mc_s); vm_compute; reflexivity).
  assert (N3 : names_one made_load (put "M" ab tm) 5 tab_s) by (apply (one_ok made_load (put "M" ab tm) tab_r (Some 4) 4 tab_s); vm_compute; reflexivity). assert (N4 : names_one made_load tm 5 tm_s) by (apply (one_ok made_load tm tm_r (Some 4) 4 tm_s); vm_compute; reflexivity).
  do 4 (split; [assumption || reflexivity|]). split; [apply (C64_created _ _ _ _ _ _ _ _ mc _ _ _ _ L Cr); first [reflexivity|assumption]|].
  do 4 (split; [assumption || reflexivity|]). split; [apply (C64_created _ _ _ _ _ _ _ _ tm _ _ _ _ L Cr); first [reflexivity|assumption]|]. split; vm_compute; discriminate.
Qed.
(** (A && B) && X <= G and M && X <= G are both answered with "satisfied". *)
Definition mx : sysx := XConj (nm "M") (nm "X").
Definition mxg := Eval vm_compute in made_two mx (nm "G").
Definition abxg := Eval vm_compute in made_two (put "M" ab mx) (nm "G").
Example C64_answers_nonvacuous : trusted_yes (plain_choices 30) false made_load (put "M" ab mx) (put "M" ab (nm "G")) 5 (one_s abxg) (one_t abxg) /\ trusted_no (plain_choices 30) false made_load mx (nm "G") 5 (one_s mxg) (one_t mxg) /\
  trusted_yes (plain_choices 30) false made_load mx (nm "G") 5 (one_s mxg) (one_t mxg) /\ trusted_no (plain_choices 30) false made_load (put "M" ab mx) (put "M" ab (nm "G")) 5 (one_s abxg) (one_t abxg) /\
  yes (plain_choices 30) false made_load (put "M" ab mx) (put "M" ab (nm "G")) /\ yes (plain_choices 30) false made_load mx (nm "G") /\ quotients_apart (put "M" ab mx) && quotients_apart mx = true.
Proof.
  split; [apply yes_ok; first [exact made_loadable|two_ok|vm_compute; auto]|]. split; [apply no_ok; first [exact made_loadable|two_ok]|].
  split; [apply yes_ok; first [exact made_loadable|two_ok|vm_compute; auto]|]. split; [apply no_ok; first [exact made_loadable|two_ok]|].
  split; [apply told_yes; vm_compute; reflexivity|]. split; [apply told_yes; vm_compute; reflexivity|reflexivity].
Qed.
(** (A && B) && X <= G and (X && B) && A <= G. *)
Definition xba : sysx := XConj (XConj (nm "X") (nm "B")) (nm "A").
Definition xbag := Eval vm_compute in made_two xba (nm "G").
Example C65_nonvacuous : rearranged made_load (put "M" ab mx) xba /\ quotients_apart (put "M" ab mx) = true /\
  trusted_yes (plain_choices 30) false made_load (put "M" ab mx) (nm "G") 5 (one_s abxg) (one_t abxg) /\ trusted_no (plain_choices 30) false made_load xba (nm "G") 5 (one_s xbag) (one_t xbag) /\
  yes (plain_choices 30) false made_load (put "M" ab mx) (nm "G") /\ yes (plain_choices 30) false made_load xba (nm "G").
Proof.
  split; [|split; [reflexivity|]].
  - eapply ra_trans; [apply ra_conj_order| |eapply ra_trans; [apply ra_conj; [apply ra_refl|apply ra_conj_order]| |apply ra_sym, ra_conj_group]]; do 2 eexists.
    + eapply (one_ok made_load (XConj (nm "X") ab) (recipe_of (XConj (nm "X") ab)) None 3); vm_compute; reflexivity.
    + eapply (one_ok made_load (XConj (nm "X") (XConj (nm "B") (nm "A"))) (recipe_of (XConj (nm "X") (XConj (nm "B") (nm "A")))) None 3); vm_compute; reflexivity.
  - split; [apply yes_ok; first [exact made_loadable|two_ok|vm_compute; auto]|]. split; [apply no_ok; first [exact made_loadable|two_ok]|].
    split; apply told_yes; vm_compute; reflexivity.
Qed.
