(** C56: the components that queries produce can be drawn and saved. *)
From Coq Require Import List String ZArith QArith Bool Arith Lia.
From Verif Require Import Fed.Zone Fed.Check Model.Base Model.Expr Model.Guard Model.Loc Model.Component Model.ParseQuery Model.Enable Model.Files Model.TS Model.Recipe Model.Save Model.Reduce Model.Exec Model.Loader
  Spec.FileSpec Spec.LoaderSpec Proofs.GuardFacts Proofs.LoaderFacts Proofs.StoreFacts Props.Exec.
From Verif Require Model.Layout Spec.LayoutSpec Proofs.LayoutFacts.
Import ListNotations.
Local Open Scope string_scope.

(** Whatever query produces it: the edges are between its locations, so it can be drawn, and it is written into a JSON project (the
    program empties the file before it writes; it does not abort in between). *)
Theorem C56_saved : forall ch reduce load q c, run_query ch reduce load q = Ok (AComponent c) ->
  LayoutSpec.connected c /\ (forall cf px py root, exists d, Layout.layout cf px py root c = Ok d) /\
  forall j, exists f, encode_component c = Ok f /\ exists j', json_save j c = Ok j' /\ jp_files j' (c_name c) = Some f /\ forall n, n <> c_name c -> jp_files j' n = jp_files j n.
Proof.
  intros ch reduce load q c E. assert (S : storable c).
  { destruct q as [e f|e|e from to|e|e|e|e n|e n|e n]; cbn [run_query] in E; try discriminate E; apply bind_ok in E; destruct E as ([s dim] & _ & E).
    - apply bind_ok in E. destruct E as (x & _ & E). discriminate E.
    - apply bind_ok in E. destruct E as (x & _ & E). discriminate E.
    - destruct s as [[d s] start]. apply bind_ok in E. destruct E as (y & _ & E). discriminate E.
    - apply bind_ok in E. destruct E as (x & _ & E). discriminate E.
    - apply bind_ok in E. destruct E as (x & Ex & E). injection E as <-. exact (saved_storable _ _ _ _ _ _ _ _ Ex).
    - apply bind_ok in E. destruct E as (x & _ & E). apply bind_ok in E. destruct E as (y & Ey & E). injection E as <-. exact (saved_storable _ _ _ _ _ _ _ _ Ey). }
  split; [apply S|]. split.
  - intros cf px py root. unfold Layout.layout. rewrite (proj2 (LayoutFacts.connect_iff c) (proj2 S)). cbn [bind]. eauto.
  - intros j. destruct (proj1 (encode_iff c) S) as (f & Ef). exists f. split; [exact Ef|]. unfold json_save. rewrite Ef. eexists. split; [reflexivity|]. cbn [jp_files]. rewrite String.eqb_refl. split; [reflexivity|].
    intros n N. destruct (String.eqb_spec n (c_name c)); [contradiction|reflexivity].
Qed.
Print Assumptions C56_saved.
Example C56_saved_nonvacuous : exists c, run_query (plain_choices 30) true lk_load (QGetComponent (XComp "L" None) (Some "M")) = Ok (AComponent c) /\ List.length (c_edges c) = 3%nat.
Proof. eexists. split; vm_compute; reflexivity. Qed.
