(** What is said about created components that are used later: in another command, or sent back to the server. *)
From Coq Require Import List String ZArith QArith Bool Arith.
From Verif Require Import Fed.Zone Model.Base Model.Expr Model.Guard Model.Loc Model.Component Model.TS
  Spec.GuardSpec Spec.ConvSpec Spec.StepSpec Spec.EnableSpec Spec.SystemSpec Spec.RunSpec Spec.XmlSpec Spec.SaveSpec Spec.StandSpec.
Import ListNotations.

(** The component as a file says it: its clocks are numbered in the order of their declaration. *)
Definition as_in_file (c : component) : component :=
  mkComp (c_name c) (numbered (map fst (d_clocks (c_decls c)))) (c_locs c) (c_edges c) None.
(** The components that are found later are those there were, and the one that was created, as its file says it. *)
Definition found_later (load : string -> option component) (m : string) (c : component) (load' : string -> option component) : Prop :=
  forall n, load' n = storing m (as_in_file c) load n.
(** The component is made of supported parts (C20), and accepts these inputs already wherever it can be. *)
Record settled (ins : list string) (c : component) : Prop := {
  st_locs : NoDup (map l_id (c_locs c));
  st_plain : plain_component c;
  st_updates : sane_updates (S (List.length (d_clocks (c_decls c)))) c;
  st_supported : supported_component c;
  st_accepts : forall l a v, In l (c_locs c) -> In a ins -> val_ok (S (List.length (d_clocks (c_decls c)))) v -> osat (c_decls c) v (l_inv l) ->
    exists e, In e (c_edges c) /\ listens_any l a e /\ edge_enabled c e v }.
