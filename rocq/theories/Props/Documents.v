(** C66: XML documents as clients send them. *)
From Coq Require Import List String Ascii ZArith QArith Bool Arith Lia.
From Verif Require Import Fed.Zone Model.Base Model.Expr Model.Guard Model.Loc Model.Component Model.Peg Model.ParseEdge Model.Files Model.Xml Model.Server Model.Loader Model.Handle
  Spec.EnableSpec Spec.TextSpec Spec.FileSpec Spec.RecipeSpec Spec.XmlSpec Spec.LoaderSpec Spec.HandleSpec Proofs.GuardFacts Proofs.FileFacts Proofs.XmlFacts Proofs.LoaderFacts Props.Text Props.Xml.
Import ListNotations.
Local Open Scope string_scope.
Local Open Scope list_scope.
Local Open Scope nat_scope.

(** C66.  A document that declares every clock once and assigns natural numbers, each clock one at most, is one of those that the
    theorems about clients speak of. *)
Theorem C66_document : forall ts ns ls root, document ts ns ls root -> (forall t, In t ts -> template_ok t) -> (forall t, In t ts -> good_resets (t_comp t)) ->
  ns <> [] -> (forall n, In n ns -> word sep_comps n) -> (forall l, In l ls -> line_ok ns l) -> plain_spaces (system_text ns ls) ->
  sound_rep (RepXml root) /\ decode_rep (RepXml root) = Ok (map as_read ts).
Proof.
  intros ts ns ls root D Ok R Ne W H P. destruct (C51_document_partial ts ns ls root D Ok Ne W H P) as (sp & E & _). split.
  - intros cs sp' c E' Hc. rewrite E in E'. injection E' as <- <-. apply in_map_iff in Hc. destruct Hc as (t & <- & Ht). destruct (Ok t Ht) as [L N _ Lo Ed]. unfold as_read, in_xml. split; [|split].
    + cbn [c_decls]. apply (numbered_text (t_decls t) (decl_text (t_decls t)) _ eq_refl L N). rewrite (decl_reads _ L N). reflexivity.
    + intros e us He Eu. cbn [c_edges] in He. apply in_map_iff in He. destruct He as (e0 & <- & He). exact (R t Ht e0 us He Eu).
    + split; cbn [c_locs c_edges].
      * intros l g Hl Eg. apply in_map_iff in Hl. destruct Hl as (l0 & <- & Hl). cbn in Eg. apply legible_named. pose proof (Lo l0 Hl) as X. rewrite Eg in X. apply X.
      * intros e g He Eg. apply in_map_iff in He. destruct He as (e0 & <- & He). cbn in Eg. apply legible_named. pose proof (proj1 (Ed e0 He)) as X. rewrite Eg in X. apply X.
  - unfold decode_rep. rewrite E. reflexivity.
Qed.
Print Assumptions C66_document.
Example C66_document_nonvacuous : sound_rep (RepXml ex_root) /\ decode_rep (RepXml ex_root) = Ok [ex_machine; ex_idle].
Proof.
  destruct C51_nonvacuous as (D & T & W & L & P & _). destruct (C66_document ex_ts ["Machine"; "Idle"] ex_sys ex_root D T) as [A B].
  - intros t [<-|[<-|[]]] e us He Eu; cbn in He; [|destruct He]. destruct He as [<-|[<-|[]]]; cbn in Eu; try discriminate. injection Eu as <-. split.
    + intros x k [X|[]]. injection X as _ <-. lia.
    + intros x a b [X|[]] [Y|[]]. congruence.
  - discriminate.
  - exact W.
  - exact L.
  - exact P.
  - split; [exact A|]. rewrite B. reflexivity.
Qed.
