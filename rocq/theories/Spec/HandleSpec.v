(** What clients can rely on when they talk to the server. *)
From Coq Require Import List String Ascii ZArith QArith Bool Arith.
From Verif Require Import Fed.Zone Model.Base Model.Expr Model.Guard Model.Loc Model.Component Model.Enable Model.TS Model.ParseQuery Model.Peg Model.ParseEdge Model.Files Model.Xml Model.Server
  Model.Recipe Model.Reduce Model.Loader Model.Search Model.Sim Model.Wire Model.Exec Model.Failure Model.Handle
  Spec.StepSpec Spec.SystemSpec Spec.RunSpec Spec.RefineSpec Spec.RecipeSpec Spec.EnableSpec Spec.LoaderSpec Spec.ServerSpec Spec.SimSpec Spec.WireSpec Spec.ExecSpec.
Import ListNotations.

(** The components in the messages, in order; those that are not well-formed are left out. *)
Inductive decodes : list rep -> list component -> Prop :=
| dec_none : decodes [] []
| dec_skip p ps cs : decode_rep p = Err -> decodes ps cs -> decodes (p :: ps) cs
| dec_take p l ps cs : decode_rep p = Ok l -> decodes ps cs -> decodes (p :: ps) (l ++ cs).
(** [load] finds the components a client sent: under each name the last component of that name, accepting its inputs everywhere. *)
Definition as_sent (minc : nat -> fed -> fed) (ps : list rep) (load : string -> option component) : Prop :=
  exists cs, decodes ps cs /\
    forall n c, load n = Some c <-> exists c0, last_named n cs c0 /\ make_input_enabled (minc (comp_dim c0)) c0 (input_actions c0) = Ok c.
(** What is sent declares every clock once and assigns natural numbers, each clock one at most. *)
Definition sound_rep (p : rep) : Prop :=
  match p with
  | RepJson (Some f) => sound_file f
  | RepXml root => forall cs sp c, parse_xml root = Ok (cs, sp) -> In c cs -> clocks_numbered (c_decls c) /\ good_resets c /\ named_guards c
  | _ => True
  end.

(** The request of user [u] with the components [ps] under the hash [h] was answered with [x]. *)
Definition got (sv : @server rep call sent_back) (u h : Z) (ps : list rep) (c : call) (x : response) : Prop :=
  In (TDone (RModel u (Some (h, ps)) c) x) (sv_threads sv).

(** A simulation as a client sees it: it was answered when it started the simulation, and whenever it sent back one of the decisions it
    had been offered last.  The components are sent along every time. *)
Inductive dialogue (sv : @server rep call sent_back) (ps : list rep) (composition : text) : presponse -> Prop :=
| dl_start u h k r : got sv u h ps (mkCall k (MStart composition)) (ToOk (BPoint r)) -> dialogue sv ps composition r
| dl_step u h k r d r' : dialogue sv ps composition r -> In d (pr_decisions r) ->
    got sv u h ps (mkCall k (MStep composition (Some d))) (ToOk (BPoint r')) -> dialogue sv ps composition r'.

(** The response shows a state of the session and exactly the steps that are possible in it; every valuation it shows can be reached
    by the system. *)
Definition shows_session (d : nat) (s : ts) (r : presponse) : Prop :=
  exists p x st ds, pr_state r = Some p /\ read_state d s p = Ok x /\ same_state d x st /\ session d s st /\
    (forall y, In y ds -> decision_for d s st y) /\ decisions_complete d s st ds /\ answers d s ds (pr_decisions r) /\
    forall v, fsem d (s_zone x) v -> exists w, reachable d s (s_loc x) w /\ forall c, In c (sys_clocks s) -> (v c == w c)%Q.
(** The checks made on conjunctions and quotients let the expression through. *)
Definition puts_together (ch : choices) (load : string -> option component) (e : sysx) : Prop :=
  forall r st, get_system_recipe load e (0%nat, None) = Ok (r, st) -> exists s, compile (the_least ch) (the_pre ch) (fst st) r = Ok s.
