(** The server as it is started by the command serve, with the handlers of its requests: decoding the components and the
    query of a request, answering the query, starting a simulation and taking a step in it.  Models
    src/ProtobufServer/ecdar_requests/{send_query,simulation_requests,request_util}.rs,
    src/DataReader/component_loader.rs 171-197, src/TransitionSystems/transition_system.rs 253-263 and
    src/ProtobufServer/{ecdar_backend,server}.rs.  Not modelled: prost's and tonic's encoding of messages, serde_json and
    elementtree (a JSON text is its record of fields, an XML text its tree), the texts of error statuses, the list of
    informations of a reply (always empty). *)
From Coq Require Import List String Ascii ZArith Bool Arith.
From Verif Require Import Fed.Zone Model.Base Model.Expr Model.Guard Model.Loc Model.Component Model.Enable Model.TS Model.ParseQuery Model.Peg Model.ParseEdge Model.Files
  Model.Xml Model.Server Model.Recipe Model.Loader Model.Sim Model.Wire Model.Exec Model.Failure.
Import ListNotations.

(** ecdar.proto [Component]: no representation, a JSON text or an XML text; [None] is a text that is not JSON or lacks
    fields of a component. *)
Inductive rep := NoRep | RepJson (f : option file_comp) | RepXml (root : elem).
(** component_loader.rs:172-183 [parse_components_if_some], 185-197 [parse_json_component], [parse_xml_components]; the
    declarations and queries of an XML text are dropped. *)
Definition decode_rep (p : rep) : res (list component) :=
  match p with
  | NoRep => Ok []
  | RepJson None => Err
  | RepJson (Some f) => do c <- decode_component f; Ok [c]
  | RepXml root => do (cs, _) <- parse_xml root; Ok cs
  end.

(** ecdar.proto [QueryRequest], [SimulationStartRequest], [SimulationStepRequest], without the user and the components. *)
Inductive message :=
| MQuery (id : Z) (query : text) (disable_clock_reduction : option bool)
| MStart (composition : text)
| MStep (composition : text) (chosen : option pdecision).
(** A message and the state of the random numbers that hash sets and maps are made with while it is handled.  ecdar_backend.rs:87-143. *)
Record call := mkCall { cl_seed : nat; cl_message : message }.
(** ecdar.proto [QueryResponse] with the JSON text of a component, [SimulationStepResponse]. *)
Inductive sent_back :=
| BReply (id : Z) (r : reply) (json : option file_comp)
| BPoint (p : presponse).

(** parse_queries.rs:222-231 [parse_to_query]; send_query.rs:76-86 [parse_query]. *)
Definition single_query (s : text) : res query :=
  do qs <- expect (parse_queries s);
  match qs with [q] => Ok q | _ => Err end.
(** What is done before the cache is asked: send_query.rs:36-38; nothing in a simulation. *)
Definition prepare (c : call) : res unit :=
  match cl_message c with MQuery _ s _ => do _ <- single_query s; Ok tt | _ => Ok tt end.

Section Handle.
Variable chs : nat -> choices.

(** send_query.rs:48, lib.rs:23-25 [DEFAULT_SETTINGS]. *)
Definition reduces (disable : option bool) : bool := negb (match disable with Some b => b | None => true end).
(** component_loader.rs:124-131 [ComponentContainer::get_component]. *)
Definition in_container (m : cmap) (n : string) : option component := match get_loaded m n with Ok c => Some c | _ => None end.
(** transition_system.rs:253-263 [component_loader_to_transition_system]; with the dimension of its zones. *)
Definition to_system (ch : choices) (m : cmap) (composition : text) : res (ts * nat) :=
  do e <- expect (parse_to_system_expr composition);
  do (r, st) <- get_system_recipe (in_container m) e (0, None);
  do s <- expect (compile (the_least ch) (the_pre ch) (fst st) r);
  Ok (s, fst st + 1).
(** The order in which the set of actions of a system is iterated.  decision.rs:63-78 [get_decisions_from_state]. *)
Definition acts_of (ch : choices) (s : ts) : list string := ch_ord ch (ts_actions s).

(** send_query.rs:48-69, simulation_requests.rs:23-40, 52-70, once the components are there. *)
Definition respond (c : call) (m : cmap) : res sent_back :=
  let ch := chs (cl_seed c) in
  match cl_message c with
  | MQuery id s disable =>
      do q <- single_query s;
      do r <- answer_query ch (reduces disable) (in_container m) q;
      do f <- match r with PComponent k => do f <- encode_component k; Ok (Some f) | _ => Ok None end;
      Ok (BReply id r f)
  | MStart e =>
      do (s, d) <- to_system ch m e;
      do p <- start_simulation d (ch_minc ch d) (ch_kord ch) (acts_of ch s) s;
      Ok (BPoint p)
  | MStep e chosen =>
      do (s, d) <- to_system ch m e;
      do k <- unwrap chosen;
      do p <- take_step d (ch_minc ch d) (ch_kord ch) (acts_of ch s) s k;
      Ok (BPoint p)
  end.

(** server.rs:8-41, ecdar_backend.rs:22-33, component_loader.rs:47-53 [ModelCache::new]: a cache of no entries aborts.  The server
    after what happened since it was started. *)
Definition serve (minc : nat -> fed -> fed) (cache_size : nat) (es : list (@event rep call)) : res (@server rep call sent_back) :=
  if Nat.eqb cache_size 0 then Panic else Ok (run_server minc decode_rep prepare respond cache_size es).
End Handle.
