(** The model cache (DataReader/component_loader.rs), user tokens, and request handling
    under any interleaving (ProtobufServer/). *)
From Coq Require Import List String ZArith Bool Arith.
From Verif Require Import Fed.Zone Model.Base Model.Expr Model.Guard Model.Loc Model.Component Model.Enable.
Import ListNotations.
Local Open Scope Z_scope.

(** ** The least-recently-used cache of crate [lru]: entries, most recently used first. *)
Section Lru.
Context {V : Type}.
(** component_loader.rs:28: the lru crate, the entry used last first. *)
Definition lru := list (Z * V).
Definition lru_del (k : Z) (l : lru) : lru := filter (fun e => negb (Z.eqb (fst e) k)) l.
(** [LruCache::get]: a hit moves the entry to the front.  component_loader.rs:68. *)
Definition lru_get (k : Z) (l : lru) : option V * lru :=
  match find (fun e => Z.eqb (fst e) k) l with
  | Some e => (Some (snd e), e :: lru_del k l)
  | None => (None, l)
  end.
(** [LruCache::put]: replaces the value of a key, else drops the last entry when full.  component_loader.rs:98. *)
Definition lru_put (cap : nat) (k : Z) (v : V) (l : lru) : lru :=
  (k, v) ::
  match find (fun e => Z.eqb (fst e) k) l with
  | Some _ => lru_del k l
  | None => if Nat.eqb (List.length l) cap then removelast l else l
  end.
End Lru.
Arguments lru : clear implicits.

Section Cache.
(** What is cached: [Arc<ComponentsMap>]. *)
Context {M : Type}.
(** component_loader.rs:19-22 [ComponentTuple]. *)
Definition cache := lru (Z * M).

(** component_loader.rs:58-79 [get_model]: one critical section. *)
Definition get_model (user hash : Z) (c : cache) : option M * cache :=
  if Z.eqb hash 0 then (None, c)
  else
    let (o, c') := lru_get user c in
    (match o with Some (h, m) => if Z.eqb h hash then Some m else None | None => None end, c').

(** component_loader.rs:87-107 [insert_model]: one critical section. *)
Definition insert_model (cap : nat) (user hash : Z) (m : M) (c : cache) : cache :=
  if Z.eqb hash 0 then c else lru_put cap user (hash, m) c.
End Cache.
Arguments cache : clear implicits.

(** ** Tokens *)
(** Two's complement wrapping of an [i32].  ecdar_backend.rs:78-85: the counter of users. *)
Definition wrap32 (z : Z) : Z := (z + 2147483648) mod 4294967296 - 2147483648.
(** ecdar_backend.rs:81 [AtomicI32::fetch_add(1)]: the old value and the new counter. *)
Definition fetch_add (n : Z) : Z * Z := (n, wrap32 (n + 1)).

(** ** Building a model from a request  component_loader.rs:17 [ComponentsMap]. *)
Definition cmap := list (string * component).
(** [HashMap::insert].  component_loader.rs:159-169. *)
Definition map_insert (k : string) (c : component) (m : cmap) : cmap :=
  (k, c) :: filter (fun e => negb (String.eqb (fst e) k)) m.

Section Server.
Variable minc : nat -> fed -> fed.
(** A component as sent by a client, and what decoding it gives; [Err] is a decoding
    error, [Panic] a decoder that aborts.  component_loader.rs:171-197
    [parse_components_if_some]; the decoders themselves are in Model/Handle.v. *)
Context {proto : Type}.
Variable parse : proto -> res (list component).
(** The rest of a request: the query, or the composition and decision of a simulation. *)
Context {body resp : Type}.
(** What is checked before the cache is used: send_query.rs:76-86 [parse_query]. *)
Variable prepare : body -> res unit.
(** What is computed from the components: executing the query, or the simulation step. *)
Variable answer : body -> cmap -> res resp.
Variable cap : nat.

(** request_util.rs:24-29: [flat_map] over results drops the ones that fail to decode. *)
Fixpoint parsed (ps : list proto) : res (list component) :=
  match ps with
  | [] => Ok []
  | p :: ps' =>
      do cs <- match parse p with Err => Ok [] | r => r end;
      do cs' <- parsed ps';
      Ok (cs ++ cs')%list
  end.

(** request_util.rs:36-48 [constrtuct_componentsmap]. *)
Fixpoint build_map (cs : list component) (m : cmap) : res cmap :=
  match cs with
  | [] => Ok m
  | c :: cs' => do c' <- make_input_enabled (minc (comp_dim c)) c (input_actions c); build_map cs' (map_insert (c_name c') c' m)
  end.
Definition build (ps : list proto) : res cmap := do cs <- parsed ps; build_map cs [].

(** The requests of ecdar_backend.rs:77-143: a token, or a query, simulation start or
    simulation step, which all carry a user, perhaps the components with their hash, and a body. *)
Inductive request :=
| RToken
| RModel (user : Z) (info : option (Z * list proto)) (b : body).
Inductive response :=
| ToToken (id : Z)
| ToOk (r : resp)
| ToStatus      (* the handler returned a status *)
| ToInternal.   (* the handler panicked *)

(** ecdar_backend.rs:50-72 [catch_unwind]; [None]: not finished. *)
Definition catch_unwind (r : res resp) : option response :=
  match r with Ok x => Some (ToOk x) | Err => Some ToStatus | Panic => Some ToInternal | NoFuel => None end.

(** Where the handling of a request stands.  Between these points a handler touches no
    shared state, so every interleaving of handlers is an interleaving of these steps.  ecdar_backend.rs:77-143, request_util.rs. *)
Inductive thread :=
| TNew (r : request)
| TMissed (r : request) (user hash : Z) (ps : list proto) (b : body)  (* looked up, not found *)
| TReady (r : request) (b : body) (m : cmap)                          (* has its components *)
| TDone (r : request) (x : response).
(** ecdar_backend.rs:77-143. *)
Definition thread_request (t : thread) : request :=
  match t with TNew r | TMissed r _ _ _ _ | TReady r _ _ | TDone r _ => r end.

(** ecdar_backend.rs:50-72. *)
Definition finish (r : request) (t : thread) (o : option response) : thread :=
  match o with Some x => TDone r x | None => t end.

(** One step of a handler on the cache and the counter.  ecdar_backend.rs:77-143. *)
Definition handle (t : thread) (c : cache cmap) (n : Z) : thread * cache cmap * Z :=
  match t with
  | TNew RToken => let (id, n') := fetch_add n in (TDone RToken (ToToken id), c, n')
  | TNew (RModel u None b as r) => (TDone r ToInternal, c, n)  (* send_query.rs:37, request_util.rs:61: unwrap *)
  | TNew (RModel u (Some (h, ps)) b as r) =>
      match prepare b with
      | Ok _ =>
          let (o, c') := get_model u h c in
          (match o with Some m => TReady r b m | None => TMissed r u h ps b end, c', n)
      | Err => (TDone r ToStatus, c, n)
      | Panic => (TDone r ToInternal, c, n)
      | NoFuel => (t, c, n)
      end
  | TMissed r u h ps b =>
      match build ps with
      | Ok m => (TReady r b m, insert_model cap u h m c, n)
      | Err => (TDone r ToStatus, c, n)
      | Panic => (TDone r ToInternal, c, n)
      | NoFuel => (t, c, n)
      end
  | TReady r b m => (finish r t (catch_unwind (answer b m)), c, n)
  | TDone _ _ => (t, c, n)
  end.

Record server := mkServer { sv_cache : cache cmap; sv_num : Z; sv_threads : list thread }.
(** ecdar_backend.rs:24-33 [new]. *)
Definition server_new : server := mkServer [] 1 [].

Inductive event := Arrive (r : request) | Run (i : nat).
Fixpoint set_nth {A} (i : nat) (a : A) (l : list A) : list A :=
  match i, l with
  | _, [] => []
  | O, _ :: l' => a :: l'
  | S i', b :: l' => b :: set_nth i' a l'
  end.
Definition step (s : server) (e : event) : server :=
  match e with
  | Arrive r => mkServer (sv_cache s) (sv_num s) (sv_threads s ++ [TNew r])
  | Run i =>
      match nth_error (sv_threads s) i with
      | Some t => let '(t', c', n') := handle t (sv_cache s) (sv_num s) in mkServer c' n' (set_nth i t' (sv_threads s))
      | None => s
      end
  end.
Definition run_server (es : list event) : server := fold_left step es server_new.
End Server.
