(** What the cache and the server promise, stated over histories of operations. *)
From Coq Require Import List String ZArith Bool Arith.
From Verif Require Import Fed.Zone Model.Base Model.Component Model.Server.
Import ListNotations.
Local Open Scope Z_scope.

(** Operations on a cache, newest first. *)
Inductive cop (M : Type) := OGet (user hash : Z) | OPut (user hash : Z) (m : M).
Arguments OGet {M}. Arguments OPut {M}.

Fixpoint after {M} (cap : nat) (hist : list (cop M)) : cache M :=
  match hist with
  | [] => []
  | OGet u h :: r => snd (get_model u h (after cap r))
  | OPut u h m :: r => insert_model cap u h m (after cap r)
  end.

Definition op_user {M} (o : cop M) : Z := match o with OGet u _ | OPut u _ _ => u end.

(** The user's most recent insertion (hash zero does not insert). *)
Fixpoint last_put {M} (u : Z) (hist : list (cop M)) : option (Z * M) :=
  match hist with
  | [] => None
  | OPut u' h m :: r => if Z.eqb u' u && negb (Z.eqb h 0) then Some (h, m) else last_put u r
  | OGet _ _ :: r => last_put u r
  end.

(** First occurrences only. *)
Fixpoint distinct (l : list Z) : list Z :=
  match l with
  | [] => []
  | u :: l' => u :: filter (fun x => negb (Z.eqb x u)) (distinct l')
  end.
Definition recent (cap : nat) (us : list Z) : list Z := firstn cap (distinct us).

(** The users in order of use, most recent use first.  Inserting counts as a use, and so
    does looking up something that is still cached; hash zero never counts. *)
Fixpoint uses {M} (cap : nat) (hist : list (cop M)) : list Z :=
  match hist with
  | [] => []
  | OPut u h _ :: r => if Z.eqb h 0 then uses cap r else u :: uses cap r
  | OGet u h :: r =>
      if negb (Z.eqb h 0) && existsb (Z.eqb u) (recent cap (uses cap r)) then u :: uses cap r else uses cap r
  end.

(** Requests that arrived. *)
Fixpoint arrivals {proto body : Type} (es : list (@event proto body)) : list request :=
  match es with
  | [] => []
  | Arrive r :: es' => r :: arrivals es'
  | Run _ :: es' => arrivals es'
  end.
Definition tokens_asked {proto body : Type} (rs : list (@request proto body)) : nat :=
  List.length (filter (fun r => match r with RToken => true | _ => false end) rs).

(** Clients use hashes as meant: one user's requests with the same non-zero hash carry the
    same components. *)
Definition honest {proto body : Type} (rs : list (@request proto body)) : Prop :=
  forall u h ps ps' b b', h <> 0 -> In (RModel u (Some (h, ps)) b) rs -> In (RModel u (Some (h, ps')) b') rs -> ps = ps'.

(** What a request is answered by a server that does nothing else. *)
Definition alone {proto body resp : Type} (build : list proto -> res cmap) (prepare : body -> res unit) (answer : body -> cmap -> res resp)
    (r : @request proto body) : option response :=
  match r with
  | RToken => None
  | RModel _ None _ => Some ToInternal
  | RModel _ (Some (_, ps)) b => catch_unwind (do _ <- prepare b; do m <- build ps; answer b m)
  end.

(** Where the components used for a request may come from: its own, or those of a request
    by the same user with the same non-zero hash. *)
Definition source {proto body : Type} (rs : list (@request proto body)) (u h : Z) (ps ps' : list proto) : Prop :=
  ps' = ps \/ (h <> 0 /\ exists b', In (RModel u (Some (h, ps')) b') rs).

(** The tokens handed out so far. *)
Definition token_of {proto body resp : Type} (t : @thread proto body resp) : list Z := match t with TDone _ (ToToken id) => [id] | _ => [] end.
Definition handed_out {proto body resp : Type} (s : @server proto body resp) : list Z := flat_map token_of (sv_threads s).

(** Asking for [k] tokens, one after the other. *)
Fixpoint ask {proto body : Type} (k : nat) : list (@event proto body) :=
  match k with O => [] | S k' => ask k' ++ [Arrive RToken; Run k'] end.
