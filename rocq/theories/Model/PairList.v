(** State pairs and the waiting and passed lists of the refinement check.  Models
    src/ModelObjects/statepair.rs and src/DataTypes/statepair_list.rs. *)
From Coq Require Import List String ZArith Bool Arith.
From Verif Require Import Fed.Zone Model.Base Model.Expr Model.Guard Model.Loc.
Import ListNotations.

(** statepair.rs:7-13 [StatePair]; the [Option] around the zone is only a borrow-checker device. *)
Record pair := mkP { p_l1 : loctree; p_l2 : loctree; p_zone : fed }.

(** statepair.rs:15-28 [from_locations]. *)
Definition pair_from_locations (dim : nat) (l1 l2 : loctree) : pair := mkP l1 l2 (finit dim).

(** Key of both hash maps: statepair_list.rs:9, 15. *)
Definition key := (locid * locid)%type.
Definition key_eqb (a b : key) : bool := locid_eqb (fst a) (fst b) && locid_eqb (snd a) (snd b).
Definition pair_key (p : pair) : key := (lt_id (p_l1 p), lt_id (p_l2 p)).

(** A hash map from keys: looking up and inserting.  statepair_list.rs:7-9. *)
Definition kmap (V : Type) := list (key * V).
Fixpoint kget {V} (k : key) (m : kmap V) : option V :=
  match m with [] => None | (k', v) :: m' => if key_eqb k k' then Some v else kget k m' end.
Definition kset {V} (k : key) (v : V) (m : kmap V) : kmap V := (k, v) :: filter (fun p => negb (key_eqb k (fst p))) m.

(** ** The passed list: statepair_list.rs:117-147 [PassedStateListFed] ([expensive_reduce]
    keeps the set of valuations). *)
Definition plist := kmap fed.
Definition passed_put (p : pair) (m : plist) : plist :=
  kset (pair_key p) (match kget (pair_key p) m with Some f => funion (p_zone p) f | None => p_zone p end) m.
Definition passed_has (dim : nat) (p : pair) (m : plist) : bool :=
  match kget (pair_key p) m with Some f => fsubset dim (p_zone p) f | None => false end.

(** statepair_list.rs:23-53 [PassedStateListVec]: the variant keeping the zones apart. *)
Definition vlist := kmap (list fed).
Definition vec_put (p : pair) (m : vlist) : vlist :=
  kset (pair_key p) (match kget (pair_key p) m with Some l => l ++ [p_zone p] | None => [p_zone p] end) m.
Definition vec_has (dim : nat) (p : pair) (m : vlist) : bool :=
  match kget (pair_key p) m with Some l => existsb (fsubset dim (p_zone p)) l | None => false end.

(** ** The waiting list: statepair_list.rs:12-15 [DepthFirstWaitingStateList]. *)
Record wlist := mkW { w_queue : list pair; w_map : kmap (list fed) }.
(** 91-96 [new].  statepair_list.rs:91-96. *)
Definition waiting_new : wlist := mkW [] [].
(** 55-66 [put].  statepair_list.rs:55-66. *)
Definition waiting_put (p : pair) (w : wlist) : wlist :=
  mkW (p :: w_queue w)
      (kset (pair_key p) (match kget (pair_key p) (w_map w) with Some l => p_zone p :: l | None => [p_zone p] end) (w_map w)).
(** 67-78 [has].  statepair_list.rs:67-78. *)
Definition waiting_has (dim : nat) (p : pair) (w : wlist) : bool :=
  match kget (pair_key p) (w_map w) with Some l => existsb (fsubset dim (p_zone p)) l | None => false end.
(** 98-107 [pop]: [vec.pop_front().unwrap()].  statepair_list.rs:98-107. *)
Definition waiting_pop (w : wlist) : res (option (pair * wlist)) :=
  match w_queue w with
  | [] => Ok None
  | p :: q =>
      match kget (pair_key p) (w_map w) with
      | None => Ok (Some (p, mkW q (w_map w)))
      | Some [] => Panic
      | Some (_ :: l) => Ok (Some (p, mkW q (kset (pair_key p) l (w_map w))))
      end
  end.
(** 109-111 [is_empty].  statepair_list.rs:109-111. *)
Definition waiting_is_empty (w : wlist) : bool := match w_queue w with [] => true | _ => false end.
