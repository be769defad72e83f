(** Which bounds the zones of states and pairs are extrapolated with. *)
From Coq Require Import List String ZArith QArith Bool Arith.
From Verif Require Import Fed.Zone Fed.Dbm Model.Base Model.Expr Model.Guard Model.Loc Model.Component Model.TS.
Import ListNotations.

(** src/ModelObjects/state.rs:80-83 [State::extrapolate_max_bounds].  Where [get_local_max_bounds] panics, which it does for
    locations that are not of the system's form only, the result is the set of all valuations. *)
Definition max_ext (dim : nat) (s : ts) (l : loctree) (f : fed) : fed :=
  match local_bounds s l with Ok b => fextra dim b f | _ => funiv end.

(** src/ModelObjects/state.rs:85-93 [extrapolate_max_bounds_with_extra_bounds]. *)
Definition max_xext (dim : nat) (s : ts) (extra_bounds : bounds) (l : loctree) (f : fed) : fed :=
  match local_bounds s l with Ok b => fextra dim (bounds_join b extra_bounds) f | _ => funiv end.

(** edbm [Federation::get_bounds], called at src/System/reachability.rs:129 for the target zone: of each clock the greatest constant
    with which the closed zones bound it, from above or from below.  [edbm] is not part of /repo; that it computes this is trusted. *)
Definition clock_bound (m : dbm) (i : nat) : option Z :=
  omax (option_map snd (dget m i 0)) (option_map (fun b => (- snd b)%Z) (dget m 0 i)).
Definition zone_bounds (dim : nat) (z : zone) : bounds :=
  fun i => if Nat.ltb 0 i && Nat.ltb i dim then clock_bound (close dim (dbm_of dim z)) i else None.
Definition fed_bounds (dim : nat) (f : fed) : bounds := fold_right bounds_join bounds_new (map (zone_bounds dim) (fclean dim f)).

(** src/ModelObjects/statepair.rs:70-80 [StatePair::extrapolate_max_bounds]. *)
Definition max_pext (dim : nat) (s1 s2 : ts) (l1 l2 : loctree) (f : fed) : fed :=
  match local_bounds s1 l1, local_bounds s2 l2 with Ok b1, Ok b2 => fextra dim (bounds_join b1 b2) f | _, _ => funiv end.
