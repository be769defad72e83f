(** The edges behind a transition identifier (TransitionSystems/transition_id.rs). *)
From Coq Require Import List String ZArith Bool Arith.
From Verif Require Import Fed.Zone Model.Base Model.Loc.
Import ListNotations.

Fixpoint push_at {A} (i : nat) (a : A) (l : list (list A)) : option (list (list A)) :=
  match i, l with
  | _, [] => None
  | O, x :: l' => Some ((x ++ [a]) :: l')
  | S i', x :: l' => option_map (cons x) (push_at i' a l')
  end.

(** transition_id.rs:33-62 [get_leaves_helper]; an index out of range panics. *)
Fixpoint leaves_helper (id : transid) (acc : list (list transid)) (index : nat) : res (list (list transid) * nat) :=
  match id with
  | TIConj l r | TIComp l r =>
      do (acc1, il) <- leaves_helper l acc index;
      leaves_helper r acc1 (S il)
  | TIQuot l r =>
      do (acc1, il) <-
        (fix go (ts : list transid) (acc : list (list transid)) (il : nat) :=
           match ts with
           | [] => Ok (acc, il)
           | t :: ts' => do (a, i) <- leaves_helper t acc index; go ts' a i
           end) l acc index;
      (fix go (ss : list transid) (acc : list (list transid)) (ir : nat) :=
         match ss with
         | [] => Ok (acc, ir)
         | s :: ss' => do (a, i) <- leaves_helper s acc (S il); go ss' a i
         end) r acc1 il
  | TISimple _ | TINone =>
      let acc := if Nat.leb (List.length acc) index then acc ++ [[]] else acc in
      do acc <- unwrap (push_at index id acc); Ok (acc, index)
  end.

(** transition_id.rs:27-31 [get_leaves]. *)
Definition get_leaves (id : transid) : res (list (list transid)) := rmap fst (leaves_helper id [] 0).

Definition is_none (id : transid) : bool := match id with TINone => true | _ => false end.

(** transition_id.rs:100-112: one identifier of the path. *)
Fixpoint push_leaves (amount total i : nat) (leaves : list (list transid)) (paths : list (list (list transid)))
    : res (list (list (list transid))) :=
  match leaves with
  | [] => Ok paths
  | t :: leaves' =>
      if negb (Nat.eqb total amount) then Err
      else
        do paths <- unwrap (push_at i (filter (fun id => negb (is_none id)) t) paths);
        push_leaves amount total (S i) leaves' paths
  end.
(** transition_id.rs:88-115 [split_into_component_lists]. *)
Definition split_paths (path : list transid) : res (list (list (list transid))) :=
  match path with
  | [] => Ok []
  | id0 :: _ =>
      do l0 <- get_leaves id0;
      (fix go (ids : list transid) (paths : list (list (list transid))) :=
         match ids with
         | [] => Ok paths
         | id :: ids' =>
             do l <- get_leaves id;
             do paths <- push_leaves (List.length l0) (List.length l) 0 l paths;
             go ids' paths
         end) path (repeat [] (List.length l0))
  end.
