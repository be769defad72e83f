(** Making components input-enabled.  Models src/System/input_enabler.rs. *)
From Coq Require Import List String ZArith Bool Arith.
From Verif Require Import Fed.Zone Model.Base Model.Expr Model.Guard Model.Loc Model.Component.
Import ListNotations.
Local Open Scope string_scope.

(** input_enabler.rs:8 [get_clock_count() + 1] (component.rs:193). *)
Definition comp_dim (c : component) : nat := S (List.length (d_clocks (c_decls c))).

(** bool_expression.rs:100-103: inverting the name map; of several names of one clock the
    hash map order decides, here the last. *)
Definition naming_of (cl : list (string * nat)) : naming :=
  fun i => option_map fst (find (fun p => Nat.eqb (snd p) i) (rev cl)).

Section Enable.
(** edbm [minimal_constraints]: some description of a federation. *)
Variable minc : fed -> fed.

(** input_enabler.rs:18-25 and 40-51: the set described by an invariant. *)
Definition inv_fed (dim : nat) (c : component) (l : location) : res fed :=
  match l_inv l with Some g => expect (apply_constraints dim g (c_decls c) funiv) | None => Ok funiv end.

(** input_enabler.rs:53-59: the updates backwards, each constrained and freed in turn. *)
Fixpoint back_updates (dim : nat) (d : decls) (us : list (string * arith)) (f : fed) : res fed :=
  match us with
  | [] => Ok f
  | u :: us' => do cu <- compile_update u d; back_updates dim d us' (apply_as_free dim cu (apply_as_guard cu f))
  end.

(** input_enabler.rs:39-70: where one edge can be taken. *)
Definition edge_zone (dim : nat) (c : component) (e : edge) : res fed :=
  do tl <- get_location_by_name c (e_tgt e);
  do f <- inv_fed dim c tl;
  do f <- match e_update e with Some us => back_updates dim (c_decls c) us f | None => Ok f end;
  match e_guard e with Some g => expect (apply_constraints dim g (c_decls c) f) | None => Ok f end.

(** input_enabler.rs:38-72: the union over all edges, inside the invariant. *)
Fixpoint edges_zone (dim : nat) (c : component) (inv : fed) (es : list edge) (acc : fed) : res fed :=
  match es with
  | [] => Ok acc
  | e :: es' => do f <- edge_zone dim c e; edges_zone dim c inv es' (funion acc (finter dim f inv))
  end.

(** input_enabler.rs:10-13, 27-36: the input edges looked at for one location and input. *)
Definition input_edges (c : component) (l : location) (a : string) : list edge :=
  filter (fun e => synctype_eqb (e_type e) SInput && String.eqb (e_src e) (l_id l) &&
                   (String.eqb (e_sync e) a || String.eqb (e_sync e) "*")) (c_edges c).

(** input_enabler.rs:33-90: the edge added for one location and input, if any. *)
Definition new_edge (dim : nat) (c : component) (l : location) (inv : fed) (a : string) : res (list edge) :=
  do f <- edges_zone dim c inv (input_edges c l a) fnone;
  let rest := fsub dim inv f in
  if fempty dim rest then Ok []
  else
    do g <- from_disjunction (minc rest) (naming_of (d_clocks (c_decls c)));
    Ok [mkE ("input_" ++ l_id l ++ "_" ++ a) (l_id l) (l_id l) SInput g None a].

Definition new_edges_at (dim : nat) (c : component) (ins : list string) (l : location) : res (list edge) :=
  do inv <- inv_fed dim c l;
  do es <- mapM (new_edge dim c l inv) ins; Ok (List.concat es).

(** input_enabler.rs:7-94 [make_input_enabled]. *)
Definition make_input_enabled (c : component) (ins : list string) : res component :=
  do es <- mapM (new_edges_at (comp_dim c) c ins) (c_locs c);
  Ok (mkComp (c_name c) (c_decls c) (c_locs c) (c_edges c ++ List.concat es) (c_special c)).
End Enable.
