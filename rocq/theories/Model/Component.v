(** Components as read from a model file, and their compilation.  Models
    src/ModelObjects/component.rs, edge.rs, location.rs and
    src/TransitionSystems/compiled_component.rs. *)
From Coq Require Import List String ZArith Bool Arith.
From Verif Require Import Fed.Zone Model.Base Model.Expr Model.Guard Model.Loc.
Import ListNotations.
Local Open Scope string_scope.

(** edge.rs:118-122. *)
Inductive synctype := SInput | SOutput.
Definition synctype_eqb (a b : synctype) : bool :=
  match a, b with SInput, SInput | SOutput, SOutput => true | _, _ => false end.

(** edge.rs:14-39; parse_edge::Update is a (variable, expression) pair. *)
Record edge := mkE {
  e_id : string; e_src : string; e_tgt : string; e_type : synctype;
  e_guard : option bexpr; e_update : option (list (string * arith)); e_sync : string }.

(** location.rs:25-39. *)
Record location := mkL { l_id : string; l_inv : option bexpr; l_type : loctype; l_urgency : string }.

(** component.rs:17-28. *)
Record component := mkComp {
  c_name : string; c_decls : decls; c_locs : list location; c_edges : list edge;
  c_special : option string }.

(** component.rs:42-54 [get_location_by_name]: panics unless exactly one location matches. *)
Definition get_location_by_name (c : component) (n : string) : res location :=
  match filter (fun l => String.eqb (l_id l) n) (c_locs c) with
  | [l] => Ok l
  | _ => Panic
  end.

(** itertools [unique]: first occurrences, in order.  component.rs:64-72 [get_specific_actions]. *)
Definition sin (a : string) (l : list string) : bool := existsb (String.eqb a) l.
Fixpoint unique_aux (seen l : list string) : list string :=
  match l with
  | [] => []
  | a :: l' => if sin a seen then unique_aux seen l' else a :: unique_aux (a :: seen) l'
  end.
Definition unique (l : list string) : list string := unique_aux [] l.

(** component.rs:64-72 [get_specific_actions], 56-62. *)
Definition specific_actions (c : component) (t : synctype) : list string :=
  unique (map e_sync (filter (fun e => synctype_eqb (e_type e) t && negb (String.eqb (e_sync e) "*")) (c_edges c))).
Definition input_actions (c : component) := specific_actions c SInput.
Definition output_actions (c : component) := specific_actions c SOutput.

(** edge.rs:74-80 [apply_guard]: [expect] turns an error into a panic. *)
Definition edge_apply_guard (dim : nat) (d : decls) (e : edge) (f : fed) : res fed :=
  match e_guard e with
  | Some g => expect (apply_constraints dim g d f)
  | None => Ok f
  end.

(** location_tree.rs:55-70 [simple]: unwraps the result of applying the invariant. *)
Definition lt_simple (dim : nat) (d : decls) (l : location) : res loctree :=
  do inv <- match l_inv l with
            | Some g => do f <- expect (apply_constraints dim g d funiv); Ok (Some f)
            | None => Ok None
            end;
  Ok (LLeaf (LSimple (l_id l)) inv (l_type l)).

(** transition.rs:32-54 [from_component_and_edge], 155-164 [combine_edge_guards] (one edge). *)
Definition from_component_and_edge (dim : nat) (c : component) (e : edge) : res transition :=
  do tl <- get_location_by_name c (e_tgt e);
  do tgt <- lt_simple dim (c_decls c) tl;
  do us <- mapM (fun u => compile_update u (c_decls c)) (match e_update e with Some us => us | None => [] end);
  do g <- edge_apply_guard dim (c_decls c) e funiv;
  Ok (mkT (TISimple (e_id e)) g tgt us).

(** component.rs:76-100 [get_max_bounds]; [None] stands for "no bound recorded". *)
Definition opt_list {A B} (f : A -> option B) (l : list A) : list B :=
  flat_map (fun a => match f a with Some b => [b] | None => [] end) l.
Definition max_or_default (l : list Z) : Z :=
  match l with [] => 0%Z | a :: l' => fold_left Z.max l' a end.
Definition clock_max (c : component) (name : string) (i : nat) : Z :=
  Z.max (max_or_default (map (fun g => get_max_constant g i name) (opt_list e_guard (c_edges c))))
        (max_or_default (map (fun g => get_max_constant g i name) (opt_list l_inv (c_locs c)))).
(** edbm [Bounds]: per clock the largest upper and lower bound added so far.  component.rs:76-101 [get_max_bounds]; common.rs:41-48 joins the bounds of the operands. *)
Definition bounds := nat -> option Z.
Definition bounds_new : bounds := fun _ => None.
Definition omax (a b : option Z) : option Z :=
  match a, b with Some x, Some y => Some (Z.max x y) | Some x, None => Some x | None, y => y end.
Definition bounds_add (b : bounds) (i : nat) (k : Z) : bounds :=
  fun j => if Nat.eqb i j then omax (b j) (Some k) else b j.
Definition bounds_join (a b : bounds) : bounds := fun j => omax (a j) (b j).
Definition get_max_bounds (c : component) : bounds :=
  fold_left (fun b p => bounds_add b (snd p) (clock_max c (fst p) (snd p))) (d_clocks (c_decls c)) bounds_new.

(** compiled_component.rs:28-36, 20-25. *)
Record ccomp := mkCC {
  cc_name : string; cc_id : nat; cc_decls : decls; cc_bounds : bounds;
  cc_inputs : list string; cc_outputs : list string;
  cc_locs : list loctree;
  cc_edges : list (locid * list (string * transition));
  cc_init : option loctree }.

Definition assoc_loc {V} (k : locid) (m : list (locid * V)) : option V :=
  option_map snd (find (fun p => locid_eqb k (fst p)) m).

(** compiled_component.rs:39-95 [compile_with_actions].  The location map is keyed by id;
    a repeated id keeps the last entry ([collect]).  Its iteration order is the
    declaration order here; the initial location is the first one of type Initial in
    that order (arbitrary in Rust when there are several). *)
Fixpoint keep_last (l : list loctree) : list loctree :=
  match l with
  | [] => []
  | t :: l' => if existsb (fun u => locid_eqb (lt_id t) (lt_id u)) l' then keep_last l' else t :: keep_last l'
  end.

Definition disjoint (a b : list string) : bool := forallb (fun x => negb (sin x b)) a.

Definition compile_with_actions (dim : nat) (c : component) (ins outs : list string) (id : nat) : res ccomp :=
  if negb (disjoint ins outs) then Err
  else
    do ls <- mapM (lt_simple dim (c_decls c)) (c_locs c);
    let locs := keep_last ls in
    do ts <- mapM (fun e => do t <- from_component_and_edge dim c e; Ok (e, t)) (c_edges c);
    (* every edge source must be a known location, otherwise [get_mut(..).unwrap()] panics *)
    if forallb (fun e => existsb (fun u => locid_eqb (LSimple (e_src e)) (lt_id u)) locs) (c_edges c)
    then Ok (mkCC (c_name c) id (c_decls c) (get_max_bounds c) ins outs locs
           (map (fun u => (lt_id u,
                  map (fun p => (e_sync (fst p), snd p))
                      (filter (fun p => locid_eqb (LSimple (e_src (fst p))) (lt_id u)) ts))) locs)
           (find is_initial locs))
    else Panic.

(** compiled_component.rs:97-107 [compile]. *)
Definition compile_component (dim : nat) (c : component) (id : nat) : res ccomp :=
  compile_with_actions dim c (input_actions c) (output_actions c) id.
