(** Where the locations and the labels of edges of a saved component are drawn.  Models src/Simulation/graph_layout.rs and the nails of
    src/DataReader/serialization.rs 60-92.  Coordinates are rationals instead of [f32], without rounding; a division of zero by zero,
    which gives NaN, is [None].  The nodes after the simulation of forces (crate force_graph, started at random places) may be anywhere:
    [pos] says where. *)
From Coq Require Import List String ZArith QArith Qminmax Bool Arith.
From Verif Require Import Model.Base Model.Expr Model.Guard Model.Component.
Import ListNotations.
Local Open Scope string_scope.

(** serialization.rs:60-76, [From<Edge> for DummyEdge]: the kinds of the nails of an edge. *)
Definition nails (e : edge) : list string :=
  let ns := ((if e_guard e then ["GUARD"] else []) ++ (if e_update e then ["UPDATE"] else []) ++ ["SYNCHRONIZATION"])%list in
  if (List.length ns <? 2)%nat && String.eqb (e_src e) (e_tgt e) then (ns ++ ["NONE"])%list else ns.

(** graph_layout.rs:105-154: the edges of the graph; a location that is not there panics. *)
Definition known (c : component) (x : string) : bool := existsb (fun l => String.eqb (l_id l) x) (c_locs c).
Definition connect (c : component) : res unit :=
  do _ <- mapM (fun e => if known c (e_src e) && known c (e_tgt e) then Ok tt else Panic) (c_edges c); Ok tt.

(** graph_layout.rs:13-24 [Config] and 26-56: from a file, or the defaults. *)
Record config := mkConf { cf_padding : Q; cf_space : Q; cf_ratio : Q }.
Definition default_config : config := mkConf 100 200 (3 # 2).

(** graph_layout.rs:85-134: the nodes in the order they are added: the locations, then the nails edge by edge. *)
Definition node_count (c : component) : nat := List.length (c_locs c) + List.length (flat_map nails (c_edges c)).

Record drawing := mkDraw { dr_locs : list (option Q * option Q); dr_nails : list (list (option Q * option Q)); dr_x : Q; dr_y : Q; dr_width : Q; dr_height : Q }.

Section Layout.
Variable cf : config.
(** The coordinates of the nodes. *)
Variable px py : nat -> Q.
(** [f32::sqrt]. *)
Variable root : nat -> Q.

(** graph_layout.rs:161-172: the least and the greatest coordinate of some nodes. *)
Fixpoint least (p : nat -> Q) (n : nat) : Q := match n with O => 0 | S O => p O | S m => Qmin (p m) (least p m) end.
Fixpoint greatest (p : nat -> Q) (n : nat) : Q := match n with O => 0 | S O => p O | S m => Qmax (p m) (greatest p m) end.

(** graph_layout.rs:181-192. *)
Definition clamp (num lo hi : Q) : Q := Qmax (Qmin num hi) lo.
(** The comparison with NaN or infinity that [clamp] gets if all nodes have the same height gives [hi].  graph_layout.rs:181-192. *)
Definition ratio_x (n : nat) : Q :=
  let h := greatest py n - least py n in
  if Qeq_bool h 0 then Qmax (cf_ratio cf) (1 / cf_ratio cf) else clamp ((greatest px n - least px n) / h) (1 / cf_ratio cf) (cf_ratio cf).
Definition ratio_y (n : nat) : Q := 1 / ratio_x n.

(** graph_layout.rs:68-71. *)
Definition grid_size (c : component) : Q := Qmax (root (List.length (c_locs c)) * cf_space cf) 200.

(** graph_layout.rs:175-179 [normalize]. *)
Definition normalize (grid : Q) (p : nat -> Q) (n : nat) (ratio : Q) (k : nat) : option Q :=
  let lo := least p n in let hi := greatest p n in
  if Qeq_bool (hi - lo) 0 then None else Some ((p k - lo) / (hi - lo) * (grid * ratio) + cf_padding cf / 2).

(** graph_layout.rs:197-207: the nails of the edges from node [k] on. *)
Fixpoint nail_places (place : nat -> option Q * option Q) (k : nat) (es : list edge) : list (list (option Q * option Q)) :=
  match es with
  | [] => []
  | e :: es' => map place (seq k (List.length (nails e))) :: nail_places place (k + List.length (nails e)) es'
  end.

(** graph_layout.rs:65-225 [layout_dummy_component], colours apart. *)
Definition layout (c : component) : res drawing :=
  do _ <- connect c;
  let n := node_count c in let g := grid_size c in
  let place k := (normalize g px n (ratio_x n) k, normalize g py n (ratio_y n) k) in
  let w := g * ratio_x n + cf_padding cf in let h := g * ratio_y n + cf_padding cf in
  Ok (mkDraw (map place (seq 0 (List.length (c_locs c)))) (nail_places place (List.length (c_locs c)) (c_edges c)) (- w / 2) (- h / 2) w h).
End Layout.
