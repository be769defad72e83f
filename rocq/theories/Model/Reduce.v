(** Clock reduction: finding redundant clocks and removing them.  Models
    src/TransitionSystems/transition_system.rs:170-448, src/ModelObjects/component.rs:110-177 and
    src/System/extract_system_rep.rs:239-261, 349-495. *)
From Coq Require Import List String ZArith Bool Arith.
From Verif Require Import Fed.Zone Model.Base Model.Expr Model.Guard Model.Loc Model.Component Model.TS Model.ParseQuery Model.Files Model.Recipe.
Import ListNotations.

Definition nin (i : nat) (l : list nat) : bool := existsb (Nat.eqb i) l.
(** A [HashSet] of clocks: first occurrences.  transition_system.rs:292-304. *)
Fixpoint nset (l : list nat) : list nat :=
  match l with [] => [] | i :: l' => let s := nset l' in if nin i s then s else i :: s end.

(** ** The analysis graph *)

(** transition_system.rs:292-312. *)
Record anode := mkNode { n_id : string; n_deps : list nat }.
Record aedge := mkEdge { ae_from : string; ae_to : string; ae_deps : list nat; ae_updates : list cupdate; ae_action : string }.
Record graph := mkGraph { g_nodes : list anode; g_edges : list aedge }.

Definition has_node (g : graph) (i : string) : bool := existsb (fun n => String.eqb i (n_id n)) (g_nodes g).
(** [graph.nodes.insert]: replaces a node with the same id.  transition_system.rs:202. *)
Definition insert_node (g : graph) (n : anode) : graph :=
  mkGraph (n :: filter (fun m => negb (String.eqb (n_id n) (n_id m))) (g_nodes g)) (g_edges g).
(** transition_system.rs:224. *)
Definition push_edge (g : graph) (e : aedge) : graph := mkGraph (g_nodes g) (g_edges g ++ [e]).

(** transition_system.rs:193-201, 216-222: the clocks of the constraints of a federation. *)
Definition con_clocks (f : fed) : list nat := flat_map (flat_map (fun c => [ci c; cj c])) f.

(** Instructions: transition_system.rs:265-290. *)
Inductive instr := RemoveClock (i : nat) | ReplaceClocks (i : nat) (others : list nat).
Definition removed_count (x : instr) : nat := match x with RemoveClock _ => 1 | ReplaceClocks _ l => List.length l end.
Definition instr_clock (x : instr) : nat := match x with RemoveClock i => i | ReplaceClocks i _ => i end.
Definition subset (a b : list nat) : bool := forallb (fun i => nin i b) a.
(** [PartialEq]: sets are compared as sets.  transition_system.rs:265. *)
Definition instr_eqb (x y : instr) : bool :=
  match x, y with
  | RemoveClock i, RemoveClock j => Nat.eqb i j
  | ReplaceClocks i a, ReplaceClocks j b => Nat.eqb i j && subset a b && subset b a
  | _, _ => false
  end.

Section Analysis.
Variable dim : nat.
(** edbm [minimal_constraints]. *)
Variable minc : fed -> fed.
(** Iteration orders of the [HashSet] of actions, of sets of clocks and of the map of groups. *)
Variable ord : list string -> list string.
Variable cord : list nat -> list nat.
Variable gord : list (list nat) -> list (list nat).

(** transition_system.rs:187-202. *)
Definition node_of (l : loctree) : anode :=
  mkNode (unique_string (lt_id l)) (match lt_inv l with Some i => nset (con_clocks (minc i)) | None => [] end).
(** transition_system.rs:207-222. *)
Definition edge_of (l : loctree) (a : string) (t : transition) : aedge :=
  mkEdge (unique_string (lt_id l)) (unique_string (lt_id (t_target t))) (nset (con_clocks (minc (t_guard t)))) (t_updates t) a.

(** transition_system.rs:206-232: one transition. *)
Definition visit_transition (l : loctree) (a : string) (st : graph * list loctree) (t : transition) : graph * list loctree :=
  let g := push_edge (fst st) (edge_of l a t) in
  (g, if has_node g (unique_string (lt_id (t_target t))) then snd st else snd st ++ [t_target t]).
(** transition_system.rs:205-233: one action. *)
Definition visit_action (s : ts) (l : loctree) (st : graph * list loctree) (a : string) : res (graph * list loctree) :=
  do ts <- next_if_available dim s l a; Ok (fold_left (visit_transition l a) ts st).
(** transition_system.rs:182-235 [find_edges_and_nodes]. *)
Fixpoint find_edges_and_nodes (fuel : nat) (s : ts) (work : list loctree) (g : graph) : res graph :=
  match fuel with
  | O => NoFuel
  | S f =>
      match work with
      | [] => Ok g
      | l :: work' =>
          do (g', work'') <- foldM (visit_action s l) (ord (ts_actions s)) (insert_node g (node_of l), work');
          find_edges_and_nodes f s work'' g'
      end
  end.
(** transition_system.rs:172-177 [get_analysis_graph]: panics without an initial location. *)
Definition analysis_graph (fuel : nat) (s : ts) : res graph :=
  do l <- unwrap (initial_location dim s); find_edges_and_nodes fuel s [l] (mkGraph [] []).

(** ** Redundant clocks *)

(** transition_system.rs:354-374 [find_used_clocks]. *)
Definition used_clocks (g : graph) : list nat :=
  filter (fun i => negb (Nat.eqb i 0)) (nset (flat_map ae_deps (g_edges g) ++ flat_map n_deps (g_nodes g))).
Definition unused_clocks (g : graph) : list nat := filter (fun i => negb (nin i (used_clocks g))) (seq 1 (dim - 1)).

(** transition_system.rs:399-401: the last update of a clock decides; [as u32]. *)
Definition u32_max : Z := 4294967295.
Definition local_value (us : list cupdate) (x : nat) : option Z :=
  option_map (fun u => Z.modulo (u_value u) 4294967296) (find (fun u => Nat.eqb (u_clock u) x) (rev us)).
(** transition_system.rs:417-429: the key of the new group of clock [x] of the group with index [k]. *)
Definition group_key (us : list cupdate) (k : nat) (x : nat) : Z :=
  match local_value us x with
  | Some v => u32_max + Z.of_nat k * (u32_max * 2) + v
  | None => Z.of_nat k
  end.
(** transition_system.rs:442-447 [get_or_insert], and the insertion. *)
Fixpoint add_to (m : list (Z * list nat)) (key : Z) (x : nat) : list (Z * list nat) :=
  match m with
  | [] => [(key, [x])]
  | (k, l) :: m' => if Z.eqb k key then (k, l ++ [x]) :: m' else (k, l) :: add_to m' key x
  end.
(** transition_system.rs:391-438: one edge; groups of one clock are dropped. *)
Fixpoint split_groups (us : list cupdate) (k : nat) (gs : list (list nat)) (m : list (Z * list nat)) : list (Z * list nat) :=
  match gs with
  | [] => m
  | grp :: gs' => split_groups us (S k) gs' (fold_left (fun m x => add_to m (group_key us k x) x) grp m)
  end.
Definition refine_groups (gs : list (list nat)) (e : aedge) : list (list nat) :=
  filter (fun grp => Nat.ltb 1 (List.length grp)) (gord (map snd (split_groups (ae_updates e) 0 gs []))).
(** transition_system.rs:376-440 [find_equivalent_clock_groups]. *)
Definition equivalent_groups (g : graph) : list (list nat) :=
  let used := used_clocks g in
  if Nat.ltb (List.length used) 2 || match g_edges g with [] => true | _ => false end then []
  else fold_left refine_groups (g_edges g) [used].

(** transition_system.rs:342-349: the lowest clock represents the group. *)
Definition lowest (l : list nat) : nat := match l with [] => 0 | i :: l' => fold_left Nat.min l' i end.
Definition replace_group (grp : list nat) : instr :=
  ReplaceClocks (lowest grp) (filter (fun i => negb (Nat.eqb i (lowest grp))) grp).
(** transition_system.rs:323-352 [find_clock_redundancies]. *)
Definition redundancies (g : graph) : list instr :=
  map RemoveClock (cord (unused_clocks g)) ++ map replace_group (equivalent_groups g).
(** transition_system.rs:237-239 [find_redundant_clocks]. *)
Definition find_redundant_clocks (fuel : nat) (s : ts) : res (list instr) :=
  do g <- analysis_graph fuel s; Ok (redundancies g).
End Analysis.

(** ** Changing the components *)

(** component.rs:113-152 [remove_clock]. *)
Definition drop_guard (n : string) (o : option bexpr) : option bexpr :=
  match o with Some g => Some (if b_has_var g n then BBool false else g) | None => None end.
Definition drop_updates (n : string) (o : option (list (string * arith))) : option (list (string * arith)) :=
  match o with Some us => Some (filter (fun u => negb (String.eqb (fst u) n)) us) | None => None end.
Definition remove_clock (i : nat) (c : component) : res component :=
  match find (fun p => Nat.eqb (snd p) i) (d_clocks (c_decls c)) with
  | None => Panic
  | Some (n, _) =>
      Ok (mkComp (c_name c)
        (mkDecls (filter (fun p => negb (String.eqb (fst p) n)) (d_clocks (c_decls c))) (d_ints (c_decls c)))
        (map (fun l => mkL (l_id l) (drop_guard n (l_inv l)) (l_type l) (l_urgency l)) (c_locs c))
        (map (fun e => mkE (e_id e) (e_src e) (e_tgt e) (e_type e) (drop_guard n (e_guard e)) (drop_updates n (e_update e)) (e_sync e)) (c_edges c))
        (c_special c))
  end.
(** component.rs:158-177 [replace_clock]. *)
Definition replace_clock (global : nat) (others : list nat) (c : component) : component :=
  map_clocks (fun i => if nin i others then global else i) c.

Definition has_clock (i : nat) (c : component) : bool := nin i (map snd (d_clocks (c_decls c))).
Fixpoint map_components (f : component -> component) (r : recipe) : recipe :=
  match r with
  | RSimple c => RSimple (f c)
  | RComp l r => RComp (map_components f l) (map_components f r)
  | RConj l r => RConj (map_components f l) (map_components f r)
  | RQuot l r q => RQuot (map_components f l) (map_components f r) q
  end.
(** extract_system_rep.rs:243-252: the first component that has the clock. *)
Fixpoint remove_from (i : nat) (r : recipe) : res recipe :=
  let two (mk : recipe -> recipe -> recipe) l r rl rr :=
    if existsb (has_clock i) (components l) then do l' <- rl; Ok (mk l' r) else do r' <- rr; Ok (mk l r') in
  match r with
  | RSimple c => if has_clock i c then do c' <- remove_clock i c; Ok (RSimple c') else Panic
  | RComp l r => two RComp l r (remove_from i l) (remove_from i r)
  | RConj l r => two RConj l r (remove_from i l) (remove_from i r)
  | RQuot l r q => two (fun l r => RQuot l r q) l r (remove_from i l) (remove_from i r)
  end.
(** extract_system_rep.rs:239-261 [reduce_clocks]. *)
Definition apply_instr (x : instr) (r : recipe) : res recipe :=
  match x with
  | RemoveClock i => remove_from i r
  | ReplaceClocks i others => Ok (map_components (replace_clock i others) r)
  end.
Definition reduce_clocks (xs : list instr) (r : recipe) : res recipe := foldM (fun r x => apply_instr x r) xs r.

(** extract_system_rep.rs:469-494 [compress_component_decls]: the numbers in use are sorted and renumbered
    from 1. *)
Fixpoint insert_sorted (i : nat) (l : list nat) : list nat :=
  match l with [] => [i] | j :: l' => if Nat.leb i j then i :: l else j :: insert_sorted i l' end.
Definition sort (l : list nat) : list nat := fold_right insert_sorted [] l.
Fixpoint nassoc (i : nat) (m : list (nat * nat)) : option nat :=
  match m with [] => None | (j, k) :: m' => if Nat.eqb i j then Some k else nassoc i m' end.
Fixpoint renumber (l : list nat) (next : nat) (seen : list (nat * nat)) : list (nat * nat) :=
  match l with
  | [] => seen
  | i :: l' => match nassoc i seen with Some _ => renumber l' next seen | None => renumber l' (S next) ((i, next) :: seen) end
  end.
Definition compressed (l : list nat) (i : nat) : nat :=
  match nassoc i (renumber (sort l) 1 []) with Some k => k | None => i end.
Definition all_clocks (r : recipe) : list nat := flat_map (fun c => map snd (d_clocks (c_decls c))) (components r).

Section Reduce.
Variable least : nat -> ts -> res bool.
Variable pre : nat -> ts -> res bool.
(** [find_redundant_clocks] of a compiled system of the given dimension. *)
Variable redundant : nat -> ts -> res (list instr).

(** extract_system_rep.rs:386-389, 419. *)
Definition total_removed (xs : list instr) : nat := list_sum (map removed_count xs).
(** [*dim -= n] panics on underflow.  extract_system_rep.rs:386, 419. *)
Definition minus_usize (a b : nat) : res nat := if Nat.ltb a b then Panic else Ok (a - b).
(** extract_system_rep.rs:361-429: the clock of the quotient, if there is one. *)
Definition q_default (q : option nat) : nat := match q with Some q => q | None => 0 end.

(** extract_system_rep.rs:411-429 [clock_reduce_single]. *)
Definition clock_reduce_single (r : recipe) (dim : nat) (q : option nat) : res (recipe * nat) :=
  do s <- compile least pre dim r;
  do xs <- redundant (dim + 1) s;
  let xs := filter (fun x => negb (Nat.eqb (instr_clock x) (q_default q))) xs in
  do dim' <- minus_usize dim (total_removed xs);
  do r1 <- reduce_clocks xs r;
  let r2 := map_components (map_clocks (compressed (all_clocks r1))) r1 in
  Ok (match q with Some _ => change_quotient dim' r2 | None => r2 end, dim').

(** extract_system_rep.rs:431-467 [filter_redundant_clocks]. *)
Definition unique_redundant (l r : list instr) (q : nat) (bound : nat -> bool) : list instr :=
  filter (fun x => existsb (instr_eqb x) r && bound (instr_clock x) && negb (Nat.eqb (instr_clock x) q)) l.
Definition maximum (l : list nat) : nat := fold_left Nat.max l 0.

(** extract_system_rep.rs:361-401 [clock_reduce] with two systems. *)
Definition clock_reduce_two (l r : recipe) (dim : nat) (q : option nat) : res (recipe * recipe * nat) :=
  do s <- compile least pre dim l; do xl <- redundant (dim + 1) s;
  do t <- compile least pre dim r; do xr <- redundant (dim + 1) t;
  let split := maximum (all_clocks l) in
  let l_clocks := unique_redundant xl xr (q_default q) (fun c => Nat.leb c split) in
  let r_clocks := unique_redundant xr xl (q_default q) (fun c => Nat.ltb split c) in
  do dim' <- minus_usize dim (total_removed l_clocks + total_removed r_clocks);
  do r1 <- reduce_clocks r_clocks r;
  do l1 <- reduce_clocks l_clocks l;
  let f := map_clocks (compressed (all_clocks l1 ++ all_clocks r1)) in
  let fin x := match q with Some _ => change_quotient dim' (map_components f x) | None => map_components f x end in
  Ok (fin l1, fin r1, dim').

(** extract_system_rep.rs:361-371: nothing to do without clocks. *)
Definition clock_reduce (l : recipe) (r : option recipe) (dim : nat) (q : option nat) : res (recipe * option recipe * nat) :=
  if Nat.eqb dim 0 then Ok (l, r, dim)
  else match r with
  | None => do (l', dim') <- clock_reduce_single l dim q; Ok (l', None, dim')
  | Some r => do (p, dim') <- clock_reduce_two l r dim q; Ok (fst p, Some (snd p), dim')
  end.
End Reduce.
