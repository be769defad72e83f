(** Pruning of inconsistent locations.  Models src/System/pruning.rs. *)
From Coq Require Import List String ZArith Bool Arith.
From Verif Require Import Fed.Zone Model.Base Model.Expr Model.Guard Model.Loc Model.Component Model.TS Model.Enable Model.Files Model.Search Model.Save Model.Recipe.
Import ListNotations.
Local Open Scope string_scope.
Local Open Scope list_scope.

(** The derived equality of edges (edge.rs:12). *)
Definition edge_dec : forall a b : edge, {a = b} + {a <> b}.
Proof.
  assert (S : forall a b : string, {a = b} + {a <> b}) by (exact string_dec).
  assert (Z : forall a b : Z, {a = b} + {a <> b}) by (exact Z.eq_dec).
  assert (N : forall a b : nat, {a = b} + {a <> b}) by (exact Nat.eq_dec).
  assert (A : forall a b : arith, {a = b} + {a <> b}) by (decide equality).
  assert (B : forall a b : bexpr, {a = b} + {a <> b}) by (decide equality; apply Bool.bool_dec).
  assert (Y : forall a b : synctype, {a = b} + {a <> b}) by (decide equality).
  assert (OB : forall a b : option bexpr, {a = b} + {a <> b}) by (decide equality).
  assert (OU : forall a b : option (list (string * arith)), {a = b} + {a <> b}) by (decide equality; apply list_eq_dec; decide equality).
  decide equality.
Defined.
Definition edge_eqb (a b : edge) : bool := if edge_dec a b then true else false.

(** pruning.rs:31-37 [PruneContext]; the locations and declarations of the component do not change during
    the search.  [p_todo] is the stack of inconsistent locations, top first. *)
Record pctx := mkP { p_edges : list edge; p_todo : list string; p_parts : list (string * fed); p_passed : list (string * fed) }.

Section Prune.
Variable dim : nat.
(** edbm [minimal_constraints] and [predt]. *)
Variable minc : fed -> fed.
Variable predt : fed -> fed -> fed.
Variable c : component.
Let d := c_decls c.

(** constraint_applyer.rs:10-18 with [unwrap], on an optional invariant or guard. *)
Definition apply_opt (g : option bexpr) (f : fed) : res fed :=
  match g with Some b => expect (apply_constraints dim b d f) | None => Ok f end.
(** [update.compiled(decl).apply_as_guard], [apply_as_free], over the updates of an edge.  pruning.rs:188, 241, 247, 334, 368, 402, 410, 461, 467. *)
Definition updates_list (e : edge) : list (string * arith) := match e_update e with Some us => us | None => [] end.
Definition as_guards (e : edge) (f : fed) : res fed :=
  foldM (fun f u => do cu <- compile_update u d; Ok (apply_as_guard cu f)) (updates_list e) f.
Definition as_frees (e : edge) (f : fed) : res fed :=
  foldM (fun f u => do cu <- compile_update u d; Ok (apply_as_free dim cu f)) (updates_list e) f.
(** Guards first, then frees unless empty (pruning.rs:238-250, 396-413, 457-470).  Without updates both
    loops are empty. *)
Definition guards_frees (e : edge) (f : fed) : res fed :=
  do f1 <- as_guards e f; if fempty dim f1 then Ok f1 else as_frees e f1.

(** pruning.rs:48-54. *)
Definition incons (x : pctx) (n : string) : option fed := assoc n (p_parts x).

(** pruning.rs:56-61 [remove_edge]: the first equal edge. *)
Fixpoint remove_first (e : edge) (es : list edge) : list edge :=
  match es with [] => [] | x :: es' => if edge_eqb x e then es' else x :: remove_first e es' end.
Definition remove_edge (x : pctx) (e : edge) : pctx := mkP (remove_first e (p_edges x)) (p_todo x) (p_parts x) (p_passed x).
(** pruning.rs:63-77 [update_edge_guard]. *)
Definition with_guard (e : edge) (g : option bexpr) : edge := mkE (e_id e) (e_src e) (e_tgt e) (e_type e) g (e_update e) (e_sync e).
Fixpoint guard_first (e : edge) (g : option bexpr) (es : list edge) : list edge :=
  match es with [] => [] | x :: es' => if edge_eqb x e then with_guard x g :: es' else x :: guard_first e g es' end.
Definition update_edge_guard (x : pctx) (e : edge) (f : fed) : res pctx :=
  if existsb (fun y => edge_eqb y e) (p_edges x) then
    do g <- from_disjunction (minc f) (naming_of (d_clocks d));
    Ok (mkP (guard_first e g (p_edges x)) (p_todo x) (p_parts x) (p_passed x))
  else Ok x.

(** pruning.rs:273-299 [process_source_location]. *)
Definition process_source (n : string) (f : fed) (x : pctx) : pctx :=
  if fempty dim f then x
  else
    let f' := match incons x n with Some p => funion f p | None => f end in
    let parts := put n f' (p_parts x) in
    if existsb (fun p => String.eqb (fst p) n && fequals dim (snd p) f') (p_passed x)
    then mkP (p_edges x) (p_todo x) parts (p_passed x)
    else mkP (p_edges x) (n :: p_todo x) parts (p_passed x ++ [(n, f')]).

(** pruning.rs:301-356 [predt_of_all_outputs]: note that it is given the target of the edge (line 206). *)
Definition predt_output (x : pctx) (l : location) (acc : fed) (o : edge) : res fed :=
  do tl <- get_location_by_name c (e_tgt o);
  do s1 <- apply_opt (l_inv tl) funiv;
  do s2 <- (if existsb (String.eqb (l_id tl)) (p_todo x) then do p <- unwrap (incons x (e_tgt o)); Ok (fsub dim s1 p) else Ok s1);
  do s3 <- (if fempty dim s2 then Ok s2 else as_frees o s2);
  do s4 <- apply_opt (e_guard o) s3;
  do s5 <- apply_opt (l_inv l) s4;
  Ok (funion acc (predt acc s5)).
Definition outputs_of (x : pctx) (n : string) : list edge :=
  filter (fun e => String.eqb (e_src e) n && synctype_eqb (e_type e) SOutput) (p_edges x).
Definition predt_of_all_outputs (x : pctx) (l : location) (f : fed) : res fed :=
  foldM (predt_output x l) (outputs_of x (l_id l)) f.

(** pruning.rs:358-386 [back_exploration_on_transition]. *)
Definition back_exploration (e : edge) (f : fed) : res fed :=
  do f1 <- as_frees e f;
  do f2 <- apply_opt (e_guard e) f1;
  do sl <- get_location_by_name c (e_src e);
  apply_opt (l_inv sl) f2.

(** pruning.rs:225-271 [remove_transition_if_unsat]. *)
Definition sub_part (x : pctx) (n : string) (f : fed) : fed := match incons x n with Some p => fsub dim f p | None => f end.
Definition remove_if_unsat (e : edge) (x : pctx) : res pctx :=
  do tl <- get_location_by_name c (e_tgt e);
  do f1 <- apply_opt (l_inv tl) funiv;
  let f2 := sub_part x (e_tgt e) f1 in
  do f3 <- guards_frees e f2;
  do f4 <- apply_opt (e_guard e) f3;
  do sl <- get_location_by_name c (e_src e);
  do f5 <- apply_opt (l_inv sl) f4;
  let f6 := sub_part x (e_src e) f5 in
  Ok (if fempty dim f6 then remove_edge x e else x).

(** pruning.rs:174-223 [handle_input]. *)
Definition handle_input (e : edge) (x : pctx) : res pctx :=
  do tl <- get_location_by_name c (e_tgt e);
  do p0 <- unwrap (incons x (l_id tl));
  do p1 <- apply_opt (l_inv tl) p0;
  do p2 <- as_guards e p1;
  if fempty dim p2 then Ok x
  else
    do p3 <- back_exploration e p2;
    do x' <- (if fempty dim p3 then Ok x
              else
                do p4 <- predt_of_all_outputs x tl p3;
                do p5 <- (if fequals dim p3 p4 then
                            do sl <- get_location_by_name c (e_src e);
                            apply_opt (l_inv sl) (fdown p4)
                          else Ok p4);
                Ok (process_source (e_src e) p5 x));
    remove_if_unsat e x'.

(** pruning.rs:388-485 [handle_output]. *)
Definition shrink_edge (e : edge) (x : pctx) : res pctx :=
  do t <- unwrap (incons x (e_tgt e));
  if fisuniv dim t then Ok (remove_edge x e)
  else
    do a <- guards_frees e t;
    do g <- apply_opt (e_guard e) funiv;
    let g' := fsub dim g a in
    if fempty dim g' then Ok (remove_edge x e) else update_edge_guard x e g'.
Definition saving_part (x : pctx) (inv : fed) (acc : fed) (o : edge) : res fed :=
  do tl <- get_location_by_name c (e_tgt o);
  do g1 <- apply_opt (l_inv tl) funiv;
  let g2 := sub_part x (e_tgt o) g1 in
  do g3 <- guards_frees o g2;
  do g4 <- apply_opt (e_guard o) g3;
  Ok (funion acc (finter dim (fdown g4) inv)).
Definition handle_output (e : edge) (x : pctx) : res pctx :=
  do x1 <- shrink_edge e x;
  do sl <- get_location_by_name c (e_src e);
  do inv <- apply_opt (l_inv sl) funiv;
  if fcan_delay dim inv then Ok x1
  else
    do saved <- foldM (saving_part x1 inv) (outputs_of x1 (e_src e)) fnone;
    Ok (process_source (e_src e) (fsub dim inv saved) x1).

(** pruning.rs:487-512 [is_immediately_inconsistent]. *)
Definition inconsistent_ids : res (list string) :=
  do ls <- mapM (fun l => do t <- lt_simple dim d l; Ok (if is_inconsistent t then [l_id l] else [])) (c_locs c);
  Ok (List.concat ls).

(** pruning.rs:112-136, one location; the edges are those of the component as given. *)
Definition handle_edge (x : pctx) (e : edge) : res pctx :=
  do x1 <- (if synctype_eqb (e_type e) SInput then handle_input e x else Ok x); handle_output e x1.
Definition prune_location (n : string) (x : pctx) : res pctx :=
  foldM handle_edge (filter (fun e => String.eqb (e_tgt e) n) (c_edges c)) x.
Fixpoint prune_loop (fuel : nat) (x : pctx) : res pctx :=
  match fuel with
  | O => NoFuel
  | S f =>
      match p_todo x with
      | [] => Ok x
      | n :: rest => do x' <- prune_location n (mkP (p_edges x) rest (p_parts x) (p_passed x)); prune_loop f x'
      end
  end.

(** pruning.rs:150-172 [add_inconsistent_parts_to_invariants]. *)
Definition shrink_invariant (parts : list (string * fed)) (l : location) : res location :=
  match assoc (l_id l) parts with
  | None => Ok l
  | Some p =>
      do f <- apply_opt (l_inv l) funiv;
      do g <- from_disjunction (minc (fsub dim f p)) (naming_of (d_clocks d));
      Ok (mkL (l_id l) g (l_type l) (l_urgency l))
  end.

(** pruning.rs:84-138: the pruned component. *)
Definition pruned (fuel : nat) : res component :=
  do ids <- inconsistent_ids;
  do x <- prune_loop fuel (mkP (c_edges c) (rev ids) (fold_left (fun m n => put n funiv m) ids []) []);
  do ls <- mapM (shrink_invariant (p_parts x)) (c_locs c);
  Ok (mkComp (c_name c) d ls (p_edges x) (c_special c)).
(** pruning.rs:146-147. *)
Definition prune (fuel : nat) (ins outs : list string) : res ccomp :=
  do c' <- pruned fuel; compile_with_actions dim c' ins outs 0.
End Prune.

(** pruning.rs:15-29 [prune_system].  [tdim] is the dimension of the system, [dim] the one given; the
    system's own operations use [tdim]. *)
Definition prune_system (tdim dim : nat) (minc : fed -> fed) (predt : fed -> fed -> fed) (ext : ts -> loctree -> fed -> fed)
    (sord : list state -> list string -> list string) (ord : list string -> list string) (cord : list (string * nat) -> list (string * nat)) (fuel : nat) (s : ts) : res ccomp :=
  do ok <- precheck tdim ext sord fuel s;
  if negb ok then Panic
  else
    do c <- combine_components tdim minc ord cord fuel s NoPruning;
    match prune dim minc predt c fuel (ts_inputs s) (ts_outputs s) with Err => Panic | r => r end.

(** extract_system_rep.rs:151-165: a prune query, without clock reduction.  [compile] adds one to [dim]
    (line 187), [prune_system] is given [dim] itself. *)
Definition prune_query (least pre : nat -> ts -> res bool) (minc : fed -> fed) (predt : fed -> fed -> fed) (ext : ts -> loctree -> fed -> fed)
    (sord : list state -> list string -> list string) (ord : list string -> list string) (cord : list (string * nat) -> list (string * nat)) (fuel dim : nat) (r : recipe) : res ccomp :=
  do s <- compile least pre dim r;
  prune_system (dim + 1) dim minc predt ext sord ord cord fuel s.
