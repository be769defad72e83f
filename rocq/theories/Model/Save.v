(** Saving a system as one component.  Models src/System/save_component.rs, the parts of
    src/ModelObjects/transition.rs and src/EdgeEval/updater.rs it uses, and [GetComponentExecutor] of
    src/System/executable_query.rs. *)
From Coq Require Import List String ZArith Bool Arith.
From Verif Require Import Fed.Zone Model.Base Model.Expr Model.Guard Model.Loc Model.Component Model.TS Model.Enable Model.Files.
Import ListNotations.
Local Open Scope string_scope.
Local Open Scope list_scope.

(** common.rs:97-103, compiled_component.rs:171-173, quotient.rs:355-360 [get_decls]; only the clocks matter
    here.  The quotient declares its own clock (quotient.rs:81-84). *)
Fixpoint ts_decls (s : ts) : list (list (string * nat)) :=
  match s with
  | TSimple c => [d_clocks (cc_decls c)]
  | TConj l r _ _ | TComp l r _ _ _ _ _ => ts_decls l ++ ts_decls r
  | TQuot t d _ _ _ q => ts_decls t ++ ts_decls d ++ [[("quotient_xnew", q)]]
  end.

(** transition_id.rs:117-166 [Display] of [TransitionID]. *)
Definition tid_wrap (bare : bool) (t : string) : string := (if bare then t else "(" ++ t ++ ")")%string.
Definition tid_simple (i : transid) : bool := match i with TISimple _ => true | _ => false end.
Definition tid_conj (i : transid) : bool := match i with TIConj _ _ => true | _ => false end.
Definition tid_comp (i : transid) : bool := match i with TIComp _ _ => true | _ => false end.
Fixpoint tid_string (i : transid) : string :=
  (let all := fix all (l : list transid) : string :=
       match l with [] => "" | t :: l' => tid_wrap (tid_simple t) (tid_string t) ++ all l' end in
   match i with
   | TIConj a b => tid_wrap (tid_conj a || tid_simple a) (tid_string a) ++ "&&" ++ tid_wrap (tid_conj b || tid_simple b) (tid_string b)
   | TIComp a b => tid_wrap (tid_comp a || tid_simple a) (tid_string a) ++ "||" ++ tid_wrap (tid_comp b || tid_simple b) (tid_string b)
   | TIQuot l r => all l ++ "\\" ++ all r
   | TISimple n => n
   | TINone => "NoID"
   end)%string.

Section Save.
Variable dim : nat.
(** edbm [minimal_constraints]: some description of a federation. *)
Variable minc : fed -> fed.
(** Iteration order of a [HashSet] of actions and of a [HashMap] of clocks. *)
Variable ord : list string -> list string.
Variable cord : list (string * nat) -> list (string * nat).

(** save_component.rs:73-90 [get_clock_map]: the first part keeps its names, a name that is taken gets the
    number of the part appended; [insert] replaces an entry that is there already. *)
Definition name_clock (k : nat) (m : list (string * nat)) (p : string * nat) : list (string * nat) :=
  match assoc (fst p) m with
  | Some _ => put (fst p ++ nat_str k)%string (snd p) m
  | None => put (fst p) (snd p) m
  end.
Fixpoint name_clocks (k : nat) (ds : list (list (string * nat))) (m : list (string * nat)) : list (string * nat) :=
  match ds with
  | [] => m
  | d :: ds' => name_clocks (S k) ds' (fold_left (name_clock k) (cord d) m)
  end.
Definition clock_map_of (ds : list (list (string * nat))) : list (string * nat) :=
  match ds with [d] => d | _ => name_clocks 0 ds [] end.
Definition clock_map (s : ts) : list (string * nat) := clock_map_of (ts_decls s).

(** save_component.rs:45-71 [get_locations_from_trees], one location. *)
Definition save_location (clk : list (string * nat)) (l : loctree) : res location :=
  do g <- match lt_inv l with Some f => from_disjunction (minc f) (naming_of clk) | None => Ok None end;
  Ok (mkL (id_string (lt_id l)) g (if is_initial l then Initial else Normal) "NORMAL").

(** updater.rs:55-62 [as_update]; transition.rs:173-184 [get_renamed_updates]. *)
Definition as_update (clk : list (string * nat)) (u : cupdate) : res (string * arith) :=
  do x <- unwrap (naming_of clk (u_clock u)); Ok (x, AInt (u_value u)).
Definition renamed_updates (clk : list (string * nat)) (us : list cupdate) : res (option (list (string * arith))) :=
  do l <- mapM (as_update clk) us; Ok (match l with [] => None | _ => Some l end).

(** save_component.rs:178-199: the edge of one transition; a guard that reads "false" gives none.
    transition.rs:166-171 [get_renamed_guard_expression]. *)
Definition save_edge (clk : list (string * nat)) (ty : synctype) (l : loctree) (a : string) (t : transition) : res (list edge) :=
  do g <- from_disjunction (minc (t_guard t)) (naming_of clk);
  match g with
  | Some (BBool false) => Ok []
  | _ => do us <- renamed_updates clk (t_updates t);
         Ok [mkE (tid_string (t_id t)) (id_string (lt_id l)) (id_string (lt_id (t_target t))) ty g us a]
  end.
(** save_component.rs:164-202 [collect_specific_edges_from_location]. *)
Definition save_action (s : ts) (clk : list (string * nat)) (ty : synctype) (l : loctree) (a : string) : res (list edge) :=
  do ts <- next_transitions dim s l a;
  do es <- mapM (save_edge clk ty l a) ts; Ok (List.concat es).
(** save_component.rs:154-162 [collect_edges_from_location]. *)
Definition save_edges (s : ts) (clk : list (string * nat)) (l : loctree) : res (list edge) :=
  do ins <- mapM (save_action s clk SInput l) (ord (ts_inputs s));
  do outs <- mapM (save_action s clk SOutput l) (ord (ts_outputs s));
  Ok (List.concat ins ++ List.concat outs).

(** save_component.rs:128-152 [collect_reachable_locations]: depth first. *)
Definition visit_target (rec : loctree -> list loctree -> res (list loctree)) (acc : list loctree) (t : transition) : res (list loctree) :=
  let l := t_target t in
  if existsb (lt_eqb l) acc then Ok acc else rec l (acc ++ [l]).
Fixpoint collect_from (fuel : nat) (s : ts) (l : loctree) (acc : list loctree) : res (list loctree) :=
  match fuel with
  | O => NoFuel
  | S f =>
      foldM (fun acc a => do ts <- next_transitions dim s l a; foldM (visit_target (collect_from f s)) ts acc)
            (ord (ts_inputs s) ++ ord (ts_outputs s)) acc
  end.

(** save_component.rs:6-9 [PruningStrategy]. *)
Inductive strategy := Reachable | NoPruning.
(** save_component.rs:93-104, 106-126: the locations that are saved. *)
Definition locations_to_save (fuel : nat) (s : ts) (st : strategy) : res (list loctree) :=
  match st with
  | Reachable => match initial_location dim s with None => Ok [] | Some l => collect_from fuel s l [l] end
  | NoPruning => Ok (all_locations dim s)
  end.

(** save_component.rs:15-43 [combine_components]. *)
Definition combine_components (fuel : nat) (s : ts) (st : strategy) : res component :=
  let clk := clock_map s in
  do ls <- locations_to_save fuel s st;
  do es <- mapM (save_edges s clk) ls;
  do xs <- mapM (save_location clk) ls;
  Ok (mkComp "" (mkDecls clk []) xs (List.concat es) None).

(** component.rs:103-108 [remake_edge_ids]. *)
Fixpoint remake_edge_ids (k : nat) (es : list edge) : list edge :=
  match es with
  | [] => []
  | e :: es' => mkE ("E" ++ nat_str k)%string (e_src e) (e_tgt e) (e_type e) (e_guard e) (e_update e) (e_sync e) :: remake_edge_ids (S k) es'
  end.
(** executable_query.rs:109-118 [GetComponentExecutor::execute]; the loader's store is not modelled. *)
Definition get_component (fuel : nat) (s : ts) (name : string) : res component :=
  do c <- combine_components fuel s Reachable;
  Ok (mkComp name (c_decls c) (c_locs c) (remake_edge_ids 0 (c_edges c)) (c_special c)).
End Save.
