From Coq Require Import List String Ascii ZArith.
From Coq Require Extraction ExtrOcamlBasic ExtrOcamlString ExtrOcamlNatInt ExtrOcamlZInt.
From Verif Require Import Fed.Zone Fed.Dbm Model.Base Model.Expr Model.Guard Model.Loc Model.Component Model.TS Model.Extrapolate Model.Exec Model.Cli Model.Files Model.Xml Model.Loader Model.Peg Model.ParseEdge Model.ParseQuery Model.Recipe Model.Reduce Model.Search Model.Refine Model.Query Model.Save Model.Failure Model.Wire Model.Server Model.Handle Model.Leaves Props.Two.
Import ListNotations.
Local Open Scope string_scope.
Definition chx (fuel : nat) : choices :=
  mkChoices fuel max_ext max_pext (fun d s z => max_xext d s (fed_bounds d z)) min_own (fun _ f _ => f) (fun _ l => nodup string_dec l) (fun _ l => l) (fun l => nodup string_dec l) (fun l => l) (fun l => l) (fun l => l).
Definition loadj (files : folder) (sys : text) : res (string -> option component) := do sp <- decode_system sys; Ok (looked_up min_own (AJson (json_new files sp))).
Definition loadx (root : elem) : res (string -> option component) := do p <- xml_new min_own root; Ok (looked_up min_own p).
Definition answers (fuel : nat) (reduce : bool) (l : res (string -> option component)) (q : text) : res answer :=
  do load <- l; do q <- single_query q; run_query (chx fuel) reduce load q.
Definition replies (fuel : nat) (reduce : bool) (l : res (string -> option component)) (q : text) : res reply :=
  do load <- l; do q <- single_query q; answer_query (chx fuel) reduce load q.
(* save_comp_helper.rs *)
Definition saved (fuel : nat) (l : res (string -> option component)) (q : text) : res (bool * bool * bool * bool) :=
  let ch := chx fuel in
  do load <- l; do e <- parse_to_system_expr q;
  do (r1, st) <- get_system_recipe load e (0, None);
  do (r2, st2) <- get_system_recipe load e (fst st, None);
  let dim := fst st2 in
  match compile (the_least ch) (the_pre ch) dim r2 with
  | Ok s2 =>
    do c <- combine_components (dim + 1) (min_own (dim + 1)) (ch_ord ch) (ch_kord ch) fuel s2 NoPruning;
    do n <- compile (the_least ch) (the_pre ch) dim (RSimple c);
    do b <- compile (the_least ch) (the_pre ch) dim r1;
    do p1 <- the_pre ch (dim + 1) b; do p2 <- the_pre ch (dim + 1) n;
    if andb p1 p2 then
      do o1 <- check_refinement (dim + 1) (ch_ext ch (dim + 1)) (ch_pext ch (dim + 1) n b) (ch_sord ch) (ch_aord ch) n b fuel;
      do o2 <- check_refinement (dim + 1) (ch_ext ch (dim + 1)) (ch_pext ch (dim + 1) b n) (ch_sord ch) (ch_aord ch) b n fuel;
      Ok (p1, p2, match o1 with RSuccess => true | _ => false end, match o2 with RSuccess => true | _ => false end)
    else Ok (p1, p2, true, true)
  | NoFuel => NoFuel | _ => Err
  end.
Definition instrs (fuel : nat) (l : res (string -> option component)) (q : text) : res (list instr * list (string * nat)) :=
  let ch := chx fuel in
  do load <- l; do e <- parse_to_system_expr q; do (r, st) <- get_system_recipe load e (0, None);
  do s <- compile (the_least ch) (the_pre ch) (fst st) r;
  do x <- the_redundant ch (fst st + 1) s; Ok (x, List.concat (ts_decls s)).
Definition edge_ids (fuel : nat) (l : res (string -> option component)) (q : text) : res (list string) :=
  let ch := chx fuel in
  do load <- l; do e <- parse_to_system_expr q; do (r, st) <- get_system_recipe load e (0, None);
  do s <- compile (the_least ch) (the_pre ch) (fst st) r;
  do c <- combine_components (fst st + 1) (min_own (fst st + 1)) (ch_ord ch) (ch_kord ch) fuel s NoPruning;
  Ok (map e_id (remake_edge_ids 0 (c_edges c))).
Definition tids (fuel : nat) (l : res (string -> option component)) (q : text) :=
  let ch := chx fuel in
  do load <- l; do e <- parse_to_system_expr q; do (r, st) <- get_system_recipe load e (0, None);
  do s <- compile (the_least ch) (the_pre ch) (fst st) r;
  do xs <- mapM (fun l => mapM (fun a => do ts <- next_transitions (fst st + 1) s l a; Ok (map t_id ts)) (nodup string_dec (ts_actions s))) (all_locations (fst st + 1) s);
  Ok (List.concat (List.concat xs)).
Definition ask (fuel : nat) (reps : list rep) (m : message) :=
  match serve (fun _ => chx fuel) min_own 2 [Arrive (RModel 1 (Some (5%Z, reps)) (mkCall 0 m)); Run 0; Run 0; Run 0] with
  | Ok sv => Some sv | _ => None end.
Extraction "model.ml" loadj loadx answers replies saved instrs edge_ids tids ask satisfied str parse_queries decode_guard decode_update decode_component get_leaves.
