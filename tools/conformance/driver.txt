open Model
open Data
exception Timeout
let s l = String.concat "" (List.map (String.make 1) l)
let lim = int_of_string Sys.argv.(2)
let guarded f =
  ignore (Unix.alarm lim);
  let t0 = Unix.gettimeofday () in
  let r = try f () with Timeout -> "timeout" | Stack_overflow -> "stack" in
  ignore (Unix.alarm 0);
  r, Unix.gettimeofday () -. t0
let res f = function Ok a -> f a | Err -> "Err" | Panic -> "Panic" | NoFuel -> "NoFuel"
let loc p = let rec go = function _ -> "" in ""
let () =
  Sys.set_signal Sys.sigalrm (Sys.Signal_handle (fun _ -> raise Timeout));
  match Sys.argv.(1) with
  | "red" | "nored" as m -> List.iter (fun (n, q, e, l) ->
      let r, d = guarded (fun () -> res (fun a -> string_of_bool (satisfied a)) (answers 100000 (m = "red") l (t q))) in
      Printf.printf "%s | %s | expected %s | got %s | %.1f%s\n%!" n q e r d (if r = e then "" else if r = "timeout" then " SLOW" else " DIFF")) tests
  | "replies" -> List.iter (fun (n, q, e, l) -> if e = "other" then
      let sys x = s x in
      let det d = "NotDeterministic " ^ sys d.pdf_system ^ " " ^ (match d.pdf_state with Some a -> s a.psa_action | None -> "-") in
      let cons c = sys c.pcf_system ^ " " ^ (match c.pcf_failure with Some (PNoInitialState _) -> "NoInitial" | Some (PDeterminism d) -> det d | Some (PFailureState _) -> "InconsistentState" | None -> "-") in
      let act a = "kind " ^ string_of_int a.paf_kind in
      let r, d = guarded (fun () -> res (function PSuccess -> "success" | PReachabilityPath _ -> "path" | PComponent _ -> "component" | PReachabilityFailure _ -> "unreach"
        | PRefinementFailure f -> "refinement " ^ sys f.prf_system ^ ": " ^ (match f.prf_failure with Some (PEmptySystem c) -> "empty system" | Some (PNoInitial _) -> "EmptyInitial" | Some (PInconsistentChild c) -> cons c | Some (PActionMismatch a) -> "mismatch " ^ act a | Some (PRefinementState (k, st)) -> "state " ^ string_of_int k | None -> "-")
        | PConsistencyFailure c -> "consistency " ^ cons c | PDeterminismFailure d -> "determinism " ^ det d
        | PModelFailure m -> "model " ^ sys m.pmf_system ^ (match m.pmf_failure with Some (PModelActions a) -> act a | Some (PInconsistentConjunction c) -> cons c | None -> "-")) (replies 100000 true l (t q))) in
      Printf.printf "%s | %s | got %s | %.1f\n%!" n q r d) tests
  | "saves" -> List.iter (fun (n, q, l) ->
      let r, d = guarded (fun () -> res (fun (((a, b), c), e) -> String.concat " " (List.map string_of_bool [a; b; c; e])) (saved 100000 l (t q))) in
      Printf.printf "%s | %s | got %s | %.1f%s\n%!" n q r d (if r = "timeout" then " SLOW" else if List.mem r ["true true true true"; "false false true true"; "Err"] then "" else " DIFF")) saves
  | "paths" -> List.iter (fun (q, e, l) ->
      let r, d = guarded (fun () -> res (function PReachabilityPath ps -> "[" ^ String.concat ", " (List.map (fun p -> let x = List.map (fun e -> "\"" ^ s e.pe_id ^ "\"") p.pd_edges in match x with [a] -> a | _ -> "[" ^ String.concat "," x ^ "]") ps) ^ "]" | _ -> "other") (replies 100000 true l (t q))) in
      Printf.printf "%s | expected %s | got %s | %.1f\n%!" q e r d) paths
  | "reds" -> List.iter (fun (n, q, e, l) ->
      let r, d = guarded (fun () -> res (fun (x, m) -> String.concat "; " (List.map (function RemoveClock i -> "remove " ^ string_of_int i | ReplaceClocks (i, o) -> string_of_int i ^ " <- " ^ String.concat "," (List.map string_of_int o)) x) ^ "  where " ^ String.concat " " (List.map (fun (n, i) -> s n ^ "=" ^ string_of_int i) m)) (instrs 100000 l (t q))) in
      Printf.printf "%s | %s | expected %s | got %s | %.1f\n%!" n q e r d) reds
  | "ids" -> List.iter (fun q ->
      let r, d = guarded (fun () -> res (fun x -> String.concat " " (List.map s x)) (edge_ids 100000 uni (t q))) in
      Printf.printf "%s | %s\n%!" q r;
      let rec id = function TISimple a -> s a | _ -> "?" in ()) ["Machine"; "HalfAdm1 && HalfAdm2"]
  | "sims" -> List.iter (fun (q, reps) ->
      let point m = match ask 100000 reps m with Some sv -> (match sv.sv_threads with [TDone (_, ToOk (BPoint p))] -> Some p | _ -> None) | None -> None in
      let n = ref 0 and bad = ref 0 in
      let r, d = guarded (fun () -> match point (MStart (t q)) with None -> "no start" | Some p ->
        List.iter (fun c -> incr n; match point (MStep (t q, Some c)) with None -> incr bad | Some p2 -> List.iter (fun c2 -> incr n; match point (MStep (t q, Some c2)) with None -> incr bad | Some _ -> ()) p2.pr_decisions) p.pr_decisions; "done") in
      Printf.printf "%s | %s steps %d bad %d | %.1f\n%!" q r !n !bad d) sims
  | "errs" -> List.iter (fun (q, e) ->
      let r, d = guarded (fun () -> res (fun _ -> "Ok") (answers 100000 true uni (t q))) in
      Printf.printf "%s | expected %s | got %s\n%!" q e r) [
   "reachability: Adm2 @ Adm2.L20 && Adm2.u>1 -> Adm2.L20", "Err"; "reachability: Adm2 @ Adm2.L20 && Adm2.uwu>2 -> Adm2.L20", "Err";
   "reachability: Adm2 @ Adm2.L20 && Adm2.x>1 -> Adm2.L20", "Ok"; "reachability: Adm2 @ Adm2.L20 && Adm2.y<1 -> Adm2.L20", "Ok";
   "reachability: Adm2 @ Adm2.L19 -> Adm2.L20", "Err"; "reachability: Adm2 @ Adm2.NOTCORRECTNAME -> Adm2.L20", "Err"; "reachability: Adm2 @ Adm2.L20 -> Adm2.L23", "Ok"; "reachability: Adm2 @ Adm2.L23 -> Adm2.L20", "Ok";
   "reachability: Adm2 @ true -> Adm2.L20", "Err"; "reachability: Adm2[1] && Adm2[2] @ Adm2[1].L21 -> Adm2[1].L20 && Adm2[2].L21", "Err"; "reachability: Adm2[1] && Adm2[2] && Adm2[3] && Adm2[4] && Adm2[5] @ Adm2[1].L20 -> Adm2[2].L21", "Err";
   "reachability: Adm2 @ L20 && Adm2.y<3 -> Adm2.L20", "Err"; "reachability: Adm2 @ Adm2.L20 && y<3 -> Adm2.L20 && y<2", "Err";
   "reachability: Adm2[1] && Adm2[2] @ Adm2[1].L20 && Adm2[2].L20 && Adm2[1].y<3 -> Adm2[1].L20 && Adm2[1].y<2", "Ok"]
  | _ -> ()
