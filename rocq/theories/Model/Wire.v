(** States and decisions as the simulator sends them to a client and reads them back.
    Models src/System/specifics.rs, src/ProtobufServer/proto_conversions.rs,
    src/DataReader/proto_reader.rs and the two handlers of
    src/ProtobufServer/ecdar_requests/simulation_requests.rs.
    Not modelled: prost's byte encoding (a message arrives as it was sent), and the range
    of i32 constants and u32 instance numbers (they are [Z] and [nat]; no conversion
    between integer types happens to them). *)
From Coq Require Import List String ZArith Bool Arith.
From Verif Require Import Fed.Zone Model.Base Model.Expr Model.Guard Model.Loc Model.Component Model.TS Model.Search Model.Sim.
Import ListNotations.

(** ** The specific form (specifics.rs) *)

(** specifics.rs:100-105 [SpecificComp]. *)
Record spec_comp := mkSC { sc_name : string; sc_id : nat }.
(** query_failures.rs [SystemType], as far as locations use it. *)
Inductive sysop := OpConj | OpComp | OpQuot | OpRefine | OpSimple.
(** specifics.rs:223-236 [SpecificLocation]. *)
Inductive specloc :=
| SLComp (c : spec_comp) (id : string)
| SLBranch (l r : specloc) (op : sysop)
| SLSpecial (k : special).
(** specifics.rs:169-178 [SpecificClockVar] with :334-339 [SpecificClock]. *)
Inductive specclock := SCZero | SCComp (name : string) (c : spec_comp) | SCSystem (i : nat).
(** specifics.rs:180-187 [SpecificConstraint]. *)
Record speccon := mkSCon { sk_i : specclock; sk_j : specclock; sk_strict : bool; sk_c : Z }.
(** specifics.rs:216-221 [SpecificState]. *)
Record specstate := mkSS { ss_loc : specloc; ss_zone : list (list speccon) }.
(** specifics.rs:113-117 [SpecificEdge]. *)
Record specedge := mkSE { se_comp : spec_comp; se_edge : string }.
(** specifics.rs:17-23 [SpecificDecision]. *)
Record specdecision := mkSD { sd_source : specstate; sd_action : string; sd_edges : list specedge; sd_dest : specstate }.

(** transition_system.rs:24-27 [ComponentInfoTree]. *)
Inductive infotree := Info (c : ccomp) | InfoNode (l r : infotree).
(** transition_system.rs:30-37 [iter]. *)
Fixpoint info_iter (t : infotree) : list ccomp :=
  match t with Info c => [c] | InfoNode l r => info_iter l ++ info_iter r end.
(** transition_system.rs:39-46 [split]. *)
Definition info_split (t : infotree) : res (infotree * infotree) :=
  match t with InfoNode l r => Ok (l, r) | Info _ => Panic (* unreachable! *) end.
(** transition_system.rs:48-57 [info]. *)
Definition info_get (t : infotree) : res ccomp :=
  match t with Info c => Ok c | InfoNode _ _ => Panic (* unreachable! *) end.
(** transition_system.rs:137-142, compiled_component.rs:205-207 [comp_infos]. *)
Fixpoint comp_infos (s : ts) : infotree :=
  match s with
  | TSimple c => Info c
  | TConj l r _ _ => InfoNode (comp_infos l) (comp_infos r)
  | TComp l r _ _ _ _ _ => InfoNode (comp_infos l) (comp_infos r)
  | TQuot t d _ _ _ _ => InfoNode (comp_infos t) (comp_infos d)
  end.

Definition comp_of (c : ccomp) : spec_comp := mkSC (cc_name c) (cc_id c).

(** specifics.rs:395-425 [specific_location]. *)
Fixpoint location_in (id : locid) (infos : infotree) : res specloc :=
  match id with
  | LConj l r => do (il, ir) <- info_split infos; do a <- location_in l il; do b <- location_in r ir; Ok (SLBranch a b OpConj)
  | LComp l r => do (il, ir) <- info_split infos; do a <- location_in l il; do b <- location_in r ir; Ok (SLBranch a b OpComp)
  | LQuot l r => do (il, ir) <- info_split infos; do a <- location_in l il; do b <- location_in r ir; Ok (SLBranch a b OpQuot)
  | LSimple n => do c <- info_get infos; Ok (SLComp (comp_of c) n)
  | LSpecial k => Ok (SLSpecial k)
  | LAny => Panic (* unreachable! *)
  end.
(** specifics.rs:395-425. *)
Definition specific_location (id : locid) (s : ts) : res specloc := location_in id (comp_infos s).

(** specifics.rs:347-366 [specific_clock_comp_map].  [cord] is the order in which the
    clocks of a declaration are iterated; a later entry for an index replaces an earlier. *)
Definition clock_comp_map (cord : list (string * nat) -> list (string * nat)) (s : ts) : list (nat * (string * spec_comp)) :=
  flat_map (fun c => map (fun p => (snd p, (fst p, comp_of c))) (cord (d_clocks (cc_decls c)))) (info_iter (comp_infos s)).
(** [HashMap::get] on a collected map: the last entry for the key.  specifics.rs:194-205. *)
Definition last_entry {V} (k : nat) (m : list (nat * V)) : option V :=
  option_map snd (find (fun p => Nat.eqb k (fst p)) (rev m)).

(** specifics.rs:194-205 [map_clock]. *)
Definition map_clock (m : list (nat * (string * spec_comp))) (x : nat) : specclock :=
  if Nat.eqb x 0 then SCZero
  else match last_entry x m with Some (n, c) => SCComp n c | None => SCSystem x end.
(** specifics.rs:190-213 [from_constraint]. *)
Definition specific_con (m : list (nat * (string * spec_comp))) (c : dcon) : speccon :=
  mkSCon (map_clock m (ci c)) (map_clock m (cj c)) (cs c) (cc c).

(** specifics.rs:25-64 [transition_id_to_specific_edges]: the edges in the order they are
    pushed; an identifier that does not fit the system is a failed assertion. *)
Fixpoint specific_edges (id : transid) (s : ts) {struct id} : res (list specedge) :=
  match id with
  | TIConj a b =>
      match s with
      | TConj l r _ _ => do x <- specific_edges a l; do y <- specific_edges b r; Ok (x ++ y)
      | _ => Panic
      end
  | TIComp a b =>
      match s with
      | TComp l r _ _ _ _ _ => do x <- specific_edges a l; do y <- specific_edges b r; Ok (x ++ y)
      | _ => Panic
      end
  | TIQuot ls rs =>
      match s with
      | TQuot t d _ _ _ _ =>
          let go := fix go (ids : list transid) (s : ts) : res (list specedge) :=
            match ids with [] => Ok [] | i :: ids' => do x <- specific_edges i s; do y <- go ids' s; Ok (x ++ y) end in
          do x <- go ls t; do y <- go rs d; Ok (x ++ y)
      | _ => Panic
      end
  | TISimple e =>
      match s with TSimple c => Ok [mkSE (comp_of c) e] | _ => Panic end
  | TINone => Ok []
  end.

(** ** The messages (the .proto file is not in the repository; the fields are those the
    conversions use).  proto_conversions.rs:20-174, 326-355. *)
Record pcomp := mkPC { pc_name : string; pc_index : nat }.
Inductive ptree :=
| PEmpty                                          (* node_type: None *)
| PBin (l r : option ptree) (op : Z)
| PLeaf (id : string) (c : option pcomp)
| PSpecial (k : Z).
(** proto_conversions.rs:144-174. *)
Inductive pclock :=
| PCNone                                          (* clock: None *)
| PCZero
| PCComp (c : option pcomp) (name : string)
| PCSystem (i : nat).
Record pcon := mkPCon { pk_x : option pclock; pk_y : option pclock; pk_strict : bool; pk_c : Z }.
Record pstate := mkPS { ps_tree : option ptree; ps_zone : option (list (list pcon)) }.
Record pedge := mkPE { pe_id : string; pe_comp : option pcomp }.
Record pdecision := mkPD { pd_source : option pstate; pd_action : string; pd_edges : list pedge; pd_dest : option pstate }.
Record presponse := mkPR { pr_state : option pstate; pr_decisions : list pdecision }.

(** proto_conversions.rs:95-111. *)
Definition comp_to_proto (c : spec_comp) : pcomp := mkPC (sc_name c) (sc_id c).
Definition comp_from_proto (c : pcomp) : spec_comp := mkSC (pc_name c) (pc_index c).

(** proto_conversions.rs:29-62. *)
Fixpoint loc_to_proto (l : specloc) : res ptree :=
  match l with
  | SLBranch a b op =>
      do x <- loc_to_proto a;
      do y <- loc_to_proto b;
      do o <- match op with OpConj => Ok 0%Z | OpComp => Ok 1%Z | OpQuot => Ok 2%Z | OpRefine => Ok 3%Z | OpSimple => Panic (* unreachable! *) end;
      Ok (PBin (Some x) (Some y) o)
  | SLComp c id => Ok (PLeaf id (Some (comp_to_proto c)))
  | SLSpecial k => Ok (PSpecial (match k with SUniversal => 0%Z | SError => 1%Z end))
  end.

(** proto_conversions.rs:64-93.  prost's accessor [operator()] gives the default
    Conjunction for an unknown number. *)
Fixpoint loc_from_proto (p : ptree) : res specloc :=
  match p with
  | PEmpty => Panic (* unwrap *)
  | PBin l r op =>
      let o := if Z.eqb op 1 then OpComp else if Z.eqb op 2 then OpQuot else if Z.eqb op 3 then OpRefine else OpConj in
      do a <- match l with Some l => loc_from_proto l | None => Panic end;
      do b <- match r with Some r => loc_from_proto r | None => Panic end;
      Ok (SLBranch a b o)
  | PLeaf id c => do c <- unwrap c; Ok (SLComp (comp_from_proto c) id)
  | PSpecial k =>
      if Z.eqb k 0 then Ok (SLSpecial SUniversal) else if Z.eqb k 1 then Ok (SLSpecial SError) else Panic
  end.

(** proto_conversions.rs:144-171; [u32::try_from] fails from 2^32 on. *)
Definition clock_to_proto (c : specclock) : res pclock :=
  match c with
  | SCZero => Ok PCZero
  | SCComp n c => Ok (PCComp (Some (comp_to_proto c)) n)
  | SCSystem i => if Z.ltb (Z.of_nat i) 4294967296 then Ok (PCSystem i) else Panic
  end.
(** proto_conversions.rs:133-142. *)
Definition con_to_proto (c : speccon) : res pcon :=
  do x <- clock_to_proto (sk_i c);
  do y <- clock_to_proto (sk_j c);
  Ok (mkPCon (Some x) (Some y) (sk_strict c) (sk_c c)).
(** proto_conversions.rs:113-131. *)
Definition zone_to_proto (z : list (list speccon)) : res (list (list pcon)) := mapM (mapM con_to_proto) z.
(** proto_conversions.rs:20-27. *)
Definition state_to_proto (s : specstate) : res pstate :=
  do t <- loc_to_proto (ss_loc s);
  do z <- zone_to_proto (ss_zone s);
  Ok (mkPS (Some t) (Some z)).
(** proto_conversions.rs:347-354. *)
Definition edge_to_proto (e : specedge) : pedge := mkPE (se_edge e) (Some (comp_to_proto (se_comp e))).
(** proto_conversions.rs:326-335. *)
Definition decision_to_proto (d : specdecision) : res pdecision :=
  do a <- state_to_proto (sd_source d);
  do b <- state_to_proto (sd_dest d);
  Ok (mkPD (Some a) (sd_action d) (map edge_to_proto (sd_edges d)) (Some b)).

(** ** Reading (proto_reader.rs) *)

(** proto_reader.rs:95-106 [determine_index]; [m] is the map of lines 131-134. *)
Definition determine_index (m : list (nat * (string * decls))) (c : pclock) : res nat :=
  match c with
  | PCNone => Panic (* unwrap *)
  | PCComp c n =>
      do c <- unwrap c;
      do (name, d) <- unwrap (last_entry (pc_index c) m);
      if String.eqb name (pc_name c) then unwrap (assoc n (d_clocks d)) else Panic (* assert_eq! *)
  | PCSystem i => Ok i
  | PCZero => Ok 0
  end.
(** proto_reader.rs:91-120. *)
Definition con_from_proto (m : list (nat * (string * decls))) (c : pcon) : res dcon :=
  do x <- unwrap (pk_x c);
  do i <- determine_index m x;
  do y <- unwrap (pk_y c);
  do j <- determine_index m y;
  Ok (mkC i j (pk_strict c) (pk_c c)).
(** proto_reader.rs:130-134. *)
Definition decls_map (s : ts) : list (nat * (string * decls)) :=
  map (fun c => (cc_id c, (cc_name c, cc_decls c))) (info_iter (comp_infos s)).

Section Wire.
Variable dim : nat.

(** edbm [OwnedFederation::from_disjunction]: an index outside the matrix panics.  proto_reader.rs:153. *)
Definition from_disjunction (f : fed) : res fed :=
  if forallb (forallb (fun c => Nat.ltb (ci c) dim && Nat.ltb (cj c) dim)) f then Ok f else Panic.
(** proto_reader.rs:122-154. *)
Definition zone_from_proto (s : ts) (z : list (list pcon)) : res fed :=
  do f <- mapM (mapM (con_from_proto (decls_map s))) z;
  from_disjunction f.

(** [construct_location_tree]: common.rs:137-147, compiled_component.rs:213-231,
    quotient.rs:386-401. *)
Fixpoint construct_location (s : ts) (target : specloc) : res loctree :=
  match s with
  | TSimple c =>
      match target with
      | SLComp k id =>
          if String.eqb (sc_name k) (cc_name c) then
            ok_or (find (fun l => locid_eqb (lt_id l) (LSimple id)) (cc_locs c))
          else Panic (* assert_eq! *)
      | _ => Panic (* unreachable! *)
      end
  | TConj l r _ _ =>
      match target with
      | SLBranch a b _ => do x <- construct_location l a; do y <- construct_location r b; lt_compose dim x y CConj
      | _ => Panic (* unreachable! in split *)
      end
  | TComp l r _ _ _ _ _ =>
      match target with
      | SLBranch a b _ => do x <- construct_location l a; do y <- construct_location r b; lt_compose dim x y CComp
      | _ => Panic
      end
  | TQuot t d _ _ _ q =>
      match target with
      | SLBranch a b _ => do x <- construct_location t a; do y <- construct_location d b; Ok (lt_quotient x y)
      | SLSpecial SUniversal => Ok lt_universal
      | SLSpecial SError => Ok (lt_error q)
      | SLComp _ _ => Panic (* unreachable! *)
      end
  end.

(** proto_reader.rs:82-89. *)
Definition tree_from_proto (s : ts) (p : ptree) : res loctree :=
  do l <- loc_from_proto p;
  expect (construct_location s l).
(** proto_reader.rs:69-80 [proto_state_to_state]. *)
Definition read_state (s : ts) (p : pstate) : res state :=
  do z <- unwrap (ps_zone p);
  do f <- zone_from_proto s z;
  do t <- unwrap (ps_tree p);
  do l <- tree_from_proto s t;
  Ok (mkS l (apply_inv dim l f)).
(** proto_reader.rs:35-61 [proto_decision_to_decision].  The transition of the result is
    [None] in Rust and nothing reads it; here it is the transition that does nothing. *)
Definition read_decision (s : ts) (p : pdecision) : res decision :=
  do a <- unwrap (pd_source p);
  do st <- read_state s a;
  do b <- unwrap (pd_dest p);
  do nx <- read_state s b;
  if String.eqb (pd_action p) "" then Panic (* assert! *)
  else Ok (mkD st (pd_action p) (t_without_id (s_loc st)) nx).

(** edbm [minimal_constraints] and the iteration order of clock declarations. *)
Variable minc : fed -> fed.
Variable cord : list (string * nat) -> list (string * nat).

(** specifics.rs:292-303 [SpecificState::from_state]. *)
Definition specific_state (s : ts) (st : state) : res specstate :=
  do l <- specific_location (lt_id (s_loc st)) s;
  Ok (mkSS l (map (map (specific_con (clock_comp_map cord s))) (minc (s_zone st)))).
(** The state as a message: [SpecificState::from_state(..).into()].  proto_conversions.rs:20-27. *)
Definition write_state (s : ts) (st : state) : res pstate :=
  do x <- specific_state s st; state_to_proto x.
(** specifics.rs:67-79 [SpecificDecision::from_decision]. *)
Definition specific_decision (s : ts) (d : decision) : res specdecision :=
  do es <- specific_edges (t_id (d_trans d)) s;
  do a <- specific_state s (d_state d);
  do b <- specific_state s (d_next d);
  Ok (mkSD a (d_action d) es b).
Definition write_decision (s : ts) (d : decision) : res pdecision :=
  do x <- specific_decision s d; decision_to_proto x.

(** simulation_requests.rs:17-40 [handle_start_simulation], the system being given.
    [acts] is the set of actions in the order it happens to be iterated. *)
Definition start_simulation (acts : list string) (s : ts) : res presponse :=
  do ds <- initial_decisions dim acts s;
  do pds <- mapM (write_decision s) ds;
  do full <- match initial_state dim s with
             | Some st => do p <- write_state s st; Ok (Some p)
             | None => Ok None
             end;
  Ok (mkPR full pds).

(** simulation_requests.rs:44-70 [handle_take_simulation_step], the system being given. *)
Definition take_step (acts : list string) (s : ts) (chosen : pdecision) : res presponse :=
  let full := pd_dest chosen in
  do d <- read_decision s chosen;
  do ds <- resolve dim acts s d;
  do pds <- mapM (write_decision s) ds;
  Ok (mkPR full pds).
End Wire.
