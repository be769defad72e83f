(** From a system expression to a transition system: clock numbering and compilation.
    Models src/System/extract_system_rep.rs and the parts of component.rs it uses. *)
From Coq Require Import List String ZArith Bool Arith.
From Verif Require Import Fed.Zone Model.Base Model.Expr Model.Guard Model.Loc Model.Component Model.TS Model.ParseQuery.
Import ListNotations.

(** extract_system_rep.rs:175-181 [SystemRecipe]. *)
Inductive recipe :=
| RSimple (c : component)
| RComp (l r : recipe)
| RConj (l r : recipe)
| RQuot (l r : recipe) (q : nat).

Definition with_decls (c : component) (d : decls) : component :=
  mkComp (c_name c) d (c_locs c) (c_edges c) (c_special c).
Definition with_clocks (c : component) (cl : list (string * nat)) : component :=
  with_decls c (mkDecls cl (d_ints (c_decls c))).
(** The [values_mut] of the clock table, every value changed by [f].  component.rs:203-207. *)
Definition map_clocks (f : nat -> nat) (c : component) : component :=
  with_clocks c (map (fun p => (fst p, f (snd p))) (d_clocks (c_decls c))).

(** component.rs:37-40, 203-207 [set_clock_indices], and extract_system_rep.rs:341 (the special id). *)
Definition instantiate (c : component) (id : option string) (start : nat) : component :=
  let c' := map_clocks (fun i => i + start) c in
  mkComp (c_name c') (c_decls c') (c_locs c') (c_edges c') id.
(** component.rs:199-201 [get_clock_count]. *)
Definition clock_count (c : component) : nat := List.length (d_clocks (c_decls c)).

(** extract_system_rep.rs:306-348 [get_system_recipe].  The state is the number of clocks handed out so far
    and the clock of the quotients, if there is one already.  [load] is the component loader; loading a
    component that does not exist panics. *)
Fixpoint get_system_recipe (load : string -> option component) (e : sysx) (st : nat * option nat)
    : res (recipe * (nat * option nat)) :=
  match e with
  | XPar l r =>
      do (l', st1) <- get_system_recipe load l st;
      do (r', st2) <- get_system_recipe load r st1;
      Ok (RComp l' r', st2)
  | XConj l r =>
      do (l', st1) <- get_system_recipe load l st;
      do (r', st2) <- get_system_recipe load r st1;
      Ok (RConj l' r', st2)
  | XQuot l r =>
      do (l', st1) <- get_system_recipe load l st;
      do (r', st2) <- get_system_recipe load r st1;
      match snd st2 with
      | Some q => Ok (RQuot l' r' q, st2)
      | None => let q := S (fst st2) in Ok (RQuot l' r' q, (q, Some q))
      end
  | XComp n id =>
      do c <- unwrap (load n);
      Ok (RSimple (instantiate c id (fst st)), (fst st + clock_count c, snd st))
  end.

(** extract_system_rep.rs:264-275 [get_components_mut], 277-288 [get_components]. *)
Fixpoint components (r : recipe) : list component :=
  match r with
  | RSimple c => [c]
  | RComp l r | RConj l r | RQuot l r _ => components l ++ components r
  end.

(** extract_system_rep.rs:290-303 [change_quotient]. *)
Fixpoint change_quotient (q : nat) (r : recipe) : recipe :=
  match r with
  | RSimple c => RSimple c
  | RComp l r => RComp (change_quotient q l) (change_quotient q r)
  | RConj l r => RConj (change_quotient q l) (change_quotient q r)
  | RQuot l r _ => RQuot (change_quotient q l) (change_quotient q r) q
  end.

(** extract_system_rep.rs:197-224 [_compile].  [least] is [is_least_consistent] and [pre] is
    [precheck_sys_rep] (Model/Search.v), both for the given dimension; components are numbered from left to
    right, compiled_component.rs:97-107. *)
Section Compile.
Variable least : nat -> ts -> res bool.
Variable pre : nat -> ts -> res bool.

(** conjunction.rs:24-72: the consistency check comes last. *)
Definition conjunction_ts (dim : nat) (l r : ts) : res ts :=
  do s <- conjunction_new l r;
  do b <- least dim s;
  if b then Ok s else Err.
(** quotient.rs:36-112: the prechecks come after the check of the actions. *)
Definition quotient_ts (dim : nat) (t s : ts) (q : nat) : res ts :=
  if negb (disjoint (ts_outputs s) (ts_inputs t)) then Err
  else
    do b <- pre dim t;
    if b then do b' <- pre dim s; if b' then quotient_new t s q else Err
    else Err.

Fixpoint compile_at (dim : nat) (r : recipe) (k : nat) : res (ts * nat) :=
  match r with
  | RSimple c => do cc <- compile_component dim c k; Ok (TSimple cc, S k)
  | RComp l r =>
      do (l', k1) <- compile_at dim l k;
      do (r', k2) <- compile_at dim r k1;
      do s <- composition_new l' r';
      Ok (s, k2)
  | RConj l r =>
      do (l', k1) <- compile_at dim l k;
      do (r', k2) <- compile_at dim r k1;
      do s <- conjunction_ts dim l' r';
      Ok (s, k2)
  | RQuot l r q =>
      do (l', k1) <- compile_at dim l k;
      do (r', k2) <- compile_at dim r k1;
      do s <- quotient_ts dim l' r' q;
      Ok (s, k2)
  end.

(** extract_system_rep.rs:184-187 [compile]. *)
Definition compile (dim : nat) (r : recipe) : res ts :=
  do (s, _) <- compile_at (dim + 1) r 0; Ok s.

(** extract_system_rep.rs:48-72: the two systems of a refinement, without clock reduction. *)
Definition compile_two (dim : nat) (l r : recipe) : res (ts * ts) :=
  do (s, k) <- compile_at (dim + 1) l 0;
  do (t, _) <- compile_at (dim + 1) r k;
  Ok (s, t).
End Compile.
