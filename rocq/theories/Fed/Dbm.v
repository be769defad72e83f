(** Difference-bound matrices and their extrapolation: a computable model of
    edbm [Federation::extrapolate_max_bounds], which /repo calls at
    src/ModelObjects/state.rs:80-92 and src/ModelObjects/statepair.rs:70-80.

    [edbm] is not part of /repo.  This is the classical algorithm (the
    maximum-bounds abstraction of Behrmann, Bouyer, Larsen and Pelanek): each
    zone is written as a matrix of bounds, closed under the triangle inequality,
    and bounds beyond the maximum bounds are dropped or loosened.  The closing of
    the result and the removal of zones contained in others, which do not change
    the set of valuations, are left out. *)
From Coq Require Import ZArith QArith List Bool Arith.
From Verif Require Import Fed.Zone.
Import ListNotations.

(** A bound on [x_i - x_j]: none, or strict or not. *)
Definition bound := option (bool * Z).
Definition bound_sem (b : bound) (q : Q) : Prop := match b with None => True | Some (s, c) => ilt s q (inject_Z c) end.

(** The tighter of two bounds; the sum of two bounds. *)
Definition bmin (a b : bound) : bound :=
  match a, b with
  | None, _ => b
  | _, None => a
  | Some (s, c), Some (t, d) => if Z.ltb c d then a else if Z.ltb d c then b else Some (s || t, c)
  end.
Definition badd (a b : bound) : bound :=
  match a, b with Some (s, c), Some (t, d) => Some (s || t, (c + d)%Z) | _, _ => None end.

(** Matrices as lists of rows. *)
Definition dbm := list (list bound).
Definition dget (m : dbm) (i j : nat) : bound := nth j (nth i m []) None.
Definition dmake (dim : nat) (F : nat -> nat -> bound) : dbm := map (fun i => map (F i) (seq 0 dim)) (seq 0 dim).

(** The bounds a zone gives, with [x_i - x_i <= 0] and [0 - x_j <= 0]. *)
Definition zone_bound (z : zone) (i j : nat) : bound :=
  fold_right (fun c b => if Nat.eqb (ci c) i && Nat.eqb (cj c) j then bmin (Some (cs c, cc c)) b else b)
    (if Nat.eqb i j || Nat.eqb i 0 then Some (false, 0%Z) else None) z.
Definition dbm_of (dim : nat) (z : zone) : dbm := dmake dim (zone_bound z).

(** Closing: the algorithm of Floyd and Warshall. *)
Definition close_step (dim : nat) (m : dbm) (k : nat) : dbm :=
  dmake dim (fun i j => bmin (dget m i j) (badd (dget m i k) (dget m k j))).
Definition close (dim : nat) (m : dbm) : dbm := fold_left (close_step dim) (seq 0 dim) m.

(** The maximum bound of the reference clock is 0. *)
Definition max_bound (b : nat -> option Z) (i : nat) : option Z := if Nat.eqb i 0 then Some 0%Z else b i.
(** The extrapolated bound on [x_i - x_j]: bounds of clocks without a maximum bound are dropped, upper bounds beyond the
    maximum bound are dropped and lower bounds beyond it are replaced by it. *)
Definition extra_bound (b : nat -> option Z) (m : dbm) (i j : nat) : bound :=
  if Nat.eqb i j then dget m i j else
  match dget m i j, max_bound b i, max_bound b j with
  | Some (s, c), Some u, Some l => if Z.ltb u c then None else if Z.ltb c (- l) then Some (true, (- l)%Z) else Some (s, c)
  | _, _, _ => None
  end.
Definition extra (dim : nat) (b : nat -> option Z) (m : dbm) : dbm := dmake dim (extra_bound b m).

(** The constraints of a matrix. *)
Definition dbm_zone (dim : nat) (m : dbm) : zone :=
  flat_map (fun i => flat_map (fun j =>
    match dget m i j with Some (s, c) => if trivial_con (mkC i j s c) then [] else [mkC i j s c] | None => [] end) (seq 0 dim)) (seq 0 dim).

(** Constraints on clocks that do not exist, which edbm cannot express. *)
Definition ztrim (dim : nat) (z : zone) : zone := zelim dim (filter (fun i => Nat.leb dim i) (zvars z)) z.
Definition ftrim (dim : nat) (f : fed) : fed := map (ztrim dim) f.

Definition zextra (dim : nat) (b : nat -> option Z) (z : zone) : zone := dbm_zone dim (extra dim b (close dim (dbm_of dim (ztrim dim z)))).
Definition fextra (dim : nat) (b : nat -> option Z) (f : fed) : fed := map (zextra dim b) (fclean dim f).
