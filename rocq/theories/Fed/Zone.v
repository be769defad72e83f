(** Zones and federations: a computable model of the external crate [edbm].

    [edbm] is not part of /repo; it represents sets of clock valuations by
    unions of difference-bound matrices.  Here a zone is a finite conjunction of
    difference constraints and a federation a finite union of zones.  Only the
    *set of valuations* an operation denotes is modelled, not the matrices
    (normal forms, reductions and their cost are not observable through the
    functions modelled in Model/).  Every operation is a total computable
    function, proved exact in Fed/ZoneFacts.v. *)
From Coq Require Import ZArith QArith List Bool Arith.
Import ListNotations.

(** ** Valuations *)

(** A clock valuation: value of clock [i]; clock 0 is the reference clock. *)
Definition val := nat -> Q.

(** Legal valuations of the clocks [0 .. dim-1]. *)
Definition val_ok (dim : nat) (v : val) : Prop :=
  (v 0%nat == 0)%Q /\ forall i, (i < dim)%nat -> (0 <= v i)%Q.

Definition vset (v : val) (x : nat) (q : Q) : val :=
  fun i => if Nat.eqb i x then q else v i.

(** Letting time [d] pass: every clock but the reference advances. *)
Definition vdelay (v : val) (d : Q) : val :=
  fun i => if Nat.eqb i 0 then v 0%nat else (v i + d)%Q.

Definition veq (v w : val) : Prop := forall i, (v i == w i)%Q.

(** ** Difference constraints *)

(** [x_i - x_j < c] (strict) or [x_i - x_j <= c]: edbm
    [util::constraints::{Constraint, Disjunction, Inequality}] as used in
    src/ModelObjects/Expressions/bool_expression.rs:154-215. *)
Record dcon := mkC { ci : nat; cj : nat; cs : bool; cc : Z }.

Definition ilt (s : bool) (a b : Q) : Prop :=
  if s then (a < b)%Q else (a <= b)%Q.

Definition csem (c : dcon) (v : val) : Prop :=
  ilt (cs c) (v (ci c) - v (cj c))%Q (inject_Z (cc c)).

Definition zone := list dcon.
Definition zsem (z : zone) (v : val) : Prop := forall c, In c z -> csem c v.

Definition fed := list zone.
Definition fsem (dim : nat) (f : fed) (v : val) : Prop :=
  val_ok dim v /\ exists z, In z f /\ zsem z v.

(** ** Variable elimination (Fourier-Motzkin) *)

(** Bound on the eliminated variable [d], relative to a clock:
    lower bound [(j,s,c)] is [x_j + c < d], upper bound [d < x_j + c]. *)
Record bnd := mkB { bv : nat; bs : bool; bc : Z }.

Definition pair_bounds (lo hi : list bnd) : zone :=
  flat_map (fun l => map (fun h =>
    mkC (bv l) (bv h) (bs l || bs h) (bc h - bc l)%Z) hi) lo.

(** Constraints of [z] that do not mention [x] (self loops [x - x] are moved to clock 0). *)
Definition others (x : nat) (z : zone) : zone :=
  flat_map (fun c =>
    if Nat.eqb (ci c) x then
      (if Nat.eqb (cj c) x then [mkC 0 0 (cs c) (cc c)] else [])
    else if Nat.eqb (cj c) x then [] else [c]) z.

Definition lowers (x : nat) (z : zone) : list bnd :=
  flat_map (fun c =>
    if Nat.eqb (cj c) x && negb (Nat.eqb (ci c) x)
    then [mkB (ci c) (cs c) (- cc c)%Z] else []) z.

Definition uppers (x : nat) (z : zone) : list bnd :=
  flat_map (fun c =>
    if Nat.eqb (ci c) x && negb (Nat.eqb (cj c) x)
    then [mkB (cj c) (cs c) (cc c)] else []) z.

Definition nonneg_bound (dim x : nat) : list bnd :=
  if Nat.ltb x dim then [mkB 0 false 0%Z] else [].

(** Remove duplicate constraints (representation only). *)
Definition dcon_eqb (a b : dcon) : bool :=
  Nat.eqb (ci a) (ci b) && Nat.eqb (cj a) (cj b) && Bool.eqb (cs a) (cs b) && Z.eqb (cc a) (cc b).

Fixpoint dedup (z : zone) : zone :=
  match z with
  | [] => []
  | c :: t => if existsb (dcon_eqb c) t then dedup t else c :: dedup t
  end.

(** Drop constraints [0 - 0 <= c] that hold. *)
Definition trivial_con (c : dcon) : bool :=
  Nat.eqb (ci c) (cj c) && (if cs c then Z.ltb 0 (cc c) else Z.leb 0 (cc c)).

Definition tidy (z : zone) : zone := dedup (filter (fun c => negb (trivial_con c)) z).

(** edbm [free_clock]: forget the value of clock [x]. *)
Definition zfree (dim x : nat) (z : zone) : zone :=
  tidy (others x z ++ pair_bounds (nonneg_bound dim x ++ lowers x z) (uppers x z)).

(** edbm [up]: let time pass.  [lowers 0]/[uppers 0] bound the elapsed time. *)
Definition zup (dim : nat) (z : zone) : zone :=
  tidy (others 0 z ++
        pair_bounds (mkB 0 false 0%Z :: lowers 0 z)
                    (uppers 0 z ++ map (fun i => mkB i false 0%Z) (seq 1 (dim - 1)))).

(** edbm [down]: the valuations from which the zone can be reached by delay. *)
Definition zdown (z : zone) : zone :=
  tidy (others 0 z ++ pair_bounds (lowers 0 z) (mkB 0 false 0%Z :: uppers 0 z)).

(** ** Emptiness *)

Definition zvars (z : zone) : list nat :=
  filter (fun x => negb (Nat.eqb x 0)) (nodup Nat.eq_dec (flat_map (fun c => [ci c; cj c]) z)).

Definition zelim (dim : nat) (xs : list nat) (z : zone) : zone :=
  fold_left (fun z x => zfree dim x z) xs z.

Definition const_ok (c : dcon) : bool :=
  if cs c then Z.ltb 0 (cc c) else Z.leb 0 (cc c).

Definition zempty (dim : nat) (z : zone) : bool :=
  negb (forallb const_ok (zelim dim (zvars z) z)).

Definition fclean (dim : nat) (f : fed) : fed := filter (fun z => negb (zempty dim z)) f.

(** ** Federations *)

(** edbm [Federation::is_empty]. *)
Definition fempty (dim : nat) (f : fed) : bool := forallb (zempty dim) f.

(** edbm [OwnedFederation::empty] / [universe]. *)
Definition fnone : fed := [].
Definition funiv : fed := [[]].

(** edbm [OwnedFederation::zero]: all clocks are 0. *)
Definition zero_zone (dim : nat) : zone :=
  flat_map (fun i => [mkC i 0 false 0%Z; mkC 0 i false 0%Z]) (seq 1 (dim - 1)).
Definition fzero (dim : nat) : fed := [zero_zone dim].

(** edbm [constrain(i, j, inequality)]. *)
Definition fcon (c : dcon) (f : fed) : fed := map (cons c) f.

(** edbm [constrain_eq(i, j, c)]: [x_i - x_j = c]. *)
Definition fcon_eq (i j : nat) (k : Z) (f : fed) : fed :=
  fcon (mkC i j false k) (fcon (mkC j i false (- k)%Z) f).

Definition ffree (dim x : nat) (f : fed) : fed := map (zfree dim x) f.

(** edbm [update_clock_val(x, k)]: [x := k]. *)
Definition fassign (dim x : nat) (k : Z) (f : fed) : fed :=
  fcon_eq x 0 k (ffree dim x f).

Definition fup (dim : nat) (f : fed) : fed := map (zup dim) f.
Definition fdown (f : fed) : fed := map zdown f.

(** edbm [OwnedFederation::init]: all clocks 0, then time may pass. *)
Definition finit (dim : nat) : fed := fup dim (fzero dim).

(** edbm [intersection]. *)
Definition finter (dim : nat) (f g : fed) : fed :=
  fclean dim (flat_map (fun z => map (fun w => dedup (z ++ w)) g) f).

(** edbm [+] / [union]. *)
Definition funion (f g : fed) : fed := f ++ g.

Definition cneg (c : dcon) : dcon := mkC (cj c) (ci c) (negb (cs c)) (- cc c)%Z.
Definition zcompl (z : zone) : fed := map (fun c => [cneg c]) z.

(** edbm [inverse] / [!]. *)
Fixpoint fcompl (dim : nat) (f : fed) : fed :=
  match f with
  | [] => funiv
  | z :: f' => finter dim (zcompl z) (fcompl dim f')
  end.

(** edbm [subtraction]: zone by zone. *)
Fixpoint fsub (dim : nat) (f g : fed) : fed :=
  match g with
  | [] => f
  | z :: g' => fsub dim (finter dim f (zcompl z)) g'
  end.

(** edbm [subset_eq], [equals], [has_intersection], [is_universe]. *)
Definition fsubset (dim : nat) (f g : fed) : bool := fempty dim (fsub dim f g).
Definition fequals (dim : nat) (f g : fed) : bool := fsubset dim f g && fsubset dim g f.
Definition fmeets (dim : nat) (f g : fed) : bool := negb (fempty dim (finter dim f g)).
Definition fisuniv (dim : nat) (f : fed) : bool := fempty dim (fcompl dim f).

(** edbm [can_delay_indefinitely]: some non-empty zone has no upper bound on any clock. *)
Definition zunbounded (dim : nat) (z : zone) : bool :=
  negb (zempty dim z) &&
  forallb (fun c => negb (Nat.eqb (cj c) 0 && negb (Nat.eqb (ci c) 0))) z.
Definition fcan_delay (dim : nat) (f : fed) : bool := existsb (zunbounded dim) f.
