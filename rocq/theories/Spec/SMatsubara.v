(** Specification vocabulary for sets of reduced Matsubara frequencies. *)
From Coq Require Import List ZArith Reals Sorted.
From Verif.Spec Require Import SRoots.
Import ListNotations.
Open Scope Z_scope.

(** The list reads the same when negated and reversed. *)
Definition symmetric (l : list Z) : Prop := map Z.opp (rev l) = l.

(** Closed under negation as a set. *)
Definition neg_closed (l : list Z) : Prop := forall n, In n l -> In (- n) l.

Definition mult (l : list Z) (n : Z) : nat := count_occ Z.eq_dec l n.

(** No two neighbouring triples of grid points both turn. *)
Definition no_double_turn (f : Z -> R) (grid : list Z) : Prop :=
  forall a c d b, adjacent3 grid a c d -> adjacent3 grid c d b ->
    turns f a c d -> turns f c d b -> False.

(** A search grid: at least two points, strictly increasing from zero or more. *)
Definition search_grid (grid : list Z) : Prop :=
  StronglySorted Z.lt grid /\ (2 <= length grid)%nat /\ Forall (fun x => 0 <= x) grid.

(** [pow2] is exact at integer exponents and otherwise off by a relative
    2^-40 at most (the C library guarantees about 2^-52). *)
Definition accurate_pow2 (pow2 : R -> R) : Prop :=
  forall k : nat, (k <= 304)%nat ->
    let e := (6 + INR k / 16)%R in
    if Nat.eqb (Nat.modulo k 16) 0 then pow2 e = Rpower 2 e
    else (Rabs (pow2 e - Rpower 2 e) <= / 2 ^ 40 * Rpower 2 e)%R.
