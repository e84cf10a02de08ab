(** Specification vocabulary for root finding on a grid. *)
From Coq Require Import List ZArith Reals.
Import ListNotations.

(** [a] and [b] are neighbouring grid points. *)
Definition adjacent {X} (grid : list X) (a b : X) : Prop :=
  exists l1 l2, grid = l1 ++ a :: b :: l2.

(** The function is nonzero at both ends of a grid interval, and its sign bit
    differs between them. *)
Definition sign_interval {X V} (signbit iszero : V -> bool) (f : X -> V) (a b : X) : Prop :=
  iszero (f a) = false /\ iszero (f b) = false /\ signbit (f a) <> signbit (f b).

(** The integer [r] is a sign change: the sign bit flips from r to r+1. *)
Definition flips {V} (signbit : V -> bool) (f : Z -> V) (r : Z) : Prop :=
  signbit (f r) <> signbit (f (r + 1)%Z).

(** A loop with fuel ends with result [r]. *)
Definition ends_with {A} (run : nat -> option A) (r : A) : Prop :=
  exists n, forall fuel, n <= fuel -> run fuel = Some r.

(** Three consecutive grid points. *)
Definition adjacent3 {X} (grid : list X) (a c b : X) : Prop :=
  exists l1 l2, grid = l1 ++ a :: c :: b :: l2.

(** The secants from a to c and from c to b have different sign bits. *)
Definition turns (f : Z -> R) (a c b : Z) : Prop :=
  ((f c - f a < 0 /\ 0 <= f b - f c) \/ (0 <= f c - f a /\ f b - f c < 0))%R.

(** [r] lies strictly between [a] and [b] and |f| does not increase when moving
    to an integer neighbour that is also strictly between. *)
Definition inner_max (f : Z -> R) (a b r : Z) : Prop :=
  (a < r < b)%Z /\
  ((r + 1 < b)%Z -> (Rabs (f (r + 1)%Z) < Rabs (f r))%R) /\
  ((a < r - 1)%Z -> (Rabs (f (r - 1)%Z) <= Rabs (f r))%R).

(** Magnitude decreases, or the sign bit changes, from [x] to [y]. *)
Definition outer_max (f : Z -> R) (x y : Z) : Prop :=
  (Rabs (f y) < Rabs (f x) \/ (f x < 0 /\ 0 <= f y) \/ (0 <= f x /\ f y < 0))%R.
