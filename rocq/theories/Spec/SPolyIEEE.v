(** Specification vocabulary for piecewise polynomials evaluated in rounded
    arithmetic. *)
From Coq Require Import List Reals Sorting.Sorted.
From Verif.Model Require Import Base Num Poly.
From Verif.Spec Require Import SPoly.
Open Scope R_scope.

(** Strictly increasing knots, and stored segment lengths that are the differences
    of the knots up to one rounding. *)
Definition geom_near (u eta : R) (g : geom) : Prop :=
  (0 < gnseg g)%nat /\ length (gknots g) = S (gnseg g) /\ StronglySorted Rlt (gknots g) /\
  length (gdx g) = gnseg g /\
  (forall i, (i < gnseg g)%nat ->
     Rabs (nth i (gdx g) 0 - (knot g (S i) - knot g i)) <= u * (knot g (S i) - knot g i) + eta).

(** The segment a point belongs to: the one to its right at an inner knot, the
    last one at the right end. *)
Definition in_segment (g : geom) (i : nat) (x : R) : Prop :=
  (i < gnseg g)%nat /\ knot g i <= x /\ (x < knot g (S i) \/ (S i = gnseg g /\ x = gxmax g)).

(** The length of segment i is neither so small nor so large that it comes near
    the smallest numbers. *)
Definition fair_length (u eta : R) (g : geom) (i : nat) : Prop :=
  1000 * eta <= u * (knot g (S i) - knot g i) /\ 1000 * eta * (knot g (S i) - knot g i) <= u.

(** How many units of rounding are lost in segment i, with n coefficients:
    60 n^2 (6 + 5 max(|a|, |b|) / (b - a)). *)
Definition loss (g : geom) (i : nat) : R :=
  60 * (INR (glen g) * INR (glen g)) *
  (6 + 5 * (Rmax (Rabs (knot g i)) (Rabs (knot g (S i))) / (knot g (S i) - knot g i))).

(** The allowed distance between computed and true values of a column in segment i. *)
Definition call_error (u eta : R) (g : geom) (c : col) (i : nat) : R :=
  loss g i * u * sqrt (2 / (knot g (S i) - knot g i)) *
  (sumn (glen g) (fun k => Rabs (cdat c k i)) + eta / u) + eta.
