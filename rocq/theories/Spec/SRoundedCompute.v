(** Specification vocabulary for the whole of sve.compute in rounded arithmetic. *)
From Coq Require Import Reals Arith.
From Coq Require Import List.
From Verif.Model Require Import Base Num Gauss Poly SVE Compute.
From Verif.Spec Require Import SSVE SCompute.
Import ListNotations.
Open Scope R_scope.

(** [L] functions with [n] coefficients on each of [m] segments, each coefficient with
    relative error [ce] and absolute error [tau]: the error of all of them together, as
    the root of the sum of the squares. *)
Definition vectors_error (n L m : nat) (ce tau : R) : R := INR n * sqrt (INR L) * (3 * ce + 2 * sqrt (INR m) * tau).

(** The error of the sum of products of values and functions when the values [s], of
    which none is larger than [s0] after rounding, are rounded and the functions have
    errors [al] and [ga]. *)
Definition product_error (u eta : R) (s : list R) (s0 al ga : R) : R :=
  9 / 4 * (u * sqrt (sumsq s) + eta * sqrt (INR (List.length s))) + 3 / 2 * (s0 * (al + ga)).

(** How far from orthonormal the functions are whose vectors are orthonormal up to [a]. *)
Definition functions_defect (n L m : nat) (ce tau a : R) : R := a + 4 * vectors_error n L m ce tau.

(** The number of Gauss nodes per segment: the one asked for, or one of the two that
    the kernels hint at. *)
Definition order_in_use (ng : option nat) (n : nat) : Prop := ng = Some n \/ (ng = None /\ (n = 10%nat \/ n = 16%nat)).

(** [significant] of SSVE.v with the product of the tolerance and the largest value
    rounded. *)
Definition significant_rd (rd : R -> R) (vals : list R) (r : R) (lmax : option pynum) (x : R) : Prop :=
  (forall M, In M vals -> (forall y, In y vals -> y <= M) -> rd (r * M) < x) /\
  within (List.length (filter (fun y => Rleb x y) vals)) lmax.
