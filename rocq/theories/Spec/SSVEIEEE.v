(** Specification vocabulary for singular value expansions computed in rounded
    arithmetic. *)
From Coq Require Import Reals Arith.
From Coq Require Import List.
From Verif.Model Require Import Base Num Gauss Poly SVE Compute.
From Verif.Spec Require Import SKernelIEEE SGaussIEEE SSamplingIEEE.
Import ListNotations.
Open Scope R_scope.

(** Inner products of up to N terms have error at most gam times the sum of the
    absolute values of the terms, plus th. *)
Definition inner_near (N : nat) (gam th : R) (dot : list R -> list R -> R) : Prop :=
  0 <= gam /\ 0 <= th /\
  forall xs ys, List.length xs = List.length ys -> (List.length xs <= N)%nat ->
  Rabs (dot xs ys - sumn (List.length xs) (fun j => nth j xs 0 * nth j ys 0)) <=
  gam * sumn (List.length xs) (fun j => Rabs (nth j xs 0) * Rabs (nth j ys 0)) + th.

(** The inner product without rounding. *)
Definition exact_dot (xs ys : list R) : R := sumn (List.length xs) (fun j => nth j xs 0 * nth j ys 0).

(** Relative error of the values P_k(x) for k < n computed with the three-term
    recurrence, of the coefficients of the singular functions. *)
Definition recurrence_error (n : nat) (u sg : R) : R := INR n * INR n * (7 * u + 2 * sg).
Definition coefficient_error (n : nat) (u sg om gam : R) : R := INR n * INR n * (6 * u + 2 * sg) + 2 * om + 13 * u + gam.

(** The norm of the part of a vector that belongs to segment i. *)
Definition part_norm (n : nat) (vec : list R) (i : nat) : R := sqrt (sumn n (fun j => Rsqr (nth (i * n + j) vec 0))).

(** The arithmetic [rw] of the working data type and [ro] of the result, a rule [r] that
    is the exact Gauss rule [q] of [n] points up to small errors, and inner products
    [dot], all accurate enough for coefficients with [n] points. *)
Definition coefficient_setting (u eta e : R) (rw ro : R -> R) (n : nat) (q r : rule) (sg om rho gam th : R)
    (dot : nat -> nat -> list R -> list R -> R) : Prop :=
  small_errors u eta e /\ rounding u eta rw /\ rounding u eta ro /\
  ordinary_rule n q /\ rule_near sg om rho r q /\ small_reference u sg om rho /\
  (forall k i, inner_near n gam th (dot k i)) /\ coefficient_error n u sg om gam <= / 200.

(** The error of a singular function on segment i, which has length L. *)
Definition function_error (n : nat) (ce tau L : R) (vec : list R) (i : nat) : R :=
  sqrt (2 / L) * (INR n * INR n * (ce * part_norm n vec i + tau)).

(** A set of polynomials with the differences of its knots as segment lengths. *)
Definition ideal_geom (g : geom) : geom := Geom (gorder g) (glen g) (gnseg g) (gknots g) (diffs (gknots g)).
Definition ideal (p : vpoly) : vpoly := VPoly (ideal_geom (vgeom p)) (vcols p).
Definition ideal_sve (r : sve_result) : sve_result := SVE (ideal (su r)) (ss r) (ideal (sv r)) (seps r).
