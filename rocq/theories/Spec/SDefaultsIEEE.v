(** Specification vocabulary for default sampling points in rounded arithmetic. *)
From Coq Require Import List Reals ZArith Arith.
From Verif.Model Require Import Base Num Poly IEEE DefaultsIEEE SVE.
From Verif.Spec Require Import SPoly SPolyIEEE.
Import ListNotations.
Open Scope R_scope.

(** A polynomial on [-1, 1] as stored, with knots that are doubles. *)
Definition searchable (u eta : R) (p : spoly) : Prop :=
  geom_near u eta (sgeom p) /\ gxmin (sgeom p) = -1 /\ gxmax (sgeom p) = 1 /\
  Forall is_double (gknots (sgeom p)) /\ (0 < glen (sgeom p))%nat.

(** No segment is so short that the values in it are meaningless. *)
Definition accurate (u eta : R) (g : geom) : Prop :=
  forall i, (i < gnseg g)%nat -> fair_length u eta g i /\ loss g i * u <= 1.

(** The function a stored polynomial stands for cannot be told from zero at x: its
    size is at most the error of evaluation. *)
Definition small_at (u eta : R) (p : spoly) (x : R) : Prop :=
  exists i, in_segment (sgeom p) i x /\
    Rabs (seg_fun (sgeom p) (scol p) i x) <= call_error u eta (sgeom p) (scol p) i.

(** x is an inner knot, and the pieces on its two sides do not have the same sign there. *)
Definition crosses_at (p : spoly) (x : R) : Prop :=
  exists i, (S i < gnseg (sgeom p))%nat /\ x = knot (sgeom p) (S i) /\
    seg_fun (sgeom p) (scol p) i x * seg_fun (sgeom p) (scol p) (S i) x <= 0.

(** There is such a point within [tol] of x. *)
Definition zero_near (u eta tol : R) (p : spoly) (x : R) : Prop :=
  exists z, Rabs (z - x) <= tol /\ (small_at u eta p z \/ crosses_at p z).

(** The computed values at x and y are not zero and have different signs. *)
Definition changes_sign (old : bool) (rd : R -> R) (p : spoly) (x y : R) : Prop :=
  value_at old rd p x * value_at old rd p y < 0.

(** The function whose roots are the default sampling points: number n of the
    expansion, or the derivative of the last one if there are not so many. *)
Definition source_rd (rd : R -> R) (u : vpoly) (n : nat) (p : spoly) : Prop :=
  if (n <? List.length (vcols u))%nat then getitem u (Z.of_nat n) = Ok p
  else exists q, getitem u (-1) = Ok q /\ p = sderiv_rd rd q.

(** The allowed distance between the derivative of piece i and the polynomial with the
    computed coefficients of the derivative. *)
Definition deriv_error (u eta : R) (g : geom) (c : col) (i : nat) : R :=
  INR (glen g) * sqrt (2 / (knot g (S i) - knot g i)) *
  (8 * (INR (glen g) * INR (glen g)) * u * (2 / (knot g (S i) - knot g i)) *
     (sumn (glen g) (fun k => Rabs (cdat c k i)) + eta / u) + eta).

(** Every change of sign of the computed values between neighbouring knots, and every
    computed zero at a knot, shows up in the list of roots.  For a polynomial with a
    declared parity this concerns the knots from 0 on; nothing is said for odd ones,
    whose first root may be dropped (poly.py:165-173). *)
Definition reports_sign_changes (old : bool) (rd : R -> R) (p : spoly) (rs : list R) : Prop :=
  let g := sgeom p in
  let considered i := csym (scol p) = 0 \/ (0 <= knot g i /\ csym (scol p) <> -1) in
  (forall i, (i < gnseg g)%nat -> considered i -> changes_sign old rd p (knot g i) (knot g (S i)) ->
     exists r, In r rs /\ knot g i <= r <= knot g (S i)) /\
  (forall i, (i <= gnseg g)%nat -> considered i -> value_at old rd p (knot g i) = 0 -> In (knot g i) rs).

(** The points that are roots: all of them, or all but the first and the last where
    the extrema of the last function have been supplemented. *)
Definition interior (many : bool) (x0 : list R) : list R := if many then x0 else removelast (tl x0).
