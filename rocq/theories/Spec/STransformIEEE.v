(** Specification vocabulary for sampling on bases in rounded arithmetic. *)
From Coq Require Import ZArith Arith Bool Reals.
From Coquelicot Require Import Coquelicot.
From Coq Require Import List.
From Verif.Model Require Import Base Num Poly FT SVE Basis NDArray Sampling.
From Verif.Spec Require Import SPoly SSampling SSamplingIEEE STransform SFTIEEE SBasisIEEE.
Import ListNotations.
Open Scope R_scope.

(** The function with coefficients g in the L functions h. *)
Definition combination (L : nat) (h : nat -> R -> R) (g : nat -> C) (t : R) : C :=
  csumn L (fun l => Cmult (RtoC (h l t)) (g l)).

(** The row r holds the values at t, which lies in segment i, of the functions p; at a
    knot, their limits from within that segment. *)
Definition values_in (p : vpoly) (i : nat) (t : R) (r : nat -> C) : Prop :=
  (i < gnseg (vgeom p))%nat /\ knot (vgeom p) i <= t <= knot (vgeom p) (S i) /\
  forall l c, nth_error (vcols p) l = Some c -> r l = RtoC (seg_fun (vgeom p) c i t).

(** The rows of B hold the values of the functions p at times that differ from pts by
    at most 3.2 units of rounding of the right end of their segment. *)
Definition time_matrix (u : R) (p : vpoly) (pts : list R) (B : mat) : Prop :=
  mr B = List.length pts /\ mc B = List.length (vcols p) /\
  forall j t, nth_error pts j = Some t ->
    exists i t', Rabs (t' - t) <= 32 / 10 * u * knot (vgeom p) (S i) /\ values_in p i t' (me B j).

(** The computed values of u differ by at most e from those of the polynomials stored,
    at a time nearby (C99_u). *)
Definition fair_times (u eta : R) (b b0 : basis) (e : R) : Prop :=
  let g := vgeom (su (bsve b)) in
  0 <= e /\ fair_scale u eta (bbeta b / 2) g /\
  forall i, (i < gnseg g)%nat -> shifted_loss 1 g i * u <= 1 /\
    forall c, In c (vcols (bu b0)) -> moved_error u eta (bbeta b / 2) 1 g c i <= e.

(** The computed values of uhat at the frequencies ns, which are below the
    threshold of the high-frequency model, differ by at most e from the Fourier integrals of the polynomials stored
    (C99_uhat). *)
Definition fair_frequencies (u eta delta th : R) (rd : R -> R) (b b0 : basis) (ns : list Z) (e : R) : Prop :=
  let g := vgeom (su (bsve b)) in
  0 <= e /\ 1000 * eta <= u * sqrt (bbeta b) /\ INR (gnseg g) * u <= / 200 /\
  exists lam, klam (bkernel b) = Some lam /\
  forall n, In n ns -> Rabs (IZR n) < rd (40 * lam) /\
    forall c, In c (vcols (bu b0)) -> uhat_error u eta delta th (bbeta b) g c n <= e.

(** The error of values of L functions, when the norm of each row of exact values is
    at most rho, each entry is off by e, the true coefficients have norm gs and those
    used differ from them by f. *)
Definition transfer_error (L : nat) (rho gam th e gs f : R) : R :=
  rho * f + (gam * rho + (1 + gam) * e * sqrt (INR L)) * (gs + f) + th.

(** z holds the Fourier integrals over [0, beta] of the function with coefficients g. *)
Definition frequencies_near (beta : R) (L : nat) (h : nat -> R -> R) (ns : list Z) (g z : nat -> C) (err : R) : Prop :=
  forall j n, nth_error ns j = Some n ->
    exists W, in_frequency beta (combination L h g) n W /\ Cmod (Cminus (z j) W) <= err.

(** z holds the values of the expansions with coefficients g in the rows of B. *)
Definition times_near (B : mat) (g z : nat -> C) (err : R) : Prop :=
  forall j, (j < mr B)%nat -> Cmod (Cminus (z j) (apply_mat B g j)) <= err.

(** The error of coefficients fitted to the data x, of which the true expansion with
    coefficients g has the values y, when the m by L matrix used is off by e. *)
Definition data_error (m L : nat) (gam th u eta a c d lo hi e : R) (g y x : nat -> C) : R :=
  fit_error L gam th u eta a c d lo hi (size L g)
    (size m (vsub y x) + e * sqrt (INR m) * sqrt (INR L) * size L g) (size m x).
