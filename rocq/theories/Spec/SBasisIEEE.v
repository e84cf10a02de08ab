(** Specification vocabulary for bases in rounded arithmetic. *)
From Coq Require Import String ZArith Arith Reals.
From Coq Require Import List.
From Verif.Model Require Import Base Util Num Poly FT SVE Basis BasisIEEE.
From Verif.Spec Require Import SPoly SSVE SBasis SPolyIEEE SFTIEEE.
Import ListNotations.
Open Scope R_scope.

(** A set of polynomials on [-1, 1] as the library stores it: the lengths of the
    segments are the differences of the knots up to one rounding. *)
Definition stored (u eta : R) (p : vpoly) : Prop :=
  geom_near u eta (vgeom p) /\ gxmin (vgeom p) = -1 /\ gxmax (vgeom p) = 1 /\
  (forall i, (i < gnseg (vgeom p))%nat -> fair_length u eta (vgeom p) i) /\
  (0 < gorder (vgeom p))%nat /\ glen (vgeom p) = gorder (vgeom p).

(** A singular value expansion in rounded arithmetic. *)
Definition expansion_near (u eta : R) (r : sve_result) : Prop :=
  stored u eta (su r) /\ stored u eta (sv r) /\
  List.length (vcols (su r)) = List.length (ss r) /\ List.length (vcols (sv r)) = List.length (ss r) /\
  ss r <> [] /\ Forall (fun x => 0 < x) (ss r) /\ nonincreasing (ss r).

(** [b] was made by the constructor from such an expansion and some kernel. *)
Definition built_rd (u eta : R) (rd : R -> R) (pw : R -> Z -> R) (compute : kern -> option R -> res sve_result) (b : basis) : Prop :=
  exists st beta wmax eps ms ker sve,
    basis_init_rd rd pw compute st beta wmax eps ms ker sve = Ok b /\ expansion_near u eta (bsve b) /\ 0 < wmax.

(** The scale and the lengths of the scaled segments do not come near the smallest
    numbers. *)
Definition fair_scale (u eta T : R) (g : geom) : Prop :=
  1000 * eta <= u * T /\
  (forall i, (i < gnseg g)%nat ->
     1000 * eta <= u * (T * (knot g (S i) - knot g i)) /\ 1000 * eta * (T * (knot g (S i) - knot g i)) <= u).

(** The point of [a, b] next to x. *)
Definition nearest (a b x : R) : R := Rmax a (Rmin b x).

(** The larger end of segment i after a shift, and how many units of rounding are
    lost there, with n coefficients: 240 n^2 (6 + 5 max(|a|, |b|) / (b - a)). *)
Definition outer (sh : R) (g : geom) (i : nat) : R := Rmax (Rabs (knot g i + sh)) (Rabs (knot g (S i) + sh)).
Definition shifted_loss (sh : R) (g : geom) (i : nat) : R :=
  240 * (INR (glen g) * INR (glen g)) * (6 + 5 * (outer sh g i / (knot g (S i) - knot g i))).

(** The allowed distance between computed and true values in segment i of a function
    moved by [sh] and stretched by [T]. *)
Definition moved_error (u eta T sh : R) (g : geom) (c : col) (i : nat) : R :=
  shifted_loss sh g i * u * sqrt (2 / (T * (knot g (S i) - knot g i))) *
  (sumn (glen g) (fun k => Rabs (cdat c k i)) + eta / u) + eta.

(** Every length of a scaled segment can be computed from the scaled knots to seven
    digits, or to an absolute accuracy of 10^-9. *)
Definition tolerated (u T sh : R) (g : geom) : Prop :=
  forall i, (i < gnseg g)%nat ->
    2 * 10 ^ 6 * u * outer sh g i <= knot g (S i) - knot g i \/
    10 * u * outer sh g i <= knot g (S i) - knot g i /\ 2 * 10 ^ 9 * u * (T * outer sh g i) <= 1.

(** The allowed distance between a computed and the true value of the transform over
    [0, beta], which has sqrt(beta) times the coefficients of the expansion. *)
Definition uhat_error (u eta delta th beta : R) (g : geom) (c : col) (n : Z) : R :=
  transform_error u eta (delta + 3 * u) th g
    (Col (fun p i => 1001 / 1000 * sqrt beta * Rabs (cdat c p i) + eta / u) 0) n.

(** Powers have relative error [ep]. *)
Definition power_near (ep : R) (pw : R -> Z -> R) : Prop :=
  forall w z, 0 < w -> Rabs (pw w z - powerRZ w z) <= ep * powerRZ w z.
