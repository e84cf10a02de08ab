(** Specification vocabulary for Fourier transforms in rounded arithmetic. *)
From Coq Require Import ZArith Arith Reals.
From Coquelicot Require Import Coquelicot.
From Coq Require Import List.
From Verif.Model Require Import Base Num Poly FT FTIEEE.
From Verif.Spec Require Import SPoly SSamplingIEEE.
Import ListNotations.
Open Scope R_scope.

(** np.pi has relative error [u]; values of the spherical Bessel functions of order
    below [N] have absolute error [ej], those of cosine and sine [ec]; a product of
    complex numbers has relative error [um] and absolute error [em]; an inner product
    of [K] terms has error [gam] times the sum of the absolute values of its terms,
    plus [th]. *)
Definition library_near (N K : nat) (u ej ec um em gam th : R) (F : flib) : Prop :=
  0 <= ej /\ 0 <= ec /\ 0 <= um /\ 0 <= em /\ 0 <= gam /\ 0 <= th /\
  Rabs (f_pi F - PI) <= u * PI /\
  (forall l z, (l < N)%nat -> 0 <= z -> Rabs (f_jn F l z - sph_jn l z) <= ej) /\
  (forall t, Rabs (f_cos F t - cos t) <= ec /\ Rabs (f_sin F t - sin t) <= ec) /\
  (forall a b, Cmod (Cminus (f_mul F a b) (Cmult a b)) <= um * (Cmod a * Cmod b) + em) /\
  (forall j l xs ys, List.length xs = K -> List.length ys = K ->
   Cmod (Cminus (f_dot F j l xs ys) (csumn K (fun i => Cmult (nth i xs (RtoC 0)) (nth i ys (RtoC 0))))) <=
   gam * sumn K (fun i => Cmod (nth i xs (RtoC 0)) * Cmod (nth i ys (RtoC 0))) + th).

(** The errors are small. *)
Definition small_library (ej ec um em gam : R) : Prop :=
  ej <= / 100 /\ ec <= / 100 /\ um <= / 100 /\ em <= / 100 /\ gam <= / 100.

(** How far the points of [a, b] are from the nearest of the three points -1, 0 and 1
    (nearest to the centre of the segment): the phase at a knot near an end of the
    interval does not lose digits. *)
Definition reach (a b : R) : R :=
  Rmin (Rabs ((a + b) / 2 + 1)) (Rmin (Rabs ((a + b) / 2)) (Rabs ((a + b) / 2 - 1))) + (b - a) / 2.

(** The allowed distance between the computed and the true transform at frequency n,
    with [delta] for all errors that do not grow with n. *)
Definition transform_error (u eta delta th : R) (g : geom) (c : col) (n : Z) : R :=
  sumn (gnseg g) (fun i =>
    sqrt (knot g (S i) - knot g i) *
    ((2 * INR (gnseg g) + 40) * Rabs (IZR n) * reach (knot g i) (knot g (S i)) * u + delta) *
    sumn (gorder g) (fun p => Rabs (cdat c p i))) +
  4 * INR (gorder g * gnseg g) * eta + th.
Definition constant_error (u ej ec um em gam : R) : R := ej + 2 * ec + 4 * um + 3 * em + 8 * u + 2 * gam.

(** Products of complex numbers and of matrices are made of operations rounded by
    [rd], with sums in any order and grouping. *)
Definition rounded_library (rd : R -> R) (F : flib) : Prop :=
  (forall a b, inner_product rd [a] [b] (f_mul F a b)) /\
  (forall j l xs ys, List.length xs = List.length ys -> inner_product rd xs ys (f_dot F j l xs ys)).

(** pi and the library functions are near the true ones. *)
Definition functions_near (N : nat) (u ej ec : R) (F : flib) : Prop :=
  Rabs (f_pi F - PI) <= u * PI /\
  (forall l z, (l < N)%nat -> 0 <= z -> Rabs (f_jn F l z - sph_jn l z) <= ej) /\
  (forall t, Rabs (f_cos F t - cos t) <= ec /\ Rabs (f_sin F t - sin t) <= ec).

(** Everything exact. *)
Definition exact_library : flib :=
  Flib PI sph_jn cos sin Cmult
       (fun _ _ xs ys => csumn (List.length xs) (fun i => Cmult (nth i xs (RtoC 0)) (nth i ys (RtoC 0)))).
