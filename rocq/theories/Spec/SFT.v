(** Specification vocabulary for Fourier transforms. *)
From Coq Require Import Reals ZArith.
From Coquelicot Require Import Coquelicot.
From Coq Require Import List.
From Verif.Model Require Import Base Num Poly FT.
From Verif.Spec Require Import SPoly.
Import ListNotations.
Open Scope R_scope.

(** v is the integral of exp(i phase(x)) f(x) over [a, b]. *)
Definition is_fourier (phase f : R -> R) (a b : R) (v : C) : Prop :=
  is_RInt (fun x => cos (phase x) * f x) a b (Re v) /\ is_RInt (fun x => sin (phase x) * f x) a b (Im v).

(** The function has parity s: at every point off the knots, f(-x) = s f(x), and
    the knots are symmetric about 0. *)
Definition has_parity (g : geom) (c : col) (s : R) : Prop :=
  (forall i, (i <= gnseg g)%nat -> knot g (gnseg g - i) = - knot g i) /\
  (forall i x, (i < gnseg g)%nat -> knot g i < x < knot g (S i) ->
     cval g c (- x) = s * cval g c x).

(** Powers of a complex number. *)
Fixpoint cpow (z : C) (n : nat) : C :=
  match n with O => RtoC 1 | S m => Cmult z (cpow z m) end.


(** The m-th derivative, at x, of the polynomial that represents c on segment i. *)
Definition seg_deriv (g : geom) (c : col) (i m : nat) (x : R) : R := Derive_n (seg_fun g c i) m x.

(** The sum, over the interior knots, of exp(i pi n (x + 1)/2) times the jump of
    the m-th derivative there (left minus right). *)
Definition jump_sum (g : geom) (c : col) (n : Z) (m : nat) : C :=
  (sumn (gnseg g - 1) (fun j => let x := knot g (S j) in
     cos (PI * IZR n * (x + 1) / 2) * (seg_deriv g c j m x - seg_deriv g c (S j) m x)),
   sumn (gnseg g - 1) (fun j => let x := knot g (S j) in
     sin (PI * IZR n * (x + 1) / 2) * (seg_deriv g c j m x - seg_deriv g c (S j) m x))).

(** Frequencies admitted by freq = 'any', 'even', 'odd'. *)
Definition freq_ok (q : ftfreq) (n : Z) : Prop :=
  match q with FAny => True | FEven => Z.even n = true | FOdd => Z.even n = false end.

(** Entry [l, j] of a two-dimensional array. *)
Definition entry (M : list (list C)) (l j : nat) : option C :=
  match nth_error M l with Some row => nth_error row j | None => None end.

(** A set of polynomials as constructed from data: well-formed knots, at least
    one coefficient, and polyorder equal to the number of coefficients. *)
Definition fresh (p : vpoly) : Prop :=
  geom_ok (vgeom p) /\ (0 < gorder (vgeom p))%nat /\ glen (vgeom p) = gorder (vgeom p).
