(** The high-frequency model of Fourier transforms in rounded arithmetic: poly.py:391-446
    with every operation on reals rounded by [rd].  With the identity for [rd] these are
    the definitions of Model/FT.v (theorem C104_exact_arithmetic).  Overflow is not
    modelled. *)
From Coq Require Import List Reals ZArith Arith Bool.
From Coquelicot Require Import Complex.
From Verif.Model Require Import Base Num Poly FT FTIEEE PolyIEEE DefaultsIEEE.
Import ListNotations.
Open Scope R_scope.

(** poly.py:136-143, deriv() of a set of polynomials. *)
Definition vderiv_rd (rd : R -> R) (p : vpoly) : vpoly :=
  VPoly (gderiv 1 (vgeom p)) (map (cderiv_rd rd (vgeom p)) (vcols p)).

(** poly.py:423-428, _derivs: each derivative is taken of the one computed before. *)
Fixpoint derivs_from_rd (old : bool) (rd : R -> R) (k : nat) (p : vpoly) (x : R) : res (list (list R)) :=
  match k with
  | O => Ok []
  | S k' => do v <- vcall_rd old rd (vderiv_rd rd p) x; do vs <- derivs_from_rd old rd k' (vderiv_rd rd p) x; Ok (v :: vs)
  end.
Definition derivs_rd (old : bool) (rd : R -> R) (p : vpoly) (x : R) : res (list (list R)) :=
  do v <- vcall_rd old rd p x; do vs <- derivs_from_rd old rd (gorder (vgeom p) - 1) p x; Ok (v :: vs).

(** poly.py:431-446, _power_moments and _power_model.  The factor with the signs is
    -2, 0 or 2 and exact. *)
Definition power_moment_rd (rd : R -> R) (s : R) (m l : nat) (d : R) : R :=
  rd (rd (- s / rd (sqrt 2)) * rd (((-1) ^ (m + 1) + s * (-1) ^ l) * d)).
Definition power_model_rd (old : bool) (rd : R -> R) (q : ftfreq) (p : vpoly) : res (list (list R)) :=
  do d <- derivs_rd old rd p 1;
  do s <- statsign q;
  Ok (map (fun l => map (fun mr => power_moment_rd rd s (fst mr) l (nth l (snd mr) 0))
                        (combine (seq 0 (length d)) d))
          (seq 0 (length (vcols p)))).

(** poly.py:406-417, giw at one frequency.  1j * np.pi/2 * wn has real part zero; the
    reciprocal of such a number has too, and [inv_iw_rd] is its imaginary part.  In the
    product of a complex number and an imaginary one, two of the four real products are
    zeros and the sums with them are exact. *)
Definition inv_iw_rd (rd : R -> R) (F : flib) (n : Z) : R :=
  if (n =? 0)%Z then 0 else - rd (1 / rd (rd (f_pi F / 2) * rd (IZR n))).
Fixpoint giw_rd (rd : R -> R) (w : R) (moments : list R) : C :=
  match moments with
  | [] => (0, 0)
  | m :: ms => let z := giw_rd rd w ms in (- rd (snd z * w), rd (rd (fst z + m) * w))
  end.

(** poly.py:253: the value of the model with these moments for polynomial l. *)
Definition tail_rd (rd : R -> R) (F : flib) (moments : list (list R)) (l : nat) (n : Z) : C :=
  giw_rd rd (inv_iw_rd rd F n) (nth l moments []).
