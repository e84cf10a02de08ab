(** IEEE double precision: rounding to nearest-even in the format with 53-bit
    significands and gradual underflow (Flocq).  Overflow is not modelled:
    the exponent range is unbounded above. *)
From Coq Require Import Reals ZArith.
From Flocq Require Import Core.

Definition fexp64 : Z -> Z := FLT_exp (-1074) 53.
(** rounding of one arithmetic operation *)
Definition rnd64 (x : R) : R := round radix2 fexp64 ZnearestE x.
(** the representable numbers *)
Definition is_double (x : R) : Prop := generic_format radix2 fexp64 x.

(** basis.py:206, rescale: self._kernel.lambda_ / new_beta in doubles. *)
Definition wmax64 (lam beta : R) : R := rnd64 (lam / beta).

(** basis.py:56, __init__: the product beta * wmax in doubles. *)
Definition lambda64 (beta wmax : R) : R := rnd64 (beta * wmax).

(** basis.py:327: np.allclose(a, b, atol=0, rtol=4e-16) on doubles, i.e.
    abs(a - b) <= atol + rtol * abs(b) with every operation rounded. *)
Definition allclose64 (a b : R) : bool :=
  let rtol := rnd64 (4 / 10 ^ 16) in
  if Rle_dec (Rabs (rnd64 (a - b))) (rnd64 (0 + rnd64 (rtol * Rabs b))) then true else false.
