(** Specification vocabulary for the high-frequency model in rounded arithmetic. *)
From Coq Require Import Reals ZArith.
From Coquelicot Require Import Coquelicot.
From Coq Require Import List.
From Verif.Model Require Import Base Num Poly FT.
From Verif.Spec Require Import SPoly SFT SPolyIEEE.
Open Scope R_scope.

(** The statistics' sign: -1 for odd frequencies and 1 for even ones. *)
Definition stat_sign (q : ftfreq) : R := match q with FEven => 1 | _ => -1 end.

(** The moment of order m of function l, from the m-th derivative of the polynomial in
    the last segment at x = 1, and the series of the moments at frequency n. *)
Definition true_moment (q : ftfreq) (g : geom) (c : col) (l m : nat) : R :=
  - stat_sign q / sqrt 2 * (((-1) ^ (m + 1) + stat_sign q * (-1) ^ l) * seg_deriv g c (gnseg g - 1) m 1).
Definition true_tail (q : ftfreq) (g : geom) (c : col) (l : nat) (n : Z) : C :=
  csumn (gorder g) (fun m => Cdiv (RtoC (true_moment q g c l m)) (cpow (0, PI / 2 * IZR n) (S m))).

(** What the jumps of the derivatives at the inner knots contribute to the integral. *)
Definition jump_tail (g : geom) (c : col) (n : Z) : C :=
  csumn (gorder g) (fun m => Cmult (Cdiv (RtoC ((-1) ^ m)) (cpow (0, PI / 2 * IZR n) (S m))) (jump_sum g c n m)).

Section Errors.
Context (u eta : R) (g : geom) (c : col).
Let i := (gnseg g - 1)%nat.
Let len := knot g (S i) - knot g i.
Let N := INR (glen g).

(** How much a derivative can multiply the sum of the absolute coefficients: 2 n^2 / len,
    and that sum for the last segment. *)
Definition deriv_gain : R := 2 * (N * N) / len.
Definition last_sum : R := sumn (glen g) (fun k => Rabs (cdat c k i)).

(** The allowed error, in sum, of the coefficients of the m-th derivative. *)
Fixpoint coef_error (m : nat) : R :=
  match m with
  | O => 0
  | S k => deriv_gain * coef_error k + 8 * (N * N * N) * u * (2 / len) * (deriv_gain ^ k * last_sum + coef_error k + eta / u) + N * eta
  end.

(** A bound for the m-th derivative at 1, and the allowed errors of its computed value,
    of the moment of order m and of the value of the model at frequency n. *)
Definition deriv_bound (m : nat) : R := sqrt (2 / len) * (deriv_gain ^ m * last_sum).
Definition end_error (m : nat) : R :=
  sqrt (2 / len) * coef_error m +
  loss g i * u * sqrt (2 / len) * (deriv_gain ^ m * last_sum + coef_error m + eta / u) + eta.
Definition moment_error (m : nat) : R :=
  3 / 2 * end_error m + 10 * u * (deriv_bound m + end_error m) + 4 * eta.
Definition tail_error (n : Z) : R :=
  sumn (gorder g) (fun m => ((1 + 20 * u) * (2 / (PI * Rabs (IZR n)))) ^ (S m) *
    (moment_error m + 11 * (INR m + 1) * u * (3 / 2 * deriv_bound m))) + 10 * eta.
End Errors.

(** A set of polynomials as the library stores it, with right end 1, not too many
    coefficients, and a last segment that is not too short. *)
Definition good_end (u eta : R) (g : geom) : Prop :=
  geom_near u eta g /\ gxmax g = 1 /\ (0 < gorder g)%nat /\ glen g = gorder g /\ INR (glen g) * u <= / 200 /\
  fair_length u eta g (gnseg g - 1) /\ loss g (gnseg g - 1) * u <= 1.
