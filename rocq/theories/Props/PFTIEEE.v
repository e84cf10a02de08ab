(** C97: Fourier transforms of piecewise polynomials in rounded arithmetic. *)
From Coq Require Import Reals ZArith Arith Bool.
From Coquelicot Require Import Coquelicot.
From Coq Require Import List.
From Verif.Model Require Import Base Util Num IEEE Poly FT FTIEEE.
From Verif.Spec Require Import SPoly SFT SKernelIEEE SGaussIEEE SPolyIEEE SSamplingIEEE SSVEIEEE SFTIEEE.
From Verif.Proofs Require Import KernelRoundCall FTRoundProps.
Import ListNotations.
Open Scope R_scope.

(** Below the threshold every returned number is near the Fourier integral of the
    polynomial with the stored knots and coefficients, in any rounded arithmetic. *)
Theorem C97_transform : forall u eta rd ej ec um em gam th F model f ns M l c j n,
  rounding u eta rd -> 0 < u <= / 10000 -> 0 <= eta ->
  geom_near u eta (fgeom f) -> gxmin (fgeom f) = -1 -> gxmax (fgeom f) = 1 ->
  (forall i, (i < gnseg (fgeom f))%nat -> fair_length u eta (fgeom f) i) -> INR (gnseg (fgeom f)) * u <= / 200 ->
  (0 < gorder (fgeom f))%nat -> glen (fgeom f) = gorder (fgeom f) ->
  library_near (gorder (fgeom f)) (gorder (fgeom f) * gnseg (fgeom f)) u ej ec um em gam th F -> small_library ej ec um em gam ->
  ft_call_rd rd F model f ns = Ok M -> nth_error (fcols f) l = Some c -> nth_error ns j = Some n ->
  (forall x, fasymp f = Some x -> Rabs (IZR n) < x) ->
  exists v w, entry M l j = Some v /\
    is_fourier (fun x => PI * IZR n * (x + 1) / 2) (cval (ideal_geom (fgeom f)) c) (-1) 1 (Cmult (RtoC (sqrt 2)) w) /\
    Cmod (Cminus v w) <= transform_error u eta (constant_error u ej ec um em gam) th (fgeom f) c n.
Proof. exact call_rd_fourier. Qed.
Print Assumptions C97_transform.

(** Products made of rounded operations, in any order of summation, are such a
    library. *)
Theorem C97_rounded_library : forall u eta rd N K ej ec F, rounding u eta rd -> 0 <= u <= / 10000 -> 0 <= eta -> INR K * u <= 1 / 4 ->
  0 <= ej -> 0 <= ec -> functions_near N u ej ec F -> rounded_library rd F ->
  library_near N K u ej ec (6 * u) (12 * eta) (6 * INR K * u) (12 * INR K * eta) F.
Proof. exact library_rounded. Qed.
Print Assumptions C97_rounded_library.

(** Double precision: with K coefficients per polynomial, errors that do not grow with
    the frequency are those of the library functions and (33 + 12 K) / 2^53. *)
Theorem C97_doubles : forall ej ec F model f ns M l c j n,
  geom_near (/ 2 ^ 53) eta64 (fgeom f) -> gxmin (fgeom f) = -1 -> gxmax (fgeom f) = 1 ->
  (forall i, (i < gnseg (fgeom f))%nat -> / 10 ^ 290 <= knot (fgeom f) (S i) - knot (fgeom f) i) ->
  (0 < gorder (fgeom f))%nat -> glen (fgeom f) = gorder (fgeom f) ->
  INR (gorder (fgeom f) * gnseg (fgeom f)) <= 10 ^ 12 ->
  0 <= ej <= / 100 -> 0 <= ec <= / 100 -> functions_near (gorder (fgeom f)) (/ 2 ^ 53) ej ec F -> rounded_library rnd64 F ->
  ft_call_rd rnd64 F model f ns = Ok M -> nth_error (fcols f) l = Some c -> nth_error ns j = Some n ->
  (forall x, fasymp f = Some x -> Rabs (IZR n) < x) ->
  exists v w, entry M l j = Some v /\
    is_fourier (fun x => PI * IZR n * (x + 1) / 2) (cval (ideal_geom (fgeom f)) c) (-1) 1 (Cmult (RtoC (sqrt 2)) w) /\
    Cmod (Cminus v w) <=
      let K := INR (gorder (fgeom f) * gnseg (fgeom f)) in
      transform_error (/ 2 ^ 53) eta64 (ej + 2 * ec + (33 + 12 * K) * / 2 ^ 53) (12 * K * eta64) (fgeom f) c n.
Proof. exact call_rd_double. Qed.
Print Assumptions C97_doubles.

(** From the threshold on, the value of the high-frequency model is returned. *)
Theorem C97_high_frequency : forall rd F model f ns M l c j n x,
  (0 < gorder (fgeom f))%nat -> (0 < gnseg (fgeom f))%nat -> glen (fgeom f) = gorder (fgeom f) ->
  ft_call_rd rd F model f ns = Ok M -> nth_error (fcols f) l = Some c -> nth_error ns j = Some n ->
  fasymp f = Some x -> x <= Rabs (IZR n) -> entry M l j = Some (model l n).
Proof. exact call_rd_model. Qed.
Print Assumptions C97_high_frequency.

(** The call returns one row per polynomial and one column per frequency exactly when
    all frequencies have the declared parity, whatever the rounding. *)
Theorem C97_call_succeeds : forall rd F model f ns,
  (0 < gorder (fgeom f))%nat -> (0 < gnseg (fgeom f))%nat -> glen (fgeom f) = gorder (fgeom f) ->
  (Forall (freq_ok (ffreq f)) ns -> exists M, ft_call_rd rd F model f ns = Ok M /\ length M = length (fcols f) /\
                                              Forall (fun row => length row = length ns) M) /\
  (~ Forall (freq_ok (ffreq f)) ns -> ft_call_rd rd F model f ns = Raise ValueError).
Proof. exact call_rd_iff. Qed.
Print Assumptions C97_call_succeeds.

(** Without rounding this is the function C27-C30 are about. *)
Theorem C97_exact_arithmetic : forall f ns,
  ft_call_rd (fun x => x) exact_library (fun l n => giw (ft_moments f l) n) f ns = ft_call f ns.
Proof. exact call_exact. Qed.
Print Assumptions C97_exact_arithmetic.

(** Two segments, two coefficients, a jump at 0, doubles and a library of correctly
    rounded functions: the value at n = 3 has error below 10^-12. *)
Example C97_nonvacuous : forall model,
  geom_near (/ 2 ^ 53) eta64 two_geom /\ functions_near 2 (/ 2 ^ 53) (2 * / 2 ^ 53) (2 * / 2 ^ 53) double_library /\
  rounded_library rnd64 double_library /\
  exists M v w, ft_call_rd rnd64 double_library model two_ft [3; 99; 101]%Z = Ok M /\ entry M 0 0 = Some v /\
    is_fourier (fun x => PI * 3 * (x + 1) / 2) (cval two_geom two_col) (-1) 1 (Cmult (RtoC (sqrt 2)) w) /\
    Cmod (Cminus v w) <= / 10 ^ 12.
Proof. exact two_case. Qed.
