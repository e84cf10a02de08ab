(** C104: the high-frequency model of Fourier transforms in rounded arithmetic. *)
From Coq Require Import Reals ZArith Arith Bool.
From Coquelicot Require Import Coquelicot.
From Coq Require Import List.
From Verif.Model Require Import Base Num IEEE Poly FT PolyIEEE FTIEEE TailIEEE SVE Basis BasisIEEE.
From Verif.Spec Require Import SPoly SFT SKernelIEEE SPolyIEEE SFTIEEE SSVEIEEE SBasisIEEE STailIEEE.
From Verif.Proofs Require Import KernelRoundCall FTRoundProps PPolyExamples TailMore TailCase.
Import ListNotations.
Open Scope R_scope.

(** The model is always built, and its moments are near those made from the true
    derivatives, at x = 1, of the stored polynomials. *)
Theorem C104_moments : forall u eta rd old, rounding u eta rd -> 0 < u <= / 10000 -> 0 <= eta ->
  forall g cols q, good_end u eta g -> q <> FAny ->
  exists ms, power_model_rd old rd q (VPoly g cols) = Ok ms /\ length ms = length cols /\
  forall l c, nth_error cols l = Some c -> length (nth l ms []) = gorder g /\
    forall m, (m < gorder g)%nat -> Rabs (nth m (nth l ms []) 0 - true_moment q g c l m) <= moment_error u eta g c m.
Proof. exact good_model. Qed.
Print Assumptions C104_moments.

(** Without a declared parity of the frequencies there is no model. *)
Theorem C104_any_frequency : forall u eta rd old, rounding u eta rd -> 0 < u <= / 10000 -> 0 <= eta ->
  forall g cols, good_end u eta g -> power_model_rd old rd FAny (VPoly g cols) = Raise KeyError.
Proof. exact any_model. Qed.
Print Assumptions C104_any_frequency.

(** The value of the model is near the series made from the true derivatives. *)
Theorem C104_series : forall u eta rd old, rounding u eta rd -> 0 < u <= / 10000 -> 0 <= eta ->
  forall g cols q F ms l c n, good_end u eta g -> Rabs (f_pi F - PI) <= u * PI ->
  power_model_rd old rd q (VPoly g cols) = Ok ms -> nth_error cols l = Some c -> n <> 0%Z -> 1000 * eta * Rabs (IZR n) <= u ->
  Cmod (Cminus (tail_rd rd F ms l n) (true_tail q g c l n)) <= tail_error u eta g c n.
Proof. exact good_tail. Qed.
Print Assumptions C104_series.

(** At frequency zero it is zero. *)
Theorem C104_zero_frequency : forall u eta rd, rounding u eta rd -> forall F ms l, tail_rd rd F ms l 0 = RtoC 0.
Proof. exact zero_tail. Qed.
Print Assumptions C104_zero_frequency.

(** From the threshold on, a call returns numbers near that series; [cols] may hold more
    polynomials than are left after slicing. *)
Theorem C104_call : forall u eta rd old, rounding u eta rd -> 0 < u <= / 10000 -> 0 <= eta ->
  forall F f cols ms ns M l c c' j n x, good_end u eta (fgeom f) -> Rabs (f_pi F - PI) <= u * PI ->
  power_model_rd old rd (ffreq f) (VPoly (fgeom f) cols) = Ok ms -> nth_error cols l = Some c -> nth_error (fcols f) l = Some c' ->
  ft_call_rd rd F (tail_rd rd F ms) f ns = Ok M -> nth_error ns j = Some n ->
  fasymp f = Some x -> x <= Rabs (IZR n) -> n <> 0%Z -> 1000 * eta * Rabs (IZR n) <= u ->
  exists v, entry M l j = Some v /\ Cmod (Cminus v (true_tail (ffreq f) (fgeom f) c l n)) <= tail_error u eta (fgeom f) c n.
Proof. exact call_tail. Qed.
Print Assumptions C104_call.

(** For functions with the parity of their index it is the Fourier integral, but for
    rounding and for the jumps of the function and its derivatives at inner knots. *)
Theorem C104_integral : forall u eta rd old, rounding u eta rd -> 0 < u <= / 10000 -> 0 <= eta ->
  forall F f cols ms ns M l c c' j n x, good_end u eta (fgeom f) -> gxmin (fgeom f) = -1 -> Rabs (f_pi F - PI) <= u * PI ->
  power_model_rd old rd (ffreq f) (VPoly (fgeom f) cols) = Ok ms -> nth_error cols l = Some c -> nth_error (fcols f) l = Some c' ->
  ft_call_rd rd F (tail_rd rd F ms) f ns = Ok M -> nth_error ns j = Some n ->
  fasymp f = Some x -> x <= Rabs (IZR n) -> n <> 0%Z -> 1000 * eta * Rabs (IZR n) <= u ->
  has_parity (ideal_geom (fgeom f)) c ((-1) ^ l) ->
  exists v w, entry M l j = Some v /\
    is_fourier (fun x => PI * IZR n * (x + 1) / 2) (cval (ideal_geom (fgeom f)) c) (-1) 1 (Cmult (RtoC (sqrt 2)) w) /\
    Cmod (Cminus (Cplus v (Cdiv (jump_tail (fgeom f) c n) (RtoC (sqrt 2)))) w) <= tail_error u eta (fgeom f) c n.
Proof. exact call_integral. Qed.
Print Assumptions C104_integral.

(** Bases: uhat and uhat_full beyond the threshold 40 lambda, with the coefficients that
    are stored there. *)
Theorem C104_basis : forall u eta rd pw compute b old F lam ms f ns M l c j n,
  built_rd u eta rd pw compute b -> rounding u eta rd -> 0 < u <= / 10000 -> 0 <= eta -> Rabs (f_pi F - PI) <= u * PI ->
  let g := vgeom (su (bsve b)) in INR (glen g) * u <= / 200 -> loss g (gnseg g - 1) * u <= 1 -> klam (bkernel b) = Some lam ->
  power_model_rd old rd (ffreq (buhat_full b)) (VPoly (fgeom (buhat_full b)) (fcols (buhat_full b))) = Ok ms ->
  (f = buhat_full b \/ f = buhat b) -> ft_call_rd rd F (tail_rd rd F ms) f ns = Ok M ->
  nth_error (vcols (su (bsve b))) l = Some c -> (l < length (fcols f))%nat -> nth_error ns j = Some n ->
  rd (40 * lam) <= Rabs (IZR n) -> n <> 0%Z -> 1000 * eta * Rabs (IZR n) <= u ->
  let c' := Col (fun k i => rd (rd (sqrt (bbeta b)) * cdat c k i)) (csym c) in
  exists v, entry M l j = Some v /\ Cmod (Cminus v (true_tail (ffreq f) g c' l n)) <= tail_error u eta g c' n.
Proof. exact basis_tail. Qed.
Print Assumptions C104_basis.

(** Without rounding these are the functions C28-C29 are about. *)
Theorem C104_exact_arithmetic : forall old q p, power_model_rd old (fun x => x) q p = power_model q p /\
  forall ms l n, tail_rd (fun x => x) exact_library ms l n = giw (nth l ms []) n.
Proof. exact tail_exact. Qed.
Print Assumptions C104_exact_arithmetic.

(** Two segments, an even and an odd function, doubles: at n = 101, beyond the threshold
    100, the error is below 10^-12. *)
Example C104_nonvacuous : forall old, good_end (/ 2 ^ 53) eta64 two_geom /\ functions_near 2 (/ 2 ^ 53) (2 * / 2 ^ 53) (2 * / 2 ^ 53) double_library /\
  has_parity (ideal_geom two_geom) wedge_col ((-1) ^ 0) /\ has_parity (ideal_geom two_geom) two_col ((-1) ^ 1) /\
  exists ms M, power_model_rd old rnd64 FOdd (VPoly two_geom [wedge_col; two_col]) = Ok ms /\
    ft_call_rd rnd64 double_library (tail_rd rnd64 double_library ms) tail_ft [3; 99; 101]%Z = Ok M /\
  forall l c, nth_error [wedge_col; two_col] l = Some c -> exists v w, entry M l 2 = Some v /\
    is_fourier (fun x => PI * 101 * (x + 1) / 2) (cval two_geom c) (-1) 1 (Cmult (RtoC (sqrt 2)) w) /\
    Cmod (Cminus (Cplus v (Cdiv (jump_tail two_geom c 101) (RtoC (sqrt 2)))) w) <= / 10 ^ 12.
Proof. exact tail_case. Qed.

(** A basis made in doubles, and uhat[1] at n = 501. *)
Example C104_case_basis : forall compute old, exists b lam ms M v, built_rd (/ 2 ^ 53) eta64 rnd64 powerRZ compute b /\ klam (bkernel b) = Some lam /\
  power_model_rd old rnd64 (ffreq (buhat_full b)) (VPoly (fgeom (buhat_full b)) (fcols (buhat_full b))) = Ok ms /\
  ft_call_rd rnd64 double_library (tail_rd rnd64 double_library ms) (buhat b) [1; 501]%Z = Ok M /\
  rnd64 (40 * lam) <= Rabs (IZR 501) /\ entry M 1 1 = Some v /\
  let g := vgeom (su (bsve b)) in let c := Col (fun k i => rnd64 (rnd64 (sqrt (bbeta b)) * cdat line_col k i)) (csym line_col) in
  good_end (/ 2 ^ 53) eta64 g /\ Cmod (Cminus v (true_tail FOdd g c 1 501)) <= tail_error (/ 2 ^ 53) eta64 g c 501.
Proof. exact ex_tail. Qed.
