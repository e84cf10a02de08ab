(** C105: the discrete Lehmann representation in rounded arithmetic.  [rd] rounds every
    operation; [f] are the elementary functions behind the kernel, [th] is np.tanh, [pi]
    is np.pi, [svd] is numpy.linalg.svd and [ar] is the arithmetic of matrix products. *)
From Coq Require Import String ZArith Arith Bool Reals Lia Lra.
From Coquelicot Require Import Coquelicot.
From Coq Require Import List.
From Verif.Model Require Import Base Util Num Poly FT SVE Basis BasisIEEE Kernel KernelIEEE PolyIEEE NDArray Sampling SamplingIEEE DLR DLRIEEE IEEE.
From Verif.Spec Require Import SPoly SFT SGauss SKernel SKernelIEEE SBasisIEEE SSampling SSamplingIEEE SDLR SDLRIEEE.
From Verif.Proofs Require Import KernelRoundCall SVEPolicy SamplingExamples SamplingRoundExamples DLRRoundTime DLRRoundFreq DLRRoundProps DLRRoundLoss DLRRoundExamples.
Import ListNotations.
Open Scope R_scope.

(** Time functions at times in [0, beta]: each value is that of the function of the pole
    at a time t' within 3 u beta of the given one, up to 12 u + 3 e; at the given time
    the error grows with beta |w|. *)
Theorem C105_time_functions : forall u eta e rd f, small_errors u eta e -> rounding u eta rd -> tfun_near e eta f ->
  forall st beta poles tp ts, keeps_interval rd beta -> 0 < beta -> taupoles_init st beta poles = Ok tp ->
  (exists w, In w poles /\ w <> 0 /\ 2000 * eta <= u * (beta * Rabs w)) -> 2000 * eta <= u * beta ->
  Forall (fun w => beta * Rabs w <= 10 ^ 89) poles -> Forall (fun t => 0 <= t <= beta) ts ->
  exists M, taupoles_call_rd rd f tp (map Fin ts) = Ok M /\ List.length M = List.length poles /\
  forall p w j t, nth_error poles p = Some w -> nth_error ts j = Some t ->
  exists v t', entry_of M p j = Some v /\ 0 <= t' <= beta /\ Rabs (t' - t) <= 3 * u * beta /\
    Rabs (v - pole_fun beta w t') <= 12 * u + 3 * e /\
    Rabs (v - pole_fun beta w t) <= (12 + 3 * (beta * Rabs w)) * u + 3 * e.
Proof. exact time_call. Qed.
Print Assumptions C105_time_functions.
(** That growth is real.  In doubles, with beta = 1, a pole at 2^20 and the time 2^-56, the
    computed value is off by at least 2^-39, which is 2^13 times the precision of a double. *)
Theorem C105_loss_grows : let w := 2 ^ 20 in let t := / 2 ^ 56 in
  is_double w /\ is_double t /\ exists tp, taupoles_init "F" 1 [w] = Ok tp /\
  forall f, tfun_near (/ 2 ^ 52) eta64 f -> exists v, taupoles_call_rd rnd64 f tp [Fin t] = Ok [[v]] /\
  / 2 ^ 39 <= Rabs (v - pole_fun 1 w t).
Proof. exact loss_grows. Qed.
Print Assumptions C105_loss_grows.

Theorem C105_outside : forall rd f st beta poles tp tau t, taupoles_init st beta poles = Ok tp -> In t tau ->
  t = PInf \/ t = NInf \/ (exists r, t = Fin r /\ (r < 0 \/ beta < r)) ->
  taupoles_call_rd rd f tp tau = Raise RuntimeError.
Proof. exact outside_rd. Qed.
Print Assumptions C105_outside.

(** Frequency functions: the Fourier integral of the time function, with a small
    relative error at every pole and frequency. *)
Theorem C105_frequency_functions : forall u eta rd, rounding u eta rd -> 0 < u <= / 10000 -> 0 <= eta ->
  forall th pi e M ns beta (fermi : bool) poles p w j n, Rabs (pi - PI) <= u * PI -> tanh_near e eta th -> 0 <= e <= / 1000 -> 0 < beta ->
  matspoles_call_rd rd th pi (MatsPoles (if fermi then "F" else "B")%string beta poles) (map IZR ns) = Ok M ->
  nth_error poles p = Some w -> nth_error ns j = Some n -> Z.even n = negb fermi -> w <> 0 \/ n <> 0%Z -> fair_pole u eta beta w n ->
  exists v z, entry_of M p j = Some (Some v) /\ is_fourier (fun t => PI * IZR n * t / beta) (pole_fun beta w) 0 beta z /\
    z = pole_hat fermi beta w n /\
    Cmod (Cminus v z) <= (23 * u + 2 * e) * Cmod z + 13 * eta * (1 + / pole_distance beta w n).
Proof. exact freq_call. Qed.
Print Assumptions C105_frequency_functions.

(** A pole at zero and the zero frequency give NaN, whatever the rounding. *)
Theorem C105_zero_over_zero : forall u eta rd th pi m p j M ns, rounding u eta rd -> matspoles_call_rd rd th pi m (map IZR ns) = Ok M ->
  nth_error (mp_poles m) p = Some 0 -> nth_error ns j = Some 0%Z -> entry_of M p j = Some None.
Proof. exact frequency_nan_rd. Qed.
Print Assumptions C105_zero_over_zero.

(** The constructor refuses other kernels and an empty list of poles. *)
Theorem C105_refuses : forall old rd svd b lg poles, lg = false \/ poles = [] -> dlr_init_rd old rd svd b lg poles = Raise ValueError.
Proof. exact dlr_refuses. Qed.
Print Assumptions C105_refuses.

(** The matrix of to_IR: entry (l, p) is - s v, where s and v are any numbers close to
    the stored singular value (C98_singular_values) and to the computed value of the
    l-th function at the p-th pole (C98_v). *)
Theorem C105_matrix : forall u eta rd old svd b lg poles d, rounding u eta rd -> 0 <= u -> dlr_init_rd old rd svd b lg poles = Ok d ->
  let F := d_a (dl_matrix d) in mr F = List.length (bs b) /\ mc F = List.length poles /\
  forall l p w y s v es ev, (l < List.length (vcols (bv b)))%nat -> nth_error poles p = Some w -> value_rd old rd (bv b) (Z.of_nat l) w = Ok y ->
  Rabs (nth l (bs b) 0 - s) <= es -> Rabs (y - v) <= ev ->
  Cmod (Cminus (me F l p) (RtoC (- (s * v)))) <= u * Rabs (s * v) + (1 + u) * (es * Rabs v + (Rabs s + es) * ev) + eta.
Proof. exact matrix_entry. Qed.
Print Assumptions C105_matrix.

(** to_IR along any axis: the product with that matrix, and the same function of time. *)
Theorem C105_to_IR : forall ar N gam th old rd svd b lg poles d, dot_near N gam th (ar_dot ar) -> dlr_init_rd old rd svd b lg poles = Ok d ->
  (List.length poles <= N)%nat ->
  slices_along (to_IR_rd ar d) (List.length poles) (List.length (bs b)) (values_near (d_a (dl_matrix d)) gam th).
Proof. exact to_ir_near. Qed.
Print Assumptions C105_to_IR.
Theorem C105_to_IR_same_function : forall ar N gam th old rd svd b lg poles d, dot_near N gam th (ar_dot ar) -> dlr_init_rd old rd svd b lg poles = Ok d ->
  (List.length poles <= N)%nat ->
  slices_along (to_IR_rd ar d) (List.length poles) (List.length (bs b)) (time_close b poles (d_a (dl_matrix d)) gam th).
Proof. exact to_ir_time. Qed.
Print Assumptions C105_to_IR_same_function.

(** from_IR is least squares, and undoes to_IR, up to the errors of the decomposition
    and of rounding. *)
Theorem C105_from_IR : forall ar N gam th u eta lo hi old rd svd b lg poles d a c e,
  arith_near N gam th u eta lo hi ar -> dlr_init_rd old rd svd b lg poles = Ok d ->
  let F := d_a (dl_matrix d) in
  decomposes F (svd F) a c e lo hi -> small_fit (List.length poles) gam u a c -> (List.length (bs b) <= N)%nat -> (List.length poles <= N)%nat ->
  slices_along (from_IR_rd ar d) (List.length (bs b)) (List.length poles)
    (fun x y => fits (fun _ => True) F gam th u eta a c e lo hi x y /\ fits_best least_squares F gam th u eta a c e lo hi x y).
Proof. exact from_ir_near. Qed.
Print Assumptions C105_from_IR.
Theorem C105_round_trip : forall ar N gam th u eta lo hi old rd svd b lg poles d a c e,
  arith_near N gam th u eta lo hi ar -> dlr_init_rd old rd svd b lg poles = Ok d ->
  let F := d_a (dl_matrix d) in
  decomposes F (svd F) a c e lo hi -> small_fit (List.length poles) gam u a c -> (List.length (bs b) <= N)%nat -> (List.length poles <= N)%nat ->
  slices_along (fun g k => do x <- to_IR_rd ar d g k; from_IR_rd ar d x k) (List.length poles) (List.length poles)
    (comes_back (fun _ => True) F gam th u eta a c e lo hi).
Proof. exact ir_round_trip. Qed.
Print Assumptions C105_round_trip.

(** Doubles qualify, if beta is one. *)
Theorem C105_doubles : (forall beta, is_double beta -> keeps_interval rnd64 beta) /\ Rabs (rnd64 PI - PI) <= / 2 ^ 53 * PI.
Proof. exact (conj keeps_double pi_double). Qed.
Print Assumptions C105_doubles.

(** In exact arithmetic these are the functions C64-C66 are about. *)
Theorem C105_exact_arithmetic : forall old f svd,
  (forall u tau, taupoles_call_rd (fun x => x) f u tau = taupoles_call f u tau) /\
  (forall u n, matspoles_call_rd (fun x => x) tanh PI u n = matspoles_call u n) /\
  (forall b lg poles, dlr_init_rd old (fun x => x) svd b lg poles = dlr_init svd b lg poles) /\
  (forall d x k, from_IR_rd exact_arith d x k = from_IR d x k) /\ (forall d x k, to_IR_rd exact_arith d x k = to_IR d x k).
Proof. exact dlr_exact. Qed.
Print Assumptions C105_exact_arithmetic.

(** Poles at -1, 0 and 3 in doubles, at beta = 2. *)
Example C105_times_met : keeps_interval rnd64 2 /\ small_errors (/ 2 ^ 53) eta64 (/ 2 ^ 53) /\ tfun_near (/ 2 ^ 53) eta64 tfun64 /\
  exists tp, taupoles_init "F" 2 [-1; 0; 3] = Ok tp /\
  (exists w, In w [-1; 0; 3] /\ w <> 0 /\ 2000 * eta64 <= / 2 ^ 53 * (2 * Rabs w)) /\ 2000 * eta64 <= / 2 ^ 53 * 2 /\
  Forall (fun w => 2 * Rabs w <= 10 ^ 89) [-1; 0; 3] /\ Forall (fun t => 0 <= t <= 2) [0; / 2; 2].
Proof. exact time_example. Qed.
Example C105_frequencies_met : Rabs (rnd64 PI - PI) <= / 2 ^ 53 * PI /\ tanh_near (/ 2 ^ 53) eta64 (fun x => rnd64 (tanh x)) /\
  fair_pole (/ 2 ^ 53) eta64 2 3 4 /\ fair_pole (/ 2 ^ 53) eta64 2 3 0 /\
  (exists M, matspoles_call_rd rnd64 (fun x => rnd64 (tanh x)) (rnd64 PI) (MatsPoles "B" 2 [0; 3]) (map IZR [4; 0]%Z) = Ok M) /\
  nth_error [0; 3] 1 = Some 3 /\ nth_error [4; 0]%Z 0 = Some 4%Z /\ Z.even 4 = negb false.
Proof. exact frequency_example. Qed.
(** A pole at 1 and a basis of two functions, made in doubles with beta = 2 and wmax = 1. *)
Example C105_transfer_met : exists b d lo, built_rd (/ 2 ^ 53) eta64 rnd64 powerRZ no_compute b /\ dlr_init_rd false rnd64 col_svd b true [1] = Ok d /\
  List.length (bs b) = 2%nat /\ List.length (vcols (bv b)) = 2%nat /\ (exists y, value_rd false rnd64 (bv b) 0 1 = Ok y) /\
  let F := d_a (dl_matrix d) in
  arith_near 2 (6 * INR 2 * / 2 ^ 53) (12 * INR 2 * 0) (9 * / 2 ^ 53) (2 * (0 / lo + 0)) lo lo (some_arith scaled) /\
  decomposes F (col_svd F) 0 0 0 lo lo /\ small_fit 1 (6 * INR 2 * / 2 ^ 53) (9 * / 2 ^ 53) 0 0.
Proof. exact transfer_example. Qed.
