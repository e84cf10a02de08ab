(** C106: augmentations and augmented bases in rounded arithmetic.  [rd] rounds every
    operation, with relative error u and absolute error eta; [pi] is np.pi.  The errors
    of the other rows of an augmented basis are those of C92, C97 and C98. *)
From Coq Require Import String ZArith Arith Bool Reals Lia Lra.
From Coquelicot Require Import Coquelicot.
From Coq Require Import List.
From Verif.Model Require Import Base Util Num Poly PolyIEEE FT FTIEEE SVE Basis BasisIEEE Augment AugmentIEEE IEEE.
From Verif.Spec Require Import SPoly SFT SFTIEEE SKernelIEEE SBasisIEEE SAugment SAugmentIEEE SDefaults.
From Verif.Proofs Require Import KernelRoundCall SVEPolicy AugmentRoundProps AugmentRoundExamples.
Import ListNotations.
Open Scope R_scope.

(** Imaginary time: TauConst and TauLinear, relative to sqrt(3/beta), the largest value
    of the latter. *)
Theorem C106_values : forall u eta rd a f ts, rounding u eta rd -> 0 < u <= / 10000 -> 0 <= eta ->
  tau_aug a -> fair_beta u eta (aug_beta a) -> is_function a f -> Forall (fun t => 0 <= t <= aug_beta a) ts ->
  exists vs, aug_call_rd rd a (FltArr (map Fin ts)) = Ok (map Fin vs) /\
  Forall2 (fun t v => Rabs (v - f t) <= 9 * u * sqrt (3 / aug_beta a)) ts vs.
Proof. exact values_close. Qed.
Print Assumptions C106_values.

(** Derivatives of positive order, to full relative accuracy. *)
Theorem C106_derivatives : forall u eta rd a f n ts, rounding u eta rd -> 0 < u <= / 10000 -> 0 <= eta ->
  tau_aug a -> fair_beta u eta (aug_beta a) -> is_function a f -> (0 < n)%nat -> Forall (fun t => 0 < t < aug_beta a) ts ->
  exists vs, aug_deriv_rd rd a n (FltArr (map Fin ts)) = Ok (map Fin vs) /\
  Forall2 (fun t v => exists d, is_derive_n f n t d /\ Rabs (v - d) <= 5 * u * Rabs d) ts vs.
Proof. exact derivatives_close. Qed.
Print Assumptions C106_derivatives.

(** hat: the Fourier integrals, to full relative accuracy; zeros are exact. *)
Theorem C106_hat : forall u eta rd pi a f ns, rounding u eta rd -> 0 < u <= / 10000 -> 0 <= eta -> Rabs (pi - PI) <= u * PI ->
  tau_aug a -> fair_beta u eta (aug_beta a) -> is_function a f ->
  Forall (fun k => Z.even k = true /\ fair_freq u eta (aug_beta a) k) ns ->
  exists vs, aug_hat_rd rd pi true a false (IntArr ns) = Ok vs /\
  Forall2 (fun k v => exists w, is_fourier (fun t => PI * IZR k * t / aug_beta a) f 0 (aug_beta a) w /\ Cmod (Cminus v w) <= 10 * u * Cmod w) ns vs.
Proof. exact hats_close. Qed.
Print Assumptions C106_hat.

(** Rounding does not change which arguments are refused, nor MatsubaraConst. *)
Theorem C106_refuses : forall rd pi,
  (forall a ts, ~ Forall (fun t => 0 <= t <= aug_beta a) ts -> aug_call_rd rd a (FltArr (map Fin ts)) = Raise ValueError) /\
  (forall np_complex a scalar ns, tau_aug a -> ~ Forall (fun k => Z.even k = true) ns -> aug_hat_rd rd pi np_complex a scalar (IntArr ns) = Raise ValueError) /\
  (forall b tau np_complex scalar ns, aug_call_rd rd (MatsubaraConst b) (FltArr tau) = aug_call (MatsubaraConst b) (FltArr tau) /\
     aug_hat_rd rd pi np_complex (MatsubaraConst b) scalar (IntArr ns) = Ok (map (fun _ => RtoC 1) ns)).
Proof. exact refuses. Qed.
Print Assumptions C106_refuses.

(** u of an augmented basis: first the augmentations, then the basis, row by row. *)
Theorem C106_u : forall old rd b augs xs M, augu_call_rd old rd (AugBasis b augs) xs = Ok M ->
  List.length M = (List.length augs + List.length (vcols (bu b)))%nat /\
  (forall l f, nth_error augs l = Some f -> exists row, aug_call_rd rd f (FltArr (map Fin xs)) = Ok row /\ nth_error M l = Some row) /\
  (forall l j x, (l < List.length (vcols (bu b)))%nat -> nth_error xs j = Some x ->
     exists row v, nth_error M (List.length augs + l) = Some (map Fin row) /\ nth_error row j = Some v /\ value_rd old rd (bu b) (Z.of_nat l) x = Ok v).
Proof. exact u_rows. Qed.
Print Assumptions C106_u.

(** It can be evaluated where the basis and all augmentations are defined. *)
Theorem C106_u_domain : forall u eta rd pw compute old b augs xs, built_rd u eta rd pw compute b ->
  let inside := Forall (fun t => gxmin (vgeom (bu b)) <= t <= gxmax (vgeom (bu b))) xs /\ (forall f, In f augs -> Forall (fun t => 0 <= t <= aug_beta f) xs) in
  (inside -> exists M, augu_call_rd old rd (AugBasis b augs) xs = Ok M) /\ (~ inside -> augu_call_rd old rd (AugBasis b augs) xs = Raise ValueError).
Proof. exact u_succeeds. Qed.
Print Assumptions C106_u_domain.

(** uhat likewise. *)
Theorem C106_uhat : forall rd F model np_complex scalar b augs ns M, auguhat_call_rd rd F model np_complex (AugBasis b augs) scalar ns = Ok M ->
  exists A B, M = A ++ B /\ List.length A = List.length augs /\ ft_call_rd rd F model (buhat b) ns = Ok B /\
  forall l f, nth_error augs l = Some f -> exists row, aug_hat_rd rd (f_pi F) np_complex f scalar (IntArr ns) = Ok row /\ nth_error A l = Some row.
Proof. exact uhat_rows. Qed.
Print Assumptions C106_uhat.
Theorem C106_uhat_domain : forall u eta rd pw compute F model b augs ns, built_rd u eta rd pw compute b ->
  let inside := Forall (allowed b) ns /\ (forall f, In f augs -> tau_aug f -> Forall (fun k => Z.even k = true) ns) in
  (inside -> exists M, auguhat_call_rd rd F model true (AugBasis b augs) false ns = Ok M) /\
  (~ inside -> auguhat_call_rd rd F model true (AugBasis b augs) false ns = Raise ValueError).
Proof. exact uhat_succeeds. Qed.
Print Assumptions C106_uhat_domain.

(** Doubles, for a wide range of temperatures and frequencies. *)
Theorem C106_doubles : forall beta k, / 10 ^ 100 <= beta <= 10 ^ 100 ->
  fair_beta (/ 2 ^ 53) eta64 beta /\ ((Z.abs k <= 10 ^ 100)%Z -> fair_freq (/ 2 ^ 53) eta64 beta k).
Proof. exact fair_doubles. Qed.
Print Assumptions C106_doubles.

(** In exact arithmetic these are the functions C59-C63 are about. *)
Theorem C106_exact_arithmetic : forall old,
  (forall a tau, aug_call_rd (fun x => x) a tau = aug_call a tau) /\ (forall a n tau, aug_deriv_rd (fun x => x) a n tau = aug_deriv a n tau) /\
  (forall np_complex a scalar n, aug_hat_rd (fun x => x) PI np_complex a scalar n = aug_hat np_complex a scalar n) /\
  (forall a x, augu_call_rd old (fun x => x) a x = augu_call a x) /\
  (forall np_complex a scalar n, auguhat_call_rd (fun x => x) exact_library (fun l n => giw (ft_moments (buhat (abasis a)) l) n) np_complex a scalar n = auguhat_call np_complex a scalar n).
Proof. exact aug_exact. Qed.
Print Assumptions C106_exact_arithmetic.

(** beta = 10 in doubles. *)
Example C106_augmentations_met : rounding (/ 2 ^ 53) eta64 rnd64 /\ 0 < / 2 ^ 53 <= / 10000 /\ 0 <= eta64 /\ Rabs (rnd64 PI - PI) <= / 2 ^ 53 * PI /\
  fair_beta (/ 2 ^ 53) eta64 10 /\ (exists f, is_function (TauLinear 10) f) /\ Forall (fun t => 0 <= t <= aug_beta (TauLinear 10)) [0; / 3; 10] /\
  Forall (fun k => Z.even k = true /\ fair_freq (/ 2 ^ 53) eta64 10 k) [-4; 0; 6]%Z.
Proof. exact aug_example. Qed.
(** A basis of two functions made in doubles with beta = 2, and MatsubaraConst. *)
Example C106_basis_met : exists b M, built_rd (/ 2 ^ 53) eta64 rnd64 powerRZ no_compute b /\ augbasis_init b [ACls CMatsubaraConst] = Ok (AugBasis b [MatsubaraConst 2]) /\
  augu_call_rd false rnd64 (AugBasis b [MatsubaraConst 2]) [0; 1; 2] = Ok M /\ List.length M = 3%nat /\ Forall (allowed b) [-3; 1]%Z.
Proof. exact u_example. Qed.
