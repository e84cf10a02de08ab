(** C73, C74, C75: the singular value expansion of a kernel. *)
From Coq Require Import String ZArith Arith Bool Reals Lra Lia.
From Coquelicot Require Import Coquelicot.
From Coq Require Import List Sorting.Sorted Sorting.Permutation.
From Verif.Model Require Import Base Util Num Gauss Poly SVE Kernel Compute.
From Verif.Spec Require Import SGauss SPoly SFT SSVE SBasis SKernel SCompute.
From Verif.Proofs Require Import ComputeFull ComputeDefined ComputeCase ComputeWhole.
Import ListNotations.
Open Scope R_scope.
Notation length := List.length.

(** C73: the singular values are positive, in non-increasing order and no more
    than n_sv; there are as many left and right functions, polynomials of the
    requested order on the hinted segments; the accuracy stored is the effective
    one; the left functions are positive at 1. *)
Theorem C73_well_formed :
  forall have_xprec have_gejsv dd f legendre run argsort K eps cutoff n_sv ng work st svds r,
  good_rules legendre -> (forall s, sorts s (argsort s)) -> svd_shaped run ->
  compute have_xprec have_gejsv dd f legendre run argsort K eps cutoff n_sv ng work st svds = Ok (Some r) ->
  nonincreasing (ss r) /\ Forall (fun x => 0 < x) (ss r) /\ within (length (ss r)) n_sv /\
  (exists n, sve_on n (segments_x K) (segments_y K) r /\ forall m, ng = Some m -> n = m) /\
  (exists e t strategy w, safe_eps have_xprec dd eps work svds = (e, t, strategy, w) /\ seps r = Some e) /\
  (forall l g, represents (su r) l g -> 0 < g 1).
Proof. exact wellformed. Qed.
Print Assumptions C73_well_formed.

(** C73: with the centrosymmetric strategy, every function is even or odd as
    stored and the two functions of a pair have the same parity. *)
Theorem C73_parity :
  forall have_xprec have_gejsv dd f legendre run argsort K eps cutoff n_sv ng work st svds r,
  good_rules legendre -> (forall s, sorts s (argsort s)) -> svd_shaped run ->
  compute have_xprec have_gejsv dd f legendre run argsort K eps cutoff n_sv ng work st svds = Ok (Some r) ->
  st <> Some SampleStrat ->
  forall l p q, nth_error (vcols (su r)) l = Some p -> nth_error (vcols (sv r)) l = Some q ->
    (csym p = 1 \/ csym p = -1) /\ csym q = csym p /\
    has_parity (vgeom (su r)) p (csym p) /\ has_parity (vgeom (sv r)) q (csym q).
Proof. exact parities. Qed.
Print Assumptions C73_parity.

(** C73: a result with at least one value meets what the basis (C45, C46, C47,
    C50) and the quadrature over [-1, 1] assume of an expansion. *)
Theorem C73_basis_input :
  forall have_xprec have_gejsv dd f legendre run argsort K eps cutoff n_sv ng work st svds r,
  good_rules legendre -> (forall s, sorts s (argsort s)) -> svd_shaped run ->
  compute have_xprec have_gejsv dd f legendre run argsort K eps cutoff n_sv ng work st svds = Ok (Some r) ->
  ss r <> [] -> sve_ok r.
Proof. exact basis_input. Qed.
Print Assumptions C73_basis_input.

(** C74: centrosymmetric strategy.  If the decompositions of the two weighted
    matrices are exact, the squared error of the expansion, summed with the
    weights over the nodes and their reflections, equals the sum of the squares
    of the dropped singular values, and with a cutoff only it is at most their
    number times (cutoff * largest value)^2; the functions are orthonormal. *)
Theorem C74_error_centrosymmetric :
  forall have_xprec have_gejsv dd f legendre run argsort,
  good_rules legendre -> (forall s, sorts s (argsort s)) ->
  forall K eps cutoff n_sv ng work st svds r,
  compute have_xprec have_gejsv dd f legendre run argsort K eps cutoff n_sv ng work st svds = Ok (Some r) ->
  st <> Some SampleStrat ->
  forall k, tfun_ok f -> 0 < k_lambda K ->
  (forall x y, -1 <= x <= 1 -> -1 <= y <= 1 -> has_value f K x y (k x y)) ->
  exists t n q gx gy alge he algo ho,
    legendre t n = Ok q /\ (forall m, ng = Some m -> n = m) /\
    piecewise q (half (segments_x K)) = Ok gx /\ piecewise q (half (segments_y K)) = Ok gy /\
    let Ae := weighted (fun x y => k x y + k x (- y)) gx gy in
    let Ao := weighted (fun x y => k x y - k x (- y)) gx gy in
    let even := run alge Ae he in
    let odd := run algo Ao ho in
    exact_svd (length (rx gx)) (length (rx gy)) Ae even -> exact_svd (length (rx gx)) (length (rx gy)) Ao odd ->
    exists E, (forall x y, -1 <= x <= 1 -> -1 <= y <= 1 -> sve_sum r x y = Ok (E x y)) /\
      quad2 gx gy (fun x y => Rsqr (k x y - E x y) + Rsqr (k (- x) y - E (- x) y) +
                              Rsqr (k x (- y) - E x (- y)) + Rsqr (k (- x) (- y) - E (- x) (- y))) =
        sumsq (svals even ++ svals odd) - sumsq (ss r) /\
      (exists i j, Permutation (ss r) (firstn i (svals even) ++ firstn j (svals odd))) /\
      (forall c M, n_sv = None -> cutoff = Some (Fin c) -> nonincreasing (svals even) -> nonincreasing (svals odd) ->
         (forall x, In x (svals even ++ svals odd) -> 0 <= x <= M) ->
         sumsq (svals even ++ svals odd) - sumsq (ss r) <=
           INR (length (svals even ++ svals odd) - length (ss r)) * Rsqr (c * M)) /\
      orthonormal_functions (su r) /\ orthonormal_functions (sv r) /\
      (forall l g, represents (su r) l g -> 0 < g 1).
Proof. exact error_centro. Qed.
Print Assumptions C74_error_centrosymmetric.

(** C74: the same without symmetrisation. *)
Theorem C74_error_sampling :
  forall have_xprec have_gejsv dd f legendre run argsort,
  good_rules legendre ->
  forall K eps cutoff n_sv ng work svds r,
  compute have_xprec have_gejsv dd f legendre run argsort K eps cutoff n_sv ng work (Some SampleStrat) svds = Ok (Some r) ->
  forall k, (forall x y, -1 <= x <= 1 -> -1 <= y <= 1 -> has_value f K x y (k x y)) ->
  exists t n q gx gy alg h,
    legendre t n = Ok q /\ (forall m, ng = Some m -> n = m) /\
    piecewise q (segments_x K) = Ok gx /\ piecewise q (segments_y K) = Ok gy /\
    let A := weighted k gx gy in
    let b := run alg A h in
    exact_svd (length (rx gx)) (length (rx gy)) A b ->
    exists E, (forall x y, -1 <= x <= 1 -> -1 <= y <= 1 -> sve_sum r x y = Ok (E x y)) /\
      quad2 gx gy (fun x y => Rsqr (k x y - E x y)) = sumsq (svals b) - sumsq (ss r) /\
      (exists i, ss r = firstn i (svals b)) /\
      (forall c M, n_sv = None -> cutoff = Some (Fin c) -> nonincreasing (svals b) ->
         (forall x, In x (svals b) -> 0 <= x <= M) ->
         sumsq (svals b) - sumsq (ss r) <= INR (length (svals b) - length (ss r)) * Rsqr (c * M)) /\
      orthonormal_functions (su r) /\ orthonormal_functions (sv r) /\
      (forall l g, represents (su r) l g -> 0 < g 1).
Proof. exact error_sample. Qed.
Print Assumptions C74_error_sampling.

(** The logistic kernel with lambda = 1 and the one-point rule: both strategies
    return an expansion, and the decompositions used are exact. *)
Example C73_C74_nonvacuous :
  forall have_xprec have_gejsv dd,
  good_rules leg1 /\ (forall s, sorts s (sort_indices s)) /\ svd_shaped row_svd /\ svd_shaped pair_svd /\
  tfun_ok casef /\ 0 < k_lambda caseK /\
  (forall x y, -1 <= x <= 1 -> -1 <= y <= 1 -> has_value casef caseK x y (casek x y)) /\
  (exists r, case_compute have_xprec have_gejsv dd = Ok (Some r)) /\
  (exists r, case_sample have_xprec have_gejsv dd = Ok (Some r)).
Proof. exact case_hypotheses. Qed.
Example C74_exact_decompositions :
  forall t n q alg h, leg1 t n = Ok q ->
  (forall gx gy, piecewise q (half (segments_x caseK)) = Ok gx -> piecewise q (half (segments_y caseK)) = Ok gy ->
     let Ae := weighted (fun x y => casek x y + casek x (- y)) gx gy in
     let Ao := weighted (fun x y => casek x y - casek x (- y)) gx gy in
     exact_svd (length (rx gx)) (length (rx gy)) Ae (row_svd alg Ae h) /\
     exact_svd (length (rx gx)) (length (rx gy)) Ao (row_svd alg Ao h)) /\
  (forall gx gy, piecewise q (segments_x caseK) = Ok gx -> piecewise q (segments_y caseK) = Ok gy ->
     let A := weighted casek gx gy in
     exact_svd (length (rx gx)) (length (rx gy)) A (pair_svd alg A h)).
Proof. exact case_decompositions. Qed.

(** C75: with a known strategy, a nonnegative integer n_sv or none and a valid
    cutoff, the computation ends without an exception, for every kernel, accuracy,
    work type and strategy, if the Legendre rules of the orders used exist. *)
Theorem C75_returns :
  forall have_xprec have_gejsv dd f legendre run argsort K eps cutoff n_sv ng work st svds,
  (forall s, sorts s (argsort s)) -> svd_shaped run ->
  (forall t n, (ng = Some n \/ (ng = None /\ (n = 10 \/ n = 16)%nat)) ->
     exists q, legendre t n = Ok q /\ gauss_ok n q /\ distances_ok q) ->
  known_strategy svds ->
  (n_sv = None \/ exists z, n_sv = Some (PyInt z) /\ (0 <= z)%Z) ->
  (forall c, cutoff = Some c -> exists x, valid_rtol c x) ->
  (cutoff = None -> 0 <= dd <= / 2 /\ forall e, work = Some (OtherType e) -> 0 <= e <= / 2) ->
  exists o, compute have_xprec have_gejsv dd f legendre run argsort K eps cutoff n_sv ng work st svds = Ok o.
Proof. exact returns. Qed.
Print Assumptions C75_returns.

(** C75: without a cutoff, values below twice the epsilon of the work type, relative
    to the largest, are dropped. *)
Theorem C75_default_cutoff :
  forall have_xprec have_gejsv dd f legendre run argsort K eps n_sv ng work st svds safe t strategy w,
  safe_eps have_xprec dd eps work svds = (safe, t, strategy, w) ->
  let with_cutoff c := compute have_xprec have_gejsv dd f legendre run argsort K eps c n_sv ng work st svds in
  (t = Float64 -> with_cutoff None = with_cutoff (Some (Fin (2 * / 2 ^ 52)))) /\
  (t = DDouble -> with_cutoff None = with_cutoff (Some (Fin (2 * dd)))) /\
  (forall e, t = OtherType e -> with_cutoff None = with_cutoff (Some (Fin (2 * e)))).
Proof. exact cutoff_default. Qed.
Print Assumptions C75_default_cutoff.

(** C75: invalid n_sv or cutoff is rejected. *)
Theorem C75_rejects :
  forall have_xprec have_gejsv dd f legendre run argsort K eps cutoff n_sv ng work st svds,
  (forall s, sorts s (argsort s)) -> svd_shaped run ->
  (forall t n, (ng = Some n \/ (ng = None /\ (n = 10 \/ n = 16)%nat)) ->
     exists q, legendre t n = Ok q /\ gauss_ok n q /\ distances_ok q) ->
  known_strategy svds ->
  (invalid_lmax n_sv -> compute have_xprec have_gejsv dd f legendre run argsort K eps cutoff n_sv ng work st svds = Raise ValueError) /\
  (n_sv <> Some (PyFloat PInf) -> (exists c, cutoff = Some c /\ forall x, ~ valid_rtol c x) ->
     compute have_xprec have_gejsv dd f legendre run argsort K eps cutoff n_sv ng work st svds = Raise ValueError) /\
  (n_sv = Some (PyFloat PInf) ->
     compute have_xprec have_gejsv dd f legendre run argsort K eps cutoff n_sv ng work st svds = Raise OverflowError).
Proof. exact rejects. Qed.
Print Assumptions C75_rejects.

(** C75: so is an unknown SVD strategy, unless the work type is double-double. *)
Theorem C75_unknown_strategy :
  forall have_xprec have_gejsv dd f legendre run argsort K eps cutoff n_sv ng work st s,
  (forall s, sorts s (argsort s)) -> svd_shaped run ->
  (forall t n, (ng = Some n \/ (ng = None /\ (n = 10 \/ n = 16)%nat)) ->
     exists q, legendre t n = Ok q /\ gauss_ok n q /\ distances_ok q) ->
  ~ known_strategy (Some s) -> (have_xprec = false \/ exists t, work = Some t /\ t <> DDouble) ->
  compute have_xprec have_gejsv dd f legendre run argsort K eps cutoff n_sv ng work st (Some s) = Raise ValueError.
Proof. exact unknown. Qed.
Print Assumptions C75_unknown_strategy.

Example C75_nonvacuous :
  known_strategy (Some "default"%string) /\ (forall t n, (Some 1%nat = Some n \/ (Some 1%nat = None /\ (n = 10 \/ n = 16)%nat)) ->
     exists q, leg1 t n = Ok q /\ gauss_ok n q /\ distances_ok q) /\ (exists x, valid_rtol (Fin 0) x) /\
  invalid_lmax (Some (PyInt (-1))) /\ ~ known_strategy (Some "fastest"%string).
Proof. exact case_known. Qed.

(** Rules of the two orders the code picks exist, and with them the default
    arguments return. *)
Example C75_default_orders :
  exists legendre, good_rules legendre /\
    (forall t n, (n = 10 \/ n = 16)%nat -> exists q, legendre t n = Ok q /\ gauss_ok n q /\ distances_ok q) /\
    forall have_xprec have_gejsv dd K eps, 0 <= dd <= / 2 -> exists o,
      compute have_xprec have_gejsv dd casef legendre row_svd sort_indices K eps None None None None None None = Ok o.
Proof. exact default_orders. Qed.
