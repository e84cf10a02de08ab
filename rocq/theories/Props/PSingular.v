(** C83, C84: the singular value equations and the best approximation. *)
From Coq Require Import String ZArith Arith Bool Reals Lra Lia.
From Coquelicot Require Import Coquelicot.
From Coq Require Import List Sorting.Sorted Sorting.Permutation.
From Verif.Model Require Import Base Util Num Gauss Poly SVE Kernel Compute.
From Verif.Spec Require Import SGauss SPoly SFT SSVE SBasis SKernel SCompute SSingular.
From Verif.Proofs Require Import ComputeCase SingularCompute BestCuts ComputeNonempty SingularCase.
Import ListNotations.
Open Scope R_scope.
Notation length := List.length.

(** C83: centrosymmetric strategy.  If the decompositions of the two weighted
    matrices consist of singular triples, complete or not, the functions returned
    solve the two integral equations of the kernel with the integrals replaced by
    the composite Gauss rules on the segments, at all their nodes; they are
    orthonormal for these rules and on [-1, 1]; and cutting the expansion off after N functions
    leaves of the weighted sum of squares of the kernel what exceeds the squares
    of the first N values. *)
Theorem C83_singular_centrosymmetric :
  forall have_xprec have_gejsv dd f legendre run argsort,
  good_rules legendre -> (forall s, sorts s (argsort s)) ->
  forall K eps cutoff n_sv ng work st svds r,
  compute have_xprec have_gejsv dd f legendre run argsort K eps cutoff n_sv ng work st svds = Ok (Some r) ->
  st <> Some SampleStrat ->
  forall k, tfun_ok f -> 0 < k_lambda K ->
  (forall x y, -1 <= x <= 1 -> -1 <= y <= 1 -> has_value f K x y (k x y)) ->
  exists t n q gx gy GX GY alge he algo ho,
    legendre t n = Ok q /\ (forall m, ng = Some m -> n = m) /\
    piecewise q (half (segments_x K)) = Ok gx /\ piecewise q (half (segments_y K)) = Ok gy /\
    piecewise q (segments_x K) = Ok GX /\ piecewise q (segments_y K) = Ok GY /\
    let Ae := weighted (fun x y => k x y + k x (- y)) gx gy in
    let Ao := weighted (fun x y => k x y - k x (- y)) gx gy in
    singular_triples (length (rx gx)) (length (rx gy)) Ae (run alge Ae he) ->
    singular_triples (length (rx gx)) (length (rx gy)) Ao (run algo Ao ho) ->
    singular_system GX GY k r /\ quad_orthonormal GX (su r) /\ quad_orthonormal GY (sv r) /\ cut_errors GX GY k r /\
    orthonormal_functions (su r) /\ orthonormal_functions (sv r).
Proof. exact singular_centro. Qed.
Print Assumptions C83_singular_centrosymmetric.

(** C83: the same without symmetrisation. *)
Theorem C83_singular_sampling :
  forall have_xprec have_gejsv dd f legendre run argsort,
  good_rules legendre ->
  forall K eps cutoff n_sv ng work svds r,
  compute have_xprec have_gejsv dd f legendre run argsort K eps cutoff n_sv ng work (Some SampleStrat) svds = Ok (Some r) ->
  forall k, (forall x y, -1 <= x <= 1 -> -1 <= y <= 1 -> has_value f K x y (k x y)) ->
  exists t n q GX GY alg h,
    legendre t n = Ok q /\ (forall m, ng = Some m -> n = m) /\
    piecewise q (segments_x K) = Ok GX /\ piecewise q (segments_y K) = Ok GY /\
    let A := weighted k GX GY in
    singular_triples (length (rx GX)) (length (rx GY)) A (run alg A h) ->
    singular_system GX GY k r /\ quad_orthonormal GX (su r) /\ quad_orthonormal GY (sv r) /\ cut_errors GX GY k r /\
    orthonormal_functions (su r) /\ orthonormal_functions (sv r).
Proof. exact singular_sample. Qed.
Print Assumptions C83_singular_sampling.

(** C84: centrosymmetric strategy.  If the two decompositions are exact, with
    nonnegative values in non-increasing order, the expansion cut off after N
    functions is a best approximation of the kernel by sums of N products of a
    function of x and a function of y, in the weighted sum of squares. *)
Theorem C84_best_centrosymmetric :
  forall have_xprec have_gejsv dd f legendre run argsort,
  good_rules legendre -> (forall s, sorts s (argsort s)) ->
  forall K eps cutoff n_sv ng work st svds r,
  compute have_xprec have_gejsv dd f legendre run argsort K eps cutoff n_sv ng work st svds = Ok (Some r) ->
  st <> Some SampleStrat ->
  forall k, tfun_ok f -> 0 < k_lambda K ->
  (forall x y, -1 <= x <= 1 -> -1 <= y <= 1 -> has_value f K x y (k x y)) ->
  exists t n q gx gy GX GY alge he algo ho,
    legendre t n = Ok q /\ (forall m, ng = Some m -> n = m) /\
    piecewise q (half (segments_x K)) = Ok gx /\ piecewise q (half (segments_y K)) = Ok gy /\
    piecewise q (segments_x K) = Ok GX /\ piecewise q (segments_y K) = Ok GY /\
    let Ae := weighted (fun x y => k x y + k x (- y)) gx gy in
    let Ao := weighted (fun x y => k x y - k x (- y)) gx gy in
    let even := run alge Ae he in
    let odd := run algo Ao ho in
    exact_svd (length (rx gx)) (length (rx gy)) Ae even -> exact_svd (length (rx gx)) (length (rx gy)) Ao odd ->
    nonincreasing (svals even) -> nonincreasing (svals odd) ->
    Forall (fun x => 0 <= x) (svals even) -> Forall (fun x => 0 <= x) (svals odd) ->
    best_cuts GX GY k r.
Proof. exact best_centro. Qed.
Print Assumptions C84_best_centrosymmetric.

(** C84: the same without symmetrisation. *)
Theorem C84_best_sampling :
  forall have_xprec have_gejsv dd f legendre run argsort,
  good_rules legendre ->
  forall K eps cutoff n_sv ng work svds r,
  compute have_xprec have_gejsv dd f legendre run argsort K eps cutoff n_sv ng work (Some SampleStrat) svds = Ok (Some r) ->
  forall k, (forall x y, -1 <= x <= 1 -> -1 <= y <= 1 -> has_value f K x y (k x y)) ->
  exists t n q GX GY alg h,
    legendre t n = Ok q /\ (forall m, ng = Some m -> n = m) /\
    piecewise q (segments_x K) = Ok GX /\ piecewise q (segments_y K) = Ok GY /\
    let A := weighted k GX GY in
    let b := run alg A h in
    exact_svd (length (rx GX)) (length (rx GY)) A b -> nonincreasing (svals b) -> Forall (fun x => 0 <= x) (svals b) ->
    best_cuts GX GY k r.
Proof. exact best_sample. Qed.
Print Assumptions C84_best_sampling.

(** C84: without a limit on the number of values and with a cutoff below one, the
    expansion of a positive kernel keeps at least one function. *)
Theorem C84_nonempty_centrosymmetric :
  forall have_xprec have_gejsv dd f legendre run argsort,
  good_rules legendre -> (forall s, sorts s (argsort s)) -> svd_shaped run ->
  forall K eps cutoff ng work st svds r,
  compute have_xprec have_gejsv dd f legendre run argsort K eps cutoff None ng work st svds = Ok (Some r) ->
  st <> Some SampleStrat ->
  (cutoff = None -> dd < / 2 /\ forall e, work = Some (OtherType e) -> e < / 2) -> (forall c, cutoff = Some (Fin c) -> c < 1) ->
  forall k, tfun_ok f -> 0 < k_lambda K ->
  (forall x y, -1 <= x <= 1 -> -1 <= y <= 1 -> has_value f K x y (k x y)) ->
  (forall x y, -1 < x < 1 -> -1 < y < 1 -> 0 < k x y) ->
  exists t n q gx gy alge he,
    legendre t n = Ok q /\ (forall m, ng = Some m -> n = m) /\
    piecewise q (half (segments_x K)) = Ok gx /\ piecewise q (half (segments_y K)) = Ok gy /\
    let Ae := weighted (fun x y => k x y + k x (- y)) gx gy in
    exact_svd (length (rx gx)) (length (rx gy)) Ae (run alge Ae he) -> ss r <> [].
Proof. exact nonempty_centro. Qed.
Print Assumptions C84_nonempty_centrosymmetric.

Theorem C84_nonempty_sampling :
  forall have_xprec have_gejsv dd f legendre run (argsort : list R -> list nat),
  good_rules legendre -> svd_shaped run ->
  forall K eps cutoff ng work svds r,
  compute have_xprec have_gejsv dd f legendre run argsort K eps cutoff None ng work (Some SampleStrat) svds = Ok (Some r) ->
  (cutoff = None -> dd < / 2 /\ forall e, work = Some (OtherType e) -> e < / 2) -> (forall c, cutoff = Some (Fin c) -> c < 1) ->
  forall k, (forall x y, -1 <= x <= 1 -> -1 <= y <= 1 -> has_value f K x y (k x y)) ->
  (forall x y, -1 < x < 1 -> -1 < y < 1 -> 0 < k x y) ->
  exists t n q gx gy alg h,
    legendre t n = Ok q /\ (forall m, ng = Some m -> n = m) /\
    piecewise q (segments_x K) = Ok gx /\ piecewise q (segments_y K) = Ok gy /\
    let A := weighted k gx gy in
    exact_svd (length (rx gx)) (length (rx gy)) A (run alg A h) -> ss r <> [].
Proof. exact nonempty_sample. Qed.
Print Assumptions C84_nonempty_sampling.

(** The logistic kernel with lambda = 1 and the one-point rule: both strategies
    return an expansion with at least one function for which all this holds. *)
Example C83_C84_nonvacuous_centrosymmetric :
  forall have_xprec have_gejsv dd, exists r, case_compute have_xprec have_gejsv dd = Ok (Some r) /\ ss r <> [] /\
  exists gx gy, piecewise gauss1 (segments_x caseK) = Ok gx /\ piecewise gauss1 (segments_y caseK) = Ok gy /\
    singular_system gx gy casek r /\ best_cuts gx gy casek r.
Proof. exact case_singular. Qed.

Example C83_C84_nonvacuous_sampling :
  forall have_xprec have_gejsv dd, exists r, case_sample have_xprec have_gejsv dd = Ok (Some r) /\ ss r <> [] /\
  exists gx gy, piecewise gauss1 (segments_x caseK) = Ok gx /\ piecewise gauss1 (segments_y caseK) = Ok gy /\
    singular_system gx gy casek r /\ best_cuts gx gy casek r.
Proof. exact case_singular_sample. Qed.
