(** C90: expansions made from kernel matrices computed in rounded arithmetic. *)
From Coq Require Import String ZArith Arith Bool Reals Lra Lia.
From Coquelicot Require Import Coquelicot.
From Coq Require Import List Sorting.Sorted.
From Verif.Model Require Import Base Util IEEE Num Gauss Poly FT SVE Basis Kernel KernelIEEE GaussIEEE Compute Whole.
From Verif.Spec Require Import SGauss SPoly SFT SSVE SBasis SKernel SCompute SSingular SWhole SNear SKernelIEEE SGaussIEEE SRounded.
From Verif.Proofs Require Import SumFacts ComputeCase KernelRoundCall SegmentGaps RoundedSVE RoundedCase.
Import ListNotations.
Open Scope R_scope.
Notation length := List.length.

(** C90: the hinted segments of the kernels of the library, and their halves, are
    such as C89 asks for. *)
Theorem C90_segments : forall K l, 0 < k_lambda K <= 10 ^ 16 -> l = segments_x K \/ l = segments_y K ->
  ordinary_edges l /\ ordinary_edges (half l).
Proof. exact hinted_edges. Qed.
Print Assumptions C90_segments.

(** C90: the matrix computed in rounded arithmetic is close to the exact one, in the
    root of the sum of the squares of the entries. *)
Theorem C90_matrix :
  forall u eta e rd f n q r sg om rho kap K GX GY M,
  arithmetic u eta e rd f -> reference u n q r sg om rho kap -> usual_cutoff K ->
  piecewise q (segments_x K) = Ok GX -> piecewise q (segments_y K) = Ok GY ->
  sampling_matrix_rd rd (kernel_matrix_rd rd f K) r (segments_x K) (segments_y K) = Ok M ->
  forall f0 k, tfun_ok f0 -> (forall x y, -1 <= x <= 1 -> -1 <= y <= 1 -> has_value f0 K x y (k x y)) ->
  sumn (length (rx GX)) (fun i => sumn (length (rx GY)) (fun j => Rsqr (ment (weighted k GX GY) i j - ment M i j))) <= Rsqr (full_error u e sg om rho kap K).
Proof. exact full_close. Qed.
Print Assumptions C90_matrix.

(** C90: so are the matrices of the even (s = 1) and odd (s = -1) parts. *)
Theorem C90_even_odd :
  forall u eta e rd f n q r sg om rho kap K gx gy s red M,
  arithmetic u eta e rd f -> reference u n q r sg om rho kap -> usual_cutoff K ->
  piecewise q (half (segments_x K)) = Ok gx -> piecewise q (half (segments_y K)) = Ok gy ->
  s = 1 \/ s = -1 -> get_symmetrized K s = Ok red ->
  sampling_matrix_rd rd (reduced_matrix_rd rd f red) r (half (segments_x K)) (half (segments_y K)) = Ok M ->
  forall f0 k, tfun_ok f0 -> (forall x y, -1 <= x <= 1 -> -1 <= y <= 1 -> has_value f0 K x y (k x y)) ->
  sumn (length (rx gx)) (fun i => sumn (length (rx gy)) (fun j => Rsqr (ment (weighted (fun x y => k x y + s * k x (- y)) gx gy) i j - ment M i j))) <= Rsqr (half_error u e sg om rho kap K).
Proof. exact half_close. Qed.
Print Assumptions C90_even_odd.

(** C90: centrosymmetric strategy.  If the decompositions returned by the library
    are right for the rounded matrices up to de and do, the expansion is as close to
    the kernel as these errors and those of the rounded matrices allow. *)
Theorem C90_centrosymmetric :
  forall have_xprec have_gejsv dd f legendre run argsort,
  good_rules legendre -> (forall s, sorts s (argsort s)) ->
  forall K eps cutoff n_sv ng work st svds r,
  compute have_xprec have_gejsv dd f legendre run argsort K eps cutoff n_sv ng work st svds = Ok (Some r) -> st <> Some SampleStrat ->
  forall k, tfun_ok f -> usual_cutoff K -> (forall x y, -1 <= x <= 1 -> -1 <= y <= 1 -> has_value f K x y (k x y)) ->
  exists t n q gx gy GX GY alge he algo ho,
    legendre t n = Ok q /\ (forall m, ng = Some m -> n = m) /\
    piecewise q (half (segments_x K)) = Ok gx /\ piecewise q (half (segments_y K)) = Ok gy /\
    piecewise q (segments_x K) = Ok GX /\ piecewise q (segments_y K) = Ok GY /\
    let even := run alge (weighted (fun x y => k x y + k x (- y)) gx gy) he in
    let odd := run algo (weighted (fun x y => k x y - k x (- y)) gx gy) ho in
    forall u eta e rd f' q' sg om rho kap Ke Ko Me Mo de d_o,
    arithmetic u eta e rd f' -> reference u n q q' sg om rho kap ->
    get_symmetrized K 1 = Ok Ke -> get_symmetrized K (-1) = Ok Ko ->
    sampling_matrix_rd rd (reduced_matrix_rd rd f' Ke) q' (half (segments_x K)) (half (segments_y K)) = Ok Me ->
    sampling_matrix_rd rd (reduced_matrix_rd rd f' Ko) q' (half (segments_x K)) (half (segments_y K)) = Ok Mo ->
    near_svd (length (rx gx)) (length (rx gy)) Me even de -> near_svd (length (rx gx)) (length (rx gy)) Mo odd d_o ->
    let c := half_error u e sg om rho kap K in
    near_best GX GY k r (sqrt (Rsqr (de + c) + Rsqr (d_o + c))) (sumsq (svals even) + sumsq (svals odd)).
Proof. exact rounded_centro. Qed.
Print Assumptions C90_centrosymmetric.

(** C90: without symmetrisation. *)
Theorem C90_sampling :
  forall have_xprec have_gejsv dd f legendre run argsort,
  good_rules legendre ->
  forall K eps cutoff n_sv ng work svds r,
  compute have_xprec have_gejsv dd f legendre run argsort K eps cutoff n_sv ng work (Some SampleStrat) svds = Ok (Some r) ->
  forall k, tfun_ok f -> usual_cutoff K -> (forall x y, -1 <= x <= 1 -> -1 <= y <= 1 -> has_value f K x y (k x y)) ->
  exists t n q GX GY alg h,
    legendre t n = Ok q /\ (forall m, ng = Some m -> n = m) /\
    piecewise q (segments_x K) = Ok GX /\ piecewise q (segments_y K) = Ok GY /\
    let o := run alg (weighted k GX GY) h in
    forall u eta e rd f' q' sg om rho kap M d,
    arithmetic u eta e rd f' -> reference u n q q' sg om rho kap ->
    sampling_matrix_rd rd (kernel_matrix_rd rd f' K) q' (segments_x K) (segments_y K) = Ok M ->
    near_svd (length (rx GX)) (length (rx GY)) M o d ->
    near_best GX GY k r (d + full_error u e sg om rho kap K) (sumsq (svals o)).
Proof. exact rounded_sample. Qed.
Print Assumptions C90_sampling.

(** C90: the basis made from such an expansion, in tau and omega. *)
Theorem C90_basis_centrosymmetric :
  forall have_xprec have_gejsv dd f legendre run argsort,
  good_rules legendre -> (forall s, sorts s (argsort s)) -> svd_shaped run ->
  forall statistics beta wmax eps' max_size kernel c,
  let K := used_kernel (beta * wmax) kernel in
  forall eps cutoff n_sv ng work st svds r b,
  compute have_xprec have_gejsv dd f legendre run argsort K eps cutoff n_sv ng work st svds = Ok (Some r) ->
  basis_init c statistics beta wmax eps' max_size (option_map kern_of kernel) (Some r) = Ok b -> 0 < wmax ->
  forall k, tfun_ok f -> usual_cutoff K -> (forall x y, -1 <= x <= 1 -> -1 <= y <= 1 -> has_value f K x y (k x y)) -> st <> Some SampleStrat ->
  exists t n q gx gy GX GY alge he algo ho,
    legendre t n = Ok q /\ (forall m, ng = Some m -> n = m) /\
    piecewise q (half (segments_x K)) = Ok gx /\ piecewise q (half (segments_y K)) = Ok gy /\
    piecewise q (segments_x K) = Ok GX /\ piecewise q (segments_y K) = Ok GY /\
    let even := run alge (weighted (fun x y => k x y + k x (- y)) gx gy) he in
    let odd := run algo (weighted (fun x y => k x y - k x (- y)) gx gy) ho in
    let F := physical_factor beta wmax (k_ypower K) in
    forall u eta e rd f' q' sg om rho kap Ke Ko Me Mo de d_o,
    arithmetic u eta e rd f' -> reference u n q q' sg om rho kap ->
    get_symmetrized K 1 = Ok Ke -> get_symmetrized K (-1) = Ok Ko ->
    sampling_matrix_rd rd (reduced_matrix_rd rd f' Ke) q' (half (segments_x K)) (half (segments_y K)) = Ok Me ->
    sampling_matrix_rd rd (reduced_matrix_rd rd f' Ko) q' (half (segments_x K)) (half (segments_y K)) = Ok Mo ->
    near_svd (length (rx gx)) (length (rx gy)) Me even de -> near_svd (length (rx gx)) (length (rx gy)) Mo odd d_o ->
    let ce := half_error u e sg om rho kap K in
    near_best_of_its_size (reseat GX 0 beta) (reseat GY (- wmax) wmax) (in_physical k (k_ypower K) beta wmax) b
      (F * sqrt (Rsqr (de + ce) + Rsqr (d_o + ce))) (Rsqr F * (sumsq (svals even) + sumsq (svals odd))).
Proof. exact rounded_basis_centro. Qed.
Print Assumptions C90_basis_centrosymmetric.

(** C90: the same without symmetrisation. *)
Theorem C90_basis_sampling :
  forall have_xprec have_gejsv dd f legendre run argsort,
  good_rules legendre -> (forall s, sorts s (argsort s)) -> svd_shaped run ->
  forall statistics beta wmax eps' max_size kernel c,
  let K := used_kernel (beta * wmax) kernel in
  forall eps cutoff n_sv ng work st svds r b,
  compute have_xprec have_gejsv dd f legendre run argsort K eps cutoff n_sv ng work st svds = Ok (Some r) ->
  basis_init c statistics beta wmax eps' max_size (option_map kern_of kernel) (Some r) = Ok b -> 0 < wmax ->
  forall k, tfun_ok f -> usual_cutoff K -> (forall x y, -1 <= x <= 1 -> -1 <= y <= 1 -> has_value f K x y (k x y)) -> st = Some SampleStrat ->
  exists t n q GX GY alg h,
    legendre t n = Ok q /\ (forall m, ng = Some m -> n = m) /\
    piecewise q (segments_x K) = Ok GX /\ piecewise q (segments_y K) = Ok GY /\
    let o := run alg (weighted k GX GY) h in
    let F := physical_factor beta wmax (k_ypower K) in
    forall u eta e rd f' q' sg om rho kap M d,
    arithmetic u eta e rd f' -> reference u n q q' sg om rho kap ->
    sampling_matrix_rd rd (kernel_matrix_rd rd f' K) q' (segments_x K) (segments_y K) = Ok M ->
    near_svd (length (rx GX)) (length (rx GY)) M o d ->
    near_best_of_its_size (reseat GX 0 beta) (reseat GY (- wmax) wmax) (in_physical k (k_ypower K) beta wmax) b
      (F * (d + full_error u e sg om rho kap K)) (Rsqr F * sumsq (svals o)).
Proof. exact rounded_basis_sample. Qed.
Print Assumptions C90_basis_sampling.

(** In doubles, with lambda = 1, the one-point rule and the decompositions of the
    exact matrices. *)
Example C90_nonvacuous :
  let c := full_error (/ 2 ^ 53) (/ 2 ^ 53) 0 0 0 2 caseK in
  let h := half_error (/ 2 ^ 53) (/ 2 ^ 53) 0 0 0 2 caseK in
  arithmetic (/ 2 ^ 53) eta64 (/ 2 ^ 53) rnd64 tfun64 /\ reference (/ 2 ^ 53) 1 gauss1 gauss1 0 0 0 2 /\ usual_cutoff caseK /\
  (exists M, sampling_matrix_rd rnd64 (kernel_matrix_rd rnd64 tfun64 caseK) gauss1 (segments_x caseK) (segments_y caseK) = Ok M /\
     forall GX GY alg hint, piecewise gauss1 (segments_x caseK) = Ok GX -> piecewise gauss1 (segments_y caseK) = Ok GY ->
     near_svd (length (rx GX)) (length (rx GY)) M (pair_svd alg (weighted casek GX GY) hint) c) /\
  (exists Ke Ko Me Mo, get_symmetrized caseK 1 = Ok Ke /\ get_symmetrized caseK (-1) = Ok Ko /\
     sampling_matrix_rd rnd64 (reduced_matrix_rd rnd64 tfun64 Ke) gauss1 (half (segments_x caseK)) (half (segments_y caseK)) = Ok Me /\
     sampling_matrix_rd rnd64 (reduced_matrix_rd rnd64 tfun64 Ko) gauss1 (half (segments_x caseK)) (half (segments_y caseK)) = Ok Mo /\
     forall gx gy alg hint, piecewise gauss1 (half (segments_x caseK)) = Ok gx -> piecewise gauss1 (half (segments_y caseK)) = Ok gy ->
     near_svd (length (rx gx)) (length (rx gy)) Me (row_svd alg (weighted (fun x y => casek x y + casek x (- y)) gx gy) hint) h /\
     near_svd (length (rx gx)) (length (rx gy)) Mo (row_svd alg (weighted (fun x y => casek x y - casek x (- y)) gx gy) hint) h) /\
  forall have_xprec have_gejsv dd,
  (exists r, case_sample have_xprec have_gejsv dd = Ok (Some r)) /\ (exists r, case_compute have_xprec have_gejsv dd = Ok (Some r)).
Proof. exact case_rounded. Qed.
