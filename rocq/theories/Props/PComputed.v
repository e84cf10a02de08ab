(** C91: expansions made from decompositions whose vectors are only nearly orthonormal. *)
From Coq Require Import String ZArith Arith Bool Reals Lra Lia.
From Coquelicot Require Import Coquelicot.
From Coq Require Import List Sorting.Sorted.
From Verif.Model Require Import Base Util Num Gauss Poly FT SVE Basis Kernel KernelIEEE GaussIEEE Compute Whole.
From Verif.Spec Require Import SGauss SPoly SFT SSVE SBasis SKernel SCompute SSingular SWhole SNear SKernelIEEE SGaussIEEE SRounded SComputed.
From Verif.Proofs Require Import ComputeCase ComputedSVD ComputedBasis ComputedCase.
Import ListNotations.
Open Scope R_scope.
Notation length := List.length.

(** C91: centrosymmetric strategy.  The decompositions returned by the library multiply to
    the matrices up to de and do, and their vectors are orthonormal up to ae, ce, ao
    and co, as computed vectors are.  The expansion is as close to the kernel as these
    errors allow, and its functions are as nearly orthonormal as the vectors. *)
Theorem C91_near_orthonormal_centrosymmetric :
  forall have_xprec have_gejsv dd f legendre run argsort,
  good_rules legendre -> (forall s, sorts s (argsort s)) ->
  forall K eps cutoff n_sv ng work st svds r,
  compute have_xprec have_gejsv dd f legendre run argsort K eps cutoff n_sv ng work st svds = Ok (Some r) -> st <> Some SampleStrat ->
  forall k, tfun_ok f -> 0 < k_lambda K -> (forall x y, -1 <= x <= 1 -> -1 <= y <= 1 -> has_value f K x y (k x y)) ->
  exists t n q gx gy GX GY alge he algo ho,
    legendre t n = Ok q /\ (forall m, ng = Some m -> n = m) /\
    piecewise q (half (segments_x K)) = Ok gx /\ piecewise q (half (segments_y K)) = Ok gy /\
    piecewise q (segments_x K) = Ok GX /\ piecewise q (segments_y K) = Ok GY /\
    let Ae := weighted (fun x y => k x y + k x (- y)) gx gy in
    let Ao := weighted (fun x y => k x y - k x (- y)) gx gy in
    let even := run alge Ae he in
    let odd := run algo Ao ho in
    forall ae ce de ao co d_o,
    computed_svd (length (rx gx)) (length (rx gy)) Ae even ae ce de -> computed_svd (length (rx gx)) (length (rx gy)) Ao odd ao co d_o ->
    near_best GX GY k r (root2 de d_o + 2 * skew (Rmax (largest even) (largest odd)) (root2 ae ao) (root2 ce co))
      (sumsq (svals even) + sumsq (svals odd)) /\
    nearly_orthonormal_functions (su r) (Rmax ae ao) /\ nearly_orthonormal_functions (sv r) (Rmax ce co).
Proof. exact computed_centro. Qed.
Print Assumptions C91_near_orthonormal_centrosymmetric.

(** C91: without symmetrisation. *)
Theorem C91_near_orthonormal_sampling :
  forall have_xprec have_gejsv dd f legendre run argsort,
  good_rules legendre ->
  forall K eps cutoff n_sv ng work svds r,
  compute have_xprec have_gejsv dd f legendre run argsort K eps cutoff n_sv ng work (Some SampleStrat) svds = Ok (Some r) ->
  forall k, (forall x y, -1 <= x <= 1 -> -1 <= y <= 1 -> has_value f K x y (k x y)) ->
  exists t n q GX GY alg h,
    legendre t n = Ok q /\ (forall m, ng = Some m -> n = m) /\
    piecewise q (segments_x K) = Ok GX /\ piecewise q (segments_y K) = Ok GY /\
    let A := weighted k GX GY in
    let o := run alg A h in
    forall a c d, computed_svd (length (rx GX)) (length (rx GY)) A o a c d ->
    near_best GX GY k r (d + 2 * skew (largest o) a c) (sumsq (svals o)) /\
    nearly_orthonormal_functions (su r) a /\ nearly_orthonormal_functions (sv r) c.
Proof. exact computed_sample. Qed.
Print Assumptions C91_near_orthonormal_sampling.

(** C91: the basis made from such an expansion, in tau and omega. *)
Theorem C91_basis_centrosymmetric :
  forall have_xprec have_gejsv dd f legendre run argsort,
  good_rules legendre -> (forall s, sorts s (argsort s)) -> svd_shaped run ->
  forall statistics beta wmax eps' max_size kernel c,
  let K := used_kernel (beta * wmax) kernel in
  forall eps cutoff n_sv ng work st svds r b,
  compute have_xprec have_gejsv dd f legendre run argsort K eps cutoff n_sv ng work st svds = Ok (Some r) ->
  basis_init c statistics beta wmax eps' max_size (option_map kern_of kernel) (Some r) = Ok b -> 0 < wmax ->
  forall k, tfun_ok f -> (forall x y, -1 <= x <= 1 -> -1 <= y <= 1 -> has_value f K x y (k x y)) -> st <> Some SampleStrat ->
  exists t n q gx gy GX GY alge he algo ho,
    legendre t n = Ok q /\ (forall m, ng = Some m -> n = m) /\
    piecewise q (half (segments_x K)) = Ok gx /\ piecewise q (half (segments_y K)) = Ok gy /\
    piecewise q (segments_x K) = Ok GX /\ piecewise q (segments_y K) = Ok GY /\
    let Ae := weighted (fun x y => k x y + k x (- y)) gx gy in
    let Ao := weighted (fun x y => k x y - k x (- y)) gx gy in
    let even := run alge Ae he in
    let odd := run algo Ao ho in
    let F := physical_factor beta wmax (k_ypower K) in
    forall ae ce de ao co d_o,
    computed_svd (length (rx gx)) (length (rx gy)) Ae even ae ce de -> computed_svd (length (rx gx)) (length (rx gy)) Ao odd ao co d_o ->
    near_best_of_its_size (reseat GX 0 beta) (reseat GY (- wmax) wmax) (in_physical k (k_ypower K) beta wmax) b
      (F * (root2 de d_o + 2 * skew (Rmax (largest even) (largest odd)) (root2 ae ao) (root2 ce co))) (Rsqr F * (sumsq (svals even) + sumsq (svals odd))) /\
    nearly_orthonormal_functions (bu b) (Rmax ae ao) /\ nearly_orthonormal_functions (bv b) (Rmax ce co).
Proof. exact from_centro_computed. Qed.
Print Assumptions C91_basis_centrosymmetric.

(** C91: the same without symmetrisation. *)
Theorem C91_basis_sampling :
  forall have_xprec have_gejsv dd f legendre run argsort,
  good_rules legendre -> (forall s, sorts s (argsort s)) -> svd_shaped run ->
  forall statistics beta wmax eps' max_size kernel c,
  let K := used_kernel (beta * wmax) kernel in
  forall eps cutoff n_sv ng work st svds r b,
  compute have_xprec have_gejsv dd f legendre run argsort K eps cutoff n_sv ng work st svds = Ok (Some r) ->
  basis_init c statistics beta wmax eps' max_size (option_map kern_of kernel) (Some r) = Ok b -> 0 < wmax ->
  forall k, (forall x y, -1 <= x <= 1 -> -1 <= y <= 1 -> has_value f K x y (k x y)) -> st = Some SampleStrat ->
  exists t n q GX GY alg h,
    legendre t n = Ok q /\ (forall m, ng = Some m -> n = m) /\
    piecewise q (segments_x K) = Ok GX /\ piecewise q (segments_y K) = Ok GY /\
    let A := weighted k GX GY in
    let o := run alg A h in
    let F := physical_factor beta wmax (k_ypower K) in
    forall a c d, computed_svd (length (rx GX)) (length (rx GY)) A o a c d ->
    near_best_of_its_size (reseat GX 0 beta) (reseat GY (- wmax) wmax) (in_physical k (k_ypower K) beta wmax) b
      (F * (d + 2 * skew (largest o) a c)) (Rsqr F * sumsq (svals o)) /\
    nearly_orthonormal_functions (bu b) a /\ nearly_orthonormal_functions (bv b) c.
Proof. exact from_sample_computed. Qed.
Print Assumptions C91_basis_sampling.

(** C91: the same with matrices computed in rounded arithmetic: no error of the
    computation of the basis is left out but that of the polynomial coefficients. *)
Theorem C91_rounded_centrosymmetric :
  forall have_xprec have_gejsv dd f legendre run argsort,
  good_rules legendre -> (forall s, sorts s (argsort s)) -> svd_shaped run ->
  forall statistics beta wmax eps' max_size kernel c,
  let K := used_kernel (beta * wmax) kernel in
  forall eps cutoff n_sv ng work st svds r b,
  compute have_xprec have_gejsv dd f legendre run argsort K eps cutoff n_sv ng work st svds = Ok (Some r) ->
  basis_init c statistics beta wmax eps' max_size (option_map kern_of kernel) (Some r) = Ok b -> 0 < wmax ->
  forall k, tfun_ok f -> usual_cutoff K -> (forall x y, -1 <= x <= 1 -> -1 <= y <= 1 -> has_value f K x y (k x y)) -> st <> Some SampleStrat ->
  exists t n q gx gy GX GY alge he algo ho,
    legendre t n = Ok q /\ (forall m, ng = Some m -> n = m) /\
    piecewise q (half (segments_x K)) = Ok gx /\ piecewise q (half (segments_y K)) = Ok gy /\
    piecewise q (segments_x K) = Ok GX /\ piecewise q (segments_y K) = Ok GY /\
    let even := run alge (weighted (fun x y => k x y + k x (- y)) gx gy) he in
    let odd := run algo (weighted (fun x y => k x y - k x (- y)) gx gy) ho in
    let F := physical_factor beta wmax (k_ypower K) in
    forall u eta e rd f' q' sg om rho kap Ke Ko Me Mo ae ce de ao co d_o,
    arithmetic u eta e rd f' -> reference u n q q' sg om rho kap ->
    get_symmetrized K 1 = Ok Ke -> get_symmetrized K (-1) = Ok Ko ->
    sampling_matrix_rd rd (reduced_matrix_rd rd f' Ke) q' (half (segments_x K)) (half (segments_y K)) = Ok Me ->
    sampling_matrix_rd rd (reduced_matrix_rd rd f' Ko) q' (half (segments_x K)) (half (segments_y K)) = Ok Mo ->
    computed_svd (length (rx gx)) (length (rx gy)) Me even ae ce de -> computed_svd (length (rx gx)) (length (rx gy)) Mo odd ao co d_o ->
    let h := half_error u e sg om rho kap K in
    near_best_of_its_size (reseat GX 0 beta) (reseat GY (- wmax) wmax) (in_physical k (k_ypower K) beta wmax) b
      (F * (root2 (de + h) (d_o + h) + 2 * skew (Rmax (largest even) (largest odd)) (root2 ae ao) (root2 ce co))) (Rsqr F * (sumsq (svals even) + sumsq (svals odd))) /\
    nearly_orthonormal_functions (bu b) (Rmax ae ao) /\ nearly_orthonormal_functions (bv b) (Rmax ce co).
Proof. exact rounded_computed_centro. Qed.
Print Assumptions C91_rounded_centrosymmetric.

(** C91: the same without symmetrisation. *)
Theorem C91_rounded_sampling :
  forall have_xprec have_gejsv dd f legendre run argsort,
  good_rules legendre -> (forall s, sorts s (argsort s)) -> svd_shaped run ->
  forall statistics beta wmax eps' max_size kernel c,
  let K := used_kernel (beta * wmax) kernel in
  forall eps cutoff n_sv ng work st svds r b,
  compute have_xprec have_gejsv dd f legendre run argsort K eps cutoff n_sv ng work st svds = Ok (Some r) ->
  basis_init c statistics beta wmax eps' max_size (option_map kern_of kernel) (Some r) = Ok b -> 0 < wmax ->
  forall k, tfun_ok f -> usual_cutoff K -> (forall x y, -1 <= x <= 1 -> -1 <= y <= 1 -> has_value f K x y (k x y)) -> st = Some SampleStrat ->
  exists t n q GX GY alg h,
    legendre t n = Ok q /\ (forall m, ng = Some m -> n = m) /\
    piecewise q (segments_x K) = Ok GX /\ piecewise q (segments_y K) = Ok GY /\
    let o := run alg (weighted k GX GY) h in
    let F := physical_factor beta wmax (k_ypower K) in
    forall u eta e rd f' q' sg om rho kap M a c d,
    arithmetic u eta e rd f' -> reference u n q q' sg om rho kap ->
    sampling_matrix_rd rd (kernel_matrix_rd rd f' K) q' (segments_x K) (segments_y K) = Ok M ->
    computed_svd (length (rx GX)) (length (rx GY)) M o a c d ->
    near_best_of_its_size (reseat GX 0 beta) (reseat GY (- wmax) wmax) (in_physical k (k_ypower K) beta wmax) b
      (F * (d + full_error u e sg om rho kap K + 2 * skew (largest o) a c)) (Rsqr F * sumsq (svals o)) /\
    nearly_orthonormal_functions (bu b) a /\ nearly_orthonormal_functions (bv b) c.
Proof. exact rounded_computed_sample. Qed.
Print Assumptions C91_rounded_sampling.

(** C91: decompositions with orthonormal vectors are a special case. *)
Theorem C91_covers_orthonormal :
  forall m n A b d, near_svd m n A b d -> (length (svals b) <= m)%nat -> (length (svals b) <= n)%nat -> computed_svd m n A b 0 0 d.
Proof. exact near_computed. Qed.
Print Assumptions C91_covers_orthonormal.

(** The left vector of each matrix with one row is 1.1 instead of 1. *)
Example C91_nonvacuous :
  good_rules leg1 /\ (forall s, sorts s (sort_indices s)) /\ svd_shaped bent_svd /\ tfun_ok casef /\ 0 < k_lambda caseK /\
  (forall x y, -1 <= x <= 1 -> -1 <= y <= 1 -> has_value casef caseK x y (casek x y)) /\
  (forall have_xprec have_gejsv dd, exists r,
     compute have_xprec have_gejsv dd casef leg1 bent_svd sort_indices caseK None (Some (Fin 0)) None (Some 1%nat) (Some Float64) None (Some "default"%string) = Ok (Some r)) /\
  (forall t n q gx gy alg h, leg1 t n = Ok q ->
     piecewise q (half (segments_x caseK)) = Ok gx -> piecewise q (half (segments_y caseK)) = Ok gy ->
     let Ae := weighted (fun x y => casek x y + casek x (- y)) gx gy in
     let Ao := weighted (fun x y => casek x y - casek x (- y)) gx gy in
     (exists de, computed_svd (length (rx gx)) (length (rx gy)) Ae (bent_svd alg Ae h) (21 / 100) 0 de) /\
     (exists d_o, computed_svd (length (rx gx)) (length (rx gy)) Ao (bent_svd alg Ao h) (21 / 100) 0 d_o)).
Proof.
  split; [exact leg1_ok|]. split; [exact sort_indices_ok|]. split; [exact bent_svd_shaped|]. split; [exact casef_ok|]. split; [cbn; lra|].
  split; [exact casek_value|]. split; [exact bent_returns|exact bent_case].
Qed.
