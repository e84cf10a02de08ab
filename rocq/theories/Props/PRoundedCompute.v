(** C96: the whole of sve.compute in rounded arithmetic. *)
From Coq Require Import String ZArith Reals Lra.
From Coq Require Import List.
From Verif.Model Require Import Base Util Num IEEE Poly PolyIEEE Gauss SVE Kernel KernelIEEE GaussIEEE Compute SVEIEEE.
From Verif.Spec Require Import SGauss SPoly SSVE SBasis SKernel SCompute SNear SComputed SKernelIEEE SGaussIEEE SRounded SSVEIEEE SRoundedCompute.
From Verif.Proofs Require Import SVEFacts KernelRoundCall ComputeCase CoefFun ComputeRound ComputeRoundSymm RoundedReturns RoundedComputeCase.
Import ListNotations.
Open Scope R_scope.

(** Without symmetrisation.  Whatever is returned comes from a decomposition of the
    computed matrix.  If the arithmetic, the rule, the inner products and that
    decomposition have small errors, the functions are nearly orthonormal, and every
    cut of the expansion is nearly the best one for the kernel. *)
Theorem C96_sampling : forall have_xprec have_gejsv dd old rd ro f dot legendre run argsort K eps cutoff n_sv ng work svds r,
  compute_rd have_xprec have_gejsv dd old rd ro f dot legendre run argsort K eps cutoff n_sv ng work (Some SampleStrat) svds = Ok (Some r) -> usual_cutoff K ->
  exists t n q' M alg h,
  legendre t n = Ok q' /\ (forall m, ng = Some m -> n = m) /\
  sampling_matrix_rd (rd t) (kernel_matrix_rd (rd t) (f t) K) q' (segments_x K) (segments_y K) = Ok M /\
  let o := run alg M h in
  (exists N, ss r = firstn N (map ro (svals o))) /\
  forall u eta e q sg om rho kap gam th GX GY f0 k a c d,
    arithmetic u eta e (rd t) (f t) -> reference u n q q' sg om rho kap -> rounding u eta ro -> (forall x y, x <= y -> ro x <= ro y) ->
    (forall side l m i, inner_near n gam th (dot true side l m i)) -> coefficient_error n u sg om gam <= / 200 ->
    tfun_ok f0 -> (forall x y, -1 <= x <= 1 -> -1 <= y <= 1 -> has_value f0 K x y (k x y)) ->
    piecewise q (segments_x K) = Ok GX -> piecewise q (segments_y K) = Ok GY ->
    computed_svd (List.length (rx GX)) (List.length (rx GY)) M o a c d ->
    let L := List.length (svals o) in
    let ce := coefficient_error n u sg om gam in
    let al := vectors_error n L (List.length (segments_x K) - 1) ce (5 * (eta + th)) in
    let ga := vectors_error n L (List.length (segments_y K) - 1) ce (5 * (eta + th)) in
    let s0 := ro (largest o) in
    a + 4 * al <= 1 -> c + 4 * ga <= 1 ->
    near_best GX GY k (ideal_sve r)
      (d + full_error u e sg om rho kap K + product_error u eta (svals o) s0 al ga + 2 * skew s0 (a + 4 * al) (c + 4 * ga))
      (sumsq (map ro (svals o))) /\
    nearly_orthonormal_functions (su (ideal_sve r)) (a + 4 * al) /\ nearly_orthonormal_functions (sv (ideal_sve r)) (c + 4 * ga).
Proof. exact ComputeRound.rounded_sample. Qed.
Print Assumptions C96_sampling.

(** With symmetrisation: two decompositions, rounded mirror images, merged results. *)
Theorem C96_symmetric : forall have_xprec have_gejsv dd old rd ro f dot legendre run argsort, (forall s, sorts s (argsort s)) ->
  forall K eps cutoff n_sv ng work st svds r,
  compute_rd have_xprec have_gejsv dd old rd ro f dot legendre run argsort K eps cutoff n_sv ng work st svds = Ok (Some r) -> st <> Some SampleStrat -> usual_cutoff K ->
  exists t n q' Ke Ko Me Mo alge he algo ho,
  legendre t n = Ok q' /\ (forall m, ng = Some m -> n = m) /\
  get_symmetrized K 1 = Ok Ke /\ get_symmetrized K (-1) = Ok Ko /\
  sampling_matrix_rd (rd t) (reduced_matrix_rd (rd t) (f t) Ke) q' (half (segments_x K)) (half (segments_y K)) = Ok Me /\
  sampling_matrix_rd (rd t) (reduced_matrix_rd (rd t) (f t) Ko) q' (half (segments_x K)) (half (segments_y K)) = Ok Mo /\
  let even := run alge Me he in
  let odd := run algo Mo ho in
  forall u eta e q sg om rho kap gam th gx gy GX GY f0 k ae ce de ao co d_o,
    arithmetic u eta e (rd t) (f t) -> reference u n q q' sg om rho kap -> rounding u eta ro -> (forall x y, x <= y -> ro x <= ro y) ->
    (forall part side l m i, inner_near n gam th (dot part side l m i)) -> coefficient_error n u sg om gam <= / 200 ->
    tfun_ok f0 -> (forall x y, -1 <= x <= 1 -> -1 <= y <= 1 -> has_value f0 K x y (k x y)) ->
    piecewise q (half (segments_x K)) = Ok gx -> piecewise q (half (segments_y K)) = Ok gy ->
    piecewise q (segments_x K) = Ok GX -> piecewise q (segments_y K) = Ok GY ->
    computed_svd (List.length (rx gx)) (List.length (rx gy)) Me even ae ce de -> computed_svd (List.length (rx gx)) (List.length (rx gy)) Mo odd ao co d_o ->
    let cf := coefficient_error n u sg om gam + 4 * u in
    let tau := 8 * (eta + th) in
    let mx := (List.length (half (segments_x K)) - 1)%nat in
    let my := (List.length (half (segments_y K)) - 1)%nat in
    let defect_u b a := functions_defect n (List.length (svals b)) mx cf tau a in
    let defect_v b c := functions_defect n (List.length (svals b)) my cf tau c in
    let total b d := d + half_error u e sg om rho kap K +
      product_error u eta (svals b) (ro (largest b)) (vectors_error n (List.length (svals b)) mx cf tau) (vectors_error n (List.length (svals b)) my cf tau) in
    defect_u even ae <= 1 -> defect_v even ce <= 1 -> defect_u odd ao <= 1 -> defect_v odd co <= 1 ->
    near_best GX GY k (ideal_sve r)
      (root2 (total even de) (total odd d_o) +
       2 * skew (Rmax (ro (largest even)) (ro (largest odd))) (root2 (defect_u even ae) (defect_u odd ao)) (root2 (defect_v even ce) (defect_v odd co)))
      (sumsq (map ro (svals even)) + sumsq (map ro (svals odd))) /\
    nearly_orthonormal_functions (su (ideal_sve r)) (Rmax (defect_u even ae) (defect_u odd ao)) /\
    nearly_orthonormal_functions (sv (ideal_sve r)) (Rmax (defect_v even ce) (defect_v odd co)).
Proof. exact rounded_symm. Qed.
Print Assumptions C96_symmetric.

(** The truncation, for values in nonincreasing order: each block is cut to a prefix, no
    more than n_sv values are left, and a value is kept exactly if it exceeds the
    rounded product of the tolerance and the largest value and if, counting ties, at
    most n_sv values are as large. *)
Theorem C96_truncation : forall A B rd (blocks : list (block A B)) rtol lmax out,
  truncate_rd rd blocks (Fin rtol) lmax = Ok out -> Forall (fun b => nonincreasing (snd (fst b))) blocks ->
  within (List.length (all_values out)) lmax /\
  forall i b b' j x, nth_error blocks i = Some b -> nth_error out i = Some b' -> nth_error (snd (fst b)) j = Some x ->
    (exists k, prefix_of k b b') /\
    (nth_error (snd (fst b')) j = Some x \/ nth_error (snd (fst b')) j = None) /\
    (nth_error (snd (fst b')) j = Some x <-> significant_rd rd (all_values blocks) rtol lmax x).
Proof. exact @truncate_rd_sorted. Qed.
Print Assumptions C96_truncation.

(** No exception: with rules, matrices and decompositions of the usual shape, a valid
    cutoff and number of values, and a documented strategy. *)
Theorem C96_returns : forall have_xprec have_gejsv dd old rd ro f dot legendre run argsort, (forall s, sorts s (argsort s)) ->
  forall K ng,
  (forall t n, order_in_use ng n -> exists q', legendre t n = Ok q' /\ (0 < n)%nat /\
    (exists M, sampling_matrix_rd (rd t) (kernel_matrix_rd (rd t) (f t) K) q' (segments_x K) (segments_y K) = Ok M /\
       forall alg h, usv_shaped (run alg M h)) /\
    (forall s Ks, s = 1 \/ s = -1 -> get_symmetrized K s = Ok Ks ->
       exists M, sampling_matrix_rd (rd t) (reduced_matrix_rd (rd t) (f t) Ks) q' (half (segments_x K)) (half (segments_y K)) = Ok M /\
       forall alg h, usv_shaped (run alg M h))) ->
  forall eps cutoff n_sv work st svds, known_strategy svds ->
  (n_sv = None \/ exists z, n_sv = Some (PyInt z) /\ (0 <= z)%Z) ->
  (forall c, cutoff = Some c -> exists x, valid_rtol c x) ->
  (cutoff = None -> 0 <= dd <= / 2 /\ forall e, work = Some (OtherType e) -> 0 <= e <= / 2) ->
  exists o, compute_rd have_xprec have_gejsv dd old rd ro f dot legendre run argsort K eps cutoff n_sv ng work st svds = Ok o.
Proof. exact compute_rd_returns. Qed.
Print Assumptions C96_returns.

(** Doubles, the logistic kernel with cutoff 1 and one Gauss point per segment: every
    hypothesis above holds, and the functions are orthonormal up to 1e-6. *)
Example C96_nonvacuous_sampling : forall have_xprec have_gejsv dd old, exists run r,
  compute_rd have_xprec have_gejsv dd old (fun _ => rnd64) rnd64 (fun _ => tfun64) (fun _ _ _ _ _ => chained_dot rnd64)
    leg1 run sort_indices (Logistic 1) None (Some (Fin 0)) None (Some 1%nat) (Some Float64) (Some SampleStrat) (Some "default"%string) = Ok (Some r) /\
  nearly_orthonormal_functions (su (ideal_sve r)) (/ 10 ^ 6) /\ nearly_orthonormal_functions (sv (ideal_sve r)) (/ 10 ^ 6).
Proof. exact case_sample_ok. Qed.
Example C96_nonvacuous_symmetric : forall have_xprec have_gejsv dd old, exists r,
  compute_rd have_xprec have_gejsv dd old (fun _ => rnd64) rnd64 (fun _ => tfun64) (fun _ _ _ _ _ => chained_dot rnd64)
    leg1 two_svd sort_indices (Logistic 1) None (Some (Fin 0)) None (Some 1%nat) (Some Float64) None (Some "default"%string) = Ok (Some r) /\
  nearly_orthonormal_functions (su (ideal_sve r)) (/ 10 ^ 6) /\ nearly_orthonormal_functions (sv (ideal_sve r)) (/ 10 ^ 6).
Proof. exact case_symm_ok. Qed.
Example C96_nonvacuous_truncation :
  exists out, truncate_rd rnd64 [([tt; tt], [3; 1], [tt; tt]); ([tt], [2], [tt])] (Fin (1 / 10)) (Some (PyInt 2)) = Ok out /\
    Forall (fun b : block unit unit => nonincreasing (snd (fst b))) [([tt; tt], [3; 1], [tt; tt]); ([tt], [2], [tt])].
Proof.
  destruct (truncate_rd_defined rnd64 [([tt; tt], [3; 1], [tt; tt]); ([tt], [2], [tt])] (Fin (1 / 10)) (1 / 10) (Some (PyInt 2))) as [out H].
  - split; [auto|lra].
  - right. exists 2%Z. split; [auto|easy].
  - discriminate.
  - exists out. split; auto. repeat constructor; simpl; lra.
Qed.
