(** C86: expansions made from decompositions that are not exact. *)
From Coq Require Import String ZArith Arith Bool Reals Lra Lia.
From Coquelicot Require Import Coquelicot.
From Coq Require Import List Sorting.Sorted.
From Verif.Model Require Import Base Util Num Gauss Poly FT SVE Basis Kernel Compute Whole.
From Verif.Spec Require Import SGauss SPoly SFT SSVE SBasis SKernel SCompute SSingular SWhole SNear.
From Verif.Proofs Require Import NearBest.
Import ListNotations.
Open Scope R_scope.
Notation length := List.length.

(** C86: centrosymmetric strategy.  If the two decompositions are right up to de and
    do, every truncation of the expansion is as close to the kernel as these errors
    and the values left out allow, and closest possible up to twice the errors. *)
Theorem C86_near_best_centrosymmetric :
  forall have_xprec have_gejsv dd f legendre run argsort,
  good_rules legendre -> (forall s, sorts s (argsort s)) ->
  forall K eps cutoff n_sv ng work st svds r,
  compute have_xprec have_gejsv dd f legendre run argsort K eps cutoff n_sv ng work st svds = Ok (Some r) -> st <> Some SampleStrat ->
  forall k, tfun_ok f -> 0 < k_lambda K -> (forall x y, -1 <= x <= 1 -> -1 <= y <= 1 -> has_value f K x y (k x y)) ->
  exists t n q gx gy GX GY alge he algo ho,
    legendre t n = Ok q /\ (forall m, ng = Some m -> n = m) /\
    piecewise q (half (segments_x K)) = Ok gx /\ piecewise q (half (segments_y K)) = Ok gy /\
    piecewise q (segments_x K) = Ok GX /\ piecewise q (segments_y K) = Ok GY /\
    let Ae := weighted (fun x y => k x y + k x (- y)) gx gy in
    let Ao := weighted (fun x y => k x y - k x (- y)) gx gy in
    let even := run alge Ae he in
    let odd := run algo Ao ho in
    forall de d_o, near_svd (length (rx gx)) (length (rx gy)) Ae even de -> near_svd (length (rx gx)) (length (rx gy)) Ao odd d_o ->
    near_best GX GY k r (sqrt (Rsqr de + Rsqr d_o)) (sumsq (svals even) + sumsq (svals odd)).
Proof. exact near_centro. Qed.
Print Assumptions C86_near_best_centrosymmetric.

(** C86: without symmetrisation. *)
Theorem C86_near_best_sampling :
  forall have_xprec have_gejsv dd f legendre run argsort,
  good_rules legendre ->
  forall K eps cutoff n_sv ng work svds r,
  compute have_xprec have_gejsv dd f legendre run argsort K eps cutoff n_sv ng work (Some SampleStrat) svds = Ok (Some r) ->
  forall k, (forall x y, -1 <= x <= 1 -> -1 <= y <= 1 -> has_value f K x y (k x y)) ->
  exists t n q GX GY alg h,
    legendre t n = Ok q /\ (forall m, ng = Some m -> n = m) /\
    piecewise q (segments_x K) = Ok GX /\ piecewise q (segments_y K) = Ok GY /\
    let A := weighted k GX GY in
    let o := run alg A h in
    forall d, near_svd (length (rx GX)) (length (rx GY)) A o d -> near_best GX GY k r d (sumsq (svals o)).
Proof. exact near_sample. Qed.
Print Assumptions C86_near_best_sampling.

(** C86: the basis made from such an expansion, in tau and omega. *)
Theorem C86_basis_centrosymmetric :
  forall have_xprec have_gejsv dd f legendre run argsort,
  good_rules legendre -> (forall s, sorts s (argsort s)) -> svd_shaped run ->
  forall statistics beta wmax eps' max_size kernel c,
  let K := used_kernel (beta * wmax) kernel in
  forall eps cutoff n_sv ng work st svds r b,
  compute have_xprec have_gejsv dd f legendre run argsort K eps cutoff n_sv ng work st svds = Ok (Some r) ->
  basis_init c statistics beta wmax eps' max_size (option_map kern_of kernel) (Some r) = Ok b -> 0 < wmax ->
  forall k, tfun_ok f -> (forall x y, -1 <= x <= 1 -> -1 <= y <= 1 -> has_value f K x y (k x y)) -> st <> Some SampleStrat ->
  exists t n q gx gy GX GY alge he algo ho,
    legendre t n = Ok q /\ (forall m, ng = Some m -> n = m) /\
    piecewise q (half (segments_x K)) = Ok gx /\ piecewise q (half (segments_y K)) = Ok gy /\
    piecewise q (segments_x K) = Ok GX /\ piecewise q (segments_y K) = Ok GY /\
    let Ae := weighted (fun x y => k x y + k x (- y)) gx gy in
    let Ao := weighted (fun x y => k x y - k x (- y)) gx gy in
    let even := run alge Ae he in
    let odd := run algo Ao ho in
    let F := physical_factor beta wmax (k_ypower K) in
    forall de d_o, near_svd (length (rx gx)) (length (rx gy)) Ae even de -> near_svd (length (rx gx)) (length (rx gy)) Ao odd d_o ->
    near_best_of_its_size (reseat GX 0 beta) (reseat GY (- wmax) wmax) (in_physical k (k_ypower K) beta wmax) b
      (F * sqrt (Rsqr de + Rsqr d_o)) (Rsqr F * (sumsq (svals even) + sumsq (svals odd))).
Proof. exact from_centro_near. Qed.
Print Assumptions C86_basis_centrosymmetric.

Theorem C86_basis_sampling :
  forall have_xprec have_gejsv dd f legendre run argsort,
  good_rules legendre -> (forall s, sorts s (argsort s)) -> svd_shaped run ->
  forall statistics beta wmax eps' max_size kernel c,
  let K := used_kernel (beta * wmax) kernel in
  forall eps cutoff n_sv ng work st svds r b,
  compute have_xprec have_gejsv dd f legendre run argsort K eps cutoff n_sv ng work st svds = Ok (Some r) ->
  basis_init c statistics beta wmax eps' max_size (option_map kern_of kernel) (Some r) = Ok b -> 0 < wmax ->
  forall k, (forall x y, -1 <= x <= 1 -> -1 <= y <= 1 -> has_value f K x y (k x y)) -> st = Some SampleStrat ->
  exists t n q GX GY alg h,
    legendre t n = Ok q /\ (forall m, ng = Some m -> n = m) /\
    piecewise q (segments_x K) = Ok GX /\ piecewise q (segments_y K) = Ok GY /\
    let A := weighted k GX GY in
    let o := run alg A h in
    let F := physical_factor beta wmax (k_ypower K) in
    forall d, near_svd (length (rx GX)) (length (rx GY)) A o d ->
    near_best_of_its_size (reseat GX 0 beta) (reseat GY (- wmax) wmax) (in_physical k (k_ypower K) beta wmax) b (F * d) (Rsqr F * sumsq (svals o)).
Proof. exact from_sample_near. Qed.
Print Assumptions C86_basis_sampling.

(** C86: an exact decomposition is right up to 0, and one limited to the N largest
    values is right up to the root of the sum of the squares of the others. *)
Theorem C86_truncated_decompositions :
  forall m n A us s vs, exact_svd m n A (us, s, vs) -> ordered (us, s, vs) ->
  near_svd m n A (us, s, vs) 0 /\
  forall N, (N <= length s)%nat -> near_svd m n A (first_triples N (us, s, vs)) (sqrt (sumsq (skipn N s))).
Proof. intros m n A us s vs H1 H2. split; [exact (exact_near m n A _ H1 H2)|]. intros N HN. exact (cut_near m n A us s vs N H1 H2 HN). Qed.
Print Assumptions C86_truncated_decompositions.

(** For every kernel of the library there are rules and decompositions into no more
    than N triples that meet the hypotheses. *)
Example C86_nonvacuous :
  forall N K k, (0 < N)%nat -> exists legendre run,
  good_rules legendre /\ svd_shaped run /\ (forall t n, (n = 10 \/ n = 16)%nat -> exists q, legendre t n = Ok q) /\
  decomposes_nearly N legendre run K k.
Proof. exact realizable_nearly. Qed.

(** The matrix with rows (3, 0) and (0, 1), decomposed to rank one. *)
Example C86_rank_one : near_svd 2 2 [[3; 0]; [0; 1]] ([[1; 0]], [3], [[1; 0]]) 1.
Proof.
  refine (eq_ind _ (near_svd 2 2 [[3; 0]; [0; 1]] ([[1; 0]], [3], [[1; 0]]))
    (proj2 (C86_truncated_decompositions 2 2 [[3; 0]; [0; 1]] [[1; 0]; [0; 1]] [3; 1] [[1; 0]; [0; 1]] _ _) 1%nat _) _ _).
  - cbn. repeat split; repeat constructor; intros l m Hl Hm; destruct l as [|[|l]], m as [|[|m]]; cbn in *; try lia; cbn; lra.
  - split; repeat constructor; cbn; lra.
  - cbn. lia.
  - cbn. rewrite !Rmult_1_l, Rplus_0_r. exact sqrt_1.
Qed.
