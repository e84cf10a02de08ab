(** C99: bases computed from scratch in rounded arithmetic. *)
From Coq Require Import String ZArith Arith Bool Reals Lra Lia.
From Coquelicot Require Import Coquelicot.
From Coq Require Import List.
From Verif.Model Require Import Base Util IEEE Num Gauss Poly PolyIEEE FT FTIEEE SVE Basis Kernel KernelIEEE GaussIEEE Compute Whole SVEIEEE BasisIEEE WholeIEEE.
From Verif.Spec Require Import SGauss SPoly SFT SSVE SBasis SKernel SCompute SSingular SWhole SNear SComputed SKernelIEEE SGaussIEEE SPolyIEEE SFTIEEE SRounded SSVEIEEE SRoundedCompute SBasisIEEE SWholeIEEE.
From Verif.Proofs Require Import SvdRun ComputeCase CoefFun KernelRoundCall WholeRoundExp WholeRound WholeRoundBasis WholeRoundNear WholeRoundCase.
Import ListNotations.
Open Scope R_scope.

(** The constructor without sve_result builds the same basis as the constructor that is
    given the result of sve.compute(kernel, eps). *)
Theorem C99_constructor_computes : forall have_xprec have_gejsv dd old rd ro pw f dot legendre run argsort statistics beta wmax eps max_size kernel b c,
  new_basis_rd have_xprec have_gejsv dd old rd ro pw f dot legendre run argsort statistics beta wmax eps max_size kernel = Ok (Some b) <->
  exists r, compute_rd have_xprec have_gejsv dd old rd ro f dot legendre run argsort (used_kernel (ro (beta * wmax)) kernel) (option_map Fin eps)
              None None None None None None = Ok (Some r) /\
    basis_init_rd ro pw c statistics beta wmax eps max_size (option_map kern_of kernel) (Some r) = Ok b.
Proof. exact new_rd_iff. Qed.
Print Assumptions C99_constructor_computes.

(** Whatever the constructor accepts of the results of sve.compute satisfies the
    hypotheses of C98. *)
Theorem C99_built : forall have_xprec have_gejsv dd old rd ro pw f dot legendre run argsort statistics beta wmax eps' max_size kernel c,
  let K := used_kernel (ro (beta * wmax)) kernel in
  forall eps cutoff n_sv ng work st svds r b,
  compute_rd have_xprec have_gejsv dd old rd ro f dot legendre run argsort K eps cutoff n_sv ng work st svds = Ok (Some r) ->
  basis_init_rd ro pw c statistics beta wmax eps' max_size (option_map kern_of kernel) (Some r) = Ok b ->
  (forall s, sorts s (argsort s)) -> 0 < wmax ->
  forall u eta, / 10 ^ 90 <= u <= / 10000 -> 0 <= eta -> eta * 10 ^ 300 <= u -> rounding u eta ro -> (forall x y, x <= y -> ro x <= ro y) ->
  (forall t, rounding u eta (rd t)) -> 0 < k_lambda K <= 10 ^ 16 -> decompositions_shaped rd f legendre run K ->
  fair_cutoff have_xprec eta dd cutoff work (nth 0 (ss r) 0) -> built_rd u eta ro pw c b.
Proof. exact new_built. Qed.
Print Assumptions C99_built.

(** The polynomials of such a basis make a basis in exact arithmetic, of the same size. *)
Theorem C99_exact_version : forall u eta rd pw c c' b, built_rd u eta rd pw c b ->
  (exists b0, exact_version c' b b0) /\
  forall b0, exact_version c' b b0 -> built c' b0 /\ bstat b0 = bstat b /\ bbeta b0 = bbeta b /\ bwmax b0 = bwmax b /\ kyp (bkernel b0) = kyp (bkernel b) /\
    bsve b0 = ideal_sve (bsve b) /\ bsize b0 = List.length (bs b).
Proof. intros u eta rd pw c c' b Hb. exact (conj (version_exists u eta rd pw c c' b Hb) (version_inv u eta rd pw c c' b Hb)). Qed.
Print Assumptions C99_exact_version.

(** Its singular values. *)
Theorem C99_singular_values : forall u eta rd pw c c' b, built_rd u eta rd pw c b -> forall b0, exact_version c' b b0 ->
  rounding u eta rd -> 0 < u <= / 10000 -> 0 <= eta -> forall ep l, power_near ep pw -> 0 <= ep <= / 100 ->
  1000 * eta <= u * (bbeta b / 2) -> 1000 * eta <= u * (bbeta b / 2 * bwmax b) -> 1000 * eta <= u * sqrt (bbeta b / 2 * bwmax b) ->
  1000 * eta <= u * (sqrt (bbeta b / 2 * bwmax b) * powerRZ (bwmax b) (- kyp (bkernel b))) -> (l < List.length (bs b))%nat ->
  Rabs (nth l (bs b) 0 - nth l (bs b0) 0) <= (6 * u + ep) * nth l (bs b0) 0 + eta.
Proof. exact version_singular. Qed.
Print Assumptions C99_singular_values.

(** Computed values of u and v are those of its functions at a point nearby. *)
Theorem C99_u : forall u eta rd pw c c' b, built_rd u eta rd pw c b -> forall b0, exact_version c' b b0 ->
  rounding u eta rd -> 0 < u <= / 10000 -> 0 <= eta -> forall old i t,
  fair_scale u eta (bbeta b / 2) (vgeom (su (bsve b))) -> in_segment (vgeom (bu b)) i t -> shifted_loss 1 (vgeom (su (bsve b))) i * u <= 1 ->
  exists t' ys, Rabs (t' - t) <= 16 / 10 * (u * (bbeta b * outer 1 (vgeom (su (bsve b))) i)) /\
    knot (vgeom (bu b0)) i <= t' <= knot (vgeom (bu b0)) (S i) /\
    vcall_rd old rd (bu b) t = Ok ys /\ List.length ys = List.length (bs b) /\
    forall l a y, nth_error (vcols (bu b0)) l = Some a -> nth_error ys l = Some y ->
      Rabs (y - seg_fun (vgeom (bu b0)) a i t') <= moved_error u eta (bbeta b / 2) 1 (vgeom (su (bsve b))) a i.
Proof. exact version_u. Qed.
Print Assumptions C99_u.
Theorem C99_v : forall u eta rd pw c c' b, built_rd u eta rd pw c b -> forall b0, exact_version c' b b0 ->
  rounding u eta rd -> 0 < u <= / 10000 -> 0 <= eta -> forall old i w,
  fair_scale u eta (bwmax b) (vgeom (sv (bsve b))) -> in_segment (vgeom (bv b)) i w -> shifted_loss 0 (vgeom (sv (bsve b))) i * u <= 1 ->
  exists w' ys, Rabs (w' - w) <= 32 / 10 * (u * (bwmax b * outer 0 (vgeom (sv (bsve b))) i)) /\
    knot (vgeom (bv b0)) i <= w' <= knot (vgeom (bv b0)) (S i) /\
    vcall_rd old rd (bv b) w = Ok ys /\ List.length ys = List.length (bs b) /\
    forall l a y, nth_error (vcols (bv b0)) l = Some a -> nth_error ys l = Some y ->
      Rabs (y - seg_fun (vgeom (bv b0)) a i w') <= moved_error u eta (bwmax b) 0 (vgeom (sv (bsve b))) a i.
Proof. exact version_v. Qed.
Print Assumptions C99_v.

(** Computed values of uhat below the threshold are nearly the Fourier integrals of its
    functions over [0, beta]. *)
Theorem C99_uhat : forall u eta rd pw c c' b b0 ej ec um em gam th F model ns M l h j n lam,
  rounding u eta rd -> 0 < u <= / 10000 -> 0 <= eta -> built_rd u eta rd pw c b -> exact_version c' b b0 -> let g := vgeom (su (bsve b)) in
  1000 * eta <= u * sqrt (bbeta b) -> INR (gnseg g) * u <= / 200 ->
  library_near (gorder g) (gorder g * gnseg g) u ej ec um em gam th F -> small_library ej ec um em gam ->
  klam (bkernel b) = Some lam -> ft_call_rd rd F model (buhat b) ns = Ok M ->
  represents (bu b0) l h -> nth_error ns j = Some n -> Rabs (IZR n) < rd (40 * lam) ->
  exists a v w, nth_error (vcols (bu b0)) l = Some a /\ entry M l j = Some v /\
    is_fourier (fun t => PI * IZR n * t / bbeta b) h 0 (bbeta b) w /\
    Cmod (Cminus v w) <= uhat_error u eta (constant_error u ej ec um em gam) th (bbeta b) g a n.
Proof. exact version_uhat. Qed.
Print Assumptions C99_uhat.

(** Every cut of that basis is nearly the best approximation of the kernel in tau and
    omega with so many functions, and its functions are nearly orthonormal: without
    symmetrisation, ... *)
Theorem C99_near_best_sampling : forall have_xprec have_gejsv dd old rd ro pw f dot legendre run argsort statistics beta wmax eps' max_size kernel c c',
  let K := used_kernel (ro (beta * wmax)) kernel in
  forall eps cutoff n_sv ng work st svds r b,
  compute_rd have_xprec have_gejsv dd old rd ro f dot legendre run argsort K eps cutoff n_sv ng work st svds = Ok (Some r) ->
  basis_init_rd ro pw c statistics beta wmax eps' max_size (option_map kern_of kernel) (Some r) = Ok b ->
  forall u0 eta0, built_rd u0 eta0 ro pw c b -> forall b0, exact_version c' b b0 -> usual_cutoff K -> st = Some SampleStrat ->
  exists t n q' M alg h,
  legendre t n = Ok q' /\ (forall m, ng = Some m -> n = m) /\
  sampling_matrix_rd (rd t) (kernel_matrix_rd (rd t) (f t) K) q' (segments_x K) (segments_y K) = Ok M /\
  let o := run alg M h in
  forall u eta e q sg om rho kap gam th GX GY f0 k a d dist,
    arithmetic u eta e (rd t) (f t) -> reference u n q q' sg om rho kap -> rounding u eta ro -> (forall x y, x <= y -> ro x <= ro y) ->
    (forall side l m i, inner_near n gam th (dot true side l m i)) -> coefficient_error n u sg om gam <= / 200 ->
    tfun_ok f0 -> (forall x y, -1 <= x <= 1 -> -1 <= y <= 1 -> has_value f0 K x y (k x y)) ->
    piecewise q (segments_x K) = Ok GX -> piecewise q (segments_y K) = Ok GY ->
    computed_svd (List.length (rx GX)) (List.length (rx GY)) M o a d dist ->
    let L := List.length (svals o) in
    let ce := coefficient_error n u sg om gam in
    let al := vectors_error n L (List.length (segments_x K) - 1) ce (5 * (eta + th)) in
    let ga := vectors_error n L (List.length (segments_y K) - 1) ce (5 * (eta + th)) in
    let s0 := ro (largest o) in
    let F := physical_factor beta wmax (k_ypower K) in
    a + 4 * al <= 1 -> d + 4 * ga <= 1 ->
    near_best_of_its_size (reseat GX 0 beta) (reseat GY (- wmax) wmax) (in_physical k (k_ypower K) beta wmax) b0
      (F * (dist + full_error u e sg om rho kap K + product_error u eta (svals o) s0 al ga + 2 * skew s0 (a + 4 * al) (d + 4 * ga)))
      (Rsqr F * sumsq (map ro (svals o))) /\
    nearly_orthonormal_functions (bu b0) (a + 4 * al) /\ nearly_orthonormal_functions (bv b0) (d + 4 * ga).
Proof. exact whole_sample. Qed.
Print Assumptions C99_near_best_sampling.

(** ... and with symmetrisation, which the constructor uses. *)
Theorem C99_near_best_symmetric : forall have_xprec have_gejsv dd old rd ro pw f dot legendre run argsort, (forall s, sorts s (argsort s)) ->
  forall statistics beta wmax eps' max_size kernel c c',
  let K := used_kernel (ro (beta * wmax)) kernel in
  forall eps cutoff n_sv ng work st svds r b,
  compute_rd have_xprec have_gejsv dd old rd ro f dot legendre run argsort K eps cutoff n_sv ng work st svds = Ok (Some r) ->
  basis_init_rd ro pw c statistics beta wmax eps' max_size (option_map kern_of kernel) (Some r) = Ok b ->
  forall u0 eta0, built_rd u0 eta0 ro pw c b -> forall b0, exact_version c' b b0 -> usual_cutoff K -> st <> Some SampleStrat ->
  exists t n q' Ke Ko Me Mo alge he algo ho,
  legendre t n = Ok q' /\ (forall m, ng = Some m -> n = m) /\
  get_symmetrized K 1 = Ok Ke /\ get_symmetrized K (-1) = Ok Ko /\
  sampling_matrix_rd (rd t) (reduced_matrix_rd (rd t) (f t) Ke) q' (half (segments_x K)) (half (segments_y K)) = Ok Me /\
  sampling_matrix_rd (rd t) (reduced_matrix_rd (rd t) (f t) Ko) q' (half (segments_x K)) (half (segments_y K)) = Ok Mo /\
  let even := run alge Me he in
  let odd := run algo Mo ho in
  forall u eta e q sg om rho kap gam th gx gy GX GY f0 k ae ce de ao co d_o,
    arithmetic u eta e (rd t) (f t) -> reference u n q q' sg om rho kap -> rounding u eta ro -> (forall x y, x <= y -> ro x <= ro y) ->
    (forall part side l m i, inner_near n gam th (dot part side l m i)) -> coefficient_error n u sg om gam <= / 200 ->
    tfun_ok f0 -> (forall x y, -1 <= x <= 1 -> -1 <= y <= 1 -> has_value f0 K x y (k x y)) ->
    piecewise q (half (segments_x K)) = Ok gx -> piecewise q (half (segments_y K)) = Ok gy ->
    piecewise q (segments_x K) = Ok GX -> piecewise q (segments_y K) = Ok GY ->
    computed_svd (List.length (rx gx)) (List.length (rx gy)) Me even ae ce de -> computed_svd (List.length (rx gx)) (List.length (rx gy)) Mo odd ao co d_o ->
    let cf := coefficient_error n u sg om gam + 4 * u in
    let tau := 8 * (eta + th) in
    let mx := (List.length (half (segments_x K)) - 1)%nat in
    let my := (List.length (half (segments_y K)) - 1)%nat in
    let defect_u b a := functions_defect n (List.length (svals b)) mx cf tau a in
    let defect_v b c := functions_defect n (List.length (svals b)) my cf tau c in
    let total b d := d + half_error u e sg om rho kap K +
      product_error u eta (svals b) (ro (largest b)) (vectors_error n (List.length (svals b)) mx cf tau) (vectors_error n (List.length (svals b)) my cf tau) in
    let F := physical_factor beta wmax (k_ypower K) in
    defect_u even ae <= 1 -> defect_v even ce <= 1 -> defect_u odd ao <= 1 -> defect_v odd co <= 1 ->
    near_best_of_its_size (reseat GX 0 beta) (reseat GY (- wmax) wmax) (in_physical k (k_ypower K) beta wmax) b0
      (F * (root2 (total even de) (total odd d_o) +
       2 * skew (Rmax (ro (largest even)) (ro (largest odd))) (root2 (defect_u even ae) (defect_u odd ao)) (root2 (defect_v even ce) (defect_v odd co))))
      (Rsqr F * (sumsq (map ro (svals even)) + sumsq (map ro (svals odd)))) /\
    nearly_orthonormal_functions (bu b0) (Rmax (defect_u even ae) (defect_u odd ao)) /\
    nearly_orthonormal_functions (bv b0) (Rmax (defect_v even ce) (defect_v odd co)).
Proof. exact whole_symm. Qed.
Print Assumptions C99_near_best_symmetric.

(** Without rounding this is the constructor of C85. *)
Theorem C99_exact_arithmetic : forall have_xprec have_gejsv dd old f legendre run argsort statistics beta wmax eps max_size kernel,
  new_basis_rd have_xprec have_gejsv dd old (fun _ t => t) (fun t => t) powerRZ (fun _ => f) (fun _ _ _ _ _ => exact_dot) legendre run argsort statistics beta wmax eps max_size kernel =
  new_basis have_xprec have_gejsv dd f legendre run argsort statistics beta wmax eps max_size kernel.
Proof. exact new_exact. Qed.
Print Assumptions C99_exact_arithmetic.

(** Doubles, beta = 2, wmax = 1/2, one Gauss point per segment and decompositions with
    a single value: the hypotheses above hold, and the functions are orthonormal up to
    1e-6.  (The decompositions are orthonormal but not close to the matrices; the
    theorems then bound the distance by one that is not small.) *)
Example C99_nonvacuous_symmetric : forall have_xprec have_gejsv dd old c c', exists r b b0,
  compute_rd have_xprec have_gejsv dd old (fun _ => rnd64) rnd64 (fun _ => tfun64) (fun _ _ _ _ _ => chained_dot rnd64)
    leg1 unit_svd sort_indices (Logistic 1) None (Some (Fin (/ 10))) None (Some 1%nat) (Some Float64) None (Some "default"%string) = Ok (Some r) /\
  basis_init_rd rnd64 powerRZ c "F" 2 (/ 2) (Some (/ 10)) None None (Some r) = Ok b /\
  used_kernel (rnd64 (2 * / 2)) None = Logistic 1 /\ built_rd (/ 2 ^ 53) eta64 rnd64 powerRZ c b /\ List.length (bs b) = 2%nat /\
  exact_version c' b b0 /\ nearly_orthonormal_functions (bu b0) (/ 10 ^ 6) /\ nearly_orthonormal_functions (bv b0) (/ 10 ^ 6).
Proof. exact round_basis. Qed.
Example C99_nonvacuous_sampling : forall have_xprec have_gejsv dd old c c', exists r b b0,
  compute_rd have_xprec have_gejsv dd old (fun _ => rnd64) rnd64 (fun _ => tfun64) (fun _ _ _ _ _ => chained_dot rnd64)
    leg1 level_svd sort_indices (Logistic 1) None (Some (Fin (/ 10))) None (Some 1%nat) (Some Float64) (Some SampleStrat) (Some "default"%string) = Ok (Some r) /\
  basis_init_rd rnd64 powerRZ c "F" 2 (/ 2) (Some (/ 10)) None None (Some r) = Ok b /\
  used_kernel (rnd64 (2 * / 2)) None = Logistic 1 /\ built_rd (/ 2 ^ 53) eta64 rnd64 powerRZ c b /\ List.length (bs b) = 1%nat /\
  exact_version c' b b0 /\ nearly_orthonormal_functions (bu b0) (/ 10 ^ 6) /\ nearly_orthonormal_functions (bv b0) (/ 10 ^ 6).
Proof. exact round_basis_sample. Qed.

(** Without rounding there are for every kernel of the library rules and decompositions
    with which the constructor without sve_result returns for all valid arguments. *)
Example C99_returns_nonvacuous :
  forall old f K k, tfun_ok f -> (forall x y, -1 <= x <= 1 -> -1 <= y <= 1 -> has_value f K x y (k x y)) ->
  exists legendre run argsort, forall have_xprec have_gejsv dd statistics beta wmax eps max_size, 0 <= dd < / 2 ->
  0 < beta -> 0 < wmax -> statistics = "F"%string \/ statistics = "B"%string ->
  Rabs (k_lambda K - beta * wmax) <= 4 / 10 ^ 16 * (beta * wmax) ->
  (forall e, eps = Some e -> e <= 1) -> max_size = None \/ (exists z, max_size = Some (PyInt z) /\ (0 < z)%Z) ->
  exists o, new_basis_rd have_xprec have_gejsv dd old (fun _ t => t) (fun t => t) powerRZ (fun _ => f) (fun _ _ _ _ _ => exact_dot) legendre run argsort
              statistics beta wmax eps max_size (Some K) = Ok o.
Proof.
  intros old f K k Hf Hk. destruct (constructor_case f K k Hf Hk) as (legendre & run & argsort & _ & H). exists legendre, run, argsort.
  intros hx hg dd st beta wmax eps ms. rewrite new_exact. exact (H hx hg dd st beta wmax eps ms).
Qed.
