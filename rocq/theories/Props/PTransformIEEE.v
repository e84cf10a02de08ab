(** C100: sampling on bases in rounded arithmetic: from times to frequencies and back. *)
From Coq Require Import String ZArith Arith Bool Reals Lra Lia.
From Coquelicot Require Import Coquelicot.
From Coq Require Import List.
From Verif.Model Require Import Base Util IEEE Num Poly PolyIEEE FT FTIEEE SVE Matsubara Basis BasisIEEE NDArray Sampling SamplingIEEE TransformIEEE.
From Verif.Spec Require Import SPoly SFT SSVE SBasis SComputed SKernelIEEE SSampling SSamplingIEEE STransform SPolyIEEE SFTIEEE SSVEIEEE SBasisIEEE SWholeIEEE STransformIEEE SDefaults.
From Verif.Proofs Require Import KernelRoundCall SamplingExamples SamplingRoundExamples FTRoundProps BasisRoundProps TransformRound TransformRoundProps TransformRoundCase.
Import ListNotations.
Open Scope R_scope.

(** TauSampling accepts the points that lie in the interval of u, and raises
    ValueError for any other. *)
Theorem C100_tau_sampling : forall u eta rd pw compute b old F model, built_rd u eta rd pw compute b -> forall svd pts,
  (Forall (fun t => gxmin (vgeom (bu b)) <= t <= gxmax (vgeom (bu b))) pts ->
   exists s, tau_sampling svd (sb_of_basis_rd old rd F model b) pts = Ok s) /\
  (~ Forall (fun t => gxmin (vgeom (bu b)) <= t <= gxmax (vgeom (bu b))) pts ->
   tau_sampling svd (sb_of_basis_rd old rd F model b) pts = Raise ValueError).
Proof. exact tau_sampling_outcome. Qed.
Print Assumptions C100_tau_sampling.

(** MatsubaraSampling accepts the frequencies of the statistics of the basis, and
    raises ValueError for any other. *)
Theorem C100_matsubara_sampling : forall u eta rd pw compute b old F model, built_rd u eta rd pw compute b -> forall svd ns,
  (Forall (allowed b) ns -> exists s, matsubara_sampling svd (sb_of_basis_rd old rd F model b) ns false = Ok s) /\
  (~ Forall (allowed b) ns -> forall pos, matsubara_sampling svd (sb_of_basis_rd old rd F model b) ns pos = Raise ValueError).
Proof. exact mats_sampling_outcome. Qed.
Print Assumptions C100_matsubara_sampling.

(** TauSampling.evaluate returns the values of the function with the given
    coefficients, at times that differ from the sampling points by rounding. *)
Theorem C100_evaluate_times : forall u eta rd pw compute compute' b,
  rounding u eta rd -> 0 < u <= / 10000 -> 0 <= eta -> built_rd u eta rd pw compute b ->
  forall b0, exact_version compute' b b0 -> forall old F model svd pts st e,
  fair_times u eta b b0 e -> tau_sampling svd (sb_of_basis_rd old rd F model b) pts = Ok st ->
  forall ar N gam th rho, dot_near N gam th (ar_dot ar) -> (bsize b0 <= N)%nat ->
  (forall i t r, values_in (bu b0) i t r -> size (bsize b0) r <= rho) ->
  exists B, time_matrix u (bu b0) pts B /\
  let P := fun g z => times_near B g z (transfer_error (bsize b0) rho gam th e (size (bsize b0) g) 0) in
  slices_along (fun g k => t_evaluate_rd ar svd st g (Some k) None) (bsize b0) (List.length pts) P /\
  slices_default (fun g => t_evaluate_rd ar svd st g None None) (bsize b0) (List.length pts) P.
Proof. exact tau_evaluate_true. Qed.
Print Assumptions C100_evaluate_times.

(** MatsubaraSampling.evaluate returns the Fourier integrals, at the sampling
    frequencies, of the function with the given coefficients. *)
Theorem C100_evaluate_frequencies : forall u eta rd pw compute compute' b,
  rounding u eta rd -> 0 < u <= / 10000 -> 0 <= eta -> built_rd u eta rd pw compute b ->
  forall b0, exact_version compute' b b0 -> forall old F model ej ec um em gamF thF,
  (let g := vgeom (su (bsve b)) in library_near (gorder g) (gorder g * gnseg g) u ej ec um em gamF thF F) -> small_library ej ec um em gamF ->
  forall svd ns pos sm eh, fair_frequencies u eta (constant_error u ej ec um em gamF) thF rd b b0 ns eh ->
  matsubara_sampling svd (sb_of_basis_rd old rd F model b) ns pos = Ok sm ->
  forall h a0, (forall l, (l < bsize b0)%nat -> represents (bu b0) l (h l)) -> nearly_orthonormal_functions (bu b0) a0 ->
  forall ar N gam th, dot_near N gam th (ar_dot ar) -> (bsize b0 <= N)%nat ->
  let P := fun g z => frequencies_near (bbeta b) (bsize b0) h ns g z
    (transfer_error (bsize b0) (sqrt (bbeta b * (1 + INR (bsize b0) * a0))) gam th eh (size (bsize b0) g) 0) in
  slices_along (fun g k => m_evaluate_rd ar svd sm g (Some k) None) (bsize b0) (List.length ns) P /\
  slices_default (fun g => m_evaluate_rd ar svd sm g None None) (bsize b0) (List.length ns) P.
Proof. exact mats_evaluate_true. Qed.
Print Assumptions C100_evaluate_frequencies.

(** Values x at the times: fitting them with TauSampling.fit and evaluating with
    MatsubaraSampling.evaluate gives the Fourier integrals of every expansion g
    in the basis, up to the distance between its values and x times the condition of
    the fit, and up to rounding. *)
Theorem C100_time_to_frequency : forall u eta rd pw compute compute' b,
  rounding u eta rd -> 0 < u <= / 10000 -> 0 <= eta -> built_rd u eta rd pw compute b ->
  forall b0, exact_version compute' b b0 -> forall old F model ej ec um em gamF thF,
  (let g := vgeom (su (bsve b)) in library_near (gorder g) (gorder g * gnseg g) u ej ec um em gamF thF F) -> small_library ej ec um em gamF ->
  forall svd' ns pos sm eh, fair_frequencies u eta (constant_error u ej ec um em gamF) thF rd b b0 ns eh ->
  matsubara_sampling svd' (sb_of_basis_rd old rd F model b) ns pos = Ok sm ->
  forall h a0, (forall l, (l < bsize b0)%nat -> represents (bu b0) l (h l)) -> nearly_orthonormal_functions (bu b0) a0 ->
  forall svd pts st e, fair_times u eta b b0 e -> tau_sampling svd (sb_of_basis_rd old rd F model b) pts = Ok st ->
  forall ar N gam th ua etaa a c d lo hi, arith_near N gam th ua etaa lo hi ar ->
  let A := d_a (ts_matrix st) in decomposes A (svd A) a c d lo hi -> small_fit (bsize b0) gam ua a c ->
  (List.length pts <= N)%nat -> (bsize b0 <= N)%nat ->
  exists B, time_matrix u (bu b0) pts B /\
  let P := fun x z => forall g, frequencies_near (bbeta b) (bsize b0) h ns g z
    (transfer_error (bsize b0) (sqrt (bbeta b * (1 + INR (bsize b0) * a0))) gam th eh (size (bsize b0) g)
      (data_error (List.length pts) (bsize b0) gam th ua etaa a c d lo hi e g (apply_mat B g) x)) in
  slices_along (fun x k => do y <- coeffs (t_fit_rd ar svd st x (Some k) None); m_evaluate_rd ar svd' sm y (Some k) None) (List.length pts) (List.length ns) P /\
  slices_default (fun x => do y <- coeffs (t_fit_rd ar svd st x None None); m_evaluate_rd ar svd' sm y None None) (List.length pts) (List.length ns) P.
Proof. exact time_to_frequency_true. Qed.
Print Assumptions C100_time_to_frequency.

(** The same from frequencies to times: here W are the Fourier integrals of the
    expansion g, and x the values given. *)
Theorem C100_frequency_to_time : forall u eta rd pw compute compute' b b0 old F model,
  rounding u eta rd -> 0 < u <= / 10000 -> 0 <= eta -> built_rd u eta rd pw compute b -> exact_version compute' b b0 ->
  forall ej ec um em gamF thF,
  (let g := vgeom (su (bsve b)) in library_near (gorder g) (gorder g * gnseg g) u ej ec um em gamF thF F) -> small_library ej ec um em gamF ->
  forall svd svd' pts ns st e eh h, fair_times u eta b b0 e -> fair_frequencies u eta (constant_error u ej ec um em gamF) thF rd b b0 ns eh ->
  tau_sampling svd (sb_of_basis_rd old rd F model b) pts = Ok st -> (forall l, (l < bsize b0)%nat -> represents (bu b0) l (h l)) ->
  forall a0, nearly_orthonormal_functions (bu b0) a0 -> forall rho, (forall i t r, values_in (bu b0) i t r -> size (bsize b0) r <= rho) ->
  forall ar N gam th ua etaa a c d lo hi, arith_near N gam th ua etaa lo hi ar -> small_fit (bsize b0) gam ua a c ->
  (List.length ns <= N)%nat -> (bsize b0 <= N)%nat ->
  forall sm, matsubara_sampling svd' (sb_of_basis_rd old rd F model b) ns false = Ok sm ->
  let A := m_a (ms_matrix sm) in decomposes A (svd' A) a c d lo hi ->
  exists B, time_matrix u (bu b0) pts B /\
  let P := fun x z => forall g W,
    (forall j n, nth_error ns j = Some n -> in_frequency (bbeta b) (combination (bsize b0) h g) n (W j)) ->
    times_near B g z (transfer_error (bsize b0) rho gam th e (size (bsize b0) g)
      (data_error (List.length ns) (bsize b0) gam th ua etaa a c d lo hi eh g W x)) in
  slices_along (fun x k => do y <- coeffs (m_fit_rd ar svd' sm x (Some k) None); t_evaluate_rd ar svd st y (Some k) None) (List.length ns) (List.length pts) P /\
  slices_default (fun x => do y <- coeffs (m_fit_rd ar svd' sm x None None); t_evaluate_rd ar svd st y None None) (List.length ns) (List.length pts) P.
Proof. exact frequency_to_time_true. Qed.
Print Assumptions C100_frequency_to_time.

(** The same with positive_only=True, for the expansions with real coefficients. *)
Theorem C100_positive_to_time : forall u eta rd pw compute compute' b b0 old F model,
  rounding u eta rd -> 0 < u <= / 10000 -> 0 <= eta -> built_rd u eta rd pw compute b -> exact_version compute' b b0 ->
  forall ej ec um em gamF thF,
  (let g := vgeom (su (bsve b)) in library_near (gorder g) (gorder g * gnseg g) u ej ec um em gamF thF F) -> small_library ej ec um em gamF ->
  forall svd svd' pts ns st e eh h, fair_times u eta b b0 e -> fair_frequencies u eta (constant_error u ej ec um em gamF) thF rd b b0 ns eh ->
  tau_sampling svd (sb_of_basis_rd old rd F model b) pts = Ok st -> (forall l, (l < bsize b0)%nat -> represents (bu b0) l (h l)) ->
  forall a0, nearly_orthonormal_functions (bu b0) a0 -> forall rho, (forall i t r, values_in (bu b0) i t r -> size (bsize b0) r <= rho) ->
  forall ar N gam th ua etaa a c d lo hi, arith_near N gam th ua etaa lo hi ar -> small_fit (bsize b0) gam ua a c ->
  (List.length ns <= N)%nat -> (bsize b0 <= N)%nat ->
  forall sm, matsubara_sampling svd' (sb_of_basis_rd old rd F model b) ns true = Ok sm ->
  let A := m_a (ms_matrix sm) in let A' := stacked A (zoff ns) in
  decomposes A' (svd' A') a c d lo hi -> real_decomposition A' (svd' A') -> zero_row_real ns A ->
  exists B, time_matrix u (bu b0) pts B /\
  let P := fun x z => forall g W, real_vec (bsize b0) g ->
    (forall j n, nth_error ns j = Some n -> in_frequency (bbeta b) (combination (bsize b0) h g) n (W j)) ->
    times_near B g z (transfer_error (bsize b0) rho gam th e (size (bsize b0) g)
      (data_error (List.length ns) (bsize b0) gam th ua etaa a c d lo hi eh g W x)) in
  slices_along (fun x k => do y <- coeffs (m_fit_rd ar svd' sm x (Some k) None); t_evaluate_rd ar svd st y (Some k) None) (List.length ns) (List.length pts) P /\
  slices_default (fun x => do y <- coeffs (m_fit_rd ar svd' sm x None None); t_evaluate_rd ar svd st y None None) (List.length ns) (List.length pts) P.
Proof. exact positive_to_time_true. Qed.
Print Assumptions C100_positive_to_time.

(** The bound rho on the rows, from the coefficients stored. *)
Theorem C100_rows : forall p M, geom_ok (vgeom p) ->
  (forall i c, (i < gnseg (vgeom p))%nat -> In c (vcols p) ->
    sqrt (2 / (knot (vgeom p) (S i) - knot (vgeom p) i)) * sumn (glen (vgeom p)) (fun k => Rabs (cdat c k i)) <= M) ->
  forall i t r, values_in p i t r -> size (List.length (vcols p)) r <= sqrt (INR (List.length (vcols p))) * M.
Proof. exact rows_bounded. Qed.
Print Assumptions C100_rows.

(** Without rounding, sampling asks the basis for the same values as in exact
    arithmetic. *)
Theorem C100_exact : forall old b,
  let sb := sb_of_basis_rd old (fun t => t) exact_library (fun l n => giw (ft_moments (buhat b) l) n) b in
  (forall xs, sb_u sb xs = sb_u (sb_of_basis b) xs) /\ (forall ns, sb_uhat sb ns = sb_uhat (sb_of_basis b) ns) /\
  sb_well sb = sb_well (sb_of_basis b).
Proof. exact sampling_exact. Qed.
Print Assumptions C100_exact.

(** A basis of one constant function at beta = 2 in doubles, sampled at the time 1, at
    the frequencies 1 and -1, and at 1 and 3 with positive_only=True, meets every
    hypothesis, with e = 1e-12. *)
Example C100_hypotheses : forall compute compute' old model, exists b b0 st sm sp,
  let u := / 2 ^ 53 in let e := / 10 ^ 12 in
  let sb := sb_of_basis_rd old rnd64 double_library model b in
  let delta := constant_error u (2 * u) (2 * u) (6 * u) (12 * eta64) (6 * INR 1 * u) in
  basis_init_rd rnd64 powerRZ compute "F" 2 (/ 2) (Some (/ 10)) None None (Some (flat_sve (/ 10))) = Ok b /\
  built_rd u eta64 rnd64 powerRZ compute b /\ exact_version compute' b b0 /\ bbeta b = 2 /\ bsize b0 = 1%nat /\
  (forall l, (l < bsize b0)%nat -> represents (bu b0) l (fun _ => 181 / 256)) /\
  nearly_orthonormal_functions (bu b0) (/ 1000) /\ (forall i t r, values_in (bu b0) i t r -> size (bsize b0) r <= 1) /\
  (let g := vgeom (su (bsve b)) in library_near (gorder g) (gorder g * gnseg g) u (2 * u) (2 * u) (6 * u) (12 * eta64) (6 * INR 1 * u) (12 * INR 1 * eta64) double_library) /\
  small_library (2 * u) (2 * u) (6 * u) (12 * eta64) (6 * INR 1 * u) /\
  fair_times u eta64 b b0 e /\ fair_frequencies u eta64 delta (12 * INR 1 * eta64) rnd64 b b0 [1; -1]%Z e /\ fair_frequencies u eta64 delta (12 * INR 1 * eta64) rnd64 b b0 [1; 3]%Z e /\
  tau_sampling col_svd sb [1] = Ok st /\ matsubara_sampling col_svd sb [1; -1]%Z false = Ok sm /\ matsubara_sampling col_svd sb [1; 3]%Z true = Ok sp /\
  (let A := d_a (ts_matrix st) in decomposes A (col_svd A) 0 0 0 (/ 2) 3) /\
  (let A := m_a (ms_matrix sm) in decomposes A (col_svd A) 0 0 0 (/ 2) 3) /\
  (let A := m_a (ms_matrix sp) in let A' := stacked A (zoff [1; 3]%Z) in decomposes A' (col_svd A') 0 0 0 (/ 2) 3 /\ real_decomposition A' (col_svd A') /\ zero_row_real [1; 3]%Z A) /\
  arith_near 2 (6 * INR 2 / 2 ^ 53) (12 * INR 2 * eta64) (9 / 2 ^ 53) (2 * (eta64 / (/ 2) + eta64)) (/ 2) 3 (some_arith rnd64) /\
  small_fit (bsize b0) (6 * INR 2 / 2 ^ 53) (9 / 2 ^ 53) 0 0.
Proof. exact flat_case. Qed.
