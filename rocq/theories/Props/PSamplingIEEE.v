(** C93: evaluate and fit in rounded arithmetic. *)
From Coq Require Import ZArith Reals Lra Lia.
From Coquelicot Require Import Coquelicot.
From Coq Require Import List Permutation.
From Verif.Model Require Import Base Util IEEE Num FT Basis NDArray Sampling SamplingIEEE.
From Verif.Spec Require Import SSampling SSamplingIEEE SKernelIEEE SBasis.
From Verif.Proofs Require Import SVEPolicy KernelRoundCall SamplingExamples DotRound SamplingRoundProps SamplingRoundExamples.
Import ListNotations.
Open Scope R_scope.

(** evaluate of a TauSampling object, whose matrix A holds the computed values of
    the basis functions (C53_tau_matrix): each value of the expansion, along any
    axis and without axis. *)
Theorem C93_tau_evaluate : forall ar N gam th svd s, dot_near N gam th (ar_dot ar) ->
  let A := d_a (ts_matrix s) in (mc A <= N)%nat ->
  slices_along (fun g k => t_evaluate_rd ar svd s g (Some k) None) (mc A) (mr A) (values_near A gam th) /\
  slices_default (fun g => t_evaluate_rd ar svd s g None None) (mc A) (mr A) (values_near A gam th).
Proof. exact tau_evaluate_near. Qed.
Print Assumptions C93_tau_evaluate.
(** The same for MatsubaraSampling, with and without positive_only. *)
Theorem C93_matsubara_evaluate : forall ar N gam th svd s, dot_near N gam th (ar_dot ar) ->
  let A := m_a (ms_matrix s) in (mc A <= N)%nat ->
  slices_along (fun g k => m_evaluate_rd ar svd s g (Some k) None) (mc A) (mr A) (values_near A gam th) /\
  slices_default (fun g => m_evaluate_rd ar svd s g None None) (mc A) (mr A) (values_near A gam th).
Proof. exact mats_evaluate_near. Qed.
Print Assumptions C93_matsubara_evaluate.

(** If the entries of A differ by at most e from the values B of other functions,
    say the true basis functions, then the values are those of expansions in them. *)
Theorem C93_values_of_true_functions : forall A B e gam th g x, entries_near A B e -> 0 <= gam ->
  values_near A gam th g x ->
  values_near B gam (th + (1 + gam) * e * sumn (mc A) (fun l => Cmod (g l))) g x.
Proof. exact true_values. Qed.
Print Assumptions C93_values_of_true_functions.

(** fit of a TauSampling object: for every slice x of the data and all coefficients
    g, the result differs from g by no more than a multiple of what the values of g
    differ from x, plus the rounding errors; and from the least-squares solution by
    the rounding errors only. *)
Theorem C93_tau_fit : forall ar N gam th u eta lo hi svd b pts s a c d,
  arith_near N gam th u eta lo hi ar -> tau_sampling svd b pts = Ok s ->
  let A := d_a (ts_matrix s) in
  decomposes A (svd A) a c d lo hi -> small_fit (mc A) gam u a c ->
  (0 < mc A)%nat -> (mr A <= N)%nat -> (mc A <= N)%nat ->
  let P x y := fits (fun _ => True) A gam th u eta a c d lo hi x y /\ fits_best least_squares A gam th u eta a c d lo hi x y in
  slices_along (fun x k => coeffs (t_fit_rd ar svd s x (Some k) None)) (mr A) (mc A) P /\
  slices_default (fun x => coeffs (t_fit_rd ar svd s x None None)) (mr A) (mc A) P.
Proof. exact tau_fit_near. Qed.
Print Assumptions C93_tau_fit.
(** The same for MatsubaraSampling. *)
Theorem C93_matsubara_fit : forall ar N gam th u eta lo hi svd b p s a c d,
  arith_near N gam th u eta lo hi ar -> matsubara_sampling svd b p false = Ok s ->
  let A := m_a (ms_matrix s) in
  decomposes A (svd A) a c d lo hi -> small_fit (mc A) gam u a c ->
  (0 < mc A)%nat -> (mr A <= N)%nat -> (mc A <= N)%nat ->
  let P x y := fits (fun _ => True) A gam th u eta a c d lo hi x y /\ fits_best least_squares A gam th u eta a c d lo hi x y in
  slices_along (fun x k => coeffs (m_fit_rd ar svd s x (Some k) None)) (mr A) (mc A) P /\
  slices_default (fun x => coeffs (m_fit_rd ar svd s x None None)) (mr A) (mc A) P.
Proof. exact mats_fit_near. Qed.
Print Assumptions C93_matsubara_fit.
(** With positive_only: among real coefficients. *)
Theorem C93_positive_only_fit : forall ar N gam th u eta lo hi svd b p s a c d,
  arith_near N gam th u eta lo hi ar -> matsubara_sampling svd b p true = Ok s ->
  let A := m_a (ms_matrix s) in let B := stacked A (zoff p) in
  decomposes B (svd B) a c d lo hi -> real_decomposition B (svd B) -> zero_row_real p A ->
  small_fit (mc A) gam u a c -> (0 < mc A)%nat -> (mr A <= N)%nat -> (mc A <= N)%nat ->
  let P x y := fits (real_vec (mc A)) A gam th u eta a c d lo hi x y /\ fits_best real_least_squares A gam th u eta a c d lo hi x y in
  slices_along (fun x k => coeffs (m_fit_rd ar svd s x (Some k) None)) (mr A) (mc A) P /\
  slices_default (fun x => coeffs (m_fit_rd ar svd s x None None)) (mr A) (mc A) P.
Proof. exact pos_fit_near. Qed.
Print Assumptions C93_positive_only_fit.

(** What is left of the residual when the data x are values of an expansion in the
    true basis functions B, of which the entries of A are approximations. *)
Theorem C93_data_of_true_functions : forall A B e g x, entries_near A B e ->
  (forall i, (i < mr A)%nat -> x i = apply_mat B g i) ->
  size (mr A) (vsub (apply_mat A g) x) <= e * sqrt (INR (mr A)) * sqrt (INR (mc A)) * size (mc A) g.
Proof. exact true_data. Qed.
Print Assumptions C93_data_of_true_functions.

(** fit(evaluate(g)) gives g back. *)
Theorem C93_tau_round_trip : forall ar N gam th u eta lo hi svd b pts s a c d,
  arith_near N gam th u eta lo hi ar -> tau_sampling svd b pts = Ok s ->
  let A := d_a (ts_matrix s) in
  decomposes A (svd A) a c d lo hi -> small_fit (mc A) gam u a c ->
  (0 < mc A)%nat -> (mr A <= N)%nat -> (mc A <= N)%nat ->
  let P := comes_back (fun _ => True) A gam th u eta a c d lo hi in
  slices_along (fun g k => do x <- t_evaluate_rd ar svd s g (Some k) None; coeffs (t_fit_rd ar svd s x (Some k) None)) (mc A) (mc A) P /\
  slices_default (fun g => do x <- t_evaluate_rd ar svd s g None None; coeffs (t_fit_rd ar svd s x None None)) (mc A) (mc A) P.
Proof. exact tau_round_trip. Qed.
Print Assumptions C93_tau_round_trip.
Theorem C93_matsubara_round_trip : forall ar N gam th u eta lo hi svd b p s a c d,
  arith_near N gam th u eta lo hi ar -> matsubara_sampling svd b p false = Ok s ->
  let A := m_a (ms_matrix s) in
  decomposes A (svd A) a c d lo hi -> small_fit (mc A) gam u a c ->
  (0 < mc A)%nat -> (mr A <= N)%nat -> (mc A <= N)%nat ->
  let P := comes_back (fun _ => True) A gam th u eta a c d lo hi in
  slices_along (fun g k => do x <- m_evaluate_rd ar svd s g (Some k) None; coeffs (m_fit_rd ar svd s x (Some k) None)) (mc A) (mc A) P /\
  slices_default (fun g => do x <- m_evaluate_rd ar svd s g None None; coeffs (m_fit_rd ar svd s x None None)) (mc A) (mc A) P.
Proof. exact mats_round_trip. Qed.
Print Assumptions C93_matsubara_round_trip.
Theorem C93_positive_only_round_trip : forall ar N gam th u eta lo hi svd b p s a c d,
  arith_near N gam th u eta lo hi ar -> matsubara_sampling svd b p true = Ok s ->
  let A := m_a (ms_matrix s) in let B := stacked A (zoff p) in
  decomposes B (svd B) a c d lo hi -> real_decomposition B (svd B) -> zero_row_real p A ->
  small_fit (mc A) gam u a c -> (0 < mc A)%nat -> (mr A <= N)%nat -> (mc A <= N)%nat ->
  let P := comes_back (real_vec (mc A)) A gam th u eta a c d lo hi in
  slices_along (fun g k => do x <- m_evaluate_rd ar svd s g (Some k) None; coeffs (m_fit_rd ar svd s x (Some k) None)) (mc A) (mc A) P /\
  slices_default (fun g => do x <- m_evaluate_rd ar svd s g None None; coeffs (m_fit_rd ar svd s x None None)) (mc A) (mc A) P.
Proof. exact pos_round_trip. Qed.
Print Assumptions C93_positive_only_round_trip.

(** The warning of fit is issued for a well-conditioned basis, and only then, if the
    ratio of the largest to the smallest singular value exceeds 1e8, up to one
    rounding. *)
Theorem C93_tau_warning : forall ar u lo hi svd b pts s a c d x k w y smax smin,
  quot_near u lo hi (ar_quot ar) -> tau_sampling svd b pts = Ok s ->
  let A := d_a (ts_matrix s) in let sv := r_s (svd A) in
  decomposes A (svd A) a c d lo hi -> (forall k, (S k < mc A)%nat -> nth (S k) sv 0 <= nth k sv 0) ->
  is_largest sv smax -> is_smallest_nonzero sv smin ->
  t_fit_rd ar svd s x k None = Ok (w, y) ->
  (w = true -> sb_well b = true /\ 10 ^ 8 < (1 + u) * (smax / smin)) /\
  (sb_well b = true -> 10 ^ 8 < (1 - u) * (smax / smin) -> w = true).
Proof. exact tau_warning. Qed.
Print Assumptions C93_tau_warning.
Theorem C93_matsubara_warning : forall ar u lo hi svd b p s a c d x k w y smax smin,
  quot_near u lo hi (ar_quot ar) -> matsubara_sampling svd b p false = Ok s ->
  let A := m_a (ms_matrix s) in let sv := r_s (svd A) in
  decomposes A (svd A) a c d lo hi -> (forall k, (S k < mc A)%nat -> nth (S k) sv 0 <= nth k sv 0) ->
  is_largest sv smax -> is_smallest_nonzero sv smin ->
  m_fit_rd ar svd s x k None = Ok (w, y) ->
  (w = true -> sb_well b = true /\ 10 ^ 8 < (1 + u) * (smax / smin)) /\
  (sb_well b = true -> 10 ^ 8 < (1 - u) * (smax / smin) -> w = true).
Proof. exact mats_warning. Qed.
Print Assumptions C93_matsubara_warning.
Theorem C93_positive_only_warning : forall ar u lo hi svd b p s a c d x k w y smax smin,
  quot_near u lo hi (ar_quot ar) -> matsubara_sampling svd b p true = Ok s ->
  let A := m_a (ms_matrix s) in let B := stacked A (zoff p) in let sv := r_s (svd B) in
  decomposes B (svd B) a c d lo hi -> (forall k, (S k < mc A)%nat -> nth (S k) sv 0 <= nth k sv 0) ->
  is_largest sv smax -> is_smallest_nonzero sv smin ->
  m_fit_rd ar svd s x k None = Ok (w, y) ->
  (w = true -> sb_well b = true /\ 10 ^ 8 < (1 + u) * (smax / smin)) /\
  (sb_well b = true -> 10 ^ 8 < (1 - u) * (smax / smin) -> w = true).
Proof. exact pos_warning. Qed.
Print Assumptions C93_positive_only_warning.

(** evaluate and fit with points do what the same object made for these points
    does without, and fail as its constructor fails. *)
Theorem C93_tau_points : forall ar svd s p x k,
  match tau_sampling_at svd (ts_basis s) p with
  | Ok s' => t_evaluate_rd ar svd s x k (Some p) = t_evaluate_rd ar svd s' x k None /\
             t_fit_rd ar svd s x k (Some p) = t_fit_rd ar svd s' x k None
  | Raise e => t_evaluate_rd ar svd s x k (Some p) = Raise e /\ t_fit_rd ar svd s x k (Some p) = Raise e
  end.
Proof. intros. unfold t_evaluate_rd, t_fit_rd. destruct (tau_sampling_at _ _ _); cbn [bind]; auto. Qed.
Print Assumptions C93_tau_points.
Theorem C93_matsubara_points : forall ar svd s p x k,
  match matsubara_sampling_at svd (ms_basis s) p (ms_positive s) with
  | Ok s' => m_evaluate_rd ar svd s x k (Some p) = m_evaluate_rd ar svd s' x k None /\
             m_fit_rd ar svd s x k (Some p) = m_fit_rd ar svd s' x k None
  | Raise e => m_evaluate_rd ar svd s x k (Some p) = Raise e /\ m_fit_rd ar svd s x k (Some p) = Raise e
  end.
Proof. intros. unfold m_evaluate_rd, m_fit_rd. destruct (matsubara_sampling_at _ _ _ _); cbn [bind]; auto. Qed.
Print Assumptions C93_matsubara_points.

(** The errors of the operations, whatever the order in which the library adds up
    products, with or without fused operations, and for both kinds of division. *)
Theorem C93_any_order : forall u eta rd, rounding u eta rd -> 0 <= u -> 0 <= eta ->
  forall N lo hi ar, rounded_arith rd ar -> fair_range u eta lo hi -> u <= 1 / 100 -> INR N * u <= 1 / 4 ->
  arith_near N (6 * INR N * u) (12 * INR N * eta) (9 * u) (2 * (eta / lo + eta)) lo hi ar.
Proof. exact rounded_near. Qed.
Print Assumptions C93_any_order.
(** For double precision. *)
Theorem C93_doubles : forall N lo hi ar, rounded_arith rnd64 ar -> INR N <= 2 ^ 50 ->
  / 2 ^ 400 <= lo -> lo <= hi -> hi <= 2 ^ 400 ->
  arith_near N (6 * INR N / 2 ^ 53) (12 * INR N * eta64) (9 / 2 ^ 53) (2 * (eta64 / lo + eta64)) lo hi ar.
Proof. exact double_arith_near. Qed.
Print Assumptions C93_doubles.

(** In exact arithmetic these are the functions of Model/Sampling.v, and an exact
    singular value decomposition has no errors. *)
Theorem C93_exact_arithmetic : forall svd,
  t_evaluate_rd exact_arith svd = t_evaluate svd /\ m_evaluate_rd exact_arith svd = m_evaluate svd /\
  t_fit_rd exact_arith svd = t_fit svd /\ m_fit_rd exact_arith svd = m_fit svd.
Proof. exact exact_arithmetic. Qed.
Print Assumptions C93_exact_arithmetic.
Theorem C93_exact_decomposition : forall A r lo hi, is_svd A r -> full_rank A -> List.length (r_s r) = mc A ->
  0 < lo <= hi -> (forall k, (k < mc A)%nat -> lo <= nth k (r_s r) 0 <= hi) ->
  decomposes A r 0 0 0 lo hi.
Proof. exact svd_decomposes. Qed.
Print Assumptions C93_exact_decomposition.

(** The hypotheses are met by sampling at two times in doubles, and by sampling at
    two frequencies with and without positive_only. *)
Example C93_tau_met : exists b s, built no_compute b /\ tau_sampling svd2 (sb_of_basis b) [0; 2] = Ok s /\
  let A := d_a (ts_matrix s) in
  rounded_arith rnd64 (some_arith rnd64) /\
  arith_near 2 (6 * INR 2 / 2 ^ 53) (12 * INR 2 * eta64) (9 / 2 ^ 53) (2 * (eta64 / 1 + eta64)) 1 2 (some_arith rnd64) /\
  decomposes A (svd2 A) 0 0 0 1 2 /\ small_fit (mc A) (6 * INR 2 / 2 ^ 53) (9 / 2 ^ 53) 0 0 /\
  (0 < mc A)%nat /\ (mr A <= 2)%nat /\ (mc A <= 2)%nat /\
  (forall k, (S k < mc A)%nat -> nth (S k) (r_s (svd2 A)) 0 <= nth k (r_s (svd2 A)) 0) /\
  is_largest (r_s (svd2 A)) (sqrt 2) /\ is_smallest_nonzero (r_s (svd2 A)) (sqrt 2) /\
  exists x w y, x = vector 2 (fun i => RtoC (INR i)) /\ t_fit_rd (some_arith rnd64) svd2 s x None None = Ok (w, y).
Proof. exact tau_round_example. Qed.
Example C93_matsubara_met : exists b s lo, built no_compute b /\ matsubara_sampling col_svd (sb_of_basis b) [0; 2]%Z false = Ok s /\
  let A := m_a (ms_matrix s) in
  arith_near 2 (6 * INR 2 * / 2 ^ 53) (12 * INR 2 * 0) (9 * / 2 ^ 53) (2 * (0 / lo + 0)) lo lo (some_arith scaled) /\
  decomposes A (col_svd A) 0 0 0 lo lo /\ small_fit (mc A) (6 * INR 2 * / 2 ^ 53) (9 * / 2 ^ 53) 0 0 /\
  (0 < mc A)%nat /\ (mr A <= 2)%nat /\ (mc A <= 2)%nat.
Proof. exact mats_round_example. Qed.
Example C93_positive_only_met : exists b s lo, built no_compute b /\ matsubara_sampling col_svd (sb_of_basis b) [0; 2]%Z true = Ok s /\
  let A := m_a (ms_matrix s) in let B := stacked A (zoff [0; 2]%Z) in
  arith_near 2 (6 * INR 2 * / 2 ^ 53) (12 * INR 2 * 0) (9 * / 2 ^ 53) (2 * (0 / lo + 0)) lo lo (some_arith scaled) /\
  decomposes B (col_svd B) 0 0 0 lo lo /\ real_decomposition B (col_svd B) /\ zero_row_real [0; 2]%Z A /\
  small_fit (mc A) (6 * INR 2 * / 2 ^ 53) (9 * / 2 ^ 53) 0 0 /\ (0 < mc A)%nat /\ (mr A <= 2)%nat /\ (mc A <= 2)%nat.
Proof. exact pos_round_example. Qed.
(** Sums of products may be taken in many ways. *)
Example C93_summation_orders : forall rd x y z, summed rd [x; y; z] (rd (x + rd (y + rd (z + 0)))) /\
  summed rd [x; y; z] (rd (rd x + rd (rd y + rd z))) /\ summed rd [x; y; z] (rd (rd (rd x + rd y) + rd z)) /\
  summed rd [x; y; z] (rd (rd (rd z + rd x) + rd y)).
Proof.
  intros rd x y z.
  assert (L : forall x y z, summed rd [x; y; z] (rd (rd (rd x + rd y) + rd z))).
  { clear. intros x y z. apply (summed_add rd [x; y] [z]); try discriminate; [|constructor]. apply (summed_add rd [x] [y]); try discriminate; constructor. }
  split; [exact (in_order_summed rd [x; y; z])|]. split; [exact (in_pairs_summed rd [x; y; z])|]. split; [apply L|].
  apply summed_order with [z; x; y]; [|apply L]. apply Permutation_sym, (Permutation_cons_append [x; y] z) || (eapply perm_trans; [apply perm_swap|apply perm_skip, perm_swap]).
Qed.
