(** C04, C53-C58: functions on arrays, and sampling.  [compute] is an arbitrary
    computation of the singular value expansion, [svd] an arbitrary function in
    place of numpy.linalg.svd; where its result matters, that is a hypothesis
    about the one matrix in question. *)
From Coq Require Import String ZArith Arith Bool Reals Lia Lra.
From Coquelicot Require Import Coquelicot.
From Coq Require Import List Sorted Permutation.
From Verif.Model Require Import Base Util Num Poly FT SVE Basis Kernel Augment NDArray Sampling DLR.
From Verif.Spec Require Import SUtil SGauss SPoly SFT SBasis SKernel SAugment SSampling SDLR.
From Verif.Proofs Require Import AugmentProps PointwiseFacts PointwiseMore DLRFacts SamplingProps SamplingClaims PointsFacts SVEPolicy SamplingExamples.
Import ListNotations.
Open Scope R_scope.
Notation length := List.length.

(** C04: uhat of a basis on an array of frequencies of any shape. *)
Theorem C04_uhat_on_arrays :
  forall compute b (x : nd Z), built compute b ->
  (is_ok (raveled (RtoC 0) (ft_call (buhat b)) x) <-> forall idx, valid_index (shp x) idx -> is_ok (ft_call (buhat b) [elt x idx])) /\
  forall y, raveled (RtoC 0) (ft_call (buhat b)) x = Ok y ->
    shp y = bsize b :: shp x /\
    forall l idx, (l < bsize b)%nat -> valid_index (shp x) idx ->
      elt y (l :: idx) = at_point (RtoC 0) (ft_call (buhat b)) (elt x idx) l.
Proof. intros compute b x Hb. exact (raveled_pointwise _ _ _ (uhat_pointwise compute b Hb) x). Qed.
Print Assumptions C04_uhat_on_arrays.

(** C04: the time functions of the DLR, with poles that are not all zero. *)
Theorem C04_dlr_u_on_arrays :
  forall f st beta poles m (x : nd xr), 0 < beta -> largest poles m -> m <> 0 -> tfun_ok f ->
  let u := taupoles_call f (TauPoles st beta poles m) in
  (is_ok (raveled 0 u x) <-> forall idx, valid_index (shp x) idx -> is_ok (u [elt x idx])) /\
  forall y, raveled 0 u x = Ok y ->
    shp y = length poles :: shp x /\
    forall l idx, (l < length poles)%nat -> valid_index (shp x) idx -> elt y (l :: idx) = at_point 0 u (elt x idx) l.
Proof. intros f st beta poles m x Hb Hm Hm0 Hf. exact (raveled_pointwise _ _ _ (proj1 (tp_pointwise st beta m poles f Hb Hm Hm0 Hf)) x). Qed.
Print Assumptions C04_dlr_u_on_arrays.

(** C04: the frequency functions of the DLR (None stands for NaN). *)
Theorem C04_dlr_uhat_on_arrays :
  forall u (x : nd R),
  exists y, raveled None (matspoles_call u) x = Ok y /\
    shp y = length (mp_poles u) :: shp x /\
    forall l idx, (l < length (mp_poles u))%nat -> valid_index (shp x) idx ->
      elt y (l :: idx) = at_point None (matspoles_call u) (elt x idx) l.
Proof.
  intros u x. destruct (raveled_pointwise _ _ _ (mp_pointwise u) x) as [H1 H2].
  destruct (proj2 H1) as [y E]; [intros idx _; eexists; reflexivity|]. exists y. split; [exact E|]. now apply H2.
Qed.
Print Assumptions C04_dlr_uhat_on_arrays.

(** C04: the asymptotic model; its result has the functions on the last axis. *)
Theorem C04_asymptotic_model_on_arrays :
  forall moments (x : nd Z),
  exists y, raveled_first (RtoC 0) (length moments) (power_giw moments) x = Ok y /\
    shp y = shp x ++ [length moments] /\
    forall idx l, valid_index (shp x) idx -> (l < length moments)%nat ->
      exists row, power_giw moments [elt x idx] = Ok [row] /\ nth_error row l = Some (elt y (idx ++ [l])).
Proof. exact power_arrays. Qed.
Print Assumptions C04_asymptotic_model_on_arrays.

(** Met by a basis of size 1 on a 2 x 1 array. *)
Example C04_hypotheses_met :
  exists b y, built no_compute b /\
    raveled (RtoC 0) (ft_call (buhat b)) (Nd [2; 1]%nat (fun idx => match idx with [1; 0]%nat => 2 | _ => 0 end)%Z) = Ok y /\
    shp y = [1; 2; 1]%nat.
Proof.
  destruct (mats_example false) as (b & s & M & Hb & _ & Hs & HM & _). exists b. unfold raveled.
  change (ravel _) with [0%Z; 2%Z]. rewrite HM. cbn [bind]. eexists. split; [exact Hb|]. split; [reflexivity|].
  cbn [reshape_rows shp]. f_equal. rewrite <- Hs. exact (pointwise_len _ _ _ _ (uhat_pointwise no_compute b Hb) HM).
Qed.

(** C53: the bases that sampling is used with evaluate pointwise, so that the
    theorems below apply to them. *)
Theorem C53_finite_temp_basis :
  forall compute b, built compute b ->
  pointwise (RtoC 0) (sb_u (sb_of_basis b)) (bsize b) /\ pointwise (RtoC 0) (sb_uhat (sb_of_basis b)) (bsize b).
Proof. intros compute b Hb. exact (conj (u_pointwise compute b Hb) (uhat_pointwise compute b Hb)). Qed.
Print Assumptions C53_finite_temp_basis.
Theorem C53_augmented_basis :
  forall compute a, built compute (abasis a) ->
  pointwise (RtoC 0) (sb_u (sb_of_aug true a)) (augsize a) /\ pointwise (RtoC 0) (sb_uhat (sb_of_aug true a)) (augsize a).
Proof. intros compute a Hb. exact (conj (augu_pointwise compute true a Hb) (auguhat_pointwise compute a Hb)). Qed.
Print Assumptions C53_augmented_basis.
Theorem C53_dlr_basis :
  forall compute svd f d, built compute (dl_basis d) -> dlr_built svd d -> tfun_ok f -> (exists w, In w (dl_poles d) /\ w <> 0) ->
  pointwise (RtoC 0) (sb_u (sb_of_dlr f d)) (length (dl_poles d)) /\
  pointwise (RtoC 0) (sb_uhat (sb_of_dlr f d)) (length (mp_poles (dl_uhat d))).
Proof. intros compute svd f d Hb Hd Hf Hp. exact (conj (dlru_pointwise compute svd f d Hb Hd Hf Hp) (dlruhat_pointwise f d)). Qed.
Print Assumptions C53_dlr_basis.

(** C53: evaluate(x, axis=k) of TauSampling gives the values of the expansions
    whose coefficients lie along axis k, at the sampling times. *)
Theorem C53_tau_evaluate :
  forall svd b L pts s, pointwise (RtoC 0) (sb_u b) L -> tau_sampling svd b pts = Ok s ->
  works_along_axis (fun x k => t_evaluate svd s x (Some k) None) L (length pts)
    (fun g i => expansion_at (sb_u b) L (nth i pts 0) g).
Proof. intros svd b L pts s HP Hs. exact (proj1 (tau_eval svd b L pts s HP Hs)). Qed.
Print Assumptions C53_tau_evaluate.

(** C53: the same for MatsubaraSampling, with and without positive_only. *)
Theorem C53_matsubara_evaluate :
  forall svd b L p pos s, pointwise (RtoC 0) (sb_uhat b) L -> matsubara_sampling svd b p pos = Ok s ->
  works_along_axis (fun x k => m_evaluate svd s x (Some k) None) L (length p)
    (fun g i => expansion_at (sb_uhat b) L (nth i p 0%Z) g).
Proof. intros svd b L p pos s HP Hs. exact (proj1 (mats_eval svd b L p pos s HP Hs)). Qed.
Print Assumptions C53_matsubara_evaluate.

(** C53, C55: fit(x, axis=k) of TauSampling gives, for each slice along axis k,
    the least-squares solution of least norm. *)
Theorem C53_C55_tau_fit :
  forall svd b pts s, tau_sampling svd b pts = Ok s ->
  let A := d_a (ts_matrix s) in
  is_svd A (svd A) -> nonzero A ->
  exists f, (forall x, least_squares A x (f x)) /\
  works_along_axis (fun x k => coeffs (t_fit svd s x (Some k) None)) (mr A) (mc A) f.
Proof. intros svd b pts s Hs A H1 H2. destruct (tau_fit svd b pts s Hs H1 H2) as (f & Hf & W & _). exists f. exact (conj Hf W). Qed.
Print Assumptions C53_C55_tau_fit.
Theorem C53_C55_matsubara_fit :
  forall svd b p s, matsubara_sampling svd b p false = Ok s ->
  let A := m_a (ms_matrix s) in
  is_svd A (svd A) -> nonzero A ->
  exists f, (forall x, least_squares A x (f x)) /\
  works_along_axis (fun x k => coeffs (m_fit svd s x (Some k) None)) (mr A) (mc A) f.
Proof. intros svd b p s Hs A H1 H2. destruct (mats_fit svd b p s Hs H1 H2) as (f & Hf & W & _). exists f. exact (conj Hf W). Qed.
Print Assumptions C53_C55_matsubara_fit.

(** The matrix A of these theorems: row i holds the values of all functions at
    the i-th sampling point. *)
Theorem C53_tau_matrix :
  forall svd b L pts s, pointwise (RtoC 0) (sb_u b) L -> tau_sampling svd b pts = Ok s ->
  let A := d_a (ts_matrix s) in
  mr A = length pts /\ mc A = L /\
  forall i l, (i < length pts)%nat -> (l < L)%nat -> me A i l = at_point (RtoC 0) (sb_u b) (nth i pts 0) l.
Proof. exact tau_matrix. Qed.
Print Assumptions C53_tau_matrix.
Theorem C53_matsubara_matrix :
  forall svd b L p pos s, pointwise (RtoC 0) (sb_uhat b) L -> matsubara_sampling svd b p pos = Ok s ->
  let A := m_a (ms_matrix s) in
  mr A = length p /\ mc A = L /\
  forall i l, (i < length p)%nat -> (l < L)%nat -> me A i l = at_point (RtoC 0) (sb_uhat b) (nth i p 0%Z) l.
Proof. exact mats_matrix. Qed.
Print Assumptions C53_matsubara_matrix.

(** A basis of two functions at two times, and one at two frequencies. *)
Example C53_hypotheses_met :
  (exists b s, built no_compute b /\ tau_sampling svd2 (sb_of_basis b) [0; 2] = Ok s /\
     let A := d_a (ts_matrix s) in is_svd A (svd2 A) /\ nonzero A /\ mr A = 2%nat /\ mc A = 2%nat) /\
  (exists b s, built no_compute b /\ matsubara_sampling col_svd (sb_of_basis b) [0; 2]%Z false = Ok s /\
     let A := m_a (ms_matrix s) in is_svd A (col_svd A) /\ nonzero A /\ mc A = 1%nat).
Proof.
  split.
  - destruct (tau_example "F" (or_introl eq_refl)) as (b & s & Hb & _ & _ & Hs & H1 & _ & H2 & H3 & H4). exists b, s. auto 7.
  - destruct (mats_example false) as (b & s & M & Hb & _ & _ & _ & Hs & HA & H1 & H2 & H3 & _). exists b, s. rewrite HA. auto 7.
Qed.

(** C54: without axis, evaluate and fit treat vectors along their axis and other
    arrays along the last but one. *)
Theorem C54_tau :
  forall svd b L pts s, pointwise (RtoC 0) (sb_u b) L -> tau_sampling svd b pts = Ok s ->
  default_axis (fun x k => t_evaluate svd s x k None) /\
  (is_svd (d_a (ts_matrix s)) (svd (d_a (ts_matrix s))) -> nonzero (d_a (ts_matrix s)) ->
   default_axis (fun x k => coeffs (t_fit svd s x k None))).
Proof.
  intros svd b L pts s HP Hs. split; [exact (proj2 (tau_eval svd b L pts s HP Hs))|]. intros H1 H2.
  destruct (tau_fit svd b pts s Hs H1 H2) as (f & _ & _ & D). exact D.
Qed.
Print Assumptions C54_tau.
Theorem C54_matsubara :
  forall svd b L p pos s, pointwise (RtoC 0) (sb_uhat b) L -> matsubara_sampling svd b p pos = Ok s ->
  let A := m_a (ms_matrix s) in
  default_axis (fun x k => m_evaluate svd s x k None) /\
  (pos = false -> is_svd A (svd A) -> nonzero A -> default_axis (fun x k => coeffs (m_fit svd s x k None))) /\
  (pos = true -> is_real_svd (stacked A (zoff p)) (svd (stacked A (zoff p))) -> nonzero A -> zero_row_real p A ->
   default_axis (fun x k => coeffs (m_fit svd s x k None))).
Proof.
  intros svd b L p pos s HP Hs A. split; [exact (proj2 (mats_eval svd b L p pos s HP Hs))|]. split.
  - intros -> H1 H2. destruct (mats_fit svd b p s Hs H1 H2) as (f & _ & _ & D). exact D.
  - intros -> H1 H2 H3. destruct (pos_fit svd b p s Hs H1 H2 H3) as (f & _ & _ & D). exact D.
Qed.
Print Assumptions C54_matsubara.

(** C54: for vectors this is the documented last axis. *)
Theorem C54_last_axis_of_vectors :
  forall svd b L pts s x, pointwise (RtoC 0) (sb_u b) L -> tau_sampling svd b pts = Ok s -> length (shp x) = 1%nat ->
  same_outcome (t_evaluate svd s x None None) (t_evaluate svd s x (Some (-1)%Z) None).
Proof.
  intros svd b L pts s x HP Hs. destruct (tau_eval svd b L pts s HP Hs) as [W D].
  exact (default_vector (fun x k => t_evaluate svd s x k None) _ _ _ x W D).
Qed.
Print Assumptions C54_last_axis_of_vectors.

(** C54: for other arrays it is not: an array with coefficients along its last
    axis is refused unless the last but one happens to have the same length. *)
Theorem C54_last_axis_refuted :
  forall svd b L pts s, pointwise (RtoC 0) (sb_u b) L -> tau_sampling svd b pts = Ok s ->
  forall x pre K, shp x = pre ++ [K; L] -> K <> L ->
  t_evaluate svd s x None None = Raise ValueError /\ is_ok (t_evaluate svd s x (Some (-1)%Z) None).
Proof.
  intros svd b L pts s HP Hs x pre K. destruct (tau_eval svd b L pts s HP Hs) as [W D].
  exact (default_not_last (fun x k => t_evaluate svd s x k None) _ _ _ x pre K W D).
Qed.
Print Assumptions C54_last_axis_refuted.

Example C54_hypotheses_met :
  exists b s, built no_compute b /\ pointwise (RtoC 0) (sb_u (sb_of_basis b)) 2 /\
    tau_sampling svd2 (sb_of_basis b) [0; 2] = Ok s /\ is_svd (d_a (ts_matrix s)) (svd2 (d_a (ts_matrix s))) /\ nonzero (d_a (ts_matrix s)).
Proof.
  destruct (tau_example "F" (or_introl eq_refl)) as (b & s & Hb & _ & Hn & Hs & H1 & _ & H2 & _). exists b, s.
  rewrite <- Hn at 1. pose proof (u_pointwise no_compute b Hb). auto 6.
Qed.

(** C55: fit undoes evaluate if the matrix has full column rank, and recovers the
    coefficients of any function in the span of the basis from its values. *)
Theorem C55_tau_recovers :
  forall svd b pts s, tau_sampling svd b pts = Ok s ->
  let A := d_a (ts_matrix s) in is_svd A (svd A) -> nonzero A -> full_rank A ->
  (forall g k y, t_evaluate svd s g k None = Ok y -> exists z, coeffs (t_fit svd s y k None) = Ok z /\ same_outcome (Ok z) (Ok g)) /\
  (forall L g, pointwise (RtoC 0) (sb_u b) L ->
     exists z, coeffs (t_fit svd s (vector (length pts) (fun i => expansion_at (sb_u b) L (nth i pts 0) g)) (Some 0%Z) None) = Ok z /\
               shp z = [L] /\ forall l, (l < L)%nat -> elt z [l] = g l).
Proof. exact tau_recovers. Qed.
Print Assumptions C55_tau_recovers.
Theorem C55_matsubara_recovers :
  forall svd b p s, matsubara_sampling svd b p false = Ok s ->
  let A := m_a (ms_matrix s) in is_svd A (svd A) -> nonzero A -> full_rank A ->
  (forall g k y, m_evaluate svd s g k None = Ok y -> exists z, coeffs (m_fit svd s y k None) = Ok z /\ same_outcome (Ok z) (Ok g)) /\
  (forall L g, pointwise (RtoC 0) (sb_uhat b) L ->
     exists z, coeffs (m_fit svd s (vector (length p) (fun i => expansion_at (sb_uhat b) L (nth i p 0%Z) g)) (Some 0%Z) None) = Ok z /\
               shp z = [L] /\ forall l, (l < L)%nat -> elt z [l] = g l).
Proof. exact mats_recovers. Qed.
Print Assumptions C55_matsubara_recovers.

Example C55_hypotheses_met :
  exists b s, built no_compute b /\ tau_sampling svd2 (sb_of_basis b) [0; 2] = Ok s /\
    let A := d_a (ts_matrix s) in is_svd A (svd2 A) /\ nonzero A /\ full_rank A /\ mc A = 2%nat.
Proof.
  destruct (tau_example "F" (or_introl eq_refl)) as (b & s & Hb & _ & _ & Hs & H1 & H0 & H2 & H3 & H4). exists b, s. auto 7.
Qed.

(** C56: with positive_only, the same among real coefficients. *)
Theorem C56_positive_fit :
  forall svd b p s, matsubara_sampling svd b p true = Ok s ->
  let A := m_a (ms_matrix s) in
  is_real_svd (stacked A (zoff p)) (svd (stacked A (zoff p))) -> nonzero A -> zero_row_real p A ->
  exists f, (forall x, real_least_squares A x (f x)) /\
  works_along_axis (fun x k => coeffs (m_fit svd s x (Some k) None)) (mr A) (mc A) f.
Proof. intros svd b p s Hs A H1 H2 H3. destruct (pos_fit svd b p s Hs H1 H2 H3) as (f & Hf & W & _). exists f. exact (conj Hf W). Qed.
Print Assumptions C56_positive_fit.
Theorem C56_positive_recovers :
  forall svd b p s, matsubara_sampling svd b p true = Ok s ->
  let A := m_a (ms_matrix s) in
  is_real_svd (stacked A (zoff p)) (svd (stacked A (zoff p))) -> nonzero A -> zero_row_real p A -> full_real_rank A ->
  (forall g k y, real_array g -> m_evaluate svd s g k None = Ok y ->
     exists z, coeffs (m_fit svd s y k None) = Ok z /\ same_outcome (Ok z) (Ok g)) /\
  (forall L g, pointwise (RtoC 0) (sb_uhat b) L -> real_vec L g ->
     exists z, coeffs (m_fit svd s (vector (length p) (fun i => expansion_at (sb_uhat b) L (nth i p 0%Z) g)) (Some 0%Z) None) = Ok z /\
               shp z = [L] /\ forall l, (l < L)%nat -> elt z [l] = g l).
Proof. exact pos_recovers. Qed.
Print Assumptions C56_positive_recovers.

(** C56: the condition on the zero frequency holds for every basis. *)
Theorem C56_zero_frequency_row :
  forall compute svd b p pos s, built compute b -> matsubara_sampling svd (sb_of_basis b) p pos = Ok s ->
  zero_row_real p (m_a (ms_matrix s)).
Proof. exact basis_zero_row. Qed.
Print Assumptions C56_zero_frequency_row.

Example C56_hypotheses_met :
  exists b s, built no_compute b /\ matsubara_sampling col_svd (sb_of_basis b) [0; 2]%Z true = Ok s /\
    let A := m_a (ms_matrix s) in
    is_real_svd (stacked A 1) (col_svd (stacked A 1)) /\ nonzero A /\ zero_row_real [0; 2]%Z A /\ full_real_rank A /\ mc A = 1%nat.
Proof.
  destruct (mats_example true) as (b & s & M & Hb & _ & _ & _ & Hs & HA & H1 & H2 & _ & _ & H3 & H4 & H5). exists b, s. rewrite HA. auto 8.
Qed.

(** C57: evaluate with points of TauSampling: entry i is the value at p[i]. *)
Theorem C57_tau_points :
  forall svd s L (p : nd R) n s', shp p = [n] -> pointwise (RtoC 0) (sb_u (ts_basis s)) L ->
  tau_sampling_at svd (ts_basis s) p = Ok s' ->
  works_along_axis (fun x k => t_evaluate svd s x (Some k) (Some p)) L n
    (fun g i => expansion_at (sb_u (ts_basis s)) L (elt p [i]) g).
Proof. exact tau_points. Qed.
Print Assumptions C57_tau_points.
Theorem C57_tau_points_accepted :
  forall svd b L (p : nd R) n, shp p = [n] -> pointwise (RtoC 0) (sb_u b) L ->
  (is_ok (tau_sampling_at svd b p) <-> forall i, (i < n)%nat -> is_ok (sb_u b [elt p [i]])).
Proof. exact tau_points_ok. Qed.
Print Assumptions C57_tau_points_accepted.

(** C57: evaluate with points of MatsubaraSampling: entry i is the value at the
    i-th smallest point. *)
Theorem C57_matsubara_points :
  forall svd s L p ns s', pointwise (RtoC 0) (sb_uhat (ms_basis s)) L ->
  check_reduced_matsubara p None = Ok ns ->
  matsubara_sampling_at svd (ms_basis s) p (ms_positive s) = Ok s' ->
  exists q, Permutation ns q /\ StronglySorted Z.le q /\
  works_along_axis (fun x k => m_evaluate svd s x (Some k) (Some p)) L (length ns)
    (fun g i => expansion_at (sb_uhat (ms_basis s)) L (nth i q 0%Z) g).
Proof. exact mats_points_sorted. Qed.
Print Assumptions C57_matsubara_points.
Theorem C57_matsubara_points_accepted :
  forall svd b L p, pointwise (RtoC 0) (sb_uhat b) L ->
  (is_ok (matsubara_sampling_at svd b p false) <->
   exists ns, check_reduced_matsubara p None = Ok ns /\ forall n, In n ns -> is_ok (sb_uhat b [n])).
Proof. exact mats_points_ok. Qed.
Print Assumptions C57_matsubara_points_accepted.

(** C57: entry i is the value at p[i], for every basis, iff p is sorted. *)
Theorem C57_given_order_iff_sorted :
  forall svd p,
  (forall b L s, pointwise (RtoC 0) (sb_uhat b) L -> matsubara_sampling svd b [] false = Ok s ->
     (forall n, In n p -> is_ok (sb_uhat b [n])) ->
     forall g, exists y, m_evaluate svd s (vector L g) (Some 0%Z) (Some (IntArr p)) = Ok y /\ shp y = [length p] /\
       forall i, (i < length p)%nat -> elt y [i] = expansion_at (sb_uhat b) L (nth i p 0%Z) g) <->
  StronglySorted Z.le p.
Proof. exact sorted_iff. Qed.
Print Assumptions C57_given_order_iff_sorted.

(** C57: neither evaluate nor fit depends on the order in which the frequencies
    are given, and fit takes its data to be in increasing order. *)
Theorem C57_order_ignored :
  forall svd s x k p p', Permutation p p' ->
  m_evaluate svd s x k (Some (IntArr p)) = m_evaluate svd s x k (Some (IntArr p')) /\
  m_fit svd s x k (Some (IntArr p)) = m_fit svd s x k (Some (IntArr p')).
Proof. exact order_ignored. Qed.
Print Assumptions C57_order_ignored.
Theorem C57_fit_points :
  forall svd s L p s' ns, pointwise (RtoC 0) (sb_uhat (ms_basis s)) L -> ms_positive s = false ->
  check_reduced_matsubara p None = Ok ns -> matsubara_sampling_at svd (ms_basis s) p false = Ok s' ->
  let A := m_a (ms_matrix s') in is_svd A (svd A) -> nonzero A ->
  exists q, Permutation ns q /\ StronglySorted Z.le q /\
  mr A = length ns /\ mc A = L /\
  (forall i l, (i < length ns)%nat -> (l < L)%nat -> me A i l = at_point (RtoC 0) (sb_uhat (ms_basis s)) (nth i q 0%Z) l) /\
  exists f, (forall x, least_squares A x (f x)) /\
    works_along_axis (fun x k => coeffs (m_fit svd s x (Some k) (Some p))) (mr A) (mc A) f.
Proof. exact mats_fit_points_sorted. Qed.
Print Assumptions C57_fit_points.

Example C57_hypotheses_met :
  exists b s s', built no_compute b /\ matsubara_sampling col_svd (sb_of_basis b) [0; 2]%Z false = Ok s /\
    matsubara_sampling_at col_svd (ms_basis s) (IntArr [2; 0]%Z) false = Ok s' /\ ms_points s' = [0; 2]%Z /\
    let A := m_a (ms_matrix s') in is_svd A (col_svd A) /\ nonzero A.
Proof.
  destruct (mats_example false) as (b & s & M & Hb & _ & _ & HM & Hs & HA & H1 & H2 & H3 & _). exists b, s, s.
  assert (E : ms_basis s = sb_of_basis b /\ ms_points s = [0; 2]%Z) by (destruct (mats_inv _ _ _ _ _ Hs) as (? & _ & ? & ? & _); auto).
  destruct E as [E1 E2]. rewrite E1, E2, HA. unfold matsubara_sampling_at. rewrite int_reduced. cbn [bind].
  change (zsort [2; 0]%Z) with [0; 2]%Z. auto 8.
Qed.

(** C58: when fit warns. *)
Theorem C58_tau_warning :
  forall svd b pts s x k w y, tau_sampling svd b pts = Ok s ->
  let A := d_a (ts_matrix s) in is_svd A (svd A) -> t_fit svd s x k None = Ok (w, y) ->
  (w = true <-> sb_well b = true /\
     exists smax smin, is_largest (r_s (svd A)) smax /\ is_smallest_nonzero (r_s (svd A)) smin /\ 10 ^ 8 < smax / smin).
Proof. exact tau_warns. Qed.
Print Assumptions C58_tau_warning.
Theorem C58_matsubara_warning :
  forall svd b p s x k w y, matsubara_sampling svd b p false = Ok s ->
  let A := m_a (ms_matrix s) in is_svd A (svd A) -> m_fit svd s x k None = Ok (w, y) ->
  (w = true <-> sb_well b = true /\
     exists smax smin, is_largest (r_s (svd A)) smax /\ is_smallest_nonzero (r_s (svd A)) smin /\ 10 ^ 8 < smax / smin).
Proof. exact mats_warns. Qed.
Print Assumptions C58_matsubara_warning.
Theorem C58_positive_warning :
  forall svd b p s x k w y, matsubara_sampling svd b p true = Ok s ->
  let A := stacked (m_a (ms_matrix s)) (zoff p) in is_real_svd A (svd A) -> m_fit svd s x k None = Ok (w, y) ->
  (w = true <-> sb_well b = true /\
     exists smax smin, is_largest (r_s (svd A)) smax /\ is_smallest_nonzero (r_s (svd A)) smin /\ 10 ^ 8 < smax / smin).
Proof. exact pos_warns. Qed.
Print Assumptions C58_positive_warning.

(** C58: if all singular values vanish there is no condition number. *)
Theorem C58_no_singular_value :
  forall svd b x k, sb_well b = true ->
  (forall pts s, tau_sampling svd b pts = Ok s -> Forall (fun x => x = 0) (r_s (svd (d_a (ts_matrix s)))) ->
     t_fit svd s x k None = Raise IndexError) /\
  (forall p s, matsubara_sampling svd b p false = Ok s -> Forall (fun x => x = 0) (r_s (svd (m_a (ms_matrix s)))) ->
     m_fit svd s x k None = Raise IndexError).
Proof.
  intros svd b x k Hw. split; [intros pts s Hs; exact (tau_all_zero svd b pts s x k Hs Hw)|].
  intros p s Hs. exact (mats_all_zero svd b p s x k Hs Hw).
Qed.
Print Assumptions C58_no_singular_value.

(** C58: which bases count as well-conditioned. *)
Theorem C58_well_conditioned :
  (forall b, sb_well (sb_of_basis b) = true) /\
  (forall npc a, sb_well (sb_of_aug npc a) = true <-> exists beta, aaugs a = [MatsubaraConst beta]) /\
  (forall f d, sb_well (sb_of_dlr f d) = false).
Proof. split; [reflexivity|]. split; [intros npc a; exact (aug_conditioned a)|reflexivity]. Qed.
Print Assumptions C58_well_conditioned.

(** Both answers occur. *)
Example C58_both_answers :
  (exists b s x w y, built no_compute b /\ tau_sampling svd2 (sb_of_basis b) [0; 2] = Ok s /\ is_svd (d_a (ts_matrix s)) (svd2 (d_a (ts_matrix s))) /\
     t_fit svd2 s x (Some 0%Z) None = Ok (w, y) /\ w = false) /\
  (exists s x y, tau_sampling diag_svd two_basis [0; 1] = Ok s /\ is_svd (d_a (ts_matrix s)) (diag_svd (d_a (ts_matrix s))) /\
     t_fit diag_svd s x (Some 0%Z) None = Ok (true, y)).
Proof. exact warning_examples. Qed.
