(** C82: times and frequencies describe the same functions. *)
From Coq Require Import String ZArith Arith Bool Reals.
From Coquelicot Require Import Coquelicot.
From Coq Require Import List.
From Verif.Model Require Import Base Util Num Poly FT SVE Basis Augment Kernel NDArray Sampling DLR.
From Verif.Spec Require Import SUtil SPoly SFT SSVE SBasis SKernel SAugment SSampling SDLR SDefaults STransform.
From Verif.Proofs Require Import SVEPolicy BasisPhys PointwiseFacts PointwiseMore SamplingClaims SamplingExamples TransformFacts TransformBases TransformExamples.
Import ListNotations.
Open Scope R_scope.
Notation length := List.length.

(** C82: uhat is u in frequency, for a basis, below the frequency from which the
    asymptotic model is used. *)
Theorem C82_finite_temp_basis :
  forall compute b lam n, built compute b -> klam (bkernel b) = Some lam -> allowed b n -> Rabs (IZR n) < 40 * lam ->
  transforms (bbeta b) (sb_of_basis b) (bsize b) n.
Proof. exact basis_transforms. Qed.
Print Assumptions C82_finite_temp_basis.

(** C82: the same for a basis with constant and linear functions added. *)
Theorem C82_augmented_basis :
  forall compute a lam n, built compute (abasis a) -> klam (bkernel (abasis a)) = Some lam ->
  (forall f, In f (aaugs a) -> tau_aug f /\ aug_beta f = bbeta (abasis a)) ->
  allowed (abasis a) n -> Z.even n = true -> Rabs (IZR n) < 40 * lam ->
  transforms (bbeta (abasis a)) (sb_of_aug true a) (augsize a) n.
Proof. exact aug_transforms. Qed.
Print Assumptions C82_augmented_basis.

(** C82: the same for the discrete Lehmann representation, at every frequency. *)
Theorem C82_dlr :
  forall compute svd f d n, built compute (dl_basis d) -> dlr_built svd d -> tfun_ok f ->
  (exists w, In w (dl_poles d) /\ w <> 0) -> allowed (dl_basis d) n -> n <> 0%Z \/ ~ In 0 (dl_poles d) ->
  transforms (bbeta (dl_basis d)) (sb_of_dlr f d) (length (dl_poles d)) n.
Proof. exact dlr_transforms. Qed.
Print Assumptions C82_dlr.

Example C82_bases_met :
  (exists b, built no_compute b /\ klam (bkernel b) = Some (2 * 3) /\ allowed b 2%Z /\ Rabs (IZR 2) < 40 * (2 * 3) /\
     forall f, In f [TauConst 2; TauLinear 2] -> tau_aug f /\ aug_beta f = bbeta b) /\
  (exists f d n, built no_compute (dl_basis d) /\ dlr_built col_svd d /\ tfun_ok f /\ (exists w, In w (dl_poles d) /\ w <> 0) /\
     allowed (dl_basis d) n /\ n <> 0%Z).
Proof.
  split; [|exact dlr_case]. destruct basis_case as (b & H1 & H2 & H3 & H4 & H5 & _). exists b. rewrite H5.
  repeat (split; [assumption|]). intros f [<-|[<-|[]]]; split; reflexivity || exact I.
Qed.

(** C82: both sampling objects of any such basis evaluate the same functions: one
    at the times, the other at the frequencies. *)
Theorem C82_evaluate :
  forall svd svd' beta b L pts ns pos st sm,
  pointwise (RtoC 0) (sb_u b) L -> pointwise (RtoC 0) (sb_uhat b) L -> Forall (transforms beta b L) ns ->
  tau_sampling svd b pts = Ok st -> matsubara_sampling svd' b ns pos = Ok sm ->
  forall g a k, axis_of (length (shp g)) k = Some a -> nth a (shp g) 0%nat = L ->
  (exists x, t_evaluate svd st g (Some k) None = Ok x /\ time_values b L a pts g x) /\
  (exists x, m_evaluate svd' sm g (Some k) None = Ok x /\ frequency_values beta b L a ns g x).
Proof.
  intros svd svd' beta b L pts ns pos st sm Hu Hh HT Ht Hm g a k Ea HL.
  exact (conj (tau_evaluates svd b L pts Hu st Ht g a k Ea HL) (freq_evaluates svd' beta b L ns Hh HT pos sm Hm g a k Ea HL)).
Qed.
Print Assumptions C82_evaluate.

(** C82: fitting values in time and evaluating in frequency transforms them. *)
Theorem C82_time_to_frequency :
  forall svd svd' beta b L pts ns,
  pointwise (RtoC 0) (sb_u b) L -> pointwise (RtoC 0) (sb_uhat b) L -> Forall (transforms beta b L) ns ->
  forall st pos sm, tau_sampling svd b pts = Ok st -> matsubara_sampling svd' b ns pos = Ok sm ->
  let A := d_a (ts_matrix st) in is_svd A (svd A) -> nonzero A -> full_rank A ->
  forall g x a k, axis_of (length (shp g)) k = Some a -> nth a (shp g) 0%nat = L -> time_values b L a pts g x ->
  exists c y, coeffs (t_fit svd st x (Some k) None) = Ok c /\ m_evaluate svd' sm c (Some k) None = Ok y /\
    frequency_values beta b L a ns g y.
Proof. exact time_to_frequency. Qed.
Print Assumptions C82_time_to_frequency.

(** C82: and back. *)
Theorem C82_frequency_to_time :
  forall svd svd' beta b L pts ns,
  pointwise (RtoC 0) (sb_u b) L -> pointwise (RtoC 0) (sb_uhat b) L -> Forall (transforms beta b L) ns ->
  forall st sm, tau_sampling svd b pts = Ok st -> matsubara_sampling svd' b ns false = Ok sm ->
  let A := m_a (ms_matrix sm) in is_svd A (svd' A) -> nonzero A -> full_rank A ->
  forall g x a k, axis_of (length (shp g)) k = Some a -> nth a (shp g) 0%nat = L -> frequency_values beta b L a ns g x ->
  exists c y, coeffs (m_fit svd' sm x (Some k) None) = Ok c /\ t_evaluate svd st c (Some k) None = Ok y /\
    time_values b L a pts g y.
Proof. exact frequency_to_time. Qed.
Print Assumptions C82_frequency_to_time.

(** C82: back from nonnegative frequencies, for real functions. *)
Theorem C82_positive_to_time :
  forall svd svd' beta b L pts ns,
  pointwise (RtoC 0) (sb_u b) L -> pointwise (RtoC 0) (sb_uhat b) L -> Forall (transforms beta b L) ns ->
  forall st sm, tau_sampling svd b pts = Ok st -> matsubara_sampling svd' b ns true = Ok sm ->
  let A := m_a (ms_matrix sm) in
  is_real_svd (stacked A (zoff ns)) (svd' (stacked A (zoff ns))) -> nonzero A -> zero_row_real ns A -> full_real_rank A ->
  forall g x a k, axis_of (length (shp g)) k = Some a -> nth a (shp g) 0%nat = L -> real_array g ->
  frequency_values beta b L a ns g x ->
  exists c y, coeffs (m_fit svd' sm x (Some k) None) = Ok c /\ t_evaluate svd st c (Some k) None = Ok y /\
    time_values b L a pts g y.
Proof. exact positive_to_time. Qed.
Print Assumptions C82_positive_to_time.

(** C82: the round trips for a FiniteTempBasis, from its construction alone. *)
Theorem C82_basis_time_to_frequency :
  forall compute svd svd' b lam pts ns pos st sm, built compute b -> klam (bkernel b) = Some lam ->
  tau_sampling svd (sb_of_basis b) pts = Ok st -> matsubara_sampling svd' (sb_of_basis b) ns pos = Ok sm ->
  Forall (fun n => Rabs (IZR n) < 40 * lam) ns ->
  let A := d_a (ts_matrix st) in is_svd A (svd A) -> nonzero A -> full_rank A ->
  forall g x a k, axis_of (length (shp g)) k = Some a -> nth a (shp g) 0%nat = bsize b ->
  time_values (sb_of_basis b) (bsize b) a pts g x ->
  exists c y, coeffs (t_fit svd st x (Some k) None) = Ok c /\ m_evaluate svd' sm c (Some k) None = Ok y /\
    frequency_values (bbeta b) (sb_of_basis b) (bsize b) a ns g y.
Proof.
  intros compute svd svd' b lam pts ns pos st sm Hb Hl Ht Hm HF.
  exact (time_to_frequency svd svd' (bbeta b) (sb_of_basis b) (bsize b) pts ns (u_pointwise compute b Hb) (uhat_pointwise compute b Hb)
           (basis_all compute svd' b lam ns pos sm Hb Hl Hm HF) st pos sm Ht Hm).
Qed.
Print Assumptions C82_basis_time_to_frequency.
Theorem C82_basis_frequency_to_time :
  forall compute svd svd' b lam pts ns st sm, built compute b -> klam (bkernel b) = Some lam ->
  tau_sampling svd (sb_of_basis b) pts = Ok st -> matsubara_sampling svd' (sb_of_basis b) ns false = Ok sm ->
  Forall (fun n => Rabs (IZR n) < 40 * lam) ns ->
  let A := m_a (ms_matrix sm) in is_svd A (svd' A) -> nonzero A -> full_rank A ->
  forall g x a k, axis_of (length (shp g)) k = Some a -> nth a (shp g) 0%nat = bsize b ->
  frequency_values (bbeta b) (sb_of_basis b) (bsize b) a ns g x ->
  exists c y, coeffs (m_fit svd' sm x (Some k) None) = Ok c /\ t_evaluate svd st c (Some k) None = Ok y /\
    time_values (sb_of_basis b) (bsize b) a pts g y.
Proof.
  intros compute svd svd' b lam pts ns st sm Hb Hl Ht Hm HF.
  exact (frequency_to_time svd svd' (bbeta b) (sb_of_basis b) (bsize b) pts ns (u_pointwise compute b Hb) (uhat_pointwise compute b Hb)
           (basis_all compute svd' b lam ns false sm Hb Hl Hm HF) st sm Ht Hm).
Qed.
Print Assumptions C82_basis_frequency_to_time.
Theorem C82_basis_positive_to_time :
  forall compute svd svd' b lam pts ns st sm, built compute b -> klam (bkernel b) = Some lam ->
  tau_sampling svd (sb_of_basis b) pts = Ok st -> matsubara_sampling svd' (sb_of_basis b) ns true = Ok sm ->
  Forall (fun n => Rabs (IZR n) < 40 * lam) ns ->
  let A := m_a (ms_matrix sm) in
  is_real_svd (stacked A (zoff ns)) (svd' (stacked A (zoff ns))) -> nonzero A -> full_real_rank A ->
  forall g x a k, axis_of (length (shp g)) k = Some a -> nth a (shp g) 0%nat = bsize b -> real_array g ->
  frequency_values (bbeta b) (sb_of_basis b) (bsize b) a ns g x ->
  exists c y, coeffs (m_fit svd' sm x (Some k) None) = Ok c /\ t_evaluate svd st c (Some k) None = Ok y /\
    time_values (sb_of_basis b) (bsize b) a pts g y.
Proof.
  intros compute svd svd' b lam pts ns st sm Hb Hl Ht Hm HF A H1 H2 H3.
  exact (positive_to_time svd svd' (bbeta b) (sb_of_basis b) (bsize b) pts ns (u_pointwise compute b Hb) (uhat_pointwise compute b Hb)
           (basis_all compute svd' b lam ns true sm Hb Hl Hm HF) st sm Ht Hm H1 H2 (basis_zero_row compute svd' b ns true sm Hb Hm) H3).
Qed.
Print Assumptions C82_basis_positive_to_time.

(** Two functions at two times, to one frequency; one function at two frequencies,
    to one time. *)
Example C82_hypotheses_met :
  (exists b st sm lam, built no_compute b /\ klam (bkernel b) = Some lam /\ bsize b = 2%nat /\
     tau_sampling svd2 (sb_of_basis b) [0; 2] = Ok st /\ matsubara_sampling svd2 (sb_of_basis b) [0%Z] false = Ok sm /\
     Forall (fun n => Rabs (IZR n) < 40 * lam) [0%Z] /\
     let A := d_a (ts_matrix st) in is_svd A (svd2 A) /\ nonzero A /\ full_rank A) /\
  (forall pos, exists b st sm, built no_compute b /\ klam (bkernel b) = Some (2 * 3) /\ bsize b = 1%nat /\
     tau_sampling col_svd (sb_of_basis b) [1 / 2] = Ok st /\ matsubara_sampling col_svd (sb_of_basis b) [0; 2]%Z pos = Ok sm /\
     Forall (fun n => Rabs (IZR n) < 40 * (2 * 3)) [0; 2]%Z /\
     let A := m_a (ms_matrix sm) in is_svd A (col_svd A) /\ nonzero A /\ full_rank A /\
       is_real_svd (stacked A (zoff [0; 2]%Z)) (col_svd (stacked A (zoff [0; 2]%Z))) /\ full_real_rank A).
Proof. exact (conj forth_case back_case). Qed.
