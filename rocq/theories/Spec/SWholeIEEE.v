(** Specification vocabulary for bases computed from scratch in rounded arithmetic. *)
From Coq Require Import String ZArith Arith Reals.
From Coq Require Import List.
From Verif.Model Require Import Base Util Num Poly FT SVE Kernel Gauss GaussIEEE KernelIEEE Compute Basis.
From Verif.Spec Require Import SPoly SSVE SBasis SCompute SSVEIEEE.
Import ListNotations.
Open Scope R_scope.

(** Every decomposition that sve.compute can ask for has as many vectors as values,
    in nonincreasing order and not negative, and at least one. *)
Definition decompositions_shaped (rd : dtype -> R -> R) (f : dtype -> tfun) (legendre : dtype -> nat -> res rule) (run : svd_alg -> matrix -> Z -> usv) (K : kernel) : Prop :=
  forall t n q', legendre t n = Ok q' -> (0 < n)%nat /\
    (forall M alg h, sampling_matrix_rd (rd t) (kernel_matrix_rd (rd t) (f t) K) q' (segments_x K) (segments_y K) = Ok M -> usv_shaped (run alg M h)) /\
    (forall s Ks M alg h, s = 1 \/ s = -1 -> get_symmetrized K s = Ok Ks ->
       sampling_matrix_rd (rd t) (reduced_matrix_rd (rd t) (f t) Ks) q' (half (segments_x K)) (half (segments_y K)) = Ok M -> usv_shaped (run alg M h)).

(** The smallest values kept do not come near the smallest numbers: for the given
    cutoff, or for the default one in each data type that can be in use. *)
Definition fair_cutoff (have_xprec : bool) (eta dd : R) (cutoff : option xr) (work : option dtype) (s0 : R) : Prop :=
  (forall x, cutoff = Some (Fin x) -> 0 <= x <= 1 /\ 1000 * eta <= x * s0) /\
  (cutoff = None -> forall t, t = Float64 \/ (have_xprec = true /\ t = DDouble) \/ work = Some t ->
     0 <= default_cutoff dd t <= 1 /\ 1000 * eta <= default_cutoff dd t * s0).

(** [b0] is what exact arithmetic makes of the polynomials of the expansion [b] was made
    of, with as many functions and the same power of omega taken out of the kernel. *)
Definition exact_version (compute : kern -> option R -> res sve_result) (b b0 : basis) : Prop :=
  basis_init compute (bstat b) (bbeta b) (bwmax b) (Some 0) (Some (PyInt (Z.of_nat (List.length (bs b)))))
    (Some (Kern (Some (bbeta b * bwmax b)) (kyp (bkernel b)))) (Some (ideal_sve (bsve b))) = Ok b0.
