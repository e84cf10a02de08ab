(** C41, C42, C43: gauge, merging of even and odd parts, sampling. *)
From Coq Require Import String ZArith Arith Bool Reals Lra Lia.
From Coquelicot Require Import Coquelicot.
From Coq Require Import List Sorting.Sorted Sorting.Permutation.
From Verif.Model Require Import Base Num Gauss Poly SVE Compute.
From Verif.Spec Require Import SGauss SPoly SFT SSVE SBasis SKernel SCompute.
From Verif.Proofs Require Import ComputePost ComputeSampling ComputeMerge ComputeMerged ComputeExamples ComputeTheorems.
Import ListNotations.
Open Scope R_scope.
Notation length := List.length.

(** C41: every left function with a nonzero value at 1 becomes positive there and
    every product is unchanged; a left function that vanishes at 1 is lost. *)
Theorem C41_gauge :
  forall u v cu cv, fresh u -> fresh v -> length (vcols u) = length (vcols v) ->
  gxmin (vgeom u) <= 1 <= gxmax (vgeom u) -> canonicalize u v = Ok (cu, cv) ->
  length cu = length (vcols u) /\ length cv = length (vcols v) /\
  forall l f h, represents u l f -> represents v l h ->
    (f 1 <> 0 -> exists p q f' h', nth_error cu l = Some (Some p) /\ nth_error cv l = Some q /\
       represents (VPoly (vgeom u) [p]) 0 f' /\ represents (VPoly (vgeom v) [q]) 0 h' /\
       0 < f' 1 /\ forall x y, f' x * h' y = f x * h y) /\
    (f 1 = 0 -> nth_error cu l = Some None).
Proof. exact gauge_fixed. Qed.
Print Assumptions C41_gauge.

(** C41: it is defined if and only if 1 belongs to the interval. *)
Theorem C41_defined :
  forall u v, fresh u ->
  (gxmin (vgeom u) <= 1 <= gxmax (vgeom u) -> exists c, canonicalize u v = Ok c) /\
  ((1 < gxmin (vgeom u) \/ gxmax (vgeom u) < 1) -> canonicalize u v = Raise ValueError).
Proof. exact canonicalize_defined. Qed.
Print Assumptions C41_defined.

(** The functions 1 and sqrt(3) x on [0, 1] can be canonicalised. *)
Example C41_gauge_nonvacuous :
  let u := VPoly exg [exe; exo] in
  fresh u /\ gxmin (vgeom u) <= 1 <= gxmax (vgeom u) /\
  represents u 0 (fun _ => 1) /\ represents u 1 (fun x => sqrt 3 * x) /\ exists c, canonicalize u u = Ok c.
Proof. exact gauge_example. Qed.

(** C42: merging succeeds and gives an expansion on [-1, 1] with the singular
    values of both parts in non-increasing order. *)
Theorem C42_sorted :
  forall argsort eps n hx hy even odd, half_edges hx -> half_edges hy ->
  sve_on n hx hy even -> sve_on n hx hy odd ->
  sorts (ss even ++ ss odd) (argsort (ss even ++ ss odd)) ->
  exists r, merge argsort eps (mirrored hx) (mirrored hy) even odd = Ok r /\
    sve_on n (mirrored hx) (mirrored hy) r /\ seps r = Some eps /\
    gxmin (vgeom (su r)) = -1 /\ gxmax (vgeom (su r)) = 1 /\
    gxmin (vgeom (sv r)) = -1 /\ gxmax (vgeom (sv r)) = 1 /\
    nonincreasing (ss r) /\ Permutation (ss r) (ss even ++ ss odd).
Proof. exact merge_sorted. Qed.
Print Assumptions C42_sorted.

(** C42: every function has the parity stored with it, and the left and right
    functions of a pair have the same parity. *)
Theorem C42_parity :
  forall argsort eps n hx hy even odd r, half_edges hx -> half_edges hy ->
  sve_on n hx hy even -> sve_on n hx hy odd ->
  sorts (ss even ++ ss odd) (argsort (ss even ++ ss odd)) ->
  merge argsort eps (mirrored hx) (mirrored hy) even odd = Ok r ->
  forall l p q, nth_error (vcols (su r)) l = Some p -> nth_error (vcols (sv r)) l = Some q ->
    (csym p = 1 \/ csym p = -1) /\ csym q = csym p /\
    has_parity (vgeom (su r)) p (csym p) /\ has_parity (vgeom (sv r)) q (csym q).
Proof. exact merge_parity. Qed.
Print Assumptions C42_parity.

(** C42: orthonormality is preserved, and so is the gauge. *)
Theorem C42_orthonormal :
  forall argsort eps n hx hy even odd r, half_edges hx -> half_edges hy ->
  sve_on n hx hy even -> sve_on n hx hy odd ->
  sorts (ss even ++ ss odd) (argsort (ss even ++ ss odd)) ->
  merge argsort eps (mirrored hx) (mirrored hy) even odd = Ok r ->
  (orthonormal_functions (su even) -> orthonormal_functions (su odd) -> orthonormal_functions (su r)) /\
  (orthonormal_functions (sv even) -> orthonormal_functions (sv odd) -> orthonormal_functions (sv r)) /\
  ((forall l f, represents (su even) l f -> 0 < f 1) -> (forall l f, represents (su odd) l f -> 0 < f 1) ->
   forall l f, represents (su r) l f -> 0 < f 1).
Proof. exact merge_orthonormal. Qed.
Print Assumptions C42_orthonormal.

(** C42: if the even and odd expansions are within e of K(x,y) + K(x,-y) and
    K(x,y) - K(x,-y) (e = 0: exact), the merged one is within e of the
    centrosymmetric K, at every pair of points without reflected knots. *)
Theorem C42_reconstructs :
  forall argsort eps n hx hy even odd r, half_edges hx -> half_edges hy ->
  sve_on n hx hy even -> sve_on n hx hy odd ->
  sorts (ss even ++ ss odd) (argsort (ss even ++ ss odd)) ->
  merge argsort eps (mirrored hx) (mirrored hy) even odd = Ok r ->
  forall (k : R -> R -> R) e,
  (forall x y, -1 <= x <= 1 -> -1 <= y <= 1 -> k (- x) (- y) = k x y) ->
  (forall x y, 0 <= x <= 1 -> 0 <= y <= 1 -> within_at e even (fun x y => k x y + k x (- y)) x y) ->
  (forall x y, 0 <= x <= 1 -> 0 <= y <= 1 -> within_at e odd (fun x y => k x y - k x (- y)) x y) ->
  forall x y, -1 <= x <= 1 -> -1 <= y <= 1 ->
    (0 <= x \/ ~ In (- x) hx) -> (0 <= y \/ ~ In (- y) hy) -> within_at e r k x y.
Proof. exact merge_reconstructs. Qed.
Print Assumptions C42_reconstructs.

(** C42: if K is continuous in each variable, this holds on all of [-1, 1]^2. *)
Theorem C42_reconstructs_everywhere :
  forall argsort eps n hx hy even odd r, half_edges hx -> half_edges hy ->
  sve_on n hx hy even -> sve_on n hx hy odd ->
  sorts (ss even ++ ss odd) (argsort (ss even ++ ss odd)) ->
  merge argsort eps (mirrored hx) (mirrored hy) even odd = Ok r ->
  forall (k : R -> R -> R) e,
  (forall x y, -1 <= x <= 1 -> -1 <= y <= 1 -> k (- x) (- y) = k x y) ->
  (forall x y, 0 <= x <= 1 -> 0 <= y <= 1 -> within_at e even (fun x y => k x y + k x (- y)) x y) ->
  (forall x y, 0 <= x <= 1 -> 0 <= y <= 1 -> within_at e odd (fun x y => k x y - k x (- y)) x y) ->
  (forall x y, -1 <= x <= 1 -> -1 <= y <= 1 -> continuous (fun t => k t y) x) ->
  (forall x y, -1 <= x <= 1 -> -1 <= y <= 1 -> continuous (fun t => k x t) y) ->
  forall x y, -1 <= x <= 1 -> -1 <= y <= 1 -> within_at e r k x y.
Proof. exact merge_reconstructs_everywhere. Qed.
Print Assumptions C42_reconstructs_everywhere.

(** C42: for a discontinuous K it fails at reflected knots even if the parts are
    exact: for the indicator of |x| >= 1/2 the merged value at -1/2 is 0. *)
Theorem C42_reflected_knots_refuted :
  exists r, merge (fun _ => [0%nat]) 0 (mirrored [0; 1 / 2; 1]) (mirrored [0; 1]) ex_step ex_none = Ok r /\
  (forall x y, stepk (- x) (- y) = stepk x y) /\
  (forall x y, 0 <= x <= 1 -> 0 <= y <= 1 ->
     within_at 0 ex_step (fun x y => stepk x y + stepk x (- y)) x y /\
     within_at 0 ex_none (fun x y => stepk x y - stepk x (- y)) x y) /\
  sve_sum r (- (1 / 2)) 0 = Ok 0 /\ stepk (- (1 / 2)) 0 = 1.
Proof. exact step_fails. Qed.
Print Assumptions C42_reflected_knots_refuted.

(** The kernel 1 + x y, with one even and one odd function. *)
Example C42_nonvacuous :
  half_edges [0; 1] /\ sve_on 2 [0; 1] [0; 1] ex_even /\ sve_on 2 [0; 1] [0; 1] ex_odd /\
  sorts (ss ex_even ++ ss ex_odd) [1%nat; 0%nat] /\
  (orthonormal_functions (su ex_even) /\ orthonormal_functions (sv ex_even)) /\
  (orthonormal_functions (su ex_odd) /\ orthonormal_functions (sv ex_odd)) /\
  (forall x y, exk (- x) (- y) = exk x y) /\
  (forall x y, 0 <= x <= 1 -> 0 <= y <= 1 -> within_at 0 ex_even (fun x y => exk x y + exk x (- y)) x y) /\
  (forall x y, 0 <= x <= 1 -> 0 <= y <= 1 -> within_at 0 ex_odd (fun x y => exk x y - exk x (- y)) x y) /\
  (forall x y, continuous (fun t => exk t y) x) /\ (forall x y, continuous (fun t => exk x t) y).
Proof. exact merge_example. Qed.

(** C43: with an exact Gauss rule and an exact thin SVD of the sampled kernel the
    expansion equals the kernel at all nodes, its functions are orthonormal, its
    singular values are those of the matrix and the left functions are positive
    at 1. *)
Theorem C43_nodes_and_orthonormal :
  forall legendre K eps ng S k M b r,
  sampling_init legendre K eps ng = Ok S -> gauss_ok (s_n S) (s_rule S) ->
  (2 <= length (s_segs_x S))%nat -> (2 <= length (s_segs_y S))%nat ->
  s_mat S (s_gx S) (s_gy S) = Ok (sampled k (s_gx S) (s_gy S)) ->
  sampling_matrix S = Ok M ->
  exact_svd (length (rx (s_gx S))) (length (rx (s_gy S))) M b ->
  sampling_post S b = Ok (Some r) ->
  (forall x y, In x (rx (s_gx S)) -> In y (rx (s_gy S)) -> sve_sum r x y = Ok (k x y)) /\
  orthonormal_functions (su r) /\ orthonormal_functions (sv r) /\
  ss r = snd (fst b) /\
  (forall l f, represents (su r) l f -> 0 < f 1).
Proof. exact sampling_reproduces. Qed.
Print Assumptions C43_nodes_and_orthonormal.

(** The kernel 1 + x y sampled with the two-point rule. *)
Example C43_nonvacuous :
  exists S M r, sampling_init ex_leg ex_skern 0 None = Ok S /\ gauss_ok (s_n S) (s_rule S) /\
  (2 <= length (s_segs_x S))%nat /\ (2 <= length (s_segs_y S))%nat /\
  s_mat S (s_gx S) (s_gy S) = Ok (sampled exk (s_gx S) (s_gy S)) /\ sampling_matrix S = Ok M /\
  exact_svd (length (rx (s_gx S))) (length (rx (s_gy S))) M ex_usv /\
  sampling_post S ex_usv = Ok (Some r).
Proof. exact ex_all. Qed.
