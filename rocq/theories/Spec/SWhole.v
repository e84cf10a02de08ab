(** Specification vocabulary for a basis and the kernel it was made for. *)
From Coq Require Import Reals Arith ZArith.
From Coquelicot Require Import Coquelicot.
From Coq Require Import List.
From Verif.Model Require Import Base Util Num Gauss Poly SVE Basis Kernel Compute.
From Verif.Spec Require Import SGauss SPoly SSVE SBasis SCompute SSingular.
Import ListNotations.
Open Scope R_scope.

(** A kernel on [-1, 1] x [-1, 1] in the physical variables tau and omega, with
    the power of omega that is taken out of it. *)
Definition in_physical (k : R -> R -> R) (ypower : Z) (beta wmax t w : R) : R :=
  powerRZ wmax (- ypower) * k (2 * t / beta - 1) (w / wmax).

(** The expansion sum_l s_l u_l(tau) v_l(omega) of a basis. *)
Definition expansion_of (b : basis) : sve_result := SVE (bu b) (bs b) (bv b) None.

(** The functions of each pair are both even or both odd, around beta/2 and 0
    (away from the knots, where the segments meet), and u_l(beta) > 0. *)
Definition common_parity (b : basis) : Prop :=
  forall l u v, represents (bu b) l u -> represents (bv b) l v ->
    0 < u (bbeta b) /\
    exists p, (p = 1 \/ p = -1) /\
      (forall t, 0 < t < bbeta b -> ~ In t (gknots (vgeom (bu b))) -> u (bbeta b - t) = p * u t) /\
      (forall w, - bwmax b < w < bwmax b -> ~ In w (gknots (vgeom (bv b))) -> v (- w) = p * v w).

(** What the basis is for the kernel kp(tau, omega) in physical variables, with
    rules gt on [0, beta] and gw on [-wmax, wmax] to sum over times and
    frequencies: the functions are orthonormal and satisfy the equations of
    singular functions at the nodes, and sum_l s_l u_l v_l misses of the sum of
    squares of the kernel all but sum_l s_l^2. *)
Definition diagonalizes (gt gw : rule) (kp : R -> R -> R) (b : basis) : Prop :=
  orthonormal_functions (bu b) /\ orthonormal_functions (bv b) /\
  quad_orthonormal gt (bu b) /\ quad_orthonormal gw (bv b) /\
  singular_system gt gw kp (expansion_of b) /\
  (exists E, (forall t w, 0 <= t <= bbeta b -> - bwmax b <= w <= bwmax b -> sve_sum (expansion_of b) t w = Ok (E t w)) /\
     quad2 gt gw (fun t w => Rsqr (kp t w - E t w)) = quad2 gt gw (fun t w => Rsqr (kp t w)) - sumsq (bs b)).

(** No sum of as many products as the basis has functions is closer to the kernel
    at the nodes. *)
Definition best_of_its_size (gt gw : rule) (kp : R -> R -> R) (b : basis) : Prop :=
  forall E, (forall t w, 0 <= t <= bbeta b -> - bwmax b <= w <= bwmax b -> sve_sum (expansion_of b) t w = Ok (E t w)) ->
  forall p q : nat -> R -> R,
    quad2 gt gw (fun t w => Rsqr (kp t w - E t w)) <=
    quad2 gt gw (fun t w => Rsqr (kp t w - sumn (bsize b) (fun l => p l t * q l w))).

(** The values are nonnegative and in non-increasing order. *)
Definition ordered (b : usv) : Prop := nonincreasing (svals b) /\ Forall (fun x => 0 <= x) (svals b).

(** The decompositions that sve.compute can ask for with given rules and kernel
    values are exact and ordered. *)
Definition decomposes_exactly (legendre : dtype -> nat -> res rule) (run : svd_alg -> matrix -> Z -> usv) (K : kernel) (k : R -> R -> R) : Prop :=
  forall t n q alg h, legendre t n = Ok q ->
  (forall gx gy, piecewise q (half (segments_x K)) = Ok gx -> piecewise q (half (segments_y K)) = Ok gy ->
     let Ae := weighted (fun x y => k x y + k x (- y)) gx gy in
     let Ao := weighted (fun x y => k x y - k x (- y)) gx gy in
     (exact_svd (List.length (rx gx)) (List.length (rx gy)) Ae (run alg Ae h) /\ ordered (run alg Ae h)) /\
     (exact_svd (List.length (rx gx)) (List.length (rx gy)) Ao (run alg Ao h) /\ ordered (run alg Ao h))) /\
  (forall gx gy, piecewise q (segments_x K) = Ok gx -> piecewise q (segments_y K) = Ok gy ->
     let A := weighted k gx gy in
     exact_svd (List.length (rx gx)) (List.length (rx gy)) A (run alg A h) /\ ordered (run alg A h)).
