(** Specification vocabulary for expansions made from decompositions that are not exact. *)
From Coq Require Import Reals Arith ZArith.
From Coq Require Import List.
From Verif.Model Require Import Base Num Gauss Poly SVE Basis Kernel Compute.
From Verif.Spec Require Import SGauss SBasis SCompute SSingular SWhole.
Import ListNotations.
Open Scope R_scope.

(** Entry (i, j) of U diag(s) V^T. *)
Definition usv_entry (b : usv) (i j : nat) : R :=
  let '(us, s, vs) := b in
  sumn (List.length s) (fun l => nth i (nth l us []) 0 * nth l s 0 * nth j (nth l vs []) 0).

(** Orthonormal vectors of m and of n entries, as many as there are values. *)
Definition orthonormal_usv (m n : nat) (b : usv) : Prop :=
  let '(us, s, vs) := b in
  List.length us = List.length s /\ List.length vs = List.length s /\
  Forall (fun u => List.length u = m) us /\ Forall (fun v => List.length v = n) vs /\
  orthonormal_vectors us /\ orthonormal_vectors vs.

(** (us, s, vs) is a decomposition of the m x n matrix A up to d: orthonormal
    vectors, ordered nonnegative values, and the sum of the squares of the entries
    of A - U diag(s) V^T is at most d^2.  This allows for truncation and for
    rounding of the product. *)
Definition near_svd (m n : nat) (A : matrix) (b : usv) (d : R) : Prop :=
  0 <= d /\ orthonormal_usv m n b /\ ordered b /\
  sumn m (fun i => sumn n (fun j => Rsqr (ment A i j - usv_entry b i j))) <= Rsqr d.

(** The distance of two functions in the weighted sum of squares. *)
Definition far (gx gy : rule) (f g : R -> R -> R) : R :=
  sqrt (quad2 gx gy (fun x y => Rsqr (f x y - g x y))).

(** Cut off after N functions, the expansion is as close to k as d and the values
    left out of the total sum of squares [all] allow, and up to 2 d as close as any
    sum of N products of a function of x and a function of y. *)
Definition near_best (gx gy : rule) (k : R -> R -> R) (r : sve_result) (d all : R) : Prop :=
  forall N E, (N <= List.length (ss r))%nat ->
    (forall x y, -1 <= x <= 1 -> -1 <= y <= 1 -> sve_sum (cut_at N r) x y = Ok (E x y)) ->
    far gx gy k E <= d + sqrt (all - sumsq (firstn N (ss r))) /\
    forall a b : nat -> R -> R, far gx gy k E <= far gx gy k (fun x y => sumn N (fun l => a l x * b l y)) + 2 * d.

(** The same of a basis, for a kernel in physical variables. *)
Definition near_best_of_its_size (gt gw : rule) (kp : R -> R -> R) (b : basis) (d all : R) : Prop :=
  forall E, (forall t w, 0 <= t <= bbeta b -> - bwmax b <= w <= bwmax b -> sve_sum (expansion_of b) t w = Ok (E t w)) ->
    far gt gw kp E <= d + sqrt (all - sumsq (bs b)) /\
    forall p q : nat -> R -> R, far gt gw kp E <= far gt gw kp (fun t w => sumn (bsize b) (fun l => p l t * q l w)) + 2 * d.

(** The factor between distances on [-1, 1] x [-1, 1] and in tau and omega. *)
Definition physical_factor (beta wmax : R) (ypower : Z) : R := sqrt (beta / 2 * wmax) * powerRZ wmax (- ypower).

(** The first N triples. *)
Definition first_triples (N : nat) (b : usv) : usv := let '(us, s, vs) := b in (firstn N us, firstn N s, firstn N vs).

(** The decompositions that sve.compute can ask for with given rules and kernel
    values, with at most N triples and each up to some d. *)
Definition decomposes_nearly (N : nat) (legendre : dtype -> nat -> res rule) (run : svd_alg -> matrix -> Z -> usv) (K : kernel) (k : R -> R -> R) : Prop :=
  forall t n q alg h, legendre t n = Ok q ->
    let near gx gy A := (List.length (svals (run alg A h)) <= N)%nat /\ exists d, near_svd (List.length (rx gx)) (List.length (rx gy)) A (run alg A h) d in
    (forall gx gy, piecewise q (half (segments_x K)) = Ok gx -> piecewise q (half (segments_y K)) = Ok gy ->
       near gx gy (weighted (fun x y => k x y + k x (- y)) gx gy) /\ near gx gy (weighted (fun x y => k x y - k x (- y)) gx gy)) /\
    (forall gx gy, piecewise q (segments_x K) = Ok gx -> piecewise q (segments_y K) = Ok gy -> near gx gy (weighted k gx gy)).
