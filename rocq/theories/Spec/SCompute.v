(** Specification vocabulary for the computation of singular value expansions. *)
From Coq Require Import String ZArith Reals Sorting.Sorted Sorting.Permutation.
From Coquelicot Require Import Coquelicot.
From Coq Require Import List.
From Verif.Model Require Import Base Num Gauss Poly SVE Compute.
From Verif.Spec Require Import SGauss SPoly SFT SSVE SBasis.
Import ListNotations.
Open Scope R_scope.

(** An exact Gauss rule with n points on [-1, 1]. *)
Definition gauss_ok (n : nat) (r : rule) : Prop :=
  (0 < n)%nat /\ List.length (rx r) = n /\ List.length (rw r) = n /\ placed r /\
  Forall (fun w => 0 < w) (rw r) /\ ra r = -1 /\ rb r = 1 /\
  exact_to (2 * n - 1) (rx r) (rw r) (-1) 1.

(** Edges of a subdivision of an interval. *)
Definition edges_ok (l : list R) : Prop := (2 <= List.length l)%nat /\ StronglySorted Rlt l.

(** Entry (i, j) of a matrix given by rows. *)
Definition ment (A : matrix) (i j : nat) : R := nth j (nth i A []) 0.

(** The scalar product of two vectors. *)
Definition dot (a b : list R) : R := rsum (map2 Rmult a b).

(** Orthonormal vectors. *)
Definition orthonormal_vectors (us : list (list R)) : Prop :=
  forall l m, (l < List.length us)%nat -> (m < List.length us)%nat ->
    dot (nth l us []) (nth m us []) = if Nat.eqb l m then 1 else 0.

(** (us, s, vs) is a thin singular value decomposition, in the wide sense, of the
    m x n matrix A: orthonormal vectors with A = U diag(s) V^T. *)
Definition exact_svd (m n : nat) (A : matrix) (b : usv) : Prop :=
  let '(us, s, vs) := b in
  List.length us = List.length s /\ List.length vs = List.length s /\
  Forall (fun u => List.length u = m) us /\ Forall (fun v => List.length v = n) vs /\
  orthonormal_vectors us /\ orthonormal_vectors vs /\
  forall i j, (i < m)%nat -> (j < n)%nat ->
    ment A i j = sumn (List.length s) (fun l => nth i (nth l us []) 0 * nth l s 0 * nth j (nth l vs []) 0).

(** np.sum(s * u(x) * v(y)) for a singular value expansion. *)
Definition sve_sum (r : sve_result) (x y : R) : res R :=
  do us <- vcall (su r) x;
  do vs <- vcall (sv r) y;
  Ok (rsum (map2 Rmult (map2 Rmult (ss r) us) vs)).

(** The functions of a set are orthonormal on the interval of the set. *)
Definition orthonormal_functions (p : vpoly) : Prop :=
  forall l m f g, represents p l f -> represents p m g ->
    is_RInt (fun x => f x * g x) (gxmin (vgeom p)) (gxmax (vgeom p)) (if Nat.eqb l m then 1 else 0).

(** The matrix of the values of a kernel at the nodes of two rules. *)
Definition sampled (k : R -> R -> R) (gx gy : rule) : matrix :=
  map (fun x => map (fun y => k x y) (rx gy)) (rx gx).

(** [idx] lists the indices of l in an order that sorts l. *)
Definition sorts (l : list R) (idx : list nat) : Prop :=
  Permutation idx (seq 0 (List.length l)) /\
  StronglySorted Rle (map (fun i => nth i l 0) idx).

(** Edges of a subdivision of [0, 1]. *)
Definition half_edges (h : list R) : Prop :=
  edges_ok h /\ hd_error h = Some 0 /\ hd_error (rev h) = Some 1.

(** A singular value expansion with as many left and right functions as values,
    all of them polynomials with n coefficients between the knots hx and hy. *)
Definition sve_on (n : nat) (hx hy : list R) (r : sve_result) : Prop :=
  fresh (su r) /\ fresh (sv r) /\ gknots (vgeom (su r)) = hx /\ gknots (vgeom (sv r)) = hy /\
  glen (vgeom (su r)) = n /\ glen (vgeom (sv r)) = n /\
  List.length (vcols (su r)) = List.length (ss r) /\ List.length (vcols (sv r)) = List.length (ss r).

(** The expansion r is within e of k at (x, y). *)
Definition within_at (e : R) (r : sve_result) (k : R -> R -> R) (x y : R) : Prop :=
  exists v, sve_sum r x y = Ok v /\ Rabs (v - k x y) <= e.

(** The weighted sum of g over the nodes of two rules. *)
Definition quad2 (gx gy : rule) (g : R -> R -> R) : R :=
  rsum (map2 (fun x w => rsum (map2 (fun y v => w * v * g x y) (rx gy) (rw gy))) (rx gx) (rw gx)).

(** The sum of the squares of numbers. *)
Definition sumsq (l : list R) : R := rsum (map (fun x => x * x) l).

(** The values of a kernel at the nodes of two rules, each multiplied by the
    square roots of the weights of both nodes. *)
Definition weighted (k : R -> R -> R) (gx gy : rule) : matrix :=
  map2 (fun x w => map2 (fun y v => k x y * sqrt w * sqrt v) (rx gy) (rw gy)) (rx gx) (rw gx).

(** The singular values of a decomposition. *)
Definition svals (b : usv) : list R := snd (fst b).

(** The nonnegative edges of a segmentation. *)
Definition half (l : list R) : list R := filter (fun x => Rleb 0 x) l.

(** The documented values of the argument svd_strat. *)
Definition known_strategy (svds : option string) : Prop :=
  svds = None \/ svds = Some "fast"%string \/ svds = Some "default"%string \/ svds = Some "accurate"%string.

(** Whenever a Legendre rule is returned it is the exact Gauss rule, with correct
    distances from both ends. *)
Definition good_rules (legendre : dtype -> nat -> res rule) : Prop :=
  forall t n q, legendre t n = Ok q -> gauss_ok n q /\ distances_ok q.

(** A matrix with m rows of n entries each. *)
Definition rectangular (m n : nat) (A : matrix) : Prop :=
  List.length A = m /\ Forall (fun row => List.length row = n) A.

(** As many vectors on both sides as values, at least one value, and the values
    are nonnegative and in non-increasing order. *)
Definition usv_shaped (b : usv) : Prop :=
  let '(us, s, vs) := b in
  List.length us = List.length s /\ List.length vs = List.length s /\ s <> [] /\
  nonincreasing s /\ Forall (fun x => 0 <= x) s.

(** The decompositions of nonempty rectangular matrices to a positive rank have
    this shape. *)
Definition svd_shaped (run : svd_alg -> matrix -> Z -> usv) : Prop :=
  forall alg A h m n, rectangular m n A -> (0 < m)%nat -> (0 < n)%nat -> (0 < h)%Z ->
  usv_shaped (run alg A h).
