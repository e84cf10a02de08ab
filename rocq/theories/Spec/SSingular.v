(** Specification vocabulary for the singular value equations. *)
From Coq Require Import Reals Arith.
From Coq Require Import List.
From Verif.Model Require Import Base Num Gauss Poly SVE Compute.
From Verif.Spec Require Import SGauss SBasis SCompute.
Import ListNotations.
Open Scope R_scope.

(** (us, s, vs) are singular triples of the m x n matrix A: orthonormal vectors
    with A v = s u and A^T u = s v for each of them.  A complete or a truncated
    singular value decomposition consists of such triples. *)
Definition singular_triples (m n : nat) (A : matrix) (b : usv) : Prop :=
  let '(us, s, vs) := b in
  List.length us = List.length s /\ List.length vs = List.length s /\
  Forall (fun u => List.length u = m) us /\ Forall (fun v => List.length v = n) vs /\
  orthonormal_vectors us /\ orthonormal_vectors vs /\
  forall l, (l < List.length s)%nat ->
    (forall i, (i < m)%nat -> sumn n (fun j => ment A i j * nth j (nth l vs []) 0) = nth l s 0 * nth i (nth l us []) 0) /\
    (forall j, (j < n)%nat -> sumn m (fun i => ment A i j * nth i (nth l us []) 0) = nth l s 0 * nth j (nth l vs []) 0).

(** The integral equations of a singular value expansion,
       integral k(x, y) v_l(y) dy = s_l u_l(x),   integral k(x, y) u_l(x) dx = s_l v_l(y),
    with the integrals replaced by the quadrature rules gx and gy, at every node. *)
Definition singular_system (gx gy : rule) (k : R -> R -> R) (r : sve_result) : Prop :=
  forall l u v, represents (su r) l u -> represents (sv r) l v ->
    (forall x, In x (rx gx) -> quad (rx gy) (rw gy) (fun y => k x y * v y) = nth l (ss r) 0 * u x) /\
    (forall y, In y (rx gy) -> quad (rx gx) (rw gx) (fun x => k x y * u x) = nth l (ss r) 0 * v y).

(** The functions of a set are orthonormal for the rule. *)
Definition quad_orthonormal (g : rule) (p : vpoly) : Prop :=
  forall l m f h, represents p l f -> represents p m h ->
    quad (rx g) (rw g) (fun x => f x * h x) = if Nat.eqb l m then 1 else 0.

(** The expansion cut off after the first N functions. *)
Definition cut_at (N : nat) (r : sve_result) : sve_result :=
  SVE (take N (su r)) (firstn N (ss r)) (take N (sv r)) (seps r).

(** Cut off after any number of functions, the expansion misses of the weighted
    sum of the squares of the kernel all but the squares of its singular values. *)
Definition cut_errors (gx gy : rule) (k : R -> R -> R) (r : sve_result) : Prop :=
  forall N, exists E,
    (forall x y, -1 <= x <= 1 -> -1 <= y <= 1 -> sve_sum (cut_at N r) x y = Ok (E x y)) /\
    quad2 gx gy (fun x y => Rsqr (k x y - E x y)) = quad2 gx gy (fun x y => Rsqr (k x y)) - sumsq (firstn N (ss r)).

(** No sum of N products of a function of x and a function of y is, in the weighted
    sum of squares, closer to the kernel than the expansion cut off after its
    first N functions. *)
Definition best_cuts (gx gy : rule) (k : R -> R -> R) (r : sve_result) : Prop :=
  forall N E, (N <= List.length (ss r))%nat ->
    (forall x y, -1 <= x <= 1 -> -1 <= y <= 1 -> sve_sum (cut_at N r) x y = Ok (E x y)) ->
    forall a b : nat -> R -> R,
      quad2 gx gy (fun x y => Rsqr (k x y - E x y)) <=
      quad2 gx gy (fun x y => Rsqr (k x y - sumn N (fun l => a l x * b l y))).
