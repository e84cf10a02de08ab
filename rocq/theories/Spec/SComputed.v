(** Specification vocabulary for decompositions whose vectors are only nearly
    orthonormal, as those computed in floating-point arithmetic are. *)
From Coq Require Import Reals Arith ZArith.
From Coquelicot Require Import Coquelicot.
From Coq Require Import List.
From Verif.Model Require Import Base Num Gauss Poly SVE Basis Kernel Compute.
From Verif.Spec Require Import SGauss SBasis SCompute SSingular SWhole SNear.
Import ListNotations.
Open Scope R_scope.

(** The sum of the squares of the entries of V V^T - 1, for the rows of V. *)
Definition gram_error (vs : list (list R)) : R :=
  let k := List.length vs in
  sumn k (fun l => sumn k (fun m => Rsqr (dot (nth l vs []) (nth m vs []) - if Nat.eqb l m then 1 else 0))).
Definition nearly_orthonormal (vs : list (list R)) (a : R) : Prop := 0 <= a /\ gram_error vs <= Rsqr a.

(** As many vectors of m and of n entries as there are values, and no more than m
    or n. *)
Definition thin_usv (m n : nat) (b : usv) : Prop :=
  let '(us, s, vs) := b in
  List.length us = List.length s /\ List.length vs = List.length s /\
  (List.length s <= m)%nat /\ (List.length s <= n)%nat /\
  Forall (fun u => List.length u = m) us /\ Forall (fun v => List.length v = n) vs.

(** (us, s, vs) decomposes the m x n matrix A up to d, with left and right vectors
    that are orthonormal up to a and c. *)
Definition computed_svd (m n : nat) (A : matrix) (b : usv) (a c d : R) : Prop :=
  thin_usv m n b /\ nearly_orthonormal (fst (fst b)) a /\ nearly_orthonormal (snd b) c /\ ordered b /\
  0 <= d /\ sumn m (fun i => sumn n (fun j => Rsqr (ment A i j - usv_entry b i j))) <= Rsqr d.

(** Two errors together. *)
Definition root2 (x y : R) : R := sqrt (Rsqr x + Rsqr y).

(** What the lack of orthogonality costs: s is the largest value. *)
Definition skew (s a c : R) : R := s * (a + c + a * c).
Definition largest (b : usv) : R := nth 0 (svals b) 0.

(** The functions of p are orthonormal up to a. *)
Definition nearly_orthonormal_functions (p : vpoly) (a : R) : Prop :=
  forall l m f g, represents p l f -> represents p m g ->
    exists I, is_RInt (fun x => f x * g x) (gxmin (vgeom p)) (gxmax (vgeom p)) I /\ Rabs (I - if Nat.eqb l m then 1 else 0) <= a.
