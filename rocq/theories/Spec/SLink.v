(** Vocabulary for sve.compute together with svd.compute. *)
From Coq Require Import String Reals Arith ZArith.
From Coquelicot Require Import Coquelicot.
From Coq Require Import List.
From Verif.Model Require Import Base Num SVE NDArray Sampling Decomp Compute Link.
From Verif.Spec Require Import SSVE SDecomp SCompute.
Import ListNotations.
Open Scope R_scope.

(** (u, s, v) is what svd.compute documents for the real matrix A, up to err in
    each entry: A == (u * s) @ v.T with orthonormal columns, real entries and
    ordered nonnegative values. *)
Definition real_entries (m : mat) : Prop := forall i k, (i < mr m)%nat -> (k < mc m)%nat -> Im (me m i k) = 0.
Definition as_documented (A : matrix) (r : svd_triple) (err : R) : Prop :=
  decomposes (as_mat A) r err /\ real_entries (t_u r) /\ real_entries (t_v r) /\
  nonincreasing (t_s r) /\ Forall (fun x => 0 <= x) (t_s r).

(** The root of the sum of squares of m n entries of at most err. *)
Definition total_error (m n : nat) (err : R) : R := err * sqrt (INR m * INR n).

(** The result without the warnings. *)
Definition without_warnings {A B} (r : res (A * B)) : res A := match r with Ok (a, _) => Ok a | Raise e => Raise e end.

(** The Jacobi method never reports a wrong argument. *)
Definition jacobi_accepts (L : libs) : Prop := forall g B, lapack_gejsv L = Some g -> (0 <= g_info (g B 2%nat))%Z.

(** svd.compute returns at least one value for a matrix that is not empty, in
    descending order, and as many vectors. *)
Definition returns_values (L : libs) : Prop :=
  forall t hint strategy A m n r w, rectangular m n A -> (0 < m)%nat -> (0 < n)%nat -> (0 < hint)%Z ->
  Decomp.svd_compute L t (as_mat A) (Some hint) strategy = Ok (r, w) -> usv_shaped (as_usv r).
