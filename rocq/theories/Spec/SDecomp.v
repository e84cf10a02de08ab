(** Vocabulary for decomposed matrices and the choice of SVD library. *)
From Coq Require Import String ZArith Arith Bool Reals.
From Coquelicot Require Import Coquelicot.
From Coq Require Import List.
From Verif.Model Require Import Base Util Num FT SVE NDArray Sampling Decomp.
From Verif.Spec Require Import SSampling.
Import ListNotations.
Open Scope R_scope.

(** Entry (i, l) of (u * s) @ vH. *)
Definition product (u : mat) (s : list R) (vh : mat) (i l : nat) : C :=
  csumn (List.length s) (fun k => Cmult (me u i k) (Cmult (RtoC (nth k s 0)) (me vh k l))).

(** Entry (i, l) of (u * s) @ v.T. *)
Definition product_T (t : svd_triple) (i l : nat) : C :=
  csumn (List.length (t_s t)) (fun k => Cmult (me (t_u t) i k) (Cmult (RtoC (nth k (t_s t) 0)) (me (t_v t) l k))).

(** The shapes of a triple that can be multiplied to a matrix of the shape of A. *)
Definition fits (A u : mat) (s : list R) (vh : mat) : Prop :=
  mr u = mr A /\ mc u = List.length s /\ mr vh = List.length s /\ mc vh = mc A.

(** The first n entries of the K columns of u are orthonormal. *)
Definition orthonormal_columns (n K : nat) (u : nat -> nat -> C) : Prop :=
  forall k k', (k < K)%nat -> (k' < K)%nat -> csumn n (fun i => Cmult (Cconj (u i k)) (u i k')) = delta k k'.

(** A == (U * s) @ V.T up to err in each entry, with orthonormal columns. *)
Definition decomposes (A : mat) (t : svd_triple) (err : R) : Prop :=
  mr (t_u t) = mr A /\ mc (t_u t) = List.length (t_s t) /\
  mr (t_v t) = mc A /\ mc (t_v t) = List.length (t_s t) /\
  orthonormal_columns (mr A) (List.length (t_s t)) (me (t_u t)) /\
  orthonormal_columns (mc A) (List.length (t_s t)) (me (t_v t)) /\
  forall i l, (i < mr A)%nat -> (l < mc A)%nat -> Cmod (Cminus (me A i l) (product_T t i l)) <= err.

(** What is asked of a library that returns (u, s, vH) for a real matrix. *)
Definition decomposes_h (A : mat) (r : svd_result) (err : R) : Prop :=
  fits A (r_u r) (r_s r) (r_vh r) /\
  orthonormal_columns (mr A) (List.length (r_s r)) (me (r_u r)) /\
  orthonormal_columns (mc A) (List.length (r_s r)) (fun l k => me (r_vh r) k l) /\
  (forall k l, (k < List.length (r_s r))%nat -> (l < mc A)%nat -> Im (me (r_vh r) k l) = 0) /\
  forall i l, (i < mr A)%nat -> (l < mc A)%nat ->
    Cmod (Cminus (me A i l) (product (r_u r) (r_s r) (r_vh r) i l)) <= err.

(** The rank asked of a truncated decomposition. *)
Definition wanted_rank (A : mat) (hint : option Z) : Z :=
  match hint with
  | None => Z.min (Z.of_nat (mr A)) (Z.of_nat (mc A))
  | Some h => Z.min (Z.min (Z.of_nat (mr A)) (Z.of_nat (mc A))) h
  end.

(** A or its transpose, whichever has at least as many rows as columns. *)
Definition tall (A : mat) : mat := if (mr A <? mc A)%nat then transposed A else A.

Definition available {T} (o : option T) : bool := match o with Some _ => true | None => false end.

(** Two sets of libraries of which the one for [alg] does the same on A. *)
Definition same_on (alg : svd_alg) (A : mat) (k : Z) (L L' : libs) : Prop :=
  match alg with
  | AlgDDouble => forall f f', xprec_svd L = Some f -> xprec_svd L' = Some f' -> f A = f' A
  | AlgID => interp_svd L A k = interp_svd L' A k
  | AlgLapack => numpy_svd L A = numpy_svd L' A
  | AlgJacobi => forall g g', lapack_gejsv L = Some g -> lapack_gejsv L' = Some g' -> g (tall A) 2%nat = g' (tall A) 2%nat
  end.
