(** Specification vocabulary for the discrete Lehmann representation. *)
From Coq Require Import String ZArith Reals.
From Coquelicot Require Import Coquelicot.
From Coq Require Import List.
From Verif.Model Require Import Base Util Num Poly FT SVE Basis NDArray Sampling DLR.
From Verif.Spec Require Import SSampling.
Import ListNotations.
Open Scope R_scope.

(** Imaginary-time function of a single pole at frequency w. *)
Definition pole_fun (beta w t : R) : R := - (exp (- t * w) / (1 + exp (- beta * w))).

(** What that function becomes in Matsubara frequency: 1/(iv - w) for fermions
    and tanh(beta w/2)/(iv - w) for bosons, with iv = i pi n/beta. *)
Definition pole_hat (fermi : bool) (beta w : R) (n : Z) : C :=
  Cdiv (RtoC (if fermi then 1 else tanh (beta * w / 2))) (Cminus (0, PI * IZR n / beta) (RtoC w)).

(** A DLR object made by the constructor. *)
Definition dlr_built (svd : mat -> svd_result) (d : dlr) : Prop :=
  dlr_init svd (dl_basis d) true (dl_poles d) = Ok d.

(** Entry of a matrix given by rows. *)
Definition entry_of {A} (M : list (list A)) (l j : nat) : option A :=
  match nth_error M l with Some row => nth_error row j | None => None end.

(** The three arrays of a decomposition of A have the shapes of a thin
    singular value decomposition, with any number of singular values. *)
Definition svd_shapes (A : mat) (r : svd_result) : Prop :=
  mr (r_u r) = mr A /\ mc (r_u r) = List.length (r_s r) /\ mr (r_vh r) = List.length (r_s r) /\ mc (r_vh r) = mc A.

(** Frequencies inside the range of a basis. *)
Definition inside_w (b : basis) (w : R) : Prop := - bwmax b <= w <= bwmax b.

(** Imaginary times in the domain of the DLR functions. *)
Definition pole_dom (beta : R) (t : xr) : Prop := exists r, t = Fin r /\ 0 <= r <= beta.
