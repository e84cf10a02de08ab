(** Specification vocabulary for kernels. *)
From Coq Require Import String ZArith Reals Sorting.Sorted.
From Coquelicot Require Import Coquelicot.
From Coq Require Import List.
From Verif.Model Require Import Base Util Num Kernel.
Import ListNotations.
Open Scope R_scope.

(** The elementary functions are accurate where they neither overflow nor lie in
    uninitialised memory: exponentials of non-positive arguments, exp(x) - 1 for
    arguments not above -1e-200, and hyperbolic functions between 0 and 85. *)
Definition tfun_ok (f : tfun) : Prop :=
  (forall x, x <= 0 -> f_exp f x = exp x) /\
  (forall x, x <= - / 10 ^ 200 -> f_expm1 f x = exp x - 1) /\
  (forall x, 0 <= x < 85 -> f_sinh f x = sinh x) /\
  (forall x, 0 <= x < 85 -> f_cosh f x = cosh x).

(** The kernels as mathematical functions on [-1, 1] x [-1, 1]. *)
Definition logistic_formula (lam x y : R) : R := exp (- lam * y * (x + 1) / 2) / (1 + exp (- lam * y)).
Definition bose_formula (lam x y : R) : R := y * exp (- lam * y * (x + 1) / 2) / (1 - exp (- lam * y)).

(** The value of a kernel object at one point, without supplied distances. *)
Definition has_value (f : tfun) (k : kernel) (x y r : R) : Prop :=
  kernel_call f k [Fin x] [Fin y] None None = Ok [[r]].

(** The value of a symmetrised kernel at one point, with the distances to the
    ends of [0, 1]. *)
Definition has_reduced_value (f : tfun) (k : reduced) (x y r : R) : Prop :=
  reduced_call f k [Fin x] [Fin y] (Some [x]) (Some [1 - x]) = Ok [[r]].

(** A valid segmentation of [-1, 1]: strictly increasing from -1 to 1,
    antisymmetric, with 0 in the middle. *)
Definition valid_segments (l : list R) : Prop :=
  StronglySorted Rlt l /\ hd_error l = Some (-1) /\ hd_error (rev l) = Some 1 /\
  map Ropp (rev l) = l /\
  exists h, List.length l = (2 * h + 1)%nat /\ nth_error l h = Some 0.

(** Reflection of a segmentation of [0, 1] to [-1, 1]. *)
Definition mirrored (l : list R) : list R := map Ropp (rev (tl l)) ++ l.
