(** Specification vocabulary for augmentations in rounded arithmetic. *)
From Coq Require Import ZArith Reals.
From Coquelicot Require Import Coquelicot.
Open Scope R_scope.

(** Underflow (eta) is negligible beside rounding (u) at this temperature. *)
Definition fair_beta (u eta beta : R) : Prop :=
  0 < beta /\ 10000 * eta <= u /\ 10000 * eta <= u * beta /\ 10000 * eta * (beta * beta) <= u.

(** The same for the frequency k. *)
Definition fair_freq (u eta beta : R) (k : Z) : Prop :=
  10000 * eta * Rabs (IZR k) <= u /\ 10000 * eta * Rabs (IZR k) <= u * beta.
