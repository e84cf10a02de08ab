(** Specification vocabulary for expansions made from kernel matrices computed in
    rounded arithmetic. *)
From Coq Require Import Reals.
From Coq Require Import List.
From Verif.Model Require Import Base Num Gauss Kernel.
From Verif.Spec Require Import SKernelIEEE SGaussIEEE.
Open Scope R_scope.

(** Rounded operations, and elementary functions with relative error [e]. *)
Definition arithmetic (u eta e : R) (rd : R -> R) (f : tfun) : Prop :=
  small_errors u eta e /\ rounding u eta rd /\ tfun_near e eta f.

(** [r] is the exact Gauss rule [q] of [n] points up to small errors: [sg] of the
    nodes, [om] of the weights and [rho] of the distances; the nodes of [q] are at
    least 2 / kap away from -1 and 1. *)
Definition reference (u : R) (n : nat) (q r : rule) (sg om rho kap : R) : Prop :=
  ordinary_rule n q /\ rule_near sg om rho r q /\ small_reference u sg om rho /\
  0 < kap /\ kap * (sg + 7 * u) <= / 1000 /\
  forall j, (j < n)%nat -> 2 <= kap * (1 + nth j (rx q) 0) /\ 2 <= kap * (1 - nth j (rx q) 0).

(** Cutoffs for which the hinted segments do not shrink to nothing. *)
Definition usual_cutoff (k : kernel) : Prop := / 10 ^ 50 <= k_lambda k <= 10 ^ 16.

(** A bound for the values of the kernel. *)
Definition kernel_max (k : kernel) : R := match k with Logistic _ => 1 | RegBose lam => / lam + 1 end.

(** Errors of the matrices, in the root of the sum of the squares of the entries:
    of the whole kernel and of its even and odd parts. *)
Definition full_error (u e sg om rho kap : R) (k : kernel) : R :=
  2 * ((rho + 3 * om + 4 * (kap * (sg + 7 * u)) + 30 * u + 3 * e) * kernel_max k).
Definition half_error (u e sg om rho kap : R) (k : kernel) : R :=
  (2 * rho + 3 * sg + 5 * om + 7 * (kap * (sg + 7 * u)) + 85 * u + 5 * e) * kernel_max k.
