(** Specification vocabulary for quadrature rules in rounded arithmetic. *)
From Coq Require Import Reals.
From Coq Require Import List.
From Verif.Model Require Import Base Num Gauss.
From Verif.Spec Require Import SGauss SCompute.
Import ListNotations.
Open Scope R_scope.

(** [a'] agrees with [a] up to relative error [e]. *)
Definition rel (e a' a : R) : Prop := Rabs (a' - a) <= e * Rabs a.

(** [r] is the rule [q] up to absolute errors [sg] of the nodes and relative
    errors [om] of the weights and [rho] of the distances from both ends. *)
Definition rule_near (sg om rho : R) (r q : rule) : Prop :=
  ra r = ra q /\ rb r = rb q /\
  List.length (rx r) = List.length (rx q) /\ List.length (rw r) = List.length (rw q) /\
  List.length (rfw r) = List.length (rx q) /\ List.length (rbw r) = List.length (rx q) /\
  forall i, (i < List.length (rx q))%nat ->
    Rabs (nth i (rx r) 0 - nth i (rx q) 0) <= sg /\
    rel om (nth i (rw r) 0) (nth i (rw q) 0) /\
    rel rho (nth i (rfw r) 0) (nth i (rx q) 0 - ra q) /\
    rel rho (nth i (rbw r) 0) (rb q - nth i (rx q) 0).

(** An exact Gauss rule whose weights and distances from the ends are not so
    small that they underflow. *)
Definition ordinary_rule (n : nat) (q : rule) : Prop :=
  gauss_ok n q /\ distances_ok q /\
  forall i, (i < n)%nat -> / 10 ^ 20 <= nth i (rw q) 0 /\ / 10 ^ 20 <= 1 + nth i (rx q) 0 /\ / 10 ^ 20 <= 1 - nth i (rx q) 0.

(** Edges of a subdivision of a part of [-1, 1], at least 1e-100 apart. *)
Definition ordinary_edges (l : list R) : Prop :=
  (2 <= List.length l)%nat /\ Forall (fun x => -1 <= x <= 1) l /\ chained (fun a b => a + / 10 ^ 100 <= b) l.

(** No node lies so close to 0, compared with the ends of its segment, that its
    relative error is more than [kap] times the error of the reference rule. *)
Definition resolved (n : nat) (segs : list R) (G : rule) (kap : R) : Prop :=
  forall i j, (S i < List.length segs)%nat -> (j < n)%nat ->
    Rmax (Rabs (nth i segs 0)) (Rabs (nth (S i) segs 0)) <= kap * Rabs (nth (i * n + j) (rx G) 0).

(** Errors small enough for products of errors to be negligible. *)
Definition small_reference (u sg om rho : R) : Prop :=
  u <= / 100000 /\ 0 <= sg <= / 100000 /\ 0 <= om <= / 1000 /\ 0 <= rho <= / 4000.
