(** What quadrature rules are supposed to do. *)
From Coquelicot Require Import Coquelicot.
From Coq Require Import List Reals Arith Bool Sorting.
From Verif.Model Require Import Base Num Gauss.
Import ListNotations.
Open Scope R_scope.

(** f is a polynomial with n coefficients (degree less than n). *)
Definition polylt (n : nat) (f : R -> R) : Prop :=
  exists c : nat -> R, forall x, f x = sumn n (fun k => c k * x ^ k).
(** f is a polynomial of degree at most d. *)
Definition polynomial (d : nat) (f : R -> R) : Prop := polylt (S d) f.

(** The quadrature sum  sum_i w_i f(x_i). *)
Definition quad (x w : list R) (f : R -> R) : R := rsum (map2 (fun x w => w * f x) x w).

(** The rule integrates every polynomial of degree at most d exactly. *)
Definition exact_to (d : nat) (x w : list R) (a b : R) : Prop :=
  forall f, polynomial d f -> is_RInt f a b (quad x w f).

(** Stored distances to the end points are the true ones. *)
Definition distances_ok (r : rule) : Prop :=
  rfw r = map (fun x => x - ra r) (rx r) /\ rbw r = map (fun x => rb r - x) (rx r).

(** Nodes in increasing order inside the interval. *)
Definition placed (r : rule) : Prop :=
  StronglySorted Rlt (rx r) /\ Forall (fun x => ra r < x < rb r) (rx r).
Definition placed_closed (r : rule) : Prop :=
  StronglySorted Rle (rx r) /\ Forall (fun x => ra r <= x <= rb r) (rx r).

(** Consecutive elements are related. *)
Fixpoint chained {A} (P : A -> A -> Prop) (l : list A) : Prop :=
  match l with
  | x :: ((y :: _) as l') => P x y /\ chained P l'
  | _ => True
  end.
Definition abut (r s : rule) : Prop := rb r = ra s.

(** f is, on each open interval between consecutive edges, a polynomial of
    degree at most d. *)
Definition piecewise_polynomial (d : nat) (edges : list R) (f : R -> R) : Prop :=
  chained (fun s t => exists g, polynomial d g /\ forall x, s < x < t -> f x = g x) edges.

(** A family of functions obeying the three-term recurrence documented for
    rule_from_recurrence. *)
Definition recurrence_family (alpha beta : nat -> R) (Q : nat -> R -> R) : Prop :=
  (forall x, Q 0%nat x = 1) /\
  (forall x, Q 1%nat x = x - alpha 0%nat) /\
  (forall n x, Q (S (S n)) x = (x - alpha (S n)) * Q (S n) x - beta (S n) * Q n x).

(** The corrections of successive Newton steps: points after k steps, and the
    largest correction of step k. *)
Fixpoint newton_points (corr : list R -> list R) (sub : R -> R -> R) (k : nat) (x : list R) : list R :=
  match k with
  | O => x
  | S k' => let y := newton_points corr sub k' x in map2 sub y (corr y)
  end.
Definition largest (l : list R) (m : R) : Prop :=
  In m (map Rabs l) /\ Forall (fun x => Rabs x <= m) l.

(** a is b up to one rounding to double precision. *)
Definition near (a b : R) : Prop := Rabs (a - b) <= / 2 ^ 53 * Rabs b.
