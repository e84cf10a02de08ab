(** Specification vocabulary for piecewise polynomials. *)
From Coq Require Import List Reals Sorting.Sorted.
From Verif.Model Require Import Base Num Poly.
From Verif.Spec Require Import SRoots.
Import ListNotations.
Open Scope R_scope.

(** A well-formed geometry: at least one segment, strictly increasing knots, and
    segment lengths that are the differences of the knots. *)
Definition geom_ok (g : geom) : Prop :=
  (0 < gnseg g)%nat /\ length (gknots g) = S (gnseg g) /\ StronglySorted Rlt (gknots g) /\
  length (gdx g) = gnseg g /\
  (forall i, (i < gnseg g)%nat -> nth i (gdx g) 0 = nth (S i) (gknots g) 0 - nth i (gknots g) 0).

(** The i-th knot. *)
Definition knot (g : geom) (i : nat) : R := nth i (gknots g) 0.

(** The mathematical function a column stands for on segment i: the expansion in
    Legendre polynomials of the coordinate that runs from -1 to 1 on the
    segment, times sqrt(2 / length). *)
Definition seg_fun (g : geom) (c : col) (i : nat) (x : R) : R :=
  sqrt (2 / (knot g (S i) - knot g i)) *
  sumn (glen g) (fun k => cdat c k i *
    legP k ((2 * x - knot g i - knot g (S i)) / (knot g (S i) - knot g i))).

(** [G] is the strictly increasing list of the knots [K] and of alpha - 1
    equidistant points between each two neighbouring knots. *)
Definition refines (alpha : nat) (K G : list R) : Prop :=
  StronglySorted Rlt G /\
  (forall x, In x G <->
     (x = last K 0 \/ exists a b j, adjacent K a b /\ (j < alpha)%nat /\ x = a + INR j / INR alpha * (b - a))).

(** [rs] are the grid zeros of f and exactly one point inside every grid
    interval in which f changes sign, in increasing order. *)
Definition found (f : R -> R) (G rs : list R) : Prop :=
  StronglySorted Rlt rs /\
  (forall x, In x G -> f x = 0 -> In x rs) /\
  (forall a b, adjacent G a b -> f a * f b < 0 ->
     exists r, In r rs /\ a < r < b /\ (forall r', In r' rs -> a < r' < b -> r' = r)) /\
  (forall r, In r rs -> (In r G /\ f r = 0) \/ (exists a b, adjacent G a b /\ f a * f b < 0 /\ a < r < b)).

(** The centre of the interval, and the knots of the right half starting with
    the centre. *)
Definition centre (g : geom) : R := (gxmin g + gxmax g) / 2.
Definition half_knots (g : geom) : list R := centre g :: filter (fun k => Rltb (centre g) k) (gknots g).
