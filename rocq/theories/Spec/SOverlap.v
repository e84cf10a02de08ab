(** What adaptive integration is supposed to do. *)
From Coq Require Import List Reals Sorting.Sorted Sorting.Permutation.
From Verif.Model Require Import Base Num Gauss Kronrod.
From Verif.Spec Require Import SGauss.
Import ListNotations.
Open Scope R_scope.

(** The 31-point rule and the embedded 15-point rule on [s, t]. *)
Definition panel31 (s t : R) (g : R -> R) : R :=
  (t - s) / 2 * quad kronrod_x kronrod_w (fun z => g ((t - s) / 2 * z + (t + s) / 2)).
Definition panel15 (s t : R) (g : R -> R) : R :=
  (t - s) / 2 * quad (vsel kronrod_x) kronrod_v (fun z => g ((t - s) / 2 * z + (t + s) / 2)).

(** Sum of a quantity over intervals. *)
Definition over (iv : list (R * R)) (g : R -> R -> R) : R := rsum (map (fun st => g (fst st) (snd st)) iv).

(** The intervals are those between consecutive points of an ordered list that
    starts with the first and ends with the last knot and contains all knots. *)
Definition tiles (iv : list (R * R)) (knots : list R) : Prop :=
  exists e, StronglySorted Rle e /\ incl knots e /\
    hd_error e = hd_error knots /\ hd_error (rev e) = hd_error (rev knots) /\
    Permutation iv (combine (removelast e) (tl e)).

(** The points at which the domain is divided initially. *)
Definition breaks (knots : list R) (points : option (list R)) (l : list R) : Prop :=
  match points with
  | None => l = knots
  | Some pts => StronglySorted Rlt l /\ forall x, In x l <-> In x knots \/ In x pts
  end.

(** h is component c of what f returns. *)
Definition component (f : R -> res (list R)) (c : nat) (h : R -> R) : Prop :=
  forall x v, f x = Ok v -> h x = nth c v 0.

(** Between consecutive points of e, g is a polynomial with n coefficients whose
    absolute values, weighted with powers of M, add up to at most C. *)
Definition piecewise_bounded (n : nat) (M C : R) (e : list R) (g : R -> R) : Prop :=
  chained (fun s t => exists a : nat -> R, (forall x, s < x < t -> g x = sumn n (fun k => a k * x ^ k)) /\
                        sumn n (fun k => Rabs (a k) * M ^ k) <= C) e.
