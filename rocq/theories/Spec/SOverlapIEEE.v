(** Specification vocabulary for the overlap integral in double precision. *)
From Coq Require Import Reals ZArith Arith Bool.
From Coq Require Import List Sorting.Permutation.
From Verif.Model Require Import Base Util Num IEEE Gauss Kronrod Poly PolyIEEE.
From Verif.Spec Require Import SGauss.
Import ListNotations.
Open Scope R_scope.

(** Half the length and the centre of [s, t] in doubles. *)
Definition half64 (s t : R) : R := rnd64 (rnd64 (t - s) / 2).
Definition centre64 (s t : R) : R := rnd64 (rnd64 (t + s) / 2).

(** The doubles that the rule with nodes zs and weights ws adds up on [s, t] for the
    product of u and h. *)
Definition point64 (s t z : R) : R := rnd64 (rnd64 (half64 s t * rnd64 z) + centre64 s t).
Definition weight64 (s t w : R) : R := rnd64 (half64 s t * rnd64 w).
Definition terms64 (s t : R) (zs ws : list R) (u h : R -> R) : list R :=
  map2 (fun z w => rnd64 (rnd64 (u (point64 s t z) * h (point64 s t z)) * weight64 s t w)) zs ws.

(** The exact sums of these doubles and of their absolute values, for the 31-point
    rule and the embedded 15-point rule. *)
Definition sum31 (u h : R -> R) (s t : R) : R := rsum (terms64 s t kronrod_x kronrod_w u h).
Definition sum15 (u h : R -> R) (s t : R) : R := rsum (terms64 s t (vsel kronrod_x) kronrod_v u h).
Definition abs31 (u h : R -> R) (s t : R) : R := rsum (map Rabs (terms64 s t kronrod_x kronrod_w u h)).
Definition abs15 (u h : R -> R) (s t : R) : R := rsum (map Rabs (terms64 s t (vsel kronrod_x) kronrod_v u h)).

(** u holds the computed values of polynomial l. *)
Definition computed_by (old : bool) (p : vpoly) (l : nat) (u : R -> R) : Prop :=
  forall x v, value_rd old rnd64 p (Z.of_nat l) x = Ok v -> u x = v.

(** Sums of up to N doubles are doubles and have error sg relative to the sum of
    the absolute values. *)
Definition sums_near (N : nat) (sg : R) (sm : list R -> R) : Prop :=
  0 <= sg <= 1 /\
  forall l, (List.length l <= N)%nat -> Forall is_double l ->
    is_double (sm l) /\ Rabs (sm l - rsum l) <= sg * rsum (map Rabs l).

(** [s] is the result of adding the doubles [l] pair by pair, in some order and grouping. *)
Inductive added64 : list R -> R -> Prop :=
| added_none : added64 [] 0
| added_one x : added64 [x] x
| added_two l1 l2 s1 s2 : l1 <> [] -> l2 <> [] -> added64 l1 s1 -> added64 l2 s2 -> added64 (l1 ++ l2) (rnd64 (s1 + s2))
| added_order l l' s : Permutation l l' -> added64 l s -> added64 l' s.

(** The factor by which up to n levels of refinement lose accuracy. *)
Definition growth (sg : R) (n : nat) : R := (1 + / 2 ^ 53) ^ (S n) * (1 + sg) ^ 2.

(** Both ends are doubles. *)
Definition double_ends (st : R * R) : Prop := is_double (fst st) /\ is_double (snd st).
(** So are the break points asked for. *)
Definition double_points (points : option (list R)) : Prop := match points with None => True | Some pts => Forall is_double pts end.
