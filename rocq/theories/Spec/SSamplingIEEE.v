(** Specification vocabulary for sampling in rounded arithmetic. *)
From Coq Require Import ZArith Arith Bool Reals.
From Coquelicot Require Import Coquelicot.
From Coq Require Import List Permutation.
From Verif.Model Require Import Base Num FT NDArray Sampling SamplingIEEE.
From Verif.Spec Require Import SSampling.
Import ListNotations.
Open Scope R_scope.

(** Euclidean norm of a vector of length n. *)
Definition size (n : nat) (g : nat -> C) : R := sqrt (norm2 n g).
Definition vsub (g h : nat -> C) (i : nat) : C := Cminus (g i) (h i).
Definition vadd (g h : nat -> C) (i : nat) : C := Cplus (g i) (h i).

(** * Errors of the operations *)

(** Inner products of up to N terms have error at most gam times the sum of the
    absolute values of the terms, plus th. *)
Definition dot_near (N : nat) (gam th : R) (dot : list nat -> list C -> list C -> C) : Prop :=
  0 <= gam /\ 0 <= th /\
  forall idx xs ys, List.length xs = List.length ys -> (List.length xs <= N)%nat ->
  Cmod (Cminus (dot idx xs ys) (csumn (List.length xs) (fun i => Cmult (nth i xs (RtoC 0)) (nth i ys (RtoC 0))))) <=
  gam * sumn (List.length xs) (fun i => Cmod (nth i xs (RtoC 0)) * Cmod (nth i ys (RtoC 0))) + th.

(** One operation has relative error u and absolute error eta; the divisor is
    between lo and hi. *)
Definition div_near (u eta lo hi : R) (dv : C -> R -> C) : Prop :=
  forall z s, lo <= s <= hi -> Cmod (Cminus (dv z s) (Cdiv z (RtoC s))) <= u * Cmod (Cdiv z (RtoC s)) + eta.
Definition add_near (u eta : R) (ad : C -> C -> C) : Prop :=
  forall z w, Cmod (Cminus (ad z w) (Cplus z w)) <= u * Cmod (Cplus z w) + eta.
Definition quot_near (u lo hi : R) (q : R -> R -> R) : Prop :=
  forall x y, lo <= x <= hi -> lo <= y <= hi -> Rabs (q x y - x / y) <= u * (x / y).

(** All of them, for matrices with up to N rows and columns and singular values
    between lo and hi. *)
Definition arith_near (N : nat) (gam th u eta lo hi : R) (ar : arith) : Prop :=
  dot_near N gam th (ar_dot ar) /\ div_near u eta lo hi (ar_div ar) /\ add_near u eta (ar_add ar) /\
  quot_near u lo hi (ar_quot ar) /\ 0 <= u /\ 0 <= eta.

(** A sum of the products [l], each in exact form, that rounding makes into [s]: the
    products are rounded and added in any order and grouping, or added to a partial
    sum by a fused multiplication and addition. *)
Inductive summed (rd : R -> R) : list R -> R -> Prop :=
| summed_none : summed rd [] 0
| summed_one x : summed rd [x] (rd x)
| summed_fused x l s : summed rd l s -> summed rd (x :: l) (rd (x + s))
| summed_add l1 l2 s1 s2 : l1 <> [] -> l2 <> [] -> summed rd l1 s1 -> summed rd l2 s2 -> summed rd (l1 ++ l2) (rd (s1 + s2))
| summed_order l l' s : Permutation l l' -> summed rd l s -> summed rd l' s.

(** The products of which the real and the imaginary part of an inner product are
    made. *)
Definition real_products (xs ys : list C) : list R := map (fun '(a, b) => Re a * Re b) (combine xs ys).
Definition re_products (xs ys : list C) : list R := flat_map (fun '(a, b) => [Re a * Re b; - (Im a * Im b)]) (combine xs ys).
Definition im_products (xs ys : list C) : list R := flat_map (fun '(a, b) => [Re a * Im b; Im a * Re b]) (combine xs ys).

(** What a library that multiplies real or complex matrices may return. *)
Definition inner_product (rd : R -> R) (xs ys : list C) (z : C) : Prop :=
  (summed rd (re_products xs ys) (Re z) /\ summed rd (im_products xs ys) (Im z)) \/
  (Forall (fun a => Im a = 0) xs /\ Forall (fun b => Im b = 0) ys /\ summed rd (real_products xs ys) (Re z) /\ Im z = 0).

(** An arithmetic made of operations rounded by [rd]; sums of products are added up
    in any order, divisions are componentwise or numpy's complex ones. *)
Definition rounded_arith (rd : R -> R) (ar : arith) : Prop :=
  (forall idx xs ys, List.length xs = List.length ys -> inner_product rd xs ys (ar_dot ar idx xs ys)) /\
  (forall z s, ar_div ar z s = div_parts rd z s \/ ar_div ar z s = div_smith rd z s) /\
  (forall z w, ar_add ar z w = add_parts rd z w) /\
  (forall x y, ar_quot ar x y = rd (x / y)).

(** The range of the singular values is far from overflow and underflow. *)
Definition fair_range (u eta lo hi : R) : Prop :=
  0 < lo <= hi /\ 2 * eta * hi <= u /\ 2 * eta <= u * lo /\ eta * hi <= u * lo.

(** * Decompositions *)

(** The columns of M are orthonormal up to a: M^H M differs from the identity by
    an operator of norm at most a. *)
Definition nearly_isometric (M : mat) (a : R) : Prop :=
  0 <= a /\
  forall g, size (mc M) (vsub (apply_mat (adjoint M) (apply_mat M g)) g) <= a * size (mc M) g.

(** (u, s, vH) decomposes A, which has at least as many rows as columns and full
    rank, up to d, with orthonormality up to a and c and singular values between
    lo and hi. *)
Definition decomposes (A : mat) (r : svd_result) (a c d lo hi : R) : Prop :=
  mr (r_u r) = mr A /\ mc (r_u r) = mc A /\ List.length (r_s r) = mc A /\ mr (r_vh r) = mc A /\ mc (r_vh r) = mc A /\
  nearly_isometric (r_u r) a /\ nearly_isometric (r_vh r) c /\ nearly_isometric (adjoint (r_vh r)) c /\
  0 <= d /\
  (forall g, size (mr A) (vsub (apply_mat A g)
       (apply_mat (r_u r) (fun k => Cmult (RtoC (nth k (r_s r) 0)) (apply_mat (r_vh r) g k)))) <= d * size (mc A) g) /\
  0 < lo <= hi /\
  (forall k, (k < mc A)%nat -> lo <= nth k (r_s r) 0 <= hi).

(** The decomposition of a real matrix is real. *)
Definition real_decomposition (A : mat) (r : svd_result) : Prop :=
  (forall i k, (i < mr A)%nat -> (k < mc A)%nat -> Im (me (r_u r) i k) = 0) /\
  (forall k l, (k < mc A)%nat -> (l < mc A)%nat -> Im (me (r_vh r) k l) = 0).

(** * Operations along an axis *)

(** Replaces every slice of length L along the axis by a slice of length N such
    that the two are related by P; the other axes stay in place. *)
Definition slices (a N : nat) (P : (nat -> C) -> (nat -> C) -> Prop) (x y : nd C) : Prop :=
  shp y = set_nth a N (shp x) /\
  forall idx, valid_index (shp y) idx -> P (fun l => elt x (set_nth a l idx)) (fun i => elt y (set_nth a i idx)).

(** An operation op(x, axis=k) that does so, with AxisError for an axis that x does
    not have and ValueError for slices of another length. *)
Definition slices_along (op : nd C -> Z -> res (nd C)) (L N : nat) (P : (nat -> C) -> (nat -> C) -> Prop) : Prop :=
  forall x k,
  match axis_of (List.length (shp x)) k with
  | None => op x k = Raise AxisError
  | Some a => if Nat.eqb (nth a (shp x) 0%nat) L
              then exists y, op x k = Ok y /\ slices a N P x y
              else op x k = Raise ValueError
  end.

(** op(x) without axis: along the last axis but one, along the only axis of a
    vector; ValueError for a scalar and for slices of another length. *)
Definition slices_default (op : nd C -> res (nd C)) (L N : nat) (P : (nat -> C) -> (nat -> C) -> Prop) : Prop :=
  forall x,
  match List.length (shp x) with
  | O => op x = Raise ValueError
  | S n => if Nat.eqb (nth (n - 1) (shp x) 0%nat) L
           then exists y, op x = Ok y /\ slices (n - 1) N P x y
           else op x = Raise ValueError
  end.

(** * Errors of evaluate and fit *)

(** Each value of the expansion with coefficients g, in the functions whose values
    are the rows of A, up to gam times the sum of the absolute values of its terms. *)
Definition values_near (A : mat) (gam th : R) (g x : nat -> C) : Prop :=
  forall i, (i < mr A)%nat ->
  Cmod (Cminus (x i) (csumn (mc A) (fun l => Cmult (me A i l) (g l)))) <=
  gam * sumn (mc A) (fun l => Cmod (me A i l) * Cmod (g l)) + th.

(** The error of the coefficients fitted to x, for n coefficients: gs is the norm of
    the coefficients, rs what is left of the residual and xs the norm of x. *)
Definition fit_error (n : nat) (gam th u eta a c d lo hi gs rs xs : R) : R :=
  (c + 2 * (hi / lo) * a + 2 * d / lo) * gs + 2 * rs / lo +
  4 * (gam + u) * sqrt (INR n) * xs / lo + 4 * sqrt (INR n) * ((th + eta) / lo + th + eta).

(** y is close to each g (with property G) by as much as the values of g at the
    sampling points are close to x. *)
Definition fits (G : (nat -> C) -> Prop) (A : mat) (gam th u eta a c d lo hi : R) (x y : nat -> C) : Prop :=
  forall g, G g ->
  size (mc A) (vsub y g) <=
  fit_error (mc A) gam th u eta a c d lo hi (size (mc A) g) (size (mr A) (vsub (apply_mat A g) x)) (size (mr A) x).

(** y is close to the least-squares solution (described by LS), of which the
    residual counts only as much as the decomposition is wrong. *)
Definition fits_best (LS : mat -> (nat -> C) -> (nat -> C) -> Prop) (A : mat) (gam th u eta a c d lo hi : R) (x y : nat -> C) : Prop :=
  forall g, LS A x g ->
  size (mc A) (vsub y g) <=
  fit_error (mc A) gam th u eta a c d lo hi (size (mc A) g) (d / lo * size (mr A) (vsub (apply_mat A g) x)) (size (mr A) x).

(** The errors are small enough for these bounds. *)
Definition small_fit (n : nat) (gam u a c : R) : Prop :=
  a <= 1 / 10 /\ c <= 1 / 10 /\ gam * sqrt (INR n) <= 1 / 100 /\ u <= 1 / 10000.

(** fit(evaluate(g)) - g relative to g, apart from underflow. *)
Definition round_trip_error (n : nat) (gam u a c d lo hi : R) : R :=
  c + 2 * (hi / lo) * a + 2 * d / lo + 7 * (gam + u) * sqrt (INR n) * (2 * (hi / lo) + d / lo).
(** What underflow adds to it, for m sampling points. *)
Definition round_trip_underflow (m n : nat) (gam th u eta lo : R) : R :=
  2 * (1 + 2 * (gam + u) * sqrt (INR n)) * sqrt (INR m) * th / lo + 4 * sqrt (INR n) * ((th + eta) / lo + th + eta).
(** The coefficients y that come back from the coefficients g (with property G). *)
Definition comes_back (G : (nat -> C) -> Prop) (A : mat) (gam th u eta a c d lo hi : R) (g y : nat -> C) : Prop :=
  G g ->
  size (mc A) (vsub y g) <=
  round_trip_error (mc A) gam u a c d lo hi * size (mc A) g + round_trip_underflow (mr A) (mc A) gam th u eta lo.

(** The entries of two matrices of the same shape differ by at most e. *)
Definition entries_near (A B : mat) (e : R) : Prop :=
  mr B = mr A /\ mc B = mc A /\ 0 <= e /\
  forall i l, (i < mr A)%nat -> (l < mc A)%nat -> Cmod (Cminus (me A i l) (me B i l)) <= e.
