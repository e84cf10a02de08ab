(** Specification vocabulary for sampling: operations along one axis of an array,
    singular value decompositions, least squares. *)
From Coq Require Import ZArith Arith Bool Reals.
From Coquelicot Require Import Coquelicot.
From Coq Require Import List.
From Verif.Model Require Import Base Num FT NDArray Sampling.
Import ListNotations.
Open Scope R_scope.

(** The index tuple with its a-th component replaced. *)
Definition set_nth {A} (a : nat) (v : A) (l : list A) : list A := firstn a l ++ v :: skipn (S a) l.

(** The index tuples of an array of the given shape. *)
Definition valid_index (shape idx : list nat) : Prop := Forall2 lt idx shape.

(** [y] arises from [x] by replacing every one-dimensional slice
    g = x[i_0, ..., :, ..., i_n] along axis [a] by the vector f g of length [N];
    all other axes stay where they are. *)
Definition along (a N : nat) (f : (nat -> C) -> nat -> C) (x y : nd C) : Prop :=
  shp y = set_nth a N (shp x) /\
  forall idx, valid_index (shp y) idx ->
    elt y idx = f (fun l => elt x (set_nth a l idx)) (nth a idx 0%nat).

(** The axis meant by [k]: counted from the end if negative; None if there is none. *)
Definition axis_of (n : nat) (k : Z) : option nat :=
  if (0 <=? k)%Z && (k <? Z.of_nat n)%Z then Some (Z.to_nat k)
  else if (- Z.of_nat n <=? k)%Z && (k <? 0)%Z then Some (Z.to_nat (k + Z.of_nat n)) else None.

(** Matrix times vector, Euclidean norm squared of a vector of length n. *)
Definition apply_mat (A : mat) (g : nat -> C) (i : nat) : C := csumn (mc A) (fun l => Cmult (me A i l) (g l)).
Definition norm2 (n : nat) (g : nat -> C) : R := sumn n (fun i => Cmod (g i) ^ 2).
Definition residual2 (A : mat) (g x : nat -> C) : R := norm2 (mr A) (fun i => Cminus (apply_mat A g i) (x i)).

(** [g] is the least-squares solution of A g = x of least norm: no vector has a
    smaller residual, and every other vector with that residual is longer. *)
Definition least_squares (A : mat) (x g : nat -> C) : Prop :=
  forall h, residual2 A g x <= residual2 A h x /\
            (residual2 A h x = residual2 A g x ->
             norm2 (mc A) g <= norm2 (mc A) h /\
             (norm2 (mc A) h = norm2 (mc A) g -> forall l, (l < mc A)%nat -> h l = g l)).

(** Only the zero vector is mapped to zero. *)
Definition full_rank (A : mat) : Prop :=
  forall g, (forall i, (i < mr A)%nat -> apply_mat A g i = RtoC 0) -> forall l, (l < mc A)%nat -> g l = RtoC 0.

(** Kronecker's delta. *)
Definition delta (i j : nat) : C := if Nat.eqb i j then RtoC 1 else RtoC 0.

(** (u, s, vH) is a thin singular value decomposition of A: what numpy.linalg.svd
    computes, in exact arithmetic. *)
Definition is_svd (A : mat) (r : svd_result) : Prop :=
  let K := length (r_s r) in
  mr (r_u r) = mr A /\ mc (r_u r) = K /\ mr (r_vh r) = K /\ mc (r_vh r) = mc A /\
  (forall k k', (k < K)%nat -> (k' < K)%nat ->
     csumn (mr A) (fun i => Cmult (Cconj (me (r_u r) i k)) (me (r_u r) i k')) = delta k k' /\
     csumn (mc A) (fun l => Cmult (me (r_vh r) k l) (Cconj (me (r_vh r) k' l))) = delta k k') /\
  (forall i l, (i < mr A)%nat -> (l < mc A)%nat ->
     me A i l = csumn K (fun k => Cmult (me (r_u r) i k) (Cmult (RtoC (nth k (r_s r) 0)) (me (r_vh r) k l)))) /\
  (forall k, (k < K)%nat -> 0 <= nth k (r_s r) 0) /\
  (forall k, (S k < K)%nat -> nth (S k) (r_s r) 0 <= nth k (r_s r) 0).

(** Vectors of n real numbers. *)
Definition real_vec (n : nat) (g : nat -> C) : Prop := forall l, (l < n)%nat -> Im (g l) = 0.

(** The same among real vectors: [g] is the real least-squares solution of least norm. *)
Definition real_least_squares (A : mat) (x g : nat -> C) : Prop :=
  real_vec (mc A) g /\
  forall h, real_vec (mc A) h ->
            residual2 A g x <= residual2 A h x /\
            (residual2 A h x = residual2 A g x ->
             norm2 (mc A) g <= norm2 (mc A) h /\
             (norm2 (mc A) h = norm2 (mc A) g -> forall l, (l < mc A)%nat -> h l = g l)).

Definition full_real_rank (A : mat) : Prop :=
  forall g, real_vec (mc A) g -> (forall i, (i < mr A)%nat -> apply_mat A g i = RtoC 0) ->
            forall l, (l < mc A)%nat -> g l = RtoC 0.

(** The singular value decomposition of a real matrix is real. *)
Definition is_real_svd (A : mat) (r : svd_result) : Prop :=
  is_svd A r /\
  (forall i k, (i < mr A)%nat -> (k < length (r_s r))%nat -> Im (me (r_u r) i k) = 0) /\
  (forall k l, (k < length (r_s r))%nat -> (l < mc A)%nat -> Im (me (r_vh r) k l) = 0).

(** Entry l of a function evaluated on the one-element array holding p. *)
Definition at_point {P A} (d : A) (eval : list P -> res (list (list A))) (p : P) (l : nat) : A :=
  match eval [p] with Ok M => nth 0 (nth l M []) d | Raise _ => d end.

(** Evaluation of L functions on an array is evaluation at each of its points: it
    succeeds iff it does at each of them, and the l-th row holds their l-th
    entries. *)
Definition pointwise {P A} (d : A) (eval : list P -> res (list (list A))) (L : nat) : Prop :=
  forall ps,
  (is_ok (eval ps) <-> forall p, In p ps -> is_ok (eval [p])) /\
  forall M, eval ps = Ok M ->
    length M = L /\
    forall l row, nth_error M l = Some row -> row = map (fun p => at_point d eval p l) ps.

(** The largest, and the smallest nonzero number of a list. *)
Definition is_largest (l : list R) (m : R) : Prop := In m l /\ Forall (fun x => x <= m) l.
Definition is_smallest_nonzero (l : list R) (m : R) : Prop :=
  In m l /\ m <> 0 /\ Forall (fun x => x <> 0 -> m <= x) l.

(** The same outcome: equal arrays, or the same exception. *)
Definition same_outcome (r1 r2 : res (nd C)) : Prop :=
  match r1, r2 with
  | Ok y1, Ok y2 => shp y1 = shp y2 /\ forall idx, valid_index (shp y1) idx -> elt y1 idx = elt y2 idx
  | Raise e1, Raise e2 => e1 = e2
  | _, _ => False
  end.

(** An operation op(x, axis=k) that replaces slices of length L along axis k by
    slices of length N, leaving the other axes in place, and that raises
    AxisError for an axis that x does not have and ValueError for slices of
    another length. *)
Definition works_along_axis (op : nd C -> Z -> res (nd C)) (L N : nat) (f : (nat -> C) -> nat -> C) : Prop :=
  forall x k,
  match axis_of (length (shp x)) k with
  | None => op x k = Raise AxisError
  | Some a => if Nat.eqb (nth a (shp x) 0%nat) L
              then exists y, op x k = Ok y /\ along a N f x y
              else op x k = Raise ValueError
  end.

(** The outcome of op(x) without axis: a scalar is refused, a vector is treated
    along its axis, any other array along its last but one axis. *)
Definition default_axis (op : nd C -> option Z -> res (nd C)) : Prop :=
  forall x,
  match length (shp x) with
  | O => op x None = Raise ValueError
  | S O => same_outcome (op x None) (op x (Some 0%Z))
  | n => same_outcome (op x None) (op x (Some (Z.of_nat n - 2)%Z))
  end.

(** The expansion with coefficients g in the L functions of [eval], at the point p. *)
Definition expansion_at {P} (eval : list P -> res (list (list C))) (L : nat) (p : P) (g : nat -> C) : C :=
  csumn L (fun l => Cmult (at_point (RtoC 0) eval p l) (g l)).

(** One-dimensional arrays. *)
Definition vector (L : nat) (g : nat -> C) : nd C := Nd [L] (fun idx => g (nth 0 idx 0%nat)).

(** The matrix of a MatsubaraSampling object, whichever way it is decomposed. *)
Definition m_a (m : dmat + sdmat) : mat := match m with inl d => d_a d | inr d => sd_a d end.

(** A matrix with a nonzero element. *)
Definition nonzero (A : mat) : Prop := exists i l, (i < mr A)%nat /\ (l < mc A)%nat /\ me A i l <> RtoC 0.

(** The coefficients returned by fit, without the warning flag. *)
Definition coeffs (r : res (bool * nd C)) : res (nd C) := do ' (_, y) <- r; Ok y.

(** The row of the first frequency is real if that frequency is zero. *)
Definition zero_row_real (p : list Z) (A : mat) : Prop :=
  hd_error p = Some 0%Z -> forall l, (l < mc A)%nat -> Im (me A 0 l) = 0.

(** How many imaginary parts positive_only leaves out of the real system: the one
    of the zero frequency. *)
Definition zoff (p : list Z) : nat := match p with p0 :: _ => if (p0 =? 0)%Z then 1%nat else 0%nat | [] => 0%nat end.

(** All elements are real. *)
Definition real_array (x : nd C) : Prop := forall idx, valid_index (shp x) idx -> Im (elt x idx) = 0.
