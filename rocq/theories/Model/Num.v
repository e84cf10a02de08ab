(** Finite sums over index ranges, as used by numpy reductions, and Legendre
    polynomials as provided by numpy.polynomial.legendre. *)
From Coq Require Import List Reals Arith Bool.
Import ListNotations.
Open Scope R_scope.

(** sum(f(i) for i in range(n)) *)
Fixpoint sumn (n : nat) (f : nat -> R) : R :=
  match n with
  | O => 0
  | S m => sumn m f + f m
  end.

(** (P_k(x), P_{k+1}(x)) by Bonnet's recurrence
    (k + 2) P_{k+2} = (2k + 3) x P_{k+1} - (k + 1) P_k. *)
Fixpoint legpair (k : nat) (x : R) : R * R :=
  match k with
  | O => (1, x)
  | S m =>
      let '(p0, p1) := legpair m x in
      (p1, ((2 * INR m + 3) * x * p1 - (INR m + 1) * p0) / (INR m + 2))
  end.

(** The k-th Legendre polynomial. *)
Definition legP (k : nat) (x : R) : R := fst (legpair k x).

(** numpy.polynomial.legendre.legval(x, c) for n coefficients. *)
Definition legval (n : nat) (c : nat -> R) (x : R) : R :=
  sumn n (fun k => c k * legP k x).

(** numpy.polynomial.legendre.legder(c) for n coefficients: coefficient k of the
    derivative is (2k + 1) times the sum of c_j over j > k with j - k odd; the
    result has max(n - 1, 1) coefficients. *)
Definition legder1 (n : nat) (c : nat -> R) (k : nat) : R :=
  (2 * INR k + 1) * sumn n (fun j => if (k <? j)%nat && Nat.odd (j - k) then c j else 0).
Definition legder1_len (n : nat) : nat := Nat.max (n - 1) 1.

(** legder(c, m): repeated m times. *)
Fixpoint legder (m n : nat) (c : nat -> R) : nat -> R :=
  match m with
  | O => c
  | S m' => legder m' (legder1_len n) (legder1 n c)
  end.
Definition legder_len (m n : nat) : nat := Nat.iter m legder1_len n.

(** numpy's [a.sum()] over a 1-D array. *)
Definition rsum (l : list R) : R := fold_right Rplus 0 l.

(** [np.abs(a).max()]-style maximum of a non-empty array; None for an empty one
    (numpy raises ValueError). *)
Fixpoint rmax_list (l : list R) : option R :=
  match l with
  | [] => None
  | x :: l' => match rmax_list l' with None => Some x | Some m => Some (Rmax x m) end
  end.
