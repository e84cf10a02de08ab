(** Piecewise polynomials evaluated in rounded arithmetic: poly.py:75-103 and
    188-195 with every addition, multiplication, division and square root rounded by
    [rd]; comparisons are exact.  numpy's legval is modelled as the program it is
    (Clenshaw's recurrence) and not, as in Model/Num.v, as the sum it stands for.
    With the identity for [rd] these are the definitions of Model/Poly.v (theorem
    C92_exact_arithmetic).  Overflow is not modelled. *)
From Coq Require Import List Reals ZArith Arith Bool.
From Verif.Model Require Import Base Num Poly.
Import ListNotations.
Open Scope R_scope.

(** a * (num / den); older versions of numpy compute (a * num) / den. *)
Definition times_ratio (old : bool) (rd : R -> R) (a num den : R) : R :=
  if old then rd (rd (a * num) / den) else rd (a * rd (num / den)).

(** The loop of numpy.polynomial.legendre.legval: [j] coefficients are left and
    nd is j + 1.
      tmp = c0
      c0 = c[-i] - c1*((nd - 1)/nd)
      c1 = tmp + c1*x*((2*nd - 1)/nd)  *)
Fixpoint clenshaw (old : bool) (rd : R -> R) (c : nat -> R) (x : R) (j : nat) (c0 c1 : R) : R * R :=
  match j with
  | O => (c0, c1)
  | S j' =>
      clenshaw old rd c x j'
        (rd (c j' - times_ratio old rd c1 (INR j) (INR (S j))))
        (rd (c0 + times_ratio old rd (rd (c1 * x)) (2 * INR j + 1) (INR (S j))))
  end.

(** numpy.polynomial.legendre.legval(x, c) for n coefficients.  Without
    coefficients it raises IndexError (see [vcall_rd]); the value 0 is not used. *)
Definition legval_rd (old : bool) (rd : R -> R) (n : nat) (c : nat -> R) (x : R) : R :=
  match n with
  | O => 0
  | S O => rd (c O + rd (0 * x))
  | S (S m) => let '(c0, c1) := clenshaw old rd c x m (c m) (c (S m)) in rd (c0 + rd (c1 * x))
  end.

(** poly.py:61-63: _xm, _inv_xs, _norm. *)
Definition gxm_rd (rd : R -> R) (g : geom) (i : nat) : R := rd (/ 2 * rd (nth (S i) (gknots g) 0 + nth i (gknots g) 0)).
Definition ginv_rd (rd : R -> R) (g : geom) (i : nat) : R := rd (2 / nth i (gdx g) 0).
Definition gnorm_rd (rd : R -> R) (g : geom) (i : nat) : R := rd (sqrt (ginv_rd rd g i)).

(** poly.py:188-195, _split. *)
Definition split_rd (rd : R -> R) (g : geom) (x : R) : res (nat * R) :=
  if negb (in_range g x) then Raise ValueError else
  match gnseg g with
  | O => Raise IndexError
  | S _ => let i := segment g x in Ok (i, rd (rd (x - gxm_rd rd g i) * ginv_rd rd g i))
  end.

(** poly.py:79-85, the value of one polynomial in segment i. *)
Definition piece_rd (old : bool) (rd : R -> R) (g : geom) (c : col) (i : nat) (xt : R) : R :=
  rd (legval_rd old rd (glen g) (fun k => cdat c k i) xt * gnorm_rd rd g i).

(** poly.py:75-89, __call__ of a single polynomial and of a set at one point. *)
Definition scall_rd (old : bool) (rd : R -> R) (p : spoly) (x : R) : res R :=
  do ix <- split_rd rd (sgeom p) x;
  match glen (sgeom p) with O => Raise IndexError | S _ => Ok (piece_rd old rd (sgeom p) (scol p) (fst ix) (snd ix)) end.
Definition vcall_rd (old : bool) (rd : R -> R) (p : vpoly) (x : R) : res (list R) :=
  do ix <- split_rd rd (vgeom p) x;
  match glen (vgeom p) with O => Raise IndexError | S _ =>
  Ok (map (fun c => piece_rd old rd (vgeom p) c (fst ix) (snd ix)) (vcols p)) end.

(** __call__ of a set on a 1-D array, as [vcall_arr]. *)
Definition vcall_arr_rd (old : bool) (rd : R -> R) (p : vpoly) (xs : list R) : res (list (list R)) :=
  if negb (forallb (in_range (vgeom p)) xs) then Raise ValueError else
  do ix <- collect (map (split_rd rd (vgeom p)) xs);
  match glen (vgeom p) with O => Raise IndexError | S _ =>
  Ok (map (fun c => map (fun a => piece_rd old rd (vgeom p) c (fst a) (snd a)) ix) (vcols p)) end.

(** poly.py:91-103, value(l, x) at one index and point. *)
Definition value_rd (old : bool) (rd : R -> R) (p : vpoly) (l : Z) (x : R) : res R :=
  do ix <- split_rd rd (vgeom p) x;
  match pyindex (vcols p) l with
  | None => Raise IndexError
  | Some c => match glen (vgeom p) with O => Raise IndexError | S _ => Ok (piece_rd old rd (vgeom p) c (fst ix) (snd ix)) end
  end.
