(** FiniteTempBasis in rounded arithmetic: basis.py:43-91 and 315-329, poly.py:36-52
    and sve.py:127-136 with every operation rounded by [rd]; comparisons are exact.
    With the identity for [rd] and exact powers these are the definitions of
    Model/Basis.v (theorem C98_exact_arithmetic).  Overflow is not modelled.  The
    moments stored with the Fourier transform are those of the rounded coefficients;
    they are not rounded themselves and [ft_call_rd], which takes the values of the
    high-frequency model from elsewhere, does not use them. *)
From Coq Require Import String ZArith Arith Bool Reals.
From Coq Require Import List.
From Verif.Model Require Import Base Util Num Poly FT SVE Basis.
Import ListNotations.
Open Scope R_scope.

(** basis.py:327: np.allclose(a, b, atol=0, rtol=4e-16), i.e.
    abs(a - b) <= atol + rtol * abs(b). *)
Definition lam_close_rd (rd : R -> R) (a b : R) : bool :=
  Rleb (Rabs (rd (a - b))) (rd (0 + rd (rd (4 / 10 ^ 16) * Rabs b))).

(** basis.py:315-329, _get_kernel. *)
Definition get_kernel_rd (rd : R -> R) (statistics : string) (lam : R) (kernel : option kern) : res kern :=
  if negb (stat_in statistics) then Raise ValueError else
  match kernel with
  | None => Ok (logistic lam)
  | Some k =>
      match klam k with
      | None => Ok k
      | Some l => if lam_close_rd rd l lam then Ok k else Raise ValueError
      end
  end.

(** np.allclose(a, b) with default tolerances on equally long arrays. *)
Definition close_rd (rd : R -> R) (a b : R) : bool :=
  Rleb (Rabs (rd (a - b))) (rd (rd (/ 10 ^ 8) + rd (rd (/ 10 ^ 5) * Rabs b))).
Definition allclose_rd (rd : R -> R) (a b : list R) : bool := forallb (fun x => x) (map2 (close_rd rd) a b).

(** poly.py:32-63, __init__ with given segment lengths, as [poly_init]. *)
Definition poly_given_rd (rd : R -> R) (order nseg : nat) (dat : list (nat -> nat -> R)) (knots dx symm : list R) : res vpoly :=
  if negb (Nat.eqb (List.length knots) (S nseg)) then Raise ValueError else
  if negb (forallb (fun b => b) (map2 (fun a b => Rleb a b) (init knots) (tl knots))) then Raise ValueError else
  if negb (Nat.eqb (List.length symm) (List.length dat)) then Raise ValueError else
  if negb (Nat.eqb (List.length dx) nseg && allclose_rd rd dx (map rd (diffs knots))) then Raise ValueError else
  Ok (VPoly (Geom order order nseg knots dx) (map2 Col dat symm)).

(** basis.py:75-76: [u.__class__(u.data, f(u.knots), c * u.dx, u.symm)]. *)
Definition rescaled_rd (rd : R -> R) (p : vpoly) (f : R -> R) (c : R) : res vpoly :=
  poly_given_rd rd (glen (vgeom p)) (gnseg (vgeom p)) (map cdat (vcols p)) (map f (gknots (vgeom p)))
                (map (fun d => rd (c * d)) (gdx (vgeom p))) (map csym (vcols p)).

(** basis.py:84-86: the same polynomials times c. *)
Definition scaled_cols_rd (rd : R -> R) (c : R) (cols : list col) : list col :=
  map (fun a => Col (fun k i => rd (c * cdat a k i)) (csym a)) cols.

(** sve.py:127-136, part(eps, max_size), as [part]. *)
Definition part_rd (rd : R -> R) (r : sve_result) (eps : option R) (max_size : option pynum)
  : res (vpoly * list R * vpoly) :=
  let eps' := match eps with None => seps r | Some e => Some e end in
  match ss r with
  | [] => Raise IndexError
  | s0 :: _ =>
      match eps' with
      | None => Raise TypeError
      | Some e =>
          let cut := List.length (filter (fun x => Rleb (rd (e * s0)) x) (ss r)) in
          let full := Ok (su r, ss r, sv r) in
          let slice c := if (c =? Z.of_nat (List.length (ss r)))%Z then full
                         else Ok (getslice (su r) c, slice_to c (ss r), getslice (sv r) c) in
          match max_size with
          | Some (PyInt z) => slice (if (z <? Z.of_nat cut)%Z then z else Z.of_nat cut)
          | Some (PyFloat x) =>
              if xleb x (Fin (INR cut)) && negb (xeqb x (Fin (INR cut)))
              then Raise TypeError else slice (Z.of_nat cut)
          | None => slice (Z.of_nat cut)
          end
      end
  end.

(** basis.py:43-91, __init__; [pw] w z is w**z. *)
Definition basis_init_rd (rd : R -> R) (pw : R -> Z -> R) (compute : kern -> option R -> res sve_result)
           (statistics : string) (beta wmax : R) (eps : option R) (max_size : option pynum)
           (kernel : option kern) (sve : option sve_result) : res basis :=
  if negb (Rltb 0 beta) then Raise ValueError else
  if negb (Rleb 0 wmax) then Raise ValueError else
  do k <- get_kernel_rd rd statistics (rd (beta * wmax)) kernel;
  do r <- (match sve with Some r => Ok r | None => compute k eps end);
  do ' (u, s, v) <- part_rd rd r eps max_size;
  do acc <- (match s with
             | [] => Raise IndexError
             | s0 :: _ =>
                 if (List.length s <? List.length (ss r))%nat
                 then Ok (rd (nth (List.length s) (ss r) 0 / s0))
                 else Ok (rd (last s 0 / s0))
             end);
  do u' <- rescaled_rd rd u (fun x => rd (rd (beta / 2) * rd (x + 1))) (rd (beta / 2));
  do v' <- rescaled_rd rd v (fun y => rd (wmax * y)) wmax;
  let s' := map (fun x => rd (rd (rd (sqrt (rd (rd (beta / 2) * wmax))) * pw wmax (- kyp k)%Z) * x)) s in
  let full := VPoly (vgeom (su r)) (scaled_cols_rd rd (rd (sqrt beta)) (vcols (su r))) in
  match klam k with
  | None => Raise AttributeError
  | Some lam =>
      do q <- even_odd statistics;
      do f <- ft_init full q (AsympAt (rd (40 * lam))) None;
      do f' <- ft_slice f (Z.of_nat (List.length s));
      Ok (Basis statistics beta wmax k r acc u' s' v' f f')
  end.
