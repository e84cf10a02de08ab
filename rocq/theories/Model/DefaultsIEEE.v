(** Default sampling points in rounded arithmetic: poly.py:136-177, 449-452 and
    basis.py:172-176, 185-197, 228-257 with every operation rounded by [rd], on top of
    the rounded evaluation of Model/PolyIEEE.v.  [old] chooses numpy's Clenshaw
    recursion.  A computed zero has a sign bit, which is the parameter [nz]: nz x is the
    sign bit of the value at x should that be a zero.  Without rounding and negative
    zeros these are the functions of Model/Poly.v and Model/Basis.v (theorem
    C102_exact_arithmetic). *)
From Coq Require Import List Reals ZArith Arith Bool.
From Verif.Model Require Import Base Num Roots Poly PolyIEEE SVE Basis NDArray Sampling.
Import ListNotations.
Open Scope R_scope.

(** numpy.polynomial.legendre.legder(c) for n coefficients: the loop adds c[j] to
    c[j-2] for j = n-1, ..., 3, so that [m] additions precede the use of c[j]. *)
Fixpoint legacc (rd : R -> R) (c : nat -> R) (m j : nat) : R :=
  match m with O => c j | S m' => rd (c j + legacc rd c m' (S (S j))) end.
Definition legder_rd (rd : R -> R) (n : nat) (c : nat -> R) (k : nat) : R :=
  if (n <=? 1)%nat then 0 else
  let a := legacc rd c ((n - 1 - S k) / 2) (S k) in
  match k with O => a | S _ => rd ((2 * INR k + 1) * a) end.

(** poly.py:136-143, deriv() of one polynomial. *)
Definition cderiv_rd (rd : R -> R) (g : geom) (c : col) : col :=
  Col (fun k i => rd (legder_rd rd (glen g) (fun k' => cdat c k' i) k * ginv_rd rd g i)) (- csym c).
Definition sderiv_rd (rd : R -> R) (p : spoly) : spoly := SPoly (gderiv 1 (sgeom p)) (cderiv_rd rd (sgeom p) (scol p)).

(** poly.py:449-452, _refine_grid.  np.linspace computes the step and multiplies it,
    but if some step is zero it multiplies the difference with j / alpha. *)
Definition step_rd (rd : R -> R) (a b : R) (alpha : nat) : R := rd (rd (b - a) / INR alpha).
Fixpoint some_step_zero (rd : R -> R) (knots : list R) (alpha : nat) : bool :=
  match knots with
  | a :: ((b :: _) as l') => Reqb (step_rd rd a b alpha) 0 || some_step_zero rd l' alpha
  | _ => false
  end.
Fixpoint refine_pairs_rd (rd : R -> R) (z : bool) (knots : list R) (alpha : nat) : list R :=
  match knots with
  | a :: ((b :: _) as l') =>
      map (fun j => rd ((if z then rd (rd (INR j / INR alpha) * rd (b - a)) else rd (INR j * step_rd rd a b alpha)) + a)) (seq 0 alpha)
      ++ refine_pairs_rd rd z l' alpha
  | _ => []
  end.
Definition refine_grid_rd (rd : R -> R) (knots : list R) (alpha : nat) : list R :=
  refine_pairs_rd rd (some_step_zero rd knots alpha) knots alpha ++ [last knots 0].

(** poly.py:154-163 *)
Definition xmid_rd (rd : R -> R) (g : geom) : R := rd (rd (gxmax g + gxmin g) / 2).
Definition roots_knots_rd (rd : R -> R) (p : spoly) : list R :=
  let g := sgeom p in
  if Reqb (csym (scol p)) 0 then gknots g else
  if Reqb (nth (gnseg g / 2) (gknots g) 0) (xmid_rd rd g)
  then skipn (gnseg g / 2) (gknots g)
  else xmid_rd rd g :: filter (fun k => Rltb (xmid_rd rd g) k) (gknots g).

(** The value at a point between the first and the last knot, where no call raises
    (theorem C102_values), and the sign bit of such a value. *)
Definition value_at (old : bool) (rd : R -> R) (p : spoly) (x : R) : R :=
  let i := segment (sgeom p) x in
  piece_rd old rd (sgeom p) (scol p) i (rd (rd (x - gxm_rd rd (sgeom p) i) * ginv_rd rd (sgeom p) i)).
Definition sign_of (v : R * bool) : bool := if Reqb (fst v) 0 then snd v else Rltb (fst v) 0.

(** poly.py:145-177, roots(alpha). *)
Definition roots_rd (old : bool) (rd : R -> R) (nz : R -> bool) (fuel : nat) (p : spoly) (alpha : nat) : option (list R) :=
  let g := sgeom p in
  let grid := refine_grid_rd rd (roots_knots_rd rd p) alpha in
  match find_all_cont rd sign_of (fun v => Reqb (fst v) 0) fuel (fun x => (value_at old rd p x, nz x)) grid with
  | None => None
  | Some rs =>
      let mirror := fun l => map (fun r => rd (rd (gxmax g + gxmin g) - r)) (rev l) in
      if Reqb (csym (scol p)) 1 then Some (mirror rs ++ rs)
      else if Reqb (csym (scol p)) (-1) then
        let rs' :=
          match rs with
          | [] => rs
          | r :: rest =>
              if Reqb r (xmid_rd rd g) ||
                 Rltb (rd (value_at old rd p (xmid_rd rd g) * value_at old rd (sderiv_rd rd p) (xmid_rd rd g))) 0
              then rest else rs
          end in
        Some (mirror rs' ++ xmid_rd rd g :: rs')
      else Some rs
  end.

(** basis.py:228-257, _default_sampling_points, for L >= 0. *)
Definition default_points_rd (old : bool) (rd : R -> R) (nz : R -> bool) (fuel : nat) (u : vpoly) (L : Z)
  : option (res (list R * bool)) :=
  if negb (Reqb (gxmin (vgeom u)) (-1)) || negb (Reqb (gxmax (vgeom u)) 1)
  then Some (Raise ValueError) else
  let finish x0 := Ok (x0, negb (Z.of_nat (List.length x0) =? L)%Z) in
  if (L <? Z.of_nat (List.length (vcols u)))%Z then
    match getitem u L with
    | Raise e => Some (Raise e)
    | Ok p => match roots_rd old rd nz fuel p 2 with None => None | Some x0 => Some (finish x0) end
    end
  else
    match getitem u (-1) with
    | Raise e => Some (Raise e)
    | Ok p =>
        match roots_rd old rd nz fuel (sderiv_rd rd p) 2 with
        | None => None
        | Some maxima =>
            let left := map (fun m => rd (/ 2 * rd (m + gxmin (vgeom u)))) (firstn 1 maxima) in
            let right := map (fun m => rd (/ 2 * rd (m + gxmax (vgeom u)))) (firstn 1 (rev maxima)) in
            Some (finish (left ++ maxima ++ right))
        end
    end.

(** basis.py:172-176 and 185-197. *)
Definition default_tau_rd (old : bool) (rd : R -> R) (nz : R -> bool) (fuel : nat) (b : basis) (npoints : option Z) :=
  scale_points (fun x => rd (rd (bbeta b / 2) * rd (x + 1)))
    (default_points_rd old rd nz fuel (su (bsve b)) (npoints_or_size b npoints)).
Definition default_omega_rd (old : bool) (rd : R -> R) (nz : R -> bool) (fuel : nat) (b : basis) (npoints : option Z) :=
  scale_points (fun y => rd (bwmax b * y))
    (default_points_rd old rd nz fuel (sv (bsve b)) (npoints_or_size b npoints)).
