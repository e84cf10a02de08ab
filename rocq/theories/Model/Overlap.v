(** Model of the overlap integrals of /repo/src/sparse_ir/poly.py:105-134 and
    469-525.  Arithmetic is exact.  The integrand f maps a point to the flattened
    array it returns, or raises; its shape is modelled by the number of
    components.  The polynomials are a set (data.ndim == 3); a single polynomial
    is a set of one.  Arrays indexed by polynomial and component are functions of
    the two indices. *)
From Coq Require Import List Reals ZArith Arith Bool.
From Verif.Model Require Import Base Util Num Gauss Kronrod Poly.
Import ListNotations.
Open Scope R_scope.

(** poly.py:490 for one interval: base_rule.reseat(xstart, xstop). *)
Definition seat (st : R * R) : nested := nreseat kronrod_31_15 (fst st) (snd st).
Definition nodes (st : R * R) : list R := rx (nr (seat st)).

(** poly.py:492-497: the values of f at the nodes of all intervals, and the
    number of components.  No interval at all, or arrays of different shapes,
    raise ValueError (in numpy or on line 496); [prev] is f_shape. *)
Definition sample (f : R -> res (list R)) (prev : option nat) (iv : list (R * R))
  : res (nat * list (list (list R))) :=
  do fx <- collect (map (fun st => collect (map f (nodes st))) iv);
  match concat fx with
  | [] => Raise ValueError
  | v0 :: _ =>
      if forallb (fun v => Nat.eqb (length v) (length v0)) (concat fx) then
        match prev with
        | Some k => if Nat.eqb (length v0) k then Ok (k, fx) else Raise ValueError
        | None => Ok (length v0, fx)
        end
      else Raise ValueError
  end.

(** poly.py:499: poly(rule.x); the range of all points is checked first. *)
Definition poly_values (p : vpoly) (iv : list (R * R)) : res (list (list (list R))) :=
  if negb (forallb (in_range (vgeom p)) (concat (map nodes iv))) then Raise ValueError else
  collect (map (fun st => vcall_arr p (nodes st)) iv).

(** poly.py:499-501 for one interval, polynomial l and component c: sums of
    products of values and weights. *)
Definition wsum (c : nat) (row : list R) (fx : list (list R)) (w : list R) : R :=
  rsum (map2 Rmult (map2 (fun a v => a * nth c v 0) row fx) w).
(** An interval with its integrals int21 and int10. *)
Record panel := Panel { pspan : R * R; pint21 : nat -> nat -> R; pint10 : nat -> nat -> R }.
Definition make_panel (st : R * R) (fx : list (list R)) (px : list (list R)) : panel :=
  Panel st
    (fun l c => wsum c (nth l px []) fx (rw (nr (seat st))))
    (fun l c => wsum c (vsel (nth l px [])) (vsel fx) (nv (seat st))).
(** poly.py:502-503, intdiff and intmagn. *)
Definition pdiff (q : panel) (l c : nat) : R := Rabs (pint21 q l c - pint10 q l c).
Definition pmagn (q : panel) (l c : nat) : R := Rabs (pint10 q l c).

(** max over the components 0..n-1; of none ValueError. *)
Definition cmax (n : nat) (g : nat -> R) : res R :=
  match rmax_list (map g (seq 0 n)) with Some m => Ok m | None => Raise ValueError end.
(** The same after the check that there are components. *)
Definition cmaxd (n : nat) (g : nat -> R) : R := match cmax n g with Ok m => m | Raise _ => 0 end.

(** a / b for a >= 0 and b >= 0 in floating point. *)
Definition xdiv (a b : R) : xr :=
  if Reqb b 0 then (if Reqb a 0 then NaN else PInf) else Fin (a / b).

(** The running totals res_value, res_error, res_magn. *)
Record totals := Totals { tvalue : nat -> nat -> R; terror : nat -> nat -> R; tmagn : nat -> R }.
Definition totals0 : totals := Totals (fun _ _ => 0) (fun _ _ => 0) (fun _ => 0).
Definition psum (g : panel -> R) (ps : list panel) : R := rsum (map g ps).

(** poly.py:505-508: magn, relerror and xconverged, for np polynomials and nc
    components. *)
Definition magnitude (nc : nat) (t : totals) (ps : list panel) (l : nat) : R :=
  tmagn t l + cmaxd nc (fun c => psum (fun q => pmagn q l c) ps).
Definition converged (np nc : nat) (rtol : xr) (t : totals) (ps : list panel) (q : panel) : bool :=
  forallb (fun l => xleb (xdiv (cmaxd nc (pdiff q l)) (magnitude nc t ps l)) rtol) (seq 0 np).

(** poly.py:509-511. *)
Definition accumulate (nc : nat) (t : totals) (ps : list panel) : totals :=
  Totals (fun l c => tvalue t l c + psum (fun q => pint10 q l c) ps)
         (fun l c => terror t l c + psum (fun q => pdiff q l c) ps)
         (fun l => tmagn t l + cmaxd nc (fun c => psum (fun q => pmagn q l c) ps)).

(** poly.py:515-520: np.linspace(xstart, xstop, radix + 1) and its cells. *)
Definition cells (radix : nat) (st : R * R) : list (R * R) :=
  let edge := map (fun k => fst st + INR k * ((snd st - fst st) / INR radix)) (seq 0 (S radix)) in
  combine (init edge) (tl edge).

(** poly.py:484-522, the loop; the result is the totals, f_shape and whether a
    warning was issued. *)
Fixpoint levels (n : nat) (radix max_points : nat) (p : vpoly) (f : R -> res (list R)) (rtol : xr)
    (shape : option nat) (t : totals) (iv : list (R * R)) : res (totals * option nat * bool) :=
  match n with
  | O => Ok (t, shape, true)
  | S n' =>
      if Nat.ltb max_points (length iv) then Ok (t, shape, true) else
      do fx <- sample f shape iv;
      do px <- poly_values p iv;
      let nc := fst fx in
      let ps := map2 (fun st d => make_panel st (fst d) (snd d)) iv (combine (snd fx) px) in
      do _ <- cmax nc (fun _ => 0);
      let ok := converged (length (vcols p)) nc rtol t ps in
      let t' := accumulate nc t (filter ok ps) in
      if forallb ok ps then Ok (t', Some nc, false)
      else levels n' radix max_points p f rtol (Some nc) t'
             (flat_map (cells radix) (map pspan (filter (fun q => negb (ok q)) ps)))
  end.

(** poly.py:469-525, _compute_overlap; without any level f_shape is None and the
    addition on line 524 raises TypeError.  The result is the values and errors
    as functions of polynomial and component, the number of components, and
    whether a warning was issued. *)
Definition compute_overlap (p : vpoly) (f : R -> res (list R)) (rtol : xr)
    (radix max_levels max_points : nat) (points : option (list R))
  : res ((nat -> nat -> R) * (nat -> nat -> R) * nat * bool) :=
  let knots := match points with
               | None => gknots (vgeom p)
               | Some pts => runique (gknots (vgeom p) ++ pts)
               end in
  do out <- levels max_levels radix max_points p f rtol None totals0 (combine (init knots) (tl knots));
  let '(t, shape, warned) := out in
  match shape with
  | None => Raise TypeError
  | Some nc => Ok (tvalue t, terror t, nc, warned)
  end.

(** poly.py:105-134, overlap, with the defaults of _compute_overlap; the second
    component is the error, returned if return_error is true. *)
Definition overlap (p : vpoly) (f : R -> res (list R)) (rtol : xr) (points : option (list R))
  : res ((nat -> nat -> R) * (nat -> nat -> R) * nat * bool) :=
  compute_overlap p f rtol 2 40 2000 points.
