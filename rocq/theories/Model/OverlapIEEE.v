(** The overlap integrals of /repo/src/sparse_ir/poly.py:105-134 and 469-525 in
    rounded arithmetic: the functions of Model/Overlap.v with every addition,
    multiplication and division rounded by [rd], the polynomials evaluated by
    [vcall_arr_rd], and sums computed by [sm] (np.sum adds in an order and
    grouping of its own).  Comparisons and maxima are exact.  Only radix = 2, the
    default, is modelled; overlap() does not pass another one.  Without rounding
    these are the definitions of Model/Overlap.v (theorem C107_exact_arithmetic).
    Overflow is not modelled. *)
From Coq Require Import Reals ZArith Arith Bool.
From Coq Require Import List.
From Verif.Model Require Import Base Util Num Gauss Kronrod Poly PolyIEEE GaussIEEE Overlap.
Import ListNotations.
Open Scope R_scope.

(** _gauss.py:232-260, kronrod_31_15: the literals are rounded when they are
    read.  The distances to the ends are not used here. *)
Definition kronrod_rd (rd : R -> R) : nested :=
  Nested (rule_init (map rd kronrod_x) (map rd kronrod_w) None None (-1) 1) (map rd kronrod_v).

(** _gauss.py:210-215, NestedRule.reseat, as called on poly.py:490. *)
Definition seat_rd (rd : R -> R) (st : R * R) : nested :=
  let k := kronrod_rd rd in
  Nested (reseat_rd rd (nr k) (fst st) (snd st))
         (map (fun v => rd (rd (rd (snd st - fst st) / rd (rb (nr k) - ra (nr k))) * v)) (nv k)).
Definition nodes_rd (rd : R -> R) (st : R * R) : list R := rx (nr (seat_rd rd st)).

(** poly.py:492-497, as [sample]. *)
Definition sample_rd (rd : R -> R) (f : R -> res (list R)) (prev : option nat) (iv : list (R * R))
  : res (nat * list (list (list R))) :=
  do fx <- collect (map (fun st => collect (map f (nodes_rd rd st))) iv);
  match concat fx with
  | [] => Raise ValueError
  | v0 :: _ =>
      if forallb (fun v => Nat.eqb (length v) (length v0)) (concat fx) then
        match prev with
        | Some k => if Nat.eqb (length v0) k then Ok (k, fx) else Raise ValueError
        | None => Ok (length v0, fx)
        end
      else Raise ValueError
  end.

(** poly.py:499: poly(rule.x); the range of all points is checked first. *)
Definition poly_values_rd (old : bool) (rd : R -> R) (p : vpoly) (iv : list (R * R)) : res (list (list (list R))) :=
  if negb (forallb (in_range (vgeom p)) (concat (map (nodes_rd rd) iv))) then Raise ValueError else
  collect (map (fun st => vcall_arr_rd old rd p (nodes_rd rd st)) iv).

(** poly.py:499-501 for one interval, polynomial l and component c. *)
Definition wsum_rd (rd : R -> R) (sm : list R -> R) (c : nat) (row : list R) (fx : list (list R)) (w : list R) : R :=
  sm (map2 (fun a b => rd (a * b)) (map2 (fun a v => rd (a * nth c v 0)) row fx) w).
Definition make_panel_rd (rd : R -> R) (sm : list R -> R) (st : R * R) (fx : list (list R)) (px : list (list R)) : panel :=
  Panel st
    (fun l c => wsum_rd rd sm c (nth l px []) fx (rw (nr (seat_rd rd st))))
    (fun l c => wsum_rd rd sm c (vsel (nth l px [])) (vsel fx) (nv (seat_rd rd st))).
(** poly.py:502, intdiff; intmagn of line 503 is [pmagn]. *)
Definition pdiff_rd (rd : R -> R) (q : panel) (l c : nat) : R := Rabs (rd (pint21 q l c - pint10 q l c)).

(** a / b for a >= 0 and b >= 0. *)
Definition xdiv_rd (rd : R -> R) (a b : R) : xr :=
  if Reqb b 0 then (if Reqb a 0 then NaN else PInf) else Fin (rd (a / b)).

(** poly.py:505-508: magn, relerror and xconverged. *)
Definition magnitude_rd (rd : R -> R) (sm : list R -> R) (nc : nat) (t : totals) (ps : list panel) (l : nat) : R :=
  rd (tmagn t l + cmaxd nc (fun c => sm (map (fun q => pmagn q l c) ps))).
Definition converged_rd (rd : R -> R) (sm : list R -> R) (np nc : nat) (rtol : xr) (t : totals) (ps : list panel) (q : panel) : bool :=
  forallb (fun l => xleb (xdiv_rd rd (cmaxd nc (pdiff_rd rd q l)) (magnitude_rd rd sm nc t ps l)) rtol) (seq 0 np).

(** poly.py:509-511. *)
Definition accumulate_rd (rd : R -> R) (sm : list R -> R) (nc : nat) (t : totals) (ps : list panel) : totals :=
  Totals (fun l c => rd (tvalue t l c + sm (map (fun q => pint10 q l c) ps)))
         (fun l c => rd (terror t l c + sm (map (fun q => pdiff_rd rd q l c) ps)))
         (fun l => rd (tmagn t l + cmaxd nc (fun c => sm (map (fun q => pmagn q l c) ps)))).

(** poly.py:517-519: np.linspace(xstart, xstop, 3).  The last point is xstop itself.
    The inner one is step + xstart with the step (xstop - xstart) / 2, whether or not
    some step is zero, for 1 * step and (1 / 2) * (xstop - xstart) round to the same. *)
Definition mid_rd (rd : R -> R) (s t : R) : R := rd (rd (rd (t - s) / 2) + s).
Definition cells_rd (rd : R -> R) (st : R * R) : list (R * R) :=
  let m := mid_rd rd (fst st) (snd st) in [(fst st, m); (m, snd st)].

(** poly.py:484-522, the loop, as [levels]. *)
Fixpoint levels_rd (rd : R -> R) (old : bool) (sm : list R -> R) (n : nat) (max_points : nat) (p : vpoly) (f : R -> res (list R)) (rtol : xr)
    (shape : option nat) (t : totals) (iv : list (R * R)) : res (totals * option nat * bool) :=
  match n with
  | O => Ok (t, shape, true)
  | S n' =>
      if Nat.ltb max_points (length iv) then Ok (t, shape, true) else
      do fx <- sample_rd rd f shape iv;
      do px <- poly_values_rd old rd p iv;
      let nc := fst fx in
      let ps := map2 (fun st d => make_panel_rd rd sm st (fst d) (snd d)) iv (combine (snd fx) px) in
      do _ <- cmax nc (fun _ => 0);
      let ok := converged_rd rd sm (length (vcols p)) nc rtol t ps in
      let t' := accumulate_rd rd sm nc t (filter ok ps) in
      if forallb ok ps then Ok (t', Some nc, false)
      else levels_rd rd old sm n' max_points p f rtol (Some nc) t'
             (flat_map (cells_rd rd) (map pspan (filter (fun q => negb (ok q)) ps)))
  end.

(** poly.py:469-525, _compute_overlap with radix = 2. *)
Definition compute_overlap_rd (rd : R -> R) (old : bool) (sm : list R -> R) (p : vpoly) (f : R -> res (list R)) (rtol : xr)
    (max_levels max_points : nat) (points : option (list R))
  : res ((nat -> nat -> R) * (nat -> nat -> R) * nat * bool) :=
  let knots := match points with
               | None => gknots (vgeom p)
               | Some pts => runique (gknots (vgeom p) ++ pts)
               end in
  do out <- levels_rd rd old sm max_levels max_points p f rtol None totals0 (combine (init knots) (tl knots));
  let '(t, shape, warned) := out in
  match shape with
  | None => Raise TypeError
  | Some nc => Ok (tvalue t, terror t, nc, warned)
  end.

(** poly.py:105-134, overlap, with the defaults of _compute_overlap. *)
Definition overlap_rd (rd : R -> R) (old : bool) (sm : list R -> R) (p : vpoly) (f : R -> res (list R)) (rtol : xr) (points : option (list R))
  : res ((nat -> nat -> R) * (nat -> nat -> R) * nat * bool) :=
  compute_overlap_rd rd old sm p f rtol 40 2000 points.
