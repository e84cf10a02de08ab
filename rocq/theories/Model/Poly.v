(** Model of PiecewiseLegendrePoly, /repo/src/sparse_ir/poly.py:13-195 and
    449-452.  Arithmetic is exact.  A set of polynomials is a vector (data.ndim
    == 3); a single polynomial (data.ndim == 2) is one column of it.  Data of
    higher rank, which the library never creates, is not modelled; neither is
    the NaN test of line 22. *)
From Coq Require Import List Reals ZArith Arith Bool.
From Verif.Model Require Import Base Num Roots.
Import ListNotations.
Open Scope R_scope.

(** poly.py:52-63: attributes shared by all polynomials of a set.  [gorder] is
    self.polyorder, [glen] is self.data.shape[0]; they agree after construction
    from data, but deriv() changes only the latter. *)
Record geom := Geom { gorder : nat; glen : nat; gnseg : nat; gknots : list R; gdx : list R }.

(** One polynomial of a set: data[:, :, l] as a function of order and segment,
    and symm[l]. *)
Record col := Col { cdat : nat -> nat -> R; csym : R }.

Record vpoly := VPoly { vgeom : geom; vcols : list col }.
Record spoly := SPoly { sgeom : geom; scol : col }.

(** poly.py:55-56, 61-63: xmin, xmax, _xm, _inv_xs, _norm. *)
Definition gxmin (g : geom) : R := nth 0 (gknots g) 0.
Definition gxmax (g : geom) : R := nth (gnseg g) (gknots g) 0.
Definition gxm (g : geom) (i : nat) : R := / 2 * (nth (S i) (gknots g) 0 + nth i (gknots g) 0).
Definition ginv (g : geom) (i : nat) : R := 2 / nth i (gdx g) 0.
Definition gnorm (g : geom) (i : nat) : R := sqrt (ginv g i).

(** knots[1:] - knots[:-1] *)
Definition diffs (l : list R) : list R := map2 (fun a b => b - a) (init l) (tl l).

(** np.allclose(a, b) with default tolerances on equally long arrays. *)
Definition close (a b : R) : bool := Rleb (Rabs (a - b)) (/ 10 ^ 8 + / 10 ^ 5 * Rabs b).
Definition allclose (a b : list R) : bool := forallb (fun x => x) (map2 close a b).

(** poly.py:20-64, PiecewiseLegendrePoly.__init__ from data of shape
    (order, nseg, length cols).  [dx] and [symm], if given, have the right
    lengths or ValueError is raised (line 45-46; for dx broadcasting against
    another shape is not modelled). *)
Definition poly_init (order nseg : nat) (dat : list (nat -> nat -> R)) (knots : list R)
           (dx : option (list R)) (symm : option (list R)) : res vpoly :=
  if negb (Nat.eqb (length knots) (S nseg)) then Raise ValueError else
  if negb (forallb (fun b => b) (map2 (fun a b => Rleb a b) (init knots) (tl knots)))
  then Raise ValueError else
  do sy <- (match symm with
            | None => Ok (map (fun _ => 0) dat)
            | Some s => if Nat.eqb (length s) (length dat) then Ok s else Raise ValueError
            end);
  do d <- (match dx with
           | None => Ok (diffs knots)
           | Some d => if Nat.eqb (length d) nseg && allclose d (diffs knots) then Ok d else Raise ValueError
           end);
  Ok (VPoly (Geom order order nseg knots d) (map2 Col dat sy)).

(** Python indexing with an integer: negative counts from the end. *)
Definition pyindex {A} (l : list A) (i : Z) : option A :=
  let n := Z.of_nat (length l) in
  if ((- n <=? i) && (i <? n))%Z%bool
  then nth_error l (Z.to_nat (if (i <? 0)%Z then i + n else i)%Z)
  else None.

(** poly.py:66-73, __getitem__ with an integer and with a slice [:stop]; the
    geometry, including polyorder, is copied from self (lines 24-29). *)
Definition getitem (p : vpoly) (l : Z) : res spoly :=
  match pyindex (vcols p) l with
  | None => Raise IndexError
  | Some c => Ok (SPoly (vgeom p) c)
  end.
Definition getslice (p : vpoly) (stop : Z) : vpoly := VPoly (vgeom p) (slice_to stop (vcols p)).

(** poly.py:188-195, _split: [searchsorted(x, 'right')] is the number of knots
    not above x; with no segments the index is -1 into empty arrays. *)
Definition segment (g : geom) (x : R) : nat :=
  (Nat.min (length (filter (fun k => Rleb k x) (gknots g))) (gnseg g) - 1)%nat.
Definition in_range (g : geom) (x : R) : bool := Rleb (gxmin g) x && Rleb x (gxmax g).
Definition split (g : geom) (x : R) : res (nat * R) :=
  if negb (in_range g x) then Raise ValueError else
  match gnseg g with
  | O => Raise IndexError
  | S _ => let i := segment g x in Ok (i, (x - gxm g i) * ginv g i)
  end.

(** poly.py:79-85: the value of one polynomial at one point, without the range
    check of [split]. *)
Definition cval (g : geom) (c : col) (x : R) : R :=
  let i := segment g x in
  legval (glen g) (fun k => cdat c k i) ((x - gxm g i) * ginv g i) * gnorm g i.

(** poly.py:75-89, __call__ of a single polynomial and of a set at one point.
    legval of no coefficients raises IndexError. *)
Definition scall (p : spoly) (x : R) : res R :=
  do ix <- split (sgeom p) x;
  match glen (sgeom p) with O => Raise IndexError | S _ =>
  Ok (legval (glen (sgeom p)) (fun k => cdat (scol p) k (fst ix)) (snd ix) * gnorm (sgeom p) (fst ix)) end.
Definition vcall (p : vpoly) (x : R) : res (list R) :=
  do ix <- split (vgeom p) x;
  match glen (vgeom p) with O => Raise IndexError | S _ =>
  Ok (map (fun c => legval (glen (vgeom p)) (fun k => cdat c k (fst ix)) (snd ix) * gnorm (vgeom p) (fst ix))
          (vcols p)) end.

(** __call__ of a set on a 1-D array: entry [l][m] belongs to polynomial l and
    point m.  The range check (line 190) looks at all points first. *)
Fixpoint collect {A} (l : list (res A)) : res (list A) :=
  match l with
  | [] => Ok []
  | r :: l' => do a <- r; do t <- collect l'; Ok (a :: t)
  end.
Definition vcall_arr (p : vpoly) (xs : list R) : res (list (list R)) :=
  if negb (forallb (in_range (vgeom p)) xs) then Raise ValueError else
  do ix <- collect (map (split (vgeom p)) xs);
  match glen (vgeom p) with O => Raise IndexError | S _ =>
  Ok (map (fun c => map (fun a => legval (glen (vgeom p)) (fun k => cdat c k (fst a)) (snd a) * gnorm (vgeom p) (fst a)) ix)
          (vcols p)) end.

(** poly.py:91-103, value(l, x) at one index and point. *)
Definition value (p : vpoly) (l : Z) (x : R) : res R :=
  do ix <- split (vgeom p) x;
  match pyindex (vcols p) l with
  | None => Raise IndexError
  | Some c =>
      match glen (vgeom p) with O => Raise IndexError | S _ =>
      Ok (legval (glen (vgeom p)) (fun k => cdat c k (fst ix)) (snd ix) * gnorm (vgeom p) (fst ix)) end
  end.

(** poly.py:136-143, deriv(n). *)
Definition gderiv (n : nat) (g : geom) : geom :=
  Geom (gorder g) (legder_len n (glen g)) (gnseg g) (gknots g) (gdx g).
Definition cderiv (n : nat) (g : geom) (c : col) : col :=
  Col (fun k i => legder n (glen g) (fun k' => cdat c k' i) k * ginv g i ^ n) ((-1) ^ n * csym c).
Definition vderiv (n : nat) (p : vpoly) : vpoly :=
  VPoly (gderiv n (vgeom p)) (map (cderiv n (vgeom p)) (vcols p)).
Definition sderiv (n : nat) (p : spoly) : spoly :=
  SPoly (gderiv n (sgeom p)) (cderiv n (sgeom p) (scol p)).

(** poly.py:449-452, _refine_grid. *)
Fixpoint refine_pairs (knots : list R) (alpha : nat) : list R :=
  match knots with
  | a :: ((b :: _) as l') =>
      map (fun j => a + INR j * ((b - a) / INR alpha)) (seq 0 alpha) ++ refine_pairs l' alpha
  | _ => []
  end.
Definition refine_grid (knots : list R) (alpha : nat) : list R :=
  refine_pairs knots alpha ++ [last knots 0].

(** poly.py:154-163: the grid on which roots are searched. *)
Definition xmid (g : geom) : R := (gxmax g + gxmin g) / 2.
Definition roots_knots (p : spoly) : list R :=
  let g := sgeom p in
  if Reqb (csym (scol p)) 0 then gknots g else
  if Reqb (nth (gnseg g / 2) (gknots g) 0) (xmid g)
  then skipn (gnseg g / 2) (gknots g)
  else xmid g :: filter (fun k => Rltb (xmid g) k) (gknots g).

(** poly.py:145-177, roots(alpha).  All points at which the polynomial is
    evaluated lie between the first and last knot, so that no call raises.
    [None] is non-termination of the bisection. *)
Definition roots (rnd : R -> R) (fuel : nat) (p : spoly) (alpha : nat) : option (list R) :=
  let g := sgeom p in
  let f := cval g (scol p) in
  let grid := refine_grid (roots_knots p) alpha in
  match find_all_cont rnd rsignbit (fun v => Reqb v 0) fuel f grid with
  | None => None
  | Some rs =>
      let mirror := fun l => map (fun r => (gxmax g + gxmin g) - r) (rev l) in
      if Reqb (csym (scol p)) 1 then Some (mirror rs ++ rs)
      else if Reqb (csym (scol p)) (-1) then
        let d := sderiv 1 p in
        let rs' :=
          match rs with
          | [] => rs
          | r :: rest =>
              if Reqb r (xmid g) ||
                 Rltb (f (xmid g) * cval (sgeom d) (scol d) (xmid g)) 0
              then rest else rs
          end in
        Some (mirror rs' ++ xmid g :: rs')
      else Some rs
  end.
