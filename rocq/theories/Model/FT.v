(** Model of PiecewiseLegendreFT and its helpers, /repo/src/sparse_ir/poly.py:198-446.
    Arithmetic is exact; frequencies are integers, as they are after
    check_reduced_matsubara.  The search for extrema and sign changes is in
    Model/Matsubara.v. *)
From Coq Require Import List Reals ZArith Arith Bool.
From Coquelicot Require Import Complex.
From Flocq Require Import Core.
From Verif.Model Require Import Base Util Num Poly.
Import ListNotations.
Open Scope R_scope.

(** scipy.special.spherical_jn(l, z) for z >= 0: the spherical Bessel function,
    given here by its recurrence j_0 = sin z / z, j_1 = sin z / z^2 - cos z / z,
    j_(l+2) = (2l + 3)/z j_(l+1) - j_l, and by its limit at z = 0.  (The library
    computes it numerically; the model takes the mathematical function.) *)
Fixpoint sph_pair (l : nat) (z : R) : R * R :=
  match l with
  | O => (sin z / z, sin z / z ^ 2 - cos z / z)
  | S m => let '(j0, j1) := sph_pair m z in (j1, (2 * INR m + 3) / z * j1 - j0)
  end.
Definition sph_jn (l : nat) (z : R) : R :=
  if Req_EM_T z 0 then match l with O => 1 | _ => 0 end else fst (sph_pair l z).

(** poly.py:303-309, _imag_power: cycle[n % 4] (Python's modulus). *)
Definition imag_power (n : Z) : C :=
  match (n mod 4)%Z with
  | 0%Z => (1, 0)
  | 1%Z => (0, 1)
  | 2%Z => (-1, 0)
  | _ => (0, -1)
  end.

(** poly.py:312-321, _get_tnl. *)
Definition get_tnl (l : nat) (w : R) : C :=
  let r := Cmult (RtoC 2) (Cmult (imag_power (Z.of_nat l)) (RtoC (sph_jn l (Rabs w)))) in
  if Rltb w 0 then Cconj r else r.

(** poly.py:324-338, _shift_xmid: midpoint of segment i as (diff, shift).
    np.round rounds to nearest, ties to even; np.choose raises ValueError for a
    shift outside -1, 0, 1, which does not happen on [-1, 1]. *)
Definition dxsum (g : geom) (i : nat) : R := sumn (S i) (fun j => nth j (gdx g) 0).
Definition dxsum_rev (g : geom) (i : nat) : R :=
  sumn (gnseg g - i) (fun j => nth (i + j) (gdx g) 0).
Definition shift_xmid (g : geom) (i : nat) : R * Z :=
  let dx_half := nth i (gdx g) 0 / 2 in
  let xmid_m1 := dxsum g i - dx_half in
  let xmid_p1 := - dxsum_rev g i + dx_half in
  let xmid_0 := nth (S i) (gknots g) 0 - dx_half in
  let shift := ZnearestE xmid_0 in
  (match (shift + 1)%Z with
   | 0%Z => xmid_m1
   | 1%Z => xmid_0
   | _ => xmid_p1
   end, shift).

(** exp(i t) *)
Definition cexp (t : R) : C := (cos t, sin t).

(** poly.py:341-369, _phase_stable for an integer frequency (line 358-359). *)
Definition phase_stable (g : geom) (n : Z) (i : nat) : C :=
  let '(diff, shift) := shift_xmid g i in
  Cmult (imag_power ((shift + 1) * n)) (cexp (/ 2 * PI * (IZR n * diff))).

Fixpoint csumn (n : nat) (f : nat -> C) : C :=
  match n with
  | O => RtoC 0
  | S m => Cplus (csumn m f) (f m)
  end.

(** poly.py:372-388, _compute_unl_inner for one polynomial and one frequency:
    the matrix product over order and segment. *)
Definition unl_entry (g : geom) (c : col) (n : Z) : C :=
  csumn (gnseg g) (fun i => csumn (gorder g) (fun p =>
    Cmult (Cmult (get_tnl p (PI / 2 * IZR n * (nth i (gdx g) 0 / 2))) (phase_stable g n i))
          (RtoC (cdat c p i * sqrt (nth i (gdx g) 0 / 2 / 2))))).

(** The same for a set of L polynomials and an array of frequencies.  The
    reshapes of lines 385-387 assume data.shape[0] == polyorder: the first fails
    unless the number of data is a multiple of polyorder * nsegments, the last
    unless the number of results is L times the number of frequencies. *)
Definition unl_inner (g : geom) (cols : list col) (ns : list Z) : res (list (list C)) :=
  let npi := (gorder g * gnseg g)%nat in
  let total := (glen g * gnseg g * length cols)%nat in
  if Nat.eqb npi 0 || negb (Nat.eqb (total mod npi) 0) then Raise ValueError else
  if negb (Nat.eqb (total / npi * length ns) (length cols * length ns)) then Raise ValueError else
  Ok (map (fun c => map (unl_entry g c) ns) cols).

(** poly.py:391-420, _PowerModel: giw at one frequency, for the moments of one
    function (Horner's scheme from the highest moment down). *)
Definition inv_iw (n : Z) : C := if (n =? 0)%Z then RtoC 0 else Cinv (0, PI / 2 * IZR n).
Fixpoint giw (moments : list R) (n : Z) : C :=
  match moments with
  | [] => RtoC 0
  | m :: ms => Cmult (Cplus (giw ms n) (RtoC m)) (inv_iw n)
  end.

(** freq is 'any', 'even' or 'odd'; zeta is poly.py:217. *)
Inductive ftfreq := FAny | FEven | FOdd.
Definition ft_zeta (q : ftfreq) : option Z :=
  match q with FAny => None | FEven => Some 0%Z | FOdd => Some 1%Z end.
(** poly.py:433, the statistics sign; KeyError for 'any'. *)
Definition statsign (q : ftfreq) : res R :=
  match q with FAny => Raise KeyError | FEven => Ok 1 | FOdd => Ok (-1) end.

(** poly.py:423-428, _derivs at x = 1. *)
Fixpoint derivs_from (k : nat) (p : vpoly) (x : R) : res (list (list R)) :=
  match k with
  | O => Ok []
  | S k' => do v <- vcall (vderiv 1 p) x; do vs <- derivs_from k' (vderiv 1 p) x; Ok (v :: vs)
  end.
Definition derivs (p : vpoly) (x : R) : res (list (list R)) :=
  do v <- vcall p x; do vs <- derivs_from (gorder (vgeom p) - 1) p x; Ok (v :: vs).

(** poly.py:431-446, _power_moments and _power_model: the moments of each
    polynomial l. *)
Definition power_moment (s : R) (m l : nat) (d : R) : R :=
  - s / sqrt 2 * (((-1) ^ (m + 1) + s * (-1) ^ l) * d).
Definition power_model (q : ftfreq) (p : vpoly) : res (list (list R)) :=
  do d <- derivs p 1;
  do s <- statsign q;
  Ok (map (fun l => map (fun mr => power_moment s (fst mr) l (nth l (snd mr) 0))
                        (combine (seq 0 (length d)) d))
          (seq 0 (length (vcols p)))).

(** poly.py:213-230: the object for a set of polynomials.  [fasymp] None is
    np.inf; [fmodel] None is Python's None. *)
Record ft := FT { fgeom : geom; fcols : list col; ffreq : ftfreq; fasymp : option R;
                  fmodel : option (list (list R)) }.
(** The argument n_asymp: None, np.inf or a number. *)
Inductive asymp := NoAsymp | AsympInf | AsympAt (a : R).
Definition ft_init (p : vpoly) (q : ftfreq) (n_asymp : asymp) (model : option (list (list R))) : res ft :=
  if negb (Reqb (gxmin (vgeom p)) (-1)) || negb (Reqb (gxmax (vgeom p)) 1) then Raise NotImplementedError else
  let with_model a :=
      do m <- (match model with None => power_model q p | Some m => Ok m end);
      Ok (FT (vgeom p) (vcols p) q a (Some m)) in
  match n_asymp with
  | NoAsymp => Ok (FT (vgeom p) (vcols p) q None None)
  | AsympInf => with_model None
  | AsympAt a => with_model (Some a)
  end.

(** poly.py:238-240, __getitem__ with a slice [:stop] and with an integer; the
    model is sliced too, so that moments keep the parity of the original index.
    The attribute n_asymp is passed on, i.e. np.inf and not None, so that a model
    is built if there was none.  A single polynomial is a set of one. *)
Definition asymp_of (a : option R) : asymp := match a with None => AsympInf | Some a => AsympAt a end.
Definition ft_slice (f : ft) (stop : Z) : res ft :=
  ft_init (VPoly (fgeom f) (slice_to stop (fcols f))) (ffreq f) (asymp_of (fasymp f))
          (option_map (slice_to stop) (fmodel f)).
Definition ft_item (f : ft) (l : Z) : res ft :=
  match pyindex (fcols f) l with
  | None => Raise IndexError
  | Some c =>
      match fmodel f with
      | None => ft_init (VPoly (fgeom f) [c]) (ffreq f) (asymp_of (fasymp f)) None
      | Some ms =>
          match pyindex ms l with
          | None => Raise IndexError
          | Some m => ft_init (VPoly (fgeom f) [c]) (ffreq f) (asymp_of (fasymp f)) (Some [m])
          end
      end
  end.

(** poly.py:242-255, __call__ on a 1-D array of integers (other shapes are
    reduced to this by the decorator). *)
Definition use_asymp (f : ft) (n : Z) : bool :=
  match fasymp f with None => false | Some a => Rleb a (Rabs (IZR n)) end.
Definition ft_moments (f : ft) (l : nat) : list R :=
  match fmodel f with None => [] | Some ms => nth l ms [] end.
Definition ft_call (f : ft) (n : list Z) : res (list (list C)) :=
  do ns <- check_reduced_matsubara (IntArr n) (ft_zeta (ffreq f));
  do inner <- unl_inner (fgeom f) (fcols f) ns;
  Ok (map (fun lrow => map (fun nv => if use_asymp f (fst nv) then giw (ft_moments f (fst lrow)) (fst nv) else snd nv)
                           (combine ns (snd lrow)))
          (combine (seq 0 (length inner)) inner)).

(** poly.py:285-299, _func_for_part: which part of the transform is searched for
    extrema and sign changes.  np.allclose(parity, +-1) tests the stored parity;
    a ValueError is raised otherwise. *)
Inductive cpart := RealPart | ImagPart.
Definition func_part (sym : R) (zeta : option Z) : res cpart :=
  let z0 := match zeta with Some 0%Z => true | _ => false end in
  if close sym 1 then Ok (if z0 then RealPart else ImagPart)
  else if close sym (-1) then Ok (if z0 then ImagPart else RealPart)
  else Raise ValueError.
