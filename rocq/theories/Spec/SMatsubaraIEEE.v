(** Specification vocabulary for default Matsubara sampling points in rounded
    arithmetic. *)
From Coq Require Import String ZArith Arith Reals.
From Coquelicot Require Import Coquelicot.
From Coq Require Import List.
From Verif.Model Require Import Base Num Matsubara Poly FT FTIEEE SVE Basis.
From Verif.Spec Require Import SRoots SPoly SFT SDefaults SKernelIEEE SSVEIEEE SFTIEEE SBasisIEEE.
Import ListNotations.
Open Scope R_scope.

(** A function that is called with lists of frequencies and returns one number for each,
    and for each the sign bit it has should it be a zero. *)
Definition sampled : Type := list Z -> list (R * bool).
Definition shaped (f : sampled) : Prop := forall l, List.length (f l) = List.length l.

(** In the call with the frequencies l, [v] is returned for x; some call returns [v]
    for x. *)
Definition seen (f : sampled) (l : list Z) (x : Z) (v : R * bool) : Prop :=
  exists i, nth_error l i = Some x /\ nth_error (f l) i = Some v.
Definition computed (f : sampled) (x : Z) (v : R * bool) : Prop := exists l, seen f l x v.

(** A negative number or the negative zero. *)
Definition negative (v : R * bool) : Prop := fst v < 0 \/ (fst v = 0 /\ snd v = true).

(** Numbers with different signs are returned for r and r + 1. *)
Definition changes (f : sampled) (r : Z) : Prop :=
  exists v w, computed f r v /\ computed f (r + 1)%Z w /\ ((negative v /\ ~ negative w) \/ (~ negative v /\ negative w)).

(** The rounded difference w - v is negative or the negative zero, which is what
    (-0) - (+0) gives. *)
Definition falls (rd : R -> R) (v w : R * bool) : Prop :=
  rd (fst w - fst v) < 0 \/
  (rd (fst w - fst v) = 0 /\ fst v = 0 /\ snd v = false /\ fst w = 0 /\ snd w = true).

(** Among the values of a call with the whole grid, those for the neighbours a, c, b
    fall and rise, or rise and fall. *)
Definition turns_rd (rd : R -> R) (f : sampled) (grid : list Z) (a c b : Z) : Prop :=
  adjacent3 grid a c b /\
  exists va vc vb, seen f grid a va /\ seen f grid c vc /\ seen f grid b vb /\
    ((falls rd va vc /\ ~ falls rd vc vb) \/ (~ falls rd va vc /\ falls rd vc vb)).

(** No two neighbouring triples of grid points both turn. *)
Definition no_double_turn_rd (rd : R -> R) (f : sampled) (grid : list Z) : Prop :=
  forall a c d b, turns_rd rd f grid a c d -> turns_rd rd f grid c d b -> False.

(** The magnitude decreases or the sign changes from x to y. *)
Definition outer_max_rd (f : sampled) (grid : list Z) (x y : Z) : Prop :=
  exists v w, seen f grid x v /\ seen f grid y w /\
    (Rabs (fst w) < Rabs (fst v) \/ (negative v /\ ~ negative w) \/ (~ negative v /\ negative w)).

(** Strictly between a and b, with magnitude no less than that of its neighbours
    strictly between, for the values returned by calls with one frequency. *)
Definition inner_max_rd (f : sampled) (a b r : Z) : Prop :=
  exists g, (forall x, exists s, f [x] = [(g x, s)]) /\ inner_max g a b r.

(** Left function l of the expansion is marked as even, or as odd. *)
Definition marked (r : sve_result) (l : nat) (even : bool) (c : col) : Prop :=
  nth_error (vcols (su r)) l = Some c /\ csym c = (if even then 1 else -1).

(** The coordinate in which the transform of an even or odd function does not vanish. *)
Definition coordinate (q : freq) (even : bool) (w : C) : R :=
  match q, even with Even, true | Odd, false => Re w | _, _ => Im w end.

(** What the transform of the function with coefficients [c] is at the frequency n:
    below the threshold [T] the Fourier integral over [0, beta], otherwise the value of
    the high-frequency model. *)
Definition true_value (b : basis) (c : col) (T : R) (model : Z -> C) (n : Z) (w : C) : Prop :=
  (Rabs (IZR n) < T ->
   is_fourier (fun t => PI * IZR n * t / bbeta b)
     (fun t => sqrt (2 / bbeta b) * cval (ideal_geom (vgeom (su (bsve b)))) c (2 * t / bbeta b - 1)) 0 (bbeta b) w) /\
  (T <= Rabs (IZR n) -> w = model n).

(** The allowed distance. *)
Definition value_error (u eta delta th : R) (b : basis) (c : col) (n : Z) : R :=
  uhat_error u eta delta th (bbeta b) (vgeom (su (bsve b))) c n.

(** The numbers [f] returns are coordinates of values that uhat_full[l] returns. *)
Definition uhat_values (rd : R -> R) (F : flib) (model : Z -> C) (b : basis) (l : nat) (even : bool) (f : sampled) : Prop :=
  forall x v, computed f x v ->
  exists p ns M j w, ft_item (buhat_full b) (Z.of_nat l) = Ok p /\
    ft_call_rd rd F (fun _ => model) p ns = Ok M /\ nth_error ns j = Some (nu b x) /\ entry M 0 j = Some w /\
    fst v = coordinate (stat_freq b) even w.

(** The arithmetic and the library are accurate, and nothing is near the smallest
    numbers. *)
Definition accurate_search (u eta : R) (rd : R -> R) (b : basis) (F : flib) (ej ec um em gam th : R) : Prop :=
  rounding u eta rd /\ 0 < u <= / 10000 /\ 0 <= eta /\
  (let g := vgeom (su (bsve b)) in library_near (gorder g) (gorder g * gnseg g) u ej ec um em gam th F) /\
  small_library ej ec um em gam /\ 1000 * eta <= u * sqrt (bbeta b) /\ INR (gnseg (vgeom (su (bsve b)))) * u <= / 200.
