(** Fourier transforms of piecewise polynomials in rounded arithmetic: poly.py:242-255
    and 303-388 with every operation on reals rounded by [rd].  Products of complex
    numbers, the matrix product and the library functions are given.  With the
    identity for [rd] and exact products and functions these are the definitions of
    Model/FT.v (theorem C97_exact_arithmetic).  The values of the high-frequency
    model (line 253) are given too.  Overflow is not modelled. *)
From Coq Require Import ZArith Arith Bool Reals.
From Coquelicot Require Import Complex.
From Flocq Require Import Core.
From Coq Require Import List.
From Verif.Model Require Import Base Util Num Poly FT.
Import ListNotations.
Open Scope R_scope.

(** What the code takes from Python, numpy and scipy: np.pi, spherical_jn, the real
    and the imaginary part of np.exp(1j * t), the product of complex numbers, and the
    inner product from which the element of the matrix product for frequency j and
    polynomial l is computed (its terms may be added in an order of their own). *)
Record flib := Flib { f_pi : R; f_jn : nat -> R -> R; f_cos : R -> R; f_sin : R -> R;
                      f_mul : C -> C -> C; f_dot : nat -> nat -> list C -> list C -> C }.

(** poly.py:312-321, _get_tnl; the factor 2 * _imag_power(l) is exact. *)
Definition get_tnl_rd (F : flib) (l : nat) (w : R) : C :=
  let r := f_mul F (Cmult (RtoC 2) (imag_power (Z.of_nat l))) (RtoC (f_jn F l (Rabs w))) in
  if Rltb w 0 then Cconj r else r.

(** dx.cumsum() from the front, and dx[::-1].cumsum()[::-1]: [dxsum_rev_rd] of k
    adds the last k + 1 elements. *)
Fixpoint dxsum_rd (rd : R -> R) (g : geom) (i : nat) : R :=
  match i with
  | O => nth 0 (gdx g) 0
  | S j => rd (dxsum_rd rd g j + nth i (gdx g) 0)
  end.
Fixpoint dxsum_rev_rd (rd : R -> R) (g : geom) (k : nat) : R :=
  match k with
  | O => nth (gnseg g - 1) (gdx g) 0
  | S j => rd (dxsum_rev_rd rd g j + nth (gnseg g - 1 - k) (gdx g) 0)
  end.

(** poly.py:324-338, _shift_xmid. *)
Definition shift_xmid_rd (rd : R -> R) (g : geom) (i : nat) : R * Z :=
  let dx_half := rd (nth i (gdx g) 0 / 2) in
  let xmid_m1 := rd (dxsum_rd rd g i - dx_half) in
  let xmid_p1 := rd (- dxsum_rev_rd rd g (gnseg g - 1 - i) + dx_half) in
  let xmid_0 := rd (nth (S i) (gknots g) 0 - dx_half) in
  let shift := ZnearestE xmid_0 in
  (match (shift + 1)%Z with
   | 0%Z => xmid_m1
   | 1%Z => xmid_0
   | _ => xmid_p1
   end, shift).

(** poly.py:341-369, _phase_stable for an integer frequency, which is converted to a
    floating point number before it is multiplied. *)
Definition phase_stable_rd (rd : R -> R) (F : flib) (g : geom) (n : Z) (i : nat) : C :=
  let '(diff, shift) := shift_xmid_rd rd g i in
  let t := rd (rd (/ 2 * f_pi F) * rd (rd (IZR n) * diff)) in
  f_mul F (imag_power ((shift + 1) * n)) (f_cos F t, f_sin F t).

(** poly.py:374-382: t_pin and data_sc for order p and segment i. *)
Definition t_pin_rd (rd : R -> R) (F : flib) (g : geom) (n : Z) (p i : nat) : C :=
  let wred := rd (rd (f_pi F / 2) * rd (IZR n)) in
  f_mul F (get_tnl_rd F p (rd (wred * rd (nth i (gdx g) 0 / 2)))) (phase_stable_rd rd F g n i).
Definition data_sc_rd (rd : R -> R) (g : geom) (c : col) (p i : nat) : R :=
  rd (cdat c p i * rd (sqrt (rd (rd (nth i (gdx g) 0 / 2) / 2)))).

(** poly.py:384-388: the pairs (order, segment) in the order in which arrays of that
    shape are ravelled, and the product over them. *)
Definition pairs (g : geom) : list (nat * nat) :=
  flat_map (fun p => map (fun i => (p, i)) (seq 0 (gnseg g))) (seq 0 (gorder g)).
Definition unl_entry_rd (rd : R -> R) (F : flib) (g : geom) (c : col) (j l : nat) (n : Z) : C :=
  f_dot F j l (map (fun pi => t_pin_rd rd F g n (fst pi) (snd pi)) (pairs g))
              (map (fun pi => RtoC (data_sc_rd rd g c (fst pi) (snd pi))) (pairs g)).
Definition unl_inner_rd (rd : R -> R) (F : flib) (g : geom) (cols : list col) (ns : list Z) : res (list (list C)) :=
  let npi := (gorder g * gnseg g)%nat in
  let total := (glen g * gnseg g * length cols)%nat in
  if Nat.eqb npi 0 || negb (Nat.eqb (total mod npi) 0) then Raise ValueError else
  if negb (Nat.eqb (total / npi * length ns) (length cols * length ns)) then Raise ValueError else
  Ok (map (fun lc => map (fun jn => unl_entry_rd rd F g (snd lc) (fst jn) (fst lc) (snd jn)) (combine (seq 0 (length ns)) ns))
          (combine (seq 0 (length cols)) cols)).

(** poly.py:242-255, __call__; [model] l n is the value of the high-frequency model. *)
Definition ft_call_rd (rd : R -> R) (F : flib) (model : nat -> Z -> C) (f : ft) (n : list Z) : res (list (list C)) :=
  do ns <- check_reduced_matsubara (IntArr n) (ft_zeta (ffreq f));
  do inner <- unl_inner_rd rd F (fgeom f) (fcols f) ns;
  Ok (map (fun lrow => map (fun nv => if use_asymp f (fst nv) then model (fst lrow) (fst nv) else snd nv)
                           (combine ns (snd lrow)))
          (combine (seq 0 (length inner)) inner)).
