(** Model of src/sparse_ir/kernel.py: the integral kernels, their symmetrised
    versions, weight functions and discretisation hints.  Arithmetic is exact,
    lambda_ is a finite real and arrays are of floating type (for integer
    lambda_ and integer arrays RegularizedBoseKernel raises in np.divide, which
    is not modelled). *)
From Coq Require Import String ZArith Arith Bool Reals.
From Coq Require Import List.
From Flocq Require Import Core.
From Verif.Model Require Import Base Util Num Gauss.
Import ListNotations.
Open Scope R_scope.

(** The elementary functions as computed.  numpy evaluates them only where a
    mask is set and leaves uninitialised memory elsewhere, and large arguments
    overflow: each is arbitrary outside the range stated by [tfun_ok] in
    Spec/SKernel.v. *)
Record tfun := TFun { f_exp : R -> R; f_expm1 : R -> R; f_sinh : R -> R; f_cosh : R -> R }.

(** LogisticKernel and RegularizedBoseKernel objects, kernel.py:159-160, 263-264:
    lambda_ is stored unchecked. *)
Inductive kernel := Logistic (lam : R) | RegBose (lam : R).
Definition k_lambda (k : kernel) : R := match k with Logistic l => l | RegBose l => l end.

(** kernel.py:79-81, 306: ypower. *)
Definition k_ypower (k : kernel) : Z := match k with Logistic _ => 0 | RegBose _ => 1 end.

(** kernel.py:194, 309: conv_radius. *)
Definition k_conv_radius (k : kernel) : R := 40 * k_lambda k.

(** kernel.py:521-529, _compute_uv at one point. *)
Definition compute_uv (lam x y : R) (x_plus x_minus : option R) : R * R * R :=
  let xp := match x_plus with None => 1 + x | Some a => a end in
  let xm := match x_minus with None => 1 - x | Some a => a end in
  (/ 2 * xp, / 2 * xm, lam * y).

(** kernel.py:170-182, LogisticKernel._compute. *)
Definition logistic_compute (f : tfun) (u_plus u_minus v : R) : R :=
  let abs_v := Rabs v in
  let enum := f_exp f (- abs_v * (if Rltb 0 v then u_plus else u_minus)) in
  let denom := 1 + f_exp f (- abs_v) in
  enum / denom.

(** kernel.py:271-291, RegularizedBoseKernel._compute. *)
Definition bose_compute (f : tfun) (lam u_plus u_minus v : R) : R :=
  let abs_v := Rabs v in
  let enum := f_exp f (- abs_v * (if Rleb 0 v then u_plus else u_minus)) in
  let not_tiny := Rleb (/ 10 ^ 200) abs_v in
  let denom := if not_tiny then abs_v / f_expm1 f (- abs_v) else -1 in
  - 1 / lam * enum * denom.

(** kernel.py:162-165, 266-269: the value at one point of the domain. *)
Definition kernel_at (f : tfun) (k : kernel) (x y : R) (x_plus x_minus : option R) : R :=
  let '(up, um, v) := compute_uv (k_lambda k) x y x_plus x_minus in
  match k with
  | Logistic _ => logistic_compute f up um v
  | RegBose lam => bose_compute f lam up um v
  end.

(** kernel.py:497-508, _check_domain: all x and then all y are tested; NaN fails. *)
Definition all_between (lo hi : R) (l : list xr) : bool :=
  forallb (fun a => xgeb a (Fin lo)) l && forallb (fun a => xleb a (Fin hi)) l.
Definition check_domain (lo hi : R) (x y : list xr) : res unit :=
  if negb (all_between lo hi x) then Raise ValueError else
  if negb (all_between lo hi y) then Raise ValueError else Ok tt.
(** The finite values of an array that passed the check. *)
Definition fins (l : list xr) : list R := map (fun a => match a with Fin r => r | _ => 0 end) l.

(** Distances as an optional column, one entry per x. *)
Definition at_row (o : option (list R)) (i : nat) : option R :=
  match o with None => None | Some l => Some (nth i l 0) end.

(** __call__ on a column of x, a row of y and columns of distances, i.e.
    kernel(x[:,None], y[None,:], x_plus[:,None], x_minus[:,None]); a call with
    scalars is the case of one element each. *)
Definition kernel_call (f : tfun) (k : kernel) (x y : list xr) (x_plus x_minus : option (list R))
  : res (list (list R)) :=
  do _ <- check_domain (-1) 1 x y;
  Ok (map (fun i => map (fun b => kernel_at f k (nth i (fins x) 0) b (at_row x_plus i) (at_row x_minus i)) (fins y))
          (seq 0 (List.length x))).

(** kernel.py:358-381 ReducedKernel, 440-460 _LogisticKernelOdd, 463-485
    _RegularizedBoseKernelOdd: inner kernel, sign, and whether the object is of
    one of the classes with a closed form. *)
Record reduced := Reduced { rinner : kernel; rsign : R; rclosed : bool }.

(** kernel.py:374-381, __init__; both inner kernels are centrosymmetric. *)
Definition reduced_init (k : kernel) (sign : R) (closed : bool) : res reduced :=
  if Reqb (Rabs sign) 1 then Ok (Reduced k sign closed) else Raise ValueError.

(** kernel.py:69-76, 188-191, 300-303: get_symmetrized. *)
Definition get_symmetrized (k : kernel) (sign : R) : res reduced :=
  if Reqb sign (-1) then reduced_init k sign true else reduced_init k sign false.

(** kernel.py:413-414, 416-420: get_symmetrized of a symmetrized kernel, its
    ypower and conv_radius. *)
Definition reduced_symmetrized (r : reduced) (sign : R) : res reduced := Raise RuntimeError.
Definition reduced_ypower (r : reduced) : Z := k_ypower (rinner r).
Definition reduced_conv_radius (r : reduced) : R := k_conv_radius (rinner r).

(** kernel.py:383-394: value at one point; x_plus is that of the interval [0,1]. *)
Definition reduced_plain_at (f : tfun) (r : reduced) (x y x_plus : R) (x_minus : option R) : R :=
  let xp := 1 + x_plus in
  let k_plus := kernel_at f (rinner r) x y (Some xp) x_minus in
  let k_minus := kernel_at f (rinner r) x (- y) (Some xp) x_minus in
  if Reqb (rsign r) 1 then k_plus + k_minus else k_plus - k_minus.

(** kernel.py:448-460 and 471-485: values replaced by the closed form. *)
Definition logistic_odd_fix (f : tfun) (lam x y result : R) : R :=
  let v_half := lam / 2 * y in
  let xy_small := Rltb (x * v_half) 1 in
  let cosh_finite := Rltb v_half 85 in
  if xy_small && cosh_finite then - f_sinh f (v_half * x) / f_cosh f v_half else result.
Definition bose_odd_fix (f : tfun) (lam x y result : R) : R :=
  let v_half := lam / 2 * y in
  let xv_half := x * v_half in
  let xy_small := Rltb xv_half 1 in
  let sinh_range := Rltb (/ 10 ^ 200) v_half && Rltb v_half 85 in
  if xy_small && sinh_range then - y * f_sinh f xv_half / f_sinh f v_half else result.
Definition reduced_at (f : tfun) (r : reduced) (x y x_plus : R) (x_minus : option R) : R :=
  let result := reduced_plain_at f r x y x_plus x_minus in
  if rclosed r then
    match rinner r with
    | Logistic lam => logistic_odd_fix f lam x y result
    | RegBose lam => bose_odd_fix f lam x y result
    end
  else result.

(** __call__ of a reduced kernel on arrays; [1 + None] raises TypeError (after
    the domain check on [0, 1]). *)
Definition reduced_call (f : tfun) (r : reduced) (x y : list xr) (x_plus x_minus : option (list R))
  : res (list (list R)) :=
  do _ <- check_domain 0 1 x y;
  match x_plus with
  | None => Raise TypeError
  | Some xp =>
      Ok (map (fun i => map (fun b => reduced_at f r (nth i (fins x) 0) b (nth i xp 0) (at_row x_minus i)) (fins y))
              (seq 0 (List.length x)))
  end.

(** kernel.py:488-494, matrix_from_gauss, for full and for reduced kernels. *)
Definition kernel_matrix (f : tfun) (k : kernel) (gx gy : rule) : res (list (list R)) :=
  kernel_call f k (map Fin (rx gx)) (map Fin (rx gy)) (Some (rfw gx)) (Some (rbw gx)).
Definition reduced_matrix (f : tfun) (r : reduced) (gx gy : rule) : res (list (list R)) :=
  reduced_call f r (map Fin (rx gx)) (map Fin (rx gy)) (Some (rfw gx)) (Some (rbw gx)).

(** Python [statistics not in 'FB'] is a substring test. *)
Definition stat_in_FB (statistics : string) : bool :=
  match String.index 0 statistics "FB" with Some _ => true | None => false end.

(** kernel.py:94-98, 196-208, 311-315 (not overridden by reduced kernels):
    weight_func.  [None] is a division by zero. *)
Definition weight_func (k : kernel) (statistics : string) : res (R -> option R) :=
  match k with
  | Logistic lam =>
      if negb (stat_in_FB statistics) then Raise ValueError else
      if String.eqb statistics "F" then Ok (fun _ => Some 1)
      else Ok (fun y => let t := tanh (/ 2 * lam * y) in if Reqb t 0 then None else Some (1 / t))
  | RegBose lam =>
      if negb (String.eqb statistics "B") then Raise ValueError
      else Ok (fun y => if Reqb y 0 then None else Some (1 / y))
  end.

(** np.log10, np.round (half to even). *)
Definition log10 (x : R) : R := ln x / ln 10.
Definition np_round (x : R) : Z := ZnearestE x.

(** max(int(np.round(c * np.log10(lambda_))), m) for lambda_ > 0. *)
Definition nzeros (c lam : R) (m : Z) : nat := Z.to_nat (Z.max (np_round (c * log10 lam)) m).

(** np.cumsum *)
Fixpoint cumsum_from (a : R) (l : list R) : list R :=
  match l with [] => [] | x :: l' => (a + x) :: cumsum_from (a + x) l' end.
Definition cumsum (l : list R) : list R := cumsum_from 0 l.

(** kernel.py:222-225, 330-333: cumulative sums of the differences, divided by
    the last, mirrored around 0. *)
Definition segments_x_of (diffs : list R) : list R :=
  let c := cumsum diffs in
  let z := map (fun t => t / last c 0) c in
  map Ropp (rev z) ++ [0] ++ z.

(** kernel.py:239-243, 346-350 *)
Definition segments_y_of (diffs : list R) : list R :=
  let c := cumsum diffs in
  let z := map (fun t => t / last c 0 - 1) (removelast c) in
  [-1] ++ z ++ [0] ++ map Ropp (rev z) ++ [1].

(** kernel.py:230-233 *)
Definition leading_diffs : list R :=
  map (fun z => IZR z / 100000)
      [1523; 3314; 4848; 5987; 6703; 7028; 7030; 6791; 6391; 5896; 5358; 4814; 4288; 3795;
       3342; 2932; 2565; 2239; 1951; 1699]%Z.

(** kernel.py:220-243 _SVEHintsLogistic and 327-350 _SVEHintsRegularizedBose
    (whose leading_diffs are unused). *)
Definition diffs_x (k : kernel) : list R :=
  match k with
  | Logistic lam => map (fun i => 1 / cosh (143 / 1000 * INR i)) (seq 0 (nzeros 15 lam 1))
  | RegBose lam => map (fun i => 1 / cosh (18 / 100 * INR i)) (seq 0 (nzeros 15 lam 15))
  end.
Definition diffs_y (k : kernel) : list R :=
  match k with
  | Logistic lam =>
      let n := nzeros 20 lam 2 in
      let lead := if (n <? 20)%nat then firstn n leading_diffs else leading_diffs in
      lead ++ skipn (List.length lead) (map (fun i => 25 / 100 / exp (141 / 1000 * INR i)) (seq 0 n))
  | RegBose lam =>
      map (fun i => 12 / 100 / exp (337 / 10000 * INR i * ln (INR i + 1))) (seq 0 (nzeros 20 lam 20))
  end.
Definition segments_x (k : kernel) : list R := segments_x_of (diffs_x k).
Definition segments_y (k : kernel) : list R := segments_y_of (diffs_y k).

(** kernel.py:217, 324: ngauss for accuracy eps. *)
Definition hint_ngauss (eps : R) : nat := if Rleb (/ 10 ^ 8) eps then 10 else 16.

(** kernel.py:246-248, 353-355: nsvals; int() truncates. *)
Definition hint_nsvals (k : kernel) : Z :=
  let l := Rmax 1 (log10 (k_lambda k)) in
  match k with
  | Logistic _ => np_round ((25 + l) * l)
  | RegBose _ => Rtrunc (28 * l)
  end.

(** kernel.py:437: nsvals of a reduced kernel (428: its ngauss is that of the inner
    kernel). *)
Definition reduced_nsvals (k : kernel) : Z := ((hint_nsvals k + 1) / 2)%Z.

(** kernel.py:511-518, _symm_segments; np.allclose(a, b) with its default
    tolerances is |a - b| <= 1e-8 + 1e-5 |b| for all elements.  A list without
    elements has no xpos[0]: IndexError. *)
Definition allclose (a b : list R) : bool :=
  forallb (fun p => Rleb (Rabs (fst p - snd p)) (/ 10 ^ 8 + / 10 ^ 5 * Rabs (snd p))) (combine a b).
Definition symm_segments (x : list R) : res (list R) :=
  if negb (allclose x (map Ropp (rev x))) then Raise ValueError else
  let xpos := skipn (Nat.div (List.length x) 2) x in
  match xpos with
  | [] => Raise IndexError
  | x0 :: _ => if Reqb x0 0 then Ok xpos else Ok (0 :: xpos)
  end.

(** kernel.py:431-434: segments of a reduced kernel. *)
Definition reduced_segments_x (r : reduced) : res (list R) := symm_segments (segments_x (rinner r)).
Definition reduced_segments_y (r : reduced) : res (list R) := symm_segments (segments_y (rinner r)).
