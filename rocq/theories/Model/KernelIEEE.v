(** Kernel values in rounded arithmetic: kernel.py with every addition,
    multiplication and division rounded by [rd].  Taking absolute values,
    negation, comparison and selection are exact.  The elementary functions are
    those of [tfun], which need not be exact.  With the identity for [rd] these
    are the definitions of Model/Kernel.v (theorem C88_exact_arithmetic).
    Overflow is not modelled. *)
From Coq Require Import ZArith Bool Reals.
From Coq Require Import List.
From Verif.Model Require Import Base Util Num Gauss Kernel.
Import ListNotations.
Open Scope R_scope.

(** kernel.py:521-529, _compute_uv at one point. *)
Definition compute_uv_rd (rd : R -> R) (lam x y : R) (x_plus x_minus : option R) : R * R * R :=
  let xp := match x_plus with None => rd (1 + x) | Some a => a end in
  let xm := match x_minus with None => rd (1 - x) | Some a => a end in
  (rd (/ 2 * xp), rd (/ 2 * xm), rd (lam * y)).

(** kernel.py:170-182, LogisticKernel._compute. *)
Definition logistic_compute_rd (rd : R -> R) (f : tfun) (u_plus u_minus v : R) : R :=
  let abs_v := Rabs v in
  let enum := f_exp f (rd (- abs_v * (if Rltb 0 v then u_plus else u_minus))) in
  let denom := rd (1 + f_exp f (- abs_v)) in
  rd (enum / denom).

(** kernel.py:271-291, RegularizedBoseKernel._compute; the literal 1e-200 is
    rounded as well. *)
Definition bose_compute_rd (rd : R -> R) (f : tfun) (lam u_plus u_minus v : R) : R :=
  let abs_v := Rabs v in
  let enum := f_exp f (rd (- abs_v * (if Rleb 0 v then u_plus else u_minus))) in
  let not_tiny := Rleb (rd (/ 10 ^ 200)) abs_v in
  let denom := if not_tiny then rd (abs_v / f_expm1 f (- abs_v)) else -1 in
  rd (rd (rd (- 1 / lam) * enum) * denom).

(** kernel.py:162-165, 266-269: the value at one point of the domain. *)
Definition kernel_at_rd (rd : R -> R) (f : tfun) (k : kernel) (x y : R) (x_plus x_minus : option R) : R :=
  let '(up, um, v) := compute_uv_rd rd (k_lambda k) x y x_plus x_minus in
  match k with
  | Logistic _ => logistic_compute_rd rd f up um v
  | RegBose lam => bose_compute_rd rd f lam up um v
  end.

(** kernel.py:162-165, 266-269, __call__ on a column of x and a row of y, as
    [kernel_call]. *)
Definition kernel_call_rd (rd : R -> R) (f : tfun) (k : kernel) (x y : list xr)
    (x_plus x_minus : option (list R)) : res (list (list R)) :=
  do _ <- check_domain (-1) 1 x y;
  Ok (map (fun i => map (fun b => kernel_at_rd rd f k (nth i (fins x) 0) b (at_row x_plus i) (at_row x_minus i))
                        (fins y))
          (seq 0 (List.length x))).

(** kernel.py:383-394: value of a reduced kernel at one point. *)
Definition reduced_plain_at_rd (rd : R -> R) (f : tfun) (r : reduced) (x y x_plus : R) (x_minus : option R) : R :=
  let xp := rd (1 + x_plus) in
  let k_plus := kernel_at_rd rd f (rinner r) x y (Some xp) x_minus in
  let k_minus := kernel_at_rd rd f (rinner r) x (- y) (Some xp) x_minus in
  if Reqb (rsign r) 1 then rd (k_plus + k_minus) else rd (k_plus - k_minus).

(** kernel.py:448-460 and 471-485: values replaced by the closed form. *)
Definition logistic_odd_fix_rd (rd : R -> R) (f : tfun) (lam x y result : R) : R :=
  let v_half := rd (rd (lam / 2) * y) in
  let xy_small := Rltb (rd (x * v_half)) 1 in
  let cosh_finite := Rltb v_half 85 in
  if xy_small && cosh_finite then rd (- f_sinh f (rd (v_half * x)) / f_cosh f v_half) else result.
Definition bose_odd_fix_rd (rd : R -> R) (f : tfun) (lam x y result : R) : R :=
  let v_half := rd (rd (lam / 2) * y) in
  let xv_half := rd (x * v_half) in
  let xy_small := Rltb xv_half 1 in
  let sinh_range := Rltb (rd (/ 10 ^ 200)) v_half && Rltb v_half 85 in
  if xy_small && sinh_range then rd (rd (- y * f_sinh f xv_half) / f_sinh f v_half) else result.
Definition reduced_at_rd (rd : R -> R) (f : tfun) (r : reduced) (x y x_plus : R) (x_minus : option R) : R :=
  let result := reduced_plain_at_rd rd f r x y x_plus x_minus in
  if rclosed r then
    match rinner r with
    | Logistic lam => logistic_odd_fix_rd rd f lam x y result
    | RegBose lam => bose_odd_fix_rd rd f lam x y result
    end
  else result.

(** __call__ of a reduced kernel on arrays, as [reduced_call]. *)
Definition reduced_call_rd (rd : R -> R) (f : tfun) (r : reduced) (x y : list xr)
    (x_plus x_minus : option (list R)) : res (list (list R)) :=
  do _ <- check_domain 0 1 x y;
  match x_plus with
  | None => Raise TypeError
  | Some xp =>
      Ok (map (fun i => map (fun b => reduced_at_rd rd f r (nth i (fins x) 0) b (nth i xp 0) (at_row x_minus i))
                            (fins y))
              (seq 0 (List.length x)))
  end.
