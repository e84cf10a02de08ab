(** The discrete Lehmann representation in rounded arithmetic: dlr.py with every operation
    on reals rounded by [rd].  With the identity for [rd] these are the definitions of
    Model/DLR.v (theorem C105_exact_arithmetic).  Overflow is not modelled. *)
From Coq Require Import String ZArith Arith Bool Reals.
From Coquelicot Require Import Coquelicot.
From Coq Require Import List.
From Verif.Model Require Import Base Util Num Poly FT SVE Basis Kernel KernelIEEE PolyIEEE NDArray Sampling SamplingIEEE DLR.
Import ListNotations.
Open Scope R_scope.

(** dlr.py:163-165 for one element. *)
Definition tau_to_x_rd (rd : R -> R) (beta : R) (t : xr) : xr :=
  match t with Fin r => Fin (rd (rd (rd (2 * r) / beta) - 1)) | other => other end.
Definition pole_to_y_rd (rd : R -> R) (wmax w : R) : xr := if Reqb wmax 0 then NaN else Fin (rd (w / wmax)).

(** dlr.py:156-168, TauPoles.__call__; max and abs in __init__ are exact. *)
Definition taupoles_call_rd (rd : R -> R) (f : tfun) (u : taupoles) (tau : list xr) : res (list (list R)) :=
  if existsb (fun t => xltb t (Fin 0)) tau || existsb (fun t => xltb (Fin (tp_beta u)) t) tau then Raise RuntimeError else
  let x := map (tau_to_x_rd rd (tp_beta u)) tau in
  let y := map (pole_to_y_rd rd (tp_wmax u)) (tp_poles u) in
  let lambda_ := rd (tp_beta u * tp_wmax u) in
  do K <- kernel_call_rd rd f (Logistic lambda_) x y None None;
  Ok (map (fun p => map (fun row => - nth p row 0) K) (seq 0 (List.length (tp_poles u)))).

(** numpy's division of a real number t, converted to a complex one, by a + i b (Smith's
    algorithm); None is NaN.  Sums with the zero imaginary part of t are exact. *)
Definition smith (rd : R -> R) (t a b : R) : option C :=
  if Rleb (Rabs b) (Rabs a) then
    if Reqb a 0 then None else
    let rat := rd (b / a) in
    let scl := rd (1 / rd (a + rd (b * rat))) in
    Some (rd (t * scl), rd (- rd (t * rat) * scl))
  else
    let rat := rd (a / b) in
    let scl := rd (1 / rd (b + rd (a * rat))) in
    Some (rd (rd (t * rat) * scl), rd (- t * scl)).

(** dlr.py:138-146, MatsubaraPoles.__call__ for one pole and frequency.  1j*n * np.pi/beta
    has real part zero, and the division by beta is a multiplication by 1/beta (see
    [div_smith]).  [pi] is the value of np.pi and [th] is np.tanh. *)
Definition freq_rd (rd : R -> R) (pi beta n : R) : R := rd (rd (rd n * pi) * rd (1 / beta)).
Definition pole_value_rd (rd th : R -> R) (pi : R) (fermi : bool) (beta w n : R) : option C :=
  smith rd (if fermi then 1 else th (rd (rd (/ 2 * beta) * w))) (- w) (freq_rd rd pi beta n).
Definition matspoles_call_rd (rd th : R -> R) (pi : R) (u : matspoles) (n : list R) : res (list (list (option C))) :=
  Ok (map (fun w => map (pole_value_rd rd th pi (String.eqb (mp_stat u) "F") (mp_beta u) w) n) (mp_poles u)).

(** dlr.py:49: F = -s[:, None] * v(poles). *)
Definition dlr_matrix_rd (rd : R -> R) (b : basis) (npoles : nat) (V : list (list R)) : mat :=
  Mat (List.length (bs b)) npoles (fun l p => RtoC (rd (- nth l (bs b) 0 * nth p (nth l V []) 0))).

(** dlr.py:35-56, __init__ with given poles; [old] chooses the numpy version as in
    Model/PolyIEEE.v. *)
Definition dlr_init_rd (old : bool) (rd : R -> R) (svd : mat -> svd_result) (b : basis) (is_logistic : bool) (poles : list R) : res dlr :=
  if negb is_logistic then Raise ValueError else
  do u <- taupoles_init (bstat b) (bbeta b) poles;
  do V <- vcall_arr_rd old rd (bv b) poles;
  let F := dlr_matrix_rd rd b (List.length poles) V in
  do d <- decomposed svd F (Some (svd F));
  Ok (DLR b poles u (MatsPoles (bstat b) (bbeta b) poles) d).

(** dlr.py:103-119: from_IR and to_IR, with the arithmetic [ar] of the products. *)
Definition from_IR_rd (ar : arith) (d : dlr) (gl : nd C) (axis : Z) : res (nd C) := d_fit_rd ar (dl_matrix d) gl (Some axis).
Definition to_IR_rd (ar : arith) (d : dlr) (g : nd C) (axis : Z) : res (nd C) := d_matmul_rd ar (dl_matrix d) g (Some axis).
