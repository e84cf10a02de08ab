(** The augmentations and the augmented basis in rounded arithmetic: augment.py with
    every operation on reals rounded by [rd].  With the identity for [rd] these are the
    definitions of Model/Augment.v (theorem C106_exact_arithmetic).  Overflow is not
    modelled. *)
From Coq Require Import String ZArith Arith Bool Reals.
From Coquelicot Require Import Coquelicot.
From Coq Require Import List.
From Verif.Model Require Import Base Util Num Poly PolyIEEE FT FTIEEE SVE Basis Augment.
Import ListNotations.
Open Scope R_scope.

(** np.asarray of the argument; integers are converted when they meet a float. *)
Definition as_floats_rd (rd : R -> R) (x : nparr) : list xr :=
  match x with IntArr l => map (fun z => Fin (rd (IZR z))) l | FltArr l => l end.

(** augment.py:264, self._norm of TauLinear. *)
Definition norm_rd (rd : R -> R) (beta : R) : R := rd (sqrt (rd (3 / beta))).

(** augment.py:238-240, 266-269, 298-300, __call__. *)
Definition const_value_rd (rd : R -> R) (beta : R) : R := rd (1 / rd (sqrt beta)).
Definition linear_value_rd (rd : R -> R) (beta t : R) : R :=
  let x := rd (rd (rd (2 / beta) * t) - 1) in
  rd (norm_rd rd beta * x).
Definition aug_call_rd (rd : R -> R) (a : aug) (tau : nparr) : res (list xr) :=
  match a with
  | TauConst beta =>
      do t <- check_range (as_floats_rd rd tau) 0 beta; Ok (map (fun _ => Fin (const_value_rd rd beta)) t)
  | TauLinear beta =>
      do t <- check_range (as_floats_rd rd tau) 0 beta;
      Ok (map (fun x => match x with Fin x => Fin (linear_value_rd rd beta x) | _ => NaN end) t)
  | MatsubaraConst beta =>
      do t <- check_range (as_floats_rd rd tau) 0 beta; Ok (map (fun _ => NaN) t)
  end.

(** augment.py:242-246, 271-278, 302-303, deriv(n), and the function returned. *)
Definition slope_rd (rd : R -> R) (beta : R) : R := rd (rd (norm_rd rd beta * 2) / beta).
Definition aug_deriv_rd (rd : R -> R) (a : aug) (n : nat) (tau : nparr) : res (list xr) :=
  match a, n with
  | MatsubaraConst _, _ => aug_call_rd rd a tau
  | _, O => aug_call_rd rd a tau
  | TauLinear beta, S O => Ok (full_like tau (slope_rd rd beta))
  | _, _ => Ok (full_like tau 0)
  end.

(** augment.py:248-250, 280-284, 305-307, hat(n), as [aug_hat]; [pi] is np.pi.  The
    division by 1j and the multiplication of the result, which is imaginary, by the
    real inv_w involve zeros and ones except in one product. *)
Definition linear_hat_rd (rd : R -> R) (pi beta : R) (k : Z) : C :=
  let inv_w := rd (rd (pi / beta) * rd (IZR k)) in
  let inv_w := if (k =? 0)%Z then inv_w else rd (/ inv_w) in
  (0, rd (- rd (norm_rd rd beta * 2) * inv_w)).
Definition aug_hat_rd (rd : R -> R) (pi : R) (np_complex : bool) (a : aug) (scalar : bool) (n : nparr) : res (list C) :=
  match a with
  | TauConst beta =>
      do ns <- check_reduced_matsubara n (Some 0%Z);
      if negb np_complex then Raise AttributeError else
      Ok (map (fun k => if (k =? 0)%Z then RtoC (rd (sqrt beta)) else RtoC 0) ns)
  | TauLinear beta =>
      do ns <- check_reduced_matsubara n (Some 0%Z);
      if scalar then Raise TypeError else
      Ok (map (linear_hat_rd rd pi beta) ns)
  | MatsubaraConst beta =>
      do ns <- check_reduced_matsubara n None; Ok (map (fun _ => RtoC 1) ns)
  end.

(** augment.py:153-159, __call__ of u on an array of floats; [old] chooses the numpy
    version as in Model/PolyIEEE.v. *)
Definition augu_call_rd (old : bool) (rd : R -> R) (a : augbasis) (x : list R) : res (list (list xr)) :=
  do fbasis_x <- vcall_arr_rd old rd (bu (abasis a)) x;
  do faug_x <- collect (map (fun f => aug_call_rd rd f (FltArr (map Fin x))) (aaugs a));
  Ok (faug_x ++ map (map Fin) fbasis_x).

(** augment.py:153-159, __call__ of uhat on an array of integers; [F] and [model] as
    in Model/FTIEEE.v. *)
Definition auguhat_call_rd (rd : R -> R) (F : flib) (model : nat -> Z -> C) (np_complex : bool) (a : augbasis) (scalar : bool) (n : list Z) : res (list (list C)) :=
  do fbasis_n <- ft_call_rd rd F model (buhat (abasis a)) n;
  do faug_n <- collect (map (fun f => aug_hat_rd rd (f_pi F) np_complex f scalar (IntArr n)) (aaugs a));
  Ok (faug_n ++ fbasis_n).
