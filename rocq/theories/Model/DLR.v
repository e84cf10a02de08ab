(** Model of src/sparse_ir/dlr.py.  Arithmetic is exact; the elementary functions
    [f] behind the kernel and the singular value decomposition [svd] are
    parameters. *)
From Coq Require Import String ZArith Arith Bool Reals.
From Coquelicot Require Import Coquelicot.
From Coq Require Import List.
From Verif.Model Require Import Base Util Num Poly FT SVE Basis Kernel NDArray Sampling.
Import ListNotations.
Open Scope R_scope.

(** dlr.py:149-154, TauPoles objects; max() of an empty array raises ValueError. *)
Record taupoles := TauPoles { tp_stat : string; tp_beta : R; tp_poles : list R; tp_wmax : R }.
Definition taupoles_init (statistics : string) (beta : R) (poles : list R) : res taupoles :=
  match rmax_list (map Rabs poles) with
  | None => Raise ValueError
  | Some m => Ok (TauPoles statistics beta poles m)
  end.

(** dlr.py:163: 2 * tau/beta - 1 for one element, beta positive. *)
Definition tau_to_x (beta : R) (t : xr) : xr :=
  match t with Fin r => Fin (2 * r / beta - 1) | other => other end.
(** dlr.py:164: the maximum is zero only if all poles are, and 0/0 is NaN. *)
Definition pole_to_y (wmax w : R) : xr := if Reqb wmax 0 then NaN else Fin (w / wmax).

(** dlr.py:156-168, __call__ on a raveled array: one row per pole. *)
Definition taupoles_call (f : tfun) (u : taupoles) (tau : list xr) : res (list (list R)) :=
  if existsb (fun t => xltb t (Fin 0)) tau || existsb (fun t => xltb (Fin (tp_beta u)) t) tau then Raise RuntimeError else
  let x := map (tau_to_x (tp_beta u)) tau in
  let y := map (pole_to_y (tp_wmax u)) (tp_poles u) in
  let lambda_ := tp_beta u * tp_wmax u in
  do K <- kernel_call f (Logistic lambda_) x y None None;
  Ok (map (fun p => map (fun row => - nth p row 0) K) (seq 0 (List.length (tp_poles u)))).

(** dlr.py:132-146, MatsubaraPoles: __init__ and __call__ on a raveled array of
    finite numbers.  Division by zero gives NaN, here None. *)
Record matspoles := MatsPoles { mp_stat : string; mp_beta : R; mp_poles : list R }.
Definition pole_value (fermi : bool) (beta w n : R) : option C :=
  let d := Cminus (0, n * PI / beta) (RtoC w) in
  if Ceq_dec d (RtoC 0) then None
  else Some (Cdiv (if fermi then RtoC 1 else RtoC (tanh (/ 2 * beta * w))) d).
Definition matspoles_call (u : matspoles) (n : list R) : res (list (list (option C))) :=
  Ok (map (fun w => map (pole_value (String.eqb (mp_stat u) "F") (mp_beta u) w) n) (mp_poles u)).

(** dlr.py:49: F = -s[:, None] * v(poles). *)
Definition dlr_matrix (b : basis) (npoles : nat) (V : list (list R)) : mat :=
  Mat (List.length (bs b)) npoles (fun l p => RtoC (- nth l (bs b) 0 * nth p (nth l V []) 0)).

(** dlr.py:35-56, __init__.  A basis object of the model holds only the numbers it
    needs of its kernel, so whether that is a LogisticKernel is an argument. *)
Record dlr := DLR { dl_basis : basis; dl_poles : list R; dl_u : taupoles; dl_uhat : matspoles; dl_matrix : dmat }.
Definition dlr_init (svd : mat -> svd_result) (b : basis) (is_logistic : bool) (poles : list R) : res dlr :=
  if negb is_logistic then Raise ValueError else
  do u <- taupoles_init (bstat b) (bbeta b) poles;
  do V <- vcall_arr (bv b) poles;
  let F := dlr_matrix b (List.length poles) V in
  do d <- decomposed svd F (Some (svd F));
  Ok (DLR b poles u (MatsPoles (bstat b) (bbeta b) poles) d).
(** The same without poles (dlr.py:36-37); None is non-termination of the root search. *)
Definition dlr_default (rnd : R -> R) (fuel : nat) (svd : mat -> svd_result) (b : basis) (is_logistic : bool)
  : option (res dlr) :=
  match default_omega rnd fuel b None with
  | None => None
  | Some r => Some (do ' (poles, _) <- r; dlr_init svd b is_logistic poles)
  end.

(** dlr.py:103-119: from_IR and to_IR. *)
Definition from_IR (d : dlr) (gl : nd C) (axis : Z) : res (nd C) := d_fit (dl_matrix d) gl (Some axis).
Definition to_IR (d : dlr) (g : nd C) (axis : Z) : res (nd C) := d_matmul (dl_matrix d) g (Some axis).

(** dlr.py:127-129, is_well_conditioned. *)
Definition dlr_well_conditioned : bool := false.

(** A DLR object as seen by sampling.  A matrix with NaN makes numpy.linalg.svd
    raise LinAlgError, a ValueError. *)
Fixpoint no_nan (l : list (option C)) : res (list C) :=
  match l with
  | [] => Ok []
  | None :: _ => Raise ValueError
  | Some z :: l' => do t <- no_nan l'; Ok (z :: t)
  end.
Definition sb_of_dlr (f : tfun) (d : dlr) : sbasis :=
  SBasis (fun x => do M <- taupoles_call f (dl_u d) (map Fin x); Ok (map (map RtoC) M))
         (fun n => do M <- matspoles_call (dl_uhat d) (map IZR n); collect (map no_nan M))
         dlr_well_conditioned.
