(** Evaluating and fitting in rounded arithmetic: sampling.py:23-90, 249-260,
    287-289, 337-349 and 376-378 with every operation replaced by one of a given
    arithmetic.  The matrix holds the numbers the basis functions returned, and the
    singular value decomposition is the one numpy.linalg returned, whatever their
    errors.  With exact operations these are the definitions of Model/Sampling.v
    (theorem C93_exact_arithmetic).  Overflow is not modelled. *)
From Coq Require Import String ZArith Arith Bool Reals.
From Coquelicot Require Import Coquelicot.
From Coq Require Import List.
From Verif.Model Require Import Base Util Num FT NDArray Sampling.
Import ListNotations.
Open Scope R_scope.

(** The operations: the inner product of two vectors of equal length, as computed
    for the element of a matrix product at the given index tuple (the library that
    multiplies matrices is free to sum in a different order for each element);
    complex by real division; addition; and real division. *)
Record arith := Arith { ar_dot : list nat -> list C -> list C -> C;
                        ar_div : C -> R -> C;
                        ar_add : C -> C -> C;
                        ar_quot : R -> R -> R }.

(** m @ x, as in [mm]. *)
Definition mm_rd (ar : arith) (m : mat) (x : nd C) : res (nd C) :=
  match rev (shp x) with
  | [] => Raise ValueError
  | [n] =>
      if negb (Nat.eqb n (mc m)) then Raise ValueError else
      Ok (Nd [mr m] (fun idx => ar_dot ar idx (map (me m (nth 0 idx 0%nat)) (seq 0 (mc m)))
                                              (map (fun l => elt x [l]) (seq 0 (mc m)))))
  | k :: n :: pre =>
      if negb (Nat.eqb n (mc m)) then Raise ValueError else
      let p := List.length pre in
      Ok (Nd (rev pre ++ [mr m; k])
             (fun idx => ar_dot ar idx (map (me m (nth p idx 0%nat)) (seq 0 (mc m)))
                                       (map (fun l => elt x (firstn p idx ++ [l; nth (S p) idx 0%nat])) (seq 0 (mc m)))))
  end.

(** sampling.py:255, 344: r / (s[:, None] if r.ndim > 1 else s), as in [div_rows]. *)
Definition div_rows_rd (ar : arith) (s : list R) (r : nd C) : nd C :=
  let axis := if (1 <? ndim r)%nat then (ndim r - 2)%nat else O in
  Nd (shp r) (fun idx => ar_div ar (elt r idx) (nth (nth axis idx 0%nat) s 0)).

(** sampling.py:253-256, DecomposedMatrix._lstsq. *)
Definition d_lstsq_rd (ar : arith) (d : dmat) (x : nd C) : res (nd C) :=
  do r <- mm_rd ar (d_uH d) x; mm_rd ar (d_v d) (div_rows_rd ar (d_s d) r).

(** sampling.py:249-251, 258-260. *)
Definition d_matmul_rd (ar : arith) (d : dmat) (x : nd C) (axis : option Z) : res (nd C) :=
  matop (mm_rd ar (d_a d)) x axis.
Definition d_fit_rd (ar : arith) (d : dmat) (x : nd C) (axis : option Z) : res (nd C) :=
  matop (d_lstsq_rd ar d) x axis.

(** sampling.py:341-345, SplitDecomposedMatrix._lstsq. *)
Definition nd_add_rd (ar : arith) (x y : nd C) : nd C := Nd (shp x) (fun i => ar_add ar (elt x i) (elt y i)).
Definition sd_lstsq_rd (ar : arith) (d : sdmat) (x : nd C) : res (nd C) :=
  do r1 <- mm_rd ar (sd_urT d) (nd_map (fun z => RtoC (Re z)) x);
  do r2 <- mm_rd ar (sd_uiT d) (nd_map (fun z => RtoC (Im z)) x);
  mm_rd ar (sd_v d) (div_rows_rd ar (sd_s d) (nd_add_rd ar r1 r2)).
(** sampling.py:337-339, 347-349. *)
Definition sd_matmul_rd (ar : arith) (d : sdmat) (x : nd C) (axis : option Z) : res (nd C) :=
  matop (mm_rd ar (sd_a d)) x axis.
Definition sd_fit_rd (ar : arith) (d : sdmat) (x : nd C) (axis : option Z) : res (nd C) :=
  matop (sd_lstsq_rd ar d) x axis.

(** sampling.py:23-54 and 149-151, 211-214, evaluate. *)
Definition t_evaluate_rd (ar : arith) (svd : mat -> svd_result) (s : tsampling) (al : nd C) (axis : option Z)
  (points : option (nd R)) : res (nd C) :=
  do s <- (match points with None => Ok s | Some p => tau_sampling_at svd (ts_basis s) p end);
  d_matmul_rd ar (ts_matrix s) al axis.
Definition m_matmul_rd (ar : arith) (m : dmat + sdmat) (x : nd C) (axis : option Z) : res (nd C) :=
  match m with inl d => d_matmul_rd ar d x axis | inr d => sd_matmul_rd ar d x axis end.
Definition m_evaluate_rd (ar : arith) (svd : mat -> svd_result) (s : msampling) (al : nd C) (axis : option Z)
  (points : option nparr) : res (nd C) :=
  do s <- (match points with None => Ok s | Some p => matsubara_sampling_at svd (ms_basis s) p (ms_positive s) end);
  m_matmul_rd ar (ms_matrix s) al axis.

(** sampling.py:287-289, 376-378: cond. *)
Definition cond_of_rd (ar : arith) (s : list R) : res R :=
  match s with [] => Raise IndexError | s0 :: _ => Ok (ar_quot ar s0 (last s 0)) end.

(** sampling.py:56-90, fit; the boolean says whether the warning is issued. *)
Definition fit_warns_rd (ar : arith) (well : bool) (s : list R) : res bool :=
  if well then do c <- cond_of_rd ar s; Ok (negb (Rleb c (10 ^ 8))) else Ok false.
Definition t_fit_rd (ar : arith) (svd : mat -> svd_result) (s : tsampling) (ax : nd C) (axis : option Z)
  (points : option (nd R)) : res (bool * nd C) :=
  do s <- (match points with None => Ok s | Some p => tau_sampling_at svd (ts_basis s) p end);
  do w <- fit_warns_rd ar (sb_well (ts_basis s)) (d_s (ts_matrix s));
  do y <- d_fit_rd ar (ts_matrix s) ax axis; Ok (w, y).
Definition m_lstsq_rd (ar : arith) (m : dmat + sdmat) (x : nd C) (axis : option Z) : res (nd C) :=
  match m with inl d => d_fit_rd ar d x axis | inr d => sd_fit_rd ar d x axis end.
Definition m_fit_rd (ar : arith) (svd : mat -> svd_result) (s : msampling) (ax : nd C) (axis : option Z)
  (points : option nparr) : res (bool * nd C) :=
  do s <- (match points with None => Ok s | Some p => matsubara_sampling_at svd (ms_basis s) p (ms_positive s) end);
  do w <- fit_warns_rd ar (sb_well (ms_basis s)) (m_svals (ms_matrix s));
  do y <- m_lstsq_rd ar (ms_matrix s) ax axis; Ok (w, y).

(** Ways to carry out the operations. *)

(** Exact arithmetic. *)
Definition exact_arith : arith :=
  Arith (fun _ xs ys => csumn (List.length xs) (fun i => Cmult (nth i xs (RtoC 0)) (nth i ys (RtoC 0))))
        (fun z s => Cdiv z (RtoC s)) Cplus Rdiv.

(** Componentwise division of a complex number by a real one (for real arrays), and
    numpy's complex division (Smith's algorithm) with the real number converted to a
    complex one: rat = 0 / s, scl = 1 / (s + 0 * rat), and the result
    ((re + im * rat) * scl, (im - re * rat) * scl). *)
Definition div_parts (rd : R -> R) (z : C) (s : R) : C := (rd (Re z / s), rd (Im z / s)).
Definition div_smith (rd : R -> R) (z : C) (s : R) : C :=
  let rat := rd (0 / s) in
  let scl := rd (1 / rd (s + rd (0 * rat))) in
  (rd (rd (Re z + rd (Im z * rat)) * scl), rd (rd (Im z - rd (Re z * rat)) * scl)).
Definition add_parts (rd : R -> R) (z w : C) : C := (rd (Re z + Re w), rd (Im z + Im w)).
