(** Model of src/sparse_ir/sampling.py.  Numbers are exact; the singular value
    decomposition of numpy.linalg is a parameter [svd].  All arrays hold complex
    numbers (real arrays are arrays of complex numbers without imaginary part). *)
From Coq Require Import String ZArith Arith Bool Reals.
From Coquelicot Require Import Coquelicot.
From Coq Require Import List.
From Verif.Model Require Import Base Util Num Poly FT SVE Basis Augment NDArray.
Import ListNotations.
Open Scope R_scope.

(** The triple (u, s, vH). *)
Record svd_result := SVDRes { r_u : mat; r_s : list R; r_vh : mat }.

(** Columns (rows) selected by a boolean mask. *)
Definition sel_cols (w : list bool) (m : mat) : mat :=
  let kept := mask w (seq 0 (mc m)) in Mat (mr m) (List.length kept) (fun i j => me m i (nth j kept 0%nat)).
Definition sel_rows (w : list bool) (m : mat) : mat :=
  let kept := mask w (seq 0 (mr m)) in Mat (List.length kept) (mc m) (fun i j => me m (nth i kept 0%nat) j).

(** sampling.py:235-238 and 319-322: drop singular values that are exactly zero. *)
Definition drop_zeros (r : svd_result) : svd_result :=
  let w := map (fun x => negb (Reqb x 0)) (r_s r) in
  if forallb (fun b => b) w then r
  else SVDRes (sel_cols w (r_u r)) (mask w (r_s r)) (sel_rows w (r_vh r)).

(** m.conj().T *)
Definition adjoint (m : mat) : mat := Mat (mc m) (mr m) (fun i j => Cconj (me m j i)).

(** sampling.py:226-243, DecomposedMatrix.__init__; the matrix is two-dimensional
    by construction. *)
Record dmat := DMat { d_a : mat; d_uH : mat; d_s : list R; d_v : mat }.
Definition decomposed (svd : mat -> svd_result) (a : mat) (given : option svd_result) : res dmat :=
  do r <- (match given with
           | None => Ok (svd a)
           | Some r => do _ <- check_svd_result [mr (r_u r); mc (r_u r)] [List.length (r_s r)] [mr (r_vh r); mc (r_vh r)]
                                                (Some (mr a, mc a));
                       Ok r
           end);
  let r := drop_zeros r in
  Ok (DMat a (adjoint (r_u r)) (r_s r) (adjoint (r_vh r))).

(** sampling.py:255, 344: r / (s[:, None] if r.ndim > 1 else s) for r of shape
    (..., len(s), n) or (len(s),). *)
Definition div_rows (s : list R) (r : nd C) : nd C :=
  let axis := if (1 <? ndim r)%nat then (ndim r - 2)%nat else O in
  Nd (shp r) (fun idx => Cdiv (elt r idx) (RtoC (nth (nth axis idx 0%nat) s 0))).

(** sampling.py:253-256, DecomposedMatrix._lstsq. *)
Definition d_lstsq (d : dmat) (x : nd C) : res (nd C) :=
  do r <- mm (d_uH d) x; mm (d_v d) (div_rows (d_s d) r).

(** sampling.py:287-289, 376-378: cond; IndexError if no singular value is left. *)
Definition cond_of (s : list R) : res R :=
  match s with [] => Raise IndexError | s0 :: _ => Ok (s0 / last s 0) end.

(** sampling.py:392-400, _matop_along_axis. *)
Definition matop (op : nd C -> res (nd C)) (x : nd C) (axis : option Z) : res (nd C) :=
  match axis with
  | None => op x
  | Some axis =>
      let target := Z.max (Z.of_nat (ndim x) - 2) 0 in
      do x' <- moveaxis x axis target;
      do r <- op x';
      moveaxis r target axis
  end.

(** sampling.py:249-251, 258-260: matmul and lstsq. *)
Definition d_matmul (d : dmat) (x : nd C) (axis : option Z) : res (nd C) := matop (mm (d_a d)) x axis.
Definition d_fit (d : dmat) (x : nd C) (axis : option Z) : res (nd C) := matop (d_lstsq d) x axis.

(** sampling.py:403-422, _split_complex: the matrix of real and imaginary parts,
    and the complex u made from the real one. *)
Definition stacked (m : mat) (off : nat) : mat :=
  Mat (mr m + (mr m - off)) (mc m)
      (fun i j => RtoC (if (i <? mr m)%nat then Re (me m i j) else Im (me m (off + (i - mr m)) j))).
Definition split_complex (svd : mat -> svd_result) (m : mat) (has_zero : bool) : svd_result :=
  let off := if has_zero then 1%nat else 0%nat in
  let r := svd (stacked m off) in
  SVDRes (Mat (mr m) (List.length (r_s r))
              (fun i k => (Re (me (r_u r) i k),
                           if (i <? off)%nat then 0 else Re (me (r_u r) (mr m + (i - off)) k))))
         (r_s r) (r_vh r).

(** sampling.py:308-328, SplitDecomposedMatrix.__init__.  The type checks do not
    fail for the triple made by _split_complex. *)
Record sdmat := SDMat { sd_a : mat; sd_urT : mat; sd_uiT : mat; sd_s : list R; sd_v : mat }.
Definition split_decomposed (a : mat) (r : svd_result) : res sdmat :=
  do _ <- check_svd_result [mr (r_u r); mc (r_u r)] [List.length (r_s r)] [mr (r_vh r); mc (r_vh r)] (Some (mr a, mc a));
  let r := drop_zeros r in
  let u := r_u r in
  let vT := r_vh r in
  Ok (SDMat a (Mat (mc u) (mr u) (fun i j => RtoC (Re (me u j i)))) (Mat (mc u) (mr u) (fun i j => RtoC (Im (me u j i))))
            (r_s r) (Mat (mc vT) (mr vT) (fun i j => me vT j i))).

(** sampling.py:341-345, SplitDecomposedMatrix._lstsq; both products have the
    same shape. *)
Definition nd_add (x y : nd C) : nd C := Nd (shp x) (fun i => Cplus (elt x i) (elt y i)).
Definition sd_lstsq (d : sdmat) (x : nd C) : res (nd C) :=
  do r1 <- mm (sd_urT d) (nd_map (fun z => RtoC (Re z)) x);
  do r2 <- mm (sd_uiT d) (nd_map (fun z => RtoC (Im z)) x);
  mm (sd_v d) (div_rows (sd_s d) (nd_add r1 r2)).
Definition sd_matmul (d : sdmat) (x : nd C) (axis : option Z) : res (nd C) := matop (mm (sd_a d)) x axis.
Definition sd_fit (d : sdmat) (x : nd C) (axis : option Z) : res (nd C) := matop (sd_lstsq d) x axis.

(** What sampling needs of a basis: u on a list of times and uhat on a list of
    frequencies, one row per function, and is_well_conditioned. *)
Record sbasis := SBasis { sb_u : list R -> res (list (list C)); sb_uhat : list Z -> res (list (list C));
                          sb_well : bool }.

(** basis.u(points).T *)
Definition sampling_matrix (npoints : nat) (M : list (list C)) : mat :=
  Mat npoints (List.length M) (fun i l => nth i (nth l M []) (RtoC 0)).

(** sampling.py:131-134, the end of TauSampling.__init__. *)
Record tsampling := TSampling { ts_basis : sbasis; ts_points : list R; ts_matrix : dmat }.
Definition tau_sampling (svd : mat -> svd_result) (b : sbasis) (points : list R) : res tsampling :=
  do M <- sb_u b points;
  do d <- decomposed svd (sampling_matrix (List.length points) M) None;
  Ok (TSampling b points d).
(** sampling.py:122-134, TauSampling.__init__ with given points; an array that is
    not a vector is refused. *)
Definition tau_sampling_at (svd : mat -> svd_result) (b : sbasis) (points : nd R) : res tsampling :=
  if negb (Nat.eqb (ndim points) 1) then Raise ValueError else tau_sampling svd b (ravel points).

(** sampling.py:181-190, the end of MatsubaraSampling.__init__. *)
Record msampling := MSampling { ms_basis : sbasis; ms_points : list Z; ms_positive : bool; ms_matrix : dmat + sdmat }.
Definition matsubara_sampling (svd : mat -> svd_result) (b : sbasis) (p : list Z) (positive_only : bool)
  : res msampling :=
  do M <- sb_uhat b p;
  let a := sampling_matrix (List.length p) M in
  if positive_only then
    match p with
    | [] => Raise IndexError
    | p0 :: _ =>
        do d <- split_decomposed a (split_complex svd a (p0 =? 0)%Z); Ok (MSampling b p true (inr d))
    end
  else
    do d <- decomposed svd a None; Ok (MSampling b p false (inl d)).
(** sampling.py:169-190, MatsubaraSampling.__init__ with given points, a vector. *)
Definition matsubara_sampling_at (svd : mat -> svd_result) (b : sbasis) (points : nparr) (positive_only : bool)
  : res msampling :=
  do p <- check_reduced_matsubara points None;
  let p := zsort p in
  do _ <- (if positive_only then
             match p with
             | [] => Raise IndexError
             | p0 :: _ => if negb (0 <=? p0)%Z then Raise ValueError else Ok tt
             end
           else Ok tt);
  matsubara_sampling svd b p positive_only.

(** sampling.py:23-54 and 149-151, 211-214, evaluate. *)
Definition t_evaluate (svd : mat -> svd_result) (s : tsampling) (al : nd C) (axis : option Z) (points : option (nd R))
  : res (nd C) :=
  do s <- (match points with None => Ok s | Some p => tau_sampling_at svd (ts_basis s) p end);
  d_matmul (ts_matrix s) al axis.
Definition m_matmul (m : dmat + sdmat) (x : nd C) (axis : option Z) : res (nd C) :=
  match m with inl d => d_matmul d x axis | inr d => sd_matmul d x axis end.
Definition m_evaluate (svd : mat -> svd_result) (s : msampling) (al : nd C) (axis : option Z) (points : option nparr)
  : res (nd C) :=
  do s <- (match points with None => Ok s | Some p => matsubara_sampling_at svd (ms_basis s) p (ms_positive s) end);
  m_matmul (ms_matrix s) al axis.

(** sampling.py:56-90, fit; the boolean says whether the warning is issued. *)
Definition fit_warns (well : bool) (s : list R) : res bool :=
  if well then do c <- cond_of s; Ok (negb (Rleb c (10 ^ 8))) else Ok false.
Definition t_fit (svd : mat -> svd_result) (s : tsampling) (ax : nd C) (axis : option Z) (points : option (nd R))
  : res (bool * nd C) :=
  do s <- (match points with None => Ok s | Some p => tau_sampling_at svd (ts_basis s) p end);
  do w <- fit_warns (sb_well (ts_basis s)) (d_s (ts_matrix s));
  do y <- d_fit (ts_matrix s) ax axis; Ok (w, y).
Definition m_svals (m : dmat + sdmat) : list R := match m with inl d => d_s d | inr d => sd_s d end.
Definition m_lstsq (m : dmat + sdmat) (x : nd C) (axis : option Z) : res (nd C) :=
  match m with inl d => d_fit d x axis | inr d => sd_fit d x axis end.
Definition m_fit (svd : mat -> svd_result) (s : msampling) (ax : nd C) (axis : option Z) (points : option nparr)
  : res (bool * nd C) :=
  do s <- (match points with None => Ok s | Some p => matsubara_sampling_at svd (ms_basis s) p (ms_positive s) end);
  do w <- fit_warns (sb_well (ms_basis s)) (m_svals (ms_matrix s));
  do y <- m_lstsq (ms_matrix s) ax axis; Ok (w, y).

(** FiniteTempBasis (abstract.py:181-184) and AugmentedBasis (augment.py:125-130)
    as seen by sampling.  A matrix with NaN makes numpy.linalg.svd raise
    LinAlgError, a ValueError. *)
Definition sb_of_basis (b : basis) : sbasis :=
  SBasis (fun x => do M <- vcall_arr (bu b) x; Ok (map (map RtoC) M)) (ft_call (buhat b)) (basis_well_conditioned b).
Definition xfin (x : xr) : res C := match x with Fin r => Ok (RtoC r) | _ => Raise ValueError end.
Definition sb_of_aug (np_complex : bool) (a : augbasis) : sbasis :=
  SBasis (fun x => do M <- augu_call a x; collect (map (fun row => collect (map xfin row)) M))
         (auguhat_call np_complex a false) (aug_well_conditioned a).
