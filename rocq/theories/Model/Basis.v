(** Model of FiniteTempBasis, src/sparse_ir/basis.py:13-225 and 315-339, and of
    the bases of FiniteTempBasisSet, src/sparse_ir/basis_set.py:27-42.
    Arithmetic is exact and all numbers are finite.  The computation of the SVE
    is a parameter [compute : kernel -> eps -> result]. *)
From Coq Require Import String ZArith Arith Bool Reals.
From Coquelicot Require Import Coquelicot.
From Coq Require Import List.
From Verif.Model Require Import Base Util Num Roots Poly FT SVE.
Import ListNotations.
Open Scope R_scope.

(** What a basis needs to know of a kernel: lambda_ (an attribute that a kernel
    may lack) and ypower. *)
Record kern := Kern { klam : option R; kyp : Z }.

(** kernel.py:159-160 and 79-81 as seen by the basis: LogisticKernel(lambda_). *)
Definition logistic (lam : R) : kern := Kern (Some lam) 0.

(** Python [statistics not in 'BF'] is a substring test. *)
Definition stat_in (statistics : string) : bool :=
  match String.index 0 statistics "BF" with Some _ => true | None => false end.

(** np.allclose(a, b, atol=0, rtol=4e-16) *)
Definition lam_close (a b : R) : bool := Rleb (Rabs (a - b)) (4 / 10 ^ 16 * Rabs b).

(** basis.py:315-329, _get_kernel. *)
Definition get_kernel (statistics : string) (lam : R) (kernel : option kern) : res kern :=
  if negb (stat_in statistics) then Raise ValueError else
  match kernel with
  | None => Ok (logistic lam)
  | Some k =>
      match klam k with
      | None => Ok k
      | Some l => if lam_close l lam then Ok k else Raise ValueError
      end
  end.

Record basis := Basis {
  bstat : string; bbeta : R; bwmax : R; bkernel : kern; bsve : sve_result;
  bacc : R;                       (* accuracy *)
  bu : vpoly; bs : list R; bv : vpoly;
  buhat_full : ft; buhat : ft }.

(** basis.py:75-76: [u.__class__(u.data, f(u.knots), c * u.dx, u.symm)]. *)
Definition rescaled (p : vpoly) (f : R -> R) (c : R) : res vpoly :=
  poly_init (glen (vgeom p)) (gnseg (vgeom p)) (map cdat (vcols p)) (map f (gknots (vgeom p)))
            (Some (map (fun d => c * d) (gdx (vgeom p)))) (Some (map csym (vcols p))).

(** basis.py:84-86: the same polynomials times c, on the same geometry. *)
Definition scaled_cols (c : R) (cols : list col) : list col :=
  map (fun a => Col (fun k i => c * cdat a k i) (csym a)) cols.

(** basis.py:88: {'F': 'odd', 'B': 'even'}[statistics] *)
Definition even_odd (statistics : string) : res ftfreq :=
  if String.eqb statistics "F" then Ok FOdd
  else if String.eqb statistics "B" then Ok FEven else Raise KeyError.

(** basis.py:43-91, __init__.  The warning of lines 50-53 is not modelled.  For
    wmax = 0 the code divides by zero (segments of v of length zero, negative
    powers of wmax): no theorem below is about the numbers in that case. *)
Definition basis_init (compute : kern -> option R -> res sve_result)
           (statistics : string) (beta wmax : R) (eps : option R) (max_size : option pynum)
           (kernel : option kern) (sve : option sve_result) : res basis :=
  if negb (Rltb 0 beta) then Raise ValueError else
  if negb (Rleb 0 wmax) then Raise ValueError else
  do k <- get_kernel statistics (beta * wmax) kernel;
  do r <- (match sve with Some r => Ok r | None => compute k eps end);
  do ' (u, s, v) <- part r eps max_size;
  do acc <- (match s with
             | [] => Raise IndexError
             | s0 :: _ =>
                 if (List.length s <? List.length (ss r))%nat
                 then Ok (nth (List.length s) (ss r) 0 / s0)
                 else Ok (last s 0 / s0)
             end);
  do u' <- rescaled u (fun x => beta / 2 * (x + 1)) (beta / 2);
  do v' <- rescaled v (fun y => wmax * y) wmax;
  let s' := map (fun x => sqrt (beta / 2 * wmax) * powerRZ wmax (- kyp k) * x) s in
  let full := VPoly (vgeom (su r)) (scaled_cols (sqrt beta) (vcols (su r))) in
  match klam k with
  | None => Raise AttributeError
  | Some lam =>
      do q <- even_odd statistics;
      do f <- ft_init full q (AsympAt (40 * lam)) None;
      do f' <- ft_slice f (Z.of_nat (List.length s));
      Ok (Basis statistics beta wmax k r acc u' s' v' f f')
  end.

(** basis.py:332-339, _slice_to_size.  An index is an integer or a slice. *)
Inductive pyidx := IdxInt (z : Z) | IdxSlice (start : option Z) (stop : option pynum) (step : option Z).
Definition slice_to_size (i : pyidx) : res (option pynum) :=
  match i with
  | IdxInt _ => Raise ValueError
  | IdxSlice start stop step =>
      if match start with None => false | Some a => negb (a =? 0)%Z end then Raise ValueError else
      if match step with None => false | Some a => negb (a =? 1)%Z end then Raise ValueError else
      Ok stop
  end.

(** basis.py:93-97, __getitem__. *)
Definition basis_getitem (compute : kern -> option R -> res sve_result) (b : basis) (i : pyidx) : res basis :=
  do n <- slice_to_size i;
  basis_init compute (bstat b) (bbeta b) (bwmax b) None n (Some (bkernel b)) (Some (bsve b)).

(** basis.py:99-126, 155-161: statistics, beta, wmax, lambda_, shape, size, u, uhat,
    s and accuracy are the fields; size and significance. *)
Definition bsize (b : basis) : nat := List.length (bs b).
Definition significance (b : basis) : list R := map (fun x => x / nth 0 (bs b) 0) (bs b).

(** basis.py:199-209, rescale. *)
Definition rescale (compute : kern -> option R -> res sve_result) (b : basis) (new_beta : R) : res basis :=
  match klam (bkernel b) with
  | None => Raise AttributeError
  | Some lam =>
      if Reqb new_beta 0 then Raise ZeroDivisionError else
      basis_init compute (bstat b) new_beta (lam / new_beta) None (Some (PyInt (Z.of_nat (bsize b))))
                 (Some (bkernel b)) (Some (bsve b))
  end.

(** basis.py:212-225, finite_temp_bases. *)
Definition finite_temp_bases (compute : kern -> option R -> res sve_result) (beta wmax : R)
           (eps : option R) (sve : option sve_result) : res (basis * basis) :=
  do r <- (match sve with
           | Some r => Ok r
           | None => compute (logistic (beta * wmax)) eps
           end);
  do f <- basis_init compute "F" beta wmax eps None None (Some r);
  do b <- basis_init compute "B" beta wmax eps None None (Some r);
  Ok (f, b).

(** basis_set.py:27-42: the two bases of a FiniteTempBasisSet. *)
Definition basis_set (compute : kern -> option R -> res sve_result) (beta wmax : R)
           (eps : option R) (sve : option sve_result) : res (basis * basis) :=
  match sve with
  | None => finite_temp_bases compute beta wmax eps None
  | Some r =>
      do f <- basis_init compute "F" beta wmax eps None None (Some r);
      do b <- basis_init compute "B" beta wmax eps None None (Some r);
      Ok (f, b)
  end.

(** basis.py:228-257, _default_sampling_points.  The boolean says whether the
    warning is issued; [None] is non-termination of the root search. *)
Definition default_sampling_points (rnd : R -> R) (fuel : nat) (u : vpoly) (L : Z)
  : option (res (list R * bool)) :=
  if negb (Reqb (gxmin (vgeom u)) (-1)) || negb (Reqb (gxmax (vgeom u)) 1)
  then Some (Raise ValueError) else
  let finish x0 := Ok (x0, negb (Z.of_nat (List.length x0) =? L)%Z) in
  if (L <? Z.of_nat (List.length (vcols u)))%Z then
    match getitem u L with
    | Raise e => Some (Raise e)
    | Ok p => match roots rnd fuel p 2 with None => None | Some x0 => Some (finish x0) end
    end
  else
    match getitem u (-1) with
    | Raise e => Some (Raise e)
    | Ok p =>
        match roots rnd fuel (sderiv 1 p) 2 with
        | None => None
        | Some maxima =>
            let left := map (fun m => / 2 * (m + gxmin (vgeom u))) (firstn 1 maxima) in
            let right := map (fun m => / 2 * (m + gxmax (vgeom u))) (firstn 1 (rev maxima)) in
            Some (finish (left ++ maxima ++ right))
        end
    end.

(** basis.py:172-176 and 185-197: in tau and in omega. *)
Definition scale_points (f : R -> R) (r : option (res (list R * bool))) : option (res (list R * bool)) :=
  match r with
  | None => None
  | Some r => Some (do ' (x, w) <- r; Ok (map f x, w))
  end.
Definition npoints_or_size (b : basis) (npoints : option Z) : Z :=
  match npoints with None => Z.of_nat (bsize b) | Some n => n end.
Definition default_tau (rnd : R -> R) (fuel : nat) (b : basis) (npoints : option Z) :=
  scale_points (fun x => bbeta b / 2 * (x + 1))
    (default_sampling_points rnd fuel (su (bsve b)) (npoints_or_size b npoints)).
Definition default_omega (rnd : R -> R) (fuel : nat) (b : basis) (npoints : option Z) :=
  scale_points (fun y => bwmax b * y)
    (default_sampling_points rnd fuel (sv (bsve b)) (npoints_or_size b npoints)).
