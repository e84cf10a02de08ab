(** Singular value expansions computed in rounded arithmetic: sve.py and the
    collocation matrix of _gauss.py with every addition, multiplication, division and
    square root rounded, by [rw] in the working data type and by [ro] in that of the
    result; comparisons and changes of sign are exact.  Inner products are computed by
    [dot], which may sum in a different order for each element.  The segments hinted
    by the kernels are taken as they are.  With exact operations these are the
    definitions of Model/Compute.v (theorem C95_exact_arithmetic).  Overflow is not
    modelled. *)
From Coq Require Import String ZArith Arith Bool Reals.
From Coq Require Import List.
From Verif.Model Require Import Base Util Num Poly PolyIEEE Gauss SVE Kernel KernelIEEE GaussIEEE Compute.
Import ListNotations.
Open Scope R_scope.

(** numpy.polynomial.legendre.legvander(x, deg): entries k and k + 1 of a row.
      v[0] = x*0 + 1
      v[1] = x
      v[i] = (v[i-1]*x*(2*i - 1) - v[i-2]*(i - 1))/i  *)
Fixpoint legvander_rd (rd : R -> R) (x : R) (k : nat) : R * R :=
  match k with
  | O => (rd (rd (x * 0) + 1), x)
  | S m =>
      let '(a, b) := legvander_rd rd x m in
      (b, rd (rd (rd (rd (b * x) * (2 * INR m + 3)) - rd (a * (INR m + 1))) / (INR m + 2)))
  end.

(** _gauss.py:93-103, legendre_collocation: entry (k, j). *)
Definition collocation_rd (rd : R -> R) (r : rule) (k j : nat) : R :=
  rd (rd (fst (legvander_rd rd (nth j (rx r) 0) k) * nth j (rw r) 0) * (INR k + / 2)).

(** sve.py:194-215: coefficient of order k on segment i of the polynomial built from
    one singular vector, converted to the data type of the result. *)
Definition collocate_rd (rw ro : R -> R) (dot : nat -> nat -> list R -> list R -> R)
    (n : nat) (r : rule) (segs : list R) (sq : list R) (vec : list R) (k i : nat) : R :=
  let u_x := map2 (fun a w => rw (a / w)) vec sq in
  ro (rw (dot k i (map (collocation_rd rw r k) (seq 0 n)) (map (fun j => nth (i * n + j) u_x 0) (seq 0 n)) *
          rw (sqrt (rw (/ 2 * rw (nth (S i) segs 0 - nth i segs 0)))))).

(** poly.py:26-63, __init__ without dx: the lengths of the segments are computed. *)
Definition poly_init_rd (rd : R -> R) (order nseg : nat) (dat : list (nat -> nat -> R)) (knots : list R)
    (symm : option (list R)) : res vpoly :=
  do p <- poly_init order nseg dat knots None symm;
  let g := vgeom p in
  Ok (VPoly (Geom (gorder g) (glen g) (gnseg g) (gknots g) (map rd (gdx g))) (vcols p)).

(** sve.py:340-350, _canonicalize, as in [canonicalize]; the factors are 1 and -1. *)
Definition canonicalize_rd (old : bool) (rd : R -> R) (u v : vpoly) : res (list (option col) * list col) :=
  do at1 <- vcall_rd old rd u 1;
  let gauge := map np_sign at1 in
  Ok (map2 (fun p g => if Reqb g 0 then None else Some (scale_col (1 / g) p)) (vcols u) gauge,
      map2 (fun p g => scale_col g p) (vcols v) gauge).

(** sve.py:162-177, SamplingSVE.__init__. *)
Definition sampling_init_rd (rd : R -> R) (legendre : nat -> res rule) (K : skern) (eps : R) (n_gauss : option nat) : res ssve :=
  let n := match n_gauss with None => sk_ngauss K | Some n => n end in
  do r <- legendre n;
  do sx <- sk_segs_x K;
  do sy <- sk_segs_y K;
  do gx <- piecewise_rd rd r sx;
  do gy <- piecewise_rd rd r sy;
  Ok (SSVE eps n (sk_nsvals K) r sx sy gx gy (sk_matrix K)).

(** sve.py:179-184, SamplingSVE.matrices. *)
Definition sampled_matrix_rd (rd : R -> R) (S : ssve) : res matrix :=
  do A <- s_mat S (s_gx S) (s_gy S);
  Ok (weighted_rd rd (s_gx S) (s_gy S) A).

(** sve.py:186-216, SamplingSVE.postprocess on one block; the first argument of [dot]
    tells left functions from right ones, the second is the number of the function. *)
Definition columns_rd (rw ro : R -> R) (dot : nat -> nat -> nat -> list R -> list R -> R) (n : nat) (r : rule) (segs sq : list R)
    (vecs : list (list R)) : list (nat -> nat -> R) :=
  map2 (fun l vec => collocate_rd rw ro (dot l) n r segs sq vec) (seq 0 (List.length vecs)) vecs.
Definition sampling_post_rd (old : bool) (rw ro : R -> R) (dot : bool -> nat -> nat -> nat -> list R -> list R -> R)
    (S : ssve) (b : usv) : res (option sve_result) :=
  let '(us, s, vs) := b in
  let segx := (List.length (s_segs_x S) - 1)%nat in
  let segy := (List.length (s_segs_y S) - 1)%nat in
  do u <- poly_init_rd ro (s_n S) segx (columns_rd rw ro (dot true) (s_n S) (s_rule S) (s_segs_x S) (sqrtw_rd rw (s_gx S)) us) (s_segs_x S) None;
  do v <- poly_init_rd ro (s_n S) segy (columns_rd rw ro (dot false) (s_n S) (s_rule S) (s_segs_y S) (sqrtw_rd rw (s_gy S)) vs) (s_segs_y S) None;
  do ' (cu, cv) <- canonicalize_rd old ro u v;
  match all_some cu with
  | None => Ok None
  | Some cu => Ok (Some (SVE (VPoly (vgeom u) cu) (map ro s) (VPoly (vgeom v) cv) (Some (s_eps S))))
  end.

(** sve.py:276-287: as [mirror_col]. *)
Definition mirror_col_rd (rd : R -> R) (m : nat) (sg : R) (c : col) (k i : nat) : R :=
  let d := fun k i => rd (cdat c k i * rd (1 / rd (sqrt 2))) in
  if (i <? m)%nat then d k (m - 1 - i)%nat * (-1) ^ k * sg else d k (i - m)%nat.

(** sve.py:261-295, CentrosymmSVE.postprocess after both inner calls. *)
Definition merge_rd (rd : R -> R) (argsort : list R -> list nat) (eps : R) (full_x full_y : list R) (even odd : sve_result) : res sve_result :=
  let ucols := vcols (su even) ++ vcols (su odd) in
  let vcols := vcols (sv even) ++ vcols (sv odd) in
  let s := ss even ++ ss odd in
  let signs := map (fun _ => 1) (ss even) ++ map (fun _ => -1) (ss odd) in
  let sort := rev (argsort s) in
  let d := Col (fun _ _ => 0) 0 in
  let ucols := take_idx d ucols sort in
  let vcols := take_idx d vcols sort in
  let s := take_idx 0 s sort in
  let signs := take_idx 0 signs sort in
  let mx := gnseg (vgeom (su even)) in
  let my := gnseg (vgeom (sv even)) in
  do u <- poly_init_rd rd (glen (vgeom (su even))) (2 * mx) (map2 (mirror_col_rd rd mx) signs ucols) full_x (Some signs);
  do v <- poly_init_rd rd (glen (vgeom (sv even))) (2 * my) (map2 (mirror_col_rd rd my) signs vcols) full_y (Some signs);
  Ok (SVE u s v (Some eps)).

(** sve.py:374-377 and 353-385, _truncate. *)
Definition cutoff_of_rd (rd : R -> R) (rtol : R) (lmax : option pynum) (sall : list R) : res R :=
  let ssort := rsort sall in
  let n := Z.of_nat (List.length sall) in
  let cutoff := rd (rtol * last ssort 0) in
  match lmax with
  | None => Ok cutoff
  | Some (PyInt z) =>
      if (z <? n)%Z then Ok (Rmax cutoff (nth (Z.to_nat (n - z - 1)) ssort 0)) else Ok cutoff
  | Some (PyFloat x) =>
      if negb (xleb (Fin (IZR n)) x) then Raise IndexError else Ok cutoff
  end.
Definition truncate_rd {A B} (rd : R -> R) (blocks : list (block A B)) (rtol : xr) (lmax : option pynum)
  : res (list (block A B)) :=
  do _ <- check_lmax lmax;
  do r <- check_rtol rtol;
  match blocks with
  | [] => Raise ValueError
  | _ =>
      let sall := concat (map bvals blocks) in
      match sall with
      | [] => Raise IndexError
      | _ => do cutoff <- cutoff_of_rd rd r lmax sall; Ok (map (cut_block cutoff) blocks)
      end
  end.

(** kernel.py:210-248, 317-355 and 405-406, 423-437: the hints, as in [full_kern] and
    [reduced_kern]. *)
Definition full_kern_rd (rd : R -> R) (f : tfun) (k : kernel) (eps : R) : skern :=
  SKern (hint_ngauss eps) (hint_nsvals k) (Ok (segments_x k)) (Ok (segments_y k)) (kernel_matrix_rd rd f k).
Definition reduced_kern_rd (rd : R -> R) (f : tfun) (r : reduced) (eps : R) : skern :=
  SKern (hint_ngauss eps) (reduced_nsvals (rinner r)) (reduced_segments_x r) (reduced_segments_y r)
        (reduced_matrix_rd rd f r).

(** sve.py:14-84, compute.  [rd t], [f t] and [legendre t] are the arithmetic, the
    elementary functions and the Gauss-Legendre rules of the working data type t; the
    first argument of [dot] tells even blocks from odd ones. *)
Section Compute.
Variables (have_xprec have_gejsv : bool) (dd : R) (old : bool).
Variable rd : dtype -> R -> R.
Variable ro : R -> R.
Variable f : dtype -> tfun.
Variable dot : bool -> bool -> nat -> nat -> nat -> list R -> list R -> R.
Variable legendre : dtype -> nat -> res rule.
Variable run : svd_alg -> matrix -> Z -> usv.
Variable argsort : list R -> list nat.

Definition compute_rd (K : kernel) (eps : option xr) (cutoff : option xr) (n_sv : option pynum)
    (n_gauss : option nat) (work : option dtype) (st : option strat) (svd_strat : option string)
  : res (option sve_result) :=
  let '(safe, t, strategy, _) := safe_eps have_xprec dd eps work svd_strat in
  let rtol := match cutoff with None => Fin (default_cutoff dd t) | Some c => c end in
  let svd := svd_compute have_xprec have_gejsv run t in
  match st with
  | Some SampleStrat =>
      do S <- sampling_init_rd (rd t) (legendre t) (full_kern_rd (rd t) (f t) K safe) safe n_gauss;
      do A <- sampled_matrix_rd (rd t) S;
      do b <- svd A (s_hint S) strategy;
      do cut <- truncate_rd (rd t) [b] rtol n_sv;
      match cut with [b] => sampling_post_rd old (rd t) ro (dot true) S b | _ => Raise ValueError end
  | _ =>
      do Ke <- get_symmetrized K 1;
      do even <- sampling_init_rd (rd t) (legendre t) (reduced_kern_rd (rd t) (f t) Ke safe) safe n_gauss;
      do Ko <- get_symmetrized K (-1);
      do odd <- sampling_init_rd (rd t) (legendre t) (reduced_kern_rd (rd t) (f t) Ko safe) safe n_gauss;
      let hint := Z.max (s_hint even) (s_hint odd) in
      do Ae <- sampled_matrix_rd (rd t) even;
      do be <- svd Ae hint strategy;
      do Ao <- sampled_matrix_rd (rd t) odd;
      do bo <- svd Ao hint strategy;
      do cut <- truncate_rd (rd t) [be; bo] rtol n_sv;
      match cut with
      | [be; bo] =>
          do re <- sampling_post_rd old (rd t) ro (dot true) even be;
          do ro' <- sampling_post_rd old (rd t) ro (dot false) odd bo;
          match re, ro' with
          | Some re, Some ro' => do r <- merge_rd ro argsort safe (segments_x K) (segments_y K) re ro'; Ok (Some r)
          | _, _ => Ok None
          end
      | _ => Raise ValueError
      end
  end.
End Compute.
