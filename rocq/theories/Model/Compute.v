(** Model of the numerical part of src/sparse_ir/sve.py: SamplingSVE,
    CentrosymmSVE, _canonicalize and compute.  Arithmetic is exact, so that
    conversions between data types are identities.  The following are
    parameters: the Gauss-Legendre rule [legendre] (modelled in Gauss.v), the
    algorithms [run] computing singular value decompositions, and numpy's
    [argsort], whose order of equal values is unspecified. *)
From Coq Require Import String ZArith Arith Bool Reals.
From Coq Require Import List.
From Verif.Model Require Import Base Util Num Poly Gauss SVE Kernel.
Import ListNotations.
Open Scope R_scope.

(** A matrix is a list of rows; singular vectors are given as columns. *)
Definition matrix := list (list R).
Definition usv := block (list R) (list R).

(** What SamplingSVE uses of a kernel: K.sve_hints(eps), whose segments may
    raise, and kernel.matrix_from_gauss(K, ., .). *)
Record skern := SKern {
  sk_ngauss : nat; sk_nsvals : Z; sk_segs_x : res (list R); sk_segs_y : res (list R);
  sk_matrix : rule -> rule -> res matrix }.

(** kernel.py:210-248, 317-355: the hints of the full kernels. *)
Definition full_kern (f : tfun) (k : kernel) (eps : R) : skern :=
  SKern (hint_ngauss eps) (hint_nsvals k) (Ok (segments_x k)) (Ok (segments_y k)) (kernel_matrix f k).

(** kernel.py:405-406, 423-437: the hints of the reduced kernels. *)
Definition reduced_kern (f : tfun) (r : reduced) (eps : R) : skern :=
  SKern (hint_ngauss eps) (reduced_nsvals (rinner r)) (reduced_segments_x r) (reduced_segments_y r)
        (reduced_matrix f r).

(** sve.py:162-177, SamplingSVE.__init__; n_gauss replaces the hinted value. *)
Record ssve := SSVE {
  s_eps : R; s_n : nat; s_hint : Z; s_rule : rule; s_segs_x : list R; s_segs_y : list R;
  s_gx : rule; s_gy : rule; s_mat : rule -> rule -> res matrix }.
Definition sampling_init (legendre : nat -> res rule) (K : skern) (eps : R) (n_gauss : option nat) : res ssve :=
  let n := match n_gauss with None => sk_ngauss K | Some n => n end in
  do r <- legendre n;
  do sx <- sk_segs_x K;
  do sy <- sk_segs_y K;
  do gx <- piecewise r sx;
  do gy <- piecewise r sy;
  Ok (SSVE eps n (sk_nsvals K) r sx sy gx gy (sk_matrix K)).

(** sve.py:176-177: the square roots of the weights. *)
Definition sqrtw (g : rule) : list R := map sqrt (rw g).

(** sve.py:179-184, SamplingSVE.matrices. *)
Definition sampling_matrix (S : ssve) : res matrix :=
  do A <- s_mat S (s_gx S) (s_gy S);
  Ok (map2 (fun row w => map2 (fun a v => a * v) (map (fun a => a * w) row) (sqrtw (s_gy S))) A (sqrtw (s_gx S))).

(** sve.py:193-210: coefficient of order k on segment i of the polynomial built
    from one singular vector: divided by the square roots of the weights, cut
    into pieces of n, multiplied by the collocation matrix of the rule and by
    the square root of half the segment length. *)
Definition collocate (n : nat) (r : rule) (segs : list R) (sq : list R) (vec : list R) (k i : nat) : R :=
  let u_x := map2 (fun a w => a / w) vec sq in
  sumn n (fun j => legendre_collocation r n k j * nth (i * n + j) u_x 0) *
  sqrt (/ 2 * (nth (S i) segs 0 - nth i segs 0)).

(** np.sign *)
Definition np_sign (x : R) : R := if Rltb 0 x then 1 else if Rltb x 0 then -1 else 0.

(** sve.py:340-350, _canonicalize: the left functions are multiplied by the
    inverse of the sign of their value at 1, the right functions by that sign.
    If the value is 0, the data of the left function is multiplied by 1/0 = inf
    and is not finite any more; this is [None]. *)
Definition scale_col (c : R) (p : col) : col := Col (fun k i => cdat p k i * c) (csym p).
Definition canonicalize (u v : vpoly) : res (list (option col) * list col) :=
  do at1 <- vcall u 1;
  let gauge := map np_sign at1 in
  Ok (map2 (fun p g => if Reqb g 0 then None else Some (scale_col (1 / g) p)) (vcols u) gauge,
      map2 (fun p g => scale_col g p) (vcols v) gauge).

(** All data finite? *)
Fixpoint all_some {A} (l : list (option A)) : option (list A) :=
  match l with
  | [] => Some []
  | None :: _ => None
  | Some a :: l' => match all_some l' with None => None | Some t => Some (a :: t) end
  end.

(** sve.py:186-216, SamplingSVE.postprocess on one block.  [Ok None] is a result
    whose data is not finite. *)
Definition sampling_post (S : ssve) (b : usv) : res (option sve_result) :=
  let '(us, s, vs) := b in
  let segx := (List.length (s_segs_x S) - 1)%nat in
  let segy := (List.length (s_segs_y S) - 1)%nat in
  do u <- poly_init (s_n S) segx (map (collocate (s_n S) (s_rule S) (s_segs_x S) (sqrtw (s_gx S))) us) (s_segs_x S) None None;
  do v <- poly_init (s_n S) segy (map (collocate (s_n S) (s_rule S) (s_segs_y S) (sqrtw (s_gy S))) vs) (s_segs_y S) None None;
  do ' (cu, cv) <- canonicalize u v;
  match all_some cu with
  | None => Ok None
  | Some cu => Ok (Some (SVE (VPoly (vgeom u) cu) s (VPoly (vgeom v) cv) (Some (s_eps S))))
  end.

(** sve.py:276-287: the data of one merged function on twice as many segments:
    first the flipped segments in reverse order with alternating signs, then the
    original ones, all divided by sqrt(2). *)
Definition mirror_col (m : nat) (sg : R) (c : col) (k i : nat) : R :=
  let d := fun k i => cdat c k i * (1 / sqrt 2) in
  if (i <? m)%nat then d k (m - 1 - i)%nat * (-1) ^ k * sg else d k (i - m)%nat.

(** a[idx] for an integer index array without negative entries. *)
Definition take_idx {A} (d : A) (l : list A) (idx : list nat) : list A := map (fun i => nth i l d) idx.

(** sve.py:261-295, CentrosymmSVE.postprocess after both inner calls.
    [full_x], [full_y] are the segments of the full kernel. *)
Definition merge (argsort : list R -> list nat) (eps : R) (full_x full_y : list R) (even odd : sve_result) : res sve_result :=
  let ucols := vcols (su even) ++ vcols (su odd) in
  let vcols := vcols (sv even) ++ vcols (sv odd) in
  let s := ss even ++ ss odd in
  let signs := map (fun _ => 1) (ss even) ++ map (fun _ => -1) (ss odd) in
  let sort := rev (argsort s) in
  let d := Col (fun _ _ => 0) 0 in
  let ucols := take_idx d ucols sort in
  let vcols := take_idx d vcols sort in
  let s := take_idx 0 s sort in
  let signs := take_idx 0 signs sort in
  let mx := gnseg (vgeom (su even)) in
  let my := gnseg (vgeom (sv even)) in
  do u <- poly_init (glen (vgeom (su even))) (2 * mx) (map2 (mirror_col mx) signs ucols) full_x None (Some signs);
  do v <- poly_init (glen (vgeom (sv even))) (2 * my) (map2 (mirror_col my) signs vcols) full_y None (Some signs);
  Ok (SVE u s v (Some eps)).

(** svd.py:26-62, compute: [run alg A hint] is the chosen algorithm. *)
Definition svd_compute (have_xprec have_gejsv : bool) (run : svd_alg -> matrix -> Z -> usv)
    (t : dtype) (A : matrix) (hint : Z) (strategy : string) : res usv :=
  let m := Z.of_nat (List.length A) in
  let n := Z.of_nat (match A with [] => 0%nat | row :: _ => List.length row end) in
  do ' (alg, _) <- svd_dispatch have_xprec have_gejsv t strategy;
  Ok (run alg A (Z.min (Z.min m n) hint)).

(** sve.py:74-75: the strategy argument; other classes are not modelled. *)
Inductive strat := SampleStrat | CentroStrat.

(** sve.py:14-84, compute, for the kernels of the library.  The warning of
    _safe_eps is not part of the result here. *)
Section Compute.
Variables (have_xprec have_gejsv : bool) (dd : R) (f : tfun).
Variable legendre : dtype -> nat -> res rule.
Variable run : svd_alg -> matrix -> Z -> usv.
Variable argsort : list R -> list nat.

Definition compute (K : kernel) (eps : option xr) (cutoff : option xr) (n_sv : option pynum)
    (n_gauss : option nat) (work : option dtype) (st : option strat) (svd_strat : option string)
  : res (option sve_result) :=
  let '(safe, t, strategy, _) := safe_eps have_xprec dd eps work svd_strat in
  let rtol := match cutoff with None => Fin (default_cutoff dd t) | Some c => c end in
  let svd := svd_compute have_xprec have_gejsv run t in
  match st with
  | Some SampleStrat =>
      do S <- sampling_init (legendre t) (full_kern f K safe) safe n_gauss;
      do A <- sampling_matrix S;
      do b <- svd A (s_hint S) strategy;
      do cut <- truncate [b] rtol n_sv;
      match cut with [b] => sampling_post S b | _ => Raise ValueError end
  | _ =>
      (* sve.py:242-252, CentrosymmSVE.__init__ *)
      do Ke <- get_symmetrized K 1;
      do even <- sampling_init (legendre t) (reduced_kern f Ke safe) safe n_gauss;
      do Ko <- get_symmetrized K (-1);
      do odd <- sampling_init (legendre t) (reduced_kern f Ko safe) safe n_gauss;
      let hint := Z.max (s_hint even) (s_hint odd) in
      do Ae <- sampling_matrix even;
      do be <- svd Ae hint strategy;
      do Ao <- sampling_matrix odd;
      do bo <- svd Ao hint strategy;
      do cut <- truncate [be; bo] rtol n_sv;
      match cut with
      | [be; bo] =>
          do re <- sampling_post even be;
          do ro <- sampling_post odd bo;
          match re, ro with
          | Some re, Some ro => do r <- merge argsort safe (segments_x K) (segments_y K) re ro; Ok (Some r)
          | _, _ => Ok None
          end
      | _ => Raise ValueError
      end
  end.
End Compute.
