(** sve.compute (Compute.v) with svd.compute (Decomp.v) in place of the abstract
    algorithms: which library decomposes the matrices, its errors and the
    warnings. *)
From Coq Require Import String ZArith Arith Bool Reals.
From Coquelicot Require Import Coquelicot.
From Coq Require Import List.
From Verif.Model Require Import Base Util Num Poly Gauss SVE Kernel NDArray Sampling Decomp Compute.
Import ListNotations.
Open Scope R_scope.

(** np.asarray(a_matrix), svd.py:40-41, of a list of rows. *)
Definition as_mat (A : matrix) : mat :=
  Mat (List.length A) (match A with [] => 0%nat | row :: _ => List.length row end) (fun i j => RtoC (nth j (nth i A []) 0)).

(** The columns of an array of real entries, as sve.py:186-196 and 382-385 take
    them apart. *)
Definition columns (m : mat) : list (list R) := map (fun k => map (fun i => Re (me m i k)) (seq 0 (mr m))) (seq 0 (mc m)).
Definition as_usv (t : svd_triple) : usv := (columns (t_u t), t_s t, columns (t_v t)).

(** svd.py:7-24: was the import successful? *)
Definition installed {T} (o : option T) : bool := match o with Some _ => true | None => false end.

(** sve.py:327-335 and the warnings of svd.compute. *)
Inductive sve_warning := LowAccuracy | InSvd (w : svd_warning).

(** sve.py:14-84, compute, for the kernels of the library, with the warnings in
    the order of their appearance. *)
Section Compute.
Variables (L : libs) (dd : R) (f : tfun).
Variable legendre : dtype -> nat -> res rule.
Variable argsort : list R -> list nat.

(** sve.py:81-82: svd.compute(matrix, sve.nsvals_hint, svd_strat). *)
Definition decompose (t : dtype) (hint : Z) (strategy : string) (A : matrix) : res (usv * list sve_warning) :=
  do ' (r, w) <- Decomp.svd_compute L t (as_mat A) (Some hint) strategy;
  Ok (as_usv r, map InSvd w).

Definition compute_warns (K : kernel) (eps : option xr) (cutoff : option xr) (n_sv : option pynum)
    (n_gauss : option nat) (work : option dtype) (st : option strat) (svd_strat : option string)
  : res (option sve_result * list sve_warning) :=
  let '(safe, t, strategy, low) := safe_eps (installed (xprec_svd L)) dd eps work svd_strat in
  let w0 := if low then [LowAccuracy] else [] in
  let rtol := match cutoff with None => Fin (default_cutoff dd t) | Some c => c end in
  match st with
  | Some SampleStrat =>
      do S <- sampling_init (legendre t) (full_kern f K safe) safe n_gauss;
      do A <- sampling_matrix S;
      do ' (b, w) <- decompose t (s_hint S) strategy A;
      do cut <- truncate [b] rtol n_sv;
      match cut with [b] => do r <- sampling_post S b; Ok (r, w0 ++ w) | _ => Raise ValueError end
  | _ =>
      do Ke <- get_symmetrized K 1;
      do even <- sampling_init (legendre t) (reduced_kern f Ke safe) safe n_gauss;
      do Ko <- get_symmetrized K (-1);
      do odd <- sampling_init (legendre t) (reduced_kern f Ko safe) safe n_gauss;
      let hint := Z.max (s_hint even) (s_hint odd) in
      do Ae <- sampling_matrix even;
      do ' (be, we) <- decompose t hint strategy Ae;
      do Ao <- sampling_matrix odd;
      do ' (bo, wo) <- decompose t hint strategy Ao;
      do cut <- truncate [be; bo] rtol n_sv;
      match cut with
      | [be; bo] =>
          do re <- sampling_post even be;
          do ro <- sampling_post odd bo;
          match re, ro with
          | Some re, Some ro => do r <- merge argsort safe (segments_x K) (segments_y K) re ro; Ok (Some r, w0 ++ we ++ wo)
          | _, _ => Ok (None, w0 ++ we ++ wo)
          end
      | _ => Raise ValueError
      end
  end.
End Compute.

(** svd.py:45-63: the chosen algorithm as a function of the matrix and the rank.
    Without the library in question the value is irrelevant: it is not chosen. *)
Definition library_run (L : libs) (alg : svd_alg) (A : matrix) (k : Z) : usv :=
  let a := as_mat A in
  match alg with
  | AlgDDouble => match ddouble_svd (xprec_svd L) a with Ok t => as_usv t | Raise _ => ([], [], []) end
  | AlgID => as_usv (interp_svd L a k)
  | AlgLapack => as_usv (default_svd (numpy_svd L) a)
  | AlgJacobi =>
      match lapack_gejsv L with
      | Some g => if (mr a <? mc a)%nat
                  then let t := g_triple (g (transposed a) 2%nat) in as_usv (Triple (t_v t) (t_s t) (t_u t))
                  else as_usv (g_triple (g a 2%nat))
      | None => ([], [], [])
      end
  end.
