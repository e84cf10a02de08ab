(** C87: sve.compute with the libraries of svd.compute. *)
From Coq Require Import String ZArith Arith Bool Reals.
From Coquelicot Require Import Coquelicot.
From Coq Require Import List.
From Verif.Model Require Import Base Util Num Gauss Poly FT SVE Basis Kernel NDArray Sampling Decomp Compute Whole Link.
From Verif.Spec Require Import SGauss SPoly SFT SSVE SBasis SKernel SSampling SDecomp SCompute SSingular SWhole SNear SLink.
From Verif.Proofs Require Import ComputeCase LinkFacts.
Import ListNotations.
Open Scope R_scope.
Notation length := List.length.

(** C87: the results are those of compute with the algorithms the libraries provide. *)
Theorem C87_same_result :
  forall L dd f legendre argsort K eps cutoff n_sv ng work st svds o w,
  compute_warns L dd f legendre argsort K eps cutoff n_sv ng work st svds = Ok (o, w) ->
  compute (installed (xprec_svd L)) (installed (lapack_gejsv L)) dd f legendre (library_run L) argsort K eps cutoff n_sv ng work st svds = Ok o.
Proof. exact warns_library. Qed.
Print Assumptions C87_same_result.

(** C87: and so are the exceptions, unless the Jacobi method rejects its arguments. *)
Theorem C87_same_exceptions :
  forall L dd f legendre argsort K eps cutoff n_sv ng work st svds, jacobi_accepts L ->
  without_warnings (compute_warns L dd f legendre argsort K eps cutoff n_sv ng work st svds) =
  compute (installed (xprec_svd L)) (installed (lapack_gejsv L)) dd f legendre (library_run L) argsort K eps cutoff n_sv ng work st svds.
Proof. exact erase_library. Qed.
Print Assumptions C87_same_exceptions.

(** C87: which warnings are issued. *)
Theorem C87_warnings :
  forall L dd f legendre argsort K eps cutoff n_sv ng work st svds o w safe t strategy low,
  safe_eps (installed (xprec_svd L)) dd eps work svds = (safe, t, strategy, low) ->
  compute_warns L dd f legendre argsort K eps cutoff n_sv ng work st svds = Ok (o, w) ->
  (In LowAccuracy w <-> svds = None /\ exists e, eps = Some e /\ xltb e (Fin safe) = true) /\
  (In (InSvd NoJacobi) w <-> (xprec_svd L = None \/ t <> DDouble) /\ strategy = "accurate"%string /\ lapack_gejsv L = None) /\
  (lapack_gejsv L = None \/ strategy <> "accurate"%string \/ (t = DDouble /\ xprec_svd L <> None) ->
   ~ In (InSvd Denormalized) w /\ ~ In (InSvd NotConverged) w).
Proof. exact link_warnings. Qed.
Print Assumptions C87_warnings.

(** C87: svd.compute is called once for each of the two parities, with the type and
    the strategy chosen from the accuracy and the number of values the kernel hints
    at.  If its results are what it documents up to ee and eo in each entry, every
    truncation of the expansion is nearly best. *)
Theorem C87_near_best_centrosymmetric :
  forall L dd f legendre argsort,
  good_rules legendre -> (forall s, sorts s (argsort s)) ->
  forall K eps cutoff n_sv ng work st svds r w safe t strategy low,
  safe_eps (installed (xprec_svd L)) dd eps work svds = (safe, t, strategy, low) ->
  compute_warns L dd f legendre argsort K eps cutoff n_sv ng work st svds = Ok (Some r, w) -> st <> Some SampleStrat ->
  forall k, tfun_ok f -> 0 < k_lambda K -> (forall x y, -1 <= x <= 1 -> -1 <= y <= 1 -> has_value f K x y (k x y)) ->
  exists n q gx gy GX GY re we ro wo,
    n = match ng with None => hint_ngauss safe | Some m => m end /\ legendre t n = Ok q /\
    piecewise q (half (segments_x K)) = Ok gx /\ piecewise q (half (segments_y K)) = Ok gy /\
    piecewise q (segments_x K) = Ok GX /\ piecewise q (segments_y K) = Ok GY /\
    let Ae := weighted (fun x y => k x y + k x (- y)) gx gy in
    let Ao := weighted (fun x y => k x y - k x (- y)) gx gy in
    Decomp.svd_compute L t (as_mat Ae) (Some (reduced_nsvals K)) strategy = Ok (re, we) /\
    Decomp.svd_compute L t (as_mat Ao) (Some (reduced_nsvals K)) strategy = Ok (ro, wo) /\
    forall ee eo, as_documented Ae re ee -> as_documented Ao ro eo ->
    near_best GX GY k r
      (sqrt (Rsqr (total_error (length (rx gx)) (length (rx gy)) ee) + Rsqr (total_error (length (rx gx)) (length (rx gy)) eo)))
      (sumsq (t_s re) + sumsq (t_s ro)).
Proof. exact link_centro. Qed.
Print Assumptions C87_near_best_centrosymmetric.

(** C87: without symmetrisation it is called once. *)
Theorem C87_near_best_sampling :
  forall L dd f legendre argsort,
  good_rules legendre ->
  forall K eps cutoff n_sv ng work svds r w safe t strategy low,
  safe_eps (installed (xprec_svd L)) dd eps work svds = (safe, t, strategy, low) ->
  compute_warns L dd f legendre argsort K eps cutoff n_sv ng work (Some SampleStrat) svds = Ok (Some r, w) ->
  forall k, (forall x y, -1 <= x <= 1 -> -1 <= y <= 1 -> has_value f K x y (k x y)) ->
  exists n q GX GY o wo,
    n = match ng with None => hint_ngauss safe | Some m => m end /\ legendre t n = Ok q /\
    piecewise q (segments_x K) = Ok GX /\ piecewise q (segments_y K) = Ok GY /\
    let A := weighted k GX GY in
    Decomp.svd_compute L t (as_mat A) (Some (hint_nsvals K)) strategy = Ok (o, wo) /\
    forall err, as_documented A o err ->
    near_best GX GY k r (total_error (length (rx GX)) (length (rx GY)) err) (sumsq (t_s o)).
Proof. exact link_sample. Qed.
Print Assumptions C87_near_best_sampling.

(** C87: the basis made from the expansion, in tau and omega. *)
Theorem C87_basis :
  forall L dd f legendre argsort,
  good_rules legendre -> (forall s, sorts s (argsort s)) -> returns_values L ->
  forall statistics beta wmax eps' max_size kernel c,
  let K := used_kernel (beta * wmax) kernel in
  forall eps cutoff n_sv ng work st svds r b w safe t strategy low,
  safe_eps (installed (xprec_svd L)) dd eps work svds = (safe, t, strategy, low) ->
  compute_warns L dd f legendre argsort K eps cutoff n_sv ng work st svds = Ok (Some r, w) ->
  basis_init c statistics beta wmax eps' max_size (option_map kern_of kernel) (Some r) = Ok b -> 0 < wmax ->
  forall k, tfun_ok f -> (forall x y, -1 <= x <= 1 -> -1 <= y <= 1 -> has_value f K x y (k x y)) -> st <> Some SampleStrat ->
  exists n q gx gy GX GY re we ro wo,
    n = match ng with None => hint_ngauss safe | Some m => m end /\ legendre t n = Ok q /\
    piecewise q (half (segments_x K)) = Ok gx /\ piecewise q (half (segments_y K)) = Ok gy /\
    piecewise q (segments_x K) = Ok GX /\ piecewise q (segments_y K) = Ok GY /\
    let Ae := weighted (fun x y => k x y + k x (- y)) gx gy in
    let Ao := weighted (fun x y => k x y - k x (- y)) gx gy in
    let F := physical_factor beta wmax (k_ypower K) in
    Decomp.svd_compute L t (as_mat Ae) (Some (reduced_nsvals K)) strategy = Ok (re, we) /\
    Decomp.svd_compute L t (as_mat Ao) (Some (reduced_nsvals K)) strategy = Ok (ro, wo) /\
    forall ee eo, as_documented Ae re ee -> as_documented Ao ro eo ->
    near_best_of_its_size (reseat GX 0 beta) (reseat GY (- wmax) wmax) (in_physical k (k_ypower K) beta wmax) b
      (F * sqrt (Rsqr (total_error (length (rx gx)) (length (rx gy)) ee) + Rsqr (total_error (length (rx gx)) (length (rx gy)) eo)))
      (Rsqr F * (sumsq (t_s re) + sumsq (t_s ro))).
Proof. exact link_basis_centro. Qed.
Print Assumptions C87_basis.

(** A library that decomposes matrices of one row, and the logistic kernel with the
    one-point rule. *)
Example C87_returns :
  forall dd, exists r w,
  compute_warns case_libs dd casef leg1 sort_indices caseK None (Some (Fin 0)) None (Some 1%nat) (Some Float64) None (Some "default"%string) = Ok (Some r, w).
Proof. exact case_link. Qed.

(** For every kernel there are rules and libraries that meet the hypotheses without
    an error in the matrices, and with them compute returns. *)
Example C87_nonvacuous :
  forall f K k, exists legendre L argsort,
  good_rules legendre /\ (forall s, sorts s (argsort s)) /\ returns_values L /\ jacobi_accepts L /\
  (forall t n q, legendre t n = Ok q ->
    (forall gx gy, piecewise q (half (segments_x K)) = Ok gx -> piecewise q (half (segments_y K)) = Ok gy ->
     let Ae := weighted (fun x y => k x y + k x (- y)) gx gy in
     let Ao := weighted (fun x y => k x y - k x (- y)) gx gy in
     forall t' hint strategy r w,
     (Decomp.svd_compute L t' (as_mat Ae) hint strategy = Ok (r, w) -> as_documented Ae r 0) /\
     (Decomp.svd_compute L t' (as_mat Ao) hint strategy = Ok (r, w) -> as_documented Ao r 0)) /\
    (forall gx gy, piecewise q (segments_x K) = Ok gx -> piecewise q (segments_y K) = Ok gy ->
     forall t' hint strategy r w,
     Decomp.svd_compute L t' (as_mat (weighted k gx gy)) hint strategy = Ok (r, w) -> as_documented (weighted k gx gy) r 0)) /\
  (forall dd eps cutoff n_sv work st svds, known_strategy svds -> (n_sv = None \/ exists z, n_sv = Some (PyInt z) /\ (0 <= z)%Z) ->
    (forall c, cutoff = Some c -> exists x, valid_rtol c x) ->
    (cutoff = None -> 0 <= dd <= / 2 /\ forall e, work = Some (OtherType e) -> 0 <= e <= / 2) ->
    exists o w, compute_warns L dd f legendre argsort K eps cutoff n_sv None work st svds = Ok (o, w)).
Proof. exact libraries_exist. Qed.
