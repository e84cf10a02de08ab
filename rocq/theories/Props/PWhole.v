(** C85: the basis is the singular value expansion of its kernel in tau and omega. *)
From Coq Require Import String ZArith Arith Bool Reals Lra Lia.
From Coquelicot Require Import Coquelicot.
From Coq Require Import List Sorting.Sorted.
From Verif.Model Require Import Base Util Num Gauss Poly FT SVE Basis Kernel Compute Whole.
From Verif.Spec Require Import SGauss SPoly SFT SSVE SBasis SKernel SCompute SSingular SWhole.
From Verif.Proofs Require Import KernelProps ComputeCase WholeBasis WholeCase SvdRun.
Import ListNotations.
Open Scope R_scope.
Notation length := List.length.

(** C85: the constructor without sve_result builds the same basis as the
    constructor that is given the result of sve.compute(kernel, eps). *)
Theorem C85_constructor_computes :
  forall have_xprec have_gejsv dd f legendre run argsort statistics beta wmax eps max_size kernel b c,
  new_basis have_xprec have_gejsv dd f legendre run argsort statistics beta wmax eps max_size kernel = Ok (Some b) <->
  exists r, compute have_xprec have_gejsv dd f legendre run argsort (used_kernel (beta * wmax) kernel) (option_map Fin eps)
              None None None None None None = Ok (Some r) /\
    basis_init c statistics beta wmax eps max_size (option_map kern_of kernel) (Some r) = Ok b.
Proof. exact new_iff. Qed.
Print Assumptions C85_constructor_computes.

(** C85: from a computed expansion of the kernel, whatever the other arguments of
    sve.compute, the constructor makes a basis with the arguments given and at
    least one and at most as many functions as the expansion has; u_l(beta) is
    positive, and with the centrosymmetric strategy the functions are even or odd
    in pairs. *)
Theorem C85_shape :
  forall have_xprec have_gejsv dd f legendre run argsort,
  good_rules legendre -> (forall s, sorts s (argsort s)) -> svd_shaped run ->
  forall statistics beta wmax eps' max_size kernel c eps cutoff n_sv ng work st svds r b,
  compute have_xprec have_gejsv dd f legendre run argsort (used_kernel (beta * wmax) kernel) eps cutoff n_sv ng work st svds = Ok (Some r) ->
  basis_init c statistics beta wmax eps' max_size (option_map kern_of kernel) (Some r) = Ok b -> 0 < wmax ->
  (bstat b = statistics /\ bbeta b = beta /\ bwmax b = wmax /\ bsve b = r /\ (1 <= bsize b <= length (ss r))%nat) /\
  (forall l u, represents (bu b) l u -> 0 < u beta) /\
  (st <> Some SampleStrat -> common_parity b).
Proof.
  intros have_xprec have_gejsv dd f legendre run argsort H1 H2 H3 statistics beta wmax eps' max_size kernel c eps cutoff n_sv ng work st svds r b H4 H5 H6.
  split; [exact (from_named _ _ _ _ _ _ _ H1 H2 H3 _ _ _ _ _ _ _ _ _ _ _ _ _ _ _ _ H4 H5 H6)|].
  split; [exact (from_positive _ _ _ _ _ _ _ H1 H2 H3 _ _ _ _ _ _ _ _ _ _ _ _ _ _ _ _ H4 H5 H6)|].
  exact (from_parity _ _ _ _ _ _ _ H1 H2 H3 _ _ _ _ _ _ _ _ _ _ _ _ _ _ _ _ H4 H5 H6).
Qed.
Print Assumptions C85_shape.

(** C85: centrosymmetric strategy, which the constructor uses.  If the
    decompositions consist of singular triples, sum_l s_l u_l(tau) v_l(omega)
    diagonalizes the kernel in physical variables. *)
Theorem C85_diagonalizes_centrosymmetric :
  forall have_xprec have_gejsv dd f legendre run argsort,
  good_rules legendre -> (forall s, sorts s (argsort s)) -> svd_shaped run ->
  forall statistics beta wmax eps' max_size kernel c,
  let K := used_kernel (beta * wmax) kernel in
  forall eps cutoff n_sv ng work st svds r b,
  compute have_xprec have_gejsv dd f legendre run argsort K eps cutoff n_sv ng work st svds = Ok (Some r) ->
  basis_init c statistics beta wmax eps' max_size (option_map kern_of kernel) (Some r) = Ok b -> 0 < wmax ->
  forall k, tfun_ok f -> (forall x y, -1 <= x <= 1 -> -1 <= y <= 1 -> has_value f K x y (k x y)) -> st <> Some SampleStrat ->
  exists t n q gx gy GX GY alge he algo ho,
    legendre t n = Ok q /\ (forall m, ng = Some m -> n = m) /\
    piecewise q (half (segments_x K)) = Ok gx /\ piecewise q (half (segments_y K)) = Ok gy /\
    piecewise q (segments_x K) = Ok GX /\ piecewise q (segments_y K) = Ok GY /\
    let Ae := weighted (fun x y => k x y + k x (- y)) gx gy in
    let Ao := weighted (fun x y => k x y - k x (- y)) gx gy in
    singular_triples (length (rx gx)) (length (rx gy)) Ae (run alge Ae he) ->
    singular_triples (length (rx gx)) (length (rx gy)) Ao (run algo Ao ho) ->
    diagonalizes (reseat GX 0 beta) (reseat GY (- wmax) wmax) (in_physical k (k_ypower K) beta wmax) b.
Proof. exact from_centro. Qed.
Print Assumptions C85_diagonalizes_centrosymmetric.

(** C85: and if they are exact with ordered values, no sum of as many products is closer. *)
Theorem C85_best_centrosymmetric :
  forall have_xprec have_gejsv dd f legendre run argsort,
  good_rules legendre -> (forall s, sorts s (argsort s)) -> svd_shaped run ->
  forall statistics beta wmax eps' max_size kernel c,
  let K := used_kernel (beta * wmax) kernel in
  forall eps cutoff n_sv ng work st svds r b,
  compute have_xprec have_gejsv dd f legendre run argsort K eps cutoff n_sv ng work st svds = Ok (Some r) ->
  basis_init c statistics beta wmax eps' max_size (option_map kern_of kernel) (Some r) = Ok b -> 0 < wmax ->
  forall k, tfun_ok f -> (forall x y, -1 <= x <= 1 -> -1 <= y <= 1 -> has_value f K x y (k x y)) -> st <> Some SampleStrat ->
  exists t n q gx gy GX GY alge he algo ho,
    legendre t n = Ok q /\ (forall m, ng = Some m -> n = m) /\
    piecewise q (half (segments_x K)) = Ok gx /\ piecewise q (half (segments_y K)) = Ok gy /\
    piecewise q (segments_x K) = Ok GX /\ piecewise q (segments_y K) = Ok GY /\
    let Ae := weighted (fun x y => k x y + k x (- y)) gx gy in
    let Ao := weighted (fun x y => k x y - k x (- y)) gx gy in
    let even := run alge Ae he in
    let odd := run algo Ao ho in
    exact_svd (length (rx gx)) (length (rx gy)) Ae even -> exact_svd (length (rx gx)) (length (rx gy)) Ao odd ->
    nonincreasing (svals even) -> nonincreasing (svals odd) ->
    Forall (fun x => 0 <= x) (svals even) -> Forall (fun x => 0 <= x) (svals odd) ->
    best_of_its_size (reseat GX 0 beta) (reseat GY (- wmax) wmax) (in_physical k (k_ypower K) beta wmax) b.
Proof. exact from_centro_best. Qed.
Print Assumptions C85_best_centrosymmetric.

(** C85: the same from an expansion computed without symmetrisation. *)
Theorem C85_diagonalizes_sampling :
  forall have_xprec have_gejsv dd f legendre run argsort,
  good_rules legendre -> (forall s, sorts s (argsort s)) -> svd_shaped run ->
  forall statistics beta wmax eps' max_size kernel c,
  let K := used_kernel (beta * wmax) kernel in
  forall eps cutoff n_sv ng work st svds r b,
  compute have_xprec have_gejsv dd f legendre run argsort K eps cutoff n_sv ng work st svds = Ok (Some r) ->
  basis_init c statistics beta wmax eps' max_size (option_map kern_of kernel) (Some r) = Ok b -> 0 < wmax ->
  forall k, (forall x y, -1 <= x <= 1 -> -1 <= y <= 1 -> has_value f K x y (k x y)) -> st = Some SampleStrat ->
  exists t n q GX GY alg h,
    legendre t n = Ok q /\ (forall m, ng = Some m -> n = m) /\
    piecewise q (segments_x K) = Ok GX /\ piecewise q (segments_y K) = Ok GY /\
    let A := weighted k GX GY in
    let o := run alg A h in
    (singular_triples (length (rx GX)) (length (rx GY)) A o ->
     diagonalizes (reseat GX 0 beta) (reseat GY (- wmax) wmax) (in_physical k (k_ypower K) beta wmax) b).
Proof. exact from_sample. Qed.
Print Assumptions C85_diagonalizes_sampling.

Theorem C85_best_sampling :
  forall have_xprec have_gejsv dd f legendre run argsort,
  good_rules legendre -> (forall s, sorts s (argsort s)) -> svd_shaped run ->
  forall statistics beta wmax eps' max_size kernel c,
  let K := used_kernel (beta * wmax) kernel in
  forall eps cutoff n_sv ng work st svds r b,
  compute have_xprec have_gejsv dd f legendre run argsort K eps cutoff n_sv ng work st svds = Ok (Some r) ->
  basis_init c statistics beta wmax eps' max_size (option_map kern_of kernel) (Some r) = Ok b -> 0 < wmax ->
  forall k, (forall x y, -1 <= x <= 1 -> -1 <= y <= 1 -> has_value f K x y (k x y)) -> st = Some SampleStrat ->
  exists t n q GX GY alg h,
    legendre t n = Ok q /\ (forall m, ng = Some m -> n = m) /\
    piecewise q (segments_x K) = Ok GX /\ piecewise q (segments_y K) = Ok GY /\
    let A := weighted k GX GY in
    let o := run alg A h in
    exact_svd (length (rx GX)) (length (rx GY)) A o -> nonincreasing (svals o) -> Forall (fun x => 0 <= x) (svals o) ->
    best_of_its_size (reseat GX 0 beta) (reseat GY (- wmax) wmax) (in_physical k (k_ypower K) beta wmax) b.
Proof. exact from_sample_best. Qed.
Print Assumptions C85_best_sampling.

(** C85: the kernel of a basis made without a kernel argument: its values on the
    square and what they are in tau and omega. *)
Theorem C85_default_kernel :
  forall f beta wmax, tfun_ok f -> 0 < beta -> 0 < wmax ->
  (forall x y, -1 <= x <= 1 -> -1 <= y <= 1 ->
     has_value f (used_kernel (beta * wmax) None) x y (logistic_formula (beta * wmax) x y)) /\
  k_ypower (used_kernel (beta * wmax) None) = 0%Z /\
  forall t w, in_physical (logistic_formula (beta * wmax)) 0 beta wmax t w = exp (- t * w) / (1 + exp (- beta * w)).
Proof.
  intros f beta wmax Hf Hb Hw. split; [|split; [reflexivity|intros t w; exact (logistic_physical beta wmax t w Hb Hw)]].
  intros x y Hx Hy. apply (logistic_has_value f (beta * wmax) x y _ Hf (Rmult_lt_0_compat _ _ Hb Hw) Hx Hy). reflexivity.
Qed.
Print Assumptions C85_default_kernel.

(** C85: with the regularised bosonic kernel the expansion is that of the kernel
    omega exp(-tau omega) / (1 - exp(-beta omega)) divided by wmax^2. *)
Theorem C85_bosonic_kernel :
  forall beta wmax, 0 < beta -> 0 < wmax ->
  k_ypower (RegBose (beta * wmax)) = 1%Z /\
  forall t w, w <> 0 -> in_physical (bose_formula (beta * wmax)) 1 beta wmax t w =
    w * exp (- t * w) / (1 - exp (- beta * w)) / (wmax * wmax).
Proof. intros beta wmax Hb Hw. split; [reflexivity|]. intros t w H. exact (bose_physical beta wmax t w Hb Hw H). Qed.
Print Assumptions C85_bosonic_kernel.

(** C85: with valid arguments the constructor returns, provided that the rules of
    the two orders the code asks for are available and the decompositions of the
    matrix of the even part are exact. *)
Theorem C85_returns :
  forall have_xprec have_gejsv dd f legendre run argsort,
  good_rules legendre -> (forall s, sorts s (argsort s)) -> svd_shaped run -> tfun_ok f ->
  forall statistics beta wmax eps max_size kernel k,
  (forall t n, (n = 10 \/ n = 16)%nat -> exists q, legendre t n = Ok q) -> 0 <= dd < / 2 ->
  0 < beta -> 0 < wmax -> statistics = "F"%string \/ statistics = "B"%string ->
  (forall K, kernel = Some K -> Rabs (k_lambda K - beta * wmax) <= 4 / 10 ^ 16 * (beta * wmax)) ->
  (forall e, eps = Some e -> e <= 1) -> max_size = None \/ (exists z, max_size = Some (PyInt z) /\ (0 < z)%Z) ->
  let K := used_kernel (beta * wmax) kernel in
  (forall x y, -1 <= x <= 1 -> -1 <= y <= 1 -> has_value f K x y (k x y)) ->
  (forall t n q gx gy alg h, legendre t n = Ok q ->
     piecewise q (half (segments_x K)) = Ok gx -> piecewise q (half (segments_y K)) = Ok gy ->
     let Ae := weighted (fun x y => k x y + k x (- y)) gx gy in
     exact_svd (length (rx gx)) (length (rx gy)) Ae (run alg Ae h)) ->
  exists o, new_basis have_xprec have_gejsv dd f legendre run argsort statistics beta wmax eps max_size kernel = Ok o.
Proof. exact new_returns. Qed.
Print Assumptions C85_returns.

(** A fermionic basis for beta = 2, wmax = 1/2 from the expansion computed with the
    one-point rule. *)
Example C85_nonvacuous :
  forall have_xprec have_gejsv dd c, exists r b,
  case_compute have_xprec have_gejsv dd = Ok (Some r) /\ case_basis c r = Ok b /\
  exists gx gy, piecewise gauss1 (segments_x caseK) = Ok gx /\ piecewise gauss1 (segments_y caseK) = Ok gy /\
    diagonalizes (reseat gx 0 2) (reseat gy (- / 2) (/ 2)) (in_physical casek 0 2 (/ 2)) b /\
    best_of_its_size (reseat gx 0 2) (reseat gy (- / 2) (/ 2)) (in_physical casek 0 2 (/ 2)) b /\
    common_parity b.
Proof. exact case_whole. Qed.

(** For every kernel of the library there are rules, decompositions and a sorting
    that meet all hypotheses above, and with them the constructor returns for all
    valid arguments. *)
Example C85_returns_nonvacuous :
  forall f K k, tfun_ok f -> (forall x y, -1 <= x <= 1 -> -1 <= y <= 1 -> has_value f K x y (k x y)) ->
  exists legendre run argsort,
  (good_rules legendre /\ (forall s, sorts s (argsort s)) /\ svd_shaped run /\
   (forall t n, (n = 10 \/ n = 16)%nat -> exists q, legendre t n = Ok q) /\ decomposes_exactly legendre run K k) /\
  forall have_xprec have_gejsv dd statistics beta wmax eps max_size, 0 <= dd < / 2 ->
  0 < beta -> 0 < wmax -> statistics = "F"%string \/ statistics = "B"%string ->
  Rabs (k_lambda K - beta * wmax) <= 4 / 10 ^ 16 * (beta * wmax) ->
  (forall e, eps = Some e -> e <= 1) -> max_size = None \/ (exists z, max_size = Some (PyInt z) /\ (0 < z)%Z) ->
  exists o, new_basis have_xprec have_gejsv dd f legendre run argsort statistics beta wmax eps max_size (Some K) = Ok o.
Proof. exact constructor_case. Qed.
