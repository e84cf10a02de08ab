(** The basis computed in rounded arithmetic and the best finite approximations of the
    kernel (C99), with a concrete case in doubles. *)
From Coq Require Import String ZArith Arith Bool Reals Lra Lia Psatz.
From Coquelicot Require Import Coquelicot.
From Coq Require Import List Sorting.Sorted Sorting.Permutation.
From Verif.Model Require Import Base Util IEEE Num Gauss Poly PolyIEEE FT FTIEEE SVE Basis Kernel KernelIEEE GaussIEEE Compute Whole SVEIEEE BasisIEEE WholeIEEE.
From Verif.Spec Require Import SGauss SPoly SFT SSVE SBasis SKernel SCompute SSingular SWhole SNear SComputed SKernelIEEE SGaussIEEE SPolyIEEE SFTIEEE SRounded SSVEIEEE SRoundedCompute SBasisIEEE SWholeIEEE.
From Verif.Proofs Require Import BaseFacts SumFacts PPolyFacts SVEFacts IEEEFacts KernelRoundCall PolyRound ComputeCase ComputeNodes ComputePost ComputeFull NearBest ComputedSVD MatrixRoundMore SegmentGaps RoundedSVE RoundedCase RoundedComputeCase CoefFun ComputeRound ComputeRoundSymm BasisRound BasisRoundProps BasisRoundMore WholeRoundExp WholeRound WholeRoundBasis.
Import ListNotations.
Open Scope R_scope.
Notation length := List.length.

Section Near.
Variables (have_xprec have_gejsv : bool) (dd : R) (old : bool).
Variable rd : dtype -> R -> R.
Variable ro : R -> R.
Variable pw : R -> Z -> R.
Variable f : dtype -> tfun.
Variable dot : bool -> bool -> nat -> nat -> nat -> list R -> list R -> R.
Variable legendre : dtype -> nat -> res rule.
Variable run : svd_alg -> matrix -> Z -> usv.
Variable argsort : list R -> list nat.
Notation compute_rd := (compute_rd have_xprec have_gejsv dd old rd ro f dot legendre run argsort).
Hypothesis Hsort : forall s, sorts s (argsort s).
Variables (stat : string) (beta wmax : R) (eps' : option R) (ms : option pynum) (KO : option kernel).
Variables (c c' : kern -> option R -> res sve_result).
Let K := used_kernel (ro (beta * wmax)) KO.
Variables (eps cutoff : option xr) (n_sv : option pynum) (ng : option nat) (work : option dtype) (st : option strat) (svds : option string) (r : sve_result) (b : basis).
Hypothesis Hc : compute_rd K eps cutoff n_sv ng work st svds = Ok (Some r).
Hypothesis Hi : basis_init_rd ro pw c stat beta wmax eps' ms (option_map kern_of KO) (Some r) = Ok b.
Variables (u0 eta0 : R).
Hypothesis Hb : built_rd u0 eta0 ro pw c b.
Variable b0 : basis.
Hypothesis H0 : exact_version c' b b0.
Hypothesis HK : usual_cutoff K.

Lemma whole_sample : st = Some SampleStrat ->
  exists t n q' M alg h,
  legendre t n = Ok q' /\ (forall m, ng = Some m -> n = m) /\
  sampling_matrix_rd (rd t) (kernel_matrix_rd (rd t) (f t) K) q' (segments_x K) (segments_y K) = Ok M /\
  let o := run alg M h in
  forall u eta e q sg om rho kap gam th GX GY f0 k a d dist,
    arithmetic u eta e (rd t) (f t) -> reference u n q q' sg om rho kap -> rounding u eta ro -> (forall x y, x <= y -> ro x <= ro y) ->
    (forall side l m i, inner_near n gam th (dot true side l m i)) -> coefficient_error n u sg om gam <= / 200 ->
    tfun_ok f0 -> (forall x y, -1 <= x <= 1 -> -1 <= y <= 1 -> has_value f0 K x y (k x y)) ->
    piecewise q (segments_x K) = Ok GX -> piecewise q (segments_y K) = Ok GY ->
    computed_svd (length (rx GX)) (length (rx GY)) M o a d dist ->
    let L := length (svals o) in
    let ce := coefficient_error n u sg om gam in
    let al := vectors_error n L (length (segments_x K) - 1) ce (5 * (eta + th)) in
    let ga := vectors_error n L (length (segments_y K) - 1) ce (5 * (eta + th)) in
    let s0 := ro (largest o) in
    let F := physical_factor beta wmax (k_ypower K) in
    a + 4 * al <= 1 -> d + 4 * ga <= 1 ->
    near_best_of_its_size (reseat GX 0 beta) (reseat GY (- wmax) wmax) (in_physical k (k_ypower K) beta wmax) b0
      (F * (dist + full_error u e sg om rho kap K + product_error u eta (svals o) s0 al ga + 2 * skew s0 (a + 4 * al) (d + 4 * ga)))
      (Rsqr F * sumsq (map ro (svals o))) /\
    nearly_orthonormal_functions (bu b0) (a + 4 * al) /\ nearly_orthonormal_functions (bv b0) (d + 4 * ga).
Proof.
  intros Hst. pose proof Hc as Hc'. rewrite Hst in Hc'.
  destruct (ComputeRound.rounded_sample _ _ _ _ _ _ _ _ _ _ _ _ _ _ _ _ _ _ _ Hc' HK) as (t & n & q' & M & alg & h & H1 & H2 & H3 & _ & H).
  exists t, n, q', M, alg, h. do 3 (split; [assumption|]). cbv zeta in *. intros u eta e q sg om rho kap gam th GX GY f0 k a d dist Ha Hr Hro Hm Hd Hce Hf Hk HX HY Hs A1 A2.
  specialize (H u eta e q sg om rho kap gam th GX GY f0 k a d dist Ha Hr Hro Hm Hd Hce Hf Hk HX HY Hs A1 A2).
  exact (version_near ro pw stat beta wmax eps' ms KO c c' r b Hi u0 eta0 Hb b0 H0 GX GY k _ _ _ _ q n HK (proj1 Hr) HX HY H).
Qed.

Lemma whole_symm : st <> Some SampleStrat ->
  exists t n q' Ke Ko Me Mo alge he algo ho,
  legendre t n = Ok q' /\ (forall m, ng = Some m -> n = m) /\
  get_symmetrized K 1 = Ok Ke /\ get_symmetrized K (-1) = Ok Ko /\
  sampling_matrix_rd (rd t) (reduced_matrix_rd (rd t) (f t) Ke) q' (half (segments_x K)) (half (segments_y K)) = Ok Me /\
  sampling_matrix_rd (rd t) (reduced_matrix_rd (rd t) (f t) Ko) q' (half (segments_x K)) (half (segments_y K)) = Ok Mo /\
  let even := run alge Me he in
  let odd := run algo Mo ho in
  forall u eta e q sg om rho kap gam th gx gy GX GY f0 k ae ce de ao co d_o,
    arithmetic u eta e (rd t) (f t) -> reference u n q q' sg om rho kap -> rounding u eta ro -> (forall x y, x <= y -> ro x <= ro y) ->
    (forall part side l m i, inner_near n gam th (dot part side l m i)) -> coefficient_error n u sg om gam <= / 200 ->
    tfun_ok f0 -> (forall x y, -1 <= x <= 1 -> -1 <= y <= 1 -> has_value f0 K x y (k x y)) ->
    piecewise q (half (segments_x K)) = Ok gx -> piecewise q (half (segments_y K)) = Ok gy ->
    piecewise q (segments_x K) = Ok GX -> piecewise q (segments_y K) = Ok GY ->
    computed_svd (length (rx gx)) (length (rx gy)) Me even ae ce de -> computed_svd (length (rx gx)) (length (rx gy)) Mo odd ao co d_o ->
    let cf := coefficient_error n u sg om gam + 4 * u in
    let tau := 8 * (eta + th) in
    let mx := (length (half (segments_x K)) - 1)%nat in
    let my := (length (half (segments_y K)) - 1)%nat in
    let defect_u b a := functions_defect n (length (svals b)) mx cf tau a in
    let defect_v b c := functions_defect n (length (svals b)) my cf tau c in
    let total b d := d + half_error u e sg om rho kap K +
      product_error u eta (svals b) (ro (largest b)) (vectors_error n (length (svals b)) mx cf tau) (vectors_error n (length (svals b)) my cf tau) in
    let F := physical_factor beta wmax (k_ypower K) in
    defect_u even ae <= 1 -> defect_v even ce <= 1 -> defect_u odd ao <= 1 -> defect_v odd co <= 1 ->
    near_best_of_its_size (reseat GX 0 beta) (reseat GY (- wmax) wmax) (in_physical k (k_ypower K) beta wmax) b0
      (F * (root2 (total even de) (total odd d_o) +
       2 * skew (Rmax (ro (largest even)) (ro (largest odd))) (root2 (defect_u even ae) (defect_u odd ao)) (root2 (defect_v even ce) (defect_v odd co))))
      (Rsqr F * (sumsq (map ro (svals even)) + sumsq (map ro (svals odd)))) /\
    nearly_orthonormal_functions (bu b0) (Rmax (defect_u even ae) (defect_u odd ao)) /\
    nearly_orthonormal_functions (bv b0) (Rmax (defect_v even ce) (defect_v odd co)).
Proof.
  intros Hst. destruct (rounded_symm _ _ _ _ _ _ _ _ _ _ _ Hsort _ _ _ _ _ _ _ _ _ Hc Hst HK) as (t & n & q' & Ke & Ko & Me & Mo & alge & he & algo & ho & H1 & H2 & H3 & H4 & H5 & H6 & H).
  exists t, n, q', Ke, Ko, Me, Mo, alge, he, algo, ho. do 6 (split; [assumption|]). cbv zeta in *.
  intros u eta e q sg om rho kap gam th gx gy GX GY f0 k ae ce de ao co d_o Ha Hr Hro Hm Hd Hce Hf Hk Hx Hy HX HY S1 S2 A1 A2 A3 A4.
  specialize (H u eta e q sg om rho kap gam th gx gy GX GY f0 k ae ce de ao co d_o Ha Hr Hro Hm Hd Hce Hf Hk Hx Hy HX HY S1 S2 A1 A2 A3 A4).
  exact (version_near ro pw stat beta wmax eps' ms KO c c' r b Hi u0 eta0 Hb b0 H0 GX GY k _ _ _ _ q n HK (proj1 Hr) HX HY H).
Qed.
End Near.
