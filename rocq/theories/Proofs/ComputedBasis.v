(** Bases made from decompositions with nearly orthonormal vectors, of exact and of
    rounded matrices (C91). *)
From Coq Require Import String ZArith Arith Bool Reals Lra Lia Psatz.
From Coquelicot Require Import Coquelicot.
From Coq Require Import List Sorting.Sorted Sorting.Permutation.
From Verif.Model Require Import Base Util Num Gauss Poly FT SVE Basis Kernel KernelIEEE GaussIEEE Compute Whole.
From Verif.Spec Require Import SGauss SPoly SFT SSVE SBasis SKernel SCompute SSingular SWhole SNear SKernelIEEE SGaussIEEE SRounded SComputed.
From Verif.Proofs Require Import BaseFacts SumFacts PPolyFacts GaussFacts BasisFacts BasisInit BasisProps BasisOps BasisPhys ComputeNodes ComputePost ComputeFull WholeFacts WholeBasis BestCuts NearBest RoundedSVE ComputedSVD.
Import ListNotations.
Open Scope R_scope.
Notation length := List.length.

Lemma phys_nearly_u compute b : built compute b -> forall a, nearly_orthonormal_functions (su (bsve b)) a -> nearly_orthonormal_functions (bu b) a.
Proof.
  intros Hb a Ho l m u u' Hu Hu'. destruct (u_from compute b Hb l u Hu) as (Hl & f & Hf & _). destruct (u_from compute b Hb m u' Hu') as (Hm & g & Hg & _).
  destruct (Ho l m f g Hf Hg) as (I & HI & HA). exists I. split; [|exact HA].
  destruct (bu_range compute b Hb) as [-> ->]. apply (u_overlap compute b Hb l m f g u u' _ Hl Hm Hf Hg Hu Hu').
  pose proof (ok_r compute b Hb) as (_ & _ & U1 & U2 & _). rewrite U1, U2 in HI. exact HI.
Qed.
Lemma phys_nearly_v compute b : built compute b -> forall a, nearly_orthonormal_functions (sv (bsve b)) a -> nearly_orthonormal_functions (bv b) a.
Proof.
  intros Hb a Ho l m u u' Hu Hu'. destruct (v_from compute b Hb l u Hu) as (Hl & f & Hf & _). destruct (v_from compute b Hb m u' Hu') as (Hm & g & Hg & _).
  destruct (Ho l m f g Hf Hg) as (I & HI & HA). exists I. split; [|exact HA].
  destruct (bv_range compute b Hb) as [-> ->]. apply (v_overlap compute b Hb l m f g u u' _ Hl Hm Hf Hg Hu Hu').
  pose proof (ok_r compute b Hb) as (_ & _ & _ & _ & V1 & V2 & _). rewrite V1, V2 in HI. exact HI.
Qed.

Section FromExpansion.
Variables (have_xprec have_gejsv : bool) (dd : R) (f : tfun).
Variable legendre : dtype -> nat -> res rule.
Variable run : svd_alg -> matrix -> Z -> usv.
Variable argsort : list R -> list nat.
Notation compute := (Compute.compute have_xprec have_gejsv dd f legendre run argsort).
Hypothesis Hleg : good_rules legendre.
Hypothesis Hsort : forall s, sorts s (argsort s).
Hypothesis Hrun : svd_shaped run.
Variables (stat : string) (beta wmax : R) (eps' : option R) (ms : option pynum) (KO : option kernel).
Variable c : kern -> option R -> res sve_result.
Let K := used_kernel (beta * wmax) KO.
Variables (eps cutoff : option xr) (n_sv : option pynum) (ng : option nat) (work : option dtype) (st : option strat) (svds : option string) (r : sve_result) (b : basis).
Hypothesis Hc : compute K eps cutoff n_sv ng work st svds = Ok (Some r).
Hypothesis Hi : basis_init c stat beta wmax eps' ms (option_map kern_of KO) (Some r) = Ok b.
Hypothesis Hw : 0 < wmax.
Variable k : R -> R -> R.

Lemma from_centro_computed : tfun_ok f -> (forall x y, -1 <= x <= 1 -> -1 <= y <= 1 -> has_value f K x y (k x y)) -> st <> Some SampleStrat ->
  exists t n q gx gy GX GY alge he algo ho,
    legendre t n = Ok q /\ (forall m, ng = Some m -> n = m) /\
    piecewise q (half (segments_x K)) = Ok gx /\ piecewise q (half (segments_y K)) = Ok gy /\
    piecewise q (segments_x K) = Ok GX /\ piecewise q (segments_y K) = Ok GY /\
    let Ae := weighted (fun x y => k x y + k x (- y)) gx gy in
    let Ao := weighted (fun x y => k x y - k x (- y)) gx gy in
    let even := run alge Ae he in
    let odd := run algo Ao ho in
    let F := physical_factor beta wmax (k_ypower K) in
    forall ae ce de ao co d_o,
    computed_svd (length (rx gx)) (length (rx gy)) Ae even ae ce de -> computed_svd (length (rx gx)) (length (rx gy)) Ao odd ao co d_o ->
    near_best_of_its_size (reseat GX 0 beta) (reseat GY (- wmax) wmax) (in_physical k (k_ypower K) beta wmax) b
      (F * (root2 de d_o + 2 * skew (Rmax (largest even) (largest odd)) (root2 ae ao) (root2 ce co))) (Rsqr F * (sumsq (svals even) + sumsq (svals odd))) /\
    nearly_orthonormal_functions (bu b) (Rmax ae ao) /\ nearly_orthonormal_functions (bv b) (Rmax ce co).
Proof.
  intros Hf Hk Hst.
  destruct (from_parts _ _ _ _ _ _ _ Hleg Hsort Hrun _ _ _ _ _ _ _ _ _ _ _ _ _ _ _ _ Hc Hi Hw) as (Hb & Er & E1 & E2 & E3 & E4 & Hl). destruct (valid_of K Hl) as [Vx Vy].
  destruct (computed_centro _ _ _ _ _ _ _ Hleg Hsort _ _ _ _ _ _ _ _ _ Hc Hst k Hf Hl Hk) as
    (t & n & q & gx & gy & GX & GY & alge & he & algo & ho & H1 & H2 & H3 & H4 & H5 & H6 & H7).
  exists t, n, q, gx, gy, GX, GY, alge, he, algo, ho. repeat (split; [assumption|]). cbv zeta in *. intros ae ce de ao co d_o T1 T2.
  destruct (H7 ae ce de ao co d_o T1 T2) as (Q1 & Q2 & Q3). destruct (Hleg _ _ _ H1) as [Gq _].
  destruct (segs_rule _ _ _ _ Gq Vx H5) as (A1 & A2 & A3). destruct (segs_rule _ _ _ _ Gq Vy H6) as (B1 & B2 & B3).
  rewrite <- Er in Q1, Q2, Q3. split; [|split].
  - pose proof (phys_near c b Hb GX GY k A1 A2 B1 B2 A3 B3 _ _ Q1) as Q. rewrite E2, E3, E4 in Q. exact Q.
  - exact (phys_nearly_u c b Hb _ Q2).
  - exact (phys_nearly_v c b Hb _ Q3).
Qed.

Lemma from_sample_computed : (forall x y, -1 <= x <= 1 -> -1 <= y <= 1 -> has_value f K x y (k x y)) -> st = Some SampleStrat ->
  exists t n q GX GY alg h,
    legendre t n = Ok q /\ (forall m, ng = Some m -> n = m) /\
    piecewise q (segments_x K) = Ok GX /\ piecewise q (segments_y K) = Ok GY /\
    let A := weighted k GX GY in
    let o := run alg A h in
    let F := physical_factor beta wmax (k_ypower K) in
    forall a c d, computed_svd (length (rx GX)) (length (rx GY)) A o a c d ->
    near_best_of_its_size (reseat GX 0 beta) (reseat GY (- wmax) wmax) (in_physical k (k_ypower K) beta wmax) b
      (F * (d + 2 * skew (largest o) a c)) (Rsqr F * sumsq (svals o)) /\
    nearly_orthonormal_functions (bu b) a /\ nearly_orthonormal_functions (bv b) c.
Proof.
  intros Hk Hst. destruct (from_parts _ _ _ _ _ _ _ Hleg Hsort Hrun _ _ _ _ _ _ _ _ _ _ _ _ _ _ _ _ Hc Hi Hw) as (Hb & Er & E1 & E2 & E3 & E4 & Hl).
  destruct (valid_of K Hl) as [Vx Vy]. pose proof Hc as Hc'. rewrite Hst in Hc'.
  destruct (computed_sample _ _ _ _ _ _ _ Hleg _ _ _ _ _ _ _ _ Hc' k Hk) as (t & n & q & GX & GY & alg & h & H1 & H2 & H5 & H6 & H7).
  exists t, n, q, GX, GY, alg, h. repeat (split; [assumption|]). cbv zeta in *. intros a c0 d T1.
  destruct (H7 a c0 d T1) as (Q1 & Q2 & Q3). destruct (Hleg _ _ _ H1) as [Gq _].
  destruct (segs_rule _ _ _ _ Gq Vx H5) as (A1 & A2 & A3). destruct (segs_rule _ _ _ _ Gq Vy H6) as (B1 & B2 & B3).
  rewrite <- Er in Q1, Q2, Q3. split; [|split].
  - pose proof (phys_near c b Hb GX GY k A1 A2 B1 B2 A3 B3 _ _ Q1) as Q. rewrite E2, E3, E4 in Q. exact Q.
  - exact (phys_nearly_u c b Hb _ Q2).
  - exact (phys_nearly_v c b Hb _ Q3).
Qed.
End FromExpansion.

(** * Rounded matrices *)
Lemma computed_full u eta e rd f n q r sg om rho kap K GX GY M b a c d :
  arithmetic u eta e rd f -> reference u n q r sg om rho kap -> usual_cutoff K ->
  piecewise q (segments_x K) = Ok GX -> piecewise q (segments_y K) = Ok GY ->
  sampling_matrix_rd rd (kernel_matrix_rd rd f K) r (segments_x K) (segments_y K) = Ok M ->
  forall f0 k, tfun_ok f0 -> (forall x y, -1 <= x <= 1 -> -1 <= y <= 1 -> has_value f0 K x y (k x y)) ->
  computed_svd (length (rx GX)) (length (rx GY)) M b a c d ->
  computed_svd (length (rx GX)) (length (rx GY)) (weighted k GX GY) b a c (d + full_error u e sg om rho kap K).
Proof. intros Ha Hr HK HX HY HM f0 k Hf Hk Hn. apply (computed_shift _ _ _ M); auto; [exact (full_error_pos u eta e rd f n q r sg om rho kap K Ha Hr HK)|]. exact (full_close u eta e rd f n q r sg om rho kap K GX GY M Ha Hr HK HX HY HM f0 k Hf Hk). Qed.

Lemma computed_half u eta e rd f n q r sg om rho kap K gx gy s red M b a c d :
  arithmetic u eta e rd f -> reference u n q r sg om rho kap -> usual_cutoff K ->
  piecewise q (half (segments_x K)) = Ok gx -> piecewise q (half (segments_y K)) = Ok gy ->
  s = 1 \/ s = -1 -> get_symmetrized K s = Ok red ->
  sampling_matrix_rd rd (reduced_matrix_rd rd f red) r (half (segments_x K)) (half (segments_y K)) = Ok M ->
  forall f0 k, tfun_ok f0 -> (forall x y, -1 <= x <= 1 -> -1 <= y <= 1 -> has_value f0 K x y (k x y)) ->
  computed_svd (length (rx gx)) (length (rx gy)) M b a c d ->
  computed_svd (length (rx gx)) (length (rx gy)) (weighted (fun x y => k x y + s * k x (- y)) gx gy) b a c (d + half_error u e sg om rho kap K).
Proof. intros Ha Hr HK HX HY Hs Hred HM f0 k Hf Hk Hn. apply (computed_shift _ _ _ M); auto; [exact (half_error_pos u eta e rd f n q r sg om rho kap K Ha Hr HK)|]. exact (half_close u eta e rd f n q r sg om rho kap K gx gy s red M Ha Hr HK HX HY Hs Hred HM f0 k Hf Hk). Qed.

Lemma rounded_computed_sample :
  forall have_xprec have_gejsv dd f legendre run argsort,
  good_rules legendre -> (forall s, sorts s (argsort s)) -> svd_shaped run ->
  forall statistics beta wmax eps' max_size kernel c,
  let K := used_kernel (beta * wmax) kernel in
  forall eps cutoff n_sv ng work st svds r b,
  compute have_xprec have_gejsv dd f legendre run argsort K eps cutoff n_sv ng work st svds = Ok (Some r) ->
  basis_init c statistics beta wmax eps' max_size (option_map kern_of kernel) (Some r) = Ok b -> 0 < wmax ->
  forall k, tfun_ok f -> usual_cutoff K -> (forall x y, -1 <= x <= 1 -> -1 <= y <= 1 -> has_value f K x y (k x y)) -> st = Some SampleStrat ->
  exists t n q GX GY alg h,
    legendre t n = Ok q /\ (forall m, ng = Some m -> n = m) /\
    piecewise q (segments_x K) = Ok GX /\ piecewise q (segments_y K) = Ok GY /\
    let o := run alg (weighted k GX GY) h in
    let F := physical_factor beta wmax (k_ypower K) in
    forall u eta e rd f' q' sg om rho kap M a c d,
    arithmetic u eta e rd f' -> reference u n q q' sg om rho kap ->
    sampling_matrix_rd rd (kernel_matrix_rd rd f' K) q' (segments_x K) (segments_y K) = Ok M ->
    computed_svd (length (rx GX)) (length (rx GY)) M o a c d ->
    near_best_of_its_size (reseat GX 0 beta) (reseat GY (- wmax) wmax) (in_physical k (k_ypower K) beta wmax) b
      (F * (d + full_error u e sg om rho kap K + 2 * skew (largest o) a c)) (Rsqr F * sumsq (svals o)) /\
    nearly_orthonormal_functions (bu b) a /\ nearly_orthonormal_functions (bv b) c.
Proof.
  intros have_xprec have_gejsv dd f legendre run argsort G Hs Hsh statistics beta wmax eps' max_size kernel c K eps cutoff n_sv ng work st svds r b H Hb Hw k Hf HK Hk Hst.
  destruct (from_sample_computed have_xprec have_gejsv dd f legendre run argsort G Hs Hsh statistics beta wmax eps' max_size kernel c eps cutoff n_sv ng work st svds r b H Hb Hw k Hk Hst)
    as (t & n & q & GX & GY & alg & h & Hl & Hn & HX & HY & Hf').
  exists t, n, q, GX, GY, alg, h. do 4 (split; [assumption|]). cbv zeta in *. intros u eta e rd f' q' sg om rho kap M a c0 d Ha Hr HM Hd. apply Hf'.
  apply (computed_full u eta e rd f' n q q' sg om rho kap K GX GY M _ a c0 d Ha Hr HK HX HY HM f k Hf Hk Hd).
Qed.

Lemma rounded_computed_centro :
  forall have_xprec have_gejsv dd f legendre run argsort,
  good_rules legendre -> (forall s, sorts s (argsort s)) -> svd_shaped run ->
  forall statistics beta wmax eps' max_size kernel c,
  let K := used_kernel (beta * wmax) kernel in
  forall eps cutoff n_sv ng work st svds r b,
  compute have_xprec have_gejsv dd f legendre run argsort K eps cutoff n_sv ng work st svds = Ok (Some r) ->
  basis_init c statistics beta wmax eps' max_size (option_map kern_of kernel) (Some r) = Ok b -> 0 < wmax ->
  forall k, tfun_ok f -> usual_cutoff K -> (forall x y, -1 <= x <= 1 -> -1 <= y <= 1 -> has_value f K x y (k x y)) -> st <> Some SampleStrat ->
  exists t n q gx gy GX GY alge he algo ho,
    legendre t n = Ok q /\ (forall m, ng = Some m -> n = m) /\
    piecewise q (half (segments_x K)) = Ok gx /\ piecewise q (half (segments_y K)) = Ok gy /\
    piecewise q (segments_x K) = Ok GX /\ piecewise q (segments_y K) = Ok GY /\
    let even := run alge (weighted (fun x y => k x y + k x (- y)) gx gy) he in
    let odd := run algo (weighted (fun x y => k x y - k x (- y)) gx gy) ho in
    let F := physical_factor beta wmax (k_ypower K) in
    forall u eta e rd f' q' sg om rho kap Ke Ko Me Mo ae ce de ao co d_o,
    arithmetic u eta e rd f' -> reference u n q q' sg om rho kap ->
    get_symmetrized K 1 = Ok Ke -> get_symmetrized K (-1) = Ok Ko ->
    sampling_matrix_rd rd (reduced_matrix_rd rd f' Ke) q' (half (segments_x K)) (half (segments_y K)) = Ok Me ->
    sampling_matrix_rd rd (reduced_matrix_rd rd f' Ko) q' (half (segments_x K)) (half (segments_y K)) = Ok Mo ->
    computed_svd (length (rx gx)) (length (rx gy)) Me even ae ce de -> computed_svd (length (rx gx)) (length (rx gy)) Mo odd ao co d_o ->
    let h := half_error u e sg om rho kap K in
    near_best_of_its_size (reseat GX 0 beta) (reseat GY (- wmax) wmax) (in_physical k (k_ypower K) beta wmax) b
      (F * (root2 (de + h) (d_o + h) + 2 * skew (Rmax (largest even) (largest odd)) (root2 ae ao) (root2 ce co))) (Rsqr F * (sumsq (svals even) + sumsq (svals odd))) /\
    nearly_orthonormal_functions (bu b) (Rmax ae ao) /\ nearly_orthonormal_functions (bv b) (Rmax ce co).
Proof.
  intros have_xprec have_gejsv dd f legendre run argsort G Hs Hsh statistics beta wmax eps' max_size kernel c K eps cutoff n_sv ng work st svds r b H Hb Hw k Hf HK Hk Hst.
  destruct (from_centro_computed have_xprec have_gejsv dd f legendre run argsort G Hs Hsh statistics beta wmax eps' max_size kernel c eps cutoff n_sv ng work st svds r b H Hb Hw k Hf Hk Hst)
    as (t & n & q & gx & gy & GX & GY & alge & he & algo & ho & Hq & Hn & H1 & H2 & H3 & H4 & Hf').
  exists t, n, q, gx, gy, GX, GY, alge, he, algo, ho. do 6 (split; [assumption|]). cbv zeta in *. intros u eta e rd f' q' sg om rho kap Ke Ko Me Mo ae ce de ao co d_o Ha Hr HKe HKo HMe HMo Ne No.
  apply Hf'.
  - pose proof (computed_half u eta e rd f' n q q' sg om rho kap K gx gy 1 Ke Me _ ae ce de Ha Hr HK H1 H2 (or_introl eq_refl) HKe HMe f k Hf Hk Ne) as B.
    rewrite (weighted_ext _ (fun x y => k x y + k x (- y))) in B by (intros; ring). exact B.
  - pose proof (computed_half u eta e rd f' n q q' sg om rho kap K gx gy (-1) Ko Mo _ ao co d_o Ha Hr HK H1 H2 (or_intror eq_refl) HKo HMo f k Hf Hk No) as B.
    rewrite (weighted_ext _ (fun x y => k x y - k x (- y))) in B by (intros; ring). exact B.
Qed.
