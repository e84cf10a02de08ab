(** sve.compute in rounded arithmetic, without use of the symmetry. *)
From Coq Require Import String ZArith Arith Bool Reals Lra Lia Psatz.
From Coquelicot Require Import Coquelicot.
From Coq Require Import List Sorting.Sorted Sorting.Permutation.
From Verif.Model Require Import Base Util Num Gauss Poly PolyIEEE SVE Kernel KernelIEEE GaussIEEE Compute SVEIEEE.
From Verif.Spec Require Import SGauss SPoly SFT SSVE SBasis SKernel SCompute SSingular SWhole SNear SComputed SKernelIEEE SGaussIEEE SRounded SSVEIEEE SRoundedCompute.
From Verif.Proofs Require Import BaseFacts SumFacts IntFacts LegFacts GaussFacts GaussExact PPolyFacts PPolyInt SVEFacts BasisPhys KernelSegs ComputeNodes ComputePost ComputeSampling ComputeError ComputeFull SingularEq EckartYoung SvdExists BestCuts GaussRoundRule SegmentGaps RoundedSVE Polar ComputedSVD ComputedBasis NodesCore Perturb CoefFun RoundVectors PerturbedBlock CarriedBlock PostRound.
Import ListNotations.
Open Scope R_scope.
Notation length := List.length.

Lemma coefficient_error_pos n u sg om gam : 0 <= u -> 0 <= sg -> 0 <= om -> 0 <= gam -> 0 <= coefficient_error n u sg om gam.
Proof. intros. unfold coefficient_error. pose proof (pos_INR n) as P. pose proof (Rmult_le_pos _ _ (Rmult_le_pos _ _ P P) (ltac:(lra) : 0 <= 6 * u + 2 * sg)). lra. Qed.

Lemma setting_pos u eta e rw ro n q q' sg om rho gam th dot : coefficient_setting u eta e rw ro n q q' sg om rho gam th dot ->
  0 <= u /\ 0 <= eta /\ 0 <= gam /\ 0 <= th /\ 0 <= coefficient_error n u sg om gam /\ 0 <= 5 * (eta + th).
Proof.
  intros (A1 & A2 & A3 & A4 & A5 & (B1 & B2 & B3 & B4) & A7 & A8). destruct (A7 0%nat 0%nat) as (G1 & G2 & _).
  destruct A1 as ((Q1 & _) & _ & Q3 & _). assert (0 < / 10 ^ 90) by (apply Rinv_0_lt_compat, pow_lt; lra). assert (0 <= u) by lra.
  do 4 (split; [assumption|]). split; [apply coefficient_error_pos; lra|lra].
Qed.

(** * One block *)
Section Block.
Variables (u eta e : R) (rw ro : R -> R) (q : rule) (sg om rho gam th : R) (dot : bool -> nat -> nat -> nat -> list R -> list R -> R) (old : bool) (S : ssve).
Variables (us vs : list (list R)) (s : list R) (kk : nat) (r : sve_result) (GX GY : rule).
Hypothesis Hs : forall side l, coefficient_setting u eta e rw ro (s_n S) q (s_rule S) sg om rho gam th (dot side l).
Hypothesis Hx : ordinary_edges (s_segs_x S).
Hypothesis Hy : ordinary_edges (s_segs_y S).
Hypothesis HGX : piecewise q (s_segs_x S) = Ok GX.
Hypothesis HGY : piecewise q (s_segs_y S) = Ok GY.
Hypothesis Hgx : piecewise_rd rw (s_rule S) (s_segs_x S) = Ok (s_gx S).
Hypothesis Hgy : piecewise_rd rw (s_rule S) (s_segs_y S) = Ok (s_gy S).
Hypothesis Ht : thin_usv (length (rx GX)) (length (rx GY)) (us, s, vs).
Hypothesis Hp : sampling_post_rd old rw ro dot S (firstn kk us, firstn kk s, firstn kk vs) = Ok (Some r).

Lemma post_near : sve_on (s_n S) (s_segs_x S) (s_segs_y S) (ideal_sve r) /\ ss r = map ro (firstn kk s) /\ seps r = Some (s_eps S) /\
  exists sgs, length sgs = length (ss r) /\ Forall (fun c => c = 1 \/ c = -1) sgs /\
    near_coefficients (s_n S) q (s_segs_x S) GX us (su (ideal_sve r)) sgs (coefficient_error (s_n S) u sg om gam) (5 * (eta + th)) /\
    near_coefficients (s_n S) q (s_segs_y S) GY vs (sv (ideal_sve r)) sgs (coefficient_error (s_n S) u sg om gam) (5 * (eta + th)).
Proof.
  pose proof (e_ok _ Hx) as Ex. pose proof (e_ok _ Hy) as Ey. destruct Ht as (L1 & L2 & _ & _ & F1 & F2).
  pose proof (Hs true 0%nat) as (_ & _ & _ & (Gq & _) & _). pose proof Gq as (Hn & _).
  assert (M1 : length (firstn kk us) = length (firstn kk s)) by (rewrite !firstn_length; lia).
  assert (M2 : length (firstn kk vs) = length (firstn kk s)) by (rewrite !firstn_length; lia).
  destruct (post_rd_struct old rw ro dot S _ _ _ r ltac:(lia) Ex Ey M1 M2 Hp) as (On & Es & Ee & sgs & Ls & Fs & Cols).
  destruct (node_lengths _ _ _ _ Gq Ex HGX) as [N1 _]. destruct (node_lengths _ _ _ _ Gq Ey HGY) as [N2 _]. rewrite N1 in F1. rewrite N2 in F2. rewrite Forall_forall in F1, F2.
  split; [exact On|]. split; [exact Es|]. split; [exact Ee|]. exists sgs. split; [rewrite Es, map_length; exact Ls|]. split; [exact Fs|].
  assert (Ex1 : forall l, (l < length sgs)%nat -> (l < length s)%nat /\ (l < kk)%nat /\ (nth l sgs 0 = 1 \/ nth l sgs 0 = -1)).
  { intros l Hl. pose proof Hl as Hl'. rewrite Ls, firstn_length in Hl'. split; [lia|]. split; [lia|]. rewrite Forall_forall in Fs. apply Fs, nth_In. exact Hl. }
  split; intros l k i Hl Hk Hi; destruct (Ex1 l Hl) as (Hl1 & Hl2 & Sg); destruct (Cols l ltac:(lia)) as [Cu Cv]; cbn [ideal_sve su sv ideal vcols].
  - rewrite Cu. unfold scale_col. cbn [cdat]. rewrite nth_firstn by lia.
    set (z := collocate_rd _ _ _ _ _ _ _ _ _ _). replace (nth l sgs 0 * (z * (1 / nth l sgs 0))) with z by (destruct Sg as [-> | ->]; field).
    apply (coefficients u eta e rw ro (s_n S) q (s_rule S) sg om rho gam th (dot true l) (s_segs_x S) GX (s_gx S)); auto. apply F1, nth_In. lia.
  - rewrite Cv. unfold scale_col. cbn [cdat]. rewrite nth_firstn by lia.
    set (z := collocate_rd _ _ _ _ _ _ _ _ _ _). replace (nth l sgs 0 * (z * nth l sgs 0)) with z by (destruct Sg as [-> | ->]; ring).
    apply (coefficients u eta e rw ro (s_n S) q (s_rule S) sg om rho gam th (dot false l) (s_segs_y S) GY (s_gy S)); auto. apply F2, nth_In. lia.
Qed.
End Block.

(** * compute *)
Section Compute.
Variables (have_xprec have_gejsv : bool) (dd : R) (old : bool).
Variable rd : dtype -> R -> R.
Variable ro : R -> R.
Variable f : dtype -> tfun.
Variable dot : bool -> bool -> nat -> nat -> nat -> list R -> list R -> R.
Variable legendre : dtype -> nat -> res rule.
Variable run : svd_alg -> matrix -> Z -> usv.
Variable argsort : list R -> list nat.
Notation compute_rd := (compute_rd have_xprec have_gejsv dd old rd ro f dot legendre run argsort).

Lemma sampling_init_rd_inv rw leg K eps ng S : sampling_init_rd rw leg K eps ng = Ok S ->
  leg (s_n S) = Ok (s_rule S) /\ sk_segs_x K = Ok (s_segs_x S) /\ sk_segs_y K = Ok (s_segs_y S) /\
  piecewise_rd rw (s_rule S) (s_segs_x S) = Ok (s_gx S) /\ piecewise_rd rw (s_rule S) (s_segs_y S) = Ok (s_gy S) /\
  s_mat S = sk_matrix K /\ s_eps S = eps /\ s_hint S = sk_nsvals K /\
  s_n S = match ng with None => sk_ngauss K | Some n => n end.
Proof.
  unfold sampling_init_rd. set (n := match ng with None => _ | Some _ => _ end).
  destruct (leg n) as [r|] eqn:E1; [|discriminate]. cbn [bind].
  destruct (sk_segs_x K) as [sx|] eqn:E2; [|discriminate]. cbn [bind].
  destruct (sk_segs_y K) as [sy|] eqn:E3; [|discriminate]. cbn [bind].
  destruct (piecewise_rd rw r sx) as [gx|] eqn:E4; [|discriminate]. cbn [bind].
  destruct (piecewise_rd rw r sy) as [gy|] eqn:E5; [|discriminate]. cbn [bind].
  intros [= <-]. cbn. auto 10.
Qed.

Lemma sampled_matrix_of rw S A : piecewise_rd rw (s_rule S) (s_segs_x S) = Ok (s_gx S) -> piecewise_rd rw (s_rule S) (s_segs_y S) = Ok (s_gy S) ->
  sampled_matrix_rd rw S = Ok A -> sampling_matrix_rd rw (s_mat S) (s_rule S) (s_segs_x S) (s_segs_y S) = Ok A.
Proof. intros H1 H2 H. unfold sampling_matrix_rd. rewrite H1, H2. exact H. Qed.

Lemma svd_rd_inv t A h strategy b : svd_compute have_xprec have_gejsv run t A h strategy = Ok b -> exists alg h', b = run alg A h'.
Proof. unfold svd_compute. destruct (svd_dispatch _ _ _ _) as [[alg w]|]; [|discriminate]. cbn [bind]. intros [= <-]. eauto. Qed.

Lemma compute_rd_sample_inv K eps cutoff n_sv ng work svds r :
  compute_rd K eps cutoff n_sv ng work (Some SampleStrat) svds = Ok (Some r) ->
  exists t safe S A alg h c,
    sampling_init_rd (rd t) (legendre t) (full_kern_rd (rd t) (f t) K safe) safe ng = Ok S /\
    sampled_matrix_rd (rd t) S = Ok A /\ sampling_post_rd old (rd t) ro (dot true) S (cut_block c (run alg A h)) = Ok (Some r).
Proof.
  unfold SVEIEEE.compute_rd. intros H. destruct (safe_eps _ _ _ _ _) as [[[safe t] strategy] w].
  destruct (sampling_init_rd _ _ (full_kern_rd _ _ K safe) safe ng) as [S|] eqn:E2; [|discriminate]. cbn [bind] in H.
  destruct (sampled_matrix_rd _ S) as [A|] eqn:E5; [|discriminate]. cbn [bind] in H.
  destruct (svd_compute _ _ _ _ A _ _) as [b|] eqn:E6; [|discriminate]. cbn [bind] in H.
  apply svd_rd_inv in E6 as (alg & h & ->).
  destruct (truncate_rd _ _ _ _) as [cut|] eqn:E9; [|discriminate]. cbn [bind] in H. apply truncate_rd_ok in E9 as (c & ->). cbn [map] in H.
  exists t, safe, S, A, alg, h, c. auto.
Qed.

Section Sample.
Variables (K : kernel) (eps cutoff : option xr) (n_sv : option pynum) (ng : option nat) (work : option dtype) (svds : option string) (r : sve_result).
Hypothesis Hc : compute_rd K eps cutoff n_sv ng work (Some SampleStrat) svds = Ok (Some r).
Hypothesis HK : usual_cutoff K.

Lemma rounded_sample : exists t n q' M alg h,
  legendre t n = Ok q' /\ (forall m, ng = Some m -> n = m) /\
  sampling_matrix_rd (rd t) (kernel_matrix_rd (rd t) (f t) K) q' (segments_x K) (segments_y K) = Ok M /\
  let o := run alg M h in
  (exists N, ss r = firstn N (map ro (svals o))) /\
  forall u eta e q sg om rho kap gam th GX GY f0 k a c d,
    arithmetic u eta e (rd t) (f t) -> reference u n q q' sg om rho kap -> rounding u eta ro -> (forall x y, x <= y -> ro x <= ro y) ->
    (forall side l m i, inner_near n gam th (dot true side l m i)) -> coefficient_error n u sg om gam <= / 200 ->
    tfun_ok f0 -> (forall x y, -1 <= x <= 1 -> -1 <= y <= 1 -> has_value f0 K x y (k x y)) ->
    piecewise q (segments_x K) = Ok GX -> piecewise q (segments_y K) = Ok GY ->
    computed_svd (length (rx GX)) (length (rx GY)) M o a c d ->
    let L := length (svals o) in
    let ce := coefficient_error n u sg om gam in
    let al := vectors_error n L (length (segments_x K) - 1) ce (5 * (eta + th)) in
    let ga := vectors_error n L (length (segments_y K) - 1) ce (5 * (eta + th)) in
    let s0 := ro (largest o) in
    a + 4 * al <= 1 -> c + 4 * ga <= 1 ->
    near_best GX GY k (ideal_sve r)
      (d + full_error u e sg om rho kap K + product_error u eta (svals o) s0 al ga + 2 * skew s0 (a + 4 * al) (c + 4 * ga))
      (sumsq (map ro (svals o))) /\
    nearly_orthonormal_functions (su (ideal_sve r)) (a + 4 * al) /\ nearly_orthonormal_functions (sv (ideal_sve r)) (c + 4 * ga).
Proof.
  destruct (compute_rd_sample_inv _ _ _ _ _ _ _ _ Hc) as (t & safe & S & A & alg & h & cc & HS & HA & Hp).
  destruct (sampling_init_rd_inv _ _ _ _ _ _ HS) as (L & X & Y & Px & Py & M & Es & _ & N). cbn [full_kern_rd sk_segs_x sk_segs_y sk_matrix sk_ngauss] in *.
  injection X as X. injection Y as Y.
  exists t, (s_n S), (s_rule S), A, alg, h. split; [exact L|]. split; [intros m ->; exact N|].
  pose proof (sampled_matrix_of _ _ _ Px Py HA) as HM. rewrite M, <- X, <- Y in HM. split; [exact HM|]. cbv zeta.
  destruct (run alg A h) as [[us s] vs] eqn:Eb. unfold cut_block in Hp. cbn [fst snd bvals] in Hp. set (kk := count_above cc s) in *.
  split.
  { cbn [svals fst snd]. clear - Hp. unfold sampling_post_rd in Hp. destruct (poly_init_rd _ _ _ _ _ _); [|discriminate]. cbn [bind] in Hp. destruct (poly_init_rd _ _ _ _ _ _); [|discriminate]. cbn [bind] in Hp.
    destruct (canonicalize_rd _ _ _ _) as [[cu cv]|]; [|discriminate]. cbn [bind] in Hp. destruct (all_some cu); [|discriminate]. injection Hp as <-. exists kk. cbn [ss]. symmetry. apply firstn_map. }
  intros u eta e q sg om rho kap gam th GX GY f0 k a c d Ha Href Hro Hmono Hdot Hce Hf0 Hk HX HY Hsvd Bal Bga.
  assert (Hk0 : 0 < k_lambda K <= 10 ^ 16). { destruct HK as [K1 K2]. split; [|exact K2]. assert (0 < / 10 ^ 50) by (apply Rinv_0_lt_compat, pow_lt; lra). lra. }
  pose proof (proj1 (hinted_edges K _ Hk0 (or_introl eq_refl))) as Ox. pose proof (proj1 (hinted_edges K _ Hk0 (or_intror eq_refl))) as Oy.
  pose proof Ha as (A1 & A2 & A3). pose proof Href as (R1 & R2 & R3 & _).
  assert (Hset : forall side l, coefficient_setting u eta e (rd t) ro (s_n S) q (s_rule S) sg om rho gam th (dot true side l)) by (intros side l; unfold coefficient_setting; auto 10).
  destruct (setting_pos _ _ _ _ _ _ _ _ _ _ _ _ _ _ (Hset true 0%nat)) as (P1 & P2 & P3 & P4 & P5 & P6).
  cbn [svals fst snd largest nth] in *.
  pose proof (computed_full u eta e (rd t) (f t) (s_n S) q (s_rule S) sg om rho kap K GX GY A (us, s, vs) a c d Ha Href HK HX HY HM f0 k Hf0 Hk Hsvd) as Hsvd'.
  rewrite X in Ox, HX. rewrite Y in Oy, HY.
  destruct (post_near u eta e (rd t) ro q sg om rho gam th (dot true) old S us vs s kk r GX GY Hset Ox Oy HX HY Px Py (proj1 Hsvd) Hp) as (On & E1 & _ & sgs & Ls & Fs & Nu & Nv).
  rewrite X in *. rewrite Y in *.
  assert (Gq : gauss_ok (s_n S) q) by apply R1.
  assert (E1' : ss (ideal_sve r) = firstn (length sgs) (map ro s)).
  { cbn [ideal_sve ss]. rewrite Ls, E1, map_length, firstn_length. rewrite <- firstn_map. rewrite <- (map_length ro s). destruct (Nat.le_ge_cases kk (length (map ro s))); [rewrite Nat.min_l; auto|]. rewrite Nat.min_r by auto. rewrite !firstn_all2 by lia. reflexivity. }
  destruct (carried u eta ro (s_n S) q (s_segs_x S) (s_segs_y S) GX GY (ideal_sve r) us s vs (weighted k GX GY) a c _ sgs _ _
    P1 P2 Hro Hmono Gq (e_ok _ Ox) (e_ok _ Oy) HX HY On E1' Ls Fs P5 P6 Nu Nv Hsvd' Bal Bga) as (us' & vs' & Hcar & Hcs).
  destruct (segments_valid K) as [Vx Vy]. rewrite X in Vx. rewrite Y in Vy.
  pose proof Hsvd as (_ & _ & _ & [Ni _] & _). cbn [svals fst snd] in Ni.
  pose proof (core_sample (s_n S) q Gq (s_segs_x S) (s_segs_y S) GX GY k (ideal_sve r) us' (map ro s) vs' _ _ _ _ Vx Vy (e_ok _ Ox) (e_ok _ Oy) HX HY On
    ltac:(rewrite E1'; apply sorted_firstn; apply round_sorted; auto) Hcar eq_refl Hcs) as F.
  unfold largest in F at 1. cbn [svals fst snd] in F.
  destruct s as [|s1 s']; [|cbn [map nth] in *; exact F].
  cbn [map nth] in F. cbn [nth]. destruct F as (F1 & F2). split; [|exact F2].
  assert (Z0 : ro 0 = 0). { destruct Hro as (_ & Z1 & Z2). specialize (Z1 0 ltac:(lra)). specialize (Z2 0 ltac:(lra)). lra. }
  rewrite Z0. cbn [map nth] in *. rewrite Z0 in F1. exact F1.
Qed.
End Sample.
End Compute.
