(** sve.compute in rounded arithmetic, with use of the symmetry. *)
From Coq Require Import String ZArith Arith Bool Reals Lra Lia Psatz.
From Coquelicot Require Import Coquelicot.
From Coq Require Import List Sorting.Sorted Sorting.Permutation.
From Verif.Model Require Import Base Util Num Gauss Poly PolyIEEE SVE Kernel KernelIEEE GaussIEEE Compute SVEIEEE.
From Verif.Spec Require Import SGauss SPoly SFT SSVE SBasis SKernel SCompute SSingular SWhole SNear SComputed SKernelIEEE SGaussIEEE SRounded SSVEIEEE SRoundedCompute.
From Verif.Proofs Require Import BaseFacts SumFacts IntFacts LegFacts GaussFacts GaussExact PPolyFacts PPolyInt SVEFacts BasisPhys KernelProps KernelSegs ComputeNodes ComputePost ComputeSampling ComputeMerge ComputeMerged ComputeError ComputeFull SingularEq EckartYoung SvdExists BestCuts GaussRoundRule SegmentGaps RoundedSVE Polar ComputedSVD ComputedBasis NodesCore Perturb CoefFun RoundVectors PerturbedBlock CarriedBlock PostRound ComputeRound HalvedBlock.
Import ListNotations.
Open Scope R_scope.
Notation length := List.length.

Section Compute.
Variables (have_xprec have_gejsv : bool) (dd : R) (old : bool).
Variable rd : dtype -> R -> R.
Variable ro : R -> R.
Variable f : dtype -> tfun.
Variable dot : bool -> bool -> nat -> nat -> nat -> list R -> list R -> R.
Variable legendre : dtype -> nat -> res rule.
Variable run : svd_alg -> matrix -> Z -> usv.
Variable argsort : list R -> list nat.
Notation compute_rd := (compute_rd have_xprec have_gejsv dd old rd ro f dot legendre run argsort).

Lemma compute_rd_centro_inv K eps cutoff n_sv ng work st svds r :
  compute_rd K eps cutoff n_sv ng work st svds = Ok (Some r) -> st <> Some SampleStrat ->
  exists t safe Ke Ko even odd Ae Ao alge he algo ho c re ro',
    get_symmetrized K 1 = Ok Ke /\ get_symmetrized K (-1) = Ok Ko /\
    sampling_init_rd (rd t) (legendre t) (reduced_kern_rd (rd t) (f t) Ke safe) safe ng = Ok even /\
    sampling_init_rd (rd t) (legendre t) (reduced_kern_rd (rd t) (f t) Ko safe) safe ng = Ok odd /\
    sampled_matrix_rd (rd t) even = Ok Ae /\ sampled_matrix_rd (rd t) odd = Ok Ao /\
    sampling_post_rd old (rd t) ro (dot true) even (cut_block c (run alge Ae he)) = Ok (Some re) /\
    sampling_post_rd old (rd t) ro (dot false) odd (cut_block c (run algo Ao ho)) = Ok (Some ro') /\
    merge_rd ro argsort safe (segments_x K) (segments_y K) re ro' = Ok r.
Proof.
  unfold SVEIEEE.compute_rd. intros H Hst. destruct (safe_eps _ _ _ _ _) as [[[safe t] strategy] w].
  set (rtol := match cutoff with None => _ | Some c => c end) in H.
  assert (H' : (do Ke <- get_symmetrized K 1;
      do even <- sampling_init_rd (rd t) (legendre t) (reduced_kern_rd (rd t) (f t) Ke safe) safe ng;
      do Ko <- get_symmetrized K (-1);
      do odd <- sampling_init_rd (rd t) (legendre t) (reduced_kern_rd (rd t) (f t) Ko safe) safe ng;
      do Ae <- sampled_matrix_rd (rd t) even;
      do be <- svd_compute have_xprec have_gejsv run t Ae (Z.max (s_hint even) (s_hint odd)) strategy;
      do Ao <- sampled_matrix_rd (rd t) odd;
      do bo <- svd_compute have_xprec have_gejsv run t Ao (Z.max (s_hint even) (s_hint odd)) strategy;
      do cut <- truncate_rd (rd t) [be; bo] rtol n_sv;
      match cut with
      | [be; bo] =>
          do re <- sampling_post_rd old (rd t) ro (dot true) even be;
          do ro' <- sampling_post_rd old (rd t) ro (dot false) odd bo;
          match re, ro' with
          | Some re, Some ro' => do r <- merge_rd ro argsort safe (segments_x K) (segments_y K) re ro'; Ok (Some r)
          | _, _ => Ok None
          end
      | _ => Raise ValueError
      end) = Ok (Some r)) by (destruct st as [[]|]; try congruence; exact H).
  clear H. rename H' into H.
  destruct (get_symmetrized K 1) as [Ke|] eqn:E1; [|discriminate]. cbn [bind] in H.
  destruct (sampling_init_rd _ _ (reduced_kern_rd _ _ Ke safe) safe ng) as [even|] eqn:E2; [|discriminate]. cbn [bind] in H.
  destruct (get_symmetrized K (-1)) as [Ko|] eqn:E3; [|discriminate]. cbn [bind] in H.
  destruct (sampling_init_rd _ _ (reduced_kern_rd _ _ Ko safe) safe ng) as [odd|] eqn:E4; [|discriminate]. cbn [bind] in H.
  destruct (sampled_matrix_rd _ even) as [Ae|] eqn:E5; [|discriminate]. cbn [bind] in H.
  destruct (svd_compute _ _ _ _ Ae _ _) as [be|] eqn:E6; [|discriminate]. cbn [bind] in H.
  destruct (sampled_matrix_rd _ odd) as [Ao|] eqn:E7; [|discriminate]. cbn [bind] in H.
  destruct (svd_compute _ _ _ _ Ao _ _) as [bo|] eqn:E8; [|discriminate]. cbn [bind] in H.
  apply svd_rd_inv in E6 as (alge & he & ->). apply svd_rd_inv in E8 as (algo & ho & ->).
  destruct (truncate_rd _ _ _ _) as [cut|] eqn:E9; [|discriminate]. cbn [bind] in H. apply truncate_rd_ok in E9 as (c & ->). cbn [map] in H.
  destruct (sampling_post_rd _ _ _ _ even _) as [re|] eqn:E10; [|discriminate]. cbn [bind] in H.
  destruct (sampling_post_rd _ _ _ _ odd _) as [ro'|] eqn:E11; [|discriminate]. cbn [bind] in H.
  destruct re as [re|], ro' as [ro'|]; try discriminate.
  destruct (merge_rd _ _ _ _ _ _) as [r'|] eqn:E12; [|discriminate]. cbn [bind] in H. injection H as ->.
  exists t, safe, Ke, Ko, even, odd, Ae, Ao, alge, he, algo, ho, c, re, ro'. auto 10.
Qed.

(** The segments of both parts. *)
Lemma reduced_segs_rd K sg Ks safe t ng S : get_symmetrized K sg = Ok Ks ->
  sampling_init_rd (rd t) (legendre t) (reduced_kern_rd (rd t) (f t) Ks safe) safe ng = Ok S ->
  s_segs_x S = half (segments_x K) /\ s_segs_y S = half (segments_y K) /\
  half_edges (half (segments_x K)) /\ half_edges (half (segments_y K)) /\
  mirrored (half (segments_x K)) = segments_x K /\ mirrored (half (segments_y K)) = segments_y K /\
  legendre t (s_n S) = Ok (s_rule S) /\
  piecewise_rd (rd t) (s_rule S) (s_segs_x S) = Ok (s_gx S) /\ piecewise_rd (rd t) (s_rule S) (s_segs_y S) = Ok (s_gy S) /\
  s_mat S = reduced_matrix_rd (rd t) (f t) Ks /\ s_eps S = safe /\ s_n S = match ng with None => hint_ngauss safe | Some n => n end.
Proof.
  intros HK HS. apply sampling_init_rd_inv in HS as (A & B & C & D & E & F & G & _ & I).
  destruct (reduced_segments K sg Ks HK) as (hx & hy & R1 & R2 & R3 & R4 & R5 & R6).
  cbn [reduced_kern_rd sk_segs_x sk_segs_y sk_matrix sk_ngauss] in *.
  assert (X : s_segs_x S = half (segments_x K)) by (unfold half; congruence).
  assert (Y : s_segs_y S = half (segments_y K)) by (unfold half; congruence).
  destruct (segments_valid K) as [Vx Vy].
  repeat (split; [solve [auto | apply half_edges_of; auto | unfold half; congruence]|]). auto.
Qed.

(** One part. *)
Section Part.
Variables (u eta e : R) (t : dtype) (q : rule) (sg om rho gam th : R) (side : bool) (S : ssve).
Variables (us vs : list (list R)) (s : list R) (kk : nat) (r : sve_result) (gx gy : rule) (A : matrix) (a c d : R).
Hypothesis Hro : rounding u eta ro.
Hypothesis Hmono : forall x y, x <= y -> ro x <= ro y.
Hypothesis Hs : forall l m, coefficient_setting u eta e (rd t) ro (s_n S) q (s_rule S) sg om rho gam th (dot side l m).
Hypothesis Hx : ordinary_edges (s_segs_x S).
Hypothesis Hy : ordinary_edges (s_segs_y S).
Hypothesis HGX : piecewise q (s_segs_x S) = Ok gx.
Hypothesis HGY : piecewise q (s_segs_y S) = Ok gy.
Hypothesis Hgx : piecewise_rd (rd t) (s_rule S) (s_segs_x S) = Ok (s_gx S).
Hypothesis Hgy : piecewise_rd (rd t) (s_rule S) (s_segs_y S) = Ok (s_gy S).
Hypothesis Hp : sampling_post_rd old (rd t) ro (dot side) S (firstn kk us, firstn kk s, firstn kk vs) = Ok (Some r).
Hypothesis Hc : computed_svd (length (rx gx)) (length (rx gy)) A (us, s, vs) a c d.
Let ce := coefficient_error (s_n S) u sg om gam + 4 * u.
Let tau := 8 * (eta + th).
Let al := vectors_error (s_n S) (length s) (length (s_segs_x S) - 1) ce tau.
Let ga := vectors_error (s_n S) (length s) (length (s_segs_y S) - 1) ce tau.
Hypothesis Ha : functions_defect (s_n S) (length s) (length (s_segs_x S) - 1) ce tau a <= 1.
Hypothesis Hga : functions_defect (s_n S) (length s) (length (s_segs_y S) - 1) ce tau c <= 1.

Lemma part_carried : ss r = map ro (firstn kk s) /\ sve_on (s_n S) (s_segs_x S) (s_segs_y S) (unhalved ro (ideal_sve r)) /\
  exists us' vs', carries gx gy (unhalved ro (ideal_sve r)) (us', map ro s, vs') /\
    computed_svd (length (rx gx)) (length (rx gy)) A (us', map ro s, vs')
      (functions_defect (s_n S) (length s) (length (s_segs_x S) - 1) ce tau a) (functions_defect (s_n S) (length s) (length (s_segs_y S) - 1) ce tau c)
      (d + product_error u eta s (ro (nth 0 s 0)) al ga).
Proof.
  pose proof (Hs true 0%nat) as Hset. pose proof Hset as (A1 & A2 & A3 & A4 & A5 & (B1 & B2 & B3 & B4) & A7 & A8).
  destruct (setting_pos _ _ _ _ _ _ _ _ _ _ _ _ _ _ Hset) as (P1 & P2 & P3 & P4 & P5 & P6).
  assert (Gq : gauss_ok (s_n S) q) by apply A4.
  destruct (post_near u eta e (rd t) ro q sg om rho gam th (dot side) old S us vs s kk r gx gy Hs Hx Hy HGX HGY Hgx Hgy (proj1 Hc) Hp) as (On & E1 & _ & sgs & Ls & Fs & Nu & Nv).
  pose proof (unhalved_on ro _ _ _ _ On) as On'. pose proof On as (Fu & Fv & Ku & Kv & Gu & Gv & Lu & Lv).
  destruct Hc as (Th & _). destruct Th as (L1 & L2 & _ & _ & F1 & F2).
  assert (Lk : (length sgs <= length s)%nat) by (rewrite Ls, E1, map_length, firstn_length; lia).
  cbn [ideal_sve ss] in Lu, Lv. assert (PC : 0 <= coefficient_error (s_n S) u sg om gam <= / 200) by lra.
  pose proof (unhalf_near u eta e ro th (s_n S) q (s_segs_x S) gx us _ sgs _ A1 B1 Hro P4 Gq (e_ok _ Hx) HGX Fu Ku Gu F1 ltac:(lia) ltac:(lia) Fs PC Nu) as Nu'.
  pose proof (unhalf_near u eta e ro th (s_n S) q (s_segs_y S) gy vs _ sgs _ A1 B1 Hro P4 Gq (e_ok _ Hy) HGY Fv Kv Gv F2 ltac:(lia) ltac:(lia) Fs PC Nv) as Nv'.
  split; [exact E1|]. split; [exact On'|].
  assert (E1' : ss (unhalved ro (ideal_sve r)) = firstn (length sgs) (map ro s)).
  { cbn [unhalved ideal_sve ss]. rewrite Ls, E1, map_length, firstn_length. rewrite <- firstn_map. rewrite <- (map_length ro s). destruct (Nat.le_ge_cases kk (length (map ro s))); [rewrite Nat.min_l; auto|]. rewrite Nat.min_r by auto. rewrite !firstn_all2 by lia. reflexivity. }
  destruct (carried u eta ro (s_n S) q (s_segs_x S) (s_segs_y S) gx gy (unhalved ro (ideal_sve r)) us s vs A a c d sgs ce tau
    P1 P2 Hro Hmono Gq (e_ok _ Hx) (e_ok _ Hy) HGX HGY On' E1' Ls Fs ltac:(unfold ce; lra) ltac:(unfold tau; lra) Nu' Nv' Hc Ha Hga) as (us' & vs' & C1 & C2).
  exists us', vs'. split; [exact C1|exact C2].
Qed.
End Part.

Lemma map_ro_nth l a : ro 0 = 0 -> nth a (map ro l) 0 = ro (nth a l 0).
Proof. intros Z. rewrite <- Z at 1. apply map_nth. Qed.

Hypothesis Hsort : forall s, sorts s (argsort s).
Section Centro.
Variables (K : kernel) (eps cutoff : option xr) (n_sv : option pynum) (ng : option nat) (work : option dtype) (st : option strat) (svds : option string) (r : sve_result).
Hypothesis Hc : compute_rd K eps cutoff n_sv ng work st svds = Ok (Some r).
Hypothesis Hst : st <> Some SampleStrat.
Hypothesis HK : usual_cutoff K.

Lemma rounded_symm : exists t n q' Ke Ko Me Mo alge he algo ho,
  legendre t n = Ok q' /\ (forall m, ng = Some m -> n = m) /\
  get_symmetrized K 1 = Ok Ke /\ get_symmetrized K (-1) = Ok Ko /\
  sampling_matrix_rd (rd t) (reduced_matrix_rd (rd t) (f t) Ke) q' (half (segments_x K)) (half (segments_y K)) = Ok Me /\
  sampling_matrix_rd (rd t) (reduced_matrix_rd (rd t) (f t) Ko) q' (half (segments_x K)) (half (segments_y K)) = Ok Mo /\
  let even := run alge Me he in
  let odd := run algo Mo ho in
  forall u eta e q sg om rho kap gam th gx gy GX GY f0 k ae ce de ao co d_o,
    arithmetic u eta e (rd t) (f t) -> reference u n q q' sg om rho kap -> rounding u eta ro -> (forall x y, x <= y -> ro x <= ro y) ->
    (forall part side l m i, inner_near n gam th (dot part side l m i)) -> coefficient_error n u sg om gam <= / 200 ->
    tfun_ok f0 -> (forall x y, -1 <= x <= 1 -> -1 <= y <= 1 -> has_value f0 K x y (k x y)) ->
    piecewise q (half (segments_x K)) = Ok gx -> piecewise q (half (segments_y K)) = Ok gy ->
    piecewise q (segments_x K) = Ok GX -> piecewise q (segments_y K) = Ok GY ->
    computed_svd (length (rx gx)) (length (rx gy)) Me even ae ce de -> computed_svd (length (rx gx)) (length (rx gy)) Mo odd ao co d_o ->
    let cf := coefficient_error n u sg om gam + 4 * u in
    let tau := 8 * (eta + th) in
    let mx := (length (half (segments_x K)) - 1)%nat in
    let my := (length (half (segments_y K)) - 1)%nat in
    let defect_u b a := functions_defect n (length (svals b)) mx cf tau a in
    let defect_v b c := functions_defect n (length (svals b)) my cf tau c in
    let total b d := d + half_error u e sg om rho kap K +
      product_error u eta (svals b) (ro (largest b)) (vectors_error n (length (svals b)) mx cf tau) (vectors_error n (length (svals b)) my cf tau) in
    defect_u even ae <= 1 -> defect_v even ce <= 1 -> defect_u odd ao <= 1 -> defect_v odd co <= 1 ->
    near_best GX GY k (ideal_sve r)
      (root2 (total even de) (total odd d_o) +
       2 * skew (Rmax (ro (largest even)) (ro (largest odd))) (root2 (defect_u even ae) (defect_u odd ao)) (root2 (defect_v even ce) (defect_v odd co)))
      (sumsq (map ro (svals even)) + sumsq (map ro (svals odd))) /\
    nearly_orthonormal_functions (su (ideal_sve r)) (Rmax (defect_u even ae) (defect_u odd ao)) /\
    nearly_orthonormal_functions (sv (ideal_sve r)) (Rmax (defect_v even ce) (defect_v odd co)).
Proof.
  destruct (compute_rd_centro_inv _ _ _ _ _ _ _ _ _ Hc Hst) as
    (t & safe & Ke & Ko & even & odd & Ae & Ao & alge & he & algo & ho & cc & re & ro' & HKe & HKo & Se & So & Me & Mo & Pe & Po & Hm).
  destruct (reduced_segs_rd _ _ _ _ _ _ _ HKe Se) as (X1 & Y1 & Hx & Hy & Mx & My & L1 & Gx1 & Gy1 & M1 & E1 & N1).
  destruct (reduced_segs_rd _ _ _ _ _ _ _ HKo So) as (X2 & Y2 & _ & _ & _ & _ & L2 & Gx2 & Gy2 & M2 & E2 & N2).
  assert (Nn : s_n odd = s_n even) by congruence.
  assert (Rr : s_rule odd = s_rule even). { rewrite Nn in L2. rewrite L1 in L2. congruence. }
  pose proof (sampled_matrix_of _ _ _ Gx1 Gy1 Me) as SMe. rewrite M1, X1, Y1 in SMe.
  pose proof (sampled_matrix_of _ _ _ Gx2 Gy2 Mo) as SMo. rewrite M2, X2, Y2, Rr in SMo.
  exists t, (s_n even), (s_rule even), Ke, Ko, Ae, Ao, alge, he, algo, ho.
  split; [exact L1|]. split; [intros m ->; exact N1|]. split; [exact HKe|]. split; [exact HKo|]. split; [exact SMe|]. split; [exact SMo|].
  cbv zeta. intros u eta e q sg om rho kap gam th gx gy GX GY f0 k ae ce de ao co d_o Ha Href Hro Hmono Hdot Hce Hf0 Hk Hgx Hgy HGX HGY He Ho B1 B2 B3 B4.
  assert (Hk0 : 0 < k_lambda K <= 10 ^ 16). { destruct HK as [K1 K2]. split; [|exact K2]. assert (0 < / 10 ^ 50) by (apply Rinv_0_lt_compat, pow_lt; lra). lra. }
  pose proof (proj2 (hinted_edges K _ Hk0 (or_introl eq_refl))) as Ox. pose proof (proj2 (hinted_edges K _ Hk0 (or_intror eq_refl))) as Oy.
  pose proof Ha as (A1 & A2 & A3). pose proof Href as (R1 & R2 & R3 & _). assert (Gq : gauss_ok (s_n even) q) by apply R1.
  assert (Hse : forall l m, coefficient_setting u eta e (rd t) ro (s_n even) q (s_rule even) sg om rho gam th (dot true l m)) by (intros; unfold coefficient_setting; auto 10).
  assert (Hso : forall l m, coefficient_setting u eta e (rd t) ro (s_n odd) q (s_rule odd) sg om rho gam th (dot false l m)) by (intros; unfold coefficient_setting; rewrite Nn, Rr; auto 10).
  assert (Z0 : ro 0 = 0). { destruct Hro as (_ & Z1 & Z2). specialize (Z1 0 ltac:(lra)). specialize (Z2 0 ltac:(lra)). lra. }
  pose proof (computed_half u eta e (rd t) (f t) (s_n even) q (s_rule even) sg om rho kap K gx gy 1 Ke Ae _ ae ce de Ha Href HK Hgx Hgy (or_introl eq_refl) HKe SMe f0 k Hf0 Hk He) as He'.
  pose proof (computed_half u eta e (rd t) (f t) (s_n even) q (s_rule even) sg om rho kap K gx gy (-1) Ko Ao _ ao co d_o Ha Href HK Hgx Hgy (or_intror eq_refl) HKo SMo f0 k Hf0 Hk Ho) as Ho'.
  assert (We : weighted (fun x y => k x y + 1 * k x (- y)) gx gy = weighted (fun x y => k x y + k x (- y)) gx gy).
  { unfold weighted. apply map2_ext. intros x w. apply map2_ext. intros y v. ring. }
  assert (Wo : weighted (fun x y => k x y + -1 * k x (- y)) gx gy = weighted (fun x y => k x y - k x (- y)) gx gy).
  { unfold weighted. apply map2_ext. intros x w. apply map2_ext. intros y v. ring. }
  rewrite We in He'. rewrite Wo in Ho'.
  assert (Cs : forall x y, -1 <= x <= 1 -> -1 <= y <= 1 -> k (- x) (- y) = k x y).
  { intros x' y' Hx' Hy'. pose proof (Hk x' y' Hx' Hy') as Va. apply (centrosymmetric f0 K x' y' _ Hf0 (proj1 Hk0)) in Va.
    pose proof (Hk (- x') (- y') ltac:(lra) ltac:(lra)) as Vb. unfold has_value in Va, Vb. rewrite Va in Vb. injection Vb as Vb. auto. }
  destruct (run alge Ae he) as [[use se] vse] eqn:Ebe. destruct (run algo Ao ho) as [[uso so] vso] eqn:Ebo.
  pose proof He as (_ & _ & _ & [Nie _] & _). pose proof Ho as (_ & _ & _ & [Nio _] & _).
  destruct (cut_sides cc (use, se, vse) Nie) as [Ka Kb]. destruct (cut_sides cc (uso, so, vso) Nio) as [Kc Kd].
  unfold cut_block in Pe, Po, Ka, Kb, Kc, Kd. unfold largest. cbn [fst snd bvals svals] in *.
  set (ke := count_above cc se) in *. set (ko := count_above cc so) in *.
  destruct (part_carried u eta e t q sg om rho gam th true even use vse se ke re gx gy _ _ _ _ Hro Hmono Hse
    ltac:(rewrite X1; exact Ox) ltac:(rewrite Y1; exact Oy) ltac:(rewrite X1; exact Hgx) ltac:(rewrite Y1; exact Hgy) Gx1 Gy1 Pe He'
    ltac:(rewrite X1; exact B1) ltac:(rewrite Y1; exact B2)) as (S1 & On1 & use' & vse' & C1 & D1).
  destruct (part_carried u eta e t q sg om rho gam th false odd uso vso so ko ro' gx gy _ _ _ _ Hro Hmono Hso
    ltac:(rewrite X2; exact Ox) ltac:(rewrite Y2; exact Oy) ltac:(rewrite X2; exact Hgx) ltac:(rewrite Y2; exact Hgy) Gx2 Gy2 Po Ho'
    ltac:(rewrite X2, Nn; exact B3) ltac:(rewrite Y2, Nn; exact B4)) as (S2 & On2 & uso' & vso' & C2 & D2).
  rewrite X1, Y1 in On1, D1. rewrite X2, Y2, Nn in On2, D2.
  apply (merge_ideal ro argsort safe _ _ _ _ _ Z0) in Hm. rewrite <- Mx, <- My in Hm.
  pose proof (Hsort (ss (unhalved ro (ideal_sve re)) ++ ss (unhalved ro (ideal_sve ro')))) as Hs.
  destruct (merged_sorted argsort safe (s_n even) _ _ _ _ Hx Hy On1 On2 Hs _ Hm) as [Ni Perm].
  assert (Above : forall x, In x (ss (ideal_sve r)) -> exists y, x = ro y /\ cc < y).
  { intros x Hxi. eapply Permutation_in in Hxi; [|exact Perm]. apply in_app_iff in Hxi. cbn [unhalved ideal_sve ss] in Hxi. rewrite S1, S2 in Hxi. rewrite Forall_forall in Ka, Kc.
    destruct Hxi as [Hxi|Hxi]; apply in_map_iff in Hxi as (y & <- & Hy'); eauto. }
  destruct (segments_valid K) as [Vx Vy]. rewrite <- Mx in Vx, HGX. rewrite <- My in Vy, HGY.
  assert (L1' : length (ss (unhalved ro (ideal_sve re))) = length (firstn ke se)) by (cbn [unhalved ideal_sve ss]; rewrite S1; apply map_length).
  assert (L2' : length (ss (unhalved ro (ideal_sve ro'))) = length (firstn ko so)) by (cbn [unhalved ideal_sve ss]; rewrite S2; apply map_length).
  pose proof (core_centro (s_n even) q Gq argsort safe (half (segments_x K)) (half (segments_y K)) gx gy GX GY k _ _ (ideal_sve r) use' (map ro se) vse' uso' (map ro so) vso' _ _ _ _ _ _ _ _
    Hx Hy Vx Vy Hgx Hgy HGX HGY On1 On2 Hs Hm C1 C2
    ltac:(intros a x Hai Hxi; rewrite L1', map_length in Hai; destruct (Above x Hxi) as (y & -> & Hy'); rewrite map_ro_nth by exact Z0; apply Hmono; specialize (Kb a Hai); lra)
    ltac:(intros a x Hai Hxi; rewrite L2', map_length in Hai; destruct (Above x Hxi) as (y & -> & Hy'); rewrite map_ro_nth by exact Z0; apply Hmono; specialize (Kd a Hai); lra)
    Cs eq_refl eq_refl D1 D2) as F.
  unfold largest in F. cbn [svals fst snd] in F. rewrite !map_ro_nth in F by exact Z0. exact F.
Qed.
End Centro.
End Compute.
