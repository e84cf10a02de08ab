(** Bounds for the rows of values, and a basis of one function in doubles (C100). *)
From Coq Require Import String ZArith Arith Bool Reals Lra Lia Psatz.
From Coquelicot Require Import Coquelicot.
From Coq Require Import List.
From Verif.Model Require Import Base Util IEEE Num Poly PolyIEEE FT FTIEEE SVE Matsubara Basis BasisIEEE NDArray Sampling SamplingIEEE TransformIEEE.
From Verif.Spec Require Import SPoly SFT SSVE SBasis SComputed SKernelIEEE SRounded SSampling SSamplingIEEE STransform SPolyIEEE SFTIEEE SSVEIEEE SBasisIEEE SWholeIEEE STransformIEEE SDefaults.
From Verif.Proofs Require Import BaseFacts SumFacts FTFacts FTModel PPolyFacts LstsqFacts NDFacts SamplingFacts SplitFacts SamplingProps SamplingExamples CVec FitRound SamplingRound SamplingRoundProps SamplingRoundExamples
  KernelRoundCall PolyRound FTRoundProps BasisPhys BasisRound BasisRoundProps BasisRoundMore BasisRoundDouble WholeRound TransformRound TransformRoundProps AugmentProps BasisFacts FTRound.
Import ListNotations.
Open Scope R_scope.
Notation length := List.length.

(** * Bounds for the rows *)
Lemma rows_bounded p M : geom_ok (vgeom p) ->
  (forall i c, (i < gnseg (vgeom p))%nat -> In c (vcols p) -> sqrt (2 / (knot (vgeom p) (S i) - knot (vgeom p) i)) * sumn (glen (vgeom p)) (fun k => Rabs (cdat c k i)) <= M) ->
  forall i t r, values_in p i t r -> size (length (vcols p)) r <= sqrt (INR (length (vcols p))) * M.
Proof.
  intros Hg HM i t r (Hi & Ht & HV). set (g := vgeom p) in *. pose proof (knot_lt g Hg i (S i)) as Lt. assert (D : knot g i < knot g (S i)) by (apply Lt; lia).
  destruct (vcols p) as [|c0 cols] eqn:Ec.
  { cbn [length INR]. unfold size, norm2. cbn [sumn]. rewrite sqrt_0. lra. }
  assert (P : 0 <= M). { eapply Rle_trans; [|apply (HM i c0 Hi); left; reflexivity]. apply Rmult_le_pos; [apply sqrt_pos|]. apply sumn_nonneg. intros. apply Rabs_pos. }
  rewrite <- (rsize_const (length (c0 :: cols)) M P). apply size_by. intros l Hl.
  destruct (nth_error (c0 :: cols) l) as [c|] eqn:El; [|apply nth_error_None in El; lia]. rewrite (HV l c El), Cmod_R. unfold seg_fun. fold g.
  rewrite Rabs_mult, (Rabs_pos_eq (sqrt _)) by apply sqrt_pos. eapply Rle_trans; [|apply (HM i c Hi); exact (nth_error_In _ _ El)].
  apply Rmult_le_compat_l; [apply sqrt_pos|]. eapply Rle_trans; [apply sumn_abs|]. apply sumn_le. intros k Hk. rewrite Rabs_mult. rewrite <- (Rmult_1_r (Rabs (cdat c k i))) at 2.
  apply Rmult_le_compat_l; [apply Rabs_pos|]. apply LegRecur.legP_le1. split.
  - apply (Rmult_le_reg_r (knot g (S i) - knot g i)); [lra|]. unfold Rdiv. rewrite Rmult_assoc, Rinv_l by lra. lra.
  - apply (Rmult_le_reg_r (knot g (S i) - knot g i)); [lra|]. unfold Rdiv. rewrite Rmult_assoc, Rinv_l by lra. lra.
Qed.

(** * One constant function *)
Definition c0 : R := 181 / 256.
Definition flat_geom : geom := Geom 1 1 1 [-1; 1] [2].
Definition flat_col : col := Col (fun _ _ => c0) 0.
Definition flat_sve (e : R) : sve_result := SVE (VPoly flat_geom [flat_col]) [1] (VPoly flat_geom [flat_col]) (Some e).

Lemma flat_near e : expansion_near (/ 2 ^ 53) eta64 (flat_sve e).
Proof.
  assert (P : / 10 ^ 290 <= 2). { apply Rle_trans with (/ 2 ^ 52); [apply p290|]. assert (Q : 2 ^ 52 = 4503599627370496) by (cbn; lra). rewrite Q. lra. }
  assert (S : stored (/ 2 ^ 53) eta64 (VPoly flat_geom [flat_col])).
  { assert (E : flat_geom = Geom 1 1 1 [-1; 1] (map rnd64 (diffs [-1; 1]))).
    { assert (E2 : rnd64 (1 - -1) = 2). { replace (1 - -1) with 2 by ring. apply RescaleIEEE.rnd_id. replace 2 with (IZR 1 * Flocq.Core.Raux.bpow Flocq.Core.Zaux.radix2 1) by (cbn; lra). apply double_of; lia. }
      change (map rnd64 (diffs [-1; 1])) with [rnd64 (1 - -1)]. rewrite E2. reflexivity. }
    rewrite E. apply (stored_double 1 [-1; 1]); cbn [length nth Nat.sub]; try lia; try reflexivity; [repeat constructor; lra|].
    intros [|i] Hi; cbn [nth length] in *; [lra|lia]. }
  unfold expansion_near, flat_sve. cbn [su sv ss]. split; [exact S|]. split; [exact S|]. split; [reflexivity|]. split; [reflexivity|]. split; [discriminate|]. split; repeat constructor; lra.
Qed.
Lemma flat_fair T : / 10 <= T <= 10 -> fair_scale (/ 2 ^ 53) eta64 T flat_geom.
Proof.
  intros HT. assert (P : / 10 ^ 290 <= / 10). { apply Rinv_le_contravar; [lra|]. apply Rle_trans with (10 ^ 1); [lra|]. apply Rle_pow; [lra|lia]. }
  assert (Q : 100 <= 10 ^ 290). { apply Rle_trans with (10 ^ 2); [lra|]. apply Rle_pow; [lra|lia]. }
  apply fair_scale_double; [split; lra|]. intros [|i] Hi; [|cbn in Hi; lia]. unfold knot. cbn [flat_geom gknots nth]. split; lra.
Qed.
Lemma flat_tolerated u T sh : 0 <= u <= / 10 ^ 10 -> 0 <= sh <= 1 -> tolerated u T sh flat_geom.
Proof. intros Hu Hs. exact (unit_tolerated u T sh Hu Hs). Qed.

Lemma flat_basis compute compute' : exists b b0, basis_init_rd rnd64 powerRZ compute "F" 2 (/ 2) (Some (/ 10)) None None (Some (flat_sve (/ 10))) = Ok b /\
  built_rd (/ 2 ^ 53) eta64 rnd64 powerRZ compute b /\ exact_version compute' b b0 /\ bsve b = flat_sve (/ 10) /\ bbeta b = 2 /\ bstat b = "F"%string /\ klam (bkernel b) = Some (rnd64 (2 * / 2)) /\
  gxmin (vgeom (bu b)) = 0 /\ gxmax (vgeom (bu b)) = 2 /\ bsize b0 = 1%nat /\ vcols (bu b0) = [flat_col] /\
  gnseg (vgeom (bu b0)) = 1%nat /\ glen (vgeom (bu b0)) = 1%nat /\ gknots (vgeom (bu b0)) = [0; 2] /\ geom_ok (vgeom (bu b0)).
Proof.
  destruct (small_double 0 ltac:(lra)) as (_ & _ & E0 & E1).
  assert (P53 : 2 ^ 53 = 9007199254740992) by (cbn; lra).
  assert (E3 : eta64 <= / 10 ^ 300). { assert (P : 0 < 10 ^ 300) by (apply pow_lt; lra). apply (Rmult_le_reg_r (10 ^ 300)); [exact P|]. rewrite Rinv_l by lra. eapply Rle_trans; [exact E1|]. rewrite P53. lra. }
  assert (E12 : eta64 <= / 10 ^ 12). { eapply Rle_trans; [exact E3|]. apply Rinv_le_contravar; [apply pow_lt; lra|]. apply Rle_pow; [lra|lia]. }
  clear E1 E3. assert (P12 : / 10 ^ 12 <= / 10) by (apply Rinv_le_contravar; [lra|]; apply Rle_trans with (10 ^ 1); [lra|apply Rle_pow; [lra|lia]]).
  assert (U : 0 < / 2 ^ 53 <= / 10000) by (rewrite P53; lra). assert (U10 : 0 <= / 2 ^ 53 <= / 10 ^ 10) by (assert (P : 10 ^ 10 = 10000000000) by (cbn; lra); rewrite P53, P; lra).
  assert (F1 : fair_scale (/ 2 ^ 53) eta64 (2 / 2) flat_geom) by (apply flat_fair; lra). assert (F3 : fair_scale (/ 2 ^ 53) eta64 (/ 2) flat_geom) by (apply flat_fair; lra).
  destruct (rd_succeeds (/ 2 ^ 53) eta64 rnd64 powerRZ compute "F" 2 (/ 2) (/ 10) None (flat_sve (/ 10))) as (b & H & Er & Eb & Ew & Es & Kl); auto; try lra.
  { apply rounding_double. } { apply flat_near. } { apply flat_tolerated; [exact U10|lra]. } { apply flat_tolerated; [exact U10|lra]. } { cbn [flat_sve ss nth]. lra. }
  assert (Hb : built_rd (/ 2 ^ 53) eta64 rnd64 powerRZ compute b). { do 7 eexists. split; [exact H|]. rewrite Er. split; [apply flat_near|lra]. }
  destruct (version_exists _ _ _ _ _ compute' b Hb) as (b0 & H0).
  destruct (version_inv _ _ _ _ _ _ b Hb b0 H0) as (B & _ & Eb0 & _ & _ & Es0 & En).
  destruct (rd_sizes _ _ _ _ _ b Hb) as (S & _). rewrite Er in S. cbn [flat_sve ss length] in S.
  destruct (double_ends powerRZ compute b Hb) as (G1 & G2 & _ & _).
  { rewrite Eb. replace 2 with (IZR 1 * Flocq.Core.Raux.bpow Flocq.Core.Zaux.radix2 1) by (cbn; lra). apply double_of; lia. }
  { rewrite Ew. replace (/ 2) with (IZR 1 * Flocq.Core.Raux.bpow Flocq.Core.Zaux.radix2 (-1)) by (cbn; lra). apply double_of; lia. }
  { rewrite Eb. change 2 with (Flocq.Core.Raux.bpow Flocq.Core.Zaux.radix2 1). apply Flocq.Core.Raux.bpow_le. lia. }
  rewrite Eb in G2. exists b, b0. do 9 (split; [assumption|]). assert (EL : bsize b0 = 1%nat) by lia. split; [exact EL|].
  pose proof (bu_fresh compute' b0 B) as (Gk & _). pose proof (bu_eq compute' b0 B) as Eu. rewrite EL, Eb0, Eb, Es0, Er in Eu.
  rewrite Eu in *. cbn [vcols vgeom ideal_sve su flat_sve ideal ideal_geom firstn flat_geom] in *. split; [reflexivity|]. split; [reflexivity|]. split; [reflexivity|]. split; [|exact Gk].
  unfold scaled_geom, ideal_geom. cbn [gknots flat_geom map]. replace (2 / 2 * -1 + 2 / 2) with 0 by field. replace (2 / 2 * 1 + 2 / 2) with 2 by field. reflexivity.
Qed.

Lemma flat_values b0 i t r : vcols (bu b0) = [flat_col] -> gnseg (vgeom (bu b0)) = 1%nat -> glen (vgeom (bu b0)) = 1%nat -> gknots (vgeom (bu b0)) = [0; 2] -> values_in (bu b0) i t r -> r 0%nat = RtoC c0.
Proof.
  intros E1 E2 E3 E4 (Hi & _ & H). assert (i = 0%nat) as -> by lia. rewrite (H 0%nat flat_col) by (rewrite E1; reflexivity). f_equal. unfold seg_fun, knot. rewrite E3, E4. cbn [nth sumn flat_col cdat]. rewrite LegFacts.legP_0.
  replace (2 / (2 - 0)) with 1 by field. rewrite sqrt_1. ring.
Qed.

Lemma flat_represents b0 : vcols (bu b0) = [flat_col] -> gnseg (vgeom (bu b0)) = 1%nat -> glen (vgeom (bu b0)) = 1%nat -> gknots (vgeom (bu b0)) = [0; 2] -> geom_ok (vgeom (bu b0)) ->
  represents (bu b0) 0 (fun _ => c0).
Proof.
  intros E1 E2 E3 E4 Gk x Hx. rewrite (value_cval (bu b0) 0 flat_col x Gk) by (try lia; try exact Hx; rewrite E1; reflexivity). f_equal.
  unfold gxmin, gxmax in Hx. rewrite E2 in Hx. assert (K0 : knot (vgeom (bu b0)) 0 = 0) by (unfold knot; rewrite E4; reflexivity). assert (K1 : knot (vgeom (bu b0)) 1 = 2) by (unfold knot; rewrite E4; reflexivity).
  rewrite (cval_seg _ Gk flat_col 0 x).
  - unfold seg_fun. rewrite E3, K0, K1. cbn [sumn flat_col cdat]. rewrite LegFacts.legP_0. replace (2 / (2 - 0)) with 1 by field. rewrite sqrt_1. ring.
  - lia.
  - unfold knot in K0 |- *. lra.
  - destruct (Rle_lt_or_eq_dec _ _ (proj2 Hx)) as [H|H]; [left; exact H|right]. split; [lia|]. unfold gxmax. rewrite E2. exact H.
Qed.

Lemma flat_orthonormal b0 : vcols (bu b0) = [flat_col] -> gnseg (vgeom (bu b0)) = 1%nat -> glen (vgeom (bu b0)) = 1%nat -> gknots (vgeom (bu b0)) = [0; 2] -> geom_ok (vgeom (bu b0)) ->
  nearly_orthonormal_functions (bu b0) (/ 1000).
Proof.
  intros E1 E2 E3 E4 Gk l m f g Hf Hg. pose proof (flat_represents b0 E1 E2 E3 E4 Gk) as R0.
  assert (X1 : gxmin (vgeom (bu b0)) = 0) by (unfold gxmin; rewrite E4; reflexivity). assert (X2 : gxmax (vgeom (bu b0)) = 2) by (unfold gxmax; rewrite E2, E4; reflexivity).
  pose proof (ComputeMerged.in_cols _ _ _ 0 Gk ltac:(lra) Hf) as Lf. pose proof (ComputeMerged.in_cols _ _ _ 0 Gk ltac:(lra) Hg) as Lg. rewrite E1 in Lf, Lg. cbn [length] in Lf, Lg.
  assert (l = 0%nat) as -> by lia. assert (m = 0%nat) as -> by lia. rewrite X1, X2. exists ((2 - 0) * (c0 * c0)). split.
  - eapply (is_RInt_ext (V := R_NormedModule) (fun _ => c0 * c0)); [|apply (is_RInt_const (V := R_NormedModule))]. rewrite Rmin_left, Rmax_right by lra. intros x Hx.
    rewrite <- (represents_unique _ _ _ _ x R0 Hf), <- (represents_unique _ _ _ _ x R0 Hg) by lra. reflexivity.
  - cbn [Nat.eqb]. unfold c0. apply Rabs_le. lra.
Qed.

Lemma column_decomposes A lo hi : mc A = 1%nat -> 0 < lo <= hi -> lo <= col_norm A <= hi -> nonzero A -> decomposes A (col_svd A) 0 0 0 lo hi.
Proof.
  intros H1 H2 H3 H4. apply svd_decomposes; auto; [now apply col_svd_ok|now apply col_rank|]. intros k Hk. assert (k = 0%nat) as -> by lia. exact H3.
Qed.
Lemma entry_norm A i : (i < mr A)%nat -> Cmod (me A i 0%nat) <= col_norm A.
Proof. intros Hi. unfold col_norm. rewrite <- (sqrt_Rsqr (Cmod (me A i 0%nat))) by apply Cmod_ge_0. apply sqrt_le_1_alt. unfold norm2, Rsqr. pose proof (sumn_pos_term (mr A) (fun i => Cmod (me A i 0%nat) ^ 2) i Hi) as T. cbv beta in T. rewrite <- Rsqr_pow2 in T. apply T. intros. apply pow2_ge_0. Qed.

Lemma col_norm_le A k : 0 <= k -> (forall i, (i < mr A)%nat -> Cmod (me A i 0%nat) <= k) -> col_norm A <= sqrt (INR (mr A)) * k.
Proof. intros Hk H. rewrite <- rsize_const by exact Hk. apply (size_by (mr A) (fun i => me A i 0%nat)). exact H. Qed.
Lemma col_norm_stacked A : mc A = 1%nat -> col_norm (stacked A 0) = col_norm A.
Proof.
  intros H. assert (E : forall B, mc B = 1%nat -> frob B = col_norm B).
  { intros B HB. unfold frob, col_norm. f_equal. unfold norm2. apply sumn_ext. intros i _. rewrite HB. cbn [sumn]. ring. }
  rewrite <- (E A H), <- (E (stacked A 0) H). symmetry. apply frob_stacked; [lia|]. intros i l Hi. lia.
Qed.

(** The imaginary part of the integral at n = 1. *)
Lemma sine_integral w : is_fourier (fun t => PI * IZR 1 * t / 2) (fun _ => c0) 0 2 w -> 85 / 100 <= Im w.
Proof.
  intros (_ & H). assert (E : is_RInt (fun t => sin (PI * IZR 1 * t / 2) * c0) 0 2 (4 * c0 / PI)).
  { pose proof PI_RGT_0 as P. assert (D : is_RInt (fun t => sin (PI * IZR 1 * t / 2) * c0) 0 2 (minus (- (2 * c0 / PI) * cos (PI * 1 * 2 / 2)) (- (2 * c0 / PI) * cos (PI * 1 * 0 / 2)))).
    { apply (is_RInt_derive (V := R_CompleteNormedModule) (fun t => - (2 * c0 / PI) * cos (PI * 1 * t / 2))).
      - intros x _. auto_derive; [trivial|]. change (IZR 1) with 1. unfold Rdiv. generalize (sin (PI * 1 * x * / 2)). intros s. field. lra.
      - intros x _. apply continuity_pt_filterlim. reg. }
    replace (4 * c0 / PI) with (minus (- (2 * c0 / PI) * cos (PI * 1 * 2 / 2)) (- (2 * c0 / PI) * cos (PI * 1 * 0 / 2))); [exact D|].
    unfold minus, plus, opp; cbn. replace (PI * 1 * 2 / 2) with PI by field. replace (PI * 1 * 0 / 2) with 0 by field. rewrite cos_PI, cos_0. field. lra. }
  pose proof (is_RInt_unique _ _ _ _ H) as U1. pose proof (is_RInt_unique _ _ _ _ E) as U2. cbv beta in U1, U2. assert (Ew : Im w = 4 * c0 / PI) by (rewrite <- U2; symmetry; exact U1). rewrite Ew.
  pose proof PI_RGT_0 as P. assert (P4 : PI <= 32 / 10) by (destruct FTRound.PI_bounds; lra).
  apply (Rmult_le_reg_r PI); [lra|]. unfold Rdiv at 2. rewrite Rmult_assoc, Rinv_l by lra. unfold c0. lra.
Qed.

Definition flat_gam : R := 6 * INR 1 * / 2 ^ 53.
Lemma small_numbers : 2 ^ 53 = 9007199254740992 /\ 0 <= eta64 /\ eta64 <= / 10 ^ 40.
Proof.
  destruct (small_double 0 ltac:(lra)) as (_ & _ & E0 & E1). assert (P53 : 2 ^ 53 = 9007199254740992) by (cbn; lra). split; [exact P53|]. split; [exact E0|].
  assert (E3 : eta64 <= / 10 ^ 300). { assert (P : 0 < 10 ^ 300) by (apply pow_lt; lra). apply (Rmult_le_reg_r (10 ^ 300)); [exact P|]. rewrite Rinv_l by lra. eapply Rle_trans; [exact E1|]. rewrite P53. lra. }
  eapply Rle_trans; [exact E3|]. apply Rinv_le_contravar; [apply pow_lt; lra|]. apply Rle_pow; [lra|lia].
Qed.
Lemma flat_outer : outer 1 flat_geom 0 = 2.
Proof. unfold outer, knot. cbn [flat_geom gknots nth]. replace (-1 + 1) with 0 by ring. replace (1 + 1) with 2 by ring. rewrite Rabs_R0, (Rabs_pos_eq 2) by lra. apply Rmax_right. lra. Qed.

Lemma flat_moved : shifted_loss 1 flat_geom 0 * / 2 ^ 53 <= 1 /\ moved_error (/ 2 ^ 53) eta64 (2 / 2) 1 flat_geom flat_col 0 <= / 10 ^ 12.
Proof.
  destruct small_numbers as (P53 & E0 & E40).
  assert (SL : shifted_loss 1 flat_geom 0 = 2640). { unfold shifted_loss. rewrite flat_outer. unfold knot. cbn [flat_geom gknots nth glen]. cbn [INR]. field. }
  unfold moved_error. rewrite SL. unfold knot. cbn [flat_geom gknots nth glen sumn flat_col cdat]. replace (2 / (2 / 2 * (1 - -1))) with 1 by field. rewrite sqrt_1, P53.
  assert (P : 10 ^ 40 = 10000000000000000000000000000000000000000) by (cbn; lra). rewrite P in E40. assert (P' : 10 ^ 12 = 1000000000000) by (cbn; lra). rewrite P'. clear P P'.
  rewrite (Rabs_pos_eq c0) by (unfold c0; lra). unfold Rdiv. rewrite Rinv_inv. unfold c0. revert E0 E40. generalize eta64. intros x X0 X1. split; lra.
Qed.

Lemma flat_uhat n : Rabs (IZR n) <= 3 ->
  uhat_error (/ 2 ^ 53) eta64 (constant_error (/ 2 ^ 53) (2 * / 2 ^ 53) (2 * / 2 ^ 53) (6 * / 2 ^ 53) (12 * eta64) flat_gam) (12 * INR 1 * eta64) 2 flat_geom flat_col n <= / 10 ^ 12.
Proof.
  intros Hn. destruct small_numbers as (P53 & E0 & E40). pose proof (Rabs_pos (IZR n)) as N0. unfold uhat_error, transform_error, constant_error, flat_gam, reach. unfold knot. cbn [flat_geom gknots nth gnseg gorder sumn cdat Nat.mul Nat.add INR flat_col].
  replace ((-1 + 1) / 2) with 0 by field. replace (Rabs (0 - 1)) with 1 by (rewrite Rabs_left; lra). replace (0 + 1) with 1 by ring. rewrite Rabs_R0, Rabs_R1. rewrite (Rmin_left 0 1), (Rmin_right 1 0) by lra.
  replace (1 - -1) with 2 by ring. assert (S0 : 0 <= sqrt 2) by apply sqrt_pos. assert (SS : sqrt 2 * sqrt 2 = 2) by (apply sqrt_sqrt; lra). assert (S1 : sqrt 2 <= 3 / 2) by (apply Rsqr_incr_0_var; unfold Rsqr; lra).
  rewrite (Rabs_pos_eq c0) by (unfold c0; lra). assert (P : 10 ^ 40 = 10000000000000000000000000000000000000000) by (cbn; lra). rewrite P in E40. assert (P' : 10 ^ 12 = 1000000000000) by (cbn; lra). rewrite P'. clear P P'. rewrite P53.
  unfold Rdiv. rewrite Rinv_inv. assert (Pe : 0 <= eta64 * 9007199254740992 <= / 1000) by (revert E0 E40; generalize eta64; intros; lra).
  rewrite (Rabs_pos_eq (1001 * / 1000 * sqrt 2 * c0 + eta64 * 9007199254740992)) by (unfold c0; lra).
  assert (M : sqrt 2 * (1001 * / 1000 * sqrt 2 * c0 + eta64 * 9007199254740992) <= 2).
  { replace (sqrt 2 * (1001 * / 1000 * sqrt 2 * c0 + eta64 * 9007199254740992)) with (1001 * / 1000 * (sqrt 2 * sqrt 2) * c0 + sqrt 2 * (eta64 * 9007199254740992)) by ring. rewrite SS.
    assert (sqrt 2 * (eta64 * 9007199254740992) <= 3 / 2 * / 1000) by (apply Rmult_le_compat; lra). unfold c0. lra. }
  set (q := 1001 * / 1000 * sqrt 2 * c0 + eta64 * 9007199254740992) in *. assert (Q0 : 0 <= q) by (unfold q, c0; lra). clearbody q.
  rewrite Rplus_assoc. match goal with |- 0 + sqrt 2 * ?x * (0 + q) + ?y <= _ => assert (X : 0 <= x <= / 4000000000000); [|assert (Y : y <= / 10000000000000)] end.
  - revert E0 E40 N0 Hn. generalize eta64 (Rabs (IZR n)). intros e a E0 E40 N0 Hn. split; lra.
  - revert E0 E40. generalize eta64. intros e E0 E40. lra.
  - match goal with |- 0 + sqrt 2 * ?x * (0 + q) + ?y <= _ => set (xx := x) in *; set (yy := y) in * end. clearbody xx yy. replace (0 + sqrt 2 * xx * (0 + q) + yy) with (xx * (sqrt 2 * q) + yy) by ring.
    assert (xx * (sqrt 2 * q) <= / 4000000000000 * 2) by (apply Rmult_le_compat; try lra; apply Rmult_le_pos; lra). lra.
Qed.

Lemma Cmod_switch x y : Cmod (Cminus x y) = Cmod (Cminus y x).
Proof. rewrite <- Cmod_opp. f_equal. ring. Qed.

Lemma flat_case compute compute' old model : exists b b0 st sm sp,
  let u := / 2 ^ 53 in let e := / 10 ^ 12 in
  let sb := sb_of_basis_rd old rnd64 double_library model b in
  let delta := constant_error u (2 * u) (2 * u) (6 * u) (12 * eta64) (6 * INR 1 * u) in
  basis_init_rd rnd64 powerRZ compute "F" 2 (/ 2) (Some (/ 10)) None None (Some (flat_sve (/ 10))) = Ok b /\
  built_rd u eta64 rnd64 powerRZ compute b /\ exact_version compute' b b0 /\ bbeta b = 2 /\ bsize b0 = 1%nat /\
  (forall l, (l < bsize b0)%nat -> represents (bu b0) l (fun _ => 181 / 256)) /\
  nearly_orthonormal_functions (bu b0) (/ 1000) /\ (forall i t r, values_in (bu b0) i t r -> size (bsize b0) r <= 1) /\
  (let g := vgeom (su (bsve b)) in library_near (gorder g) (gorder g * gnseg g) u (2 * u) (2 * u) (6 * u) (12 * eta64) (6 * INR 1 * u) (12 * INR 1 * eta64) double_library) /\
  small_library (2 * u) (2 * u) (6 * u) (12 * eta64) (6 * INR 1 * u) /\
  fair_times u eta64 b b0 e /\ fair_frequencies u eta64 delta (12 * INR 1 * eta64) rnd64 b b0 [1; -1]%Z e /\ fair_frequencies u eta64 delta (12 * INR 1 * eta64) rnd64 b b0 [1; 3]%Z e /\
  tau_sampling col_svd sb [1] = Ok st /\ matsubara_sampling col_svd sb [1; -1]%Z false = Ok sm /\ matsubara_sampling col_svd sb [1; 3]%Z true = Ok sp /\
  (let A := d_a (ts_matrix st) in decomposes A (col_svd A) 0 0 0 (/ 2) 3) /\
  (let A := m_a (ms_matrix sm) in decomposes A (col_svd A) 0 0 0 (/ 2) 3) /\
  (let A := m_a (ms_matrix sp) in let A' := stacked A (zoff [1; 3]%Z) in decomposes A' (col_svd A') 0 0 0 (/ 2) 3 /\ real_decomposition A' (col_svd A') /\ zero_row_real [1; 3]%Z A) /\
  arith_near 2 (6 * INR 2 / 2 ^ 53) (12 * INR 2 * eta64) (9 / 2 ^ 53) (2 * (eta64 / (/ 2) + eta64)) (/ 2) 3 (some_arith rnd64) /\
  small_fit (bsize b0) (6 * INR 2 / 2 ^ 53) (9 / 2 ^ 53) 0 0.
Proof.
  destruct (flat_basis compute compute') as (b & b0 & H & Hb & H0 & Er & Eb & Est & Kl & X1 & X2 & EL & E1 & E2 & E3 & E4 & Gk).
  destruct small_numbers as (P53 & S0 & S40). assert (P40 : 10 ^ 40 = 10000000000000000000000000000000000000000) by (cbn; lra). assert (S40' := S40). rewrite P40 in S40'.
  assert (U : 0 < / 2 ^ 53 <= / 10000) by (rewrite P53; lra).
  assert (Rp : forall l, (l < bsize b0)%nat -> represents (bu b0) l (fun _ => c0)) by (intros l Hl; rewrite EL in Hl; assert (l = 0%nat) as -> by lia; apply flat_represents; assumption).
  assert (No : nearly_orthonormal_functions (bu b0) (/ 1000)) by (apply flat_orthonormal; assumption).
  assert (Hr : forall i t r, values_in (bu b0) i t r -> size (bsize b0) r <= 1).
  { intros i t r V. rewrite EL. apply CVec.size_le; [lra|]. unfold SSampling.norm2. cbn [sumn]. rewrite (flat_values b0 i t r E1 E2 E3 E4 V), Cmod_R, Rabs_pos_eq by (unfold c0; lra). unfold c0. lra. }
  assert (HF : library_near 1 1 (/ 2 ^ 53) (2 * / 2 ^ 53) (2 * / 2 ^ 53) (6 * / 2 ^ 53) (12 * eta64) (6 * INR 1 * / 2 ^ 53) (12 * INR 1 * eta64) double_library).
  { apply library_rounded with (rd := rnd64); try lra; [apply rounding_double|cbn [INR]; rewrite P53; lra|apply double_functions|apply double_rounded]. }
  assert (Hs : small_library (2 * / 2 ^ 53) (2 * / 2 ^ 53) (6 * / 2 ^ 53) (12 * eta64) (6 * INR 1 * / 2 ^ 53)).
  { unfold small_library. rewrite P53. cbn [INR]. revert S0 S40'. generalize eta64. intros. repeat split; lra. }
  assert (Pe : 0 <= / 10 ^ 12) by (left; apply Rinv_0_lt_compat, pow_lt; lra).
  assert (Ft : fair_times (/ 2 ^ 53) eta64 b b0 (/ 10 ^ 12)).
  { unfold fair_times. rewrite Er, Eb. cbn [flat_sve su vgeom]. split; [exact Pe|]. split; [apply flat_fair; lra|]. intros i Hi. cbn [flat_geom gnseg] in Hi. assert (i = 0%nat) as -> by lia. destruct flat_moved as (M1 & M2). split; [exact M1|].
    intros c Hc. rewrite E1 in Hc. destruct Hc as [<-|[]]. exact M2. }
  assert (Lam : rnd64 (40 * rnd64 (2 * / 2)) = 40).
  { assert (R1 : rnd64 1 = 1) by (apply RescaleIEEE.rnd_id; replace 1 with (IZR 1 * Flocq.Core.Raux.bpow Flocq.Core.Zaux.radix2 0) by (cbn; lra); apply double_of; lia). rewrite Rinv_r, R1, Rmult_1_r by lra. apply RescaleIEEE.rnd_id. replace 40 with (IZR 5 * Flocq.Core.Raux.bpow Flocq.Core.Zaux.radix2 3) by (cbn; lra). apply double_of; lia. }
  assert (Ff : forall ns, Forall (fun n => Rabs (IZR n) <= 3) ns ->
    fair_frequencies (/ 2 ^ 53) eta64 (constant_error (/ 2 ^ 53) (2 * / 2 ^ 53) (2 * / 2 ^ 53) (6 * / 2 ^ 53) (12 * eta64) (6 * INR 1 * / 2 ^ 53)) (12 * INR 1 * eta64) rnd64 b b0 ns (/ 10 ^ 12)).
  { intros ns Hns. unfold fair_frequencies. rewrite Er, Eb. cbn [flat_sve su vgeom]. split; [exact Pe|]. split; [|split].
    - assert (1 <= sqrt 2) by (rewrite <- sqrt_1 at 1; apply sqrt_le_1_alt; lra). apply Rle_trans with (/ 2 ^ 53 * 1); [rewrite P53; revert S0 S40'; generalize eta64; intros; lra|apply Rmult_le_compat_l; lra].
    - cbn [flat_geom gnseg INR]. rewrite P53. lra.
    - eexists. split; [exact Kl|]. intros n Hn. rewrite Forall_forall in Hns. specialize (Hns n Hn). split; [rewrite Lam; lra|]. intros c Hc. rewrite E1 in Hc. destruct Hc as [<-|[]]. apply flat_uhat. exact Hns. }
  assert (F1 : Forall (fun n => Rabs (IZR n) <= 3) [1; -1]%Z) by (repeat constructor; [rewrite Rabs_pos_eq; lra|rewrite Rabs_left; lra]).
  assert (F2 : Forall (fun n => Rabs (IZR n) <= 3) [1; 3]%Z) by (repeat constructor; rewrite Rabs_pos_eq; lra).
  set (sb := sb_of_basis_rd old rnd64 double_library model b).
  destruct (proj1 (tau_sampling_outcome _ _ _ _ _ b old double_library model Hb col_svd [1])) as (st & Hst); [repeat constructor; rewrite ?X1, ?X2; lra|]. fold sb in Hst.
  assert (Al : forall n, (n mod 2 = 1)%Z -> allowed b n) by (intros n Hn; unfold allowed, stat_freq; rewrite Est; cbn; exact Hn).
  assert (A1 : Forall (allowed b) [1; -1]%Z) by (repeat constructor; apply Al; reflexivity). assert (A2 : Forall (allowed b) [1; 3]%Z) by (repeat constructor; apply Al; reflexivity).
  destruct (proj1 (mats_sampling_outcome _ _ _ _ _ b old double_library model Hb col_svd _) A1) as (sm & Hsm). fold sb in Hsm.
  destruct (proj1 (uhat_outcome _ _ _ _ _ b old double_library model Hb _) A2) as (M & HM). fold sb in HM.
  set (A := sampling_matrix 2 M).
  (* general facts about matrices of frequencies *)
  assert (Fm : forall ns pos s, Forall (fun n => Rabs (IZR n) <= 3) ns -> nth_error ns 0 = Some 1%Z -> (length ns <= 2)%nat -> matsubara_sampling col_svd sb ns pos = Ok s -> let A := m_a (ms_matrix s) in
     mc A = 1%nat /\ nonzero A /\ / 2 <= col_norm A <= 3).
  { intros ns pos s Hns H1 L2 Hms A3. destruct (frequency_near _ _ _ _ _ _ b rounding_double U S0 Hb b0 H0 old double_library model col_svd ns pos s (/ 10 ^ 12) (2 * / 2 ^ 53) (2 * / 2 ^ 53) (6 * / 2 ^ 53) (12 * eta64) (6 * INR 1 * / 2 ^ 53) (12 * INR 1 * eta64) (fun _ _ => c0)
      ltac:(rewrite Er; exact HF) Hs (Ff ns Hns) Hms Rp) as (W & W1 & W2 & W3 & W4 & W5 & W6).
    fold A3 in W4, W5, W6. rewrite EL in W2, W3, W6. assert (L0 : (0 < length ns)%nat) by (apply nth_error_Some; congruence). destruct W4 as (_ & _ & _ & W4). rewrite Eb in W3.
    assert (P12 : 10 ^ 12 = 1000000000000) by (cbn; lra). rewrite P12 in W4.
    assert (I0 : 85 / 100 <= Im (me W 0 0)) by (apply sine_integral, (W3 0%nat 1%Z H1 0%nat); lia).
    assert (C0 : 85 / 100 <= Cmod (me W 0 0)) by (eapply Rle_trans; [exact I0|]; eapply Rle_trans; [apply RRle_abs|apply Cmod_Im_le]).
    assert (D0 : 84 / 100 <= Cmod (me A3 0 0)).
    { specialize (W4 0%nat 0%nat ltac:(lia) ltac:(lia)). pose proof (Cmod_triangle (me A3 0%nat 0%nat) (Cminus (me W 0%nat 0%nat) (me A3 0%nat 0%nat))) as T. replace (Cplus (me A3 0%nat 0%nat) (Cminus (me W 0%nat 0%nat) (me A3 0%nat 0%nat))) with (me W 0%nat 0%nat) in T by ring.
      rewrite Cmod_switch in T. lra. }
    split; [exact W6|]. split.
    - exists 0%nat, 0%nat. split; [lia|]. split; [lia|]. intros C. rewrite C, Cmod_0 in D0. lra.
    - split; [eapply Rle_trans; [|apply (entry_norm A3 0); lia]; lra|].
      eapply Rle_trans; [apply (col_norm_le A3 2); [lra|]|].
      + intros i Hi. rewrite W5 in Hi. destruct (nth_error ns i) as [n|] eqn:En; [|apply nth_error_None in En; lia].
        pose proof (row_bound _ _ _ _ _ _ b Hb b0 H0 n (fun _ _ => c0) (me W i) (/ 1000) Rp No) as B. rewrite EL, Eb in B. specialize (B (W3 i n En)). cbn [INR] in B.
        assert (Sz : size 1 (me W i) = Cmod (me W i 0)) by (unfold size, SSampling.norm2; cbn [sumn]; rewrite Rplus_0_l; rewrite <- Rsqr_pow2; apply sqrt_Rsqr, Cmod_ge_0). rewrite Sz in B.
        assert (sqrt (2 * (1 + 1 * / 1000)) <= 15 / 10) by (apply Rsqr_incr_0_var; [|lra]; rewrite Rsqr_sqrt by lra; unfold Rsqr; lra).
        specialize (W4 i 0%nat ltac:(lia) ltac:(lia)). pose proof (Cmod_triangle (me W i 0%nat) (Cminus (me A3 i 0%nat) (me W i 0%nat))) as T. replace (Cplus (me W i 0%nat) (Cminus (me A3 i 0%nat) (me W i 0%nat))) with (me A3 i 0%nat) in T by ring. lra.
      + rewrite W5. assert (sqrt (INR (length ns)) <= 15 / 10); [|lra]. apply Rle_trans with (sqrt 2); [apply sqrt_le_1_alt; replace 2 with (INR 2) by (cbn; lra); apply le_INR, L2|]. apply Rsqr_incr_0_var; [|lra]. rewrite Rsqr_sqrt by lra. unfold Rsqr. lra. }
  assert (HM' : matsubara_sampling col_svd sb [1; 3]%Z false = Ok (MSampling sb [1; 3]%Z false (inl (of_core A (drop_zeros (col_svd A)))))).
  { unfold matsubara_sampling. rewrite HM. cbn [bind length]. rewrite decomposed_none. reflexivity. }
  destruct (Fm [1; 3]%Z false _ F2 eq_refl ltac:(cbn; lia) HM') as (B1 & B2 & B3). cbn [ms_matrix of_core] in B1, B2, B3. change (m_a (inl (of_core A (drop_zeros (col_svd A))))) with A in B1, B2, B3.
  assert (Sn : nonzero (stacked A 0)).
  { destruct B2 as (i & l & Hi & Hl & Hn). destruct (Req_dec (Re (me A i l)) 0) as [R0|R0].
    - exists (mr A + i)%nat, l. cbn [stacked mr mc me]. split; [lia|]. split; [exact Hl|]. rewrite (proj2 (Nat.ltb_ge _ _)) by lia. replace (0 + (mr A + i - mr A))%nat with i by lia. intros C. apply RtoC_inj in C. apply Hn. apply C_eq; assumption.
    - exists i, l. cbn [stacked mr mc me]. split; [lia|]. split; [exact Hl|]. rewrite (proj2 (Nat.ltb_lt _ _)) by lia. intros C. apply RtoC_inj in C. exact (R0 C). }
  assert (SR : is_real_svd (stacked A 0) (col_svd (stacked A 0))) by (apply col_svd_real; [exact B1|exact Sn|intros; reflexivity]).
  assert (Hsp : exists sp, matsubara_sampling col_svd sb [1; 3]%Z true = Ok sp).
  { unfold matsubara_sampling. rewrite HM. cbn [bind length]. fold A. rewrite (split_decomposed_ok col_svd A (1 =? 0)%Z) by exact SR. cbn [bind]. eauto. }
  destruct Hsp as (sp & Hsp). pose proof (pos_matrix _ _ _ _ _ Hsp HM) as Ep. cbn [length] in Ep. fold A in Ep.
  exists b, b0, st, sm, sp. cbv zeta. do 5 (split; [assumption|]). split; [exact Rp|]. do 2 (split; [assumption|]). split; [rewrite Er; exact HF|]. do 2 (split; [assumption|]).
  split; [apply Ff, F1|]. split; [apply Ff, F2|]. do 3 (split; [assumption|]). split; [|split; [|split; [|split]]].
  - destruct (time_near _ _ _ _ _ _ b rounding_double U S0 Hb b0 H0 old double_library model col_svd [1] st (/ 10 ^ 12) Ft Hst) as (B & HB & (_ & _ & _ & HE) & Q1 & Q2). rewrite EL in Q2. cbn [length] in Q1.
    set (A3 := d_a (ts_matrix st)) in *. destruct HB as (_ & _ & HB). destruct (HB 0%nat 1 eq_refl) as (i & t' & _ & V). pose proof (flat_values b0 i t' _ E1 E2 E3 E4 V) as V0.
    specialize (HE 0%nat 0%nat ltac:(lia) ltac:(lia)). rewrite V0 in HE. assert (P12 : 10 ^ 12 = 1000000000000) by (cbn; lra). rewrite P12 in HE.
    pose proof (Cmod_triangle (me A3 0%nat 0%nat) (Cminus (RtoC c0) (me A3 0%nat 0%nat))) as T. replace (Cplus (me A3 0%nat 0%nat) (Cminus (RtoC c0) (me A3 0%nat 0%nat))) with (RtoC c0) in T by ring. rewrite Cmod_switch in T.
    pose proof (Cmod_triangle (RtoC c0) (Cminus (me A3 0%nat 0%nat) (RtoC c0))) as T'. replace (Cplus (RtoC c0) (Cminus (me A3 0%nat 0%nat) (RtoC c0))) with (me A3 0%nat 0%nat) in T' by ring.
    rewrite Cmod_R, Rabs_pos_eq in T, T' by (unfold c0; lra). unfold c0 in T at 1, T' at 1. assert (D0 : / 2 <= Cmod (me A3 0 0)) by lra. apply column_decomposes; [exact Q2|lra| |].
    + split; [eapply Rle_trans; [|apply (entry_norm A3 0); lia]; lra|]. eapply Rle_trans; [apply (col_norm_le A3 1); [lra|]|rewrite Q1; cbn [INR]; rewrite sqrt_1; lra]. intros k Hk. rewrite Q1 in Hk. assert (k = 0%nat) as -> by lia. lra.
    + exists 0%nat, 0%nat. split; [lia|]. split; [lia|]. intros C. rewrite C, Cmod_0 in D0. lra.
  - destruct (Fm [1; -1]%Z false sm F1 eq_refl ltac:(cbn; lia) Hsm) as (D1 & D2 & D3). apply column_decomposes; auto. lra.
  - rewrite Ep. change (zoff [1; 3]%Z) with 0%nat. split; [|split].
    + apply column_decomposes; [exact B1|lra|rewrite col_norm_stacked by exact B1; exact B3|exact Sn].
    + destruct SR as (_ & R1 & R2). split; [intros i k Hi Hk; apply R1; [exact Hi|cbn [stacked mc] in Hk; cbn [col_svd r_s length]; lia]|intros k l Hk Hl; apply R2; [cbn [stacked mc] in Hk; cbn [col_svd r_s length]; lia|exact Hl]].
    + intros C. discriminate.
  - apply double_arith_near; [apply some_arith_rounded| | |lra|].
    + cbn [INR]. apply Rle_trans with (2 ^ 1); [lra|apply Rle_pow; [lra|lia]].
    + apply Rle_trans with (/ 2 ^ 1); [apply Rinv_le_contravar; [lra|apply Rle_pow; [lra|lia]]|lra].
    + apply Rle_trans with (2 ^ 2); [lra|apply Rle_pow; [lra|lia]].
  - unfold small_fit. rewrite EL. cbn [INR]. rewrite sqrt_1, P53. repeat split; lra.
Qed.
