(** A basis computed in doubles (C99). *)
From Coq Require Import String ZArith Arith Bool Reals Lra Lia Psatz.
From Coquelicot Require Import Coquelicot.
From Coq Require Import List Sorting.Sorted Sorting.Permutation.
From Verif.Model Require Import Base Util IEEE Num Gauss Poly PolyIEEE FT FTIEEE SVE Basis Kernel KernelIEEE GaussIEEE Compute Whole SVEIEEE BasisIEEE WholeIEEE.
From Verif.Spec Require Import SGauss SPoly SFT SSVE SBasis SKernel SCompute SSingular SWhole SNear SComputed SKernelIEEE SGaussIEEE SPolyIEEE SFTIEEE SRounded SSVEIEEE SRoundedCompute SBasisIEEE SWholeIEEE.
From Verif.Proofs Require Import BaseFacts SumFacts PPolyFacts SVEFacts IEEEFacts KernelRoundCall PolyRound ComputeCase ComputeNodes ComputePost ComputeFull NearBest ComputedSVD MatrixRoundMore SegmentGaps RoundedSVE RoundedCase RoundedComputeCase CoefFun ComputeRound ComputeRoundSymm BasisRound BasisRoundProps BasisRoundMore BasisRoundDouble WholeRoundExp WholeRound WholeRoundBasis WholeRoundNear.
Import ListNotations.
Open Scope R_scope.
Notation length := List.length.

(** Decompositions with a single value. *)
Definition unit_svd (alg : svd_alg) (A : matrix) (h : Z) : usv := ([[1]], [1], [[1; 0]]).
Lemma unit_svd_shape alg A h : usv_shaped (unit_svd alg A h).
Proof. unfold unit_svd, usv_shaped. cbn [length]. split; [auto|]. split; [auto|]. split; [discriminate|]. split; [repeat constructor|]. constructor; [lra|constructor]. Qed.
Lemma rnd_one : rnd64 1 = 1.
Proof. apply rnd64_id. replace 1 with (IZR 1 * Flocq.Core.Raux.bpow Flocq.Core.Zaux.radix2 0) by (cbn; lra). apply double_of; lia. Qed.

Lemma ones_of x l : Permutation x (map rnd64 (firstn 1 [1]) ++ map rnd64 (firstn 1 [1])) -> x = l -> x = [1; 1].
Proof.
  cbn [firstn map app]. rewrite rnd_one. intros H _. apply Permutation_sym, Permutation_length_2_inv in H. destruct H as [H|H]; exact H.
Qed.

Lemma eta_300 : eta64 * 10 ^ 300 <= / 2 ^ 53 /\ 0 <= eta64 /\ / 10 ^ 90 <= / 2 ^ 53 <= / 10000.
Proof.
  destruct (small_double 0 ltac:(lra)) as (_ & _ & E0 & E1). split; [exact E1|]. split; [exact E0|]. split; [|assert (P53 : 2 ^ 53 = 9007199254740992) by (cbn; lra); rewrite P53; lra].
  apply Rinv_le_contravar; [apply pow_lt; lra|]. apply Rle_trans with (10 ^ 53); [apply pow_incr; lra|apply Rle_pow; [lra|lia]].
Qed.

(** Segments of the kernel with cutoff 1. *)
Lemma case_fair T l : / 10 <= T <= 10 -> l = segments_x caseK \/ l = segments_y caseK -> forall g, gknots g = l -> gnseg g = (length l - 1)%nat ->
  fair_scale (/ 2 ^ 53) eta64 T g /\ forall sh, 0 <= sh <= 1 -> tolerated (/ 2 ^ 53) T sh g.
Proof.
  intros HT Hl g Hg Hn. destruct case_z as (z & Z1 & Z2 & Zy & _). rewrite case_full_x, Zy in Hl.
  assert (D : forall i, (i < gnseg g)%nat -> / 10 <= knot g (S i) - knot g i <= 2 /\ -1 <= knot g i <= 1 /\ -1 <= knot g (S i) <= 1).
  { intros i Hi. unfold knot. rewrite Hg. rewrite Hn in Hi. destruct Hl as [->| ->]; cbn [length Nat.sub] in Hi; destruct i as [|[|[|[|i]]]]; cbn [nth]; try lra; lia. }
  assert (P : / 10 ^ 290 <= / 100). { apply Rinv_le_contravar; [lra|]. apply Rle_trans with (10 ^ 2); [lra|]. apply Rle_pow; [lra|lia]. }
  assert (Q : 100 <= 10 ^ 290). { apply Rle_trans with (10 ^ 2); [lra|]. apply Rle_pow; [lra|lia]. }
  split.
  - apply fair_scale_double; [split; lra|]. intros i Hi. destruct (D i Hi) as (D1 & _). split; nra.
  - intros sh Hs i Hi. left. destruct (D i Hi) as (D1 & D2 & D3). unfold outer.
    assert (R : Rmax (Rabs (knot g i + sh)) (Rabs (knot g (S i) + sh)) <= 2) by (apply Rmax_lub; apply Rabs_le; lra).
    assert (R0 : 0 <= Rmax (Rabs (knot g i + sh)) (Rabs (knot g (S i) + sh))) by (eapply Rle_trans; [apply Rabs_pos|apply Rmax_l]).
    set (m := Rmax _ _) in *. assert (P53 : 2 ^ 53 = 9007199254740992) by (cbn; lra). rewrite P53. assert (P6 : 10 ^ 6 = 1000000) by (cbn; lra). rewrite P6. lra.
Qed.

Lemma nth_repeat_lt n l : (l < n)%nat -> nth l (repeat 1 n) 0 = 1.
Proof. revert l. induction n; intros [|l] H; cbn; try lia; auto. apply IHn. lia. Qed.

Lemma case_made c c' r n : expansion_near (/ 2 ^ 53) eta64 r -> gknots (vgeom (su r)) = segments_x caseK -> gknots (vgeom (sv r)) = segments_y caseK -> ss r = repeat 1 n -> (0 < n)%nat ->
  exists b b0, basis_init_rd rnd64 powerRZ c "F" 2 (/ 2) (Some (/ 10)) None None (Some r) = Ok b /\ built_rd (/ 2 ^ 53) eta64 rnd64 powerRZ c b /\ length (bs b) = n /\ exact_version c' b b0.
Proof.
  intros Ex Kx Ky Es Hn. destruct eta_300 as (E300 & E0 & U90). pose proof Ex as (Su & Sv & _).
  assert (E3 : 1000 * eta64 <= / 10 * 1).
  { assert (E1 : eta64 <= / 16384). { unfold eta64. apply Rle_trans with (Flocq.Core.Raux.bpow Flocq.Core.Zaux.radix2 (-14)); [apply Flocq.Core.Raux.bpow_le; lia|]. cbn. lra. } lra. }
  assert (Ng : gnseg (vgeom (su r)) = (length (segments_x caseK) - 1)%nat /\ gnseg (vgeom (sv r)) = (length (segments_y caseK) - 1)%nat).
  { destruct Su as ((_ & L1 & _) & _). destruct Sv as ((_ & L2 & _) & _). rewrite Kx in L1. rewrite Ky in L2. lia. }
  destruct (case_fair (2 / 2) _ ltac:(lra) (or_introl eq_refl) _ Kx (proj1 Ng)) as (Fu & Tu). destruct (case_fair (/ 2) _ ltac:(lra) (or_intror eq_refl) _ Ky (proj2 Ng)) as (Fv & Tv).
  assert (E12 : eta64 <= / 10 ^ 12). { unfold eta64. apply Rle_trans with (Flocq.Core.Raux.bpow Flocq.Core.Zaux.radix2 (-40)); [apply Flocq.Core.Raux.bpow_le; lia|]. change (Flocq.Core.Raux.bpow Flocq.Core.Zaux.radix2 (-40)) with (/ 1099511627776). apply Rinv_le_contravar; lra. }
  assert (Up : 0 < / 2 ^ 53 <= / 10000) by (split; [apply Rinv_0_lt_compat, pow_lt; lra|apply U90]).
  assert (En : forall l, (l < n)%nat -> nth l (ss r) 0 = 1) by (intros l Hl; rewrite Es; apply nth_repeat_lt, Hl).
  destruct (rd_succeeds (/ 2 ^ 53) eta64 rnd64 powerRZ c "F" 2 (/ 2) (/ 10) None r) as (b & H & Er & Eb & Ew & Est & Kl); auto; try lra.
  { apply rounding_double. } { apply Tu. lra. } { apply Tv. lra. }
  { rewrite En by exact Hn. clear - Up E3. revert Up E3. generalize (/ 2 ^ 53) eta64. intros. lra. }
  assert (Hb : built_rd (/ 2 ^ 53) eta64 rnd64 powerRZ c b). { do 7 eexists. split; [exact H|]. rewrite Er. split; [exact Ex|lra]. }
  destruct (version_exists _ _ _ _ _ c' b Hb) as (b0 & H0).
  exists b, b0. split; [exact H|]. split; [exact Hb|]. split; [|exact H0].
  destruct (rd_truncation (/ 2 ^ 53) eta64 rnd64 powerRZ c _ _ _ _ _ _ _ b rounding_double H) as (_ & _ & T); [rewrite Er; exact Ex|lra|auto|].
  rewrite Er in T. assert (Ls : length (ss r) = n) by (rewrite Es; apply repeat_length). destruct (rd_sizes _ _ _ _ _ b Hb) as (S & _). rewrite Er in S.
  destruct (Nat.eq_dec (length (bs b)) n) as [E|N]; [exact E|exfalso]. destruct (T (length (bs b)) ltac:(lia)) as [C|C]; [|discriminate]. rewrite !En in C by lia.
  clear - Up E3 C. revert Up E3 C. generalize (/ 2 ^ 53) eta64. intros. lra.
Qed.

Lemma case_cut rt cc s : rt = / 10 -> In 1 s -> (forall x, In x s -> x = 1) -> cutoff_of_rd rnd64 rt None s = Ok cc -> count_above cc [1] = 1%nat.
Proof.
  intros -> Hs Ha Hcc. destruct eta_300 as (E300 & E0 & U90).
  assert (Ec : cc = rnd64 (/ 10)).
  { unfold cutoff_of_rd in Hcc. injection Hcc as <-. f_equal. destruct (rsort_last s) as [L _]; [intros ->; exact Hs|]. rewrite (Ha _ L). ring. }
  assert (Hc1 : cc < 1).
  { rewrite Ec. destruct rounding_double as (Hd & _). specialize (Hd (/ 10)). rewrite (Rabs_pos_eq (/ 10)) in Hd by lra. apply Rabs_le_between in Hd.
    assert (E1 : eta64 <= / 1000). { unfold eta64. apply Rle_trans with (Flocq.Core.Raux.bpow Flocq.Core.Zaux.radix2 (-10)); [apply Flocq.Core.Raux.bpow_le; lia|]. cbn. lra. }
    clear - Hd E1 U90. destruct U90 as [_ U]. revert Hd. generalize (/ 2 ^ 53) eta64 (rnd64 (/ 10)) U E1. intros. lra. }
  unfold count_above. cbn [filter]. rewrite (proj2 (Rltb_true _ _) Hc1). reflexivity.
Qed.

Lemma case_fair_cutoff hx dd s0 : s0 = 1 -> fair_cutoff hx eta64 dd (Some (Fin (/ 10))) (Some Float64) s0.
Proof.
  intros ->. assert (E3 : 1000 * eta64 <= / 10 * 1).
  { assert (E1 : eta64 <= / 16384). { unfold eta64. apply Rle_trans with (Flocq.Core.Raux.bpow Flocq.Core.Zaux.radix2 (-14)); [apply Flocq.Core.Raux.bpow_le; lia|]. cbn. lra. } lra. }
  split; [intros x [= <-]; split; [lra|exact E3]|discriminate].
Qed.
Lemma round_basis hx hg dd old c c' : exists r b b0, case64_at (/ 10) hx hg dd old unit_svd None = Ok (Some r) /\
  basis_init_rd rnd64 powerRZ c "F" 2 (/ 2) (Some (/ 10)) None None (Some r) = Ok b /\
  used_kernel (rnd64 (2 * / 2)) None = caseK /\ built_rd (/ 2 ^ 53) eta64 rnd64 powerRZ c b /\ length (bs b) = 2%nat /\
  exact_version c' b b0 /\ nearly_orthonormal_functions (bu b0) (/ 10 ^ 6) /\ nearly_orthonormal_functions (bv b0) (/ 10 ^ 6).
Proof.
  assert (EK : used_kernel (rnd64 (2 * / 2)) None = caseK) by (cbn [used_kernel]; rewrite Rinv_r by lra; rewrite rnd_one; reflexivity).
  destruct (case64_some (/ 10) hx hg dd old unit_svd None ltac:(lra) unit_svd_shape) as (r & Hr).
  { intros alg M h. cbv zeta. repeat constructor. }
  destruct eta_300 as (E300 & E0 & U90).
  assert (Hl : 0 < k_lambda caseK <= 10 ^ 16) by (cbn [caseK k_lambda]; split; [lra|apply pow_R1_Rle; lra]).
  assert (Hsh : decompositions_shaped (fun _ => rnd64) (fun _ => tfun64) leg1 unit_svd caseK).
  { intros t n q' Hq. unfold leg1 in Hq. destruct (Nat.eqb_spec n 1); [|discriminate]. split; [lia|]. split; intros; apply unit_svd_shape. }
  pose proof Hr as Hr'. unfold case64_at in Hr'.
  destruct (symm_struct _ _ _ _ _ _ _ _ _ _ _ (/ 2 ^ 53) eta64 U90 E0 E300 rounding_double sort_indices_ok _ _ _ _ _ _ _ _ Hl Hsh _ Hr' ltac:(discriminate))
    as (t & rt & cc & Me & alge & he & Mo & algo & ho & Z). cbv zeta in Z. cbn [svals unit_svd fst snd app] in Z.
  destruct Z as (_ & Ert & _ & Hcc & Perm & _ & _ & _ & _ & Su & Sv & _ & _ & _ & Kx & Ky). injection Ert as <-.
  rewrite (case_cut (/ 10) cc [1; 1]) in Perm; [|reflexivity|left; reflexivity|intros x [<-|[<-|[]]]; reflexivity|exact Hcc].
  assert (Es : ss r = [1; 1]) by (eapply ones_of; [exact Perm|reflexivity]).
  assert (Ex : expansion_near (/ 2 ^ 53) eta64 r).
  { refine (expansion_symm _ _ _ _ _ _ _ _ _ _ _ (/ 2 ^ 53) eta64 U90 E0 E300 rounding_double rnd64_le (fun _ => rounding_double) sort_indices_ok _ _ _ _ _ _ _ _ Hl Hsh _ (case_fair_cutoff hx dd _ _) _ Hr' _); [rewrite Es; discriminate|rewrite Es; reflexivity|discriminate]. }
  destruct (case_made c c' r 2 Ex Kx Ky Es ltac:(lia)) as (b & b0 & H & Hb & Ln & H0).
  exists r, b, b0. do 6 (split; [assumption|]).
  rewrite <- EK in Hr'.
  destruct (whole_symm _ _ _ _ _ _ powerRZ _ _ _ _ _ sort_indices_ok "F" 2 (/ 2) (Some (/ 10)) None None c c' _ _ _ _ _ _ _ r b Hr' H (/ 2 ^ 53) eta64 Hb b0 H0 ltac:(rewrite EK; exact case_cutoff) ltac:(discriminate))
    as (t' & n & q' & Ke & Ko & Me' & Mo' & alge' & he' & algo' & ho' & H1 & H2 & H3 & H4 & H5 & H6 & HH).
  rewrite EK in *. specialize (H2 _ eq_refl). subst n. injection H1 as <-. destruct seen_half_x as (gx & HX & _). destruct seen_half_y as (gy & HY & _). destruct seen_x as (GX & FX & _). destruct seen_y as (GY & FY & _).
  assert (Lx : length (rx gx) = 1%nat) by (rewrite case_half_x, piecewise_unit in HX; injection HX as <-; reflexivity).
  assert (Ly : length (rx gy) = 2%nat).
  { destruct case_z as (z & Z1 & Z2 & _ & E). rewrite E in HY. destruct (any_rule [0; - z; 1]) as (G & HG & EG); [split; [cbn; lia|repeat constructor; lra]|]. rewrite HG in HY. injection HY as <-. rewrite EG. reflexivity. }
  assert (Mx : (length (half (segments_x caseK)) - 1 = 1)%nat) by (rewrite case_half_x; reflexivity).
  assert (My : (length (half (segments_y caseK)) - 1 = 2)%nat) by (destruct case_z as (z & _ & _ & _ & ->); reflexivity).
  assert (Nr : forall alg M h, exists d, near_svd 1 2 M (unit_svd alg M h) d).
  { intros alg M h. eexists. split; [apply sqrt_pos|]. split; [|split; [apply shape_ordered, unit_svd_shape|]].
    - cbn [unit_svd orthonormal_usv]. do 4 (split; [repeat constructor|]). split; intros l m Hl' Hm; cbn in Hl', Hm; assert (l = 0%nat) as -> by lia; assert (m = 0%nat) as -> by lia; cbn; unfold SCompute.dot, rsum; cbn; lra.
    - rewrite Rsqr_sqrt; [apply Rle_refl|]. cbn [sumn]. pose proof (Rle_0_sqr (ment M 0 0 - usv_entry (unit_svd alg M h) 0 0)). pose proof (Rle_0_sqr (ment M 0 1 - usv_entry (unit_svd alg M h) 0 1)). lra. }
  destruct (Nr alge' Me' he') as (de & Ne). destruct (Nr algo' Mo' ho') as (d_o & No).
  specialize (HH (/ 2 ^ 53) eta64 (/ 2 ^ 53) gauss1 0 0 0 2 (2 * INR 1 * / 2 ^ 53) (4 * INR 1 * eta64) gx gy GX GY casef casek 0 0 de 0 0 d_o
    case_arithmetic case_reference rounding_double rnd64_le dots64 ltac:(apply (defect64 1 1); lia) casef_ok casek_value HX HY FX FY).
  rewrite Lx, Ly in HH.
  specialize (HH ltac:(apply near_computed; [exact Ne|cbn; lia|cbn; lia]) ltac:(apply near_computed; [exact No|cbn; lia|cbn; lia])).
  cbv beta zeta in HH. rewrite Mx, My in HH. unfold functions_defect in HH. cbn [unit_svd svals fst snd length] in HH.
  destruct (defect64 1 1 ltac:(lia) ltac:(lia)) as (A1 & _). destruct (defect64 1 2 ltac:(lia) ltac:(lia)) as (A2 & _). cbv zeta in A1, A2.
  set (v1 := vectors_error 1 1 1 _ _) in *. set (v2 := vectors_error 1 1 2 _ _) in *. clearbody v1 v2. assert (T : / 10 ^ 7 <= / 10 ^ 6 / 10) by lra. assert (T1 : / 10 ^ 6 <= 1) by lra.
  destruct HH as (_ & U & V); try lra. split; [apply (orthonormal_le _ _ _ U)|apply (orthonormal_le _ _ _ V)]; rewrite Rmax_left; lra.
Qed.

(** Without symmetrisation. *)
Definition level_svd (alg : svd_alg) (A : matrix) (h : Z) : usv := ([[sqrt (/ 2); sqrt (/ 2)]], [1], [[1; 0; 0; 0]]).
Lemma level_svd_shape alg A h : usv_shaped (level_svd alg A h).
Proof. unfold level_svd, usv_shaped. cbn [length]. split; [auto|]. split; [auto|]. split; [discriminate|]. split; [repeat constructor|]. constructor; [lra|constructor]. Qed.

Lemma round_basis_sample hx hg dd old c c' : exists r b b0, case64_at (/ 10) hx hg dd old level_svd (Some SampleStrat) = Ok (Some r) /\
  basis_init_rd rnd64 powerRZ c "F" 2 (/ 2) (Some (/ 10)) None None (Some r) = Ok b /\
  used_kernel (rnd64 (2 * / 2)) None = caseK /\ built_rd (/ 2 ^ 53) eta64 rnd64 powerRZ c b /\ length (bs b) = 1%nat /\
  exact_version c' b b0 /\ nearly_orthonormal_functions (bu b0) (/ 10 ^ 6) /\ nearly_orthonormal_functions (bv b0) (/ 10 ^ 6).
Proof.
  assert (EK : used_kernel (rnd64 (2 * / 2)) None = caseK) by (cbn [used_kernel]; rewrite Rinv_r by lra; rewrite rnd_one; reflexivity).
  destruct half_root as (Q1 & Q2).
  destruct (case64_some (/ 10) hx hg dd old level_svd (Some SampleStrat) ltac:(lra) level_svd_shape) as (r & Hr).
  { intros alg M h. cbv zeta. cbn [level_svd fst]. repeat constructor. cbn [nth]. apply Rabs_pos_eq. lra. }
  destruct eta_300 as (E300 & E0 & U90).
  assert (Hl : 0 < k_lambda caseK <= 10 ^ 16) by (cbn [caseK k_lambda]; split; [lra|apply pow_R1_Rle; lra]).
  assert (Hsh : decompositions_shaped (fun _ => rnd64) (fun _ => tfun64) leg1 level_svd caseK).
  { intros t n q' Hq. unfold leg1 in Hq. destruct (Nat.eqb_spec n 1); [|discriminate]. split; [lia|]. split; intros; apply level_svd_shape. }
  pose proof Hr as Hr'. unfold case64_at in Hr'.
  destruct (sample_struct _ _ _ _ _ _ _ _ _ _ _ (/ 2 ^ 53) eta64 U90 E0 E300 rounding_double _ _ _ _ _ _ _ _ Hl Hsh Hr') as (t & rt & cc & M & alg & h & Z). cbv zeta in Z. cbn [svals level_svd fst snd] in Z.
  destruct Z as (_ & Ert & _ & Hcc & Es & _ & _ & Su & Sv & _ & _ & Kx & Ky). injection Ert as <-.
  rewrite (case_cut (/ 10) cc [1]) in Es; [|reflexivity|left; reflexivity|intros x [<-|[]]; reflexivity|exact Hcc]. cbn [firstn map] in Es. rewrite rnd_one in Es.
  assert (Ex : expansion_near (/ 2 ^ 53) eta64 r).
  { refine (expansion_sample _ _ _ _ _ _ _ _ _ _ _ (/ 2 ^ 53) eta64 U90 E0 E300 rounding_double rnd64_le (fun _ => rounding_double) _ _ _ _ _ _ _ _ Hl Hsh _ (case_fair_cutoff hx dd _ _) Hr'); rewrite Es; [discriminate|reflexivity]. }
  destruct (case_made c c' r 1 Ex Kx Ky Es ltac:(lia)) as (b & b0 & H & Hb & Ln & H0).
  exists r, b, b0. do 6 (split; [assumption|]). rewrite <- EK in Hr'.
  destruct (whole_sample _ _ _ _ _ _ powerRZ _ _ _ _ _ "F" 2 (/ 2) (Some (/ 10)) None None c c' _ _ _ _ _ _ _ r b Hr' H (/ 2 ^ 53) eta64 Hb b0 H0 ltac:(rewrite EK; exact case_cutoff) eq_refl)
    as (t' & n & q' & M' & alg' & h' & H1 & H2 & H3 & HH).
  rewrite EK in *. specialize (H2 _ eq_refl). subst n. injection H1 as <-. destruct seen_x as (GX & FX & _). destruct seen_y as (GY & FY & _).
  assert (Lx : length (rx GX) = 2%nat) by (rewrite case_full_x, piecewise_full in FX; injection FX as <-; reflexivity).
  assert (Ly : length (rx GY) = 4%nat).
  { destruct case_z as (z & Z1 & Z2 & E & _). rewrite E in FY. destruct (any_rule [-1; z; 0; - z; 1]) as (G & HG & EG); [split; [cbn; lia|repeat constructor; lra]|]. rewrite HG in FY. injection FY as <-. rewrite EG. reflexivity. }
  assert (Mx : (length (segments_x caseK) - 1 = 2)%nat) by (rewrite case_full_x; reflexivity).
  assert (My : (length (segments_y caseK) - 1 = 4)%nat) by (destruct case_z as (z & _ & _ & -> & _); reflexivity).
  assert (Nr : exists d, near_svd 2 4 M' (level_svd alg' M' h') d).
  { eexists. split; [apply sqrt_pos|]. split; [|split; [apply shape_ordered, level_svd_shape|]].
    - cbn [level_svd orthonormal_usv]. do 4 (split; [repeat constructor|]). split; intros l m Hl' Hm; cbn in Hl', Hm; assert (l = 0%nat) as -> by lia; assert (m = 0%nat) as -> by lia; cbn; unfold SCompute.dot, rsum; cbn; lra.
    - rewrite Rsqr_sqrt; [apply Rle_refl|]. cbn [sumn]. repeat (apply Rplus_le_le_0_compat; [|apply Rle_0_sqr || (repeat (apply Rplus_le_le_0_compat; [|apply Rle_0_sqr]); lra)]); lra. }
  destruct Nr as (d & Nd).
  specialize (HH (/ 2 ^ 53) eta64 (/ 2 ^ 53) gauss1 0 0 0 2 (2 * INR 1 * / 2 ^ 53) (4 * INR 1 * eta64) GX GY casef casek 0 0 d
    case_arithmetic case_reference rounding_double rnd64_le (dots64 true) ltac:(apply (defect64 1 1); lia) casef_ok casek_value FX FY).
  rewrite Lx, Ly in HH. specialize (HH ltac:(apply near_computed; [exact Nd|cbn; lia|cbn; lia])).
  cbv beta zeta in HH. rewrite Mx, My in HH. cbn [level_svd svals fst snd length] in HH.
  destruct (defect64 1 2 ltac:(lia) ltac:(lia)) as (_ & A1 & _). destruct (defect64 1 4 ltac:(lia) ltac:(lia)) as (_ & A2 & _). cbv zeta in A1, A2.
  set (v1 := vectors_error 1 1 2 _ _) in *. set (v2 := vectors_error 1 1 4 _ _) in *. clearbody v1 v2. assert (T : / 10 ^ 7 <= / 10 ^ 6 / 10) by lra. assert (T1 : / 10 ^ 6 <= 1) by lra.
  destruct HH as (_ & U & V); try lra. split; [apply (orthonormal_le _ _ _ U)|apply (orthonormal_le _ _ _ V)]; lra.
Qed.
