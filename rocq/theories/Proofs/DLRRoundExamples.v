(** Examples for the DLR in rounded arithmetic. *)
From Coq Require Import String ZArith Arith Bool Reals Lia Lra Psatz.
From Flocq Require Import Core Relative.
From Coquelicot Require Import Coquelicot.
From Coq Require Import List.
From Verif.Model Require Import Base Util Num Poly FT SVE Basis BasisIEEE Kernel KernelIEEE PolyIEEE NDArray Sampling SamplingIEEE DLR DLRIEEE IEEE.
From Verif.Spec Require Import SPoly SGauss SKernel SKernelIEEE SGaussIEEE SPolyIEEE SSVEIEEE SBasisIEEE SSampling SSamplingIEEE SDLR SDLRIEEE.
From Verif.Proofs Require Import BaseFacts SumFacts LegFacts PPolyFacts FTFacts IEEEFacts KernelFacts KernelRound KernelRoundCall PolyRound BasisRoundPiece BasisRoundGeom BasisRound BasisRoundProps BasisRoundMore BasisRoundDouble
  LstsqFacts PPolyExamples SVEPolicy NDFacts SamplingFacts SamplingProps SamplingExamples SamplingRoundExamples DLRFacts DLRClaims DLRRound DLRRoundProps.
Import ListNotations.
Open Scope R_scope.
Notation length := List.length.

Lemma pi_double : Rabs (rnd64 PI - PI) <= / 2 ^ 53 * PI.
Proof.
  pose proof PI_RGT_0 as P. pose proof PI2_1 as P1.
  assert (B : bpow radix2 (-1074 + 53 - 1) <= Rabs PI). { rewrite Rabs_pos_eq by lra. apply Rle_trans with (bpow radix2 0); [apply bpow_le; lia|]. cbn. lra. }
  pose proof (relative_error_N_FLT radix2 (-1074) 53 ltac:(lia) (fun x => negb (Z.even x)) PI B) as H.
  unfold rnd64, fexp64. eapply Rle_trans; [exact H|]. rewrite (Rabs_pos_eq PI) by lra. apply Rmult_le_compat_r; [lra|]. right.
  change (- (53) + 1)%Z with (- (52))%Z. rewrite RescaleIEEE.bp by lia. change (Z.to_nat 52) with 52%nat. rewrite <- Rinv_mult. f_equal.
Qed.

Lemma eta_tiny : 0 <= eta64 /\ 10 ^ 10 * eta64 <= / 2 ^ 53.
Proof.
  pose proof eta_small as H. destruct (small_double 0 ltac:(lra)) as (_ & _ & E0 & _). split; [exact E0|].
  eapply Rle_trans; [|exact H]. apply Rmult_le_compat_r; [exact E0|]. apply Rle_pow; [lra|lia].
Qed.

(** Poles at -1, 0 and 3 at beta = 2. *)
Lemma time_example : keeps_interval rnd64 2 /\ small_errors (/ 2 ^ 53) eta64 (/ 2 ^ 53) /\ tfun_near (/ 2 ^ 53) eta64 tfun64 /\
  exists tp, taupoles_init "F"%string 2 [-1; 0; 3] = Ok tp /\
  (exists w, In w [-1; 0; 3] /\ w <> 0 /\ 2000 * eta64 <= / 2 ^ 53 * (2 * Rabs w)) /\ 2000 * eta64 <= / 2 ^ 53 * 2 /\
  Forall (fun w => 2 * Rabs w <= 10 ^ 89) [-1; 0; 3] /\ Forall (fun t => 0 <= t <= 2) [0; / 2; 2].
Proof.
  destruct eta_tiny as [E0 E1]. assert (P10 : 10 ^ 10 = 10000000000) by (cbn; lra). rewrite P10 in E1.
  assert (A1 : Rabs (-1) = 1) by (rewrite Rabs_left; lra).
  split; [apply keeps_double, (double_small 2); lia|]. split; [apply small_double; assert (P53 : 2 ^ 53 = 9007199254740992) by (cbn; lra); rewrite P53; lra|]. split; [exact tfun64_near|].
  destruct (proj2 (taupoles_accepts "F"%string 2 [-1; 0; 3]) ltac:(discriminate)) as [tp Htp].
  exists tp. split; [exact Htp|]. set (u := / 2 ^ 53) in *. clearbody u. split; [exists (-1); rewrite A1; split; [now left|split; lra]|]. split; [lra|]. split; [|repeat constructor; lra].
  assert (B : 100 <= 10 ^ 89) by (apply Rle_trans with (10 ^ 2); [lra|apply Rle_pow; [lra|lia]]).
  repeat constructor; [rewrite A1|rewrite Rabs_R0|rewrite Rabs_pos_eq]; lra.
Qed.

Lemma frequency_example : Rabs (rnd64 PI - PI) <= / 2 ^ 53 * PI /\ tanh_near (/ 2 ^ 53) eta64 (fun x => rnd64 (tanh x)) /\
  fair_pole (/ 2 ^ 53) eta64 2 3 4 /\ fair_pole (/ 2 ^ 53) eta64 2 3 0 /\
  (exists M, matspoles_call_rd rnd64 (fun x => rnd64 (tanh x)) (rnd64 PI) (MatsPoles "B"%string 2 [0; 3]) (map IZR [4; 0]%Z) = Ok M) /\
  nth_error [0; 3] 1 = Some 3 /\ nth_error [4; 0]%Z 0 = Some 4%Z /\ Z.even 4 = negb false.
Proof.
  destruct eta_tiny as [E0 E1]. assert (P10 : 10 ^ 10 = 10000000000) by (cbn; lra). rewrite P10 in E1.
  split; [exact pi_double|]. split; [intros x; exact (proj1 rounding_double (tanh x))|].
  assert (F : forall n, fair_pole (/ 2 ^ 53) eta64 2 3 n).
  { intros n. assert (D : 3 <= pole_distance 2 3 n).
    { unfold pole_distance. eapply Rle_trans; [|eapply Rle_trans; [apply Rmax_l|apply Rmax_Cmod]]. unfold Cminus, Cplus, Copp, RtoC. cbn [Re fst snd]. rewrite Rplus_0_l, Rabs_Ropp, Rabs_pos_eq; lra. }
    set (u := / 2 ^ 53) in *. assert (Pu : 0 < u) by (apply Rinv_0_lt_compat, pow_lt; lra). clearbody u.
    assert (u * 3 <= u * pole_distance 2 3 n) by (apply Rmult_le_compat_l; lra). repeat split; lra. }
  split; [apply F|]. split; [apply F|]. split; [eexists; reflexivity|]. repeat split.
Qed.

(** A basis of two functions in doubles, with beta = 2 and wmax = 1, and a pole at 1. *)
Lemma basis_example compute : exists b, built_rd (/ 2 ^ 53) eta64 rnd64 powerRZ compute b /\ length (bs b) = 2%nat /\ length (vcols (bv b)) = 2%nat /\ bbeta b = 2 /\ bwmax b = 1 /\ bstat b = "F"%string /\
  gxmin (vgeom (bv b)) = -1 /\ gxmax (vgeom (bv b)) = 1 /\ / 2 <= nth 0 (bs b) 0 <= 2 /\
  (0 < glen (vgeom (bv b)))%nat /\
  forall old, exists ys y0, vcall_rd old rnd64 (bv b) 1 = Ok ys /\ nth_error ys 0 = Some y0 /\ / 2 <= y0 <= 2.
Proof.
  destruct (small_double 0 ltac:(lra)) as (_ & _ & E0 & _). destruct eta_tiny as [_ E1].
  assert (P53 : 2 ^ 53 = 9007199254740992) by (cbn; lra). assert (P10 : 10 ^ 10 = 10000000000) by (cbn; lra).
  assert (U : 0 < / 2 ^ 53 <= / 10000) by (rewrite P53; lra). assert (U10 : 0 <= / 2 ^ 53 <= / 10 ^ 10) by (rewrite P53, P10; lra).
  assert (E12 : eta64 <= / 10 ^ 12). { rewrite P10, P53 in E1. assert (P : 10 ^ 12 = 1000000000000) by (cbn; lra). rewrite P. lra. }
  assert (F1 : fair_scale (/ 2 ^ 53) eta64 (2 / 2) unit_geom) by (apply unit_fair; lra). assert (F3 : fair_scale (/ 2 ^ 53) eta64 1 unit_geom) by (apply unit_fair; lra).
  destruct (rd_succeeds (/ 2 ^ 53) eta64 rnd64 powerRZ compute "F"%string 2 1 (/ 10) None (ex_sve (/ 10))) as (b & H & Er & Eb & Ew & Es & Kl); auto; try lra.
  { apply rounding_double. } { apply ex_near. } { apply unit_tolerated; [exact U10|lra]. } { apply unit_tolerated; [exact U10|lra]. } { cbn [ex_sve ss nth]. assert (P : 10 ^ 12 = 1000000000000) by (cbn; lra). rewrite P in E12. lra. }
  assert (Hb : built_rd (/ 2 ^ 53) eta64 rnd64 powerRZ compute b). { exists "F"%string, 2, 1, (Some (/ 10)), None, None, (Some (ex_sve (/ 10))). split; [exact H|]. rewrite Er. split; [apply ex_near|lra]. }
  exists b. split; [exact Hb|].
  assert (Ln : length (bs b) = 2%nat).
  { destruct (rd_truncation (/ 2 ^ 53) eta64 rnd64 powerRZ compute _ _ _ _ _ _ _ b rounding_double H) as (_ & _ & T); [rewrite Er; apply ex_near|lra|auto|].
    rewrite Er in T. cbn [ex_sve ss length] in T. destruct (rd_sizes _ _ _ _ _ b Hb) as (S & _). rewrite Er in S. cbn [ex_sve ss length] in S.
    destruct (Nat.eq_dec (length (bs b)) 2) as [E|N]; [exact E|exfalso]. destruct (T 1%nat ltac:(lia)) as [C|C]; [|discriminate]. cbn [nth] in C. rewrite P53 in *. assert (P : 10 ^ 12 = 1000000000000) by (cbn; lra). rewrite P in E12. lra. }
  destruct (rd_sizes _ _ _ _ _ b Hb) as (_ & _ & Lv & _).
  split; [exact Ln|]. split; [congruence|]. split; [exact Eb|]. split; [exact Ew|]. split; [exact Es|].
  destruct (double_ends powerRZ compute b Hb) as (_ & _ & G1 & G2).
  { rewrite Eb. apply (double_small 2); lia. } { rewrite Ew. apply (double_small 1); lia. }
  { rewrite Eb. change 2 with (bpow radix2 1). apply bpow_le. lia. }
  rewrite Ew in G1, G2. split; [lra|]. split; [exact G2|]. rewrite P10 in E1.
  split.
  { pose proof (rd_singular (/ 2 ^ 53) eta64 rnd64 rounding_double U E0 powerRZ compute b Hb 0 0%nat) as Q. cbv zeta in Q. rewrite Eb, Ew, Er in Q. cbn [ex_sve ss nth] in Q.
    replace (2 / 2 * 1) with 1 in Q by field. rewrite sqrt_1 in Q. assert (PZ : forall z, powerRZ 1 z = 1) by (intros [|p|p]; cbn; rewrite ?pow1; field). rewrite PZ in Q.
    assert (P1 : 1000 * eta64 <= / 2 ^ 53 * 1) by lra.
    assert (Q' : Rabs (nth 0 (bs b) 0 - 1 * 1 * 1) <= (6 * / 2 ^ 53 + 0) * (1 * 1 * 1) + eta64).
    { apply Q; try lra; [|lia]. intros w z _. replace (powerRZ w z - powerRZ w z) with 0 by ring. rewrite Rabs_R0. lra. }
    apply Rabs_le_between in Q'. rewrite P53 in *. lra. }
  split. { destruct (built_rd_inv _ _ _ _ _ b Hb) as (q & e & ms & lam & f & _ & _ & _ & _ & _ & _ & _ & _ & Ev & _). rewrite Ev, Er. cbn. lia. }
  intros old. destruct (proj2 (rd_covers _ _ _ _ _ b Hb) 1) as [i Hi]; [rewrite G1, G2; lra|].
  assert (i = 0%nat). { destruct (built_rd_inv _ _ _ _ _ b Hb) as (q & e & ms & lam & f & _ & _ & _ & _ & _ & _ & _ & _ & Ev & _). rewrite Ev, Er in Hi. destruct Hi as (Hi & _). cbn in Hi. lia. } subst i.
  assert (O1 : outer 0 unit_geom 0 = 1). { unfold outer, knot. cbn [unit_geom gknots nth]. rewrite !Rplus_0_r. rewrite (Rabs_left (-1)), (Rabs_pos_eq 1) by lra. rewrite Rmax_left; lra. }
  assert (SL : 0 <= shifted_loss 0 unit_geom 0 <= 23760). { unfold shifted_loss. rewrite O1. unfold knot. cbn [unit_geom gknots nth glen]. cbn [INR]. lra. }
  destruct (rd_v_val (/ 2 ^ 53) eta64 rnd64 rounding_double U E0 powerRZ compute b Hb old 0 1) as (x & ys & A & Bx & C & D & F).
  { rewrite Ew, Er. exact F3. } { exact Hi. } { rewrite Er. change (vgeom (sv (ex_sve (/ 10)))) with unit_geom. rewrite P53. lra. }
  rewrite Ln in D. rewrite Er, Ew in *. change (vgeom (sv (ex_sve (/ 10)))) with unit_geom in *.
  destruct ys as [|y0 ys']; [discriminate|]. exists (y0 :: ys'), y0. split; [exact C|]. split; [reflexivity|].
  specialize (F 0%nat square_col y0 eq_refl eq_refl).
  assert (X : -1 <= x <= 1) by exact Bx. assert (V : seg_fun unit_geom square_col 0 x = x ^ 2). { rewrite <- square_value by exact X. symmetry. apply (cval_seg unit_geom unit_geom_ok square_col 0); [cbn; lia|unfold knot; cbn [unit_geom gknots nth]; lra|unfold knot, gxmax; simpl; destruct (Rlt_dec x 1); [auto|right; split; [auto|lra]]]. }
  rewrite V, sqrt_1, Rinv_1, Rmult_1_l in F.
  assert (Fe : moved_error (/ 2 ^ 53) eta64 1 0 unit_geom square_col 0 <= / 1000).
  { unfold moved_error. set (L := shifted_loss 0 unit_geom 0) in *. clearbody L. unfold knot. cbn [unit_geom gknots nth glen sumn square_col cdat]. replace (2 / (1 * (1 - -1))) with 1 by field. rewrite sqrt_1.
    rewrite (Rabs_pos_eq (1 / 3)), (Rabs_pos_eq (2 / 3)), Rabs_R0 by lra.
    assert (PE : eta64 / / 2 ^ 53 <= 1). { unfold Rdiv. rewrite Rinv_inv, P53. rewrite P53 in E1. lra. }
    assert (PE0 : 0 <= eta64 / / 2 ^ 53) by (apply Rmult_le_pos; [exact E0|]; rewrite Rinv_inv, P53; lra).
    revert PE PE0 E1 E0. rewrite P53. generalize (eta64 / / 9007199254740992) eta64. intros a b0 PE PE0 E1 E0. nra. }
  rewrite O1 in A. replace (1 / 1) with 1 in A by field. apply Rabs_le_between in A. apply Rabs_le_between in F.
  assert (Xb : 99 / 100 <= x <= 101 / 100) by (rewrite P53 in A; lra). assert (9 / 10 <= x ^ 2 <= 11 / 10) by nra. lra.
Qed.

Lemma transfer_example : exists b d lo, built_rd (/ 2 ^ 53) eta64 rnd64 powerRZ no_compute b /\ dlr_init_rd false rnd64 col_svd b true [1] = Ok d /\
  length (bs b) = 2%nat /\ length (vcols (bv b)) = 2%nat /\ (exists y, value_rd false rnd64 (bv b) 0 1 = Ok y) /\
  let F := d_a (dl_matrix d) in
  arith_near 2 (6 * INR 2 * / 2 ^ 53) (12 * INR 2 * 0) (9 * / 2 ^ 53) (2 * (0 / lo + 0)) lo lo (some_arith scaled) /\
  decomposes F (col_svd F) 0 0 0 lo lo /\ small_fit 1 (6 * INR 2 * / 2 ^ 53) (9 * / 2 ^ 53) 0 0.
Proof.
  destruct (basis_example no_compute) as (b & Hb & Ls & Lv & Eb & Ew & Es & G1 & G2 & S0 & Gl & HV). destruct (HV false) as (ys & y0 & Hy & Hy0 & Ry).
  assert (EV : exists V, vcall_arr_rd false rnd64 (bv b) [1] = Ok V /\ nth_error V 0 = Some [y0]).
  { unfold vcall_rd in Hy. destruct (split_rd rnd64 (bv b).(vgeom) 1) as [ix|] eqn:Sx; [|discriminate]. cbn [bind] in Hy. unfold vcall_arr_rd. cbn [forallb map collect].
    assert (I : in_range (vgeom (bv b)) 1 = true). { unfold split_rd in Sx. destruct (in_range (vgeom (bv b)) 1); [reflexivity|discriminate]. }
    rewrite I, Sx. cbn [andb negb bind collect]. destruct (glen (vgeom (bv b))); [lia|]. eexists. split; [reflexivity|].
    injection Hy as <-. rewrite nth_error_map in Hy0 |- *. destruct (nth_error (vcols (bv b)) 0); [|discriminate]. cbn in Hy0 |- *. injection Hy0 as <-. reflexivity. }
  destruct EV as (V & EV & EV0). set (F := dlr_matrix_rd rnd64 b 1 V).
  assert (Hd : exists d, dlr_init_rd false rnd64 col_svd b true [1] = Ok d).
  { unfold dlr_init_rd, taupoles_init. cbn [negb map rmax_list bind]. rewrite EV. cbn [bind length]. fold F. unfold decomposed.
    assert (E : check_svd_result [mr (r_u (col_svd F)); mc (r_u (col_svd F))] [length (r_s (col_svd F))] [mr (r_vh (col_svd F)); mc (r_vh (col_svd F))] (Some (mr F, mc F)) = Ok (mr F, 1%nat, 1%nat)).
    { unfold check_svd_result. cbn [col_svd r_u r_s r_vh mr mc length F dlr_matrix_rd]. rewrite !Nat.eqb_refl. reflexivity. }
    rewrite E. cbn [bind]. eexists. reflexivity. }
  destruct Hd as [d Hd]. destruct (dlr_rd_inv _ _ _ _ _ _ _ Hd) as (V' & EV' & _ & _ & EM & _). assert (V' = V) as -> by congruence.
  change (dlr_matrix_rd rnd64 b (length [1]) V) with F in EM.
  assert (NZ : nonzero F).
  { exists 0%nat, 0%nat. split; [unfold F; cbn [dlr_matrix_rd mr]; lia|]. split; [cbn; lia|]. unfold F. cbn [dlr_matrix_rd me]. rewrite (nth_error_nth _ _ _ EV0). cbn [nth]. apply RtoC_nz.
    destruct eta_tiny as [E0 E1]. assert (P10 : 10 ^ 10 = 10000000000) by (cbn; lra). assert (P53 : 2 ^ 53 = 9007199254740992) by (cbn; lra). rewrite P10, P53 in E1.
    pose proof (proj1 rounding_double (- nth 0 (bs b) 0 * y0)) as R. rewrite P53 in R. set (s := nth 0 (bs b) 0) in *.
    assert (Q : / 4 <= s * y0) by nra. rewrite (Rabs_left (- s * y0)) in R by lra. apply Rabs_le_between in R. lra. }
  assert (Ec : mc F = 1%nat) by reflexivity. pose proof (col_norm_pos F Ec NZ) as P.
  exists b, d, (col_norm F). split; [exact Hb|]. split; [exact Hd|]. split; [exact Ls|]. split; [exact Lv|].
  split. { exists y0. apply value_entry. exists ys. split; [exact Hy|]. destruct ys as [|z ys]; [discriminate|]. exact Hy0. }
  rewrite EM. cbn [of_core d_a]. cbv zeta. split; [apply scaled_near; lra|]. split.
  - apply svd_decomposes; [apply col_svd_ok; assumption|apply col_rank; assumption|reflexivity|lra|]. rewrite Ec. intros k Hk. assert (k = 0%nat) as -> by lia. cbn. lra.
  - apply scaled_small.
Qed.
