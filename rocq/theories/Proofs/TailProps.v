(** The high-frequency model in rounded arithmetic. *)
From Coq Require Import Reals ZArith Arith Bool Lra Lia Psatz.
From Coquelicot Require Import Coquelicot.
From Coq Require Import List.
From Verif.Model Require Import Base Num Poly FT PolyIEEE FTIEEE DefaultsIEEE TailIEEE.
From Verif.Spec Require Import SPoly SFT SKernelIEEE SPolyIEEE SFTIEEE SSVEIEEE STailIEEE.
From Verif.Proofs Require Import BaseFacts SumFacts LegFacts FTFacts FTModel FTCall FTProps PolyRound FTRound FTRoundProps TailGiw TailCoef.
Import ListNotations.
Open Scope R_scope.

(** * One moment *)
Section Moment.
Context (u eta : R) (rd : R -> R) (Hrd : rounding u eta rd) (Hu : 0 < u <= / 10000) (He : 0 <= eta) (Hs : 1000 * eta <= u).

Lemma sqrt2_le : 1414 / 1000 <= sqrt 2 <= 1415 / 1000.
Proof.
  split.
  - rewrite <- (sqrt_Rsqr (1414 / 1000)) by lra. apply sqrt_le_1; unfold Rsqr; lra.
  - rewrite <- (sqrt_Rsqr (1415 / 1000)) by lra. apply sqrt_le_1; unfold Rsqr; lra.
Qed.

Lemma factor_near s : s = 1 \/ s = -1 -> Rabs (rd (- s / rd (sqrt 2)) - - s / sqrt 2) <= 22 / 10 * u * (708 / 1000) /\ Rabs (- s / sqrt 2) <= 708 / 1000.
Proof.
  intros Hss. pose proof sqrt2_le as (S1 & S2).
  destruct (rel u eta rd Hrd Hu He (sqrt 2)) as (d & D & ->). { rewrite Rabs_pos_eq by lra. nra. }
  apply Rabs_le_between in D. set (r := sqrt 2) in *.
  assert (As : Rabs (- s) = 1) by (destruct Hss as [-> | ->]; [rewrite Rabs_Ropp; apply Rabs_R1|replace (- -1) with 1 by ring; apply Rabs_R1]).
  assert (K : Rabs (- s / r) <= 708 / 1000). { unfold Rdiv. rewrite Rabs_mult, As, Rmult_1_l, Rabs_inv, (Rabs_pos_eq r) by lra. apply Rle_trans with (/ (1414 / 1000)); [apply Rinv_le_contravar; lra|lra]. }
  assert (K2 : 7 / 10 <= Rabs (- s / r)). { unfold Rdiv. rewrite Rabs_mult, As, Rmult_1_l, Rabs_inv, (Rabs_pos_eq r) by lra. apply Rle_trans with (/ (1415 / 1000)); [lra|apply Rinv_le_contravar; lra]. }
  split; [|exact K].
  replace (- s / (r * (1 + d))) with (- s / r * / (1 + d)) by (field; lra). set (k := - s / r) in *.
  assert (I1 : Rabs (/ (1 + d) - 1) <= 102 / 100 * u). { replace (/ (1 + d) - 1) with (- d * / (1 + d)) by (field; lra). rewrite Rabs_mult, Rabs_Ropp, Rabs_inv, (Rabs_pos_eq (1 + d)) by lra. apply Rmult_le_reg_r with (1 + d); [lra|]. rewrite Rmult_assoc, Rinv_l, Rmult_1_r by lra. apply Rle_trans with (101 / 100 * u); [apply Rabs_le; lra|nra]. }
  apply Rabs_le_between in I1. set (v := / (1 + d)) in *.
  destruct (rel u eta rd Hrd Hu He (k * v)) as (d' & D' & ->). { rewrite Rabs_mult, (Rabs_pos_eq v) by lra. assert (7 / 10 * (1 / 2) <= Rabs k * v) by (apply Rmult_le_compat; lra). nra. }
  replace (k * v * (1 + d') - k) with (k * ((v - 1) + d' + (v - 1) * d')) by ring. rewrite Rabs_mult, Rmult_comm. apply Rmult_le_compat; try apply Rabs_pos; [|exact K].
  eapply Rle_trans; [apply Rabs_triang|]. rewrite Rabs_mult. assert (Rabs (v - 1) <= 102 / 100 * u) by (apply Rabs_le; lra).
  assert (Rabs (v - 1) * Rabs d' <= 102 / 100 * u * (101 / 100 * u)) by (apply Rmult_le_compat; try apply Rabs_pos; assumption). pose proof (Rabs_triang (v - 1) d'). nra.
Qed.

Lemma sign_pow m : (-1) ^ m = 1 \/ (-1) ^ m = -1.
Proof. induction m as [|m [IH|IH]]; cbn [pow]; [left; reflexivity|right; rewrite IH; ring|left; rewrite IH; ring]. Qed.

Lemma moment_near s m l y d V D : s = 1 \/ s = -1 -> Rabs (y - d) <= V -> Rabs d <= D ->
  Rabs (power_moment_rd rd s m l y - power_moment s m l d) <= 3 / 2 * V + 10 * u * (D + V) + 4 * eta.
Proof.
  intros Hss HV HD. unfold power_moment_rd, power_moment. destruct (factor_near s Hss) as (F1 & F2).
  set (k' := rd (- s / rd (sqrt 2))) in *. set (k := - s / sqrt 2) in *. set (f := (-1) ^ (m + 1) + s * (-1) ^ l).
  assert (Hf : Rabs f <= 2). { unfold f. apply Rabs_le. destruct (sign_pow (m + 1)) as [-> | ->], (sign_pow l) as [-> | ->], Hss as [-> | ->]; lra. }
  destruct Hrd as (R1 & _).
  assert (V0 : 0 <= V) by (eapply Rle_trans; [apply Rabs_pos|exact HV]). assert (D0 : 0 <= D) by (eapply Rle_trans; [apply Rabs_pos|exact HD]).
  assert (Y : Rabs y <= D + V). { replace y with (d + (y - d)) by ring. eapply Rle_trans; [apply Rabs_triang|]. lra. }
  assert (FY : Rabs (f * y) <= 2 * (D + V)) by (rewrite Rabs_mult; apply Rmult_le_compat; try apply Rabs_pos; assumption).
  assert (FD : Rabs (f * d) <= 2 * D) by (rewrite Rabs_mult; apply Rmult_le_compat; try apply Rabs_pos; assumption).
  assert (FE : Rabs (f * y - f * d) <= 2 * V) by (rewrite <- Rmult_minus_distr_l, Rabs_mult; apply Rmult_le_compat; try apply Rabs_pos; assumption).
  set (t := rd (f * y)).
  assert (T1 : Rabs (t - f * d) <= 2 * V + 2 * u * (D + V) + eta).
  { pose proof (R1 (f * y)) as R. fold t in R. assert (u * Rabs (f * y) <= u * (2 * (D + V))) by (apply Rmult_le_compat_l; lra).
    replace (t - f * d) with ((t - f * y) + (f * y - f * d)) by ring. eapply Rle_trans; [apply Rabs_triang|]. lra. }
  assert (UD : 0 <= u * (D + V)) by (apply Rmult_le_pos; lra). assert (UD2 : u * (D + V) <= / 10000 * (D + V)) by (apply Rmult_le_compat_r; lra).
  assert (T2 : Rabs t <= 2001 / 1000 * (D + V) + eta). { replace t with (f * d + (t - f * d)) by ring. eapply Rle_trans; [apply Rabs_triang|]. lra. }
  assert (K1 : Rabs k' <= 709 / 1000). { replace k' with (k + (k' - k)) by ring. eapply Rle_trans; [apply Rabs_triang|]. lra. }
  assert (P1 : Rabs (k' * t) <= 709 / 1000 * (2001 / 1000 * (D + V) + eta)) by (rewrite Rabs_mult; apply Rmult_le_compat; try apply Rabs_pos; assumption).
  assert (P2 : Rabs (k' * t - k * (f * d)) <= 709 / 1000 * (2 * V + 2 * u * (D + V) + eta) + 22 / 10 * u * (708 / 1000) * (2 * D)).
  { replace (k' * t - k * (f * d)) with (k' * (t - f * d) + (k' - k) * (f * d)) by ring. eapply Rle_trans; [apply Rabs_triang|]. rewrite !Rabs_mult. rewrite <- (Rabs_mult f d).
    apply Rplus_le_compat; apply Rmult_le_compat; try apply Rabs_pos; assumption. }
  specialize (R1 (k' * t)).
  assert (u * Rabs (k' * t) <= u * (709 / 1000 * (2001 / 1000 * (D + V) + eta))) by (apply Rmult_le_compat_l; lra).
  assert (u * eta <= / 10000 * eta) by (apply Rmult_le_compat_r; lra). assert (0 <= u * D) by (apply Rmult_le_pos; lra). assert (0 <= u * V) by (apply Rmult_le_pos; lra).
  replace (rd (k' * t) - k * (f * d)) with ((rd (k' * t) - k' * t) + (k' * t - k * (f * d))) by ring. eapply Rle_trans; [apply Rabs_triang|]. lra.
Qed.
End Moment.

(** * All moments *)
Section Model.
Context (u eta : R) (rd : R -> R) (old : bool) (Hrd : rounding u eta rd) (Hu : 0 < u <= / 10000) (He : 0 <= eta).
Context (g : geom) (cols : list col) (Hg : geom_near u eta g) (Hmax : gxmax g = 1) (Ho : (0 < gorder g)%nat) (Hlo : glen g = gorder g).
Notation i := (gnseg g - 1)%nat.
Context (Hnu : INR (glen g) * u <= / 200) (Hf : fair_length u eta g i) (Hl : loss g i * u <= 1).

Lemma Hn : (0 < glen g)%nat. Proof. lia. Qed.
Lemma eta_small : 1000 * eta <= u.
Proof.
  destruct Hf as (F1 & F2). pose proof (len0 u eta g Hg Hn) as P. set (L := knot g (S i) - knot g i) in *. destruct (Rle_lt_dec L 1); nra.
Qed.

Lemma call_row m : (m < glen g)%nat -> exists ys, vcall_rd old rd (VPoly (gderiv m g) (map (fun c => cd rd g c m) cols)) 1 = Ok ys /\
  Forall2 (fun c y => Rabs (y - seg_deriv g c i m 1) <= end_error u eta g c m) cols ys.
Proof.
  intros Hm. pose proof (loss_le u eta g Hg Hn m) as (L1 & L2).
  destruct (vcall_near u eta rd old (VPoly (gderiv m g) (map (fun c => cd rd g c m) cols)) 1 i Hrd Hu He Hg (legder_len_pos m _ Hn) (in_last u eta g Hg Hn Hmax) Hf) as (ys & E & F).
  { eapply Rle_trans; [apply Rmult_le_compat_r; [lra|exact L2]|exact Hl]. }
  exists ys. split; [exact E|]. cbn [vgeom vcols] in F. clear E. remember (map (fun c => cd rd g c m) cols) as cs eqn:Ecs. revert cols Ecs. induction F as [|c' y cs' ys Hc F IH]; intros [|c cols'] Ecs; try discriminate; [constructor|].
  cbn [map] in Ecs. injection Ecs as -> ->. constructor; [|apply IH; reflexivity]. eapply call_cd; eauto using Hn.
Qed.

Lemma derivs_rows k : forall m, (m + k < glen g)%nat -> exists ds, derivs_from_rd old rd k (VPoly (gderiv m g) (map (fun c => cd rd g c m) cols)) 1 = Ok ds /\ length ds = k /\
  forall j, (j < k)%nat -> Forall2 (fun c y => Rabs (y - seg_deriv g c i (S (m + j)) 1) <= end_error u eta g c (S (m + j))) cols (nth j ds []).
Proof.
  induction k as [|k IH]; intros m Hm; [exists []; repeat split; intros; lia|]. cbn [derivs_from_rd].
  assert (E : vderiv_rd rd (VPoly (gderiv m g) (map (fun c => cd rd g c m) cols)) = VPoly (gderiv (S m) g) (map (fun c => cd rd g c (S m)) cols)) by (unfold vderiv_rd; cbn [vgeom vcols]; rewrite map_map; reflexivity).
  rewrite E. destruct (call_row (S m) ltac:(lia)) as (ys & -> & F). cbn [bind]. destruct (IH (S m) ltac:(lia)) as (ds & -> & L & H). cbn [bind].
  exists (ys :: ds). split; [reflexivity|]. split; [cbn; lia|]. intros [|j] Hj; cbn [nth]; [rewrite Nat.add_0_r; exact F|]. rewrite Nat.add_succ_r, <- Nat.add_succ_l. apply H. lia.
Qed.

Lemma gderiv_0' : gderiv 0 g = g.
Proof. destruct g. reflexivity. Qed.

Lemma derivs_near : exists ds, derivs_rd old rd (VPoly g cols) 1 = Ok ds /\ length ds = gorder g /\
  forall m, (m < gorder g)%nat -> Forall2 (fun c y => Rabs (y - seg_deriv g c i m 1) <= end_error u eta g c m) cols (nth m ds []).
Proof.
  unfold derivs_rd. cbn [vgeom]. destruct (call_row 0 Hn) as (ys & E & F). destruct (derivs_rows (gorder g - 1) 0 ltac:(lia)) as (ds & E2 & L & H).
  rewrite gderiv_0' in E, E2. rewrite map_id in E, E2. rewrite E. cbn [bind]. rewrite E2. cbn [bind]. exists (ys :: ds). split; [reflexivity|]. split; [cbn; lia|].
  intros [|m] Hm; [exact F|]. cbn [nth]. apply (H m). lia.
Qed.

Context (q : ftfreq) (Hq : q <> FAny).
Lemma sign_cases : stat_sign q = 1 \/ stat_sign q = -1.
Proof. destruct q; cbn; auto. Qed.

Lemma model_near : exists ms, power_model_rd old rd q (VPoly g cols) = Ok ms /\ length ms = length cols /\
  (forall l c, nth_error cols l = Some c -> length (nth l ms []) = gorder g /\
     forall m, (m < gorder g)%nat -> Rabs (nth m (nth l ms []) 0 - true_moment q g c l m) <= moment_error u eta g c m).
Proof.
  unfold power_model_rd. destruct derivs_near as (ds & -> & L & H). cbn [bind vcols].
  assert (Es : statsign q = Ok (stat_sign q)) by (destruct q; [contradiction|reflexivity|reflexivity]). rewrite Es. cbn [bind]. eexists. split; [reflexivity|]. split; [rewrite map_length, seq_length; reflexivity|].
  intros l c El. assert (Hlc : (l < length cols)%nat) by (apply nth_error_Some; congruence).
  match goal with |- context [map ?F (seq 0 (length cols))] => set (FF := F) end.
  assert (E1 : nth l (map FF (seq 0 (length cols))) [] = FF l). { rewrite (nth_indep _ [] (FF 0%nat)) by (rewrite map_length, seq_length; exact Hlc). rewrite map_nth, seq_nth by exact Hlc. reflexivity. }
  rewrite E1. unfold FF. rewrite map_length, combine_length, seq_length, L, Nat.min_id. split; [reflexivity|].
  intros m Hm. pose proof (combine_seq_nth ds []) as HC. rewrite L in HC. rewrite HC, map_map. cbn [fst snd].
  match goal with |- context [nth m (map ?F _) 0] => set (GG := F) end.
  assert (E2 : nth m (map GG (seq 0 (gorder g))) 0 = GG m). { rewrite (nth_indep _ 0 (GG 0%nat)) by (rewrite map_length, seq_length; exact Hm). rewrite map_nth, seq_nth by exact Hm. reflexivity. }
  rewrite E2. unfold GG. specialize (H m Hm).
  assert (Hy : Rabs (nth l (nth m ds []) 0 - seg_deriv g c i m 1) <= end_error u eta g c m).
  { clear - H El. revert l El. induction H as [|c' y cs ys Hc F IH]; intros [|l] El; try discriminate; cbn [nth nth_error] in *; [injection El as <-; exact Hc|apply IH; exact El]. }
  refine (moment_near u eta rd Hrd Hu He eta_small _ m l _ _ _ _ sign_cases Hy _). apply (deriv_small u eta g c Hg Hn); auto.
Qed.

Lemma true_small c l m : Rabs (true_moment q g c l m) <= 3 / 2 * deriv_bound g c m.
Proof.
  assert (B : Rabs (seg_deriv g c i m 1) <= deriv_bound g c m) by (apply (deriv_small u eta g c Hg Hn); auto).
  unfold true_moment. set (d := seg_deriv g c i m 1) in *. set (f := _ + _).
  assert (Hf2 : Rabs f <= 2). { unfold f. apply Rabs_le. destruct (sign_pow (m + 1)) as [-> | ->], (sign_pow l) as [-> | ->], sign_cases as [-> | ->]; lra. }
  destruct (factor_near u eta rd Hrd Hu He eta_small _ sign_cases) as (_ & K) || destruct (factor_near u eta rd Hrd Hu eta_small _ sign_cases) as (_ & K).
  rewrite Rabs_mult, (Rabs_mult f). pose proof (Rabs_pos d). pose proof (Rabs_pos f).
  assert (Rabs f * Rabs d <= 2 * deriv_bound g c m) by (apply Rmult_le_compat; lra). assert (0 <= Rabs f * Rabs d) by (apply Rmult_le_pos; lra).
  apply Rle_trans with (708 / 1000 * (2 * deriv_bound g c m)); [|lra]. apply Rmult_le_compat; try apply Rabs_pos; lra.
Qed.

Lemma cmod_le (z : C) : Cmod z <= Rabs (fst z) + Rabs (snd z).
Proof.
  destruct z as [a b]. unfold Cmod. cbn [fst snd]. pose proof (Rabs_pos a). pose proof (Rabs_pos b).
  rewrite <- (sqrt_Rsqr (Rabs a + Rabs b)) by lra. apply sqrt_le_1.
  - nra.
  - apply Rle_0_sqr.
  - unfold Rsqr. rewrite <- (pow2_abs a), <- (pow2_abs b). nra.
Qed.

Lemma tail_series c l n : (n <> 0)%Z -> true_tail q g c l n = giw (map (true_moment q g c l) (seq 0 (gorder g))) n.
Proof.
  intros Hn0. rewrite giw_sum, map_length, seq_length. unfold true_tail. apply csumn_ext. intros m Hm. unfold Cdiv. f_equal.
  - f_equal. rewrite (nth_indep _ 0 (true_moment q g c l 0)) by (rewrite map_length, seq_length; exact Hm). rewrite map_nth, seq_nth by exact Hm. reflexivity.
  - unfold inv_iw. destruct (Z.eqb_spec n 0); [contradiction|]. symmetry. apply cpow_inv, iw_neq; auto.
Qed.

Lemma tail_near F ms l c n : Rabs (f_pi F - PI) <= u * PI -> power_model_rd old rd q (VPoly g cols) = Ok ms -> nth_error cols l = Some c ->
  (n <> 0)%Z -> 1000 * eta * Rabs (IZR n) <= u ->
  Cmod (Cminus (tail_rd rd F ms l n) (true_tail q g c l n)) <= tail_error u eta g c n.
Proof.
  intros Hp Hm El Hn0 Hs. destruct model_near as (ms' & E & _ & H). rewrite Hm in E. injection E as <-. destruct (H l c El) as (L & HM).
  rewrite tail_series by exact Hn0. rewrite <- giw_exact, w_exact by exact Hn0. unfold tail_rd. set (tm := map (true_moment q g c l) (seq 0 (gorder g))).
  assert (Lt : length tm = gorder g) by (unfold tm; rewrite map_length, seq_length; reflexivity).
  assert (Nt : forall m, (m < gorder g)%nat -> nth m tm 0 = true_moment q g c l m). { intros m Hm'. unfold tm. rewrite (nth_indep _ 0 (true_moment q g c l 0)) by (rewrite map_length, seq_length; exact Hm'). rewrite map_nth, seq_nth by exact Hm'. reflexivity. }
  pose proof (w_near u eta rd Hrd Hu He F n Hn0 Hp Hs) as Hw. destruct (w_small u Hu n Hn0) as (EW & HW).
  pose proof (horner_near u eta rd Hrd Hu He _ _ Hw HW tm (nth l ms []) ltac:(congruence)) as HH. cbv zeta in HH.
  pose proof (geo_sum u Hu (w_true n) HW (length tm)) as HG.
  eapply Rle_trans; [apply cmod_le|]. unfold Cminus, Cplus, Copp. cbn [fst snd]. unfold Rminus in HH.
  eapply Rle_trans; [exact HH|]. unfold tail_error. apply Rplus_le_compat.
  - rewrite Lt, EW. apply sumn_le. intros m Hm'. rewrite Nt by exact Hm'.
    assert (P : 0 <= (1 + 20 * u) * (2 / (PI * Rabs (IZR n)))) by (rewrite <- EW; apply Rmult_le_pos; lra).
    apply Rmult_le_compat_l; [apply pow_le; exact P|]. apply Rplus_le_compat; [exact (HM m Hm')|].
    apply Rmult_le_compat_l; [pose proof (pos_INR m); apply Rmult_le_pos; lra|apply true_small].
  - nra.
Qed.

(** With the true moments and the jumps, the Fourier integral. *)
Lemma tail_fourier c l n : gxmin g = -1 -> freq_ok q n -> has_parity (ideal_geom g) c ((-1) ^ l) -> (n <> 0)%Z ->
  is_fourier (fun x => PI * IZR n * (x + 1) / 2) (cval (ideal_geom g) c) (-1) 1
    (Cplus (Cmult (RtoC (sqrt 2)) (true_tail q g c l n)) (jump_tail g c n)).
Proof.
  intros Hmin Hfq Hpar Hn0. assert (GO : geom_ok (ideal_geom g)) by apply (exactg_ok _ _ _ Hg).
  unfold jump_tail. rewrite (csumn_ext _ _ (fun m => Cmult (Cmult (RtoC ((-1) ^ m)) (cpow (inv_iw n) (S m))) (jump_sum (ideal_geom g) c n m))).
  2:{ intros m _. change (jump_sum (ideal_geom g) c n m) with (jump_sum g c n m). unfold Cdiv. f_equal. f_equal. unfold inv_iw. destruct (Z.eqb_spec n 0); [contradiction|]. symmetry. apply cpow_inv, iw_neq; auto. }
  rewrite tail_series by exact Hn0.
  rewrite <- (model_error (ideal_geom g) GO Hmin Hmax Hlo Ho c (stat_sign q) l n (gorder g) (map (true_moment q g c l) (seq 0 (gorder g)))); auto.
  - apply unl_fourier; auto.
  - apply sign_cases.
  - unfold freq_ok in Hfq; destruct q; [congruence| |]; rewrite Hfq; reflexivity.
  - cbn [ideal_geom glen]. lia.
  - rewrite map_length, seq_length. reflexivity.
  - intros m Hm. rewrite (nth_indep _ 0 (true_moment q g c l 0)) by (rewrite map_length, seq_length; exact Hm). rewrite map_nth, seq_nth by exact Hm.
    unfold true_moment, power_moment. cbn [Nat.add]. f_equal. f_equal.
    change (seg_deriv g c i m 1) with (seg_deriv (ideal_geom g) c (gnseg (ideal_geom g) - 1) m 1). apply seg_deriv_segF; auto. cbn [ideal_geom gnseg]. destruct Hg as (P & _). lia.
Qed.
End Model.
