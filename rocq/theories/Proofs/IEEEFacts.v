From Coq Require Import Reals ZArith Lia Lra.
From Flocq Require Import Core.
From Verif.Model Require Import IEEE.
Open Scope R_scope.

Global Instance prec53 : Prec_gt_0 53.
Proof. unfold Prec_gt_0; lia. Qed.
Global Instance valid64 : Valid_exp fexp64.
Proof. unfold fexp64; apply FLT_exp_valid. exact prec53. Qed.
Global Instance notftz64 : Exp_not_FTZ fexp64.
Proof. unfold fexp64. apply monotone_exp_not_FTZ; typeclasses eauto. Qed.

Lemma rnd64_double x : is_double (rnd64 x).
Proof. apply generic_format_round; typeclasses eauto. Qed.
Lemma rnd64_id x : is_double x -> rnd64 x = x.
Proof. apply round_generic; typeclasses eauto. Qed.
Lemma rnd64_le x y : x <= y -> rnd64 x <= rnd64 y.
Proof. apply round_le; typeclasses eauto. Qed.
Lemma double_0 : is_double 0.
Proof. apply generic_format_0. Qed.
Lemma double_opp x : is_double x -> is_double (- x).
Proof. apply generic_format_opp. Qed.
Lemma rnd64_ge x y : is_double x -> x <= y -> x <= rnd64 y.
Proof. intros H1 H2. rewrite <- (rnd64_id x H1). apply rnd64_le; auto. Qed.
Lemma rnd64_le' x y : is_double y -> x <= y -> rnd64 x <= y.
Proof. intros H1 H2. rewrite <- (rnd64_id y H1). apply rnd64_le; auto. Qed.

Lemma rnd64_nearest x g : is_double g -> Rabs (rnd64 x - x) <= Rabs (g - x).
Proof. intros Hg. destruct (round_N_pt radix2 fexp64 (fun z => negb (Z.even z)) x) as [_ H]. apply H; auto. Qed.

(** doubles are integer multiples of 2^-1074 *)
Definition eta : R := bpow radix2 (-1074).
Lemma eta_pos : 0 < eta. Proof. apply bpow_gt_0. Qed.

Lemma double_multiple x : is_double x -> exists m : Z, x = IZR m * eta.
Proof.
  intros H. unfold is_double, fexp64 in H.
  apply FLT_format_generic in H; [|exact prec53]. destruct H as [[m e] -> _ He]. simpl in He.
  exists (m * 2 ^ (e + 1074))%Z. unfold F2R, eta. cbn [Fnum Fexp].
  rewrite mult_IZR. change 2%Z with (radix_val radix2). rewrite IZR_Zpower by lia.
  rewrite Rmult_assoc, <- bpow_plus. do 2 f_equal. lia.
Qed.

Lemma small_multiple_double m : Rabs (IZR m * eta) < bpow radix2 (-1021) -> is_double (IZR m * eta).
Proof.
  intros H. unfold is_double, fexp64. apply generic_format_FLT.
  exists (Float radix2 m (-1074)); auto; cbn [Fnum Fexp]; [|lia].
  rewrite Rabs_mult, (Rabs_pos_eq eta) in H by (apply Rlt_le, eta_pos).
  unfold eta in H. replace (-1021)%Z with (53 + -1074)%Z in H by lia.
  rewrite bpow_plus in H. apply Rmult_lt_reg_r in H; [|apply bpow_gt_0].
  rewrite <- abs_IZR in H. change (bpow radix2 53) with (IZR (2 ^ 53)) in H.
  apply lt_IZR in H. exact H.
Qed.

Lemma half_round x : bpow radix2 (-1021) <= Rabs x -> rnd64 (x / 2) = rnd64 x / 2.
Proof.
  intros H.
  assert (Hx : x <> 0).
  { intros ->. rewrite Rabs_R0 in H. pose proof (bpow_gt_0 radix2 (-1021)). lra. }
  assert (Em : mag radix2 (x / 2) = (mag radix2 x - 1)%Z :> Z).
  { replace (x / 2) with (x * bpow radix2 (-1)) by (simpl; lra).
    rewrite mag_mult_bpow by auto. lia. }
  assert (Hm : (-1020 <= mag radix2 x)%Z).
  { apply mag_ge_bpow. replace (-1020 - 1)%Z with (-1021)%Z by lia. exact H. }
  assert (Ec : cexp radix2 fexp64 (x / 2) = (cexp radix2 fexp64 x - 1)%Z).
  { unfold cexp. rewrite Em. unfold fexp64, FLT_exp. lia. }
  unfold rnd64, round, F2R, scaled_mantissa. cbn [Fnum Fexp]. rewrite Ec.
  replace (x / 2 * bpow radix2 (- (cexp radix2 fexp64 x - 1)))
    with (x * bpow radix2 (- cexp radix2 fexp64 x)).
  2: { replace (- (cexp radix2 fexp64 x - 1))%Z with (- cexp radix2 fexp64 x + 1)%Z by lia.
       rewrite bpow_plus. change (bpow radix2 1) with 2. field. }
  replace (cexp radix2 fexp64 x - 1)%Z with (cexp radix2 fexp64 x + -1)%Z by lia.
  rewrite bpow_plus. change (bpow radix2 (-1)) with (/ 2). field.
Qed.

(** The computed midpoint is the correctly rounded midpoint. *)
Lemma mid64 a b : is_double a -> is_double b -> rnd64 (/ 2 * rnd64 (a + b)) = rnd64 ((a + b) / 2).
Proof.
  intros Ha Hb.
  destruct (Rle_or_lt (bpow radix2 (-1021)) (Rabs (a + b))) as [H|H].
  - replace (/ 2 * rnd64 (a + b)) with (rnd64 (a + b) / 2) by lra.
    rewrite <- half_round by auto. apply rnd64_id, rnd64_double.
  - rewrite (rnd64_id (a + b)).
    + f_equal; lra.
    + destruct (double_multiple a Ha) as [m ->], (double_multiple b Hb) as [n ->].
      replace (IZR m * eta + IZR n * eta) with (IZR (m + n) * eta) in * by (rewrite plus_IZR; ring).
      apply small_multiple_double; auto.
Qed.

Lemma mid64_range a b : is_double a -> is_double b -> a <= b ->
  a <= rnd64 (/ 2 * rnd64 (a + b)) <= b.
Proof.
  intros Ha Hb H. rewrite mid64 by auto.
  split; [apply rnd64_ge|apply rnd64_le']; auto; lra.
Qed.

Lemma mid64_strict a b m : is_double a -> is_double b -> is_double m -> a < m < b ->
  a < rnd64 (/ 2 * rnd64 (a + b)) < b.
Proof.
  intros Ha Hb Hm H. rewrite mid64 by auto.
  pose proof (rnd64_nearest ((a + b) / 2) m Hm) as Hn.
  pose proof (rnd64_ge a ((a + b) / 2) Ha ltac:(lra)) as H1.
  pose proof (rnd64_le' ((a + b) / 2) b Hb ltac:(lra)) as H2.
  set (x := rnd64 ((a + b) / 2)) in *.
  unfold Rabs in Hn. repeat destruct Rcase_abs in Hn; lra.
Qed.

(** Without a double in between, the gap is below 2^-52 times any larger
    magnitude that is not tiny. *)
Lemma gap64_pos p q M : is_double p -> is_double q -> 0 <= p < q ->
  (forall m, is_double m -> p < m < q -> False) ->
  q <= M -> bpow radix2 (-970) <= M ->
  is_double (q - p) /\ q - p < bpow radix2 (-52) * M.
Proof.
  intros Hp Hq Hpq Hno HM HM'.
  assert (Hs : q = succ radix2 fexp64 p).
  { pose proof (succ_le_lt radix2 fexp64 p q Hp Hq ltac:(lra)) as Hle.
    destruct Hle as [Hlt|]; auto. exfalso.
    apply (Hno (succ radix2 fexp64 p)); [apply generic_format_succ; auto; typeclasses eauto|].
    split; auto. rewrite succ_eq_pos by lra.
    assert (0 < ulp radix2 fexp64 p); [|lra].
    eapply Rle_lt_trans; [|apply ulp_FLT_gt; exact prec53].
    apply Rmult_le_pos; [apply Rabs_pos|apply bpow_ge_0]. }
  rewrite succ_eq_pos in Hs by lra.
  replace (q - p) with (ulp radix2 fexp64 p) by lra.
  split; [apply generic_format_ulp; typeclasses eauto|].
  destruct (Rle_or_lt (bpow radix2 (-1074 + 53 - 1)) (Rabs p)) as [H|H].
  - pose proof (ulp_FLT_le radix2 (-1074) 53 p H) as L.
    rewrite Rabs_pos_eq in L by lra. change (1 - 53)%Z with (-52)%Z in L.
    unfold fexp64. pose proof (bpow_gt_0 radix2 (-52)).
    apply Rle_lt_trans with (1 := L). rewrite Rmult_comm. apply Rmult_lt_compat_l; lra.
  - unfold fexp64. rewrite ulp_FLT_small.
    + apply Rlt_le_trans with (bpow radix2 (-52) * bpow radix2 (-970)).
      * rewrite <- bpow_plus. apply bpow_lt; lia.
      * apply Rmult_le_compat_l; auto. apply bpow_ge_0.
    + exact prec53.
    + apply Rlt_trans with (1 := H). apply bpow_lt; lia.
Qed.

Lemma gap64 a b M : is_double a -> is_double b -> a < b ->
  (forall m, is_double m -> a < m < b -> False) ->
  Rabs a <= M -> Rabs b <= M -> bpow radix2 (-970) <= M ->
  is_double (b - a) /\ b - a < bpow radix2 (-52) * M.
Proof.
  intros Ha Hb Hab Hno Ma Mb HM.
  destruct (Rle_or_lt 0 a) as [H|H].
  - apply gap64_pos; auto. rewrite Rabs_pos_eq in Mb by lra. auto.
  - assert (b <= 0).
    { destruct (Rle_or_lt b 0); auto. exfalso. apply (Hno 0); auto using double_0. }
    replace (b - a) with (- a - - b) by ring.
    apply gap64_pos; auto using double_opp; try lra.
    + intros m Hm Hr. apply (Hno (- m)); auto using double_opp. lra.
    + rewrite Rabs_left in Ma by lra. auto.
Qed.

Lemma scale52_exact M : is_double M -> bpow radix2 (-970) <= M -> rnd64 (bpow radix2 (-52) * M) = bpow radix2 (-52) * M.
Proof.
  intros H HM. apply rnd64_id. unfold is_double, fexp64 in *.
  apply FLT_format_generic in H; [|exact prec53]. destruct H as [[m e] -> Hm He]. cbn [Fnum Fexp] in *.
  apply generic_format_FLT. exists (Float radix2 m (e + -52)); cbn [Fnum Fexp]; auto.
  - unfold F2R; cbn [Fnum Fexp]. rewrite bpow_plus. ring.
  - assert (L : bpow radix2 (-970) < bpow radix2 (53 + e)).
    { eapply Rle_lt_trans; [exact HM|]. rewrite bpow_plus. unfold F2R; cbn [Fnum Fexp].
      apply Rmult_lt_compat_r; [apply bpow_gt_0|].
      change (bpow radix2 53) with (IZR (2 ^ 53)). apply IZR_lt.
      change (radix_val radix2) with 2%Z in Hm. lia. }
    apply lt_bpow in L. lia.
Qed.

Lemma tiny_underflow x : 0 <= x -> x < bpow radix2 (-1075) -> rnd64 x = 0.
Proof.
  intros H0 H. pose proof (rnd64_nearest x 0 double_0) as Hn.
  destruct (double_multiple _ (rnd64_double x)) as [m Em].
  pose proof (rnd64_ge 0 x double_0 H0) as Hge.
  destruct (Z.eq_dec m 0) as [->|Hm]; [rewrite Em; ring|].
  exfalso. rewrite Em in *.
  assert (Hm1 : (1 <= m)%Z).
  { destruct (Z_lt_le_dec m 1); auto. assert (m <= -1)%Z as Hlt by lia. apply IZR_le in Hlt.
    pose proof eta_pos. nra. }
  apply IZR_le in Hm1.
  assert (E : eta = 2 * bpow radix2 (-1075)).
  { change 2 with (bpow radix2 1). rewrite <- bpow_plus. reflexivity. }
  pose proof eta_pos.
  assert (eta <= IZR m * eta) by nra.
  unfold Rabs in Hn. repeat destruct Rcase_abs in Hn; lra.
Qed.
