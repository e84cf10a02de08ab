(** The consistency check of rescale in double precision. *)
From Coq Require Import Reals ZArith Lra Lia Psatz.
From Flocq Require Import Core Relative.
From Verif.Model Require Import IEEE.
Open Scope R_scope.

Definition u64 : R := / 2 ^ 53.
Lemma u64_bounds : 0 < u64 < 112 / 10 ^ 18.
Proof. unfold u64. split; [apply Rinv_0_lt_compat, pow_lt; lra|]. apply Rmult_lt_reg_l with (2 ^ 53); [apply pow_lt; lra|]. rewrite Rinv_r by (apply pow_nonzero; lra). lra. Qed.

Lemma bp n : (0 <= n)%Z -> bpow radix2 (- n) = / 2 ^ Z.to_nat n.
Proof. intros H. rewrite bpow_opp. f_equal. rewrite <- (Z2Nat.id n) at 1 by auto. rewrite <- pow_powerRZ || idtac. rewrite bpow_powerRZ, <- pow_powerRZ. reflexivity. Qed.

Lemma rnd_rel x : bpow radix2 (-1022) <= Rabs x -> Rabs (rnd64 x - x) <= u64 * Rabs x.
Proof.
  intros H. unfold rnd64, fexp64. pose proof (relative_error_N_FLT radix2 (-1074) 53 ltac:(lia) (fun x => negb (Z.even x)) x) as E.
  replace (-1074 + 53 - 1)%Z with (-1022)%Z in E by reflexivity. specialize (E H).
  eapply Rle_trans; [exact E|]. apply Req_le. f_equal. unfold u64.
  change (- (53) + 1)%Z with (- (52))%Z. rewrite bp by lia. change (Z.to_nat 52) with 52%nat.
  replace (2 ^ 53) with (2 * 2 ^ 52) by (cbn; ring). rewrite Rinv_mult. reflexivity.
Qed.

Lemma rnd_double x : is_double (rnd64 x).
Proof. apply generic_format_round; [apply FLT_exp_valid; reflexivity|apply valid_rnd_N]. Qed.
Lemma rnd_id x : is_double x -> rnd64 x = x.
Proof. intros H. apply round_generic; [apply valid_rnd_N|exact H]. Qed.
Lemma rnd_le_double x y : is_double y -> Rabs x <= y -> Rabs (rnd64 x) <= y.
Proof. intros Hy H. apply abs_round_le_generic; [apply FLT_exp_valid; reflexivity|apply valid_rnd_N|exact Hy|exact H]. Qed.

Lemma small_900 : bpow radix2 (-1022) <= bpow radix2 (-900) / 10 ^ 16.
Proof.
  replace (-1022)%Z with (-900 + -122)%Z by reflexivity. rewrite bpow_plus. unfold Rdiv.
  apply Rmult_le_compat_l; [apply bpow_ge_0|]. change (-122)%Z with (- (122))%Z. rewrite bp by lia. change (Z.to_nat 122) with 122%nat.
  apply Rinv_le_contravar; [apply pow_lt; lra|]. apply Rle_trans with (2 ^ 54); [lra|]. apply Rle_pow; [lra|lia].
Qed.

Lemma rescale_check lam beta :
  beta <> 0 -> bpow radix2 (-1022) <= Rabs (lam / beta) -> bpow radix2 (-900) <= Rabs lam ->
  allclose64 lam (lambda64 beta (wmax64 lam beta)) = true.
Proof.
  intros Hb Hq Hl. pose proof u64_bounds as Hu. set (u := u64) in *.
  set (w := wmax64 lam beta). set (L := lambda64 beta w).
  assert (P : 0 < Rabs lam) by (pose proof (bpow_gt_0 radix2 (-900)); lra). set (A := Rabs lam) in *.
  assert (Ht : bpow radix2 (-1022) <= A / 10 ^ 16).
  { pose proof small_900. apply Rle_trans with (bpow radix2 (-900) / 10 ^ 16); auto. unfold Rdiv. apply Rmult_le_compat_r; [|auto]. apply Rlt_le, Rinv_0_lt_compat, pow_lt. lra. }
  assert (E1 : Rabs (beta * w - lam) <= u * A).
  { replace (beta * w - lam) with (beta * (w - lam / beta)) by (field; auto). rewrite Rabs_mult.
    pose proof (rnd_rel _ Hq) as E. apply Rmult_le_compat_l with (r := Rabs beta) in E; [|apply Rabs_pos].
    eapply Rle_trans; [exact E|]. apply Req_le. unfold A. fold u. unfold Rdiv. rewrite Rabs_mult, Rabs_inv. field. apply Rabs_no_R0. auto. }
  assert (B1 : (1 - u) * A <= Rabs (beta * w) <= (1 + u) * A).
  { pose proof (Rabs_triang_inv (beta * w) lam). pose proof (Rabs_triang_inv lam (beta * w)). rewrite (Rabs_minus_sym lam) in *. fold A in H, H0. lra. }
  assert (Hbw : bpow radix2 (-1022) <= Rabs (beta * w)).
  { apply Rle_trans with (A / 10 ^ 16); auto. apply Rle_trans with ((1 - u) * A); [|lra]. nra. }
  pose proof (rnd_rel _ Hbw) as E2. change (rnd64 (beta * w)) with L in E2. fold u in E2.
  assert (E3 : Rabs (lam - L) <= (2 * u + u * u) * A).
  { replace (lam - L) with (- (L - beta * w) + - (beta * w - lam)) by ring. eapply Rle_trans; [apply Rabs_triang|]. rewrite !Rabs_Ropp. nra. }
  assert (B2 : (1 - 4 * u) * A <= Rabs L).
  { pose proof (Rabs_triang_inv lam (lam - L)) as T. replace (lam - (lam - L)) with L in T by ring. fold A in T. nra. }
  assert (Hr : Rabs (rnd64 (4 / 10 ^ 16) - 4 / 10 ^ 16) <= u * (4 / 10 ^ 16)).
  { rewrite <- (Rabs_right (4 / 10 ^ 16)) at 3 by (apply Rle_ge; lra). apply rnd_rel. rewrite Rabs_right by (apply Rle_ge; lra).
    change (-1022)%Z with (- (1022))%Z. rewrite bp by lia. apply Rle_trans with (/ 2 ^ 60); [|lra].
    apply Rinv_le_contravar; [apply pow_lt; lra|]. apply Rle_pow; [lra|]. lia. }
  set (rt := rnd64 (4 / 10 ^ 16)) in *. apply Rabs_le_inv in Hr.
  assert (Hrt : 3 / 10 ^ 16 <= rt) by lra.
  assert (Hp : bpow radix2 (-1022) <= Rabs (rt * Rabs L)).
  { rewrite Rabs_mult, Rabs_Rabsolu, (Rabs_right rt) by lra. apply Rle_trans with (A / 10 ^ 16); auto. nra. }
  pose proof (rnd_rel _ Hp) as E4. fold u in E4. rewrite Rabs_mult, Rabs_Rabsolu, (Rabs_right rt) in E4 by lra.
  set (T := rnd64 (rt * Rabs L)) in *. apply Rabs_le_inv in E4.
  unfold allclose64. fold rt. fold T. rewrite Rplus_0_l, (rnd_id T) by apply rnd_double.
  destruct (Rle_dec (Rabs (rnd64 (lam - L))) T) as [|N]; [reflexivity|exfalso; apply N].
  apply rnd_le_double; [apply rnd_double|]. eapply Rle_trans; [exact E3|].
  assert (K : (1 - u) * (rt * Rabs L) <= T) by lra. eapply Rle_trans; [|exact K]. clear - Hu Hrt B2 P.
  apply Rle_trans with ((1 - u) * (3 / 10 ^ 16 * ((1 - 4 * u) * A))).
  - assert ((2 * u + u * u) <= (1 - u) * (3 / 10 ^ 16 * (1 - 4 * u))) by nra. nra.
  - apply Rmult_le_compat_l; [lra|]. apply Rmult_le_compat; auto; nra.
Qed.
