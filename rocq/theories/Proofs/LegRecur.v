(** The three-term recurrence of the Legendre polynomials with errors. *)
From Coq Require Import Reals Lra Lia Arith.
From Coquelicot Require Import Coquelicot.
From Verif.Model Require Import Base Num.
From Verif.Proofs Require Import LegFacts Clenshaw.
Open Scope R_scope.

Section Recur.
Variable z : R.
Hypothesis Hz : -1 <= z <= 1.

Lemma cnorm_sqr q p : Rsqr (cnorm z q p) = q * q + 2 * z * q * p + p * p.
Proof.
  unfold cnorm, Cmod. cbn [fst snd]. rewrite Rsqr_sqrt by (apply Rplus_le_le_0_compat; apply pow2_ge_0).
  pose proof (s_sqr z Hz) as S. unfold Rsqr in *. replace ((sqrt (1 - z * z) * p) ^ 2) with (sqrt (1 - z * z) * sqrt (1 - z * z) * (p * p)) by ring. rewrite S. ring.
Qed.

(** One step forward. *)
Lemma forward_step b y0 y1 : 0 <= b <= 1 -> cnorm z ((1 + b) * z * y1 - b * y0) (- y1) <= cnorm z y1 (- y0).
Proof.
  intros Hb. apply Rsqr_incr_0_var; [|apply cnorm_pos]. rewrite !cnorm_sqr.
  set (w := z * y1 - y0). replace ((1 + b) * z * y1 - b * y0) with (z * y1 + b * w) by (unfold w; ring).
  replace ((z * y1 + b * w) * (z * y1 + b * w) + 2 * z * (z * y1 + b * w) * - y1 + - y1 * - y1) with (b * b * (w * w) + (1 - z * z) * (y1 * y1)) by ring.
  replace (y1 * y1 + 2 * z * y1 * - y0 + - y0 * - y0) with (w * w + (1 - z * z) * (y1 * y1)) by (unfold w; ring).
  assert (0 <= w * w) by nra. assert (b * b <= 1) by nra. nra.
Qed.

Lemma legP_forward k : legP (S (S k)) z = (1 + (INR k + 1) / (INR k + 2)) * z * legP (S k) z - (INR k + 1) / (INR k + 2) * legP k z.
Proof. rewrite legP_SS. pose proof (INR_nonneg k). field. lra. Qed.
Lemma ratio_range k : 0 <= (INR k + 1) / (INR k + 2) <= 1.
Proof. pose proof (INR_nonneg k). split; [apply Rdiv_le_0_compat; lra|apply Rle_div_l; lra]. Qed.

Lemma legP_energy k : cnorm z (legP (S k) z) (- legP k z) <= sqrt (1 - z * z).
Proof.
  induction k.
  - rewrite legP_1, legP_0. apply Rsqr_incr_0_var; [|apply sqrt_pos]. rewrite cnorm_sqr, Rsqr_sqrt by nra. nra.
  - rewrite legP_forward. eapply Rle_trans; [apply forward_step, ratio_range|exact IHk].
Qed.

Lemma legP_le1 k : Rabs (legP k z) <= 1.
Proof.
  destruct k; [rewrite legP_0, Rabs_R1; lra|].
  destruct (Req_dec (1 - z * z) 0) as [E|N].
  - assert (z = 1 \/ z = -1) as [-> | ->].
    { assert (H : (z - 1) * (z + 1) = 0) by (replace ((z - 1) * (z + 1)) with (- (1 - z * z)) by ring; lra). apply Rmult_integral in H as [H|H]; [left|right]; lra. }
    + rewrite legP_at_1, Rabs_R1. lra.
    + rewrite legP_at_m1, pow_1_abs. lra.
  - assert (P : 0 < 1 - z * z) by nra. pose proof (legP_energy k) as H. apply Rsqr_incr_1 in H; [|apply cnorm_pos|apply sqrt_pos].
    rewrite cnorm_sqr, Rsqr_sqrt in H by lra. rewrite <- (Rabs_pos_eq 1) by lra. apply Rsqr_le_abs_0. unfold Rsqr.
    set (a := legP (S k) z) in *. set (b := legP k z) in *. assert (Q : 0 <= (b - z * a) * (b - z * a)) by apply Rle_0_sqr.
    apply (Rmult_le_reg_l (1 - z * z)); [exact P|]. replace (a * a + 2 * z * a * - b + - b * - b) with ((1 - z * z) * (a * a) + (b - z * a) * (b - z * a)) in H by ring. lra.
Qed.

Section Errors.
Variables (y : nat -> R) (dl : R).
Hypothesis Hd : 0 <= dl.
Hypothesis H0 : Rabs (y 0%nat - 1) <= dl / 2.
Hypothesis H1 : Rabs (y 1%nat - z) <= dl / 2.
Hypothesis Hs : forall k, Rabs (y k) <= 11 / 10 -> Rabs (y (S k)) <= 11 / 10 ->
  Rabs (y (S (S k)) - ((1 + (INR k + 1) / (INR k + 2)) * z * y (S k) - (INR k + 1) / (INR k + 2) * y k)) <= dl.

Let tri (k : nat) : R := INR k * (INR k + 1) / 2.
Lemma tri_S k : tri (S k) = tri k + (INR k + 1).
Proof. unfold tri. rewrite S_INR. field. Qed.
Lemma tri_pos k : 0 <= tri k.
Proof. unfold tri. pose proof (INR_nonneg k). apply Rdiv_le_0_compat; [|lra]. apply Rmult_le_pos; lra. Qed.

Lemma near_size k e : Rabs (y k - legP k z) <= e -> e <= / 10 -> Rabs (y k) <= 11 / 10.
Proof. intros H He. pose proof (legP_le1 k). pose proof (Rabs_triang (y k - legP k z) (legP k z)) as T. replace (y k - legP k z + legP k z) with (y k) in T by ring. lra. Qed.

Lemma forward_errors k : tri (S k) * dl <= / 10 ->
  Rabs (y k - legP k z) <= Rmax 1 (tri k) * dl /\ Rabs (y (S k) - legP (S k) z) <= tri (S k) * dl /\
  cnorm z (y (S k) - legP (S k) z) (- (y k - legP k z)) <= (INR k + 1) * dl.
Proof.
  induction k; intros Hk.
  - rewrite legP_0, legP_1. split; [pose proof (Rmax_l 1 (tri 0)); nra|]. split; [unfold tri; cbn; lra|].
    eapply Rle_trans; [apply cnorm_sum; exact Hz|]. rewrite Rabs_Ropp. cbn [INR]. lra.
  - pose proof (INR_nonneg k) as Pk. pose proof (tri_pos (S k)) as Pt. pose proof (tri_S (S k)) as Et. rewrite S_INR in Et.
    assert (Hk' : tri (S k) * dl <= / 10) by nra. destruct (IHk Hk') as (A & B & N). clear IHk.
    assert (R1 : 1 <= tri (S k)). { rewrite tri_S. pose proof (tri_pos k). lra. }
    assert (Rm : Rmax 1 (tri k) <= tri (S k)). { apply Rmax_lub; [exact R1|]. rewrite tri_S. lra. }
    assert (A' : Rabs (y k - legP k z) <= tri (S k) * dl) by nra.
    pose proof (near_size k _ A' Hk') as S0. pose proof (near_size (S k) _ B Hk') as S1. pose proof (Hs k S0 S1) as L.
    set (b := (INR k + 1) / (INR k + 2)) in *. set (x := y (S (S k)) - ((1 + b) * z * y (S k) - b * y k)) in *.
    assert (E : y (S (S k)) - legP (S (S k)) z = (1 + b) * z * (y (S k) - legP (S k) z) - b * (y k - legP k z) + x).
    { rewrite legP_forward. fold b. unfold x. ring. }
    assert (N' : cnorm z (y (S (S k)) - legP (S (S k)) z) (- (y (S k) - legP (S k) z)) <= (INR k + 2) * dl).
    { rewrite E. pose proof (cnorm_plus z ((1 + b) * z * (y (S k) - legP (S k) z) - b * (y k - legP k z)) (- (y (S k) - legP (S k) z)) x 0) as T.
      rewrite Rplus_0_r in T. pose proof (cnorm_one z Hz x) as O. pose proof (forward_step b (y k - legP k z) (y (S k) - legP (S k) z) (ratio_range k)). lra. }
    split; [|split].
    + rewrite (Rmax_right _ _ R1). exact B.
    + pose proof (cnorm_r z (y (S (S k)) - legP (S (S k)) z) (- (y (S k) - legP (S k) z))) as C.
      set (f2 := y (S (S k)) - legP (S (S k)) z) in *. set (f1 := y (S k) - legP (S k) z) in *.
      pose proof (Rabs_triang (f2 + z * - f1) (z * f1)) as T. replace (f2 + z * - f1 + z * f1) with f2 in T by ring.
      rewrite (Rabs_mult z f1) in T. assert (Rabs z <= 1) by (apply Rabs_le; lra). pose proof (Rabs_pos f1). assert (Rabs z * Rabs f1 <= 1 * Rabs f1) by (apply Rmult_le_compat_r; lra).
      rewrite Et. replace ((tri (S k) + (INR k + 1 + 1)) * dl) with (tri (S k) * dl + (INR k + 2) * dl) by ring. lra.
    + rewrite S_INR. replace (INR k + 1 + 1) with (INR k + 2) by ring. exact N'.
Qed.

Lemma forward_near n k : (k < n)%nat -> INR n * INR n * dl <= / 5 -> Rabs (y k - legP k z) <= INR n * INR n / 2 * dl.
Proof.
  intros Hk Hn. pose proof (INR_nonneg k) as Pk. assert (Kn : INR k + 1 <= INR n) by (rewrite <- S_INR; apply le_INR; lia).
  assert (N1 : 1 <= INR n * INR n) by nra.
  destruct k.
  - rewrite legP_0. assert (1 * dl <= INR n * INR n * dl) by (apply Rmult_le_compat_r; lra). lra.
  - rewrite S_INR in *. pose proof (INR_nonneg k) as Pk'.
    assert (T : tri (S k) <= INR n * INR n / 2). { unfold tri. rewrite S_INR. nra. }
    assert (T2 : tri (S k) * dl <= INR n * INR n / 2 * dl) by (apply Rmult_le_compat_r; lra).
    destruct (forward_errors k) as (_ & B & _); lra.
Qed.
End Errors.
End Recur.
