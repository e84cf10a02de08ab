(** Clenshaw's recurrence for Legendre series: exact value and rounding error. *)
From Coq Require Import Reals Lra Lia Psatz Arith ZArith.
From Coquelicot Require Import Coquelicot.
From Coq Require Import List.
From Verif.Model Require Import Base Num Poly PolyIEEE.
From Verif.Spec Require Import SKernelIEEE.
From Verif.Proofs Require Import SumFacts LegFacts.
Import ListNotations.
Open Scope R_scope.

(** * The exact recurrence *)
Lemma times_exact old a n d : d <> 0 -> times_ratio old (fun t => t) a n d = a * (n / d).
Proof. intros. unfold times_ratio. destruct old; field; auto. Qed.

Lemma clenshaw_exact old c x j : forall c0 c1,
  let '(a, b) := clenshaw old (fun t => t) c x j c0 c1 in
  a + b * x = sumn j (fun k => c k * legP k x) + c0 * legP j x + c1 * legP (S j) x.
Proof.
  induction j as [|j IH]; intros c0 c1.
  - cbn [clenshaw sumn]. rewrite legP_0, legP_1. ring.
  - cbn [clenshaw]. specialize (IH (c j - times_ratio old (fun t => t) c1 (INR (S j)) (INR (S (S j))))
      (c0 + times_ratio old (fun t => t) (c1 * x) (2 * INR (S j) + 1) (INR (S (S j))))).
    destruct (clenshaw _ _ _ _ _ _ _) as [a b]. rewrite IH. clear IH. rewrite sumn_S.
    assert (N : INR (S (S j)) <> 0) by (apply not_0_INR; lia). rewrite !times_exact by exact N.
    rewrite (legP_SS j). rewrite !S_INR in *. field. rewrite <- S_INR in N. rewrite !S_INR in N. lra.
Qed.

Lemma legval_exact old n c x : legval_rd old (fun t => t) n c x = legval n c x.
Proof.
  unfold legval_rd, legval. destruct n as [|[|m]]; [reflexivity| |].
  - cbn [sumn]. rewrite legP_0. ring.
  - pose proof (clenshaw_exact old c x m (c m) (c (S m))) as H. destruct (clenshaw _ _ _ _ _ _ _) as [a b]. rewrite H, !sumn_S. ring.
Qed.

(** * A norm in which the recurrence does not grow *)
Section Norm.
Variable z : R.
Hypothesis Hz : -1 <= z <= 1.
Let s := sqrt (1 - z * z).

Definition cnorm (q p : R) : R := Cmod (q + z * p, s * p).

Lemma s_sqr : s * s = 1 - z * z.
Proof. apply sqrt_sqrt. nra. Qed.
Lemma s_range : 0 <= s <= 1.
Proof. pose proof s_sqr. pose proof (sqrt_pos (1 - z * z)) as P. fold s in P. split; nra. Qed.

Lemma cnorm_plus q p q' p' : cnorm (q + q') (p + p') <= cnorm q p + cnorm q' p'.
Proof.
  unfold cnorm. replace (q + q' + z * (p + p'), s * (p + p')) with (Cplus (q + z * p, s * p) (q' + z * p', s * p')).
  - apply Cmod_triangle.
  - unfold Cplus. cbn. f_equal; ring.
Qed.
Lemma cnorm_pos q p : 0 <= cnorm q p.
Proof. apply Cmod_ge_0. Qed.
Lemma cnorm_r q p : Rabs (q + z * p) <= cnorm q p.
Proof. unfold cnorm. eapply Rle_trans; [|apply (Rmax_Cmod (q + z * p, s * p))]. cbn. apply Rmax_l. Qed.
Lemma cnorm_le q p : cnorm q p <= Rabs q + 2 * Rabs p.
Proof.
  unfold cnorm. replace (q + z * p, s * p) with (Cplus (RtoC (q + z * p)) (Cmult (RtoC (s * p)) Ci)).
  2:{ unfold Cplus, Cmult, RtoC, Ci. cbn. f_equal; ring. }
  eapply Rle_trans; [apply Cmod_triangle|]. rewrite Cmod_mult, !Cmod_R.
  assert (Cmod Ci = 1) as ->. { unfold Cmod, Ci. cbn. replace (0 * (0 * 1) + 1 * (1 * 1)) with 1 by ring. apply sqrt_1. }
  pose proof (Rabs_triang q (z * p)) as T. rewrite Rabs_mult in T. rewrite Rabs_mult. pose proof s_range as S. rewrite (Rabs_pos_eq s) by lra.
  assert (Rabs z <= 1) by (apply Rabs_le; lra). pose proof (Rabs_pos p). nra.
Qed.
Lemma cnorm_sum q p : cnorm q p <= Rabs q + Rabs p.
Proof.
  unfold cnorm. replace (q + z * p, s * p) with (Cplus (RtoC q) (Cmult (RtoC p) (z, s))).
  2:{ unfold Cplus, Cmult, RtoC. cbn. f_equal; ring. }
  eapply Rle_trans; [apply Cmod_triangle|]. rewrite Cmod_mult, !Cmod_R.
  replace (Cmod (z, s)) with 1; [lra|]. unfold Cmod. cbn [fst snd]. replace (z ^ 2 + s ^ 2) with 1; [rewrite sqrt_1; reflexivity|].
  pose proof s_sqr. nra.
Qed.
Lemma cnorm_one q : cnorm q 0 <= Rabs q.
Proof. eapply Rle_trans; [apply cnorm_le|]. rewrite Rabs_R0. lra. Qed.

(** One step, without the coefficient. *)
Lemma cnorm_step b q p : 0 <= b <= 1 -> cnorm (- (p * b)) (q + p * z * (1 + b)) <= cnorm q p.
Proof.
  intros Hb. unfold cnorm. pose proof s_sqr as S2.
  replace (- (p * b) + z * (q + p * z * (1 + b)), s * (q + p * z * (1 + b))) with (Cmult (q + z * p, b * (s * p)) (z, s)).
  2:{ unfold Cmult. cbn. f_equal; [|ring]. replace (b * (s * p) * s) with (b * p * (s * s)) by ring. rewrite S2. ring. }
  rewrite Cmod_mult. assert (Cmod (z, s) = 1) as ->.
  { unfold Cmod. cbn. replace (z * (z * 1) + s * (s * 1)) with (z * z + s * s) by ring. rewrite S2. replace (z * z + (1 - z * z)) with 1 by ring. apply sqrt_1. }
  rewrite Rmult_1_r. unfold Cmod. apply sqrt_le_1_alt. cbn. assert (0 <= (s * p) * (s * p)) by nra. assert (b * b <= 1) by nra. nra.
Qed.

(** A step with errors e0 and e1, for the difference of two sequences. *)
Lemma cnorm_diff b q p q' p' c e0 e1 : 0 <= b <= 1 ->
  cnorm (c - p' * b + e0 - (c - p * b)) (q' + p' * z * (1 + b) + e1 - (q + p * z * (1 + b))) <= cnorm (q' - q) (p' - p) + (Rabs e0 + 2 * Rabs e1).
Proof.
  intros Hb. pose proof (cnorm_step b (q' - q) (p' - p) Hb) as H. pose proof (cnorm_plus (- ((p' - p) * b)) (q' - q + (p' - p) * z * (1 + b)) e0 e1) as T.
  pose proof (cnorm_le e0 e1) as E.
  replace (c - p' * b + e0 - (c - p * b)) with (- ((p' - p) * b) + e0) by ring.
  replace (q' + p' * z * (1 + b) + e1 - (q + p * z * (1 + b))) with (q' - q + (p' - p) * z * (1 + b) + e1) by ring. lra.
Qed.
Lemma cnorm_next b q p c : 0 <= b <= 1 -> cnorm (c - p * b) (q + p * z * (1 + b)) <= cnorm q p + Rabs c.
Proof.
  intros Hb. pose proof (cnorm_step b q p Hb) as H. pose proof (cnorm_plus (- (p * b)) (q + p * z * (1 + b)) c 0) as T. pose proof (cnorm_one c) as E.
  replace (c - p * b) with (- (p * b) + c) by ring. replace (q + p * z * (1 + b)) with (q + p * z * (1 + b) + 0) by ring. lra.
Qed.
End Norm.

(** * Rounding errors *)
Section Rounded.
Variables (u eta : R) (rd : R -> R) (old : bool).
Hypothesis Hr : forall x, Rabs (rd x - x) <= u * Rabs x + eta.
Hypothesis Hu : 0 < u <= / 10000.
Hypothesis He : 0 <= eta <= u / 1000.

Lemma rd_near x y d : Rabs (x - y) <= d -> Rabs (rd x - y) <= u * Rabs y + (1 + u) * d + eta.
Proof.
  intros H. pose proof (Hr x) as R1. pose proof (Rabs_triang (rd x - x) (x - y)) as T. replace (rd x - x + (x - y)) with (rd x - y) in T by ring.
  pose proof (Rabs_triang_inv x y) as I. assert (Rabs x <= Rabs y + d) by lra. nra.
Qed.

Lemma times_near a n d M : 1 <= d -> 0 <= n / d <= M -> M <= 2 ->
  Rabs (times_ratio old rd a n d - a * (n / d)) <= (201 / 100 * M + / 100) * u * Rabs a + 3 * eta.
Proof.
  intros Hd Hn HM. pose proof (Rabs_pos a) as Pa. unfold times_ratio. destruct old.
  - assert (E : Rabs (rd (a * n) / d - a * (n / d)) <= u * (Rabs a * (n / d)) + eta).
    { pose proof (Hr (a * n)) as R1. replace (rd (a * n) / d - a * (n / d)) with ((rd (a * n) - a * n) / d) by (field; lra).
      unfold Rdiv. rewrite Rabs_mult, (Rabs_pos_eq (/ d)) by (left; apply Rinv_0_lt_compat; lra).
      assert (I : 0 < / d <= 1). { split; [apply Rinv_0_lt_compat; lra|]. rewrite <- Rinv_1. apply Rinv_le_contravar; lra. }
      assert (N : 0 <= n). { replace n with (n / d * d) by (field; lra). apply Rmult_le_pos; lra. }
      rewrite Rabs_mult, (Rabs_pos_eq n N) in R1.
      apply Rle_trans with ((u * (Rabs a * n) + eta) * / d); [apply Rmult_le_compat_r; lra|]. unfold Rdiv. nra. }
    pose proof (rd_near _ _ _ E) as H. rewrite Rabs_mult, (Rabs_pos_eq (n / d)) in H by lra.
    assert (0 <= Rabs a * (n / d) <= Rabs a * M) by (split; [apply Rmult_le_pos; lra|apply Rmult_le_compat_l; lra]).
    assert (0 <= u * (Rabs a * (n / d)) <= u * (Rabs a * M)) by (split; [apply Rmult_le_pos; lra|apply Rmult_le_compat_l; lra]).
    assert (0 <= Rabs a * M) by lra. assert (u * (u * (Rabs a * (n / d))) <= / 10000 * (u * (Rabs a * M))) by (apply Rmult_le_compat; lra).
    assert (u * eta <= / 10000 * eta) by (apply Rmult_le_compat_r; lra). assert (0 <= u * Rabs a) by (apply Rmult_le_pos; lra). lra.
  - assert (E : Rabs (a * rd (n / d) - a * (n / d)) <= (u * M + eta) * Rabs a).
    { pose proof (Hr (n / d)) as R1. rewrite (Rabs_pos_eq (n / d)) in R1 by lra. replace (a * rd (n / d) - a * (n / d)) with ((rd (n / d) - n / d) * a) by ring. rewrite Rabs_mult.
      apply Rmult_le_compat_r; [lra|]. assert (u * (n / d) <= u * M) by (apply Rmult_le_compat_l; lra). lra. }
    pose proof (rd_near _ _ _ E) as H. rewrite Rabs_mult, (Rabs_pos_eq (n / d)) in H by lra.
    assert (0 <= Rabs a * (n / d) <= Rabs a * M) by (split; [apply Rmult_le_pos; lra|apply Rmult_le_compat_l; lra]).
    assert (0 <= u * (Rabs a * (n / d)) <= u * (Rabs a * M)) by (split; [apply Rmult_le_pos; lra|apply Rmult_le_compat_l; lra]).
    assert (0 <= u * Rabs a) by (apply Rmult_le_pos; lra). assert (0 <= eta * Rabs a <= u * Rabs a / 1000) by (split; [apply Rmult_le_pos; lra|nra]).
    assert (0 <= u * M * Rabs a) by (replace (u * M * Rabs a) with (u * Rabs a * M) by ring; apply Rmult_le_pos; lra).
    assert (u * ((u * M + eta) * Rabs a) <= / 10000 * ((u * M + eta) * Rabs a)) by (apply Rmult_le_compat_r; [|lra]; replace ((u * M + eta) * Rabs a) with (u * M * Rabs a + eta * Rabs a) by ring; lra).
    lra.
Qed.

Section Step.
Variables (z x dl : R).
Hypothesis Hz : -1 <= z <= 1.
Hypothesis Hx : Rabs (x - z) <= dl.
Hypothesis Hdl : dl <= / 100.

Lemma x_size : Rabs x <= 101 / 100.
Proof. pose proof (Rabs_triang_inv x z). assert (Rabs z <= 1) by (apply Rabs_le; lra). lra. Qed.
Lemma dl_pos : 0 <= dl.
Proof. pose proof (Rabs_pos (x - z)). lra. Qed.

Lemma prod_near p : Rabs (rd (p * x) - p * z) <= (101 / 100 * u + 1001 / 1000 * dl) * Rabs p + eta.
Proof.
  assert (E : Rabs (p * x - p * z) <= dl * Rabs p). { replace (p * x - p * z) with ((x - z) * p) by ring. rewrite Rabs_mult. apply Rmult_le_compat_r; [apply Rabs_pos|exact Hx]. }
  pose proof (rd_near _ _ _ E) as H. rewrite Rabs_mult in H. pose proof (Rabs_pos p). assert (Rabs z <= 1) by (apply Rabs_le; lra). pose proof (Rabs_pos z). pose proof dl_pos.
  assert (u * (Rabs p * Rabs z) <= u * Rabs p) by (apply Rmult_le_compat_l; [lra|]; rewrite <- (Rmult_1_r (Rabs p)) at 2; apply Rmult_le_compat_l; lra).
  assert (0 <= dl * Rabs p) by (apply Rmult_le_pos; lra). assert (u * (dl * Rabs p) <= / 10000 * (dl * Rabs p)) by (apply Rmult_le_compat_r; lra). assert (0 <= u * Rabs p) by (apply Rmult_le_pos; lra). lra.
Qed.

Lemma step0_near j c p : (1 <= j)%nat -> let b := INR j / INR (S j) in
  Rabs (rd (c - times_ratio old rd p (INR j) (INR (S j))) - (c - p * b)) <= u * Rabs c + 31 / 10 * u * Rabs p + 5 * eta.
Proof.
  intros Hj b. assert (J : 1 <= INR j) by (apply (le_INR 1); auto). assert (HS : INR (S j) = INR j + 1) by apply S_INR.
  assert (Hb : 0 <= b <= 1). { unfold b. rewrite HS. split; [apply Rdiv_le_0_compat; lra|]. apply (Rmult_le_reg_r (INR j + 1)); [lra|]. unfold Rdiv. rewrite Rmult_assoc, Rinv_l by lra. lra. }
  pose proof (times_near p (INR j) (INR (S j)) 1 ltac:(lra) Hb ltac:(lra)) as T. fold b in T.
  assert (E : Rabs (c - times_ratio old rd p (INR j) (INR (S j)) - (c - p * b)) <= (201 / 100 * 1 + / 100) * u * Rabs p + 3 * eta).
  { rewrite Rabs_minus_sym. replace (c - p * b - (c - times_ratio old rd p (INR j) (INR (S j)))) with (times_ratio old rd p (INR j) (INR (S j)) - p * b) by ring. exact T. }
  pose proof (rd_near _ _ _ E) as H. pose proof (Rabs_triang c (- (p * b))) as Q. rewrite Rabs_Ropp, Rabs_mult, (Rabs_pos_eq b) in Q by lra. replace (c + - (p * b)) with (c - p * b) in Q by ring.
  pose proof (Rabs_pos p) as Pp. assert (Rabs p * b <= Rabs p) by (rewrite <- (Rmult_1_r (Rabs p)) at 2; apply Rmult_le_compat_l; lra).
  assert (u * Rabs (c - p * b) <= u * (Rabs c + Rabs p)) by (apply Rmult_le_compat_l; lra).
  assert (0 <= u * Rabs p) by (apply Rmult_le_pos; lra).
  assert (u * ((201 / 100 * 1 + / 100) * u * Rabs p + 3 * eta) <= / 10000 * ((201 / 100 * 1 + / 100) * u * Rabs p + 3 * eta)) by (apply Rmult_le_compat_r; lra). lra.
Qed.

Lemma step1_near j p q : let b := INR j / INR (S j) in
  Rabs (rd (q + times_ratio old rd (rd (p * x)) (2 * INR j + 1) (INR (S j))) - (q + p * z * (1 + b))) <= u * Rabs q + (83 / 10 * u + 203 / 100 * dl) * Rabs p + 8 * eta.
Proof.
  intros b. pose proof (pos_INR j) as J. assert (HS : INR (S j) = INR j + 1) by apply S_INR. pose proof dl_pos as Pd. pose proof (Rabs_pos p) as Pp.
  assert (Hb : 0 <= b <= 1). { unfold b. rewrite HS. split; [apply Rdiv_le_0_compat; lra|]. apply (Rmult_le_reg_r (INR j + 1)); [lra|]. unfold Rdiv. rewrite Rmult_assoc, Rinv_l by lra. lra. }
  assert (F : (2 * INR j + 1) / INR (S j) = 1 + b) by (unfold b; rewrite HS; field; lra).
  assert (Hf : 0 <= (2 * INR j + 1) / INR (S j) <= 2) by (rewrite F; lra).
  pose proof (times_near (rd (p * x)) (2 * INR j + 1) (INR (S j)) 2 ltac:(lra) Hf ltac:(lra)) as T. rewrite F in T.
  set (t := times_ratio old rd (rd (p * x)) (2 * INR j + 1) (INR (S j))) in *. pose proof (prod_near p) as P.
  assert (Az : Rabs z <= 1) by (apply Rabs_le; lra).
  assert (Pz : Rabs (p * z) <= Rabs p) by (rewrite Rabs_mult; rewrite <- (Rmult_1_r (Rabs p)) at 2; apply Rmult_le_compat_l; lra).
  assert (Up : 0 <= u * Rabs p) by (apply Rmult_le_pos; lra). assert (Dp : 0 <= dl * Rabs p <= / 100 * Rabs p) by (split; [apply Rmult_le_pos; lra|apply Rmult_le_compat_r; lra]).
  assert (Sz : Rabs (rd (p * x)) <= 102 / 100 * Rabs p + eta).
  { pose proof (Rabs_triang_inv (rd (p * x)) (p * z)). assert (u * Rabs p <= / 10000 * Rabs p) by (apply Rmult_le_compat_r; lra). lra. }
  assert (E1 : Rabs (t - p * z * (1 + b)) <= (62 / 10 * u + 2003 / 1000 * dl) * Rabs p + 6 * eta).
  { assert (Q : Rabs (rd (p * x) * (1 + b) - p * z * (1 + b)) <= 2 * ((101 / 100 * u + 1001 / 1000 * dl) * Rabs p + eta)).
    { replace (rd (p * x) * (1 + b) - p * z * (1 + b)) with ((1 + b) * (rd (p * x) - p * z)) by ring. rewrite Rabs_mult, (Rabs_pos_eq (1 + b)) by lra. apply Rmult_le_compat; try lra. apply Rabs_pos. }
    pose proof (Rabs_triang (t - rd (p * x) * (1 + b)) (rd (p * x) * (1 + b) - p * z * (1 + b))) as W. replace (t - rd (p * x) * (1 + b) + (rd (p * x) * (1 + b) - p * z * (1 + b))) with (t - p * z * (1 + b)) in W by ring.
    assert ((201 / 100 * 2 + / 100) * u * Rabs (rd (p * x)) <= (201 / 100 * 2 + / 100) * u * (102 / 100 * Rabs p + eta)) by (apply Rmult_le_compat_l; lra).
    assert (u * eta <= / 10000 * eta) by (apply Rmult_le_compat_r; lra). lra. }
  assert (E : Rabs (q + t - (q + p * z * (1 + b))) <= (62 / 10 * u + 2003 / 1000 * dl) * Rabs p + 6 * eta) by (replace (q + t - (q + p * z * (1 + b))) with (t - p * z * (1 + b)) by ring; exact E1).
  pose proof (rd_near _ _ _ E) as H. clear E.
  pose proof (Rabs_triang q (p * z * (1 + b))) as Q. rewrite (Rabs_mult (p * z)), (Rabs_pos_eq (1 + b)) in Q by lra.
  assert (Rabs (p * z) * (1 + b) <= Rabs p * 2) by (apply Rmult_le_compat; try lra; apply Rabs_pos).
  assert (u * Rabs (q + p * z * (1 + b)) <= u * (Rabs q + Rabs p * 2)) by (apply Rmult_le_compat_l; lra).
  assert (u * ((62 / 10 * u + 2003 / 1000 * dl) * Rabs p + 6 * eta) <= / 10000 * ((62 / 10 * u + 2003 / 1000 * dl) * Rabs p + 6 * eta)) by (apply Rmult_le_compat_r; lra). lra.
Qed.

Lemma last_near p q : Rabs (rd (q + rd (p * x)) - (q + p * z)) <= u * Rabs q + (21 / 10 * u + 101 / 100 * dl) * Rabs p + 3 * eta.
Proof.
  pose proof (prod_near p) as P. pose proof dl_pos as Pd. pose proof (Rabs_pos p) as Pp.
  assert (E : Rabs (q + rd (p * x) - (q + p * z)) <= (101 / 100 * u + 1001 / 1000 * dl) * Rabs p + eta) by (replace (q + rd (p * x) - (q + p * z)) with (rd (p * x) - p * z) by ring; exact P).
  pose proof (rd_near _ _ _ E) as H. clear E P. assert (Az : Rabs z <= 1) by (apply Rabs_le; lra).
  assert (Pz : Rabs (p * z) <= Rabs p) by (rewrite Rabs_mult; rewrite <- (Rmult_1_r (Rabs p)) at 2; apply Rmult_le_compat_l; lra).
  pose proof (Rabs_triang q (p * z)) as Q.
  assert (u * Rabs (q + p * z) <= u * (Rabs q + Rabs p)) by (apply Rmult_le_compat_l; lra).
  assert (Up : 0 <= u * Rabs p) by (apply Rmult_le_pos; lra). assert (Dp : 0 <= dl * Rabs p) by (apply Rmult_le_pos; lra).
  assert (u * ((101 / 100 * u + 1001 / 1000 * dl) * Rabs p + eta) <= / 10000 * ((101 / 100 * u + 1001 / 1000 * dl) * Rabs p + eta)) by (apply Rmult_le_compat_r; lra). lra.
Qed.

(** * The whole recurrence *)
Variables (c : nat -> R) (n : nat) (A : R).
Let w := u + dl.
Hypothesis HA : eta <= u * A.
Hypothesis Hw : 60 * (INR n * INR n) * w <= 1.
Hypothesis Hn : (2 <= n)%nat.

Definition grown (t : nat) (q p q0 p0 : R) : Prop :=
  cnorm z (q - q0) (p - p0) <= 50 * w * A * (INR t * (INR t + 1)) /\ Rabs p <= 3 * (INR t + 1) * A.

Lemma A_pos : 0 <= A.
Proof. apply (Rmult_le_reg_l u); lra. Qed.
Lemma w_pos : 0 < w.
Proof. pose proof dl_pos. unfold w. lra. Qed.
Lemma w_small t : (t + 2 <= n)%nat -> 60 * ((INR t + 2) * (INR t + 2)) * w <= 1.
Proof.
  intros H. eapply Rle_trans; [|exact Hw]. apply Rmult_le_compat_r; [left; apply w_pos|]. apply Rmult_le_compat_l; [lra|].
  apply le_INR in H. rewrite plus_INR in H. change (INR 2) with (1 + 1) in H. pose proof (pos_INR t). apply Rmult_le_compat; lra.
Qed.

Lemma q_size t q p q0 p0 : (t + 2 <= n)%nat -> cnorm z q0 p0 <= A -> grown t q p q0 p0 -> cnorm z q p <= 2 * A /\ Rabs q <= 2 * A + Rabs p.
Proof.
  intros Ht HB [G1 G2]. pose proof A_pos as PA. pose proof w_pos as Pw. pose proof (w_small t Ht) as S. pose proof (pos_INR t) as Pt.
  assert (C : cnorm z q p <= 2 * A).
  { pose proof (cnorm_plus z q0 p0 (q - q0) (p - p0)) as T. replace (q0 + (q - q0)) with q in T by ring. replace (p0 + (p - p0)) with p in T by ring.
    assert (50 * w * A * (INR t * (INR t + 1)) <= A).
    { replace (50 * w * A * (INR t * (INR t + 1))) with (A * (50 * (INR t * (INR t + 1)) * w)) by ring. rewrite <- (Rmult_1_r A) at 2. apply Rmult_le_compat_l; [lra|].
      eapply Rle_trans; [|exact S]. apply Rmult_le_compat_r; [lra|]. nra. }
    lra. }
  split; [exact C|]. pose proof (cnorm_r z q p) as R1. pose proof (Rabs_triang (q + z * p) (- (z * p))) as T. replace (q + z * p + - (z * p)) with q in T by ring.
  rewrite Rabs_Ropp, Rabs_mult in T. assert (Rabs z <= 1) by (apply Rabs_le; lra). pose proof (Rabs_pos p). assert (Rabs z * Rabs p <= 1 * Rabs p) by (apply Rmult_le_compat_r; lra). lra.
Qed.

Lemma grown_step t j q p q0 p0 : (t + 3 <= n)%nat -> (1 <= j)%nat -> Rabs (c (j - 1)%nat) <= A -> cnorm z q0 p0 <= A -> grown t q p q0 p0 ->
  let b := INR j / INR (S j) in
  grown (S t) (rd (c (j - 1)%nat - times_ratio old rd p (INR j) (INR (S j)))) (rd (q + times_ratio old rd (rd (p * x)) (2 * INR j + 1) (INR (S j))))
    (c (j - 1)%nat - p0 * b) (q0 + p0 * z * (1 + b)).
Proof.
  intros Ht Hj Hc HB G b. destruct (q_size t q p q0 p0 ltac:(lia) HB G) as [C Q]. destruct G as [G1 G2].
  pose proof A_pos as PA. pose proof w_pos as Pw. pose proof (w_small (S t) ltac:(lia)) as S. rewrite S_INR in S. pose proof (pos_INR t) as Pt. pose proof dl_pos as Pd. pose proof (Rabs_pos p) as Pp.
  pose proof (step0_near j (c (j - 1)%nat) p Hj) as E0. pose proof (step1_near j p q) as E1. cbv zeta in E0, E1. fold b in E0, E1.
  assert (Hb : 0 <= b <= 1). { unfold b. rewrite S_INR. pose proof (pos_INR j). split; [apply Rdiv_le_0_compat; lra|]. apply (Rmult_le_reg_r (INR j + 1)); [lra|]. unfold Rdiv. rewrite Rmult_assoc, Rinv_l by lra. lra. }
  set (cj := c (j - 1)%nat) in *. set (q' := rd (cj - _)) in *. set (p' := rd (q + _)) in *.
  pose (e0 := q' - (cj - p * b)). pose (e1 := p' - (q + p * z * (1 + b))). fold e0 in E0. fold e1 in E1.
  assert (UA : 0 <= u * A <= w * A) by (split; [apply Rmult_le_pos; lra|apply Rmult_le_compat_r; unfold w; lra]).
  assert (Up : 0 <= u * Rabs p <= w * Rabs p) by (split; [apply Rmult_le_pos; lra|apply Rmult_le_compat_r; unfold w; lra]).
  assert (Wp : w * Rabs p = u * Rabs p + dl * Rabs p) by (unfold w; ring). assert (Dp : 0 <= dl * Rabs p) by (apply Rmult_le_pos; lra).
  assert (Uc : u * Rabs cj <= u * A) by (apply Rmult_le_compat_l; lra). assert (Uq : u * Rabs q <= u * (2 * A + Rabs p)) by (apply Rmult_le_compat_l; lra).
  assert (B0 : Rabs e0 <= 6 * (w * A) + 31 / 10 * (w * Rabs p)) by lra.
  assert (B1 : Rabs e1 <= 10 * (w * A) + 93 / 10 * (w * Rabs p)) by lra.
  assert (Wp' : w * Rabs p <= 3 * (INR t + 1) * (w * A)) by (replace (3 * (INR t + 1) * (w * A)) with (w * (3 * (INR t + 1) * A)) by ring; apply Rmult_le_compat_l; lra).
  assert (WA : 0 <= w * A) by lra. assert (TA : 0 <= INR t * (w * A)) by (apply Rmult_le_pos; lra).
  split.
  - pose proof (cnorm_diff z Hz b q0 p0 q p cj e0 e1 Hb) as D. replace (cj - p * b + e0) with q' in D by (unfold e0; ring). replace (q + p * z * (1 + b) + e1) with p' in D by (unfold e1; ring).
    rewrite S_INR. eapply Rle_trans; [exact D|].
    replace (50 * w * A * ((INR t + 1) * (INR t + 1 + 1))) with (50 * w * A * (INR t * (INR t + 1)) + 100 * (INR t + 1) * (w * A)) by ring.
    lra.
  - assert (P1 : Rabs p' <= Rabs (q + p * z * (1 + b)) + Rabs e1). { replace p' with (q + p * z * (1 + b) + e1) by (unfold e1; ring). apply Rabs_triang. }
    assert (P2 : Rabs (q + p * z * (1 + b)) <= 2 * A + Rabs p).
    { pose proof (cnorm_r z q p) as R1. replace (q + p * z * (1 + b)) with (q + z * p + b * z * p) by ring. eapply Rle_trans; [apply Rabs_triang|]. rewrite (Rabs_mult (b * z)), (Rabs_mult b).
      assert (Rabs z <= 1) by (apply Rabs_le; lra). pose proof (Rabs_pos z). rewrite (Rabs_pos_eq b) by lra. assert (b * Rabs z <= 1) by nra. assert (b * Rabs z * Rabs p <= 1 * Rabs p) by (apply Rmult_le_compat_r; lra). lra. }
    assert (W1 : 540 * w <= 1) by nra. assert (W2 : (INR t + 1) * w <= / 180).
    { assert (60 * ((INR t + 1) * 3) * w <= 1); [|lra]. eapply Rle_trans; [|exact S]. apply Rmult_le_compat_r; [lra|]. nra. }
    assert (w * A <= / 540 * A) by (apply Rmult_le_compat_r; lra).
    assert ((INR t + 1) * (w * A) <= / 180 * A) by (rewrite <- Rmult_assoc; apply Rmult_le_compat_r; lra).
    rewrite S_INR. lra.
Qed.

Lemma clenshaw_near j : forall t q p q0 p0, (t + j + 2 <= n)%nat -> cnorm z q0 p0 + sumn j (fun k => Rabs (c k)) <= A -> grown t q p q0 p0 ->
  let '(a, b) := clenshaw old rd c x j q p in let '(a0, b0) := clenshaw old (fun s => s) c z j q0 p0 in
  cnorm z a0 b0 <= A /\ grown (t + j) a b a0 b0.
Proof.
  induction j as [|j IH]; intros t q p q0 p0 Ht HB G.
  - cbn [clenshaw sumn] in *. rewrite Nat.add_0_r. split; [lra|exact G].
  - cbn [clenshaw]. rewrite sumn_S in HB.
    assert (PS : 0 <= sumn j (fun k => Rabs (c k))) by (apply sumn_nonneg; intros; apply Rabs_pos). pose proof (cnorm_pos z q0 p0) as PN. pose proof (Rabs_pos (c j)) as Pc.
    pose proof (grown_step t (S j) q p q0 p0 ltac:(lia) ltac:(lia)) as GS. replace (S j - 1)%nat with j in GS by lia. specialize (GS ltac:(lra) ltac:(lra) G). cbv zeta in GS.
    set (b := INR (S j) / INR (S (S j))) in *.
    assert (NS : INR (S (S j)) <> 0) by (apply not_0_INR; lia).
    assert (Eq0 : c j - times_ratio old (fun s => s) p0 (INR (S j)) (INR (S (S j))) = c j - p0 * b) by (rewrite times_exact by exact NS; reflexivity).
    assert (Ep0 : q0 + times_ratio old (fun s => s) (p0 * z) (2 * INR (S j) + 1) (INR (S (S j))) = q0 + p0 * z * (1 + b)).
    { rewrite times_exact by exact NS. unfold b. rewrite (S_INR (S j)) in *. field. exact NS. }
    rewrite Eq0, Ep0. replace (t + S j)%nat with (S t + j)%nat by lia. apply IH; [lia| |exact GS].
    assert (Hb : 0 <= b <= 1). { unfold b. rewrite (S_INR (S j)). pose proof (pos_INR (S j)). split; [apply Rdiv_le_0_compat; lra|]. apply (Rmult_le_reg_r (INR (S j) + 1)); [lra|]. unfold Rdiv. rewrite Rmult_assoc, Rinv_l by lra. lra. }
    pose proof (cnorm_next z Hz b q0 p0 (c j) Hb). lra.
Qed.
End Step.

Lemma legval_near n c x z dl S : (1 <= n)%nat -> -1 <= z <= 1 -> Rabs (x - z) <= dl -> 60 * (INR n * INR n) * (u + dl) <= 1 ->
  sumn n (fun k => Rabs (c k)) <= S ->
  Rabs (legval_rd old rd n c x - legval n c z) <= 50 * (INR n * INR n) * (u + dl) * (S + eta / u) /\ Rabs (legval n c z) <= S + eta / u.
Proof.
  intros Hn Hz Hx Hw HS. set (A := S + eta / u).
  assert (Pd : 0 <= dl) by (pose proof (Rabs_pos (x - z)); lra).
  assert (N1 : 1 <= INR n) by (apply (le_INR 1); auto).
  assert (EA : eta <= u * A). { unfold A. replace (u * (S + eta / u)) with (u * S + eta) by (field; lra). assert (0 <= sumn n (fun k => Rabs (c k))) by (apply sumn_nonneg; intros; apply Rabs_pos). assert (0 <= u * S) by (apply Rmult_le_pos; lra). lra. }
  assert (SA : S <= A). { unfold A. assert (0 <= eta / u) by (apply Rdiv_le_0_compat; lra). lra. }
  assert (PS : 0 <= sumn n (fun k => Rabs (c k))) by (apply sumn_nonneg; intros; apply Rabs_pos).
  destruct n as [|[|m]]; [lia| |].
  - unfold legval_rd, legval. cbn [sumn] in *. rewrite legP_0. change (INR 1) with 1 in *.
    assert (D0 : Rabs (rd (0 * x)) <= eta). { pose proof (Hr (0 * x)) as H. rewrite Rmult_0_l, Rminus_0_r, Rabs_R0 in H. rewrite Rmult_0_l. lra. }
    assert (E : Rabs (c 0%nat + rd (0 * x) - c 0%nat) <= eta) by (replace (c 0%nat + rd (0 * x) - c 0%nat) with (rd (0 * x)) by ring; exact D0).
    pose proof (rd_near _ _ _ E) as H. replace (0 + c 0%nat * 1) with (c 0%nat) by ring.
    assert (u * Rabs (c 0%nat) <= u * A) by (apply Rmult_le_compat_l; lra). assert (u * eta <= / 10000 * eta) by (apply Rmult_le_compat_r; lra).
    assert (u * A <= (u + dl) * A) by (apply Rmult_le_compat_r; lra). fold A. split; lra.
  - set (n := Datatypes.S (Datatypes.S m)) in *. assert (Hn2 : (2 <= n)%nat) by (unfold n; lia).
    assert (N2 : 2 <= INR n) by (apply (le_INR 2); auto).
    assert (Hdl : dl <= / 100) by nra.
    rewrite <- (legval_exact old). unfold legval_rd, n. fold A.
    pose proof (clenshaw_near z x dl Hz Hx Hdl c n A EA Hw Hn2 m 0%nat (c m) (c (Datatypes.S m)) (c m) (c (Datatypes.S m)) ltac:(unfold n; lia)) as K.
    rewrite (sumn_S (Datatypes.S m)), sumn_S in HS. pose proof (cnorm_le z Hz (c m) (c (Datatypes.S m))) as CL.
    assert (PS' : 0 <= sumn m (fun k => Rabs (c k))) by (apply sumn_nonneg; intros; apply Rabs_pos).
    pose proof (Rabs_pos (c m)) as P0. pose proof (Rabs_pos (c (Datatypes.S m))) as P1.
    specialize (K ltac:(pose proof (cnorm_sum z Hz (c m) (c (Datatypes.S m))); lra)).
    assert (G0 : grown z dl A 0 (c m) (c (Datatypes.S m)) (c m) (c (Datatypes.S m))).
    { split.
      - replace (c m - c m) with 0 by ring. replace (c (Datatypes.S m) - c (Datatypes.S m)) with 0 by ring. change (INR 0) with 0.
        pose proof (cnorm_sum z Hz 0 0) as E. rewrite Rabs_R0 in E. lra.
      - change (INR 0) with 0. lra. }
    specialize (K G0). clear G0.
    destruct (clenshaw old rd c x m (c m) (c (Datatypes.S m))) as [a b]. destruct (clenshaw old (fun s => s) c z m (c m) (c (Datatypes.S m))) as [a0 b0].
    destruct K as [K0 G]. cbn [Nat.add] in G.
    assert (Q := q_size z x dl Hz Hx n A EA Hw m a b a0 b0 ltac:(unfold n; lia) K0 G). destruct Q as [_ Q]. destruct G as [G1 G2].
    pose proof (last_near z x dl Hz Hx b a) as L.
    pose proof (cnorm_r z (a - a0) (b - b0)) as R1.
    pose proof (cnorm_r z a0 b0) as R2.
    replace (a0 + b0 * z) with (a0 + z * b0) by ring. split; [|lra].
    pose proof (Rabs_triang (rd (a + rd (b * x)) - (a + b * z)) (a - a0 + z * (b - b0))) as T.
    replace (rd (a + rd (b * x)) - (a + b * z) + (a - a0 + z * (b - b0))) with (rd (a + rd (b * x)) - (a0 + z * b0)) in T by ring.
    eapply Rle_trans; [exact T|]. clear T.
    assert (Pm := pos_INR m). assert (PA : 0 <= A) by (apply (Rmult_le_reg_l u); lra).
    assert (Nm : INR n = INR m + 2) by (unfold n; rewrite !S_INR; ring). fold n. rewrite Nm.
    assert (Uq : u * Rabs a <= u * (2 * A + Rabs b)) by (apply Rmult_le_compat_l; lra).
    assert (Wb : (u + dl) * Rabs b <= (u + dl) * (3 * (INR m + 1) * A)) by (apply Rmult_le_compat_l; lra).
    pose proof (Rabs_pos b) as Pb. assert (0 <= dl * Rabs b) by (apply Rmult_le_pos; lra). assert (0 <= u * Rabs b) by (apply Rmult_le_pos; lra).
    assert (WA : u * A <= (u + dl) * A) by (apply Rmult_le_compat_r; lra). assert (UA : 0 <= u * A) by (apply Rmult_le_pos; lra).
    replace (50 * ((INR m + 2) * (INR m + 2)) * (u + dl) * A) with (50 * (u + dl) * A * (INR m * (INR m + 1)) + 150 * (INR m * ((u + dl) * A)) + 200 * ((u + dl) * A)) by ring.
    assert (0 <= INR m * ((u + dl) * A)) by (apply Rmult_le_pos; lra).
    assert (LL : u * Rabs a + (21 / 10 * u + 101 / 100 * dl) * Rabs b + 3 * eta <= 5 * ((u + dl) * A) + 31 / 10 * ((u + dl) * (3 * (INR m + 1) * A))) by lra.
    lra.
Qed.
End Rounded.
