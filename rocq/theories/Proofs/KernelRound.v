(** Errors of kernel values in rounded arithmetic. *)
From Coq Require Import ZArith Bool Reals Lra Lia Psatz.
From Coquelicot Require Import Coquelicot.
From Coq Require Import List.
From Verif.Model Require Import Base Util Num Gauss Kernel KernelIEEE.
From Verif.Spec Require Import SKernel SKernelIEEE.
From Verif.Proofs Require Import GaussFacts.
Import ListNotations.
Open Scope R_scope.
Notation length := List.length.

(** * Exponentials of perturbed arguments *)
Lemma exp_one_ge : 5 / 2 <= exp 1.
Proof.
  assert (H : 9 / 8 <= exp (/ 8)) by (pose proof (exp_ineq1_le (/ 8)); lra).
  replace 1 with (/ 8 * 8) by lra.
  assert (E : exp (/ 8 * 8) = exp (/ 8) ^ 8).
  { replace (/ 8 * 8) with (/8 + (/8 + (/8 + (/8 + (/8 + (/8 + (/8 + /8))))))) by lra. rewrite !exp_plus. ring. }
  rewrite E. apply Rle_trans with ((9 / 8) ^ 8); [lra|]. apply pow_incr. lra.
Qed.

Lemma texp t : t * exp (- t) <= 2 / 5.
Proof.
  assert (H : t <= exp (t - 1)) by (pose proof (exp_ineq1_le (t - 1)); lra).
  apply Rle_trans with (exp (t - 1) * exp (- t)); [apply Rmult_le_compat_r; [apply Rlt_le, exp_pos|auto]|].
  rewrite <- exp_plus. replace (t - 1 + - t) with (- (1)) by ring. rewrite exp_Ropp.
  pose proof exp_one_ge. apply Rle_trans with (/ (5 / 2)); [apply Rinv_le_contravar; lra|lra].
Qed.

Lemma exp_neg_le1 t : 0 <= t -> exp (- t) <= 1.
Proof. intros H. rewrite <- exp_0. destruct (Req_dec t 0) as [->|]; [rewrite Ropp_0; lra|]. apply Rlt_le, exp_increasing. lra. Qed.

(** e^-a - e^-b for a <= b *)
Lemma exp_drop a b : a <= b -> 0 <= exp (- a) - exp (- b) <= (b - a) * exp (- a).
Proof.
  intros H. replace (exp (- b)) with (exp (- a) * exp (- (b - a))) by (rewrite <- exp_plus; f_equal; ring).
  pose proof (exp_pos (- a)). pose proof (exp_neg_le1 (b - a) ltac:(lra)). pose proof (exp_ineq1_le (- (b - a))). nra.
Qed.

Lemma exp_near t t' th s : 0 <= t -> 0 <= t' -> 0 <= th <= / 8 -> 0 <= s <= / 100 -> Rabs (t' - t) <= th * t + s ->
  Rabs (exp (- t') - exp (- t)) <= th / 2 + s.
Proof.
  intros Ht Ht' Hth Hs H. destruct (Rle_dec t t') as [L|L].
  - destruct (exp_drop _ _ L) as [A B]. rewrite Rabs_minus_sym, Rabs_right by lra.
    rewrite Rabs_right in H by lra. eapply Rle_trans; [exact B|].
    apply Rle_trans with ((th * t + s) * exp (- t)); [apply Rmult_le_compat_r; [apply Rlt_le, exp_pos|auto]|].
    pose proof (texp t). pose proof (exp_neg_le1 t Ht). pose proof (exp_pos (- t)).
    apply Rle_trans with (th * (t * exp (- t)) + s * exp (- t)); [lra|]. nra.
  - apply Rnot_le_lt in L. destruct (exp_drop t' t ltac:(lra)) as [A B]. rewrite Rabs_right by lra.
    rewrite Rabs_minus_sym, Rabs_right in H by lra. eapply Rle_trans; [exact B|].
    pose proof (exp_neg_le1 t' Ht') as E1. pose proof (exp_pos (- t')) as P.
    assert (T : t <= (t' + s) * (8 / 7)) by nra. pose proof (texp t') as T'.
    assert (G : (t - t') * exp (- t') <= th * (t * exp (- t')) + s * exp (- t')) by nra.
    assert (G2 : t * exp (- t') <= (2 / 5 + s) * (8 / 7)) by nra.
    assert (G3 : (2 / 5 + s) * (8 / 7) <= 1 / 2) by lra. nra.
Qed.

Section Round.
Variables (u eta e : R) (rd : R -> R) (f : tfun).
Hypothesis Hs : small_errors u eta e.
Hypothesis Hrd : rounding u eta rd.
Hypothesis Hf : tfun_near e eta f.

Lemma small_u : 0 < u <= / 10000 /\ exists P, 10 ^ 100 = P /\ 0 < P /\ 10 ^ 200 = P * P /\ eta * P * P * P <= u /\ 10000000000 <= u * P.
Proof.
  destruct Hs as (A & B & C & D).
  assert (0 < / 10 ^ 90) by (apply Rinv_0_lt_compat, pow_lt; lra).
  split; [split; [eapply Rlt_le_trans; [eassumption|apply A]|apply A]|].
  exists (10 ^ 100). split; [reflexivity|]. split; [apply pow_lt; lra|]. split; [rewrite <- pow_add; reflexivity|]. split.
  - eapply Rle_trans; [|exact D]. apply Req_le. rewrite !Rmult_assoc. f_equal. rewrite <- !pow_add. reflexivity.
  - replace (10 ^ 100) with (10 ^ 90 * 10 ^ 10) by (rewrite <- pow_add; reflexivity).
    apply Rle_trans with (/ 10 ^ 90 * (10 ^ 90 * 10 ^ 10)); [|apply Rmult_le_compat_r; [apply Rmult_le_pos; apply pow_le; lra|apply A]].
    rewrite <- Rmult_assoc, Rinv_l by (apply pow_nonzero; lra). lra.
Qed.

Lemma small : 0 < u <= / 1000 /\ 0 <= e <= / 1000 /\ 0 <= eta /\ eta <= u / 1000000 /\ eta <= / 1000000.
Proof.
  pose proof small_u as (A & P & _ & P0 & _ & H & G). destruct Hs as (_ & B & C & _).
  split; [lra|]. split; [assumption|]. split; [assumption|].
  assert (P1 : 10000000000 <= P) by nra.
  assert (E1 : eta * P <= eta * P * P). { assert (0 <= eta * P) by (apply Rmult_le_pos; lra). nra. }
  assert (E2 : eta * P * P <= eta * P * P * P). { assert (0 <= eta * P * P) by (apply Rmult_le_pos; [apply Rmult_le_pos|]; lra). nra. }
  assert (E3 : eta * 10000000000 <= eta * P) by (apply Rmult_le_compat_l; lra). lra.
Qed.

Lemma eta_lam lam : Rabs lam <= 10 ^ 200 -> Rabs lam * eta <= u / 1000000.
Proof.
  pose proof small as (A & B & C & _). pose proof small_u as (_ & P & _ & P0 & -> & H & G).
  intros Hl. assert (P1 : 10000000000 <= P) by nra. pose proof (Rabs_pos lam).
  assert (E : Rabs lam * eta <= P * P * eta) by (apply Rmult_le_compat_r; lra).
  assert (0 <= P * P * eta) by (apply Rmult_le_pos; [apply Rmult_le_pos|]; lra).
  assert (P * P * eta * 10000000000 <= P * P * eta * P) by (apply Rmult_le_compat_l; lra). lra.
Qed.

Lemma rd_err x : Rabs (rd x - x) <= u * Rabs x + eta.
Proof. apply Hrd. Qed.
Lemma rd_zero : rd 0 = 0.
Proof. destruct Hrd as (_ & A & B). pose proof (A 0 ltac:(lra)). pose proof (B 0 ltac:(lra)). lra. Qed.
Lemma rd_pos x : 0 <= x -> 0 <= rd x.
Proof. apply Hrd. Qed.
Lemma rd_neg x : x <= 0 -> rd x <= 0.
Proof. apply Hrd. Qed.
Lemma rd_err_pos x : 0 <= x -> Rabs (rd x - x) <= u * x + eta.
Proof. intros H. pose proof (rd_err x) as E. rewrite (Rabs_right x) in E by lra. exact E. Qed.

(** The argument of the exponential: |v| (1 +- x)/2 with all roundings. *)
Lemma argument a a' w x' rho lam :
  0 <= a <= Rabs lam -> Rabs lam * eta <= u / 1000000 -> 0 <= w <= 1 -> 0 <= rho <= / 1000 -> 0 <= a' ->
  Rabs (a' - a) <= u * a + eta -> 0 <= x' -> Rabs (x' - 2 * w) <= rho * (2 * w) + 20 * eta ->
  let t' := - rd (- a' * rd (/ 2 * x')) in
  0 <= t' /\ Rabs (t' - a * w) <= (rho + 302 / 100 * u) * (a * w) + u / 1000.
Proof.
  intros Ha Hl Hw Hr Ha' Ea Hx Ex t'. pose proof small as (Hu & He & Hn & Hn1 & Hn2). pose proof Hl as Hln.
  assert (Ew : Rabs (rd (/ 2 * x') - w) <= (rho + 1001 / 1000 * u) * w + 12 * eta).
  { pose proof (rd_err_pos (/ 2 * x') ltac:(lra)) as E. apply Rabs_le_between in E. apply Rabs_le_between in Ex. apply Rabs_le_between.
    assert (u * (/ 2 * x') <= u * (w + rho * w + 10 * eta)) by (apply Rmult_le_compat_l; lra).
    assert (u * eta <= / 1000 * eta) by (apply Rmult_le_compat_r; lra).
    assert (0 <= u * w) by (apply Rmult_le_pos; lra). assert (rho * (u * w) <= / 1000 * (u * w)) by (apply Rmult_le_compat_r; lra). lra. }
  pose proof (rd_pos (/ 2 * x') ltac:(lra)) as Hw'. set (w' := rd (/ 2 * x')) in *. clearbody w'.
  assert (Ep : Rabs (a' * w' - a * w) <= (rho + 2005 / 1000 * u) * (a * w) + u / 10000).
  { replace (a' * w' - a * w) with ((a' - a) * w' + a * (w' - w)) by ring.
    eapply Rle_trans; [apply Rabs_triang|]. rewrite !Rabs_mult. rewrite (Rabs_right w') by lra. rewrite (Rabs_right a) by lra.
    assert (B1 : w' <= 1003 / 1000 * w + 12 * eta).
    { apply Rabs_le_between in Ew. assert ((rho + 1001 / 1000 * u) * w <= 21 / 10000 * w) by (apply Rmult_le_compat_r; lra). lra. }
    assert (B2 : w' <= 2) by lra.
    assert (C1 : Rabs (a' - a) * w' <= (u * a + eta) * w') by (apply Rmult_le_compat_r; auto).
    assert (C2 : a * Rabs (w' - w) <= a * ((rho + 1001 / 1000 * u) * w + 12 * eta)) by (apply Rmult_le_compat_l; lra).
    assert (C3 : u * a * w' <= u * a * (1003 / 1000 * w + 12 * eta)) by (apply Rmult_le_compat_l; [apply Rmult_le_pos; lra|auto]).
    assert (C4 : a * eta <= u / 1000000) by (eapply Rle_trans; [apply Rmult_le_compat_r; [auto|apply Ha]|auto]).
    assert (C5 : u * (a * eta) <= / 1000 * (a * eta)) by (apply Rmult_le_compat_r; [apply Rmult_le_pos; lra|lra]).
    assert (C6 : eta * w' <= eta * 2) by (apply Rmult_le_compat_l; auto).
    assert (C7 : 0 <= u * a * w) by (apply Rmult_le_pos; [apply Rmult_le_pos|]; lra).
    lra. }
  assert (Hp : 0 <= a' * w') by (apply Rmult_le_pos; auto).
  assert (Et : Rabs (t' - a' * w') <= u * (a' * w') + eta).
  { unfold t'. replace (- a' * w') with (- (a' * w')) by ring. pose proof (rd_err (- (a' * w'))) as E. rewrite Rabs_Ropp, (Rabs_right (a' * w')) in E by lra.
    replace (- rd (- (a' * w')) - a' * w') with (- (rd (- (a' * w')) - - (a' * w'))) by ring. rewrite Rabs_Ropp. exact E. }
  split. { unfold t'. pose proof (rd_neg (- a' * w') ltac:(lra)). lra. }
  set (p := a' * w') in *. clearbody p t'. set (t := a * w) in *. assert (0 <= t) by (apply Rmult_le_pos; lra). clearbody t.
  assert (Bp : p <= 101 / 100 * t + u / 10000).
  { apply Rabs_le_between in Ep. assert ((rho + 2005 / 1000 * u) * t <= 5 / 1000 * t) by (apply Rmult_le_compat_r; lra). lra. }
  assert (u * p <= u * (101 / 100 * t + u / 10000)) by (apply Rmult_le_compat_l; lra).
  assert (u * (u / 10000) <= / 1000 * (u / 10000)) by (apply Rmult_le_compat_r; lra).
  apply Rabs_le_between in Ep. apply Rabs_le_between in Et. apply Rabs_le_between.
  assert (0 <= u * t) by (apply Rmult_le_pos; lra). lra.
Qed.

(** The numerator, with the branch chosen by the sign of the rounded v. *)
Lemma numerator a a' w x' rho lam :
  0 <= a <= Rabs lam -> Rabs lam * eta <= u / 1000000 -> 0 <= w <= 1 -> 0 <= rho <= / 1000 -> 0 <= a' ->
  Rabs (a' - a) <= u * a + eta -> (0 <= x' /\ Rabs (x' - 2 * w) <= rho * (2 * w) + 20 * eta \/ a' = 0) ->
  Rabs (f_exp f (rd (- a' * rd (/ 2 * x'))) - exp (- (a * w))) <= rho / 2 + 153 / 100 * u + e.
Proof.
  intros Ha Hl Hw Hr Ha' Ea Ex. pose proof small as (Hu & He & Hn & Hn1 & Hn2).
  assert (G : exists t', 0 <= t' /\ - t' = rd (- a' * rd (/ 2 * x')) /\ Rabs (t' - a * w) <= (rho + 302 / 100 * u) * (a * w) + u / 1000).
  { destruct Ex as [[Hx Ex]| ->].
    - pose proof (argument a a' w x' rho lam Ha Hl Hw Hr Ha' Ea Hx Ex) as [A B]. eexists. split; [exact A|]. split; [ring|exact B].
    - exists 0. split; [lra|]. split; [rewrite Ropp_0, Rmult_0_l, rd_zero; ring|].
      assert (La : a <= 2 * eta). { apply Rabs_le_between in Ea. nra. }
      assert (0 <= a * w) by nra. assert (a * w <= a) by nra. unfold Rminus. rewrite Rplus_0_l, Rabs_Ropp, Rabs_right by lra.
      assert (0 <= (rho + 302 / 100 * u) * (a * w)) by (apply Rmult_le_pos; lra). lra. }
  destruct G as (t' & G1 & G2 & G3). rewrite <- G2.
  assert (H0 : 0 <= a * w) by nra.
  pose proof (exp_near (a * w) t' (rho + 302 / 100 * u) (u / 1000) H0 G1 ltac:(lra) ltac:(lra) G3) as E.
  destruct Hf as (F & _). pose proof (F (- t') ltac:(lra)) as E2. unfold approximates in E2.
  rewrite (Rabs_right (exp (- t'))) in E2 by (apply Rle_ge, Rlt_le, exp_pos). pose proof (exp_neg_le1 t' G1). pose proof (exp_pos (- t')).
  assert (e * exp (- t') <= e) by nra.
  apply Rabs_le_between in E. apply Rabs_le_between in E2. apply Rabs_le_between. lra.
Qed.

Lemma vabs lam y : Rabs (Rabs (rd (lam * y)) - Rabs (lam * y)) <= u * Rabs (lam * y) + eta.
Proof.
  eapply Rle_trans; [|apply (rd_err (lam * y))]. apply Rabs_le_between. split.
  - pose proof (Rabs_triang_inv (lam * y) (rd (lam * y))). rewrite Rabs_minus_sym in H. lra.
  - pose proof (Rabs_triang_inv (rd (lam * y)) (lam * y)). lra.
Qed.

Lemma logistic_round lam y X xp xm rho :
  Rabs lam * eta <= u / 1000000 -> Rabs y <= 1 -> -1 <= X <= 1 -> 0 <= rho <= / 1000 ->
  0 <= xp -> 0 <= xm -> Rabs (xp - (1 + X)) <= rho * (1 + X) + 20 * eta -> Rabs (xm - (1 - X)) <= rho * (1 - X) + 20 * eta ->
  Rabs (logistic_compute_rd rd f (rd (/ 2 * xp)) (rd (/ 2 * xm)) (rd (lam * y)) - logistic_formula lam X y)
    <= 51 / 100 * rho + 41 / 10 * u + 201 / 100 * e.
Proof.
  intros Hl Hy HX Hr Pp Pm Ep Em. pose proof small as (Hu & He & Hn & Hn1 & Hn2). set (v := lam * y).
  assert (Ha : 0 <= Rabs v <= Rabs lam). { split; [apply Rabs_pos|]. unfold v. rewrite Rabs_mult. pose proof (Rabs_pos lam). nra. }
  pose proof (vabs lam y) as Ea. fold v in Ea. pose proof (Rabs_pos (rd v)) as Ha'.
  set (w := if Rltb 0 v then (1 + X) / 2 else (1 - X) / 2).
  assert (K : logistic_formula lam X y = exp (- (Rabs v * w)) / (1 + exp (- Rabs v))).
  { unfold logistic_formula, w. replace (- lam * y) with (- v) by (unfold v; ring). destruct (Rltb_spec 0 v) as [V|V].
    - rewrite (Rabs_right v) by lra. f_equal. f_equal. field.
    - rewrite (Rabs_left1 v) by lra. rewrite Ropp_involutive.
      replace (exp (- v * (X + 1) / 2)) with (exp (- (- v * ((1 - X) / 2))) * exp (- v)) by (rewrite <- exp_plus; f_equal; field).
      set (n := exp (- (- v * ((1 - X) / 2)))). pose proof (exp_pos v). rewrite (exp_Ropp v). field. lra. }
  assert (Hw : 0 <= w <= 1) by (unfold w; destruct (Rltb 0 v); lra).
  assert (N : Rabs (f_exp f (rd (- Rabs (rd v) * (if Rltb 0 (rd v) then rd (/ 2 * xp) else rd (/ 2 * xm)))) - exp (- (Rabs v * w)))
              <= rho / 2 + 153 / 100 * u + e).
  { replace (if Rltb 0 (rd v) then rd (/ 2 * xp) else rd (/ 2 * xm)) with (rd (/ 2 * (if Rltb 0 (rd v) then xp else xm))) by (destruct (Rltb 0 (rd v)); reflexivity).
    apply numerator with (lam := lam); auto. unfold w. destruct (Rltb_spec 0 v) as [V|V]; destruct (Rltb_spec 0 (rd v)) as [V'|V'].
    - left. replace (2 * ((1 + X) / 2)) with (1 + X) by field. split; auto.
    - right. pose proof (rd_pos v ltac:(lra)). replace (rd v) with 0 by lra. apply Rabs_R0.
    - pose proof (rd_neg v ltac:(lra)). lra.
    - left. replace (2 * ((1 - X) / 2)) with (1 - X) by field. split; auto. }
  unfold logistic_compute_rd. rewrite K. fold v. set (E1 := f_exp f _) in *. clearbody E1.
  (* denominator *)
  set (a := Rabs v) in *. set (a' := Rabs (rd v)) in *. clearbody a a' v.
  pose proof (exp_near a a' u eta ltac:(lra) Ha' ltac:(lra) ltac:(lra) Ea) as D1.
  destruct Hf as (F & _). pose proof (F (- a') ltac:(lra)) as D2. unfold approximates in D2.
  rewrite (Rabs_right (exp (- a'))) in D2 by (apply Rle_ge, Rlt_le, exp_pos). pose proof (exp_neg_le1 a' Ha'). pose proof (exp_pos (- a')).
  assert (e * exp (- a') <= e) by nra.
  assert (D3 : Rabs (f_exp f (- a') - exp (- a)) <= 51 / 100 * u + e).
  { apply Rabs_le_between in D1. apply Rabs_le_between in D2. apply Rabs_le_between. lra. }
  set (E2 := f_exp f (- a')) in *. clearbody E2. set (D := 1 + exp (- a)).
  assert (HD : 1 <= D <= 2). { unfold D. pose proof (exp_neg_le1 a ltac:(lra)). pose proof (exp_pos (- a)). lra. }
  assert (B2 : 0 <= 1 + E2) by (apply Rabs_le_between in D3; pose proof (exp_pos (- a)); lra).
  assert (D4 : Rabs (rd (1 + E2) - D) <= 53 / 100 * u + e + u * D).
  { pose proof (rd_err_pos (1 + E2) B2) as R. assert (Q : Rabs (1 + E2 - D) <= 51 / 100 * u + e) by (unfold D; replace (1 + E2 - (1 + exp (- a))) with (E2 - exp (- a)) by ring; auto).
    apply Rabs_le_between in R. apply Rabs_le_between in Q.
    assert (u * (1 + E2) <= u * (D + (51 / 100 * u + e))) by (apply Rmult_le_compat_l; lra).
    assert (u * (51 / 100 * u + e) <= u * (2 / 1000)) by (apply Rmult_le_compat_l; lra).
    apply Rabs_le_between. lra. }
  set (D' := rd (1 + E2)) in *. clearbody D'. set (n := exp (- (a * w))) in *.
  assert (Hnn : 0 < n <= 1) by (unfold n; split; [apply exp_pos|apply exp_neg_le1; nra]). clearbody n. fold D. clearbody D.
  assert (B3 : 996 / 1000 * D <= D'). { apply Rabs_le_between in D4. assert (u * D <= / 1000 * D) by nra. lra. }
  assert (Q : Rabs (E1 / D' - n / D) <= 1005 / 1000 * (rho / 2 + 153 / 100 * u + e) + 1005 / 1000 * (153 / 100 * u + e)).
  { replace (E1 / D' - n / D) with ((E1 - n) / D' + - ((n / D) * ((D' - D) / D'))) by (field; lra).
    eapply Rle_trans; [apply Rabs_triang|]. rewrite Rabs_Ropp. apply Rplus_le_compat.
    - unfold Rdiv. rewrite Rabs_mult, Rabs_inv, (Rabs_right D') by lra. rewrite Rmult_comm.
      apply Rmult_le_compat; [apply Rlt_le, Rinv_0_lt_compat; lra|apply Rabs_pos| |exact N].
      apply Rle_trans with (/ (996 / 1000)); [apply Rinv_le_contravar; lra|lra].
    - assert (D5 : Rabs ((D' - D) / D') <= 1005 / 1000 * ((153 / 100 * u + e))).
      { unfold Rdiv. rewrite Rabs_mult, Rabs_inv, (Rabs_right D') by lra. apply Rle_div_l; [lra|].
        eapply Rle_trans; [exact D4|]. apply Rle_trans with (1005 / 1000 * (153 / 100 * u + e) * (996 / 1000 * D)).
        - assert (0 <= u * (D - 1)) by nra. assert (0 <= e * (D - 1)) by nra. nra.
        - apply Rmult_le_compat_l; lra. }
      rewrite Rabs_mult. assert (ND : 0 <= n / D <= 1).
      { split; [apply Rlt_le, Rdiv_lt_0_compat; lra|]. apply Rle_div_l; lra. }
      rewrite (Rabs_right (n / D)) by lra. pose proof (Rabs_pos ((D' - D) / D')). nra. }
  assert (NB : Rabs (n / D) <= 1). { rewrite Rabs_right; [apply Rle_div_l; lra|apply Rle_ge, Rlt_le, Rdiv_lt_0_compat; lra]. }
  pose proof (rd_err (E1 / D')) as R. set (q := E1 / D') in *. clearbody q. set (k := n / D) in *. clearbody k.
  assert (Bq : Rabs q <= 101 / 100).
  { replace q with (q - k + k) by ring. eapply Rle_trans; [apply Rabs_triang|]. lra. }
  assert (u * Rabs q <= u * (101 / 100)) by (apply Rmult_le_compat_l; lra).
  replace (rd q - k) with ((rd q - q) + (q - k)) by ring. eapply Rle_trans; [apply Rabs_triang|]. lra.
Qed.

(** * The bosonic kernel *)
Lemma h_concave s a : 0 <= s <= 1 -> s * (1 - exp (- a)) <= 1 - exp (- (s * a)).
Proof.
  intros H. set (c := - (s * a)).
  assert (A : exp c * (1 + s * a) <= 1).
  { pose proof (exp_ineq1_le (- c)) as E. rewrite exp_Ropp in E. pose proof (exp_pos c). unfold c in E at 1. rewrite Ropp_involutive in E.
    apply Rmult_le_compat_l with (r := exp c) in E; [|lra]. rewrite Rinv_r in E by lra. exact E. }
  assert (B : exp c * (1 - a + s * a) <= exp (- a)).
  { pose proof (exp_ineq1_le (- a - c)) as E. pose proof (exp_pos c). apply Rmult_le_compat_l with (r := exp c) in E; [|lra].
    rewrite <- exp_plus in E. replace (c + (- a - c)) with (- a) in E by ring. unfold c in E at 2. lra. }
  pose proof (exp_pos c). nra.
Qed.

Definition gfun (a : R) : R := if Req_EM_T a 0 then 1 else a / (1 - exp (- a)).
Lemma h_pos a : 0 < a -> 0 < 1 - exp (- a).
Proof. intros H. assert (exp (- a) < 1) by (rewrite <- exp_0; apply exp_increasing; lra). lra. Qed.
Lemma h_le a : 1 - exp (- a) <= a.
Proof. pose proof (exp_ineq1_le (- a)). lra. Qed.
Lemma h_ge a : 0 <= a -> a / (1 + a) <= 1 - exp (- a).
Proof.
  intros H. rewrite exp_Ropp. pose proof (exp_ineq1_le a). assert (/ exp a <= / (1 + a)) by (apply Rinv_le_contravar; lra).
  replace (a / (1 + a)) with (1 - / (1 + a)) by (field; lra). lra.
Qed.
Lemma gfun_bounds a : 0 <= a -> 1 <= gfun a <= 1 + a.
Proof.
  intros H. unfold gfun. destruct (Req_EM_T a 0) as [->|N]; [lra|]. assert (Pa : 0 < a) by lra. pose proof (h_pos a Pa) as Ph. pose proof (h_le a). split.
  - apply Rle_div_r; lra.
  - apply Rle_div_l; [lra|]. pose proof (h_ge a H) as G. apply Rle_div_l in G; lra.
Qed.

Lemma h_near a a' d : 0 < a -> 0 <= a' -> 0 <= d -> Rabs (a' - a) <= d * a ->
  Rabs ((1 - exp (- a')) - (1 - exp (- a))) <= d * (1 - exp (- a)).
Proof.
  intros Ha Ha' Hd H. pose proof (h_pos a Ha) as P. apply Rabs_le_between in H. destruct (Rle_dec a' a) as [L|L].
  - pose proof (h_concave (a' / a) a) as C. replace (a' / a * a) with a' in C by (field; lra).
    assert (0 <= a' / a <= 1). { split; [apply Rle_div_r; lra|apply Rle_div_l; lra]. } specialize (C H0).
    assert (1 - d <= a' / a) by (apply Rle_div_r; lra).
    assert (exp (- a) <= exp (- a')). { destruct L as [L| ->]; [apply Rlt_le, exp_increasing; lra|lra]. }
    apply Rabs_le_between. split; nra.
  - apply Rnot_le_lt in L. pose proof (h_concave (a / a') a') as C. replace (a / a' * a') with a in C by (field; lra).
    assert (0 <= a / a' <= 1). { split; [apply Rle_div_r; lra|apply Rle_div_l; lra]. } specialize (C H0).
    assert (exp (- a') < exp (- a)) by (apply exp_increasing; lra).
    assert (C' : 1 - exp (- a') <= (1 - exp (- a)) * (a' / a)).
    { apply Rmult_le_compat_r with (r := a' / a) in C; [|apply Rle_div_r; lra].
      replace (a / a' * (1 - exp (- a')) * (a' / a)) with (1 - exp (- a')) in C by (field; lra). exact C. }
    assert (a' / a <= 1 + d) by (apply Rle_div_l; lra). pose proof (Rmult_le_compat_l _ _ _ (Rlt_le _ _ P) H2).
    apply Rabs_le_between. split; lra.
Qed.

Lemma tiny_facts : exists T, T = / 10 ^ 200 /\ / 10 ^ 201 = T / 10 /\ 0 < T /\ eta <= u * T / 1000000 /\ T <= u / 1000000.
Proof.
  pose proof small as (A & B & C & _). pose proof small_u as (_ & P & _ & P0 & E & H & G).
  exists (/ 10 ^ 200). split; [reflexivity|].
  replace (10 ^ 201) with (10 ^ 200 * 10) by (rewrite Rmult_comm, <- tech_pow_Rmult; reflexivity). rewrite E. clear E.
  assert (P1 : 10000000000 <= P) by nra. assert (PP : 0 < P * P) by (apply Rmult_lt_0_compat; auto).
  pose proof (Rinv_0_lt_compat _ PP) as PT. split; [field; lra|]. split; [exact PT|]. split.
  - apply Rmult_le_reg_r with (P * P); [auto|]. replace (u * / (P * P) / 1000000 * (P * P)) with (u / 1000000) by (field; lra).
    assert (0 <= P * P * eta) by (apply Rmult_le_pos; lra). assert (P * P * eta * 10000000000 <= P * P * eta * P) by (apply Rmult_le_compat_l; lra). lra.
  - apply Rmult_le_reg_r with (P * P); [auto|]. rewrite Rinv_l by lra. assert (10000000000 * P <= u * P * P) by (apply Rmult_le_compat_r; lra). lra.
Qed.

Lemma bose_denominator a a' : 0 <= a -> 0 <= a' -> Rabs (a' - a) <= u * a + eta ->
  Rabs ((if Rleb (rd (/ 10 ^ 200)) a' then rd (a' / f_expm1 f (- a')) else -1) + gfun a) <= (305 / 100 * u + 101 / 100 * e) * gfun a.
Proof.
  intros Ha Ha' Ea. pose proof small as (Hu & He & Hn & Hn1 & Hn2). destruct tiny_facts as (T & ET & ET' & PT & T1 & T2).
  destruct Hf as (_ & F & _). rewrite ET' in F. rewrite <- ET. clear ET ET'. pose proof (gfun_bounds a Ha) as G.
  pose proof (rd_err_pos T ltac:(lra)) as ER.
  assert (uT : u * T <= / 1000 * T) by (apply Rmult_le_compat_r; lra).
  assert (ua : u * a <= / 1000 * a) by (apply Rmult_le_compat_r; lra).
  assert (BT : 99 / 100 * T <= rd T <= 101 / 100 * T) by (apply Rabs_le_between in ER; lra).
  destruct (Rleb_spec (rd T) a') as [L|L].
  - assert (La : 98 / 100 * T <= a) by (apply Rabs_le_between in Ea; lra).
    assert (Pa : 0 < a) by lra. assert (Ea' : Rabs (a' - a) <= 1001 / 1000 * u * a).
    { eapply Rle_trans; [exact Ea|]. assert (u * T <= u * (a * (100 / 98))) by (apply Rmult_le_compat_l; lra). lra. }
    pose proof (h_near a a' (1001 / 1000 * u) Pa Ha' ltac:(lra) Ea') as Eh. pose proof (h_pos a Pa) as Ph. pose proof (h_ge a Ha) as Gh.
    pose proof (F (- a') ltac:(lra)) as FM. unfold approximates in FM. pose proof (exp_neg_le1 a' Ha').
    rewrite (Rabs_left1 (exp (- a') - 1)) in FM by lra.
    unfold gfun in G |- *. destruct (Req_EM_T a 0); [lra|].
    assert (LT : T <= 1) by lra.
    assert (Lh : 45 / 100 * T <= 1 - exp (- a)).
    { eapply Rle_trans; [|exact Gh]. apply (Rle_div_r (45 / 100 * T) a (1 + a)); [lra|]. destruct (Rle_dec a 1) as [A1|A1].
      - assert (T * (1 + a) <= T * 2) by (apply Rmult_le_compat_l; lra). lra.
      - assert (T * (1 + a) <= 1 * (1 + a)) by (apply Rmult_le_compat_r; lra). lra. }
    set (h := 1 - exp (- a)) in *. set (M := f_expm1 f (- a')) in *. set (h' := 1 - exp (- a')) in *.
    assert (hu : eta <= u * h / 100000). { assert (u * (45 / 100 * T) <= u * h) by (apply Rmult_le_compat_l; lra). lra. }
    assert (EM : Rabs (M + h) <= (1002 / 1000 * e + 101 / 100 * u) * h).
    { replace (exp (- a') - 1) with (- h') in FM by (unfold h'; ring). apply Rabs_le_between in FM. apply Rabs_le_between in Eh.
      assert (u * h <= / 1000 * h) by (apply Rmult_le_compat_r; lra).
      assert (e * h' <= e * (1002 / 1000 * h)) by (apply Rmult_le_compat_l; lra).
      assert (0 <= u * h) by (apply Rmult_le_pos; lra). apply Rabs_le_between. lra. }
    clearbody h h' M. clear Eh FM Gh F Ea ER BT LT Lh La T1 T2 uT L.
    assert (BM : M <= - (997 / 1000 * h)).
    { apply Rabs_le_between in EM. assert ((1002 / 1000 * e + 101 / 100 * u) * h <= 21 / 10000 * h) by (apply Rmult_le_compat_r; lra). lra. }
    set (g := a / h) in *.
    assert (Ed : Rabs (a' / M + g) <= (203 / 100 * u + 101 / 100 * e) * g).
    { unfold g. replace (a' / M + a / h) with (((a' - a) * h + a * (M + h)) / (M * h)) by (field; split; lra).
      assert (NM : 0 < - M * h) by (apply Rmult_lt_0_compat; lra).
      unfold Rdiv. rewrite Rabs_mult, Rabs_inv. rewrite (Rabs_left (M * h)) by lra. apply Rle_div_l; [lra|].
      eapply Rle_trans; [apply Rabs_triang|]. rewrite !Rabs_mult, (Rabs_right h), (Rabs_right a) by lra.
      assert (C1 : Rabs (a' - a) * h <= 1001 / 1000 * u * a * h) by (apply Rmult_le_compat_r; lra).
      assert (C2 : a * Rabs (M + h) <= a * ((1002 / 1000 * e + 101 / 100 * u) * h)) by (apply Rmult_le_compat_l; lra).
      apply Rle_trans with ((203 / 100 * u + 101 / 100 * e) * a * (- M)); [|apply Req_le; field; lra].
      assert (0 <= u * a) by (apply Rmult_le_pos; lra). assert (0 <= e * a) by (apply Rmult_le_pos; lra).
      assert (0 <= u * a * h) by (apply Rmult_le_pos; lra). assert (0 <= e * a * h) by (apply Rmult_le_pos; lra).
      assert (C3 : (203 / 100 * u + 101 / 100 * e) * a * (997 / 1000 * h) <= (203 / 100 * u + 101 / 100 * e) * a * (- M)) by (apply Rmult_le_compat_l; lra).
      lra. }
    pose proof (rd_err (a' / M)) as R. set (d := a' / M) in *. clearbody d g.
    assert (0 <= u * g) by (apply Rmult_le_pos; lra). assert (0 <= e * g) by (apply Rmult_le_pos; lra).
    assert (u * g <= / 1000 * g) by (apply Rmult_le_compat_r; lra). assert (e * g <= / 1000 * g) by (apply Rmult_le_compat_r; lra).
    assert (Bd : Rabs d <= 101 / 100 * g).
    { replace d with (d + g - g) by ring. unfold Rminus. eapply Rle_trans; [apply Rabs_triang|]. rewrite Rabs_Ropp, (Rabs_right g) by lra. lra. }
    assert (u * Rabs d <= u * (101 / 100 * g)) by (apply Rmult_le_compat_l; lra).
    assert (u * 1 <= u * g) by (apply Rmult_le_compat_l; lra).
    replace (rd d + g) with ((rd d - d) + (d + g)) by ring. eapply Rle_trans; [apply Rabs_triang|]. lra.
  - apply Rnot_le_lt in L. assert (La : a <= 11 / 10 * T) by (apply Rabs_le_between in Ea; lra).
    assert (0 <= u * gfun a) by (apply Rmult_le_pos; lra). assert (0 <= e * gfun a) by (apply Rmult_le_pos; lra).
    assert (u * 1 <= u * gfun a) by (apply Rmult_le_compat_l; lra).
    rewrite Rabs_right by lra. lra.
Qed.

Lemma bose_round lam y X xp xm rho :
  0 < lam -> lam <= 10 ^ 200 -> Rabs y <= 1 -> -1 <= X <= 1 -> 0 <= rho <= / 1000 ->
  0 <= xp -> 0 <= xm -> Rabs (xp - (1 + X)) <= rho * (1 + X) + 20 * eta -> Rabs (xm - (1 - X)) <= rho * (1 - X) + 20 * eta ->
  Rabs (bose_compute_rd rd f lam (rd (/ 2 * xp)) (rd (/ 2 * xm)) (rd (lam * y)) - (if Req_EM_T y 0 then / lam else bose_formula lam X y))
    <= (51 / 100 * rho + 79 / 10 * u + 203 / 100 * e) * (/ lam + Rabs y).
Proof.
  intros Pl Hl Hy HX Hr Pp Pm Ep Em. pose proof small as (Hu & He & Hn & Hn1 & Hn2).
  assert (Hl1 : Rabs lam * eta <= u / 1000000) by (apply eta_lam; rewrite Rabs_right; lra).
  assert (Hc : eta <= u * / lam / 1000000).
  { rewrite Rabs_right in Hl1 by lra. apply Rmult_le_reg_l with lam; [auto|].
    replace (lam * (u * / lam / 1000000)) with (u / 1000000) by (field; lra). exact Hl1. }
  clear Hl. set (v := lam * y).
  assert (Ha : 0 <= Rabs v <= Rabs lam). { split; [apply Rabs_pos|]. unfold v. rewrite Rabs_mult. pose proof (Rabs_pos lam). nra. }
  pose proof (vabs lam y) as Ea. fold v in Ea. pose proof (Rabs_pos (rd v)) as Ha'.
  set (w := if Rleb 0 v then (1 + X) / 2 else (1 - X) / 2).
  assert (K : (if Req_EM_T y 0 then / lam else bose_formula lam X y) = / lam * exp (- (Rabs v * w)) * gfun (Rabs v)).
  { unfold bose_formula, w, gfun. destruct (Req_EM_T y 0) as [->|Ny].
    - unfold v. rewrite Rmult_0_r, Rabs_R0. destruct (Req_EM_T 0 0); [|lra]. rewrite Rmult_0_l, Ropp_0, exp_0. ring.
    - replace (- lam * y) with (- v) by (unfold v; ring). replace y with (v / lam) by (unfold v; field; lra).
      assert (Nv : v <> 0) by (unfold v; apply Rmult_integral_contrapositive_currified; lra).
      destruct (Req_EM_T (Rabs v) 0) as [Z|_]; [apply Rabs_no_R0 in Nv; lra|].
      destruct (Rleb_spec 0 v) as [V|V].
      + rewrite (Rabs_right v) by lra. pose proof (h_pos v ltac:(lra)).
        replace (- v * (X + 1) / 2) with (- (v * ((1 + X) / 2))) by field. field. lra.
      + rewrite (Rabs_left v) by lra. rewrite Ropp_involutive.
        replace (exp (- v * (X + 1) / 2)) with (exp (- (- v * ((1 - X) / 2))) * exp (- v)) by (rewrite <- exp_plus; f_equal; field).
        set (n := exp (- (- v * ((1 - X) / 2)))). pose proof (h_pos (- v) ltac:(lra)) as Hh. rewrite Ropp_involutive in Hh.
        pose proof (exp_pos v). rewrite (exp_Ropp v). field. repeat split; lra. }
  assert (Hw : 0 <= w <= 1) by (unfold w; destruct (Rleb 0 v); lra).
  assert (N : Rabs (f_exp f (rd (- Rabs (rd v) * (if Rleb 0 (rd v) then rd (/ 2 * xp) else rd (/ 2 * xm)))) - exp (- (Rabs v * w)))
              <= rho / 2 + 153 / 100 * u + e).
  { replace (if Rleb 0 (rd v) then rd (/ 2 * xp) else rd (/ 2 * xm)) with (rd (/ 2 * (if Rleb 0 (rd v) then xp else xm))) by (destruct (Rleb 0 (rd v)); reflexivity).
    apply numerator with (lam := lam); auto. unfold w. destruct (Rleb_spec 0 v) as [V|V]; destruct (Rleb_spec 0 (rd v)) as [V'|V'].
    - left. replace (2 * ((1 + X) / 2)) with (1 + X) by field. split; auto.
    - pose proof (rd_pos v V). lra.
    - right. pose proof (rd_neg v ltac:(lra)). replace (rd v) with 0 by lra. apply Rabs_R0.
    - left. replace (2 * ((1 - X) / 2)) with (1 - X) by field. split; auto. }
  unfold bose_compute_rd. rewrite K. fold v. set (E1 := f_exp f _) in *. clearbody E1.
  pose proof (bose_denominator (Rabs v) (Rabs (rd v)) ltac:(lra) Ha' Ea) as Dn. set (d := if Rleb (rd (/ 10 ^ 200)) _ then _ else _) in *. clearbody d.
  pose proof (gfun_bounds (Rabs v) ltac:(lra)) as G.
  assert (Gy : / lam * gfun (Rabs v) <= / lam + Rabs y).
  { apply Rle_trans with (/ lam * (1 + Rabs v)); [apply Rmult_le_compat_l; [apply Rlt_le, Rinv_0_lt_compat; auto|lra]|].
    unfold v. rewrite Rabs_mult, (Rabs_right lam) by lra. apply Req_le. field. lra. }
  set (n := exp (- (Rabs v * w))) in *.
  assert (Hnn : 0 < n <= 1) by (unfold n; split; [apply exp_pos|apply exp_neg_le1; apply Rmult_le_pos; lra]). clearbody n.
  set (g := gfun (Rabs v)) in *. clearbody g. clear Ep Em K. pose proof (Rinv_0_lt_compat _ Pl) as Pc.
  pose proof (rd_err (- 1 / lam)) as R1. replace (- 1 / lam) with (- / lam) in * by (field; lra). rewrite Rabs_Ropp, (Rabs_right (/ lam)) in R1 by lra.
  clear Ha Ea Ha' Hl1 Pl. set (c := / lam) in *. clearbody c w v. set (c' := rd (- c)) in *. clearbody c'. clear Hw.
  set (eps1 := rho / 2 + 153 / 100 * u + e) in *. assert (Heps : 0 <= eps1 <= 4 / 1000) by (unfold eps1; lra).
  assert (Hc' : Rabs (c' + c) <= 1001 / 1000 * u * c).
  { replace (c' + c) with (c' - - c) by ring. eapply Rle_trans; [exact R1|]. assert (0 <= u * c) by (apply Rmult_le_pos; lra). lra. }
  assert (uc : 0 <= u * c) by (apply Rmult_le_pos; lra). assert (ec : 0 <= eps1 * c) by (apply Rmult_le_pos; lra).
  assert (HE1 : Rabs E1 <= 1004 / 1000).
  { replace E1 with (E1 - n + n) by ring. eapply Rle_trans; [apply Rabs_triang|]. rewrite (Rabs_right n) by lra. lra. }
  assert (P1 : Rabs (c' * E1 + c * n) <= (101 / 100 * u + eps1) * c).
  { replace (c' * E1 + c * n) with ((c' + c) * E1 + - (c * (E1 - n))) by ring. eapply Rle_trans; [apply Rabs_triang|].
    rewrite Rabs_Ropp, !Rabs_mult, (Rabs_right c) by lra.
    assert (Rabs (c' + c) * Rabs E1 <= 1001 / 1000 * u * c * (1004 / 1000)) by (apply Rmult_le_compat; try apply Rabs_pos; auto).
    assert (c * Rabs (E1 - n) <= c * eps1) by (apply Rmult_le_compat_l; lra). lra. }
  assert (uc1 : u * c <= / 1000 * c) by (apply Rmult_le_compat_r; lra).
  assert (cn : 0 <= c * n <= c). { split; [apply Rmult_le_pos; lra|]. assert (c * n <= c * 1) by (apply Rmult_le_compat_l; lra). lra. }
  assert (P2 : Rabs (rd (c' * E1) + c * n) <= (203 / 100 * u + eps1) * c).
  { pose proof (rd_err (c' * E1)) as R2. set (p := c' * E1) in *. clearbody p.
    assert (Bp : Rabs p <= 101 / 100 * c).
    { replace p with (p + c * n - c * n) by ring. unfold Rminus. eapply Rle_trans; [apply Rabs_triang|]. rewrite Rabs_Ropp, (Rabs_right (c * n)) by lra.
      assert (eps1 * c <= 4 / 1000 * c) by (apply Rmult_le_compat_r; lra). lra. }
    assert (u * Rabs p <= u * (101 / 100 * c)) by (apply Rmult_le_compat_l; lra).
    replace (rd p + c * n) with ((rd p - p) + (p + c * n)) by ring. eapply Rle_trans; [apply Rabs_triang|]. lra. }
  set (p := rd (c' * E1)) in *. clearbody p. set (gc := c * g) in *.
  assert (Hgc : 0 < gc) by (apply Rmult_lt_0_compat; lra).
  assert (ug : 0 <= u * g) by (apply Rmult_le_pos; lra). assert (eg : 0 <= e * g) by (apply Rmult_le_pos; lra).
  assert (ug1 : u * g <= / 1000 * g) by (apply Rmult_le_compat_r; lra). assert (eg1 : e * g <= / 1000 * g) by (apply Rmult_le_compat_r; lra).
  assert (Bd : Rabs d <= 1005 / 1000 * g).
  { replace d with (d + g - g) by ring. unfold Rminus. eapply Rle_trans; [apply Rabs_triang|]. rewrite Rabs_Ropp, (Rabs_right g) by lra. lra. }
  assert (ugc : 0 <= u * gc) by (apply Rmult_le_pos; lra). assert (egc : 0 <= e * gc) by (apply Rmult_le_pos; lra).
  assert (epgc : 0 <= eps1 * gc) by (apply Rmult_le_pos; lra).
  assert (P3 : Rabs (p * d - c * n * g) <= (51 / 10 * u + 1005 / 1000 * eps1 + 101 / 100 * e) * gc).
  { replace (p * d - c * n * g) with ((p + c * n) * d + - (c * n * (d + g))) by ring. eapply Rle_trans; [apply Rabs_triang|].
    rewrite Rabs_Ropp, !Rabs_mult, (Rabs_right c), (Rabs_right n) by lra.
    assert (C1 : Rabs (p + c * n) * Rabs d <= (203 / 100 * u + eps1) * c * (1005 / 1000 * g)) by (apply Rmult_le_compat; try apply Rabs_pos; auto).
    assert (C2 : c * n * Rabs (d + g) <= c * ((305 / 100 * u + 101 / 100 * e) * g)).
    { apply Rmult_le_compat; [lra|apply Rabs_pos|lra|exact Dn]. }
    unfold gc in *. lra. }
  assert (HgN : 0 <= c * n * g <= gc).
  { split; [apply Rmult_le_pos; lra|]. unfold gc. apply Rmult_le_compat_r; lra. }
  pose proof (rd_err (p * d)) as R3. set (q := p * d) in *. clearbody q.
  assert (ugc1 : u * gc <= / 1000 * gc) by (apply Rmult_le_compat_r; lra).
  assert (egc1 : e * gc <= / 1000 * gc) by (apply Rmult_le_compat_r; lra).
  assert (epgc1 : eps1 * gc <= 4 / 1000 * gc) by (apply Rmult_le_compat_r; lra).
  assert (Bq : Rabs q <= 102 / 100 * gc).
  { replace q with (q - c * n * g + c * n * g) by ring. eapply Rle_trans; [apply Rabs_triang|]. rewrite (Rabs_right (c * n * g)) by lra. lra. }
  assert (u * Rabs q <= u * (102 / 100 * gc)) by (apply Rmult_le_compat_l; lra).
  assert (cg : c <= gc). { unfold gc. assert (c * 1 <= c * g) by (apply Rmult_le_compat_l; lra). lra. }
  assert (ucg : u * c <= u * gc) by (apply Rmult_le_compat_l; lra).
  apply Rle_trans with ((51 / 100 * rho + 79 / 10 * u + 203 / 100 * e) * gc).
  - replace (rd q - c * n * g) with ((rd q - q) + (q - c * n * g)) by ring. eapply Rle_trans; [apply Rabs_triang|].
    assert (0 <= rho * gc) by (apply Rmult_le_pos; lra). unfold eps1 in *. lra.
  - apply Rmult_le_compat_l; [lra|exact Gy].
Qed.
End Round.
