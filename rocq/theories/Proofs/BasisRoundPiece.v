(** One segment of a piecewise polynomial whose knots were moved in rounded
    arithmetic. *)
From Coq Require Import Reals Lra Lia Arith Bool ZArith.
From Coquelicot Require Import Coquelicot.
From Coq Require Import List.
From Verif.Model Require Import Base Util Num Poly PolyIEEE.
From Verif.Spec Require Import SPoly SKernelIEEE SPolyIEEE SBasisIEEE.
From Verif.Proofs Require Import SumFacts LegFacts KernelRoundCall Clenshaw.
Import ListNotations.
Open Scope R_scope.

Section Moved.
Variables (u eta : R) (rd : R -> R) (old : bool).
Hypothesis Hr : forall x, Rabs (rd x - x) <= u * Rabs x + eta.
Hypothesis Hu : 0 < u <= / 10000.
Hypothesis He : 0 <= eta.
Variables (a b a' b' dx : R).
Hypothesis Hab : a < b.
Let h := b - a.
Let K := Rmax (Rabs a) (Rabs b).
Hypothesis Ha : Rabs (a' - a) <= 32 / 10 * (u * K).
Hypothesis Hb : Rabs (b' - b) <= 32 / 10 * (u * K).
Hypothesis Hdx : Rabs (dx - h) <= 32 / 10 * (u * h).
Hypothesis Hf : 1000 * eta <= u * h /\ 1000 * eta * h <= u.

Lemma mh_pos : 0 < h. Proof. unfold h. lra. Qed.
Lemma mK_pos : 0 < K.
Proof.
  assert (Rabs a <= K) by apply Rmax_l. assert (Rabs b <= K) by apply Rmax_r. pose proof (Rle_abs b). pose proof (Rle_abs (- a)). rewrite Rabs_Ropp in *.
  destruct (Rlt_or_le 0 b); lra.
Qed.
Lemma mh_le : h <= 2 * K.
Proof.
  assert (Rabs a <= K) by apply Rmax_l. assert (Rabs b <= K) by apply Rmax_r. pose proof (Rle_abs b). pose proof (Rle_abs (- a)). rewrite Rabs_Ropp in *. unfold h. lra.
Qed.
Lemma meta_small : eta <= u / 1000.
Proof.
  pose proof mh_pos. destruct (Rle_or_lt h 1) as [L|L].
  - destruct Hf as [F _]. assert (u * h <= u * 1) by (apply Rmult_le_compat_l; lra). lra.
  - destruct Hf as [_ F]. assert (1000 * eta * 1 <= 1000 * eta * h) by (apply Rmult_le_compat_l; lra). lra.
Qed.

Lemma mmid_near : Rabs (rd (/ 2 * rd (b' + a')) - (a + b) / 2) <= 521 / 100 * (u * K).
Proof.
  pose proof mK_pos as PK. assert (Ka : Rabs a <= K) by apply Rmax_l. assert (Kb : Rabs b <= K) by apply Rmax_r. pose proof meta_small as Es.
  destruct Hf as [F _]. pose proof mh_le as HK. assert (u * h <= u * (2 * K)) by (apply Rmult_le_compat_l; lra).
  assert (UK : 0 <= u * K <= / 10000 * K) by (split; [apply Rmult_le_pos; lra|apply Rmult_le_compat_r; lra]).
  assert (E0 : Rabs (b' + a' - (b + a)) <= 64 / 10 * (u * K)).
  { replace (b' + a' - (b + a)) with ((b' - b) + (a' - a)) by ring. eapply Rle_trans; [apply Rabs_triang|]. lra. }
  pose proof (Rabs_triang b a) as T.
  pose proof (rd_near u eta rd Hr (conj He Es) _ _ _ E0) as R1.
  assert (u * Rabs (b + a) <= u * (2 * K)) by (apply Rmult_le_compat_l; lra).
  assert (u * (64 / 10 * (u * K)) <= / 10000 * (64 / 10 * (u * K))) by (apply Rmult_le_compat_r; lra).
  assert (E : Rabs (/ 2 * rd (b' + a') - (a + b) / 2) <= 4202 / 1000 * (u * K)).
  { replace (/ 2 * rd (b' + a') - (a + b) / 2) with (/ 2 * (rd (b' + a') - (b + a))) by field. rewrite Rabs_mult, (Rabs_pos_eq (/ 2)) by lra. lra. }
  pose proof (rd_near u eta rd Hr (conj He Es) _ _ _ E) as H0'.
  assert (Rabs ((a + b) / 2) <= K). { replace ((a + b) / 2) with (/ 2 * (b + a)) by field. rewrite Rabs_mult, (Rabs_pos_eq (/ 2)) by lra. lra. }
  assert (u * Rabs ((a + b) / 2) <= u * K) by (apply Rmult_le_compat_l; lra).
  assert (u * (4202 / 1000 * (u * K)) <= / 10000 * (4202 / 1000 * (u * K))) by (apply Rmult_le_compat_r; lra). lra.
Qed.

Lemma minv_near : exists th, Rabs th <= 43 / 10 * u /\ rd (2 / dx) = 2 / h * (1 + th).
Proof.
  pose proof mh_pos as Ph. pose proof meta_small as Es. destruct Hf as [F1 F2].
  pose proof Hdx as E1. apply Rabs_le_between in E1.
  assert (Uh : 0 <= u * h <= / 10000 * h) by (split; [apply Rmult_le_pos; lra|apply Rmult_le_compat_r; lra]).
  assert (Pdx : 0 < dx) by lra.
  assert (N : Rabs (2 / dx - 2 / h) <= 3202 / 1000 * u * (2 / h)).
  { replace (2 / dx - 2 / h) with ((h - dx) / dx * (2 / h)) by (field; lra). rewrite Rabs_mult, (Rabs_pos_eq (2 / h)) by (apply Rdiv_le_0_compat; lra).
    apply Rmult_le_compat_r; [apply Rdiv_le_0_compat; lra|]. unfold Rdiv. rewrite Rabs_mult, (Rabs_pos_eq (/ dx)) by (left; apply Rinv_0_lt_compat; lra).
    apply (Rmult_le_reg_r dx); [lra|]. rewrite Rmult_assoc, Rinv_l, Rmult_1_r by lra. rewrite Rabs_minus_sym.
    assert (u * ((1 - 32 / 100000) * h) <= u * dx) by (apply Rmult_le_compat_l; lra). apply Rle_trans with (32 / 10 * (u * h)); [exact Hdx|lra]. }
  pose proof (rd_near u eta rd Hr (conj He Es) _ _ _ N) as R1.
  assert (P2 : 0 < 2 / h) by (apply Rdiv_lt_0_compat; lra). rewrite (Rabs_pos_eq (2 / h)) in R1 by lra.
  assert (Eh : eta <= / 2000 * (u * (2 / h))).
  { apply (Rmult_le_reg_r h); [lra|]. replace (/ 2000 * (u * (2 / h)) * h) with (u / 1000) by (field; lra). lra. }
  assert (U2 : 0 <= u * (2 / h)) by (apply Rmult_le_pos; lra).
  assert (u * (3202 / 1000 * u * (2 / h)) <= / 10000 * (3202 / 1000 * u * (2 / h))) by (apply Rmult_le_compat_r; lra).
  exists (rd (2 / dx) / (2 / h) - 1). split.
  - replace (rd (2 / dx) / (2 / h) - 1) with ((rd (2 / dx) - 2 / h) * / (2 / h)) by (field; lra).
    rewrite Rabs_mult, (Rabs_pos_eq (/ (2 / h))) by (left; apply Rinv_0_lt_compat; lra).
    apply (Rmult_le_reg_r (2 / h)); [lra|]. rewrite Rmult_assoc, Rinv_l, Rmult_1_r by lra. lra.
  - field. lra.
Qed.

Definition mz (x : R) : R := (2 * x - a - b) / h.

Lemma mcoord_near x : a' <= x <= b' ->
  Rabs (mz x - nearest (-1) 1 (mz x)) <= 64 / 10 * (u * (K / h)) /\
  -1 <= nearest (-1) 1 (mz x) <= 1 /\
  Rabs (rd (rd (x - rd (/ 2 * rd (b' + a'))) * rd (2 / dx)) - nearest (-1) 1 (mz x)) <= 23 * u + 20 * (u * (K / h)).
Proof.
  intros Hx. pose proof mh_pos as Ph. pose proof meta_small as Es. pose proof mK_pos as PK. pose proof mh_le as HK.
  set (z := mz x). set (k := K / h). assert (Pk : 0 <= k) by (apply Rdiv_le_0_compat; lra). assert (Uk : 0 <= u * k) by (apply Rmult_le_pos; lra).
  pose proof Ha as Ha'. pose proof Hb as Hb'. apply Rabs_le_between in Ha'. apply Rabs_le_between in Hb'.
  assert (Hz : -1 - 64 / 10 * (u * k) <= z <= 1 + 64 / 10 * (u * k)).
  { unfold z, mz, k. split; [apply Rle_div_r|apply Rle_div_l]; try exact Ph.
    - replace ((-1 - 64 / 10 * (u * (K / h))) * h) with (- h - 64 / 10 * (u * K)) by (field; lra). unfold h. lra.
    - replace ((1 + 64 / 10 * (u * (K / h))) * h) with (h + 64 / 10 * (u * K)) by (field; lra). unfold h. lra. }
  assert (Zc : Rabs (z - nearest (-1) 1 z) <= 64 / 10 * (u * k) /\ -1 <= nearest (-1) 1 z <= 1).
  { unfold nearest, Rmax, Rmin. destruct (Rle_dec 1 z); destruct (Rle_dec (-1) _); (split; [apply Rabs_le|]); lra. }
  destruct Zc as [Zc Zr]. split; [exact Zc|]. split; [exact Zr|].
  set (xm := rd (/ 2 * rd (b' + a'))). pose proof mmid_near as M. fold xm in M.
  assert (E1 : Rabs (x - xm - (x - (a + b) / 2)) <= 521 / 100 * (u * K)).
  { rewrite Rabs_minus_sym. replace (x - (a + b) / 2 - (x - xm)) with (xm - (a + b) / 2) by ring. exact M. }
  pose proof (rd_near u eta rd Hr (conj He Es) _ _ _ E1) as E2. clear E1 M.
  assert (UK : 0 <= u * K <= / 10000 * K) by (split; [apply Rmult_le_pos; lra|apply Rmult_le_compat_r; lra]).
  assert (Xh : Rabs (x - (a + b) / 2) <= h / 2 + 32 / 10 * (u * K)) by (apply Rabs_le; unfold h; lra).
  assert (u * Rabs (x - (a + b) / 2) <= u * (h / 2 + 32 / 10 * (u * K))) by (apply Rmult_le_compat_l; lra).
  assert (u * (521 / 100 * (u * K)) <= / 10000 * (521 / 100 * (u * K))) by (apply Rmult_le_compat_r; lra).
  assert (u * (32 / 10 * (u * K)) <= / 10000 * (32 / 10 * (u * K))) by (apply Rmult_le_compat_r; lra).
  destruct Hf as [F1 F2]. set (d := rd (x - xm)) in *.
  assert (E3 : Rabs (d - (x - (a + b) / 2)) <= 502 / 1000 * (u * h) + 522 / 100 * (u * K)) by lra. clear E2.
  destruct minv_near as [th [Hth ->]].
  assert (E4 : Rabs (d * (2 / h) - z) <= 1004 / 1000 * u + 1044 / 100 * (u * k)).
  { replace (d * (2 / h) - z) with ((d - (x - (a + b) / 2)) * (2 / h)) by (unfold z, mz; field; lra). rewrite Rabs_mult, (Rabs_pos_eq (2 / h)) by (apply Rdiv_le_0_compat; lra).
    apply Rle_trans with ((502 / 1000 * (u * h) + 522 / 100 * (u * K)) * (2 / h)).
    - apply Rmult_le_compat_r; [apply Rdiv_le_0_compat; lra|exact E3].
    - right. unfold k. field. lra. }
  assert (Az : Rabs z <= 1 + 64 / 10 * (u * k)) by (apply Rabs_le; lra).
  assert (UUk : u * (u * k) <= / 10000 * (u * k)) by (apply Rmult_le_compat_r; lra).
  assert (E5 : Rabs (d * (2 / h * (1 + th)) - z) <= 531 / 100 * u + 1046 / 100 * (u * k)).
  { replace (d * (2 / h * (1 + th)) - z) with ((d * (2 / h) - z) * (1 + th) + z * th) by ring. eapply Rle_trans; [apply Rabs_triang|]. rewrite !Rabs_mult.
    assert (T1 : Rabs (1 + th) <= 10005 / 10000) by (apply Rabs_le_between in Hth; apply Rabs_le; lra).
    assert (Rabs (d * (2 / h) - z) * Rabs (1 + th) <= (1004 / 1000 * u + 1044 / 100 * (u * k)) * (10005 / 10000)) by (apply Rmult_le_compat; auto using Rabs_pos).
    assert (Rabs z * Rabs th <= (1 + 64 / 10 * (u * k)) * (43 / 10 * u)) by (apply Rmult_le_compat; auto using Rabs_pos). lra. }
  pose proof (rd_near u eta rd Hr (conj He Es) _ _ _ E5) as E6.
  assert (u * Rabs z <= u * (1 + 64 / 10 * (u * k))) by (apply Rmult_le_compat_l; lra).
  assert (u * (531 / 100 * u + 1046 / 100 * (u * k)) <= / 10000 * (531 / 100 * u + 1046 / 100 * (u * k))) by (apply Rmult_le_compat_r; lra).
  set (xt := rd (d * (2 / h * (1 + th)))) in *.
  replace (xt - nearest (-1) 1 z) with ((xt - z) + (z - nearest (-1) 1 z)) by ring. eapply Rle_trans; [apply Rabs_triang|]. lra.
Qed.

Lemma mnorm_near : let N := sqrt (2 / h) in 0 < N /\ Rabs (rd (sqrt (rd (2 / dx))) - N) <= 54 / 10 * u * N.
Proof.
  intros N. pose proof mh_pos as Ph. pose proof meta_small as Es. assert (P2 : 0 < 2 / h) by (apply Rdiv_lt_0_compat; lra).
  assert (PN : 0 < N) by (apply sqrt_lt_R0; lra). split; [exact PN|]. destruct minv_near as [th [Hth ->]]. apply Rabs_le_between in Hth.
  rewrite sqrt_mult by lra. fold N. set (r := sqrt (1 + th)). assert (R2 : r * r = 1 + th) by (apply sqrt_sqrt; lra). assert (Pr : 0 <= r) by apply sqrt_pos.
  assert (Er : Rabs (r - 1) <= 43 / 10 * u). { apply Rabs_le. split; nra. }
  assert (E1 : Rabs (N * r - N) <= 43 / 10 * u * N). { replace (N * r - N) with ((r - 1) * N) by ring. rewrite Rabs_mult, (Rabs_pos_eq N) by lra. apply Rmult_le_compat_r; lra. }
  pose proof (rd_near u eta rd Hr (conj He Es) _ _ _ E1) as E2. rewrite (Rabs_pos_eq N) in E2 by lra.
  assert (UN : 0 <= u * N) by (apply Rmult_le_pos; lra).
  assert (u * (43 / 10 * u * N) <= / 10000 * (43 / 10 * u * N)) by (apply Rmult_le_compat_r; lra).
  assert (eta <= / 1000 * (u * N)).
  { destruct (Rle_or_lt 1 N) as [L|L]; [assert (u * 1 <= u * N) by (apply Rmult_le_compat_l; lra); lra|].
    assert (N2 : N * N = 2 / h) by (apply sqrt_sqrt; lra). assert (2 / h <= N) by nra. destruct Hf as [_ F2].
    assert (eta <= / 1000 * (u * (1 / h))).
    { apply (Rmult_le_reg_r h); [lra|]. replace (/ 1000 * (u * (1 / h)) * h) with (u / 1000) by (field; lra). lra. }
    assert (1 / h <= N) by (replace (1 / h) with (/ 2 * (2 / h)) by (field; lra); lra). assert (u * (1 / h) <= u * N) by (apply Rmult_le_compat_l; lra). lra. }
  lra.
Qed.

Lemma mpiece_near n c x : (1 <= n)%nat -> a' <= x <= b' -> 240 * (INR n * INR n) * (6 + 5 * (K / h)) * u <= 1 ->
  Rabs (rd (legval_rd old rd n c (rd (rd (x - rd (/ 2 * rd (b' + a'))) * rd (2 / dx))) * rd (sqrt (rd (2 / dx))))
        - sqrt (2 / h) * legval n c (nearest (-1) 1 (mz x))) <=
  240 * (INR n * INR n) * (6 + 5 * (K / h)) * u * sqrt (2 / h) * (sumn n (fun k => Rabs (c k)) + eta / u) + eta.
Proof.
  intros Hn Hx Hl. pose proof mh_pos as Ph. pose proof meta_small as Es. pose proof mK_pos as PK. destruct (mcoord_near x Hx) as (_ & Hz & Hc).
  set (z := nearest (-1) 1 (mz x)) in *. set (xt := rd (rd (x - rd (/ 2 * rd (b' + a'))) * rd (2 / dx))) in *.
  destruct mnorm_near as [PN HN]. set (N := sqrt (2 / h)) in *. set (Nh := rd (sqrt (rd (2 / dx)))) in *.
  set (k := K / h) in *. assert (Pk : 0 <= k) by (apply Rdiv_le_0_compat; lra).
  set (w := (24 + 20 * k) * u). assert (Ew : u + (23 * u + 20 * (u * k)) = w) by (unfold w; ring).
  set (S := sumn n (fun k => Rabs (c k))). set (A := S + eta / u).
  assert (n1 : 1 <= INR n) by (apply (le_INR 1); auto). assert (nn : 1 <= INR n * INR n) by nra.
  destruct (legval_near u eta rd old Hr Hu (conj He Es) n c xt z (23 * u + 20 * (u * k)) S Hn Hz Hc) as [L1 L2]; [rewrite Ew; unfold w; lra|apply Rle_refl|].
  rewrite Ew in L1. fold A in L1, L2. set (L := legval n c z) in *. set (Lh := legval_rd old rd n c xt) in *.
  assert (PA : 0 <= A) by (pose proof (Rabs_pos L); lra).
  replace (240 * (INR n * INR n) * (6 + 5 * k) * u * N * A) with (60 * (INR n * INR n) * w * (N * A)) by (unfold w; ring).
  assert (Uw : 24 * u <= w) by (unfold w; assert (0 <= k * u) by (apply Rmult_le_pos; lra); lra).
  set (m := INR n * INR n) in *. assert (Wm : w <= m * w) by (rewrite <- (Rmult_1_l w) at 1; apply Rmult_le_compat_r; lra).
  assert (NA : 0 <= N * A) by (apply Rmult_le_pos; lra).
  assert (NN : Rabs Nh <= 1001 / 1000 * N). { pose proof (Rabs_triang_inv Nh N) as T. rewrite (Rabs_pos_eq N) in T by lra. assert (u * N <= / 10000 * N) by (apply Rmult_le_compat_r; lra). lra. }
  assert (E : Rabs (Lh * Nh - N * L) <= 5005 / 100 * (m * w) * (N * A) + 54 / 10 * u * (N * A)).
  { replace (Lh * Nh - N * L) with ((Lh - L) * Nh + L * (Nh - N)) by ring. eapply Rle_trans; [apply Rabs_triang|]. rewrite !Rabs_mult.
    assert (X1 : Rabs (Lh - L) * Rabs Nh <= (50 * m * w * A) * (1001 / 1000 * N)) by (apply Rmult_le_compat; auto using Rabs_pos).
    assert (X2 : Rabs L * Rabs (Nh - N) <= A * (54 / 10 * u * N)) by (apply Rmult_le_compat; auto using Rabs_pos). lra. }
  pose proof (rd_near u eta rd Hr (conj He Es) _ _ _ E) as F. rewrite Rabs_mult, (Rabs_pos_eq N) in F by lra.
  assert (N * Rabs L <= N * A) by (apply Rmult_le_compat_l; lra). assert (u * (N * Rabs L) <= u * (N * A)) by (apply Rmult_le_compat_l; lra).
  assert (U1 : 0 <= u * (N * A)) by (apply Rmult_le_pos; lra). assert (U2 : 24 * u * (N * A) <= m * w * (N * A)) by (apply Rmult_le_compat_r; lra).
  assert (u * (5005 / 100 * (m * w) * (N * A) + 54 / 10 * u * (N * A)) <= / 10000 * (5005 / 100 * (m * w) * (N * A) + 54 / 10 * u * (N * A))) by (apply Rmult_le_compat_r; lra).
  lra.
Qed.
End Moved.
