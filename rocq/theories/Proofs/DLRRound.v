(** Smith's division and the frequency functions of poles in rounded arithmetic. *)
From Coq Require Import Reals ZArith Arith Bool Lra Lia Psatz String.
From Coquelicot Require Import Coquelicot.
From Coq Require Import List.
From Verif.Model Require Import Base Util Num Kernel KernelIEEE DLR DLRIEEE.
From Verif.Spec Require Import SKernelIEEE SDLR SDLRIEEE.
From Verif.Proofs Require Import KernelRound.
Import ListNotations.
Open Scope R_scope.

Section Smith.
Context (u eta : R) (rd : R -> R) (Hrd : rounding u eta rd) (Hu : 0 < u <= / 10000) (He : 0 <= eta).

Lemma rde x : Rabs (rd x - x) <= u * Rabs x + eta.
Proof. apply Hrd. Qed.

(** The denominator a (1 + r^2) with r = b/a. *)
Lemma smith_den a b : a <> 0 -> Rabs b <= Rabs a -> 1000 * eta <= u -> 1000 * eta <= u * Rabs a ->
  let r := b / a in Rabs (rd (a + rd (b * rd r)) - a * (1 + r * r)) <= 31 / 10 * u * (Rabs a * (1 + r * r)).
Proof.
  intros Ha Hb E1 E2 r. set (A := Rabs a) in *. assert (PA : 0 < A) by now apply Rabs_pos_lt.
  assert (Eb : b = a * r) by (unfold r; field; auto).
  set (q := Rabs r). assert (Pq : 0 <= q) by apply Rabs_pos.
  assert (Qb : Rabs b = A * q) by (rewrite Eb, Rabs_mult; reflexivity).
  assert (q1 : q <= 1) by (rewrite Qb in Hb; nra).
  assert (Eq : r * r = q * q). { unfold q. rewrite <- Rabs_mult. rewrite Rabs_right; [reflexivity|nra]. }
  pose proof (rde r) as h1. fold q in h1. set (rat := rd r) in *.
  assert (e1 : Rabs (b * rat - a * (r * r)) <= A * q * (u * q + eta)).
  { replace (b * rat - a * (r * r)) with (b * (rat - r)) by (rewrite Eb; ring). rewrite Rabs_mult, Qb. apply Rmult_le_compat_l; [nra|exact h1]. }
  assert (e1' : Rabs (b * rat - a * (r * r)) <= A * (u * (q * q)) + A * (u / 1000)).
  { eapply Rle_trans; [exact e1|]. replace (A * q * (u * q + eta)) with (A * (u * (q * q)) + A * (q * eta)) by ring. assert (q * eta <= 1 * eta) by (apply Rmult_le_compat_r; lra). assert (A * (q * eta) <= A * (u / 1000)) by (apply Rmult_le_compat_l; lra). lra. }
  assert (Ear : Rabs (a * (r * r)) = A * (q * q)). { rewrite Rabs_mult. fold A. rewrite Eq, (Rabs_right (q * q)); [reflexivity|nra]. }
  assert (Qq : 0 <= q * q <= 1) by nra.
  assert (b1 : Rabs (b * rat) <= A * (101 / 100 * (q * q) + u / 1000)).
  { replace (b * rat) with ((b * rat - a * (r * r)) + a * (r * r)) by ring. eapply Rle_trans; [apply Rabs_triang|]. rewrite Ear.
    assert (X0 : 0 <= A * (q * q)) by (apply Rmult_le_pos; lra). assert (u * (A * (q * q)) <= / 10000 * (A * (q * q))) by (apply Rmult_le_compat_r; lra). lra. }
  pose proof (rde (b * rat)) as h2. set (p := rd (b * rat)) in *.
  assert (e2 : Rabs (p - a * (r * r)) <= A * (u * (202 / 100 * (q * q) + 3 / 1000))).
  { replace (p - a * (r * r)) with ((p - b * rat) + (b * rat - a * (r * r))) by ring. eapply Rle_trans; [apply Rabs_triang|].
    assert (u * Rabs (b * rat) <= u * (A * (101 / 100 * (q * q) + u / 1000))) by (apply Rmult_le_compat_l; lra).
    assert (A * (u * u) <= A * (u * / 10000)) by (apply Rmult_le_compat_l; nra). nra. }
  pose proof (rde (a + p)) as h3.
  assert (S0 : Rabs (a * (1 + r * r)) = A * (1 + q * q)). { rewrite Rabs_mult. fold A. rewrite Eq, (Rabs_right (1 + q * q)); [reflexivity|nra]. }
  assert (b3 : Rabs (a + p) <= 101 / 100 * (A * (1 + q * q))).
  { replace (a + p) with (a * (1 + r * r) + (p - a * (r * r))) by ring. eapply Rle_trans; [apply Rabs_triang|]. rewrite S0.
    assert (A * (u * (202 / 100 * (q * q) + 3 / 1000)) <= A * (/ 10000 * (202 / 100 * (q * q) + 3 / 1000))) by (apply Rmult_le_compat_l; nra). nra. }
  replace (rd (a + p) - a * (1 + r * r)) with ((rd (a + p) - (a + p)) + (p - a * (r * r))) by ring.
  eapply Rle_trans; [apply Rabs_triang|]. rewrite Eq.
  assert (u * Rabs (a + p) <= u * (101 / 100 * (A * (1 + q * q)))) by (apply Rmult_le_compat_l; lra).
  assert (X : 0 <= u * A) by nra. assert (X2 : 0 <= u * A * (q * q)) by (apply Rmult_le_pos; lra). rewrite Eq in e2. lra.
Qed.

Lemma smith_scl a b : a <> 0 -> Rabs b <= Rabs a -> 1000 * eta <= u -> 1000 * eta <= u * Rabs a ->
  let r := b / a in let T := / (Rabs a * (1 + r * r)) in
  Rabs (rd (1 / rd (a + rd (b * rd r))) - / (a * (1 + r * r))) <= 42 / 10 * u * T + eta.
Proof.
  intros Ha Hb E1 E2 r T. pose proof (smith_den a b Ha Hb E1 E2) as H. cbv zeta in H. fold r in H. set (den := rd (a + rd (b * rd r))) in *.
  assert (PA : 0 < Rabs a) by now apply Rabs_pos_lt. assert (PS : 0 < 1 + r * r) by nra.
  set (B := Rabs a * (1 + r * r)) in *. assert (PB : 0 < B) by (apply Rmult_lt_0_compat; auto).
  assert (EB : Rabs (a * (1 + r * r)) = B) by (unfold B; rewrite Rabs_mult, (Rabs_right (1 + r * r)); lra).
  set (D := a * (1 + r * r)) in *.
  assert (Dn : D <> 0). { intros Z. rewrite Z, Rabs_R0 in EB. lra. }
  assert (Ld : 999 / 1000 * B <= Rabs den).
  { pose proof (Rabs_triang_inv D den) as Q. rewrite Rabs_minus_sym, EB in Q. assert (31 / 10 * u * B <= / 1000 * B) by (apply Rmult_le_compat_r; lra). lra. }
  assert (dn : den <> 0). { intros Z. rewrite Z, Rabs_R0 in Ld. lra. }
  assert (PT : 0 < T) by (apply Rinv_0_lt_compat; exact PB).
  assert (Id : / Rabs den <= 1002 / 1000 * T).
  { apply Rle_trans with (/ (999 / 1000 * B)); [apply Rinv_le_contravar; lra|]. rewrite Rinv_mult by lra. fold B in T. unfold T in *. nra. }
  assert (e1 : Rabs (1 / den - / D) <= 1002 / 1000 * (31 / 10) * u * T).
  { replace (1 / den - / D) with ((D - den) * (/ den * / D)) by (field; auto). rewrite !Rabs_mult, !Rabs_inv, EB. fold T.
    rewrite Rabs_minus_sym in H. rewrite Rabs_minus_sym.
    apply Rle_trans with (31 / 10 * u * B * (1002 / 1000 * T * T)).
    - apply Rmult_le_compat; [apply Rabs_pos| |rewrite Rabs_minus_sym; exact H|]. { apply Rmult_le_pos; [apply Rlt_le, Rinv_0_lt_compat; lra|lra]. }
      change (/ B) with T. apply Rmult_le_compat_r; lra.
    - right. unfold T. fold B. field. lra. }
  pose proof (rde (1 / den)) as h. replace (rd (1 / den) - / D) with ((rd (1 / den) - 1 / den) + (1 / den - / D)) by ring.
  eapply Rle_trans; [apply Rabs_triang|].
  assert (Rabs (1 / den) <= 1002 / 1000 * T) by (unfold Rdiv; rewrite Rmult_1_l, Rabs_inv; exact Id).
  assert (u * Rabs (1 / den) <= u * (1002 / 1000 * T)) by (apply Rmult_le_compat_l; lra). nra.
Qed.

(** The two components. *)
Lemma smith_big a b t : a <> 0 -> Rabs b <= Rabs a -> 1000 * eta <= u -> 1000 * eta <= u * Rabs a -> Rabs t <= 11 / 10 ->
  let r := b / a in let T := / (Rabs a * (1 + r * r)) in
  Rabs (rd (t * rd (1 / rd (a + rd (b * rd r)))) - t / (a * (1 + r * r))) <= 53 / 10 * u * (Rabs t * T) + 3 * eta.
Proof.
  intros Ha Hb E1 E2 Ht r T. pose proof (smith_scl a b Ha Hb E1 E2) as H. cbv zeta in H. fold r T in H. set (scl := rd (1 / _)) in *.
  set (D := a * (1 + r * r)) in *.
  assert (ED : Rabs (/ D) = T). { unfold D, T. rewrite Rabs_inv, Rabs_mult, (Rabs_right (1 + r * r)); [reflexivity|nra]. }
  assert (PT : 0 <= T) by (rewrite <- ED; apply Rabs_pos).
  assert (e1 : Rabs (t * scl - t / D) <= Rabs t * (42 / 10 * u * T + eta)).
  { replace (t * scl - t / D) with (t * (scl - / D)) by (unfold Rdiv; ring). rewrite Rabs_mult. apply Rmult_le_compat_l; [apply Rabs_pos|exact H]. }
  assert (b1 : Rabs (t * scl) <= Rabs t * (101 / 100 * T + eta)).
  { rewrite Rabs_mult. apply Rmult_le_compat_l; [apply Rabs_pos|]. replace scl with ((scl - / D) + / D) by ring. eapply Rle_trans; [apply Rabs_triang|]. rewrite ED. nra. }
  pose proof (rde (t * scl)) as h. replace (rd (t * scl) - t / D) with ((rd (t * scl) - t * scl) + (t * scl - t / D)) by ring.
  eapply Rle_trans; [apply Rabs_triang|]. assert (u * Rabs (t * scl) <= u * (Rabs t * (101 / 100 * T + eta))) by (apply Rmult_le_compat_l; lra).
  pose proof (Rabs_pos t). assert (Rabs t * eta <= 11 / 10 * eta) by (apply Rmult_le_compat_r; lra).
  assert (0 <= Rabs t * T) by (apply Rmult_le_pos; lra). assert (0 <= u * (Rabs t * T)) by (apply Rmult_le_pos; lra).
  assert (u * (Rabs t * eta) <= u * (11 / 10 * eta)) by (apply Rmult_le_compat_l; lra). assert (u * eta <= / 10000 * eta) by (apply Rmult_le_compat_r; lra).
  nra.
Qed.

Lemma smith_small a b t s : a <> 0 -> Rabs b <= Rabs a -> 1000 * eta <= u -> 1000 * eta <= u * Rabs a -> Rabs t <= 11 / 10 -> s = 1 \/ s = -1 ->
  let r := b / a in let T := / (Rabs a * (1 + r * r)) in
  Rabs (rd (s * rd (t * rd r) * rd (1 / rd (a + rd (b * rd r)))) - s * (t * r) / (a * (1 + r * r))) <= 75 / 10 * u * (Rabs t * T) + 3 * eta * T + 3 * eta.
Proof.
  intros Ha Hb E1 E2 Ht Hs r T. pose proof (smith_scl a b Ha Hb E1 E2) as H. cbv zeta in H. fold r T in H. set (scl := rd (1 / _)) in *.
  set (D := a * (1 + r * r)) in *. assert (PA : 0 < Rabs a) by now apply Rabs_pos_lt.
  assert (ED : Rabs (/ D) = T). { unfold D, T. rewrite Rabs_inv, Rabs_mult, (Rabs_right (1 + r * r)); [reflexivity|nra]. }
  assert (PT : 0 <= T) by (rewrite <- ED; apply Rabs_pos).
  assert (q1 : Rabs r <= 1). { unfold r, Rdiv. rewrite Rabs_mult, Rabs_inv. apply Rmult_le_reg_r with (Rabs a); [lra|]. rewrite Rmult_assoc, Rinv_l by lra. lra. }
  pose proof (Rabs_pos r) as q0. pose proof (Rabs_pos t) as t0.
  pose proof (rde r) as h1. set (rat := rd r) in *.
  assert (Ur : u * Rabs r <= u * 1) by (apply Rmult_le_compat_l; lra).
  assert (h1' : Rabs (rat - r) <= 1001 / 1000 * u) by lra.
  assert (b1 : Rabs rat <= 1001 / 1000). { replace rat with ((rat - r) + r) by ring. eapply Rle_trans; [apply Rabs_triang|]. lra. }
  pose proof (rde (t * rat)) as h2. set (p := rd (t * rat)) in *. rewrite Rabs_mult in h2.
  assert (e2 : Rabs (p - t * r) <= 202 / 100 * u * Rabs t + 21 / 10 * eta).
  { replace (p - t * r) with ((p - t * rat) + t * (rat - r)) by ring. eapply Rle_trans; [apply Rabs_triang|]. rewrite Rabs_mult.
    assert (Rabs t * Rabs rat <= Rabs t * (1001 / 1000)) by (apply Rmult_le_compat_l; lra).
    assert (u * (Rabs t * Rabs rat) <= u * (Rabs t * (1001 / 1000))) by (apply Rmult_le_compat_l; lra).
    assert (Rabs t * Rabs (rat - r) <= Rabs t * (u * 1 + eta)) by (apply Rmult_le_compat_l; lra).
    assert (Rabs t * eta <= 11 / 10 * eta) by (apply Rmult_le_compat_r; lra). assert (0 <= u * Rabs t) by (apply Rmult_le_pos; lra). nra. }
  assert (btr : Rabs (t * r) <= Rabs t) by (rewrite Rabs_mult; rewrite <- (Rmult_1_r (Rabs t)) at 2; apply Rmult_le_compat_l; lra).
  assert (bp : Rabs p <= 101 / 100 * Rabs t + 21 / 10 * eta). { replace p with ((p - t * r) + t * r) by ring. eapply Rle_trans; [apply Rabs_triang|]. nra. }
  assert (bs : Rabs scl <= 101 / 100 * T + eta). { replace scl with ((scl - / D) + / D) by ring. eapply Rle_trans; [apply Rabs_triang|]. rewrite ED. nra. }
  set (x := Rabs t) in *. assert (xT : 0 <= x * T) by (apply Rmult_le_pos; lra). assert (uxT : 0 <= u * (x * T)) by (apply Rmult_le_pos; lra).
  assert (eT : 0 <= eta * T) by (apply Rmult_le_pos; lra). assert (xe : x * eta <= 11 / 10 * eta) by (apply Rmult_le_compat_r; lra).
  assert (uxe : 0 <= u * (x * eta) <= / 10000 * (11 / 10 * eta)). { split; [repeat apply Rmult_le_pos; lra|]. apply Rmult_le_compat; try lra. apply Rmult_le_pos; lra. }
  assert (ee : 0 <= eta * eta <= / 10000 * eta) by (split; [nra|apply Rmult_le_compat_r; lra]).
  assert (ueT : 0 <= u * (eta * T) <= / 10000 * (eta * T)) by (split; [apply Rmult_le_pos; lra|apply Rmult_le_compat_r; lra]).
  assert (uee : 0 <= u * (eta * eta) <= / 10000 * eta) by (split; [apply Rmult_le_pos; lra|nra]).
  assert (e3 : Rabs (p * scl - t * r / D) <= (202 / 100 * u * x + 21 / 10 * eta) * (101 / 100 * T + eta) + x * (42 / 10 * u * T + eta)).
  { replace (p * scl - t * r / D) with ((p - t * r) * scl + t * r * (scl - / D)) by (unfold Rdiv; ring). eapply Rle_trans; [apply Rabs_triang|]. rewrite !Rabs_mult.
    apply Rplus_le_compat; apply Rmult_le_compat; try apply Rabs_pos; try assumption. - rewrite <- Rabs_mult. apply Rabs_pos. - rewrite <- Rabs_mult. exact btr. }
  assert (b3 : Rabs (p * scl) <= (101 / 100 * x + 21 / 10 * eta) * (101 / 100 * T + eta)).
  { rewrite Rabs_mult. apply Rmult_le_compat; try apply Rabs_pos; assumption. }
  assert (s1 : Rabs s = 1) by (destruct Hs as [-> | ->]; [apply Rabs_R1|rewrite Rabs_left; lra]).
  pose proof (rde (s * p * scl)) as h. replace (s * p * scl) with (s * (p * scl)) in h |- * by ring. rewrite Rabs_mult, s1, Rmult_1_l in h.
  replace (rd (s * (p * scl)) - s * (t * r) / D) with ((rd (s * (p * scl)) - s * (p * scl)) + s * (p * scl - t * r / D)) by (unfold Rdiv; ring).
  eapply Rle_trans; [apply Rabs_triang|]. rewrite (Rabs_mult s), s1, Rmult_1_l.
  assert (u * Rabs (p * scl) <= u * ((101 / 100 * x + 21 / 10 * eta) * (101 / 100 * T + eta))) by (apply Rmult_le_compat_l; lra).
  set (A := Rabs (p * scl)) in *. set (B := Rabs (p * scl - t * r / D)) in *. set (Z := Rabs (rd (s * (p * scl)) - s * (p * scl))) in *. clearbody A B Z.
  set (X5 := u * (eta * T)) in *. set (X6 := u * (eta * eta)) in *. set (X1 := u * (x * T)) in *. set (X2 := eta * T) in *. set (X3 := u * (x * eta)) in *. set (X4 := eta * eta) in *.
  replace (u * ((101 / 100 * x + 21 / 10 * eta) * (101 / 100 * T + eta))) with (10201 / 10000 * X1 + 101 / 100 * X3 + 2121 / 1000 * X5 + 21 / 10 * X6) in H0 by (unfold X1, X3, X5, X6, X2, X4; field).
  replace ((202 / 100 * u * x + 21 / 10 * eta) * (101 / 100 * T + eta) + x * (42 / 10 * u * T + eta)) with (20402 / 10000 * X1 + 202 / 100 * X3 + 2121 / 1000 * X2 + 21 / 10 * X4 + 42 / 10 * X1 + x * eta) in e3 by (unfold X1, X2, X3, X4; field).
  replace (75 / 10 * u * (x * T)) with (75 / 10 * X1) by (unfold X1; ring). replace (3 * eta * T) with (3 * X2) by (unfold X2; ring).
  clearbody X1 X2 X3 X4 X5 X6. lra.
Qed.

(** The quotient: t / (a + i b). *)
Lemma cmod_sum z : Cmod z <= Rabs (fst z) + Rabs (snd z).
Proof.
  pose proof (Rabs_pos (fst z)). pose proof (Rabs_pos (snd z)). unfold Cmod.
  rewrite <- (sqrt_square (Rabs (fst z) + Rabs (snd z))) by lra. apply sqrt_le_1_alt. pose proof (pow2_abs (fst z)). pose proof (pow2_abs (snd z)). nra.
Qed.

Lemma smith_near t a b : 1000 * eta <= u -> (a, b) <> RtoC 0 -> 2 * (1000 * eta) <= u * Cmod (a, b) -> Rabs t <= 11 / 10 ->
  exists v, smith rd t a b = Some v /\
  Cmod (Cminus v (Cdiv (RtoC t) (a, b))) <= 13 * u * (Rabs t / Cmod (a, b)) + 5 * eta / Cmod (a, b) + 6 * eta.
Proof.
  intros E1 Hn E2 Ht. set (Z := Cmod (a, b)) in *. assert (PZ : 0 < Z) by (apply Cmod_gt_0; exact Hn).
  assert (EZ : Z * Z = a * a + b * b). { unfold Z, Cmod. cbn [fst snd]. rewrite sqrt_sqrt; [ring|nra]. }
  assert (G : forall c d, Rabs d <= Rabs c -> c * c + d * d = Z * Z -> c <> 0 /\ 1000 * eta <= u * Rabs c /\
     let r := d / c in / (Rabs c * (1 + r * r)) <= 15 / 10 * / Z /\ / (Rabs c * (1 + r * r)) <= / Z).
  { intros c d Hcd Ec. assert (Pc : 0 < Rabs c). { pose proof (Rabs_pos c). destruct (Req_dec (Rabs c) 0) as [Q|Q]; [|lra]. pose proof (Rabs_pos d).
      assert (c = 0) by (destruct (Req_dec c 0); [auto|exfalso; apply (Rabs_no_R0 c); auto]). assert (Rabs d = 0) by lra.
      assert (d = 0) by (destruct (Req_dec d 0); [auto|exfalso; apply (Rabs_no_R0 d); auto]). subst. nra. }
    assert (cn : c <> 0) by (intros ->; rewrite Rabs_R0 in Pc; lra). split; [exact cn|].
    assert (c2 : Rabs c * Rabs c = c * c) by (rewrite <- Rabs_mult; apply Rabs_right; nra).
    assert (d2 : Rabs d * Rabs d = d * d) by (rewrite <- Rabs_mult; apply Rabs_right; nra). pose proof (Rabs_pos d) as Pd.
    assert (cZ : Rabs c <= Z) by nra. assert (Zc : Z <= 2 * Rabs c) by nra.
    split; [nra|]. intros r. assert (Er : Rabs c * (1 + r * r) = Z * Z / Rabs c).
    { assert (Rabs c * (Rabs c * (1 + r * r)) = Z * Z). { rewrite <- Rmult_assoc, c2, <- Ec. unfold r. field. exact cn. } rewrite <- H. field. lra. }
    assert (K : / (Rabs c * (1 + r * r)) <= / Z). { rewrite Er. apply Rinv_le_contravar; [exact PZ|]. apply Rle_div_r; [lra|]. nra. }
    assert (0 < / Z) by now apply Rinv_0_lt_compat. split; [lra|exact K]. }
  assert (Pi : 0 < / Z) by now apply Rinv_0_lt_compat. pose proof (Rabs_pos t) as t0.
  assert (F : forall T x y, 0 <= T -> T <= / Z -> x <= 53 / 10 * u * (Rabs t * T) + 3 * eta -> y <= 75 / 10 * u * (Rabs t * T) + 3 * eta * T + 3 * eta ->
     x + y <= 13 * u * (Rabs t / Z) + 5 * eta / Z + 6 * eta).
  { intros T x y PT LT Hx Hy. unfold Rdiv. assert (Rabs t * T <= Rabs t * / Z) by (apply Rmult_le_compat_l; lra).
    assert (u * (Rabs t * T) <= u * (Rabs t * / Z)) by (apply Rmult_le_compat_l; lra). assert (0 <= u * (Rabs t * / Z)) by (repeat apply Rmult_le_pos; lra).
    assert (eta * T <= eta * / Z) by (apply Rmult_le_compat_l; lra). assert (0 <= eta * / Z) by (apply Rmult_le_pos; lra). lra. }
  unfold smith, Rleb, Reqb. destruct (Rle_dec (Rabs b) (Rabs a)) as [L|L].
  - destruct (G a b L ltac:(lra)) as (an & Ea & _ & K). destruct (Req_EM_T a 0) as [|_]; [contradiction|].
    eexists; split; [reflexivity|]. set (r := b / a) in *. assert (PT : 0 <= / (Rabs a * (1 + r * r))) by (apply Rlt_le, Rinv_0_lt_compat, Rmult_lt_0_compat; [now apply Rabs_pos_lt|nra]).
    eapply Rle_trans; [apply cmod_sum|]. apply (F _ _ _ PT K).
    + pose proof (smith_big a b t an L E1 Ea Ht) as Q. cbv zeta in Q. fold r in Q.
      replace (fst (Cminus _ _)) with (rd (t * rd (1 / rd (a + rd (b * rd r)))) - t / (a * (1 + r * r))); [exact Q|].
      cbn. unfold Rminus at 1. apply f_equal2; [f_equal; ring|apply f_equal; unfold r; field; split; [nra|exact an]].
    + pose proof (smith_small a b t (-1) an L E1 Ea Ht ltac:(auto)) as Q. cbv zeta in Q. fold r in Q.
      replace (snd (Cminus _ _)) with (rd (-1 * rd (t * rd r) * rd (1 / rd (a + rd (b * rd r)))) - -1 * (t * r) / (a * (1 + r * r))); [exact Q|].
      cbn. unfold Rminus at 1. apply f_equal2; [f_equal; ring|apply f_equal; unfold r; field; split; [nra|exact an]].
  - assert (L' : Rabs a <= Rabs b) by lra. destruct (G b a L' ltac:(lra)) as (bn & Eb & _ & K).
    eexists; split; [reflexivity|]. set (r := a / b) in *. assert (PT : 0 <= / (Rabs b * (1 + r * r))) by (apply Rlt_le, Rinv_0_lt_compat, Rmult_lt_0_compat; [now apply Rabs_pos_lt|nra]).
    eapply Rle_trans; [apply cmod_sum|]. rewrite Rplus_comm. apply (F _ _ _ PT K).
    + assert (Ht' : Rabs (- t) <= 11 / 10) by (rewrite Rabs_Ropp; exact Ht).
      pose proof (smith_big b a (- t) bn L' E1 Eb Ht') as Q. cbv zeta in Q. fold r in Q. rewrite Rabs_Ropp in Q.
      replace (snd (Cminus _ _)) with (rd (- t * rd (1 / rd (b + rd (a * rd r)))) - - t / (b * (1 + r * r))); [exact Q|].
      cbn. unfold Rminus at 1. apply f_equal2; [f_equal; ring|apply f_equal; unfold r; field; split; [nra|exact bn]].
    + pose proof (smith_small b a t 1 bn L' E1 Eb Ht ltac:(auto)) as Q. cbv zeta in Q. fold r in Q.
      replace (fst (Cminus _ _)) with (rd (1 * rd (t * rd r) * rd (1 / rd (b + rd (a * rd r)))) - 1 * (t * r) / (b * (1 + r * r))); [exact Q|].
      cbn. unfold Rminus at 1. apply f_equal2; [f_equal; ring|apply f_equal; unfold r; field; split; [nra|exact bn]].
Qed.

(** * Relative errors *)
Lemma rd_rel x : 1000 * eta <= u * Rabs x -> Rabs (rd x - x) <= 1001 / 1000 * u * Rabs x.
Proof. intros H. pose proof (rde x). lra. Qed.
Lemma mul_rel x x' y y' d1 d2 : Rabs (x' - x) <= d1 * Rabs x -> Rabs (y' - y) <= d2 * Rabs y -> 0 <= d1 -> 0 <= d2 ->
  Rabs (x' * y' - x * y) <= (d1 + d2 + d1 * d2) * Rabs (x * y).
Proof.
  intros H1 H2 P1 P2. replace (x' * y' - x * y) with ((x' - x) * (y' - y) + (x' - x) * y + x * (y' - y)) by ring.
  pose proof (Rabs_triang ((x' - x) * (y' - y) + (x' - x) * y) (x * (y' - y))). pose proof (Rabs_triang ((x' - x) * (y' - y)) ((x' - x) * y)).
  rewrite !Rabs_mult in *. pose proof (Rabs_pos x). pose proof (Rabs_pos y). pose proof (Rabs_pos (x' - x)). pose proof (Rabs_pos (y' - y)).
  assert (Rabs (x' - x) * Rabs (y' - y) <= (d1 * Rabs x) * (d2 * Rabs y)) by (apply Rmult_le_compat; assumption).
  assert (Rabs (x' - x) * Rabs y <= (d1 * Rabs x) * Rabs y) by (apply Rmult_le_compat_r; assumption).
  assert (Rabs x * Rabs (y' - y) <= Rabs x * (d2 * Rabs y)) by (apply Rmult_le_compat_l; assumption). lra.
Qed.
Lemma rd_after x x' d : Rabs (x' - x) <= d * Rabs x -> 0 <= d <= / 100 -> 1100 * eta <= u * Rabs x ->
  Rabs (rd x' - x) <= (d + 1002 / 1000 * u + 1002 / 1000 * u * d) * Rabs x.
Proof.
  intros H Hd He'. pose proof (Rabs_pos x). assert (B : Rabs x' <= (1 + d) * Rabs x). { replace x' with ((x' - x) + x) by ring. eapply Rle_trans; [apply Rabs_triang|]. lra. }
  assert (B2 : (1 - d) * Rabs x <= Rabs x'). { pose proof (Rabs_triang_inv x (x - x')) as Q. replace (x - (x - x')) with x' in Q by ring. rewrite (Rabs_minus_sym x x') in Q. lra. }
  assert (dx : 0 <= d * Rabs x <= / 100 * Rabs x) by (split; [apply Rmult_le_pos; lra|apply Rmult_le_compat_r; lra]).
  assert (R1 : 1000 * eta <= u * Rabs x'). { assert (u * (99 / 100 * Rabs x) <= u * Rabs x') by (apply Rmult_le_compat_l; lra). lra. }
  pose proof (rd_rel x' R1) as Q. replace (rd x' - x) with ((rd x' - x') + (x' - x)) by ring. eapply Rle_trans; [apply Rabs_triang|].
  assert (u * Rabs x' <= u * ((1 + d) * Rabs x)) by (apply Rmult_le_compat_l; lra).
  assert (0 <= u * Rabs x) by (apply Rmult_le_pos; lra). assert (0 <= u * (d * Rabs x)) by (apply Rmult_le_pos; lra). lra.
Qed.

Lemma rd_0 : rd 0 = 0.
Proof. destruct Hrd as (_ & A & B). pose proof (A 0 ltac:(lra)). pose proof (B 0 ltac:(lra)). lra. Qed.

Lemma freq_near pi beta n : Rabs (pi - PI) <= u * PI -> 0 < beta -> 1100 * eta <= u -> 1100 * eta * beta <= u ->
  Rabs (freq_rd rd pi beta (IZR n) - PI * IZR n / beta) <= 51 / 10 * u * Rabs (PI * IZR n / beta).
Proof.
  intros Hpi Hb E1 E2. unfold freq_rd. destruct (Z.eq_dec n 0) as [->|Hn].
  { rewrite rd_0, Rmult_0_l, rd_0, Rmult_0_l, rd_0. unfold Rdiv. rewrite Rmult_0_r, Rmult_0_l, Rminus_0_r, Rabs_R0. lra. }
  assert (Pp : 3 < PI) by (pose proof PI2_3_2; unfold PI2 in *; lra).
  assert (n1 : 1 <= Rabs (IZR n)). { rewrite <- abs_IZR. apply (IZR_le 1). lia. }
  assert (Ppi : Rabs PI = PI) by (apply Rabs_right; lra).
  assert (Pi : 0 < / beta) by now apply Rinv_0_lt_compat.
  assert (Ei : 1100 * eta <= u * / beta). { apply Rmult_le_reg_r with beta; [lra|]. replace (u * / beta * beta) with u by (field; lra). lra. }
  assert (u2 : 0 <= u * u <= / 10000 * u) by (split; [nra|apply Rmult_le_compat_r; lra]).
  assert (h1 : Rabs (rd (IZR n) - IZR n) <= 1001 / 1000 * u * Rabs (IZR n)) by (apply rd_rel; nra).
  assert (h2 : Rabs (rd (IZR n) * pi - IZR n * PI) <= 201 / 100 * u * Rabs (IZR n * PI)).
  { eapply Rle_trans; [eapply mul_rel; [exact h1|rewrite Ppi; exact Hpi|lra|lra]|]. apply Rmult_le_compat_r; [apply Rabs_pos|]. nra. }
  assert (b2 : 1 <= Rabs (IZR n * PI)) by (rewrite Rabs_mult, Ppi; nra).
  assert (h3 : Rabs (rd (rd (IZR n) * pi) - IZR n * PI) <= 302 / 100 * u * Rabs (IZR n * PI)).
  { eapply Rle_trans; [eapply rd_after; [exact h2|lra|nra]|]. apply Rmult_le_compat_r; [apply Rabs_pos|]. nra. }
  assert (h4 : Rabs (rd (1 / beta) - 1 / beta) <= 1001 / 1000 * u * Rabs (1 / beta)).
  { apply rd_rel. unfold Rdiv. rewrite Rmult_1_l, Rabs_right by lra. lra. }
  assert (h5 : Rabs (rd (rd (IZR n) * pi) * rd (1 / beta) - IZR n * PI * (1 / beta)) <= 403 / 100 * u * Rabs (IZR n * PI * (1 / beta))).
  { eapply Rle_trans; [eapply mul_rel; [exact h3|exact h4|lra|lra]|]. apply Rmult_le_compat_r; [apply Rabs_pos|]. nra. }
  replace (PI * IZR n / beta) with (IZR n * PI * (1 / beta)) by (field; lra).
  eapply Rle_trans; [eapply rd_after; [exact h5|lra|]|].
  - rewrite Rabs_mult. unfold Rdiv. rewrite Rmult_1_l, (Rabs_right (/ beta)) by lra. assert (1 * / beta <= Rabs (IZR n * PI) * / beta) by (apply Rmult_le_compat_r; lra). nra.
  - apply Rmult_le_compat_r; [apply Rabs_pos|]. nra.
Qed.

(** * The hyperbolic tangent *)
Lemma tanh_h x : tanh x = (1 - exp (- (2 * x))) / (1 + exp (- (2 * x))).
Proof.
  unfold tanh, sinh, cosh. replace (- (2 * x)) with (- x + - x) by ring. rewrite exp_plus, exp_Ropp. pose proof (exp_pos x). field. repeat split; try lra; nra.
Qed.
Lemma tanh_odd x : tanh (- x) = - tanh x.
Proof. unfold tanh, sinh, cosh. rewrite Ropp_involutive. pose proof (exp_pos x). pose proof (exp_pos (- x)). field. lra. Qed.

Lemma tanh_near_pos x x' d s : 0 <= x -> 0 <= x' -> 0 <= d <= 1 -> 0 <= s -> Rabs (x' - x) <= d * x + s ->
  Rabs (tanh x' - tanh x) <= 2 * d * tanh x + 4 * s.
Proof.
  intros Hx Hx' Hd Hs H. rewrite !tanh_h.
  assert (K : exists x1, 0 <= x1 /\ Rabs (x1 - x) <= d * x /\ Rabs (x' - x1) <= s).
  { apply Rabs_le_between in H. assert (0 <= d * x <= x) by (split; [apply Rmult_le_pos; lra|nra]).
    destruct (Rle_dec x' (x - d * x)) as [L|L]; [exists (x - d * x)|destruct (Rle_dec x' (x + d * x)) as [M|M]; [exists x'|exists (x + d * x)]];
    (split; [lra|split; apply Rabs_le_between; lra]). }
  destruct K as (x1 & P1 & A1 & A2).
  assert (E1 : Rabs ((1 - exp (- (2 * x1))) - (1 - exp (- (2 * x)))) <= d * (1 - exp (- (2 * x)))).
  { destruct (Req_dec x 0) as [->|Nx]. - rewrite Rmult_0_r in A1. assert (x1 = 0) by (apply Rabs_le_between in A1; lra). subst. rewrite !Rmult_0_r, Ropp_0, exp_0, !Rminus_eq_0, Rabs_R0. lra.
    - apply h_near; try lra. replace (2 * x1 - 2 * x) with (2 * (x1 - x)) by ring. rewrite Rabs_mult, (Rabs_right 2) by lra. lra. }
  assert (E2 : Rabs (exp (- (2 * x')) - exp (- (2 * x1))) <= 2 * s).
  { apply Rabs_le_between in A2. destruct (Rle_dec x1 x') as [L|L].
    - destruct (exp_drop (2 * x1) (2 * x') ltac:(lra)) as [Q1 Q2]. pose proof (exp_neg_le1 (2 * x1) ltac:(lra)). rewrite Rabs_minus_sym, Rabs_right by lra.
      eapply Rle_trans; [exact Q2|]. pose proof (exp_pos (- (2 * x1))). nra.
    - destruct (exp_drop (2 * x') (2 * x1) ltac:(lra)) as [Q1 Q2]. pose proof (exp_neg_le1 (2 * x') ltac:(lra)). rewrite Rabs_right by lra.
      eapply Rle_trans; [exact Q2|]. pose proof (exp_pos (- (2 * x'))). nra. }
  pose proof (exp_pos (- (2 * x))) as Px. pose proof (exp_pos (- (2 * x'))) as Px'. pose proof (exp_neg_le1 (2 * x) ltac:(lra)) as Lx.
  set (c := exp (- (2 * x))) in *. set (c' := exp (- (2 * x'))) in *. set (c1 := exp (- (2 * x1))) in *.
  assert (E : Rabs (c' - c) <= d * (1 - c) + 2 * s).
  { replace (c' - c) with ((c' - c1) + - ((1 - c1) - (1 - c))) by ring. eapply Rle_trans; [apply Rabs_triang|]. rewrite Rabs_Ropp. lra. }
  replace ((1 - c') / (1 + c') - (1 - c) / (1 + c)) with (- (c' - c) * (2 * (/ (1 + c') * / (1 + c)))) by (field; lra).
  assert (I1 : 0 < / (1 + c') <= 1) by (split; [apply Rinv_0_lt_compat; lra|rewrite <- Rinv_1; apply Rinv_le_contravar; lra]).
  assert (I2 : 0 < / (1 + c) <= 1) by (split; [apply Rinv_0_lt_compat; lra|rewrite <- Rinv_1; apply Rinv_le_contravar; lra]).
  rewrite Rabs_mult, Rabs_Ropp, (Rabs_right (2 * _)) by (apply Rle_ge; apply Rmult_le_pos; [lra|apply Rmult_le_pos; lra]).
  apply Rle_trans with ((d * (1 - c) + 2 * s) * (2 * / (1 + c))).
  - apply Rmult_le_compat; [apply Rabs_pos| |exact E|]. { apply Rmult_le_pos; [lra|apply Rmult_le_pos; lra]. } apply Rmult_le_compat_l; [lra|]. nra.
  - unfold Rdiv. assert (s * / (1 + c) <= s * 1) by (apply Rmult_le_compat_l; lra). lra.
Qed.

Lemma tanh_pos x : 0 <= x -> 0 <= tanh x.
Proof. intros H. rewrite tanh_h. pose proof (exp_neg_le1 (2 * x) ltac:(lra)). pose proof (exp_pos (- (2 * x))). apply Rmult_le_pos; [lra|apply Rlt_le, Rinv_0_lt_compat; lra]. Qed.
Lemma tanh_le1 x : Rabs (tanh x) <= 1.
Proof.
  rewrite tanh_h. pose proof (exp_pos (- (2 * x))) as P. set (c := exp _) in *. apply Rabs_le_between. split.
  - apply Rle_div_r; lra.
  - apply Rle_div_l; lra.
Qed.

Lemma tanh_any x x' d s : (0 <= x -> 0 <= x') -> (x <= 0 -> x' <= 0) -> 0 <= d <= 1 -> 0 <= s -> Rabs (x' - x) <= d * Rabs x + s ->
  Rabs (tanh x' - tanh x) <= 2 * d * Rabs (tanh x) + 4 * s.
Proof.
  intros H1 H2 Hd Hs H. destruct (Rle_dec 0 x) as [L|L].
  - rewrite (Rabs_right x) in H by lra. rewrite (Rabs_right (tanh x)) by (apply Rle_ge, tanh_pos; lra). apply tanh_near_pos; auto.
  - assert (0 <= - x) by lra. assert (0 <= - x') by (specialize (H2 ltac:(lra)); lra). rewrite (Rabs_left x) in H by lra.
    pose proof (tanh_near_pos (- x) (- x') d s ltac:(assumption) ltac:(assumption) Hd Hs) as Q. rewrite !tanh_odd in Q.
    replace (- x' - - x) with (- (x' - x)) in Q by ring. rewrite Rabs_Ropp in Q. specialize (Q H).
    replace (- tanh x' - - tanh x) with (- (tanh x' - tanh x)) in Q by ring. rewrite Rabs_Ropp in Q.
    replace (Rabs (tanh x)) with (- tanh x); [exact Q|]. rewrite <- Rabs_Ropp, <- tanh_odd. symmetry. apply Rabs_right, Rle_ge, tanh_pos. lra.
Qed.

Lemma weight_near th e beta w : tanh_near e eta th -> 0 <= e <= / 1000 -> 0 < beta -> 1000 * eta <= u * beta -> 1000 * eta <= u ->
  Rabs (th (rd (rd (/ 2 * beta) * w)) - tanh (beta * w / 2)) <= (41 / 10 * u + 101 / 100 * e) * Rabs (tanh (beta * w / 2)) + 6 * eta.
Proof.
  intros Hth He' Hb E1 E2. set (x := beta * w / 2). set (b2 := rd (/ 2 * beta)).
  assert (P2 : 0 <= b2) by (apply Hrd; lra).
  assert (h1 : Rabs (b2 - / 2 * beta) <= 1002 / 1000 * u * (/ 2 * beta)).
  { pose proof (rde (/ 2 * beta)) as Q. rewrite (Rabs_right (/ 2 * beta)) in Q by lra. unfold b2. lra. }
  assert (u2 : 0 <= u * u <= / 10000 * u) by (split; [nra|apply Rmult_le_compat_r; lra]).
  assert (Ex : / 2 * beta * w = x) by (unfold x; field).
  assert (h2 : Rabs (b2 * w - x) <= 1002 / 1000 * u * Rabs x).
  { rewrite <- Ex. replace (b2 * w - / 2 * beta * w) with ((b2 - / 2 * beta) * w) by ring. rewrite !Rabs_mult.
    rewrite (Rabs_right (/ 2)), (Rabs_right beta) by lra. rewrite <- Rmult_assoc. apply Rmult_le_compat_r; [apply Rabs_pos|lra]. }
  assert (h3 : Rabs (rd (b2 * w) - x) <= 201 / 100 * u * Rabs x + eta).
  { pose proof (rde (b2 * w)) as Q. replace (rd (b2 * w) - x) with ((rd (b2 * w) - b2 * w) + (b2 * w - x)) by ring. eapply Rle_trans; [apply Rabs_triang|].
    assert (B : Rabs (b2 * w) <= 1002 / 1000 * Rabs x). { replace (b2 * w) with ((b2 * w - x) + x) by ring. eapply Rle_trans; [apply Rabs_triang|]. pose proof (Rabs_pos x). nra. }
    assert (u * Rabs (b2 * w) <= u * (1002 / 1000 * Rabs x)) by (apply Rmult_le_compat_l; lra). pose proof (Rabs_pos x). nra. }
  assert (h4 : Rabs (tanh (rd (b2 * w)) - tanh x) <= 2 * (201 / 100 * u) * Rabs (tanh x) + 4 * eta).
  { apply tanh_any; auto; try lra.
    - intros Q. apply Hrd. apply Rmult_le_pos; [exact P2|]. rewrite <- Ex in Q. nra.
    - intros Q. apply Hrd. rewrite <- Ex in Q. nra. }
  pose proof (Hth (rd (b2 * w))) as h5. unfold approximates in h5. set (T := tanh (rd (b2 * w))) in *.
  assert (B : Rabs T <= 1001 / 1000 * Rabs (tanh x) + 4 * eta). { replace T with ((T - tanh x) + tanh x) by ring. eapply Rle_trans; [apply Rabs_triang|]. pose proof (Rabs_pos (tanh x)). nra. }
  replace (th (rd (b2 * w)) - tanh x) with ((th (rd (b2 * w)) - T) + (T - tanh x)) by ring. eapply Rle_trans; [apply Rabs_triang|].
  assert (e * Rabs T <= e * (1001 / 1000 * Rabs (tanh x) + 4 * eta)) by (apply Rmult_le_compat_l; lra).
  assert (e * eta <= / 1000 * eta) by (apply Rmult_le_compat_r; lra). pose proof (Rabs_pos (tanh x)). assert (0 <= e * Rabs (tanh x)) by (apply Rmult_le_pos; lra).
  assert (0 <= u * Rabs (tanh x)) by (apply Rmult_le_pos; lra). lra.
Qed.
End Smith.
