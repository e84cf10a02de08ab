(** Rounding errors of the Fourier transform of piecewise polynomials (C97): phases and
    arguments. *)
From Coq Require Import Reals ZArith Arith Bool Lra Lia Psatz.
From Flocq Require Import Core.
From Coquelicot Require Import Coquelicot.
From Coq Require Import List Sorting.Sorted.
From Verif.Model Require Import Base Util Num Poly FT FTIEEE.
From Verif.Spec Require Import SPoly SFT SKernelIEEE SGaussIEEE SPolyIEEE SFTIEEE.
From Verif.Proofs Require Import BaseFacts SumFacts LegFacts PPolyFacts GaussRound BesselBounds PolyRound FTFacts.
Import ListNotations.
Open Scope R_scope.

Lemma PI_bounds : 31 / 10 <= PI <= 315 / 100.
Proof.
  pose proof (PI_2_3_7_ineq 1) as [H1 H2].
  cbn -[Rplus Rmult Rdiv Rinv IZR INR pow] in H1, H2. unfold tg_alt, PI_2_3_7_tg, Ratan_seq in *.
  cbn -[Rplus Rmult Rdiv Rinv IZR] in H1, H2. lra.
Qed.

Section Round.
Variables (u eta : R) (rd : R -> R).
Hypothesis Hr : rounding u eta rd.
Hypothesis Hu : 0 < u <= / 10000.
Hypothesis He : 0 <= eta.

Lemma rnd_err x : Rabs (rd x - x) <= u * Rabs x + eta.
Proof. apply Hr. Qed.
Lemma rnd_0 : rd 0 = 0.
Proof. destruct Hr as (_ & P & N). apply Rle_antisym; [apply N|apply P]; lra. Qed.
Lemma rel_rnd d a' a : rel d a' a -> 0 <= d <= / 100 -> eta <= u / 100 * Rabs a -> rel (d + 102 / 100 * u) (rd a') a.
Proof.
  intros H Hd Ha. pose proof (rel_bounds _ _ _ H) as [_ B]. unfold rel in *. pose proof (rnd_err a') as E. pose proof (Rabs_pos a).
  replace (rd a' - a) with ((rd a' - a') + (a' - a)) by ring. eapply Rle_trans; [apply Rabs_triang|].
  assert (u * Rabs a' <= u * ((1 + / 100) * Rabs a)) by (apply Rmult_le_compat_l; [lra|]; nra). lra.
Qed.
Lemma rel_0 d : rel d 0 0.
Proof. unfold rel. rewrite Rminus_0_r, Rabs_R0. lra. Qed.
Lemma rel_same d a : 0 <= d -> rel d a a.
Proof. intros H. unfold rel. rewrite Rminus_eq_0, Rabs_R0. pose proof (Rabs_pos a). nra. Qed.
Lemma rel_scal d c a' a : rel d a' a -> rel d (c * a') (c * a).
Proof.
  unfold rel. intros H. replace (c * a' - c * a) with (c * (a' - a)) by ring. rewrite !Rabs_mult.
  replace (d * (Rabs c * Rabs a)) with (Rabs c * (d * Rabs a)) by ring. apply Rmult_le_compat_l; [apply Rabs_pos|auto].
Qed.

Variable g : geom.
Hypothesis Hg : geom_near u eta g.
Hypothesis Hmin : gxmin g = -1.
Hypothesis Hmax : gxmax g = 1.
Hypothesis Hf : forall i, (i < gnseg g)%nat -> fair_length u eta g i.
Hypothesis Hm : INR (gnseg g) * u <= / 200.
Notation m := (gnseg g).
Notation L := (fun i => knot g (S i) - knot g i).
Notation dx := (fun i => nth i (gdx g) 0).

Lemma knots_lt i j : (i < j)%nat -> (j <= m)%nat -> knot g i < knot g j.
Proof.
  intros Hij Hj. pose proof (exactg_ok _ _ _ Hg) as G. exact (knot_lt (exactg g) G i j (conj Hij Hj)).
Qed.
Lemma knots_in i : (i <= m)%nat -> -1 <= knot g i <= 1.
Proof.
  intros Hi. pose proof (exactg_ok _ _ _ Hg) as G. exact (knot_bound (exactg g) G Hmin Hmax i Hi).
Qed.
Lemma knot_0 : knot g 0 = -1. Proof. exact Hmin. Qed.
Lemma knot_m : knot g m = 1. Proof. exact Hmax. Qed.
Lemma L_pos i : (i < m)%nat -> 0 < L i.
Proof. intros Hi. pose proof (knots_lt i (S i) ltac:(lia) ltac:(lia)). lra. Qed.
Lemma eta_L i : (i < m)%nat -> 1000 * eta <= u * L i.
Proof. intros Hi. exact (proj1 (Hf i Hi)). Qed.

Lemma dx_rel i : (i < m)%nat -> rel (1001 / 1000 * u) (dx i) (L i).
Proof.
  intros Hi. destruct Hg as (_ & _ & _ & _ & H). unfold rel. pose proof (H i Hi) as B. pose proof (L_pos i Hi) as P. pose proof (eta_L i Hi).
  cbv beta in *. rewrite (Rabs_pos_eq (knot g (S i) - knot g i)) by lra. lra.
Qed.
Lemma half_rel i : (i < m)%nat -> rel (2021 / 1000 * u) (rd (dx i / 2)) (L i / 2).
Proof.
  intros Hi. pose proof (L_pos i Hi) as P. pose proof (eta_L i Hi).
  apply rel_le with (1001 / 1000 * u + 102 / 100 * u); [|lra]. apply rel_rnd; [|lra|rewrite Rabs_pos_eq by lra; lra].
  unfold Rdiv. rewrite (Rmult_comm _ (/ 2)), (Rmult_comm (L i)). apply rel_scal, dx_rel; auto.
Qed.

Lemma count_small k : (k < m)%nat -> INR (S k) * u <= / 200.
Proof.
  intros Hk. eapply Rle_trans; [|exact Hm]. apply Rmult_le_compat_r; [lra|]. apply le_INR. lia.
Qed.
Lemma cum_rel i : (i < m)%nat -> rel (102 / 100 * (INR (S i) * u)) (dxsum_rd rd g i) (knot g (S i) + 1).
Proof.
  induction i; intros Hi.
  - simpl dxsum_rd. replace (knot g 1 + 1) with (L 0%nat) by (rewrite knot_0; ring). eapply rel_le; [apply dx_rel; auto|].
    simpl. lra.
  - assert (Hi' : (i < m)%nat) by lia. pose proof (L_pos (S i) Hi) as P. pose proof (eta_L (S i) Hi) as E. pose proof (knots_in (S i) ltac:(lia)) as B.
    pose proof (count_small (S i) Hi) as C. pose proof (count_small i Hi') as C'.
    cbn [dxsum_rd]. rewrite S_INR. rewrite S_INR in C.
    replace (102 / 100 * ((INR (S i) + 1) * u)) with (102 / 100 * (INR (S i) * u) + 102 / 100 * u) by ring.
    replace (knot g (S (S i)) + 1) with ((knot g (S i) + 1) + L (S i)) by ring.
    assert (N : 1 <= INR (S i)) by (rewrite S_INR; pose proof (pos_INR i); lra).
    assert (0 <= INR (S i) * u) by (apply Rmult_le_pos; lra).
    apply rel_rnd.
    + apply rel_add; [apply IHi; auto| |lra|lra]. eapply rel_le; [apply dx_rel; auto|]. nra.
    + lra.
    + rewrite Rabs_pos_eq by lra. nra.
Qed.
Lemma cumrev_rel k : (k < m)%nat -> rel (102 / 100 * (INR (S k) * u)) (dxsum_rev_rd rd g k) (1 - knot g (m - 1 - k)).
Proof.
  induction k; intros Hk.
  - simpl dxsum_rev_rd. rewrite Nat.sub_0_r. replace (1 - knot g (m - 1)) with (L (m - 1)%nat).
    2:{ replace (S (m - 1)) with m by lia. rewrite knot_m. auto. }
    eapply rel_le; [apply dx_rel; lia|]. simpl. lra.
  - assert (Hk' : (k < m)%nat) by lia. set (j := (m - 1 - S k)%nat). assert (Hj : (j < m)%nat) by lia. assert (Ej : (m - 1 - k)%nat = S j) by lia.
    specialize (IHk Hk'). rewrite Ej in IHk. pose proof (L_pos j Hj) as P. pose proof (eta_L j Hj) as E. pose proof (knots_in (S j) ltac:(lia)) as B.
    pose proof (count_small (S k) Hk) as C. pose proof (count_small k Hk') as C'.
    cbn [dxsum_rev_rd]. fold j. rewrite S_INR. rewrite S_INR in C.
    replace (102 / 100 * ((INR (S k) + 1) * u)) with (102 / 100 * (INR (S k) * u) + 102 / 100 * u) by ring.
    replace (1 - knot g j) with ((1 - knot g (S j)) + L j) by ring.
    assert (N : 1 <= INR (S k)) by (rewrite S_INR; pose proof (pos_INR k); lra).
    assert (0 <= INR (S k) * u) by (apply Rmult_le_pos; lra).
    apply rel_rnd.
    + apply rel_add; [auto| |lra|lra]. eapply rel_le; [apply dx_rel; auto|]. nra.
    + lra.
    + rewrite Rabs_pos_eq by lra. nra.
Qed.

(** * The midpoints of the segments *)
Notation mid := (fun i => (knot g i + knot g (S i)) / 2).

(** a' - b' rounded, where a - b = x, a and b have errors ea and eb *)
Lemma rnd_sub a' a b' b ea eb : Rabs (a' - a) <= ea -> Rabs (b' - b) <= eb ->
  Rabs (rd (a' - b') - (a - b)) <= (1 + u) * (ea + eb) + u * Rabs (a - b) + eta.
Proof.
  intros Ha Hb. pose proof (rnd_err (a' - b')) as E.
  assert (D : Rabs (a' - b' - (a - b)) <= ea + eb).
  { replace (a' - b' - (a - b)) with ((a' - a) - (b' - b)) by ring. eapply Rle_trans; [apply Rabs_triang|]. rewrite Rabs_Ropp. lra. }
  assert (M : Rabs (a' - b') <= Rabs (a - b) + (ea + eb)).
  { replace (a' - b') with ((a - b) + (a' - b' - (a - b))) by ring. eapply Rle_trans; [apply Rabs_triang|]. lra. }
  replace (rd (a' - b') - (a - b)) with ((rd (a' - b') - (a' - b')) + (a' - b' - (a - b))) by ring.
  eapply Rle_trans; [apply Rabs_triang|]. assert (u * Rabs (a' - b') <= u * (Rabs (a - b) + (ea + eb))) by (apply Rmult_le_compat_l; lra). lra.
Qed.

Lemma nearest_reach x h x0 s : 0 <= h -> Rabs (x0 - x) <= / 1000 -> Rabs x <= 1 -> Rabs (x0 - IZR s) <= / 2 ->
  (s = -1 \/ s = 0 \/ s = 1)%Z /\
  (forall t, (t = -1 \/ t = 0 \/ t = 1)%Z -> Rabs (x - IZR s) + h <= 101 / 100 * (Rabs (x - IZR t) + h)).
Proof.
  intros Hh H0 Hx Hs. apply Rabs_le_inv in H0. apply Rabs_le_inv in Hx. apply Rabs_le_inv in Hs.
  assert (S : (s = -1 \/ s = 0 \/ s = 1)%Z).
  { assert (-2 < s < 2)%Z; [|lia]. split; apply lt_IZR; lra. }
  split; auto. intros t Ht. destruct S as [-> | [-> | ->]]; destruct Ht as [-> | [-> | ->]]; unfold Rabs; repeat destruct (Rcase_abs _); lra.
Qed.

Lemma reach_le i R0 : (forall t, (t = -1 \/ t = 0 \/ t = 1)%Z -> R0 <= 101 / 100 * (Rabs (mid i - IZR t) + L i / 2)) ->
  R0 <= 101 / 100 * reach (knot g i) (knot g (S i)).
Proof.
  intros H. unfold reach. pose proof (H (-1)%Z ltac:(auto)) as A. pose proof (H 0%Z ltac:(auto)) as B. pose proof (H 1%Z ltac:(auto)) as C.
  rewrite Rminus_0_r in B. cbv beta in *. replace ((knot g i + knot g (S i)) / 2 - -1) with ((knot g i + knot g (S i)) / 2 + 1) in A by ring.
  unfold Rmin. repeat destruct (Rle_dec _ _); lra.
Qed.

Lemma shift_round i : (i < m)%nat -> exists d s, shift_xmid_rd rd g i = (d, s) /\
  let R0 := Rabs (mid i - IZR s) + L i / 2 in
  Rabs (d - (mid i - IZR s)) <= (102 / 100 * INR m + 4) * u * R0 /\ R0 <= 101 / 100 * reach (knot g i) (knot g (S i)).
Proof.
  intros Hi. pose proof (L_pos i Hi) as P. pose proof (eta_L i Hi) as E. pose proof (knots_in i ltac:(lia)) as B. pose proof (knots_in (S i) Hi) as B'.
  pose proof (half_rel i Hi) as Hh. unfold rel in Hh. rewrite (Rabs_pos_eq (L i / 2)) in Hh by (cbv beta; lra).
  assert (M1 : 1 <= INR m) by (change 1 with (INR 1); apply le_INR; lia).
  assert (Mid : Rabs (mid i) <= 1) by (apply Rabs_le; cbv beta; lra).
  pose proof (Rabs_pos (mid i)) as Mid0.
  unfold shift_xmid_rd. set (dh := rd (nth i (gdx g) 0 / 2)) in *. set (x0 := rd (nth (S i) (gknots g) 0 - dh)).
  assert (H0 : Rabs (x0 - mid i) <= 21 / 10 * u * (Rabs (mid i) + L i / 2)).
  { unfold x0. fold (knot g (S i)). replace (mid i) with (knot g (S i) - L i / 2) at 1 by (cbv beta; field).
    eapply Rle_trans; [apply (rnd_sub _ _ _ _ 0 _ ltac:(rewrite Rminus_eq_0, Rabs_R0; lra) Hh)|].
    replace (knot g (S i) - L i / 2) with (mid i) by (cbv beta; field).
    assert (u * (u * L i) <= / 10000 * (u * L i)) by (apply Rmult_le_compat_r; [apply Rmult_le_pos; lra|lra]).
    assert (0 <= u * L i) by (apply Rmult_le_pos; lra).
    assert (0 <= u * Rabs (mid i)) by (apply Rmult_le_pos; lra). cbv beta in *. lra. }
  assert (Sm : Rabs (mid i) + L i / 2 <= 1).
  { cbv beta. unfold Rabs. destruct (Rcase_abs _); lra. }
  assert (Hs : Rabs (x0 - IZR (ZnearestE x0)) <= / 2) by apply Znearest_half.
  destruct (nearest_reach (mid i) (L i / 2) x0 (ZnearestE x0)) as [Sc Rc]; auto; [cbv beta; lra| |].
  { eapply Rle_trans; [exact H0|]. assert (u * (Rabs (mid i) + L i / 2) <= u * 1) by (apply Rmult_le_compat_l; lra). cbv beta in *. lra. }
  set (s := ZnearestE x0) in *.
  eexists. exists s. split; [reflexivity|]. cbv zeta. split; [|apply reach_le; exact Rc].
  destruct Sc as [Es|[Es|Es]]; rewrite Es.
  - (* near -1 *)
    simpl. pose proof (cum_rel i Hi) as Hc. unfold rel in Hc. rewrite (Rabs_pos_eq (knot g (S i) + 1)) in Hc by lra.
    replace (mid i - -1) with ((knot g (S i) + 1) - L i / 2) by (cbv beta; field).
    rewrite (Rabs_pos_eq (knot g (S i) + 1 - L i / 2)) by (cbv beta; lra).
    replace (knot g (S i) + 1 - L i / 2 + L i / 2) with (knot g (S i) + 1) by ring.
    eapply Rle_trans; [apply (rnd_sub _ _ _ _ _ _ Hc Hh)|].
    rewrite (Rabs_pos_eq (knot g (S i) + 1 - L i / 2)) by (cbv beta; lra).
    set (K := knot g (S i) + 1) in *. assert (KL : L i <= K) by (unfold K; cbv beta; lra).
    assert (N : INR (S i) <= INR m) by (apply le_INR; lia). assert (N0 : 0 <= INR (S i)) by apply pos_INR.
    assert (T1 : INR (S i) * u * K <= INR m * u * K) by (apply Rmult_le_compat_r; [lra|]; apply Rmult_le_compat_r; lra).
    assert (T2 : u * (INR (S i) * u * K) <= / 200 * (u * K)).
    { replace (u * (INR (S i) * u * K)) with ((INR (S i) * u) * (u * K)) by ring. apply Rmult_le_compat_r; [apply Rmult_le_pos; lra|]. apply count_small; auto. }
    assert (T3 : u * L i <= u * K) by (apply Rmult_le_compat_l; lra). assert (T4 : u * (u * L i) <= / 10000 * (u * L i)) by (apply Rmult_le_compat_r; [apply Rmult_le_pos; lra|lra]).
    assert (T5 : 0 <= u * L i) by (apply Rmult_le_pos; lra). cbv beta in *. nra.
  - (* near 0 *)
    simpl. rewrite Rminus_0_r. eapply Rle_trans; [exact H0|]. apply Rmult_le_compat_r; [cbv beta in *; lra|].
    apply Rmult_le_compat_r; lra.
  - (* near 1 *)
    simpl. pose proof (cumrev_rel (m - 1 - i) ltac:(lia)) as Hc. replace (m - 1 - (m - 1 - i))%nat with i in Hc by lia.
    unfold rel in Hc. rewrite (Rabs_pos_eq (1 - knot g i)) in Hc by lra.
    replace (mid i - 1) with (- (1 - knot g i) - - (L i / 2)) by (cbv beta; field).
    replace (- dxsum_rev_rd rd g (m - 1 - i) + dh) with (- dxsum_rev_rd rd g (m - 1 - i) - - dh) by ring.
    rewrite (Rabs_left1 (- (1 - knot g i) - - (L i / 2))) by (cbv beta; lra).
    replace (- (- (1 - knot g i) - - (L i / 2)) + L i / 2) with (1 - knot g i) by ring.
    assert (Hc' : Rabs (- dxsum_rev_rd rd g (m - 1 - i) - - (1 - knot g i)) <= 102 / 100 * (INR (S (m - 1 - i)) * u) * (1 - knot g i)).
    { rewrite <- Rabs_Ropp. replace (- (- dxsum_rev_rd rd g (m - 1 - i) - - (1 - knot g i))) with (dxsum_rev_rd rd g (m - 1 - i) - (1 - knot g i)) by ring. exact Hc. }
    assert (Hh' : Rabs (- dh - - (L i / 2)) <= 2021 / 1000 * u * (L i / 2)).
    { rewrite <- Rabs_Ropp. replace (- (- dh - - (L i / 2))) with (dh - L i / 2) by ring. exact Hh. }
    eapply Rle_trans; [apply (rnd_sub _ _ _ _ _ _ Hc' Hh')|].
    rewrite (Rabs_left1 (- (1 - knot g i) - - (L i / 2))) by (cbv beta; lra).
    set (K := 1 - knot g i) in *. assert (KL : L i <= K) by (unfold K; cbv beta; lra).
    set (ct := S (m - 1 - i)) in *. assert (Hct : INR ct * u <= / 200) by (apply count_small; lia).
    assert (N : INR ct <= INR m) by (apply le_INR; unfold ct; lia). assert (N0 : 0 <= INR ct) by apply pos_INR.
    assert (T1 : INR ct * u * K <= INR m * u * K) by (apply Rmult_le_compat_r; [lra|]; apply Rmult_le_compat_r; lra).
    assert (T2 : u * (INR ct * u * K) <= / 200 * (u * K)).
    { replace (u * (INR ct * u * K)) with ((INR ct * u) * (u * K)) by ring. apply Rmult_le_compat_r; [apply Rmult_le_pos; lra|]. auto. }
    assert (T3 : u * L i <= u * K) by (apply Rmult_le_compat_l; lra). assert (T4 : u * (u * L i) <= / 10000 * (u * L i)) by (apply Rmult_le_compat_r; [apply Rmult_le_pos; lra|lra]).
    assert (T5 : 0 <= u * L i) by (apply Rmult_le_pos; lra). cbv beta in *. nra.
Qed.

(** * Angles *)
Lemma seg_0 : (0 < m)%nat. Proof. apply Hg. Qed.
Lemma eta_1 : 500 * eta <= u.
Proof.
  pose proof (eta_L 0 seg_0) as E. pose proof seg_0. pose proof (knots_in 0 ltac:(lia)). pose proof (knots_in 1 ltac:(lia)).
  assert (u * L 0%nat <= u * 2) by (apply Rmult_le_compat_l; cbv beta; lra). cbv beta in *. lra.
Qed.
Lemma half_pi_rel p : Rabs (p - PI) <= u * PI -> rel (202 / 100 * u) (rd (/ 2 * p)) (PI / 2).
Proof.
  intros H. pose proof PI_bounds. pose proof eta_1. apply rel_le with (u + 102 / 100 * u); [|lra].
  apply rel_rnd; [|lra|rewrite Rabs_pos_eq by lra; nra]. replace (PI / 2) with (/ 2 * PI) by field. apply rel_scal. unfold rel. rewrite (Rabs_pos_eq PI) by lra. auto.
Qed.
Lemma freq_rel n : rel (102 / 100 * u) (rd (IZR n)) (IZR n).
Proof.
  destruct (Z.eq_dec n 0) as [->|N]; [rewrite rnd_0; apply rel_0|]. pose proof eta_1.
  assert (1 <= Rabs (IZR n)) by (rewrite <- abs_IZR; apply IZR_le; lia).
  apply rel_le with (0 + 102 / 100 * u); [|lra]. apply rel_rnd; [apply rel_same; lra|lra|nra].
Qed.

Lemma angle_round p n d x R0 h : Rabs (p - PI) <= u * PI -> 1000 * eta <= u * (2 * h) -> 0 <= h -> R0 = Rabs x + h ->
  Rabs (d - x) <= (102 / 100 * INR m + 4) * u * R0 ->
  Rabs (rd (rd (/ 2 * p) * rd (rd (IZR n) * d)) - PI / 2 * (IZR n * x)) <= PI / 2 * (Rabs (IZR n) * R0 * u * (102 / 100 * INR m + 93 / 10)).
Proof.
  intros Hp Eh Hh ER Hd. pose proof PI_bounds as HP.
  assert (M1 : 1 <= INR m) by (change 1 with (INR 1); apply le_INR; pose proof seg_0; lia).
  assert (R0p : 0 <= R0) by (rewrite ER; pose proof (Rabs_pos x); lra).
  destruct (Z.eq_dec n 0) as [->|Nz].
  { rewrite rnd_0, Rmult_0_l, rnd_0, Rmult_0_r, rnd_0, Rmult_0_l, Rmult_0_r, Rminus_eq_0, Rabs_R0. lra. }
  assert (N1 : 1 <= Rabs (IZR n)) by (rewrite <- abs_IZR; apply IZR_le; lia).
  set (N := Rabs (IZR n)) in *.
  pose proof (freq_rel n) as Hn. pose proof (rel_bounds _ _ _ Hn) as [_ Bn]. unfold rel in Hn. fold N in Hn, Bn. set (n' := rd (IZR n)) in *.
  pose proof (half_pi_rel p Hp) as Hh'. pose proof (rel_bounds _ _ _ Hh') as [_ Bh]. unfold rel in Hh'. rewrite (Rabs_pos_eq (PI / 2)) in Hh', Bh by lra. set (hp := rd (/ 2 * p)) in *.
  set (k := 102 / 100 * INR m + 4) in *.
  assert (Ku : k * u <= / 100) by (unfold k; lra). assert (K0 : 5 <= k) by (unfold k; lra).
  assert (Bx : Rabs x <= R0) by lra.
  assert (Bd : Rabs d <= 101 / 100 * R0).
  { replace d with (x + (d - x)) by ring. eapply Rle_trans; [apply Rabs_triang|].
    assert (k * u * R0 <= / 100 * R0) by (apply Rmult_le_compat_r; auto). lra. }
  assert (NR : R0 <= N * R0) by nra. assert (NR0 : 0 <= N * R0) by lra.
  assert (uNR : 0 <= u * (N * R0)) by (apply Rmult_le_pos; lra).
  assert (Ee : eta <= u * (N * R0) / 500).
  { assert (u * h <= u * (N * R0)) by (apply Rmult_le_compat_l; [lra|]; pose proof (Rabs_pos x); lra). lra. }
  (* the product with the frequency *)
  assert (P1 : Rabs (n' * d - IZR n * x) <= (k + 104 / 100) * (u * (N * R0))).
  { replace (n' * d - IZR n * x) with ((n' - IZR n) * d + IZR n * (d - x)) by ring. eapply Rle_trans; [apply Rabs_triang|]. rewrite !Rabs_mult. fold N.
    assert (Rabs (n' - IZR n) * Rabs d <= (102 / 100 * u * N) * (101 / 100 * R0)) by (apply Rmult_le_compat; auto using Rabs_pos).
    assert (N * Rabs (d - x) <= N * (k * u * R0)) by (apply Rmult_le_compat_l; lra). nra. }
  assert (B1 : Rabs (n' * d) <= 102 / 100 * (N * R0)).
  { rewrite Rabs_mult. assert (Rabs n' * Rabs d <= (1 + 102 / 100 * u) * N * (101 / 100 * R0)) by (apply Rmult_le_compat; auto using Rabs_pos).
    assert (u * (N * R0) <= / 10000 * (N * R0)) by (apply Rmult_le_compat_r; lra). lra. }
  pose proof (rnd_err (n' * d)) as E1. set (sa := rd (n' * d)) in *.
  assert (uB1 : u * Rabs (n' * d) <= u * (102 / 100 * (N * R0))) by (apply Rmult_le_compat_l; lra).
  assert (P2 : Rabs (sa - IZR n * x) <= (k + 2064 / 1000) * (u * (N * R0))).
  { replace (sa - IZR n * x) with ((sa - n' * d) + (n' * d - IZR n * x)) by ring. eapply Rle_trans; [apply Rabs_triang|]. lra. }
  assert (B2 : Rabs sa <= 103 / 100 * (N * R0)).
  { replace sa with (n' * d + (sa - n' * d)) by ring. eapply Rle_trans; [apply Rabs_triang|].
    assert (u * (N * R0) <= / 10000 * (N * R0)) by (apply Rmult_le_compat_r; lra). lra. }
  (* the product with pi / 2 *)
  assert (P3 : Rabs (hp * sa - PI / 2 * (IZR n * x)) <= PI / 2 * ((k + 4164 / 1000) * (u * (N * R0)))).
  { replace (hp * sa - PI / 2 * (IZR n * x)) with ((hp - PI / 2) * sa + PI / 2 * (sa - IZR n * x)) by ring. eapply Rle_trans; [apply Rabs_triang|]. rewrite !Rabs_mult, (Rabs_pos_eq (PI / 2)) by lra.
    assert (Rabs (hp - PI / 2) * Rabs sa <= 202 / 100 * u * (PI / 2) * (103 / 100 * (N * R0))) by (apply Rmult_le_compat; auto using Rabs_pos).
    assert (PI / 2 * Rabs (sa - IZR n * x) <= PI / 2 * ((k + 2064 / 1000) * (u * (N * R0)))) by (apply Rmult_le_compat_l; lra).
    replace (202 / 100 * u * (PI / 2) * (103 / 100 * (N * R0))) with (PI / 2 * (20806 / 10000 * (u * (N * R0)))) in * by field.
    assert (0 <= PI / 2 * (u * (N * R0))) by (apply Rmult_le_pos; lra). lra. }
  assert (B3 : Rabs (hp * sa) <= PI / 2 * (104 / 100 * (N * R0))).
  { rewrite Rabs_mult. assert (T : Rabs hp * Rabs sa <= (1 + 202 / 100 * u) * (PI / 2) * (103 / 100 * (N * R0))) by (apply Rmult_le_compat; auto using Rabs_pos).
    eapply Rle_trans; [exact T|]. replace ((1 + 202 / 100 * u) * (PI / 2) * (103 / 100 * (N * R0))) with (PI / 2 * ((1 + 202 / 100 * u) * (103 / 100 * (N * R0)))) by ring.
    apply Rmult_le_compat_l; [lra|]. assert (u * (N * R0) <= / 10000 * (N * R0)) by (apply Rmult_le_compat_r; lra). lra. }
  pose proof (rnd_err (hp * sa)) as E3.
  assert (uB3 : u * Rabs (hp * sa) <= u * (PI / 2 * (104 / 100 * (N * R0)))) by (apply Rmult_le_compat_l; lra).
  replace (rd (hp * sa) - PI / 2 * (IZR n * x)) with ((rd (hp * sa) - hp * sa) + (hp * sa - PI / 2 * (IZR n * x))) by ring.
  eapply Rle_trans; [apply Rabs_triang|].
  replace (102 / 100 * INR m + 93 / 10) with (k + 53 / 10) by (unfold k; lra).
  replace (N * R0 * u * (k + 53 / 10)) with ((k + 53 / 10) * (u * (N * R0))) by ring.
  assert (u * (N * R0) <= PI / 2 * (u * (N * R0))) by nra. lra.
Qed.

(** * Arguments of the Bessel functions *)
Lemma argument_round p n i : (i < m)%nat -> Rabs (p - PI) <= u * PI ->
  rel (72 / 10 * u) (rd (rd (rd (p / 2) * rd (IZR n)) * rd (dx i / 2))) (PI / 2 * IZR n * (L i / 2)).
Proof.
  intros Hi Hp. pose proof PI_bounds as HP. pose proof (L_pos i Hi) as Lp. pose proof (eta_L i Hi) as El. pose proof eta_1 as E1.
  destruct (Z.eq_dec n 0) as [->|Nz].
  { rewrite rnd_0, Rmult_0_r, rnd_0, Rmult_0_l, rnd_0. replace (PI / 2 * 0 * (L i / 2)) with 0 by ring. apply rel_0. }
  assert (N1 : 1 <= Rabs (IZR n)) by (rewrite <- abs_IZR; apply IZR_le; lia).
  pose proof (half_pi_rel p Hp) as H1. replace (/ 2 * p) with (p / 2) in H1 by field.
  pose proof (rel_mul _ _ _ _ _ _ H1 (freq_rel n) ltac:(lra) ltac:(lra)) as H2.
  assert (H3 : rel (305 / 100 * u) (rd (p / 2) * rd (IZR n)) (PI / 2 * IZR n)) by (eapply rel_le; [exact H2|]; nra).
  assert (B3 : 1 <= Rabs (PI / 2 * IZR n)) by (rewrite Rabs_mult, (Rabs_pos_eq (PI / 2)) by lra; nra).
  assert (H4 : rel (407 / 100 * u) (rd (rd (p / 2) * rd (IZR n))) (PI / 2 * IZR n)).
  { eapply rel_le; [apply (rel_rnd _ _ _ H3); [lra|nra]|]. lra. }
  pose proof (rel_mul _ _ _ _ _ _ H4 (half_rel i Hi) ltac:(lra) ltac:(lra)) as H5.
  assert (H6 : rel (611 / 100 * u) (rd (rd (p / 2) * rd (IZR n)) * rd (dx i / 2)) (PI / 2 * IZR n * (L i / 2))) by (eapply rel_le; [exact H5|]; nra).
  eapply rel_le; [apply (rel_rnd _ _ _ H6); [lra|]|lra].
  rewrite Rabs_mult, (Rabs_pos_eq (L i / 2)) by (cbv beta; lra).
  assert (L i / 2 <= Rabs (PI / 2 * IZR n) * (L i / 2)) by (cbv beta in *; nra).
  assert (u / 100 * (L i / 2) <= u / 100 * (Rabs (PI / 2 * IZR n) * (L i / 2))) by (apply Rmult_le_compat_l; lra). cbv beta in *. lra.
Qed.

(** * The factors of the data *)
Lemma scale_rel i : (i < m)%nat -> rel (43 / 10 * u) (rd (sqrt (rd (rd (dx i / 2) / 2)))) (sqrt (L i) / 2).
Proof.
  intros Hi. pose proof (L_pos i Hi) as Lp. pose proof (eta_L i Hi) as El. pose proof (half_rel i Hi) as H1.
  pose proof (knots_in i ltac:(lia)). pose proof (knots_in (S i) Hi).
  assert (H2 : rel (2021 / 1000 * u) (rd (dx i / 2) / 2) (L i / 2 / 2)).
  { unfold Rdiv at 2 4. rewrite (Rmult_comm _ (/ 2)), (Rmult_comm (L i / 2)). apply rel_scal. exact H1. }
  assert (H3 : rel (305 / 100 * u) (rd (rd (dx i / 2) / 2)) (L i / 2 / 2)).
  { eapply rel_le; [apply (rel_rnd _ _ _ H2); [lra|]|lra]. rewrite Rabs_pos_eq by (cbv beta; lra). cbv beta in *. lra. }
  assert (P3 : 0 <= rd (rd (dx i / 2) / 2)).
  { unfold rel in H3. rewrite (Rabs_pos_eq (L i / 2 / 2)) in H3 by (cbv beta; lra). apply Rabs_le_inv in H3. cbv beta in *. nra. }
  pose proof (rel_sqrt _ _ _ H3 ltac:(cbv beta; lra) P3 ltac:(lra)) as H4.
  assert (E : sqrt (L i / 2 / 2) = sqrt (L i) / 2).
  { replace (L i / 2 / 2) with (L i / 4) by (cbv beta; field). rewrite sqrt_div by (cbv beta; lra). replace 4 with (2 * 2) by ring. rewrite sqrt_square by lra. auto. }
  cbv beta in H4. rewrite E in H4. eapply rel_le; [apply (rel_rnd _ _ _ H4); [lra|]|lra].
  pose proof (sqrt_pos (L i)) as Sp. rewrite Rabs_pos_eq by lra.
  assert (Sq : sqrt (L i) * sqrt (L i) = L i) by (apply sqrt_sqrt; cbv beta; lra).
  assert (Sl : sqrt (L i) <= 2).
  { rewrite <- (sqrt_square 2) by lra. apply sqrt_le_1_alt. cbv beta. lra. }
  assert (L i <= 2 * sqrt (L i)) by nra. cbv beta in *. nra.
Qed.
End Round.
