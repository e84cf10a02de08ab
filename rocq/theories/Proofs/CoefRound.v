(** Coefficients of singular functions in rounded arithmetic. *)
From Coq Require Import Reals Lra Lia Arith Bool ZArith.
From Coquelicot Require Import Coquelicot.
From Coq Require Import List Sorting.Sorted.
From Verif.Model Require Import Base Util Num Poly Gauss SVE Compute GaussIEEE SVEIEEE.
From Verif.Spec Require Import SGauss SKernelIEEE SGaussIEEE SSVEIEEE.
From Verif.Proofs Require Import BaseFacts SumFacts LegFacts Clenshaw LegRecur.
Import ListNotations.
Open Scope R_scope.
Notation length := List.length.

Section Round.
Variables (u eta : R) (rd : R -> R).
Hypothesis Hr : forall x, Rabs (rd x - x) <= u * Rabs x + eta.
Hypothesis Hu : 0 < u <= / 10000.
Hypothesis He : 0 <= eta <= u / 1000.

Lemma rd_step x y d m : Rabs (x - y) <= d -> Rabs x <= m -> Rabs (rd x - y) <= d + u * m + eta.
Proof.
  intros H M. pose proof (Hr x) as R1. pose proof (Rabs_triang (rd x - x) (x - y)) as T. replace (rd x - x + (x - y)) with (rd x - y) in T by ring.
  assert (u * Rabs x <= u * m) by (apply Rmult_le_compat_l; lra). lra.
Qed.
Lemma size_near x y d m : Rabs (x - y) <= d -> Rabs y <= m -> Rabs x <= m + d.
Proof. intros H M. pose proof (Rabs_triang (x - y) y) as T. replace (x - y + y) with x in T by ring. lra. Qed.

(** * The recurrence *)
Section Vander.
Variables (x z sg : R).
Hypothesis Hz : -1 <= z <= 1.
Hypothesis Hsg : 0 <= sg <= / 1000.
Hypothesis Hx : Rabs (x - z) <= sg.
Let y k := fst (legvander_rd rd x k).

Lemma vander_snd k : snd (legvander_rd rd x k) = y (S k).
Proof. unfold y. cbn [legvander_rd]. destruct (legvander_rd rd x k). reflexivity. Qed.
Lemma vander_SS k : y (S (S k)) = rd (rd (rd (rd (y (S k) * x) * (2 * INR k + 3)) - rd (y k * (INR k + 1))) / (INR k + 2)).
Proof.
  rewrite <- (vander_snd (S k)). rewrite <- (vander_snd k). unfold y. cbn [legvander_rd]. destruct (legvander_rd rd x k) as [a b]. reflexivity.
Qed.

Lemma vander_local k : Rabs (y k) <= 11 / 10 -> Rabs (y (S k)) <= 11 / 10 ->
  Rabs (y (S (S k)) - ((1 + (INR k + 1) / (INR k + 2)) * z * y (S k) - (INR k + 1) / (INR k + 2) * y k)) <= 13 * u + 3 * sg.
Proof.
  intros Ha Hb. rewrite vander_SS. set (a := y k) in *. set (b := y (S k)) in *. pose proof (INR_nonneg k) as Pm. set (m := INR k) in *.
  clearbody a b m.
  assert (Hz' : Rabs z <= 1) by (apply Rabs_le; lra).
  assert (P2 : 0 < / (m + 2) <= / 2). { split; [apply Rinv_0_lt_compat; lra|apply Rinv_le_contravar; lra]. }
  set (t1 := rd (b * x)).
  assert (B1 : Rabs (b * x - b * z) <= 11 / 10 * sg).
  { replace (b * x - b * z) with (b * (x - z)) by ring. rewrite Rabs_mult. apply Rmult_le_compat; try apply Rabs_pos; auto. }
  assert (B2 : Rabs (b * z) <= 11 / 10). { rewrite Rabs_mult. pose proof (Rabs_pos b). pose proof (Rabs_pos z). replace (11 / 10) with (11 / 10 * 1) by ring. apply Rmult_le_compat; lra. }
  pose proof (size_near _ _ _ _ B1 B2) as B3.
  assert (T1 : Rabs (t1 - b * z) <= 111 / 100 * u + 111 / 100 * sg).
  { pose proof (rd_step (b * x) (b * z) _ _ B1 B3) as T. fold t1 in T. assert (u * (11 / 10 * sg) <= u * (11 / 10 * / 1000)) by (apply Rmult_le_compat_l; lra). lra. }
  assert (T1s : Rabs t1 <= 111 / 100). { pose proof (size_near _ _ _ _ T1 B2). lra. }
  set (c := 2 * m + 3). set (d := m + 2).
  assert (Pd : 2 <= d) by (unfold d; lra). assert (Pc : 0 <= c <= 2 * d) by (unfold c, d; lra).
  assert (Ed : eta <= / 1000 * u * d). { assert (u * 2 <= u * d) by (apply Rmult_le_compat_l; lra). lra. }
  assert (Ud : 0 <= u * d <= / 10000 * d) by (split; [apply Rmult_le_pos; lra|apply Rmult_le_compat_r; lra]).
  assert (Sd : 0 <= sg * d <= / 1000 * d) by (split; [apply Rmult_le_pos; lra|apply Rmult_le_compat_r; lra]).
  set (t2 := rd (t1 * c)). set (t3 := rd (a * (m + 1))).
  assert (T2 : Rabs (t2 - b * z * c) <= (2222 / 1000 * u + 2222 / 1000 * sg + 223 / 100 * u) * d).
  { assert (E1 : Rabs (t1 * c - b * z * c) <= (111 / 100 * u + 111 / 100 * sg) * c). { replace (t1 * c - b * z * c) with ((t1 - b * z) * c) by ring. rewrite Rabs_mult, (Rabs_pos_eq c) by lra. apply Rmult_le_compat_r; lra. }
    assert (E2 : Rabs (t1 * c) <= 111 / 100 * c). { rewrite Rabs_mult, (Rabs_pos_eq c) by lra. apply Rmult_le_compat_r; lra. }
    pose proof (rd_step _ _ _ _ E1 E2) as T. fold t2 in T.
    assert (u * c <= u * (2 * d)) by (apply Rmult_le_compat_l; lra). assert (sg * c <= sg * (2 * d)) by (apply Rmult_le_compat_l; lra). lra. }
  assert (T3 : Rabs (t3 - a * (m + 1)) <= 111 / 100 * u * d).
  { pose proof (Hr (a * (m + 1))) as T. fold t3 in T. rewrite Rabs_mult, (Rabs_pos_eq (m + 1)) in T by lra.
    assert (Rabs a * (m + 1) <= 11 / 10 * d) by (apply Rmult_le_compat; try apply Rabs_pos; unfold d; lra).
    assert (u * (Rabs a * (m + 1)) <= u * (11 / 10 * d)) by (apply Rmult_le_compat_l; lra). lra. }
  set (ex := b * z * c - a * (m + 1)).
  assert (Ex : Rabs ex <= 33 / 10 * d).
  { unfold ex. pose proof (Rabs_triang (b * z * c) (- (a * (m + 1)))) as T. rewrite Rabs_Ropp in T. rewrite Rabs_mult, (Rabs_pos_eq c), Rabs_mult in T by lra.
    rewrite (Rabs_mult a), (Rabs_pos_eq (m + 1)) in T by lra. rewrite Rabs_mult in B2.
    assert (Rabs b * Rabs z * c <= 11 / 10 * (2 * d)). { apply Rmult_le_compat; try lra. apply Rmult_le_pos; apply Rabs_pos. }
    assert (Rabs a * (m + 1) <= 11 / 10 * d) by (apply Rmult_le_compat; try apply Rabs_pos; unfold d; lra).
    replace (b * z * c + - (a * (m + 1))) with (b * z * c - a * (m + 1)) in T by ring. lra. }
  set (t4 := rd (t2 - t3)).
  assert (T23 : Rabs (t2 - t3 - ex) <= (5562 / 1000 * u + 2222 / 1000 * sg) * d).
  { unfold ex. replace (t2 - t3 - (b * z * c - a * (m + 1))) with ((t2 - b * z * c) - (t3 - a * (m + 1))) by ring.
    eapply Rle_trans; [apply Rabs_triang|]. rewrite Rabs_Ropp. lra. }
  assert (T23s : Rabs (t2 - t3) <= 331 / 100 * d). { pose proof (size_near _ _ _ _ T23 Ex). lra. }
  assert (T4 : Rabs (t4 - ex) <= (888 / 100 * u + 2222 / 1000 * sg) * d).
  { pose proof (rd_step _ _ _ _ T23 T23s) as T. fold t4 in T. lra. }
  assert (T4s : Rabs t4 <= 332 / 100 * d). { pose proof (size_near _ _ _ _ T4 Ex). lra. }
  assert (D1 : Rabs (t4 / d - ex / d) <= 888 / 100 * u + 2222 / 1000 * sg).
  { replace (t4 / d - ex / d) with ((t4 - ex) / d) by (field; lra). unfold Rdiv. rewrite Rabs_mult, (Rabs_pos_eq (/ d)) by (left; apply Rinv_0_lt_compat; lra).
    apply (Rmult_le_reg_r d); [lra|]. rewrite Rmult_assoc, Rinv_l, Rmult_1_r by lra. exact T4. }
  assert (D2 : Rabs (t4 / d) <= 332 / 100).
  { unfold Rdiv. rewrite Rabs_mult, (Rabs_pos_eq (/ d)) by (left; apply Rinv_0_lt_compat; lra).
    apply (Rmult_le_reg_r d); [lra|]. rewrite Rmult_assoc, Rinv_l, Rmult_1_r by lra. exact T4s. }
  pose proof (rd_step _ _ _ _ D1 D2) as T. fold t4.
  replace ((1 + (m + 1) / d) * z * b - (m + 1) / d * a) with (ex / d). 2:{ unfold ex, c, d. field. lra. }
  lra.
Qed.

Lemma vander_near n k : (k < n)%nat -> recurrence_error n u sg <= / 100 -> Rabs (y k - legP k z) <= recurrence_error n u sg.
Proof.
  unfold recurrence_error. intros Hk Hn. assert (P : 0 <= INR n * INR n) by (apply Rmult_le_pos; apply INR_nonneg).
  assert (0 <= INR n * INR n * u) by (apply Rmult_le_pos; lra). assert (0 <= INR n * INR n * sg) by (apply Rmult_le_pos; lra).
  eapply Rle_trans; [apply (forward_near z Hz y (13 * u + 3 * sg)) with (n := n)|lra]; auto; try lra.
  - unfold y. cbn [legvander_rd fst]. rewrite Rmult_0_r. pose proof (Hr 0) as T. rewrite Rabs_R0, Rmult_0_r, Rminus_0_r in T.
    assert (T1 : Rabs (rd 0 + 1 - 1) <= eta) by (replace (rd 0 + 1 - 1) with (rd 0) by ring; lra).
    pose proof (size_near _ _ _ 1 T1 ltac:(rewrite Rabs_R1; lra)) as T2. pose proof (rd_step _ _ _ _ T1 T2) as T3.
    assert (u * eta <= / 10000 * eta) by (apply Rmult_le_compat_r; lra). lra.
  - unfold y. cbn [legvander_rd fst snd]. lra.
  - apply vander_local.
Qed.
End Vander.

(** * The collocation matrix *)
Lemma entry_near k V P w w' E om : 0 < w -> eta <= u * w / 1000 -> rel om w' w -> 0 <= om <= / 1000 -> Rabs P <= 1 -> 0 <= E <= / 100 -> Rabs (V - P) <= E ->
  Rabs (rd (rd (V * w') * (INR k + / 2)) - (INR k + / 2) * P * w) <= (INR k + / 2) * w * (1001 / 1000 * E + om + 21 / 10 * u).
Proof.
  intros Pw Hw Hom Ho HP HE HV. unfold rel in Hom. rewrite (Rabs_pos_eq w) in Hom by lra.
  assert (Ow : 0 <= om * w <= / 1000 * w) by (split; [apply Rmult_le_pos; lra|apply Rmult_le_compat_r; lra]).
  assert (Ew : 0 <= E * w <= / 100 * w) by (split; [apply Rmult_le_pos; lra|apply Rmult_le_compat_r; lra]).
  assert (Uw : 0 <= u * w <= / 10000 * w) by (split; [apply Rmult_le_pos; lra|apply Rmult_le_compat_r; lra]).
  assert (W' : Rabs w' <= 1001 / 1000 * w). { pose proof (size_near w' w (om * w) w Hom). rewrite (Rabs_pos_eq w) in H by lra. lra. }
  assert (A : Rabs (V * w' - P * w) <= w * (1001 / 1000 * E + om)).
  { replace (V * w' - P * w) with ((V - P) * w' + P * (w' - w)) by ring. eapply Rle_trans; [apply Rabs_triang|]. rewrite !Rabs_mult.
    assert (Rabs (V - P) * Rabs w' <= E * (1001 / 1000 * w)) by (apply Rmult_le_compat; try apply Rabs_pos; lra).
    assert (Rabs P * Rabs (w' - w) <= 1 * (om * w)) by (apply Rmult_le_compat; try apply Rabs_pos; lra). lra. }
  assert (Pw' : Rabs (P * w) <= w). { rewrite Rabs_mult, (Rabs_pos_eq w) by lra. assert (Rabs P * w <= 1 * w) by (apply Rmult_le_compat_r; lra). lra. }
  pose proof (size_near _ _ _ _ A Pw') as As.
  pose proof (rd_step _ _ _ _ A As) as R1. set (p := rd (V * w')) in *.
  assert (R1' : Rabs (p - P * w) <= w * (1001 / 1000 * E + om + 103 / 100 * u)).
  { assert (u * (w + w * (1001 / 1000 * E + om)) <= w * (102 / 100 * u)).
    { replace (w * (102 / 100 * u)) with (u * (102 / 100 * w)) by ring. apply Rmult_le_compat_l; lra. } lra. }
  pose proof (INR_nonneg k) as Pk. set (q := INR k + / 2) in *. assert (Pq : / 2 <= q) by (unfold q; lra). clearbody q.
  assert (B : Rabs (p * q - q * P * w) <= q * (w * (1001 / 1000 * E + om + 103 / 100 * u))).
  { replace (p * q - q * P * w) with (q * (p - P * w)) by ring. rewrite Rabs_mult, (Rabs_pos_eq q) by lra. apply Rmult_le_compat_l; lra. }
  assert (Bs : Rabs (p * q) <= q * (102 / 100 * w)).
  { rewrite Rabs_mult, (Rabs_pos_eq q), Rmult_comm by lra. apply Rmult_le_compat_l; [lra|]. pose proof (size_near _ _ _ _ R1' Pw'). lra. }
  pose proof (rd_step _ _ _ _ B Bs) as R2.
  assert (/ 2 * (u * w) <= q * (u * w)) by (apply Rmult_le_compat_r; lra). lra.
Qed.

(** * Square roots of computed weights and lengths *)
Lemma sqrt_near e W' W : 0 < W -> 0 <= e <= / 2 -> Rabs (W' - W) <= e * W -> Rabs (sqrt W' - sqrt W) <= e * sqrt W.
Proof.
  intros PW He' H. apply Rabs_le_between in H. assert (P' : 0 < W') by nra. pose proof (sqrt_lt_R0 _ PW) as S. pose proof (sqrt_lt_R0 _ P') as S'.
  assert (E : sqrt W' - sqrt W = (W' - W) / (sqrt W' + sqrt W)).
  { apply (Rmult_eq_reg_r (sqrt W' + sqrt W)); [|lra]. unfold Rdiv. rewrite Rmult_assoc, Rinv_l, Rmult_1_r by lra.
    replace ((sqrt W' - sqrt W) * (sqrt W' + sqrt W)) with (sqrt W' * sqrt W' - sqrt W * sqrt W) by ring. rewrite !sqrt_sqrt by lra. reflexivity. }
  rewrite E. unfold Rdiv. rewrite Rabs_mult, (Rabs_pos_eq (/ _)) by (left; apply Rinv_0_lt_compat; lra).
  apply (Rmult_le_reg_r (sqrt W' + sqrt W)); [lra|]. rewrite Rmult_assoc, Rinv_l, Rmult_1_r by lra.
  apply Rle_trans with (e * W); [apply Rabs_le; lra|]. replace (e * W) with (e * (sqrt W * sqrt W)) by (rewrite sqrt_sqrt; lra).
  replace (e * sqrt W * (sqrt W' + sqrt W)) with (e * (sqrt W * sqrt W) + e * (sqrt W * sqrt W')) by ring.
  assert (0 <= e * (sqrt W * sqrt W')) by (apply Rmult_le_pos; [lra|apply Rmult_le_pos; lra]). lra.
Qed.

(** The square root of a computed weight, and a number divided by it. *)
Lemma root_near o W' W : 0 < W -> 0 <= o <= / 100 -> rel o W' W -> eta <= u * sqrt W / 1000 ->
  Rabs (rd (sqrt W') - sqrt W) <= (o + 102 / 100 * u) * sqrt W.
Proof.
  intros PW Ho HW Hs. unfold rel in HW. rewrite (Rabs_pos_eq W) in HW by lra. pose proof (sqrt_lt_R0 _ PW) as S.
  pose proof (sqrt_near o W' W PW ltac:(lra) HW) as H. assert (Q : Rabs (sqrt W) <= sqrt W) by (rewrite Rabs_pos_eq; lra).
  pose proof (size_near _ _ _ _ H Q) as Z. pose proof (rd_step _ _ _ _ H Z) as T.
  assert (u * (o * sqrt W) <= u * (/ 100 * sqrt W)) by (apply Rmult_le_compat_l; [lra|apply Rmult_le_compat_r; lra]). lra.
Qed.

Lemma quotient_near o a s' s : 0 < s -> 0 <= o <= / 100 -> Rabs (s' - s) <= o * s ->
  Rabs (rd (a / s') - a / s) <= (102 / 100 * o + 102 / 100 * u) * Rabs (a / s) + eta.
Proof.
  intros Ps Ho H. apply Rabs_le_between in H. assert (P' : 0 < s') by nra. set (q := a / s).
  assert (E : Rabs (a / s' - q) <= 102 / 100 * o * Rabs q).
  { unfold q. replace (a / s' - a / s) with ((s - s') / s' * (a / s)) by (field; lra). rewrite Rabs_mult. apply Rmult_le_compat_r; [apply Rabs_pos|].
    unfold Rdiv. rewrite Rabs_mult, (Rabs_pos_eq (/ s')) by (left; apply Rinv_0_lt_compat; lra).
    apply (Rmult_le_reg_r s'); [lra|]. rewrite Rmult_assoc, Rinv_l, Rmult_1_r by lra. apply Rle_trans with (o * s); [apply Rabs_le; lra|].
    assert (o * (99 / 100 * s) <= o * s') by (apply Rmult_le_compat_l; nra). assert (0 <= o * s) by (apply Rmult_le_pos; lra). lra. }
  pose proof (size_near _ _ _ _ E (Rle_refl _)) as Z. pose proof (rd_step _ _ _ _ E Z) as T. pose proof (Rabs_pos q) as Pq.
  assert (u * (102 / 100 * o * Rabs q) <= u * (102 / 100 * / 100 * Rabs q)) by (apply Rmult_le_compat_l; [lra|apply Rmult_le_compat_r; lra]).
  assert (0 <= u * Rabs q) by (apply Rmult_le_pos; lra). lra.
Qed.

(** The square root of half a length. *)
Lemma half_length_near L : 0 < L -> eta <= u * L / 1000 -> eta <= u * sqrt (/ 2 * L) / 1000 ->
  Rabs (rd (sqrt (rd (/ 2 * rd L))) - sqrt (/ 2 * L)) <= 4 * u * sqrt (/ 2 * L).
Proof.
  intros PL HL HS. assert (UL : 0 <= u * L <= / 10000 * L) by (split; [apply Rmult_le_pos; lra|apply Rmult_le_compat_r; lra]).
  pose proof (Hr L) as R1. rewrite (Rabs_pos_eq L) in R1 by lra.
  assert (H1 : Rabs (/ 2 * rd L - / 2 * L) <= 1001 / 2000 * (u * L)).
  { replace (/ 2 * rd L - / 2 * L) with (/ 2 * (rd L - L)) by ring. rewrite Rabs_mult, (Rabs_pos_eq (/ 2)) by lra. lra. }
  assert (Q1 : Rabs (/ 2 * L) <= / 2 * L) by (rewrite Rabs_pos_eq; lra).
  pose proof (size_near _ _ _ _ H1 Q1) as Z1. pose proof (rd_step _ _ _ _ H1 Z1) as R2.
  assert (u * (/ 2 * L + 1001 / 2000 * (u * L)) <= 501 / 1000 * (u * L)).
  { assert (u * (1001 / 2000 * (u * L)) <= / 10000 * (1001 / 2000 * (u * L))) by (apply Rmult_le_compat_r; lra). lra. }
  assert (H2 : rel (202 / 100 * u) (rd (/ 2 * rd L)) (/ 2 * L)). { unfold rel. rewrite (Rabs_pos_eq (/ 2 * L)) by lra. lra. }
  pose proof (root_near (202 / 100 * u) (rd (/ 2 * rd L)) (/ 2 * L) ltac:(lra) ltac:(lra) H2 HS) as R3. pose proof (sqrt_pos (/ 2 * L)).
  assert (0 <= u * sqrt (/ 2 * L)) by (apply Rmult_le_pos; lra). lra.
Qed.

(** * One coefficient *)
Section Coef.
Variables (n : nat) (q D T gam th H X : R) (w a P Ch uh : nat -> R).
Hypothesis Hq : / 2 <= q.
Hypothesis HD : 0 <= D <= / 50.
Hypothesis HT : 0 <= T <= / 100.
Hypothesis Hg : 0 <= gam <= / 10.
Hypothesis Ht : 0 <= th.
Hypothesis HH : 0 < H <= 1.
Hypothesis Hw : forall j, (j < n)%nat -> 0 < w j.
Hypothesis Hw2 : sumn n w = 2.
Hypothesis HP : forall j, (j < n)%nat -> Rabs (P j) <= 1.
Let ux j := a j / (sqrt (w j) * H).
Hypothesis HC : forall j, (j < n)%nat -> Rabs (Ch j - q * P j * w j) <= q * w j * D.
Hypothesis HU : forall j, (j < n)%nat -> Rabs (uh j - ux j) <= T * Rabs (ux j) + eta.
Hypothesis HX : Rabs (X - sumn n (fun j => Ch j * uh j)) <= gam * sumn n (fun j => Rabs (Ch j) * Rabs (uh j)) + th.
Let m j := sqrt (w j) * Rabs (a j).
Let S := sumn n m.

Lemma m_eq j : (j < n)%nat -> w j * Rabs (ux j) * H = m j.
Proof.
  intros Hj. pose proof (sqrt_lt_R0 _ (Hw j Hj)) as Q. unfold ux, m, Rdiv. rewrite Rabs_mult, (Rabs_pos_eq (/ _)).
  2:{ left. apply Rinv_0_lt_compat. apply Rmult_lt_0_compat; lra. }
  rewrite <- (sqrt_sqrt (w j)) at 1 by (left; apply Hw; exact Hj). field. split; lra.
Qed.
Lemma m_pos j : 0 <= m j.
Proof. apply Rmult_le_pos; [apply sqrt_pos|apply Rabs_pos]. Qed.
Lemma S_pos : 0 <= S.
Proof. apply sumn_nonneg. intros. apply m_pos. Qed.

Lemma term_near j : (j < n)%nat -> Rabs (Ch j * uh j - q * P j * w j * ux j) * H <= q * ((102 / 100 * D + T) * m j + 103 / 100 * eta * w j) /\
  Rabs (Ch j) * Rabs (uh j) * H <= q * (104 / 100 * m j + 103 / 100 * eta * w j).
Proof.
  intros Hj. pose proof (Hw j Hj) as Pw. pose proof (HC j Hj) as C. pose proof (HU j Hj) as U. pose proof (m_eq j Hj) as M. pose proof (HP j Hj) as PP.
  set (t := Rabs (ux j)) in *. assert (Pt : 0 <= t) by apply Rabs_pos.
  assert (C0 : Rabs (q * P j * w j) <= q * w j).
  { rewrite !Rabs_mult, (Rabs_pos_eq q), (Rabs_pos_eq (w j)) by lra. replace (q * Rabs (P j) * w j) with (q * w j * Rabs (P j)) by ring.
    rewrite <- (Rmult_1_r (q * w j)) at 2. apply Rmult_le_compat_l; [apply Rmult_le_pos; lra|exact PP]. }
  assert (Qw : 0 < q * w j) by (apply Rmult_lt_0_compat; lra).
  assert (C1 : Rabs (Ch j) <= q * w j * (102 / 100)). { pose proof (size_near _ _ _ _ C C0). assert (q * w j * D <= q * w j * / 50) by (apply Rmult_le_compat_l; lra). lra. }
  assert (U1 : Rabs (uh j) <= t + (T * t + eta)) by (apply (size_near _ (ux j)); [exact U|unfold t; lra]).
  assert (Tt : 0 <= T * t <= / 100 * t) by (split; [apply Rmult_le_pos; lra|apply Rmult_le_compat_r; lra]).
  assert (Wt : w j * t * H = m j) by exact M.
  assert (WH : w j * H <= w j) by (rewrite <- (Rmult_1_r (w j)) at 2; apply Rmult_le_compat_l; lra).
  split.
  - replace (Ch j * uh j - q * P j * w j * ux j) with ((Ch j - q * P j * w j) * uh j + q * P j * w j * (uh j - ux j)) by ring.
    apply Rle_trans with ((q * w j * D * (t + (T * t + eta)) + q * w j * (T * t + eta)) * H).
    + apply Rmult_le_compat_r; [lra|]. eapply Rle_trans; [apply Rabs_triang|]. rewrite (Rabs_mult (Ch j - _)), (Rabs_mult (q * P j * w j)).
      apply Rplus_le_compat; apply Rmult_le_compat; try apply Rabs_pos; assumption.
    + assert (D * (t + (T * t + eta)) <= D * (101 / 100 * t + eta)) by (apply Rmult_le_compat_l; lra).
      assert (De : D * eta <= / 50 * eta) by (apply Rmult_le_compat_r; lra).
      assert (Dt : 0 <= D * t) by (apply Rmult_le_pos; lra).
      replace ((q * w j * D * (t + (T * t + eta)) + q * w j * (T * t + eta)) * H) with (q * (w j * H * (D * (t + (T * t + eta)) + (T * t + eta)))) by ring.
      apply Rmult_le_compat_l; [lra|]. rewrite <- Wt.
      assert (K0 : 0 <= w j * H) by (apply Rmult_le_pos; lra).
      apply Rle_trans with (w j * H * ((102 / 100 * D + T) * t + 102 / 100 * eta)); [apply Rmult_le_compat_l; lra|].
      assert (w j * H * (102 / 100 * eta) <= w j * (102 / 100 * eta)) by (apply Rmult_le_compat_r; lra).
      assert (0 <= eta * w j) by (apply Rmult_le_pos; lra). replace (w j * H * ((102 / 100 * D + T) * t + 102 / 100 * eta)) with ((102 / 100 * D + T) * (w j * t * H) + w j * H * (102 / 100 * eta)) by ring. lra.
  - apply Rle_trans with (q * w j * (102 / 100) * (t + (T * t + eta)) * H).
    + apply Rmult_le_compat_r; [lra|]. apply Rmult_le_compat; try apply Rabs_pos; assumption.
    + rewrite <- Wt. replace (q * w j * (102 / 100) * (t + (T * t + eta)) * H) with (q * (w j * H * (102 / 100 * (t + (T * t + eta))))) by ring.
      apply Rmult_le_compat_l; [lra|].
      assert (K0 : 0 <= w j * H) by (apply Rmult_le_pos; lra).
      apply Rle_trans with (w j * H * (104 / 100 * t + 102 / 100 * eta)); [apply Rmult_le_compat_l; lra|].
      assert (w j * H * (102 / 100 * eta) <= w j * (102 / 100 * eta)) by (apply Rmult_le_compat_r; lra).
      assert (0 <= eta * w j) by (apply Rmult_le_pos; lra). lra.
Qed.

Let c := sumn n (fun j => q * P j * w j * ux j) * H.
Lemma exact_size : Rabs c <= q * S.
Proof.
  unfold c. rewrite <- sumn_scal_r. eapply Rle_trans; [apply sumn_abs|]. unfold S. rewrite <- sumn_scal. apply sumn_le. intros j Hj. rewrite <- (m_eq j Hj).
  rewrite !Rabs_mult, (Rabs_pos_eq q), (Rabs_pos_eq (w j)), (Rabs_pos_eq H) by (try lra; left; apply Hw; exact Hj).
  replace (q * Rabs (P j) * w j * Rabs (ux j) * H) with (Rabs (P j) * (q * (w j * Rabs (ux j) * H))) by ring.
  rewrite <- (Rmult_1_l (q * _)) at 2. apply Rmult_le_compat_r; [|apply HP; exact Hj].
  rewrite (m_eq j Hj). apply Rmult_le_pos; [lra|apply m_pos].
Qed.

Lemma dot_term : Rabs (X * H - c) <= q * ((102 / 100 * D + T + 104 / 100 * gam) * S + 23 / 10 * eta) + th.
Proof.
  pose proof S_pos as PS.
  assert (A : Rabs (sumn n (fun j => Ch j * uh j) * H - c) <= q * ((102 / 100 * D + T) * S + 206 / 100 * eta)).
  { unfold c. rewrite <- !sumn_scal_r, <- sumn_minus. eapply Rle_trans; [apply sumn_abs|].
    apply Rle_trans with (sumn n (fun j => q * ((102 / 100 * D + T) * m j + 103 / 100 * eta * w j))).
    - apply sumn_le. intros j Hj. destruct (term_near j Hj) as [E _].
      replace (Ch j * uh j * H - q * P j * w j * ux j * H) with ((Ch j * uh j - q * P j * w j * ux j) * H) by ring. rewrite Rabs_mult, (Rabs_pos_eq H) by lra. exact E.
    - rewrite sumn_scal, sumn_plus, !sumn_scal.  change (sumn n m) with S. rewrite Hw2. clearbody S. right. field. }
  assert (B : sumn n (fun j => Rabs (Ch j) * Rabs (uh j)) * H <= q * (104 / 100 * S + 206 / 100 * eta)).
  { rewrite <- sumn_scal_r. apply Rle_trans with (sumn n (fun j => q * (104 / 100 * m j + 103 / 100 * eta * w j))).
    - apply sumn_le. intros j Hj. destruct (term_near j Hj) as [_ E]. exact E.
    - rewrite sumn_scal, sumn_plus, !sumn_scal.  change (sumn n m) with S. rewrite Hw2. clearbody S. right. field. }
  replace (X * H - c) with ((X - sumn n (fun j => Ch j * uh j)) * H + (sumn n (fun j => Ch j * uh j) * H - c)) by ring.
  eapply Rle_trans; [apply Rabs_triang|]. rewrite Rabs_mult, (Rabs_pos_eq H) by lra.
  assert (Rabs (X - sumn n (fun j => Ch j * uh j)) * H <= (gam * sumn n (fun j => Rabs (Ch j) * Rabs (uh j)) + th) * H) by (apply Rmult_le_compat_r; lra).
  assert (gam * (sumn n (fun j => Rabs (Ch j) * Rabs (uh j)) * H) <= gam * (q * (104 / 100 * S + 206 / 100 * eta))) by (apply Rmult_le_compat_l; lra).
  assert (th * H <= th) by (rewrite <- (Rmult_1_r th) at 2; apply Rmult_le_compat_l; lra).
  assert (Qe : 0 <= q * eta) by (apply Rmult_le_pos; lra).
  assert (gam * (206 / 100 * (q * eta)) <= / 10 * (206 / 100 * (q * eta))) by (apply Rmult_le_compat_r; lra).
  lra.
Qed.

Variable Hh : R.
Hypothesis HHh : Rabs (Hh - H) <= 4 * u * H.
Hypothesis Hsum : 102 / 100 * D + T + 104 / 100 * gam <= / 5.
Variable ro : R -> R.
Hypothesis Hro : forall x, Rabs (ro x - x) <= u * Rabs x + eta.

Lemma coef_near : Rabs (ro (rd (X * Hh)) - c) <= q * ((102 / 100 * D + T + 104 / 100 * gam + 8 * u) * S) + (3 * q + 2) * (eta + th).
Proof.
  pose proof S_pos as PS. pose proof dot_term as DT. pose proof exact_size as ES. set (g := 102 / 100 * D + T + 104 / 100 * gam) in *.
  assert (Pg : 0 <= g) by (unfold g; lra). clearbody g.
  set (e1 := q * (g * S + 23 / 10 * eta) + th) in *.
  assert (Qe : 0 <= q * eta) by (apply Rmult_le_pos; lra). assert (QS : 0 <= q * S) by (apply Rmult_le_pos; lra).
  assert (GS : 0 <= g * (q * S) <= / 5 * (q * S)) by (split; [apply Rmult_le_pos; lra|apply Rmult_le_compat_r; lra]).
  assert (E1 : e1 = g * (q * S) + 23 / 10 * (q * eta) + th) by (unfold e1; ring).
  pose proof (size_near _ _ _ _ DT ES) as Y. set (m1 := q * S + e1) in *. assert (Pm : 0 <= m1) by (unfold m1; lra).
  assert (A : Rabs (X * Hh - c) <= e1 + 4 * u * m1).
  { replace (X * Hh - c) with (X * (Hh - H) + (X * H - c)) by ring. eapply Rle_trans; [apply Rabs_triang|]. rewrite Rabs_mult.
    rewrite Rabs_mult, (Rabs_pos_eq H) in Y by lra. pose proof (Rabs_pos X) as PX.
    assert (Rabs X * Rabs (Hh - H) <= Rabs X * (4 * u * H)) by (apply Rmult_le_compat_l; lra).
    assert (4 * u * (Rabs X * H) <= 4 * u * m1) by (apply Rmult_le_compat_l; lra). lra. }
  assert (Um : 0 <= u * m1 <= / 10000 * m1) by (split; [apply Rmult_le_pos; lra|apply Rmult_le_compat_r; lra]).
  pose proof (size_near _ _ _ _ A ES) as Z.
  assert (Z' : Rabs (X * Hh) <= 1001 / 1000 * m1) by (unfold m1 in *; lra).
  pose proof (rd_step _ _ _ _ A Z') as R1.
  assert (Z2 : Rabs (rd (X * Hh)) <= 1002 / 1000 * m1 + eta). { pose proof (size_near _ _ _ _ R1 ES). unfold m1 in *. lra. }
  pose proof (Hro (rd (X * Hh))) as R2. pose proof (Rabs_triang (ro (rd (X * Hh)) - rd (X * Hh)) (rd (X * Hh) - c)) as TT.
  replace (ro (rd (X * Hh)) - rd (X * Hh) + (rd (X * Hh) - c)) with (ro (rd (X * Hh)) - c) in TT by ring.
  assert (u * Rabs (rd (X * Hh)) <= u * (1002 / 1000 * m1 + eta)) by (apply Rmult_le_compat_l; lra).
  assert (u * eta <= / 10000 * eta) by (apply Rmult_le_compat_r; lra).
  assert (Uq : 0 <= u * (q * S)) by (apply Rmult_le_pos; lra).
  assert (U1 : u * e1 <= / 5 * (u * (q * S)) + / 10000 * (23 / 10 * (q * eta) + th)).
  { rewrite E1. assert (u * (g * (q * S)) <= u * (/ 5 * (q * S))) by (apply Rmult_le_compat_l; lra).
    assert (u * (23 / 10 * (q * eta) + th) <= / 10000 * (23 / 10 * (q * eta) + th)) by (apply Rmult_le_compat_r; lra). lra. }
  assert (um : u * m1 = u * (q * S) + u * e1) by (unfold m1; ring).
  assert (0 <= q * th) by (apply Rmult_le_pos; lra). assert (/ 2 * eta <= q * eta) by (apply Rmult_le_compat_r; lra).
  replace (q * ((g + 8 * u) * S)) with (g * (q * S) + 8 * (u * (q * S))) by ring. lra.
Qed.
End Coef.
End Round.
