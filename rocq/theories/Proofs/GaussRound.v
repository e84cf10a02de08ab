(** Rounding errors of reseated and joined quadrature rules (C89). *)
From Coq Require Import ZArith Bool Reals Lra Lia Arith.
From Coquelicot Require Import Coquelicot.
From Coq Require Import List Sorting.Sorted.
From Verif.Model Require Import Base Util Num Gauss Kernel KernelIEEE GaussIEEE.
From Verif.Spec Require Import SGauss SCompute SKernelIEEE SGaussIEEE.
From Verif.Proofs Require Import GaussFacts ComputeNodes KernelRound.
Import ListNotations.
Open Scope R_scope.
Notation length := List.length.

(** * Relative errors *)
Lemma rel_mul e1 e2 a' a b' b : rel e1 a' a -> rel e2 b' b -> 0 <= e1 -> 0 <= e2 -> rel (e1 + e2 + e1 * e2) (a' * b') (a * b).
Proof.
  unfold rel. intros H1 H2 P1 P2. replace (a' * b' - a * b) with ((a' - a) * b + a * (b' - b) + (a' - a) * (b' - b)) by ring.
  eapply Rle_trans; [apply Rabs_triang|]. eapply Rle_trans; [apply Rplus_le_compat_r, Rabs_triang|]. rewrite !Rabs_mult.
  pose proof (Rabs_pos a). pose proof (Rabs_pos b). pose proof (Rabs_pos (a' - a)). pose proof (Rabs_pos (b' - b)).
  assert (A1 : Rabs (a' - a) * Rabs b <= e1 * Rabs a * Rabs b) by (apply Rmult_le_compat_r; auto).
  assert (A2 : Rabs a * Rabs (b' - b) <= Rabs a * (e2 * Rabs b)) by (apply Rmult_le_compat_l; auto).
  assert (A3 : Rabs (a' - a) * Rabs (b' - b) <= (e1 * Rabs a) * (e2 * Rabs b)) by (apply Rmult_le_compat; auto).
  lra.
Qed.

Lemma rel_le e e' a' a : rel e a' a -> e <= e' -> rel e' a' a.
Proof. unfold rel. intros H L. eapply Rle_trans; [exact H|]. apply Rmult_le_compat_r; [apply Rabs_pos|auto]. Qed.

Lemma rel_bounds e a' a : rel e a' a -> (1 - e) * Rabs a <= Rabs a' <= (1 + e) * Rabs a.
Proof.
  unfold rel. intros H. pose proof (Rabs_triang_inv a a') as T1. pose proof (Rabs_triang_inv a' a) as T2.
  rewrite Rabs_minus_sym in T1. lra.
Qed.

Lemma rel_inv e a' a : rel e a' a -> 0 <= e <= / 100 -> a <> 0 -> rel (e * (101 / 99)) (/ a') (/ a).
Proof.
  intros H He Ha. pose proof (rel_bounds _ _ _ H) as [B _]. unfold rel in *.
  assert (P : 0 < Rabs a) by (apply Rabs_pos_lt; auto). assert (P' : 99 / 100 * Rabs a <= Rabs a') by nra.
  assert (Ha' : a' <> 0). { intros ->. rewrite Rabs_R0 in P'. lra. }
  replace (/ a' - / a) with ((a - a') * (/ a' * / a)) by (field; auto). rewrite !Rabs_mult, Rabs_minus_sym, !Rabs_inv.
  assert (I : / Rabs a' <= 101 / 99 * / Rabs a).
  { apply Rle_trans with (/ (99 / 100 * Rabs a)); [apply Rinv_le_contravar; lra|]. rewrite Rinv_mult.
    assert (0 < / Rabs a) by (apply Rinv_0_lt_compat; auto). lra. }
  assert (Ip : 0 < / Rabs a) by (apply Rinv_0_lt_compat; auto). assert (Ip' : 0 < / Rabs a') by (apply Rinv_0_lt_compat; lra).
  apply Rle_trans with (e * Rabs a * (101 / 99 * / Rabs a * / Rabs a)).
  - apply Rmult_le_compat; auto; [apply Rabs_pos|apply Rmult_le_pos; lra|]. apply Rmult_le_compat_r; lra.
  - apply Req_le. field. lra.
Qed.

Lemma rel_add e a' a b' b : rel e a' a -> rel e b' b -> 0 <= a -> 0 <= b -> rel e (a' + b') (a + b).
Proof.
  unfold rel. intros H1 H2 A B. rewrite (Rabs_pos_eq a) in H1 by auto. rewrite (Rabs_pos_eq b) in H2 by auto. rewrite (Rabs_pos_eq (a + b)) by lra.
  replace (a' + b' - (a + b)) with ((a' - a) + (b' - b)) by ring. eapply Rle_trans; [apply Rabs_triang|]. lra.
Qed.

Lemma rel_sqrt e a' a : rel e a' a -> 0 <= a -> 0 <= a' -> 0 <= e -> rel e (sqrt a') (sqrt a).
Proof.
  unfold rel. intros H A A' He. rewrite (Rabs_pos_eq a A) in H. rewrite (Rabs_pos_eq (sqrt a)) by apply sqrt_pos.
  destruct (Req_EM_T a 0) as [->|N].
  - assert (a' = 0). { rewrite Rmult_0_r, Rminus_0_r in H. rewrite Rabs_pos_eq in H by auto. lra. } subst. rewrite sqrt_0. rewrite Rminus_0_r, Rabs_R0. lra.
  - assert (S : 0 < sqrt a) by (apply sqrt_lt_R0; lra). pose proof (sqrt_pos a').
    assert (E : a' - a = (sqrt a' - sqrt a) * (sqrt a' + sqrt a)).
    { rewrite <- (sqrt_sqrt a') at 1 by auto. rewrite <- (sqrt_sqrt a) at 1 by auto. ring. }
    rewrite E, Rabs_mult, (Rabs_pos_eq (sqrt a' + sqrt a)) in H by lra. rewrite <- (sqrt_sqrt a) in H at 3 by auto.
    apply Rmult_le_reg_r with (sqrt a); auto. pose proof (Rabs_pos (sqrt a' - sqrt a)).
    assert (Rabs (sqrt a' - sqrt a) * sqrt a <= Rabs (sqrt a' - sqrt a) * (sqrt a' + sqrt a)) by (apply Rmult_le_compat_l; lra). lra.
Qed.

Section Round.
Variables (u eta e : R) (rd : R -> R).
Hypothesis Hs : small_errors u eta e.
Hypothesis Hrd : rounding u eta rd.
Let rd_err := KernelRound.rd_err u eta rd Hrd.
Let rd_zero := KernelRound.rd_zero u eta rd Hrd.

Lemma u_small : 0 < u <= / 10000.
Proof. apply (KernelRound.small_u u eta e Hs). Qed.

(** numbers from 1e-200 do not underflow *)
Lemma rel_rd d a' a : rel d a' a -> 0 <= d <= / 100 -> / 10 ^ 200 <= Rabs a -> rel (d + 102 / 100 * u) (rd a') a.
Proof.
  intros H Hd Ha. pose proof u_small as Hu. destruct (KernelRound.tiny_facts u eta e Hs) as (T & ET & _ & T0 & He & _).
  rewrite <- ET in Ha. pose proof (rel_bounds _ _ _ H) as [_ B]. unfold rel in *.
  replace (rd a' - a) with ((rd a' - a') + (a' - a)) by ring. eapply Rle_trans; [apply Rabs_triang|].
  pose proof (rd_err a') as E. pose proof (Rabs_pos a). assert (D : (1 + d) * Rabs a <= 101 / 100 * Rabs a) by (apply Rmult_le_compat_r; lra).
  assert (U1 : u * Rabs a' <= u * (101 / 100 * Rabs a)) by (apply Rmult_le_compat_l; lra).
  assert (U2 : u * T <= u * Rabs a) by (apply Rmult_le_compat_l; lra). assert (0 <= u * Rabs a) by (apply Rmult_le_pos; lra). lra.
Qed.

Lemma rel_refl a : rel 0 a a.
Proof. unfold rel. rewrite Rminus_diag_eq by auto. rewrite Rabs_R0. lra. Qed.

Definition gap : R := / 10 ^ 100.
Lemma gap_facts : 0 < gap <= / 10 ^ 20 / 1000000 /\ / 10 ^ 200 = gap * gap.
Proof.
  unfold gap. split; [split|].
  - apply Rinv_0_lt_compat, pow_lt; lra.
  - replace (10 ^ 100) with (10 ^ 20 * 10 ^ 80) by (rewrite <- pow_add; reflexivity). rewrite Rinv_mult. unfold Rdiv.
    apply Rmult_le_compat_l; [apply Rlt_le, Rinv_0_lt_compat, pow_lt; lra|]. apply Rinv_le_contravar; [lra|].
    apply Rle_trans with (10 ^ 6); [lra|apply Rle_pow; [lra|lia]].
  - rewrite <- Rinv_mult, <- pow_add. reflexivity.
Qed.

(** the factor by which a rule is scaled *)
Lemma scaling_rel a b : a + gap <= b -> b - a <= 2 -> rel (31 / 10 * u) (rd (rd (b - a) / rd (1 - -1))) ((b - a) / 2).
Proof.
  intros Hg Hb. pose proof u_small as Hu. pose proof gap_facts as (G & E).
  assert (P20 : / 10 ^ 20 <= 1). { rewrite <- Rinv_1. apply Rinv_le_contravar; [lra|]. apply pow_R1_Rle; lra. }
  assert (Ggap : gap * gap <= gap / 1000000). { apply Rmult_le_compat_l; lra. }
  assert (G0 : 0 < gap * gap) by (apply Rmult_lt_0_compat; lra).
  assert (A : rel (102 / 100 * u) (rd (b - a)) (b - a)).
  { replace (102 / 100 * u) with (0 + 102 / 100 * u) by ring. apply rel_rd; [apply rel_refl|lra|]. rewrite E, Rabs_pos_eq by lra. lra. }
  assert (B : rel (102 / 100 * u) (rd (1 - -1)) (1 - -1)).
  { replace (102 / 100 * u) with (0 + 102 / 100 * u) by ring. apply rel_rd; [apply rel_refl|lra|]. rewrite E, Rabs_pos_eq by lra. lra. }
  replace (1 - -1) with 2 in * by ring.
  apply rel_inv in B; [|lra|lra]. pose proof (rel_mul _ _ _ _ _ _ A B ltac:(lra) ltac:(lra)) as M.
  assert (Q : 102 / 100 * u * (102 / 100 * u * (101 / 99)) <= u / 1000) by nra.
  eapply rel_le; [apply rel_rd; [exact M|split; [|lra]|]|lra].
  - assert (0 <= u * u) by nra. lra.
  - rewrite E. rewrite Rabs_pos_eq by lra. lra.
Qed.

(** weights and distances: a number of relative error d, scaled *)
Lemma scaled_rel a b t' t d : a + gap <= b -> b - a <= 2 -> rel d t' t -> 0 <= d <= / 1000 -> / 10 ^ 20 <= t ->
  rel (d + 42 / 10 * u) (rd (t' * rd (rd (b - a) / rd (1 - -1)))) (t * ((b - a) / 2)).
Proof.
  intros Hg Hb H Hd Ht. pose proof u_small as Hu. pose proof gap_facts as (G & E).
  pose proof (rel_mul _ _ _ _ _ _ H (scaling_rel a b Hg Hb) ltac:(lra) ltac:(lra)) as M.
  assert (Q : d * (31 / 10 * u) <= / 1000 * (31 / 10 * u)) by (apply Rmult_le_compat_r; lra).
  assert (Q0 : 0 <= d * (31 / 10 * u)) by (apply Rmult_le_pos; lra).
  eapply rel_le; [apply rel_rd; [exact M|lra|]|lra].
  rewrite E. assert (L : gap * gap <= t * ((b - a) / 2)) .
  { apply Rle_trans with (t * (gap / 2)); [|apply Rmult_le_compat_l; lra]. replace (t * (gap / 2)) with (t / 2 * gap) by field. apply Rmult_le_compat_r; lra. }
  rewrite Rabs_pos_eq; [auto|]. apply Rle_trans with (gap * gap); [apply Rmult_le_pos; lra|auto].
Qed.

(** distances after joining: the distance c of the piece from the end is added *)
Lemma joined_rel a b t' t d c : a + gap <= b -> b - a <= 2 -> rel d t' t -> 0 <= d <= / 1000 -> / 10 ^ 20 <= t -> 0 <= c ->
  rel (d + 6 * u) (rd (rd (t' * rd (rd (b - a) / rd (1 - -1))) + rd c)) (t * ((b - a) / 2) + c).
Proof.
  intros Hg Hb H Hd Ht Hc. pose proof u_small as Hu. pose proof gap_facts as (G & E).
  pose proof (scaled_rel a b t' t d Hg Hb H Hd Ht) as S.
  assert (L : gap * gap <= t * ((b - a) / 2)) .
  { apply Rle_trans with (t * (gap / 2)); [|apply Rmult_le_compat_l; lra]. replace (t * (gap / 2)) with (t / 2 * gap) by field. apply Rmult_le_compat_r; lra. }
  assert (G0 : 0 < gap * gap) by (apply Rmult_lt_0_compat; lra).
  set (s := t * ((b - a) / 2)) in *. set (s' := rd (t' * rd (rd (b - a) / rd (1 - -1)))) in *. clearbody s s'.
  assert (A : rel (d + 43 / 10 * u) (s' + rd c) (s + c)).
  { unfold rel in *. replace (s' + rd c - (s + c)) with ((s' - s) + (rd c - c)) by ring. eapply Rle_trans; [apply Rabs_triang|].
    pose proof (rd_err c) as Ec. rewrite (Rabs_pos_eq c) in Ec by auto. rewrite (Rabs_pos_eq s) in S by lra. rewrite (Rabs_pos_eq (s + c)) by lra.
    destruct (KernelRound.tiny_facts u eta e Hs) as (T & ET & _ & T0 & He & _). rewrite E in ET.
    assert (u * T <= u * s) by (apply Rmult_le_compat_l; lra). assert (0 <= d * c) by (apply Rmult_le_pos; lra).
    assert (0 <= u * c) by (apply Rmult_le_pos; lra). assert (0 <= u * s) by (apply Rmult_le_pos; lra). lra. }
  eapply rel_le; [apply rel_rd; [exact A|lra|]|lra]. rewrite E, Rabs_pos_eq; lra.
Qed.

(** nodes *)
Lemma node_round a b x' x sg : a + gap <= b -> -1 <= a -> b <= 1 -> Rabs (x' - x) <= sg -> 0 <= sg <= / 1000 -> -1 <= x <= 1 ->
  Rabs (rd (rd (rd (rd (b - a) / rd (1 - -1)) * rd (x' - rd (rd (1 + -1) / 2))) + rd (rd (b + a) / 2)) - ((b - a) / 2 * x + (b + a) / 2))
  <= (sg + 7 * u) * Rmax (Rabs a) (Rabs b).
Proof.
  intros Hg Ha Hb H Hsg Hx. pose proof u_small as Hu. pose proof gap_facts as (G & E).
  pose proof (scaling_rel a b Hg ltac:(lra)) as S. unfold rel in S.
  destruct (KernelRound.tiny_facts u eta e Hs) as (T & ET & _ & T0 & He & _). rewrite E in ET.
  assert (P20 : / 10 ^ 20 <= 1). { rewrite <- Rinv_1. apply Rinv_le_contravar; [lra|]. apply pow_R1_Rle; lra. }
  assert (Tg : T <= gap / 1000000). { rewrite ET. apply Rmult_le_compat_l; lra. }
  replace (rd (rd (1 + -1) / 2)) with 0. 2:{ replace (1 + -1) with 0 by ring. rewrite rd_zero. unfold Rdiv. rewrite Rmult_0_l, rd_zero. auto. }
  rewrite Rminus_0_r. set (s := (b - a) / 2) in *. set (m := (b + a) / 2).
  assert (M : Rmax (Rabs a) (Rabs b) = s + Rabs m).
  { unfold s, m. destruct (Rle_dec 0 (b + a)) as [L|L].
    - rewrite (Rabs_pos_eq ((b + a) / 2)) by lra. rewrite Rmax_right; [rewrite Rabs_pos_eq by lra; field|]. apply Rabs_le. rewrite (Rabs_pos_eq b) by lra. lra.
    - rewrite (Rabs_left ((b + a) / 2)) by lra. rewrite Rmax_left; [rewrite Rabs_left by lra; field|]. apply Rabs_le. rewrite (Rabs_left a) by lra. lra. }
  rewrite M. assert (S0 : gap / 2 <= s) by (unfold s; lra). assert (S1 : s <= 1) by (unfold s; lra).
  rewrite (Rabs_pos_eq s) in S by lra. set (s' := rd (rd (b - a) / rd (1 - -1))) in *. clearbody s'.
  assert (Us : 0 <= u * s) by (apply Rmult_le_pos; lra).
  assert (Et : eta <= u * s / 100000). { assert (u * T <= u * s) by (apply Rmult_le_compat_l; lra). lra. }
  assert (Et1 : eta <= u / 100000). { assert (u * s <= u * 1) by (apply Rmult_le_compat_l; lra). lra. }
  assert (X' : Rabs x' <= 1 + sg). { replace x' with ((x' - x) + x) by ring. eapply Rle_trans; [apply Rabs_triang|]. assert (Rabs x <= 1) by (apply Rabs_le; lra). lra. }
  assert (Xa : Rabs x <= 1) by (apply Rabs_le; lra).
  pose proof (rd_err x') as E1. set (x1 := rd x') in *. clearbody x1.
  assert (D1 : Rabs (x1 - x) <= sg + 101 / 100 * u).
  { replace (x1 - x) with ((x1 - x') + (x' - x)) by ring. eapply Rle_trans; [apply Rabs_triang|].
    assert (u * Rabs x' <= u * (1 + / 1000)) by (apply Rmult_le_compat_l; lra). lra. }
  assert (D2 : Rabs (s' * x1 - s * x) <= s * (sg + 42 / 10 * u)).
  { replace (s' * x1 - s * x) with (s * (x1 - x) + (s' - s) * (x1 - x) + (s' - s) * x) by ring.
    eapply Rle_trans; [apply Rabs_triang|]. eapply Rle_trans; [apply Rplus_le_compat_r, Rabs_triang|]. rewrite !Rabs_mult. rewrite (Rabs_pos_eq s) by lra.
    pose proof (Rabs_pos (s' - s)). pose proof (Rabs_pos (x1 - x)). pose proof (Rabs_pos x).
    assert (A1 : s * Rabs (x1 - x) <= s * (sg + 101 / 100 * u)) by (apply Rmult_le_compat_l; lra).
    assert (A2 : Rabs (s' - s) * Rabs (x1 - x) <= (31 / 10 * u * s) * (2 / 1000)) by (apply Rmult_le_compat; lra).
    assert (A3 : Rabs (s' - s) * Rabs x <= (31 / 10 * u * s) * 1) by (apply Rmult_le_compat; lra).
    assert (0 <= u * s) by (apply Rmult_le_pos; lra). lra. }
  assert (B2 : Rabs (s' * x1) <= s * (101 / 100)).
  { replace (s' * x1) with ((s' * x1 - s * x) + s * x) by ring. eapply Rle_trans; [apply Rabs_triang|]. rewrite (Rabs_mult s x), (Rabs_pos_eq s) by lra.
    assert (s * Rabs x <= s * 1) by (apply Rmult_le_compat_l; lra). assert (s * (sg + 42 / 10 * u) <= s * (/ 100)) by (apply Rmult_le_compat_l; lra). lra. }
  pose proof (rd_err (s' * x1)) as E2. set (p := rd (s' * x1)) in *. set (p0 := s' * x1) in *. clearbody p p0.
  assert (U2 : u * Rabs p0 <= u * (s * (101 / 100))) by (apply Rmult_le_compat_l; lra).
  assert (D3 : Rabs (p - s * x) <= s * (sg + 53 / 10 * u)).
  { replace (p - s * x) with ((p - p0) + (p0 - s * x)) by ring. eapply Rle_trans; [apply Rabs_triang|]. assert (0 <= u * s) by (apply Rmult_le_pos; lra). lra. }
  assert (D4 : Rabs (rd (rd (b + a) / 2) - m) <= 21 / 10 * u * Rabs m + 2 * eta).
  { pose proof (rd_err (b + a)) as F1. replace (b + a) with (2 * m) in * by (unfold m; field). set (q := rd (2 * m)) in *. clearbody q.
    pose proof (rd_err (q / 2)) as F2. rewrite Rabs_mult, (Rabs_pos_eq 2) in F1 by lra.
    assert (F3 : Rabs (q / 2 - m) <= u * Rabs m + eta / 2).
    { replace (q / 2 - m) with ((q - 2 * m) / 2) by field. unfold Rdiv. rewrite Rabs_mult, (Rabs_pos_eq (/ 2)) by lra. lra. }
    replace (rd (q / 2) - m) with ((rd (q / 2) - q / 2) + (q / 2 - m)) by ring. eapply Rle_trans; [apply Rabs_triang|].
    assert (F4 : Rabs (q / 2) <= Rabs m + (u * Rabs m + eta / 2)).
    { replace (q / 2) with (m + (q / 2 - m)) by ring. eapply Rle_trans; [apply Rabs_triang|]. lra. }
    pose proof (Rabs_pos m). assert (0 <= eta) by apply Hs. assert (0 <= u * Rabs m) by (apply Rmult_le_pos; lra).
    assert (F5 : u * Rabs (q / 2) <= u * (Rabs m + (u * Rabs m + eta / 2))) by (apply Rmult_le_compat_l; lra).
    assert (u * (u * Rabs m) <= / 10000 * (u * Rabs m)) by (apply Rmult_le_compat_r; lra). assert (u * eta <= / 10000 * eta) by (apply Rmult_le_compat_r; lra). lra. }
  set (m' := rd (rd (b + a) / 2)) in *. clearbody m'. pose proof (rd_err (p + m')) as E3.
  pose proof (Rabs_pos m) as Pm. assert (Um : 0 <= u * Rabs m) by (apply Rmult_le_pos; lra).
  assert (B3 : Rabs (p + m') <= 102 / 100 * (s + Rabs m)).
  { replace (p + m') with ((p - s * x) + s * x + (m' - m) + m) by ring. eapply Rle_trans; [apply Rabs_triang|]. eapply Rle_trans; [apply Rplus_le_compat_r, Rabs_triang|].
    eapply Rle_trans; [apply Rplus_le_compat_r, Rplus_le_compat_r, Rabs_triang|]. rewrite (Rabs_mult s x), (Rabs_pos_eq s) by lra.
    assert (s * Rabs x <= s * 1) by (apply Rmult_le_compat_l; lra). assert (s * (sg + 53 / 10 * u) <= s * (/ 100)) by (apply Rmult_le_compat_l; lra).
    assert (21 / 10 * u * Rabs m <= / 1000 * Rabs m) by (apply Rmult_le_compat_r; lra).
    assert (u * s <= / 10000 * s) by (apply Rmult_le_compat_r; lra). lra. }
  assert (U3 : u * Rabs (p + m') <= u * (102 / 100 * (s + Rabs m))) by (apply Rmult_le_compat_l; lra).
  replace (rd (p + m') - (s * x + m)) with ((rd (p + m') - (p + m')) + ((p - s * x) + (m' - m))) by ring.
  eapply Rle_trans; [apply Rabs_triang|]. assert (Rabs ((p - s * x) + (m' - m)) <= s * (sg + 53 / 10 * u) + (21 / 10 * u * Rabs m + 2 * eta)) by (eapply Rle_trans; [apply Rabs_triang|lra]).
  assert (0 <= sg * Rabs m) by (apply Rmult_le_pos; lra). lra.
Qed.
End Round.
