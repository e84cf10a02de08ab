(** The series of the high-frequency model in rounded arithmetic. *)
From Coq Require Import Reals ZArith Arith Bool Lra Lia Psatz.
From Coquelicot Require Import Coquelicot.
From Coq Require Import List.
From Verif.Model Require Import Base Num Poly FT FTIEEE TailIEEE.
From Verif.Spec Require Import SPoly SFT SKernelIEEE SFTIEEE.
From Verif.Proofs Require Import SumFacts.
Import ListNotations.
Open Scope R_scope.

Notation idr := (fun x : R => x).
Definition n1 (z : C) : R := Rabs (fst z) + Rabs (snd z).
Definition w_true (n : Z) : R := - (2 / (PI * IZR n)).

Lemma giw_exact n ms : giw_rd idr (inv_iw_rd idr exact_library n) ms = giw ms n.
Proof.
  induction ms as [|m ms IH]; [reflexivity|]. cbn [giw_rd giw]. rewrite IH. destruct (giw ms n) as [a b]. unfold inv_iw, inv_iw_rd, exact_library. cbn [f_pi fst snd].
  destruct (Z.eqb_spec n 0) as [->|Hn]; unfold Cmult, Cplus, RtoC, Cinv; cbn [fst snd]; f_equal; try ring.
  - assert (IZR n <> 0) by (apply IZR_neq; exact Hn). pose proof PI_RGT_0. assert (PI / 2 * IZR n <> 0) by (apply Rmult_integral_contrapositive_currified; lra). set (p := PI / 2 * IZR n) in *. field. repeat split; try assumption; try lra; nra.
  - assert (IZR n <> 0) by (apply IZR_neq; exact Hn). pose proof PI_RGT_0. assert (PI / 2 * IZR n <> 0) by (apply Rmult_integral_contrapositive_currified; lra). set (p := PI / 2 * IZR n) in *. field. repeat split; try assumption; try lra; nra.
Qed.
Lemma w_exact n : (n <> 0)%Z -> inv_iw_rd idr exact_library n = w_true n.
Proof.
  intros Hn. unfold inv_iw_rd, w_true. destruct (Z.eqb_spec n 0); [contradiction|]. cbn [f_pi exact_library]. pose proof PI_RGT_0. assert (IZR n <> 0) by (apply IZR_neq; exact Hn). field. lra.
Qed.

Section Tail.
Context (u eta : R) (rd : R -> R) (Hrd : rounding u eta rd) (Hu : 0 < u <= / 10000) (He : 0 <= eta).

Lemma rel x : 100 * eta <= u * Rabs x -> exists d, Rabs d <= 101 / 100 * u /\ rd x = x * (1 + d).
Proof.
  intros Hx. destruct Hrd as (R1 & _). specialize (R1 x). destruct (Req_dec x 0) as [->|N].
  - exists 0. rewrite Rabs_R0 in *. split; [lra|]. assert (eta = 0) by lra. subst eta. rewrite Rmult_0_r, Rplus_0_l in R1. apply Rabs_le_between in R1. lra.
  - exists ((rd x - x) / x). pose proof (Rabs_pos_lt x N). split; [|field; exact N]. unfold Rdiv. rewrite Rabs_mult, Rabs_inv. apply Rmult_le_reg_r with (Rabs x); [assumption|]. rewrite Rmult_assoc, Rinv_l by lra. lra.
Qed.

Lemma w_near F n : (n <> 0)%Z -> Rabs (f_pi F - PI) <= u * PI -> 1000 * eta * Rabs (IZR n) <= u ->
  Rabs (inv_iw_rd rd F n - w_true n) <= 8 * u * Rabs (w_true n).
Proof.
  intros Hn Hp Hs. pose proof PI_RGT_0 as P0. pose proof PI2_1 as P1. assert (P4 : PI <= 4) by apply PI_4.
  assert (N1 : 1 <= Rabs (IZR n)). { rewrite <- abs_IZR. apply IZR_le. lia. }
  assert (Es : 1000 * eta <= u) by nra.
  unfold inv_iw_rd. destruct (Z.eqb_spec n 0); [contradiction|].
  set (x := IZR n) in *. set (p := f_pi F) in *. apply Rabs_le_between in Hp.
  assert (exists d0, Rabs d0 <= u /\ p = PI * (1 + d0)) as (d0 & B0 & E0).
  { exists ((p - PI) / PI). split; [|field; lra]. apply Rabs_le. split; [apply Rmult_le_reg_r with PI; [lra|]|apply Rmult_le_reg_r with PI; [lra|]]; replace ((p - PI) / PI * PI) with (p - PI) by (field; lra); lra. }
  apply Rabs_le_between in B0.
  destruct (rel (p / 2)) as (d1 & B1 & E1). { rewrite Rabs_pos_eq by (rewrite E0; nra). rewrite E0. nra. }
  destruct (rel x) as (d2 & B2 & E2). { nra. }
  rewrite E1, E2. apply Rabs_le_between in B1. apply Rabs_le_between in B2.
  assert (E : exists e1, Rabs e1 <= 313 / 100 * u /\ p / 2 * (1 + d1) * (x * (1 + d2)) = PI / 2 * x * (1 + e1)).
  { exists ((1 + d0) * (1 + d1) * (1 + d2) - 1). split; [|rewrite E0; field].
    replace ((1 + d0) * (1 + d1) * (1 + d2) - 1) with (d0 + d1 + d2 + (d0 * d1 + d0 * d2 + d1 * d2 + d0 * d1 * d2)) by ring.
    assert (Rabs (d0 * d1) <= u * (101 / 100 * u)) by (rewrite Rabs_mult; apply Rmult_le_compat; try apply Rabs_pos; apply Rabs_le; lra).
    assert (Rabs (d0 * d2) <= u * (101 / 100 * u)) by (rewrite Rabs_mult; apply Rmult_le_compat; try apply Rabs_pos; apply Rabs_le; lra).
    assert (Rabs (d1 * d2) <= 101 / 100 * u * (101 / 100 * u)) by (rewrite Rabs_mult; apply Rmult_le_compat; try apply Rabs_pos; apply Rabs_le; lra).
    assert (Rabs (d0 * d1 * d2) <= u * (101 / 100 * u) * 1) by (rewrite Rabs_mult; apply Rmult_le_compat; try apply Rabs_pos; [assumption|apply Rabs_le; lra]).
    assert (u * u <= / 10000 * u) by (apply Rmult_le_compat_r; lra).
    repeat match goal with H : Rabs _ <= _ |- _ => apply Rabs_le_between in H end. apply Rabs_le. nra. }
  destruct E as (e1 & C1 & ->). apply Rabs_le_between in C1.
  destruct (rel (PI / 2 * x * (1 + e1))) as (d3 & B3 & ->). { rewrite !Rabs_mult. rewrite (Rabs_pos_eq (PI / 2)), (Rabs_pos_eq (1 + e1)) by lra. assert (1 * 1 * (1 / 2) <= PI / 2 * Rabs x * (1 + e1)) by (repeat apply Rmult_le_compat; lra). nra. }
  apply Rabs_le_between in B3.
  assert (E : exists e, Rabs e <= 42 / 10 * u /\ PI / 2 * x * (1 + e1) * (1 + d3) = PI / 2 * x * (1 + e)).
  { exists ((1 + e1) * (1 + d3) - 1). split; [|ring]. replace ((1 + e1) * (1 + d3) - 1) with (e1 + d3 + e1 * d3) by ring.
    assert (Rabs (e1 * d3) <= 313 / 100 * u * (101 / 100 * u)) by (rewrite Rabs_mult; apply Rmult_le_compat; try apply Rabs_pos; apply Rabs_le; lra).
    assert (u * u <= / 10000 * u) by (apply Rmult_le_compat_r; lra).
    repeat match goal with H : Rabs _ <= _ |- _ => apply Rabs_le_between in H end. apply Rabs_le. nra. }
  destruct E as (e & C & ->). apply Rabs_le_between in C.
  assert (X0 : x <> 0) by (intros Z; rewrite Z, Rabs_R0 in N1; lra).
  set (W := 2 / (PI * x)). assert (EW : 1 / (PI / 2 * x * (1 + e)) = W / (1 + e)) by (unfold W; field; repeat split; lra).
  rewrite EW. unfold w_true. fold x. fold W.
  assert (W1 : Rabs W * Rabs x = 2 / PI). { rewrite <- Rabs_mult. replace (W * x) with (2 / PI) by (unfold W; field; lra). apply Rabs_pos_eq. apply Rlt_le, Rdiv_lt_0_compat; lra. }
  assert (W2 : / 2 <= 2 / PI). { apply Rmult_le_reg_r with PI; [lra|]. unfold Rdiv. rewrite Rmult_assoc, Rinv_l by lra. lra. }
  assert (Wp : 0 < Rabs W). { destruct (Rle_lt_or_eq_dec 0 (Rabs W) (Rabs_pos _)) as [|Z]; [assumption|]. rewrite <- Z in W1. lra. }
  assert (Et : 500 * eta <= u * Rabs W). { apply Rmult_le_reg_r with (Rabs x); [lra|]. rewrite (Rmult_assoc u), W1. nra. }
  destruct (rel (W / (1 + e))) as (d4 & B4 & ->).
  { unfold Rdiv. rewrite Rabs_mult, Rabs_inv, (Rabs_pos_eq (1 + e)) by lra. assert (/ 2 <= / (1 + e)) by (apply Rinv_le_contravar; lra). nra. }
  apply Rabs_le_between in B4. rewrite Rabs_Ropp.
  replace (- (W / (1 + e) * (1 + d4)) - - W) with (W * ((e - d4) / (1 + e))) by (field; lra). rewrite Rabs_mult, Rmult_comm. apply Rmult_le_compat_r; [lra|].
  unfold Rdiv. rewrite Rabs_mult, Rabs_inv, (Rabs_pos_eq (1 + e)) by lra. apply Rmult_le_reg_r with (1 + e); [lra|]. rewrite Rmult_assoc, Rinv_l, Rmult_1_r by lra.
  apply Rle_trans with (53 / 10 * u); [apply Rabs_le; lra|nra].
Qed.

Lemma w_small n : (n <> 0)%Z -> Rabs (w_true n) = 2 / (PI * Rabs (IZR n)) /\ 0 < Rabs (w_true n) <= 2 / 3.
Proof.
  intros Hn. pose proof PI_RGT_0 as P0. assert (N1 : 1 <= Rabs (IZR n)). { rewrite <- abs_IZR. apply IZR_le. lia. }
  assert (P3 : 3 < PI). { pose proof PI2_3_2. unfold PI2 in *. lra. }
  assert (E : Rabs (w_true n) = 2 / (PI * Rabs (IZR n))). { unfold w_true. rewrite Rabs_Ropp. unfold Rdiv. rewrite Rabs_mult, Rabs_inv, Rabs_mult, (Rabs_pos_eq PI), (Rabs_pos_eq 2) by lra. reflexivity. }
  rewrite E. split; [reflexivity|]. split; [apply Rdiv_lt_0_compat; nra|]. unfold Rdiv. apply Rmult_le_compat_l; [lra|]. apply Rinv_le_contravar; nra.
Qed.

Section Horner.
Context (w W0 : R) (Hw : Rabs (w - W0) <= 8 * u * Rabs W0) (HW : 0 < Rabs W0 <= 2 / 3).
Notation W := (Rabs W0).
Notation q := ((1 + 20 * u) * W).

Lemma prod_near y' y : Rabs (rd (y' * w) - y * W0) <= (1 + u) * (1 + 8 * u) * W * Rabs (y' - y) + (9 * u + 8 * u * u) * W * Rabs y + eta.
Proof.
  destruct Hrd as (R1 & _). specialize (R1 (y' * w)). set (e := Rabs (y' - y)) in *.
  assert (A1 : Rabs y' <= Rabs y + e). { unfold e. replace y' with (y + (y' - y)) at 1 by ring. apply Rabs_triang. }
  assert (A2 : Rabs w <= (1 + 8 * u) * W). { replace w with (W0 + (w - W0)) by ring. eapply Rle_trans; [apply Rabs_triang|]. lra. }
  assert (A3 : Rabs (y' * w) <= (Rabs y + e) * ((1 + 8 * u) * W)) by (rewrite Rabs_mult; apply Rmult_le_compat; try apply Rabs_pos; assumption).
  assert (A4 : Rabs (y' * w - y * W0) <= e * ((1 + 8 * u) * W) + Rabs y * (8 * u * W)).
  { replace (y' * w - y * W0) with ((y' - y) * w + y * (w - W0)) by ring. eapply Rle_trans; [apply Rabs_triang|]. rewrite !Rabs_mult. fold e.
    apply Rplus_le_compat; apply Rmult_le_compat_l; try apply Rabs_pos; assumption. }
  assert (A5 : u * Rabs (y' * w) <= u * ((Rabs y + e) * ((1 + 8 * u) * W))) by (apply Rmult_le_compat_l; lra).
  replace (rd (y' * w) - y * W0) with ((rd (y' * w) - y' * w) + (y' * w - y * W0)) by ring. eapply Rle_trans; [apply Rabs_triang|].
  eapply Rle_trans; [apply Rplus_le_compat; [exact R1|exact A4]|]. apply Req_le_sym_plus || (apply Rle_trans with (u * ((Rabs y + e) * ((1 + 8 * u) * W)) + eta + (e * ((1 + 8 * u) * W) + Rabs y * (8 * u * W))); [lra|apply Req_le; ring]).
Qed.

Lemma horner_size ms : n1 (giw_rd idr W0 ms) <= sumn (length ms) (fun j => W ^ S j * Rabs (nth j ms 0)).
Proof.
  induction ms as [|m ms IH]; [unfold n1; cbn [giw_rd length sumn fst snd]; rewrite Rabs_R0; lra|]. cbn [giw_rd length]. rewrite sumn_shift. cbn [nth pow].
  rewrite (sumn_ext _ _ (fun j => W * (W ^ S j * Rabs (nth j ms 0)))) by (intros; cbn [pow]; ring). rewrite sumn_scal.
  unfold n1 in *. cbn [fst snd]. rewrite Rabs_Ropp, !Rabs_mult. set (z := giw_rd _ W0 ms) in *. pose proof (Rabs_triang (fst z) m). pose proof (Rabs_pos (snd z)). nra.
Qed.

Lemma horner_near ms : forall ms', length ms' = length ms ->
  let z' := giw_rd rd w ms' in let z := giw_rd idr W0 ms in
  Rabs (fst z' - fst z) + Rabs (snd z' - snd z) <=
  sumn (length ms) (fun j => q ^ S j * (Rabs (nth j ms' 0 - nth j ms 0) + 11 * (INR j + 1) * u * Rabs (nth j ms 0))) + 3 * eta * sumn (length ms) (fun j => q ^ j).
Proof.
  induction ms as [|m ms IH]; intros [|m' ms'] L; try discriminate; [cbn [giw_rd length sumn fst snd]; replace (0 - 0) with 0 by ring; rewrite Rabs_R0; lra|].
  injection L as L. specialize (IH ms' L). cbv zeta in *. cbn [giw_rd length fst snd]. pose proof (horner_size ms) as Sz. unfold n1 in Sz.
  set (z' := giw_rd rd w ms') in *. set (z := giw_rd _ W0 ms) in *. rewrite !sumn_shift. cbn [nth]. change (INR 0) with 0. rewrite pow_1. 
  set (S1 := sumn (length ms) (fun j => q ^ S j * (Rabs (nth j ms' 0 - nth j ms 0) + 11 * (INR j + 1) * u * Rabs (nth j ms 0)))) in *.
  set (S2 := sumn (length ms) (fun j => q ^ j)) in *. set (S3 := sumn (length ms) (fun j => W ^ S j * Rabs (nth j ms 0))) in *.
  rewrite (sumn_ext _ (fun i => q ^ S i) (fun i => q * q ^ i)) by (intros; reflexivity). rewrite sumn_scal. fold S2.
  assert (Q : W <= q) by nra. assert (Q0 : 0 < q) by lra.
  assert (T : q * S1 + 11 * u * W * S3 <= sumn (length ms) (fun j => q ^ S (S j) * (Rabs (nth j ms' 0 - nth j ms 0) + 11 * (INR (S j) + 1) * u * Rabs (nth j ms 0)))).
  { unfold S1, S3. rewrite <- !sumn_scal, <- sumn_plus. apply sumn_le. intros j _. rewrite S_INR.
    assert (W ^ S (S j) <= q ^ S (S j)) by (apply pow_incr; lra). pose proof (Rabs_pos (nth j ms 0)) as Pm. change (q ^ S (S j)) with (q * q ^ S j) in *. change (W ^ S (S j)) with (W * W ^ S j) in *.
    set (Y := Rabs (nth j ms 0)) in *. set (D := Rabs (nth j ms' 0 - nth j ms 0)).
    assert (11 * u * Y * (W * W ^ S j) <= 11 * u * Y * (q * q ^ S j)) by (apply Rmult_le_compat_l; [nra|assumption]).
    replace (11 * u * W * (W ^ S j * Y)) with (11 * u * Y * (W * W ^ S j)) by ring.
    replace (q * q ^ S j * (D + 11 * (INR j + 1 + 1) * u * Y)) with (q * (q ^ S j * (D + 11 * (INR j + 1) * u * Y)) + 11 * u * Y * (q * q ^ S j)) by ring. lra. }
  destruct Hrd as (R1 & _).
  set (s' := rd (fst z' + m')). set (e1 := Rabs (fst z' - fst z)) in *. set (e2 := Rabs (snd z' - snd z)) in *. set (d := Rabs (m' - m)) in *.
  assert (Es : Rabs (s' - (fst z + m)) <= (1 + u) * (e1 + d) + u * Rabs (fst z + m) + eta).
  { unfold s'. specialize (R1 (fst z' + m')). assert (A : Rabs ((fst z' + m') - (fst z + m)) <= e1 + d). { unfold e1, d. replace ((fst z' + m') - (fst z + m)) with ((fst z' - fst z) + (m' - m)) by ring. apply Rabs_triang. }
    assert (B : Rabs (fst z' + m') <= Rabs (fst z + m) + (e1 + d)). { replace (fst z' + m') with ((fst z + m) + ((fst z' + m') - (fst z + m))) by ring. eapply Rle_trans; [apply Rabs_triang|]. lra. }
    assert (u * Rabs (fst z' + m') <= u * (Rabs (fst z + m) + (e1 + d))) by (apply Rmult_le_compat_l; lra).
    replace (rd (fst z' + m') - (fst z + m)) with ((rd (fst z' + m') - (fst z' + m')) + ((fst z' + m') - (fst z + m))) by ring. eapply Rle_trans; [apply Rabs_triang|]. lra. }
  pose proof (prod_near s' (fst z + m)) as P1. pose proof (prod_near (snd z') (snd z)) as P2. fold e2 in P2.
  replace (- rd (snd z' * w) - - (snd z * W0)) with (- (rd (snd z' * w) - snd z * W0)) by ring. rewrite Rabs_Ropp.
  set (X1 := Rabs (rd (snd z' * w) - snd z * W0)) in *. set (X2 := Rabs (rd (s' * w) - (fst z + m) * W0)) in *.
  pose proof (Rabs_triang (fst z) m) as Tr. set (a := Rabs (fst z + m)) in *. set (es := Rabs (s' - (fst z + m))) in *. set (b := Rabs (snd z)) in *. set (f := Rabs (fst z)) in *. set (M := Rabs m) in *.
  assert (0 <= a) by apply Rabs_pos. assert (0 <= b) by apply Rabs_pos. assert (0 <= f) by apply Rabs_pos. assert (0 <= M) by apply Rabs_pos. assert (0 <= e1) by apply Rabs_pos. assert (0 <= e2) by apply Rabs_pos. assert (0 <= d) by apply Rabs_pos.
  assert (K : (1 + u) * (1 + 8 * u) <= 1 + 10 * u) by nra. assert (K' : 9 * u + 8 * u * u <= 91 / 10 * u) by nra.
  assert (P1' : X2 <= (1 + 10 * u) * W * es + 91 / 10 * u * W * a + eta).
  { eapply Rle_trans; [exact P1|]. apply Rplus_le_compat_r, Rplus_le_compat; repeat (apply Rmult_le_compat_r; [unfold es; try apply Rabs_pos; lra|]); assumption. }
  assert (P2' : X1 <= (1 + 10 * u) * W * e2 + 91 / 10 * u * W * b + eta).
  { eapply Rle_trans; [exact P2|]. apply Rplus_le_compat_r, Rplus_le_compat; repeat (apply Rmult_le_compat_r; [lra|]); assumption. }
  assert (Es' : (1 + 10 * u) * W * es <= (1 + 10 * u) * W * ((1 + u) * (e1 + d) + u * a + eta)) by (apply Rmult_le_compat_l; [nra|exact Es]).
  assert (K2 : (1 + 10 * u) * (1 + u) <= 1 + 20 * u) by nra.
  assert (V1 : (1 + 10 * u) * W * ((1 + u) * (e1 + d)) <= q * (e1 + d)) by (replace ((1 + 10 * u) * W * ((1 + u) * (e1 + d))) with ((1 + 10 * u) * (1 + u) * (W * (e1 + d))) by ring; apply Rle_trans with ((1 + 20 * u) * (W * (e1 + d))); [apply Rmult_le_compat_r; [nra|assumption]|apply Req_le; ring]).
  assert (V2 : (1 + 10 * u) * W * e2 <= q * e2) by (apply Rmult_le_compat_r; nra).
  assert (V3 : (1 + 10 * u) * W * (u * a) <= 19 / 10 * u * W * a). { replace ((1 + 10 * u) * W * (u * a)) with ((1 + 10 * u) * (u * W * a)) by ring. replace (19 / 10 * u * W * a) with (19 / 10 * (u * W * a)) by ring. apply Rmult_le_compat_r; [apply Rmult_le_pos; nra|lra]. }
  assert (V4 : (1 + 10 * u) * W * eta <= 1 * eta) by (apply Rmult_le_compat_r; nra).
  assert (V5 : u * W * (a + b) <= u * W * (S3 + M)) by (apply Rmult_le_compat_l; [nra|lra]).
  assert (V5b : 0 <= u * W * b) by (apply Rmult_le_pos; nra).
  assert (V6 : 11 * u * W * M <= q * (11 * (0 + 1) * u * M)) by (replace (q * (11 * (0 + 1) * u * M)) with (q * (11 * u * M)) by ring; replace (11 * u * W * M) with (W * (11 * u * M)) by ring; apply Rmult_le_compat_r; [nra|assumption]).
  assert (V7 : q * (e1 + e2) <= q * (S1 + 3 * eta * S2)) by (apply Rmult_le_compat_l; lra).
  cbn [pow]. cbn [pow] in T.
  assert (Y1 : X2 + X1 <= q * (e1 + d) + q * e2 + (11 * (u * W * a) + 91 / 10 * (u * W * b)) + 3 * eta).
  { replace (q * (e1 + d)) with (q * (e1 + d)) by ring. lra. }
  assert (Y2 : 11 * (u * W * (a + b)) <= 11 * (u * W * (S3 + M))) by lra.
  change (sumn (length ms) (pow q)) with S2.
  match type of T with _ <= ?X => set (SS := X) in * end. clearbody SS S1 S2 S3 a b f M e1 e2 d X1 X2. clear - T Y1 Y2 V5b V6 V7. lra.
Qed.

Lemma geo_sum k : sumn k (fun j => q ^ j) <= 3 + 1 / 10.
Proof.
  assert (Q : 0 <= q <= 67 / 100) by nra. assert (E : (1 - q) * sumn k (fun j => q ^ j) = 1 - q ^ k).
  { induction k; [cbn; ring|]. rewrite sumn_S, Rmult_plus_distr_l, IHk. cbn [pow]. ring. }
  assert (0 <= q ^ k) by (apply pow_le; lra). set (X := sumn k _) in *. assert ((1 - q) * X <= 1) by lra. nra.
Qed.
End Horner.
End Tail.
