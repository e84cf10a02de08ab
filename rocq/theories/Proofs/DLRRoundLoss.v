(** The error of the time functions at the given time does grow with beta |w|. *)
From Coq Require Import String ZArith Arith Bool Reals Lia Lra Psatz.
From Flocq Require Import Core.
From Coquelicot Require Import Coquelicot.
From Coq Require Import List.
From Verif.Model Require Import Base Util Num Poly SVE Kernel KernelIEEE IEEE DLR DLRIEEE.
From Verif.Spec Require Import SGauss SKernel SKernelIEEE SDLR SDLRIEEE.
From Verif.Proofs Require Import IEEEFacts KernelFacts KernelRound KernelRoundCall BasisRoundDouble DLRFacts DLRRound DLRRoundTime DLRRoundProps.
Import ListNotations.
Open Scope R_scope.
Notation length := List.length.

Lemma absorbed : rnd64 (/ 2 ^ 55 - 1) = -1.
Proof.
  assert (P : / 2 ^ 55 = / 36028797018963968) by (f_equal; cbn; lra). set (x := / 2 ^ 55 - 1).
  assert (D1 : is_double (-1)) by (apply (double_small (-1)); lia).
  assert (L : -1 <= rnd64 x) by (apply rnd64_ge; [exact D1|unfold x; rewrite P; lra]).
  pose proof (rnd64_nearest x (-1) D1) as N. replace (-1 - x) with (- / 2 ^ 55) in N by (unfold x; ring). rewrite Rabs_Ropp, (Rabs_pos_eq (/ 2 ^ 55)) in N by (rewrite P; lra).
  apply Rabs_le_between in N. pose proof (rnd64_double x) as D. set (r := rnd64 x) in *. clearbody r. unfold x in N. rewrite P in N.
  destruct (Req_dec r (-1)) as [E|NE]; [exact E|exfalso].
  assert (M : mag radix2 r = 0%Z :> Z). { apply mag_unique. rewrite Rabs_left by lra. cbn. lra. }
  unfold is_double, generic_format in D. unfold cexp in D. rewrite M in D. change (fexp64 0) with (- (53))%Z in D. set (m := Ztrunc _) in D. clearbody m.
  unfold F2R in D. cbn [Fnum Fexp] in D. rewrite (RescaleIEEE.bp 53) in D by lia. change (Z.to_nat 53) with 53%nat in D.
  assert (P53 : 2 ^ 53 = 9007199254740992) by (cbn; lra). rewrite P53 in D.
  assert (Em : IZR m = r * 9007199254740992) by (rewrite D; field).
  assert (B1 : IZR m < IZR (-9007199254740991)) by (rewrite Em; lra). assert (B2 : IZR (-9007199254740992) < IZR m) by (rewrite Em; lra).
  apply lt_IZR in B1. apply lt_IZR in B2. lia.
Qed.

Lemma loss_grows : let w := 2 ^ 20 in let t := / 2 ^ 56 in
  is_double w /\ is_double t /\ exists tp, taupoles_init "F" 1 [w] = Ok tp /\
  forall f, tfun_near (/ 2 ^ 52) eta64 f -> exists v, taupoles_call_rd rnd64 f tp [Fin t] = Ok [[v]] /\
  / 2 ^ 39 <= Rabs (v - pole_fun 1 w t).
Proof.
  intros w t. assert (Pw : w = 1048576) by (unfold w; cbn; lra). assert (Pt : t = / 72057594037927936) by (unfold t; f_equal; cbn; lra).
  assert (Dw : is_double w) by (rewrite Pw; apply (double_small 1048576); lia).
  assert (Dt : is_double t). { unfold t. change 56%nat with (Z.to_nat 56). rewrite <- (RescaleIEEE.bp 56) by lia. rewrite <- (Rmult_1_l (bpow radix2 (- (56)))). apply (double_of 1 (- (56))); lia. }
  split; [exact Dw|]. split; [exact Dt|].
  exists (TauPoles "F" 1 [w] w). split. { unfold taupoles_init. cbn [map rmax_list]. rewrite Rabs_pos_eq by lra. reflexivity. }
  intros f Hf. unfold taupoles_call_rd. cbn [tp_beta tp_wmax tp_poles existsb map tau_to_x_rd length seq].
  assert (X1 : xltb (Fin t) (Fin 0) = false) by (apply not_true_iff_false; rewrite xltb_fin; rewrite Pt; lra).
  assert (X2 : xltb (Fin 1) (Fin t) = false) by (apply not_true_iff_false; rewrite xltb_fin; rewrite Pt; lra).
  rewrite X1, X2. cbn [orb].
  assert (Et : rnd64 (2 * t) = / 2 ^ 55). { rewrite rnd64_id by (apply double_twice, Dt). unfold t. replace (2 ^ 56) with (2 * 2 ^ 55) by (cbn; lra). field. }
  assert (E1 : rnd64 (rnd64 (2 * t) / 1) = / 2 ^ 55). { rewrite Et. unfold Rdiv. rewrite Rinv_1, Rmult_1_r. rewrite <- Et. apply rnd64_id, rnd64_double. }
  rewrite E1, absorbed. unfold pole_to_y_rd, Reqb. destruct (Req_EM_T w 0) as [Z|_]; [lra|].
  assert (E2 : rnd64 (w / w) = 1). { unfold Rdiv. rewrite Rinv_r by lra. apply rnd64_id, (double_small 1). lia. } rewrite E2.
  assert (E3 : rnd64 (1 * w) = w) by (rewrite Rmult_1_l; apply rnd64_id, Dw). rewrite E3.
  assert (HK : exists r, kernel_call_rd rnd64 f (Logistic w) [Fin (-1)] [Fin 1] None None = Ok [[r]]).
  { assert (D1 : check_domain (-1) 1 (map Fin [-1]) (map Fin [1]) = Ok tt) by (apply check_domain_ok; repeat constructor; lra). cbn [map] in D1.
    eexists. unfold kernel_call_rd. rewrite D1. reflexivity. }
  destruct HK as [r HK]. rewrite HK. cbn [bind map nth]. exists (- r). split; [reflexivity|].
  assert (B : w <= 10 ^ 90). { rewrite Pw. apply Rle_trans with (10 ^ 7); [lra|apply Rle_pow; [lra|lia]]. }
  pose proof (logistic_doubles f w (-1) 1 r Hf ltac:(lra) HK) as Q. rewrite logistic_Lf in Q. rewrite pole_Lf by lra.
  replace (1 * w) with w by ring. replace (t / 1) with t by field. rewrite Rmult_1_r in Q. replace ((-1 + 1) / 2) with 0 in Q by field.
  unfold Lf in *. rewrite Rmult_0_r, Ropp_0, exp_0 in Q. set (z := w * t) in *. assert (Pz : z = / 68719476736) by (unfold z; rewrite Pw, Pt; field).
  pose proof (exp_pos (- w)) as Ew. assert (Ew1 : exp (- w) <= 1) by (rewrite <- exp_0; apply Rlt_le, exp_increasing; lra). set (D := 1 + exp (- w)) in *.
  assert (Ez : exp (- z) <= 1 - z / 2).
  { rewrite exp_Ropp. pose proof (exp_ineq1 z ltac:(lra)) as I. apply Rle_trans with (/ (1 + z)); [apply Rinv_le_contravar; lra|].
    apply (Rmult_le_reg_l (1 + z)); [lra|]. rewrite Rinv_r by lra. rewrite Pz. lra. }
  assert (G : z / 4 <= 1 / D - exp (- z) / D).
  { replace (1 / D - exp (- z) / D) with ((1 - exp (- z)) * / D) by (field; unfold D; lra). replace (z / 4) with (z / 2 * / 2) by field.
    apply Rmult_le_compat; [lra|lra|lra|]. apply Rinv_le_contravar; unfold D; lra. }
  assert (P49 : 2 ^ 49 = 562949953421312) by (cbn; lra). assert (P39 : 2 ^ 39 = 549755813888) by (cbn; lra). rewrite P49 in Q. rewrite P39.
  apply Rabs_le_between in Q. rewrite Pz in *. rewrite Rabs_left1; lra.
Qed.
