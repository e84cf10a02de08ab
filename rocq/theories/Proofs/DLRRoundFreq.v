(** Values of MatsubaraPoles in rounded arithmetic. *)
From Coq Require Import Reals ZArith Arith Bool Lra Lia Psatz String.
From Coquelicot Require Import Coquelicot.
From Coq Require Import List.
From Verif.Model Require Import Base Util Num FT Kernel KernelIEEE DLR DLRIEEE.
From Verif.Spec Require Import SPoly SFT SKernelIEEE SDLR SDLRIEEE.
From Verif.Proofs Require Import KernelRound DLRFacts DLRClaims DLRRound.
Import ListNotations.
Open Scope R_scope.

Section Freq.
Context (u eta : R) (rd : R -> R) (Hrd : rounding u eta rd) (Hu : 0 < u <= / 10000) (He : 0 <= eta).

Lemma pole_near th pi e (fermi : bool) beta w n : Rabs (pi - PI) <= u * PI -> tanh_near e eta th -> 0 <= e <= / 1000 -> 0 < beta ->
  fair_pole u eta beta w n -> w <> 0 \/ n <> 0%Z ->
  exists v, pole_value_rd rd th pi fermi beta w (IZR n) = Some v /\
  Cmod (Cminus v (pole_hat fermi beta w n)) <= (23 * u + 2 * e) * Cmod (pole_hat fermi beta w n) + 13 * eta * (1 + / pole_distance beta w n).
Proof.
  intros Hpi Hth Hee Hb (E1 & E2 & E3 & E4) Hn. unfold pole_value_rd, pole_hat, pole_distance in *.
  pose proof (freq_near u eta rd Hrd Hu He pi beta n Hpi Hb ltac:(lra) ltac:(lra)) as HF. set (nu' := freq_rd rd pi beta (IZR n)) in *.
  set (nu := PI * IZR n / beta) in *.
  replace (Cminus (0, nu) (RtoC w)) with ((- w, nu) : C) in * by (apply injective_projections; cbn; ring).
  assert (Zn : ((- w, nu) : C) <> RtoC 0).
  { intros Q. pose proof (f_equal fst Q) as Q1. pose proof (f_equal snd Q) as Q2. cbn [fst snd RtoC] in Q1, Q2. destruct Hn as [Hn|Hn]; [apply Hn; lra|]. apply Hn, eq_IZR. unfold nu in Q2. pose proof PI_RGT_0.
    apply Rmult_eq_reg_l with (PI / beta); [|apply Rgt_not_eq, Rdiv_lt_0_compat; lra]. rewrite Rmult_0_r, <- Q2. field. lra. }
  set (Z := Cmod (- w, nu)) in *. assert (PZ : 0 < Z) by now apply Cmod_gt_0.
  assert (nuZ : Rabs nu <= Z) by (pose proof (Rmax_Cmod (- w, nu)) as Q; cbn [fst snd] in Q; pose proof (Rmax_r (Rabs (- w)) (Rabs nu)); unfold Z; lra).
  assert (Ed : Cmod (Cminus (- w, nu') (- w, nu)) <= 51 / 10 * u * Z).
  { replace (Cminus (- w, nu') (- w, nu)) with ((0, nu' - nu) : C) by (apply injective_projections; cbn; ring).
    eapply Rle_trans; [apply cmod_sum|]. cbn [fst snd]. rewrite Rabs_R0. nra. }
  set (Z' := Cmod (- w, nu')) in *.
  assert (BZ : Rabs (Z' - Z) <= 51 / 10 * u * Z).
  { assert (T1 : Z' <= Z + Cmod (Cminus (- w, nu') (- w, nu))).
    { unfold Z', Z. replace ((- w, nu') : C) with (Cplus (- w, nu) (Cminus (- w, nu') (- w, nu))) at 1 by (apply injective_projections; cbn; ring). apply Cmod_triangle. }
    assert (T2 : Z <= Z' + Cmod (Cminus (- w, nu') (- w, nu))).
    { unfold Z', Z. rewrite <- (Cmod_opp (Cminus (- w, nu') (- w, nu))).
      replace ((- w, nu) : C) with (Cplus (- w, nu') (Copp (Cminus (- w, nu') (- w, nu)))) at 1 by (apply injective_projections; cbn; ring). apply Cmod_triangle. }
    apply Rabs_le_between. lra. }
  assert (LZ : 999 / 1000 * Z <= Z') by (apply Rabs_le_between in BZ; assert (51 / 10 * u * Z <= / 1000 * Z) by (apply Rmult_le_compat_r; lra); lra).
  assert (Zn' : ((- w, nu') : C) <> RtoC 0) by (intros Q; assert (Z' = 0) by (unfold Z'; rewrite Q; apply Cmod_0); lra).
  set (t := if fermi then 1 else tanh (beta * w / 2)).
  set (t' := if fermi then 1 else th (rd (rd (/ 2 * beta) * w))).
  assert (Et : Rabs (t' - t) <= (41 / 10 * u + 101 / 100 * e) * Rabs t + 6 * eta).
  { unfold t, t'. destruct fermi; [rewrite Rminus_eq_0, Rabs_R0, Rabs_R1; lra|]. apply (weight_near u eta rd Hrd Hu He); auto; lra. }
  assert (t1 : Rabs t <= 1) by (unfold t; destruct fermi; [rewrite Rabs_R1; lra|apply tanh_le1]).
  pose proof (Rabs_pos t) as t0.
  assert (Bt : Rabs t' <= 1002 / 1000 * Rabs t + 6 * eta).
  { replace t' with ((t' - t) + t) by ring. eapply Rle_trans; [apply Rabs_triang|]. assert ((41 / 10 * u + 101 / 100 * e) * Rabs t <= 2 / 1000 * Rabs t) by (apply Rmult_le_compat_r; lra). lra. }
  destruct (smith_near u eta rd Hrd Hu He t' (- w) nu') as (v & Ev & Hv); [lra|exact Zn'|fold Z'; nra|nra|]. fold Z' in Hv.
  exists v. split; [exact Ev|]. rewrite Cmod_div by exact Zn. rewrite Cmod_R. fold Z. unfold t in *.
  set (tt := if fermi then 1 else tanh (beta * w / 2)) in *.
  assert (I' : 0 < / Z' <= 1002 / 1000 * / Z).
  { split; [apply Rinv_0_lt_compat; lra|]. apply Rle_trans with (/ (999 / 1000 * Z)); [apply Rinv_le_contravar; lra|].
    rewrite Rinv_mult by lra. assert (0 < / Z) by now apply Rinv_0_lt_compat. nra. }
  assert (Pi : 0 < / Z) by now apply Rinv_0_lt_compat.
  assert (E5 : Cmod (Cminus (Cdiv (RtoC t') (- w, nu')) (Cdiv (RtoC tt) (- w, nu))) <= Rabs (t' - tt) * / Z' + Rabs tt * (51 / 10 * u) * / Z').
  { replace (Cminus (Cdiv (RtoC t') (- w, nu')) (Cdiv (RtoC tt) (- w, nu))) with
      (Cplus (Cdiv (RtoC (t' - tt)) (- w, nu')) (Cdiv (Cmult (RtoC tt) (Copp (Cminus (- w, nu') (- w, nu)))) (Cmult (- w, nu') (- w, nu)))).
    2:{ rewrite RtoC_minus. field. split; [exact Zn|exact Zn']. }
    eapply Rle_trans; [apply Cmod_triangle|]. rewrite !Cmod_div, !Cmod_mult, !Cmod_R, Cmod_opp; auto; [|apply Cmult_neq_0; auto]. fold Z Z'.
    apply Rplus_le_compat; [right; reflexivity|]. unfold Rdiv. rewrite Rinv_mult by lra.
    apply Rle_trans with (Rabs tt * (51 / 10 * u * Z) * (/ Z' * / Z)).
    - apply Rmult_le_compat_r; [apply Rmult_le_pos; lra|]. apply Rmult_le_compat_l; [apply Rabs_pos|exact Ed].
    - right. field. split; lra. }
  replace (Cminus v (Cdiv (RtoC tt) (- w, nu))) with (Cplus (Cminus v (Cdiv (RtoC t') (- w, nu'))) (Cminus (Cdiv (RtoC t') (- w, nu')) (Cdiv (RtoC tt) (- w, nu)))) by ring.
  eapply Rle_trans; [apply Cmod_triangle|]. unfold Rdiv in Hv |- *.
  set (x := Rabs tt) in *. set (I := / Z) in *. set (J := / Z') in *. set (P := Rabs t') in *. set (Q := Rabs (t' - tt)) in *. clearbody x I J P Q.
  set (V := Cmod (Cminus v (Cdiv (RtoC t') (- w, nu')))) in *. set (W := Cmod (Cminus (Cdiv (RtoC t') (- w, nu')) (Cdiv (RtoC tt) (- w, nu)))) in *. clearbody V W.
  assert (B1 : P * J <= (1002 / 1000 * x + 6 * eta) * (1002 / 1000 * I)) by (apply Rle_trans with ((1002 / 1000 * x + 6 * eta) * J); [apply Rmult_le_compat_r; lra|apply Rmult_le_compat_l; lra]).
  assert (B2 : Q * J <= ((41 / 10 * u + 101 / 100 * e) * x + 6 * eta) * (1002 / 1000 * I)).
  { assert (0 <= (41 / 10 * u + 101 / 100 * e) * x) by (apply Rmult_le_pos; lra).
    apply Rle_trans with (((41 / 10 * u + 101 / 100 * e) * x + 6 * eta) * J); [apply Rmult_le_compat_r; lra|apply Rmult_le_compat_l; lra]. }
  assert (xI : 0 <= x * I) by (apply Rmult_le_pos; lra). assert (eI : 0 <= eta * I) by (apply Rmult_le_pos; lra).
  assert (uxI : 0 <= u * (x * I)) by (apply Rmult_le_pos; lra). assert (exI : 0 <= e * (x * I)) by (apply Rmult_le_pos; lra).
  assert (ueI : 0 <= u * (eta * I) <= / 10000 * (eta * I)) by (split; [apply Rmult_le_pos; lra|apply Rmult_le_compat_r; lra]).
  assert (B3 : x * (51 / 10 * u) * J <= 51 / 10 * (1002 / 1000) * (u * (x * I))).
  { replace (51 / 10 * (1002 / 1000) * (u * (x * I))) with (x * (51 / 10 * u) * (1002 / 1000 * I)) by ring. apply Rmult_le_compat_l; [apply Rmult_le_pos; lra|lra]. }
  assert (B4 : 13 * u * (P * J) <= 13 * u * ((1002 / 1000 * x + 6 * eta) * (1002 / 1000 * I))) by (apply Rmult_le_compat_l; lra).
  assert (B5 : eta * J <= eta * (1002 / 1000 * I)) by (apply Rmult_le_compat_l; lra).
  set (X1 := x * I) in *. set (X2 := eta * I) in *.
  replace (13 * u * ((1002 / 1000 * x + 6 * eta) * (1002 / 1000 * I))) with (13 * (1002 / 1000) * (1002 / 1000) * (u * X1) + 78 * (1002 / 1000) * (u * X2)) in B4 by (unfold X1, X2; ring).
  replace (((41 / 10 * u + 101 / 100 * e) * x + 6 * eta) * (1002 / 1000 * I)) with (41 / 10 * (1002 / 1000) * (u * X1) + 101 / 100 * (1002 / 1000) * (e * X1) + 6 * (1002 / 1000) * X2) in B2 by (unfold X1, X2; ring).
  replace (eta * (1002 / 1000 * I)) with (1002 / 1000 * X2) in B5 by (unfold X2; ring).
  replace ((23 * u + 2 * e) * X1 + 13 * eta * (1 + I)) with (23 * (u * X1) + 2 * (e * X1) + 13 * X2 + 13 * eta) by (unfold X1, X2; ring).
  clearbody X1 X2. lra.
Qed.

Lemma freq_call th pi e M ns beta (fermi : bool) poles p w j n :
  Rabs (pi - PI) <= u * PI -> tanh_near e eta th -> 0 <= e <= / 1000 -> 0 < beta ->
  matspoles_call_rd rd th pi (MatsPoles (if fermi then "F" else "B")%string beta poles) (map IZR ns) = Ok M ->
  nth_error poles p = Some w -> nth_error ns j = Some n -> Z.even n = negb fermi -> w <> 0 \/ n <> 0%Z -> fair_pole u eta beta w n ->
  exists v z, entry_of M p j = Some (Some v) /\
    is_fourier (fun t => PI * IZR n * t / beta) (pole_fun beta w) 0 beta z /\ z = pole_hat fermi beta w n /\
    Cmod (Cminus v z) <= (23 * u + 2 * e) * Cmod z + 13 * eta * (1 + / pole_distance beta w n).
Proof.
  intros Hpi Hth Hee Hb HM Hp Hj Hpar Hn HF. destruct (pole_near th pi e fermi beta w n Hpi Hth Hee Hb HF Hn) as (v & Ev & Hv).
  exists v, (pole_hat fermi beta w n). split; [|split; [|split; [reflexivity|exact Hv]]].
  - unfold matspoles_call_rd in HM. injection HM as <-. unfold entry_of. cbn [mp_stat mp_beta mp_poles].
    rewrite (map_nth_error _ _ _ Hp). rewrite (map_nth_error _ _ _ (map_nth_error IZR _ _ Hj)). f_equal.
    replace (String.eqb (if fermi then "F" else "B") "F") with fermi by (destruct fermi; reflexivity). exact Ev.
  - set (x := MatsPoles (if fermi then "F" else "B")%string beta [w]).
    destruct (frequency_functions x beta fermi 0 w n 0 (pole_value fermi beta w (IZR n)) _ [n] Hb eq_refl eq_refl eq_refl eq_refl eq_refl) as [_ Q]; auto.
    unfold entry_of, x. cbn. now destruct fermi.
Qed.
End Freq.
