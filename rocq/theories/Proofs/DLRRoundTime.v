(** Values of TauPoles in rounded arithmetic. *)
From Coq Require Import Reals ZArith Arith Bool Lra Lia Psatz String.
From Coquelicot Require Import Coquelicot.
From Coq Require Import List.
From Verif.Model Require Import Base Util Num Poly FT SVE Kernel KernelIEEE DLR DLRIEEE.
From Verif.Spec Require Import SPoly SGauss SKernel SKernelIEEE SDLR SDLRIEEE.
From Verif.Proofs Require Import KernelFacts KernelRound KernelRoundCall PointwiseFacts DLRFacts DLRClaims PointsFacts.
Import ListNotations.
Open Scope R_scope.
Notation length := List.length.

Definition Lf (v t : R) : R := exp (- (v * t)) / (1 + exp (- v)).
Lemma Lf_flip v t : Lf v t = Lf (- v) (1 - t).
Proof.
  unfold Lf. replace (- (- v * (1 - t))) with (v + - (v * t)) by ring. rewrite Ropp_involutive, exp_plus, (exp_Ropp v). pose proof (exp_pos v). pose proof (exp_pos (- (v * t))). field. lra.
Qed.

Lemma Lf_near_pos v v' t d s : 0 <= v -> 0 <= v' -> 0 <= t <= 1 -> 0 <= d <= / 8 -> 0 <= s <= / 100 -> Rabs (v' - v) <= d * v + s ->
  Rabs (Lf v' t - Lf v t) <= d + 2 * s.
Proof.
  intros Hv Hv' Ht Hd Hs H.
  assert (H1 : Rabs (exp (- (v' * t)) - exp (- (v * t))) <= d / 2 + s).
  { apply exp_near; try assumption; try (apply Rmult_le_pos; lra). replace (v' * t - v * t) with ((v' - v) * t) by ring. rewrite Rabs_mult, (Rabs_right t) by lra.
    assert (Rabs (v' - v) * t <= (d * v + s) * t) by (apply Rmult_le_compat_r; lra). nra. }
  pose proof (exp_near v v' d s Hv Hv' Hd Hs H) as H2. unfold Lf.
  pose proof (exp_neg_le1 (v * t) ltac:(apply Rmult_le_pos; lra)) as N1. pose proof (exp_pos (- (v * t))) as N0. pose proof (exp_pos (- v)) as D0. pose proof (exp_pos (- v')) as D0'.
  set (N := exp (- (v * t))) in *. set (N' := exp (- (v' * t))) in *. set (D := exp (- v)) in *. set (D' := exp (- v')) in *.
  replace (N' / (1 + D') - N / (1 + D)) with ((N' - N) * / (1 + D') + N * (- (D' - D)) * (/ (1 + D) * / (1 + D'))) by (field; lra).
  assert (I1 : 0 < / (1 + D') <= 1) by (split; [apply Rinv_0_lt_compat; lra|rewrite <- Rinv_1; apply Rinv_le_contravar; lra]).
  assert (I2 : 0 < / (1 + D) <= 1) by (split; [apply Rinv_0_lt_compat; lra|rewrite <- Rinv_1; apply Rinv_le_contravar; lra]).
  eapply Rle_trans; [apply Rabs_triang|]. rewrite !Rabs_mult, Rabs_Ropp, (Rabs_right (/ (1 + D'))), (Rabs_right (/ (1 + D))), (Rabs_right N) by lra.
  assert (Rabs (N' - N) * / (1 + D') <= (d / 2 + s) * 1) by (apply Rmult_le_compat; try lra; apply Rabs_pos).
  assert (N * Rabs (D' - D) <= 1 * (d / 2 + s)) by (apply Rmult_le_compat; try lra; apply Rabs_pos).
  assert (/ (1 + D) * / (1 + D') <= 1 * 1) by (apply Rmult_le_compat; lra).
  assert (N * Rabs (D' - D) * (/ (1 + D) * / (1 + D')) <= (1 * (d / 2 + s)) * (1 * 1)).
  { apply Rmult_le_compat; try assumption. - apply Rmult_le_pos; [lra|apply Rabs_pos]. - apply Rmult_le_pos; lra. }
  lra.
Qed.
Lemma Lf_near v v' t d s : (0 <= v -> 0 <= v') -> (v <= 0 -> v' <= 0) -> 0 <= t <= 1 -> 0 <= d <= / 8 -> 0 <= s <= / 100 -> Rabs (v' - v) <= d * Rabs v + s ->
  Rabs (Lf v' t - Lf v t) <= d + 2 * s.
Proof.
  intros H1 H2 Ht Hd Hs H. destruct (Rle_dec 0 v) as [L|L].
  - rewrite (Rabs_right v) in H by lra. apply Lf_near_pos; auto.
  - rewrite (Rabs_left v) in H by lra. rewrite (Lf_flip v'), (Lf_flip v). specialize (H2 ltac:(lra)). apply Lf_near_pos; try lra.
    replace (- v' - - v) with (- (v' - v)) by ring. rewrite Rabs_Ropp. exact H.
Qed.
Lemma Lf_time_pos v t t' : 0 <= v -> 0 <= t <= 1 -> 0 <= t' <= 1 -> Rabs (Lf v t' - Lf v t) <= v * Rabs (t' - t).
Proof.
  intros Hv Ht Ht'. unfold Lf. pose proof (exp_pos (- v)) as D0. set (D := exp (- v)) in *.
  replace (exp (- (v * t')) / (1 + D) - exp (- (v * t)) / (1 + D)) with ((exp (- (v * t')) - exp (- (v * t))) * / (1 + D)) by (field; lra).
  assert (I2 : 0 < / (1 + D) <= 1) by (split; [apply Rinv_0_lt_compat; lra|rewrite <- Rinv_1; apply Rinv_le_contravar; lra]).
  rewrite Rabs_mult, (Rabs_right (/ (1 + D))) by lra.
  assert (Q : Rabs (exp (- (v * t')) - exp (- (v * t))) <= v * Rabs (t' - t)).
  { assert (G : forall a b, 0 <= a -> a <= b -> exp (- a) - exp (- b) <= b - a).
    { intros a b P L. destruct (exp_drop a b L) as [_ Q]. pose proof (exp_neg_le1 a P). pose proof (exp_pos (- a)). nra. }
    destruct (Rle_dec t t') as [L|L].
    - assert (v * t <= v * t') by (apply Rmult_le_compat_l; lra). assert (0 <= v * t) by (apply Rmult_le_pos; lra). destruct (exp_drop (v * t) (v * t') ltac:(lra)) as [Z _].
      rewrite Rabs_minus_sym, Rabs_right by lra. rewrite (Rabs_right (t' - t)) by lra. pose proof (G (v * t) (v * t')). lra.
    - assert (v * t' <= v * t) by (apply Rmult_le_compat_l; lra). assert (0 <= v * t') by (apply Rmult_le_pos; lra). destruct (exp_drop (v * t') (v * t) ltac:(lra)) as [Z _].
      rewrite Rabs_right by lra. rewrite (Rabs_left (t' - t)) by lra. pose proof (G (v * t') (v * t)). lra. }
  pose proof (Rabs_pos (exp (- (v * t')) - exp (- (v * t)))). nra.
Qed.
Lemma Lf_time v t t' : 0 <= t <= 1 -> 0 <= t' <= 1 -> Rabs (Lf v t' - Lf v t) <= Rabs v * Rabs (t' - t).
Proof.
  intros Ht Ht'. destruct (Rle_dec 0 v) as [L|L].
  - rewrite (Rabs_right v) by lra. apply Lf_time_pos; auto.
  - rewrite (Rabs_left v) by lra. rewrite (Lf_flip v t'), (Lf_flip v t). eapply Rle_trans; [apply Lf_time_pos; lra|].
    replace (1 - t' - (1 - t)) with (- (t' - t)) by ring. rewrite Rabs_Ropp. lra.
Qed.

Lemma pole_Lf beta w t : beta <> 0 -> pole_fun beta w t = - Lf (beta * w) (t / beta).
Proof. intros H. unfold pole_fun, Lf. f_equal. f_equal; [f_equal; field; auto|f_equal; f_equal; ring]. Qed.
Lemma logistic_Lf lam x y : logistic_formula lam x y = Lf (lam * y) ((x + 1) / 2).
Proof. unfold logistic_formula, Lf. f_equal; [f_equal; field|f_equal; f_equal; ring]. Qed.

Section Time.
Context (u eta e : R) (rd : R -> R) (f : tfun) (Hs : small_errors u eta e) (Hrd : rounding u eta rd) (Hf : tfun_near e eta f).

Lemma se : 0 < u <= / 10000 /\ 0 <= e <= / 1000 /\ 0 <= eta /\ 10 ^ 89 * eta <= u / 1000.
Proof.
  pose proof (small_u u eta e Hs) as (A & _). destruct Hs as (_ & B & C & D). split; [exact A|]. split; [exact B|]. split; [exact C|].
  assert (P : 0 < 10 ^ 89) by (apply pow_lt; lra). assert (Q : 1000 <= 10 ^ 211).
  { apply Rle_trans with (10 ^ 3); [lra|]. apply Rle_pow; [lra|lia]. }
  replace (10 ^ 300) with (10 ^ 89 * 10 ^ 211) in D by (rewrite <- pow_add; f_equal; lia).
  assert (0 <= 10 ^ 89 * eta) by (apply Rmult_le_pos; lra). set (a := 10 ^ 89) in *. set (b := 10 ^ 211) in *. clearbody a b. nra.
Qed.

Lemma time_point beta t : 0 < beta -> 2000 * eta <= u * beta -> 0 <= t <= beta ->
  let x := rd (rd (rd (2 * t) / beta) - 1) in Rabs (beta * ((x + 1) / 2) - t) <= 3 * u * beta.
Proof.
  intros Hb E Ht x. pose proof se as (Hu & _ & Hn & _). assert (Pi : 0 < / beta) by now apply Rinv_0_lt_compat.
  set (q0 := 2 * t / beta). assert (Q0 : 0 <= q0 <= 2).
  { unfold q0, Rdiv. assert (Z : t * / beta <= beta * / beta) by (apply Rmult_le_compat_r; lra). rewrite Rinv_r in Z by lra. assert (0 <= t * / beta) by (apply Rmult_le_pos; lra). lra. }
  assert (Ei : 2000 * (eta * / beta) <= u). { apply Rmult_le_reg_r with beta; [lra|]. replace (2000 * (eta * / beta) * beta) with (2000 * eta) by (field; lra). exact E. }
  assert (E1 : eta <= u / 1000).
  { destruct Hs as (_ & _ & _ & D). assert (1000 <= 10 ^ 300). { apply Rle_trans with (10 ^ 3); [lra|]. apply Rle_pow; [lra|lia]. } set (a := 10 ^ 300) in *. clearbody a. nra. }
  pose proof (rd_err u eta rd Hrd (2 * t)) as h1. rewrite (Rabs_right (2 * t)) in h1 by lra.
  assert (h2 : Rabs (rd (2 * t) / beta - q0) <= u * q0 + u / 2000).
  { replace (rd (2 * t) / beta - q0) with ((rd (2 * t) - 2 * t) * / beta) by (unfold q0; field; lra). rewrite Rabs_mult, (Rabs_right (/ beta)) by lra.
    apply Rle_trans with ((u * (2 * t) + eta) * / beta); [apply Rmult_le_compat_r; lra|]. unfold q0, Rdiv. nra. }
  set (a := rd (2 * t) / beta) in *. pose proof (rd_err u eta rd Hrd a) as h3.
  assert (uq : 0 <= u * q0 <= 2 * u) by (split; [apply Rmult_le_pos; lra|nra]).
  assert (Ba : Rabs a <= 201 / 100). { replace a with ((a - q0) + q0) by ring. eapply Rle_trans; [apply Rabs_triang|]. rewrite (Rabs_right q0) by lra. lra. }
  assert (ua : u * Rabs a <= u * (201 / 100)) by (apply Rmult_le_compat_l; lra).
  assert (h4 : Rabs (rd a - q0) <= 402 / 100 * u). { replace (rd a - q0) with ((rd a - a) + (a - q0)) by ring. eapply Rle_trans; [apply Rabs_triang|]. lra. }
  pose proof (rd_err u eta rd Hrd (rd a - 1)) as h5.
  assert (B5 : Rabs (rd a - 1) <= 1001 / 1000). { replace (rd a - 1) with ((rd a - q0) + (q0 - 1)) by ring. eapply Rle_trans; [apply Rabs_triang|]. assert (Rabs (q0 - 1) <= 1) by (apply Rabs_le_between; lra). lra. }
  assert (u5 : u * Rabs (rd a - 1) <= u * (1001 / 1000)) by (apply Rmult_le_compat_l; lra). fold x in h5.
  assert (h6 : Rabs (x + 1 - q0) <= 6 * u). { replace (x + 1 - q0) with ((x - (rd a - 1)) + (rd a - q0)) by ring. eapply Rle_trans; [apply Rabs_triang|]. lra. }
  replace (beta * ((x + 1) / 2) - t) with (beta * / 2 * (x + 1 - q0)) by (unfold q0; field; lra). rewrite Rabs_mult, (Rabs_right (beta * / 2)) by lra.
  assert (beta * / 2 * Rabs (x + 1 - q0) <= beta * / 2 * (6 * u)) by (apply Rmult_le_compat_l; lra). lra.
Qed.

Lemma product_near beta m w : 0 < beta -> 0 < m -> beta * m <= 10 ^ 89 -> 2000 * eta <= u * (beta * m) -> Rabs w <= m ->
  0 <= rd (beta * m) <= 10 ^ 90 /\
  (0 <= beta * w -> 0 <= rd (beta * m) * rd (w / m)) /\ (beta * w <= 0 -> rd (beta * m) * rd (w / m) <= 0) /\
  Rabs (rd (beta * m) * rd (w / m) - beta * w) <= 201 / 100 * u * Rabs (beta * w) + u / 500.
Proof.
  intros Hb Hm HB E Hw. pose proof se as (Hu & _ & Hn & E89). assert (Pi : 0 < / m) by now apply Rinv_0_lt_compat.
  assert (Pbm : 0 < beta * m) by (apply Rmult_lt_0_compat; lra).
  pose proof (rd_err u eta rd Hrd (beta * m)) as h1. rewrite (Rabs_right (beta * m)) in h1 by lra. set (lam := rd (beta * m)) in *.
  assert (Pl : 0 <= lam) by (apply Hrd; lra).
  assert (h1' : Rabs (lam - beta * m) <= 1001 / 1000 * u * (beta * m)) by lra.
  assert (Bl : lam <= 1001 / 1000 * (beta * m)). { apply Rabs_le_between in h1'. assert (u * (beta * m) <= / 10000 * (beta * m)) by (apply Rmult_le_compat_r; lra). lra. }
  pose proof (rd_err u eta rd Hrd (w / m)) as h2. set (y := rd (w / m)) in *.
  split; [split; [exact Pl|]|].
  { change (10 ^ 90) with (10 * 10 ^ 89). assert (0 < 10 ^ 89) by (apply pow_lt; lra). set (a := 10 ^ 89) in *. clearbody a. lra. }
  split; [|split].
  - intros Q. apply Rmult_le_pos; [exact Pl|]. apply Hrd. apply Rmult_le_pos; [nra|lra].
  - intros Q. assert (y <= 0). { apply Hrd. assert (w <= 0) by nra. unfold Rdiv. nra. } nra.
  - replace (lam * y - beta * w) with (lam * (y - w / m) + (lam - beta * m) * (w / m)) by (field; lra).
    eapply Rle_trans; [apply Rabs_triang|]. rewrite !Rabs_mult, (Rabs_right lam), (Rabs_right beta) by lra.
    assert (Ew : beta * m * Rabs (w / m) = beta * Rabs w). { unfold Rdiv. rewrite Rabs_mult, (Rabs_right (/ m)) by lra. field. lra. }
    set (z := Rabs (w / m)) in *. assert (Pz : 0 <= z) by apply Rabs_pos. rewrite <- Ew.
    assert (T1 : lam * Rabs (y - w / m) <= (1001 / 1000 * (beta * m)) * (u * z + eta)) by (apply Rmult_le_compat; try assumption; apply Rabs_pos).
    assert (T2 : Rabs (lam - beta * m) * z <= 1001 / 1000 * u * (beta * m) * z) by (apply Rmult_le_compat_r; assumption).
    assert (T3 : beta * m * eta <= 10 ^ 89 * eta) by (apply Rmult_le_compat_r; assumption).
    assert (T4 : 0 <= u * (beta * m * z)) by (apply Rmult_le_pos; [lra|apply Rmult_le_pos; lra]). set (a := 10 ^ 89) in *. clearbody a. lra.
Qed.

Lemma time_call st beta poles tp ts : keeps_interval rd beta -> 0 < beta -> taupoles_init st beta poles = Ok tp ->
  (exists w, In w poles /\ w <> 0 /\ 2000 * eta <= u * (beta * Rabs w)) -> 2000 * eta <= u * beta ->
  Forall (fun w => beta * Rabs w <= 10 ^ 89) poles -> Forall (fun t => 0 <= t <= beta) ts ->
  exists M, taupoles_call_rd rd f tp (map Fin ts) = Ok M /\ length M = length poles /\
  forall p w j t, nth_error poles p = Some w -> nth_error ts j = Some t ->
  exists v t', entry_of M p j = Some v /\ 0 <= t' <= beta /\ Rabs (t' - t) <= 3 * u * beta /\
    Rabs (v - pole_fun beta w t') <= 12 * u + 3 * e /\ Rabs (v - pole_fun beta w t) <= (12 + 3 * (beta * Rabs w)) * u + 3 * e.
Proof.
  intros (Kmon & K1 & Km1 & K2 & K2b) Hb Hu (w0 & I0 & N0 & E0) Eb HB Ht. apply taupoles_init_ok in Hu. destruct Hu as (m & -> & (Im & Fm)).
  pose proof se as (Hu & Hee & Hn & _). rewrite Forall_forall in Fm, HB, Ht.
  assert (Pm : 0 < m). { pose proof (Fm _ I0). assert (0 < Rabs w0) by now apply Rabs_pos_lt. lra. }
  assert (Bm : beta * m <= 10 ^ 89). { apply in_map_iff in Im. destruct Im as (wm & <- & Iw). apply HB, Iw. }
  assert (Em : 2000 * eta <= u * (beta * m)).
  { pose proof (Fm _ I0). assert (beta * Rabs w0 <= beta * m) by (apply Rmult_le_compat_l; lra). assert (u * (beta * Rabs w0) <= u * (beta * m)) by (apply Rmult_le_compat_l; lra). lra. }
  set (X := fun t => rd (rd (rd (2 * t) / beta) - 1)). set (Y := fun w => rd (w / m)).
  assert (RX : forall t, 0 <= t <= beta -> -1 <= X t <= 1).
  { intros t R. unfold X. assert (B1 : rd (2 * t) <= 2 * beta) by (rewrite <- K2b; apply Kmon; lra). assert (B0 : 0 <= rd (2 * t)) by (apply Hrd; lra).
    assert (Pi : 0 < / beta) by now apply Rinv_0_lt_compat.
    assert (B2 : 0 <= rd (2 * t) / beta <= 2). { unfold Rdiv. split; [apply Rmult_le_pos; lra|]. replace 2 with (2 * beta * / beta) at 2 by (field; lra). apply Rmult_le_compat_r; lra. }
    assert (B3 : 0 <= rd (rd (2 * t) / beta) <= 2) by (split; [apply Hrd; lra|apply Rle_trans with (rd 2); [apply Kmon; lra|lra]]).
    split; [apply Rle_trans with (rd (-1)); [lra|apply Kmon; lra]|apply Rle_trans with (rd 1); [apply Kmon; lra|lra]]. }
  assert (RY : forall w, In w poles -> -1 <= Y w <= 1).
  { intros w Iw. unfold Y. pose proof (Fm _ Iw) as Q. apply Rabs_le_between in Q. assert (Pi : 0 < / m) by now apply Rinv_0_lt_compat.
    assert (-1 <= w / m <= 1). { split; [apply Rle_div_r|apply Rle_div_l]; lra. }
    split; [apply Rle_trans with (rd (-1)); [lra|apply Kmon; lra]|apply Rle_trans with (rd 1); [apply Kmon; lra|lra]]. }
  assert (Ex : map (tau_to_x_rd rd beta) (map Fin ts) = map Fin (map X ts)) by (rewrite !map_map; reflexivity).
  assert (Ey : map (pole_to_y_rd rd m) poles = map Fin (map Y poles)).
  { rewrite map_map. apply map_ext. intros w. unfold pole_to_y_rd, Reqb. destruct (Req_EM_T m 0); [lra|reflexivity]. }
  assert (Eo : existsb (fun t => xltb t (Fin 0)) (map Fin ts) || existsb (fun t => xltb (Fin beta) t) (map Fin ts) = false).
  { apply orb_false_iff. split; apply not_true_iff_false; intros Q; apply existsb_exists in Q; destruct Q as (x & Ix & Q); apply in_map_iff in Ix; destruct Ix as (t & <- & It); specialize (Ht _ It); apply xltb_fin in Q; lra. }
  assert (HK : exists K, kernel_call_rd rd f (Logistic (rd (beta * m))) (map Fin (map X ts)) (map Fin (map Y poles)) None None = Ok K /\ length K = length ts).
  { unfold kernel_call_rd. rewrite check_domain_ok.
    - cbn [bind]. eexists. split; [reflexivity|]. now rewrite map_length, seq_length, !map_length.
    - apply Forall_forall. intros x Ix. apply in_map_iff in Ix. destruct Ix as (t & <- & It). apply RX, Ht, It.
    - apply Forall_forall. intros x Ix. apply in_map_iff in Ix. destruct Ix as (w & <- & Iw). apply RY, Iw. }
  destruct HK as (K & HK & LK). unfold taupoles_call_rd. cbn [tp_beta tp_poles tp_wmax]. rewrite Eo, Ex, Ey, HK. cbn [bind].
  eexists. split; [reflexivity|]. split; [now rewrite map_length, seq_length|]. intros p w j t Hp Hj.
  assert (Lp : (p < length poles)%nat) by (apply nth_error_Some; congruence). assert (Lj : (j < length ts)%nat) by (apply nth_error_Some; congruence).
  pose proof (nth_error_In _ _ Hp) as Iw. pose proof (nth_error_In _ _ Hj) as It. specialize (Ht _ It).
  destruct (product_near beta m w Hb Pm Bm Em (Fm _ Iw)) as (OC & S1 & S2 & PN).
  pose proof (points_round u eta e rd f Hs Hrd Hf (Logistic (rd (beta * m))) (map X ts) (map Y poles) K OC HK j p ltac:(rewrite map_length; auto) ltac:(rewrite map_length; auto)) as Q.
  cbn [kernel_size kernel_formula] in Q. rewrite Rmult_1_r in Q.
  rewrite (nth_indep (map X ts) 0 (X 0)), map_nth in Q by (rewrite map_length; auto). rewrite (nth_indep (map Y poles) 0 (Y 0)), map_nth in Q by (rewrite map_length; auto).
  rewrite (nth_error_nth _ _ _ Hj), (nth_error_nth _ _ _ Hp) in Q.
  exists (- nth p (nth j K []) 0), (beta * ((X t + 1) / 2)). pose proof (RX t Ht) as Rt.
  split; [|split; [|split]].
  - unfold entry_of. rewrite map_seq_error by exact Lp. rewrite (map_nth_error _ _ _ (nth_error_nth' K [] (n := j) ltac:(lia))). reflexivity.
  - split; [apply Rmult_le_pos; lra|]. rewrite <- (Rmult_1_r beta) at 2. apply Rmult_le_compat_l; lra.
  - exact (time_point beta t Hb Eb Ht).
  - pose proof (time_point beta t Hb Eb Ht) as TP. cbv zeta in TP. fold (X t) in TP.
    rewrite !pole_Lf by lra. rewrite logistic_Lf in Q. unfold Y in Q.
    replace (beta * ((X t + 1) / 2) / beta) with ((X t + 1) / 2) by (field; lra). set (s := (X t + 1) / 2) in *. assert (Rs : 0 <= s <= 1) by (unfold s; lra).
    pose proof (Lf_near (beta * w) (rd (beta * m) * rd (w / m)) s (201 / 100 * u) (u / 500) S1 S2 Rs ltac:(lra) ltac:(lra) PN) as Q2.
    set (v := nth p (nth j K []) 0) in *.
    assert (F1 : Rabs (- v - - Lf (beta * w) s) <= 12 * u + 3 * e).
    { replace (- v - - Lf (beta * w) s) with (- ((v - Lf (rd (beta * m) * rd (w / m)) s) + (Lf (rd (beta * m) * rd (w / m)) s - Lf (beta * w) s))) by ring.
      rewrite Rabs_Ropp. eapply Rle_trans; [apply Rabs_triang|]. lra. }
    split; [exact F1|]. assert (Pi : 0 < / beta) by now apply Rinv_0_lt_compat.
    assert (Rt0 : 0 <= t / beta <= 1). { split; [apply Rmult_le_pos; lra|apply Rle_div_l; lra]. }
    pose proof (Lf_time (beta * w) (t / beta) s Rt0 Rs) as Q3. rewrite (Rabs_mult beta), (Rabs_right beta) in Q3 by lra.
    assert (Es : Rabs (s - t / beta) <= 3 * u).
    { replace (s - t / beta) with ((beta * s - t) * / beta) by (field; lra). rewrite Rabs_mult, (Rabs_right (/ beta)) by lra.
      apply Rle_trans with (3 * u * beta * / beta); [apply Rmult_le_compat_r; lra|]. right. field. lra. }
    replace (- v - - Lf (beta * w) (t / beta)) with ((- v - - Lf (beta * w) s) + - (Lf (beta * w) s - Lf (beta * w) (t / beta))) by ring.
    eapply Rle_trans; [apply Rabs_triang|]. rewrite Rabs_Ropp.
    assert (0 <= beta * Rabs w) by (apply Rmult_le_pos; [lra|apply Rabs_pos]).
    assert (beta * Rabs w * Rabs (s - t / beta) <= beta * Rabs w * (3 * u)) by (apply Rmult_le_compat_l; lra). lra.
Qed.
End Time.
