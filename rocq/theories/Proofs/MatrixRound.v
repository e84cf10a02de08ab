(** Sampled kernel matrices in rounded arithmetic (C89). *)
From Coq Require Import ZArith Bool Reals Lra Lia Arith.
From Coquelicot Require Import Coquelicot.
From Coq Require Import List Sorting.Sorted.
From Verif.Model Require Import Base Util Num Gauss Kernel KernelIEEE GaussIEEE.
From Verif.Spec Require Import SGauss SCompute SKernel SKernelIEEE SGaussIEEE.
From Verif.Proofs Require Import KernelFacts GaussFacts ComputeNodes ComputePost ComputeNonempty KernelRound KernelRoundCall GaussRound GaussRoundRule.
Import ListNotations.
Open Scope R_scope.
Notation length := List.length.

(** * The kernel as a function of y *)
Lemma formula_sym k x y : ordinary_cutoff k -> kernel_formula k (- x) (- y) = kernel_formula k x y.
Proof.
  destruct k as [lam|lam]; cbn [ordinary_cutoff kernel_formula]; intros H.
  - unfold logistic_formula. replace (- lam * - y) with (lam * y) by ring. replace (- lam * y) with (- (lam * y)) by ring. set (v := lam * y).
    replace (exp (- v * (x + 1) / 2)) with (exp (v * (- x + 1) / 2) * exp (- v)) by (rewrite <- exp_plus; f_equal; field).
    set (n := exp (v * (- x + 1) / 2)). pose proof (exp_pos v). rewrite (exp_Ropp v). field. lra.
  - destruct (Req_EM_T (- y) 0) as [E|N]; destruct (Req_EM_T y 0) as [E'|N']; try lra.
    unfold bose_formula. replace (- lam * - y) with (lam * y) by ring. replace (- lam * y) with (- (lam * y)) by ring. set (v := lam * y).
    replace (exp (- v * (x + 1) / 2)) with (exp (v * (- x + 1) / 2) * exp (- v)) by (rewrite <- exp_plus; f_equal; field).
    assert (Nv : v <> 0) by (unfold v; apply Rmult_integral_contrapositive_currified; lra).
    assert (1 - exp v <> 0). { intros Z. apply Nv. apply exp_inv. rewrite exp_0. lra. }
    set (n := exp (v * (- x + 1) / 2)). pose proof (exp_pos v). rewrite (exp_Ropp v). field. lra.
Qed.

Lemma size_opp k y : kernel_size k (- y) = kernel_size k y.
Proof. destruct k; cbn; [reflexivity|]. rewrite Rabs_Ropp. reflexivity. Qed.

Lemma formula_pos k X y : ordinary_cutoff k -> 0 <= y -> let a := k_lambda k * y in
  kernel_formula k X y = match k with
    | Logistic _ => exp (- (a * ((1 + X) / 2))) / (1 + exp (- a))
    | RegBose lam => / lam * (exp (- (a * ((1 + X) / 2))) * gfun a) end.
Proof.
  destruct k as [lam|lam]; cbn [ordinary_cutoff kernel_formula k_lambda]; intros H Hy.
  - unfold logistic_formula. f_equal; [f_equal; field|]. do 2 f_equal. ring.
  - unfold gfun. destruct (Req_EM_T y 0) as [->|N].
    + rewrite Rmult_0_r. destruct (Req_EM_T 0 0); [|lra]. rewrite Rmult_0_l, Ropp_0, exp_0. ring.
    + assert (P : 0 < lam * y) by (apply Rmult_lt_0_compat; lra). destruct (Req_EM_T (lam * y) 0); [lra|].
      unfold bose_formula. pose proof (h_pos _ P). replace (- lam * y) with (- (lam * y)) by ring.
      replace (- (lam * y) * (X + 1) / 2) with (- (lam * y * ((1 + X) / 2))) by field. field. lra.
Qed.

Lemma gfun_near a a' d : 0 <= a -> 0 <= a' -> 0 <= d <= / 100 -> Rabs (a' - a) <= d * a -> Rabs (gfun a' - gfun a) <= 205 / 100 * d * gfun a.
Proof.
  intros Ha Ha' Hd H. pose proof (gfun_bounds a Ha) as G. destruct (Req_EM_T a 0) as [->|N].
  - rewrite Rmult_0_r, Rminus_0_r, Rabs_pos_eq in H by auto. assert (a' = 0) by lra. subst. rewrite Rminus_diag_eq, Rabs_R0 by auto.
    apply Rmult_le_pos; [lra|lra].
  - assert (Pa : 0 < a) by lra. assert (Pa' : 0 < a'). { apply Rabs_le_between in H. assert (d * a <= / 100 * a) by (apply Rmult_le_compat_r; lra). lra. }
    pose proof (h_near a a' d Pa Ha' ltac:(lra) H) as Hh. pose proof (h_pos a Pa) as P. unfold gfun in *. destruct (Req_EM_T a 0); [lra|]. destruct (Req_EM_T a' 0); [lra|].
    assert (R1 : rel d a' a) by (unfold rel; rewrite (Rabs_pos_eq a) by lra; auto).
    assert (R2 : rel d (1 - exp (- a')) (1 - exp (- a))) by (unfold rel; rewrite (Rabs_pos_eq (1 - exp (- a))) by lra; auto).
    apply rel_inv in R2; [|auto|lra]. pose proof (rel_mul _ _ _ _ _ _ R1 R2 ltac:(lra) ltac:(lra)) as M. unfold rel in M. unfold Rdiv at 1 2.
    eapply Rle_trans; [exact M|]. rewrite (Rabs_pos_eq (a * / (1 - exp (- a)))) by (unfold Rdiv in G; lra). apply Rmult_le_compat_r; [unfold Rdiv in G; lra|].
    assert (d * (d * (101 / 99)) <= / 100 * (d * (101 / 99))) by (apply Rmult_le_compat_r; lra). lra.
Qed.

Lemma formula_near_pos k X y y' d : ordinary_cutoff k -> -1 <= X <= 1 -> 0 <= y -> 0 <= y' -> 0 <= d <= / 100 -> Rabs (y' - y) <= d * y ->
  Rabs (kernel_formula k X y' - kernel_formula k X y) <= 3 * d * kernel_size k y.
Proof.
  intros Hk HX Hy Hy' Hd H. rewrite (formula_pos k X y' Hk Hy'), (formula_pos k X y Hk Hy). cbv zeta.
  assert (L0 : 0 <= k_lambda k) by (destruct k; cbn in *; lra).
  set (a := k_lambda k * y). set (a' := k_lambda k * y').
  assert (Ha : 0 <= a) by (apply Rmult_le_pos; auto). assert (Ha' : 0 <= a') by (apply Rmult_le_pos; auto).
  assert (E : Rabs (a' - a) <= d * a). { unfold a, a'. rewrite <- Rmult_minus_distr_l, Rabs_mult, (Rabs_pos_eq (k_lambda k)) by auto.
    replace (d * (k_lambda k * y)) with (k_lambda k * (d * y)) by ring. apply Rmult_le_compat_l; auto. }
  set (w := (1 + X) / 2). assert (Hw : 0 <= w <= 1) by (unfold w; lra).
  assert (N : Rabs (exp (- (a' * w)) - exp (- (a * w))) <= d / 2).
  { replace (d / 2) with (d / 2 + 0) by ring. apply exp_near; try lra; try (apply Rmult_le_pos; lra). rewrite Rplus_0_r, <- Rmult_minus_distr_r, Rabs_mult, (Rabs_pos_eq w) by lra.
    rewrite <- Rmult_assoc. apply Rmult_le_compat_r; lra. }
  assert (N1 : 0 < exp (- (a * w)) <= 1) by (split; [apply exp_pos|apply exp_neg_le1; apply Rmult_le_pos; lra]).
  set (n := exp (- (a * w))) in *. set (n' := exp (- (a' * w))) in *. clearbody n n'.
  destruct k as [lam|lam]; cbn [kernel_size].
  - assert (D : Rabs (exp (- a') - exp (- a)) <= d / 2).
    { replace (d / 2) with (d / 2 + 0) by ring. apply exp_near; try lra. }
    pose proof (exp_pos (- a)) as P. pose proof (exp_pos (- a')) as P'. set (p := exp (- a)) in *. set (p' := exp (- a')) in *. clearbody p p'.
    replace (n' / (1 + p') - n / (1 + p)) with ((n' - n) / (1 + p') + - (n / (1 + p) * ((p' - p) / (1 + p')))) by (field; lra).
    eapply Rle_trans; [apply Rabs_triang|]. rewrite Rabs_Ropp, Rabs_mult.
    assert (Q : forall t, Rabs (t / (1 + p')) <= Rabs t).
    { intros t. unfold Rdiv. rewrite Rabs_mult, Rabs_inv, (Rabs_pos_eq (1 + p')) by lra. pose proof (Rabs_pos t).
      rewrite <- (Rmult_1_r (Rabs t)) at 2. apply Rmult_le_compat_l; auto. rewrite <- Rinv_1. apply Rinv_le_contravar; lra. }
    pose proof (Q (n' - n)) as Q1. pose proof (Q (p' - p)) as Q2.
    assert (ND : 0 <= n / (1 + p) <= 1). { split; [apply Rlt_le, Rdiv_lt_0_compat; lra|]. apply Rle_div_l; lra. }
    rewrite (Rabs_pos_eq (n / (1 + p))) by lra. pose proof (Rabs_pos ((p' - p) / (1 + p'))).
    assert (n / (1 + p) * Rabs ((p' - p) / (1 + p')) <= 1 * Rabs ((p' - p) / (1 + p'))) by (apply Rmult_le_compat_r; lra). lra.
  - pose proof (gfun_near a a' d Ha Ha' Hd E) as Gn. pose proof (gfun_bounds a Ha) as G. cbn in Hk.
    assert (Gy : / lam * gfun a <= / lam + Rabs y).
    { apply Rle_trans with (/ lam * (1 + a)); [apply Rmult_le_compat_l; [apply Rlt_le, Rinv_0_lt_compat; lra|lra]|].
      unfold a. cbn [k_lambda]. rewrite (Rabs_pos_eq y) by auto. apply Req_le. field. lra. }
    set (g := gfun a) in *. set (g' := gfun a') in *. clearbody g g'. pose proof (Rinv_0_lt_compat lam ltac:(lra)) as Pc. set (c := / lam) in *. clearbody c.
    rewrite <- Rmult_minus_distr_l, Rabs_mult, (Rabs_pos_eq c) by lra.
    apply Rle_trans with (3 * d * (c * g)); [|apply Rmult_le_compat_l; lra].
    replace (3 * d * (c * g)) with (c * (3 * d * g)) by ring. apply Rmult_le_compat_l; [lra|].
    replace (n' * g' - n * g) with ((n' - n) * g + n * (g' - g) + (n' - n) * (g' - g)) by ring.
    eapply Rle_trans; [apply Rabs_triang|]. eapply Rle_trans; [apply Rplus_le_compat_r, Rabs_triang|]. rewrite !Rabs_mult, (Rabs_pos_eq g), (Rabs_pos_eq n) by lra.
    pose proof (Rabs_pos (n' - n)). pose proof (Rabs_pos (g' - g)).
    assert (A1 : Rabs (n' - n) * g <= d / 2 * g) by (apply Rmult_le_compat_r; lra).
    assert (A2 : n * Rabs (g' - g) <= 1 * (205 / 100 * d * g)) by (apply Rmult_le_compat; lra).
    assert (A3 : Rabs (n' - n) * Rabs (g' - g) <= / 200 * (205 / 100 * d * g)) by (apply Rmult_le_compat; lra).
    assert (0 <= d * g) by (apply Rmult_le_pos; lra). lra.
Qed.

Lemma formula_near_y k X y y' d : ordinary_cutoff k -> -1 <= X <= 1 -> 0 <= d <= / 100 -> rel d y' y ->
  Rabs (kernel_formula k X y' - kernel_formula k X y) <= 3 * d * kernel_size k y.
Proof.
  unfold rel. intros Hk HX Hd H. destruct (Rle_dec 0 y) as [L|L].
  - rewrite (Rabs_pos_eq y) in H by auto. apply formula_near_pos; auto. pose proof H as H'. apply Rabs_le_between in H'. assert (d * y <= / 100 * y) by (apply Rmult_le_compat_r; lra). lra.
  - rewrite (Rabs_left y) in H by lra. rewrite <- (formula_sym k X y' Hk), <- (formula_sym k X y Hk), <- (size_opp k y). apply formula_near_pos; auto; try lra.
    + pose proof H as H'. apply Rabs_le_between in H'. assert (d * - y <= / 100 * - y) by (apply Rmult_le_compat_r; lra). lra.
    + replace (- y' - - y) with (- (y' - y)) by ring. rewrite Rabs_Ropp. auto.
Qed.

Lemma size_near k y y' d : ordinary_cutoff k -> 0 <= d -> rel d y' y -> 0 < kernel_size k y' <= (1 + d) * kernel_size k y.
Proof.
  intros Hk Hd H. split; [apply size_pos; auto|]. destruct k as [lam|lam]; cbn in *; [lra|]. apply rel_bounds in H. pose proof (Rinv_0_lt_compat lam ltac:(lra)).
  assert (0 <= d * / lam) by (apply Rmult_le_pos; lra). lra.
Qed.

(** * Entries *)
Section Entries.
Variables (u eta e : R) (rd : R -> R).
Hypothesis Hs : small_errors u eta e.
Hypothesis Hrd : rounding u eta rd.
Hypothesis Hu5 : u <= / 100000.

Lemma eta_tiny z s : / 10 ^ 90 <= z -> gap * gap <= s -> eta <= u * (z * s) / 1000.
Proof.
  intros Hz Hg. destruct Hs as (_ & _ & Hn & He). unfold gap in Hg. rewrite <- Rinv_mult, <- pow_add in Hg. change (100 + 100)%nat with 200%nat in Hg.
  assert (P90 : 0 < / 10 ^ 90) by (apply Rinv_0_lt_compat, pow_lt; lra). assert (P200 : 0 < / 10 ^ 200) by (apply Rinv_0_lt_compat, pow_lt; lra).
  assert (Z : / 10 ^ 90 * / 10 ^ 200 <= z * s) by (apply Rmult_le_compat; lra).
  replace (10 ^ 300) with (10 ^ 90 * 10 ^ 200 * 10 ^ 10) in He by (rewrite <- !pow_add; reflexivity).
  assert (Q90 : 0 < 10 ^ 90) by (apply pow_lt; lra). assert (Q200 : 0 < 10 ^ 200) by (apply pow_lt; lra).
  rewrite <- Rinv_mult in Z. assert (Q : 0 < 10 ^ 90 * 10 ^ 200) by (apply Rmult_lt_0_compat; auto). set (A := 10 ^ 90 * 10 ^ 200) in *. clearbody A.
  clear - He Q Z Hs Hn. pose proof (u_small u eta e Hs) as Hu. clear Hs. assert (E10 : 1000 <= 10 ^ 10) by lra. set (B := 10 ^ 10) in *. clearbody B.
  apply Rle_trans with (u * / A / 1000). 2:{ unfold Rdiv. apply Rmult_le_compat_r; [lra|]. apply Rmult_le_compat_l; lra. }
  apply Rmult_le_reg_r with (A * 1000); [lra|]. replace (u * / A / 1000 * (A * 1000)) with u by (field; lra).
  assert (E : eta * (A * 1000) <= eta * (A * B)) by (apply Rmult_le_compat_l; auto; apply Rmult_le_compat_l; lra). lra.
Qed.

(** one multiplication by the root of a weight *)
Lemma times_weight a' K E B z s' s d : 0 < z -> eta <= u * (z * s) / 1000 -> Rabs (a' - K) <= E * z -> Rabs K <= B * z -> 0 <= E <= / 40 -> 1 <= B <= 2 ->
  rel d s' s -> 0 <= d <= 2 / 1000 -> 0 < s -> Rabs (rd (a' * s') - K * s) <= (E + (B + / 20) * (d + u)) * (z * s).
Proof.
  intros Hz Ht Ha HK HE HB H Hd Hsp. pose proof (u_small u eta e Hs) as Hu. unfold rel in H. rewrite (Rabs_pos_eq s) in H by lra.
  assert (Sp : Rabs s' <= (1 + d) * s). { replace s' with ((s' - s) + s) by ring. eapply Rle_trans; [apply Rabs_triang|]. rewrite (Rabs_pos_eq s) by lra. lra. }
  set (zs := z * s). assert (Pzs : 0 < zs) by (apply Rmult_lt_0_compat; lra).
  assert (A1 : Rabs (a' * s' - K * s) <= (E + (B + / 40) * d) * zs).
  { replace (a' * s' - K * s) with ((a' - K) * s' + K * (s' - s)) by ring. eapply Rle_trans; [apply Rabs_triang|]. rewrite !Rabs_mult.
    assert (Q1 : Rabs (a' - K) * Rabs s' <= (E * z) * ((1 + d) * s)) by (apply Rmult_le_compat; auto using Rabs_pos).
    assert (Q2 : Rabs K * Rabs (s' - s) <= (B * z) * (d * s)) by (apply Rmult_le_compat; auto using Rabs_pos).
    replace (E * z * ((1 + d) * s)) with ((E + E * d) * zs) in Q1 by (unfold zs; ring). replace (B * z * (d * s)) with (B * d * zs) in Q2 by (unfold zs; ring).
    assert (Q3 : E * d * zs <= / 40 * d * zs) by (apply Rmult_le_compat_r; [lra|]; apply Rmult_le_compat_r; lra). lra. }
  pose proof (KernelRound.rd_err u eta rd Hrd (a' * s')) as R. set (p := a' * s') in *. clearbody p.
  assert (Kz : Rabs (K * s) <= B * zs). { rewrite Rabs_mult, (Rabs_pos_eq s) by lra. unfold zs. rewrite <- Rmult_assoc. apply Rmult_le_compat_r; lra. }
  assert (Bp : Rabs p <= (B + / 30) * zs).
  { replace p with ((p - K * s) + K * s) by ring. eapply Rle_trans; [apply Rabs_triang|].
    assert ((E + (B + / 40) * d) * zs <= / 30 * zs). { apply Rmult_le_compat_r; [lra|]. assert ((B + / 40) * d <= (2 + / 40) * (2 / 1000)) by (apply Rmult_le_compat; lra). lra. }
    lra. }
  assert (Up : u * Rabs p <= u * ((B + / 30) * zs)) by (apply Rmult_le_compat_l; lra).
  replace (rd p - K * s) with ((rd p - p) + (p - K * s)) by ring. eapply Rle_trans; [apply Rabs_triang|]. fold zs in Ht.
  assert (0 <= u * zs) by (apply Rmult_le_pos; lra). assert (0 <= d * zs) by (apply Rmult_le_pos; lra). lra.
Qed.

Lemma root_weight om w' w : rel om w' w -> 0 <= om <= 11 / 10000 -> gap * gap <= w -> rel (om + 102 / 100 * u) (rd (sqrt w')) (sqrt w) /\ gap <= sqrt w.
Proof.
  intros H Ho Hw. pose proof gap_facts as (G & E). assert (P : 0 < gap * gap) by (apply Rmult_lt_0_compat; lra).
  assert (S : gap <= sqrt w). { rewrite <- (sqrt_square gap) by lra. apply sqrt_le_1_alt. auto. }
  split; auto. apply (rel_rd u eta e rd Hs Hrd); [|lra|].
  - apply rel_sqrt; auto; try lra. unfold rel in H. rewrite (Rabs_pos_eq w) in H by lra. apply Rabs_le_between in H. assert (om * w <= 1 * w) by (apply Rmult_le_compat_r; lra). lra.
  - rewrite E, Rabs_pos_eq by apply sqrt_pos. assert (gap * gap <= 1 * gap); [|lra]. apply Rmult_le_compat_r; [lra|].
    assert (/ 10 ^ 20 <= 1). { rewrite <- Rinv_1. apply Rinv_le_contravar; [lra|]. apply pow_R1_Rle; lra. } lra.
Qed.

Lemma entry_round a' K E B z om w' w v' v : / 10 ^ 90 <= z -> Rabs (a' - K) <= E * z -> Rabs K <= B * z -> 0 <= E <= / 50 -> 1 <= B <= 2 ->
  rel om w' w -> rel om v' v -> 0 <= om <= 11 / 10000 -> gap * gap <= w -> gap * gap <= v ->
  Rabs (rd (rd (a' * rd (sqrt w')) * rd (sqrt v')) - K * sqrt w * sqrt v) <= (E + 21 / 10 * B * (om + 21 / 10 * u)) * (z * (sqrt w * sqrt v)).
Proof.
  intros Hz Ha HK HE HB Hw Hv Ho Rw Rv. pose proof (u_small u eta e Hs) as Hu. pose proof gap_facts as (G & EG).
  destruct (root_weight om w' w Hw Ho Rw) as (W1 & W2). destruct (root_weight om v' v Hv Ho Rv) as (V1 & V2).
  assert (Pz : 0 < z). { eapply Rlt_le_trans; [|exact Hz]. apply Rinv_0_lt_compat, pow_lt; lra. }
  assert (P20 : / 10 ^ 20 <= 1). { rewrite <- Rinv_1. apply Rinv_le_contravar; [lra|]. apply pow_R1_Rle; lra. }
  assert (T1 : eta <= u * (z * sqrt w) / 1000). { apply eta_tiny; auto. eapply Rle_trans; [|exact W2]. assert (gap * gap <= 1 * gap) by (apply Rmult_le_compat_r; lra). lra. }
  assert (T2 : eta <= u * (z * sqrt w * sqrt v) / 1000). { rewrite (Rmult_assoc z). apply eta_tiny; auto. apply Rmult_le_compat; lra. }
  assert (Pw : 0 < sqrt w) by lra. assert (Pv : 0 < sqrt v) by lra.
  set (sw' := rd (sqrt w')) in *. set (sv' := rd (sqrt v')) in *. set (sw := sqrt w) in *. set (sv := sqrt v) in *. clearbody sw' sv' sw sv.
  set (d := om + 102 / 100 * u) in *. assert (Hd : 0 <= d <= 2 / 1000) by (unfold d; lra).
  pose proof (times_weight a' K E B z sw' sw d Pz T1 Ha HK ltac:(lra) HB W1 Hd Pw) as S1.
  set (E1 := E + (B + / 20) * (d + u)) in *.
  assert (HE1 : 0 <= E1 <= / 40).
  { unfold E1. assert (0 <= (B + / 20) * (d + u)) by (apply Rmult_le_pos; lra). assert ((B + / 20) * (d + u) <= (2 + / 20) * (122 / 100000)) by (apply Rmult_le_compat; unfold d; lra). lra. }
  assert (HK1 : Rabs (K * sw) <= B * (z * sw)). { rewrite Rabs_mult, (Rabs_pos_eq sw) by lra. rewrite <- Rmult_assoc. apply Rmult_le_compat_r; lra. }
  pose proof (times_weight (rd (a' * sw')) (K * sw) E1 B (z * sw) sv' sv d ltac:(apply Rmult_lt_0_compat; lra) T2 S1 HK1 HE1 HB V1 Hd Pv) as S2.
  eapply Rle_trans; [exact S2|]. rewrite (Rmult_assoc z). apply Rmult_le_compat_r; [apply Rmult_le_pos; [lra|apply Rmult_le_pos; lra]|].
  unfold E1. assert (0 <= B * d) by (apply Rmult_le_pos; lra). assert (0 <= B * u) by (apply Rmult_le_pos; lra). assert (0 <= B * om) by (apply Rmult_le_pos; lra).
  assert (d <= B * d) by nra. assert (u <= B * u) by nra. unfold d in *. lra.
Qed.
End Entries.

(** * Matrices *)
Lemma near_distance rho a' a : rel rho a' a -> 0 <= a -> 0 <= rho <= 1 -> 0 <= a' /\ Rabs (a' - a) <= rho * a.
Proof.
  unfold rel. intros H Ha Hr. rewrite (Rabs_pos_eq a) in H by auto. split; auto. apply Rabs_le_between in H. assert (rho * a <= 1 * a) by (apply Rmult_le_compat_r; lra). lra.
Qed.

Section Matrix.
Variables (u eta e : R) (rd : R -> R) (f : tfun).
Hypothesis Hs : small_errors u eta e.
Hypothesis Hrd : rounding u eta rd.
Hypothesis Hf : tfun_near e eta f.
Variables (n : nat) (q r : rule) (sg om rho kap : R) (sx sy : list R) (GX GY : rule) (k : kernel).
Hypothesis Hq : ordinary_rule n q.
Hypothesis Hr : rule_near sg om rho r q.
Hypothesis Hm : small_reference u sg om rho.
Hypothesis Hk : ordinary_cutoff k.
Hypothesis Hx : ordinary_edges sx.
Hypothesis Hy : ordinary_edges sy.
Hypothesis HX : piecewise q sx = Ok GX.
Hypothesis HY : piecewise q sy = Ok GY.
Hypothesis Hkap : resolved n sy GY kap.
Hypothesis Ht : kap * (sg + 7 * u) <= / 1000.

Let t := kap * (sg + 7 * u).

Lemma u_range : 0 < u <= / 100000 /\ 0 <= e <= / 1000 /\ 0 <= eta.
Proof. pose proof (u_small u eta e Hs). destruct Hm as (A & _). destruct Hs as (_ & B & C & _). split; [lra|auto]. Qed.

Lemma x_rule : exists gx, piecewise_rd rd r sx = Ok gx /\ rule_near (sg + 7 * u) (om + 5 * u) (rho + 6 * u) gx GX.
Proof.
  destruct Hm as (_ & A & B & C). destruct (piecewise_round u eta e rd Hs Hrd n q r sg om rho sx GX Hq Hr ltac:(lra) ltac:(lra) ltac:(lra) Hx HX) as (g & P & N & _). eauto.
Qed.
Lemma y_rule : exists gy, piecewise_rd rd r sy = Ok gy /\ rule_near (sg + 7 * u) (om + 5 * u) (rho + 6 * u) gy GY /\
  (forall j, (j < length (rx GY))%nat -> rel t (nth j (rx gy) 0) (nth j (rx GY) 0)).
Proof.
  destruct Hm as (_ & A & B & C). destruct (piecewise_round u eta e rd Hs Hrd n q r sg om rho sy GY Hq Hr ltac:(lra) ltac:(lra) ltac:(lra) Hy HY) as (g & P & N & M).
  exists g. split; auto. split; auto. intros p Hp. rewrite (proj1 (G_len n q sy GY Hq Hy HY)) in Hp. destruct (split_index n q sy Hq p Hp) as (i & j & Hi & Hj & ->).
  unfold rel. eapply Rle_trans; [apply M; auto|]. unfold t. pose proof u_range.
  replace (kap * (sg + 7 * u) * Rabs (nth (i * n + j) (rx GY) 0)) with ((sg + 7 * u) * (kap * Rabs (nth (i * n + j) (rx GY) 0))) by ring.
  apply Rmult_le_compat_l; [lra|]. apply Hkap; auto. lia.
Qed.
Lemma weight_low segs G p : ordinary_edges segs -> piecewise q segs = Ok G -> (p < length (rx G))%nat -> gap * gap <= nth p (rw G) 0.
Proof.
  intros He HG Hp. rewrite (proj1 (G_len n q segs G Hq He HG)) in Hp. destruct (split_index n q segs Hq p Hp) as (i & j & Hi & Hj & ->).
  rewrite (proj2 (G_at n q segs G Hq He HG i j Hi Hj)). pose proof (e_gap segs He i Hi) as Hg. pose proof gap_facts as (G1 & _). destruct Hq as (_ & _ & K). destruct (K j Hj) as (K1 & _).
  rewrite (Rmult_comm (nth j (rw q) 0)). apply Rle_trans with (gap / 2 * / 10 ^ 20).
  - replace (gap / 2 * / 10 ^ 20) with (gap * (/ 10 ^ 20 / 2)) by field. apply Rmult_le_compat_l; lra.
  - apply Rmult_le_compat; lra.
Qed.
Lemma lengths segs G : ordinary_edges segs -> piecewise q segs = Ok G -> length (rw G) = length (rx G).
Proof. intros He HG. destruct (G_len n q segs G Hq He HG) as (A & B). congruence. Qed.
Lemma inside segs G p : ordinary_edges segs -> piecewise q segs = Ok G -> (p < length (rx G))%nat -> ra G <= nth p (rx G) 0 <= rb G.
Proof.
  intros He HG Hp. destruct (G_ends q segs G He HG) as (E1 & E2). rewrite E1, E2. rewrite (proj1 (G_len n q segs G Hq He HG)) in Hp. destruct (split_index n q segs Hq p Hp) as (i & j & Hi & Hj & ->).
  rewrite (proj1 (G_at n q segs G Hq He HG i j Hi Hj)). pose proof (e_gap segs He i Hi) as Hg. pose proof gap_facts as (G1 & _).
  pose proof (rule_node n q segs (proj1 Hq) j Hj) as [Hn _]. pose proof (e_mono segs He 0 i ltac:(lia) ltac:(lia)) as M1. pose proof (e_mono segs He (S i) (length segs - 1) ltac:(lia) ltac:(lia)) as M2.
  set (a := nth i segs 0) in *. set (b := nth (S i) segs 0) in *. set (xj := nth j (rx q) 0) in *. split.
  - apply Rle_trans with a; auto. assert (0 <= (b - a) / 2 * (xj + 1)) by (apply Rmult_le_pos; lra). lra.
  - apply Rle_trans with b; auto. assert (0 <= (b - a) / 2 * (1 - xj)) by (apply Rmult_le_pos; lra). lra.
Qed.
Lemma size_low y : / 10 ^ 90 <= kernel_size k y.
Proof.
  destruct k as [lam|lam]; cbn [kernel_size ordinary_cutoff] in *.
  - apply Rle_trans with (/ 1); [|rewrite Rinv_1; apply Rle_refl]. apply Rinv_le_contravar; [lra|]. apply pow_R1_Rle; lra.
  - pose proof (Rabs_pos y). assert (/ 10 ^ 90 <= / lam) by (apply Rinv_le_contravar; [apply Hk|apply Hk]). lra.
Qed.

Lemma weighted_rd_entry gx gy A i j : length A = length (rw gx) -> (i < length A)%nat -> length (nth i A []) = length (rw gy) -> (j < length (rw gy))%nat ->
  ment (weighted_rd rd gx gy A) i j = rd (rd (ment A i j * rd (sqrt (nth i (rw gx) 0))) * rd (sqrt (nth j (rw gy) 0))).
Proof.
  intros L1 Hi L2 Hj. unfold ment, weighted_rd, sqrtw_rd. rewrite (BaseFacts.map2_nth _ _ _ i [] 0 []) by (try rewrite map_length; lia).
  rewrite (BaseFacts.map2_nth _ _ _ j 0 0 0) by (rewrite map_length; lia). rewrite (nth_map_in _ (nth i A []) j 0 0) by lia.
  rewrite (nth_map_in _ (rw gx) i 0 0) by lia. rewrite (nth_map_in _ (rw gy) j 0 0) by lia. reflexivity.
Qed.
Lemma call_shape g k0 X Y XP XM A : kernel_call_rd rd g k0 (map Fin X) (map Fin Y) XP XM = Ok A -> length A = length X /\ forall i, (i < length X)%nat -> length (nth i A []) = length Y.
Proof.
  unfold kernel_call_rd. destruct (check_domain _ _ _ _) as [[]|]; [|discriminate]. cbn [bind]. intros [= <-]. rewrite map_length, seq_length, map_length. split; auto.
  intros i Hi. rewrite nth_map_seq by auto. rewrite map_length, KernelFacts.fins_map. reflexivity.
Qed.
Lemma reduced_shape g k0 X Y XP XM A : reduced_call_rd rd g k0 (map Fin X) (map Fin Y) XP XM = Ok A -> length A = length X /\ forall i, (i < length X)%nat -> length (nth i A []) = length Y.
Proof.
  unfold reduced_call_rd. destruct (check_domain _ _ _ _) as [[]|]; [|discriminate]. cbn [bind]. destruct XP; [|discriminate]. intros [= <-]. rewrite map_length, seq_length, map_length. split; auto.
  intros i Hi. rewrite nth_map_seq by auto. rewrite map_length, KernelFacts.fins_map. reflexivity.
Qed.

Lemma t_pos : 0 <= t.
Proof.
  unfold t. destruct u_range as (Hu & _). pose proof Hm as (_ & M1 & _). assert (0 <= kap); [|apply Rmult_le_pos; lra].
  destruct (Rle_dec 0 kap) as [|N]; auto. exfalso.
  pose proof (e_gap sy Hy 0) as Hg. pose proof (Hkap 0%nat 0%nat) as K0. destruct Hy as (Ly & _). destruct (q_len n q Hq) as (Pn & _).
  specialize (Hg ltac:(lia)). specialize (K0 ltac:(lia) Pn). pose proof gap_facts as (G1 & _).
  set (yy := nth (0 * n + 0) (rx GY) 0) in *. pose proof (Rabs_pos yy). assert (kap * Rabs yy <= 0) by nra.
  pose proof (Rmax_l (Rabs (nth 0 sy 0)) (Rabs (nth 1 sy 0))). pose proof (Rmax_r (Rabs (nth 0 sy 0)) (Rabs (nth 1 sy 0))).
  pose proof (Rle_abs (nth 1 sy 0)). pose proof (Rle_abs (- nth 0 sy 0)) as Q. rewrite Rabs_Ropp in Q. lra.
Qed.

Lemma full_matrix M : nth 0 sx 0 = -1 -> nth (length sx - 1) sx 0 = 1 ->
  sampling_matrix_rd rd (kernel_matrix_rd rd f k) r sx sy = Ok M ->
  forall i j, (i < length (rx GX))%nat -> (j < length (rx GY))%nat ->
  Rabs (ment M i j - ment (weighted (kernel_formula k) GX GY) i j)
    <= (rho + 3 * om + 4 * t + 30 * u + 3 * e) * kernel_size k (nth j (rx GY) 0) * (sqrt (nth i (rw GX) 0) * sqrt (nth j (rw GY) 0)).
Proof.
  intros X0 X1 H i j Hi Hj. destruct u_range as (Hu & He & Hn). pose proof Hm as (_ & M1 & M2 & M3).
  destruct x_rule as (gx & PX & _ & _ & LX1 & LX2 & _ & _ & NX). destruct y_rule as (gy & PY & (_ & _ & LY1 & LY2 & _ & _ & NY) & TY).
  destruct (G_ends q sx GX Hx HX) as (EX1 & EX2). rewrite X0 in EX1. rewrite X1 in EX2.
  unfold sampling_matrix_rd in H. rewrite PX, PY in H. cbn [bind] in H. destruct (kernel_matrix_rd rd f k gx gy) as [A|] eqn:EA; [|discriminate]. cbn [bind] in H. injection H as <-.
  unfold kernel_matrix_rd in EA. destruct (call_shape _ _ _ _ _ _ _ EA) as (S1 & S2).
  pose proof (lengths sx GX Hx HX) as LX. pose proof (lengths sy GY Hy HY) as LY.
  pose proof t_pos as T0.
  fold t in Ht.
  rewrite weighted_rd_entry by (try rewrite S2; lia). rewrite ComputeNonempty.weighted_entry by lia.
  set (Y := nth j (rx GY) 0). set (X := nth i (rx GX) 0). specialize (TY j Hj). fold Y in TY.
  pose proof (inside sx GX i Hx HX Hi) as IX. rewrite EX1, EX2 in IX. fold X in IX.
  pose proof (call_round u eta e rd f Hs Hrd Hf k (rho + 6 * u) (rx gx) (rx gy) (fun i => nth i (rx GX) 0) (rfw gx) (rbw gx) A Hk ltac:(lra) EA) as C.
  assert (Cd : forall i, (i < length (rx gx))%nat -> -1 <= nth i (rx GX) 0 <= 1 /\ distances (rho + 6 * u) eta (-1) (nth i (rx GX) 0) (nth i (rfw gx) 0) (nth i (rbw gx) 0)).
  { intros p Hp. rewrite LX1 in Hp. pose proof (inside sx GX p Hx HX Hp) as I. rewrite EX1, EX2 in I. split; auto.
    destruct (NX p Hp) as (_ & _ & D1 & D2). rewrite EX1 in D1. rewrite EX2 in D2.
    apply near_distance in D1; [|lra|lra]. apply near_distance in D2; [|lra|lra]. repeat split; [apply D1|apply D2| |]; lra. }
  specialize (C Cd i j ltac:(lia) ltac:(lia)). cbv beta in C. fold X in C. fold (ment A i j) in C.
  set (y := nth j (rx gy) 0) in *. destruct (size_near k Y y t Hk T0 TY) as (Z1 & Z2). pose proof (size_pos k Y Hk) as Z3.
  pose proof (formula_near_y k X Y y t Hk IX ltac:(lra) TY) as FY. pose proof (formula_bound k X Y Hk IX) as FB.
  destruct (NX i Hi) as (_ & WX & _). destruct (NY j Hj) as (_ & WY & _).
  set (c := rho + 6 * u + 8 * u + 3 * e) in *. assert (Hc : 0 <= c <= / 50) by (unfold c; lra). set (E := c + 302 / 100 * t).
  assert (C' : Rabs (ment A i j - kernel_formula k X Y) <= E * kernel_size k Y).
  { replace (ment A i j - kernel_formula k X Y) with ((ment A i j - kernel_formula k X y) + (kernel_formula k X y - kernel_formula k X Y)) by ring.
    eapply Rle_trans; [apply Rabs_triang|].
    assert (c * kernel_size k y <= c * ((1 + t) * kernel_size k Y)) by (apply Rmult_le_compat_l; lra).
    assert (c * t * kernel_size k Y <= / 50 * t * kernel_size k Y) by (apply Rmult_le_compat_r; [lra|]; apply Rmult_le_compat_r; lra).
    unfold E. lra. }
  assert (HE : 0 <= E <= / 50) by (unfold E, c; lra).
  eapply Rle_trans; [apply (entry_round u eta e rd Hs Hrd (proj1 Hm) (ment A i j) (kernel_formula k X Y) E 1 (kernel_size k Y) (om + 5 * u)); auto|].
  - apply size_low.
  - rewrite Rabs_pos_eq; lra.
  - lra.
  - lra.
  - apply (weight_low sx); auto.
  - apply (weight_low sy); auto.
  - assert (Q : 0 <= sqrt (nth i (rw GX) 0) * sqrt (nth j (rw GY) 0)) by (apply Rmult_le_pos; apply sqrt_pos).
    set (Q2 := sqrt (nth i (rw GX) 0) * sqrt (nth j (rw GY) 0)) in *. clearbody Q2. rewrite (Rmult_assoc _ (kernel_size k Y) Q2).
    apply Rle_trans with ((E + 21 / 10 * 1 * (om + 5 * u + 21 / 10 * u)) * (kernel_size k Y * Q2)); [apply Req_le; ring|].
    apply Rmult_le_compat_r; [apply Rmult_le_pos; lra|]. unfold E, c. lra.
Qed.

Lemma reduced_round_matrix sgn red M : (sgn = 1 \/ sgn = -1) -> get_symmetrized k sgn = Ok red -> nth 0 sx 0 = 0 -> nth (length sx - 1) sx 0 = 1 ->
  sampling_matrix_rd rd (reduced_matrix_rd rd f red) r sx sy = Ok M ->
  forall i j, (i < length (rx GX))%nat -> (j < length (rx GY))%nat ->
  Rabs (ment M i j - ment (weighted (fun x y => kernel_formula k x y + sgn * kernel_formula k x (- y)) GX GY) i j)
    <= (2 * rho + 3 * sg + 5 * om + 7 * t + 85 * u + 5 * e) * kernel_size k (nth j (rx GY) 0) * (sqrt (nth i (rw GX) 0) * sqrt (nth j (rw GY) 0)).
Proof.
  intros Hsgn Hred X0 X1 H i j Hi Hj. destruct u_range as (Hu & He & Hn). pose proof Hm as (_ & M1 & M2 & M3).
  destruct x_rule as (gx & PX & _ & _ & LX1 & LX2 & _ & _ & NX). destruct y_rule as (gy & PY & (_ & _ & LY1 & LY2 & _ & _ & NY) & TY).
  destruct (G_ends q sx GX Hx HX) as (EX1 & EX2). rewrite X0 in EX1. rewrite X1 in EX2.
  unfold sampling_matrix_rd in H. rewrite PX, PY in H. cbn [bind] in H. destruct (reduced_matrix_rd rd f red gx gy) as [A|] eqn:EA; [|discriminate]. cbn [bind] in H. injection H as <-.
  unfold reduced_matrix_rd in EA. destruct (reduced_shape _ _ _ _ _ _ _ EA) as (S1 & S2).
  pose proof (lengths sx GX Hx HX) as LX. pose proof (lengths sy GY Hy HY) as LY.
  pose proof t_pos as T0. fold t in Ht.
  rewrite weighted_rd_entry by (try rewrite S2; lia). rewrite ComputeNonempty.weighted_entry by lia.
  set (Y := nth j (rx GY) 0). set (X := nth i (rx GX) 0). specialize (TY j Hj). fold Y in TY.
  pose proof (inside sx GX i Hx HX Hi) as IX. rewrite EX1, EX2 in IX. fold X in IX.
  pose proof (reduced_call_round u eta e rd f Hs Hrd Hf k sgn red (rho + 6 * u) (sg + 7 * u) (rx gx) (rx gy) (fun i => nth i (rx GX) 0) (rfw gx) (rbw gx) A Hsgn Hred Hk ltac:(lra) ltac:(lra) EA) as C.
  assert (Cd : forall i, (i < length (rx gx))%nat -> 0 <= nth i (rx GX) 0 <= 1 /\ Rabs (nth i (rx gx) 0 - nth i (rx GX) 0) <= sg + 7 * u /\
    distances (rho + 6 * u) eta 0 (nth i (rx GX) 0) (nth i (rfw gx) 0) (nth i (rbw gx) 0)).
  { intros p Hp. rewrite LX1 in Hp. pose proof (inside sx GX p Hx HX Hp) as I. rewrite EX1, EX2 in I. split; auto.
    destruct (NX p Hp) as (D0 & _ & D1 & D2). rewrite EX1 in D1. rewrite EX2 in D2. split; auto.
    apply near_distance in D1; [|lra|lra]. apply near_distance in D2; [|lra|lra]. repeat split; [apply D1|apply D2| |]; lra. }
  specialize (C Cd i j ltac:(lia) ltac:(lia)). cbv beta in C. fold X in C. fold (ment A i j) in C.
  set (y := nth j (rx gy) 0) in *. destruct (size_near k Y y t Hk T0 TY) as (Z1 & Z2). pose proof (size_pos k Y Hk) as Z3.
  assert (TYn : rel t (- y) (- Y)). { unfold rel in *. replace (- y - - Y) with (- (y - Y)) by ring. rewrite !Rabs_Ropp. exact TY. }
  pose proof (formula_near_y k X Y y t Hk ltac:(lra) ltac:(lra) TY) as FY. pose proof (formula_bound k X Y Hk ltac:(lra)) as FB.
  pose proof (formula_near_y k X (- Y) (- y) t Hk ltac:(lra) ltac:(lra) TYn) as FY'. pose proof (formula_bound k X (- Y) Hk ltac:(lra)) as FB'. rewrite size_opp in FY', FB'.
  destruct (NX i Hi) as (_ & WX & _). destruct (NY j Hj) as (_ & WY & _).
  set (c := 2 * (rho + 6 * u) + 3 * (sg + 7 * u) + 20 * u + 5 * e) in *. assert (Hc : 0 <= c <= / 50) by (unfold c; lra). set (E := c + 602 / 100 * t).
  set (K1 := kernel_formula k X Y) in *. set (K2 := kernel_formula k X (- Y)) in *. set (k1 := kernel_formula k X y) in *. set (k2 := kernel_formula k X (- y)) in *.
  assert (C' : Rabs (ment A i j - (K1 + sgn * K2)) <= E * kernel_size k Y).
  { replace (ment A i j - (K1 + sgn * K2)) with ((ment A i j - (k1 + sgn * k2)) + ((k1 - K1) + sgn * (k2 - K2))) by ring.
    eapply Rle_trans; [apply Rabs_triang|]. assert (S0 : Rabs (k1 - K1 + sgn * (k2 - K2)) <= 6 * t * kernel_size k Y).
    { eapply Rle_trans; [apply Rabs_triang|]. rewrite Rabs_mult. replace (Rabs sgn) with 1; [lra|]. destruct Hsgn as [-> | ->]; [rewrite Rabs_R1|rewrite Rabs_left by lra]; lra. }
    assert (c * kernel_size k y <= c * ((1 + t) * kernel_size k Y)) by (apply Rmult_le_compat_l; lra).
    assert (c * t * kernel_size k Y <= / 50 * t * kernel_size k Y) by (apply Rmult_le_compat_r; [lra|]; apply Rmult_le_compat_r; lra).
    unfold E. lra. }
  assert (HE : 0 <= E <= / 50) by (unfold E, c; lra).
  eapply Rle_trans; [apply (entry_round u eta e rd Hs Hrd (proj1 Hm) (ment A i j) (K1 + sgn * K2) E 2 (kernel_size k Y) (om + 5 * u)); auto|].
  - apply size_low.
  - apply Rabs_le. destruct Hsgn as [-> | ->]; lra.
  - lra.
  - lra.
  - apply (weight_low sx); auto.
  - apply (weight_low sy); auto.
  - assert (Q : 0 <= sqrt (nth i (rw GX) 0) * sqrt (nth j (rw GY) 0)) by (apply Rmult_le_pos; apply sqrt_pos).
    set (Q2 := sqrt (nth i (rw GX) 0) * sqrt (nth j (rw GY) 0)) in *. clearbody Q2. rewrite (Rmult_assoc _ (kernel_size k Y) Q2).
    apply Rle_trans with ((E + 21 / 10 * 2 * (om + 5 * u + 21 / 10 * u)) * (kernel_size k Y * Q2)); [apply Req_le; ring|].
    apply Rmult_le_compat_r; [apply Rmult_le_pos; lra|]. unfold E, c. lra.
Qed.
End Matrix.
