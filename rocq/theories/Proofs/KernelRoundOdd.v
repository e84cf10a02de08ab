(** Errors of the symmetrised kernels in rounded arithmetic. *)
From Coq Require Import ZArith Bool Reals Lra Lia Psatz.
From Coquelicot Require Import Coquelicot.
From Coq Require Import List.
From Verif.Model Require Import Base Util Num Gauss Kernel KernelIEEE.
From Verif.Spec Require Import SKernel SKernelIEEE.
From Verif.Proofs Require Import GaussFacts KernelRound.
Import ListNotations.
Open Scope R_scope.
Notation length := List.length.

(** * Hyperbolic functions *)
Lemma exp_ge1 t : 0 <= t -> 1 <= exp t.
Proof. intros H. pose proof (exp_ineq1_le t). lra. Qed.
Lemma cosh_ge1 t : 1 <= cosh t.
Proof. unfold cosh. rewrite exp_Ropp. pose proof (exp_pos t). set (z := exp t) in *. assert (0 < / z) by (apply Rinv_0_lt_compat; auto). assert (E : z + / z - 2 = (z - 1) ^ 2 * / z) by (field; lra). assert (0 <= (z - 1) ^ 2 * / z) by (apply Rmult_le_pos; [apply pow2_ge_0|lra]). lra. Qed.
Lemma sinh_cosh t : sinh t = cosh t - exp (- t).
Proof. unfold sinh, cosh. field. Qed.
Lemma sinh_le_cosh t : sinh t <= cosh t.
Proof. rewrite sinh_cosh. pose proof (exp_pos (- t)). lra. Qed.
Lemma sinh_nonneg t : 0 <= t -> 0 <= sinh t.
Proof. intros H. unfold sinh. pose proof (exp_ge1 t H). pose proof (exp_neg_le1 t H). lra. Qed.

Lemma sinh_step a b : 0 <= a -> a <= b -> exists c, a <= c <= b /\ sinh b - sinh a = cosh c * (b - a).
Proof.
  intros Ha H. destruct H as [H| ->]; [|exists b; split; [lra|]; ring].
  destruct (MVT_cor2 sinh cosh a b H (fun c _ => derivable_pt_lim_sinh c)) as (c & E & Hc). exists c. split; [lra|exact E].
Qed.
Lemma cosh_step a b : 0 <= a -> a <= b -> exists c, a <= c <= b /\ cosh b - cosh a = sinh c * (b - a).
Proof.
  intros Ha H. destruct H as [H| ->]; [|exists b; split; [lra|]; ring].
  destruct (MVT_cor2 cosh sinh a b H (fun c _ => derivable_pt_lim_cosh c)) as (c & E & Hc). exists c. split; [lra|exact E].
Qed.
Lemma cosh_le a b : 0 <= a -> a <= b -> cosh a <= cosh b.
Proof. intros Ha H. destruct (cosh_step a b Ha H) as (c & Hc & E). pose proof (sinh_nonneg c ltac:(lra)). nra. Qed.
Lemma sinh_le a b : 0 <= a -> a <= b -> sinh a <= sinh b.
Proof. intros Ha H. destruct (sinh_step a b Ha H) as (c & Hc & E). pose proof (cosh_ge1 c). nra. Qed.
Lemma sinh_ge t : 0 <= t -> t <= sinh t.
Proof. intros H. destruct (sinh_step 0 t ltac:(lra) H) as (c & Hc & E). rewrite sinh_0 in E. pose proof (cosh_ge1 c). nra. Qed.
Lemma cosh_ge t : 0 <= t -> t <= cosh t.
Proof. intros H. pose proof (sinh_ge t H). pose proof (sinh_le_cosh t). lra. Qed.

Lemma cosh_shift t d : 0 <= d < 1 -> cosh (t + d) <= / (1 - d) * cosh t.
Proof.
  intros H. assert (E : exp d <= / (1 - d)).
  { pose proof (exp_ineq1_le (- d)) as L. rewrite exp_Ropp in L. pose proof (exp_pos d).
    apply Rmult_le_reg_l with (1 - d); [lra|]. rewrite Rinv_r by lra. apply Rmult_le_compat_r with (r := exp d) in L; [|lra]. rewrite Rinv_l in L by lra. lra. }
  apply Rle_trans with (exp d * cosh t).
  - unfold cosh. rewrite Ropp_plus_distr, !exp_plus. pose proof (exp_pos t). pose proof (exp_pos (- t)). pose proof (exp_ge1 d ltac:(lra)). pose proof (exp_neg_le1 d ltac:(lra)). nra.
  - apply Rmult_le_compat_r; [pose proof (cosh_ge1 t); lra|exact E].
Qed.

Lemma cosh_bound t : 0 <= t <= 11 / 10 -> cosh t <= 2.
Proof.
  intros H. apply Rle_trans with (cosh (1 + 1 / 10)); [apply cosh_le; lra|].
  eapply Rle_trans; [apply cosh_shift; lra|]. unfold cosh. pose proof exp_le_3. rewrite (exp_Ropp 1). pose proof exp_one_ge.
  assert (/ exp 1 <= / (5 / 2)) by (apply Rinv_le_contravar; lra). lra.
Qed.

Lemma sinh_lip a b m : 0 <= a -> 0 <= b -> a <= m -> b <= m -> Rabs (sinh a - sinh b) <= cosh m * Rabs (a - b).
Proof.
  intros Ha Hb Ma Mb. destruct (Rle_dec a b) as [L|L].
  - destruct (sinh_step a b Ha L) as (c & Hc & E). rewrite (Rabs_minus_sym a b), (Rabs_right (b - a)) by lra. rewrite Rabs_minus_sym, E.
    pose proof (cosh_ge1 c). rewrite Rabs_right by (apply Rle_ge, Rmult_le_pos; lra). apply Rmult_le_compat_r; [lra|]. apply cosh_le; lra.
  - destruct (sinh_step b a Hb ltac:(lra)) as (c & Hc & E). rewrite (Rabs_right (a - b)) by lra. rewrite E.
    pose proof (cosh_ge1 c). rewrite Rabs_right by (apply Rle_ge, Rmult_le_pos; lra). apply Rmult_le_compat_r; [lra|]. apply cosh_le; lra.
Qed.
Lemma cosh_lip a b m : 0 <= a -> 0 <= b -> a <= m -> b <= m -> Rabs (cosh a - cosh b) <= cosh m * Rabs (a - b).
Proof.
  assert (G : forall a b, 0 <= a -> a <= b -> b <= m -> Rabs (cosh b - cosh a) <= cosh m * Rabs (b - a)).
  { intros x y Hx L My. destruct (cosh_step x y Hx L) as (c & Hc & E). rewrite (Rabs_right (y - x)) by lra. rewrite E.
    pose proof (sinh_nonneg c ltac:(lra)). rewrite Rabs_right by (apply Rle_ge, Rmult_le_pos; lra). apply Rmult_le_compat_r; [lra|].
    eapply Rle_trans; [apply sinh_le_cosh|]. apply cosh_le; lra. }
  intros Ha Hb Ma Mb. destruct (Rle_dec a b) as [L|L].
  - rewrite (Rabs_minus_sym a b), Rabs_minus_sym. apply G; auto.
  - apply G; auto; lra.
Qed.

(** Closed forms of the differences. *)
Lemma logistic_odd_closed lam X y : logistic_formula lam X y - logistic_formula lam X (- y) = - sinh (X * (lam * y / 2)) / cosh (lam * y / 2).
Proof.
  unfold logistic_formula, sinh, cosh. set (V := lam * y / 2).
  replace (- lam * y * (X + 1) / 2) with (- V + - (X * V)) by (unfold V; field).
  replace (- lam * - y * (X + 1) / 2) with (V + X * V) by (unfold V; field).
  replace (- lam * y) with (- V + - V) by (unfold V; field). replace (- lam * - y) with (V + V) by (unfold V; field).
  rewrite !exp_plus, !exp_Ropp. pose proof (exp_pos V). pose proof (exp_pos (X * V)). field. repeat split; nra.
Qed.
Lemma bose_odd_closed lam X y : lam * y <> 0 -> bose_formula lam X y - bose_formula lam X (- y) = - (y * sinh (X * (lam * y / 2)) / sinh (lam * y / 2)).
Proof.
  intros H. unfold bose_formula, sinh. set (V := lam * y / 2) in *. assert (NV : V <> 0) by (unfold V; lra).
  replace (- lam * y * (X + 1) / 2) with (- V + - (X * V)) by (unfold V; field).
  replace (- lam * - y * (X + 1) / 2) with (V + X * V) by (unfold V; field).
  replace (- lam * y) with (- V + - V) by (unfold V; field). replace (- lam * - y) with (V + V) by (unfold V; field).
  rewrite !exp_plus, !exp_Ropp. pose proof (exp_pos V). pose proof (exp_pos (X * V)). 
  assert (exp V <> 1). { intros E. apply NV. apply exp_inv. rewrite E, exp_0. reflexivity. }
  assert (exp V * exp V - 1 <> 0) by nra. field. repeat split; nra.
Qed.

Section Round.
Variables (u eta e : R) (rd : R -> R) (f : tfun).
Hypothesis Hs : small_errors u eta e.
Hypothesis Hrd : rounding u eta rd.
Hypothesis Hf : tfun_near e eta f.

(** v_half = rd (rd (lambda / 2) * y) *)
Lemma v_half_near lam y : 0 <= lam -> 0 <= y <= 1 ->
  let V := lam * y / 2 in let vh := rd (rd (lam / 2) * y) in
  0 <= vh /\ Rabs (vh - V) <= 201 / 100 * u * V + 3 * eta.
Proof.
  intros Hl Hy V vh. pose proof (small u eta e Hs) as (Hu & He & Hn & Hn1 & Hn2).
  pose proof (rd_err_pos u eta rd Hrd (lam / 2) ltac:(lra)) as E1. pose proof (rd_pos u eta rd Hrd (lam / 2) ltac:(lra)) as P1.
  unfold vh. set (c := rd (lam / 2)) in *. clearbody c.
  assert (Pcy : 0 <= c * y) by (apply Rmult_le_pos; lra).
  pose proof (rd_err_pos u eta rd Hrd (c * y) Pcy) as E2. split; [apply (rd_pos u eta rd Hrd); auto|].
  set (w := rd (c * y)) in *. clearbody w.
  assert (E3 : Rabs (c * y - V) <= u * V + eta).
  { unfold V. replace (c * y - lam * y / 2) with ((c - lam / 2) * y) by field. rewrite Rabs_mult, (Rabs_right y) by lra.
    apply Rle_trans with ((u * (lam / 2) + eta) * y); [apply Rmult_le_compat_r; lra|]. assert (eta * y <= eta * 1) by (apply Rmult_le_compat_l; lra). lra. }
  assert (PV : 0 <= V) by (unfold V; assert (0 <= lam * y) by (apply Rmult_le_pos; lra); lra). clearbody V.
  apply Rabs_le_between in E3. apply Rabs_le_between in E2.
  assert (u * (c * y) <= u * (V + (u * V + eta))) by (apply Rmult_le_compat_l; lra).
  assert (0 <= u * V) by (apply Rmult_le_pos; lra). assert (u * (u * V) <= / 1000 * (u * V)) by (apply Rmult_le_compat_r; lra).
  assert (u * eta <= / 1000 * eta) by (apply Rmult_le_compat_r; lra). apply Rabs_le_between. lra.
Qed.

(** the argument of the hyperbolic sine and bounds *)
Lemma sinh_argument V vh x X sg : 0 <= V -> 0 <= vh < 85 -> Rabs (vh - V) <= 201 / 100 * u * V + 3 * eta ->
  0 <= x <= 1 -> 0 <= X <= 1 -> Rabs (x - X) <= sg -> sg <= / 10000 -> rd (x * vh) < 1 ->
  let xv := rd (x * vh) in
  0 <= xv /\ Rabs (xv - X * V) <= (302 / 100 * u + 1001 / 1000 * sg) * V + 5 * eta /\ X * V <= 11 / 10 /\
  V <= 851 / 10 /\ Rabs (vh - V) <= 2 / 100.
Proof.
  intros HV Hvh Ev Hx HX Ex Hsg Hxv xv. pose proof (small u eta e Hs) as (_ & He & Hn & Hn1 & Hn2). pose proof (small_u u eta e Hs) as (Hu & _).
  assert (Psg : 0 <= sg) by (eapply Rle_trans; [apply Rabs_pos|exact Ex]).
  assert (uV : 0 <= u * V) by (apply Rmult_le_pos; lra). assert (uV1 : u * V <= / 10000 * V) by (apply Rmult_le_compat_r; lra).
  assert (BV : V <= 851 / 10) by (apply Rabs_le_between in Ev; lra).
  assert (Bd : Rabs (vh - V) <= 2 / 100) by lra.
  assert (Pxv : 0 <= x * vh) by (apply Rmult_le_pos; lra).
  pose proof (rd_err_pos u eta rd Hrd (x * vh) Pxv) as E1. pose proof (rd_pos u eta rd Hrd (x * vh) Pxv) as P1. fold xv in E1, P1, Hxv.
  clearbody xv. split; [exact P1|].
  assert (C1 : x * vh <= vh). { assert (x * vh <= 1 * vh) by (apply Rmult_le_compat_r; lra). lra. }
  assert (C2 : u * (x * vh) <= u * vh) by (apply Rmult_le_compat_l; lra).
  assert (C3 : Rabs (x * vh - X * vh) <= sg * vh).
  { replace (x * vh - X * vh) with ((x - X) * vh) by ring. rewrite Rabs_mult, (Rabs_right vh) by lra. apply Rmult_le_compat_r; lra. }
  assert (C4 : Rabs (X * vh - X * V) <= 201 / 100 * u * V + 3 * eta).
  { replace (X * vh - X * V) with (X * (vh - V)) by ring. rewrite Rabs_mult, (Rabs_right X) by lra.
    assert (X * Rabs (vh - V) <= 1 * Rabs (vh - V)) by (apply Rmult_le_compat_r; [apply Rabs_pos|lra]). lra. }
  assert (B1 : vh <= 1001 / 1000 * V + 3 * eta) by (apply Rabs_le_between in Ev; lra).
  assert (C5 : u * vh <= u * (1001 / 1000 * V + 3 * eta)) by (apply Rmult_le_compat_l; lra).
  assert (C6 : u * eta <= / 10000 * eta) by (apply Rmult_le_compat_r; lra).
  assert (B2 : vh <= V + (201 / 100 * u * V + 3 * eta)) by (apply Rabs_le_between in Ev; lra).
  assert (C7 : sg * vh <= sg * (1001 / 1000 * V + 3 * eta)) by (apply Rmult_le_compat_l; lra).
  assert (C8 : sg * eta <= / 10000 * eta) by (apply Rmult_le_compat_r; lra).
  assert (E : Rabs (xv - X * V) <= (302 / 100 * u + 1001 / 1000 * sg) * V + 5 * eta).
  { apply Rabs_le_between in E1. apply Rabs_le_between in C3. apply Rabs_le_between in C4. apply Rabs_le_between. lra. }
  split; [exact E|]. split; [|split; auto].
  assert (sg * V <= / 10000 * V) by (apply Rmult_le_compat_r; lra). apply Rabs_le_between in E. lra.
Qed.

Lemma quotient_near S S0 D D0 dS dD b : 0 < D0 -> 0 <= S0 <= b * D0 -> Rabs (S - S0) <= dS * D0 -> Rabs (D - D0) <= dD * D0 -> dD <= 3 / 100 -> 0 <= b -> 
  Rabs (S / D - S0 / D0) <= 104 / 100 * (dS + S0 / D0 * dD).
Proof.
  intros P0 HS ES ED HdD Hb. assert (PD : 97 / 100 * D0 <= D).
  { apply Rabs_le_between in ED. assert (dD * D0 <= 3 / 100 * D0) by (apply Rmult_le_compat_r; lra). lra. }
  replace (S / D - S0 / D0) with (((S - S0) - S0 / D0 * (D - D0)) / D) by (field; lra).
  assert (Q0 : 0 <= S0 / D0). { apply Rle_div_r; lra. }
  unfold Rdiv at 1. rewrite Rabs_mult, Rabs_inv, (Rabs_right D) by lra. apply Rle_div_l; [lra|].
  apply Rle_trans with ((dS + S0 / D0 * dD) * D0).
  - unfold Rminus at 1. eapply Rle_trans; [apply Rabs_triang|]. rewrite Rabs_Ropp, Rabs_mult, (Rabs_right (S0 / D0)) by lra.
    assert (S0 / D0 * Rabs (D - D0) <= S0 / D0 * (dD * D0)) by (apply Rmult_le_compat_l; lra). lra.
  - assert (N : 0 <= dS + S0 / D0 * dD).
    { assert (0 <= dS). { apply Rmult_le_reg_r with D0; [auto|]. rewrite Rmult_0_l. eapply Rle_trans; [apply Rabs_pos|exact ES]. }
      assert (0 <= dD). { apply Rmult_le_reg_r with D0; [auto|]. rewrite Rmult_0_l. eapply Rle_trans; [apply Rabs_pos|exact ED]. }
      assert (0 <= S0 / D0 * dD) by (apply Rmult_le_pos; lra). lra. }
    rewrite (Rmult_comm (104 / 100)), Rmult_assoc. apply Rmult_le_compat_l; [exact N|lra].
Qed.

(** The closed form for the odd logistic kernel. *)
Lemma logistic_odd_round lam x y X sg : 0 <= lam -> 0 <= y <= 1 -> 0 <= x <= 1 -> 0 <= X <= 1 -> Rabs (x - X) <= sg -> sg <= / 10000 ->
  let vh := rd (rd (lam / 2) * y) in
  rd (x * vh) < 1 -> vh < 85 ->
  Rabs (rd (- f_sinh f (rd (vh * x)) / f_cosh f vh) - (logistic_formula lam X y - logistic_formula lam X (- y)))
    <= 118 / 10 * u + 22 / 10 * sg + 43 / 10 * e.
Proof.
  intros Hl Hy Hx HX Ex Hsg vh Hxv Hvh. pose proof (small u eta e Hs) as (_ & He & Hn & Hn1 & Hn2). pose proof (small_u u eta e Hs) as (Hu & _).
  rewrite logistic_odd_closed. rewrite (Rmult_comm vh x). destruct (v_half_near lam y Hl Hy) as [Pv Ev]. fold vh in Pv, Ev. set (V := lam * y / 2) in *.
  assert (PV : 0 <= V) by (unfold V; assert (0 <= lam * y) by (apply Rmult_le_pos; lra); lra). clearbody V vh.
  destruct (sinh_argument V vh x X sg PV (conj Pv Hvh) Ev Hx HX Ex Hsg Hxv) as (P1 & E1 & BX & BV & Bd).
  assert (Psg : 0 <= sg) by (eapply Rle_trans; [apply Rabs_pos|exact Ex]).
  set (xv := rd (x * vh)) in *. clearbody xv. destruct Hf as (_ & _ & Fs & Fc).
  pose proof (Fs xv ltac:(lra)) as A1. pose proof (Fc vh ltac:(lra)) as A2. unfold approximates in A1, A2.
  set (S := f_sinh f xv) in *. set (D := f_cosh f vh) in *. clearbody S D.
  assert (PX : 0 <= X * V) by (apply Rmult_le_pos; lra).
  rewrite (Rabs_right (sinh xv)) in A1 by (apply Rle_ge, sinh_nonneg; auto). pose proof (cosh_ge1 vh) as Gv. rewrite (Rabs_right (cosh vh)) in A2 by lra.
  pose proof (cosh_ge1 V) as GV. pose proof (cosh_ge V PV) as GV2.
  (* numerator *)
  pose proof (sinh_lip xv (X * V) (11 / 10) P1 PX ltac:(lra) BX) as L1. pose proof (cosh_bound (11 / 10) ltac:(lra)) as B11.
  assert (L1' : Rabs (sinh xv - sinh (X * V)) <= 2 * Rabs (xv - X * V)).
  { eapply Rle_trans; [exact L1|]. apply Rmult_le_compat_r; [apply Rabs_pos|auto]. }
  assert (Sx : sinh xv <= 2). { eapply Rle_trans; [apply sinh_le_cosh|]. apply cosh_bound. lra. }
  assert (eS : e * sinh xv <= e * 2) by (apply Rmult_le_compat_l; lra).
  assert (uV : 0 <= u * V) by (apply Rmult_le_pos; lra). assert (sV : 0 <= sg * V) by (apply Rmult_le_pos; lra).
  assert (uVc : u * V <= u * cosh V) by (apply Rmult_le_compat_l; lra). assert (sVc : sg * V <= sg * cosh V) by (apply Rmult_le_compat_l; lra).
  assert (uc : u * 1 <= u * cosh V) by (apply Rmult_le_compat_l; lra). assert (ec : e * 1 <= e * cosh V) by (apply Rmult_le_compat_l; lra).
  assert (nc : eta * 1 <= eta * cosh V) by (apply Rmult_le_compat_l; lra).
  assert (EN : Rabs (S - sinh (X * V)) <= (605 / 100 * u + 201 / 100 * sg + 2 * e) * cosh V).
  { replace (S - sinh (X * V)) with ((S - sinh xv) + (sinh xv - sinh (X * V))) by ring. eapply Rle_trans; [apply Rabs_triang|]. lra. }
  (* denominator *)
  assert (Bcosh : cosh (V + 2 / 100) <= 1021 / 1000 * cosh V).
  { eapply Rle_trans; [apply cosh_shift; lra|]. apply Rmult_le_compat_r; lra. }
  pose proof (cosh_lip vh V (V + 2 / 100) Pv PV ltac:(apply Rabs_le_between in Bd; lra) ltac:(lra)) as L2.
  assert (Cv : cosh vh <= 1021 / 1000 * cosh V). { eapply Rle_trans; [apply (cosh_le vh (V + 2 / 100)); [auto|apply Rabs_le_between in Bd; lra]|auto]. }
  assert (ED : Rabs (D - cosh V) <= (1021 / 1000 * (201 / 100 * u * V + 3 * eta) + 1022 / 1000 * e + eta) * cosh V).
  { replace (D - cosh V) with ((D - cosh vh) + (cosh vh - cosh V)) by ring. eapply Rle_trans; [apply Rabs_triang|].
    assert (cosh (V + 2 / 100) * Rabs (vh - V) <= 1021 / 1000 * cosh V * (201 / 100 * u * V + 3 * eta)) by (apply Rmult_le_compat; [pose proof (cosh_ge1 (V + 2 / 100)); lra|apply Rabs_pos|auto|auto]).
    assert (e * cosh vh <= e * (1021 / 1000 * cosh V)) by (apply Rmult_le_compat_l; lra). lra. }
  assert (HdD : 1021 / 1000 * (201 / 100 * u * V + 3 * eta) + 1022 / 1000 * e + eta <= 3 / 100).
  { assert (u * V <= / 10000 * V) by (apply Rmult_le_compat_r; lra). lra. }
  assert (S0 : 0 <= sinh (X * V) <= 1 * cosh V).
  { split; [apply sinh_nonneg; auto|]. rewrite Rmult_1_l. eapply Rle_trans; [apply sinh_le_cosh|]. apply cosh_le; auto.
    assert (X * V <= 1 * V) by (apply Rmult_le_compat_r; lra). lra. }
  pose proof (quotient_near S (sinh (X * V)) D (cosh V) _ _ 1 ltac:(lra) S0 EN ED HdD ltac:(lra)) as Q.
  assert (S2 : sinh (X * V) <= 2). { eapply Rle_trans; [apply sinh_le_cosh|]. apply cosh_bound. lra. }
  set (s0 := sinh (X * V)) in *. set (c0 := cosh V) in *. clearbody s0 c0.
  assert (Q0 : 0 <= s0 / c0 <= 1). { split; [apply Rle_div_r; lra|apply Rle_div_l; lra]. }
  assert (Q1 : s0 / c0 * V <= 2).
  { apply Rle_trans with (2 / c0 * V). - apply Rmult_le_compat_r; [auto|]. apply Rmult_le_compat_r; [apply Rlt_le, Rinv_0_lt_compat; lra|auto].
    - replace (2 / c0 * V) with (2 * (V / c0)) by (field; lra). assert (V / c0 <= 1) by (apply Rle_div_l; lra). lra. }
  assert (Q2 : s0 / c0 * (1021 / 1000 * (201 / 100 * u * V + 3 * eta) + 1022 / 1000 * e + eta) <= 411 / 100 * u + 1022 / 1000 * e + 5 * eta).
  { replace (s0 / c0 * (1021 / 1000 * (201 / 100 * u * V + 3 * eta) + 1022 / 1000 * e + eta))
      with (1021 / 1000 * (201 / 100) * (u * (s0 / c0 * V)) + (s0 / c0) * (1021 / 1000 * (3 * eta) + 1022 / 1000 * e + eta)) by ring.
    assert (u * (s0 / c0 * V) <= u * 2) by (apply Rmult_le_compat_l; lra).
    assert ((s0 / c0) * (1021 / 1000 * (3 * eta) + 1022 / 1000 * e + eta) <= 1 * (1021 / 1000 * (3 * eta) + 1022 / 1000 * e + eta)) by (apply Rmult_le_compat_r; lra). lra. }
  assert (Q3 : Rabs (S / D - s0 / c0) <= 1067 / 100 * u + 21 / 10 * sg + 315 / 100 * e) by lra.
  pose proof (rd_err u eta rd Hrd (- S / D)) as R.
  replace (- S / D) with (- (S / D)) in * by (unfold Rdiv; ring). rewrite Rabs_Ropp in R. replace (- s0 / c0) with (- (s0 / c0)) by (unfold Rdiv; ring).
  set (q := S / D) in *. set (q0 := s0 / c0) in *. clearbody q q0.
  assert (Bq : Rabs q <= 101 / 100 ). { replace q with ((q - q0) + q0) by ring. eapply Rle_trans; [apply Rabs_triang|]. rewrite (Rabs_right q0) by lra. lra. }
  assert (u * Rabs q <= u * (101 / 100)) by (apply Rmult_le_compat_l; lra).
  replace (rd (- q) - - q0) with ((rd (- q) - - q) + - (q - q0)) by ring. eapply Rle_trans; [apply Rabs_triang|]. rewrite Rabs_Ropp. lra.
Qed.

Lemma sinh_convex X V : 0 <= X <= 1 -> 0 <= V -> sinh (X * V) <= sinh V.
Proof.
  intros HX HV. apply sinh_le; [apply Rmult_le_pos; lra|]. assert (X * V <= 1 * V) by (apply Rmult_le_compat_r; lra). lra.
Qed.
Lemma coth_le V : 0 <= V -> V * cosh V <= (1 + V) * sinh V.
Proof.
  intros H. replace (cosh V) with (sinh V + exp (- V)) by (rewrite sinh_cosh; ring). pose proof (exp_neg_le1 V H). pose proof (sinh_ge V H).
  pose proof (exp_pos (- V)). nra.
Qed.

(** The closed form for the odd bosonic kernel. *)
Lemma bose_odd_round lam x y X sg : 0 < lam -> lam <= 10 ^ 90 -> 0 <= y <= 1 -> 0 <= x <= 1 -> 0 <= X <= 1 -> Rabs (x - X) <= sg -> sg <= / 10000 ->
  let vh := rd (rd (lam / 2) * y) in
  rd (x * vh) < 1 -> rd (/ 10 ^ 200) < vh -> vh < 85 ->
  0 < y /\ Rabs (rd (rd (- y * f_sinh f (rd (x * vh))) / f_sinh f vh) - (bose_formula lam X y - bose_formula lam X (- y)))
    <= (153 / 10 * u + 22 / 10 * sg + 22 / 10 * e) * (/ lam + y).
Proof.
  intros Pl Hl Hy Hx HX Ex Hsg vh Hxv Htiny Hvh. pose proof (small u eta e Hs) as (_ & He & Hn & Hn1 & Hn2). pose proof (small_u u eta e Hs) as (Hu & _).
  destruct (v_half_near lam y ltac:(lra) Hy) as [Pv Ev]. fold vh in Pv, Ev. set (V := lam * y / 2) in *.
  assert (PV : 0 <= V) by (unfold V; assert (0 <= lam * y) by (apply Rmult_le_pos; lra); lra).
  destruct (tiny_facts u eta e Hs) as (T & ET & _ & PT & T1 & T2). rewrite <- ET in Htiny.
  assert (uV : 0 <= u * V) by (apply Rmult_le_pos; lra).
  assert (LV : 98 / 100 * T <= V).
  { pose proof (rd_err_pos u eta rd Hrd T ltac:(lra)) as E. apply Rabs_le_between in E. apply Rabs_le_between in Ev.
    assert (u * T <= / 10000 * T) by (apply Rmult_le_compat_r; lra). assert (u * V <= / 10000 * V) by (apply Rmult_le_compat_r; lra). lra. }
  assert (PV' : 0 < V) by lra.
  assert (Ny : lam * y <> 0) by (unfold V in PV'; lra). assert (Py : 0 < y). { destruct (Req_dec y 0) as [->|]; [lra|lra]. }
  split; [exact Py|]. rewrite bose_odd_closed by auto. fold V.
  assert (etaV : eta <= u * V / 900000). { assert (u * (98 / 100 * T) <= u * V) by (apply Rmult_le_compat_l; lra). lra. }
  assert (etaL : eta <= u * V / 1000 * / lam).
  { pose proof (small_u u eta e Hs) as (_ & P & EP & P0 & E2 & HP & HP2). apply Rmult_le_reg_r with lam; [auto|].
    replace (u * V / 1000 * / lam * lam) with (u * V / 1000) by (field; lra).
    assert (HT : T * (P * P) = 1). { rewrite ET, E2. field. lra. }
    assert (LP : lam <= P / 10000000000).
    { eapply Rle_trans; [exact Hl|]. rewrite <- EP. replace (10 ^ 100) with (10 ^ 90 * 10 ^ 10) by (rewrite <- pow_add; reflexivity).
      apply Req_le. field. }
    clear EP Hl. assert (EL : eta * lam <= eta * (P / 10000000000)) by (apply Rmult_le_compat_l; lra).
    assert (EU : eta * P <= u * T).
    { replace (eta * P) with (eta * P * P * P * (T * (1)) * / (T * (P * P))) by (field; lra). rewrite HT, Rinv_1, Rmult_1_r, Rmult_1_r.
      apply Rmult_le_compat_r; lra. }
    assert (u * (98 / 100 * T) <= u * V) by (apply Rmult_le_compat_l; lra). lra. }
  assert (Vy : V * / lam = y / 2) by (unfold V; field; lra).
  clearbody V. clear Hl Htiny LV T1 T2 ET PT T Ny.
  destruct (sinh_argument V vh x X sg PV (conj Pv Hvh) Ev Hx HX Ex Hsg Hxv) as (P1 & E1 & BX & BV & Bd).
  clearbody vh.
  assert (Psg : 0 <= sg) by (eapply Rle_trans; [apply Rabs_pos|exact Ex]).
  set (xv := rd (x * vh)) in *. clearbody xv. destruct Hf as (_ & _ & Fs & _).
  pose proof (Fs xv ltac:(lra)) as A1. pose proof (Fs vh ltac:(lra)) as A2. unfold approximates in A1, A2.
  set (S := f_sinh f xv) in *. set (D := f_sinh f vh) in *. clearbody S D.
  assert (PX : 0 <= X * V) by (apply Rmult_le_pos; lra).
  rewrite (Rabs_right (sinh xv)) in A1 by (apply Rle_ge, sinh_nonneg; auto). rewrite (Rabs_right (sinh vh)) in A2 by (apply Rle_ge, sinh_nonneg; auto).
  pose proof (sinh_ge V PV) as GV. pose proof (coth_le V PV) as GC. pose proof (sinh_convex X V HX PV) as SC. pose proof (cosh_ge1 V) as C1.
  (* numerator *)
  pose proof (sinh_lip xv (X * V) (11 / 10) P1 PX ltac:(lra) BX) as L1. pose proof (cosh_bound (11 / 10) ltac:(lra)) as B11.
  assert (L1' : Rabs (sinh xv - sinh (X * V)) <= 2 * Rabs (xv - X * V)).
  { eapply Rle_trans; [exact L1|]. apply Rmult_le_compat_r; [apply Rabs_pos|auto]. }
  assert (S2 : sinh (X * V) <= 2). { eapply Rle_trans; [apply sinh_le_cosh|]. apply cosh_bound. lra. }
  assert (S0 : 0 <= sinh (X * V)) by (apply sinh_nonneg; auto).
  assert (sV : 0 <= sg * V) by (apply Rmult_le_pos; lra).
  (* denominator *)
  assert (Bcosh : cosh (V + 2 / 100) <= 1021 / 1000 * cosh V).
  { eapply Rle_trans; [apply cosh_shift; lra|]. apply Rmult_le_compat_r; lra. }
  pose proof (sinh_lip vh V (V + 2 / 100) Pv PV ltac:(apply Rabs_le_between in Bd; lra) ltac:(lra)) as L2.
  set (h0 := sinh V) in *. set (s0 := sinh (X * V)) in *. set (s1 := sinh xv) in *. set (h1 := sinh vh) in *. set (c0 := cosh V) in *.
  assert (uVh : u * V <= u * h0) by (apply Rmult_le_compat_l; lra). assert (sVh : sg * V <= sg * h0) by (apply Rmult_le_compat_l; lra).
  assert (uh : 0 <= u * h0) by (apply Rmult_le_pos; lra). assert (eh : 0 <= e * h0) by (apply Rmult_le_pos; lra). assert (sh : 0 <= sg * h0) by (apply Rmult_le_pos; lra).
  assert (E1' : Rabs (xv - X * V) <= (303 / 100 * u + 1001 / 1000 * sg) * h0) by lra.
  assert (S1 : s1 <= s0 + 2 * ((303 / 100 * u + 1001 / 1000 * sg) * h0)) by (apply Rabs_le_between in L1'; lra).
  assert (S1' : s1 <= 1001 / 1000 * h0).
  { assert (u * h0 <= / 10000 * h0) by (apply Rmult_le_compat_r; lra). assert (sg * h0 <= / 10000 * h0) by (apply Rmult_le_compat_r; lra). lra. }
  assert (eS : e * s1 <= e * (1001 / 1000 * h0)) by (apply Rmult_le_compat_l; lra).
  assert (EN : Rabs (S - s0) <= (607 / 100 * u + 201 / 100 * sg + 1001 / 1000 * e) * h0).
  { replace (S - s0) with ((S - s1) + (s1 - s0)) by ring. eapply Rle_trans; [apply Rabs_triang|]. lra. }
  assert (Ev' : Rabs (vh - V) <= 202 / 100 * u * V) by lra.
  assert (EC : cosh (V + 2 / 100) * Rabs (vh - V) <= 207 / 100 * u * ((1 + V) * h0)).
  { apply Rle_trans with (1021 / 1000 * c0 * (202 / 100 * u * V)).
    - apply Rmult_le_compat; [pose proof (cosh_ge1 (V + 2 / 100)); lra|apply Rabs_pos|auto|auto].
    - assert (u * (V * c0) <= u * ((1 + V) * h0)) by (apply Rmult_le_compat_l; lra).
      assert (0 <= u * (V * c0)) by (apply Rmult_le_pos; [lra|apply Rmult_le_pos; lra]). lra. }
  assert (u1V : u * (1 + V) <= 861 / 100000). { assert (u * (1 + V) <= / 10000 * (1 + V)) by (apply Rmult_le_compat_r; lra). lra. }
  assert (H1 : h1 <= 102 / 100 * h0).
  { assert (u * (1 + V) * h0 <= 861 / 100000 * h0) by (apply Rmult_le_compat_r; lra). apply Rabs_le_between in L2. lra. }
  assert (eH : e * h1 <= e * (102 / 100 * h0)) by (apply Rmult_le_compat_l; lra).
  assert (ED : Rabs (D - h0) <= (208 / 100 * (u * (1 + V)) + 102 / 100 * e) * h0).
  { replace (D - h0) with ((D - h1) + (h1 - h0)) by ring. eapply Rle_trans; [apply Rabs_triang|].
    assert (0 <= u * V * h0) by (apply Rmult_le_pos; lra). lra. }
  (* product *)
  pose proof (rd_err u eta rd Hrd (- y * S)) as R1. set (p := rd (- y * S)) in *. clearbody p.
  assert (BS : Rabs S <= 101 / 100 * h0).
  { replace S with ((S - s0) + s0) by ring. eapply Rle_trans; [apply Rabs_triang|]. rewrite (Rabs_right s0) by lra.
    assert (u * h0 <= / 10000 * h0) by (apply Rmult_le_compat_r; lra). assert (sg * h0 <= / 10000 * h0) by (apply Rmult_le_compat_r; lra).
    assert (e * h0 <= / 1000 * h0) by (apply Rmult_le_compat_r; lra). lra. }
  pose proof (Rinv_0_lt_compat _ Pl) as Pc. set (c := / lam) in *. clearbody c. set (z := c + y).
  assert (uc : 0 <= u * c) by (apply Rmult_le_pos; lra).
  assert (etaP : eta <= u * c / 1000 * h0).
  { eapply Rle_trans; [exact etaL|]. assert (u * c * V <= u * c * h0) by (apply Rmult_le_compat_l; lra). lra. }
  assert (etaZ : eta <= 9 / 100 * (u * z)).
  { eapply Rle_trans; [exact etaL|]. assert (u * c * V <= u * c * (851 / 10)) by (apply Rmult_le_compat_l; lra).
    assert (0 <= u * y) by (apply Rmult_le_pos; lra). unfold z. lra. }
  assert (EP : Rabs (- p - y * s0) <= (709 / 100 * u + 201 / 100 * sg + 1001 / 1000 * e) * z * h0).
  { replace (- p - y * s0) with (- (p - - y * S) + y * (S - s0)) by ring. eapply Rle_trans; [apply Rabs_triang|].
    rewrite Rabs_Ropp, Rabs_mult, (Rabs_right y) by lra. rewrite Rabs_mult, Rabs_Ropp, (Rabs_right y) in R1 by lra.
    assert (y * Rabs (S - s0) <= y * ((607 / 100 * u + 201 / 100 * sg + 1001 / 1000 * e) * h0)) by (apply Rmult_le_compat_l; lra).
    assert (u * y * Rabs S <= u * y * (101 / 100 * h0)) by (apply Rmult_le_compat_l; [apply Rmult_le_pos; lra|lra]).
    assert (0 <= c * h0) by (apply Rmult_le_pos; lra).
    assert (0 <= (709 / 100 * u + 201 / 100 * sg + 1001 / 1000 * e) * (c * h0) - u * (c * h0)).
    { assert (0 <= (609 / 100 * u + 201 / 100 * sg + 1001 / 1000 * e) * (c * h0)) by (apply Rmult_le_pos; lra). lra. }
    assert (0 <= u * (y * h0)) by (apply Rmult_le_pos; [lra|apply Rmult_le_pos; lra]).
    unfold z. lra. }
  assert (Ph : 0 < h0) by lra. assert (Pz : 0 < z) by (unfold z; lra).
  assert (HdD : 208 / 100 * (u * (1 + V)) + 102 / 100 * e <= 3 / 100) by lra.
  assert (YS : 0 <= y * s0 <= 1 * h0).
  { split; [apply Rmult_le_pos; lra|]. assert (y * s0 <= 1 * s0) by (apply Rmult_le_compat_r; lra). lra. }
  pose proof (quotient_near (- p) (y * s0) D h0 _ _ 1 Ph YS EP ED HdD ltac:(lra)) as Q.
  assert (Q0 : 0 <= s0 / h0 <= 1). { split; [apply Rle_div_r; lra|apply Rle_div_l; lra]. }
  assert (Q1 : s0 / h0 * V <= 2).
  { apply Rle_trans with (2 / h0 * V). - apply Rmult_le_compat_r; [auto|]. apply Rmult_le_compat_r; [apply Rlt_le, Rinv_0_lt_compat; lra|auto].
    - replace (2 / h0 * V) with (2 * (V / h0)) by (field; lra). assert (V / h0 <= 1) by (apply Rle_div_l; lra). lra. }
  assert (Q2 : y * s0 / h0 * (208 / 100 * (u * (1 + V)) + 102 / 100 * e) <= (625 / 100 * u + 102 / 100 * e) * z).
  { replace (y * s0 / h0 * (208 / 100 * (u * (1 + V)) + 102 / 100 * e)) with (y * (208 / 100 * (u * (s0 / h0 + s0 / h0 * V)) + 102 / 100 * (e * (s0 / h0)))) by (field; lra).
    assert (u * (s0 / h0 + s0 / h0 * V) <= u * 3) by (apply Rmult_le_compat_l; lra). assert (e * (s0 / h0) <= e * 1) by (apply Rmult_le_compat_l; lra).
    apply Rle_trans with (y * (208 / 100 * (u * 3) + 102 / 100 * (e * 1))); [apply Rmult_le_compat_l; lra|].
    rewrite Rmult_comm. apply Rmult_le_compat; try lra. unfold z. lra. }
  assert (uz : 0 <= u * z) by (apply Rmult_le_pos; lra). assert (ez : 0 <= e * z) by (apply Rmult_le_pos; lra). assert (sz : 0 <= sg * z) by (apply Rmult_le_pos; lra).
  assert (Q3 : Rabs (- p / D - y * s0 / h0) <= (139 / 10 * u + 21 / 10 * sg + 211 / 100 * e) * z) by lra.
  pose proof (rd_err u eta rd Hrd (p / D)) as R2.
  replace (- p / D) with (- (p / D)) in Q3 by (unfold Rdiv; ring). set (q := p / D) in *. 
  assert (Bq0 : 0 <= y * s0 / h0 <= z).
  { replace (y * s0 / h0) with (y * (s0 / h0)) by (field; lra). split; [apply Rmult_le_pos; lra|].
    assert (y * (s0 / h0) <= y * 1) by (apply Rmult_le_compat_l; lra). unfold z. lra. }
  set (q0 := y * s0 / h0) in *. clearbody q q0 z.
  assert (uz1 : u * z <= / 10000 * z) by (apply Rmult_le_compat_r; lra). assert (ez1 : e * z <= / 1000 * z) by (apply Rmult_le_compat_r; lra).
  assert (sz1 : sg * z <= / 10000 * z) by (apply Rmult_le_compat_r; lra).
  assert (Bq : Rabs q <= 101 / 100 * z).
  { replace q with (- (- q - q0) - q0) by ring. unfold Rminus at 1. eapply Rle_trans; [apply Rabs_triang|]. rewrite !Rabs_Ropp, (Rabs_right q0) by lra. lra. }
  assert (u * Rabs q <= u * (101 / 100 * z)) by (apply Rmult_le_compat_l; lra).
  replace (rd q - - q0) with ((rd q - q) + - (- q - q0)) by ring. eapply Rle_trans; [apply Rabs_triang|]. rewrite Rabs_Ropp. lra.
Qed.
End Round.
