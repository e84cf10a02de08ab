(** evaluate and fit in rounded arithmetic. *)
From Coq Require Import ZArith Arith Bool Reals Lra Lia Psatz.
From Coquelicot Require Import Coquelicot.
From Coq Require Import List.
From Verif.Model Require Import Base Num FT NDArray Sampling SamplingIEEE.
From Verif.Spec Require Import SSampling SSamplingIEEE.
From Verif.Proofs Require Import BaseFacts SumFacts FTFacts FTModel NDFacts LstsqFacts SamplingFacts SplitFacts SamplingProps CVec FitRound NDRel.
Import ListNotations.
Open Scope R_scope.
Notation length := List.length.

(** * evaluate *)
Lemma prod_values A gam th g x : prod_rel A gam th g x -> values_near A gam th g x.
Proof. intros H i _. apply H. Qed.

Section Evaluate.
Variables (ar : arith) (K : nat) (gam th : R).
Hypothesis HD : dot_near K gam th (ar_dot ar).

Lemma matmul_near A : (mc A <= K)%nat -> slices_along (fun x k => matop (mm_rd ar A) x (Some k)) (mc A) (mr A) (values_near A gam th) /\
  slices_default (fun x => matop (mm_rd ar A) x None) (mc A) (mr A) (values_near A gam th).
Proof.
  intros Hk. pose proof (racts_mm ar K gam th HD A Hk) as H. split.
  - eapply slices_along_weaken; [apply (rmatop_slices _ _ _ _ H), prod_respects|]. apply prod_values.
  - apply rmatop_default. eapply racts_weaken; [exact H|]. apply prod_values.
Qed.
End Evaluate.

(** * fit *)
Lemma drop_id A r a c d lo hi : decomposes A r a c d lo hi -> drop_zeros r = r.
Proof.
  intros (_ & _ & EL & _ & _ & _ & _ & _ & _ & _ & Hl & Hs). unfold drop_zeros.
  replace (forallb (fun b => b) (map (fun x => negb (Reqb x 0)) (r_s r))) with true; [reflexivity|]. symmetry. apply forallb_forall. intros b Hb.
  apply in_map_iff in Hb. destruct Hb as (x & <- & Hx). apply In_nth with (d := 0) in Hx. destruct Hx as (k & Hk & <-). rewrite EL in Hk. specialize (Hs k Hk).
  destruct (Reqb_spec (nth k (r_s r) 0) 0) as [E|]; [rewrite E in Hs; lra|reflexivity].
Qed.

Section FitBound.
Variables (A : mat) (r : svd_result) (a c d lo hi gam th u eta : R).
Hypothesis HD : decomposes A r a c d lo hi.
Hypothesis HS : small_fit (mc A) gam u a c.
Hypothesis Pg : 0 <= gam.
Hypothesis Pt : 0 <= th.
Hypothesis Pu : 0 <= u.
Hypothesis Pe : 0 <= eta.

Lemma error_pos gs rs xs : 0 <= gs -> 0 <= rs -> 0 <= xs -> 0 <= fit_error (mc A) gam th u eta a c d lo hi gs rs xs.
Proof.
  intros. pose proof (lo_pos A r a c d lo hi HD) as [Lp Lh]. pose proof (a_pos A r a c d lo hi HD). pose proof (c_pos A r a c d lo hi HD). pose proof (d_pos A r a c d lo hi HD).
  pose proof (Rinv_0_lt_compat lo Lp). pose proof (sqrt_pos (INR (mc A))). unfold fit_error, Rdiv.
  assert (0 <= 2 * (hi * / lo) * a) by (apply Rmult_le_pos; [|lra]; apply Rmult_le_pos; [lra|apply Rmult_le_pos; lra]).
  assert (0 <= 2 * d * / lo) by (apply Rmult_le_pos; lra).
  assert (0 <= (c + 2 * (hi * / lo) * a + 2 * d * / lo) * gs) by (apply Rmult_le_pos; lra).
  assert (0 <= 2 * rs * / lo) by (apply Rmult_le_pos; lra).
  assert (0 <= 4 * (gam + u) * sqrt (INR (mc A)) * xs * / lo) by (apply Rmult_le_pos; [apply Rmult_le_pos; [apply Rmult_le_pos; lra|lra]|lra]).
  assert (0 <= (th + eta) * / lo) by (apply Rmult_le_pos; lra).
  assert (0 <= 4 * sqrt (INR (mc A)) * ((th + eta) * / lo + th + eta)) by (apply Rmult_le_pos; lra). lra.
Qed.

(** The common part of both forms: g1 and th1 for the first product. *)
Lemma fit_core x rh tt y g1 th1 : 0 <= g1 -> 0 <= th1 -> g1 <= (1 + u) * gam + u -> th1 <= 2 * (1 + u) * th + eta ->
  (forall k, (k < mc A)%nat -> Cmod (Cminus (rh k) (apply_mat (adjoint (r_u r)) x k)) <= g1 * sumn (mr A) (fun i => Cmod (me (adjoint (r_u r)) k i) * Cmod (x i)) + th1) ->
  (forall k, (k < mc A)%nat -> Cmod (Cminus (tt k) (Cdiv (rh k) (RtoC (nth k (r_s r) 0)))) <= u * Cmod (Cdiv (rh k) (RtoC (nth k (r_s r) 0))) + eta) ->
  (forall l, (l < mc A)%nat -> Cmod (Cminus (y l) (apply_mat (adjoint (r_vh r)) tt l)) <= gam * sumn (mc A) (fun k => Cmod (me (adjoint (r_vh r)) l k) * Cmod (tt k)) + th) ->
  forall g rs, size (mc A) (pinv r (vsub x (apply_mat A g))) <= 2 * rs / lo -> 0 <= rs ->
  size (mc A) (vsub y g) <= fit_error (mc A) gam th u eta a c d lo hi (size (mc A) g) rs (size (mr A) x).
Proof.
  intros G0 T0 G1 T1 H1 H2 H3 g rs Hr Hrs. destruct HS as (Sa & Sc & Sg & Su).
  pose proof (lo_pos A r a c d lo hi HD) as [Lp Lh]. pose proof (Rinv_0_lt_compat lo Lp) as Li.
  destruct (Nat.eq_dec (mc A) 0) as [E0|N0].
  { replace (size (mc A) (vsub y g)) with 0 by (rewrite E0; unfold size, norm2; cbn; rewrite sqrt_0; reflexivity). apply error_pos; [apply size_pos|exact Hrs|apply size_pos]. }
  pose proof (round_part A r a c d lo hi HD Sa Sc g1 th1 gam th u eta x rh tt y G0 T0 Pg Pt Pu Pe Sg Su H1 H2 H3) as R1.
  pose proof (exact_part A r a c d lo hi HD Sa Sc g x) as R2.
  eapply Rle_trans; [apply (size_tri (mc A) y (pinv r x))|]. unfold fit_error.
  set (q := sqrt (INR (mc A))) in *.
  assert (Hq : 1 <= q). { unfold q. rewrite <- sqrt_1. apply sqrt_le_1_alt. apply (le_INR 1). lia. }
  set (X := size (mr A) x) in *. assert (HX : 0 <= X) by apply size_pos.
  set (xl := X / lo). assert (Hxl : 0 <= xl) by (apply Rmult_le_pos; lra).
  assert (B1 : ((g1 + gam) * q + u) * X / lo <= (21 / 10 * gam + 2 * u) * q * xl).
  { replace (((g1 + gam) * q + u) * X / lo) with (((g1 + gam) * q + u) * xl) by (unfold xl; field; lra). apply Rmult_le_compat_r; [exact Hxl|].
    assert ((1 + u) * gam <= 10001 / 10000 * gam) by (apply Rmult_le_compat_r; lra).
    assert (u <= u * q) by (rewrite <- (Rmult_1_r u) at 1; apply Rmult_le_compat_l; lra).
    assert ((g1 + gam) * q <= (21 / 10 * gam + u) * q) by (apply Rmult_le_compat_r; lra). lra. }
  assert (B2 : th1 / lo <= (21 / 10 * th + eta) / lo).
  { apply Rmult_le_compat_r; [lra|]. assert (u * th <= 1 / 10000 * th) by (apply Rmult_le_compat_r; assumption). lra. }
  assert (B3 : q * (th1 / lo + th + eta) <= q * ((21 / 10 * th + eta) / lo + th + eta)) by (apply Rmult_le_compat_l; lra).
  assert (P1 : 0 <= gam * q * xl) by (apply Rmult_le_pos; [apply Rmult_le_pos; lra|exact Hxl]).
  assert (P2 : 0 <= u * q * xl) by (apply Rmult_le_pos; [apply Rmult_le_pos; lra|exact Hxl]).
  assert (P3 : 0 <= q * (th / lo)) by (apply Rmult_le_pos; [lra|apply Rmult_le_pos; lra]).
  assert (P4 : 0 <= q * (eta / lo)) by (apply Rmult_le_pos; [lra|apply Rmult_le_pos; lra]).
  assert (P5 : 0 <= q * th) by (apply Rmult_le_pos; lra). assert (P6 : 0 <= q * eta) by (apply Rmult_le_pos; lra).
  replace (4 * (gam + u) * q * X / lo) with (4 * (gam * q * xl) + 4 * (u * q * xl)) by (unfold xl; field; lra).
  replace (4 * q * ((th + eta) / lo + th + eta)) with (4 * (q * (th / lo)) + 4 * (q * (eta / lo)) + 4 * (q * th) + 4 * (q * eta)) by (field; lra).
  replace (q * ((21 / 10 * th + eta) / lo + th + eta)) with (21 / 10 * (q * (th / lo)) + q * (eta / lo) + q * th + q * eta) in B3 by (field; lra).
  replace ((21 / 10 * gam + 2 * u) * q * xl) with (21 / 10 * (gam * q * xl) + 2 * (u * q * xl)) in B1 by ring.
  lra.
Qed.

(** The residual of any coefficients, and of the least-squares solution. *)
Lemma residual_part g x : size (mc A) (pinv r (vsub x (apply_mat A g))) <= 2 * size (mr A) (vsub (apply_mat A g) x) / lo.
Proof.
  destruct HS as (Sa & Sc & _). pose proof (lo_pos A r a c d lo hi HD) as [Lp Lh]. pose proof (Rinv_0_lt_compat lo Lp) as Li.
  eapply Rle_trans; [apply (pinv_size A r a c d lo hi HD Sa Sc)|]. rewrite size_opp. pose proof (size_pos (mr A) (vsub (apply_mat A g) x)).
  assert (0 <= size (mr A) (vsub (apply_mat A g) x) * / lo) by (apply Rmult_le_pos; lra). unfold Rdiv at 2 3. lra.
Qed.
Lemma best_part g x : Re (hprod (mr A) (apply_mat A (probe r (vsub x (apply_mat A g)))) (vsub x (apply_mat A g))) = 0 ->
  size (mc A) (pinv r (vsub x (apply_mat A g))) <= 2 * (d / lo * size (mr A) (vsub (apply_mat A g) x)) / lo.
Proof.
  intros HO. destruct HS as (Sa & Sc & _). rewrite size_opp. apply (pinv_orthogonal A r a c d lo hi HD Sc). exact HO.
Qed.
Lemma best_weight g x : 0 <= d / lo * size (mr A) (vsub (apply_mat A g) x).
Proof.
  pose proof (lo_pos A r a c d lo hi HD) as [Lp Lh]. pose proof (d_pos A r a c d lo hi HD). pose proof (Rinv_0_lt_compat lo Lp) as Li.
  apply Rmult_le_pos; [apply Rmult_le_pos; lra|apply size_pos].
Qed.
End FitBound.

(** Stationarity of the residual. *)
Lemma residual_moves A g w x (t : R) : norm2 (mr A) (fun i => Cplus (vsub x (apply_mat A g) i) (Cmult (RtoC t) (apply_mat A w i))) = residual2 A (vsub g (fun l => Cmult (RtoC t) (w l))) x.
Proof.
  unfold residual2. unfold norm2. apply sumn_ext. intros i _. f_equal. rewrite <- Cmod_opp. f_equal. rewrite apply_sub.
  assert (E : apply_mat A (fun l => Cmult (RtoC t) (w l)) i = Cmult (RtoC t) (apply_mat A w i)).
  { unfold apply_mat. rewrite <- csumn_scal. apply csumn_ext. intros; ring. }
  rewrite E. unfold vsub. ring.
Qed.
Lemma residual_at A g x : norm2 (mr A) (vsub x (apply_mat A g)) = residual2 A g x.
Proof. unfold residual2, norm2. apply sumn_ext. intros i _. f_equal. rewrite <- Cmod_opp. f_equal. unfold vsub. ring. Qed.
Lemma normal_equations A g w x : (forall t : R, residual2 A g x <= residual2 A (vsub g (fun l => Cmult (RtoC t) (w l))) x) ->
  Re (hprod (mr A) (apply_mat A w) (vsub x (apply_mat A g))) = 0.
Proof. intros H. apply stationary. intros t. rewrite residual_moves, residual_at. apply H. Qed.

Section Dense.
Variables (ar : arith) (K : nat) (gam th u eta : R) (A : mat) (r : svd_result) (a c d lo hi : R).
Hypothesis HA : arith_near K gam th u eta lo hi ar.
Hypothesis HD : decomposes A r a c d lo hi.
Hypothesis HS : small_fit (mc A) gam u a c.
Hypothesis Kr : (mr A <= K)%nat.
Hypothesis Kc : (mc A <= K)%nat.

Let dm := of_core A r.

Lemma dense_fit x y : fit_rel ar (d_uH dm) (d_v dm) (d_s dm) gam th x y ->
  fits (fun _ => True) A gam th u eta a c d lo hi x y /\ fits_best least_squares A gam th u eta a c d lo hi x y.
Proof.
  destruct HA as ((Pg & Pt & HDt) & HDv & HAd & HQ & Pu & Pe). unfold dm, of_core. cbn [d_uH d_v d_s].
  intros (rh & H1 & H3). set (tt := fun k => ar_div ar (rh k) (nth k (r_s r) 0)) in *.
  pose proof HD as HD'. unfold decomposes in HD'. destruct HD' as (E1 & E2 & EL & E3 & E4 & _).
  assert (C1 : forall k, (k < mc A)%nat -> Cmod (Cminus (rh k) (apply_mat (adjoint (r_u r)) x k)) <= gam * sumn (mr A) (fun i => Cmod (me (adjoint (r_u r)) k i) * Cmod (x i)) + th).
  { intros k _. specialize (H1 k). cbn [adjoint mc] in H1. rewrite E1 in H1. exact H1. }
  assert (C2 : forall k, (k < mc A)%nat -> Cmod (Cminus (tt k) (Cdiv (rh k) (RtoC (nth k (r_s r) 0)))) <= u * Cmod (Cdiv (rh k) (RtoC (nth k (r_s r) 0))) + eta).
  { intros k Hk. apply HDv. apply (s_range A r a c d lo hi HD). exact Hk. }
  assert (C3 : forall l, (l < mc A)%nat -> Cmod (Cminus (y l) (apply_mat (adjoint (r_vh r)) tt l)) <= gam * sumn (mc A) (fun k => Cmod (me (adjoint (r_vh r)) l k) * Cmod (tt k)) + th).
  { intros l _. specialize (H3 l). cbn [adjoint mc] in H3. rewrite E3 in H3. exact H3. }
  assert (G1 : gam <= (1 + u) * gam + u) by (assert (0 <= u * gam) by (apply Rmult_le_pos; assumption); lra).
  assert (T1 : th <= 2 * (1 + u) * th + eta) by (assert (0 <= u * th) by (apply Rmult_le_pos; assumption); lra).
  split.
  - intros g _. apply (fit_core A r a c d lo hi gam th u eta HD HS Pg Pt Pu Pe x rh tt y gam th Pg Pt G1 T1 C1 C2 C3); [|apply size_pos].
    apply (residual_part A r a c d lo hi gam u HD HS).
  - intros g HL. apply (fit_core A r a c d lo hi gam th u eta HD HS Pg Pt Pu Pe x rh tt y gam th Pg Pt G1 T1 C1 C2 C3).
    + apply (best_part A r a c d lo hi gam u HD HS). apply normal_equations. intros t. apply HL.
    + apply (best_weight A r a c d lo hi HD).
Qed.

Lemma dense_racts : racts (d_lstsq_rd ar dm) (mr A) (mc A) (fit_rel ar (d_uH dm) (d_v dm) (d_s dm) gam th).
Proof.
  pose proof HD as HD'. unfold decomposes in HD'. destruct HD' as (E1 & E2 & EL & E3 & E4 & _). destruct HA as (HDt & _).
  pose proof (racts_fit ar dm K gam th HDt) as H. unfold dm, of_core in *. cbn [d_uH d_v adjoint mc mr] in H. rewrite E1, E2, E3, E4 in H. apply H; auto.
Qed.
Lemma dense_slices : slices_along (fun x k => d_fit_rd ar dm x (Some k)) (mr A) (mc A)
    (fun x y => fits (fun _ => True) A gam th u eta a c d lo hi x y /\ fits_best least_squares A gam th u eta a c d lo hi x y) /\
  slices_default (fun x => d_fit_rd ar dm x None) (mr A) (mc A)
    (fun x y => fits (fun _ => True) A gam th u eta a c d lo hi x y /\ fits_best least_squares A gam th u eta a c d lo hi x y).
Proof.
  split.
  - eapply slices_along_weaken; [apply (rmatop_slices _ _ _ _ dense_racts), fit_respects|]. apply dense_fit.
  - apply rmatop_default. eapply racts_weaken; [exact dense_racts|]. apply dense_fit.
Qed.
End Dense.

(** * The split form *)
Section Split.
Variables (ar : arith) (K : nat) (gam th u eta : R) (A : mat) (off : nat) (r : svd_result) (a c d lo hi : R).
Hypothesis HA : arith_near K gam th u eta lo hi ar.
Hypothesis HD : decomposes (stacked A off) r a c d lo hi.
Hypothesis HR : real_decomposition (stacked A off) r.
Hypothesis HS : small_fit (mc A) gam u a c.
Hypothesis Ho : (off <= mr A)%nat.
Hypothesis H0 : forall i l, (i < off)%nat -> (l < mc A)%nat -> Im (me A i l) = 0.
Hypothesis Kr : (mr A <= K)%nat.
Hypothesis Kc : (mc A <= K)%nat.

Let dm := of_split A (split_with (mr A) off r).
Let u1 (k i : nat) : C := RtoC (Re (me (r_u r) i k)).
Let u2 (k i : nat) : C := RtoC (if (i <? off)%nat then 0 else Re (me (r_u r) (mr A + (i - off)) k)).

Lemma u_real i k : (i < mr A + (mr A - off))%nat -> (k < mc A)%nat -> me (r_u r) i k = RtoC (Re (me (r_u r) i k)).
Proof. intros Hi Hk. apply real_RtoC. destruct HR as [Hu _]. cbn [stacked mr mc] in Hu. apply Hu; assumption. Qed.

Lemma split_product x k : (k < mc A)%nat ->
  Cplus (csumn (mr A) (fun i => Cmult (u1 k i) (RtoC (Re (x i))))) (csumn (mr A) (fun i => Cmult (u2 k i) (RtoC (Im (x i))))) =
  apply_mat (adjoint (r_u r)) (stack_data (mr A) off x) k.
Proof.
  intros Hk. pose proof HD as HD'. unfold decomposes in HD'. destruct HD' as (E1 & _). cbn [stacked mr] in E1.
  unfold apply_mat. cbn [adjoint mc me]. rewrite E1, csumn_app. f_equal.
  - apply csumn_ext. intros i Hi. rewrite u_real by lia. unfold u1, stack_data. destruct (Nat.ltb_spec i (mr A)); [|lia].
    rewrite Cconj_real by reflexivity. reflexivity.
  - rewrite <- csumn_off. apply csumn_ext. intros i Hi. unfold u2. destruct (Nat.ltb_spec i off) as [H|H]; [ring|].
    rewrite (u_real (mr A + (i - off)) k) by lia. rewrite Cconj_real by reflexivity. unfold stack_data. destruct (Nat.ltb_spec (mr A + (i - off)) (mr A)); [lia|].
    replace (off + (mr A + (i - off) - mr A))%nat with i by lia. reflexivity.
Qed.
Lemma split_absolute x k : (k < mc A)%nat ->
  sumn (mr A) (fun i => Cmod (u1 k i) * Cmod (RtoC (Re (x i)))) + sumn (mr A) (fun i => Cmod (u2 k i) * Cmod (RtoC (Im (x i)))) =
  sumn (mr (stacked A off)) (fun i => Cmod (me (adjoint (r_u r)) k i) * Cmod (stack_data (mr A) off x i)).
Proof.
  intros Hk. cbn [stacked mr adjoint me]. rewrite sumn_app. f_equal.
  - apply sumn_ext. intros i Hi. rewrite (u_real i k) by lia. rewrite Cconj_real by reflexivity. unfold u1, stack_data. destruct (Nat.ltb_spec i (mr A)); [|lia]. reflexivity.
  - rewrite <- sumn_off. apply sumn_ext. intros i Hi. unfold u2. destruct (Nat.ltb_spec i off) as [H|H]; [rewrite Cmod_0; ring|].
    rewrite (u_real (mr A + (i - off)) k) by lia. rewrite Cconj_real by reflexivity. unfold stack_data. destruct (Nat.ltb_spec (mr A + (i - off)) (mr A)); [lia|].
    replace (off + (mr A + (i - off) - mr A))%nat with i by lia. reflexivity.
Qed.

(** Sizes of stacked vectors. *)
Lemma residual_smaller g x : real_vec (mc A) g ->
  size (mr (stacked A off)) (vsub (apply_mat (stacked A off) g) (stack_data (mr A) off x)) <= size (mr A) (vsub (apply_mat A g) x).
Proof.
  intros Hg. apply sqrt_le_1_alt. pose proof (residual_stacked A off g x Hg Ho H0) as E. unfold residual2 in E. unfold vsub. rewrite E.
  assert (0 <= sumn off (fun i => Im (x i) ^ 2)) by (apply sumn_nonneg; intros; apply pow2_ge_0). lra.
Qed.
Lemma data_smaller x : size (mr (stacked A off)) (stack_data (mr A) off x) <= size (mr A) x.
Proof.
  assert (Z : forall B (w : nat -> C), size (mr B) (vsub (apply_mat B (fun _ => RtoC 0)) w) = size (mr B) w).
  { intros B w. unfold size, norm2. f_equal. apply sumn_ext. intros i _. unfold vsub.
    assert (E : apply_mat B (fun _ => RtoC 0) i = RtoC 0) by (unfold apply_mat; apply csumn_zero; intros; ring). rewrite E, <- Cmod_opp. f_equal. f_equal. ring. }
  rewrite <- (Z (stacked A off)), <- (Z A). apply residual_smaller. intros l _. reflexivity.
Qed.
Lemma error_mono gs rs xs rs' xs' : rs <= rs' -> xs <= xs' -> fit_error (mc A) gam th u eta a c d lo hi gs rs xs <= fit_error (mc A) gam th u eta a c d lo hi gs rs' xs'.
Proof.
  intros R1 R2. destruct HA as ((Pg & _) & _ & _ & _ & Pu & _). pose proof (lo_pos _ r a c d lo hi HD) as [Lp _]. pose proof (Rinv_0_lt_compat lo Lp) as Li. unfold fit_error.
  assert (2 * rs / lo <= 2 * rs' / lo) by (apply Rmult_le_compat_r; lra).
  assert (4 * (gam + u) * sqrt (INR (mc A)) * xs / lo <= 4 * (gam + u) * sqrt (INR (mc A)) * xs' / lo).
  { apply Rmult_le_compat_r; [lra|]. apply Rmult_le_compat_l; [|exact R2]. apply Rmult_le_pos; [lra|apply sqrt_pos]. }
  lra.
Qed.

Lemma real_apply M g : (forall i l, (i < mr M)%nat -> (l < mc M)%nat -> Im (me M i l) = 0) -> real_vec (mc M) g -> real_vec (mr M) (apply_mat M g).
Proof.
  intros HM Hg i Hi. unfold apply_mat. rewrite Im_csumn. apply sumn_zero. intros l Hl. rewrite (real_RtoC (me M i l)), (real_RtoC (g l)) by auto. unfold Cmult, RtoC, Im; cbn; ring.
Qed.

Lemma split_fit_near x y : split_rel ar (sd_urT dm) (sd_uiT dm) (sd_v dm) (sd_s dm) gam th x y ->
  fits (real_vec (mc A)) A gam th u eta a c d lo hi x y /\ fits_best real_least_squares A gam th u eta a c d lo hi x y.
Proof.
  destruct HA as ((Pg & Pt & HDt) & HDv & HAd & HQ & Pu & Pe). unfold dm, of_split, split_with. cbn [sd_urT sd_uiT sd_v sd_s r_u r_s r_vh mr mc me].
  intros (rh & (r1 & r2 & A1 & A2 & A3) & H3). set (tt := fun k => ar_div ar (rh k) (nth k (r_s r) 0)) in *.
  pose proof HD as HD'. unfold decomposes in HD'. destruct HD' as (E1 & E2 & EL & E3 & E4 & _). cbn [stacked mc] in E2, EL, E3, E4.
  set (xs := stack_data (mr A) off x).
  pose proof (Rmult_le_pos _ _ Pu Pg) as Pug. pose proof (Rmult_le_pos _ _ Pu Pt) as Put.
  assert (C1 : forall k, (k < mc (stacked A off))%nat -> Cmod (Cminus (rh k) (apply_mat (adjoint (r_u r)) xs k)) <=
      ((1 + u) * gam + u) * sumn (mr (stacked A off)) (fun i => Cmod (me (adjoint (r_u r)) k i) * Cmod (xs i)) + (2 * (1 + u) * th + eta)).
  { intros k Hk. cbn [stacked mc] in Hk. unfold xs. rewrite <- (split_product x k Hk), <- (split_absolute x k Hk). rewrite A3. specialize (A1 k). specialize (A2 k).
    unfold apply_mat in A1, A2. cbn [mc me] in A1, A2.
    change (Cmod (Cminus (r1 k) (csumn (mr A) (fun i => Cmult (u1 k i) (RtoC (Re (x i)))))) <= gam * sumn (mr A) (fun i => Cmod (u1 k i) * Cmod (RtoC (Re (x i)))) + th) in A1.
    change (Cmod (Cminus (r2 k) (csumn (mr A) (fun i => Cmult (u2 k i) (RtoC (Im (x i)))))) <= gam * sumn (mr A) (fun i => Cmod (u2 k i) * Cmod (RtoC (Im (x i)))) + th) in A2.
    set (p1 := csumn (mr A) (fun i => Cmult (u1 k i) (RtoC (Re (x i))))) in *. set (p2 := csumn (mr A) (fun i => Cmult (u2 k i) (RtoC (Im (x i))))) in *.
    set (s1 := sumn (mr A) (fun i => Cmod (u1 k i) * Cmod (RtoC (Re (x i))))) in *. set (s2 := sumn (mr A) (fun i => Cmod (u2 k i) * Cmod (RtoC (Im (x i))))) in *.
    assert (B1 : Cmod p1 <= s1).
    { unfold p1, s1. eapply Rle_trans; [apply DLRProps.csumn_Cmod|]. right. apply sumn_ext. intros; apply Cmod_mult. }
    assert (B2 : Cmod p2 <= s2).
    { unfold p2, s2. eapply Rle_trans; [apply DLRProps.csumn_Cmod|]. right. apply sumn_ext. intros; apply Cmod_mult. }
    pose proof (HAd (r1 k) (r2 k)) as Ad. pose proof (Cmod_ge_0 p1). pose proof (Cmod_ge_0 p2).
    set (e := Cminus (Cplus (r1 k) (r2 k)) (Cplus p1 p2)).
    assert (Be : Cmod e <= gam * (s1 + s2) + 2 * th).
    { replace e with (Cplus (Cminus (r1 k) p1) (Cminus (r2 k) p2)) by (unfold e; ring). eapply Rle_trans; [apply Cmod_triangle|]. lra. }
    assert (Bs : Cmod (Cplus (r1 k) (r2 k)) <= s1 + s2 + Cmod e).
    { replace (Cplus (r1 k) (r2 k)) with (Cplus (Cplus p1 p2) e) by (unfold e; ring). eapply Rle_trans; [apply Cmod_triangle|]. pose proof (Cmod_triangle p1 p2). lra. }
    replace (Cminus (ar_add ar (r1 k) (r2 k)) (Cplus p1 p2)) with (Cplus (Cminus (ar_add ar (r1 k) (r2 k)) (Cplus (r1 k) (r2 k))) e) by (unfold e; ring).
    eapply Rle_trans; [apply Cmod_triangle|].
    assert (Q1 : u * Cmod (Cplus (r1 k) (r2 k)) <= u * (s1 + s2 + (gam * (s1 + s2) + 2 * th))) by (apply Rmult_le_compat_l; lra).
    replace (((1 + u) * gam + u) * (s1 + s2) + (2 * (1 + u) * th + eta)) with (u * (s1 + s2 + (gam * (s1 + s2) + 2 * th)) + eta + (gam * (s1 + s2) + 2 * th)) by ring.
    lra. }
  assert (C2 : forall k, (k < mc (stacked A off))%nat -> Cmod (Cminus (tt k) (Cdiv (rh k) (RtoC (nth k (r_s r) 0)))) <= u * Cmod (Cdiv (rh k) (RtoC (nth k (r_s r) 0))) + eta).
  { intros k Hk. apply HDv. apply (s_range (stacked A off) r a c d lo hi HD). exact Hk. }
  assert (C3 : forall l, (l < mc (stacked A off))%nat -> Cmod (Cminus (y l) (apply_mat (adjoint (r_vh r)) tt l)) <= gam * sumn (mc (stacked A off)) (fun k => Cmod (me (adjoint (r_vh r)) l k) * Cmod (tt k)) + th).
  { intros l Hl. cbn [stacked mc] in *. specialize (H3 l). cbn [mc me] in H3. rewrite E3 in H3. destruct HR as [_ Rv]. cbn [stacked mc] in Rv.
    unfold apply_mat in *. cbn [adjoint mc me] in *. rewrite E3 in *.
    rewrite (csumn_ext (mc A) _ (fun k => Cmult (me (r_vh r) k l) (tt k))) by (intros k Hk; rewrite Cconj_real by auto; reflexivity).
    rewrite (sumn_ext (mc A) _ (fun k => Cmod (me (r_vh r) k l) * Cmod (tt k))) by (intros k Hk; rewrite Cconj_real by auto; reflexivity). exact H3. }
  assert (G0 : 0 <= (1 + u) * gam + u) by lra. assert (T0 : 0 <= 2 * (1 + u) * th + eta) by lra.
  pose proof (fit_core (stacked A off) r a c d lo hi gam th u eta HD HS Pg Pt Pu Pe xs rh tt y _ _ G0 T0 (Rle_refl _) (Rle_refl _) C1 C2 C3) as F.
  change (mc (stacked A off)) with (mc A) in F.
  split.
  - intros g Hg. eapply Rle_trans; [apply (F g _ (residual_part (stacked A off) r a c d lo hi gam u HD HS g xs)); apply size_pos|].
    apply error_mono; [apply residual_smaller; exact Hg|apply data_smaller].
  - intros g [Rg HL].
    assert (HO : Re (hprod (mr (stacked A off)) (apply_mat (stacked A off) (probe r (vsub xs (apply_mat (stacked A off) g)))) (vsub xs (apply_mat (stacked A off) g))) = 0).
    { set (rho := vsub xs (apply_mat (stacked A off) g)). set (w := probe r rho). apply normal_equations. intros t.
    assert (Rw : real_vec (mc A) w).
    { destruct HR as [Ru Rv]. cbn [stacked mr mc] in Ru, Rv. unfold w, probe. rewrite <- E4. apply (real_apply (adjoint (r_vh r))).
      - intros i l Hi Hl. cbn [adjoint mr mc me] in *. rewrite E3 in Hl. rewrite E4 in Hi. rewrite Cconj_real; auto.
      - cbn [adjoint mc]. rewrite E3. intros k Hk.
        assert (Z : Im (apply_mat (adjoint (r_u r)) rho k) = 0).
        { apply (real_apply (adjoint (r_u r))); [|intros i Hi|cbn [adjoint mr]; rewrite E2; exact Hk].
          - intros k' i Hk' Hi. cbn [adjoint mr mc me] in *. rewrite E1 in Hi. rewrite E2 in Hk'. rewrite Cconj_real; auto.
          - cbn [adjoint mc] in Hi. rewrite E1 in Hi. unfold rho, vsub. rewrite (apply_stacked A off g i Rg Hi). unfold xs, stack_data.
            unfold Cminus, Copp, Cplus, RtoC, Im. cbn. ring. }
        rewrite (real_RtoC _ Z). unfold Cmult, RtoC, Im. cbn. ring. }
    assert (Rm : real_vec (mc A) (vsub g (fun l => Cmult (RtoC t) (w l)))).
    { intros l Hl. unfold vsub. rewrite (real_RtoC (g l)), (real_RtoC (w l)) by auto. unfold Cminus, Copp, Cplus, Cmult, RtoC, Im. cbn. ring. }
    destruct (HL _ Rm) as [L1 _]. rewrite (residual_stacked A off g x Rg Ho H0), (residual_stacked A off _ x Rm Ho H0) in L1. fold xs in L1. lra. }
    eapply Rle_trans; [apply (F g _ (best_part (stacked A off) r a c d lo hi gam u HD HS g xs HO)); apply (best_weight (stacked A off) r a c d lo hi HD)|].
    + apply error_mono; [|apply data_smaller]. pose proof (lo_pos _ r a c d lo hi HD) as [Lp _]. pose proof (Rinv_0_lt_compat lo Lp). pose proof (d_pos _ r a c d lo hi HD).
      apply Rmult_le_compat_l; [apply Rmult_le_pos; lra|apply residual_smaller; exact Rg].
Qed.

Lemma split_racts : racts (sd_lstsq_rd ar dm) (mr A) (mc A) (split_rel ar (sd_urT dm) (sd_uiT dm) (sd_v dm) (sd_s dm) gam th).
Proof.
  pose proof HD as HD'. unfold decomposes in HD'. destruct HD' as (E1 & E2 & EL & E3 & E4 & _). cbn [stacked mc mr] in E1, E2, EL, E3, E4. destruct HA as (HDt & _).
  pose proof (racts_sfit ar dm K gam th HDt) as H.
  assert (X1 : mc (sd_urT dm) = mr A) by reflexivity. assert (X2 : mr (sd_v dm) = mc A) by exact E4. assert (X3 : mc (sd_v dm) = mc A) by exact E3.
  assert (X4 : mr (sd_urT dm) = mc A) by exact EL. assert (X5 : mr (sd_uiT dm) = mc A) by exact EL. assert (X6 : mc (sd_uiT dm) = mr A) by reflexivity.
  rewrite <- X1 at 1. rewrite <- X2. apply H; congruence.
Qed.
Lemma split_slices : slices_along (fun x k => sd_fit_rd ar dm x (Some k)) (mr A) (mc A)
    (fun x y => fits (real_vec (mc A)) A gam th u eta a c d lo hi x y /\ fits_best real_least_squares A gam th u eta a c d lo hi x y) /\
  slices_default (fun x => sd_fit_rd ar dm x None) (mr A) (mc A)
    (fun x y => fits (real_vec (mc A)) A gam th u eta a c d lo hi x y /\ fits_best real_least_squares A gam th u eta a c d lo hi x y).
Proof.
  split.
  - eapply slices_along_weaken; [apply (rmatop_slices _ _ _ _ split_racts), split_respects|]. apply split_fit_near.
  - apply rmatop_default. eapply racts_weaken; [exact split_racts|]. apply split_fit_near.
Qed.
End Split.
