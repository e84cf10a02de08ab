(** Doubles, exact decompositions and examples for sampling in rounded arithmetic. *)
From Coq Require Import String ZArith Arith Bool Reals Lra Lia Psatz.
From Flocq Require Import Core.
From Coquelicot Require Import Coquelicot.
From Coq Require Import List Sorted Permutation.
From Verif.Model Require Import Base Util IEEE Num FT Basis NDArray Sampling SamplingIEEE.
From Verif.Spec Require Import SSampling SSamplingIEEE SBasis SKernelIEEE.
From Verif.Proofs Require Import BaseFacts SumFacts FTFacts FTModel NDFacts LstsqFacts SamplingFacts SplitFacts SamplingProps SamplingExamples SVEPolicy
  CVec FitRound NDRel SamplingRound DotRound KernelRoundCall SamplingRoundProps RescaleIEEE.
Import ListNotations.
Open Scope R_scope.
Notation length := List.length.

(** * Exact decompositions *)
Lemma size_zero n g : (forall i, (i < n)%nat -> g i = RtoC 0) -> size n g = 0.
Proof. intros H. unfold size, norm2. rewrite sumn_zero; [apply sqrt_0|]. intros i Hi. rewrite H by assumption. rewrite Cmod_0. ring. Qed.
Lemma size_same n g h : (forall i, (i < n)%nat -> g i = h i) -> size n (vsub g h) = 0.
Proof. intros H. apply size_zero. intros i Hi. unfold vsub. rewrite H by assumption. ring. Qed.
Lemma orthonormal_apply M g k : (k < mc M)%nat ->
  (forall k', (k' < mc M)%nat -> csumn (mr M) (fun i => Cmult (Cconj (me M i k)) (me M i k')) = delta k k') ->
  apply_mat (adjoint M) (apply_mat M g) k = g k.
Proof.
  intros Hk H. unfold apply_mat. cbn [adjoint mc me].
  rewrite (csumn_ext _ _ (fun i => csumn (mc M) (fun l => Cmult (Cmult (Cconj (me M i k)) (me M i l)) (g l)))).
  2: { intros i _. rewrite <- csumn_scal. apply csumn_ext. intros l _. ring. }
  rewrite csumn_swap. rewrite (csumn_ext _ _ (fun l => Cmult (delta k l) (g l))); [now apply csumn_delta|].
  intros l Hl. rewrite csumn_scal_r, H by assumption. reflexivity.
Qed.
Lemma orthonormal_iso M : (forall k k', (k < mc M)%nat -> (k' < mc M)%nat -> csumn (mr M) (fun i => Cmult (Cconj (me M i k)) (me M i k')) = delta k k') -> nearly_isometric M 0.
Proof.
  intros H. split; [lra|]. intros g. rewrite Rmult_0_l. right. apply size_same. intros k Hk. apply orthonormal_apply; auto.
Qed.

Lemma svd_decomposes A r lo hi : is_svd A r -> full_rank A -> length (r_s r) = mc A -> 0 < lo <= hi -> (forall k, (k < mc A)%nat -> lo <= nth k (r_s r) 0 <= hi) ->
  decomposes A r 0 0 0 lo hi.
Proof.
  intros (E1 & E2 & E3 & E4 & HO & HF & _ & _) FR EL HL HR.
  assert (VV : forall k k', (k < mc A)%nat -> (k' < mc A)%nat -> csumn (mc A) (fun l => Cmult (Cconj (Cconj (me (r_vh r) k l))) (Cconj (me (r_vh r) k' l))) = delta k k').
  { intros k k' Hk Hk'. rewrite EL in HO. rewrite <- (proj2 (HO k k' Hk Hk')). apply csumn_ext. intros l _. f_equal.
    destruct (me (r_vh r) k l). unfold Cconj; cbn. f_equal. ring. }
  assert (IV : forall g k, (k < mc A)%nat -> apply_mat (r_vh r) (apply_mat (adjoint (r_vh r)) g) k = g k).
  { intros g k Hk. assert (Q : apply_mat (adjoint (adjoint (r_vh r))) (apply_mat (adjoint (r_vh r)) g) k = g k).
    { apply orthonormal_apply; cbn [adjoint mc mr me]; rewrite E3, EL; [assumption|]. intros k' Hk'. rewrite E4. apply VV; assumption. }
    rewrite <- Q. unfold apply_mat at 1 3. cbn [adjoint mc me]. apply csumn_ext. intros l _. f_equal. destruct (me (r_vh r) k l). unfold Cconj; cbn. f_equal. ring. }
  assert (AF : forall g i, (i < mr A)%nat -> apply_mat A g i = apply_mat (r_u r) (fun k => Cmult (RtoC (nth k (r_s r) 0)) (apply_mat (r_vh r) g k)) i).
  { intros g i Hi. unfold apply_mat at 1 2. rewrite E2, EL.
    rewrite (csumn_ext (mc A) _ (fun l => csumn (mc A) (fun k => Cmult (me (r_u r) i k) (Cmult (RtoC (nth k (r_s r) 0)) (Cmult (me (r_vh r) k l) (g l)))))).
    2: { intros l Hl. rewrite HF, EL by assumption. rewrite <- csumn_scal_r. apply csumn_ext. intros k _. ring. }
    rewrite csumn_swap. apply csumn_ext. intros k Hk. rewrite !csumn_scal. f_equal. f_equal. unfold apply_mat. rewrite E4. reflexivity. }
  split; [exact E1|]. split; [congruence|]. split; [exact EL|]. split; [congruence|]. split; [exact E4|].
  split.
  { apply orthonormal_iso. rewrite E1, E2. intros k k' Hk Hk'. now apply HO. }
  split.
  { split; [lra|]. intros g. rewrite Rmult_0_l. right. apply size_same. rewrite E4. intros l Hl.
    assert (W : forall l, (l < mc A)%nat -> vsub (apply_mat (adjoint (r_vh r)) (apply_mat (r_vh r) g)) g l = RtoC 0).
    { apply FR. intros i Hi. rewrite AF by assumption. unfold apply_mat at 1. apply csumn_zero. rewrite E2, EL. intros k Hk. rewrite apply_sub, IV by assumption. ring. }
    specialize (W l Hl). unfold vsub in W. rewrite <- (Cplus_0_l (g l)), <- W. ring. }
  split.
  { apply orthonormal_iso. cbn [adjoint mc mr me]. rewrite E3, E4, EL. exact VV. }
  split; [lra|]. split.
  { intros g. rewrite Rmult_0_l. right. apply size_same. intros i Hi. now apply AF. }
  split; assumption.
Qed.

(** * Doubles *)
Lemma double_range lo hi : / 2 ^ 400 <= lo -> lo <= hi -> hi <= 2 ^ 400 -> fair_range (/ 2 ^ 53) eta64 lo hi.
Proof.
  intros H1 H2 H3. assert (E : eta64 = / 2 ^ 400 * / 2 ^ 400 * / 2 ^ 275).
  { unfold eta64. change (-1075)%Z with (- (1075))%Z. rewrite RescaleIEEE.bp by lia. change (Z.to_nat 1075) with (400 + 400 + 275)%nat. rewrite !pow_add, !Rinv_mult. reflexivity. }
  rewrite E. clear E. assert (P : 0 < 2 ^ 400) by (apply pow_lt; lra). assert (Q : 1 <= 2 ^ 400) by (apply pow_R1_Rle; lra).
  assert (U : 2 * / 2 ^ 275 <= / 2 ^ 53).
  { replace 275%nat with (1 + 221 + 53)%nat by reflexivity. rewrite !pow_add, !Rinv_mult. assert (/ 2 ^ 221 <= / 1) by (apply Rinv_le_contravar; [lra|apply pow_R1_Rle; lra]). rewrite Rinv_1 in *.
    assert (0 < / 2 ^ 53) by (apply Rinv_0_lt_compat, pow_lt; lra). assert (/ 2 ^ 221 * / 2 ^ 53 <= 1 * / 2 ^ 53) by (apply Rmult_le_compat_r; lra). lra. }
  assert (V : 0 < / 2 ^ 275) by (apply Rinv_0_lt_compat, pow_lt; lra). assert (W : 0 < / 2 ^ 53) by (apply Rinv_0_lt_compat, pow_lt; lra).
  set (B := 2 ^ 400) in *. set (v := / 2 ^ 275) in *. set (u := / 2 ^ 53) in *. clearbody B v u.
  assert (IB : 0 < / B) by (apply Rinv_0_lt_compat; lra). assert (I1 : / B <= 1) by (rewrite <- Rinv_1; apply Rinv_le_contravar; lra).
  assert (BB : / B * B = 1) by (apply Rinv_l; lra).
  assert (C1 : / B * hi <= 1) by (rewrite <- BB; apply Rmult_le_compat_l; lra).
  assert (C2 : / B * v <= v) by (rewrite <- (Rmult_1_l v) at 2; apply Rmult_le_compat_r; lra).
  assert (C3 : 0 <= / B * v) by (apply Rmult_le_pos; lra).
  assert (C4 : (/ B * hi) * (/ B * v) <= 1 * (/ B * v)) by (apply Rmult_le_compat_r; assumption).
  assert (C5 : / B * v <= lo * v) by (apply Rmult_le_compat_r; lra).
  assert (C6 : lo * (2 * v) <= lo * u) by (apply Rmult_le_compat_l; lra).
  assert (C7 : / B * (/ B * v) <= 1 * (/ B * v)) by (apply Rmult_le_compat_r; lra).
  split; [lra|]. split; [|split].
  - replace (2 * (/ B * / B * v) * hi) with (2 * (/ B * hi * (/ B * v))) by ring. lra.
  - replace (2 * (/ B * / B * v)) with (2 * (/ B * (/ B * v))) by ring. lra.
  - replace (/ B * / B * v * hi) with (/ B * hi * (/ B * v)) by ring. assert (0 <= lo * v) by (apply Rmult_le_pos; lra). lra.
Qed.

Lemma small_53 : 0 < / 2 ^ 53 <= / 1000000.
Proof. split; [apply Rinv_0_lt_compat, pow_lt; lra|]. apply Rinv_le_contravar; [lra|]. apply Rle_trans with (2 ^ 20); [lra|apply Rle_pow; [lra|lia]]. Qed.

Lemma double_arith_near N lo hi ar : rounded_arith rnd64 ar -> (INR N <= 2 ^ 50) -> / 2 ^ 400 <= lo -> lo <= hi -> hi <= 2 ^ 400 ->
  arith_near N (6 * INR N / 2 ^ 53) (12 * INR N * eta64) (9 / 2 ^ 53) (2 * (eta64 / lo + eta64)) lo hi ar.
Proof.
  intros HR HN H1 H2 H3. pose proof (double_range lo hi H1 H2 H3) as F.
  pose proof small_53 as U.
  assert (P53 : 2 ^ 53 = 8 * 2 ^ 50) by ring.
  assert (NU : INR N * / 2 ^ 53 <= 1 / 4).
  { rewrite P53. assert (0 < 2 ^ 50) by (apply pow_lt; lra). set (B := 2 ^ 50) in *. clearbody B. rewrite Rinv_mult. apply Rle_trans with (B * (/ 8 * / B)).
    - apply Rmult_le_compat_r; [|assumption]. assert (0 < / B) by (apply Rinv_0_lt_compat; lra). lra.
    - replace (B * (/ 8 * / B)) with (/ 8) by (field; lra). lra. }
  unfold Rdiv at 1 2. apply rounded_near with (rd := rnd64); try assumption.
  - apply rounding_double.
  - lra.
  - apply bpow_ge_0.
  - lra.
Qed.

(** * Ways to compute *)
Definition in_order (rd : R -> R) (l : list R) : R := fold_right (fun x s => rd (x + s)) 0 l.
Lemma in_order_summed rd l : summed rd l (in_order rd l).
Proof. induction l as [|x l IH]; [constructor|]. cbn. now constructor. Qed.
Definition some_arith (rd : R -> R) : arith :=
  Arith (fun _ xs ys => (in_order rd (re_products xs ys), in_order rd (im_products xs ys))) (div_smith rd) (add_parts rd) (fun x y => rd (x / y)).
Lemma some_arith_rounded rd : rounded_arith rd (some_arith rd).
Proof.
  split; [|split; [|split]]; [|intros; now right|reflexivity|reflexivity].
  intros idx xs ys _. left. split; apply in_order_summed.
Qed.
(** Real vectors, products rounded before they are added, in pairs. *)
Fixpoint in_pairs (rd : R -> R) (l : list R) : R :=
  match l with [] => 0 | [x] => rd x | [x; y] => rd (rd x + rd y) | x :: ((y :: _ :: _) as t) => rd (rd x + in_pairs rd t) end.
Lemma in_pairs_summed rd l : summed rd l (in_pairs rd l).
Proof.
  induction l as [|x l IH]; [constructor|]. destruct l as [|y [|z l]]; [constructor| |].
  - apply (summed_add rd [x] [y]); try discriminate; constructor.
  - apply (summed_add rd [x] (y :: z :: l)); try discriminate; [constructor|exact IH].
Qed.

Definition scaled (x : R) : R := x * (1 + / 2 ^ 53).
Lemma scaled_rounding : rounding (/ 2 ^ 53) 0 scaled.
Proof.
  assert (U : 0 < / 2 ^ 53) by (apply Rinv_0_lt_compat, pow_lt; lra). unfold scaled. set (u := / 2 ^ 53) in *. clearbody u. split; [|split].
  - intros x. replace (x * (1 + u) - x) with (u * x) by ring. rewrite Rabs_mult, (Rabs_pos_eq u) by lra. lra.
  - intros x Hx. apply Rmult_le_pos; lra.
  - intros x Hx. assert (0 <= - x * (1 + u)) by (apply Rmult_le_pos; lra). lra.
Qed.

Lemma tau_round_example : exists b s, built no_compute b /\ tau_sampling svd2 (sb_of_basis b) [0; 2] = Ok s /\
  let A := d_a (ts_matrix s) in
  rounded_arith rnd64 (some_arith rnd64) /\
  arith_near 2 (6 * INR 2 / 2 ^ 53) (12 * INR 2 * eta64) (9 / 2 ^ 53) (2 * (eta64 / 1 + eta64)) 1 2 (some_arith rnd64) /\
  decomposes A (svd2 A) 0 0 0 1 2 /\ small_fit (mc A) (6 * INR 2 / 2 ^ 53) (9 / 2 ^ 53) 0 0 /\
  (0 < mc A)%nat /\ (mr A <= 2)%nat /\ (mc A <= 2)%nat /\
  (forall k, (S k < mc A)%nat -> nth (S k) (r_s (svd2 A)) 0 <= nth k (r_s (svd2 A)) 0) /\
  is_largest (r_s (svd2 A)) (sqrt 2) /\ is_smallest_nonzero (r_s (svd2 A)) (sqrt 2) /\
  exists x w y, x = vector 2 (fun i => RtoC (INR i)) /\ t_fit_rd (some_arith rnd64) svd2 s x None None = Ok (w, y).
Proof.
  destruct (tau_example "F" ltac:(now left)) as (b & s & Hb & _ & _ & Hs & HV & FR & NZ & Er & Ec). exists b, s.
  set (A := d_a (ts_matrix s)) in *. cbv zeta.
  assert (S2 : 1 <= sqrt 2 <= 2).
  { split; [rewrite <- sqrt_1 at 1; apply sqrt_le_1_alt; lra|]. replace 2 with (sqrt (2 * 2)) at 2 by (apply sqrt_square; lra). apply sqrt_le_1_alt; lra. }
  assert (HD : decomposes A (svd2 A) 0 0 0 1 2).
  { apply svd_decomposes; try assumption; [rewrite Ec; reflexivity|lra|]. rewrite Ec. intros [|[|k]] Hk; cbn [svd2 r_s nth]; try lra. lia. }
  assert (HN : arith_near 2 (6 * INR 2 / 2 ^ 53) (12 * INR 2 * eta64) (9 / 2 ^ 53) (2 * (eta64 / 1 + eta64)) 1 2 (some_arith rnd64)).
  { apply double_arith_near; [apply some_arith_rounded| | |lra|].
    - replace (INR 2) with (2 ^ 1) by (cbn; ring). apply Rle_pow; [lra|lia].
    - rewrite <- Rinv_1. apply Rinv_le_contravar; [lra|apply pow_R1_Rle; lra].
    - rewrite <- (pow_1 2) at 1. apply Rle_pow; [lra|lia]. }
  assert (HF : small_fit (mc A) (6 * INR 2 / 2 ^ 53) (9 / 2 ^ 53) 0 0).
  { rewrite Ec. unfold small_fit. replace (INR 2) with 2 by (cbn; ring). pose proof small_53 as U. unfold Rdiv. set (u := / 2 ^ 53) in *. clearbody u.
    split; [lra|]. split; [lra|]. split; [|lra]. assert (6 * 2 * u * sqrt 2 <= 6 * 2 * u * 2) by (apply Rmult_le_compat_l; lra). lra. }
  split; [exact Hb|]. split; [exact Hs|]. split; [apply some_arith_rounded|]. split; [exact HN|]. split; [exact HD|]. split; [exact HF|].
  split; [lia|]. split; [lia|]. split; [lia|].
  split. { rewrite Ec. intros [|k] Hk; cbn [svd2 r_s nth]; [lra|lia]. }
  split. { split; [now left|]. repeat constructor; lra. }
  split. { split; [now left|]. split; [lra|]. repeat constructor; intros; lra. }
  exists (vector 2 (fun i => RtoC (INR i))).
  destruct (tau_fit_near _ _ _ _ _ _ _ _ _ _ _ _ _ _ _ HN Hs HD HF ltac:(fold A; lia) ltac:(fold A; lia) ltac:(fold A; lia)) as [_ H].
  specialize (H (vector 2 (fun i => RtoC (INR i)))). cbn [vector shp length Nat.sub nth] in H. fold A in H. rewrite Er in H. cbn [Nat.eqb] in H. destruct H as (y & H & _).
  change (Nd [2%nat] (fun idx : list nat => RtoC (INR (nth 0 idx 0%nat)))) with (vector 2 (fun i => RtoC (INR i))) in H.
  unfold coeffs in H. destruct (t_fit_rd _ _ _ _ _ _) as [[w y']|] eqn:E; [|discriminate]. exists w, y'. split; reflexivity.
Qed.

Lemma scaled_near lo hi : 0 < lo <= hi -> arith_near 2 (6 * INR 2 * / 2 ^ 53) (12 * INR 2 * 0) (9 * / 2 ^ 53) (2 * (0 / lo + 0)) lo hi (some_arith scaled).
Proof.
  intros HL. pose proof small_53 as U. apply rounded_near with (rd := scaled).
  - apply scaled_rounding.
  - lra.
  - lra.
  - apply some_arith_rounded.
  - split; [exact HL|]. set (u := / 2 ^ 53) in *. clearbody u. assert (0 <= u * lo) by (apply Rmult_le_pos; lra). split; [lra|]. split; lra.
  - lra.
  - replace (INR 2) with 2 by (cbn; ring). lra.
Qed.
Lemma scaled_small : small_fit 1 (6 * INR 2 * / 2 ^ 53) (9 * / 2 ^ 53) 0 0.
Proof. unfold small_fit. replace (INR 2) with 2 by (cbn; ring). replace (INR 1) with 1 by reflexivity. rewrite sqrt_1. pose proof small_53 as U. set (u := / 2 ^ 53) in *. clearbody u. repeat split; lra. Qed.

Lemma mats_round_example : exists b s lo, built no_compute b /\ matsubara_sampling col_svd (sb_of_basis b) [0; 2]%Z false = Ok s /\
  let A := m_a (ms_matrix s) in
  arith_near 2 (6 * INR 2 * / 2 ^ 53) (12 * INR 2 * 0) (9 * / 2 ^ 53) (2 * (0 / lo + 0)) lo lo (some_arith scaled) /\
  decomposes A (col_svd A) 0 0 0 lo lo /\ small_fit (mc A) (6 * INR 2 * / 2 ^ 53) (9 * / 2 ^ 53) 0 0 /\
  (0 < mc A)%nat /\ (mr A <= 2)%nat /\ (mc A <= 2)%nat.
Proof.
  destruct (mats_example false) as (b & s & M & Hb & _ & _ & _ & Hs & EA & NZ & Ec & HV & FR & _).
  set (A := sampling_matrix 2 M) in *. exists b, s, (col_norm A). rewrite EA. cbv zeta. pose proof (col_norm_pos A Ec NZ) as P.
  split; [exact Hb|]. split; [exact Hs|]. split; [apply scaled_near; lra|]. split.
  - apply svd_decomposes; try assumption; [rewrite Ec; reflexivity|lra|]. rewrite Ec. intros k Hk. assert (k = 0%nat) as -> by lia. cbn. lra.
  - rewrite Ec. split; [apply scaled_small|]. split; [lia|]. split; [cbn; lia|lia].
Qed.

Lemma pos_round_example : exists b s lo, built no_compute b /\ matsubara_sampling col_svd (sb_of_basis b) [0; 2]%Z true = Ok s /\
  let A := m_a (ms_matrix s) in let B := stacked A (zoff [0; 2]%Z) in
  arith_near 2 (6 * INR 2 * / 2 ^ 53) (12 * INR 2 * 0) (9 * / 2 ^ 53) (2 * (0 / lo + 0)) lo lo (some_arith scaled) /\
  decomposes B (col_svd B) 0 0 0 lo lo /\ real_decomposition B (col_svd B) /\ zero_row_real [0; 2]%Z A /\
  small_fit (mc A) (6 * INR 2 * / 2 ^ 53) (9 * / 2 ^ 53) 0 0 /\ (0 < mc A)%nat /\ (mr A <= 2)%nat /\ (mc A <= 2)%nat.
Proof.
  destruct (mats_example true) as (b & s & M & Hb & _ & _ & _ & Hs & EA & NZ & Ec & HV & FR & ZR & HR & FRR).
  set (A := sampling_matrix 2 M) in *. change (zoff [0; 2]%Z) with 1%nat. exists b, s, (col_norm (stacked A 1)). rewrite EA. cbv zeta.
  assert (NZ' : nonzero (stacked A 1)). { apply stacked_nonzero; [cbn; lia| |exact NZ]. intros i l Hi Hl. apply (zero_row_off _ _ ZR i l); [cbn; lia|assumption]. }
  assert (Ec' : mc (stacked A 1) = 1%nat) by exact Ec. pose proof (col_norm_pos _ Ec' NZ') as P.
  split; [exact Hb|]. split; [exact Hs|]. split; [apply scaled_near; lra|]. split; [|split; [|split; [exact ZR|]]].
  - apply svd_decomposes; try assumption; [exact (proj1 HR)|apply col_rank; assumption|rewrite Ec'; reflexivity|lra|].
    rewrite Ec'. intros k Hk. assert (k = 0%nat) as -> by lia. cbn [col_svd r_s nth]. lra.
  - destruct HR as (_ & R1 & R2). split; intros i k Hi Hk; [apply R1|apply R2]; try assumption; rewrite Ec' in *; cbn; lia.
  - rewrite Ec. split; [apply scaled_small|]. split; [lia|]. split; [cbn; lia|lia].
Qed.
