(** Sampling objects in rounded arithmetic. *)
From Coq Require Import String ZArith Arith Bool Reals Lra Lia Psatz FunctionalExtensionality.
From Coquelicot Require Import Coquelicot.
From Coq Require Import List Sorted.
From Verif.Model Require Import Base Util Num FT NDArray Sampling SamplingIEEE.
From Verif.Spec Require Import SSampling SSamplingIEEE.
From Verif.Proofs Require Import BaseFacts SumFacts FTFacts FTModel DLRProps NDFacts LstsqFacts SamplingFacts SplitFacts SamplingProps RecoverFacts
  CVec FitRound NDRel SamplingRound.
Import ListNotations.
Open Scope R_scope.
Notation length := List.length.

(** * evaluate *)
Lemma tau_evaluate_near ar N gam th svd s : dot_near N gam th (ar_dot ar) ->
  let A := d_a (ts_matrix s) in (mc A <= N)%nat ->
  slices_along (fun g k => t_evaluate_rd ar svd s g (Some k) None) (mc A) (mr A) (values_near A gam th) /\
  slices_default (fun g => t_evaluate_rd ar svd s g None None) (mc A) (mr A) (values_near A gam th).
Proof. intros HD A HA. exact (matmul_near ar N gam th HD A HA). Qed.

Lemma mats_evaluate_near ar N gam th svd s : dot_near N gam th (ar_dot ar) ->
  let A := m_a (ms_matrix s) in (mc A <= N)%nat ->
  slices_along (fun g k => m_evaluate_rd ar svd s g (Some k) None) (mc A) (mr A) (values_near A gam th) /\
  slices_default (fun g => m_evaluate_rd ar svd s g None None) (mc A) (mr A) (values_near A gam th).
Proof.
  intros HD A HA. unfold m_evaluate_rd. cbn [bind]. unfold A in *. destruct (ms_matrix s) as [d|d].
  - exact (matmul_near ar N gam th HD (d_a d) HA).
  - exact (matmul_near ar N gam th HD (sd_a d) HA).
Qed.

(** * fit *)
Lemma warns_rd_ok ar well s : s <> [] -> exists w, fit_warns_rd ar well s = Ok w.
Proof. intros H. unfold fit_warns_rd. destruct well; [|eauto]. destruct s; [congruence|]. cbn. eauto. Qed.
Lemma along_ext op op' L N P : (forall x k, op x k = op' x k) -> slices_along op' L N P -> slices_along op L N P.
Proof. intros E H x k. specialize (H x k). destruct (axis_of _ k); [destruct (Nat.eqb _ _)|]; rewrite E; exact H. Qed.
Lemma slices_default_ext op op' L N P : (forall x, op x = op' x) -> slices_default op' L N P -> slices_default op L N P.
Proof. intros E H x. specialize (H x). destruct (length (shp x)) as [|n]; [rewrite E; exact H|]. destruct (Nat.eqb _ _); rewrite E; exact H. Qed.
Lemma t_fit_rd_eq ar svd s w x k : fit_warns_rd ar (sb_well (ts_basis s)) (d_s (ts_matrix s)) = Ok w ->
  coeffs (t_fit_rd ar svd s x k None) = d_fit_rd ar (ts_matrix s) x k.
Proof. intros H. unfold t_fit_rd. cbn [bind]. eapply coeffs_bind; eauto. Qed.
Lemma m_fit_rd_eq ar svd s w x k : fit_warns_rd ar (sb_well (ms_basis s)) (m_svals (ms_matrix s)) = Ok w ->
  coeffs (m_fit_rd ar svd s x k None) = m_lstsq_rd ar (ms_matrix s) x k.
Proof. intros H. unfold m_fit_rd. cbn [bind]. eapply coeffs_bind; eauto. Qed.
Lemma decomposes_nonempty A r a c d lo hi : decomposes A r a c d lo hi -> (0 < mc A)%nat -> r_s r <> [].
Proof. intros (_ & _ & E & _) H F. rewrite F in E. cbn in E. lia. Qed.

Definition fitted (G : (nat -> C) -> Prop) (LS : mat -> (nat -> C) -> (nat -> C) -> Prop) A gam th u eta a c d lo hi (x y : nat -> C) : Prop :=
  fits G A gam th u eta a c d lo hi x y /\ fits_best LS A gam th u eta a c d lo hi x y.

Lemma tau_fit_near ar N gam th u eta lo hi svd b pts s a c d : arith_near N gam th u eta lo hi ar -> tau_sampling svd b pts = Ok s ->
  let A := d_a (ts_matrix s) in
  decomposes A (svd A) a c d lo hi -> small_fit (mc A) gam u a c -> (0 < mc A)%nat -> (mr A <= N)%nat -> (mc A <= N)%nat ->
  slices_along (fun x k => coeffs (t_fit_rd ar svd s x (Some k) None)) (mr A) (mc A)
    (fitted (fun _ => True) least_squares A gam th u eta a c d lo hi) /\
  slices_default (fun x => coeffs (t_fit_rd ar svd s x None None)) (mr A) (mc A)
    (fitted (fun _ => True) least_squares A gam th u eta a c d lo hi).
Proof.
  intros HA Hs. destruct (tau_sampling_inv _ _ _ _ Hs) as (M & HM & ->). set (A := sampling_matrix (length pts) M).
  cbn [ts_matrix of_core d_a]. intros HD HS P Kr Kc.
  rewrite (drop_id A (svd A) a c d lo hi HD).
  destruct (warns_rd_ok ar (sb_well b) (r_s (svd A)) (decomposes_nonempty _ _ _ _ _ _ _ HD P)) as [w Hw].
  destruct (dense_slices ar N gam th u eta A (svd A) a c d lo hi HA HD HS Kr Kc) as [H1 H2]. split.
  - eapply along_ext; [|exact H1]. intros x k. exact (t_fit_rd_eq ar svd (TSampling b pts (of_core A (svd A))) w x (Some k) Hw).
  - eapply slices_default_ext; [|exact H2]. intros x. exact (t_fit_rd_eq ar svd (TSampling b pts (of_core A (svd A))) w x None Hw).
Qed.

Lemma mats_fit_near ar N gam th u eta lo hi svd b p s a c d : arith_near N gam th u eta lo hi ar -> matsubara_sampling svd b p false = Ok s ->
  let A := m_a (ms_matrix s) in
  decomposes A (svd A) a c d lo hi -> small_fit (mc A) gam u a c -> (0 < mc A)%nat -> (mr A <= N)%nat -> (mc A <= N)%nat ->
  slices_along (fun x k => coeffs (m_fit_rd ar svd s x (Some k) None)) (mr A) (mc A)
    (fitted (fun _ => True) least_squares A gam th u eta a c d lo hi) /\
  slices_default (fun x => coeffs (m_fit_rd ar svd s x None None)) (mr A) (mc A)
    (fitted (fun _ => True) least_squares A gam th u eta a c d lo hi).
Proof.
  intros HA Hs. destruct (mats_sampling_inv _ _ _ _ Hs) as (M & HM & ->). set (A := sampling_matrix (length p) M).
  cbn [ms_matrix of_core d_a m_a]. intros HD HS P Kr Kc.
  rewrite (drop_id A (svd A) a c d lo hi HD).
  destruct (warns_rd_ok ar (sb_well b) (r_s (svd A)) (decomposes_nonempty _ _ _ _ _ _ _ HD P)) as [w Hw].
  destruct (dense_slices ar N gam th u eta A (svd A) a c d lo hi HA HD HS Kr Kc) as [H1 H2]. split.
  - eapply along_ext; [|exact H1]. intros x k. exact (m_fit_rd_eq ar svd (MSampling b p false (inl (of_core A (svd A)))) w x (Some k) Hw).
  - eapply slices_default_ext; [|exact H2]. intros x. exact (m_fit_rd_eq ar svd (MSampling b p false (inl (of_core A (svd A)))) w x None Hw).
Qed.

(** positive_only *)
Lemma pos_matrix svd b p s M : matsubara_sampling svd b p true = Ok s -> sb_uhat b p = Ok M -> m_a (ms_matrix s) = sampling_matrix (length p) M.
Proof.
  unfold matsubara_sampling. intros Hs HM. rewrite HM in Hs. cbn [bind] in Hs.
  destruct p; [discriminate|]. unfold split_decomposed in Hs. destruct (check_svd_result _ _ _ _); [|discriminate].
  cbn [bind] in Hs. injection Hs as <-. reflexivity.
Qed.
Lemma pos_inv svd b p s a c d lo hi : matsubara_sampling svd b p true = Ok s ->
  let A := m_a (ms_matrix s) in decomposes (stacked A (zoff p)) (svd (stacked A (zoff p))) a c d lo hi ->
  p <> [] /\ mr A = length p /\ s = MSampling b p true (inr (of_split A (split_with (mr A) (zoff p) (svd (stacked A (zoff p)))))).
Proof.
  intros Hs A HD. assert (EA : exists M, sb_uhat b p = Ok M).
  { revert Hs. unfold matsubara_sampling. destruct (sb_uhat b p) as [M|]; [eauto|discriminate]. }
  destruct EA as [M HM]. pose proof (pos_matrix _ _ _ _ _ Hs HM) as EA. fold A in EA. clearbody A.
  revert Hs. unfold matsubara_sampling. rewrite HM. cbn [bind]. rewrite <- EA. pose proof HD as (E1 & E2 & EL & E3 & E4 & _). pose proof (drop_id _ _ _ _ _ _ _ HD) as HI.
  destruct p as [|p0 p]; [discriminate|]. intros Hs. split; [discriminate|]. split; [rewrite EA; reflexivity|].
  unfold split_decomposed in Hs. change (split_complex svd A (p0 =? 0)%Z) with (split_with (mr A) (zoff (p0 :: p)) (svd (stacked A (zoff (p0 :: p))))) in Hs.
  set (off := zoff (p0 :: p)) in *. set (r := svd (stacked A off)) in *. cbn [stacked mc] in E2, EL, E3, E4.
  unfold check_svd_result in Hs. unfold split_with at 1 2 3 4 5 6 in Hs. cbn [r_u r_s r_vh mr mc] in Hs.
  rewrite EL, E3, E4 in Hs. rewrite !Nat.eqb_refl in Hs. cbn [negb orb bind] in Hs.
  rewrite drop_split in Hs by congruence. rewrite HI in Hs. injection Hs as <-. reflexivity.
Qed.

Lemma pos_fit_near ar N gam th u eta lo hi svd b p s a c d : arith_near N gam th u eta lo hi ar -> matsubara_sampling svd b p true = Ok s ->
  let A := m_a (ms_matrix s) in let B := stacked A (zoff p) in
  decomposes B (svd B) a c d lo hi -> real_decomposition B (svd B) -> zero_row_real p A ->
  small_fit (mc A) gam u a c -> (0 < mc A)%nat -> (mr A <= N)%nat -> (mc A <= N)%nat ->
  slices_along (fun x k => coeffs (m_fit_rd ar svd s x (Some k) None)) (mr A) (mc A)
    (fitted (real_vec (mc A)) real_least_squares A gam th u eta a c d lo hi) /\
  slices_default (fun x => coeffs (m_fit_rd ar svd s x None None)) (mr A) (mc A)
    (fitted (real_vec (mc A)) real_least_squares A gam th u eta a c d lo hi).
Proof.
  intros HA Hs A B HD HR HZ HS P Kr Kc. destruct (pos_inv _ _ _ _ _ _ _ _ _ Hs HD) as (Hp & Er & Es). fold A in Er, Es. fold B in Es.
  pose proof (zero_row_off _ _ HZ) as H0. assert (Ho : (zoff p <= mr A)%nat) by (rewrite Er; apply zoff_le, Hp).
  assert (NE : r_s (svd B) <> []) by (apply (decomposes_nonempty _ _ _ _ _ _ _ HD); exact P).
  destruct (warns_rd_ok ar (sb_well b) (r_s (svd B)) NE) as [w Hw].
  destruct (split_slices ar N gam th u eta A (zoff p) (svd B) a c d lo hi HA HD HR HS Ho H0 Kr Kc) as [H1 H2]. clearbody A. subst s. split.
  - eapply along_ext; [|exact H1]. intros x k. exact (m_fit_rd_eq ar svd (MSampling b p true (inr (of_split A (split_with (mr A) (zoff p) (svd B))))) w x (Some k) Hw).
  - eapply slices_default_ext; [|exact H2]. intros x. exact (m_fit_rd_eq ar svd (MSampling b p true (inr (of_split A (split_with (mr A) (zoff p) (svd B))))) w x None Hw).
Qed.

(** * The warning *)
(** * The warning *)
Lemma cond_near ar u lo hi s w well smax smin : quot_near u lo hi (ar_quot ar) ->
  (forall k, (S k < length s)%nat -> nth (S k) s 0 <= nth k s 0) -> 0 < lo -> (forall k, (k < length s)%nat -> lo <= nth k s 0 <= hi) ->
  is_largest s smax -> is_smallest_nonzero s smin -> fit_warns_rd ar well s = Ok w ->
  (w = true -> well = true /\ 10 ^ 8 < (1 + u) * (smax / smin)) /\ (well = true -> 10 ^ 8 < (1 - u) * (smax / smin) -> w = true).
Proof.
  intros HQ HS Lp HR [M1 M2] (N1 & N2 & N3) HW. apply nth_sorted in HS.
  assert (HI : forall x, In x s -> lo <= x <= hi) by (intros x Hx; apply In_nth with (d := 0) in Hx; destruct Hx as (k & Hk & <-); auto).
  unfold fit_warns_rd in HW. destruct well.
  2: { injection HW as <-. split; [discriminate|discriminate]. }
  destruct s as [|x l]; [destruct M1|]. cbn [cond_of_rd bind] in HW.
  assert (E1 : smax = x).
  { rewrite Forall_forall in M2. apply StronglySorted_inv in HS. destruct HS as [_ F]. rewrite Forall_forall in F.
    assert (x <= smax) by (apply M2; now left). destruct M1 as [->|M1]; [reflexivity|]. specialize (F _ M1). lra. }
  assert (E2 : smin = last (x :: l) 0).
  { pose proof (last_in l x) as I. pose proof (HI _ I). pose proof (sorted_last _ _ HS) as F. rewrite Forall_forall in F, N3.
    apply Rle_antisym; [apply N3; [exact I|lra]|apply F; exact N1]. }
  pose proof (HQ x (last (x :: l) 0) (HI _ (or_introl eq_refl)) (HI _ (last_in l x))) as B.
  rewrite E1, E2. set (k := x / last (x :: l) 0) in *. set (q := ar_quot ar x (last (x :: l) 0)) in *.
  apply Rabs_le_between in B. assert (W : w = negb (Rleb q (10 ^ 8))) by congruence. clear HW. subst w.
  generalize dependent (10 ^ 8). intros t. unfold Rleb. destruct (Rle_dec q t); cbn [negb]; split; try discriminate; auto; intros; try (split; [reflexivity|]); lra.
Qed.

Lemma tau_warning ar u lo hi svd b pts s a c d x k w y smax smin : quot_near u lo hi (ar_quot ar) -> tau_sampling svd b pts = Ok s ->
  let A := d_a (ts_matrix s) in let sv := r_s (svd A) in
  decomposes A (svd A) a c d lo hi -> (forall k, (S k < mc A)%nat -> nth (S k) sv 0 <= nth k sv 0) -> is_largest sv smax -> is_smallest_nonzero sv smin ->
  t_fit_rd ar svd s x k None = Ok (w, y) ->
  (w = true -> sb_well b = true /\ 10 ^ 8 < (1 + u) * (smax / smin)) /\ (sb_well b = true -> 10 ^ 8 < (1 - u) * (smax / smin) -> w = true).
Proof.
  intros HQ Hs. destruct (tau_sampling_inv _ _ _ _ Hs) as (M & HM & ->). set (A := sampling_matrix (length pts) M).
  cbn [ts_matrix of_core d_a]. intros HD HS H1 H2. rewrite (drop_id A (svd A) a c d lo hi HD). unfold t_fit_rd. cbn [bind ts_basis ts_matrix of_core d_s].
  destruct HD as (_ & _ & EL & _ & _ & _ & _ & _ & _ & _ & [Lp _] & HR).
  intros HW. destruct (fit_warns_rd ar (sb_well b) (r_s (svd A))) as [w'|] eqn:E; [|discriminate]. cbn [bind] in HW.
  destruct (d_fit_rd _ _ _ _); [|discriminate]. cbn [bind] in HW. injection HW as -> _.
  eapply cond_near; try eassumption; rewrite EL; assumption.
Qed.
Lemma mats_warning ar u lo hi svd b p s a c d x k w y smax smin : quot_near u lo hi (ar_quot ar) -> matsubara_sampling svd b p false = Ok s ->
  let A := m_a (ms_matrix s) in let sv := r_s (svd A) in
  decomposes A (svd A) a c d lo hi -> (forall k, (S k < mc A)%nat -> nth (S k) sv 0 <= nth k sv 0) -> is_largest sv smax -> is_smallest_nonzero sv smin ->
  m_fit_rd ar svd s x k None = Ok (w, y) ->
  (w = true -> sb_well b = true /\ 10 ^ 8 < (1 + u) * (smax / smin)) /\ (sb_well b = true -> 10 ^ 8 < (1 - u) * (smax / smin) -> w = true).
Proof.
  intros HQ Hs. destruct (mats_sampling_inv _ _ _ _ Hs) as (M & HM & ->). set (A := sampling_matrix (length p) M).
  cbn [ms_matrix of_core d_a m_a]. intros HD HS H1 H2. rewrite (drop_id A (svd A) a c d lo hi HD). unfold m_fit_rd. cbn [bind ms_basis ms_matrix m_svals of_core d_s].
  destruct HD as (_ & _ & EL & _ & _ & _ & _ & _ & _ & _ & [Lp _] & HR).
  intros HW. destruct (fit_warns_rd ar (sb_well b) (r_s (svd A))) as [w'|] eqn:E; [|discriminate]. cbn [bind] in HW.
  destruct (m_lstsq_rd _ _ _ _); [|discriminate]. cbn [bind] in HW. injection HW as -> _.
  eapply cond_near; try eassumption; rewrite EL; assumption.
Qed.
Lemma pos_warning ar u lo hi svd b p s a c d x k w y smax smin : quot_near u lo hi (ar_quot ar) -> matsubara_sampling svd b p true = Ok s ->
  let A := m_a (ms_matrix s) in let B := stacked A (zoff p) in let sv := r_s (svd B) in
  decomposes B (svd B) a c d lo hi -> (forall k, (S k < mc A)%nat -> nth (S k) sv 0 <= nth k sv 0) -> is_largest sv smax -> is_smallest_nonzero sv smin ->
  m_fit_rd ar svd s x k None = Ok (w, y) ->
  (w = true -> sb_well b = true /\ 10 ^ 8 < (1 + u) * (smax / smin)) /\ (sb_well b = true -> 10 ^ 8 < (1 - u) * (smax / smin) -> w = true).
Proof.
  intros HQ Hs A B sv HD HS H1 H2. destruct (pos_inv _ _ _ _ _ _ _ _ _ Hs HD) as (Hp & Er & Es). fold A in Er, Es. fold B in Es.
  clearbody A. subst s. unfold m_fit_rd. cbn [bind ms_basis ms_matrix m_svals of_split sd_s split_with r_s].
  destruct HD as (_ & _ & EL & _ & _ & _ & _ & _ & _ & _ & [Lp _] & HR). change (mc B) with (mc A) in *.
  intros HW. fold sv in HW. destruct (fit_warns_rd ar (sb_well b) sv) as [w'|] eqn:E; [|discriminate]. cbn [bind] in HW.
  destruct (m_lstsq_rd _ _ _ _); [|discriminate]. cbn [bind] in HW. injection HW as -> _.
  eapply cond_near; try eassumption; fold sv in EL; rewrite EL; assumption.
Qed.

(** * Round trips *)
Lemma values_respects A gam th : respects (values_near A gam th).
Proof.
  intros g g' x x' E1 E2 H i Hi. specialize (H i Hi). rewrite <- E2.
  rewrite (csumn_ext _ _ (fun l => Cmult (me A i l) (g l))) by (intros; now rewrite E1).
  rewrite (sumn_ext _ _ (fun l => Cmod (me A i l) * Cmod (g l))) by (intros; now rewrite E1). exact H.
Qed.

Lemma slices_comp a L M N (P Q R : rel) x y z : respects P -> (0 < M)%nat -> (a < length (shp x))%nat -> nth a (shp x) 0%nat = L ->
  (forall g v h, P g v -> Q v h -> R g h) -> slices a M P x y -> slices a N Q y z -> slices a N R x z.
Proof.
  intros HP HM Ha HL HR [S1 E1] [S2 E2]. rewrite S1, set_nth_set in S2 by assumption. split; [exact S2|].
  intros idx Hi. pose proof (valid_len _ _ Hi) as Li. rewrite S2, set_nth_len in Li by assumption.
  apply HR with (2 := E2 idx Hi).
  assert (V : valid_index (shp y) (set_nth a 0%nat idx)).
  { rewrite S1. rewrite <- (set_nth_set a M N) by assumption. rewrite <- S2. now apply valid_set. }
  eapply HP; [| |exact (E1 _ V)]; intros l; cbv beta; rewrite set_nth_set by (rewrite Li; assumption); reflexivity.
Qed.
Lemma along_comp op1 op2 L M N (P Q R : rel) : respects P -> (0 < M)%nat -> (forall g v h, P g v -> Q v h -> R g h) ->
  slices_along op1 L M P -> slices_along op2 M N Q -> slices_along (fun x k => do y <- op1 x k; op2 y k) L N R.
Proof.
  intros HP HM HR H1 H2 x k. specialize (H1 x k). destruct (axis_of (length (shp x)) k) as [a|] eqn:Ea; [|now rewrite H1].
  pose proof (axis_of_lt _ _ _ Ea) as Ha. destruct (Nat.eqb_spec (nth a (shp x) 0%nat) L) as [HL|]; [|now rewrite H1].
  destruct H1 as (y & -> & S1). cbn [bind]. specialize (H2 y k). pose proof (proj1 S1) as Sy.
  rewrite Sy, set_nth_len, Ea, set_nth_nth, Nat.eqb_refl in H2 by lia. destruct H2 as (z & -> & S2). exists z. split; [reflexivity|].
  eapply slices_comp; eauto.
Qed.
Lemma default_comp op1 op2 L M N (P Q R : rel) : respects P -> (0 < M)%nat -> (forall g v h, P g v -> Q v h -> R g h) ->
  slices_default op1 L M P -> slices_default op2 M N Q -> slices_default (fun x => do y <- op1 x; op2 y) L N R.
Proof.
  intros HP HM HR H1 H2 x. specialize (H1 x). destruct (length (shp x)) as [|n] eqn:En; [now rewrite H1|].
  assert (Ha : (n - 1 < length (shp x))%nat) by lia. destruct (Nat.eqb_spec (nth (n - 1) (shp x) 0%nat) L) as [HL|]; [|now rewrite H1].
  destruct H1 as (y & -> & S1). cbn [bind]. specialize (H2 y). pose proof (proj1 S1) as Sy.
  rewrite Sy, set_nth_len, En, set_nth_nth, Nat.eqb_refl in H2 by lia. destruct H2 as (z & -> & S2). exists z. split; [reflexivity|].
  eapply slices_comp; eauto.
Qed.

Lemma back_near (G : (nat -> C) -> Prop) A gam th u eta a c d lo hi g x y : 0 <= gam -> 0 <= th -> 0 <= u -> 0 < lo <= hi -> 0 <= d -> small_fit (mc A) gam u a c ->
  frob A <= sqrt (INR (mc A)) * (2 * hi + d) -> (G g -> size (mr A) (apply_mat A g) <= (2 * hi + d) * size (mc A) g) ->
  values_near A gam th g x -> fits G A gam th u eta a c d lo hi x y -> comes_back G A gam th u eta a c d lo hi g y.
Proof.
  intros Pg Pt Pu [Lp Lh] Pd (_ & _ & Sg & _) HF HA HV Hy Gg. specialize (Hy g Gg). specialize (HA Gg).
  pose proof (near_size A g x gam th _ Pg Pt HV HF) as D. pose proof (size_close (mr A) x (apply_mat A g)) as X.
  rewrite (size_opp (mr A) (apply_mat A g) x) in Hy. eapply Rle_trans; [exact Hy|]. clear Hy. unfold fit_error, round_trip_error, round_trip_underflow.
  pose proof (size_pos (mc A) g) as Gp. pose proof (sqrt_pos (INR (mc A))) as Sp. pose proof (sqrt_pos (INR (mr A))) as Mp. pose proof (Rinv_0_lt_compat lo Lp) as Il.
  set (gs := size (mc A) g) in *. set (s := sqrt (INR (mc A))) in *. set (m := sqrt (INR (mr A))) in *. set (D0 := size (mr A) (vsub x (apply_mat A g))) in *.
  set (X0 := size (mr A) x) in *. set (Ag := size (mr A) (apply_mat A g)) in *. set (t := 4 * s * ((th + eta) / lo + th + eta)). set (b := 2 * hi + d) in *.
  assert (Bp : 0 <= b) by (unfold b; lra). assert (Bg : 0 <= b * gs) by (apply Rmult_le_pos; assumption).
  assert (Q1 : gam * s * (b * gs) <= 1 / 100 * (b * gs)) by (apply Rmult_le_compat_r; assumption).
  assert (X1 : X0 <= 101 / 100 * (b * gs) + m * th).
  { replace (gam * (s * b) * gs) with (gam * s * (b * gs)) in D by ring. lra. }
  assert (Y1 : 2 * D0 / lo <= 2 * (gam * s * (b * gs) + m * th) / lo).
  { apply Rmult_le_compat_r; [lra|]. replace (gam * (s * b) * gs) with (gam * s * (b * gs)) in D by ring. lra. }
  assert (Gs : 0 <= 4 * (gam + u) * s) by (apply Rmult_le_pos; lra).
  assert (Y2 : 4 * (gam + u) * s * X0 / lo <= 4 * (gam + u) * s * (101 / 100 * (b * gs) + m * th) / lo).
  { apply Rmult_le_compat_r; [lra|]. apply Rmult_le_compat_l; lra. }
  assert (Z1 : 0 <= s * (b * gs) / lo) by (apply Rmult_le_pos; [apply Rmult_le_pos; assumption|lra]).
  assert (Z2 : (2 * gam + 4 * (gam + u) * (101 / 100)) * (s * (b * gs) / lo) <= 7 * (gam + u) * (s * (b * gs) / lo)) by (apply Rmult_le_compat_r; [assumption|lra]).
  replace (2 * (hi / lo) + d / lo) with (b / lo) by (unfold b; field; lra).
  replace ((c + 2 * (hi / lo) * a + 2 * d / lo + 7 * (gam + u) * s * (b / lo)) * gs) with ((c + 2 * (hi / lo) * a + 2 * d / lo) * gs + 7 * (gam + u) * (s * (b * gs) / lo)) by (unfold Rdiv; ring).
  replace (2 * (gam * s * (b * gs) + m * th) / lo) with (2 * gam * (s * (b * gs) / lo) + 2 * m * th / lo) in Y1 by (unfold Rdiv; ring).
  replace (4 * (gam + u) * s * (101 / 100 * (b * gs) + m * th) / lo) with (4 * (gam + u) * (101 / 100) * (s * (b * gs) / lo) + 4 * (gam + u) * s * m * th / lo) in Y2 by (unfold Rdiv; ring).
  replace (2 * (1 + 2 * (gam + u) * s) * m * th / lo) with (2 * m * th / lo + 4 * (gam + u) * s * m * th / lo) by (unfold Rdiv; ring). lra.
Qed.

Lemma rows_pos A r a c d lo hi : decomposes A r a c d lo hi -> a <= 1 / 10 -> (0 < mc A)%nat -> (0 < mr A)%nat.
Proof.
  intros (E1 & E2 & _ & _ & _ & (_ & H) & _) Ha P. destruct (Nat.eq_0_gt_0_cases (mr A)) as [Z|]; [exfalso|assumption].
  specialize (H (fun _ => RtoC 1)). rewrite E2 in H.
  assert (E : size (mc A) (vsub (apply_mat (adjoint (r_u r)) (apply_mat (r_u r) (fun _ => RtoC 1))) (fun _ => RtoC 1)) = size (mc A) (fun _ => RtoC 1)).
  { unfold size, norm2. f_equal. apply sumn_ext. intros k _. unfold vsub. unfold apply_mat at 1. cbn [adjoint mc]. rewrite E1, Z. cbn [csumn]. rewrite <- Cmod_opp. f_equal. f_equal. ring. }
  rewrite E in H. assert (S : 1 <= size (mc A) (fun _ => RtoC 1)).
  { unfold size, norm2. replace 1 with (sqrt 1) at 1 by apply sqrt_1. apply sqrt_le_1_alt. rewrite (sumn_ext _ _ (fun _ => 1)) by (intros; rewrite Cmod_R, Rabs_R1; ring).
    rewrite sumn_const. rewrite Rmult_1_r. apply (le_INR 1). lia. }
  nra.
Qed.

Lemma tau_round_trip ar N gam th u eta lo hi svd b pts s a c d : arith_near N gam th u eta lo hi ar -> tau_sampling svd b pts = Ok s ->
  let A := d_a (ts_matrix s) in
  decomposes A (svd A) a c d lo hi -> small_fit (mc A) gam u a c -> (0 < mc A)%nat -> (mr A <= N)%nat -> (mc A <= N)%nat ->
  slices_along (fun g k => do x <- t_evaluate_rd ar svd s g (Some k) None; coeffs (t_fit_rd ar svd s x (Some k) None)) (mc A) (mc A)
    (comes_back (fun _ => True) A gam th u eta a c d lo hi) /\
  slices_default (fun g => do x <- t_evaluate_rd ar svd s g None None; coeffs (t_fit_rd ar svd s x None None)) (mc A) (mc A)
    (comes_back (fun _ => True) A gam th u eta a c d lo hi).
Proof.
  intros HA Hs A HD HS P Kr Kc. destruct (tau_fit_near _ _ _ _ _ _ _ _ _ _ _ _ _ _ _ HA Hs HD HS P Kr Kc) as [F1 F2]. fold A in F1, F2.
  pose proof HA as ((Pg & Pt & _) & _ & _ & _ & Pu & Pe). pose proof HS as (Sa & Sc & _).
  destruct (tau_evaluate_near ar N gam th svd s (proj1 HA) Kc) as [V1 V2]. fold A in V1, V2.
  assert (B : forall g x y, values_near A gam th g x -> fitted (fun _ => True) least_squares A gam th u eta a c d lo hi x y -> comes_back (fun _ => True) A gam th u eta a c d lo hi g y).
  { intros g x y HV [HF _]. eapply back_near; try eassumption; [exact (lo_pos _ _ _ _ _ _ _ HD)|exact (d_pos _ _ _ _ _ _ _ HD)|exact (A_frob _ _ _ _ _ _ _ HD Sa Sc)|].
    intros _. exact (A_app _ _ _ _ _ _ _ HD Sa Sc g). }
  pose proof (rows_pos _ _ _ _ _ _ _ HD Sa P) as Pm. split.
  - eapply along_comp; try eassumption. apply values_respects.
  - eapply default_comp; try eassumption. apply values_respects.
Qed.
Lemma mats_round_trip ar N gam th u eta lo hi svd b p s a c d : arith_near N gam th u eta lo hi ar -> matsubara_sampling svd b p false = Ok s ->
  let A := m_a (ms_matrix s) in
  decomposes A (svd A) a c d lo hi -> small_fit (mc A) gam u a c -> (0 < mc A)%nat -> (mr A <= N)%nat -> (mc A <= N)%nat ->
  slices_along (fun g k => do x <- m_evaluate_rd ar svd s g (Some k) None; coeffs (m_fit_rd ar svd s x (Some k) None)) (mc A) (mc A)
    (comes_back (fun _ => True) A gam th u eta a c d lo hi) /\
  slices_default (fun g => do x <- m_evaluate_rd ar svd s g None None; coeffs (m_fit_rd ar svd s x None None)) (mc A) (mc A)
    (comes_back (fun _ => True) A gam th u eta a c d lo hi).
Proof.
  intros HA Hs A HD HS P Kr Kc. destruct (mats_fit_near _ _ _ _ _ _ _ _ _ _ _ _ _ _ _ HA Hs HD HS P Kr Kc) as [F1 F2]. fold A in F1, F2.
  pose proof HA as ((Pg & Pt & _) & _ & _ & _ & Pu & Pe). pose proof HS as (Sa & Sc & _).
  destruct (mats_evaluate_near ar N gam th svd s (proj1 HA) Kc) as [V1 V2]. fold A in V1, V2.
  assert (B : forall g x y, values_near A gam th g x -> fitted (fun _ => True) least_squares A gam th u eta a c d lo hi x y -> comes_back (fun _ => True) A gam th u eta a c d lo hi g y).
  { intros g x y HV [HF _]. eapply back_near; try eassumption; [exact (lo_pos _ _ _ _ _ _ _ HD)|exact (d_pos _ _ _ _ _ _ _ HD)|exact (A_frob _ _ _ _ _ _ _ HD Sa Sc)|].
    intros _. exact (A_app _ _ _ _ _ _ _ HD Sa Sc g). }
  pose proof (rows_pos _ _ _ _ _ _ _ HD Sa P) as Pm. split.
  - eapply along_comp; try eassumption. apply values_respects.
  - eapply default_comp; try eassumption. apply values_respects.
Qed.

(** The stacked matrix has the same size as the complex one. *)
Lemma frob_stacked A off : (off <= mr A)%nat -> (forall i l, (i < off)%nat -> (l < mc A)%nat -> Im (me A i l) = 0) -> frob A = frob (stacked A off).
Proof.
  intros Ho H0. unfold frob. f_equal. cbn [stacked mr mc]. rewrite sumn_app.
  rewrite (sumn_ext (mr A) (fun i => norm2 (mc A) (me (stacked A off) i)) (fun i => sumn (mc A) (fun l => Re (me A i l) ^ 2))).
  2: { intros i Hi. unfold norm2. apply sumn_ext. intros l _. cbn [stacked me]. destruct (Nat.ltb_spec i (mr A)); [|lia]. rewrite Cmod_R. apply pow2_abs. }
  rewrite (sumn_ext (mr A - off) (fun i => norm2 (mc A) (me (stacked A off) (mr A + i)%nat)) (fun i => sumn (mc A) (fun l => Im (me A (off + i)%nat l) ^ 2))).
  2: { intros i Hi. unfold norm2. apply sumn_ext. intros l _. cbn [stacked me]. destruct (Nat.ltb_spec (mr A + i) (mr A)); [lia|].
       replace (off + (mr A + i - mr A))%nat with (off + i)%nat by lia. rewrite Cmod_R. apply pow2_abs. }
  assert (E : sumn (mr A - off) (fun i => sumn (mc A) (fun l => Im (me A (off + i)%nat l) ^ 2)) = sumn (mr A) (fun i => sumn (mc A) (fun l => Im (me A i l) ^ 2))).
  { replace (mr A) with (off + (mr A - off))%nat at 2 by lia. rewrite sumn_app. rewrite (sumn_zero off); [ring|]. intros i Hi. apply sumn_zero. intros l Hl. rewrite H0 by assumption. ring. }
  rewrite E, <- sumn_plus. apply sumn_ext. intros i _. unfold norm2. rewrite <- sumn_plus. apply sumn_ext. intros l _. apply Cmod2_ReIm.
Qed.
Lemma app_stacked A off g : (off <= mr A)%nat -> (forall i l, (i < off)%nat -> (l < mc A)%nat -> Im (me A i l) = 0) -> real_vec (mc A) g ->
  size (mr A) (apply_mat A g) = size (mr (stacked A off)) (apply_mat (stacked A off) g).
Proof.
  intros Ho H0 Hg. pose proof (residual_stacked A off g (fun _ => RtoC 0) Hg Ho H0) as E. rewrite (sumn_zero off) in E by (intros; cbn; ring). rewrite Rplus_0_r in E.
  unfold size. f_equal. unfold residual2 in E.
  assert (Z : forall B w, (forall i, (i < mr B)%nat -> w i = RtoC 0) -> norm2 (mr B) (fun i => Cminus (apply_mat B g i) (w i)) = norm2 (mr B) (apply_mat B g)).
  { intros B w Hw. unfold norm2. apply sumn_ext. intros i Hi. rewrite Hw by assumption. f_equal. f_equal. ring. }
  rewrite (Z A), (Z (stacked A off)) in E; [exact E| |reflexivity]. intros i Hi. unfold stack_data. destruct (_ <? _)%nat; reflexivity.
Qed.

Lemma pos_round_trip ar N gam th u eta lo hi svd b p s a c d : arith_near N gam th u eta lo hi ar -> matsubara_sampling svd b p true = Ok s ->
  let A := m_a (ms_matrix s) in let B := stacked A (zoff p) in
  decomposes B (svd B) a c d lo hi -> real_decomposition B (svd B) -> zero_row_real p A ->
  small_fit (mc A) gam u a c -> (0 < mc A)%nat -> (mr A <= N)%nat -> (mc A <= N)%nat ->
  slices_along (fun g k => do x <- m_evaluate_rd ar svd s g (Some k) None; coeffs (m_fit_rd ar svd s x (Some k) None)) (mc A) (mc A)
    (comes_back (real_vec (mc A)) A gam th u eta a c d lo hi) /\
  slices_default (fun g => do x <- m_evaluate_rd ar svd s g None None; coeffs (m_fit_rd ar svd s x None None)) (mc A) (mc A)
    (comes_back (real_vec (mc A)) A gam th u eta a c d lo hi).
Proof.
  intros HA Hs A B HD HR HZ HS P Kr Kc. destruct (pos_fit_near _ _ _ _ _ _ _ _ _ _ _ _ _ _ _ HA Hs HD HR HZ HS P Kr Kc) as [F1 F2]. fold A in F1, F2.
  pose proof HA as ((Pg & Pt & _) & _ & _ & _ & Pu & Pe). pose proof HS as (Sa & Sc & _).
  destruct (pos_inv _ _ _ _ _ _ _ _ _ Hs HD) as (Hp & Er & _). fold A in Er.
  pose proof (zero_row_off _ _ HZ) as H0. assert (Ho : (zoff p <= mr A)%nat) by (rewrite Er; apply zoff_le, Hp).
  destruct (mats_evaluate_near ar N gam th svd s (proj1 HA) Kc) as [V1 V2]. fold A in V1, V2.
  assert (Bk : forall g x y, values_near A gam th g x -> fitted (real_vec (mc A)) real_least_squares A gam th u eta a c d lo hi x y -> comes_back (real_vec (mc A)) A gam th u eta a c d lo hi g y).
  { intros g x y HV [HF _]. eapply back_near; try eassumption; [exact (lo_pos _ _ _ _ _ _ _ HD)|exact (d_pos _ _ _ _ _ _ _ HD)| |].
    - rewrite (frob_stacked A (zoff p) Ho H0). exact (A_frob _ _ _ _ _ _ _ HD Sa Sc).
    - intros Hg. rewrite (app_stacked A (zoff p) g Ho H0 Hg). exact (A_app _ _ _ _ _ _ _ HD Sa Sc g). }
  assert (Pm : (0 < mr A)%nat) by (rewrite Er; destruct p; [congruence|cbn; lia]). split.
  - eapply along_comp; try eassumption. apply values_respects.
  - eapply default_comp; try eassumption. apply values_respects.
Qed.

(** * Values of the true functions *)
Lemma true_values A B e gam th g x : entries_near A B e -> 0 <= gam -> values_near A gam th g x -> values_near B gam (th + (1 + gam) * e * sumn (mc A) (fun l => Cmod (g l))) g x.
Proof.
  intros (Er & Ec & Pe & HE) Pg HV i Hi. rewrite Er in Hi. specialize (HV i Hi). rewrite Ec.
  assert (D : Cmod (Cminus (csumn (mc A) (fun l => Cmult (me A i l) (g l))) (csumn (mc A) (fun l => Cmult (me B i l) (g l)))) <= e * sumn (mc A) (fun l => Cmod (g l))).
  { rewrite <- csumn_minus. eapply Rle_trans; [apply csumn_Cmod|]. rewrite <- sumn_scal. apply sumn_le. intros l Hl.
    replace (Cminus (Cmult (me A i l) (g l)) (Cmult (me B i l) (g l))) with (Cmult (Cminus (me A i l) (me B i l)) (g l)) by ring. rewrite Cmod_mult.
    apply Rmult_le_compat_r; [apply Cmod_ge_0|now apply HE]. }
  assert (S : sumn (mc A) (fun l => Cmod (me A i l) * Cmod (g l)) <= sumn (mc A) (fun l => Cmod (me B i l) * Cmod (g l)) + e * sumn (mc A) (fun l => Cmod (g l))).
  { rewrite <- sumn_scal, <- sumn_plus. apply sumn_le. intros l Hl. rewrite <- Rmult_plus_distr_r. apply Rmult_le_compat_r; [apply Cmod_ge_0|].
    specialize (HE i l Hi Hl). replace (me A i l) with (Cplus (me B i l) (Cminus (me A i l) (me B i l))) by ring. pose proof (Cmod_triangle (me B i l) (Cminus (me A i l) (me B i l))). lra. }
  assert (S' : gam * sumn (mc A) (fun l => Cmod (me A i l) * Cmod (g l)) <= gam * (sumn (mc A) (fun l => Cmod (me B i l) * Cmod (g l)) + e * sumn (mc A) (fun l => Cmod (g l)))) by (apply Rmult_le_compat_l; assumption).
  set (t := csumn (mc A) (fun l => Cmult (me A i l) (g l))) in *. set (t' := csumn (mc A) (fun l => Cmult (me B i l) (g l))) in *.
  replace (Cminus (x i) t') with (Cplus (Cminus (x i) t) (Cminus t t')) by ring. pose proof (Cmod_triangle (Cminus (x i) t) (Cminus t t')). lra.
Qed.
Lemma true_data A B e g x : entries_near A B e -> (forall i, (i < mr A)%nat -> x i = apply_mat B g i) ->
  size (mr A) (vsub (apply_mat A g) x) <= e * sqrt (INR (mr A)) * sqrt (INR (mc A)) * size (mc A) g.
Proof.
  intros (Er & Ec & Pe & HE) HX.
  assert (Q : sumn (mc A) (fun l => Cmod (g l)) <= sqrt (INR (mc A)) * size (mc A) g).
  { rewrite (sumn_ext _ _ (fun l => 1 * Cmod (g l))) by (intros; ring). eapply Rle_trans; [apply (sum_cs (mc A) (fun _ => 1) (fun l => Cmod (g l)))|].
    rewrite rsize_const, rsize_mod by lra. rewrite Rmult_1_r. apply Rle_refl. }
  assert (Sp : 0 <= sumn (mc A) (fun l => Cmod (g l))) by (apply sumn_nonneg; intros; apply Cmod_ge_0).
  eapply Rle_trans; [apply (size_by _ _ (fun _ => e * sumn (mc A) (fun l => Cmod (g l))))|].
  - intros i Hi. unfold vsub. rewrite (HX i Hi). unfold apply_mat. rewrite Ec, <- csumn_minus. eapply Rle_trans; [apply csumn_Cmod|]. rewrite <- sumn_scal. apply sumn_le. intros l Hl.
    replace (Cminus (Cmult (me A i l) (g l)) (Cmult (me B i l) (g l))) with (Cmult (Cminus (me A i l) (me B i l)) (g l)) by ring. rewrite Cmod_mult.
    apply Rmult_le_compat_r; [apply Cmod_ge_0|now apply HE].
  - rewrite rsize_const by (apply Rmult_le_pos; assumption).
    replace (e * sqrt (INR (mr A)) * sqrt (INR (mc A)) * size (mc A) g) with (sqrt (INR (mr A)) * (e * (sqrt (INR (mc A)) * size (mc A) g))) by ring.
    apply Rmult_le_compat_l; [apply sqrt_pos|]. apply Rmult_le_compat_l; assumption.
Qed.

(** * Exact arithmetic *)
Lemma mm_exact m x : mm_rd exact_arith m x = mm m x.
Proof.
  assert (E : forall n (f g : nat -> C), csumn (length (map f (seq 0 n))) (fun i => Cmult (nth i (map f (seq 0 n)) (RtoC 0)) (nth i (map g (seq 0 n)) (RtoC 0))) = csumn n (fun l => Cmult (f l) (g l))).
  { intros n f g. rewrite map_length, seq_length. apply csumn_ext. intros i Hi. now rewrite !nth_map_seq by assumption. }
  unfold mm_rd, mm. destruct (rev (shp x)) as [|k [|n pre]]; [reflexivity| |].
  - destruct (negb _); [reflexivity|]. f_equal. f_equal. apply functional_extensionality. intros idx. cbn [exact_arith ar_dot]. apply E.
  - destruct (negb _); [reflexivity|]. cbv zeta. f_equal. f_equal. apply functional_extensionality. intros idx. cbn [exact_arith ar_dot]. apply E.
Qed.
Lemma mm_exact_fun : mm_rd exact_arith = mm.
Proof. apply functional_extensionality. intros m. apply functional_extensionality. intros x. apply mm_exact. Qed.
Lemma exact_arithmetic svd :
  t_evaluate_rd exact_arith svd = t_evaluate svd /\ m_evaluate_rd exact_arith svd = m_evaluate svd /\
  t_fit_rd exact_arith svd = t_fit svd /\ m_fit_rd exact_arith svd = m_fit svd.
Proof.
  assert (E1 : d_matmul_rd exact_arith = d_matmul) by (unfold d_matmul_rd; rewrite mm_exact_fun; reflexivity).
  assert (E2 : sd_matmul_rd exact_arith = sd_matmul) by (unfold sd_matmul_rd; rewrite mm_exact_fun; reflexivity).
  assert (E3 : d_fit_rd exact_arith = d_fit) by (unfold d_fit_rd, d_lstsq_rd; rewrite mm_exact_fun; reflexivity).
  assert (E4 : sd_fit_rd exact_arith = sd_fit) by (unfold sd_fit_rd, sd_lstsq_rd; rewrite mm_exact_fun; reflexivity).
  split; [unfold t_evaluate_rd; rewrite E1; reflexivity|]. split; [unfold m_evaluate_rd, m_matmul_rd; rewrite E1, E2; reflexivity|].
  split; [unfold t_fit_rd; rewrite E3; reflexivity|unfold m_fit_rd, m_lstsq_rd; rewrite E3, E4; reflexivity].
Qed.
