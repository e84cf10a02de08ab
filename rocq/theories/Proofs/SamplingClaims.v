(** The claims about sampling, assembled. *)
From Coq Require Import String ZArith Arith Bool Reals Lia Lra.
From Coquelicot Require Import Coquelicot.
From Coq Require Import List Sorted Permutation.
From Verif.Model Require Import Base Util Num Poly FT SVE Basis Augment NDArray Sampling.
From Verif.Spec Require Import SUtil SPoly SFT SBasis SSampling.
From Verif.Proofs Require Import BaseFacts SumFacts UtilFacts MatsubaraFacts NDFacts LstsqFacts SamplingFacts SplitFacts SamplingProps PointwiseFacts
  RecoverFacts PointsFacts.
Import ListNotations.
Open Scope R_scope.
Notation length := List.length.

(** ** evaluate *)
Lemma tau_eval svd b L pts s : pointwise (RtoC 0) (sb_u b) L -> tau_sampling svd b pts = Ok s ->
  works_along_axis (fun x k => t_evaluate svd s x (Some k) None) L (length pts)
    (fun g i => expansion_at (sb_u b) L (nth i pts 0) g) /\
  default_axis (fun x k => t_evaluate svd s x k None).
Proof.
  intros HP Hs. destruct (tau_sampling_inv _ _ _ _ Hs) as (M & HM & ->). cbn [t_evaluate bind ts_matrix].
  pose proof (pointwise_len _ _ _ _ HP HM) as LM. split.
  - pose proof (d_matmul_works (of_core (sampling_matrix (length pts) M) (drop_zeros (svd (sampling_matrix (length pts) M))))) as W.
    cbn [of_core d_a sampling_matrix mr mc] in W. rewrite LM in W. eapply works_fext; [|exact W].
    intros g i Hi. cbn [of_core d_a]. exact (proj2 (matrix_pointwise 0 _ L pts M g i HP HM Hi)).
  - apply (matop_default_axis _ _ _ _ (acts_mm _) (ext_apply_mat _)).
Qed.

Lemma m_matmul_default m : default_axis (fun x k => m_matmul m x k).
Proof. destruct m as [d|d]; apply (matop_default_axis _ _ _ _ (acts_mm _) (ext_apply_mat _)). Qed.

Lemma mats_inv svd b p pos s : matsubara_sampling svd b p pos = Ok s ->
  exists M, sb_uhat b p = Ok M /\ ms_basis s = b /\ ms_points s = p /\ ms_positive s = pos /\
    m_a (ms_matrix s) = sampling_matrix (length p) M.
Proof.
  unfold matsubara_sampling. destruct (sb_uhat b p) as [M|]; [|discriminate]. cbn [bind]. intros H. exists M. split; [reflexivity|].
  destruct pos.
  - destruct p as [|p0 p]; [discriminate|]. unfold split_decomposed in H. destruct (check_svd_result _ _ _ _); [|discriminate].
    cbn [bind] in H. injection H as <-. auto.
  - rewrite decomposed_none in H. cbn [bind] in H. injection H as <-. auto.
Qed.

Lemma mats_eval svd b L p pos s : pointwise (RtoC 0) (sb_uhat b) L -> matsubara_sampling svd b p pos = Ok s ->
  works_along_axis (fun x k => m_evaluate svd s x (Some k) None) L (length p)
    (fun g i => expansion_at (sb_uhat b) L (nth i p 0%Z) g) /\
  default_axis (fun x k => m_evaluate svd s x k None).
Proof.
  intros HP Hs. destruct (mats_inv _ _ _ _ _ Hs) as (M & HM & _ & _ & _ & HA). cbn [m_evaluate bind].
  pose proof (pointwise_len _ _ _ _ HP HM) as LM. split; [|apply m_matmul_default].
  pose proof (m_matmul_works (ms_matrix s)) as W. rewrite HA in W. cbn [sampling_matrix mr mc] in W. rewrite LM in W.
  eapply works_fext; [|exact W]. intros g i Hi. exact (proj2 (matrix_pointwise 0%Z _ L p M g i HP HM Hi)).
Qed.

(** ** The default axis *)
Lemma vector_axes op L N f x : works_along_axis (fun x k => op x (Some k)) L N f -> length (shp x) = 1%nat ->
  same_outcome (op x (Some 0%Z)) (op x (Some (-1)%Z)).
Proof.
  intros H Hx. pose proof (H x 0%Z) as H0. pose proof (H x (-1)%Z) as H1. cbv beta in H0, H1. rewrite Hx in H0, H1.
  change (axis_of 1 0) with (Some 0%nat) in H0. change (axis_of 1 (-1)) with (Some 0%nat) in H1. cbv iota in H0, H1.
  destruct (Nat.eqb _ _).
  - destruct H0 as (y & -> & A). destruct H1 as (y' & -> & A'). apply (along_same 0 N f x); auto. lia.
  - rewrite H0, H1. reflexivity.
Qed.

Lemma default_vector op L N f x : works_along_axis (fun x k => op x (Some k)) L N f -> default_axis op -> length (shp x) = 1%nat ->
  same_outcome (op x None) (op x (Some (-1)%Z)).
Proof.
  intros H D Hx. eapply same_trans; [|eapply vector_axes; eauto]. specialize (D x). rewrite Hx in D. exact D.
Qed.

Lemma default_not_last op L N f x pre K : works_along_axis (fun x k => op x (Some k)) L N f -> default_axis op ->
  shp x = pre ++ [K; L] -> K <> L -> op x None = Raise ValueError /\ is_ok (op x (Some (-1)%Z)).
Proof.
  intros H D Hx HK. assert (Hn : length (shp x) = S (S (length pre))) by (rewrite Hx, app_length; cbn; lia).
  assert (HN0 : nth (length pre) (shp x) 0%nat = K) by (rewrite Hx, app_nth2, Nat.sub_diag by lia; reflexivity).
  assert (HN1 : nth (S (length pre)) (shp x) 0%nat = L).
  { rewrite Hx, app_nth2 by lia. replace (S (length pre) - length pre)%nat with 1%nat by lia. reflexivity. }
  split.
  - specialize (D x). pose proof (H x (Z.of_nat (S (S (length pre))) - 2)%Z) as H0. cbv beta in H0.
    rewrite Hn in D, H0. cbv iota in D.
    assert (Ea : axis_of (S (S (length pre))) (Z.of_nat (S (S (length pre))) - 2) = Some (length pre)).
    { unfold axis_of. set (n := length pre). 
      destruct (Z.leb_spec 0 (Z.of_nat (S (S n)) - 2)); [|lia]. destruct (Z.ltb_spec (Z.of_nat (S (S n)) - 2) (Z.of_nat (S (S n)))); [|lia].
      cbn [andb]. f_equal. lia. }
    rewrite Ea in H0. cbv iota in H0. rewrite HN0 in H0. destruct (Nat.eqb_spec K L); [contradiction|]. rewrite H0 in D.
    destruct (op x None); cbn in D; [contradiction|congruence].
  - pose proof (H x (-1)%Z) as H0. cbv beta in H0. rewrite Hn in H0.
    assert (Ea : axis_of (S (S (length pre))) (-1) = Some (S (length pre))).
    { unfold axis_of. set (n := length pre). destruct (Z.leb_spec 0 (-1)); [lia|]. cbn [andb].
      destruct (Z.leb_spec (- Z.of_nat (S (S n))) (-1)); [|lia]. destruct (Z.ltb_spec (-1) 0); [|lia].
      cbn [andb]. f_equal. lia. }
    rewrite Ea in H0. cbv iota in H0. rewrite HN1, Nat.eqb_refl in H0. destruct H0 as (y & -> & _). now exists y.
Qed.

(** ** Recovery *)
Lemma eval_matrix_tau svd b pts s : tau_sampling svd b pts = Ok s ->
  works_along_axis (fun x k => t_evaluate svd s x (Some k) None) (mc (d_a (ts_matrix s))) (mr (d_a (ts_matrix s))) (apply_mat (d_a (ts_matrix s))) /\
  default_axis (fun x k => t_evaluate svd s x k None).
Proof.
  intros _. cbn [t_evaluate bind]. split; [apply d_matmul_works|]. apply (matop_default_axis _ _ _ _ (acts_mm _) (ext_apply_mat _)).
Qed.
Lemma eval_matrix_mats svd s :
  works_along_axis (fun x k => m_evaluate svd s x (Some k) None) (mc (m_a (ms_matrix s))) (mr (m_a (ms_matrix s))) (apply_mat (m_a (ms_matrix s))) /\
  default_axis (fun x k => m_evaluate svd s x k None).
Proof. cbn [m_evaluate bind]. split; [apply m_matmul_works|]. apply m_matmul_default. Qed.

Section Recover.
Variables (op1 op2 : nd C -> option Z -> res (nd C)) (A : mat) (f : (nat -> C) -> nat -> C) (P : (nat -> C) -> Prop).
Hypotheses (W1 : works_along_axis (fun x k => op1 x (Some k)) (mc A) (mr A) (apply_mat A)) (D1 : default_axis op1)
           (W2 : works_along_axis (fun x k => op2 x (Some k)) (mr A) (mc A) f) (D2 : default_axis op2).
Hypothesis HR : forall g v, P g -> (forall i, (i < mr A)%nat -> v i = apply_mat A g i) -> forall l, (l < mc A)%nat -> f v l = g l.
Lemma recover g k y : op1 g k = Ok y -> (forall a idx, valid_index (shp g) idx -> P (fun l => elt g (set_nth a l idx))) ->
  exists z, op2 y k = Ok z /\ same_outcome (Ok z) (Ok g).
Proof.
  intros E HP. destruct k as [k|].
  - exact (works_recover op1 op2 _ _ _ _ P W1 W2 HR g k y E HP).
  - exact (default_recover op1 op2 _ _ _ _ P W1 W2 HR g y D1 D2 E HP).
Qed.
(** Data that are the values of an expansion. *)
Lemma recover_vector g v : P g -> (forall i, (i < mr A)%nat -> v i = apply_mat A g i) ->
  exists z, op2 (vector (mr A) v) (Some 0%Z) = Ok z /\ shp z = [mc A] /\ forall l, (l < mc A)%nat -> elt z [l] = g l.
Proof.
  intros HP Hv. pose proof (W2 (vector (mr A) v) 0%Z) as H. cbv beta in H. cbn [vector shp length] in H.
  change (axis_of 1 0) with (Some 0%nat) in H. cbv iota in H. cbn [nth] in H. rewrite Nat.eqb_refl in H. destruct H as (z & -> & [S E]).
  exists z. split; [reflexivity|]. cbn [vector shp set_nth firstn skipn app] in S. split; [exact S|]. intros l Hl.
  rewrite E by (rewrite S; repeat constructor; exact Hl). cbn [nth]. rewrite (HR g); auto. 
Qed.
End Recover.

Lemma coeffs_ok r z : coeffs r = Ok z <-> exists w, r = Ok (w, z).
Proof. unfold coeffs. destruct r as [[w y]|]; cbn [bind]; split; intros H; try discriminate; [injection H as <-; eauto|destruct H as (w' & E); congruence|destruct H as (w' & E); discriminate]. Qed.

Lemma tau_recovers svd b pts s : tau_sampling svd b pts = Ok s ->
  let A := d_a (ts_matrix s) in is_svd A (svd A) -> nonzero A -> full_rank A ->
  (forall g k y, t_evaluate svd s g k None = Ok y -> exists z, coeffs (t_fit svd s y k None) = Ok z /\ same_outcome (Ok z) (Ok g)) /\
  (forall L g, pointwise (RtoC 0) (sb_u b) L ->
     exists z, coeffs (t_fit svd s (vector (length pts) (fun i => expansion_at (sb_u b) L (nth i pts 0) g)) (Some 0%Z) None) = Ok z /\
               shp z = [L] /\ forall l, (l < L)%nat -> elt z [l] = g l).
Proof.
  intros Hs A HS HN HF. destruct (tau_fit svd b pts s Hs HS HN) as (f & Hf & W2 & D2). fold A in Hf, W2.
  destruct (eval_matrix_tau svd b pts s Hs) as [W1 D1]. fold A in W1.
  assert (HR : forall g v, True -> (forall i, (i < mr A)%nat -> v i = apply_mat A g i) -> forall l, (l < mc A)%nat -> f v l = g l).
  { intros g v _ Hv l Hl. eapply lsq_recovers; eauto. }
  split.
  - intros g k y E. exact (recover (fun x k => t_evaluate svd s x k None) (fun x k => coeffs (t_fit svd s x k None)) A f (fun _ => True) W1 D1 W2 D2 HR g k y E (fun _ _ _ => I)).
  - intros L g HP. destruct (tau_sampling_inv _ _ _ _ Hs) as (M & HM & Es). pose proof (pointwise_len _ _ _ _ HP HM) as LM.
    assert (EA : A = sampling_matrix (length pts) M) by (unfold A; rewrite Es; reflexivity).
    destruct (recover_vector (fun x k => coeffs (t_fit svd s x k None)) A f (fun _ => True) W2 HR g
      (fun i => expansion_at (sb_u b) L (nth i pts 0) g) I) as (z & E & Sz & Ez).
    { intros i Hi. rewrite EA in Hi |- *. symmetry. exact (proj2 (matrix_pointwise 0 _ L pts M g i HP HM Hi)). }
    rewrite EA in E, Sz, Ez. cbn [sampling_matrix mr mc] in E, Sz, Ez. rewrite LM in Sz, Ez. eauto.
Qed.

Lemma mats_recovers svd b p s : matsubara_sampling svd b p false = Ok s ->
  let A := m_a (ms_matrix s) in is_svd A (svd A) -> nonzero A -> full_rank A ->
  (forall g k y, m_evaluate svd s g k None = Ok y -> exists z, coeffs (m_fit svd s y k None) = Ok z /\ same_outcome (Ok z) (Ok g)) /\
  (forall L g, pointwise (RtoC 0) (sb_uhat b) L ->
     exists z, coeffs (m_fit svd s (vector (length p) (fun i => expansion_at (sb_uhat b) L (nth i p 0%Z) g)) (Some 0%Z) None) = Ok z /\
               shp z = [L] /\ forall l, (l < L)%nat -> elt z [l] = g l).
Proof.
  intros Hs A HS HN HF. destruct (mats_fit svd b p s Hs HS HN) as (f & Hf & W2 & D2). fold A in Hf, W2.
  destruct (eval_matrix_mats svd s) as [W1 D1]. fold A in W1.
  assert (HR : forall g v, True -> (forall i, (i < mr A)%nat -> v i = apply_mat A g i) -> forall l, (l < mc A)%nat -> f v l = g l).
  { intros g v _ Hv l Hl. eapply lsq_recovers; eauto. }
  split.
  - intros g k y E. exact (recover (fun x k => m_evaluate svd s x k None) (fun x k => coeffs (m_fit svd s x k None)) A f (fun _ => True) W1 D1 W2 D2 HR g k y E (fun _ _ _ => I)).
  - intros L g HP. destruct (mats_inv _ _ _ _ _ Hs) as (M & HM & _ & _ & _ & EA). fold A in EA. pose proof (pointwise_len _ _ _ _ HP HM) as LM.
    destruct (recover_vector (fun x k => coeffs (m_fit svd s x k None)) A f (fun _ => True) W2 HR g
      (fun i => expansion_at (sb_uhat b) L (nth i p 0%Z) g) I) as (z & E & Sz & Ez).
    { intros i Hi. rewrite EA in Hi |- *. symmetry. exact (proj2 (matrix_pointwise 0%Z _ L p M g i HP HM Hi)). }
    rewrite EA in E, Sz, Ez. cbn [sampling_matrix mr mc] in E, Sz, Ez. rewrite LM in Sz, Ez. eauto.
Qed.

Lemma pos_recovers svd b p s : matsubara_sampling svd b p true = Ok s ->
  let A := m_a (ms_matrix s) in
  is_real_svd (stacked A (zoff p)) (svd (stacked A (zoff p))) -> nonzero A -> zero_row_real p A -> full_real_rank A ->
  (forall g k y, real_array g -> m_evaluate svd s g k None = Ok y ->
     exists z, coeffs (m_fit svd s y k None) = Ok z /\ same_outcome (Ok z) (Ok g)) /\
  (forall L g, pointwise (RtoC 0) (sb_uhat b) L -> real_vec L g ->
     exists z, coeffs (m_fit svd s (vector (length p) (fun i => expansion_at (sb_uhat b) L (nth i p 0%Z) g)) (Some 0%Z) None) = Ok z /\
               shp z = [L] /\ forall l, (l < L)%nat -> elt z [l] = g l).
Proof.
  intros Hs A HS HN HZ HF. destruct (pos_fit svd b p s Hs HS HN HZ) as (f & Hf & W2 & D2). fold A in Hf, W2.
  destruct (eval_matrix_mats svd s) as [W1 D1]. fold A in W1.
  assert (HR : forall g v, real_vec (mc A) g -> (forall i, (i < mr A)%nat -> v i = apply_mat A g i) -> forall l, (l < mc A)%nat -> f v l = g l).
  { intros g v Hg Hv l Hl. eapply real_lsq_recovers; eauto. }
  split.
  - intros g k y Rg E. 
    (* only the slices along the axis in question matter *)
    assert (K : exists a, (a < length (shp g))%nat /\ nth a (shp g) 0%nat = mc A /\ exists z, coeffs (m_fit svd s y k None) = Ok z /\
               along a (mr A) (apply_mat A) g y /\ along a (mc A) f y z).
    { assert (K0 : forall k' y', m_evaluate svd s g (Some k') None = Ok y' -> exists a, (a < length (shp g))%nat /\ nth a (shp g) 0%nat = mc A /\
        along a (mr A) (apply_mat A) g y' /\ forall y, along a (mr A) (apply_mat A) g y -> exists z, coeffs (m_fit svd s y (Some k') None) = Ok z /\ along a (mc A) f y z).
      { intros k' y' E'. destruct (works_inv _ _ _ _ _ _ _ W1 E') as (a & Ea & Hn & Al). pose proof (axis_of_lt _ _ _ Ea) as Ha.
        exists a. split; [exact Ha|]. split; [exact Hn|]. split; [exact Al|]. intros y0 Al0.
        pose proof (W2 y0 k') as H2. cbv beta in H2. rewrite (along_len _ _ _ _ _ Al0 Ha), Ea in H2.
        assert (HN' : nth a (shp y0) 0%nat = mr A) by (destruct Al0 as [-> _]; apply set_nth_nth; lia). rewrite HN', Nat.eqb_refl in H2. exact H2. }
      destruct k as [k|].
      - destruct (K0 k y E) as (a & Ha & Hn & Al & H). destruct (H y Al) as (z & Ez & Al'). exists a. eauto 8.
      - assert (KD : exists k', same_outcome (m_evaluate svd s g None None) (m_evaluate svd s g (Some k') None) /\
          forall y, length (shp y) = length (shp g) -> same_outcome (coeffs (m_fit svd s y None None)) (coeffs (m_fit svd s y (Some k') None))).
        { specialize (D1 g). cbv beta in D1. destruct (length (shp g)) as [|[|n]] eqn:En; [congruence| |].
          - exists 0%Z. split; [assumption|]. intros y' Hy. specialize (D2 y'). now rewrite Hy in D2.
          - exists (Z.of_nat (S (S n)) - 2)%Z. split; [assumption|]. intros y' Hy. specialize (D2 y'). now rewrite Hy in D2. }
        destruct KD as (k' & K1 & K2). rewrite E in K1. destruct (m_evaluate svd s g (Some k') None) as [y'|] eqn:Ek; [|destruct K1].
        destruct (K0 k' y' Ek) as (a & Ha & Hn & Al & H).
        assert (Al' : along a (mr A) (apply_mat A) g y) by (eapply same_along; [apply same_sym, K1|exact Al]).
        destruct (H y Al') as (z & Ez & Az). specialize (K2 y (along_len _ _ _ _ _ Al' Ha)). rewrite Ez in K2.
        destruct (coeffs (m_fit svd s y None None)) as [z'|]; [|destruct K2]. exists a. split; [exact Ha|]. split; [exact Hn|]. exists z'. split; [reflexivity|].
        split; [exact Al'|]. eapply same_along; [apply same_sym, K2|exact Az]. }
    destruct K as (a & Ha & Hn & z & Ez & A1 & A2). exists z. split; [exact Ez|].
    eapply (along_recover (real_vec (mc A))); eauto. intros idx V l Hl. apply Rg. apply valid_set_same; auto. lia.
  - intros L g HP Rg. destruct (mats_inv _ _ _ _ _ Hs) as (M & HM & _ & _ & _ & EA). fold A in EA. pose proof (pointwise_len _ _ _ _ HP HM) as LM.
    assert (Rg' : real_vec (mc A) g) by (rewrite EA; cbn [sampling_matrix mc]; now rewrite LM).
    destruct (recover_vector (fun x k => coeffs (m_fit svd s x k None)) A f (real_vec (mc A)) W2 HR g
      (fun i => expansion_at (sb_uhat b) L (nth i p 0%Z) g) Rg') as (z & E & Sz & Ez).
    { intros i Hi. rewrite EA in Hi |- *. symmetry. exact (proj2 (matrix_pointwise 0%Z _ L p M g i HP HM Hi)). }
    rewrite EA in E, Sz, Ez. cbn [sampling_matrix mr mc] in E, Sz, Ez. rewrite LM in Sz, Ez. eauto.
Qed.

(** For a basis the row of the zero frequency is real. *)
Lemma basis_zero_row compute svd b p pos s : built compute b -> matsubara_sampling svd (sb_of_basis b) p pos = Ok s ->
  zero_row_real p (m_a (ms_matrix s)).
Proof.
  intros Hb Hs. destruct (mats_inv _ _ _ _ _ Hs) as (M & HM & _ & _ & _ & EA). rewrite EA. intros Hp l Hl.
  destruct p as [|p0 p]; [discriminate|]. injection Hp as ->. cbn [sampling_matrix me mc] in *.
  pose proof (uhat_pointwise compute b Hb) as HP. destruct (proj2 (HP _) M HM) as [LM RM].
  destruct (nth_error M l) as [row|] eqn:El; [|apply nth_error_None in El; lia]. rewrite (nth_error_nth _ _ [] El), (RM _ _ El).
  cbn [map nth]. eapply zero_freq_real; eauto.
Qed.

(** ** Conditioning *)
Lemma tau_warns svd b pts s x k w y : tau_sampling svd b pts = Ok s ->
  let A := d_a (ts_matrix s) in is_svd A (svd A) -> t_fit svd s x k None = Ok (w, y) ->
  (w = true <-> sb_well b = true /\ exists smax smin, is_largest (r_s (svd A)) smax /\ is_smallest_nonzero (r_s (svd A)) smin /\ 10 ^ 8 < smax / smin).
Proof.
  intros Hs A HS. subst A. destruct (tau_sampling_inv _ _ _ _ Hs) as (M & HM & ->). cbn [ts_matrix of_core d_a] in *.
  unfold t_fit. cbn [bind ts_basis ts_matrix of_core d_s]. destruct (fit_warns _ _) as [w'|] eqn:E; [|discriminate]. cbn [bind].
  destruct (d_fit _ _ _); [|discriminate]. cbn [bind]. intros H. assert (w' = w) by congruence. subst w'. now apply (warns_spec _ _ _ _ HS E).
Qed.

Lemma mats_warns svd b p s x k w y : matsubara_sampling svd b p false = Ok s ->
  let A := m_a (ms_matrix s) in is_svd A (svd A) -> m_fit svd s x k None = Ok (w, y) ->
  (w = true <-> sb_well b = true /\ exists smax smin, is_largest (r_s (svd A)) smax /\ is_smallest_nonzero (r_s (svd A)) smin /\ 10 ^ 8 < smax / smin).
Proof.
  intros Hs A HS. subst A. destruct (mats_sampling_inv _ _ _ _ Hs) as (M & HM & ->). cbn [ms_matrix of_core d_a m_a] in *.
  unfold m_fit. cbn [bind ms_basis ms_matrix of_core d_s m_svals]. destruct (fit_warns _ _) as [w'|] eqn:E; [|discriminate]. cbn [bind].
  destruct (m_lstsq _ _ _); [|discriminate]. cbn [bind]. intros H. assert (w' = w) by congruence. subst w'. now apply (warns_spec _ _ _ _ HS E).
Qed.

Lemma pos_inv_a svd b p s : matsubara_sampling svd b p true = Ok s ->
  is_real_svd (stacked (m_a (ms_matrix s)) (zoff p)) (svd (stacked (m_a (ms_matrix s)) (zoff p))) ->
  m_svals (ms_matrix s) = r_s (drop_zeros (svd (stacked (m_a (ms_matrix s)) (zoff p)))) /\ ms_basis s = b.
Proof.
  intros Hs HS. destruct (mats_inv _ _ _ _ _ Hs) as (M & HM & Eb & _ & _ & EA).
  destruct (pos_sampling_inv svd b p s Hs) as (M' & _ & HM' & Es).
  { intros M' HM'. assert (M' = M) by congruence. subst M'. cbv zeta. rewrite <- EA. exact HS. }
  split; [|exact Eb]. assert (M' = M) by congruence. subst M'. rewrite EA. rewrite Es. reflexivity.
Qed.

Lemma pos_warns svd b p s x k w y : matsubara_sampling svd b p true = Ok s ->
  let A := stacked (m_a (ms_matrix s)) (zoff p) in is_real_svd A (svd A) -> m_fit svd s x k None = Ok (w, y) ->
  (w = true <-> sb_well b = true /\ exists smax smin, is_largest (r_s (svd A)) smax /\ is_smallest_nonzero (r_s (svd A)) smin /\ 10 ^ 8 < smax / smin).
Proof.
  intros Hs A HS. destruct (pos_inv_a svd b p s Hs HS) as [E1 E2]. fold A in E1.
  unfold m_fit. cbn [bind]. rewrite E1, E2. destruct (fit_warns _ _) as [w'|] eqn:E; [|discriminate]. cbn [bind].
  destruct (m_lstsq _ _ _); [|discriminate]. cbn [bind]. intros H. assert (w' = w) by congruence. subst w'. now apply (warns_spec _ _ _ _ (proj1 HS) E).
Qed.

(** No singular value is left. *)
Lemma all_zero_dropped r : Forall (fun x => x = 0) (r_s r) -> r_s (drop_zeros r) = [].
Proof.
  intros F. rewrite r_s_drop. induction F as [|x l -> F IH]; [reflexivity|]. cbn [filter].
  destruct (Reqb_spec 0 0); [|contradiction]. exact IH.
Qed.
Lemma tau_all_zero svd b pts s x k : tau_sampling svd b pts = Ok s -> sb_well b = true ->
  Forall (fun x => x = 0) (r_s (svd (d_a (ts_matrix s)))) -> t_fit svd s x k None = Raise IndexError.
Proof.
  intros Hs Hw F. destruct (tau_sampling_inv _ _ _ _ Hs) as (M & HM & ->). cbn [ts_matrix of_core d_a] in F.
  unfold t_fit. cbn [bind ts_basis ts_matrix of_core d_s]. rewrite (all_zero_dropped _ F), Hw. reflexivity.
Qed.
Lemma mats_all_zero svd b p s x k : matsubara_sampling svd b p false = Ok s -> sb_well b = true ->
  Forall (fun x => x = 0) (r_s (svd (m_a (ms_matrix s)))) -> m_fit svd s x k None = Raise IndexError.
Proof.
  intros Hs Hw F. destruct (mats_sampling_inv _ _ _ _ Hs) as (M & HM & ->). cbn [ms_matrix m_a of_core d_a] in F.
  unfold m_fit. cbn [bind ms_basis ms_matrix m_svals of_core d_s]. rewrite (all_zero_dropped _ F), Hw. reflexivity.
Qed.

(** ** fit with points *)
Lemma mats_fit_points svd s L p s' ns : pointwise (RtoC 0) (sb_uhat (ms_basis s)) L -> ms_positive s = false ->
  check_reduced_matsubara p None = Ok ns -> matsubara_sampling_at svd (ms_basis s) p false = Ok s' ->
  let A := m_a (ms_matrix s') in is_svd A (svd A) -> nonzero A ->
  mr A = length ns /\ mc A = L /\
  (forall i l, (i < length ns)%nat -> (l < L)%nat -> me A i l = at_point (RtoC 0) (sb_uhat (ms_basis s)) (nth i (zsort ns) 0%Z) l) /\
  exists f, (forall x, least_squares A x (f x)) /\
    works_along_axis (fun x k => coeffs (m_fit svd s x (Some k) (Some p))) (mr A) (mc A) f.
Proof.
  intros HP Hpos Hc E A HS HN. destruct (mats_at_inv _ _ _ _ _ E) as (ns' & M & Hc' & HM & Eb & Ep & EA & Em & _).
  assert (ns' = ns) by congruence. subst ns'. fold A in EA.
  assert (Lz : length (zsort ns) = length ns) by (symmetry; apply Permutation_length, zsort_perm).
  destruct (proj2 (HP _) M HM) as [LM RM].
  split; [now rewrite EA|]. split; [rewrite EA; exact LM|]. split.
  - intros i l Hi Hl. rewrite EA. cbn [sampling_matrix me]. destruct (nth_error M l) as [row|] eqn:El; [|apply nth_error_None in El; lia].
    rewrite (nth_error_nth _ _ [] El), (RM _ _ El). apply nth_error_nth_d.
    apply (map_nth_error (fun p => at_point (RtoC 0) (sb_uhat (ms_basis s)) p l) i (zsort ns)). apply nth_error_nth'. lia.
  - destruct (mats_fit svd _ _ s' Em HS HN) as (f & Hf & W & _). exists f. split; [exact Hf|].
    eapply works_ext; [|exact W]. intros x k. unfold m_fit. rewrite Hpos, E. reflexivity.
Qed.

(** ** The asymptotic model on arrays *)
Lemma valid_app s n idx l : valid_index s idx -> (l < n)%nat -> valid_index (s ++ [n]) (idx ++ [l]).
Proof. intros H Hl. apply Forall2_app; [exact H|]. repeat constructor. exact Hl. Qed.

Lemma power_arrays moments (x : nd Z) :
  exists y, raveled_first (RtoC 0) (length moments) (power_giw moments) x = Ok y /\
    shp y = shp x ++ [length moments] /\
    forall idx l, valid_index (shp x) idx -> (l < length moments)%nat ->
      exists row, power_giw moments [elt x idx] = Ok [row] /\ nth_error row l = Some (elt y (idx ++ [l])).
Proof.
  unfold raveled_first, power_giw. rewrite int_reduced. cbn [bind]. eexists. split; [reflexivity|]. cbn [shp elt]. split; [reflexivity|].
  intros idx l V Hl. rewrite int_reduced. cbn [bind map]. eexists. split; [reflexivity|].
  rewrite last_last, removelast_last.
  rewrite (nth_error_nth_d _ _ _ [] (map_nth_error (fun n => map (fun m => giw m n) moments) _ _ (ravel_nth x idx V))).
  destruct (nth_error moments l) as [m|] eqn:Em; [|apply nth_error_None in Em; lia].
  rewrite (map_nth_error (fun m => giw m (elt x idx)) _ _ Em). f_equal. symmetry. apply nth_error_nth_d.
  exact (map_nth_error (fun m => giw m (elt x idx)) _ _ Em).
Qed.

(** ** The matrices *)
Lemma tau_matrix svd b L pts s : pointwise (RtoC 0) (sb_u b) L -> tau_sampling svd b pts = Ok s ->
  let A := d_a (ts_matrix s) in
  mr A = length pts /\ mc A = L /\
  forall i l, (i < length pts)%nat -> (l < L)%nat -> me A i l = at_point (RtoC 0) (sb_u b) (nth i pts 0) l.
Proof.
  intros HP Hs A. subst A. destruct (tau_sampling_inv _ _ _ _ Hs) as (M & HM & ->). cbn [ts_matrix of_core d_a sampling_matrix mr mc me].
  destruct (proj2 (HP _) M HM) as [LM RM]. split; [reflexivity|]. split; [exact LM|]. intros i l Hi Hl.
  destruct (nth_error M l) as [row|] eqn:El; [|apply nth_error_None in El; lia].
  rewrite (nth_error_nth _ _ [] El), (RM _ _ El). apply nth_error_nth_d.
  apply (map_nth_error (fun p => at_point (RtoC 0) (sb_u b) p l) i pts). now apply nth_error_nth'.
Qed.
Lemma mats_matrix svd b L p pos s : pointwise (RtoC 0) (sb_uhat b) L -> matsubara_sampling svd b p pos = Ok s ->
  let A := m_a (ms_matrix s) in
  mr A = length p /\ mc A = L /\
  forall i l, (i < length p)%nat -> (l < L)%nat -> me A i l = at_point (RtoC 0) (sb_uhat b) (nth i p 0%Z) l.
Proof.
  intros HP Hs A. subst A. destruct (mats_inv _ _ _ _ _ Hs) as (M & HM & _ & _ & _ & ->). cbn [sampling_matrix mr mc me].
  destruct (proj2 (HP _) M HM) as [LM RM]. split; [reflexivity|]. split; [exact LM|]. intros i l Hi Hl.
  destruct (nth_error M l) as [row|] eqn:El; [|apply nth_error_None in El; lia].
  rewrite (nth_error_nth _ _ [] El), (RM _ _ El). apply nth_error_nth_d.
  apply (map_nth_error (fun p => at_point (RtoC 0) (sb_uhat b) p l) i p). now apply nth_error_nth'.
Qed.

Lemma mats_points_sorted svd s L p ns s' : pointwise (RtoC 0) (sb_uhat (ms_basis s)) L ->
  check_reduced_matsubara p None = Ok ns ->
  matsubara_sampling_at svd (ms_basis s) p (ms_positive s) = Ok s' ->
  exists q, Permutation ns q /\ StronglySorted Z.le q /\
  works_along_axis (fun x k => m_evaluate svd s x (Some k) (Some p)) L (length ns)
    (fun g i => expansion_at (sb_uhat (ms_basis s)) L (nth i q 0%Z) g).
Proof.
  intros H1 H2 H3. exists (zsort ns). split; [apply zsort_perm|]. split; [apply zsort_sorted|]. exact (mats_points svd s L p ns s' H1 H2 H3).
Qed.
Lemma mats_fit_points_sorted svd s L p s' ns : pointwise (RtoC 0) (sb_uhat (ms_basis s)) L -> ms_positive s = false ->
  check_reduced_matsubara p None = Ok ns -> matsubara_sampling_at svd (ms_basis s) p false = Ok s' ->
  let A := m_a (ms_matrix s') in is_svd A (svd A) -> nonzero A ->
  exists q, Permutation ns q /\ StronglySorted Z.le q /\
  mr A = length ns /\ mc A = L /\
  (forall i l, (i < length ns)%nat -> (l < L)%nat -> me A i l = at_point (RtoC 0) (sb_uhat (ms_basis s)) (nth i q 0%Z) l) /\
  exists f, (forall x, least_squares A x (f x)) /\
    works_along_axis (fun x k => coeffs (m_fit svd s x (Some k) (Some p))) (mr A) (mc A) f.
Proof.
  intros H1 H2 H3 H4 A H5 H6. exists (zsort ns). split; [apply zsort_perm|]. split; [apply zsort_sorted|].
  exact (mats_fit_points svd s L p s' ns H1 H2 H3 H4 H5 H6).
Qed.
