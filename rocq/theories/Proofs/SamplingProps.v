(** Lemmas about sampling objects. *)
From Coq Require Import String ZArith Arith Bool Reals Lia Lra.
From Coquelicot Require Import Coquelicot.
From Coq Require Import List Sorted Permutation.
From Verif.Model Require Import Base Util Num Poly FT SVE Basis Augment NDArray Sampling.
From Verif.Spec Require Import SUtil SPoly SFT SBasis SSampling.
From Verif.Proofs Require Import BaseFacts SumFacts UtilFacts PPolyFacts FTFacts FTModel FTCall BasisFacts BasisInit BasisOps BasisPhys
  AugmentFacts AugmentProps NDFacts LstsqFacts SamplingFacts SplitFacts KernelFacts.
Import ListNotations.
Open Scope R_scope.
Notation length := List.length.

(** * Matrices of sampling objects *)

(** What a decomposed matrix does along an axis. *)
Definition dm_ok (d : dmat) : Prop :=
  mc (d_v d) = mr (d_uH d) /\ mc (d_uH d) = mr (d_a d) /\ mr (d_v d) = mc (d_a d).
Definition sdm_ok (d : sdmat) : Prop :=
  mc (sd_v d) = mr (sd_urT d) /\ mr (sd_uiT d) = mr (sd_urT d) /\ mc (sd_urT d) = mr (sd_a d) /\
  mc (sd_uiT d) = mr (sd_a d) /\ mr (sd_v d) = mc (sd_a d).

Lemma of_core_ok A r : is_core A r -> dm_ok (of_core A r).
Proof. intros (Hu & Hk & Hv & Hl & _). unfold dm_ok, of_core, adjoint; cbn. rewrite Hu, Hk, Hv, Hl. auto. Qed.
Lemma of_split_ok A off r : is_core (stacked A off) r -> sdm_ok (of_split A (split_with (mr A) off r)).
Proof. intros (Hu & Hk & Hv & Hl & _). unfold sdm_ok, of_split, split_with; cbn. rewrite Hv, Hl. auto. Qed.

Lemma matop_works op L N f : acts op L N f -> extensional f -> works_along_axis (fun x k => matop op x (Some k)) L N f.
Proof.
  intros H X x k. fold (ndim x). destruct (axis_of (ndim x) k) as [a|] eqn:E; [|now apply matop_bad_axis].
  pose proof (matop_along op L N f x k a H X E) as K. destruct (Nat.eqb _ _); [|exact K].
  destruct K as (y & E1 & E2). exists y. split; [exact E1|]. apply along_of; [|exact E2]. exact (axis_of_lt _ _ _ E).
Qed.

Lemma along_same a N f x y y' : along a N f x y -> along a N f x y' -> (a < length (shp x))%nat -> same_outcome (Ok y) (Ok y').
Proof.
  intros [S E] [S' E'] Ha. split; [congruence|]. intros idx Hi. rewrite E, E'; [reflexivity|congruence|assumption].
Qed.

Lemma matop_default_axis op L N f : acts op L N f -> extensional f -> default_axis (fun x k => matop op x k).
Proof.
  intros H X x. pose proof (matop_default op L N f x H) as D. pose proof (matop_works op L N f H X x) as K.
  fold (ndim x) in *. destruct (ndim x) as [|[|n]] eqn:En.
  - cbn [Nat.leb andb] in D. exact D.
  - specialize (K 0%Z). change (axis_of 1 0) with (Some 0%nat) in K. cbn [Nat.leb andb Nat.sub] in D.
    cbv iota in K. revert D K. cbv beta. destruct (Nat.eqb _ _); intros D K.
    + destruct D as (y & -> & D), K as (y' & -> & K). apply along_of in D; [|fold (ndim x); lia]. eapply along_same; eauto. fold (ndim x). lia.
    + rewrite D, K. reflexivity.
  - specialize (K (Z.of_nat (S (S n)) - 2)%Z). replace (Z.of_nat (S (S n)) - 2)%Z with (Z.of_nat n) in * by lia.
    rewrite axis_of_nat in K by lia. replace (S (S n) - 2)%nat with n in D by lia.
    change (1 <=? S (S n))%nat with true in D. cbn [andb] in D.
    cbv iota in K. revert D K. cbv beta. destruct (Nat.eqb _ _); intros D K.
    + destruct D as (y & -> & D), K as (y' & -> & K). apply along_of in D; [|fold (ndim x); lia]. eapply along_same; eauto. fold (ndim x). lia.
    + rewrite D, K. reflexivity.
Qed.

Lemma fit_acts d : dm_ok d -> acts (d_lstsq d) (mr (d_a d)) (mc (d_a d)) (fit_fun d).
Proof. intros (H1 & H2 & H3). rewrite <- H3. now apply acts_lstsq. Qed.
Lemma sfit_acts d : sdm_ok d -> acts (sd_lstsq d) (mr (sd_a d)) (mc (sd_a d)) (sfit_fun d).
Proof. intros (H1 & H2 & H3 & H4 & H5). rewrite <- H5. now apply acts_slstsq. Qed.

(** * Sampling objects *)
Lemma tau_sampling_inv svd b pts s : tau_sampling svd b pts = Ok s ->
  exists M, sb_u b pts = Ok M /\ s = TSampling b pts (of_core (sampling_matrix (length pts) M) (drop_zeros (svd (sampling_matrix (length pts) M)))).
Proof.
  unfold tau_sampling. destruct (sb_u b pts) as [M|]; [|discriminate]. cbn [bind].
  rewrite decomposed_none. cbn [bind]. intros [= <-]. eauto.
Qed.

Lemma mats_sampling_inv svd b p s : matsubara_sampling svd b p false = Ok s ->
  exists M, sb_uhat b p = Ok M /\ s = MSampling b p false (inl (of_core (sampling_matrix (length p) M) (drop_zeros (svd (sampling_matrix (length p) M))))).
Proof.
  unfold matsubara_sampling. destruct (sb_uhat b p) as [M|]; [|discriminate]. cbn [bind].
  rewrite decomposed_none. cbn [bind]. intros [= <-]. eauto.
Qed.


Lemma pos_sampling_inv svd b p s : matsubara_sampling svd b p true = Ok s ->
  (forall M, sb_uhat b p = Ok M -> let A := sampling_matrix (length p) M in
             is_real_svd (stacked A (zoff p)) (svd (stacked A (zoff p)))) ->
  exists M, p <> [] /\ sb_uhat b p = Ok M /\
    s = MSampling b p true (inr (of_split (sampling_matrix (length p) M)
          (split_with (length p) (zoff p) (drop_zeros (svd (stacked (sampling_matrix (length p) M) (zoff p))))))).
Proof.
  unfold matsubara_sampling. destruct (sb_uhat b p) as [M|]; [|discriminate]. cbn [bind].
  destruct p as [|p0 p]; [discriminate|]. intros H HS. specialize (HS M eq_refl). cbv zeta in HS.
  rewrite (split_decomposed_ok svd _ (p0 =? 0)%Z) in H by exact HS. cbn [bind] in H. injection H as <-.
  exists M. split; [discriminate|]. split; [reflexivity|]. reflexivity.
Qed.

Lemma zoff_le p : p <> [] -> (zoff p <= length p)%nat.
Proof. destruct p as [|p0 p]; [congruence|]. intros _. cbn. destruct (p0 =? 0)%Z; lia. Qed.

(** Evaluation works along an axis. *)
Lemma d_matmul_works d : works_along_axis (fun x k => d_matmul d x (Some k)) (mc (d_a d)) (mr (d_a d)) (apply_mat (d_a d)).
Proof. apply matop_works; [apply acts_mm|apply ext_apply_mat]. Qed.
Lemma sd_matmul_works d : works_along_axis (fun x k => sd_matmul d x (Some k)) (mc (sd_a d)) (mr (sd_a d)) (apply_mat (sd_a d)).
Proof. apply matop_works; [apply acts_mm|apply ext_apply_mat]. Qed.
Lemma d_fit_works d : dm_ok d -> works_along_axis (fun x k => d_fit d x (Some k)) (mr (d_a d)) (mc (d_a d)) (fit_fun d).
Proof. intros. apply matop_works; [now apply fit_acts|apply ext_fit]. Qed.
Lemma sd_fit_works d : sdm_ok d -> works_along_axis (fun x k => sd_fit d x (Some k)) (mr (sd_a d)) (mc (sd_a d)) (sfit_fun d).
Proof. intros. apply matop_works; [now apply sfit_acts|apply ext_split]. Qed.

Lemma m_matmul_works m : works_along_axis (fun x k => m_matmul m x (Some k)) (mc (m_a m)) (mr (m_a m)) (apply_mat (m_a m)).
Proof. destruct m; [apply d_matmul_works|apply sd_matmul_works]. Qed.

(** * fit *)

Lemma core_nonzero A r : is_core A r -> nonzero A -> r_s r <> [].
Proof.
  intros (_ & _ & _ & _ & _ & _ & Hf & _) (i & l & Hi & Hl & Hn) E. apply Hn. rewrite Hf, E by assumption. reflexivity.
Qed.

Lemma stacked_nonzero A off : (off <= mr A)%nat -> (forall i l, (i < off)%nat -> (l < mc A)%nat -> Im (me A i l) = 0) ->
  nonzero A -> nonzero (stacked A off).
Proof.
  intros Ho H0 (i & l & Hi & Hl & Hn).
  destruct (Req_dec (Re (me A i l)) 0) as [E|N].
  - assert (N : Im (me A i l) <> 0) by (intros F; apply Hn, C_eq; assumption).
    assert (off <= i)%nat by (destruct (Nat.le_gt_cases off i); [assumption|exfalso; apply N; now apply H0]).
    exists (mr A + (i - off))%nat, l. cbn [stacked mr mc me]. split; [lia|]. split; [assumption|].
    destruct (Nat.ltb_spec (mr A + (i - off)) (mr A)); [lia|]. replace (off + (mr A + (i - off) - mr A))%nat with i by lia.
    now apply RtoC_nz.
  - exists i, l. cbn [stacked mr mc me]. split; [lia|]. split; [assumption|].
    destruct (Nat.ltb_spec i (mr A)); [|lia]. now apply RtoC_nz.
Qed.

Lemma fit_warns_ok well s : s <> [] -> exists w, fit_warns well s = Ok w.
Proof.
  intros H. unfold fit_warns. destruct well; [|eauto]. destruct s; [congruence|]. cbn. eauto.
Qed.


Lemma coeffs_bind (w : res bool) (y : res (nd C)) w0 : w = Ok w0 -> coeffs (do w <- w; do y <- y; Ok (w, y)) = y.
Proof. intros ->. cbn. destruct y; reflexivity. Qed.

Lemma works_ext op op' L N f : (forall x k, op x k = op' x k) -> works_along_axis op' L N f -> works_along_axis op L N f.
Proof. intros E H x k. specialize (H x k). destruct (axis_of _ k); [destruct (Nat.eqb _ _)|]; rewrite E; exact H. Qed.
Lemma default_ext op op' : (forall x k, op x k = op' x k) -> default_axis op' -> default_axis op.
Proof. intros E H x. specialize (H x). destruct (length (shp x)) as [|[|n]]; rewrite <- !E in H; exact H. Qed.

Lemma t_fit_eq svd s w x k : fit_warns (sb_well (ts_basis s)) (d_s (ts_matrix s)) = Ok w ->
  coeffs (t_fit svd s x k None) = d_fit (ts_matrix s) x k.
Proof. intros H. unfold t_fit. cbn [bind]. eapply coeffs_bind; eauto. Qed.
Lemma m_fit_eq svd s w x k : fit_warns (sb_well (ms_basis s)) (m_svals (ms_matrix s)) = Ok w ->
  coeffs (m_fit svd s x k None) = m_lstsq (ms_matrix s) x k.
Proof. intros H. unfold m_fit. cbn [bind]. eapply coeffs_bind; eauto. Qed.

(** fit of an object with one complex decomposition. *)
Lemma core_fit svd A : is_svd A (svd A) -> let d := of_core A (drop_zeros (svd A)) in
  (forall x, least_squares A x (fit_fun d x)) /\
  works_along_axis (fun x k => d_fit d x (Some k)) (mr A) (mc A) (fit_fun d) /\
  default_axis (fun x k => d_fit d x k).
Proof.
  intros H d. pose proof (core_of_svd _ _ H) as Hc. pose proof (of_core_ok _ _ Hc) as Hd.
  split; [intros x; now apply core_lsq|]. split; [exact (d_fit_works d Hd)|].
  apply (matop_default_axis (d_lstsq d) _ _ _ (fit_acts d Hd) (ext_fit d)).
Qed.

Lemma split_fit A off r : (off <= mr A)%nat ->
  (forall i l, (i < off)%nat -> (l < mc A)%nat -> Im (me A i l) = 0) -> is_real_svd (stacked A off) r ->
  let d := of_split A (split_with (mr A) off (drop_zeros r)) in
  (forall x, real_least_squares A x (sfit_fun d x)) /\
  works_along_axis (fun x k => sd_fit d x (Some k)) (mr A) (mc A) (sfit_fun d) /\
  default_axis (fun x k => sd_fit d x k).
Proof.
  intros Ho H0 H d. destruct (drop_zeros_real _ _ H) as (Hc & _). pose proof (of_split_ok _ _ _ Hc) as Hd.
  split; [intros x; now apply split_lsq|]. split; [exact (sd_fit_works d Hd)|].
  apply (matop_default_axis (sd_lstsq d) _ _ _ (sfit_acts d Hd) (ext_split d)).
Qed.

(** fit of TauSampling, and of MatsubaraSampling with and without positive_only. *)
Lemma tau_fit svd b pts s : tau_sampling svd b pts = Ok s ->
  let A := d_a (ts_matrix s) in
  is_svd A (svd A) -> nonzero A ->
  exists f, (forall x, least_squares A x (f x)) /\
  works_along_axis (fun x k => coeffs (t_fit svd s x (Some k) None)) (mr A) (mc A) f /\
  default_axis (fun x k => coeffs (t_fit svd s x k None)).
Proof.
  intros Hs. destruct (tau_sampling_inv _ _ _ _ Hs) as (M & HM & ->). set (A := sampling_matrix (length pts) M).
  cbn [ts_matrix of_core d_a]. intros Hv Hn.
  destruct (fit_warns_ok (sb_well b) (r_s (drop_zeros (svd A)))) as [w Hw].
  { apply (core_nonzero A); [now apply core_of_svd|assumption]. }
  destruct (core_fit svd A Hv) as (H1 & H2 & H3). exists (fit_fun (of_core A (drop_zeros (svd A)))).
  split; [exact H1|]. split.
  - eapply works_ext; [|exact H2]. intros x k. now apply t_fit_eq with (w := w).
  - eapply default_ext; [|exact H3]. intros x k. now apply t_fit_eq with (w := w).
Qed.

Lemma mats_fit svd b p s : matsubara_sampling svd b p false = Ok s ->
  let A := m_a (ms_matrix s) in
  is_svd A (svd A) -> nonzero A ->
  exists f, (forall x, least_squares A x (f x)) /\
  works_along_axis (fun x k => coeffs (m_fit svd s x (Some k) None)) (mr A) (mc A) f /\
  default_axis (fun x k => coeffs (m_fit svd s x k None)).
Proof.
  intros Hs. destruct (mats_sampling_inv _ _ _ _ Hs) as (M & HM & ->). set (A := sampling_matrix (length p) M).
  cbn [ms_matrix of_core d_a m_a]. intros Hv Hn.
  destruct (fit_warns_ok (sb_well b) (r_s (drop_zeros (svd A)))) as [w Hw].
  { apply (core_nonzero A); [now apply core_of_svd|assumption]. }
  destruct (core_fit svd A Hv) as (H1 & H2 & H3). exists (fit_fun (of_core A (drop_zeros (svd A)))).
  split; [exact H1|]. split.
  - eapply works_ext; [|exact H2]. intros x k. now apply m_fit_eq with (w := w).
  - eapply default_ext; [|exact H3]. intros x k. now apply m_fit_eq with (w := w).
Qed.


Lemma zero_row_off p A : zero_row_real p A -> forall i l, (i < zoff p)%nat -> (l < mc A)%nat -> Im (me A i l) = 0.
Proof.
  intros H i l Hi Hl. destruct p as [|p0 p]; cbn in Hi; [lia|]. destruct (Z.eqb_spec p0 0) as [->|]; [|lia].
  assert (i = 0%nat) as -> by lia. now apply H.
Qed.

Lemma pos_fit svd b p s : matsubara_sampling svd b p true = Ok s ->
  let A := m_a (ms_matrix s) in
  is_real_svd (stacked A (zoff p)) (svd (stacked A (zoff p))) -> nonzero A -> zero_row_real p A ->
  exists f, (forall x, real_least_squares A x (f x)) /\
  works_along_axis (fun x k => coeffs (m_fit svd s x (Some k) None)) (mr A) (mc A) f /\
  default_axis (fun x k => coeffs (m_fit svd s x k None)).
Proof.
  intros Hs A Hv Hn Hz.
  assert (EA : forall M, sb_uhat b p = Ok M -> A = sampling_matrix (length p) M).
  { intros M HM. unfold A. revert Hs. unfold matsubara_sampling. rewrite HM. cbn [bind].
    destruct p; [discriminate|]. unfold split_decomposed. destruct (check_svd_result _ _ _ _); [|discriminate].
    cbn [bind]. intros [= <-]. reflexivity. }
  destruct (pos_sampling_inv svd b p s Hs) as (M & Hp & HM & ->).
  { intros M HM. cbv zeta. rewrite <- (EA M HM). exact Hv. }
  clear EA. subst A. set (A := sampling_matrix (length p) M) in *. cbn [ms_matrix of_split sd_a m_a] in *.
  pose proof (zero_row_off _ _ Hz) as H0.
  assert (Ho : (zoff p <= mr A)%nat) by (apply zoff_le, Hp).
  destruct (fit_warns_ok (sb_well b) (r_s (drop_zeros (svd (stacked A (zoff p)))))) as [w Hw].
  { apply (core_nonzero (stacked A (zoff p))); [apply core_of_svd, Hv|now apply stacked_nonzero]. }
  destruct (split_fit A (zoff p) _ Ho H0 Hv) as (H1 & H2 & H3).
  exists (sfit_fun (of_split A (split_with (mr A) (zoff p) (drop_zeros (svd (stacked A (zoff p))))))).
  split; [exact H1|]. split.
  - eapply works_ext; [|exact H2]. intros x k. now apply m_fit_eq with (w := w).
  - eapply default_ext; [|exact H3]. intros x k. now apply m_fit_eq with (w := w).
Qed.

(** * Conditioning *)
Lemma r_s_drop r : r_s (drop_zeros r) = filter (fun x => negb (Reqb x 0)) (r_s r).
Proof.
  unfold drop_zeros. destruct (forallb _ _) eqn:E.
  - symmetry. rewrite forallb_forall in E. clear - E. induction (r_s r) as [|x l IH]; [reflexivity|].
    cbn [filter map] in *. rewrite (E (negb (Reqb x 0))) by now left. f_equal. apply IH. intros b Hb. apply E. now right.
  - cbn [r_s]. apply mask_map_filter.
Qed.

Lemma nth_sorted (l : list R) : (forall k, (S k < length l)%nat -> nth (S k) l 0 <= nth k l 0) -> StronglySorted Rge l.
Proof.
  induction l as [|x l IH]; [constructor|]. intros H. constructor.
  - apply IH. intros k Hk. apply (H (S k)). cbn; lia.
  - apply Forall_forall. intros y Hy. apply In_nth with (d := 0) in Hy. destruct Hy as (k & Hk & <-).
    clear IH. induction k as [|k IHk].
    + apply Rle_ge. apply (H 0%nat). cbn; lia.
    + apply Rle_ge. specialize (H (S k)). cbn [nth] in H. assert (x >= nth k l 0) by (apply IHk; lia).
      assert (nth (S k) l 0 <= nth k l 0) by (apply H; cbn; lia). lra.
Qed.

Lemma sorted_filter {A} (Rl : A -> A -> Prop) p l : StronglySorted Rl l -> StronglySorted Rl (filter p l).
Proof.
  induction 1 as [|x l H IH F]; [constructor|]. cbn. destruct (p x); [|assumption]. constructor; [assumption|].
  rewrite Forall_forall in *. intros y Hy. apply F. apply filter_In in Hy. tauto.
Qed.

Lemma sorted_last (l : list R) x : StronglySorted Rge (x :: l) -> Forall (fun y => last (x :: l) 0 <= y) (x :: l).
Proof.
  revert x; induction l as [|y l IH]; intros x H; [cbn; constructor; [lra|constructor]|].
  apply StronglySorted_inv in H. destruct H as [H F]. specialize (IH y H).
  change (last (x :: y :: l) 0) with (last (y :: l) 0). constructor; [|exact IH].
  inversion F; subst. inversion IH; subst. lra.
Qed.

Lemma last_in (l : list R) x : In (last (x :: l) 0) (x :: l).
Proof. revert x; induction l as [|y l IH]; intros x; [now left|]. right. apply IH. Qed.

Lemma cond_values A r c : is_svd A r -> cond_of (r_s (drop_zeros r)) = Ok c ->
  exists smax smin, is_largest (r_s r) smax /\ is_smallest_nonzero (r_s r) smin /\ c = smax / smin.
Proof.
  intros (_ & _ & _ & _ & _ & _ & Hp & Hs). rewrite r_s_drop.
  pose proof (sorted_filter _ (fun x => negb (Reqb x 0)) _ (nth_sorted _ Hs)) as SS.
  destruct (filter _ (r_s r)) as [|x l] eqn:E; [discriminate|]. cbn [cond_of]. intros [= <-].
  assert (IN : forall y, In y (x :: l) <-> In y (r_s r) /\ y <> 0).
  { intros y. rewrite <- E, filter_In. destruct (Reqb_spec y 0); cbn; intuition congruence. }
  exists x, (last (x :: l) 0). split; [|split; [|reflexivity]].
  - split; [apply IN; now left|]. apply Forall_forall. intros y Hy.
    assert (0 <= x). { assert (In x (r_s r)) as I by (apply IN; now left). apply In_nth with (d := 0) in I.
      destruct I as (k & Hk & <-). now apply Hp. }
    destruct (Req_dec y 0) as [->|N]; [assumption|].
    assert (I : In y (x :: l)) by (apply IN; split; assumption).
    apply StronglySorted_inv in SS. destruct SS as [_ F]. rewrite Forall_forall in F.
    destruct I as [<-|I]; [lra|]. specialize (F y I). lra.
  - pose proof (last_in l x) as I. apply IN in I. destruct I as [I1 I2]. split; [assumption|]. split; [assumption|].
    apply sorted_last in SS. rewrite Forall_forall in *. intros y Hy Ny. apply SS, IN. now split.
Qed.

Lemma warns_spec A r well w : is_svd A r -> fit_warns well (r_s (drop_zeros r)) = Ok w ->
  (w = true <-> well = true /\ exists smax smin, is_largest (r_s r) smax /\ is_smallest_nonzero (r_s r) smin /\ 10 ^ 8 < smax / smin).
Proof.
  intros H. unfold fit_warns. destruct well.
  2: { intros [= <-]. split; [discriminate|]. intros [F _]; discriminate. }
  destruct (cond_of _) as [c|] eqn:E; [|discriminate]. cbn [bind]. intros Hw.
  assert (w = negb (Rleb c (10 ^ 8))) as -> by congruence. clear Hw.
  destruct (cond_values _ _ _ H E) as (smax & smin & H1 & H2 & ->).
  unfold Rleb. destruct (Rle_dec (smax / smin) (10 ^ 8)) as [L|L]; cbn [negb].
  - split; [discriminate|]. intros (_ & a & b & [A1 A2] & (B1 & B2 & B3) & F). exfalso.
    destruct H1 as [C1 C2], H2 as (D1 & D2 & D3). rewrite Forall_forall in A2, B3, C2, D3.
    assert (a = smax) by (apply Rle_antisym; auto). assert (b = smin) by (apply Rle_antisym; auto). subst. lra.
  - split; [|reflexivity]. intros _. split; [reflexivity|]. exists smax, smin. split; [assumption|]. split; [assumption|]. lra.
Qed.
