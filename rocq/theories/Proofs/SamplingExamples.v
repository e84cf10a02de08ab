(** Concrete sampling objects that meet the hypotheses of the theorems. *)
From Coq Require Import String ZArith Arith Bool Reals Lia Lra.
From Coquelicot Require Import Coquelicot.
From Coq Require Import List Sorted Permutation.
From Verif.Model Require Import Base Util Num Poly FT SVE Basis Augment NDArray Sampling DLR.
From Verif.Spec Require Import SUtil SPoly SFT SBasis SSampling SDLR.
From Verif.Proofs Require Import BaseFacts SumFacts IntFacts LegFacts UtilFacts PPolyFacts PPolyInt PPolyExamples FTFacts FTModel FTCall FTProps BasisFacts BasisInit BasisOps BasisPhys
  SVEPolicy AugmentFacts AugmentProps NDFacts LstsqFacts SamplingFacts SplitFacts SamplingProps SamplingClaims RecoverFacts PointwiseFacts PointsFacts DLRFacts DLRProps.
Import ListNotations.
Open Scope R_scope.
Notation length := List.length.

(** ** Matrices with one column *)
Definition col_norm (A : mat) : R := sqrt (norm2 (mr A) (fun i => me A i 0)).
Definition col_svd (A : mat) : svd_result :=
  SVDRes (Mat (mr A) 1 (fun i _ => Cdiv (me A i 0%nat) (RtoC (col_norm A)))) [col_norm A] (Mat 1 1 (fun _ _ => RtoC 1)).

Lemma col_norm_pos A : mc A = 1%nat -> nonzero A -> 0 < col_norm A.
Proof.
  intros H (i & l & Hi & Hl & Hn). unfold col_norm. apply sqrt_lt_R0. assert (l = 0%nat) by lia. subst l.
  destruct (Rle_lt_or_eq_dec _ _ (norm2_nonneg (mr A) (fun i => me A i 0%nat))) as [P|E]; [exact P|].
  exfalso. apply Hn. apply (norm2_zero (mr A) (fun i => me A i 0%nat)); auto.
Qed.

Lemma conj_norm2 n g : csumn n (fun i => Cmult (Cconj (g i)) (g i)) = RtoC (norm2 n g).
Proof.
  unfold norm2. rewrite <- csumn_R. apply csumn_ext. intros i Hi. rewrite Cmod2_ReIm. apply C_eq; unfold Cconj, Cmult, RtoC; cbn [Re Im fst snd]; unfold Re, Im; ring.
Qed.

Lemma col_svd_ok A : mc A = 1%nat -> nonzero A -> is_svd A (col_svd A).
Proof.
  intros H Hn. pose proof (col_norm_pos A H Hn) as P.
  assert (Sq : col_norm A * col_norm A = norm2 (mr A) (fun i => me A i 0%nat)) by (apply sqrt_sqrt, norm2_nonneg).
  unfold is_svd, col_svd. cbn [r_u r_s r_vh mr mc me length]. rewrite H.
  split; [reflexivity|]. split; [reflexivity|]. split; [reflexivity|]. split; [reflexivity|]. split; [|split; [|split]].
  - intros k k' Hk Hk'. assert (k = 0%nat) by lia. assert (k' = 0%nat) by lia. subst. split.
    + rewrite (csumn_ext _ _ (fun i => Cmult (RtoC (/ norm2 (mr A) (fun i => me A i 0%nat))) (Cmult (Cconj (me A i 0%nat)) (me A i 0%nat)))).
      * rewrite csumn_scal, conj_norm2, <- RtoC_mult, Rinv_l; [reflexivity|]. rewrite <- Sq. nra.
      * intros i Hi. rewrite <- Sq. apply C_eq; unfold Cdiv, Cinv, Cconj, Cmult, RtoC; cbn [Re Im fst snd]; unfold Re, Im; field; lra.
    + cbn. apply C_eq; cbn; ring.
  - intros i l Hi Hl. assert (l = 0%nat) by lia. subst. cbn. field. apply RtoC_nz. lra.
  - intros k Hk. assert (k = 0%nat) by lia. subst. cbn. lra.
  - intros k Hk. lia.
Qed.

Lemma col_svd_real A : mc A = 1%nat -> nonzero A -> (forall i l, (i < mr A)%nat -> (l < 1)%nat -> Im (me A i l) = 0) -> is_real_svd A (col_svd A).
Proof.
  intros H Hn Hr. pose proof (col_norm_pos A H Hn) as P. split; [now apply col_svd_ok|]. cbn [col_svd r_u r_s r_vh me length]. split.
  - intros i k Hi Hk. specialize (Hr i 0%nat Hi ltac:(lia)). unfold Cdiv, Cinv, Cmult, RtoC. cbn [Re Im fst snd]. unfold Im in Hr. rewrite Hr. field. lra.
  - intros k l Hk Hl. reflexivity.
Qed.

Lemma col_rank A : mc A = 1%nat -> nonzero A -> full_rank A.
Proof.
  intros H (i & l & Hi & Hl & Hn) g Hg k Hk. assert (k = 0%nat) by lia. assert (l = 0%nat) by lia. subst. specialize (Hg i Hi).
  unfold apply_mat in Hg. rewrite H in Hg. cbn in Hg.
  apply Cmult_integral in Hg || idtac.
  destruct (Ceq_dec (g 0%nat) (RtoC 0)) as [E|N]; [exact E|]. exfalso.
  replace (Cplus (RtoC 0) (Cmult (me A i 0%nat) (g 0%nat))) with (Cmult (me A i 0%nat) (g 0%nat)) in Hg by ring.
  revert Hg. now apply Cmult_neq_0.
Qed.
Lemma real_rank A : full_rank A -> full_real_rank A.
Proof. intros H g _. apply H. Qed.

(** ** A basis with the functions x^2 and x *)
Lemma line_value x : -1 <= x <= 1 -> cval unit_geom line_col x = x.
Proof.
  intros Hx. rewrite (cval_seg unit_geom unit_geom_ok line_col 0).
  - unfold seg_fun, knot, unit_geom. simpl. rewrite legP_SS, legP_0, legP_1. simpl.
    replace (2 / (1 - -1)) with 1 by field. rewrite sqrt_1. field.
  - simpl. lia.
  - unfold knot. simpl. lra.
  - unfold knot, gxmax. simpl. destruct (Rlt_dec x 1); [auto|]. right. split; [auto|lra].
Qed.

Lemma ex_square : represents ex_poly 0 (fun x => x ^ 2).
Proof.
  apply represents_cval; [apply unit_geom_ok|cbn; lia|cbn; lia|]. exists square_col. split; [reflexivity|]. intros x Hx. apply square_value. exact Hx.
Qed.
Lemma ex_line : represents ex_poly 1 (fun x => x).
Proof.
  apply represents_cval; [apply unit_geom_ok|cbn; lia|cbn; lia|]. exists line_col. split; [reflexivity|]. intros x Hx. apply line_value. exact Hx.
Qed.

Lemma ex_basis_B_lam e : 1 / 2 < e <= 1 -> exists b, built no_compute b /\ bstat b = "B"%string /\ bbeta b = 2 /\ bwmax b = 3 /\ bsve b = ex_sve e /\ bsize b = 1%nat /\
  klam (bkernel b) = Some (2 * 3).
Proof.
  intros He. destruct (init_accepts no_compute "B" 2 3 (Some e) None None (ex_sve e) e) as (b & H1 & H2 & H3 & H4 & H5 & H6 & H7 & H8);
    auto; try lra; [apply ex_sve_ok|]. exists b. rewrite H8. split; auto. cbn [ex_sve ss]. rewrite (proj2 (ex_nabove _)) by lra.
  rewrite H7. repeat split; auto.
Qed.
Lemma ex_basis_B e : 1 / 2 < e <= 1 -> exists b, built no_compute b /\ bstat b = "B"%string /\ bbeta b = 2 /\ bwmax b = 3 /\ bsve b = ex_sve e /\ bsize b = 1%nat.
Proof. intros He. destruct (ex_basis_B_lam e He) as (b & H1 & H2 & H3 & H4 & H5 & H6 & _). exists b. auto 8. Qed.

(** Values of the functions of a built basis, by list. *)
Lemma u_values compute b ts (f : nat -> R -> R) : built compute b ->
  (forall l, (l < bsize b)%nat -> represents (bu b) l (f l)) -> Forall (fun t => 0 <= t <= bbeta b) ts ->
  sb_u (sb_of_basis b) ts = Ok (map (fun l => map (fun t => RtoC (f l t)) ts) (seq 0 (bsize b))).
Proof.
  intros Hb Hf Ht. destruct (bu_fresh compute b Hb) as (Hg & Hl & Hs). destruct (bu_range compute b Hb) as [R1 R2].
  cbn [sb_of_basis sb_u]. rewrite (proj2 (vcall_arr_ok (bu b) ts _ Hg Hl) (conj (eq_ind_r (fun z => Forall (fun x => z <= x <= _) ts) (eq_ind_r (fun z => Forall (fun x => _ <= x <= z) ts) Ht R2) R1) eq_refl)).
  cbn [bind]. f_equal. rewrite map_map. rewrite (map_by_index (Col (fun _ _ => 0) 0)), Hs. apply map_ext_in. intros l Hi. apply in_seq in Hi.
  rewrite map_map. apply map_ext_in. intros t It. f_equal.
  assert (HR := Hf l ltac:(lia)). apply represents_cval in HR; auto; [|lia]. destruct HR as (c & Ec & HR).
  rewrite (nth_error_nth_d _ _ _ _ Ec). apply HR. rewrite R1, R2. rewrite Forall_forall in Ht. auto.
Qed.

(** TauSampling of it at both ends of the interval. *)
Definition svd2 (A : mat) : svd_result :=
  SVDRes (Mat 2 2 (fun i j => Cdiv (me A i j) (RtoC (sqrt 2)))) [sqrt 2; sqrt 2] (Mat 2 2 delta).

Lemma svd2_ok A : mr A = 2%nat -> mc A = 2%nat ->
  me A 0%nat 0%nat = RtoC 1 -> me A 0%nat 1%nat = RtoC (-1) -> me A 1%nat 0%nat = RtoC 1 -> me A 1%nat 1%nat = RtoC 1 -> is_svd A (svd2 A) /\ full_rank A /\ nonzero A.
Proof.
  intros Hr Hc A00 A01 A10 A11. assert (S2 : sqrt 2 * sqrt 2 = 2) by (apply sqrt_sqrt; lra). assert (P : 0 < sqrt 2) by (apply sqrt_lt_R0; lra).
  split; [|split].
  - unfold is_svd, svd2. cbn [r_u r_s r_vh mr mc me length]. rewrite Hr, Hc.
    split; [reflexivity|]. split; [reflexivity|]. split; [reflexivity|]. split; [reflexivity|]. split; [|split; [|split]].
    + intros k k' Hk Hk'.
      destruct k as [|[|k]]; [| |lia]; destruct k' as [|[|k']]; [| |lia| | |lia]; split;
        unfold delta; cbn [csumn Nat.eqb]; rewrite ?A00, ?A01, ?A10, ?A11;
        apply C_eq; unfold Cdiv, Cinv, Cconj, Cmult, Cplus, RtoC; cbn [Re Im fst snd]; field_simplify; try lra;
        try (replace (sqrt 2 ^ 2) with 2 by (rewrite <- S2; ring); lra); 
        try (replace (sqrt 2 ^ 4) with 4 by (replace (sqrt 2 ^ 4) with ((sqrt 2 * sqrt 2) * (sqrt 2 * sqrt 2)) by ring; rewrite S2; ring); lra).
    + intros i l Hi Hl.
      destruct i as [|[|i]]; [| |lia]; destruct l as [|[|l]]; [| |lia| | |lia];
        unfold delta; cbn [csumn Nat.eqb nth]; rewrite ?A00, ?A01, ?A10, ?A11; apply C_eq; unfold Cdiv, Cinv, Cmult, Cplus, RtoC; cbn [Re Im fst snd]; field; lra.
    + intros k Hk. destruct k as [|[|k]]; [cbn; lra|cbn; lra|lia].
    + intros k Hk. destruct k as [|k]; [cbn; lra|lia].
  - intros g Hg. unfold apply_mat in Hg. rewrite Hr, Hc in Hg.
    pose proof (Hg 0%nat ltac:(lia)) as H0. pose proof (Hg 1%nat ltac:(lia)) as H1. cbn [csumn] in H0, H1. rewrite A00, A01 in H0. rewrite A10, A11 in H1.
    assert (R0 := f_equal Re H0). assert (I0 := f_equal Im H0). assert (R1 := f_equal Re H1). assert (I1 := f_equal Im H1).
    unfold Cmult, Cplus, RtoC in R0, I0, R1, I1; cbn [Re Im fst snd] in R0, I0, R1, I1.
    intros l Hl. rewrite Hc in Hl. destruct l as [|[|l]]; [| |lia]; apply C_eq; unfold Re, Im in *; cbn [fst snd RtoC]; lra.
  - exists 0%nat, 0%nat. rewrite Hr, Hc, A00. split; [lia|]. split; [lia|]. apply RtoC_nz. lra.
Qed.

Lemma tau_example st : st = "F"%string \/ st = "B"%string -> exists b s, built no_compute b /\ bstat b = st /\ bsize b = 2%nat /\
  tau_sampling svd2 (sb_of_basis b) [0; 2] = Ok s /\
  let A := d_a (ts_matrix s) in is_svd A (svd2 A) /\ full_rank A /\ nonzero A /\ mr A = 2%nat /\ mc A = 2%nat.
Proof.
  intros Hst. destruct (ex_basis_stat st Hst) as (b & Hb & Es & Eb & Er & Hs).
  set (f := fun (l : nat) (t : R) => match l with O => (t - 1) ^ 2 | _ => t - 1 end).
  assert (Hf : forall l, (l < bsize b)%nat -> represents (bu b) l (f l)).
  { intros l Hl. rewrite Hs in Hl. assert (Q : forall g : R -> R, represents (su (bsve b)) l g -> represents (bu b) l (fun t => sqrt (2 / bbeta b) * g (2 * t / bbeta b - 1))).
    { intros g Hg. apply (u_phys no_compute b Hb); [lia|exact Hg]. }
    rewrite Er in Q. rewrite Eb in Q. cbn [ex_sve su] in Q.
    assert (E1 : sqrt (2 / 2) = 1) by (replace (2 / 2) with 1 by field; apply sqrt_1).
    destruct l as [|[|l]]; [| |lia].
    - intros t Ht. rewrite (Q _ ex_square t Ht). f_equal. rewrite E1. unfold f. field.
    - intros t Ht. rewrite (Q _ ex_line t Ht). f_equal. rewrite E1. unfold f. field. }
  assert (U := u_values no_compute b [0; 2] f Hb Hf). rewrite Eb in U. specialize (U ltac:(repeat constructor; lra)). rewrite Hs in U.
  exists b. unfold tau_sampling. rewrite U. cbn [bind]. rewrite decomposed_none. cbn [bind]. eexists.
  split; [exact Hb|]. split; [exact Es|]. split; [exact Hs|]. split; [reflexivity|]. cbn [ts_matrix of_core d_a].
  cbv zeta. destruct (svd2_ok (sampling_matrix (length [0; 2]) (map (fun l => map (fun t => RtoC (f l t)) [0; 2]) (seq 0 2)))) as (H1 & H2 & H3);
    try reflexivity; try (cbn; f_equal; unfold f; ring).
  auto.
Qed.

(** MatsubaraSampling of a basis of one function, at the frequencies 0 and 2. *)
Lemma mats_example_lam pos : exists b s M, built no_compute b /\ bstat b = "B"%string /\ bsize b = 1%nat /\
  ft_call (buhat b) [0%Z; 2%Z] = Ok M /\
  let A := sampling_matrix 2 M in
  matsubara_sampling col_svd (sb_of_basis b) [0%Z; 2%Z] pos = Ok s /\ m_a (ms_matrix s) = A /\
  nonzero A /\ mc A = 1%nat /\ is_svd A (col_svd A) /\ full_rank A /\
  zero_row_real [0%Z; 2%Z] A /\ is_real_svd (stacked A 1) (col_svd (stacked A 1)) /\ full_real_rank A /\
  klam (bkernel b) = Some (2 * 3) /\ bbeta b = 2.
Proof.
  destruct (ex_basis_B_lam 1 ltac:(lra)) as (b & Hb & Es & Eb & Ew & Er & Hs & Hlam6).
  pose proof (uhat_pointwise no_compute b Hb) as HP.
  destruct (buhat_shape no_compute b Hb) as (q & ms & Hq & Hfq & Hg & Ho & Hl & _).
  assert (Q : q = FEven) by (rewrite Es in Hq; cbn in Hq; congruence).
  assert (Hok : forall n, Z.even n = true -> is_ok (ft_call (buhat b) [n])).
  { intros n Hn. eexists. apply ft_call_ok; auto; [apply Hg|]. rewrite Hfq, Q. constructor; [exact Hn|constructor]. }
  destruct (proj2 (proj1 (HP [0%Z; 2%Z]))) as [M HM].
  { intros n [<-|[<-|[]]]; now apply Hok. }
  destruct (proj2 (HP _) M HM) as [LM RM]. rewrite Hs in LM.
  exists b. unfold matsubara_sampling. cbn [sb_of_basis sb_uhat]. rewrite HM. cbn [bind length].
  set (A := sampling_matrix 2 M).
  assert (MC : mc A = 1%nat) by exact LM.
  destruct M as [|row [|row' M]]; try discriminate.
  assert (Row := RM 0%nat row eq_refl). cbn [map] in Row.
  assert (A0 : me A 0%nat 0%nat = at_point (RtoC 0) (ft_call (buhat b)) 0%Z 0) by (unfold A; cbn; rewrite Row; reflexivity).
  assert (Z0 : zero_row_real [0%Z; 2%Z] A).
  { intros _ l Hl'. assert (l = 0%nat) by lia. subst. rewrite A0. eapply zero_freq_real; eauto. }
  assert (NZ : nonzero A).
  { exists 0%nat, 0%nat. cbn [A sampling_matrix mr mc]. split; [lia|]. split; [cbn; lia|]. fold A. rewrite A0.
    assert (HF : represents (bu b) 0 (fun t => sqrt (2 / bbeta b) * (2 * t / bbeta b - 1) ^ 2)).
    { apply (u_phys no_compute b Hb 0 (fun x => x ^ 2)); [lia|]. rewrite Er. apply ex_square. }
    destruct (Hok 0%Z eq_refl) as [M0 HM0].
    destruct (built_inv no_compute b Hb) as (lam & q' & f & f' & _ & _ & _ & _ & Hlam & Hp & _).
    destruct (uhat_phys no_compute b Hb lam 0 _ [0%Z] M0 0 0%Z Hlam HM0 ltac:(lia) eq_refl ltac:(rewrite Rabs_R0; lra) HF) as (v & Ev & HR & _).
    assert (Ep : at_point (RtoC 0) (ft_call (buhat b)) 0%Z 0 = v).
    { unfold at_point. rewrite HM0. unfold entry in Ev. destruct (nth_error M0 0) as [r0|] eqn:E0; [|discriminate].
      rewrite (nth_error_nth_d _ _ _ [] E0). now apply nth_error_nth_d. }
    rewrite Ep. intros Ev0. rewrite Ev0 in HR. cbn [Re RtoC fst] in HR. rewrite Eb in HR.
    assert (HI : is_RInt (fun x => cos (PI * 0 * x / 2) * (sqrt (2 / 2) * (2 * x / 2 - 1) ^ 2)) 0 2 (2 / 3)).
    { eapply is_RInt_eq; [eapply is_RInt_fext; [|apply (is_RInt_deriv (fun x => (x - 1) ^ 3 / 3) (fun x => (x - 1) ^ 2))]|].
      - intros t. cbv beta. replace (PI * 0 * t / 2) with 0 by (unfold Rdiv; ring). rewrite cos_0. replace (2 / 2) with 1 by field. rewrite sqrt_1. field.
      - intros t. auto_derive; auto. field.
      - intros t. apply (ex_derive_continuous (fun x => (x - 1) ^ 2)). auto_derive; auto.
      - field. }
    apply (is_RInt_unique (V := R_CompleteNormedModule)) in HI, HR. rewrite HI in HR. revert HR. unfold Re, RtoC; cbn. lra. }
  assert (SC : mc (stacked A 1) = 1%nat) by exact MC.
  assert (SN : nonzero (stacked A 1)).
  { apply stacked_nonzero; auto; [cbn; lia|]. intros i l Hi Hl'. assert (i = 0%nat) by lia. subst. now apply Z0. }
  assert (SR : is_real_svd (stacked A 1) (col_svd (stacked A 1))) by (apply col_svd_real; auto).
  assert (FR := col_rank A MC NZ).
  destruct pos.
  - change (if (0 =? 0)%Z then 1%nat else 0%nat) with 1%nat.
    rewrite (split_decomposed_ok col_svd A (0 =? 0)%Z) by exact SR. cbn [bind]. eexists. exists [row]. split; [exact Hb|]. split; [exact Es|]. split; [exact Hs|].
    split; [reflexivity|]. fold A. split; [reflexivity|]. split; [reflexivity|]. split; [exact NZ|]. split; [exact MC|].
    split; [now apply col_svd_ok|]. split; [exact FR|]. split; [exact Z0|]. split; [exact SR|]. split; [now apply real_rank|]. auto.
  - rewrite decomposed_none. cbn [bind]. eexists. exists [row]. split; [exact Hb|]. split; [exact Es|]. split; [exact Hs|].
    split; [reflexivity|]. fold A. split; [reflexivity|]. split; [reflexivity|]. split; [exact NZ|]. split; [exact MC|].
    split; [now apply col_svd_ok|]. split; [exact FR|]. split; [exact Z0|]. split; [exact SR|]. split; [now apply real_rank|]. auto.
Qed.

Lemma mats_example pos : exists b s M, built no_compute b /\ bstat b = "B"%string /\ bsize b = 1%nat /\
  ft_call (buhat b) [0%Z; 2%Z] = Ok M /\
  let A := sampling_matrix 2 M in
  matsubara_sampling col_svd (sb_of_basis b) [0%Z; 2%Z] pos = Ok s /\ m_a (ms_matrix s) = A /\
  nonzero A /\ mc A = 1%nat /\ is_svd A (col_svd A) /\ full_rank A /\
  zero_row_real [0%Z; 2%Z] A /\ is_real_svd (stacked A 1) (col_svd (stacked A 1)) /\ full_real_rank A.
Proof.
  destruct (mats_example_lam pos) as (b & s & M & H1 & H2 & H3 & H4 & H5 & H6 & H7 & H8 & H9 & H10 & H11 & H12 & H13 & _). exists b, s, M.
  repeat (split; [assumption|]). assumption.
Qed.

(** A DLR with one pole. *)
Lemma dlr_example : exists d, built no_compute (dl_basis d) /\ bsize (dl_basis d) = 2%nat /\ dl_poles d = [bwmax (dl_basis d)] /\ dlr_built col_svd d /\
  let F := d_a (dl_matrix d) in is_svd F (col_svd F) /\ full_rank F /\ mr F = 2%nat /\ mc F = 1%nat.
Proof.
  destruct (ex_basis_stat "F" ltac:(now left)) as (b & Hb & Es & Eb & Er & Hs).
  destruct (bv_fresh no_compute b Hb) as (Hg & Hl & Hv). destruct (bv_range no_compute b Hb) as [R1 R2].
  pose proof (wmax_pos no_compute b Hb) as Pw. pose proof (beta_pos no_compute b Hb) as Pb.
  assert (Ok1 : exists d, dlr_init col_svd b true [bwmax b] = Ok d).
  { unfold dlr_init, taupoles_init. cbn [negb map rmax_list bind].
    assert (FV : Forall (fun x => gxmin (vgeom (bv b)) <= x <= gxmax (vgeom (bv b))) [bwmax b]) by (rewrite R1, R2; constructor; [lra|constructor]).
    rewrite (proj2 (vcall_arr_ok (bv b) [bwmax b] _ Hg Hl) (conj FV eq_refl)). cbn [bind length].
    unfold decomposed. set (F := dlr_matrix _ _ _).
    assert (E : check_svd_result [mr (r_u (col_svd F)); mc (r_u (col_svd F))] [length (r_s (col_svd F))] [mr (r_vh (col_svd F)); mc (r_vh (col_svd F))] (Some (mr F, mc F)) = Ok (mr F, 1%nat, 1%nat)).
    { unfold check_svd_result. cbn [col_svd r_u r_s r_vh mr mc length F dlr_matrix]. rewrite !Nat.eqb_refl. reflexivity. }
    rewrite E. cbn [bind]. eexists. reflexivity. }
  destruct Ok1 as [d Hd]. exists d.
  destruct (dlr_inv no_compute col_svd b [bwmax b] d Hb Hd) as (m & F & Ed & Ep & _ & _ & _ & _ & EM & HF1 & HF2 & HF).
  rewrite Ed, EM. cbn [of_core d_a]. split; [exact Hb|]. split; [exact Hs|]. split; [exact Ep|].
  split; [unfold dlr_built; now rewrite Ed, Ep|].
  assert (NZ : nonzero F).
  { exists 0%nat, 0%nat. rewrite HF1, HF2, Hs. split; [lia|]. split; [cbn; lia|].
    rewrite (HF 0%nat 0%nat (fun w => (fun x => x ^ 2) (w / bwmax b) / sqrt (bwmax b))); [|lia|cbn; lia|].
    2: { apply (v_phys no_compute b Hb 0 (fun x => x ^ 2)); [lia|]. rewrite Er. apply ex_square. }
    apply RtoC_nz. cbn [nth]. rewrite (bs_eq no_compute b Hb), Hs, Er. cbn [ex_sve ss firstn map nth].
    assert (0 < sqrt (bwmax b)) by (now apply sqrt_lt_R0).
    assert (SP : 0 < sfactor (bbeta b) (bwmax b) (kyp (bkernel b))).
    { unfold sfactor. apply Rmult_lt_0_compat; [apply sqrt_lt_R0; nra|]. apply powerRZ_lt. exact Pw. }
    replace (bwmax b / bwmax b) with 1 by (field; lra). intros E.
    assert (E' : sfactor (bbeta b) (bwmax b) (kyp (bkernel b)) * / sqrt (bwmax b) = 0) by (replace 0 with (- 0) by ring; rewrite <- E; field; lra).
    assert (0 < / sqrt (bwmax b)) by (now apply Rinv_0_lt_compat). nra. }
  split; [apply col_svd_ok; auto|]. split; [apply col_rank; auto|]. split; [now rewrite HF1|exact HF2].
Qed.

(** ** Warnings *)
Definition two_basis : sbasis :=
  SBasis (fun ts => Ok [map (fun t => RtoC (1 - t)) ts; map (fun t => RtoC (t / 10 ^ 9)) ts]) (fun _ => Ok [[]; []]) true.
Definition diag_svd (A : mat) : svd_result := SVDRes (Mat 2 2 delta) [1; / 10 ^ 9] (Mat 2 2 delta).

Lemma fit_exists svd b pts s : tau_sampling svd b pts = Ok s ->
  let A := d_a (ts_matrix s) in is_svd A (svd A) -> nonzero A ->
  exists w y, t_fit svd s (vector (mr A) (fun _ => RtoC 1)) (Some 0%Z) None = Ok (w, y).
Proof.
  intros Hs A HS HN. destruct (tau_fit svd b pts s Hs HS HN) as (f & _ & W & _). specialize (W (vector (mr A) (fun _ => RtoC 1)) 0%Z).
  cbv beta in W. cbn [vector shp length] in W. change (axis_of 1 0) with (Some 0%nat) in W. cbv iota in W. cbn [nth] in W.
  fold A in W. rewrite Nat.eqb_refl in W. destruct W as (y & E & _). apply coeffs_ok in E. destruct E as [w E]. eauto.
Qed.

Lemma warning_examples :
  (exists b s x w y, built no_compute b /\ tau_sampling svd2 (sb_of_basis b) [0; 2] = Ok s /\ is_svd (d_a (ts_matrix s)) (svd2 (d_a (ts_matrix s))) /\
     t_fit svd2 s x (Some 0%Z) None = Ok (w, y) /\ w = false) /\
  (exists s x y, tau_sampling diag_svd two_basis [0; 1] = Ok s /\ is_svd (d_a (ts_matrix s)) (diag_svd (d_a (ts_matrix s))) /\
     t_fit diag_svd s x (Some 0%Z) None = Ok (true, y)).
Proof.
  split.
  - destruct (tau_example "F" (or_introl eq_refl)) as (b & s & Hb & _ & _ & Hs & H1 & _ & H2 & _). cbv zeta in H1, H2.
    destruct (fit_exists _ _ _ _ Hs H1 H2) as (w & y & E). exists b, s. eexists. exists w, y. split; [exact Hb|]. split; [exact Hs|].
    split; [exact H1|]. split; [exact E|]. destruct w; [|reflexivity]. exfalso.
    destruct (proj1 (tau_warns _ _ _ _ _ _ _ _ Hs H1 E) eq_refl) as (_ & smax & smin & [I1 _] & (I2 & _) & L).
    cbn [svd2 r_s] in I1, I2. assert (P : 0 < sqrt 2) by (apply sqrt_lt_R0; lra).
    assert (smax = sqrt 2) as -> by (destruct I1 as [<-|[<-|[]]]; reflexivity).
    assert (smin = sqrt 2) as -> by (destruct I2 as [<-|[<-|[]]]; reflexivity).
    replace (sqrt 2 / sqrt 2) with 1 in L by (field; lra). lra.
  - assert (Es : exists s, tau_sampling diag_svd two_basis [0; 1] = Ok s) by (unfold tau_sampling; cbn [sb_u two_basis bind]; rewrite decomposed_none; eexists; reflexivity).
    destruct Es as [s Hs]. destruct (tau_sampling_inv _ _ _ _ Hs) as (M & HM & Es). cbn [sb_u two_basis] in HM.
    assert (HA : d_a (ts_matrix s) = sampling_matrix 2 M) by (rewrite Es; reflexivity).
    assert (EM : M = [map (fun t => RtoC (1 - t)) [0; 1]; map (fun t => RtoC (t / 10 ^ 9)) [0; 1]]) by congruence.
    assert (T : 0 < / 10 ^ 9) by (apply Rinv_0_lt_compat; lra).
    assert (HS : is_svd (d_a (ts_matrix s)) (diag_svd (d_a (ts_matrix s)))).
    { rewrite HA, EM. unfold is_svd, diag_svd. cbn [r_u r_s r_vh mr mc me length sampling_matrix].
      repeat match goal with |- _ /\ _ => split end; try reflexivity.
      - intros k k' Hk Hk'. destruct k as [|[|k]]; [| |lia]; destruct k' as [|[|k']]; [| |lia| | |lia]; split;
          unfold delta; cbn [csumn Nat.eqb]; apply C_eq; unfold Cconj, Cmult, Cplus, RtoC; cbn [Re Im fst snd]; ring.
      - intros i l Hi Hl. destruct i as [|[|i]]; [| |lia]; destruct l as [|[|l]]; [| |lia| | |lia];
          unfold delta; cbn [csumn Nat.eqb nth map]; apply C_eq; unfold Cmult, Cplus, RtoC; cbn [Re Im fst snd]; field.
      - intros k Hk. destruct k as [|[|k]]; [cbn; lra|cbn [nth]; lra|lia].
      - intros k Hk. destruct k as [|k]; [|lia]. cbn [nth]. apply Rmult_le_reg_l with (10 ^ 9); [lra|]. rewrite Rinv_r by lra. lra. }
    assert (HN : nonzero (d_a (ts_matrix s))).
    { rewrite HA, EM. exists 0%nat, 0%nat. cbn [sampling_matrix mr mc me nth map length]. split; [lia|]. split; [lia|]. apply RtoC_nz. lra. }
    destruct (fit_exists _ _ _ _ Hs HS HN) as (w & y & E). exists s. eexists. exists y. split; [exact Hs|]. split; [exact HS|].
    assert (w = true) as ->; [|exact E]. apply (tau_warns _ _ _ _ _ _ _ _ Hs HS E). split; [reflexivity|].
    exists 1, (/ 10 ^ 9). cbn [diag_svd r_s]. split; [|split].
    + split; [now left|]. constructor; [lra|]. constructor; [|constructor]. apply Rmult_le_reg_l with (10 ^ 9); [lra|]. rewrite Rinv_r by lra. lra.
    + split; [right; now left|]. split; [lra|]. constructor; [intros _|constructor; [intros _; lra|constructor]].
      apply Rmult_le_reg_l with (10 ^ 9); [lra|]. rewrite Rinv_r by lra. lra.
    + unfold Rdiv. rewrite Rinv_inv. lra.
Qed.
