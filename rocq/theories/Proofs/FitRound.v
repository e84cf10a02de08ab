(** Least squares by a computed decomposition, in rounded arithmetic. *)
From Coq Require Import ZArith Arith Bool Reals Lra Lia Psatz.
From Coquelicot Require Import Coquelicot.
From Coq Require Import List.
From Verif.Model Require Import Base Num FT NDArray Sampling SamplingIEEE.
From Verif.Spec Require Import SSampling SSamplingIEEE.
From Verif.Proofs Require Import SumFacts FTFacts FTModel LstsqFacts SvdExists RoundedSVE DLRProps CVec.
Import ListNotations.
Open Scope R_scope.
Notation length := List.length.

Lemma apply_sub M g h i : apply_mat M (vsub g h) i = Cminus (apply_mat M g i) (apply_mat M h i).
Proof. unfold apply_mat. rewrite <- csumn_minus. apply csumn_ext. intros l _. unfold vsub. ring. Qed.
Lemma apply_add M g h i : apply_mat M (vadd g h) i = Cplus (apply_mat M g i) (apply_mat M h i).
Proof. unfold apply_mat. rewrite <- csumn_plus. apply csumn_ext. intros l _. unfold vadd. ring. Qed.
Lemma apply_ext M g h i : (forall l, (l < mc M)%nat -> g l = h l) -> apply_mat M g i = apply_mat M h i.
Proof. intros H. apply csumn_ext. intros l Hl. now rewrite H. Qed.
Lemma Cmod_Re_le z : Rabs (Re z) <= Cmod z.
Proof. eapply Rle_trans; [|apply Rmax_Cmod]. apply Rmax_l. Qed.
Lemma Cmod_Im_le z : Rabs (Im z) <= Cmod z.
Proof. eapply Rle_trans; [|apply Rmax_Cmod]. apply Rmax_r. Qed.

(** A vector with small components relative to products. *)
Lemma near_size M g x gam th b : 0 <= gam -> 0 <= th -> 
  (forall i, (i < mr M)%nat -> Cmod (Cminus (x i) (apply_mat M g i)) <= gam * sumn (mc M) (fun l => Cmod (me M i l) * Cmod (g l)) + th) ->
  frob M <= b -> size (mr M) (vsub x (apply_mat M g)) <= gam * b * size (mc M) g + sqrt (INR (mr M)) * th.
Proof.
  intros Hg Ht H Hb. eapply Rle_trans; [apply (size_by _ _ _ H)|].
  assert (P : forall i, 0 <= sumn (mc M) (fun l => Cmod (me M i l) * Cmod (g l))) by (intros; apply sumn_nonneg; intros; apply Rmult_le_pos; apply Cmod_ge_0).
  eapply Rle_trans; [apply rsize_plus; intros; [apply Rmult_le_pos; auto|exact Ht]|]. rewrite rsize_scal, rsize_const by assumption.
  apply Rplus_le_compat_r. pose proof (abs_apply M g) as Q. pose proof (size_pos (mc M) g). rewrite Rmult_assoc. apply Rmult_le_compat_l; [exact Hg|].
  eapply Rle_trans; [exact Q|]. apply Rmult_le_compat_r; assumption.
Qed.

Lemma hprod_scal_r n k g h : hprod n g (fun i => Cmult (RtoC k) (h i)) = Cmult (RtoC k) (hprod n g h).
Proof. unfold hprod. rewrite <- csumn_scal. apply csumn_ext. intros; ring. Qed.
Lemma hprod_scal_l n (s : nat -> R) g h : hprod n (fun i => Cmult (RtoC (s i)) (g i)) h = hprod n g (fun i => Cmult (RtoC (s i)) (h i)).
Proof. unfold hprod. apply csumn_ext. intros i _. rewrite Cmult_conj. replace (Cconj (RtoC (s i))) with (RtoC (s i)); [ring|]. unfold Cconj, RtoC. cbn. f_equal. ring. Qed.
Lemma hprod_sub_l n g g' h : hprod n (vsub g g') h = Cminus (hprod n g h) (hprod n g' h).
Proof. unfold hprod. rewrite <- csumn_minus. apply csumn_ext. intros i _. unfold vsub. replace (Cconj (Cminus (g i) (g' i))) with (Cminus (Cconj (g i)) (Cconj (g' i))); [ring|]. apply injective_projections; unfold Cconj, Cminus, Copp, Cplus; cbn; ring. Qed.

(** If moving along v does not shorten rho, v and rho are orthogonal. *)
Lemma stationary n v rho : (forall t : R, norm2 n rho <= norm2 n (fun i => Cplus (rho i) (Cmult (RtoC t) (v i)))) -> Re (hprod n v rho) = 0.
Proof.
  intros H.
  assert (E : forall t, norm2 n (fun i => Cplus (rho i) (Cmult (RtoC t) (v i))) = norm2 n rho + 2 * t * Re (hprod n v rho) + t * t * norm2 n v).
  { intros t. unfold hprod. rewrite Re_csumn. unfold norm2. rewrite <- !sumn_scal, <- !sumn_plus. apply sumn_ext. intros i _.
    rewrite !Cmod2_ReIm. unfold Cmult, Cconj, Cplus, RtoC, Re, Im. cbn [fst snd]. ring. }
  set (p := Re (hprod n v rho)) in *. pose proof (norm2_nonneg n v) as V. set (q := norm2 n v) in *.
  destruct (Req_dec p 0) as [|Np]; [assumption|exfalso].
  specialize (H (- p / (q + 1))). rewrite E in H.
  assert (D : 0 < q + 1) by lra.
  assert (F : 2 * (- p / (q + 1)) * p + - p / (q + 1) * (- p / (q + 1)) * q = - (p * p) * (q + 2) / ((q + 1) * (q + 1))) by (field; lra).
  assert (P2 : 0 < p * p) by nra.
  assert (0 < (p * p) * (q + 2) / ((q + 1) * (q + 1))).
  { apply Rdiv_lt_0_compat; [apply Rmult_lt_0_compat; lra|apply Rmult_lt_0_compat; lra]. }
  replace (- (p * p) * (q + 2) / ((q + 1) * (q + 1))) with (- ((p * p) * (q + 2) / ((q + 1) * (q + 1)))) in F by (field; lra). lra.
Qed.

Section Fit.
Variables (A : mat) (r : svd_result) (a c d lo hi : R).
Hypothesis HD : decomposes A r a c d lo hi.
Hypothesis Ha : a <= 1 / 10.
Hypothesis Hc : c <= 1 / 10.

Let U := r_u r.
Let W := r_vh r.
Let V := adjoint (r_vh r).
Let s (k : nat) : R := nth k (r_s r) 0.
Let n := mc A.
Let m := mr A.

Lemma s_range k : (k < n)%nat -> lo <= s k <= hi.
Proof. unfold decomposes in HD. intros H. apply HD. exact H. Qed.
Lemma lo_pos : 0 < lo <= hi. Proof. unfold decomposes in HD; tauto. Qed.
Lemma a_pos : 0 <= a. Proof. unfold decomposes, nearly_isometric in HD; tauto. Qed.
Lemma c_pos : 0 <= c. Proof. unfold decomposes, nearly_isometric in HD; tauto. Qed.
Lemma d_pos : 0 <= d. Proof. unfold decomposes in HD; tauto. Qed.

Lemma shapes : mr U = m /\ mc U = n /\ mr W = n /\ mc W = n /\ mr V = n /\ mc V = n.
Proof. unfold decomposes in HD. destruct HD as (H1 & H2 & _ & H3 & H4 & _). unfold U, W, V, m, n. cbn [adjoint mr mc]. repeat (split; [assumption|]); assumption. Qed.

Lemma root_small e : 0 <= e -> e <= 1 / 10 -> sqrt (1 + e) <= 105 / 100.
Proof. intros. replace (105 / 100) with (sqrt (105 / 100 * (105 / 100))) by (apply sqrt_square; lra). apply sqrt_le_1_alt. lra. Qed.
Lemma sq_root e : 0 <= e -> sqrt (1 + e) * sqrt (1 + e) = 1 + e.
Proof. intros. apply sqrt_sqrt. lra. Qed.

(** Norms of the factors: 21/20 and the sharper 11/10 for two of them. *)
Lemma U_adj x : size n (apply_mat (adjoint U) x) <= 105 / 100 * size m x.
Proof.
  destruct shapes as (E1 & E2 & _). unfold decomposes in HD. destruct HD as (_ & _ & _ & _ & _ & HU & _). fold U in HU.
  pose proof (iso_adjoint U a HU x) as H. rewrite E1, E2 in H. eapply Rle_trans; [exact H|]. apply Rmult_le_compat_r; [apply size_pos|]. apply root_small; [apply a_pos|exact Ha].
Qed.
Lemma U_app g : size m (apply_mat U g) <= 105 / 100 * size n g.
Proof.
  destruct shapes as (E1 & E2 & _). unfold decomposes in HD. destruct HD as (_ & _ & _ & _ & _ & HU & _). fold U in HU.
  pose proof (iso_apply U a HU g) as H. rewrite E1, E2 in H. eapply Rle_trans; [exact H|]. apply Rmult_le_compat_r; [apply size_pos|]. apply root_small; [apply a_pos|exact Ha].
Qed.
Lemma W_app g : size n (apply_mat W g) <= 105 / 100 * size n g.
Proof.
  destruct shapes as (_ & _ & E1 & E2 & _). unfold decomposes in HD. destruct HD as (_ & _ & _ & _ & _ & _ & HW & _). fold W in HW.
  pose proof (iso_apply W c HW g) as H. rewrite E1, E2 in H. eapply Rle_trans; [exact H|]. apply Rmult_le_compat_r; [apply size_pos|]. apply root_small; [apply c_pos|exact Hc].
Qed.
Lemma V_app g : size n (apply_mat V g) <= 105 / 100 * size n g.
Proof.
  destruct shapes as (_ & _ & E1 & E2 & _). unfold decomposes in HD. destruct HD as (_ & _ & _ & _ & _ & _ & HW & _). fold W in HW.
  pose proof (iso_adjoint W c HW g) as H. rewrite E1, E2 in H. eapply Rle_trans; [exact H|]. apply Rmult_le_compat_r; [apply size_pos|]. apply root_small; [apply c_pos|exact Hc].
Qed.
Lemma U_frob : frob (adjoint U) <= sqrt (INR n) * (105 / 100).
Proof.
  destruct shapes as (E1 & E2 & _). rewrite frob_adjoint, <- E2. apply frob_le; [lra|]. intros g. rewrite E1, E2. apply U_app.
Qed.
Lemma V_frob : frob V <= sqrt (INR n) * (105 / 100).
Proof.
  destruct shapes as (_ & _ & _ & _ & E1 & E2). rewrite <- E2. apply frob_le; [lra|]. intros g. rewrite E1, E2. apply V_app.
Qed.

(** The exact pseudo-inverse of the decomposition. *)
Definition over (x : nat -> C) (k : nat) : C := Cdiv (x k) (RtoC (s k)).
Definition pinv (x : nat -> C) : nat -> C := apply_mat V (over (apply_mat (adjoint U) x)).

Lemma over_size x : size n (over x) <= / lo * size n x.
Proof.
  pose proof lo_pos as [Lp _]. apply size_cmp; [left; apply Rinv_0_lt_compat; exact Lp|]. intros k Hk. unfold over. pose proof (s_range k Hk).
  assert (Nz : s k <> 0) by lra. assert (RtoC (s k) <> RtoC 0) by (intros Q; apply Nz; injection Q; auto).
  rewrite Cmod_div by assumption. rewrite Cmod_R, (Rabs_pos_eq (s k)) by lra. unfold Rdiv. rewrite Rmult_comm. apply Rmult_le_compat_r; [apply Cmod_ge_0|]. apply Rinv_le_contravar; lra.
Qed.
Lemma over_sub x y k : over (vsub x y) k = Cminus (over x k) (over y k).
Proof. unfold over, vsub. unfold Cdiv. ring. Qed.

Section Round.
Variables (g1 th1 g2 th2 u eta : R) (x rh tt y : nat -> C).
Hypothesis P1 : 0 <= g1.
Hypothesis P2 : 0 <= th1.
Hypothesis P3 : 0 <= g2.
Hypothesis P4 : 0 <= th2.
Hypothesis P5 : 0 <= u.
Hypothesis P6 : 0 <= eta.
Hypothesis Q2 : g2 * sqrt (INR n) <= 1 / 100.
Hypothesis Q5 : u <= 1 / 10000.
Hypothesis H1 : forall k, (k < n)%nat -> Cmod (Cminus (rh k) (apply_mat (adjoint U) x k)) <= g1 * sumn m (fun i => Cmod (me (adjoint U) k i) * Cmod (x i)) + th1.
Hypothesis H2 : forall k, (k < n)%nat -> Cmod (Cminus (tt k) (over rh k)) <= u * Cmod (over rh k) + eta.
Hypothesis H3 : forall l, (l < n)%nat -> Cmod (Cminus (y l) (apply_mat V tt l)) <= g2 * sumn n (fun k => Cmod (me V l k) * Cmod (tt k)) + th2.

Lemma round_part : size n (vsub y (pinv x)) <=
  3 / 2 * (((g1 + g2) * sqrt (INR n) + u) * size m x / lo + sqrt (INR n) * (th1 / lo + th2 + eta)).
Proof.
  destruct shapes as (E1 & E2 & _ & _ & E5 & E6). pose proof lo_pos as [Lp _]. set (q := sqrt (INR n)) in *. assert (Hq : 0 <= q) by apply sqrt_pos.
  set (X := size m x). assert (HX : 0 <= X) by apply size_pos. pose proof (Rinv_0_lt_compat lo Lp) as Li. set (li := / lo) in *.
  set (r0 := apply_mat (adjoint U) x).
  assert (S1 : size n (vsub rh r0) <= g1 * (q * (105 / 100)) * X + q * th1).
  { pose proof (near_size (adjoint U) x rh g1 th1 (q * (105 / 100)) P1 P2) as N. cbn [adjoint mr mc] in N. rewrite E1, E2 in N. apply N; [exact H1|exact U_frob]. }
  assert (S0 : size n r0 <= 105 / 100 * X) by apply U_adj.
  assert (S2 : size n rh <= 105 / 100 * X + (g1 * (q * (105 / 100)) * X + q * th1)) by (eapply Rle_trans; [apply (size_close n rh r0)|]; lra).
  assert (S3 : size n (vsub tt (over rh)) <= u * (li * size n rh) + q * eta).
  { eapply Rle_trans; [apply (size_by n _ _ H2)|]. eapply Rle_trans; [apply rsize_plus; intros; [apply Rmult_le_pos; [exact P5|apply Cmod_ge_0]|exact P6]|].
    rewrite rsize_scal, rsize_const, rsize_mod by assumption. apply Rplus_le_compat_r. apply Rmult_le_compat_l; [exact P5|]. apply over_size. }
  assert (S4 : size n (vsub (over rh) (over r0)) <= li * size n (vsub rh r0)).
  { eapply Rle_trans; [|apply over_size]. right. apply size_ext. intros i _. rewrite over_sub. reflexivity. }
  set (e1 := g1 * (q * (105 / 100)) * X + q * th1) in *.
  assert (He1 : 0 <= e1) by (apply Rplus_le_le_0_compat; [apply Rmult_le_pos; [apply Rmult_le_pos; [exact P1|lra]|exact HX]|apply Rmult_le_pos; assumption]).
  assert (S5 : size n (vsub tt (over r0)) <= u * (li * (105 / 100 * X + e1)) + q * eta + li * e1).
  { eapply Rle_trans; [apply (size_tri n tt (over rh))|].
    assert (u * (li * size n rh) <= u * (li * (105 / 100 * X + e1))) by (apply Rmult_le_compat_l; [exact P5|apply Rmult_le_compat_l; lra]).
    assert (li * size n (vsub rh r0) <= li * e1) by (apply Rmult_le_compat_l; lra). lra. }
  set (e2 := u * (li * (105 / 100 * X + e1)) + q * eta + li * e1) in *.
  assert (HlX : 0 <= li * X) by (apply Rmult_le_pos; lra). assert (Hle1 : 0 <= li * e1) by (apply Rmult_le_pos; lra).
  assert (Hqe : 0 <= q * eta) by (apply Rmult_le_pos; lra).
  assert (He2 : 0 <= e2).
  { unfold e2. assert (0 <= u * (li * (105 / 100 * X + e1))) by (apply Rmult_le_pos; [exact P5|apply Rmult_le_pos; lra]). lra. }
  assert (S6 : size n tt <= li * (105 / 100 * X) + e2).
  { eapply Rle_trans; [apply (size_close n tt (over r0))|]. apply Rplus_le_compat; [|exact S5]. eapply Rle_trans; [apply over_size|]. apply Rmult_le_compat_l; lra. }
  assert (S7 : size n (vsub y (apply_mat V tt)) <= g2 * (q * (105 / 100)) * size n tt + q * th2).
  { pose proof (near_size V tt y g2 th2 (q * (105 / 100)) P3 P4) as N. rewrite E5, E6 in N. apply N; [exact H3|exact V_frob]. }
  assert (S8 : size n (vsub (apply_mat V tt) (pinv x)) <= 105 / 100 * e2).
  { eapply Rle_trans; [|apply Rmult_le_compat_l; [lra|exact S5]]. eapply Rle_trans; [|apply V_app]. right. apply size_ext. intros i _. rewrite apply_sub. reflexivity. }
  eapply Rle_trans; [apply (size_tri n y (apply_mat V tt))|].
  (* collect *)
  assert (B1 : g2 * (q * (105 / 100)) * size n tt <= 105 / 100 * (g2 * q * (li * (105 / 100 * X))) + 105 / 100 * (1 / 100 * e2)).
  { replace (g2 * (q * (105 / 100)) * size n tt) with (105 / 100 * (g2 * q * size n tt)) by ring. rewrite <- Rmult_plus_distr_l. apply Rmult_le_compat_l; [lra|].
    assert (G : 0 <= g2 * q) by (apply Rmult_le_pos; assumption).
    eapply Rle_trans; [apply Rmult_le_compat_l; [exact G|exact S6]|]. rewrite Rmult_plus_distr_l. apply Rplus_le_compat_l. apply Rmult_le_compat_r; assumption. }
  assert (B2 : e2 <= 105 / 100 * (u * (li * X)) + q * eta + 10001 / 10000 * (li * e1)).
  { unfold e2. assert (u * (li * e1) <= 1 / 10000 * (li * e1)) by (apply Rmult_le_compat_r; assumption). lra. }
  assert (B3 : li * e1 = 105 / 100 * (g1 * q * (li * X)) + li * (q * th1)) by (unfold e1; ring).
  assert (B4 : 0 <= u * (li * X)) by (apply Rmult_le_pos; assumption).
  assert (B5 : 0 <= g1 * q * (li * X)) by (apply Rmult_le_pos; [apply Rmult_le_pos|]; assumption).
  assert (B6 : 0 <= g2 * q * (li * X)) by (apply Rmult_le_pos; [apply Rmult_le_pos|]; assumption).
  assert (B7 : 0 <= li * (q * th1)) by (apply Rmult_le_pos; [lra|apply Rmult_le_pos; assumption]).
  assert (B8 : 0 <= q * th2) by (apply Rmult_le_pos; assumption).
  replace (3 / 2 * (((g1 + g2) * q + u) * X / lo + q * (th1 / lo + th2 + eta))) with
    (3 / 2 * (g1 * q * (li * X) + g2 * q * (li * X) + u * (li * X) + li * (q * th1) + q * th2 + q * eta)) by (unfold li; field; lra).
  replace (g2 * q * (li * (105 / 100 * X))) with (105 / 100 * (g2 * q * (li * X))) in B1 by ring.
  lra.
Qed.
End Round.

(** What the pseudo-inverse makes of A g + rho. *)
Lemma pinv_size x : size n (pinv x) <= 12 / 10 * (size m x / lo).
Proof.
  pose proof lo_pos as [Lp _]. pose proof (Rinv_0_lt_compat lo Lp) as Li. unfold pinv. eapply Rle_trans; [apply V_app|].
  pose proof (over_size (apply_mat (adjoint U) x)) as O. pose proof (U_adj x) as UA. pose proof (size_pos m x) as S.
  assert (/ lo * size n (apply_mat (adjoint U) x) <= / lo * (105 / 100 * size m x)) by (apply Rmult_le_compat_l; lra).
  assert (0 <= / lo * size m x) by (apply Rmult_le_pos; lra). unfold Rdiv at 3. lra.
Qed.
Lemma pinv_sub x y l : pinv (vsub x y) l = Cminus (pinv x l) (pinv y l).
Proof.
  unfold pinv. rewrite <- apply_sub. apply apply_ext. intros k _.
  change (over (apply_mat (adjoint U) (vsub x y)) k = Cminus (over (apply_mat (adjoint U) x) k) (over (apply_mat (adjoint U) y) k)).
  unfold over. rewrite apply_sub. unfold Cdiv. ring.
Qed.

Definition usw (g : nat -> C) : nat -> C := apply_mat U (fun k => Cmult (RtoC (s k)) (apply_mat W g k)).

Lemma usw_close g : size m (vsub (apply_mat A g) (usw g)) <= d * size n g.
Proof. unfold decomposes in HD. apply HD. Qed.

Lemma pinv_usw g : size n (vsub (pinv (usw g)) g) <= (c + 2 * (hi / lo) * a) * size n g.
Proof.
  destruct shapes as (E1 & E2 & E3 & E4 & E5 & E6). pose proof lo_pos as [Lp Lh]. pose proof (Rinv_0_lt_compat lo Lp) as Li.
  assert (HU : nearly_isometric U a) by (unfold decomposes in HD; tauto). assert (HW : nearly_isometric W c) by (unfold decomposes in HD; tauto).
  set (z := fun k => Cmult (RtoC (s k)) (apply_mat W g k)).
  set (del := vsub (apply_mat (adjoint U) (apply_mat U z)) z).
  assert (D1 : size n del <= a * size n z) by (destruct HU as [_ HU]; specialize (HU z); rewrite E2 in HU; exact HU).
  assert (Z1 : size n z <= hi * (105 / 100 * size n g)).
  { eapply Rle_trans; [apply (size_cmp n z (apply_mat W g) hi); [lra|]|apply Rmult_le_compat_l; [lra|apply W_app]].
    intros k Hk. unfold z. rewrite Cmod_mult, Cmod_R. pose proof (s_range k Hk). rewrite Rabs_pos_eq by lra. apply Rmult_le_compat_r; [apply Cmod_ge_0|lra]. }
  assert (F : forall l, (l < n)%nat -> vsub (pinv (usw g)) g l = vadd (vsub (apply_mat V (apply_mat W g)) g) (apply_mat V (over del)) l).
  { intros l Hl. unfold vadd, vsub at 1 2. unfold pinv.
    assert (E : apply_mat V (over (apply_mat (adjoint U) (usw g))) l = Cplus (apply_mat V (apply_mat W g) l) (apply_mat V (over del) l)).
    { rewrite <- apply_add. apply apply_ext. intros k Hk. rewrite E6 in Hk. unfold vadd, over, del, vsub, usw. fold z.
      pose proof (s_range k Hk). assert (RtoC (s k) <> RtoC 0) by (intros Q; apply (Rlt_not_eq 0 (s k)); [lra|]; injection Q; auto).
      unfold z at 3. field. assumption. }
    rewrite E. ring. }
  rewrite (size_ext n _ _ F). eapply Rle_trans; [apply size_add|].
  assert (C1 : size n (vsub (apply_mat V (apply_mat W g)) g) <= c * size n g) by (destruct HW as [_ HW]; specialize (HW g); rewrite E4 in HW; exact HW).
  assert (C2 : size n (apply_mat V (over del)) <= 105 / 100 * (/ lo * (a * (hi * (105 / 100 * size n g))))).
  { eapply Rle_trans; [apply V_app|]. apply Rmult_le_compat_l; [lra|]. eapply Rle_trans; [apply over_size|]. apply Rmult_le_compat_l; [lra|].
    eapply Rle_trans; [exact D1|]. apply Rmult_le_compat_l; [apply a_pos|exact Z1]. }
  pose proof a_pos. pose proof (size_pos n g).
  assert (0 <= / lo * (a * (hi * size n g))) by (apply Rmult_le_pos; [lra|apply Rmult_le_pos; [lra|apply Rmult_le_pos; lra]]).
  replace ((c + 2 * (hi / lo) * a) * size n g) with (c * size n g + 2 * (/ lo * (a * (hi * size n g)))) by (field; lra).
  replace (105 / 100 * (/ lo * (a * (hi * (105 / 100 * size n g))))) with (11025 / 10000 * (/ lo * (a * (hi * size n g)))) in C2 by (field; lra). lra.
Qed.

Lemma exact_part g x : size n (vsub (pinv x) g) <=
  (c + 2 * (hi / lo) * a + 2 * d / lo) * size n g + size n (pinv (vsub x (apply_mat A g))).
Proof.
  pose proof lo_pos as [Lp Lh]. pose proof (Rinv_0_lt_compat lo Lp) as Li.
  assert (F : forall l, (l < n)%nat -> vsub (pinv x) g l = vadd (vsub (pinv (usw g)) g) (vadd (pinv (vsub (apply_mat A g) (usw g))) (pinv (vsub x (apply_mat A g)))) l).
  { intros l _. unfold vadd, vsub at 1 2. rewrite !pinv_sub. ring. }
  rewrite (size_ext n _ _ F). eapply Rle_trans; [apply size_add|]. eapply Rle_trans; [apply Rplus_le_compat_l, size_add|].
  pose proof (pinv_usw g) as Q1. pose proof (pinv_size (vsub (apply_mat A g) (usw g))) as Q2. pose proof (usw_close g) as Q3.
  assert (Q4 : size m (vsub (apply_mat A g) (usw g)) / lo <= d * size n g / lo) by (apply Rmult_le_compat_r; lra).
  pose proof d_pos. pose proof (size_pos n g). assert (0 <= d * size n g / lo) by (apply Rmult_le_pos; [apply Rmult_le_pos; lra|lra]).
  replace ((c + 2 * (hi / lo) * a + 2 * d / lo) * size n g) with ((c + 2 * (hi / lo) * a) * size n g + 2 * (d * size n g / lo)) by (field; lra). lra.
Qed.

(** The residual of the least-squares solution. *)
Definition probe (rho : nat -> C) : nat -> C := apply_mat V (fun k => Cmult (RtoC (s k)) (apply_mat (adjoint U) rho k)).

Lemma pinv_orthogonal rho : Re (hprod m (apply_mat A (probe rho)) rho) = 0 -> size n (pinv rho) <= 2 * (d / lo * size m rho) / lo.
Proof.
  intros HO. destruct shapes as (E1 & E2 & E3 & E4 & E5 & E6). pose proof lo_pos as [Lp Lh]. pose proof (Rinv_0_lt_compat lo Lp) as Li. pose proof d_pos as Pd.
  assert (HV : nearly_isometric V c) by (unfold decomposes in HD; tauto).
  set (t := apply_mat (adjoint U) rho). set (z := fun k => Cmult (RtoC (s k)) (t k)). set (w := probe rho) in *.
  (* |w| <= d |rho| *)
  assert (N : norm2 n w = - Re (hprod m (vsub (apply_mat A w) (usw w)) rho)).
  { rewrite hprod_sub_l. replace (Re (Cminus (hprod m (apply_mat A w) rho) (hprod m (usw w) rho))) with (Re (hprod m (apply_mat A w) rho) - Re (hprod m (usw w) rho)) by (unfold Cminus, Copp, Cplus, Re; cbn; ring).
    rewrite HO. rewrite <- hprod_self. unfold w at 2. unfold probe. fold t. fold z.
    pose proof (hprod_adjoint W w z) as J1. rewrite E3, E4 in J1. change (adjoint W) with V in J1. rewrite <- J1.
    unfold usw. pose proof (hprod_adjoint U (fun k => Cmult (RtoC (s k)) (apply_mat W w k)) rho) as J2. rewrite E1, E2 in J2. rewrite J2.
    rewrite (hprod_scal_l n s). fold t. fold z. lra. }
  assert (W1 : size n w * size n w <= size n w * (d * size m rho)).
  { rewrite size_sqr, N. eapply Rle_trans; [apply Rle_abs|]. rewrite Rabs_Ropp. eapply Rle_trans; [apply Cmod_Re_le|]. eapply Rle_trans; [apply hprod_cs|].
    rewrite <- Rmult_assoc, (Rmult_comm (size n w) d). apply Rmult_le_compat_r; [apply size_pos|apply usw_close]. }
  assert (W2 : size n w <= d * size m rho).
  { destruct (size_pos n w) as [P|P]; [apply (Rmult_le_reg_l (size n w)); assumption|rewrite <- P; apply Rmult_le_pos; [exact Pd|apply size_pos]]. }
  (* |z| <= 7/6 |w| *)
  assert (Z1 : size n (vsub (apply_mat (adjoint V) (apply_mat V z)) z) <= c * size n z) by (destruct HV as [_ HV]; specialize (HV z); rewrite E6 in HV; exact HV).
  assert (Z2 : size n (apply_mat (adjoint V) w) <= 105 / 100 * size n w).
  { pose proof (iso_adjoint V c HV w) as I. rewrite E5, E6 in I. eapply Rle_trans; [exact I|]. apply Rmult_le_compat_r; [apply size_pos|]. apply root_small; [apply c_pos|exact Hc]. }
  assert (Z3 : size n z <= 12 / 10 * size n w).
  { pose proof (size_close n z (apply_mat (adjoint V) w)) as K. rewrite (size_opp n z) in K. pose proof (size_pos n z) as Sz. pose proof (size_pos n w).
    assert (size n (vsub (apply_mat (adjoint V) w) z) <= 1 / 10 * size n z).
    { eapply Rle_trans; [exact Z1|]. apply Rmult_le_compat_r; assumption. }
    lra. }
  (* |t / s| <= |z| / lo^2 *)
  assert (T1 : size n (over t) <= / (lo * lo) * size n z).
  { apply size_cmp; [left; apply Rinv_0_lt_compat, Rmult_lt_0_compat; lra|]. intros k Hk. pose proof (s_range k Hk). unfold over, z.
    assert (Nz : RtoC (s k) <> RtoC 0) by (intros Q; apply (Rlt_not_eq 0 (s k)); [lra|]; injection Q; auto).
    rewrite Cmod_div by assumption. rewrite Cmod_mult, Cmod_R, Rabs_pos_eq by lra.
    pose proof (Cmod_ge_0 (t k)) as Ct.
    replace (Cmod (t k) / s k) with (/ (s k * s k) * (s k * Cmod (t k))) by (field; lra).
    apply Rmult_le_compat_r; [apply Rmult_le_pos; lra|]. apply Rinv_le_contravar; [apply Rmult_lt_0_compat; lra|]. apply Rmult_le_compat; lra. }
  unfold pinv. fold t. eapply Rle_trans; [apply V_app|].
  pose proof (size_pos m rho). assert (L2 : 0 < / (lo * lo)) by (apply Rinv_0_lt_compat, Rmult_lt_0_compat; lra).
  replace (2 * (d / lo * size m rho) / lo) with (2 * (/ (lo * lo) * (d * size m rho))) by (field; lra).
  assert (T2 : / (lo * lo) * size n z <= / (lo * lo) * (12 / 10 * (d * size m rho))) by (apply Rmult_le_compat_l; lra).
  assert (0 <= / (lo * lo) * (d * size m rho)) by (apply Rmult_le_pos; [lra|apply Rmult_le_pos; lra]). lra.
Qed.

(** Norm of A. *)
Lemma A_app g : size m (apply_mat A g) <= (2 * hi + d) * size n g.
Proof.
  pose proof lo_pos as [Lp Lh]. eapply Rle_trans; [apply (size_close m _ (usw g))|]. pose proof (usw_close g) as Q.
  assert (Z : size m (usw g) <= 105 / 100 * (hi * (105 / 100 * size n g))).
  { unfold usw. eapply Rle_trans; [apply U_app|]. apply Rmult_le_compat_l; [lra|].
    eapply Rle_trans; [apply (size_cmp n _ (apply_mat W g) hi); [lra|]|apply Rmult_le_compat_l; [lra|apply W_app]].
    intros k Hk. rewrite Cmod_mult, Cmod_R. pose proof (s_range k Hk). rewrite Rabs_pos_eq by lra. apply Rmult_le_compat_r; [apply Cmod_ge_0|lra]. }
  pose proof (size_pos n g). assert (0 <= hi * size n g) by (apply Rmult_le_pos; lra). lra.
Qed.
Lemma A_frob : frob A <= sqrt (INR n) * (2 * hi + d).
Proof. pose proof lo_pos as [Lp Lh]. pose proof d_pos. apply frob_le; [lra|]. exact A_app. Qed.
End Fit.
