(** Norms of complex vectors and matrices that are nearly isometries. *)
From Coq Require Import ZArith Arith Bool Reals Lra Lia Psatz.
From Coquelicot Require Import Coquelicot.
From Coq Require Import List.
From Verif.Model Require Import Base Num FT NDArray Sampling.
From Verif.Spec Require Import SSampling SSamplingIEEE.
From Verif.Proofs Require Import SumFacts FTFacts FTModel LstsqFacts SvdExists RoundedSVE DLRProps.
Import ListNotations.
Open Scope R_scope.
Notation length := List.length.

(** * Norms *)
Lemma size_pos n g : 0 <= size n g.
Proof. apply sqrt_pos. Qed.
Lemma size_sqr n g : size n g * size n g = norm2 n g.
Proof. apply sqrt_sqrt, norm2_nonneg. Qed.
Lemma size_ext n g h : (forall i, (i < n)%nat -> g i = h i) -> size n g = size n h.
Proof. intros H. unfold size. f_equal. apply norm2_ext. exact H. Qed.
Lemma size_le n g b : 0 <= b -> norm2 n g <= b * b -> size n g <= b.
Proof. intros Hb H. unfold size. rewrite <- (sqrt_square b) by exact Hb. apply sqrt_le_1_alt. exact H. Qed.
Lemma size_rle n g (f : nat -> R) b : 0 <= b -> (forall i, (i < n)%nat -> Cmod (g i) <= f i) -> sumn n (fun i => f i * f i) <= b * b -> size n g <= b.
Proof.
  intros Hb H1 H2. apply size_le; [exact Hb|]. eapply Rle_trans; [|exact H2]. unfold norm2. apply sumn_le. intros i Hi. specialize (H1 i Hi).
  pose proof (Cmod_ge_0 (g i)). replace (Cmod (g i) ^ 2) with (Cmod (g i) * Cmod (g i)) by ring. apply Rmult_le_compat; lra.
Qed.
Lemma size_cmp n g h k : 0 <= k -> (forall i, (i < n)%nat -> Cmod (g i) <= k * Cmod (h i)) -> size n g <= k * size n h.
Proof.
  intros Hk H. apply (size_rle n g (fun i => k * Cmod (h i))); [apply Rmult_le_pos; [exact Hk|apply size_pos]|exact H|].
  right. replace (k * size n h * (k * size n h)) with (k * k * (size n h * size n h)) by ring. rewrite size_sqr. unfold norm2. rewrite <- sumn_scal. apply sumn_ext. intros; ring.
Qed.

(** A vector of real numbers. *)
Definition rsize (n : nat) (f : nat -> R) : R := size n (fun i => RtoC (f i)).
Lemma rsize_sqr n f : rsize n f * rsize n f = sumn n (fun i => f i * f i).
Proof. unfold rsize. rewrite size_sqr. apply sumn_ext. intros i _. rewrite Cmod_R, <- Rsqr_pow2, <- Rsqr_abs. reflexivity. Qed.
Lemma rsize_pos n f : 0 <= rsize n f.
Proof. apply size_pos. Qed.
Lemma rsize_mod n g : rsize n (fun i => Cmod (g i)) = size n g.
Proof. unfold rsize, size, norm2. f_equal. apply sumn_ext. intros i _. rewrite Cmod_R, Rabs_pos_eq by apply Cmod_ge_0. reflexivity. Qed.
Lemma size_by n g f : (forall i, (i < n)%nat -> Cmod (g i) <= f i) -> size n g <= rsize n f.
Proof. intros H. apply (size_rle n g f); [apply rsize_pos|exact H|]. rewrite rsize_sqr. right; reflexivity. Qed.
Lemma rsize_scal n k f : 0 <= k -> rsize n (fun i => k * f i) = k * rsize n f.
Proof.
  intros Hk. apply Rsqr_inj; [apply rsize_pos|apply Rmult_le_pos; [exact Hk|apply rsize_pos]|]. unfold Rsqr. rewrite rsize_sqr. replace (k * rsize n f * (k * rsize n f)) with (k * k * (rsize n f * rsize n f)) by ring.
  rewrite rsize_sqr, <- sumn_scal. apply sumn_ext. intros; ring.
Qed.
Lemma rsize_const n k : 0 <= k -> rsize n (fun _ => k) = sqrt (INR n) * k.
Proof.
  intros Hk. apply Rsqr_inj; [apply rsize_pos|apply Rmult_le_pos; [apply sqrt_pos|exact Hk]|]. unfold Rsqr. rewrite rsize_sqr.
  replace (sqrt (INR n) * k * (sqrt (INR n) * k)) with (sqrt (INR n) * sqrt (INR n) * (k * k)) by ring. rewrite sqrt_sqrt by apply pos_INR.
  induction n as [|n IH]; [cbn; ring|]. rewrite sumn_S, S_INR, IH. ring.
Qed.
Lemma rsize_plus n f g : (forall i, (i < n)%nat -> 0 <= f i) -> (forall i, (i < n)%nat -> 0 <= g i) -> rsize n (fun i => f i + g i) <= rsize n f + rsize n g.
Proof.
  intros Hf Hg. pose proof (rsize_pos n f) as P1. pose proof (rsize_pos n g) as P2.
  pose proof (minkowski2 1 n (fun _ i => f i) (fun _ i => g i) (rsize n f) (rsize n g) P1 P2) as M. cbn [sumn] in M. unfold Rsqr in M.
  rewrite !Rplus_0_l, !rsize_sqr in M. specialize (M (Rle_refl _) (Rle_refl _)).
  apply Rsqr_incr_0; [|apply rsize_pos|lra]. unfold Rsqr. rewrite rsize_sqr. exact M.
Qed.
Lemma rsize_mono n f g : (forall i, (i < n)%nat -> 0 <= f i <= g i) -> rsize n f <= rsize n g.
Proof. intros H. apply size_by. intros i Hi. specialize (H i Hi). rewrite Cmod_R, Rabs_pos_eq; lra. Qed.

Lemma size_add n g h : size n (vadd g h) <= size n g + size n h.
Proof.
  eapply Rle_trans; [apply (size_by n _ (fun i => Cmod (g i) + Cmod (h i))); intros i _; apply Cmod_triangle|].
  eapply Rle_trans; [apply rsize_plus; intros; apply Cmod_ge_0|]. rewrite !rsize_mod. apply Rle_refl.
Qed.
Lemma size_opp n g h : size n (vsub g h) = size n (vsub h g).
Proof. unfold size, norm2. f_equal. apply sumn_ext. intros i _. unfold vsub. rewrite <- (Cmod_opp (Cminus (g i) (h i))). f_equal. f_equal. ring. Qed.
Lemma size_tri n g h k : size n (vsub g k) <= size n (vsub g h) + size n (vsub h k).
Proof.
  eapply Rle_trans; [|apply size_add]. right. apply size_ext. intros i _. unfold vadd, vsub. ring.
Qed.
Lemma size_close n g h : size n g <= size n h + size n (vsub g h).
Proof.
  eapply Rle_trans; [|apply size_add]. right. apply size_ext. intros i _. unfold vadd, vsub. ring.
Qed.

(** * Products *)
Lemma sum_cs n (f g : nat -> R) : sumn n (fun i => f i * g i) <= rsize n f * rsize n g.
Proof.
  pose proof (cauchy2 1 n (fun _ i => f i) (fun _ i => g i)) as H. cbn [sumn] in H. rewrite !Rplus_0_l in H. eapply Rle_trans; [exact H|]. right. f_equal.
  - apply Rsqr_inj; [apply sqrt_pos|apply rsize_pos|]. rewrite Rsqr_sqrt by (apply sumn_nonneg; intros; apply Rle_0_sqr). unfold Rsqr at 2. rewrite rsize_sqr. reflexivity.
  - apply Rsqr_inj; [apply sqrt_pos|apply rsize_pos|]. rewrite Rsqr_sqrt by (apply sumn_nonneg; intros; apply Rle_0_sqr). unfold Rsqr at 2. rewrite rsize_sqr. reflexivity.
Qed.
Lemma Cmod_conj z : Cmod (Cconj z) = Cmod z.
Proof. unfold Cmod, Cconj. cbn. f_equal. ring. Qed.
Lemma hprod_cs n g h : Cmod (hprod n g h) <= size n g * size n h.
Proof.
  unfold hprod. eapply Rle_trans; [apply csumn_Cmod|]. eapply Rle_trans; [|rewrite <- !rsize_mod; apply sum_cs].
  right. apply sumn_ext. intros i _. rewrite Cmod_mult, Cmod_conj. reflexivity.
Qed.
Lemma hprod_self n g : Re (hprod n g g) = norm2 n g.
Proof.
  unfold hprod. rewrite Re_csumn. unfold norm2. apply sumn_ext. intros i _. rewrite Cmod2_ReIm. unfold Cmult, Cconj, Re, Im. cbn. ring.
Qed.
Lemma hprod_adjoint M g x : hprod (mr M) (apply_mat M g) x = hprod (mc M) g (apply_mat (adjoint M) x).
Proof.
  unfold hprod, apply_mat, adjoint. cbn [mc mr me].
  rewrite (csumn_ext (mr M) _ (fun i => csumn (mc M) (fun l => Cmult (Cmult (Cconj (g l)) (Cconj (me M i l))) (x i)))).
  - rewrite csumn_swap. apply csumn_ext. intros l _. rewrite <- csumn_scal. apply csumn_ext. intros; ring.
  - intros i _. rewrite Cconj_csumn, <- csumn_scal_r. apply csumn_ext. intros l _. rewrite Cmult_conj. ring.
Qed.

Section Isometric.
Variables (M : mat) (a : R).
Hypothesis H : nearly_isometric M a.

Lemma iso_sqr g : norm2 (mr M) (apply_mat M g) <= (1 + a) * norm2 (mc M) g.
Proof.
  destruct H as [Ha Hi]. rewrite <- hprod_self, hprod_adjoint. specialize (Hi g).
  set (w := apply_mat (adjoint M) (apply_mat M g)) in *.
  assert (E : hprod (mc M) g w = Cplus (hprod (mc M) g g) (hprod (mc M) g (vsub w g))).
  { unfold hprod. rewrite <- csumn_plus. apply csumn_ext. intros i _. unfold vsub. ring. }
  rewrite E. replace (Re (Cplus (hprod (mc M) g g) (hprod (mc M) g (vsub w g)))) with (norm2 (mc M) g + Re (hprod (mc M) g (vsub w g))) by (rewrite <- hprod_self; reflexivity).
  assert (Re (hprod (mc M) g (vsub w g)) <= a * norm2 (mc M) g); [|lra].
  eapply Rle_trans; [apply Rle_abs|]. eapply Rle_trans; [apply (Rmax_Cmod (hprod (mc M) g (vsub w g))) || idtac|].
  { eapply Rle_trans; [|apply Rmax_Cmod]. apply Rmax_l. }
  eapply Rle_trans; [apply hprod_cs|]. rewrite <- size_sqr. pose proof (size_pos (mc M) g).
  replace (a * (size (mc M) g * size (mc M) g)) with (size (mc M) g * (a * size (mc M) g)) by ring. apply Rmult_le_compat_l; auto.
Qed.
Lemma iso_apply g : size (mr M) (apply_mat M g) <= sqrt (1 + a) * size (mc M) g.
Proof.
  destruct H as [Ha _]. apply size_le; [apply Rmult_le_pos; [apply sqrt_pos|apply size_pos]|].
  replace (sqrt (1 + a) * size (mc M) g * (sqrt (1 + a) * size (mc M) g)) with (sqrt (1 + a) * sqrt (1 + a) * (size (mc M) g * size (mc M) g)) by ring.
  rewrite sqrt_sqrt, size_sqr by lra. apply iso_sqr.
Qed.
Lemma iso_adjoint x : size (mc M) (apply_mat (adjoint M) x) <= sqrt (1 + a) * size (mr M) x.
Proof.
  set (y := apply_mat (adjoint M) x). pose proof (hprod_adjoint M y x) as E. fold y in E.
  assert (Q : norm2 (mc M) y <= sqrt (1 + a) * size (mc M) y * size (mr M) x).
  { rewrite <- hprod_self, <- E. eapply Rle_trans; [apply Rle_abs|]. eapply Rle_trans; [|eapply Rle_trans; [apply hprod_cs|]].
    - eapply Rle_trans; [|apply Rmax_Cmod]. apply Rmax_l.
    - apply Rmult_le_compat_r; [apply size_pos|apply iso_apply]. }
  rewrite <- size_sqr in Q. pose proof (size_pos (mc M) y) as [P|P].
  - apply (Rmult_le_reg_l (size (mc M) y)); [exact P|]. lra.
  - rewrite <- P. apply Rmult_le_pos; [apply sqrt_pos|apply size_pos].
Qed.
End Isometric.

(** * Absolute values *)
Definition frob (M : mat) : R := sqrt (sumn (mr M) (fun i => norm2 (mc M) (me M i))).
Lemma frob_pos M : 0 <= frob M.
Proof. apply sqrt_pos. Qed.
Lemma abs_apply M g : rsize (mr M) (fun i => sumn (mc M) (fun l => Cmod (me M i l) * Cmod (g l))) <= frob M * size (mc M) g.
Proof.
  apply Rsqr_incr_0; [|apply rsize_pos|apply Rmult_le_pos; [apply frob_pos|apply size_pos]]. unfold Rsqr at 1. rewrite rsize_sqr.
  rewrite Rsqr_mult. unfold frob. rewrite Rsqr_sqrt by (apply sumn_nonneg; intros; apply norm2_nonneg). unfold Rsqr. rewrite Rmult_comm, <- sumn_scal. apply sumn_le. intros i _.
  pose proof (sum_cs (mc M) (fun l => Cmod (me M i l)) (fun l => Cmod (g l))) as C. rewrite !rsize_mod in C.
  assert (0 <= sumn (mc M) (fun l => Cmod (me M i l) * Cmod (g l))) by (apply sumn_nonneg; intros; apply Rmult_le_pos; apply Cmod_ge_0).
  eapply Rle_trans; [apply Rmult_le_compat; [exact H|exact H|exact C|exact C]|]. right.
  replace (size (mc M) (me M i) * size (mc M) g * (size (mc M) (me M i) * size (mc M) g)) with (size (mc M) g * size (mc M) g * (size (mc M) (me M i) * size (mc M) (me M i))) by ring.
  rewrite (size_sqr (mc M) (me M i)). reflexivity.
Qed.
Lemma frob_adjoint M : frob (adjoint M) = frob M.
Proof.
  unfold frob, norm2, adjoint. cbn [mr mc me]. f_equal. rewrite sumn_swap. apply sumn_ext. intros i _. apply sumn_ext. intros l _. rewrite Cmod_conj. reflexivity.
Qed.
Lemma frob_le M b : 0 <= b -> (forall g, size (mr M) (apply_mat M g) <= b * size (mc M) g) -> frob M <= sqrt (INR (mc M)) * b.
Proof.
  intros Hb H. unfold frob. rewrite <- (sqrt_square b) by exact Hb. rewrite <- sqrt_mult_alt by apply pos_INR. apply sqrt_le_1_alt.
  unfold norm2. rewrite sumn_swap. rewrite <- (Rmult_1_r (INR (mc M) * (b * b))).
  assert (C : forall l, (l < mc M)%nat -> sumn (mr M) (fun i => Cmod (me M i l) ^ 2) <= b * b).
  { intros l Hl. specialize (H (fun j => delta l j)).
    assert (S1 : size (mc M) (fun j => delta l j) = 1).
    { unfold size. replace (norm2 (mc M) (fun j => delta l j)) with 1; [apply sqrt_1|]. unfold norm2. symmetry.
      rewrite (sumn_single (mc M) _ l Hl).
      - unfold delta. rewrite Nat.eqb_refl, Cmod_1. ring.
      - intros i Hi Hn. unfold delta. rewrite (proj2 (Nat.eqb_neq l i)) by auto. rewrite Cmod_0. ring. }
    rewrite S1, Rmult_1_r in H.
    assert (S2 : norm2 (mr M) (apply_mat M (fun j => delta l j)) <= b * b).
    { rewrite <- size_sqr. pose proof (size_pos (mr M) (apply_mat M (fun j => delta l j))). apply Rmult_le_compat; auto. }
    eapply Rle_trans; [|exact S2]. right. unfold norm2. apply sumn_ext. intros i _. f_equal. f_equal. unfold apply_mat.
    rewrite (csumn_ext _ _ (fun j => Cmult (delta l j) (me M i j))) by (intros; ring). rewrite csumn_delta by exact Hl. reflexivity. }
  rewrite Rmult_1_r. clear H. set (f := fun l => sumn (mr M) (fun i => Cmod (me M i l) ^ 2)).
  change (forall l, (l < mc M)%nat -> f l <= b * b) in C. change (sumn (mc M) f <= INR (mc M) * (b * b)). clearbody f.
  revert C. generalize (mc M) as n. intros n C.
  induction n as [|n IH]; [cbn; lra|]. rewrite sumn_S, S_INR. pose proof (C n (Nat.lt_succ_diag_r n)) as Cn. assert (IH' := IH (fun l Hl => C l (Nat.lt_lt_succ_r _ _ Hl))). lra.
Qed.
