(** A Lipschitz function of finitely many numbers in [-1, 1] has a maximum. *)
From Coq Require Import Arith Bool Reals Lra Lia Psatz.
From Coquelicot Require Import Coquelicot.
From Verif.Model Require Import Base Num.
From Verif.Proofs Require Import BaseFacts SumFacts.
Open Scope R_scope.

Definition box (n : nat) (v : nat -> R) : Prop := forall i, (i < n)%nat -> -1 <= v i <= 1.
Definition dist1 (n : nat) (v w : nat -> R) : R := sumn n (fun i => Rabs (v i - w i)).

(** Bounded and Lipschitz on the box. *)
Definition BL (n : nat) (f : (nat -> R) -> R) : Prop :=
  exists B L, 0 <= B /\ 0 <= L /\ (forall v, box n v -> Rabs (f v) <= B) /\
    forall v w, box n v -> box n w -> Rabs (f v - f w) <= L * dist1 n v w.

Lemma dist1_pos n v w : 0 <= dist1 n v w.
Proof. apply sumn_nonneg. intros. apply Rabs_pos. Qed.

Lemma BL_const n c : BL n (fun _ => c).
Proof.
  exists (Rabs c), 0. split; [apply Rabs_pos|]. split; [lra|]. split; [intros; lra|]. intros v w _ _. rewrite Rminus_eq_0, Rabs_R0. lra.
Qed.

Lemma BL_coord n i : (i < n)%nat -> BL n (fun v => v i).
Proof.
  intros Hi. exists 1, 1. split; [lra|]. split; [lra|]. split.
  - intros v Hv. apply Rabs_le. exact (Hv i Hi).
  - intros v w _ _. rewrite Rmult_1_l. apply (sumn_pos_term n (fun i => Rabs (v i - w i)) i Hi). intros. apply Rabs_pos.
Qed.

Lemma BL_plus n f g : BL n f -> BL n g -> BL n (fun v => f v + g v).
Proof.
  intros (B1 & L1 & P1 & Q1 & H1 & K1) (B2 & L2 & P2 & Q2 & H2 & K2). exists (B1 + B2), (L1 + L2). split; [lra|]. split; [lra|]. split.
  - intros v Hv. eapply Rle_trans; [apply Rabs_triang|]. specialize (H1 v Hv). specialize (H2 v Hv). lra.
  - intros v w Hv Hw. replace (f v + g v - (f w + g w)) with ((f v - f w) + (g v - g w)) by ring. eapply Rle_trans; [apply Rabs_triang|].
    specialize (K1 v w Hv Hw). specialize (K2 v w Hv Hw). lra.
Qed.

Lemma BL_mult n f g : BL n f -> BL n g -> BL n (fun v => f v * g v).
Proof.
  intros (B1 & L1 & P1 & Q1 & H1 & K1) (B2 & L2 & P2 & Q2 & H2 & K2). exists (B1 * B2), (L1 * B2 + B1 * L2).
  split; [apply Rmult_le_pos; auto|]. split; [apply Rplus_le_le_0_compat; apply Rmult_le_pos; auto|]. split.
  - intros v Hv. rewrite Rabs_mult. apply Rmult_le_compat; try apply Rabs_pos; auto.
  - intros v w Hv Hw. replace (f v * g v - f w * g w) with ((f v - f w) * g v + f w * (g v - g w)) by ring. eapply Rle_trans; [apply Rabs_triang|].
    rewrite !Rabs_mult. specialize (K1 v w Hv Hw). specialize (K2 v w Hv Hw). specialize (H2 v Hv). specialize (H1 w Hw).
    rewrite Rmult_plus_distr_r. apply Rplus_le_compat.
    + replace (L1 * B2 * dist1 n v w) with (L1 * dist1 n v w * B2) by ring. apply Rmult_le_compat; auto; apply Rabs_pos.
    + rewrite Rmult_assoc. apply Rmult_le_compat; auto; apply Rabs_pos.
Qed.

Lemma BL_sumn n m (f : nat -> (nat -> R) -> R) : (forall i, (i < m)%nat -> BL n (f i)) -> BL n (fun v => sumn m (fun i => f i v)).
Proof.
  induction m as [|m IH]; intros H.
  - exact (BL_const n 0).
  - pose proof (BL_plus n _ _ (IH (fun i Hi => H i (Nat.lt_lt_succ_r _ _ Hi))) (H m (Nat.lt_succ_diag_r m))) as (B & L & P & Q & H1 & H2).
    exists B, L. repeat split; auto.
Qed.

Definition setn (n : nat) (v : nat -> R) (x : R) : nat -> R := fun i => if Nat.eqb i n then x else v i.
Definition clamp (x : R) : R := Rmax (-1) (Rmin 1 x).

Lemma clamp_in x : -1 <= clamp x <= 1.
Proof. unfold clamp, Rmax, Rmin. destruct (Rle_dec 1 x); destruct (Rle_dec _ _); lra. Qed.
Lemma clamp_id x : -1 <= x <= 1 -> clamp x = x.
Proof. unfold clamp, Rmax, Rmin. destruct (Rle_dec 1 x); destruct (Rle_dec _ _); lra. Qed.
Lemma clamp_lip x y : Rabs (clamp x - clamp y) <= Rabs (x - y).
Proof.
  unfold clamp, Rmax, Rmin. destruct (Rle_dec 1 x), (Rle_dec 1 y); repeat destruct (Rle_dec _ _); unfold Rabs; repeat destruct (Rcase_abs _); lra.
Qed.

Lemma box_setn n v x : box n v -> -1 <= x <= 1 -> box (S n) (setn n v x).
Proof. intros Hv Hx i Hi. unfold setn. destruct (Nat.eqb_spec i n); auto. apply Hv. lia. Qed.

Lemma dist_setn n v w x y : dist1 (S n) (setn n v x) (setn n w y) = dist1 n v w + Rabs (x - y).
Proof.
  unfold dist1. rewrite sumn_S. unfold setn at 3 4. rewrite Nat.eqb_refl. f_equal. apply sumn_ext. intros i Hi.
  unfold setn. destruct (Nat.eqb_spec i n); [lia|]. reflexivity.
Qed.

Lemma box_max : forall n f, BL n f -> exists v, box n v /\ forall w, box n w -> f w <= f v.
Proof.
  induction n as [|n IH]; intros f (B & L & PB & PL & HB & HL).
  - exists (fun _ => 0). split; [intros i Hi; lia|]. intros w Hw.
    specialize (HL w (fun _ => 0) Hw ltac:(intros i Hi; lia)). unfold dist1 in HL. cbn in HL. rewrite Rmult_0_r in HL. apply Rabs_le_between in HL. lra.
  - assert (Hx : forall x, BL n (fun v => f (setn n v (clamp x)))).
    { intros x. exists B, L. split; auto. split; auto. split.
      - intros v Hv. apply HB, box_setn; auto using clamp_in.
      - intros v w Hv Hw. eapply Rle_trans; [apply HL; apply box_setn; auto using clamp_in|]. rewrite dist_setn, Rminus_eq_0, Rabs_R0, Rplus_0_r. lra. }
    pose (M := fun x => real (Lub_Rbar (fun y => exists v, box n v /\ y = f (setn n v (clamp x))))).
    assert (HM : forall x, exists v, box n v /\ M x = f (setn n v (clamp x)) /\ forall w, box n w -> f (setn n w (clamp x)) <= M x).
    { intros x. destruct (IH _ (Hx x)) as (v & Hv & Hmax).
      assert (E : M x = f (setn n v (clamp x))).
      { unfold M. rewrite (is_lub_Rbar_unique _ (Finite (f (setn n v (clamp x))))); [reflexivity|]. split.
        - intros y (w & Hw & ->). apply Hmax; auto.
        - intros y Hy. apply Hy. exists v. auto. }
      exists v. split; auto. split; auto. intros w Hw. rewrite E. apply Hmax; auto. }
    assert (HML : forall x y, M x - M y <= L * Rabs (x - y)).
    { intros x y. destruct (HM x) as (v & Hv & Ex & _). destruct (HM y) as (v' & _ & _ & Hy). specialize (Hy v Hv).
      pose proof (HL (setn n v (clamp x)) (setn n v (clamp y)) ltac:(apply box_setn; auto using clamp_in) ltac:(apply box_setn; auto using clamp_in)) as H.
      rewrite dist_setn in H. unfold dist1 in H. rewrite (sumn_zero n) in H by (intros; rewrite Rminus_eq_0; apply Rabs_R0). rewrite Rplus_0_l in H.
      pose proof (Rmult_le_compat_l L _ _ PL (clamp_lip x y)). apply Rabs_le_between in H. lra. }
    assert (HC : forall c, -1 <= c <= 1 -> continuity_pt M c).
    { intros c _ eps He. exists (eps / (L + 1)). split; [apply Rdiv_lt_0_compat; lra|]. intros x [_ Hxc]. cbn in *. unfold R_dist in *.
      apply Rle_lt_trans with (L * Rabs (x - c)).
      - apply Rabs_le. split; [|apply HML]. pose proof (HML c x) as H. rewrite (Rabs_minus_sym c x) in H. lra.
      - apply Rle_lt_trans with ((L + 1) * Rabs (x - c)); [pose proof (Rabs_pos (x - c)); nra|].
        apply (Rmult_lt_compat_l (L + 1)) in Hxc; [|lra]. replace ((L + 1) * (eps / (L + 1))) with eps in Hxc by (field; lra). exact Hxc. }
    destruct (continuity_ab_maj M (-1) 1 ltac:(lra) HC) as (x & Hmax & Hxr).
    destruct (HM x) as (v & Hv & Ex & _). exists (setn n v (clamp x)). split; [apply box_setn; auto using clamp_in|].
    intros w Hw. assert (Hwn : -1 <= w n <= 1) by (apply Hw; lia).
    destruct (HM (w n)) as (v' & _ & _ & Hy). rewrite <- Ex. apply Rle_trans with (M (w n)); [|apply Hmax; exact Hwn].
    assert (Hwb : box n w) by (intros i Hi; apply Hw; lia). specialize (Hy w Hwb). rewrite (clamp_id (w n) Hwn) in Hy.
    replace (f w) with (f (setn n w (w n))); [exact Hy|].
    pose proof (HL (setn n w (w n)) w ltac:(apply box_setn; auto) Hw) as H. unfold dist1 in H.
    rewrite (sumn_zero (S n)) in H. { rewrite Rmult_0_r in H. apply Rabs_le_between in H. lra. }
    intros i Hi. unfold setn. destruct (Nat.eqb_spec i n); [subst|]; rewrite Rminus_eq_0; apply Rabs_R0.
Qed.
