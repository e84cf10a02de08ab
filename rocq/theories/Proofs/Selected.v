(** Truncated sums of products of nearly orthonormal vectors. *)
From Coq Require Import Arith Bool Reals Lra Lia Psatz.
From Coquelicot Require Import Coquelicot.
From Coq Require Import List.
From Verif.Model Require Import Base Num.
From Verif.Proofs Require Import SumFacts EckartYoung SvdExists RoundedSVE Polar.
Import ListNotations.
Open Scope R_scope.

Definition norm2 (m n : nat) (f : nat -> nat -> R) : R := sumn m (fun i => sumn n (fun j => Rsqr (f i j))).
Lemma norm2_ext m n f g : (forall i j, (i < m)%nat -> (j < n)%nat -> f i j = g i j) -> norm2 m n f = norm2 m n g.
Proof. intros H. apply sumn_ext. intros i Hi. apply sumn_ext. intros j Hj. rewrite H by auto. reflexivity. Qed.
Lemma norm2_pos m n f : 0 <= norm2 m n f.
Proof. apply sumn_nonneg. intros. apply sumn_nonneg. intros. apply Rle_0_sqr. Qed.
Lemma norm2_opp m n f g : norm2 m n (fun i j => f i j - g i j) = norm2 m n (fun i j => g i j - f i j).
Proof. apply sumn_ext. intros. apply sumn_ext. intros. unfold Rsqr. ring. Qed.
Lemma norm2_triangle m n f g h : sqrt (norm2 m n (fun i j => f i j - h i j)) <= sqrt (norm2 m n (fun i j => f i j - g i j)) + sqrt (norm2 m n (fun i j => g i j - h i j)).
Proof.
  pose proof (norm2_pos m n (fun i j => f i j - g i j)) as P1. pose proof (norm2_pos m n (fun i j => g i j - h i j)) as P2.
  pose proof (sqrt_pos (norm2 m n (fun i j => f i j - g i j))) as Q1. pose proof (sqrt_pos (norm2 m n (fun i j => g i j - h i j))) as Q2.
  pose proof (minkowski2 m n (fun i j => f i j - g i j) (fun i j => g i j - h i j) _ _ Q1 Q2) as M. cbv beta in M.
  rewrite !Rsqr_sqrt in M by auto. specialize (M (Rle_refl _) (Rle_refl _)).
  rewrite <- (sqrt_Rsqr (sqrt _ + sqrt _)) by lra. apply sqrt_le_1_alt. eapply Rle_trans; [|exact M]. right. apply norm2_ext. intros; ring.
Qed.
Lemma norm2_le m n f b : 0 <= b -> norm2 m n f <= Rsqr b -> sqrt (norm2 m n f) <= b.
Proof. intros Hb H. rewrite <- (sqrt_Rsqr b) by auto. apply sqrt_le_1_alt. exact H. Qed.

Section Selected.
Variables (m n L M : nat) (t : nat -> R) (uc vc u' v' : nat -> nat -> R) (pick : nat -> nat) (B : nat -> nat -> R) (s0 a c d : R).
Hypothesis Hu : ort m L u'.
Hypothesis Hv : ort n L v'.
Hypothesis Ha : 0 <= a.
Hypothesis Hc : 0 <= c.
Hypothesis Hd : 0 <= d.
Hypothesis H0 : 0 <= s0.
Hypothesis Da : sumn L (fun l => sumn m (fun i => Rsqr (u' l i - uc l i))) <= Rsqr a.
Hypothesis Dc : sumn L (fun l => sumn n (fun j => Rsqr (v' l j - vc l j))) <= Rsqr c.
Hypothesis Ht : forall l, (l < L)%nat -> 0 <= t l <= s0.
Hypothesis Pl : forall l, (l < M)%nat -> (pick l < L)%nat.
Hypothesis Pi : forall l l', (l < M)%nat -> (l' < M)%nat -> pick l = pick l' -> l = l'.
Hypothesis Pn : forall l l', (l <= l')%nat -> (l' < M)%nat -> t (pick l') <= t (pick l).
Hypothesis Pr : forall N b, (0 < N <= M)%nat -> (b < L)%nat -> t b <= t (pick (N - 1)) \/ exists l, (l < N)%nat /\ pick l = b.
Hypothesis HB : norm2 m n (fun i j => B i j - sumn L (fun b => t b * (uc b i * vc b j))) <= Rsqr d.

Definition chosen (N b : nat) : bool := existsb (fun l => Nat.eqb (pick l) b) (seq 0 N).
Lemma chosen_spec N b : chosen N b = true <-> exists l, (l < N)%nat /\ pick l = b.
Proof.
  unfold chosen. rewrite existsb_exists. split.
  - intros (l & Hl & E). apply in_seq in Hl. apply Nat.eqb_eq in E. exists l. split; [lia|auto].
  - intros (l & Hl & E). exists l. split; [apply in_seq; lia|]. apply Nat.eqb_eq. exact E.
Qed.

Lemma pick_sum N f : (N <= M)%nat -> sumn N (fun l => f (pick l)) = sumn L (fun b => if chosen N b then f b else 0).
Proof.
  induction N as [|N IH]; intros HN.
  - cbn [sumn]. symmetry. apply sumn_zero. intros. reflexivity.
  - rewrite sumn_S, IH by lia. rewrite <- (sumn_delta L (pick N) f) by (apply Pl; lia). rewrite <- sumn_plus. apply sumn_ext. intros b Hb.
    assert (E : chosen (S N) b = chosen N b || Nat.eqb b (pick N)).
    { unfold chosen. rewrite seq_S, existsb_app. cbn [existsb]. rewrite Nat.add_0_l, orb_false_r, (Nat.eqb_sym (pick N) b). reflexivity. }
    rewrite E. destruct (Nat.eqb_spec b (pick N)) as [Eb|Eb]; [|rewrite orb_false_r; ring]. rewrite orb_true_r.
    destruct (chosen N b) eqn:E2; [|ring]. exfalso. apply chosen_spec in E2 as (l & Hl & E2). assert (l = N); [|lia]. apply Pi; lia.
Qed.

Lemma pick_sum_le N f : (N <= M)%nat -> (forall b, (b < L)%nat -> 0 <= f b) -> sumn N (fun l => f (pick l)) <= sumn L f.
Proof. intros HN Hf. rewrite pick_sum by auto. apply sumn_le. intros b Hb. specialize (Hf b Hb). destruct (chosen N b); lra. Qed.

Definition eps : R := s0 * (a + c + a * c).
Lemma eps_pos : 0 <= eps.
Proof. unfold eps. apply Rmult_le_pos; auto. pose proof (Rmult_le_pos a c Ha Hc). lra. Qed.

(** The nearby decomposition. *)
Definition B' (i j : nat) : R := sumn L (fun b => t b * (u' b i * v' b j)).
Definition cutc (N i j : nat) : R := sumn N (fun l => t (pick l) * (uc (pick l) i * vc (pick l) j)).
Definition cut' (N i j : nat) : R := sumn N (fun l => t (pick l) * (u' (pick l) i * v' (pick l) j)).

Lemma near_whole : sqrt (norm2 m n (fun i j => B i j - B' i j)) <= d + eps.
Proof.
  eapply Rle_trans; [apply (norm2_triangle m n B (fun i j => sumn L (fun b => t b * (uc b i * vc b j))) B')|].
  apply Rplus_le_compat; apply norm2_le; auto; [apply eps_pos|].
  rewrite norm2_opp. exact (products m n L uc vc u' v' t s0 a c Hu Hv Ha Hc Da Dc Ht H0).
Qed.

Lemma picked_ort k e N : (N <= M)%nat -> ort k L e -> ort k N (fun l => e (pick l)).
Proof.
  intros HN He i j Hi Hj. rewrite (He (pick i) (pick j)) by (apply Pl; lia).
  destruct (Nat.eqb_spec (pick i) (pick j)) as [E|E], (Nat.eqb_spec i j) as [E'|E']; auto; exfalso.
  - apply E'. apply Pi; auto; lia.
  - apply E. congruence.
Qed.

Lemma near_cut N : (N <= M)%nat -> sqrt (norm2 m n (fun i j => cut' N i j - cutc N i j)) <= eps.
Proof.
  intros HN. apply norm2_le; [apply eps_pos|].
  apply (products m n N (fun l => uc (pick l)) (fun l => vc (pick l)) (fun l => u' (pick l)) (fun l => v' (pick l)) (fun l => t (pick l)) s0 a c).
  - apply picked_ort; auto.
  - apply picked_ort; auto.
  - exact Ha.
  - exact Hc.
  - eapply Rle_trans; [|exact Da]. apply (pick_sum_le N (fun b => sumn m (fun i => Rsqr (u' b i - uc b i)))); auto. intros. apply sumn_nonneg. intros. apply Rle_0_sqr.
  - eapply Rle_trans; [|exact Dc]. apply (pick_sum_le N (fun b => sumn n (fun i => Rsqr (v' b i - vc b i)))); auto. intros. apply sumn_nonneg. intros. apply Rle_0_sqr.
  - intros l Hl. apply Ht, Pl. lia.
  - exact H0.
Qed.

Lemma sum_norm (k : nat -> R) : norm2 m n (fun i j => sumn L (fun b => k b * (u' b i * v' b j))) = sumn L (fun b => Rsqr (k b)).
Proof.
  unfold norm2. transitivity (sumn m (fun i => sumn L (fun b => Rsqr (k b * u' b i)))).
  - apply sumn_ext. intros i _. rewrite <- (parseval_sqr n L v' _ Hv). apply sumn_ext. intros j _. f_equal. apply sumn_ext. intros; ring.
  - rewrite sumn_swap. apply sumn_ext. intros b Hb. rewrite (sumn_ext m _ (fun i => Rsqr (k b) * (u' b i * u' b i))) by (intros; unfold Rsqr; ring).
    rewrite sumn_scal. pose proof (Hu b b Hb Hb) as E. unfold ip in E. rewrite E, Nat.eqb_refl. ring.
Qed.

Lemma rest_norm N : (N <= M)%nat -> norm2 m n (fun i j => B' i j - cut' N i j) = sumn L (fun b => Rsqr (t b)) - sumn N (fun l => Rsqr (t (pick l))).
Proof.
  intros HN. rewrite (pick_sum N (fun b => Rsqr (t b)) HN). rewrite <- sumn_minus.
  rewrite (norm2_ext m n _ (fun i j => sumn L (fun b => (if chosen N b then 0 else t b) * (u' b i * v' b j)))).
  - rewrite sum_norm. apply sumn_ext. intros b _. destruct (chosen N b); unfold Rsqr; ring.
  - intros i j _ _. unfold cut', B'. rewrite (pick_sum N (fun b => t b * (u' b i * v' b j)) HN), <- sumn_minus. apply sumn_ext. intros b _. destruct (chosen N b); ring.
Qed.

Lemma rest_best N (al be : nat -> nat -> R) : (N <= M)%nat -> norm2 m n (fun i j => B' i j - cut' N i j) <= norm2 m n (fun i j => B' i j - sumn N (fun l => al l i * be l j)).
Proof.
  intros HN. rewrite (rest_norm N HN). rewrite <- sum_norm. fold B'. change (fun i j : nat => sumn L (fun b => t b * (u' b i * v' b j))) with B'.
  destruct (Nat.eq_dec N 0) as [->|Hne].
  { cbn [sumn]. rewrite Rminus_0_r. right. apply norm2_ext. intros. ring. }
  pose proof (optimal m n (fun _ => 1) (fun _ => 1) B' (fun _ _ => Rlt_0_1) (fun _ _ => Rlt_0_1)
     (fun l => u' (pick l)) (fun l => v' (pick l)) (fun l => t (pick l)) N (t (pick (N - 1)))) as O.
  assert (O' : sumn m (fun p => sumn n (fun q => 1 * 1 * Rsqr (B' p q))) - sumn N (fun l => t (pick l) * t (pick l)) <=
     sumn m (fun p => sumn n (fun q => 1 * 1 * Rsqr (B' p q - sumn N (fun l => al l p * be l q))))).
  { apply O.
    - apply ort_orth. apply picked_ort; auto.
    - apply ort_orth. apply picked_ort; auto.
    - intros l p Hl Hp. unfold app, B'.
      rewrite (sumn_ext n _ (fun q => sumn L (fun b => t b * u' b p * (v' b q * v' (pick l) q)))).
      2:{ intros q _. rewrite Rmult_1_l, <- sumn_scal_r. apply sumn_ext. intros; ring. }
      rewrite sumn_swap. rewrite (sumn_single L _ (pick l)); [|apply Pl; lia|].
      + rewrite sumn_scal. pose proof (Hv (pick l) (pick l) (Pl l ltac:(lia)) (Pl l ltac:(lia))) as E. unfold ip in E. rewrite E, Nat.eqb_refl. ring.
      + intros b Hb Hneq. rewrite sumn_scal. pose proof (Hv b (pick l) Hb (Pl l ltac:(lia))) as E. unfold ip in E. rewrite E. destruct (Nat.eqb_spec b (pick l)); [contradiction|ring].
    - intros l q Hl Hq. unfold B'.
      rewrite (sumn_ext m _ (fun p => sumn L (fun b => t b * v' b q * (u' b p * u' (pick l) p)))).
      2:{ intros p _. rewrite Rmult_1_l, <- sumn_scal_r. apply sumn_ext. intros; ring. }
      rewrite sumn_swap. rewrite (sumn_single L _ (pick l)); [|apply Pl; lia|].
      + rewrite sumn_scal. pose proof (Hu (pick l) (pick l) (Pl l ltac:(lia)) (Pl l ltac:(lia))) as E. unfold ip in E. rewrite E, Nat.eqb_refl. ring.
      + intros b Hb Hneq. rewrite sumn_scal. pose proof (Hu b (pick l) Hb (Pl l ltac:(lia))) as E. unfold ip in E. rewrite E. destruct (Nat.eqb_spec b (pick l)); [contradiction|ring].
    - apply (Ht (pick (N - 1))). apply Pl. lia.
    - intros l Hl. apply Pn; lia.
    - intros z Hz. apply (remainder m n (fun _ => 1) (fun _ => 1) B' (fun _ _ => Rlt_0_1) L t u' v').
      + apply ort_orth. exact Hu.
      + apply ort_orth. exact Hv.
      + intros. reflexivity.
      + intros b Hb. destruct (Pr N b ltac:(lia) Hb) as [Hle|(l & Hl & E)].
        * right. specialize (Ht b Hb). apply Rsqr_incr_1; lra.
        * left. rewrite <- E. apply Hz. exact Hl. }
  assert (S1 : forall f, sumn m (fun p => sumn n (fun q => 1 * 1 * Rsqr (f p q))) = norm2 m n f) by (intros f; apply sumn_ext; intros; apply sumn_ext; intros; ring).
  rewrite (S1 B'), (S1 (fun p q => B' p q - sumn N (fun l => al l p * be l q))) in O'. exact O'.
Qed.

Theorem selected_near N : (N <= M)%nat ->
  sqrt (norm2 m n (fun i j => B i j - cutc N i j)) <= d + 2 * eps + sqrt (sumn L (fun b => Rsqr (t b)) - sumn N (fun l => Rsqr (t (pick l)))) /\
  forall al be : nat -> nat -> R, sqrt (norm2 m n (fun i j => B i j - cutc N i j)) <= sqrt (norm2 m n (fun i j => B i j - sumn N (fun l => al l i * be l j))) + 2 * (d + 2 * eps).
Proof.
  intros HN. pose proof near_whole as W. pose proof (near_cut N HN) as C. pose proof eps_pos as Ep.
  pose proof (norm2_triangle m n B B' (cutc N)) as T1. pose proof (norm2_triangle m n B' (cut' N) (cutc N)) as T2. split.
  - rewrite <- (rest_norm N HN). lra.
  - intros al be. pose proof (norm2_triangle m n B' B (fun i j => sumn N (fun l => al l i * be l j))) as T3. rewrite (norm2_opp m n B' B) in T3.
    pose proof (sqrt_le_1_alt _ _ (rest_best N al be HN)) as R1. lra.
Qed.
End Selected.
