(** Orthonormal vectors close to nearly orthonormal ones. *)
From Coq Require Import Arith Bool Reals Lra Lia Psatz.
From Coquelicot Require Import Coquelicot.
From Verif.Model Require Import Base Num.
From Verif.Proofs Require Import SumFacts EckartYoung SvdExists RoundedSVE.
Open Scope R_scope.

Definition delta (i j : nat) : R := if Nat.eqb i j then 1 else 0.

(** * Complete families *)
Lemma complete n e i j : ort n n e -> (i < n)%nat -> (j < n)%nat -> sumn n (fun l => e l i * e l j) = delta i j.
Proof.
  intros H Hi Hj. pose proof (proj1 (ort_orth n n e) H) as Ho.
  assert (One : sumn n (fun l => Rsqr (e l j)) = 1).
  { pose proof (family_sum n n e H) as F.
    assert (Z : sumn n (fun j => 1 - sumn n (fun l => Rsqr (e l j))) = 0) by (rewrite sumn_minus, F, sumn_const; ring).
    pose proof (sumn_zero_inv n _ (fun a Ha => Rge_le _ _ (Rge_minus _ _ (Rle_ge _ _ (column_bound n n e a H Ha)))) Z j Hj) as E. cbv beta in E. lra. }
  set (z := fun a => unit_at j a - sumn n (fun l => e l j * e l a)).
  assert (Hz : inn n (fun _ => 1) z z = 0).
  { unfold z. rewrite (pythagoras n (fun _ => 1) n e (unit_at j) (fun l => e l j) Ho).
    rewrite <- ip_inn, (ip_unit n (unit_at j) j Hj). unfold unit_at at 1. rewrite Nat.eqb_refl.
    rewrite (sumn_zero n (fun i => Rsqr (e i j - _))).
    - rewrite (sumn_ext n _ (fun l => Rsqr (e l j))); [rewrite One; ring|]. intros l Hl. rewrite <- ip_inn, ip_unit by auto. reflexivity.
    - intros l Hl. rewrite <- ip_inn, ip_unit by auto. rewrite Rminus_eq_0. apply Rsqr_0. }
  pose proof (inn_zero n (fun _ => 1) (fun _ _ => Rlt_0_1) z Hz i Hi) as E. unfold z, unit_at in E. unfold delta.
  rewrite (sumn_ext n _ (fun l => e l j * e l i)) by (intros; ring). lra.
Qed.

Lemma parseval n d e (a b : nat -> R) : ort n d e ->
  sumn n (fun i => sumn d (fun t => a t * e t i) * sumn d (fun t => b t * e t i)) = sumn d (fun t => a t * b t).
Proof.
  intros H. rewrite (sumn_ext n _ (fun i => sumn d (fun t => sumn d (fun t' => a t * b t' * (e t i * e t' i))))).
  2:{ intros i _. rewrite sumn_mul. apply sumn_ext. intros t _. apply sumn_ext. intros; ring. }
  rewrite sumn_swap. apply sumn_ext. intros t Ht. rewrite sumn_swap.
  rewrite (sumn_single d _ t Ht).
  - rewrite sumn_scal. pose proof (H t t Ht Ht) as E. unfold ip in E. rewrite E, Nat.eqb_refl. ring.
  - intros t' Ht' Hne. rewrite sumn_scal. pose proof (H t t' Ht Ht') as E. unfold ip in E. rewrite E. destruct (Nat.eqb_spec t t'); [congruence|ring].
Qed.
Lemma parseval_sqr n d e (a : nat -> R) : ort n d e -> sumn n (fun i => Rsqr (sumn d (fun t => a t * e t i))) = sumn d (fun t => Rsqr (a t)).
Proof. intros H. unfold Rsqr. apply parseval. exact H. Qed.

(** * The closest orthonormal family *)
Lemma polar m k (u : nat -> nat -> R) a : (k <= m)%nat ->
  sumn k (fun l => sumn k (fun j => Rsqr (ip m (u l) (u j) - delta l j))) <= Rsqr a ->
  exists u', ort m k u' /\ sumn k (fun l => sumn m (fun i => Rsqr (u' l i - u l i))) <= Rsqr a.
Proof.
  intros Hk Ha. destruct (svd_exists m k (fun i l => u l i)) as (w & sg & z & Hw & Hz & Hs & _ & Hu).
  rewrite Nat.min_r in * by exact Hk.
  assert (Eu : forall l i, (l < k)%nat -> (i < m)%nat -> u l i = sumn k (fun t => (sg t * z t l) * w t i)).
  { intros l i Hl Hi. rewrite (Hu i l Hi Hl). apply sumn_ext. intros; ring. }
  assert (Cz : forall l j, (l < k)%nat -> (j < k)%nat -> sumn k (fun t => z t l * z t j) = delta l j) by (intros; apply complete; auto).
  assert (Zn : forall t, (t < k)%nat -> sumn k (fun l => Rsqr (z t l)) = 1).
  { intros t Ht. pose proof (Hz t t Ht Ht) as E. rewrite Nat.eqb_refl in E. exact E. }
  assert (Sum : forall c, sumn k (fun l => sumn k (fun t => Rsqr (c t * z t l))) = sumn k (fun t => Rsqr (c t))).
  { intros c. rewrite sumn_swap. apply sumn_ext. intros t Ht. rewrite (sumn_ext k _ (fun l => Rsqr (c t) * Rsqr (z t l))) by (intros; unfold Rsqr; ring).
    rewrite sumn_scal, Zn by auto. ring. }
  exists (fun l i => sumn k (fun t => z t l * w t i)). split.
  - intros l j Hl Hj. unfold ip. rewrite (parseval m k w) by exact Hw. apply Cz; auto.
  - apply Rle_trans with (sumn k (fun t => Rsqr (1 - sg t))).
    { right. rewrite (sumn_ext k _ (fun l => sumn k (fun t => Rsqr ((1 - sg t) * z t l)))); [apply Sum|].
      intros l Hl. rewrite <- (parseval_sqr m k w _ Hw). apply sumn_ext. intros i Hi. rewrite (Eu l i Hl Hi), <- sumn_minus. f_equal. apply sumn_ext. intros; ring. }
    apply Rle_trans with (sumn k (fun t => Rsqr (sg t * sg t - 1))).
    { apply sumn_le. intros t Ht. specialize (Hs t Ht). replace (sg t * sg t - 1) with ((1 - sg t) * - (1 + sg t)) by ring. rewrite Rsqr_mult.
      pose proof (Rle_0_sqr (1 - sg t)) as P. assert (1 <= Rsqr (- (1 + sg t))) by (unfold Rsqr; nra). apply Rle_trans with (Rsqr (1 - sg t) * 1); [lra|]. apply Rmult_le_compat_l; auto. }
    eapply Rle_trans; [|exact Ha]. right. rewrite <- (Sum (fun t => sg t * sg t - 1)). apply sumn_ext. intros l Hl.
    rewrite <- (parseval_sqr k k z _ Hz). apply sumn_ext. intros j Hj. f_equal.
    transitivity (sumn k (fun t => sg t * z t l * (sg t * z t j)) - delta l j).
    + rewrite <- (Cz l j Hl Hj), <- sumn_minus. apply sumn_ext. intros; ring.
    + f_equal. rewrite <- (parseval m k w _ _ Hw). unfold ip. apply sumn_ext. intros i Hi. rewrite <- !Eu by auto. reflexivity.
Qed.

(** * Sums of products of close vectors *)
Lemma sum2_swap m n (f : nat -> nat -> R) : sumn m (fun i => sumn n (fun j => f i j)) = sumn n (fun j => sumn m (fun i => f i j)).
Proof. apply sumn_swap. Qed.

Section Products.
Variables (m n N : nat) (u v u' v' : nat -> nat -> R) (s : nat -> R) (s0 a c : R).
Hypothesis Hu : ort m N u'.
Hypothesis Hv : ort n N v'.
Hypothesis Ha : 0 <= a.
Hypothesis Hc : 0 <= c.
Hypothesis Da : sumn N (fun l => sumn m (fun i => Rsqr (u' l i - u l i))) <= Rsqr a.
Hypothesis Dc : sumn N (fun l => sumn n (fun j => Rsqr (v' l j - v l j))) <= Rsqr c.
Hypothesis Hs : forall l, (l < N)%nat -> 0 <= s l <= s0.
Hypothesis H0 : 0 <= s0.

Lemma sq_bound l (x : R) : (l < N)%nat -> Rsqr (s l * x) <= Rsqr s0 * Rsqr x.
Proof. intros Hl. rewrite Rsqr_mult. apply Rmult_le_compat_r; [apply Rle_0_sqr|]. specialize (Hs l Hl). apply Rsqr_incr_1; lra. Qed.

Lemma one_side p k (e d : nat -> nat -> R) b : ort p N e -> sumn N (fun l => sumn k (fun j => Rsqr (d l j))) <= Rsqr b ->
  sumn k (fun j => sumn p (fun i => Rsqr (sumn N (fun l => s l * d l j * e l i)))) <= Rsqr (s0 * b).
Proof.
  intros He Hd. rewrite (sumn_ext k _ (fun j => sumn N (fun l => Rsqr (s l * d l j)))) by (intros; apply parseval_sqr; auto).
  rewrite sum2_swap. rewrite Rsqr_mult. eapply Rle_trans; [|apply Rmult_le_compat_l; [apply Rle_0_sqr|exact Hd]].
  rewrite <- sumn_scal. apply sumn_le. intros l Hl. rewrite <- sumn_scal. apply sumn_le. intros j _. apply sq_bound. exact Hl.
Qed.

Lemma both_sides : sumn m (fun i => sumn n (fun j => Rsqr (sumn N (fun l => s l * (u' l i - u l i) * (v' l j - v l j))))) <= Rsqr (s0 * (a * c)).
Proof.
  apply Rle_trans with (sumn m (fun i => sumn n (fun j => sumn N (fun l => Rsqr (s l * (u' l i - u l i))) * sumn N (fun l => Rsqr (v' l j - v l j))))).
  { apply sumn_le. intros i _. apply sumn_le. intros j _. exact (cauchy N (fun l => s l * (u' l i - u l i)) (fun l => v' l j - v l j)). }
  rewrite (sumn_ext m _ (fun i => sumn N (fun l => Rsqr (s l * (u' l i - u l i))) * sumn n (fun j => sumn N (fun l => Rsqr (v' l j - v l j))))) by (intros; apply sumn_scal).
  rewrite sumn_scal_r. rewrite (sum2_swap n N).
  assert (E : sumn m (fun i => sumn N (fun l => Rsqr (s l * (u' l i - u l i)))) <= Rsqr (s0 * a)).
  { rewrite sum2_swap. rewrite Rsqr_mult. eapply Rle_trans; [|apply Rmult_le_compat_l; [apply Rle_0_sqr|exact Da]].
    rewrite <- sumn_scal. apply sumn_le. intros l Hl. rewrite <- sumn_scal. apply sumn_le. intros j _. apply sq_bound. exact Hl. }
  replace (Rsqr (s0 * (a * c))) with (Rsqr (s0 * a) * Rsqr c) by (unfold Rsqr; ring).
  apply Rmult_le_compat; auto; repeat (apply sumn_nonneg; intros); apply Rle_0_sqr.
Qed.

Lemma products : sumn m (fun i => sumn n (fun j => Rsqr (sumn N (fun l => s l * (u' l i * v' l j)) - sumn N (fun l => s l * (u l i * v l j))))) <= Rsqr (s0 * (a + c + a * c)).
Proof.
  pose proof (one_side m n u' (fun l j => v' l j - v l j) c Hu Dc) as A1. rewrite sum2_swap in A1.
  pose proof (one_side n m v' (fun l j => u' l j - u l j) a Hv Da) as A2. pose proof both_sides as A3.
  assert (P1 : 0 <= s0 * a) by (apply Rmult_le_pos; auto). assert (P2 : 0 <= s0 * c) by (apply Rmult_le_pos; auto).
  assert (P3 : 0 <= s0 * (a * c)) by (repeat apply Rmult_le_pos; auto).
  pose proof (minkowski2 m n _ _ _ _ P2 P1 A1 A2) as B. cbv beta in B.
  assert (A4 : sumn m (fun i => sumn n (fun j => Rsqr (- sumn N (fun l => s l * (u' l i - u l i) * (v' l j - v l j))))) <= Rsqr (s0 * (a * c))).
  { eapply Rle_trans; [|exact A3]. right. apply sumn_ext. intros i _. apply sumn_ext. intros j _. symmetry. apply Rsqr_neg. }
  pose proof (minkowski2 m n _ _ _ _ (Rplus_le_le_0_compat _ _ P2 P1) P3 B A4) as C. cbv beta in C.
  replace (s0 * (a + c + a * c)) with (s0 * c + s0 * a + s0 * (a * c)) by ring.
  eapply Rle_trans; [|exact C]. right. apply sumn_ext. intros i _. apply sumn_ext. intros j _. f_equal.
  rewrite <- sumn_opp, <- !sumn_plus, <- sumn_minus. apply sumn_ext. intros; ring.
Qed.
End Products.
