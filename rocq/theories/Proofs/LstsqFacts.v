(** Least squares by singular value decomposition. *)
From Coq Require Import ZArith Arith Bool Reals Lia Lra.
From Coquelicot Require Import Coquelicot.
From Coq Require Import List.
From Verif.Model Require Import Base Num FT NDArray Sampling.
From Verif.Spec Require Import SSampling.
From Verif.Proofs Require Import SumFacts FTFacts FTModel NDFacts.
Import ListNotations.
Open Scope R_scope.

Lemma csumn_zero n f : (forall i, (i < n)%nat -> f i = RtoC 0) -> csumn n f = RtoC 0.
Proof. intros H. induction n as [|n IH]; [reflexivity|]. rewrite csumn_S, IH, H by auto. ring. Qed.
Lemma csumn_scal_r n c f : csumn n (fun i => Cmult (f i) c) = Cmult (csumn n f) c.
Proof. rewrite Cmult_comm, <- csumn_scal. apply csumn_ext. intros. ring. Qed.
Lemma csumn_minus n f g : csumn n (fun i => Cminus (f i) (g i)) = Cminus (csumn n f) (csumn n g).
Proof. induction n as [|n IH]; [cbn; ring|]. rewrite !csumn_S, IH. ring. Qed.
Lemma csumn_single n f k : (k < n)%nat -> (forall i, (i < n)%nat -> i <> k -> f i = RtoC 0) -> csumn n f = f k.
Proof.
  intros Hk H. induction n as [|n IH]; [lia|]. rewrite csumn_S. destruct (Nat.eq_dec k n) as [->|N].
  - rewrite csumn_zero; [ring|]. intros i Hi. apply H; lia.
  - rewrite IH; [|lia|intros; apply H; lia]. rewrite (H n) by lia. ring.
Qed.
Lemma csumn_delta n k f : (k < n)%nat -> csumn n (fun i => Cmult (delta k i) (f i)) = f k.
Proof.
  intros Hk. rewrite (csumn_single n _ k Hk).
  - unfold delta. rewrite Nat.eqb_refl. ring.
  - intros i _ N. unfold delta. destruct (Nat.eqb_spec k i); [lia|]. ring.
Qed.
Lemma Cconj_csumn n f : Cconj (csumn n f) = csumn n (fun i => Cconj (f i)).
Proof.
  induction n as [|n IH]; [cbn; apply C_eq; cbn; ring|]. rewrite !csumn_S, <- IH.
  apply C_eq; unfold Cconj, Cplus, Re, Im; cbn; ring.
Qed.
Lemma Cmult_conj a b : Cconj (Cmult a b) = Cmult (Cconj a) (Cconj b).
Proof. apply C_eq; unfold Cconj, Cmult, Re, Im; cbn; ring. Qed.
Lemma Cconj_conj a : Cconj (Cconj a) = a.
Proof. apply C_eq; unfold Cconj, Re, Im; cbn; ring. Qed.
Lemma Ceq_minus a b : Cminus a b = RtoC 0 -> a = b.
Proof. intros H. replace a with (Cplus (Cminus a b) b) by ring. rewrite H. ring. Qed.
Lemma csumn_app n m f : csumn (n + m) f = Cplus (csumn n f) (csumn m (fun i => f (n + i)%nat)).
Proof.
  induction m as [|m IH]; [rewrite Nat.add_0_r; cbn; ring|].
  rewrite Nat.add_succ_r, !csumn_S, IH. ring.
Qed.

Lemma Cmod2_ReIm z : Cmod z ^ 2 = Re z ^ 2 + Im z ^ 2.
Proof.
  unfold Cmod, Re, Im. rewrite <- Rsqr_pow2, Rsqr_sqrt; [reflexivity|].
  pose proof (pow2_ge_0 (fst z)); pose proof (pow2_ge_0 (snd z)); lra.
Qed.

Lemma norm2_nonneg n g : 0 <= norm2 n g.
Proof. apply sumn_nonneg. intros. apply pow2_ge_0. Qed.
Lemma norm2_zero n g : norm2 n g = 0 -> forall i, (i < n)%nat -> g i = RtoC 0.
Proof.
  intros H i Hi.
  assert (E : Cmod (g i) ^ 2 = 0).
  { apply (sumn_zero_inv n (fun i => Cmod (g i) ^ 2)); auto. intros; apply pow2_ge_0. }
  apply Cmod_eq_0. nra.
Qed.
Lemma norm2_ext n g h : (forall i, (i < n)%nat -> g i = h i) -> norm2 n g = norm2 n h.
Proof. intros H. apply sumn_ext. intros. now rewrite H. Qed.
(** Hermitian product. *)
Definition hprod (n : nat) (g h : nat -> C) : C := csumn n (fun i => Cmult (Cconj (g i)) (h i)).
Lemma norm2_plus n g h : hprod n g h = RtoC 0 -> norm2 n (fun i => Cplus (g i) (h i)) = norm2 n g + norm2 n h.
Proof.
  intros H. assert (R0 : Re (hprod n g h) = 0) by (rewrite H; reflexivity).
  unfold hprod in R0. rewrite Re_csumn in R0. unfold norm2.
  rewrite <- sumn_plus.
  rewrite (sumn_ext n _ (fun i => (Cmod (g i) ^ 2 + Cmod (h i) ^ 2) + 2 * Re (Cmult (Cconj (g i)) (h i)))).
  - rewrite sumn_plus, sumn_scal, R0. ring.
  - intros i _. rewrite !Cmod2_ReIm. unfold Cmult, Cconj, Cplus, Re, Im; cbn. ring.
Qed.

Section Svd.
Variables (m n K : nat) (A U W : nat -> nat -> C) (S : nat -> R).
Hypothesis Uorth : forall k k', (k < K)%nat -> (k' < K)%nat ->
  csumn m (fun i => Cmult (Cconj (U i k)) (U i k')) = delta k k'.
Hypothesis Worth : forall k k', (k < K)%nat -> (k' < K)%nat ->
  csumn n (fun l => Cmult (W k l) (Cconj (W k' l))) = delta k k'.
Hypothesis Afac : forall i l, (i < m)%nat -> (l < n)%nat ->
  A i l = csumn K (fun k => Cmult (U i k) (Cmult (RtoC (S k)) (W k l))).
Hypothesis Snz : forall k, (k < K)%nat -> S k <> 0.

Definition Ap (z : nat -> C) (i : nat) : C := csumn n (fun l => Cmult (A i l) (z l)).
Definition Wp (z : nat -> C) (k : nat) : C := csumn n (fun l => Cmult (W k l) (z l)).
Definition Up (x : nat -> C) (k : nat) : C := csumn m (fun i => Cmult (Cconj (U i k)) (x i)).
Definition sol (x : nat -> C) (l : nat) : C :=
  csumn K (fun k => Cmult (Cconj (W k l)) (Cdiv (Up x k) (RtoC (S k)))).

Lemma Ap_fac z i : (i < m)%nat -> Ap z i = csumn K (fun k => Cmult (U i k) (Cmult (RtoC (S k)) (Wp z k))).
Proof.
  intros Hi. unfold Ap, Wp.
  rewrite (csumn_ext n _ (fun l => csumn K (fun k => Cmult (Cmult (U i k) (RtoC (S k))) (Cmult (W k l) (z l))))).
  - rewrite csumn_swap. apply csumn_ext. intros k _. rewrite csumn_scal. ring.
  - intros l Hl. rewrite Afac by assumption. rewrite <- csumn_scal_r. apply csumn_ext. intros k _. ring.
Qed.

Lemma Wp_sol x k : (k < K)%nat -> Wp (sol x) k = Cdiv (Up x k) (RtoC (S k)).
Proof.
  intros Hk. unfold Wp, sol.
  rewrite (csumn_ext n _ (fun l => csumn K (fun k' => Cmult (Cdiv (Up x k') (RtoC (S k'))) (Cmult (W k l) (Cconj (W k' l)))))).
  - rewrite csumn_swap.
    rewrite (csumn_ext K _ (fun k' => Cmult (delta k k') (Cdiv (Up x k') (RtoC (S k'))))).
    + now rewrite csumn_delta.
    + intros k' Hk'. rewrite csumn_scal, Worth by assumption. ring.
  - intros l _. rewrite <- csumn_scal. apply csumn_ext. intros. ring.
Qed.

Lemma RtoC_nz r : r <> 0 -> RtoC r <> RtoC 0.
Proof. intros H E. apply H. now injection E. Qed.

Lemma Ap_sol x i : (i < m)%nat -> Ap (sol x) i = csumn K (fun k => Cmult (U i k) (Up x k)).
Proof.
  intros Hi. rewrite Ap_fac by assumption. apply csumn_ext. intros k Hk. rewrite Wp_sol by assumption.
  f_equal. field. apply RtoC_nz. auto.
Qed.

Lemma Up_lin (d : nat -> C) k : (k < K)%nat -> csumn m (fun i => Cmult (Cconj (U i k)) (csumn K (fun k' => Cmult (U i k') (d k')))) = d k.
Proof.
  intros Hk.
  rewrite (csumn_ext m _ (fun i => csumn K (fun k' => Cmult (d k') (Cmult (Cconj (U i k)) (U i k'))))).
  - rewrite csumn_swap. rewrite (csumn_ext K _ (fun k' => Cmult (delta k k') (d k'))).
    + now rewrite csumn_delta.
    + intros k' Hk'. rewrite csumn_scal, Uorth by assumption. ring.
  - intros i _. rewrite <- csumn_scal. apply csumn_ext. intros. ring.
Qed.

(** The residual is orthogonal to the range of A. *)
Lemma Up_resid x k : (k < K)%nat -> Up (fun i => Cminus (Ap (sol x) i) (x i)) k = RtoC 0.
Proof.
  intros Hk. unfold Up.
  rewrite (csumn_ext m _ (fun i => Cminus (Cmult (Cconj (U i k)) (csumn K (fun k' => Cmult (U i k') (Up x k'))))
                                          (Cmult (Cconj (U i k)) (x i)))).
  - rewrite csumn_minus, Up_lin by assumption. fold (Up x k). ring.
  - intros i Hi. rewrite Ap_sol by assumption. ring.
Qed.

Definition gap x z (k : nat) : C := Cmult (RtoC (S k)) (Cminus (Wp z k) (Cdiv (Up x k) (RtoC (S k)))).

Lemma Ap_gap x z i : (i < m)%nat -> Cminus (Ap z i) (Ap (sol x) i) = csumn K (fun k => Cmult (U i k) (gap x z k)).
Proof.
  intros Hi. rewrite !Ap_fac by assumption. rewrite <- csumn_minus. apply csumn_ext. intros k Hk.
  rewrite Wp_sol by assumption. unfold gap. ring.
Qed.

Lemma hprod_U (d y : nat -> C) : hprod m (fun i => csumn K (fun k => Cmult (U i k) (d k))) y = csumn K (fun k => Cmult (Cconj (d k)) (Up y k)).
Proof.
  unfold hprod, Up.
  rewrite (csumn_ext m _ (fun i => csumn K (fun k => Cmult (Cconj (d k)) (Cmult (Cconj (U i k)) (y i))))).
  - rewrite csumn_swap. apply csumn_ext. intros k _. now rewrite csumn_scal.
  - intros i _. rewrite Cconj_csumn, <- csumn_scal_r. apply csumn_ext. intros k _. rewrite Cmult_conj. ring.
Qed.

Lemma hprod_ext k g g' h h' : (forall i, (i < k)%nat -> g i = g' i) -> (forall i, (i < k)%nat -> h i = h' i) -> hprod k g h = hprod k g' h'.
Proof. intros H1 H2. apply csumn_ext. intros. now rewrite H1, H2. Qed.

Lemma resid_split x z :
  norm2 m (fun i => Cminus (Ap z i) (x i)) = norm2 m (fun i => Cminus (Ap z i) (Ap (sol x) i)) + norm2 m (fun i => Cminus (Ap (sol x) i) (x i)).
Proof.
  rewrite <- norm2_plus.
  - apply norm2_ext. intros. ring.
  - rewrite (hprod_ext m _ (fun i => csumn K (fun k => Cmult (U i k) (gap x z k))) _ (fun i => Cminus (Ap (sol x) i) (x i))).
    + rewrite hprod_U. apply csumn_zero. intros k Hk. rewrite Up_resid by assumption. ring.
    + intros i Hi. now apply Ap_gap.
    + reflexivity.
Qed.

Lemma gap_zero x z : norm2 m (fun i => Cminus (Ap z i) (Ap (sol x) i)) = 0 ->
  forall k, (k < K)%nat -> Wp z k = Wp (sol x) k.
Proof.
  intros H k Hk.
  assert (G : gap x z k = RtoC 0).
  { rewrite <- (Up_lin (gap x z) k Hk). apply csumn_zero. intros i Hi.
    rewrite <- Ap_gap by assumption.
    pose proof (norm2_zero _ _ H i Hi) as E. cbv beta in E. rewrite E. ring. }
  unfold gap in G. rewrite Wp_sol by assumption.
  apply Ceq_minus. destruct (Ceq_dec (Cminus (Wp z k) (Cdiv (Up x k) (RtoC (S k)))) (RtoC 0)) as [E|N]; [exact E|].
  exfalso. revert G. apply Cmult_neq_0; [apply RtoC_nz; auto|exact N].
Qed.

Lemma norm_split x z : (forall k, (k < K)%nat -> Wp z k = Wp (sol x) k) ->
  norm2 n z = norm2 n (sol x) + norm2 n (fun l => Cminus (z l) (sol x l)).
Proof.
  intros H. rewrite <- norm2_plus.
  - apply norm2_ext. intros. ring.
  - unfold hprod.
    rewrite (csumn_ext n _ (fun l => csumn K (fun k => Cmult (Cconj (Cdiv (Up x k) (RtoC (S k)))) (Cmult (W k l) (Cminus (z l) (sol x l)))))).
    + rewrite csumn_swap. apply csumn_zero. intros k Hk. rewrite csumn_scal.
      rewrite (csumn_ext n _ (fun l => Cminus (Cmult (W k l) (z l)) (Cmult (W k l) (sol x l)))) by (intros; ring).
      rewrite csumn_minus. fold (Wp z k) (Wp (sol x) k). rewrite H by assumption. ring.
    + intros l _. unfold sol at 1. rewrite Cconj_csumn, <- csumn_scal_r. apply csumn_ext. intros k _.
      rewrite Cmult_conj, Cconj_conj. ring.
Qed.

Lemma sol_lsq x : forall h,
  let res z := norm2 m (fun i => Cminus (Ap z i) (x i)) in
  res (sol x) <= res h /\
  (res h = res (sol x) -> norm2 n (sol x) <= norm2 n h /\
     (norm2 n h = norm2 n (sol x) -> forall l, (l < n)%nat -> h l = sol x l)).
Proof.
  intros h res. unfold res. pose proof (resid_split x h) as E.
  pose proof (norm2_nonneg m (fun i => Cminus (Ap h i) (Ap (sol x) i))) as P.
  split; [lra|]. intros E1.
  assert (Z : norm2 m (fun i => Cminus (Ap h i) (Ap (sol x) i)) = 0) by lra.
  pose proof (norm_split x h (gap_zero x h Z)) as E2.
  pose proof (norm2_nonneg n (fun l => Cminus (h l) (sol x l))) as P2.
  split; [lra|]. intros E3 l Hl. apply Ceq_minus.
  apply (norm2_zero n (fun l => Cminus (h l) (sol x l))); [lra|assumption].
Qed.
End Svd.
