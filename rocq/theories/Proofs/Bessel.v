(** Bessel's inequality for nearly orthonormal functions. *)
From Coq Require Import String ZArith Arith Bool Reals Lra Lia Psatz.
From Coquelicot Require Import Coquelicot.
From Coq Require Import List.
From Verif.Model Require Import Base Num FT.
From Verif.Spec Require Import SFT SSampling SSamplingIEEE.
From Verif.Proofs Require Import BaseFacts SumFacts FTFacts CVec.
Open Scope R_scope.

Lemma rint_sum n (f : nat -> R -> R) a b (v : nat -> R) : (forall l, (l < n)%nat -> is_RInt (f l) a b (v l)) ->
  is_RInt (fun t => sumn n (fun l => f l t)) a b (sumn n v).
Proof.
  exact (is_RInt_sumn n f a b v).
Qed.
Lemma rint_scal f a b v k : is_RInt f a b v -> is_RInt (fun t => k * f t) a b (k * v).
Proof. intros H. exact (is_RInt_scal _ _ _ k _ H). Qed.

Lemma sum_sqr n (c : nat -> R) : sumn n (fun l => Rabs (c l)) * sumn n (fun l => Rabs (c l)) <= INR n * sumn n (fun l => c l * c l).
Proof.
  pose proof (sum_cs n (fun _ => 1) (fun l => Rabs (c l))) as H. rewrite (sumn_ext _ _ (fun l => Rabs (c l))) in H by (intros; ring).
  rewrite rsize_const in H by lra. assert (P : 0 <= sumn n (fun l => Rabs (c l))) by (apply sumn_nonneg; intros; apply Rabs_pos).
  pose proof (rsize_sqr n (fun l => Rabs (c l))) as Q. rewrite (sumn_ext _ (fun i => Rabs (c i) * Rabs (c i)) (fun l => c l * c l)) in Q.
  2:{ intros i _. rewrite <- Rabs_mult. apply Rabs_pos_eq. nra. }
  pose proof (pos_INR n) as N. pose proof (sqrt_sqrt (INR n) N) as S. pose proof (sqrt_pos (INR n)). pose proof (rsize_pos n (fun l => Rabs (c l))).
  set (s := sqrt (INR n)) in *. set (r := rsize n _) in *. set (x := sumn n (fun l => Rabs (c l))) in *. rewrite <- Q, <- S. rewrite Rmult_1_r in H.
  replace (s * s * (r * r)) with ((s * r) * (s * r)) by ring. apply Rmult_le_compat; assumption.
Qed.

Section Bessel.
Variables (L : nat) (h : nat -> R -> R) (phi : R -> R) (beta a0 : R) (H : nat -> C).
Hypothesis Pb : 0 < beta.
Hypothesis HF : forall l, (l < L)%nat -> is_fourier phi (h l) 0 beta (H l).
Variable I : nat -> nat -> R.
Hypothesis HI : forall l m, (l < L)%nat -> (m < L)%nat -> is_RInt (fun t => h l t * h m t) 0 beta (I l m) /\ Rabs (I l m - (if Nat.eqb l m then 1 else 0)) <= a0.

Let D (c : nat -> R) (t : R) : R := sumn L (fun l => c l * h l t).
Let Q (c : nat -> R) : R := sumn L (fun l => sumn L (fun m => c l * c m * I l m)).

Lemma quad_int c : is_RInt (fun t => D c t * D c t) 0 beta (Q c).
Proof.
  apply is_RInt_ext with (fun t => sumn L (fun l => sumn L (fun m => c l * c m * (h l t * h m t)))).
  - intros t _. unfold D. rewrite sumn_mul. apply sumn_ext. intros l _. apply sumn_ext. intros m _. ring.
  - apply rint_sum. intros l Hl. apply rint_sum. intros m Hm. apply rint_scal, HI; assumption.
Qed.

Lemma quad_le c : Q c <= (1 + INR L * a0) * sumn L (fun l => c l * c l).
Proof.
  unfold Q. apply Rle_trans with (sumn L (fun l => sumn L (fun m => (if Nat.eqb l m then c l * c m else 0) + a0 * (Rabs (c l) * Rabs (c m))))).
  - apply sumn_le. intros l Hl. apply sumn_le. intros m Hm. destruct (HI l m Hl Hm) as (_ & B).
    assert (E : c l * c m * I l m = (if Nat.eqb l m then c l * c m else 0) + c l * c m * (I l m - if Nat.eqb l m then 1 else 0)) by (destruct (Nat.eqb l m); ring).
    rewrite E. apply Rplus_le_compat_l. eapply Rle_trans; [apply Rle_abs|]. rewrite !Rabs_mult, (Rmult_comm a0). apply Rmult_le_compat_l; [|exact B]. apply Rmult_le_pos; apply Rabs_pos.
  - rewrite (sumn_ext _ _ (fun l => c l * c l + a0 * (Rabs (c l) * sumn L (fun m => Rabs (c m))))).
    2:{ intros l Hl. rewrite sumn_plus. f_equal.
        - rewrite (sumn_single L _ l Hl); [now rewrite Nat.eqb_refl|]. intros m _ Hm. destruct (Nat.eqb_spec l m); [congruence|reflexivity].
        - rewrite sumn_scal, sumn_scal. reflexivity. }
    rewrite sumn_plus, sumn_scal, sumn_scal_r. pose proof (sum_sqr L c) as S.
    assert (P : L = 0%nat \/ 0 <= a0). { destruct L as [|n] eqn:E; [now left|right]. destruct (HI 0%nat 0%nat ltac:(lia) ltac:(lia)) as (_ & B). eapply Rle_trans; [apply Rabs_pos|exact B]. }
    destruct P as [P|P]; [rewrite P; cbn; lra|].
    assert (T : a0 * (sumn L (fun l => Rabs (c l)) * sumn L (fun l => Rabs (c l))) <= a0 * (INR L * sumn L (fun l => c l * c l))) by (apply Rmult_le_compat_l; assumption). lra.
Qed.

Lemma bessel : norm2 L H <= beta * (1 + INR L * a0).
Proof.
  set (c := fun l => Re (H l)). set (s := fun l => Im (H l)).
  set (N := sumn L (fun l => c l * c l) + sumn L (fun l => s l * s l)).
  assert (EN : norm2 L H = N). { unfold norm2, N. rewrite <- sumn_plus. apply sumn_ext. intros l _. unfold c, s. unfold Cmod. rewrite pow2_sqrt by nra. destruct (H l); cbn. ring. }
  rewrite EN. set (la := N / beta).
  assert (K : is_RInt (fun t => (la * cos (phi t) - D c t) * (la * cos (phi t) - D c t) + (la * sin (phi t) - D s t) * (la * sin (phi t) - D s t)) 0 beta
     (la * la * beta - 2 * la * N + (Q c + Q s))).
  { assert (Kc : is_RInt (fun t => sumn L (fun l => c l * (cos (phi t) * h l t))) 0 beta (sumn L (fun l => c l * c l))).
    { apply rint_sum. intros l Hl. apply rint_scal. exact (proj1 (HF l Hl)). }
    assert (Ks : is_RInt (fun t => sumn L (fun l => s l * (sin (phi t) * h l t))) 0 beta (sumn L (fun l => s l * s l))).
    { apply rint_sum. intros l Hl. apply rint_scal. exact (proj2 (HF l Hl)). }
    pose proof (is_RInt_const 0 beta (la * la)) as K0.
    pose proof (is_RInt_plus _ _ _ _ _ _ (is_RInt_plus _ _ _ _ _ _ K0 (rint_scal _ _ _ _ (- (2 * la)) (is_RInt_plus _ _ _ _ _ _ Kc Ks))) (is_RInt_plus _ _ _ _ _ _ (quad_int c) (quad_int s))) as K.
    eapply is_RInt_ext; [|replace (la * la * beta - 2 * la * N + (Q c + Q s)) with
      (plus (plus (scal (beta - 0) (la * la)) (- (2 * la) * plus (sumn L (fun l => c l * c l)) (sumn L (fun l => s l * s l)))) (plus (Q c) (Q s))); [exact K|]].
    - intros t _. unfold plus; cbn.
      assert (E1 : sumn L (fun l => c l * (cos (phi t) * h l t)) = cos (phi t) * D c t) by (unfold D; rewrite <- sumn_scal; apply sumn_ext; intros; ring).
      assert (E2 : sumn L (fun l => s l * (sin (phi t) * h l t)) = sin (phi t) * D s t) by (unfold D; rewrite <- sumn_scal; apply sumn_ext; intros; ring).
      rewrite E1, E2. pose proof (sin2_cos2 (phi t)) as T. unfold Rsqr in T.
      replace (la * la) with (la * la * (sin (phi t) * sin (phi t) + cos (phi t) * cos (phi t))) by (rewrite T; ring). ring.
    - unfold plus, scal; cbn; unfold mult; cbn. unfold N. ring. }
  assert (P : 0 <= la * la * beta - 2 * la * N + (Q c + Q s)).
  { apply (is_RInt_ge_0 _ 0 beta _ ltac:(lra) K). intros t _. cbv beta. apply Rplus_le_le_0_compat; apply Rle_0_sqr. }
  pose proof (quad_le c) as Qc. pose proof (quad_le s) as Qs.
  assert (E : la * beta = N) by (unfold la; field; lra).
  replace (la * la * beta) with (la * N) in P by (rewrite <- E; ring).
  assert (T : la * N <= (1 + INR L * a0) * N) by (unfold N in *; lra).
  assert (Np : 0 <= N) by (rewrite <- EN; unfold norm2; apply sumn_nonneg; intros; apply pow2_ge_0).
  destruct (Req_dec N 0) as [Z|Z].
  - rewrite Z. destruct L as [|n] eqn:EL; [cbn; lra|]. destruct (HI 0%nat 0%nat ltac:(lia) ltac:(lia)) as (_ & B). pose proof (Rabs_pos (I 0%nat 0%nat - (if Nat.eqb 0 0 then 1 else 0))).
    pose proof (pos_INR (S n)). apply Rmult_le_pos; [lra|]. assert (0 <= INR (S n) * a0) by (apply Rmult_le_pos; lra). lra.
  - assert (la <= 1 + INR L * a0) by (apply (Rmult_le_reg_r N); lra). rewrite <- E, (Rmult_comm beta). apply Rmult_le_compat_r; lra.
Qed.
End Bessel.
