(** Bounds for spherical Bessel functions and phases. *)
From Coq Require Import Reals ZArith Arith Bool Lra Lia Psatz.
From Flocq Require Import Core.
From Coquelicot Require Import Coquelicot.
From Coq Require Import List.
From Verif.Model Require Import Base Util Num Poly FT.
From Verif.Spec Require Import SPoly SFT.
From Verif.Proofs Require Import BaseFacts SumFacts IntFacts LegFacts LegRecur FTFacts FTModel.
Import ListNotations.
Open Scope R_scope.
Arguments legP : simpl never.

Lemma int_bound f v M : is_RInt f (-1) 1 v -> (forall x, -1 <= x <= 1 -> Rabs (f x) <= M) -> Rabs v <= 2 * M.
Proof.
  intros H B. pose proof (norm_RInt_le f (fun _ => M) (-1) 1 v (2 * M)) as N. apply N; auto; [lra|].
  eapply is_RInt_eq; [apply (is_RInt_constR (-1) 1 M)|]. ring.
Qed.

(** * Sine and cosine *)
Lemma sin_step a b : Rabs (sin a - sin b) <= Rabs (a - b).
Proof.
  destruct (MVT_gen sin b a cos) as (c & _ & E).
  - intros x _. apply is_derive_Reals, derivable_pt_lim_sin.
  - intros x _. apply continuity_sin.
  - rewrite E, Rabs_mult. pose proof (COS_bound c). pose proof (Rabs_pos (a - b)).
    assert (Rabs (cos c) <= 1) by (apply Rabs_le; lra). nra.
Qed.
Lemma cos_step a b : Rabs (cos a - cos b) <= Rabs (a - b).
Proof.
  destruct (MVT_gen cos b a (fun x => - sin x)) as (c & _ & E).
  - intros x _. apply is_derive_Reals, derivable_pt_lim_cos.
  - intros x _. apply continuity_cos.
  - rewrite E, Rabs_mult, Rabs_Ropp. pose proof (SIN_bound c). pose proof (Rabs_pos (a - b)).
    assert (Rabs (sin c) <= 1) by (apply Rabs_le; lra). nra.
Qed.
Lemma cexp_mod t : Cmod (cexp t) = 1.
Proof. unfold Cmod, cexp, fst, snd. replace (cos t ^ 2 + sin t ^ 2) with 1; [apply sqrt_1|]. pose proof (sin2_cos2 t) as H. unfold Rsqr in H. lra. Qed.
(** |exp(ia) - exp(ib)|^2 = 2 - 2 cos(a - b) <= (a - b)^2 *)
Lemma cexp_step a b : Cmod (Cminus (cexp a) (cexp b)) <= Rabs (a - b).
Proof.
  rewrite <- sqrt_Rsqr_abs. unfold Cmod. apply sqrt_le_1_alt.
  replace (fst (Cminus (cexp a) (cexp b)) ^ 2 + snd (Cminus (cexp a) (cexp b)) ^ 2) with (2 - 2 * cos (a - b)).
  2:{ rewrite cos_minus. unfold cexp, Cminus, Cplus, Copp, fst, snd. pose proof (sin2_cos2 a) as H. pose proof (sin2_cos2 b) as H'. unfold Rsqr in H, H'. lra. }
  replace (a - b) with (2 * ((a - b) / 2)) at 1 by field. rewrite cos_2a_sin.
  pose proof (sin_step ((a - b) / 2) 0) as S. rewrite sin_0, !Rminus_0_r in S. unfold Rsqr.
  pose proof (Rabs_pos (sin ((a - b) / 2))).
  assert (Q : Rabs (sin ((a - b) / 2)) * Rabs (sin ((a - b) / 2)) <= Rabs ((a - b) / 2) * Rabs ((a - b) / 2)) by (apply Rmult_le_compat; auto).
  set (h := (a - b) / 2) in *. set (w := sin h) in *. rewrite <- !Rabs_mult in Q. rewrite (Rabs_pos_eq (w * w)), (Rabs_pos_eq (h * h)) in Q by apply Rle_0_sqr.
  replace (a - b) with (2 * h) by (unfold h; field). lra.
Qed.

(** * Powers of the imaginary unit *)
Lemma imag_cases n : imag_power n = (1, 0) \/ imag_power n = (0, 1) \/ imag_power n = (-1, 0) \/ imag_power n = (0, -1).
Proof.
  unfold imag_power. pose proof (Z.mod_pos_bound n 4 ltac:(lia)) as H. destruct (n mod 4)%Z as [|[[]|[]|]|]; auto.
Qed.
Lemma imag_mod n : Cmod (imag_power n) = 1.
Proof. rewrite imag_power_exp. apply cexp_mod. Qed.

(** * Spherical Bessel functions *)
Lemma tnl_parts l a : 0 <= a ->
  get_tnl l a = Cmult (RtoC 2) (Cmult (imag_power (Z.of_nat l)) (RtoC (sph_jn l a))).
Proof. intros H. unfold get_tnl. rewrite Rabs_pos_eq by auto. unfold Rltb. destruct (Rlt_dec a 0); [lra|auto]. Qed.
Lemma sph_le1 l a : 0 <= a -> Rabs (sph_jn l a) <= 1.
Proof.
  intros H. destruct (tnl_fourier l a) as [H1 H2]. rewrite tnl_parts in H1, H2 by auto.
  assert (B1 : forall x, -1 <= x <= 1 -> Rabs (cos (a * x) * legP l x) <= 1).
  { intros x Hx. rewrite Rabs_mult. pose proof (legP_le1 x Hx l). pose proof (COS_bound (a * x)).
    assert (Rabs (cos (a * x)) <= 1) by (apply Rabs_le; lra). pose proof (Rabs_pos (legP l x)). pose proof (Rabs_pos (cos (a * x))). nra. }
  assert (B2 : forall x, -1 <= x <= 1 -> Rabs (sin (a * x) * legP l x) <= 1).
  { intros x Hx. rewrite Rabs_mult. pose proof (legP_le1 x Hx l). pose proof (SIN_bound (a * x)).
    assert (Rabs (sin (a * x)) <= 1) by (apply Rabs_le; lra). pose proof (Rabs_pos (legP l x)). pose proof (Rabs_pos (sin (a * x))). nra. }
  apply (int_bound _ _ _ H1) in B1. apply (int_bound _ _ _ H2) in B2.
  destruct (imag_cases (Z.of_nat l)) as [E|[E|[E|E]]]; rewrite E in B1, B2; unfold Cmult, Re, Im, RtoC, fst, snd in B1, B2;
    [clear B2; rename B1 into B|clear B1; rename B2 into B|clear B2; rename B1 into B|clear B1; rename B2 into B];
    apply Rabs_le_inv in B; apply Rabs_le; lra.
Qed.
Lemma sph_step l a b : 0 <= a -> 0 <= b -> Rabs (sph_jn l a - sph_jn l b) <= Rabs (a - b).
Proof.
  intros Ha Hb. destruct (tnl_fourier l a) as [H1 H2]. destruct (tnl_fourier l b) as [K1 K2]. rewrite tnl_parts in H1, H2, K1, K2 by auto.
  assert (B1 : forall x, -1 <= x <= 1 -> Rabs (cos (a * x) * legP l x - cos (b * x) * legP l x) <= Rabs (a - b)).
  { intros x Hx. rewrite <- Rmult_minus_distr_r, Rabs_mult. pose proof (legP_le1 x Hx l). pose proof (cos_step (a * x) (b * x)) as S.
    rewrite <- Rmult_minus_distr_r, Rabs_mult in S. assert (Rabs x <= 1) by (apply Rabs_le; lra).
    pose proof (Rabs_pos (legP l x)). pose proof (Rabs_pos (a - b)). pose proof (Rabs_pos x). pose proof (Rabs_pos (cos (a * x) - cos (b * x))).
    assert (Rabs (a - b) * Rabs x <= Rabs (a - b) * 1) by (apply Rmult_le_compat_l; auto).
    apply Rle_trans with (Rabs (cos (a * x) - cos (b * x)) * 1); [apply Rmult_le_compat_l; auto|lra]. }
  assert (B2 : forall x, -1 <= x <= 1 -> Rabs (sin (a * x) * legP l x - sin (b * x) * legP l x) <= Rabs (a - b)).
  { intros x Hx. rewrite <- Rmult_minus_distr_r, Rabs_mult. pose proof (legP_le1 x Hx l). pose proof (sin_step (a * x) (b * x)) as S.
    rewrite <- Rmult_minus_distr_r, Rabs_mult in S. assert (Rabs x <= 1) by (apply Rabs_le; lra).
    pose proof (Rabs_pos (legP l x)). pose proof (Rabs_pos (a - b)). pose proof (Rabs_pos x). pose proof (Rabs_pos (sin (a * x) - sin (b * x))).
    assert (Rabs (a - b) * Rabs x <= Rabs (a - b) * 1) by (apply Rmult_le_compat_l; auto).
    apply Rle_trans with (Rabs (sin (a * x) - sin (b * x)) * 1); [apply Rmult_le_compat_l; auto|lra]. }
  pose proof (is_RInt_minus _ _ _ _ _ _ H1 K1) as D1. pose proof (is_RInt_minus _ _ _ _ _ _ H2 K2) as D2.
  apply (int_bound _ _ _ D1) in B1. apply (int_bound _ _ _ D2) in B2. unfold minus, plus, opp in B1, B2. simpl in B1, B2.
  destruct (imag_cases (Z.of_nat l)) as [E|[E|[E|E]]]; rewrite E in B1, B2; unfold Cmult, Re, Im, RtoC, fst, snd in B1, B2;
    [clear B2; rename B1 into B|clear B1; rename B2 into B|clear B2; rename B1 into B|clear B1; rename B2 into B];
    apply Rabs_le_inv in B; apply Rabs_le; lra.
Qed.
