(** C49: the consistency check of rescale in double precision. *)
From Coq Require Import Reals ZArith Lra Lia.
From Flocq Require Import Core.
From Verif.Model Require Import IEEE.
From Verif.Proofs Require Import RescaleIEEE.
Open Scope R_scope.

(** The kernel's Lambda and the product of the new beta and the new wmax, both
    operations rounded to doubles, pass the rounded comparison, whenever Lambda
    is not tiny and Lambda / new_beta is not subnormal. *)
Theorem C49_rescale_passes_the_check : forall lam new_beta,
  new_beta <> 0 -> bpow radix2 (-1022) <= Rabs (lam / new_beta) -> bpow radix2 (-900) <= Rabs lam ->
  allclose64 lam (lambda64 new_beta (wmax64 lam new_beta)) = true.
Proof. exact rescale_check. Qed.
Print Assumptions C49_rescale_passes_the_check.

Example C49_example : bpow radix2 (-1022) <= Rabs (42 / 10) /\ bpow radix2 (-900) <= Rabs 42.
Proof.
  assert (H : forall n, (n <= 0)%Z -> bpow radix2 n <= 1) by (intros n Hn; apply (bpow_le radix2 n 0); exact Hn).
  rewrite !Rabs_right by lra. split; eapply Rle_trans; try apply H; lra || lia.
Qed.
