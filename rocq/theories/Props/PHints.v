(** C79: discretisation hints and properties of kernels. *)
From Coq Require Import String ZArith Arith Bool Reals Lia Lra.
From Coquelicot Require Import Coquelicot.
From Coq Require Import List.
From Verif.Model Require Import Base Util Num Poly FT SVE Basis Kernel.
From Verif.Spec Require Import SPoly SFT SBasis SKernel.
From Verif.Proofs Require Import KernelProps BasisPhys HintFacts SVEPolicy BasisOps.
Import ListNotations.
Open Scope R_scope.

(** C79: ngauss is 10 or 16, and no smaller for higher accuracy. *)
Theorem C79_gauss_points :
  forall eps eps', (hint_ngauss eps = 10 \/ hint_ngauss eps = 16)%nat /\
  (eps <= eps' -> (hint_ngauss eps' <= hint_ngauss eps)%nat).
Proof. exact ngauss_hint. Qed.
Print Assumptions C79_gauss_points.

(** nsvals is at least 26, no smaller for larger Lambda, and for the symmetrized
    kernels half as large, rounded up. *)
Theorem C79_singular_values :
  forall k, (26 <= hint_nsvals k)%Z /\
  (forall lam lam', 0 < lam <= lam' ->
     (hint_nsvals (Logistic lam) <= hint_nsvals (Logistic lam'))%Z /\ (hint_nsvals (RegBose lam) <= hint_nsvals (RegBose lam'))%Z) /\
  (hint_nsvals k <= 2 * reduced_nsvals k <= hint_nsvals k + 1)%Z.
Proof.
  intros k. split; [exact (nsvals_hint k)|]. split; [|exact (reduced_hint k)]. intros lam lam' H.
  exact (conj (nsvals_mono (Logistic 1) lam lam' H) (nsvals_mono (RegBose 1) lam lam' H)).
Qed.
Print Assumptions C79_singular_values.

(** uhat of a basis made with a kernel is the Fourier integral of u at all
    frequencies below the conv_radius of the kernel. *)
Theorem C79_conv_radius :
  forall compute st beta wmax eps ms k sve b, 0 < wmax ->
  basis_init compute st beta wmax eps ms (Some (Kern (Some (k_lambda k)) (k_ypower k))) sve = Ok b -> sve_ok (bsve b) ->
  forall l f ns M j n, ft_call (buhat b) ns = Ok M -> (l < bsize b)%nat -> nth_error ns j = Some n ->
  Rabs (IZR n) < k_conv_radius k -> represents (bu b) l f ->
  exists v, entry M l j = Some v /\ is_fourier (fun t => PI * IZR n * t / bbeta b) f 0 (bbeta b) v.
Proof.
  intros compute st beta wmax eps ms k sve b Hw H Hok l f ns M j n HM Hl Hn Hlt Hf.
  refine (uhat_phys compute b _ (k_lambda k) l f ns M j n _ HM Hl Hn Hlt Hf).
  - exists st, beta, wmax, eps, ms, (Some (Kern (Some (k_lambda k)) (k_ypower k))), sve. auto.
  - exact (given_lambda compute st beta wmax eps ms _ _ sve b Hw H Hok).
Qed.
Print Assumptions C79_conv_radius.

(** The symmetrized kernels have the ypower and conv_radius of the kernel, and
    cannot be symmetrized again. *)
Theorem C79_symmetrized :
  forall k sign r, get_symmetrized k sign = Ok r ->
  reduced_ypower r = k_ypower k /\ reduced_conv_radius r = k_conv_radius k /\
  forall sign', reduced_symmetrized r sign' = Raise RuntimeError.
Proof. exact reduced_same. Qed.
Print Assumptions C79_symmetrized.

Example C79_hypotheses_met :
  exists b, basis_init no_compute "B" 2 3 None None (Some (Kern (Some (k_lambda (RegBose 6))) (k_ypower (RegBose 6)))) (Some (ex_sve (1 / 10))) = Ok b /\
    sve_ok (bsve b) /\ k_conv_radius (RegBose 6) = 240.
Proof.
  destruct (init_accepts no_compute "B" 2 3 None None (Some (Kern (Some 6) 1)) (ex_sve (1 / 10)) (1 / 10)) as (b & H1 & _ & _ & _ & _ & H6 & _);
    auto; try lra; try reflexivity; [|apply ex_sve_ok|].
  - right. exists (Kern (Some 6) 1), 6. split; [reflexivity|]. split; [reflexivity|].
    replace (6 - 2 * 3) with 0 by ring. rewrite Rabs_R0. apply Rmult_le_pos; [lra|apply Rabs_pos].
  - exists b. split; [exact H1|]. split; [rewrite H6; apply ex_sve_ok|]. unfold k_conv_radius, k_lambda. lra.
Qed.
