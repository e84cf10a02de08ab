(** Discretisation hints. *)
From Coq Require Import String ZArith Arith Bool Reals Lia Lra.
From Coquelicot Require Import Coquelicot.
From Flocq Require Import Core.
From Coq Require Import List.
From Verif.Model Require Import Base Util Num Poly FT SVE Basis Kernel.
From Verif.Spec Require Import SPoly SBasis SKernel.
From Verif.Proofs Require Import BaseFacts BasisInit.
Import ListNotations.
Open Scope R_scope.

Lemma ngauss_hint eps eps' : (hint_ngauss eps = 10 \/ hint_ngauss eps = 16)%nat /\ (eps <= eps' -> (hint_ngauss eps' <= hint_ngauss eps)%nat).
Proof.
  unfold hint_ngauss. destruct (Rleb (/ 10 ^ 8) eps) eqn:E; (split; [lia|]); intros H.
  - rewrite (proj2 (Rleb_true (/ 10 ^ 8) eps')); [lia|]. apply Rleb_true in E. lra.
  - destruct (Rleb _ eps'); lia.
Qed.

Lemma Rtrunc_mono x y : 0 <= x <= y -> (Rtrunc x <= Rtrunc y)%Z.
Proof.
  intros H. unfold Rtrunc. destruct (Rle_dec 0 x); [|lra]. destruct (Rle_dec 0 y); [|lra].
  destruct (base_Int_part x), (base_Int_part y). apply Z.lt_succ_r. apply lt_IZR. rewrite succ_IZR. lra.
Qed.
Lemma Rtrunc_IZR n : (0 <= n)%Z -> Rtrunc (IZR n) = n.
Proof.
  intros H. unfold Rtrunc. destruct (Rle_dec 0 (IZR n)) as [_|C]; [|exfalso; apply C; now apply IZR_le].
  destruct (base_Int_part (IZR n)). assert (Int_part (IZR n) <= n)%Z by (now apply le_IZR).
  assert (n < Int_part (IZR n) + 1)%Z by (apply lt_IZR; rewrite plus_IZR; lra). lia.
Qed.

Definition rescaled (k : kernel) (lam : R) : kernel := match k with Logistic _ => Logistic lam | RegBose _ => RegBose lam end.

Lemma log10_mono a b : 0 < a <= b -> log10 a <= log10 b.
Proof.
  intros H. unfold log10. assert (0 < ln 10) by (rewrite <- ln_1; apply ln_increasing; lra).
  apply Rmult_le_compat_r; [left; now apply Rinv_0_lt_compat|]. destruct (proj2 H) as [H1| ->]; [left; apply ln_increasing; lra|lra].
Qed.

Lemma nsvals_hint k : (26 <= hint_nsvals k)%Z.
Proof.
  unfold hint_nsvals. pose proof (Rmax_l 1 (log10 (k_lambda k))) as H. set (l := Rmax 1 (log10 (k_lambda k))) in *.
  destruct k.
  - assert (E : np_round (IZR 26) = 26%Z) by (unfold np_round; apply (@Zrnd_IZR ZnearestE (valid_rnd_N _))). rewrite <- E.
    unfold np_round. apply (@Zrnd_le ZnearestE (valid_rnd_N _)). nra.
  - apply Z.le_trans with (Rtrunc (IZR 28)); [rewrite Rtrunc_IZR by lia; lia|]. apply Rtrunc_mono. lra.
Qed.

Lemma nsvals_mono k lam lam' : 0 < lam <= lam' -> (hint_nsvals (rescaled k lam) <= hint_nsvals (rescaled k lam'))%Z.
Proof.
  intros H. unfold hint_nsvals. pose proof (log10_mono _ _ H) as Hl.
  destruct k; cbn [rescaled k_lambda]; pose proof (Rmax_l 1 (log10 lam)); pose proof (Rmax_case_strong 1 (log10 lam) (fun m => m <= Rmax 1 (log10 lam')) ltac:(intros; apply Rmax_l) ltac:(intros; eapply Rle_trans; [exact Hl|apply Rmax_r])) as Hm; cbv beta in Hm.
  - unfold np_round. apply (@Zrnd_le ZnearestE (valid_rnd_N _)). nra.
  - apply Rtrunc_mono. nra.
Qed.

Lemma reduced_hint k : (hint_nsvals k <= 2 * reduced_nsvals k <= hint_nsvals k + 1)%Z.
Proof. unfold reduced_nsvals. pose proof (Z.div_mod (hint_nsvals k + 1) 2 ltac:(lia)). pose proof (Z.mod_pos_bound (hint_nsvals k + 1) 2 ltac:(lia)). lia. Qed.

Lemma given_lambda compute st beta wmax eps ms lam yp sve b : 0 < wmax ->
  basis_init compute st beta wmax eps ms (Some (Kern (Some lam) yp)) sve = Ok b -> sve_ok (bsve b) ->
  klam (bkernel b) = Some lam.
Proof.
  intros Hw H Hok. destruct (basis_init_inv _ _ _ _ _ _ _ _ _ H Hok Hw) as (k & r & l & q & e & n & f & f' & _ & Hk & _ & _ & _ & _ & _ & _ & Hl & _ & _ & _ & E).
  rewrite E. cbn [the_basis bkernel]. unfold get_kernel in Hk. destruct (negb _); [discriminate|]. cbn [klam] in Hk.
  destruct (lam_close _ _); [|discriminate]. injection Hk as <-. reflexivity.
Qed.

Lemma reduced_same k sign r : get_symmetrized k sign = Ok r ->
  reduced_ypower r = k_ypower k /\ reduced_conv_radius r = k_conv_radius k /\
  forall sign', reduced_symmetrized r sign' = Raise RuntimeError.
Proof.
  unfold get_symmetrized, reduced_init, reduced_ypower, reduced_conv_radius, reduced_symmetrized.
  destruct (Reqb sign (-1)), (Reqb (Rabs sign) 1); try discriminate; intros [= <-]; auto.
Qed.
