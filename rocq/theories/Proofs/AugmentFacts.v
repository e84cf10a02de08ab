(** Facts about augmentations. *)
From Coq Require Import Reals ZArith Arith Bool Lra Lia String.
From Coquelicot Require Import Coquelicot.
From Coq Require Import List.
From Verif.Model Require Import Base Util Num Roots Poly FT SVE Basis Augment.
From Verif.Spec Require Import SUtil SPoly SFT SSVE SBasis SAugment.
From Verif.Proofs Require Import BaseFacts UtilFacts SumFacts IntFacts PPolyFacts FTFacts FTCall.
Import ListNotations.
Open Scope R_scope.
Notation length := List.length.

(** * Values *)
Definition const_fun (beta t : R) : R := 1 / sqrt beta.
Definition lin_fun (beta t : R) : R := sqrt (3 / beta) * (2 / beta * t - 1).
Definition tau_fun (a : aug) : R -> R :=
  match a with TauConst b => const_fun b | TauLinear b => lin_fun b | MatsubaraConst _ => fun _ => 0 end.

Lemma inside_fins beta ts : Forall (inside 0 beta) (map Fin ts) <-> Forall (fun t => 0 <= t <= beta) ts.
Proof.
  rewrite Forall_map. split; intros H; (eapply Forall_impl; [|exact H]); cbv beta; intros t.
  - intros (r & E & Hr). injection E as <-. auto.
  - intros Ht. exists t. auto.
Qed.

Lemma range_fins beta ts :
  (Forall (fun t => 0 <= t <= beta) ts -> check_range (map Fin ts) 0 beta = Ok (map Fin ts)) /\
  (~ Forall (fun t => 0 <= t <= beta) ts -> check_range (map Fin ts) 0 beta = Raise ValueError).
Proof. rewrite <- inside_fins. apply check_range_spec. Qed.

Lemma aug_call_ok a ts : tau_aug a -> Forall (fun t => 0 <= t <= aug_beta a) ts ->
  aug_call a (FltArr (map Fin ts)) = Ok (map (fun t => Fin (tau_fun a t)) ts).
Proof.
  intros Ha Ht. destruct a as [b|b|b]; [| |destruct Ha]; unfold aug_call; cbn [as_floats aug_beta] in *;
    rewrite (proj1 (range_fins b ts) Ht); cbn [bind]; rewrite map_map; reflexivity.
Qed.

Lemma aug_call_nan b ts : Forall (fun t => 0 <= t <= b) ts ->
  aug_call (MatsubaraConst b) (FltArr (map Fin ts)) = Ok (map (fun _ => NaN) ts).
Proof.
  intros Ht. unfold aug_call. cbn [as_floats]. rewrite (proj1 (range_fins b ts) Ht). cbn [bind]. rewrite map_map. reflexivity.
Qed.

Lemma aug_call_raises a x : ~ Forall (inside 0 (aug_beta a)) (values_of x) -> aug_call a x = Raise ValueError.
Proof.
  intros H. destruct a as [b|b|b]; unfold aug_call; cbn [aug_beta] in H;
    rewrite (proj2 (check_range_spec (as_floats x) 0 b)); auto.
Qed.

Lemma is_function_iff a f : tau_aug a ->
  (is_function a f <-> forall t, 0 <= t <= aug_beta a -> f t = tau_fun a t).
Proof.
  intros Ha. split; intros H t Ht; specialize (H t Ht);
    pose proof (aug_call_ok a [t] Ha (Forall_cons _ Ht (Forall_nil _))) as E; cbn [map] in E.
  - rewrite E in H. congruence.
  - rewrite E, H. reflexivity.
Qed.

(** * Fourier transforms *)
Lemma sin_kPI k : sin (PI * IZR k) = 0.
Proof. rewrite Rmult_comm. apply sin_eq_0_1. exists k. reflexivity. Qed.

Lemma even_phase n : Z.even n = true -> cos (PI * IZR n) = 1 /\ sin (PI * IZR n) = 0.
Proof.
  intros H. split; [|apply sin_kPI]. apply Z.even_spec in H. destruct H as (k & ->). rewrite mult_IZR.
  replace (PI * (2 * IZR k)) with (2 * (PI * IZR k)) by ring. rewrite cos_2a_sin, sin_kPI. ring.
Qed.

Lemma odd_phase n : Z.even n = false -> cos (PI * IZR n) = -1 /\ sin (PI * IZR n) = 0.
Proof.
  intros H. split; [|apply sin_kPI].
  assert (He : Z.even (n - 1) = true) by (rewrite Z.even_sub, H; reflexivity).
  destruct (even_phase _ He) as [Hc _]. rewrite minus_IZR in Hc.
  replace (PI * IZR n) with (PI * (IZR n - 1) + PI) by ring. rewrite neg_cos, Hc. ring.
Qed.

Section Trig.
Variable beta : R.
Hypothesis Hb : 0 < beta.
Variable n : Z.
Let w := PI * IZR n / beta.
Hypothesis Hn : n <> 0%Z.

Lemma w_neq : w <> 0.
Proof.
  unfold w. pose proof PI_RGT_0. apply not_0_IZR in Hn.
  unfold Rdiv. apply Rmult_integral_contrapositive_currified; [apply Rmult_integral_contrapositive_currified; lra|].
  apply Rinv_neq_0_compat. lra.
Qed.

Lemma phase_w t : PI * IZR n * t / beta = w * t.
Proof. unfold w. field. lra. Qed.

Lemma wbeta : w * beta = PI * IZR n.
Proof. unfold w. field. lra. Qed.

Lemma affine_fourier a c : Z.even n = true ->
  is_fourier (fun t => PI * IZR n * t / beta) (fun t => a * t + c) 0 beta (0, - (a * beta) / w).
Proof.
  intros He. pose proof w_neq as Hw. destruct (even_phase n He) as [Hc Hs]. split; cbn [Re Im fst snd].
  - eapply is_RInt_eq.
    + eapply is_RInt_fext; [|apply (is_RInt_deriv (fun t => (a * t + c) * sin (w * t) / w + a * cos (w * t) / w ^ 2)
                                                  (fun t => cos (w * t) * (a * t + c)))].
      * intros t. simpl. rewrite phase_w. reflexivity.
      * intros t. auto_derive; auto. field. auto.
      * intros t. apply continuous_mult2; [apply cont_cos|]. apply (ex_derive_continuous (V := R_NormedModule)). auto_derive; auto.
    + cbv beta. rewrite wbeta, Hc, Hs, !Rmult_0_r, sin_0, ?cos_0. field. auto.
  - eapply is_RInt_eq.
    + eapply is_RInt_fext; [|apply (is_RInt_deriv (fun t => - (a * t + c) * cos (w * t) / w + a * sin (w * t) / w ^ 2)
                                                  (fun t => sin (w * t) * (a * t + c)))].
      * intros t. simpl. rewrite phase_w. reflexivity.
      * intros t. auto_derive; auto. field. auto.
      * intros t. apply continuous_mult2; [apply cont_sin|]. apply (ex_derive_continuous (V := R_NormedModule)). auto_derive; auto.
    + cbv beta. rewrite wbeta, Hc, Hs, !Rmult_0_r, sin_0, ?cos_0. field. auto.
Qed.
End Trig.

Lemma affine_zero beta a c : 0 < beta ->
  is_fourier (fun t => PI * IZR 0 * t / beta) (fun t => a * t + c) 0 beta (RtoC (a * beta ^ 2 / 2 + c * beta)).
Proof.
  intros Hb. split; cbn [Re Im fst snd RtoC].
  - eapply is_RInt_eq.
    + eapply is_RInt_fext; [|apply (is_RInt_deriv (fun t => a * t ^ 2 / 2 + c * t) (fun t => a * t + c))].
      * intros t. simpl. replace (PI * 0 * t / beta) with 0 by (field; lra). rewrite cos_0. ring.
      * intros t. auto_derive; auto. field.
      * intros t. apply (ex_derive_continuous (V := R_NormedModule)). auto_derive; auto.
    + cbv beta. field.
  - eapply is_RInt_eq.
    + eapply is_RInt_fext; [|apply (is_RInt_constR 0 beta 0)].
      intros t. simpl. replace (PI * 0 * t / beta) with 0 by (field; lra). rewrite sin_0. ring.
    + ring.
Qed.

Lemma is_fourier_ext_in phase f g a b v : a <= b -> (forall t, a <= t <= b -> f t = g t) ->
  is_fourier phase f a b v -> is_fourier phase g a b v.
Proof.
  intros Hab H [H1 H2]. split; [eapply is_RInt_ext_in; [exact Hab| |exact H1]|eapply is_RInt_ext_in; [exact Hab| |exact H2]];
    cbv beta; intros x Hx; rewrite H; auto; lra.
Qed.

Lemma tau_fun_affine a t : tau_aug a -> 0 < aug_beta a -> tau_fun a t =
  match a with
  | TauLinear b => sqrt (3 / b) * 2 / b * t + - sqrt (3 / b)
  | TauConst b => 0 * t + 1 / sqrt b
  | _ => 0
  end.
Proof. intros Ha Hb. destruct a; cbn [tau_fun aug_beta] in *; [unfold const_fun|unfold lin_fun|destruct Ha]; try field; try lra.
  pose proof (sqrt_lt_R0 _ Hb). lra. Qed.

Definition hat_val (a : aug) (k : Z) : C :=
  match a with
  | TauConst b => if (k =? 0)%Z then RtoC (sqrt b) else RtoC 0
  | TauLinear b => let inv_w := PI / b * IZR k in
                   let inv_w := if (k =? 0)%Z then inv_w else / inv_w in
                   Cmult (Cdiv (RtoC (sqrt (3 / b) * 2)) Ci) (RtoC inv_w)
  | MatsubaraConst _ => RtoC 1
  end.

Lemma hat_fourier a k : tau_aug a -> 0 < aug_beta a -> Z.even k = true ->
  is_fourier (fun t => PI * IZR k * t / aug_beta a) (tau_fun a) 0 (aug_beta a) (hat_val a k).
Proof.
  intros Ha Hb He. destruct a as [b|b|b]; [| |destruct Ha]; cbn [aug_beta hat_val] in *.
  - apply is_fourier_ext_in with (fun t => 0 * t + 1 / sqrt b); [lra| |].
    { intros t _. symmetry. apply (tau_fun_affine (TauConst b) t); auto. }
    destruct (k =? 0)%Z eqn:E.
    + apply Z.eqb_eq in E. subst k. pose proof (affine_zero b 0 (1 / sqrt b) Hb) as H.
      assert (Eb : 0 * b ^ 2 / 2 + 1 / sqrt b * b = sqrt b).
      { pose proof (sqrt_lt_R0 _ Hb). rewrite <- (sqrt_sqrt b) at 3 by lra. field. lra. }
      rewrite Eb in H. exact H.
    + apply Z.eqb_neq in E. pose proof (affine_fourier b Hb k E 0 (1 / sqrt b) He) as H.
      replace (RtoC 0) with (0, - (0 * b) / (PI * IZR k / b)); auto.
      pose proof (w_neq b Hb k E). apply C_eq; cbn; [reflexivity|]. unfold Rdiv. ring.
  - apply is_fourier_ext_in with (fun t => sqrt (3 / b) * 2 / b * t + - sqrt (3 / b)); [lra| |].
    { intros t _. symmetry. apply (tau_fun_affine (TauLinear b) t); auto. }
    destruct (k =? 0)%Z eqn:E.
    + apply Z.eqb_eq in E. subst k.
      replace (Cmult (Cdiv (RtoC (sqrt (3 / b) * 2)) Ci) (RtoC (PI / b * 0)))
        with (RtoC (sqrt (3 / b) * 2 / b * b ^ 2 / 2 + - sqrt (3 / b) * b)).
      { apply affine_zero; auto. }
      apply C_eq; cbn; field; lra.
    + apply Z.eqb_neq in E. pose proof (affine_fourier b Hb k E (sqrt (3 / b) * 2 / b) (- sqrt (3 / b)) He) as H.
      pose proof (w_neq b Hb k E) as Hw. pose proof PI_RGT_0. pose proof (not_0_IZR _ E).
      match type of H with is_fourier _ _ _ _ ?v => match goal with |- is_fourier _ _ _ _ ?v' => replace v' with v end end; auto.
      apply C_eq; cbn; field; repeat split; try lra; auto.
Qed.

Lemma check_even ns : Forall (fun k => Z.even k = true) ns -> check_reduced_matsubara (IntArr ns) (Some 0%Z) = Ok ns.
Proof. apply (proj1 (check_freq FEven ns)). Qed.
Lemma check_odd ns : ~ Forall (fun k => Z.even k = true) ns -> check_reduced_matsubara (IntArr ns) (Some 0%Z) = Raise ValueError.
Proof. apply (proj2 (check_freq FEven ns)). Qed.

Lemma aug_hat_ok npc a sc ns : Forall (fun k => Z.even k = true) ns ->
  aug_hat npc a sc (IntArr ns) =
  match a with
  | TauConst _ => if npc then Ok (map (hat_val a) ns) else Raise AttributeError
  | TauLinear _ => if sc then Raise TypeError else Ok (map (hat_val a) ns)
  | MatsubaraConst _ => Ok (map (hat_val a) ns)
  end.
Proof.
  intros H. destruct a; unfold aug_hat; [rewrite check_even by auto|rewrite check_even by auto|]; cbn [bind];
    [destruct npc|destruct sc|]; reflexivity.
Qed.

Lemma aug_hat_odd npc a sc ns : tau_aug a -> ~ Forall (fun k => Z.even k = true) ns ->
  aug_hat npc a sc (IntArr ns) = Raise ValueError.
Proof. intros Ha H. destruct a; [| |destruct Ha]; unfold aug_hat; rewrite check_odd by auto; reflexivity. Qed.

Lemma aug_hat_const npc b sc ns : aug_hat npc (MatsubaraConst b) sc (IntArr ns) = Ok (map (fun _ => RtoC 1) ns).
Proof. reflexivity. Qed.

(** * C59 *)
Lemma hat_is_fourier a f ns : tau_aug a -> 0 < aug_beta a -> is_function a f -> Forall (fun k => Z.even k = true) ns ->
  exists vs, aug_hat true a false (IntArr ns) = Ok vs /\
  Forall2 (fun k v => is_fourier (fun t => PI * IZR k * t / aug_beta a) f 0 (aug_beta a) v) ns vs.
Proof.
  intros Ha Hb Hf Hn. exists (map (hat_val a) ns). split.
  { rewrite aug_hat_ok by auto. destruct a; reflexivity. }
  pose proof (proj1 (is_function_iff a f Ha) Hf) as E. induction Hn as [|k ns Hk Hn IH]; constructor; auto.
  apply is_fourier_ext_in with (tau_fun a); [lra| |apply hat_fourier; auto]. intros t Ht. symmetry. apply E. auto.
Qed.

Lemma sqrt_3b b : 0 < b -> sqrt (3 / b) * sqrt (3 / b) = 3 / b.
Proof. intros H. apply sqrt_sqrt. apply Rlt_le. apply Rdiv_lt_0_compat; lra. Qed.

Lemma norms_tau_fun b : 0 < b ->
  is_RInt (fun t => tau_fun (TauConst b) t * tau_fun (TauConst b) t) 0 b 1 /\
  is_RInt (fun t => tau_fun (TauLinear b) t * tau_fun (TauLinear b) t) 0 b 1 /\
  is_RInt (fun t => tau_fun (TauConst b) t * tau_fun (TauLinear b) t) 0 b 0.
Proof.
  intros Hb. pose proof (sqrt_lt_R0 _ Hb) as Hs. cbn [tau_fun]. unfold const_fun, lin_fun. repeat match goal with |- _ /\ _ => split end.
  - eapply is_RInt_eq; [apply is_RInt_constR|]. rewrite <- (sqrt_sqrt b) at 1 by lra. field. lra.
  - eapply is_RInt_eq.
    + eapply is_RInt_fext; [|apply (is_RInt_deriv (fun t => 3 / b * (b / 6 * (2 / b * t - 1) ^ 3)) (fun t => 3 / b * (2 / b * t - 1) ^ 2))].
      * intros t. cbv beta. transitivity (sqrt (3 / b) * sqrt (3 / b) * (2 / b * t - 1) ^ 2); [rewrite sqrt_3b by auto; ring|ring].
      * intros t. auto_derive; auto. field. lra.
      * intros t. apply (ex_derive_continuous (V := R_NormedModule)). auto_derive; auto.
    + cbv beta. field. lra.
  - eapply is_RInt_eq.
    + eapply is_RInt_fext; [|apply (is_RInt_deriv (fun t => 1 / sqrt b * sqrt (3 / b) * (b / 4 * (2 / b * t - 1) ^ 2))
                                                (fun t => 1 / sqrt b * sqrt (3 / b) * (2 / b * t - 1)))].
      * intros t. cbv beta. ring.
      * intros t. auto_derive; auto. field. lra.
      * intros t. apply (ex_derive_continuous (V := R_NormedModule)). auto_derive; auto.
    + cbv beta. field. lra.
Qed.

Lemma norms b f g : 0 < b -> is_function (TauConst b) f -> is_function (TauLinear b) g ->
  is_RInt (fun t => f t * f t) 0 b 1 /\ is_RInt (fun t => g t * g t) 0 b 1 /\ is_RInt (fun t => f t * g t) 0 b 0.
Proof.
  intros Hb Hf Hg. pose proof (proj1 (is_function_iff (TauConst b) f I) Hf) as Ef.
  pose proof (proj1 (is_function_iff (TauLinear b) g I) Hg) as Eg. cbn [aug_beta] in *.
  destruct (norms_tau_fun b Hb) as (H1 & H2 & H3).
  assert (K : forall u v u' v' I, (forall t, 0 <= t <= b -> u t = u' t) -> (forall t, 0 <= t <= b -> v t = v' t) ->
    is_RInt (fun t => u' t * v' t) 0 b I -> is_RInt (fun t => u t * v t) 0 b I).
  { intros u v u' v' I Eu Ev H. eapply is_RInt_ext_in; [apply Rlt_le; exact Hb| |exact H]. cbv beta. intros t Ht.
    rewrite (Eu t), (Ev t) by lra. reflexivity. }
  split; [|split]; [exact (K _ _ _ _ _ Ef Ef H1)|exact (K _ _ _ _ _ Eg Eg H2)|exact (K _ _ _ _ _ Ef Eg H3)].
Qed.

(** * C60 *)
Definition tau_d (a : aug) (m : nat) (t : R) : R :=
  match m with
  | O => tau_fun a t
  | S O => match a with TauLinear b => sqrt (3 / b) * 2 / b | _ => 0 end
  | _ => 0
  end.

Lemma tau_d_chain a m t : 0 < aug_beta a -> is_derive (tau_d a m) t (tau_d a (S m) t).
Proof.
  intros Hb. destruct m as [|[|m]]; cbn [tau_d].
  - destruct a as [b|b|b]; cbn [tau_fun aug_beta] in *.
    + apply (is_derive_const (V := R_NormedModule)).
    + apply is_derive_ext with (fun t => sqrt (3 / b) * (2 / b * t - 1)); [reflexivity|]. auto_derive; auto. field. lra.
    + apply (is_derive_const (V := R_NormedModule)).
  - apply (is_derive_const (V := R_NormedModule)).
  - apply (is_derive_const (V := R_NormedModule)).
Qed.

Lemma deriv_ok a f n ts : tau_aug a -> 0 < aug_beta a -> is_function a f -> Forall (fun t => 0 < t < aug_beta a) ts ->
  exists vs, aug_deriv a n (FltArr (map Fin ts)) = Ok (map Fin vs) /\
  Forall2 (fun t v => is_derive_n f n t v) ts vs.
Proof.
  intros Ha Hb Hf Ht. exists (map (tau_d a n) ts). split.
  - assert (Hin : Forall (fun t => 0 <= t <= aug_beta a) ts) by (eapply Forall_impl; [|exact Ht]; cbv beta; intros; lra).
    destruct a as [b|b|b]; [| |destruct Ha]; destruct n as [|[|n]]; unfold aug_deriv;
      try (rewrite aug_call_ok by auto; rewrite map_map; reflexivity);
      cbn [full_like]; rewrite !map_map; reflexivity.
  - pose proof (proj1 (is_function_iff a f Ha) Hf) as E. induction Ht as [|t ts Ht _ IH]; constructor; auto.
    apply is_derive_n_ext_loc with (tau_fun a).
    + apply open_loc with 0 (aug_beta a); auto. intros y Hy. symmetry. apply E. lra.
    + exact (is_derive_n_chain (tau_d a) (fun m t => tau_d_chain a m t Hb) n t).
Qed.

Lemma deriv_int_wrong : is_function (TauLinear 3) (lin_fun 3) /\ is_derive_n (lin_fun 3) 1 1 (2 / 3) /\
  aug_deriv (TauLinear 3) 1 (FltArr [Fin 1]) = Ok [Fin (2 / 3)] /\
  aug_deriv (TauLinear 3) 1 (IntArr [1%Z]) = Ok [Fin 0].
Proof.
  assert (E : sqrt (3 / 3) * 2 / 3 = 2 / 3) by (replace (3 / 3) with 1 by field; rewrite sqrt_1; field).
  repeat match goal with |- _ /\ _ => split end.
  - apply is_function_iff; [exact I|]. intros; reflexivity.
  - assert (H3 : 0 < aug_beta (TauLinear 3)) by (cbn; lra).
    rewrite <- E. exact (is_derive_n_chain (tau_d (TauLinear 3)) (fun m t => tau_d_chain _ m t H3) 1 1).
  - cbn. rewrite E. reflexivity.
  - unfold aug_deriv. cbn [full_like map astype_int]. rewrite E.
    assert (Et : Rtrunc (2 / 3) = 0%Z).
    { unfold Rtrunc. destruct Rle_dec; [|lra]. unfold Int_part. rewrite <- (tech_up (2 / 3) 1) by (simpl; lra). reflexivity. }
    rewrite Et. reflexivity.
Qed.
