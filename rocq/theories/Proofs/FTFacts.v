(** Fourier integrals of Legendre polynomials and of piecewise polynomials. *)
From Coq Require Import Reals ZArith Arith Bool Lra Lia Psatz.
From Flocq Require Import Core.
From Coquelicot Require Import Coquelicot.
From Coq Require Import List Sorting.Sorted.
From Verif.Model Require Import Base Util Num Poly FT.
From Verif.Spec Require Import SPoly SFT.
From Verif.Proofs Require Import BaseFacts SumFacts IntFacts LegFacts PPolyFacts PPolyInt.
Import ListNotations.
Open Scope R_scope.
Arguments legP : simpl never.

Lemma C_eq (a b : C) : Re a = Re b -> Im a = Im b -> a = b.
Proof. destruct a, b; unfold Re, Im; simpl; intros; subst; auto. Qed.
Lemma Re_csumn n f : Re (csumn n f) = sumn n (fun i => Re (f i)).
Proof. induction n; simpl; auto. unfold Re in *. simpl. rewrite IHn. auto. Qed.
Lemma Im_csumn n f : Im (csumn n f) = sumn n (fun i => Im (f i)).
Proof. induction n; simpl; auto. unfold Im in *. simpl. rewrite IHn. auto. Qed.
Lemma csumn_ext n f g : (forall i, (i < n)%nat -> f i = g i) -> csumn n f = csumn n g.
Proof. induction n; intros H; simpl; auto. rewrite IHn, H; auto. Qed.
Lemma csumn_scal n c f : csumn n (fun i => Cmult c (f i)) = Cmult c (csumn n f).
Proof. induction n; simpl. - unfold RtoC. apply C_eq; unfold Re, Im; simpl; ring. - rewrite IHn. ring. Qed.

(** * The circle *)
Lemma cexp_plus a b : cexp (a + b) = Cmult (cexp a) (cexp b).
Proof. unfold cexp, Cmult; simpl. rewrite cos_plus, sin_plus. f_equal; ring. Qed.
Lemma cexp_PI2 : cexp (PI / 2) = (0, 1).
Proof. unfold cexp. rewrite cos_PI2, sin_PI2. auto. Qed.
Lemma imag_power_succ n : imag_power (n + 1) = Cmult (0, 1) (imag_power n).
Proof.
  unfold imag_power. rewrite Z.add_mod by lia. change (1 mod 4)%Z with 1%Z.
  assert (H : (0 <= n mod 4 < 4)%Z) by (apply Z.mod_pos_bound; lia).
  assert (H' : (n mod 4 = 0 \/ n mod 4 = 1 \/ n mod 4 = 2 \/ n mod 4 = 3)%Z) by lia.
  destruct H' as [E|[E|[E|E]]]; rewrite E; cbn [Z.modulo Z.div_eucl Z.add Z.pos_div_eucl]; unfold Cmult; simpl; f_equal; ring.
Qed.
Lemma imag_power_pred n : imag_power (n - 1) = Cmult (0, -1) (imag_power n).
Proof.
  replace n with ((n - 1) + 1)%Z at 2 by lia. rewrite imag_power_succ.
  apply C_eq; unfold Cmult, Re, Im; simpl; ring.
Qed.
Lemma cexp_m a : cexp (- a) = Cconj (cexp a).
Proof. unfold cexp, Cconj. simpl. rewrite cos_neg, sin_neg. auto. Qed.
Lemma imag_power_exp n : imag_power n = cexp (PI / 2 * IZR n).
Proof.
  induction n using Z.peano_ind.
  - rewrite Rmult_0_r. unfold cexp. rewrite cos_0, sin_0. reflexivity.
  - rewrite <- Z.add_1_r, imag_power_succ, plus_IZR, Rmult_plus_distr_l, cexp_plus, Rmult_1_r, cexp_PI2, IHn. ring.
  - rewrite <- Z.sub_1_r, imag_power_pred, minus_IZR.
    replace (PI / 2 * (IZR n - 1)) with (PI / 2 * IZR n + - (PI / 2)) by ring.
    rewrite cexp_plus, cexp_m, cexp_PI2, IHn. unfold Cconj; simpl. rewrite Cmult_comm. do 2 f_equal; ring.
Qed.

(** * Linearity of the Fourier integral *)
Lemma is_fourier_unique phase f a b v w : is_fourier phase f a b v -> is_fourier phase f a b w -> v = w.
Proof.
  intros [H1 H2] [H3 H4]. apply C_eq.
  - rewrite <- (RInt_val _ _ _ _ H1). apply RInt_val; auto.
  - rewrite <- (RInt_val _ _ _ _ H2). apply RInt_val; auto.
Qed.
Lemma is_fourier_shift phase th f a b v :
  is_fourier phase f a b v -> is_fourier (fun x => th + phase x) f a b (Cmult (cexp th) v).
Proof.
  intros [H1 H2]. split.
  - eapply is_RInt_fext; [|apply (is_RInt_subR (fun x => cos th * (cos (phase x) * f x)) (fun x => sin th * (sin (phase x) * f x)) a b (cos th * Re v) (sin th * Im v))].
    + intros x. simpl. rewrite cos_plus. ring.
    + apply is_RInt_scalR, H1.
    + apply is_RInt_scalR, H2.
  - eapply is_RInt_eq; [eapply is_RInt_fext; [|apply (is_RInt_addR (fun x => sin th * (cos (phase x) * f x)) (fun x => cos th * (sin (phase x) * f x)) a b (sin th * Re v) (cos th * Im v))]|].
    + intros x. simpl. rewrite sin_plus. ring.
    + apply is_RInt_scalR, H1.
    + apply is_RInt_scalR, H2.
    + unfold Cmult, cexp, Im, Re. simpl. ring.
Qed.
Lemma is_fourier_scal phase f a b v c :
  is_fourier phase f a b v -> is_fourier phase (fun x => c * f x) a b (Cmult (RtoC c) v).
Proof.
  intros [H1 H2]. split.
  - eapply is_RInt_eq; [eapply is_RInt_fext; [|apply (is_RInt_scalR _ _ _ _ c H1)]|].
    + intros; simpl; ring.
    + unfold Re, RtoC, Cmult; simpl; ring.
  - eapply is_RInt_eq; [eapply is_RInt_fext; [|apply (is_RInt_scalR _ _ _ _ c H2)]|].
    + intros; simpl; ring.
    + unfold Im, RtoC, Cmult; simpl; ring.
Qed.
Lemma is_RInt_sumn n (f : nat -> R -> R) a b (v : nat -> R) :
  (forall i, (i < n)%nat -> is_RInt (f i) a b (v i)) ->
  is_RInt (fun t => sumn n (fun i => f i t)) a b (sumn n v).
Proof.
  induction n; intros H; simpl.
  - eapply is_RInt_eq; [apply is_RInt_constR|ring].
  - apply is_RInt_addR; [apply IHn; intros; apply H; lia|apply H; lia].
Qed.
Lemma is_fourier_sum phase n (f : nat -> R -> R) a b (v : nat -> C) :
  (forall i, (i < n)%nat -> is_fourier phase (f i) a b (v i)) ->
  is_fourier phase (fun x => sumn n (fun i => f i x)) a b (csumn n v).
Proof.
  intros H. split.
  - rewrite Re_csumn. eapply is_RInt_fext; [|apply (is_RInt_sumn n (fun i x => cos (phase x) * f i x) a b (fun i => Re (v i)))].
    + intros x. simpl. rewrite sumn_scal. auto.
    + intros i Hi. exact (proj1 (H i Hi)).
  - rewrite Im_csumn. eapply is_RInt_fext; [|apply (is_RInt_sumn n (fun i x => sin (phase x) * f i x) a b (fun i => Im (v i)))].
    + intros x. simpl. rewrite sumn_scal. auto.
    + intros i Hi. exact (proj2 (H i Hi)).
Qed.

(** * The Fourier integral of a Legendre polynomial *)
Section Leg.
Variable w : R.
Hypothesis Hw : w <> 0.

Lemma cont_cos x : continuous (fun t => cos (w * t)) x.
Proof. apply (ex_derive_continuous (V := R_NormedModule)). auto_derive; auto. Qed.
Lemma cont_sin x : continuous (fun t => sin (w * t)) x.
Proof. apply (ex_derive_continuous (V := R_NormedModule)). auto_derive; auto. Qed.
Lemma legA_ex l : ex_RInt (fun x => cos (w * x) * legP l x) (-1) 1.
Proof. apply ex_RInt_cont. intros x. apply continuous_mult2; [apply cont_cos|apply continuous_legP]. Qed.
Lemma legB_ex l : ex_RInt (fun x => sin (w * x) * legP l x) (-1) 1.
Proof. apply ex_RInt_cont. intros x. apply continuous_mult2; [apply cont_sin|apply continuous_legP]. Qed.
Definition legA l := RInt (fun x => cos (w * x) * legP l x) (-1) 1.
Definition legB l := RInt (fun x => sin (w * x) * legP l x) (-1) 1.
Lemma legA_int l : is_RInt (fun x => cos (w * x) * legP l x) (-1) 1 (legA l).
Proof. exact (is_RInt_val _ _ _ (legA_ex l)). Qed.
Lemma legB_int l : is_RInt (fun x => sin (w * x) * legP l x) (-1) 1 (legB l).
Proof. exact (is_RInt_val _ _ _ (legB_ex l)). Qed.

Lemma dder k x : is_derive (fun t => legP (S (S k)) t - legP k t) x ((2 * INR k + 3) * legP (S k) x).
Proof.
  replace ((2 * INR k + 3) * legP (S k) x) with (dleg (S (S k)) x - dleg k x) by (rewrite dleg_SS; ring).
  apply (is_derive_minus (K := R_AbsRing) (V := R_NormedModule) (legP (S (S k))) (legP k)); apply is_derive_legP.
Qed.
Lemma legA_rec k : legA (S (S k)) = legA k - (2 * INR k + 3) / w * legB (S k).
Proof.
  assert (H : is_RInt (fun x => (cos (w * x) * legP (S (S k)) x - cos (w * x) * legP k x) + (2 * INR k + 3) / w * (sin (w * x) * legP (S k) x)) (-1) 1 0).
  { eapply is_RInt_eq.
    - apply (is_RInt_deriv (fun x => sin (w * x) / w * (legP (S (S k)) x - legP k x))).
      + intros x. pose proof (dder k x) as D.
        auto_derive.
        * repeat match goal with |- _ /\ _ => split end; auto; eexists; apply is_derive_legP.
        * rewrite (Derive_eta _ _ _ (is_derive_legP (S (S k)) x)), (Derive_eta _ _ _ (is_derive_legP k x)).
          rewrite dleg_SS. field. auto.
      + intros x. apply continuous_plus2.
        * apply (continuous_minus (V := R_NormedModule) (fun x => cos (w * x) * legP (S (S k)) x) (fun x => cos (w * x) * legP k x));
            apply continuous_mult2; apply cont_cos || apply continuous_legP.
        * apply continuous_scal2, continuous_mult2; [apply cont_sin|apply continuous_legP].
    - cbv beta. rewrite !legP_at_1, !legP_at_m1. simpl. ring. }
  assert (H' : is_RInt (fun x => (cos (w * x) * legP (S (S k)) x - cos (w * x) * legP k x) + (2 * INR k + 3) / w * (sin (w * x) * legP (S k) x)) (-1) 1
     (legA (S (S k)) - legA k + (2 * INR k + 3) / w * legB (S k))).
  { apply is_RInt_addR; [apply is_RInt_subR|apply is_RInt_scalR]; [exact (legA_int _)|exact (legA_int _)|exact (legB_int _)]. }
  apply RInt_val in H. apply RInt_val in H'. lra.
Qed.
Lemma legB_rec k : legB (S (S k)) = legB k + (2 * INR k + 3) / w * legA (S k).
Proof.
  assert (H : is_RInt (fun x => (sin (w * x) * legP (S (S k)) x - sin (w * x) * legP k x) + - ((2 * INR k + 3) / w) * (cos (w * x) * legP (S k) x)) (-1) 1 0).
  { eapply is_RInt_eq.
    - apply (is_RInt_deriv (fun x => - cos (w * x) / w * (legP (S (S k)) x - legP k x))).
      + intros x. pose proof (dder k x) as D.
        auto_derive.
        * repeat match goal with |- _ /\ _ => split end; auto; eexists; apply is_derive_legP.
        * rewrite (Derive_eta _ _ _ (is_derive_legP (S (S k)) x)), (Derive_eta _ _ _ (is_derive_legP k x)).
          rewrite dleg_SS. field. auto.
      + intros x. apply continuous_plus2.
        * apply (continuous_minus (V := R_NormedModule) (fun x => sin (w * x) * legP (S (S k)) x) (fun x => sin (w * x) * legP k x));
            apply continuous_mult2; apply cont_sin || apply continuous_legP.
        * apply continuous_scal2, continuous_mult2; [apply cont_cos|apply continuous_legP].
    - cbv beta. rewrite !legP_at_1, !legP_at_m1. simpl. ring. }
  assert (H' : is_RInt (fun x => (sin (w * x) * legP (S (S k)) x - sin (w * x) * legP k x) + - ((2 * INR k + 3) / w) * (cos (w * x) * legP (S k) x)) (-1) 1
     (legB (S (S k)) - legB k + - ((2 * INR k + 3) / w) * legA (S k))).
  { apply is_RInt_addR; [apply is_RInt_subR|apply is_RInt_scalR]; [exact (legB_int _)|exact (legB_int _)|exact (legA_int _)]. }
  apply RInt_val in H. apply RInt_val in H'. lra.
Qed.
Lemma legA_0 : legA 0 = 2 * (sin w / w).
Proof.
  apply RInt_val. eapply is_RInt_eq.
  - eapply is_RInt_fext; [|apply (is_RInt_deriv (fun x => sin (w * x) / w) (fun x => cos (w * x)))].
    + intros x. simpl. rewrite legP_0. ring.
    + intros x. auto_derive; auto. field; auto.
    + apply cont_cos.
  - cbv beta. rewrite Rmult_1_r. replace (w * -1) with (- w) by ring. rewrite sin_neg. field. auto.
Qed.
Lemma legB_0 : legB 0 = 0.
Proof.
  apply RInt_val. eapply is_RInt_eq.
  - eapply is_RInt_fext; [|apply (is_RInt_deriv (fun x => - cos (w * x) / w) (fun x => sin (w * x)))].
    + intros x. simpl. rewrite legP_0. ring.
    + intros x. auto_derive; auto. field; auto.
    + apply cont_sin.
  - cbv beta. rewrite Rmult_1_r. replace (w * -1) with (- w) by ring. rewrite cos_neg. field. auto.
Qed.
Lemma legA_1 : legA 1 = 0.
Proof.
  apply RInt_val. eapply is_RInt_eq.
  - eapply is_RInt_fext; [|apply (is_RInt_deriv (fun x => x * sin (w * x) / w + cos (w * x) / w ^ 2) (fun x => cos (w * x) * x))].
    + intros x. simpl. rewrite legP_1. ring.
    + intros x. auto_derive; auto. field; auto.
    + intros x. apply continuous_mult2; [apply cont_cos|apply continuous_id].
  - cbv beta. rewrite Rmult_1_r. replace (w * -1) with (- w) by ring. rewrite cos_neg, sin_neg. field. auto.
Qed.
Lemma legB_1 : legB 1 = 2 * (sin w / w ^ 2 - cos w / w).
Proof.
  apply RInt_val. eapply is_RInt_eq.
  - eapply is_RInt_fext; [|apply (is_RInt_deriv (fun x => - (x * cos (w * x)) / w + sin (w * x) / w ^ 2) (fun x => sin (w * x) * x))].
    + intros x. simpl. rewrite legP_1. ring.
    + intros x. auto_derive; auto. field; auto.
    + intros x. apply continuous_mult2; [apply cont_sin|apply continuous_id].
  - cbv beta. rewrite Rmult_1_r. replace (w * -1) with (- w) by ring. rewrite cos_neg, sin_neg. field. auto.
Qed.
Lemma sph_snd l : snd (sph_pair l w) = fst (sph_pair (S l) w).
Proof. simpl. destruct (sph_pair l w). auto. Qed.
Lemma sph_rec l : fst (sph_pair (S (S l)) w) = (2 * INR l + 3) / w * fst (sph_pair (S l) w) - fst (sph_pair l w).
Proof.
  rewrite <- (sph_snd (S l)). cbn [sph_pair]. destruct (sph_pair l w) as [a b] eqn:E. simpl. auto.
Qed.
Lemma leg_fourier l :
  (legA l, legB l) = Cmult (RtoC 2) (Cmult (imag_power (Z.of_nat l)) (RtoC (fst (sph_pair l w)))).
Proof.
  induction l using pair_ind.
  - rewrite legA_0, legB_0. apply C_eq; unfold Cmult, Re, Im; simpl; ring.
  - rewrite legA_1, legB_1. apply C_eq; unfold Cmult, Re, Im; simpl; ring.
  - rewrite legA_rec, legB_rec, sph_rec. rewrite !Nat2Z.inj_succ in *. rewrite <- !Z.add_1_r in *.
    rewrite !imag_power_succ in *. destruct (imag_power (Z.of_nat l)) as [p q].
    apply (f_equal fst) in IHl as E1. apply (f_equal snd) in IHl as E2.
    apply (f_equal fst) in IHl0 as E3. apply (f_equal snd) in IHl0 as E4.
    unfold Cmult in *. simpl in E1, E2, E3, E4 |- *. rewrite E1, E2, E3, E4. f_equal; simpl; field; auto.
Qed.
End Leg.

Theorem tnl_fourier l w : is_fourier (fun x => w * x) (legP l) (-1) 1 (get_tnl l w).
Proof.
  assert (Hpos : forall w, 0 < w -> is_fourier (fun x => w * x) (legP l) (-1) 1
     (Cmult (RtoC 2) (Cmult (imag_power (Z.of_nat l)) (RtoC (sph_jn l w))))).
  { clear w. intros w Hw. unfold sph_jn. destruct (Req_EM_T w 0); [lra|].
    rewrite <- leg_fourier by auto. split; [exact (legA_int w l)|exact (legB_int w l)]. }
  unfold get_tnl, Rltb. destruct (Rlt_dec w 0) as [H|H].
  - rewrite Rabs_left by auto. destruct (Hpos (- w) ltac:(lra)) as [H1 H2].
    set (v := Cmult (RtoC 2) _) in *. split.
    + eapply is_RInt_fext; [|exact H1]. intros x. simpl. rewrite Ropp_mult_distr_l_reverse, cos_neg. auto.
    + eapply is_RInt_eq; [eapply is_RInt_fext; [|apply (is_RInt_scalR _ _ _ _ (-1) H2)]|].
      * intros x. simpl. rewrite Ropp_mult_distr_l_reverse, sin_neg. ring.
      * unfold Cconj, Im. simpl. ring.
  - destruct (Req_dec w 0) as [->|Hn].
    + rewrite Rabs_R0. unfold sph_jn. destruct (Req_EM_T 0 0) as [_|]; [|lra].
      split.
      * eapply is_RInt_eq; [eapply is_RInt_fext; [|apply is_RInt_val, (ex_RInt_cont (legP l)); apply continuous_legP]|].
        { intros x. simpl. rewrite Rmult_0_l, cos_0. ring. }
        rewrite RInt_legP. destruct l; simpl; unfold Cmult, Re; simpl; ring.
      * eapply is_RInt_eq; [eapply is_RInt_fext; [|apply (is_RInt_constR _ _ 0)]|].
        { intros x. simpl. rewrite Rmult_0_l, sin_0. ring. }
        destruct l; simpl; unfold Cmult, Im; simpl; ring.
    + rewrite Rabs_pos_eq by lra. apply Hpos. lra.
Qed.

(** * The phase factor *)
Section FT.
Variable g : geom.
Hypothesis Hg : geom_ok g.
Hypothesis Hmin : gxmin g = -1.
Hypothesis Hmax : gxmax g = 1.

Lemma k0 : knot g 0 = -1.
Proof. rewrite <- Hmin. reflexivity. Qed.
Lemma kn : knot g (gnseg g) = 1.
Proof. rewrite <- Hmax. reflexivity. Qed.
Lemma knot_bound i : (i <= gnseg g)%nat -> -1 <= knot g i <= 1.
Proof.
  intros Hi. rewrite <- kn. rewrite <- k0 at 1. split; apply (knot_le g Hg); lia.
Qed.
Lemma dxsum_eq i : (i < gnseg g)%nat -> dxsum g i = knot g (S i) + 1.
Proof.
  intros Hi. unfold dxsum. rewrite (sumn_ext _ (fun j => nth j (gdx g) 0) (fun j => knot g (S j) - knot g j)).
  - rewrite sumn_tele, k0. ring.
  - intros j Hj. apply (g_dx g Hg). lia.
Qed.
Lemma dxsum_rev_eq i : (i < gnseg g)%nat -> dxsum_rev g i = 1 - knot g i.
Proof.
  intros Hi. unfold dxsum_rev.
  rewrite (sumn_ext _ (fun j => nth (i + j) (gdx g) 0) (fun j => knot g (i + S j) - knot g (i + j))).
  - rewrite (sumn_tele (gnseg g - i) (fun j => knot g (i + j))).
    rewrite Nat.add_0_r. replace (i + (gnseg g - i))%nat with (gnseg g) by lia. rewrite kn. ring.
  - intros j Hj. rewrite (g_dx g Hg) by lia. rewrite Nat.add_succ_r. reflexivity.
Qed.
Lemma shift_xmid_spec i : (i < gnseg g)%nat ->
  let '(d, s) := shift_xmid g i in gxm g i = d + IZR s.
Proof.
  intros Hi. unfold shift_xmid. pose proof (g_dx g Hg i Hi) as Hd.
  pose proof (knot_lt g Hg i (S i) ltac:(lia)) as Hk.
  pose proof (knot_bound i ltac:(lia)) as B1. pose proof (knot_bound (S i) ltac:(lia)) as B2.
  assert (Hm : nth (S i) (gknots g) 0 - nth i (gdx g) 0 / 2 = gxm g i).
  { rewrite Hd, gxm_eq. fold (knot g (S i)). field. }
  rewrite Hm. pose proof (gxm_eq g i) as Hx.
  assert (Hs : (ZnearestE (gxm g i) = -1 \/ ZnearestE (gxm g i) = 0 \/ ZnearestE (gxm g i) = 1)%Z).
  { pose proof (Znearest_half (fun x => negb (Z.even x)) (gxm g i)) as Hz.
    apply Rabs_le_inv in Hz. set (s := Znearest _ _) in *.
    assert (-2 < s < 2)%Z; [|lia]. split; apply lt_IZR; lra. }
  rewrite dxsum_eq, dxsum_rev_eq, Hd by auto.
  destruct Hs as [E|[E|E]]; rewrite E; simpl; lra.
Qed.
Lemma phase_stable_exp n i : (i < gnseg g)%nat ->
  phase_stable g n i = cexp (PI / 2 * IZR n * (gxm g i + 1)).
Proof.
  intros Hi. pose proof (shift_xmid_spec i Hi) as H. unfold phase_stable.
  destruct (shift_xmid g i) as [d s]. rewrite imag_power_exp, <- cexp_plus, H, mult_IZR, plus_IZR. f_equal. field.
Qed.

(** * The transform of one polynomial *)
Hypothesis Hlen : glen g = gorder g.
Definition phi (n : Z) (x : R) : R := PI * IZR n * (x + 1) / 2.

Lemma is_fourier_knots phase f v :
  (forall i, (i < gnseg g)%nat -> is_fourier phase f (knot g i) (knot g (S i)) (v i)) ->
  is_fourier phase f (-1) 1 (csumn (gnseg g) v).
Proof.
  intros H. rewrite <- k0, <- kn. split.
  - rewrite Re_csumn. apply is_RInt_knots; auto. intros i Hi. exact (proj1 (H i Hi)).
  - rewrite Im_csumn. apply is_RInt_knots; auto. intros i Hi. exact (proj2 (H i Hi)).
Qed.

Lemma sqrt_norm i : (i < gnseg g)%nat ->
  / ginv g i * gnorm g i = sqrt 2 * sqrt (nth i (gdx g) 0 / 2 / 2).
Proof.
  intros Hi. pose proof (knot_lt g Hg i (S i) ltac:(lia)) as Hk. pose proof (ginv_pos g Hg i Hi) as Hp.
  rewrite <- sqrt_mult_alt by lra.
  assert (E : 2 * (nth i (gdx g) 0 / 2 / 2) = / ginv g i).
  { rewrite ginv_eq, (g_dx g Hg) by auto. field. lra. }
  rewrite E. unfold gnorm. rewrite sqrt_inv.
  rewrite <- (sqrt_sqrt (ginv g i)) at 1 by lra. field. apply Rgt_not_eq, sqrt_lt_R0; auto.
Qed.

Lemma segment_fourier c n i : (i < gnseg g)%nat ->
  is_fourier (phi n) (cval g c) (knot g i) (knot g (S i))
    (Cmult (RtoC (sqrt 2)) (csumn (gorder g) (fun p =>
      Cmult (Cmult (get_tnl p (PI / 2 * IZR n * (nth i (gdx g) 0 / 2))) (phase_stable g n i))
            (RtoC (cdat c p i * sqrt (nth i (gdx g) 0 / 2 / 2)))))).
Proof.
  intros Hi. pose proof (knot_lt g Hg i (S i) ltac:(lia)) as Hk. pose proof (ginv_pos g Hg i Hi) as Hp.
  set (w := PI / 2 * IZR n * (nth i (gdx g) 0 / 2)). set (th := PI / 2 * IZR n * (gxm g i + 1)).
  assert (Hdx : nth i (gdx g) 0 / 2 = / ginv g i).
  { rewrite ginv_eq, (g_dx g Hg) by auto. field. lra. }
  (* local coordinate *)
  assert (H : is_fourier (fun t => th + w * t) (fun t => / ginv g i * gnorm g i * legval (gorder g) (fun k => cdat c k i) t) (-1) 1
    (Cmult (RtoC (/ ginv g i * gnorm g i)) (Cmult (cexp th) (csumn (gorder g) (fun p => Cmult (RtoC (cdat c p i)) (get_tnl p w)))))).
  { apply (is_fourier_scal (fun t => th + w * t) (fun t => legval (gorder g) (fun k => cdat c k i) t)).
    apply (is_fourier_shift (fun t => w * t) th).
    unfold legval. apply (is_fourier_sum (fun t => w * t) _ (fun k x => cdat c k i * legP k x)).
    intros k _. apply (is_fourier_scal (fun t => w * t) (legP k)). apply tnl_fourier. }
  replace (Cmult (RtoC (sqrt 2)) _) with
    (Cmult (RtoC (/ ginv g i * gnorm g i)) (Cmult (cexp th) (csumn (gorder g) (fun p => Cmult (RtoC (cdat c p i)) (get_tnl p w))))).
  2:{ rewrite phase_stable_exp by auto. fold th. rewrite sqrt_norm by auto. rewrite <- !csumn_scal.
      apply csumn_ext. intros k _. rewrite !RtoC_mult. ring. }
  destruct H as [H1 H2]. split.
  - eapply is_RInt_ext_in; [lra| |apply (is_RInt_segment g Hg i _ _ Hi H1)].
    intros x Hx. cbv beta. unfold cval. rewrite (segment_spec g Hg i x) by (auto; try (left; lra); lra). rewrite Hlen.
    replace (th + w * ((x - gxm g i) * ginv g i)) with (phi n x); [field; lra|].
    unfold phi, th, w. rewrite Hdx. field. lra.
  - eapply is_RInt_ext_in; [lra| |apply (is_RInt_segment g Hg i _ _ Hi H2)].
    intros x Hx. cbv beta. unfold cval. rewrite (segment_spec g Hg i x) by (auto; try (left; lra); lra). rewrite Hlen.
    replace (th + w * ((x - gxm g i) * ginv g i)) with (phi n x); [field; lra|].
    unfold phi, th, w. rewrite Hdx. field. lra.
Qed.

Theorem unl_fourier c n :
  is_fourier (phi n) (cval g c) (-1) 1 (Cmult (RtoC (sqrt 2)) (unl_entry g c n)).
Proof.
  unfold unl_entry. rewrite <- csumn_scal. apply is_fourier_knots. intros i Hi. apply segment_fourier; auto.
Qed.

(** * Symmetries *)
Lemma is_fourier_conj phase f a b v :
  is_fourier phase f a b v -> is_fourier (fun x => - phase x) f a b (Cconj v).
Proof.
  intros [H1 H2]. split.
  - eapply is_RInt_fext; [|exact H1]. intros x. simpl. rewrite cos_neg. auto.
  - eapply is_RInt_eq; [eapply is_RInt_fext; [|apply (is_RInt_scalR _ _ _ _ (-1) H2)]|].
    + intros x. simpl. rewrite sin_neg. ring.
    + unfold Cconj, Im. simpl. ring.
Qed.
Lemma is_fourier_pext phase phase' f a b v :
  (forall x, phase x = phase' x) -> is_fourier phase f a b v -> is_fourier phase' f a b v.
Proof.
  intros E [H1 H2]. split; [eapply is_RInt_fext; [|exact H1]|eapply is_RInt_fext; [|exact H2]]; intros x; simpl; rewrite E; auto.
Qed.
Lemma sqrt2_pos : 0 < sqrt 2.
Proof. apply sqrt_lt_R0. lra. Qed.
Lemma scal_sqrt2_inj a b : Cmult (RtoC (sqrt 2)) a = Cmult (RtoC (sqrt 2)) b -> a = b.
Proof.
  pose proof sqrt2_pos as H. destruct a as [a1 a2], b as [b1 b2]. unfold Cmult, RtoC; simpl. intros E.
  injection E as E1 E2. f_equal; apply (Rmult_eq_reg_l (sqrt 2)); lra.
Qed.
Lemma unl_conj c n : unl_entry g c (- n) = Cconj (unl_entry g c n).
Proof.
  apply scal_sqrt2_inj. eapply is_fourier_unique; [apply unl_fourier|].
  replace (Cmult (RtoC (sqrt 2)) (Cconj (unl_entry g c n))) with (Cconj (Cmult (RtoC (sqrt 2)) (unl_entry g c n))).
  2:{ apply C_eq; unfold Cconj, Cmult, RtoC, Re, Im; simpl; ring. }
  eapply is_fourier_pext; [|apply is_fourier_conj, unl_fourier].
  intros x. unfold phi. rewrite opp_IZR. field.
Qed.

Lemma is_RInt_ext_knots (f h : R -> R) v :
  (forall i x, (i < gnseg g)%nat -> knot g i < x < knot g (S i) -> f x = h x) ->
  is_RInt f (-1) 1 v -> is_RInt h (-1) 1 v.
Proof.
  intros E H. assert (Hex : ex_RInt f (-1) 1) by (eexists; exact H).
  assert (Hseg : forall i, (i < gnseg g)%nat -> ex_RInt f (knot g i) (knot g (S i))).
  { intros i Hi. pose proof (knot_lt g Hg i (S i) ltac:(lia)) as Hk.
    pose proof (knot_bound i ltac:(lia)) as B1. pose proof (knot_bound (S i) ltac:(lia)) as B2.
    apply (ex_RInt_Chasles_2 (V := R_CompleteNormedModule)) with (-1); [lra|].
    apply (ex_RInt_Chasles_1 (V := R_CompleteNormedModule)) with 1; [lra|auto]. }
  assert (Hf : is_RInt f (-1) 1 (sumn (gnseg g) (fun i => RInt f (knot g i) (knot g (S i))))).
  { rewrite <- k0, <- kn. apply is_RInt_knots; auto. intros i Hi. apply is_RInt_val; auto. }
  rewrite (eq_trans (eq_sym (RInt_val _ _ _ _ H)) (RInt_val _ _ _ _ Hf)).
  rewrite <- k0, <- kn. apply is_RInt_knots; auto. intros i Hi.
  pose proof (knot_lt g Hg i (S i) ltac:(lia)) as Hk.
  eapply is_RInt_ext_in; [lra| |apply is_RInt_val, Hseg; auto]. intros x Hx. apply (E i); auto.
Qed.
Lemma is_RInt_reflect (f : R -> R) v : is_RInt f (-1) 1 v -> is_RInt (fun x => f (- x)) (-1) 1 v.
Proof.
  intros H. assert (H' : is_RInt f (-1 * 1 + 0) (-1 * -1 + 0) v).
  { replace (-1 * 1 + 0) with (-1) by ring. replace (-1 * -1 + 0) with 1 by ring. exact H. }
  apply is_RInt_lin in H'. apply (is_RInt_swap (V := R_NormedModule)) in H'.
  eapply is_RInt_eq; [eapply is_RInt_fext; [|apply (is_RInt_scalR _ _ _ _ (-1) H')]|].
  - intros x. simpl. replace (-1 * x + 0) with (- x) by ring. ring.
  - unfold opp; simpl. ring.
Qed.

(** A function of definite parity has a transform that is real or imaginary once
    the phase at the left end is split off. *)
Lemma parity_fourier c s w v : (s = 1 \/ s = -1) -> has_parity g c s ->
  is_fourier (fun x => w * x) (cval g c) (-1) 1 v -> (s = 1 -> Im v = 0) /\ (s = -1 -> Re v = 0).
Proof.
  intros Hs [_ Hp] [H1 H2].
  split; intros ->.
  - pose proof (is_RInt_reflect _ _ H2) as H3.
    assert (H4 : is_RInt (fun x => -1 * (sin (w * x) * cval g c x)) (-1) 1 (Im v)).
    { eapply is_RInt_ext_knots; [|exact H3]. intros i x Hi Hx. cbv beta. rewrite (Hp i x Hi Hx).
      replace (w * - x) with (- (w * x)) by ring. rewrite sin_neg. ring. }
    pose proof (is_RInt_scalR _ _ _ _ (-1) H2) as H5. apply RInt_val in H4. apply RInt_val in H5. lra.
  - pose proof (is_RInt_reflect _ _ H1) as H3.
    assert (H4 : is_RInt (fun x => -1 * (cos (w * x) * cval g c x)) (-1) 1 (Re v)).
    { eapply is_RInt_ext_knots; [|exact H3]. intros i x Hi Hx. cbv beta. rewrite (Hp i x Hi Hx).
      replace (w * - x) with (- (w * x)) by ring. rewrite cos_neg. ring. }
    pose proof (is_RInt_scalR _ _ _ _ (-1) H1) as H5. apply RInt_val in H4. apply RInt_val in H5. lra.
Qed.

Lemma imag_power_even n : Z.even n = true -> Im (imag_power n) = 0.
Proof.
  intros H. unfold imag_power. apply Z.even_spec in H. destruct H as [k ->].
  assert (E : ((2 * k) mod 4 = 0 \/ (2 * k) mod 4 = 2)%Z).
  { rewrite Z.mod_eq by lia. replace 4%Z with (2 * 2)%Z by lia.
    pose proof (Z.mod_pos_bound k 2 ltac:(lia)). rewrite Z.div_mul_cancel_l by lia. rewrite Z.mod_eq in H by lia. lia. }
  destruct E as [E|E]; rewrite E; reflexivity.
Qed.
Lemma imag_power_odd n : Z.even n = false -> Re (imag_power n) = 0.
Proof.
  intros H. replace n with ((n - 1) + 1)%Z by lia. rewrite imag_power_succ.
  assert (H' : Z.even (n - 1) = true) by (rewrite Z.even_sub, H; reflexivity).
  apply imag_power_even in H'. unfold Re, Im, Cmult in *; simpl. rewrite H'. ring.
Qed.

Theorem unl_parity c s n : (s = 1 \/ s = -1) -> has_parity g c s ->
  let even := Z.even n in
  (s = 1 -> even = true -> Im (unl_entry g c n) = 0) /\
  (s = 1 -> even = false -> Re (unl_entry g c n) = 0) /\
  (s = -1 -> even = true -> Re (unl_entry g c n) = 0) /\
  (s = -1 -> even = false -> Im (unl_entry g c n) = 0).
Proof.
  intros Hs Hp even.
  set (v := Cmult (cexp (- (PI / 2 * IZR n))) (Cmult (RtoC (sqrt 2)) (unl_entry g c n))).
  assert (Hv : is_fourier (fun x => (PI / 2 * IZR n) * x) (cval g c) (-1) 1 v).
  { eapply is_fourier_pext; [|apply is_fourier_shift, unl_fourier]. intros x. unfold phi. simpl. field. }
  destruct (parity_fourier c s _ v Hs Hp Hv) as [P1 P2].
  assert (E : Cmult (RtoC (sqrt 2)) (unl_entry g c n) = Cmult (imag_power n) v).
  { rewrite imag_power_exp. unfold v. rewrite Cmult_assoc, <- cexp_plus.
    replace (PI / 2 * IZR n + - (PI / 2 * IZR n)) with 0 by ring. unfold cexp. rewrite cos_0, sin_0.
    apply C_eq; unfold Cmult, RtoC, Re, Im; simpl; ring. }
  pose proof sqrt2_pos as Hq. pose proof (imag_power_even n) as He. pose proof (imag_power_odd n) as Ho. fold even in He, Ho.
  destruct (imag_power n) as [p q], (unl_entry g c n) as [a b], v as [x y].
  unfold Cmult, RtoC, Re, Im in *; simpl in *. injection E as E1 E2.
  split; [|split; [|split]]; intros Es Ee.
  - specialize (P1 Es). specialize (He Ee). rewrite P1, He in E2. apply (Rmult_eq_reg_l (sqrt 2)); lra.
  - specialize (P1 Es). specialize (Ho Ee). rewrite P1, Ho in E1. apply (Rmult_eq_reg_l (sqrt 2)); lra.
  - specialize (P2 Es). specialize (He Ee). rewrite P2, He in E1. apply (Rmult_eq_reg_l (sqrt 2)); lra.
  - specialize (P2 Es). specialize (Ho Ee). rewrite P2, Ho in E2. apply (Rmult_eq_reg_l (sqrt 2)); lra.
Qed.
End FT.
