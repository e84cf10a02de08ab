(** The high-frequency model of PiecewiseLegendreFT. *)
From Coq Require Import Reals ZArith Arith Bool Lra Lia Psatz.
From Coquelicot Require Import Coquelicot.
From Coq Require Import List Sorting.Sorted.
From Verif.Model Require Import Base Util Num Poly FT.
From Verif.Spec Require Import SPoly SFT.
From Verif.Proofs Require Import BaseFacts SumFacts IntFacts LegFacts PPolyFacts PPolyInt FTFacts.
Import ListNotations.
Open Scope R_scope.
Arguments legP : simpl never.

Lemma csumn_S n f : csumn (S n) f = Cplus (csumn n f) (f n).
Proof. reflexivity. Qed.
Lemma csumn_shift n f : csumn (S n) f = Cplus (f 0%nat) (csumn n (fun i => f (S i))).
Proof.
  induction n; [simpl; ring|]. rewrite csumn_S, IHn, csumn_S. ring.
Qed.
Lemma csumn_plus n f h : csumn n (fun i => Cplus (f i) (h i)) = Cplus (csumn n f) (csumn n h).
Proof. induction n; simpl; [|rewrite IHn]; ring. Qed.
Lemma csumn_swap n m (f : nat -> nat -> C) :
  csumn n (fun i => csumn m (fun j => f i j)) = csumn m (fun j => csumn n (fun i => f i j)).
Proof.
  apply C_eq.
  - rewrite !Re_csumn. rewrite (sumn_ext n (fun i => Re (csumn m (fun j => f i j))) (fun i => sumn m (fun j => Re (f i j)))) by (intros; apply Re_csumn).
    rewrite (sumn_ext m (fun j => Re (csumn n (fun i => f i j))) (fun j => sumn n (fun i => Re (f i j)))) by (intros; apply Re_csumn).
    apply sumn_swap.
  - rewrite !Im_csumn. rewrite (sumn_ext n (fun i => Im (csumn m (fun j => f i j))) (fun i => sumn m (fun j => Im (f i j)))) by (intros; apply Im_csumn).
    rewrite (sumn_ext m (fun j => Im (csumn n (fun i => f i j))) (fun j => sumn n (fun i => Im (f i j)))) by (intros; apply Im_csumn).
    apply sumn_swap.
Qed.

(** * Horner's scheme *)
Lemma giw_sum ms n : giw ms n = csumn (length ms) (fun m => Cmult (RtoC (nth m ms 0)) (cpow (inv_iw n) (S m))).
Proof.
  induction ms as [|m ms IH]; [reflexivity|]. cbn [giw length]. rewrite csumn_shift, IH. cbn [nth cpow].
  rewrite (csumn_ext _ (fun i => Cmult (RtoC (nth i ms 0)) (Cmult (inv_iw n) (Cmult (inv_iw n) (cpow (inv_iw n) i))))
    (fun i => Cmult (inv_iw n) (Cmult (RtoC (nth i ms 0)) (Cmult (inv_iw n) (cpow (inv_iw n) i))))) by (intros; ring).
  rewrite csumn_scal. ring.
Qed.
Lemma iw_neq n : n <> 0%Z -> (0, PI / 2 * IZR n) <> RtoC 0.
Proof.
  intros Hn E. injection E as E. apply Rmult_integral in E. pose proof PI_RGT_0.
  destruct E as [E|E]; [lra|]. apply eq_IZR in E. auto.
Qed.
Lemma cpow_neq z m : z <> RtoC 0 -> cpow z m <> RtoC 0.
Proof.
  intros Hz. induction m; simpl. - intros E. injection E as E. lra. - apply Cmult_neq_0; auto.
Qed.
Lemma cpow_inv z m : z <> RtoC 0 -> cpow (Cinv z) m = Cinv (cpow z m).
Proof.
  intros Hz. induction m; simpl.
  - apply C_eq; unfold Cinv, RtoC, Re, Im; simpl; field; lra.
  - rewrite IHm. field. split; [apply cpow_neq|]; auto.
Qed.
Theorem giw_series ms n : n <> 0%Z ->
  giw ms n = csumn (length ms) (fun m => Cdiv (RtoC (nth m ms 0)) (cpow (0, PI / 2 * IZR n) (S m))).
Proof.
  intros Hn. rewrite giw_sum. apply csumn_ext. intros m _. unfold Cdiv. f_equal.
  unfold inv_iw. destruct (Z.eqb_spec n 0); [contradiction|]. apply cpow_inv, iw_neq; auto.
Qed.
Theorem giw_zero ms : giw ms 0 = RtoC 0.
Proof. destruct ms; simpl; auto. unfold inv_iw. simpl. ring. Qed.

Lemma inv_iw_val n : n <> 0%Z -> inv_iw n = (0, - / (PI / 2 * IZR n)).
Proof.
  intros Hn. unfold inv_iw. destruct (Z.eqb_spec n 0); [contradiction|].
  assert (PI / 2 * IZR n <> 0). { intros E. apply (iw_neq n Hn). unfold RtoC. f_equal. exact E. }
  set (o := PI / 2 * IZR n) in *. unfold Cinv; simpl. f_equal; field; auto.
Qed.
Lemma inv_iw_conj n : inv_iw (- n) = Cconj (inv_iw n).
Proof.
  unfold inv_iw. destruct (Z.eqb_spec n 0) as [->|Hn].
  - simpl. unfold Cconj, RtoC; simpl. f_equal; ring.
  - destruct (Z.eqb_spec (- n) 0); [lia|]. rewrite opp_IZR. unfold Cinv, Cconj; simpl. f_equal.
    + unfold Rdiv. ring.
    + replace (0 * (0 * 1) + PI / 2 * - IZR n * (PI / 2 * - IZR n * 1)) with (0 * (0 * 1) + PI / 2 * IZR n * (PI / 2 * IZR n * 1)) by ring. unfold Rdiv. ring.
Qed.
Lemma Cconj_plus a b : Cconj (Cplus a b) = Cplus (Cconj a) (Cconj b).
Proof. unfold Cconj, Cplus; simpl; f_equal; ring. Qed.
Lemma Cconj_mult a b : Cconj (Cmult a b) = Cmult (Cconj a) (Cconj b).
Proof. unfold Cconj, Cmult; simpl; f_equal; ring. Qed.
Lemma Cconj_RtoC x : Cconj (RtoC x) = RtoC x.
Proof. unfold Cconj, RtoC; simpl; f_equal; ring. Qed.
Theorem giw_conj ms n : giw ms (- n) = Cconj (giw ms n).
Proof.
  induction ms; simpl; [rewrite Cconj_RtoC; auto|]. rewrite IHms, inv_iw_conj, Cconj_mult, Cconj_plus, Cconj_RtoC. auto.
Qed.

(** Moments that vanish at every second index give real or imaginary values. *)
Lemma inv_iw_re n : Re (inv_iw n) = 0.
Proof.
  destruct (Z.eq_dec n 0) as [->|Hn]; [reflexivity|]. rewrite inv_iw_val by auto. reflexivity.
Qed.
Lemma giw_parity n : forall ms,
  ((forall m, Nat.even m = true -> nth m ms 0 = 0) -> Im (giw ms n) = 0) /\
  ((forall m, Nat.even m = false -> nth m ms 0 = 0) -> Re (giw ms n) = 0).
Proof.
  pose proof (inv_iw_re n) as Hi.
  induction ms as [|m ms [IH1 IH2]]; [split; intros; reflexivity|].
  split; intros H; cbn [giw].
  - assert (E : m = 0) by exact (H 0%nat eq_refl).
    assert (H2 : Re (giw ms n) = 0).
    { apply IH2. intros k Hk. apply (H (S k)). rewrite Nat.even_succ, <- Nat.negb_even, Hk. reflexivity. }
    unfold Re, Im, Cmult, Cplus, RtoC in *; simpl in *. rewrite H2, Hi, E. ring.
  - assert (H1 : Im (giw ms n) = 0).
    { apply IH1. intros k Hk. apply (H (S k)). rewrite Nat.even_succ, <- Nat.negb_even, Hk. reflexivity. }
    unfold Re, Im, Cmult, Cplus, RtoC in *; simpl in *. rewrite H1, Hi. ring.
Qed.

(** * Integration by parts on one segment *)
Lemma legder_zero n c : forall m k, (n <= m + k)%nat -> (0 < m)%nat -> legder m n c k = 0.
Proof.
  induction m; intros k Hk Hm; [lia|]. rewrite legder_S. unfold legder1.
  rewrite sumn_zero; [ring|]. intros j Hj. destruct (k <? j)%nat eqn:E; simpl; auto.
  apply Nat.ltb_lt in E. destruct (Nat.odd (j - k)); auto.
  destruct m; [simpl in Hj; lia|]. apply IHm; lia.
Qed.

Section Parts.
Variable g : geom.
Variable c : col.
Variable n : Z.
Hypothesis Hn : n <> 0%Z.
Let y m := cpow (inv_iw n) m.
Let om := PI / 2 * IZR n.

Lemma om_neq : om <> 0.
Proof. intros E. apply (iw_neq n Hn). unfold RtoC. f_equal. exact E. Qed.
Lemma y_step m : y m = (- om * Im (y (S m)), om * Re (y (S m))).
Proof.
  unfold y. cbn [cpow]. rewrite inv_iw_val by auto. fold om. pose proof om_neq.
  destruct (cpow (0, - / om) m) as [p q]. unfold Cmult, Re, Im; simpl. f_equal; field; auto.
Qed.

Lemma segF_zero i m x : (glen g <= m)%nat -> (0 < m)%nat -> segF g c i m x = 0.
Proof.
  intros H1 H2. unfold segF. unfold legval. rewrite sumn_zero; [ring|]. intros k _.
  rewrite legder_zero by lia. ring.
Qed.

Lemma alt_tele N (a : nat -> R) : sumn N (fun m => (-1) ^ m * (a m + a (S m))) = a 0%nat - (-1) ^ N * a N.
Proof. induction N; [simpl; ring|]. rewrite sumn_S, IHN. simpl. ring. Qed.

Lemma cont_seg i m x : continuous (segF g c i m) x.
Proof. apply (ex_derive_continuous (V := R_NormedModule)). eexists. apply segF_chain. Qed.
Lemma cont_cphi x : continuous (fun t => cos (phi n t)) x.
Proof. apply (ex_derive_continuous (V := R_NormedModule)). unfold phi. auto_derive; auto. Qed.
Lemma cont_sphi x : continuous (fun t => sin (phi n t)) x.
Proof. apply (ex_derive_continuous (V := R_NormedModule)). unfold phi. auto_derive; auto. Qed.

Definition boundary (i m : nat) (x : R) : C := Cmult (cexp (phi n x)) (RtoC (segF g c i m x)).

Lemma segment_parts i a b N : (glen g <= N)%nat -> (0 < N)%nat ->
  is_fourier (phi n) (segF g c i 0) a b
    (csumn N (fun m => Cmult (Cmult (RtoC ((-1) ^ m)) (y (S m))) (Cminus (boundary i m b) (boundary i m a)))).
Proof.
  intros HN1 HN2. split.
  - eapply is_RInt_eq.
    + apply (is_RInt_deriv (fun x => sumn N (fun m => (-1) ^ m * ((Re (y (S m)) * cos (phi n x) - Im (y (S m)) * sin (phi n x)) * segF g c i m x)))).
      * intros x.
        replace (cos (phi n x) * segF g c i 0 x) with
          (sumn N (fun m => (-1) ^ m * ((Re (y m) * cos (phi n x) - Im (y m) * sin (phi n x)) * segF g c i m x +
                                        (Re (y (S m)) * cos (phi n x) - Im (y (S m)) * sin (phi n x)) * segF g c i (S m) x))).
        2:{ rewrite (alt_tele N (fun m => (Re (y m) * cos (phi n x) - Im (y m) * sin (phi n x)) * segF g c i m x)).
            rewrite (segF_zero i N) by auto. unfold y at 1 2. unfold Re, Im; simpl. ring. }
        apply (is_derive_sumn N (fun m x => (-1) ^ m * ((Re (y (S m)) * cos (phi n x) - Im (y (S m)) * sin (phi n x)) * segF g c i m x))
           (fun m x => (-1) ^ m * ((Re (y m) * cos (phi n x) - Im (y m) * sin (phi n x)) * segF g c i m x +
                                        (Re (y (S m)) * cos (phi n x) - Im (y (S m)) * sin (phi n x)) * segF g c i (S m) x))).
        intros m _. pose proof (segF_chain g c i m x) as D. rewrite (y_step m).
        set (p := Re (y (S m))). set (q := Im (y (S m))). unfold phi.
        auto_derive; [repeat match goal with |- _ /\ _ => split end; auto; eexists; exact D|].
        rewrite (Derive_eta _ _ _ D). clearbody p q. unfold Re, Im, om, Rdiv; cbn [fst snd]. ring.
      * intros x. apply continuous_mult2; [apply cont_cphi|apply cont_seg].
    + cbv beta. rewrite <- sumn_minus, Re_csumn. apply sumn_ext. intros m _.
      unfold boundary, cexp, Cminus, Cplus, Copp, Cmult, RtoC, Re, Im; simpl. ring.
  - eapply is_RInt_eq.
    + apply (is_RInt_deriv (fun x => sumn N (fun m => (-1) ^ m * ((Re (y (S m)) * sin (phi n x) + Im (y (S m)) * cos (phi n x)) * segF g c i m x)))).
      * intros x.
        replace (sin (phi n x) * segF g c i 0 x) with
          (sumn N (fun m => (-1) ^ m * ((Re (y m) * sin (phi n x) + Im (y m) * cos (phi n x)) * segF g c i m x +
                                        (Re (y (S m)) * sin (phi n x) + Im (y (S m)) * cos (phi n x)) * segF g c i (S m) x))).
        2:{ rewrite (alt_tele N (fun m => (Re (y m) * sin (phi n x) + Im (y m) * cos (phi n x)) * segF g c i m x)).
            rewrite (segF_zero i N) by auto. unfold y at 1 2. unfold Re, Im; simpl. ring. }
        apply (is_derive_sumn N (fun m x => (-1) ^ m * ((Re (y (S m)) * sin (phi n x) + Im (y (S m)) * cos (phi n x)) * segF g c i m x))
           (fun m x => (-1) ^ m * ((Re (y m) * sin (phi n x) + Im (y m) * cos (phi n x)) * segF g c i m x +
                                        (Re (y (S m)) * sin (phi n x) + Im (y (S m)) * cos (phi n x)) * segF g c i (S m) x))).
        intros m _. pose proof (segF_chain g c i m x) as D. rewrite (y_step m).
        set (p := Re (y (S m))). set (q := Im (y (S m))). unfold phi.
        auto_derive; [repeat match goal with |- _ /\ _ => split end; auto; eexists; exact D|].
        rewrite (Derive_eta _ _ _ D). clearbody p q. unfold Re, Im, om, Rdiv; cbn [fst snd]. ring.
      * intros x. apply continuous_mult2; [apply cont_sphi|apply cont_seg].
    + cbv beta. rewrite <- sumn_minus, Im_csumn. apply sumn_ext. intros m _.
      unfold boundary, cexp, Cminus, Cplus, Copp, Cmult, RtoC, Re, Im; simpl. ring.
Qed.
End Parts.

(** * The transform as boundary terms *)
Lemma cont_eq_end (f h : R -> R) a b : a < b -> continuous f b -> continuous h b ->
  (forall x, a < x < b -> f x = h x) -> f b = h b.
Proof.
  intros Hab Hf Hh H. destruct (Req_dec (f b) (h b)) as [E|E]; auto. exfalso.
  assert (Hc : continuous (fun x => f x - h x) b) by (apply (continuous_minus (V := R_NormedModule)); auto).
  assert (He : 0 < Rabs (f b - h b)) by (apply Rabs_pos_lt; lra).
  destruct (proj1 (filterlim_locally (F := locally b) (fun x => f x - h x) (f b - h b)) Hc (mkposreal _ He)) as [d Hd].
  set (x := Rmax (b - d / 2) ((a + b) / 2)).
  assert (Hd0 := cond_pos d).
  assert (Hx : a < x < b).
  { unfold x. split; [eapply Rlt_le_trans; [|apply Rmax_r]; lra|]. apply Rmax_lub_lt; lra. }
  assert (Hb : ball b d x).
  { unfold ball; simpl; unfold AbsRing_ball, abs, minus, plus, opp; simpl. rewrite Rabs_left by lra.
    assert (b - d / 2 <= x) by apply Rmax_l. lra. }
  specialize (Hd x Hb). unfold ball in Hd; simpl in Hd; unfold AbsRing_ball, abs, minus, plus, opp in Hd; simpl in Hd.
  rewrite (H x Hx) in Hd. replace (h x - h x + - (f b - h b)) with (- (f b - h b)) in Hd by ring.
  rewrite Rabs_Ropp in Hd. lra.
Qed.

Section Whole.
Variable g : geom.
Hypothesis Hg : geom_ok g.
Hypothesis Hmin : gxmin g = -1.
Hypothesis Hmax : gxmax g = 1.
Hypothesis Hlen : glen g = gorder g.
Hypothesis Hpos : (0 < gorder g)%nat.
Variable c : col.

Lemma seg_fun_segF i x : (i < gnseg g)%nat -> seg_fun g c i x = segF g c i 0 x.
Proof.
  intros Hi. unfold segF, seg_fun. simpl. unfold legval, gnorm. rewrite ginv_eq by auto.
  replace (2 / (knot g (S i) - knot g i) * x + - gxm g i * (2 / (knot g (S i) - knot g i)))
    with ((2 * x - knot g i - knot g (S i)) / (knot g (S i) - knot g i)). ring.
  rewrite <- local_coord, ginv_eq by auto. ring.
Qed.
Lemma seg_deriv_segF i m x : (i < gnseg g)%nat -> seg_deriv g c i m x = segF g c i m x.
Proof.
  intros Hi. unfold seg_deriv. rewrite (Derive_n_ext _ (segF g c i 0)).
  - apply is_derive_n_unique. exact (is_derive_n_chain (segF g c i) (segF_chain g c i) m x).
  - intros t. apply seg_fun_segF; auto.
Qed.

Let last := (gnseg g - 1)%nat.
Lemma last_lt : (last < gnseg g)%nat.
Proof. pose proof (g_nseg g Hg). unfold last. lia. Qed.
Lemma S_last : S last = gnseg g.
Proof. pose proof (g_nseg g Hg). unfold last. lia. Qed.

(** The exact transform at a nonzero frequency. *)
Lemma unl_boundary n N : n <> 0%Z -> (glen g <= N)%nat -> (0 < N)%nat ->
  Cmult (RtoC (sqrt 2)) (unl_entry g c n) =
  csumn N (fun m => Cmult (Cmult (RtoC ((-1) ^ m)) (cpow (inv_iw n) (S m)))
    (Cplus (Cminus (boundary g c n last m 1) (boundary g c n 0 m (-1))) (jump_sum g c n m))).
Proof.
  intros Hn HN1 HN2. pose proof (g_nseg g Hg) as Hseg.
  eapply is_fourier_unique; [apply unl_fourier; auto|].
  assert (H : is_fourier (phi n) (cval g c) (-1) 1
     (csumn (gnseg g) (fun i => csumn N (fun m => Cmult (Cmult (RtoC ((-1) ^ m)) (cpow (inv_iw n) (S m)))
        (Cminus (boundary g c n i m (knot g (S i))) (boundary g c n i m (knot g i))))))).
  { apply (is_fourier_knots g Hmin Hmax). intros i Hi. pose proof (knot_lt g Hg i (S i) ltac:(lia)) as Hk.
    destruct (segment_parts g c n Hn i (knot g i) (knot g (S i)) N HN1 HN2) as [H1 H2]. split.
    - eapply is_RInt_ext_in; [lra| |exact H1]. intros x Hx. cbv beta.
      rewrite <- (gderiv_0 g c x), (cval_segF g c 0 i x) by auto. auto.
    - eapply is_RInt_ext_in; [lra| |exact H2]. intros x Hx. cbv beta.
      rewrite <- (gderiv_0 g c x), (cval_segF g c 0 i x) by auto. auto. }
  rewrite csumn_swap in H.
  erewrite csumn_ext; [exact H|]. intros m _. cbv beta. rewrite csumn_scal. f_equal.
  (* telescope *)
  rewrite <- (kn g Hmax). rewrite <- (k0 g Hmin).
  assert (HJ : jump_sum g c n m = csumn last (fun j => Cminus (boundary g c n j m (knot g (S j))) (boundary g c n (S j) m (knot g (S j))))).
  { apply C_eq; [rewrite Re_csumn|rewrite Im_csumn]; unfold jump_sum, Re, Im; cbn [fst snd]; apply sumn_ext; intros j Hj;
      rewrite !seg_deriv_segF by (unfold last in Hj; lia); unfold boundary, cexp, phi, Cminus, Cplus, Copp, Cmult, RtoC; simpl; ring. }
  rewrite HJ. rewrite <- S_last. generalize last. clear. intros L.
  induction L; [simpl; ring|]. rewrite (csumn_S (S L)), <- IHL, csumn_S. ring.
Qed.

Lemma cexp_PI n : cexp (PI * IZR n) = RtoC (if Z.even n then 1 else -1).
Proof.
  replace (PI * IZR n) with (PI / 2 * IZR (2 * n)) by (rewrite mult_IZR; field).
  rewrite <- imag_power_exp. unfold imag_power. destruct (Z.even n) eqn:E.
  - apply Z.even_spec in E. destruct E as [k ->]. replace (2 * (2 * k))%Z with (k * 4)%Z by lia. rewrite Z.mod_mul by lia. reflexivity.
  - assert (Ho : Z.odd n = true) by (rewrite <- Z.negb_even, E; reflexivity).
    apply Z.odd_spec in Ho. destruct Ho as [k ->]. replace (2 * (2 * k + 1))%Z with (2 + k * 4)%Z by lia. rewrite Z.mod_add by lia. reflexivity.
Qed.

(** Derivatives at the two ends of a function of definite parity. *)
Lemma end_parity s m : has_parity g c s ->
  segF g c 0 m (-1) = (-1) ^ m * s * segF g c last m 1.
Proof.
  intros [H1 H2]. pose proof (g_nseg g Hg) as Hseg. pose proof last_lt. pose proof S_last as HS.
  assert (P : forall x, knot g last < x < 1 -> segF g c 0 m (- x) = (-1) ^ m * s * segF g c last m x).
  { intros x Hx. rewrite <- (kn g Hmax), <- HS in Hx.
    pose proof (deriv_parity g c s Hg) as D. rewrite Hmin, Hmax in D.
    assert (D1 : forall i, (i <= gnseg g)%nat -> knot g (gnseg g - i) = -1 + 1 - knot g i) by (intros i Hi; rewrite H1 by auto; ring).
    assert (D2 : forall i x, (i < gnseg g)%nat -> knot g i < x < knot g (S i) -> cval g c (-1 + 1 - x) = s * cval g c x).
    { intros i x' Hi Hx'. replace (-1 + 1 - x') with (- x') by ring. apply (H2 i); auto. }
    specialize (D D1 D2 m last x last_lt Hx). replace (-1 + 1 - x) with (- x) in D by ring.
    rewrite (cval_segF g c m last x Hg last_lt Hx) in D. rewrite <- D. symmetry. apply cval_segF; auto.
    pose proof (H1 (gnseg g) (le_n _)) as E1. pose proof (H1 last ltac:(lia)) as E2.
    rewrite Nat.sub_diag in E1. replace (gnseg g - last)%nat with 1%nat in E2 by lia. rewrite <- HS in E1. lra. }
  assert (Hk : knot g last < 1) by (rewrite <- (kn g Hmax), <- HS; apply (knot_lt g Hg); lia).
  replace (-1) with (- (1)) by ring.
  apply (cont_eq_end (fun x => segF g c 0 m (- x)) (fun x => (-1) ^ m * s * segF g c last m x) (knot g last) 1 Hk); auto.
  - apply (continuous_comp (fun x => - x) (segF g c 0 m)).
    + apply (ex_derive_continuous (V := R_NormedModule)). auto_derive; auto.
    + apply cont_seg.
  - apply continuous_scal2, cont_seg.
Qed.

(** The moments computed from the derivatives at the right end. *)
Lemma moment_term s l n m : (s = 1 \/ s = -1) -> s = (if Z.even n then 1 else -1) ->
  has_parity g c ((-1) ^ l) ->
  Cminus (boundary g c n last m 1) (boundary g c n 0 m (-1)) =
  RtoC ((-1) ^ m * (sqrt 2 * power_moment s m l (segF g c last m 1))).
Proof.
  intros Hs1 Hs2 Hp. unfold boundary. rewrite (end_parity _ m Hp).
  replace (phi n 1) with (PI * IZR n) by (unfold phi; field). rewrite cexp_PI, <- Hs2.
  replace (phi n (-1)) with 0 by (unfold phi; field). unfold cexp. rewrite cos_0, sin_0.
  assert (E2 : (-1) ^ m * (-1) ^ m = 1) by (rewrite <- Rpow_mult_distr; replace (-1 * -1) with 1 by ring; apply pow1).
  unfold power_moment. rewrite pow_add, pow_1. pose proof sqrt2_pos.
  set (d := segF g c last m 1). set (a := (-1) ^ m) in *. set (b := (-1) ^ l).
  assert (E : sqrt 2 * (- s / sqrt 2 * ((a * -1 + s * b) * d)) = s * a * d - s * s * b * d) by (field; lra).
  rewrite E. assert (Hss : s * s = 1) by (destruct Hs1; subst s; ring).
  apply C_eq; unfold Cminus, Cplus, Copp, Cmult, RtoC, Re, Im; simpl; [|ring].
  transitivity (s * d - a * b * d); [ring|]. transitivity (s * (a * a) * d - (s * s) * a * b * d); [rewrite E2, Hss|]; ring.
Qed.

(** Model plus jumps is the exact transform. *)
Theorem model_error s l n N ms : n <> 0%Z -> (s = 1 \/ s = -1) -> s = (if Z.even n then 1 else -1) ->
  has_parity g c ((-1) ^ l) -> (glen g <= N)%nat -> (0 < N)%nat ->
  length ms = N -> (forall m, (m < N)%nat -> nth m ms 0 = power_moment s m l (segF g c last m 1)) ->
  Cmult (RtoC (sqrt 2)) (unl_entry g c n) =
  Cplus (Cmult (RtoC (sqrt 2)) (giw ms n))
    (csumn N (fun m => Cmult (Cmult (RtoC ((-1) ^ m)) (cpow (inv_iw n) (S m))) (jump_sum g c n m))).
Proof.
  intros Hn Hs1 Hs2 Hp HN1 HN2 HL HM. rewrite (unl_boundary n N) by auto. rewrite giw_sum, HL, <- csumn_scal, <- csumn_plus.
  apply csumn_ext. intros m Hm. rewrite (moment_term s l n m) by auto. rewrite HM by auto.
  assert (E2 : (-1) ^ m * (-1) ^ m = 1) by (rewrite <- Rpow_mult_distr; replace (-1 * -1) with 1 by ring; apply pow1).
  set (M := power_moment _ _ _ _). set (z := cpow _ _). set (J := jump_sum _ _ _ _).
  rewrite Cmult_plus_distr_l. f_equal.
  transitivity (Cmult (RtoC ((-1) ^ m * (-1) ^ m)) (Cmult (RtoC (sqrt 2)) (Cmult (RtoC M) z))); [rewrite !RtoC_mult; ring|].
  rewrite E2. ring.
Qed.
Lemma jump_single n m : gnseg g = 1%nat -> jump_sum g c n m = RtoC 0.
Proof. intros E. unfold jump_sum. rewrite E. reflexivity. Qed.
Theorem model_single s l n N ms : gnseg g = 1%nat -> n <> 0%Z -> (s = 1 \/ s = -1) -> s = (if Z.even n then 1 else -1) ->
  has_parity g c ((-1) ^ l) -> (glen g <= N)%nat -> (0 < N)%nat ->
  length ms = N -> (forall m, (m < N)%nat -> nth m ms 0 = power_moment s m l (segF g c last m 1)) ->
  giw ms n = unl_entry g c n.
Proof.
  intros H1 Hn Hs1 Hs2 Hp HN1 HN2 HL HM. apply scal_sqrt2_inj. rewrite (model_error s l n N ms) by auto.
  rewrite (csumn_ext N _ (fun m => Cmult (RtoC 0) (RtoC 0))).
  - rewrite (csumn_scal N (RtoC 0) (fun _ => RtoC 0)). ring.
  - intros m _. rewrite jump_single by auto. ring.
Qed.
End Whole.
