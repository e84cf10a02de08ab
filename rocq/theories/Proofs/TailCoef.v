(** Repeated derivatives of piecewise polynomials in rounded arithmetic. *)
From Coq Require Import Reals ZArith Arith Bool Lra Lia Psatz.
From Coquelicot Require Import Coquelicot.
From Coq Require Import List.
From Verif.Model Require Import Base Num Poly FT PolyIEEE DefaultsIEEE TailIEEE.
From Verif.Spec Require Import SPoly SFT SKernelIEEE SPolyIEEE STailIEEE.
From Verif.Proofs Require Import SumFacts LegFacts LegRecur FTCall FTProps PolyRound DefaultsDeriv.
Import ListNotations.
Open Scope R_scope.
Arguments legP : simpl never.

(** * How much a derivative can multiply the coefficients *)
Lemma odd_squares L j : sumn L (fun k => if (k <? j)%nat then 2 * INR k + 1 else 0) = INR (Nat.min L j) * INR (Nat.min L j).
Proof.
  induction L as [|L IH]; [cbn; ring|]. rewrite sumn_S, IH. destruct (Nat.ltb_spec L j) as [H|H].
  - rewrite (Nat.min_l L j), (Nat.min_l (S L) j), S_INR by lia. ring.
  - rewrite (Nat.min_r L j), (Nat.min_r (S L) j) by lia. ring.
Qed.

Lemma gain n f L : sumn L (fun k => Rabs (legder1 n f k)) <= INR n * INR n * sumn n (fun j => Rabs (f j)).
Proof.
  apply Rle_trans with (sumn L (fun k => sumn n (fun j => Rabs (f j) * (if (k <? j)%nat then 2 * INR k + 1 else 0)))).
  - apply sumn_le. intros k _. unfold legder1. pose proof (pos_INR k). rewrite Rabs_mult, Rabs_pos_eq by lra.
    eapply Rle_trans; [apply Rmult_le_compat_l; [lra|apply sumn_abs]|]. rewrite <- sumn_scal. apply sumn_le. intros j _.
    pose proof (Rabs_pos (f j)). destruct (k <? j)%nat; cbn [andb]; [destruct (Nat.odd (j - k))|]; rewrite ?Rabs_R0; nra.
  - rewrite sumn_swap, <- sumn_scal. apply sumn_le. intros j Hj. rewrite sumn_scal, odd_squares, Rmult_comm. apply Rmult_le_compat_r; [apply Rabs_pos|].
    assert (INR (Nat.min L j) <= INR n) by (apply le_INR; lia). pose proof (pos_INR (Nat.min L j)). apply Rmult_le_compat; assumption.
Qed.

Lemma legder1_minus n f h k : legder1 n f k - legder1 n h k = legder1 n (fun j => f j - h j) k.
Proof.
  unfold legder1. rewrite <- Rmult_minus_distr_l, <- sumn_minus. f_equal. apply sumn_ext. intros j _. destruct (_ && _); ring.
Qed.

Section Repeated.
Context (u eta : R) (rd : R -> R) (Hrd : rounding u eta rd) (Hu : 0 < u <= / 10000) (He : 0 <= eta).
Context (g : geom) (c : col) (Hg : geom_near u eta g) (Hn : (0 < glen g)%nat) (Hnu : INR (glen g) * u <= / 200).
Notation n := (glen g).
Notation i := (gnseg g - 1)%nat.
Notation len := (knot g (S i) - knot g i).
Context (Hf : fair_length u eta g i) (Hl : loss g i * u <= 1).
Notation G := (deriv_gain g).
Notation CE := (coef_error u eta g c).

(** The computed coefficients of the m-th derivative, and the true ones. *)
Fixpoint cd (m : nat) : col := match m with O => c | S k => cderiv_rd rd (gderiv k g) (cd k) end.
Fixpoint ex (m : nat) : nat -> R :=
  match m with O => fun k => cdat c k i | S k => fun j => 2 / len * legder1 (legder_len k n) (ex k) j end.

Lemma i_lt : (i < gnseg g)%nat.
Proof. destruct Hg as (H & _). lia. Qed.
Lemma len0 : 0 < len.
Proof. pose proof i_lt as Hi. destruct Hg as (_ & L & S & _). assert (knot g i < knot g (Datatypes.S i)); [|lra]. unfold knot. apply DefaultsRound.sorted_nth_lt; [exact S|lia]. Qed.
Lemma q0 : 0 < 2 / len.
Proof. apply Rdiv_lt_0_compat; [lra|apply len0]. Qed.
Lemma gain_eq : G = 2 / len * (INR n * INR n).
Proof. unfold deriv_gain. cbv zeta. pose proof len0. field. lra. Qed.
Lemma gain0 : 0 <= G.
Proof. rewrite gain_eq. pose proof q0. pose proof (pos_INR n). nra. Qed.
Lemma sum0 : 0 <= last_sum g c.
Proof. apply every2_ge0. Qed.
Lemma len_le m : (legder_len m n <= n)%nat.
Proof. rewrite legder_len_val by exact Hn. lia. Qed.

Lemma ex_sum m : sumn (legder_len m n) (fun k => Rabs (ex m k)) <= G ^ m * last_sum g c.
Proof.
  induction m as [|m IH]; [cbn [ex pow]; rewrite Rmult_1_l; apply Rle_refl|].
  cbn [ex pow]. rewrite (sumn_ext _ _ (fun k => 2 / len * Rabs (legder1 (legder_len m n) (ex m) k))) by (intros; rewrite Rabs_mult, (Rabs_pos_eq (2 / len)) by (apply Rlt_le, q0); reflexivity).
  rewrite sumn_scal. pose proof (gain (legder_len m n) (ex m) (legder_len (S m) n)) as H. pose proof (le_INR _ _ (len_le m)) as L. pose proof (pos_INR (legder_len m n)) as P.
  assert (INR (legder_len m n) * INR (legder_len m n) <= INR n * INR n) by (apply Rmult_le_compat; assumption).
  pose proof (every2_ge0 (ex m) (legder_len m n)) as Z. pose proof q0 as Q. rewrite gain_eq at 1. rewrite !Rmult_assoc. apply Rmult_le_compat_l; [lra|].
  eapply Rle_trans; [exact H|]. rewrite <- Rmult_assoc. apply Rmult_le_compat; try assumption. apply Rmult_le_pos; assumption.
Qed.

Lemma ce0 m : 0 <= CE m.
Proof.
  pose proof gain0 as G0. pose proof sum0. pose proof q0. pose proof (pos_INR n). assert (0 <= eta / u) by (apply Rmult_le_pos; [lra|apply Rlt_le, Rinv_0_lt_compat; lra]).
  induction m as [|m IH]; [cbn; lra|]. cbn [coef_error]. cbv zeta. pose proof (pow_le G m G0).
  assert (X0 : 0 <= G ^ m * last_sum g c + CE m + eta / u) by (repeat apply Rplus_le_le_0_compat; try (apply Rmult_le_pos; assumption); assumption).
  set (X := G ^ m * last_sum g c + CE m + eta / u) in *. assert (0 <= 8 * (INR n * INR n * INR n) * u * (2 / len) * X) by (repeat apply Rmult_le_pos; lra).
  assert (0 <= G * CE m) by (apply Rmult_le_pos; assumption). assert (0 <= INR n * eta) by (apply Rmult_le_pos; assumption). lra.
Qed.

Lemma cd_near m : (m < n)%nat -> sumn (legder_len m n) (fun k => Rabs (cdat (cd m) k i - ex m k)) <= CE m.
Proof.
  induction m as [|m IH]; intros Hm.
  - cbn [cd ex coef_error]. rewrite sumn_zero; [lra|]. intros k _. replace (cdat c k i - cdat c k i) with 0 by ring. apply Rabs_R0.
  - specialize (IH ltac:(lia)). set (nm := legder_len m n) in *. assert (En : nm = (n - m)%nat) by (unfold nm; rewrite legder_len_val by exact Hn; lia).
    assert (El : legder_len (S m) n = (nm - 1)%nat). { rewrite legder_len_val by exact Hn. lia. }
    assert (Lm : INR nm <= INR n) by (apply le_INR; lia). assert (P2 : 0 <= INR nm) by apply pos_INR.
    set (A := sumn nm (fun k => Rabs (cdat (cd m) k i))).
    assert (HA : A <= G ^ m * last_sum g c + CE m).
    { pose proof (ex_sum m) as HE. fold nm in HE. apply Rle_trans with (sumn nm (fun k => Rabs (ex m k)) + sumn nm (fun k => Rabs (cdat (cd m) k i - ex m k))); [|lra].
      rewrite <- sumn_plus. apply sumn_le. intros k _. replace (cdat (cd m) k i) with (ex m k + (cdat (cd m) k i - ex m k)) at 1 by ring. apply Rabs_triang. }
    set (e := 8 * (INR nm * INR nm) * u * (2 / len) * (A + eta / u) + eta).
    assert (HC : forall k, (S k < nm)%nat -> Rabs (cdat (cd (S m)) k i - 2 / len * legder1 nm (fun k => cdat (cd m) k i) k) <= e).
    { intros k Hk. refine (coef_near u eta rd Hrd Hu He (gderiv m g) (cd m) i Hg i_lt Hf _ _ k Hk); change (glen (gderiv m g)) with nm; [lia|].
      eapply Rle_trans; [apply Rmult_le_compat_r; [lra|exact Lm]|exact Hnu]. }
    rewrite El. pose proof q0 as Q.
    apply Rle_trans with (sumn (nm - 1) (fun _ => e) + 2 / len * sumn (nm - 1) (fun k => Rabs (legder1 nm (fun j => cdat (cd m) j i - ex m j) k))).
    { rewrite <- sumn_scal, <- sumn_plus. apply sumn_le. intros k Hk. specialize (HC k ltac:(lia)). cbn [ex]. fold nm.
      replace (cdat (cd (S m)) k i - 2 / len * legder1 nm (ex m) k) with ((cdat (cd (S m)) k i - 2 / len * legder1 nm (fun k => cdat (cd m) k i) k) + 2 / len * (legder1 nm (fun k => cdat (cd m) k i) k - legder1 nm (ex m) k)) by ring.
      eapply Rle_trans; [apply Rabs_triang|]. rewrite legder1_minus, (Rabs_mult (2 / len)), (Rabs_pos_eq (2 / len)) by lra. lra. }
    rewrite sumn_const. pose proof (gain nm (fun j => cdat (cd m) j i - ex m j) (nm - 1)) as HG. cbv beta in HG.
    set (D := sumn nm (fun j => Rabs (cdat (cd m) j i - ex m j))) in *. set (LS := sumn (nm - 1) _) in *.
    assert (D0 : 0 <= D) by apply every2_ge0.
    assert (T1 : 2 / len * LS <= G * CE m).
    { rewrite gain_eq, Rmult_assoc. apply Rmult_le_compat_l; [lra|]. eapply Rle_trans; [exact HG|]. apply Rmult_le_compat; [nra|assumption| |assumption]. apply Rmult_le_compat; assumption. }
    assert (Eu : 0 <= eta / u) by (apply Rmult_le_pos; [lra|apply Rlt_le, Rinv_0_lt_compat; lra]).
    assert (A0 : 0 <= A) by (apply every2_ge0).
    set (X := G ^ m * last_sum g c + CE m + eta / u).
    assert (T2 : e <= 8 * (INR n * INR n) * u * (2 / len) * X + eta).
    { unfold e. apply Rplus_le_compat_r. apply Rmult_le_compat; [|lra| |unfold X; lra].
      - repeat apply Rmult_le_pos; lra.
      - apply Rmult_le_compat_r; [lra|]. apply Rmult_le_compat_r; [lra|]. apply Rmult_le_compat_l; [lra|]. apply Rmult_le_compat; assumption. }
    assert (E0 : 0 <= e). { unfold e. apply Rplus_le_le_0_compat; [|exact He]. repeat apply Rmult_le_pos; lra. }
    assert (T3 : INR (nm - 1) * e <= INR n * (8 * (INR n * INR n) * u * (2 / len) * X + eta)).
    { apply Rmult_le_compat; [apply pos_INR|exact E0| |exact T2]. apply le_INR. lia. }
    cbn [coef_error]. cbv zeta. fold X.
    replace (8 * (INR n * INR n * INR n) * u * (2 / len) * X) with (INR n * (8 * (INR n * INR n) * u * (2 / len) * X)) by ring. lra.
Qed.

(** * Derivatives *)
Notation tt x := ((2 * x - knot g i - knot g (S i)) / len).
Lemma derive_ex m x : is_derive_n (seg_fun g c i) m x (sqrt (2 / len) * legval (legder_len m n) (ex m) (tt x)).
Proof.
  revert x. induction m as [|m IH]; intros x; [reflexivity|]. cbn [is_derive_n].
  apply (is_derive_ext (fun x => sqrt (2 / len) * legval (legder_len m n) (ex m) (tt x))).
  - intros t. symmetry. apply is_derive_n_unique. apply IH.
  - pose proof len0 as L.
    replace (sqrt (2 / len) * legval (legder_len (S m) n) (ex (S m)) (tt x)) with (sqrt (2 / len) * (2 / len * legval (legder1_len (legder_len m n)) (legder1 (legder_len m n) (ex m)) (tt x))).
    + apply is_derive_scal. apply (is_derive_comp (legval (legder_len m n) (ex m)) (fun x => tt x)).
      * apply is_derive_legval.
      * auto_derive; [exact I|]. field. lra.
    + f_equal. unfold legval at 2. change (legder_len (S m) n) with (legder1_len (legder_len m n)). unfold legval. rewrite <- sumn_scal. apply sumn_ext. intros k _. cbn [ex]. ring.
Qed.
Lemma seg_deriv_ex m x : seg_deriv g c i m x = sqrt (2 / len) * legval (legder_len m n) (ex m) (tt x).
Proof. apply is_derive_n_unique, derive_ex. Qed.

Context (H1 : gxmax g = 1).
Lemma end_knot : knot g (S i) = 1.
Proof. rewrite <- H1. unfold gxmax, knot. f_equal. destruct Hg as (P & L & _). lia. Qed.
Lemma t_end : tt 1 = 1.
Proof. pose proof len0 as L. rewrite end_knot in *. field. lra. Qed.

Lemma deriv_small m : Rabs (seg_deriv g c i m 1) <= deriv_bound g c m.
Proof.
  rewrite seg_deriv_ex, t_end. unfold deriv_bound. cbv zeta. rewrite Rabs_mult, Rabs_pos_eq by apply sqrt_pos. apply Rmult_le_compat_l; [apply sqrt_pos|].
  eapply Rle_trans; [|apply ex_sum]. unfold legval. eapply Rle_trans; [apply sumn_abs|]. apply sumn_le. intros k _. rewrite Rabs_mult. pose proof (legP_le1 1 ltac:(lra) k). pose proof (Rabs_pos (ex m k)). nra.
Qed.

Lemma in_last : in_segment g i 1.
Proof.
  pose proof len0 as L. pose proof i_lt. split; [assumption|]. rewrite end_knot in L. split; [lra|]. right. split; [lia|symmetry; exact H1].
Qed.

Lemma loss_le m : 0 <= loss (gderiv m g) i <= loss g i.
Proof.
  unfold loss. change (glen (gderiv m g)) with (legder_len m n). change (knot (gderiv m g)) with (knot g). pose proof (le_INR _ _ (len_le m)). pose proof (pos_INR (legder_len m n)). pose proof len0.
  set (K := 6 + _). assert (0 <= K). { unfold K. assert (0 <= Rmax (Rabs (knot g i)) (Rabs (knot g (S i))) / len); [|lra]. apply Rmult_le_pos; [eapply Rle_trans; [apply Rabs_pos|apply Rmax_l]|apply Rlt_le, Rinv_0_lt_compat; assumption]. }
  split; [repeat apply Rmult_le_pos; lra|]. apply Rmult_le_compat_r; [assumption|]. apply Rmult_le_compat_l; [lra|]. apply Rmult_le_compat; assumption.
Qed.

Lemma call_cd m : (m < n)%nat -> forall y, Rabs (y - seg_fun (gderiv m g) (cd m) i 1) <= call_error u eta (gderiv m g) (cd m) i ->
  Rabs (y - seg_deriv g c i m 1) <= end_error u eta g c m.
Proof.
  intros Hm y Hy. pose proof (cd_near m Hm) as HC. pose proof (ex_sum m) as HE. rewrite seg_deriv_ex, t_end.
  assert (D : Rabs (seg_fun (gderiv m g) (cd m) i 1 - sqrt (2 / len) * legval (legder_len m n) (ex m) 1) <= sqrt (2 / len) * CE m).
  { unfold seg_fun. change (knot (gderiv m g)) with (knot g). change (glen (gderiv m g)) with (legder_len m n). rewrite t_end. unfold legval. rewrite <- Rmult_minus_distr_l, <- sumn_minus, Rabs_mult, Rabs_pos_eq by apply sqrt_pos.
    apply Rmult_le_compat_l; [apply sqrt_pos|]. eapply Rle_trans; [apply sumn_abs|]. eapply Rle_trans; [|exact HC]. apply sumn_le. intros k _.
    replace (cdat (cd m) k i * legP k 1 - ex m k * legP k 1) with ((cdat (cd m) k i - ex m k) * legP k 1) by ring. rewrite Rabs_mult. pose proof (legP_le1 1 ltac:(lra) k). pose proof (Rabs_pos (cdat (cd m) k i - ex m k)). nra. }
  assert (B : call_error u eta (gderiv m g) (cd m) i <= loss g i * u * sqrt (2 / len) * (G ^ m * last_sum g c + CE m + eta / u) + eta).
  { unfold call_error. change (knot (gderiv m g)) with (knot g). change (glen (gderiv m g)) with (legder_len m n). pose proof (loss_le m) as (L1 & L2).
    assert (HA : sumn (legder_len m n) (fun k => Rabs (cdat (cd m) k i)) <= G ^ m * last_sum g c + CE m).
    { apply Rle_trans with (sumn (legder_len m n) (fun k => Rabs (ex m k)) + sumn (legder_len m n) (fun k => Rabs (cdat (cd m) k i - ex m k))); [|lra].
      rewrite <- sumn_plus. apply sumn_le. intros k _. replace (cdat (cd m) k i) with (ex m k + (cdat (cd m) k i - ex m k)) at 1 by ring. apply Rabs_triang. }
    assert (Eu : 0 <= eta / u) by (apply Rmult_le_pos; [lra|apply Rlt_le, Rinv_0_lt_compat; lra]).
    pose proof (every2_ge0 (fun k => cdat (cd m) k i) (legder_len m n)). pose proof (sqrt_pos (2 / len)).
    cbv beta in *. apply Rplus_le_compat_r. apply Rmult_le_compat; [apply Rmult_le_pos; [apply Rmult_le_pos; [exact L1|lra]|assumption]|lra| |lra]. apply Rmult_le_compat_r; [assumption|]. apply Rmult_le_compat_r; lra. }
  unfold end_error. cbv zeta.
  replace (y - sqrt (2 / len) * legval (legder_len m n) (ex m) 1) with ((y - seg_fun (gderiv m g) (cd m) i 1) + (seg_fun (gderiv m g) (cd m) i 1 - sqrt (2 / len) * legval (legder_len m n) (ex m) 1)) by ring.
  eapply Rle_trans; [apply Rabs_triang|]. lra.
Qed.
End Repeated.
