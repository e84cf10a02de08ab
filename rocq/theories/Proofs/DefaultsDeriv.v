From Coq Require Import Reals Lra.
From Coquelicot Require Import Coquelicot.
From Coq Require Import List ZArith Bool Lia Arith.
From Verif.Model Require Import Base Num Poly PolyIEEE DefaultsIEEE.
From Verif.Spec Require Import SPoly SPolyIEEE SKernelIEEE SDefaultsIEEE.
From Verif.Proofs Require Import BaseFacts SumFacts LegFacts LegRecur PolyRound ComputeMerged DefaultsRound.
Import ListNotations.
Open Scope R_scope.

(** * Sums of every second coefficient *)
Fixpoint every2 (c : nat -> R) (m j : nat) : R := match m with O => c j | S m' => c j + every2 c m' (S (S j)) end.

Lemma every2_sum c m j : every2 c m j = sumn (S m) (fun t => c (j + 2 * t)%nat).
Proof.
  revert j. induction m as [|m IH]; intros j; [cbn; rewrite ?Nat.add_0_r; lra|]. cbn [every2]. rewrite IH, (sumn_shift (S m)). replace (j + 2 * 0)%nat with j by lia. f_equal. apply sumn_ext. intros t _. f_equal. lia.
Qed.

Lemma odd_sum c n k : (S k < n)%nat ->
  sumn n (fun j => if (k <? j)%nat && Nat.odd (j - k) then c j else 0) = every2 c ((n - 1 - S k) / 2) (S k).
Proof.
  intros H. rewrite every2_sum. set (m := ((n - 1 - S k) / 2)%nat).
  pose proof (Nat.div_mod (n - 1 - S k) 2 ltac:(lia)) as DM. fold m in DM. pose proof (Nat.mod_upper_bound (n - 1 - S k) 2 ltac:(lia)) as UB.
  assert (Pre : forall q, sumn (S k + q) (fun j => if (k <? j)%nat && Nat.odd (j - k) then c j else 0) = sumn q (fun t => if Nat.odd (S t) then c (S k + t)%nat else 0)).
  { induction q as [|q IH].
    - rewrite Nat.add_0_r. rewrite sumn_zero; [reflexivity|]. intros j Hj. destruct (Nat.ltb_spec k j); [lia|reflexivity].
    - rewrite Nat.add_succ_r. rewrite !sumn_S, IH. f_equal. destruct (Nat.ltb_spec k (S k + q)); [|lia]. replace (S k + q - k)%nat with (S q) by lia. reflexivity. }
  assert (Dbl : forall q, sumn (S (2 * q)) (fun t => if Nat.odd (S t) then c (S k + t)%nat else 0) = sumn (S q) (fun t => c (S k + 2 * t)%nat)).
  { induction q as [|q IH]; [cbn [Nat.mul sumn]; rewrite ?Nat.add_0_r; reflexivity|]. replace (S (2 * S q)) with (S (S (S (2 * q)))) by lia. rewrite (sumn_S (S (S (2 * q)))), (sumn_S (S (2 * q))), IH, (sumn_S (S q)).
    replace (Nat.odd (S (S (2 * q)))) with false by (rewrite <- Nat.negb_even; replace (S (S (2 * q))) with (2 * (S q))%nat by lia; rewrite Nat.even_mul; reflexivity).
    replace (Nat.odd (S (S (S (2 * q))))) with true by (rewrite <- Nat.negb_even; replace (S (S (S (2 * q)))) with (1 + 2 * (S q))%nat by lia; rewrite Nat.even_add_mul_2; reflexivity).
    replace (S k + 2 * S q)%nat with (S k + S (S (2 * q)))%nat by lia. lra. }
  replace n with (S k + (n - S k))%nat at 1 by lia. rewrite Pre.
  destruct (Nat.eq_dec ((n - 1 - S k) mod 2) 0) as [E|E].
  - replace (n - S k)%nat with (S (2 * m)) by lia. apply Dbl.
  - replace (n - S k)%nat with (S (S (2 * m))) by lia. rewrite sumn_S, Dbl.
    replace (Nat.odd (S (S (2 * m)))) with false by (rewrite <- Nat.negb_even; replace (S (S (2 * m))) with (2 * (S m))%nat by lia; rewrite Nat.even_mul; reflexivity). lra.
Qed.

Lemma every2_bound c n m j : (j + 2 * m < n)%nat -> Rabs (every2 c m j) <= sumn n (fun k => Rabs (c k)).
Proof.
  assert (G : forall m1 j1, (j1 + 2 * m1 < n)%nat -> Rabs (every2 c m1 j1) <= sumn (n - j1) (fun t => Rabs (c (j1 + t)%nat))).
  { induction m1 as [|m0 IH]; intros j0 H.
    - cbn [every2]. destruct (n - j0)%nat as [|q] eqn:Q; [lia|].
      rewrite sumn_shift, Nat.add_0_r. assert (0 <= sumn q (fun t => Rabs (c (j0 + S t)%nat))) by (apply sumn_nonneg; intros; apply Rabs_pos). lra.
    - cbn [every2]. eapply Rle_trans; [apply Rabs_triang|]. specialize (IH (S (S j0)) ltac:(lia)). destruct (n - j0)%nat as [|[|q]] eqn:Q; [lia|lia|]. rewrite !sumn_shift, Nat.add_0_r.
      replace (n - S (S j0))%nat with q in IH by lia. rewrite (sumn_ext q (fun t => Rabs (c (j0 + S (S t))%nat)) (fun t => Rabs (c (S (S j0) + t)%nat))) by (intros; do 2 f_equal; lia).
      pose proof (Rabs_pos (c (j0 + 1)%nat)). lra. }
  intros H. eapply Rle_trans; [apply G; exact H|]. clear -H.
  replace n with (j + (n - j))%nat at 2 by lia. generalize (n - j)%nat as q. intros q. induction q as [|q IH]; [cbn; apply sumn_nonneg; intros; apply Rabs_pos|]. rewrite Nat.add_succ_r, !sumn_S. lra.
Qed.

Section Near.
Context (u eta : R) (rd : R -> R) (Hrd : rounding u eta rd) (Hu : 0 < u <= / 10000) (He : 0 <= eta).

Lemma legacc_near c A m j : (forall m' j', (j' + 2 * m' = j + 2 * m)%nat -> Rabs (every2 c m' j') <= A) -> INR m * u <= / 100 ->
  Rabs (legacc rd c m j - every2 c m j) <= 2 * INR m * (u * A + eta).
Proof.
  revert j. induction m as [|m IH]; intros j HA Hm; [cbn [legacc every2 INR]; rewrite Rminus_eq_0, Rabs_R0; lra|].
  cbn [legacc every2]. rewrite S_INR in *. pose proof (pos_INR m) as Pm.
  assert (I : Rabs (legacc rd c m (S (S j)) - every2 c m (S (S j))) <= 2 * INR m * (u * A + eta)) by (apply IH; [intros m' j' E; apply HA; lia|nra]).
  pose proof (HA (S m) j eq_refl) as B. cbn [every2] in B. destruct Hrd as (R1 & _). specialize (R1 (c j + legacc rd c m (S (S j)))).
  set (s := c j + legacc rd c m (S (S j))) in *. set (t := c j + every2 c m (S (S j))) in *.
  assert (D : Rabs (s - t) <= 2 * INR m * (u * A + eta)) by (unfold s, t; replace (c j + legacc rd c m (S (S j)) - (c j + every2 c m (S (S j)))) with (legacc rd c m (S (S j)) - every2 c m (S (S j))) by ring; exact I).
  assert (Ls : Rabs s <= A + 2 * INR m * (u * A + eta)). { replace s with (t + (s - t)) by ring. eapply Rle_trans; [apply Rabs_triang|]. lra. }
  replace (rd s - t) with ((rd s - s) + (s - t)) by ring. eapply Rle_trans; [apply Rabs_triang|].
  assert (A0 : 0 <= A) by (eapply Rle_trans; [apply Rabs_pos|exact B]). assert (Q : 0 <= u * A + eta) by nra.
  assert (u * Rabs s <= u * A + u * (2 * INR m * (u * A + eta))) by (rewrite <- Rmult_plus_distr_l; apply Rmult_le_compat_l; lra).
  assert (u * (2 * INR m * (u * A + eta)) <= u * A + eta) by (replace (u * (2 * INR m * (u * A + eta))) with ((2 * (INR m * u)) * (u * A + eta)) by ring; assert (2 * (INR m * u) <= 1) by nra; nra).
  lra.
Qed.
End Near.

Lemma every2_ge0 c n : 0 <= sumn n (fun k => Rabs (c k)).
Proof. apply sumn_nonneg. intros. apply Rabs_pos. Qed.

Section Coefficient.
Context (u eta : R) (rd : R -> R) (Hrd : rounding u eta rd) (Hu : 0 < u <= / 10000) (He : 0 <= eta).
Context (g : geom) (c : col) (i : nat) (Hg : geom_near u eta g) (Hi : (i < gnseg g)%nat) (Hf : fair_length u eta g i) (Hn : (2 <= glen g)%nat) (Hnu : INR (glen g) * u <= / 200).
Notation n := (glen g).
Notation len := (knot g (S i) - knot g i).
Notation cs := (fun k => cdat c k i).
Let A := sumn n (fun k => Rabs (cdat c k i)).
Let B := A + eta / u.

Lemma len_pos : 0 < len.
Proof. destruct Hg as (_ & L & S & _). assert (knot g i < knot g (Datatypes.S i)); [|lra]. unfold knot. apply DefaultsRound.sorted_nth_lt; [exact S|lia]. Qed.

Lemma inv_near : Rabs (ginv_rd rd g i - 2 / len) <= 22 / 10 * u * (2 / len) /\ eta <= / 500 * u * (2 / len).
Proof.
  pose proof len_pos as P. destruct Hf as (F1 & F2). destruct Hg as (_ & _ & _ & _ & D). specialize (D i Hi). unfold ginv_rd. set (d := nth i (gdx g) 0) in *. set (l := len) in *.
  assert (D' : Rabs (d - l) <= 1001 / 1000 * u * l) by lra. apply Rabs_le_between in D'.
  assert (Ul : u * l <= / 10000 * l) by (apply Rmult_le_compat_r; lra). assert (Dp : 0 < d) by lra.
  assert (Il : 0 < / l) by (apply Rinv_0_lt_compat; exact P).
  assert (E2 : eta <= / 500 * u * (2 / l)).
  { apply Rmult_le_reg_r with l; [exact P|]. replace (/ 500 * u * (2 / l) * l) with (/ 250 * u) by (field; lra). nra. }
  split; [|exact E2].
  assert (Q : Rabs (2 / d - 2 / l) <= 101 / 100 * u * (2 / l)).
  { replace (2 / d - 2 / l) with ((l - d) * (2 / (d * l))) by (field; lra). rewrite Rabs_mult. rewrite (Rabs_pos_eq (2 / (d * l))) by (apply Rmult_le_pos; [lra|apply Rlt_le, Rinv_0_lt_compat, Rmult_lt_0_compat; assumption]).
    assert (A1 : Rabs (l - d) <= 1001 / 1000 * u * l) by (apply Rabs_le; lra).
    apply Rmult_le_reg_r with (d * l); [apply Rmult_lt_0_compat; assumption|]. replace (Rabs (l - d) * (2 / (d * l)) * (d * l)) with (2 * Rabs (l - d)) by (field; lra). replace (101 / 100 * u * (2 / l) * (d * l)) with (202 / 100 * u * d) by (field; lra). nra. }
  destruct Hrd as (R1 & _). specialize (R1 (2 / d)). assert (L0 : 0 < 2 / l) by (apply Rmult_lt_0_compat; lra).
  assert (Ab : Rabs (2 / d) <= (1 + 101 / 100 * u) * (2 / l)). { replace (2 / d) with ((2 / d - 2 / l) + 2 / l) by ring. eapply Rle_trans; [apply Rabs_triang|]. rewrite (Rabs_pos_eq (2 / l)) by lra. lra. }
  replace (rd (2 / d) - 2 / l) with ((rd (2 / d) - 2 / d) + (2 / d - 2 / l)) by ring. eapply Rle_trans; [apply Rabs_triang|].
  assert (u * Rabs (2 / d) <= u * ((1 + 101 / 100 * u) * (2 / l))) by (apply Rmult_le_compat_l; lra).
  assert (u * ((1 + 101 / 100 * u) * (2 / l)) <= 102 / 100 * u * (2 / l)). { replace (u * ((1 + 101 / 100 * u) * (2 / l))) with ((1 + 101 / 100 * u) * (u * (2 / l))) by ring. replace (102 / 100 * u * (2 / l)) with (102 / 100 * (u * (2 / l))) by ring. apply Rmult_le_compat_r; [apply Rmult_le_pos; lra|lra]. }
  lra.
Qed.

Lemma B_facts : 0 <= A /\ A <= B /\ u * B = u * A + eta /\ 0 <= u * B.
Proof.
  assert (0 <= A) by apply every2_ge0. assert (0 <= eta / u) by (apply Rmult_le_pos; [exact He|apply Rlt_le, Rinv_0_lt_compat; lra]). unfold B. split; [assumption|]. split; [lra|]. split; [field; lra|]. nra.
Qed.

Lemma coef_near k : (S k < n)%nat -> Rabs (cdat (cderiv_rd rd g c) k i - 2 / len * legder1 n cs k) <= 8 * (INR n * INR n) * u * (2 / len) * B + eta.
Proof.
  intros Hk. destruct B_facts as (B1 & B2 & B3 & B4). destruct inv_near as (I1 & I2). pose proof len_pos as P. cbn [cderiv_rd cdat]. set (J := ginv_rd rd g i) in *. set (q := 2 / len) in *.
  assert (Q0 : 0 < q) by (unfold q; apply Rmult_lt_0_compat; [lra|apply Rinv_0_lt_compat; exact P]).
  unfold legder1. rewrite odd_sum by exact Hk. unfold legder_rd. destruct (Nat.leb_spec n 1); [lia|]. cbv zeta. set (m := ((n - 1 - S k) / 2)%nat).
  assert (Hm : (2 * m <= n - 2 - k)%nat) by (unfold m; pose proof (Nat.mul_div_le (n - 1 - S k) 2 ltac:(lia)); lia).
  set (S0 := every2 cs m (S k)). set (a := legacc rd cs m (S k)). set (w := 2 * INR k + 1).
  assert (Mn : 2 * INR m <= INR n - 2) by (assert (H1 : INR (2 * m) <= INR (n - 2)) by (apply le_INR; lia); rewrite mult_INR, minus_INR in H1 by lia; replace (INR 2) with 2 in H1 by (cbn; lra); lra).
  pose proof (pos_INR m) as Pm. pose proof (pos_INR k) as Pk.
  assert (W : 1 <= w <= 2 * INR n - 3). { unfold w. assert (H1 : INR (S (S k)) <= INR n) by (apply le_INR; lia). rewrite !S_INR in H1. lra. }
  assert (Mu : INR m * u <= / 400) by nra.
  assert (Sa : Rabs S0 <= A) by (apply every2_bound; lia).
  assert (Ea : Rabs (a - S0) <= 2 * INR m * (u * B)).
  { rewrite B3. apply (legacc_near u eta rd Hrd Hu He); [|lra]. intros m' j' E. apply every2_bound. lia. }
  set (b := match k with O => a | S _ => rd (w * a) end).
  assert (Eb : Rabs (b - w * S0) <= w * (u * B) * (2 * INR m + 2)).
  { assert (Aa : Rabs a <= A + 2 * INR m * (u * B)) by (replace a with (S0 + (a - S0)) by ring; eapply Rle_trans; [apply Rabs_triang|]; lra).
    assert (Wa : Rabs (w * a - w * S0) <= w * (2 * INR m * (u * B))). { replace (w * a - w * S0) with (w * (a - S0)) by ring. rewrite Rabs_mult, (Rabs_pos_eq w) by lra. apply Rmult_le_compat_l; lra. }
    unfold b. destruct k as [|k'] eqn:K.
    - assert (W1 : w = 1) by (unfold w; cbn; lra). rewrite W1 in *. rewrite !Rmult_1_l in *. nra.
    - destruct Hrd as (R1 & _). specialize (R1 (w * a)). rewrite Rabs_mult, (Rabs_pos_eq w) in R1 by lra.
      replace (rd (w * a) - w * S0) with ((rd (w * a) - w * a) + (w * a - w * S0)) by ring. eapply Rle_trans; [apply Rabs_triang|].
      assert (U1 : u * (w * Rabs a) <= w * (u * A) + w * (u * (2 * INR m * (u * B)))). { replace (u * (w * Rabs a)) with (w * (u * Rabs a)) by ring. rewrite <- Rmult_plus_distr_l. apply Rmult_le_compat_l; [lra|]. rewrite <- Rmult_plus_distr_l. apply Rmult_le_compat_l; lra. }
      assert (U2 : u * (2 * INR m * (u * B)) <= u * B). { replace (u * (2 * INR m * (u * B))) with (2 * (INR m * u) * (u * B)) by ring. nra. }
      assert (U3 : eta <= w * eta) by nra. assert (w * (u * (2 * INR m * (u * B))) <= w * (u * B)) by (apply Rmult_le_compat_l; lra).
      assert (w * (u * A) + w * eta = w * (u * B)) by (rewrite B3; ring). lra. }
  fold w. fold b. clearbody b.
  set (e := w * (u * B) * (2 * INR m + 2)) in *.
  assert (wB : 0 <= w * (u * B)) by (apply Rmult_le_pos; lra).
  assert (J1 : Rabs J <= (1 + 22 / 10 * u) * q). { replace J with (q + (J - q)) by ring. eapply Rle_trans; [apply Rabs_triang|]. rewrite (Rabs_pos_eq q) by lra. lra. }
  assert (J2 : Rabs J <= 11 / 10 * q) by nra.
  assert (wS : Rabs (w * S0) <= w * B) by (rewrite Rabs_mult, (Rabs_pos_eq w) by lra; apply Rmult_le_compat_l; lra).
  assert (E1 : Rabs (b * J - w * S0 * q) <= e * (11 / 10 * q) + w * B * (22 / 10 * u * q)).
  { replace (b * J - w * S0 * q) with ((b - w * S0) * J + w * S0 * (J - q)) by ring. eapply Rle_trans; [apply Rabs_triang|]. rewrite (Rabs_mult (b - w * S0) J), (Rabs_mult (w * S0) (J - q)). apply Rplus_le_compat; apply Rmult_le_compat; try apply Rabs_pos; assumption. }
  assert (e0 : e <= / 10 * (w * B)). { unfold e. replace (w * (u * B) * (2 * INR m + 2)) with ((2 * (INR m * u) + 2 * u) * (w * B)) by ring. apply Rmult_le_compat_r; [apply Rmult_le_pos; lra|lra]. }
  assert (Bj : Rabs (b * J) <= 13 / 10 * (w * B) * q).
  { rewrite Rabs_mult. assert (Rabs b <= 11 / 10 * (w * B)) by (replace b with (w * S0 + (b - w * S0)) by ring; eapply Rle_trans; [apply Rabs_triang|]; lra).
    eapply Rle_trans; [apply Rmult_le_compat; try apply Rabs_pos; eassumption|]. assert (0 <= w * B * q) by (apply Rmult_le_pos; [apply Rmult_le_pos; lra|lra]). nra. }
  destruct Hrd as (R1 & _). specialize (R1 (b * J)).
  replace (rd (b * J) - q * (w * S0)) with ((rd (b * J) - b * J) + (b * J - w * S0 * q)) by ring. eapply Rle_trans; [apply Rabs_triang|].
  assert (U : u * Rabs (b * J) <= u * (13 / 10 * (w * B) * q)) by (apply Rmult_le_compat_l; lra).
  assert (Fin : e * (11 / 10 * q) + w * B * (22 / 10 * u * q) + u * (13 / 10 * (w * B) * q) <= 8 * (INR n * INR n) * u * q * B).
  { unfold e. replace (w * (u * B) * (2 * INR m + 2) * (11 / 10 * q) + w * B * (22 / 10 * u * q) + u * (13 / 10 * (w * B) * q)) with ((w * (22 / 10 * INR m + 57 / 10)) * (u * B * q)) by field.
    replace (8 * (INR n * INR n) * u * q * B) with ((8 * (INR n * INR n)) * (u * B * q)) by ring. apply Rmult_le_compat_r; [apply Rmult_le_pos; lra|].
    assert (N2 : 2 <= INR n) by (change 2 with (INR 2); apply le_INR; exact Hn). nra. }
  lra.
Qed.

Lemma deriv_near x : knot g i <= x <= knot g (S i) -> exists d, is_derive (seg_fun g c i) x d /\
  Rabs (seg_fun (gderiv 1 g) (cderiv_rd rd g c) i x - d) <= deriv_error u eta g c i.
Proof.
  intros Hx. pose proof len_pos as P. set (t := (2 * x - knot g i - knot g (S i)) / len).
  exists (sqrt (2 / len) * (2 / len * legval (legder1_len n) (legder1 n cs) t)). split.
  - unfold seg_fun. apply (is_derive_ext (fun y => sqrt (2 / len) * legval n cs ((2 * y - knot g i - knot g (S i)) / len))); [reflexivity|].
    apply (is_derive_scal (fun y => legval n cs ((2 * y - knot g i - knot g (S i)) / len)) x (sqrt (2 / len))).
    apply (is_derive_comp (legval n cs) (fun y => (2 * y - knot g i - knot g (S i)) / len)); [apply is_derive_legval|]. auto_derive; [exact I|]. field. lra.
  - assert (Ht : -1 <= t <= 1).
    { unfold t. split; apply Rmult_le_reg_r with len; try exact P; unfold Rdiv; rewrite Rmult_assoc, Rinv_l by lra; lra. }
    assert (Eq : seg_fun (gderiv 1 g) (cderiv_rd rd g c) i x - sqrt (2 / len) * (2 / len * legval (legder1_len n) (legder1 n cs) t) =
      sqrt (2 / len) * sumn (legder1_len n) (fun k => (cdat (cderiv_rd rd g c) k i - 2 / len * legder1 n cs k) * legP k t)).
    { unfold seg_fun, legval. cbn [gderiv glen legder_len Nat.iter]. change (knot (gderiv 1 g)) with (knot g). fold t.
      change (legder_len 1 n) with (legder1_len n).
      rewrite (sumn_ext _ (fun k => (cdat (cderiv_rd rd g c) k i - 2 / len * legder1 n cs k) * legP k t) (fun k => cdat (cderiv_rd rd g c) k i * legP k t - 2 / len * (legder1 n cs k * legP k t))) by (intros; ring).
      rewrite sumn_minus, sumn_scal. ring. }
    rewrite Eq, Rabs_mult, (Rabs_pos_eq (sqrt _)) by apply sqrt_pos. unfold deriv_error. fold A B.
    set (dl := 8 * (INR n * INR n) * u * (2 / len) * B + eta).
    assert (D0 : 0 <= dl). { destruct B_facts as (_ & _ & _ & B4). assert (0 < 2 / len) by (apply Rmult_lt_0_compat; [lra|apply Rinv_0_lt_compat; exact P]). unfold dl. replace (8 * (INR n * INR n) * u * (2 / len) * B) with (8 * (INR n * INR n) * (2 / len) * (u * B)) by ring. pose proof (pos_INR n). assert (0 <= 8 * (INR n * INR n) * (2 / len) * (u * B)) by (apply Rmult_le_pos; [|exact B4]; apply Rmult_le_pos; [|lra]; nra). lra. }
    assert (Sm : Rabs (sumn (legder1_len n) (fun k => (cdat (cderiv_rd rd g c) k i - 2 / len * legder1 n cs k) * legP k t)) <= INR n * dl).
    { eapply Rle_trans; [apply sumn_abs|]. eapply Rle_trans; [apply (sumn_le _ _ (fun _ => dl))|].
      - intros k Hk. unfold legder1_len in Hk. rewrite Rabs_mult. rewrite <- (Rmult_1_r dl). apply Rmult_le_compat; try apply Rabs_pos; [apply coef_near; lia|]. apply legP_le1. exact Ht.
      - rewrite sumn_const. apply Rmult_le_compat_r; [exact D0|]. apply le_INR. unfold legder1_len. lia. }
    eapply Rle_trans; [apply Rmult_le_compat_l; [apply sqrt_pos|exact Sm]|]. apply Req_le. ring.
Qed.
End Coefficient.
