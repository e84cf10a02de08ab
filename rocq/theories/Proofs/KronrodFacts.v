(** The Kronrod constants: integer evaluation of the moments and the resulting
    error bounds. *)
From Coquelicot Require Import Coquelicot.
From Coq Require Import List Reals ZArith QArith Qreals Arith Bool Lia Lra Sorting.
From Verif.Model Require Import Base Num Gauss Kronrod.
From Verif.Spec Require Import SGauss.
From Verif.Proofs Require Import SumFacts IntFacts LegFacts PolyFacts GaussFacts GaussExact GaussExamples.
Import ListNotations.
Open Scope R_scope.

Definition zx : list Z := [-99800229869339710; -98799251802048540; -96773907567913910; -93727339240070600; -89726453234408190; -84820658341042720; -79041850144246600; -72441773136017010; -65099674129741700; -57097217260853880; -48508186364023970; -39415134707756340; -29918000715316884; -20119409399743451; -10114206691871750; 0; 10114206691871750; 20119409399743451; 29918000715316884; 39415134707756340; 48508186364023970; 57097217260853880; 65099674129741700; 72441773136017010; 79041850144246600; 84820658341042720; 89726453234408190; 93727339240070600; 96773907567913910; 98799251802048540; 99800229869339710]%Z.
Definition zw : list Z := [5377479872923349; 15007947329316122; 25460847326715320; 35346360791375850; 44589751324764880; 53481524690928090; 62009567800670640; 69854121318728260; 76849680757720380; 83080502823133020; 88564443056211760; 93126598170825320; 96642726983623680; 99173598721791960; 100769845523875590; 101330007014791540; 100769845523875590; 99173598721791960; 96642726983623680; 93126598170825320; 88564443056211760; 83080502823133020; 76849680757720380; 69854121318728260; 62009567800670640; 53481524690928090; 44589751324764880; 35346360791375850; 25460847326715320; 15007947329316122; 5377479872923349]%Z.
Definition zv : list Z := [3075324199611727; 7036604748810812; 10715922046717194; 13957067792615432; 16626920581699392; 18616100001556220; 19843148532711158; 20257824192556130; 19843148532711158; 18616100001556220; 16626920581699392; 13957067792615432; 10715922046717194; 7036604748810812; 3075324199611727]%Z.

Definition dec (d : positive) (z : Z) : R := IZR z / IZR (Zpos d).
Lemma dec_Q2R d z : Q2R (z # d) = dec d z.
Proof. reflexivity. Qed.
Definition D17 : positive := 100000000000000000.
Definition D18 : positive := 1000000000000000000.
Lemma kronrod_x_int : kronrod_x = map (dec D17) zx.
Proof. reflexivity. Qed.
Lemma kronrod_w_int : kronrod_w = map (dec D18) zw.
Proof. reflexivity. Qed.
Lemma kronrod_v_int : kronrod_v = map (dec D17) zv.
Proof. reflexivity. Qed.

(** Fixed-point even powers: S * (z/D)^(2j), rounded down at every step. *)
Definition SC : Z := 2 ^ 64.
Definition pstep (z2 p : Z) : Z := (p * z2 / (10 ^ 34))%Z.
Fixpoint pows (j : nat) (z : Z) : Z :=
  match j with O => SC | S j' => pstep (z * z) (pows j' z) end.
Definition zdot (a b : list Z) : Z := fold_right Z.add 0%Z (map2 Z.mul a b).
Definition zsum (a : list Z) : Z := fold_right Z.add 0%Z a.
(** Check of moment 2j from its list of powers: the enclosure
    [W.p, W.p + j sum W] / (E SC) differs from 2/(2j+1) by at most 1e-16. *)
Definition moment_ok (E : Z) (w : list Z) (j : nat) (p : list Z) : bool :=
  let lo := zdot w p in
  let hi := (lo + Z.of_nat j * zsum w)%Z in
  let k := (2 * Z.of_nat j + 1)%Z in
  ((10 ^ 16 * (2 * E * SC - k * lo) <=? k * E * SC) && (10 ^ 16 * (k * hi - 2 * E * SC) <=? k * E * SC))%Z.
Fixpoint moments_ok (E : Z) (w z2 : list Z) (n j : nat) (p : list Z) : bool :=
  match n with
  | O => true
  | S n' => moment_ok E w j p && moments_ok E w z2 n' (S j) (map2 pstep z2 p)
  end.

Lemma k31_check : moments_ok (10 ^ 18) zw (map (fun z => z * z)%Z zx) 24 0 (map (fun _ => SC) zx) = true.
Proof. vm_compute. reflexivity. Qed.
Lemma g15_check : moments_ok (10 ^ 17) zv (map (fun z => z * z)%Z (vsel zx)) 15 0 (map (fun _ => SC) (vsel zx)) = true.
Proof. vm_compute. reflexivity. Qed.

Lemma moments_ok_spec E w xs : forall n j,
  moments_ok E w (map (fun z => z * z)%Z xs) n j (map (pows j) xs) = true ->
  forall i, (i < n)%nat -> moment_ok E w (j + i) (map (pows (j + i)) xs) = true.
Proof.
  induction n; intros j H i Hi; [lia|]. cbn [moments_ok] in H. apply andb_prop in H as [H1 H2].
  destruct i; [rewrite Nat.add_0_r; auto|].
  assert (Em : map2 pstep (map (fun z => z * z)%Z xs) (map (pows j) xs) = map (pows (S j)) xs).
  { clear. induction xs; auto. cbn [map map2]. rewrite IHxs. reflexivity. }
  rewrite Em in H2. replace (j + S i)%nat with (S j + i)%nat by lia. apply IHn; auto. lia.
Qed.

Lemma SC_pos : 0 < IZR SC.
Proof. apply IZR_lt. reflexivity. Qed.

Lemma pows_bound z : (Z.abs z <= 10 ^ 17)%Z -> forall j,
  IZR (pows j z) <= IZR SC * dec D17 z ^ (2 * j) <= IZR (pows j z) + INR j.
Proof.
  intros Hz. set (x := dec D17 z).
  assert (Hx2 : 0 <= x ^ 2 <= 1).
  { split; [apply pow2_ge_0|]. unfold x, dec.
    assert (Hab : Rabs (IZR z) <= IZR (10 ^ 17)) by (rewrite <- abs_IZR; apply IZR_le; auto).
    replace (IZR (Zpos D17)) with (IZR (10 ^ 17)) by reflexivity.
    assert (0 < IZR (10 ^ 17)) by (apply IZR_lt; reflexivity).
    rewrite <- pow2_abs. unfold Rdiv. rewrite Rabs_mult, (Rabs_right (/ _)) by (left; apply Rinv_0_lt_compat; auto).
    replace 1 with (1 ^ 2) by ring. apply pow_incr. split.
    - apply Rmult_le_pos; [apply Rabs_pos|left; apply Rinv_0_lt_compat; auto].
    - apply (Rmult_le_reg_r (IZR (10 ^ 17))); auto. rewrite Rmult_assoc, Rinv_l by lra. lra. }
  induction j as [|j [IH1 IH2]].
  - simpl. lra.
  - replace (2 * S j)%nat with (2 * j + 2)%nat by lia. rewrite pow_add.
    assert (Hdiv : forall p, IZR (pstep (z * z) p) <= IZR p * x ^ 2 <= IZR (pstep (z * z) p) + 1).
    { intros p. unfold pstep. set (M := (10 ^ 34)%Z). assert (HM : (0 < M)%Z) by reflexivity.
      pose proof (Z.div_mod (p * (z * z)) M ltac:(lia)) as E.
      pose proof (Z.mod_pos_bound (p * (z * z)) M HM) as B.
      assert (Ex : x ^ 2 = IZR (z * z) / IZR M).
      { unfold x, dec. replace (IZR (Zpos D17)) with (IZR (10 ^ 17)) by reflexivity.
        replace M with (10 ^ 17 * 10 ^ 17)%Z by reflexivity. rewrite !mult_IZR. field.
        apply not_0_IZR. discriminate. }
      rewrite Ex. assert (HMr : 0 < IZR M) by (apply IZR_lt; auto).
      replace (IZR p * (IZR (z * z) / IZR M)) with (IZR (p * (z * z)) / IZR M) by (rewrite !mult_IZR; field; lra).
      set (q := (p * (z * z) / M)%Z) in *. set (m := (p * (z * z) mod M)%Z) in *.
      rewrite E, plus_IZR, mult_IZR.
      replace ((IZR M * IZR q + IZR m) / IZR M) with (IZR q + IZR m / IZR M) by (field; lra).
      assert (0 <= IZR m / IZR M <= 1); [|lra].
      destruct B as [B1 B2]. apply IZR_le in B1. apply IZR_lt in B2.
      split; [apply Rmult_le_pos; [auto|left; apply Rinv_0_lt_compat; auto]|].
      apply (Rmult_le_reg_r (IZR M)); auto. unfold Rdiv. rewrite Rmult_assoc, Rinv_l by lra. lra. }
    cbn [pows]. specialize (Hdiv (pows j z)). rewrite S_INR. pose proof (INR_nonneg j).
    rewrite <- Rmult_assoc. set (A := IZR SC * x ^ (2 * j)) in *.
    assert (IZR (pows j z) * x ^ 2 <= A * x ^ 2) by (apply Rmult_le_compat_r; lra).
    assert (A * x ^ 2 <= (IZR (pows j z) + INR j) * x ^ 2) by (apply Rmult_le_compat_r; lra).
    assert (INR j * x ^ 2 <= INR j) by (rewrite <- (Rmult_1_r (INR j)) at 2; apply Rmult_le_compat_l; lra).
    lra.
Qed.

Lemma moment_enclosure E w xs j :
  Forall (fun z => (Z.abs z <= 10 ^ 17)%Z) xs -> Forall (fun z => (0 <= z)%Z) w -> length w = length xs ->
  IZR (zdot w (map (pows j) xs)) <= IZR (Zpos E) * IZR SC * quad (map (dec D17) xs) (map (dec E) w) (fun t => t ^ (2 * j))
    <= IZR (zdot w (map (pows j) xs)) + INR j * IZR (zsum w).
Proof.
  revert w. induction xs as [|z xs IH]; intros [|v w] Hx Hw Hl; try discriminate.
  - unfold quad, zdot, zsum. simpl. lra.
  - inversion Hx; subst. inversion Hw; subst. cbn [map]. rewrite quad_cons.
    unfold zdot, zsum in *. cbn [map2 fold_right]. specialize (IH w). injection Hl as Hl.
    destruct IH as [IH1 IH2]; auto.
    set (Q := quad (map (dec D17) xs) (map (dec E) w) (fun t => t ^ (2 * j))) in *.
    pose proof (pows_bound z ltac:(auto) j) as [P1 P2].
    set (xp := dec D17 z ^ (2 * j)) in *.
    rewrite !plus_IZR, mult_IZR. unfold dec. set (e := IZR (Zpos E)).
    assert (He : 0 < e) by (apply IZR_lt; reflexivity).
    replace (e * IZR SC * (IZR v / e * xp + Q)) with (IZR v * (IZR SC * xp) + e * IZR SC * Q) by (field; lra).
    assert (Hv : 0 <= IZR v) by (apply IZR_le; auto).
    assert (IZR v * IZR (pows j z) <= IZR v * (IZR SC * xp)) by (apply Rmult_le_compat_l; auto).
    assert (IZR v * (IZR SC * xp) <= IZR v * (IZR (pows j z) + INR j)) by (apply Rmult_le_compat_l; auto).
    fold e in IH1, IH2. rewrite Rmult_plus_distr_l. lra.
Qed.

Lemma moment_even E w xs j :
  Forall (fun z => (Z.abs z <= 10 ^ 17)%Z) xs -> Forall (fun z => (0 <= z)%Z) w -> length w = length xs ->
  moment_ok (Zpos E) w j (map (pows j) xs) = true ->
  Rabs (quad (map (dec D17) xs) (map (dec E) w) (fun t => t ^ (2 * j)) - 2 / (2 * INR j + 1)) <= / 10 ^ 16.
Proof.
  intros Hx Hw Hl H. pose proof (moment_enclosure E w xs j Hx Hw Hl) as [B1 B2].
  set (Q := quad _ _ _) in *. unfold moment_ok in H. set (lo := zdot w (map (pows j) xs)) in *.
  apply andb_prop in H as [H1 H2]. apply Z.leb_le in H1, H2. apply IZR_le in H1, H2.
  assert (Ek : IZR (2 * Z.of_nat j + 1) = 2 * INR j + 1) by (rewrite plus_IZR, mult_IZR, <- INR_IZR_INZ; reflexivity).
  rewrite !mult_IZR, minus_IZR, !mult_IZR, Ek in H1.
  rewrite !mult_IZR, minus_IZR, !mult_IZR, Ek, plus_IZR, mult_IZR, <- INR_IZR_INZ in H2.
  assert (Et : IZR (10 ^ 16) = 10 ^ 16) by (rewrite <- pow_IZR with (n := 16%nat); reflexivity).
  rewrite Et in H1, H2. pose proof SC_pos as HS. pose proof (INR_nonneg j) as Hj.
  set (e := IZR (Zpos E)) in *. assert (He : 0 < e) by (apply IZR_lt; reflexivity).
  set (T := 10 ^ 16) in *. assert (HT : 0 < T) by (unfold T; apply pow_lt; lra).
  set (k := 2 * INR j + 1) in *. assert (Hk : 0 < k) by (unfold k; lra).
  assert (HeS : 0 < e * IZR SC) by (apply Rmult_lt_0_compat; auto).
  assert (HkeS : 0 < k * (e * IZR SC)) by (apply Rmult_lt_0_compat; auto).
  assert (A1 : T * (2 * (e * IZR SC) - k * (e * IZR SC * Q)) <= k * (e * IZR SC)).
  { eapply Rle_trans; [|replace (k * (e * IZR SC)) with (k * e * IZR SC) by ring; exact H1].
    apply Rmult_le_compat_l; [lra|]. assert (k * IZR lo <= k * (e * IZR SC * Q)) by (apply Rmult_le_compat_l; lra). lra. }
  assert (A2 : T * (k * (e * IZR SC * Q) - 2 * (e * IZR SC)) <= k * (e * IZR SC)).
  { eapply Rle_trans; [|replace (k * (e * IZR SC)) with (k * e * IZR SC) by ring; exact H2].
    apply Rmult_le_compat_l; [lra|].
    assert (k * (e * IZR SC * Q) <= k * (IZR lo + INR j * IZR (zsum w))) by (apply Rmult_le_compat_l; lra). lra. }
  apply Rabs_le. split.
  - apply (Rmult_le_reg_l (T * (k * (e * IZR SC)))); [apply Rmult_lt_0_compat; auto|].
    replace (T * (k * (e * IZR SC)) * - / T) with (- (k * (e * IZR SC))) by (field; lra).
    replace (T * (k * (e * IZR SC)) * (Q - 2 / k)) with (- (T * (2 * (e * IZR SC) - k * (e * IZR SC * Q)))) by (field; lra).
    lra.
  - apply (Rmult_le_reg_l (T * (k * (e * IZR SC)))); [apply Rmult_lt_0_compat; auto|].
    replace (T * (k * (e * IZR SC)) * / T) with (k * (e * IZR SC)) by (field; lra).
    replace (T * (k * (e * IZR SC)) * (Q - 2 / k)) with (T * (k * (e * IZR SC * Q) - 2 * (e * IZR SC))) by (field; lra).
    lra.
Qed.

(** Odd moments of a symmetric rule vanish. *)
Lemma quad_rev x : forall w f, length x = length w -> quad (rev x) (rev w) f = quad x w f.
Proof.
  induction x as [|t x IH]; intros [|v w] f H; try discriminate; auto.
  injection H as H. cbn [rev]. rewrite quad_app by (rewrite !rev_length; auto).
  rewrite IH by auto. rewrite !quad_cons, quad_nil_l. lra.
Qed.
Lemma quad_odd x w k : length x = length w -> rev x = map Ropp x -> rev w = w ->
  quad x w (fun t => t ^ (2 * k + 1)) = 0.
Proof.
  intros Hl Hx Hw. pose proof (quad_rev x w (fun t => t ^ (2 * k + 1)) Hl) as H.
  rewrite Hx, Hw in H.
  assert (E : quad (map Ropp x) w (fun t => t ^ (2 * k + 1)) = - quad x w (fun t => t ^ (2 * k + 1))).
  { clear. revert w. induction x as [|t x IH]; intros [|v w]; cbn [map]; try (unfold quad; simpl; ring).
    rewrite !quad_cons, IH. rewrite !pow_add, !pow_mult. replace ((- t) ^ 2) with (t ^ 2) by ring. simpl. ring. }
  lra.
Qed.

Lemma map_dec_opp d l m : map Z.opp l = m -> map Ropp (map (dec d) l) = map (dec d) m.
Proof.
  intros <-. rewrite !map_map. apply map_ext. intros z. unfold dec. rewrite opp_IZR. field.
  apply not_0_IZR. discriminate.
Qed.

Lemma kx_sym : rev kronrod_x = map Ropp kronrod_x.
Proof.
  rewrite kronrod_x_int, <- map_rev. symmetry. apply map_dec_opp. reflexivity.
Qed.
Lemma kw_sym : rev kronrod_w = kronrod_w.
Proof. rewrite kronrod_w_int, <- map_rev. reflexivity. Qed.
Lemma kv_sym : rev kronrod_v = kronrod_v.
Proof. rewrite kronrod_v_int, <- map_rev. reflexivity. Qed.
Lemma vx_int : vsel kronrod_x = map (dec D17) (vsel zx).
Proof. rewrite kronrod_x_int. apply vsel_map. Qed.
Lemma vx_sym : rev (vsel kronrod_x) = map Ropp (vsel kronrod_x).
Proof. rewrite vx_int, <- map_rev. symmetry. apply map_dec_opp. reflexivity. Qed.

Lemma zbound_dec d : IZR (Zpos d) <> 0.
Proof. apply not_0_IZR. discriminate. Qed.
Lemma dec_lt d a b : (a < b)%Z -> dec d a < dec d b.
Proof.
  intros H. unfold dec. apply Rmult_lt_compat_r; [apply Rinv_0_lt_compat, IZR_lt; reflexivity|apply IZR_lt; auto].
Qed.
Fixpoint zsortedb (l : list Z) : bool :=
  match l with a :: ((b :: _) as r) => (a <? b)%Z && zsortedb r | _ => true end.
Lemma zsortedb_ok l : zsortedb l = true -> StronglySorted Z.lt l.
Proof.
  intros H. apply Sorted_StronglySorted; [intros a b c; lia|].
  induction l as [|a [|b l] IH]; [constructor|constructor; constructor|].
  change (zsortedb (a :: b :: l)) with ((a <? b)%Z && zsortedb (b :: l)) in H. apply andb_prop in H as [H1 H2].
  constructor; auto. constructor. apply Z.ltb_lt; auto.
Qed.
Lemma dec_sorted d l : StronglySorted Z.lt l -> StronglySorted Rlt (map (dec d) l).
Proof.
  intros H. induction H; simpl; constructor; auto. rewrite Forall_map. eapply Forall_impl; [|eauto]. intros; apply dec_lt; auto.
Qed.
Lemma kronrod_sorted : StronglySorted Rlt kronrod_x.
Proof. rewrite kronrod_x_int. apply dec_sorted, zsortedb_ok. reflexivity. Qed.
Lemma forallb_Forall_Z (p : Z -> bool) (P : Z -> Prop) l : (forall z, p z = true -> P z) -> forallb p l = true -> Forall P l.
Proof. intros H E. apply Forall_forall. intros z Hz. apply H. rewrite forallb_forall in E. auto. Qed.
Lemma kronrod_range : Forall (fun x => Rabs x <= 0.999) kronrod_x.
Proof.
  rewrite kronrod_x_int, Forall_map.
  apply (forallb_Forall_Z (fun z => Z.abs z <=? 99900000000000000)%Z); [|reflexivity].
  intros z Hz. apply Z.leb_le in Hz. unfold dec, Rdiv. rewrite Rabs_mult, <- abs_IZR.
  rewrite (Rabs_right (/ _)) by (left; apply Rinv_0_lt_compat, IZR_lt; reflexivity).
  apply (Rmult_le_reg_r (IZR (Zpos D17))); [apply IZR_lt; reflexivity|].
  rewrite Rmult_assoc, Rinv_l by (apply not_0_IZR; discriminate). apply IZR_le in Hz. unfold D17. lra.
Qed.
Lemma dec_pos d l : forallb (fun z => 0 <? z)%Z l = true -> Forall (fun x => 0 < x) (map (dec d) l).
Proof.
  intros H. rewrite Forall_map. apply (forallb_Forall_Z (fun z => 0 <? z)%Z); auto.
  intros z Hz. apply Z.ltb_lt in Hz. apply Rdiv_lt_0_compat; apply IZR_lt; auto. reflexivity.
Qed.
Lemma kronrod_w_pos : Forall (fun x => 0 < x) kronrod_w.
Proof. rewrite kronrod_w_int. apply dec_pos. reflexivity. Qed.
Lemma kronrod_v_pos : Forall (fun x => 0 < x) kronrod_v.
Proof. rewrite kronrod_v_int. apply dec_pos. reflexivity. Qed.

(** Moments of the exact decimals. *)
Definition moment_int (k : nat) : R := (1 ^ S k - (-1) ^ S k) / INR (S k).
Lemma moment_int_even j : moment_int (2 * j) = 2 / (2 * INR j + 1).
Proof.
  unfold moment_int. rewrite S_INR, mult_INR, pow1.
  assert (E : (-1) ^ S (2 * j) = -1) by apply pow_1_odd. rewrite E.
  pose proof (INR_nonneg j). change (INR 2) with (1 + 1). field. lra.
Qed.
Lemma moment_int_odd j : moment_int (2 * j + 1) = 0.
Proof.
  unfold moment_int. rewrite pow1. replace (S (2 * j + 1)) with (2 * S j)%nat by lia. rewrite pow_1_even.
  unfold Rdiv. ring.
Qed.

Lemma moments_small x w xs ws E K :
  x = map (dec D17) xs -> w = map (dec E) ws -> length ws = length xs ->
  rev x = map Ropp x -> rev w = w ->
  Forall (fun z => (Z.abs z <= 10 ^ 17)%Z) xs -> Forall (fun z => (0 <= z)%Z) ws ->
  moments_ok (Zpos E) ws (map (fun z => z * z)%Z xs) K 0 (map (fun _ => SC) xs) = true ->
  forall k, (k < 2 * K)%nat -> Rabs (quad x w (fun t => t ^ k) - moment_int k) <= / 10 ^ 16.
Proof.
  intros -> -> Hl Hsx Hsw Hx Hw Hm k Hk.
  destruct (Nat.Even_or_Odd k) as [[j ->]|[j ->]].
  - rewrite moment_int_even. apply moment_even; auto.
    apply (moments_ok_spec (Zpos E) ws xs K 0 Hm j). lia.
  - rewrite quad_odd, moment_int_odd; auto; [|rewrite !map_length; auto].
    rewrite Rminus_0_r, Rabs_R0. left. apply Rinv_0_lt_compat, pow_lt. lra.
Qed.

Lemma zx_range : Forall (fun z => (Z.abs z <= 10 ^ 17)%Z) zx.
Proof. apply (forallb_Forall_Z (fun z => Z.abs z <=? 10 ^ 17)%Z); [intros; apply Z.leb_le; auto|reflexivity]. Qed.
Lemma zvx_range : Forall (fun z => (Z.abs z <= 10 ^ 17)%Z) (vsel zx).
Proof. apply (forallb_Forall_Z (fun z => Z.abs z <=? 10 ^ 17)%Z); [intros; apply Z.leb_le; auto|reflexivity]. Qed.

Lemma zw_nonneg : Forall (fun z => (0 <= z)%Z) zw.
Proof. apply (forallb_Forall_Z (fun z => 0 <=? z)%Z); [intros; apply Z.leb_le; auto|reflexivity]. Qed.
Lemma zv_nonneg : Forall (fun z => (0 <= z)%Z) zv.
Proof. apply (forallb_Forall_Z (fun z => 0 <=? z)%Z); [intros; apply Z.leb_le; auto|reflexivity]. Qed.
Lemma k31_moments k : (k < 48)%nat -> Rabs (quad kronrod_x kronrod_w (fun t => t ^ k) - moment_int k) <= / 10 ^ 16.
Proof.
  exact (moments_small _ _ zx zw D18 24 kronrod_x_int kronrod_w_int eq_refl kx_sym kw_sym zx_range zw_nonneg k31_check k).
Qed.
Lemma g15_moments k : (k < 30)%nat -> Rabs (quad (vsel kronrod_x) kronrod_v (fun t => t ^ k) - moment_int k) <= / 10 ^ 16.
Proof.
  exact (moments_small _ _ (vsel zx) zv D17 15 vx_int kronrod_v_int eq_refl vx_sym kv_sym zvx_range zv_nonneg g15_check k).
Qed.

(** Rounding of nodes and weights. *)

Lemma pow_diff k a b : Rabs a <= 1 -> Rabs b <= 1 -> Rabs (a ^ k - b ^ k) <= INR k * Rabs (a - b).
Proof.
  intros Ha Hb. induction k.
  - simpl. rewrite Rminus_eq_0, Rabs_R0. lra.
  - rewrite S_INR. replace (a ^ S k - b ^ S k) with (a * (a ^ k - b ^ k) + (a - b) * b ^ k) by (simpl; ring).
    eapply Rle_trans; [apply Rabs_triang|]. rewrite !Rabs_mult.
    assert (Rabs a * Rabs (a ^ k - b ^ k) <= 1 * (INR k * Rabs (a - b))).
    { apply Rmult_le_compat; auto using Rabs_pos. }
    assert (Rabs (a - b) * Rabs (b ^ k) <= Rabs (a - b) * 1).
    { apply Rmult_le_compat_l; [apply Rabs_pos|]. rewrite <- RPow_abs.
      rewrite <- (pow1 k). apply pow_incr. split; auto using Rabs_pos. }
    lra.
Qed.

Lemma quad_near : forall x w x' w' k,
  Forall2 near x' x -> Forall2 near w' w -> length x = length w ->
  Forall (fun x => Rabs x <= 0.999) x -> Forall (fun w => 0 < w) w ->
  Rabs (quad x' w' (fun t => t ^ k) - quad x w (fun t => t ^ k)) <= / 2 ^ 53 * (INR k + 1) * rsum w.
Proof.
  induction x as [|t x IH]; intros [|v w] x' w' k Hx Hw Hl Hr Hp; try discriminate.
  - inversion Hx; subst. rewrite !quad_nil_l. unfold rsum; simpl. rewrite Rminus_0_r, Rabs_R0. lra.
  - inversion Hx as [|t' ? x'' ? Ht Hx']; subst. inversion Hw as [|v' ? w'' ? Hv Hw']; subst.
    inversion Hr as [|? ? Hrt Hr']; subst. inversion Hp as [|? ? Hpv Hp']; subst.
    injection Hl as Hl. specialize (IH w x'' w'' k Hx' Hw' Hl Hr' Hp').
    rewrite !quad_cons, rsum_cons.
    assert (Eps : 0 < / 2 ^ 53 < / 1000000) by (split; [apply Rinv_0_lt_compat, pow_lt; lra|apply Rinv_lt_contravar; simpl; lra]).
    set (eps := / 2 ^ 53) in *. unfold near in Ht, Hv. fold eps in Ht, Hv.
    rewrite (Rabs_right v) in Hv by lra.
    assert (Ht' : Rabs t' <= 1).
    { replace t' with (t + (t' - t)) by ring. eapply Rle_trans; [apply Rabs_triang|].
      assert (eps * Rabs t <= eps * 1) by (apply Rmult_le_compat_l; lra). lra. }
    assert (Hd : Rabs (t' ^ k - t ^ k) <= INR k * eps).
    { eapply Rle_trans; [apply pow_diff; lra|]. apply Rmult_le_compat_l; [apply INR_nonneg|].
      eapply Rle_trans; [exact Ht|]. rewrite <- (Rmult_1_r eps) at 2. apply Rmult_le_compat_l; lra. }
    assert (Hk1 : Rabs (t' ^ k) <= 1).
    { rewrite <- RPow_abs. rewrite <- (pow1 k). apply pow_incr. split; auto using Rabs_pos. }
    assert (H1 : Rabs (v' * t' ^ k - v * t ^ k) <= eps * (INR k + 1) * v).
    { replace (v' * t' ^ k - v * t ^ k) with ((v' - v) * t' ^ k + v * (t' ^ k - t ^ k)) by ring.
      eapply Rle_trans; [apply Rabs_triang|]. rewrite !Rabs_mult, (Rabs_right v) by lra.
      assert (Rabs (v' - v) * Rabs (t' ^ k) <= eps * v * 1) by (apply Rmult_le_compat; auto using Rabs_pos).
      assert (v * Rabs (t' ^ k - t ^ k) <= v * (INR k * eps)) by (apply Rmult_le_compat_l; lra). lra. }
    replace (v' * t' ^ k + quad x'' w'' (fun t => t ^ k) - (v * t ^ k + quad x w (fun t => t ^ k)))
      with ((v' * t' ^ k - v * t ^ k) + (quad x'' w'' (fun t => t ^ k) - quad x w (fun t => t ^ k))) by ring.
    eapply Rle_trans; [apply Rabs_triang|]. lra.
Qed.

Lemma kronrod_sums : rsum kronrod_w <= 2.1 /\ rsum kronrod_v <= 2.1.
Proof.
  assert (S : forall x w, length x = length w -> rsum w = quad x w (fun t => t ^ 0)).
  { induction x; intros [|v w] H; try discriminate; [reflexivity|]. rewrite quad_cons, rsum_cons, IHx by auto. simpl. ring. }
  pose proof (k31_moments 0 ltac:(lia)) as H1. pose proof (g15_moments 0 ltac:(lia)) as H2.
  rewrite <- S in H1, H2 by reflexivity.
  assert (E0 : moment_int 0 = 2) by (unfold moment_int; simpl; field). rewrite E0 in H1, H2.
  apply Rabs_le_between in H1. apply Rabs_le_between in H2.
  assert (/ 10 ^ 16 <= 0.01).
  { apply (Rmult_le_reg_r (10 ^ 16)); [apply pow_lt; lra|]. rewrite Rinv_l by (apply pow_nonzero; lra). simpl; lra. }
  lra.
Qed.

Lemma rounded_error x w K x' w' n c :
  (forall k, (k < K)%nat -> Rabs (quad x w (fun t => t ^ k) - moment_int k) <= / 10 ^ 16) ->
  length x = length w -> Forall (fun x => Rabs x <= 0.999) x -> Forall (fun w => 0 < w) w -> rsum w <= 2.1 ->
  Forall2 near x' x -> Forall2 near w' w -> (n <= K)%nat -> (K <= 48)%nat ->
  Rabs (quad x' w' (fun t => sumn n (fun k => c k * t ^ k)) - RInt (fun t => sumn n (fun k => c k * t ^ k)) (-1) 1)
    <= / 10 ^ 13 * sumn n (fun k => Rabs (c k)).
Proof.
  intros Hm Hl Hr Hp Hs Hx Hw Hn HK. rewrite quad_sumn.
  rewrite (RInt_val _ _ _ (sumn n (fun k => c k * moment_int k))).
  2:{ eapply is_RInt_eq.
      - apply (RInt_sumn n (fun k t => c k * t ^ k)). intros k _. apply ex_RInt_cont. intros; apply continuous_scal2, continuous_pow.
      - apply sumn_ext. intros k _. apply RInt_val. apply is_RInt_scalR, is_RInt_pow. }
  rewrite <- sumn_minus, <- sumn_scal. eapply Rle_trans; [apply sumn_abs|]. apply sumn_le.
  intros k Hk. rewrite quad_scal, <- Rmult_minus_distr_l, Rabs_mult, Rmult_comm.
  apply Rmult_le_compat_r; [apply Rabs_pos|].
  replace (quad x' w' (fun t => t ^ k) - moment_int k)
    with ((quad x' w' (fun t => t ^ k) - quad x w (fun t => t ^ k)) + (quad x w (fun t => t ^ k) - moment_int k)) by ring.
  eapply Rle_trans; [apply Rabs_triang|].
  pose proof (quad_near x w x' w' k Hx Hw Hl Hr Hp) as H1. pose proof (Hm k ltac:(lia)) as H2.
  assert (Hk48 : INR k + 1 <= 48). { replace 48 with (INR 48) by (simpl; lra). rewrite <- S_INR. apply le_INR. lia. }
  assert (Hw0 : 0 <= rsum w). { clear - Hp. induction Hp; unfold rsum in *; simpl; lra. }
  assert (/ 2 ^ 53 * (INR k + 1) * rsum w <= / 2 ^ 53 * (48 * 2.1)).
  { rewrite Rmult_assoc. apply Rmult_le_compat_l; [left; apply Rinv_0_lt_compat, pow_lt; lra|].
    apply Rmult_le_compat; auto. pose proof (INR_nonneg k). lra. }
  assert (/ 2 ^ 53 * (48 * 2.1) + / 10 ^ 16 <= / 10 ^ 13); [|lra].
  assert (P53 : 2 ^ 53 = 9007199254740992) by (simpl; lra).
  rewrite P53. apply (Rmult_le_reg_r (10 ^ 16)); [apply pow_lt; lra|].
  replace ((/ 9007199254740992 * (48 * 2.1) + / 10 ^ 16) * 10 ^ 16) with (/ 9007199254740992 * (48 * 2.1) * 10 ^ 16 + 1) by (field; apply pow_nonzero; lra).
  replace (/ 10 ^ 13 * 10 ^ 16) with 1000 by (simpl; field). simpl. lra.
Qed.

Lemma Forall_vsel {A} (P : A -> Prop) l : Forall P l -> Forall P (vsel l).
Proof.
  enough (H : (Forall P l -> Forall P (vsel l)) /\ forall x, Forall P (x :: l) -> Forall P (vsel (x :: l))) by tauto.
  induction l as [|y l [IH1 IH2]]; split; auto.
  - intros x _. simpl. constructor.
  - intros x Hx. inversion Hx as [|? ? _ H1]; subst. inversion H1; subst. simpl. constructor; auto.
Qed.

Lemma kronrod_shape :
  length kronrod_x = 31%nat /\ length kronrod_w = 31%nat /\ length kronrod_v = 15%nat /\
  length (vsel kronrod_x) = 15%nat /\
  StronglySorted Rlt kronrod_x /\ Forall (fun x => -1 < x < 1) kronrod_x /\
  rev kronrod_x = map Ropp kronrod_x /\ rev kronrod_w = kronrod_w /\ rev kronrod_v = kronrod_v /\
  Forall (fun w => 0 < w) kronrod_w /\ Forall (fun w => 0 < w) kronrod_v.
Proof.
  repeat (split; [reflexivity|]). split; [apply kronrod_sorted|]. split.
  { eapply Forall_impl; [|apply kronrod_range]. simpl. intros x Hx. apply Rabs_le_between in Hx. lra. }
  split; [apply kx_sym|]. split; [apply kw_sym|]. split; [apply kv_sym|].
  split; [apply kronrod_w_pos|apply kronrod_v_pos].
Qed.

Lemma kronrod_rule_fields :
  rx (nr kronrod_31_15) = kronrod_x /\ rw (nr kronrod_31_15) = kronrod_w /\ nv kronrod_31_15 = kronrod_v /\
  ra (nr kronrod_31_15) = -1 /\ rb (nr kronrod_31_15) = 1 /\ distances_ok (nr kronrod_31_15).
Proof. repeat (split; [reflexivity|]). split; reflexivity. Qed.

Lemma kronrod_31_error x w n c : Forall2 near x kronrod_x -> Forall2 near w kronrod_w -> (n <= 48)%nat ->
  Rabs (quad x w (fun t => sumn n (fun k => c k * t ^ k)) - RInt (fun t => sumn n (fun k => c k * t ^ k)) (-1) 1)
    <= / 10 ^ 13 * sumn n (fun k => Rabs (c k)).
Proof.
  intros Hx Hw Hn. apply (rounded_error kronrod_x kronrod_w 48); auto using k31_moments, kronrod_range, kronrod_w_pos.
  apply kronrod_sums.
Qed.
Lemma kronrod_15_error x v n c : Forall2 near x (vsel kronrod_x) -> Forall2 near v kronrod_v -> (n <= 30)%nat ->
  Rabs (quad x v (fun t => sumn n (fun k => c k * t ^ k)) - RInt (fun t => sumn n (fun k => c k * t ^ k)) (-1) 1)
    <= / 10 ^ 13 * sumn n (fun k => Rabs (c k)).
Proof.
  intros Hx Hw Hn. apply (rounded_error (vsel kronrod_x) kronrod_v 30); auto using g15_moments, kronrod_v_pos; try lia.
  - apply Forall_vsel, kronrod_range.
  - apply kronrod_sums.
Qed.
Lemma near_refl l : Forall2 near l l.
Proof.
  induction l; constructor; auto. unfold near. rewrite Rminus_eq_0, Rabs_R0.
  apply Rmult_le_pos; [left; apply Rinv_0_lt_compat, pow_lt; lra|apply Rabs_pos].
Qed.
