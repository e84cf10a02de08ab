(** Errors of inner products and of the other operations in rounded arithmetic. *)
From Coq Require Import ZArith Arith Bool Reals Lra Lia Psatz.
From Coquelicot Require Import Coquelicot.
From Coq Require Import List Permutation.
From Verif.Model Require Import Base Num FT NDArray Sampling SamplingIEEE.
From Verif.Spec Require Import SSampling SSamplingIEEE SKernelIEEE.
From Verif.Proofs Require Import SumFacts FTFacts FTModel LstsqFacts.
Import ListNotations.
Open Scope R_scope.
Notation length := List.length.

Definition lsum (l : list R) : R := fold_right Rplus 0 l.
Definition labs (l : list R) : R := fold_right (fun x s => Rabs x + s) 0 l.
Lemma lsum_app l l' : lsum (l ++ l') = lsum l + lsum l'.
Proof. unfold lsum. induction l as [|x l IH]; cbn; [ring|]. rewrite IH. ring. Qed.
Lemma labs_app l l' : labs (l ++ l') = labs l + labs l'.
Proof. unfold labs. induction l as [|x l IH]; cbn; [ring|]. rewrite IH. ring. Qed.
Lemma lsum_perm l l' : Permutation l l' -> lsum l = lsum l'.
Proof. induction 1; cbn; unfold lsum in *; lra. Qed.
Lemma labs_perm l l' : Permutation l l' -> labs l = labs l'.
Proof. induction 1; cbn; unfold labs in *; lra. Qed.
Lemma labs_pos l : 0 <= labs l.
Proof. induction l as [|x l IH]; cbn; [lra|]. unfold labs in *. pose proof (Rabs_pos x). lra. Qed.
Lemma lsum_labs l : Rabs (lsum l) <= labs l.
Proof. induction l as [|x l IH]; cbn; [rewrite Rabs_R0; lra|]. unfold labs, lsum in *. pose proof (Rabs_triang x (fold_right Rplus 0 l)). lra. Qed.

Section Sum.
Variables (u eta : R) (rd : R -> R).
Hypothesis Hr : rounding u eta rd.
Hypothesis Hu : 0 <= u.
Hypothesis He : 0 <= eta.

Lemma pow_ge1 n : 1 <= (1 + u) ^ n.
Proof. apply pow_R1_Rle. lra. Qed.
Lemma pow_mono n m : (n <= m)%nat -> (1 + u) ^ n <= (1 + u) ^ m.
Proof. intros. apply Rle_pow; [lra|assumption]. Qed.

(** One more rounding. *)
Lemma round_sum x y e A : Rabs (y - x) <= e -> Rabs x <= A -> Rabs (rd y - x) <= (1 + u) * e + u * A + eta.
Proof.
  intros H1 H2. destruct Hr as [H _]. specialize (H y).
  assert (Rabs y <= A + e). { replace y with (x + (y - x)) by ring. pose proof (Rabs_triang x (y - x)). lra. }
  assert (u * Rabs y <= u * (A + e)) by (apply Rmult_le_compat_l; lra).
  replace (rd y - x) with ((rd y - y) + (y - x)) by ring. pose proof (Rabs_triang (rd y - y) (y - x)). lra.
Qed.

Lemma summed_near l s : summed rd l s ->
  Rabs (s - lsum l) <= ((1 + u) ^ length l - 1) * labs l + INR (2 * length l - 1) * (eta * (1 + u) ^ length l).
Proof.
  induction 1 as [|x|x l s H IH|l1 l2 s1 s2 N1 N2 H1 IH1 H2 IH2|l l' s P H IH].
  - cbn. rewrite Rminus_0_r, Rabs_R0. lra.
  - cbn [length lsum labs fold_right pow INR Nat.mul Nat.add Nat.sub]. destruct Hr as [Hx _]. specialize (Hx x). rewrite !Rplus_0_r.
    assert (0 <= eta * u) by (apply Rmult_le_pos; assumption). lra.
  - cbn [length lsum labs fold_right]. fold (lsum l). fold (labs l). cbn [pow].
    set (n := length l) in *. set (p := (1 + u) ^ n) in *. assert (Hp : 1 <= p) by apply pow_ge1. pose proof (labs_pos l) as La. pose proof (lsum_labs l) as Ll.
    assert (D1 : Rabs (x + s - (x + lsum l)) <= (p - 1) * labs l + INR (2 * n - 1) * (eta * p)) by (replace (x + s - (x + lsum l)) with (s - lsum l) by ring; exact IH).
    assert (D2 : Rabs (x + lsum l) <= Rabs x + labs l) by (pose proof (Rabs_triang x (lsum l)); lra).
    pose proof (round_sum _ _ _ _ D1 D2) as R. eapply Rle_trans; [exact R|]. pose proof (Rabs_pos x) as Xp.
    assert (Q1 : 0 <= (1 + u) * (p - 1) * Rabs x) by (apply Rmult_le_pos; [apply Rmult_le_pos; lra|lra]).
    assert (Q2 : 1 <= (1 + u) * p) by (assert (1 * 1 <= (1 + u) * p) by (apply Rmult_le_compat; lra); lra).
    assert (Q3 : eta <= eta * ((1 + u) * p)) by (rewrite <- (Rmult_1_r eta) at 1; apply Rmult_le_compat_l; assumption).
    assert (Q4 : INR (2 * n - 1) + 1 <= INR (2 * S n - 1)) by (rewrite <- S_INR; apply le_INR; lia).
    assert (Q5 : (INR (2 * n - 1) + 1) * (eta * ((1 + u) * p)) <= INR (2 * S n - 1) * (eta * ((1 + u) * p))) by (apply Rmult_le_compat_r; lra).
    replace (((1 + u) * p - 1) * (Rabs x + labs l)) with ((1 + u) * (p - 1) * Rabs x + u * Rabs x + ((1 + u) * p - 1) * labs l) by ring.
    replace ((1 + u) * ((p - 1) * labs l + INR (2 * n - 1) * (eta * p)) + u * (Rabs x + labs l) + eta) with
      (((1 + u) * p - 1) * labs l + u * Rabs x + INR (2 * n - 1) * (eta * ((1 + u) * p)) + eta) by ring. lra.
  - rewrite lsum_app, labs_app, app_length.
    set (n1 := length l1) in *. set (n2 := length l2) in *.
    assert (L1 : (1 <= n1)%nat) by (destruct l1; [congruence|unfold n1; cbn; lia]). assert (L2 : (1 <= n2)%nat) by (destruct l2; [congruence|unfold n2; cbn; lia]).
    pose proof (labs_pos l1) as La1. pose proof (labs_pos l2) as La2. pose proof (lsum_labs l1) as Ll1. pose proof (lsum_labs l2) as Ll2.
    set (q := (1 + u) ^ (n1 + n2 - 1)). assert (Hq : 1 <= q) by apply pow_ge1.
    assert (Q1 : (1 + u) ^ n1 <= q) by (apply pow_mono; lia). assert (Q2 : (1 + u) ^ n2 <= q) by (apply pow_mono; lia).
    assert (Eq : (1 + u) ^ (n1 + n2) = (1 + u) * q) by (unfold q; replace (n1 + n2)%nat with (S (n1 + n2 - 1)) at 1 by lia; reflexivity).
    rewrite Eq. set (c1 := INR (2 * n1 - 1)) in *. set (c2 := INR (2 * n2 - 1)) in *.
    assert (Ec : INR (2 * (n1 + n2) - 1) = c1 + c2 + 1) by (unfold c1, c2; rewrite <- plus_INR, <- S_INR; f_equal; lia).
    assert (I1 : 0 <= c1) by apply pos_INR. assert (I2 : 0 <= c2) by apply pos_INR. rewrite Ec.
    assert (B1 : Rabs (s1 - lsum l1) <= (q - 1) * labs l1 + c1 * (eta * q)).
    { eapply Rle_trans; [exact IH1|]. apply Rplus_le_compat; [apply Rmult_le_compat_r; lra|]. apply Rmult_le_compat_l; [lra|apply Rmult_le_compat_l; lra]. }
    assert (B2 : Rabs (s2 - lsum l2) <= (q - 1) * labs l2 + c2 * (eta * q)).
    { eapply Rle_trans; [exact IH2|]. apply Rplus_le_compat; [apply Rmult_le_compat_r; lra|]. apply Rmult_le_compat_l; [lra|apply Rmult_le_compat_l; lra]. }
    assert (D1 : Rabs (s1 + s2 - (lsum l1 + lsum l2)) <= (q - 1) * (labs l1 + labs l2) + (c1 + c2) * (eta * q)).
    { replace (s1 + s2 - (lsum l1 + lsum l2)) with ((s1 - lsum l1) + (s2 - lsum l2)) by ring. pose proof (Rabs_triang (s1 - lsum l1) (s2 - lsum l2)). lra. }
    assert (D2 : Rabs (lsum l1 + lsum l2) <= labs l1 + labs l2) by (pose proof (Rabs_triang (lsum l1) (lsum l2)); lra).
    pose proof (round_sum _ _ _ _ D1 D2) as R. eapply Rle_trans; [exact R|].
    assert (Q0 : 1 <= (1 + u) * q) by (assert (1 * 1 <= (1 + u) * q) by (apply Rmult_le_compat; lra); lra).
    assert (Q3 : eta <= eta * ((1 + u) * q)) by (rewrite <- (Rmult_1_r eta) at 1; apply Rmult_le_compat_l; assumption).
    replace ((1 + u) * ((q - 1) * (labs l1 + labs l2) + (c1 + c2) * (eta * q)) + u * (labs l1 + labs l2) + eta) with
      (((1 + u) * q - 1) * (labs l1 + labs l2) + (c1 + c2) * (eta * ((1 + u) * q)) + eta) by ring. lra.
  - rewrite <- (lsum_perm _ _ P), <- (labs_perm _ _ P), <- (Permutation_length P). exact IH.
Qed.

Lemma pow_small n : INR n * u <= 1 / 2 -> (1 + u) ^ n * (1 - INR n * u) <= 1.
Proof.
  induction n as [|n IH]; intros H; [cbn; lra|]. rewrite S_INR in *. cbn [pow].
  assert (Hn : INR n * u <= 1 / 2) by lra. specialize (IH Hn). pose proof (pos_INR n) as P. pose proof (pow_ge1 n) as G.
  assert ((1 + u) * (1 - (INR n + 1) * u) <= 1 - INR n * u).
  { assert (0 <= INR n * u) by (apply Rmult_le_pos; lra). replace ((1 + u) * (1 - (INR n + 1) * u)) with (1 - INR n * u - (INR n + 1) * u * u) by ring.
    assert (0 <= (INR n + 1) * u * u) by (apply Rmult_le_pos; [apply Rmult_le_pos; lra|lra]). lra. }
  assert ((1 + u) ^ n * ((1 + u) * (1 - (INR n + 1) * u)) <= (1 + u) ^ n * (1 - INR n * u)) by (apply Rmult_le_compat_l; lra).
  replace ((1 + u) * (1 + u) ^ n * (1 - (INR n + 1) * u)) with ((1 + u) ^ n * ((1 + u) * (1 - (INR n + 1) * u))) by ring. lra.
Qed.

Lemma summed_small l s n : summed rd l s -> (length l <= n)%nat -> INR n * u <= 1 / 2 ->
  Rabs (s - lsum l) <= 2 * INR n * u * labs l + 4 * INR n * eta.
Proof.
  intros H Hl Hn. eapply Rle_trans; [apply summed_near; exact H|].
  pose proof (pow_small n Hn) as P. pose proof (pow_mono _ _ Hl) as M. pose proof (pow_ge1 n) as G. pose proof (pow_ge1 (length l)) as G'. pose proof (pos_INR n) as In. pose proof (labs_pos l) as La.
  set (p := (1 + u) ^ n) in *. assert (0 <= INR n * u) by (apply Rmult_le_pos; lra).
  assert (P2 : p <= 2). { assert (p * (1 / 2) <= p * (1 - INR n * u)) by (apply Rmult_le_compat_l; lra). lra. }
  assert (P3 : p - 1 <= 2 * INR n * u). { assert (p * (INR n * u) <= 2 * (INR n * u)) by (apply Rmult_le_compat_r; lra). lra. }
  apply Rplus_le_compat; [apply Rmult_le_compat_r; lra|].
  assert (I2 : INR (2 * length l - 1) <= 2 * INR n). { replace (2 * INR n) with (INR (2 * n)) by (rewrite mult_INR; cbn; ring). apply le_INR. lia. }
  replace (4 * INR n * eta) with (2 * INR n * (eta * 2)) by ring.
  apply Rmult_le_compat; [apply pos_INR|apply Rmult_le_pos; lra|exact I2|apply Rmult_le_compat_l; lra].
Qed.

(** * Inner products *)
Lemma cmod_parts z e : Rabs (Re z) <= e -> Rabs (Im z) <= e -> Cmod z <= 3 / 2 * e.
Proof.
  intros H1 H2. eapply Rle_trans; [apply Cmod_2Rmax|].
  assert (M : Rmax (Rabs (Re z)) (Rabs (Im z)) <= e) by (apply Rmax_lub; assumption).
  assert (0 <= e) by (pose proof (Rabs_pos (Re z)); lra).
  assert (S : sqrt 2 <= 3 / 2). { replace (3 / 2) with (sqrt (3 / 2 * (3 / 2))) by (apply sqrt_square; lra). apply sqrt_le_1_alt. lra. }
  pose proof (sqrt_pos 2). apply Rmult_le_compat; try assumption. eapply Rle_trans; [apply Rabs_pos|apply Rmax_l].
Qed.

Definition cdot (xs ys : list C) : C := csumn (length xs) (fun i => Cmult (nth i xs (RtoC 0)) (nth i ys (RtoC 0))).
Definition cabs (xs ys : list C) : R := sumn (length xs) (fun i => Cmod (nth i xs (RtoC 0)) * Cmod (nth i ys (RtoC 0))).
Lemma cdot_cons a b xs ys : cdot (a :: xs) (b :: ys) = Cplus (Cmult a b) (cdot xs ys).
Proof.
  unfold cdot. cbn [length]. replace (S (length xs)) with (1 + length xs)%nat by reflexivity. rewrite csumn_app. f_equal. cbn. ring.
Qed.
Lemma cabs_cons a b xs ys : cabs (a :: xs) (b :: ys) = Cmod a * Cmod b + cabs xs ys.
Proof.
  unfold cabs. cbn [length]. replace (S (length xs)) with (1 + length xs)%nat by reflexivity. rewrite sumn_app. f_equal. cbn. ring.
Qed.
Lemma parts_abs a b c d : Rabs (a * c) + Rabs (b * d) <= sqrt (a ^ 2 + b ^ 2) * sqrt (c ^ 2 + d ^ 2).
Proof.
  rewrite <- sqrt_mult_alt by (pose proof (pow2_ge_0 a); pose proof (pow2_ge_0 b); lra).
  assert (P : 0 <= Rabs (a * c) + Rabs (b * d)) by (pose proof (Rabs_pos (a * c)); pose proof (Rabs_pos (b * d)); lra).
  rewrite <- (sqrt_square _ P). apply sqrt_le_1_alt. rewrite !Rabs_mult.
  rewrite <- (Rsqr_pow2 a), <- (Rsqr_pow2 b), <- (Rsqr_pow2 c), <- (Rsqr_pow2 d), (Rsqr_abs a), (Rsqr_abs b), (Rsqr_abs c), (Rsqr_abs d). unfold Rsqr.
  generalize (Rabs a) (Rabs b) (Rabs c) (Rabs d). intros p q s t.
  pose proof (Rle_0_sqr (p * t - q * s)) as Q. unfold Rsqr in Q. lra.
Qed.
Lemma products_re xs ys : length xs = length ys ->
  lsum (re_products xs ys) = Re (cdot xs ys) /\ labs (re_products xs ys) <= cabs xs ys /\ length (re_products xs ys) = (2 * length xs)%nat.
Proof.
  revert ys; induction xs as [|a xs IH]; intros [|b ys] H; cbn in H; try discriminate; [cbn; split; [reflexivity|split; [unfold cabs; cbn; lra|reflexivity]]|].
  injection H as H. destruct (IH ys H) as (I1 & I2 & I3). rewrite cdot_cons, cabs_cons.
  unfold re_products in *. cbn [combine flat_map app lsum labs fold_right length]. fold (lsum (flat_map (fun '(a, b) => [Re a * Re b; - (Im a * Im b)]) (combine xs ys))). fold (labs (flat_map (fun '(a, b) => [Re a * Re b; - (Im a * Im b)]) (combine xs ys))).
  rewrite I1, I3. split; [|split; [|lia]].
  - destruct a as [a1 a2], b as [b1 b2]. unfold Cplus, Cmult, Re, Im. cbn. ring.
  - rewrite Rabs_Ropp. destruct a as [a1 a2], b as [b1 b2]. unfold Cmod at 1 2. cbn [fst snd Re Im]. pose proof (parts_abs a1 a2 b1 b2). lra.
Qed.
Lemma products_im xs ys : length xs = length ys ->
  lsum (im_products xs ys) = Im (cdot xs ys) /\ labs (im_products xs ys) <= cabs xs ys /\ length (im_products xs ys) = (2 * length xs)%nat.
Proof.
  revert ys; induction xs as [|a xs IH]; intros [|b ys] H; cbn in H; try discriminate; [cbn; split; [reflexivity|split; [unfold cabs; cbn; lra|reflexivity]]|].
  injection H as H. destruct (IH ys H) as (I1 & I2 & I3). rewrite cdot_cons, cabs_cons.
  unfold im_products in *. cbn [combine flat_map app lsum labs fold_right length]. fold (lsum (flat_map (fun '(a, b) => [Re a * Im b; Im a * Re b]) (combine xs ys))). fold (labs (flat_map (fun '(a, b) => [Re a * Im b; Im a * Re b]) (combine xs ys))).
  rewrite I1, I3. split; [|split; [|lia]].
  - destruct a as [a1 a2], b as [b1 b2]. unfold Cplus, Cmult, Re, Im. cbn. ring.
  - destruct a as [a1 a2], b as [b1 b2]. unfold Cmod at 1 2. cbn [fst snd Re Im]. pose proof (parts_abs a1 a2 b2 b1). replace (b1 ^ 2 + b2 ^ 2) with (b2 ^ 2 + b1 ^ 2) by ring. lra.
Qed.
Lemma products_real xs ys : length xs = length ys -> Forall (fun a => Im a = 0) xs -> Forall (fun b => Im b = 0) ys ->
  RtoC (lsum (real_products xs ys)) = cdot xs ys /\ labs (real_products xs ys) = cabs xs ys /\ length (real_products xs ys) = length xs.
Proof.
  revert ys; induction xs as [|a xs IH]; intros [|b ys] H Fx Fy; cbn in H; try discriminate; [cbn; split; [reflexivity|split; [unfold cabs; cbn; lra|reflexivity]]|].
  injection H as H. inversion Fx as [|? ? A1 A2]; subst. inversion Fy as [|? ? B1 B2]; subst. destruct (IH ys H A2 B2) as (I1 & I2 & I3). rewrite cdot_cons, cabs_cons.
  unfold real_products in *. cbn [combine map lsum labs fold_right length]. fold (lsum (map (fun '(a, b) => Re a * Re b) (combine xs ys))). fold (labs (map (fun '(a, b) => Re a * Re b) (combine xs ys))).
  rewrite <- I1, I2, I3. destruct a as [a1 a2], b as [b1 b2]. cbn in A1, B1. subst. split; [|split; [|reflexivity]].
  - apply injective_projections; unfold Cplus, Cmult, RtoC, Re; cbn; ring.
  - f_equal. unfold Re; cbn [fst]. rewrite Rabs_mult. change (a1, 0) with (RtoC a1). change (b1, 0) with (RtoC b1). rewrite !Cmod_R. reflexivity.
Qed.

Lemma inner_near xs ys z N : inner_product rd xs ys z -> length xs = length ys -> (length xs <= N)%nat -> INR N * u <= 1 / 4 ->
  Cmod (Cminus z (cdot xs ys)) <= 6 * INR N * u * cabs xs ys + 12 * INR N * eta.
Proof.
  intros H EL LN HN. pose proof (pos_INR N) as IN.
  assert (I2 : INR (2 * N) = 2 * INR N) by (rewrite mult_INR; cbn; ring).
  destruct H as [[H1 H2]|(Fx & Fy & H1 & H2)].
  - destruct (products_re xs ys EL) as (R1 & R2 & R3). destruct (products_im xs ys EL) as (J1 & J2 & J3).
    pose proof (summed_small _ _ (2 * N) H1 ltac:(lia) ltac:(rewrite I2; lra)) as B1. pose proof (summed_small _ _ (2 * N) H2 ltac:(lia) ltac:(rewrite I2; lra)) as B2.
    rewrite R1 in B1. rewrite J1 in B2. rewrite I2 in *.
    assert (Q : 0 <= 4 * INR N * u) by (apply Rmult_le_pos; lra).
    assert (4 * INR N * u * labs (re_products xs ys) <= 4 * INR N * u * cabs xs ys) by (apply Rmult_le_compat_l; assumption).
    assert (4 * INR N * u * labs (im_products xs ys) <= 4 * INR N * u * cabs xs ys) by (apply Rmult_le_compat_l; assumption).
    replace (6 * INR N * u * cabs xs ys + 12 * INR N * eta) with (3 / 2 * (4 * INR N * u * cabs xs ys + 8 * INR N * eta)) by field.
    apply cmod_parts.
    + replace (Re (Cminus z (cdot xs ys))) with (Re z - Re (cdot xs ys)) by (unfold Cminus, Cplus, Copp, Re; cbn; ring). lra.
    + replace (Im (Cminus z (cdot xs ys))) with (Im z - Im (cdot xs ys)) by (unfold Cminus, Cplus, Copp, Im; cbn; ring). lra.
  - destruct (products_real xs ys EL Fx Fy) as (R1 & R2 & R3).
    pose proof (summed_small _ _ N H1 ltac:(lia) ltac:(lra)) as B1. rewrite R2 in B1.
    replace (Cminus z (cdot xs ys)) with (RtoC (Re z - lsum (real_products xs ys))).
    2: { rewrite <- R1. apply injective_projections; unfold Cminus, Cplus, Copp, RtoC, Re, Im in *; cbn; [ring|]. rewrite H2. ring. }
    rewrite Cmod_R. assert (0 <= cabs xs ys) by (apply sumn_nonneg; intros; apply Rmult_le_pos; apply Cmod_ge_0).
    assert (0 <= INR N * u * cabs xs ys) by (apply Rmult_le_pos; [apply Rmult_le_pos; lra|assumption]). assert (0 <= INR N * eta) by (apply Rmult_le_pos; lra). lra.
Qed.

(** * The other operations *)
Lemma rd_zero : rd 0 = 0.
Proof. destruct Hr as (_ & P & N). apply Rle_antisym; [apply N|apply P]; lra. Qed.

Lemma div_real z s : s <> 0 -> Cdiv z (RtoC s) = (Re z / s, Im z / s).
Proof.
  intros H. destruct z as [x y]. apply injective_projections; unfold Cdiv, Cmult, Cinv, RtoC, Re, Im; cbn; field; assumption.
Qed.
Lemma round_div x s : 0 < s -> Rabs (rd (x / s) - x / s) <= u * (Rabs x / s) + eta.
Proof.
  intros H. destruct Hr as [B _]. specialize (B (x / s)). unfold Rdiv in *. rewrite Rabs_mult, (Rabs_pos_eq (/ s)) in B; [exact B|]. left. apply Rinv_0_lt_compat; assumption.
Qed.

Lemma smith_scale lo hi s : u <= 1 / 100 -> fair_range u eta lo hi -> lo <= s <= hi ->
  Rabs (rd (1 / rd s) - 1 / s) <= 32 / 10 * u / s.
Proof.
  intros U (L & F1 & F2 & F3) S. assert (Sp : 0 < s) by lra. assert (0 < / s) by (apply Rinv_0_lt_compat; lra).
  destruct Hr as [B _]. pose proof (B s) as Bs. rewrite (Rabs_pos_eq s) in Bs by lra.
  assert (u * lo <= u * s) by (apply Rmult_le_compat_l; lra). assert (Bs' : Rabs (rd s - s) <= 15 / 10 * u * s) by lra.
  set (w := rd s) in *. apply Rabs_le_between in Bs'. destruct Bs' as [W1 W2].
  assert (u * s <= 1 / 100 * s) by (apply Rmult_le_compat_r; lra).
  assert (Wp : 0 < w) by lra. assert (Iw : 0 < / w) by (apply Rinv_0_lt_compat; lra).
  (* 1 / w against 1 / s *)
  assert (D : Rabs (1 / w - 1 / s) <= 16 / 10 * u / s).
  { replace (1 / w - 1 / s) with ((s - w) * / w * / s) by (field; lra). rewrite !Rabs_mult, (Rabs_pos_eq (/ w)), (Rabs_pos_eq (/ s)) by lra.
    unfold Rdiv at 2. apply Rmult_le_compat_r; [lra|]. apply Rmult_le_reg_r with w; [assumption|]. rewrite Rmult_assoc, Rinv_l, Rmult_1_r by lra.
    assert (Rabs (s - w) <= 15 / 10 * u * s) by (apply Rabs_le; lra).
    assert (16 / 10 * u * (985 / 1000 * s) <= 16 / 10 * u * w) by (apply Rmult_le_compat_l; lra). assert (0 <= u * s) by (apply Rmult_le_pos; lra). lra. }
  pose proof (B (1 / w)) as Bw. rewrite (Rabs_pos_eq (1 / w)) in Bw by (unfold Rdiv; lra).
  assert (E : eta <= 1 / 2 * u / s).
  { apply Rmult_le_reg_r with s; [assumption|]. replace (1 / 2 * u / s * s) with (1 / 2 * u) by (field; lra). assert (eta * s <= eta * hi) by (apply Rmult_le_compat_l; lra). lra. }
  assert (Wb : 1 / w <= (1 + 16 / 10 * u) / s) by (apply Rabs_le_between in D; unfold Rdiv in *; lra).
  assert (u * (1 / w) <= u * ((1 + 16 / 10 * u) / s)) by (apply Rmult_le_compat_l; assumption).
  replace (rd (1 / w) - 1 / s) with ((rd (1 / w) - 1 / w) + (1 / w - 1 / s)) by ring.
  pose proof (Rabs_triang (rd (1 / w) - 1 / w) (1 / w - 1 / s)).
  assert (0 <= u / s) by (apply Rmult_le_pos; lra).
  assert (u * (u / s) <= 1 / 100 * (u / s)) by (apply Rmult_le_compat_r; assumption). unfold Rdiv in *. lra.
Qed.

Lemma smith_part lo hi s x : u <= 1 / 100 -> fair_range u eta lo hi -> lo <= s <= hi ->
  Rabs (rd (rd x * rd (1 / rd s)) - x / s) <= 6 * u * (Rabs x / s) + 13 / 10 * (eta / lo + eta).
Proof.
  intros U F S. pose proof (smith_scale lo hi s U F S) as D. destruct F as (L & F1 & F2 & F3). assert (Sp : 0 < s) by lra. assert (Is : 0 < / s) by (apply Rinv_0_lt_compat; lra).
  set (c := rd (1 / rd s)) in *. destruct Hr as [B _]. pose proof (B x) as Bx. set (a := rd x) in *.
  assert (C1 : Rabs c <= 11 / 10 / s).
  { replace c with (1 / s + (c - 1 / s)) by ring. pose proof (Rabs_triang (1 / s) (c - 1 / s)) as T. rewrite (Rabs_pos_eq (1 / s)) in T by (unfold Rdiv; lra).
    assert (u * / s <= 1 / 100 * / s) by (apply Rmult_le_compat_r; lra). unfold Rdiv in *. lra. }
  assert (E : eta / s <= eta / lo). { unfold Rdiv. apply Rmult_le_compat_l; [assumption|]. apply Rinv_le_contravar; lra. }
  set (t := Rabs x / s). assert (T0 : 0 <= t) by (apply Rmult_le_pos; [apply Rabs_pos|lra]).
  assert (P : Rabs (a * c - x / s) <= 4.3 * u * t + 11 / 10 * (eta / lo)).
  { replace (a * c - x / s) with ((a - x) * c + x * (c - 1 / s)) by (field; lra).
    pose proof (Rabs_triang ((a - x) * c) (x * (c - 1 / s))) as T. rewrite !Rabs_mult in T.
    assert (Rabs (a - x) * Rabs c <= (u * Rabs x + eta) * (11 / 10 / s)) by (apply Rmult_le_compat; try apply Rabs_pos; assumption).
    assert (Rabs x * Rabs (c - 1 / s) <= Rabs x * (32 / 10 * u / s)) by (apply Rmult_le_compat_l; [apply Rabs_pos|assumption]).
    replace ((u * Rabs x + eta) * (11 / 10 / s)) with (11 / 10 * (u * t) + 11 / 10 * (eta / s)) in * by (unfold t; field; lra).
    replace (Rabs x * (32 / 10 * u / s)) with (32 / 10 * (u * t)) in * by (unfold t; field; lra). lra. }
  assert (X : Rabs (x / s) <= t). { unfold Rdiv, t. rewrite Rabs_mult, (Rabs_pos_eq (/ s)) by lra. unfold Rdiv; lra. }
  pose proof (round_sum _ _ _ _ P X) as R. assert (0 <= u * t) by (apply Rmult_le_pos; assumption).
  assert (u * (u * t) <= 1 / 100 * (u * t)) by (apply Rmult_le_compat_r; assumption).
  assert (0 <= eta / lo). { apply Rmult_le_pos; [assumption|]. left. apply Rinv_0_lt_compat; lra. }
  assert (u * (eta / lo) <= 1 / 100 * (eta / lo)) by (apply Rmult_le_compat_r; assumption). lra.
Qed.

Lemma part_le z s : 0 < s -> Rabs (Re z) / s <= Cmod (Cdiv z (RtoC s)) /\ Rabs (Im z) / s <= Cmod (Cdiv z (RtoC s)).
Proof.
  intros H. assert (0 < / s) by (apply Rinv_0_lt_compat; lra).
  rewrite Cmod_div by (intros E; injection E; lra). rewrite Cmod_R, (Rabs_pos_eq s) by lra.
  pose proof (Rmax_Cmod z) as M. pose proof (Rmax_l (Rabs (fst z)) (Rabs (snd z))). pose proof (Rmax_r (Rabs (fst z)) (Rabs (snd z))).
  unfold Rdiv, Re, Im. split; apply Rmult_le_compat_r; lra.
Qed.

Lemma rounded_div lo hi ar : u <= 1 / 100 -> fair_range u eta lo hi ->
  (forall z s, ar_div ar z s = div_parts rd z s \/ ar_div ar z s = div_smith rd z s) ->
  div_near (9 * u) (2 * (eta / lo + eta)) lo hi (ar_div ar).
Proof.
  intros U F H z s S. pose proof F as (L & F1 & F2 & F3). assert (Sp : 0 < s) by lra.
  destruct (part_le z s Sp) as [P1 P2]. set (t := Cmod (Cdiv z (RtoC s))) in *.
  assert (T0 : 0 <= t) by apply Cmod_ge_0. assert (0 <= u * t) by (apply Rmult_le_pos; assumption).
  assert (0 <= eta / lo). { apply Rmult_le_pos; [assumption|]. left. apply Rinv_0_lt_compat; lra. }
  assert (Q1 : u * (Rabs (Re z) / s) <= u * t) by (apply Rmult_le_compat_l; assumption).
  assert (Q2 : u * (Rabs (Im z) / s) <= u * t) by (apply Rmult_le_compat_l; assumption).
  apply Rle_trans with (3 / 2 * (6 * u * t + 13 / 10 * (eta / lo + eta))); [|lra].
  assert (Hc : forall y, Rabs (Re y - Re z / s) <= 6 * u * t + 13 / 10 * (eta / lo + eta) -> Rabs (Im y - Im z / s) <= 6 * u * t + 13 / 10 * (eta / lo + eta) ->
               Cmod (Cminus y (Cdiv z (RtoC s))) <= 3 / 2 * (6 * u * t + 13 / 10 * (eta / lo + eta))).
  { intros y Y1 Y2. rewrite div_real by lra. apply cmod_parts.
    - replace (Re (Cminus y (Re z / s, Im z / s))) with (Re y - Re z / s) by (unfold Cminus, Cplus, Copp, Re; cbn; ring). exact Y1.
    - replace (Im (Cminus y (Re z / s, Im z / s))) with (Im y - Im z / s) by (unfold Cminus, Cplus, Copp, Im; cbn; ring). exact Y2. }
  destruct (H z s) as [E|E]; rewrite E; apply Hc.
  - unfold div_parts. cbn [Re Im fst snd]. pose proof (round_div (Re z) s Sp). lra.
  - unfold div_parts. cbn [Re Im fst snd]. pose proof (round_div (Im z) s Sp). lra.
  - unfold div_smith. unfold Rdiv at 1 2 3 4. rewrite !Rmult_0_l, !rd_zero, !Rmult_0_r, !rd_zero, !Rplus_0_r, !Rminus_0_r. cbn [Re fst].
    fold (Re z). pose proof (smith_part lo hi s (Re z) U F S). unfold Rdiv in *. lra.
  - unfold div_smith. unfold Rdiv at 1 2 3 4. rewrite !Rmult_0_l, !rd_zero, !Rmult_0_r, !rd_zero, !Rplus_0_r, !Rminus_0_r. cbn [Im snd].
    fold (Im z). pose proof (smith_part lo hi s (Im z) U F S). unfold Rdiv in *. lra.
Qed.

Lemma rounded_add lo e ar : 0 < lo -> 2 * (eta / lo + eta) <= e ->
  (forall z w, ar_add ar z w = add_parts rd z w) -> add_near (9 * u) e (ar_add ar).
Proof.
  intros L Hl H z w. rewrite H.
  assert (0 <= eta / lo). { apply Rmult_le_pos; [assumption|]. left. apply Rinv_0_lt_compat; lra. }
  set (t := Cmod (Cplus z w)). assert (0 <= t) by apply Cmod_ge_0. assert (0 <= u * t) by (apply Rmult_le_pos; assumption).
  apply Rle_trans with (3 / 2 * (u * t + eta)); [|lra].
  pose proof (Rmax_Cmod (Cplus z w)) as M. pose proof (Rmax_l (Rabs (fst (Cplus z w))) (Rabs (snd (Cplus z w)))). pose proof (Rmax_r (Rabs (fst (Cplus z w))) (Rabs (snd (Cplus z w)))).
  destruct Hr as [B _]. fold t in M.
  assert (u * Rabs (fst (Cplus z w)) <= u * t) by (apply Rmult_le_compat_l; lra). assert (u * Rabs (snd (Cplus z w)) <= u * t) by (apply Rmult_le_compat_l; lra).
  apply cmod_parts.
  - replace (Re (Cminus (add_parts rd z w) (Cplus z w))) with (rd (fst (Cplus z w)) - fst (Cplus z w)) by (unfold add_parts, Cminus, Cplus, Copp, Re; cbn; ring).
    pose proof (B (fst (Cplus z w))). lra.
  - replace (Im (Cminus (add_parts rd z w) (Cplus z w))) with (rd (snd (Cplus z w)) - snd (Cplus z w)) by (unfold add_parts, Cminus, Cplus, Copp, Im; cbn; ring).
    pose proof (B (snd (Cplus z w))). lra.
Qed.

Lemma rounded_quot lo hi ar : fair_range u eta lo hi -> (forall x y, ar_quot ar x y = rd (x / y)) -> quot_near (9 * u) lo hi (ar_quot ar).
Proof.
  intros (L & F1 & F2 & F3) H x y X Y. rewrite H. destruct Hr as [B _]. specialize (B (x / y)).
  assert (Iy : 0 < / y) by (apply Rinv_0_lt_compat; lra). assert (P : 0 <= x / y) by (apply Rmult_le_pos; lra). rewrite (Rabs_pos_eq (x / y)) in B by assumption.
  assert (E : eta <= u * (x / y)).
  { apply Rmult_le_reg_r with y; [lra|]. replace (u * (x / y) * y) with (u * x) by (field; lra).
    assert (eta * y <= eta * hi) by (apply Rmult_le_compat_l; lra). assert (u * lo <= u * x) by (apply Rmult_le_compat_l; lra). lra. }
  assert (0 <= u * (x / y)) by (apply Rmult_le_pos; assumption). lra.
Qed.

Lemma rounded_near N lo hi ar : rounded_arith rd ar -> fair_range u eta lo hi -> u <= 1 / 100 -> INR N * u <= 1 / 4 ->
  arith_near N (6 * INR N * u) (12 * INR N * eta) (9 * u) (2 * (eta / lo + eta)) lo hi ar.
Proof.
  intros (H1 & H2 & H3 & H4) F U HN. pose proof F as ((L & L') & _). pose proof (pos_INR N) as IN.
  assert (0 <= eta / lo). { apply Rmult_le_pos; [assumption|]. left. apply Rinv_0_lt_compat; lra. }
  split; [|split; [|split; [|split; [|split]]]].
  - split; [apply Rmult_le_pos; lra|]. split; [apply Rmult_le_pos; lra|]. intros idx xs ys EL LN. apply inner_near; auto.
  - eapply rounded_div; eassumption.
  - eapply rounded_add; [exact L|apply Rle_refl|assumption].
  - apply rounded_quot; assumption.
  - lra.
  - lra.
Qed.
End Sum.
