(** Rounding errors of the Fourier transform of piecewise polynomials (C97): terms and
    their sum. *)
From Coq Require Import Reals ZArith Arith Bool Lra Lia Psatz.
From Flocq Require Import Core.
From Coquelicot Require Import Coquelicot.
From Coq Require Import List Sorting.Sorted.
From Verif.Model Require Import Base Util Num Poly FT FTIEEE.
From Verif.Spec Require Import SPoly SFT SKernelIEEE SGaussIEEE SPolyIEEE SFTIEEE.
From Verif.Proofs Require Import BaseFacts SumFacts LegFacts PPolyFacts GaussRound BesselBounds PolyRound FTFacts FTModel LstsqFacts DLRProps FTRound.
Import ListNotations.
Open Scope R_scope.
Notation length := List.length.

(** * Complex numbers *)
Lemma Cmod_pair e x y : 0 <= e -> Rabs x <= e -> Rabs y <= e -> Cmod (x, y) <= 3 / 2 * e.
Proof.
  intros He Hx Hy. rewrite <- (sqrt_Rsqr (3 / 2 * e)) by lra. unfold Cmod. apply sqrt_le_1_alt. unfold Rsqr, fst, snd.
  assert (S : forall z, Rabs z <= e -> z ^ 2 <= e * e).
  { intros z Hz. replace (z ^ 2) with (Rabs z * Rabs z); [apply Rmult_le_compat; auto using Rabs_pos|].
    rewrite <- Rabs_mult, Rabs_pos_eq; [ring|]. nra. }
  pose proof (S x Hx). pose proof (S y Hy). nra.
Qed.
Lemma Cmod_conj z : Cmod (Cconj z) = Cmod z.
Proof. unfold Cmod, Cconj, fst, snd. f_equal. destruct z. ring. Qed.
Lemma Cmod_conj_minus a b : Cmod (Cminus (Cconj a) (Cconj b)) = Cmod (Cminus a b).
Proof. rewrite <- Cmod_conj. f_equal. destruct a, b. unfold Cconj, Cminus, Cplus, Copp, fst, snd. f_equal; ring. Qed.
Lemma Cmod_step a b : Cmod a <= Cmod b + Cmod (Cminus a b).
Proof. replace a with (Cplus b (Cminus a b)) at 1 by ring. apply Cmod_triangle. Qed.
Lemma Cmod_RtoC x : Cmod (RtoC x) = Rabs x.
Proof. apply Cmod_R. Qed.
Lemma Cmod_tri a b c : Cmod (Cminus a c) <= Cmod (Cminus a b) + Cmod (Cminus b c).
Proof. replace (Cminus a c) with (Cplus (Cminus a b) (Cminus b c)) by ring. apply Cmod_triangle. Qed.

(** * Sums over pairs *)
Lemma csumn_list {A} (l : list A) (d : A) (h : A -> C) a : csumn (length (a :: l)) (fun k => h (nth k (a :: l) d)) = Cplus (h a) (csumn (length l) (fun k => h (nth k l d))).
Proof. cbn [length]. rewrite csumn_shift. reflexivity. Qed.
Lemma csumn_list_app {A} (l l' : list A) (d : A) (h : A -> C) :
  csumn (length (l ++ l')) (fun k => h (nth k (l ++ l') d)) = Cplus (csumn (length l) (fun k => h (nth k l d))) (csumn (length l') (fun k => h (nth k l' d))).
Proof.
  rewrite app_length, csumn_app. f_equal.
  - apply csumn_ext. intros i Hi. rewrite app_nth1; auto.
  - apply csumn_ext. intros i Hi. rewrite app_nth2 by lia. do 2 f_equal. lia.
Qed.
Lemma csumn_pairs N m (h : nat * nat -> C) : let l := flat_map (fun p => map (fun i => (p, i)) (seq 0 m)) (seq 0 N) in
  csumn (length l) (fun k => h (nth k l (0, 0)%nat)) = csumn m (fun i => csumn N (fun p => h (p, i))).
Proof.
  cbv zeta. rewrite <- csumn_swap. induction N as [|N IH]; [reflexivity|].
  rewrite seq_S, flat_map_app, csumn_list_app, IH. cbn [csumn]. f_equal. cbn [flat_map plus]. rewrite app_nil_r, map_length, seq_length.
  apply csumn_ext. intros i Hi. f_equal. rewrite (nth_indep _ _ (N, 0%nat)) by (rewrite map_length, seq_length; lia).
  rewrite (map_nth (fun i => (N, i))), seq_nth by auto. reflexivity.
Qed.
Lemma sumn_pairs N m (h : nat * nat -> R) : let l := flat_map (fun p => map (fun i => (p, i)) (seq 0 m)) (seq 0 N) in
  sumn (length l) (fun k => h (nth k l (0, 0)%nat)) = sumn m (fun i => sumn N (fun p => h (p, i))).
Proof.
  cbv zeta. apply RtoC_inj. rewrite <- !csumn_R. rewrite (csumn_pairs N m (fun k => RtoC (h k))).
  apply csumn_ext. intros i _. rewrite <- csumn_R. reflexivity.
Qed.
Lemma pairs_length g : length (pairs g) = (gorder g * gnseg g)%nat.
Proof.
  unfold pairs. generalize 0%nat at 2. induction (gorder g) as [|N IH]; intros s; [reflexivity|].
  cbn [seq flat_map]. rewrite app_length, map_length, seq_length, IH. lia.
Qed.
Lemma pairs_in g k d : (k < length (pairs g))%nat -> (fst (nth k (pairs g) d) < gorder g)%nat /\ (snd (nth k (pairs g) d) < gnseg g)%nat.
Proof.
  intros H. pose proof (nth_In (pairs g) d H) as I. set (q := nth k (pairs g) d) in *. unfold pairs in I.
  apply in_flat_map in I. destruct I as (p & Ip & I). apply in_map_iff in I. destruct I as (i & E & Ii). rewrite <- E. cbn [fst snd].
  apply in_seq in Ip, Ii. lia.
Qed.

Section Terms.
Variables (u eta : R) (rd : R -> R).
Hypothesis Hr : rounding u eta rd.
Hypothesis Hu : 0 < u <= / 10000.
Hypothesis He : 0 <= eta.
Variable g : geom.
Hypothesis Hg : geom_near u eta g.
Hypothesis Hmin : gxmin g = -1.
Hypothesis Hmax : gxmax g = 1.
Hypothesis Hf : forall i, (i < gnseg g)%nat -> fair_length u eta g i.
Hypothesis Hm : INR (gnseg g) * u <= / 200.
Variables (ej ec um em gam th : R) (F : flib).
Hypothesis HF : library_near (gorder g) (gorder g * gnseg g) u ej ec um em gam th F.
Hypothesis Hs : small_library ej ec um em gam.

Let HPI : Rabs (f_pi F - PI) <= u * PI. Proof. apply HF. Qed.
Let Hj : forall l z, (l < gorder g)%nat -> 0 <= z -> Rabs (f_jn F l z - sph_jn l z) <= ej. Proof. apply HF. Qed.
Let Ht : forall t, Rabs (f_cos F t - cos t) <= ec /\ Rabs (f_sin F t - sin t) <= ec. Proof. apply HF. Qed.
Let Hx : forall a b, Cmod (Cminus (f_mul F a b) (Cmult a b)) <= um * (Cmod a * Cmod b) + em. Proof. apply HF. Qed.
Let Hpos : 0 <= ej /\ 0 <= ec /\ 0 <= um /\ 0 <= em /\ 0 <= gam /\ 0 <= th. Proof. destruct HF as (A & B & C & D & E & G & _). auto 10. Qed.

Lemma cexp_near t t0 : Cmod (Cminus (f_cos F t, f_sin F t) (cexp t0)) <= 3 / 2 * ec + Rabs (t - t0) /\ Cmod (f_cos F t, f_sin F t) <= 1 + 3 / 2 * ec.
Proof.
  assert (A : Cmod (Cminus (f_cos F t, f_sin F t) (cexp t)) <= 3 / 2 * ec).
  { unfold Cminus, Cplus, Copp, cexp, fst, snd. destruct (Ht t). apply Cmod_pair; auto. apply Hpos. }
  split.
  - eapply Rle_trans; [apply (Cmod_tri _ (cexp t))|]. pose proof (cexp_step t t0). lra.
  - eapply Rle_trans; [apply (Cmod_step _ (cexp t))|]. rewrite cexp_mod. lra.
Qed.

Notation mid i := ((knot g i + knot g (S i)) / 2).
Notation L i := (knot g (S i) - knot g i).
Notation rch i := (reach (knot g i) (knot g (S i))).

Lemma reach_half i : L i / 2 <= rch i.
Proof.
  unfold reach. assert (0 <= Rmin (Rabs (mid i + 1)) (Rmin (Rabs (mid i)) (Rabs (mid i - 1)))).
  { repeat apply Rmin_glb; apply Rabs_pos. } lra.
Qed.

Lemma phase_near i n : (i < gnseg g)%nat ->
  Cmod (Cminus (phase_stable_rd rd F g n i) (cexp (PI / 2 * IZR n * (mid i + 1)))) <=
    3 / 2 * ec + 11 / 10 * um + em + (165 / 100 * INR (gnseg g) + 15) * (u * Rabs (IZR n) * rch i) /\
  Cmod (phase_stable_rd rd F g n i) <= 105 / 100.
Proof.
  intros Hi. destruct (shift_round u eta rd Hr Hu He g Hg Hmin Hmax Hf Hm i Hi) as (d & s & E & Hd & HR). cbv zeta beta in Hd, HR.
  unfold phase_stable_rd. rewrite E. pose proof (L_pos u eta g Hg i Hi) as Lp. pose proof (eta_L u eta g Hf i Hi) as El. cbv beta in Lp, El.
  set (R0 := Rabs (mid i - IZR s) + L i / 2) in *.
  pose proof (angle_round u eta rd Hr Hu He g Hg Hmin Hmax Hf Hm (f_pi F) n d (mid i - IZR s) R0 (L i / 2) HPI ltac:(lra) ltac:(lra) eq_refl Hd) as Ha.
  set (t := rd (rd (/ 2 * f_pi F) * rd (rd (IZR n) * d))) in *.
  set (t0 := PI / 2 * (IZR n * (mid i - IZR s))) in *.
  destruct (cexp_near t t0) as [C1 C2]. set (z := (f_cos F t, f_sin F t)) in *.
  pose proof (Hx (imag_power ((s + 1) * n)) z) as P. pose proof (imag_mod ((s + 1) * n)) as I1. set (w := imag_power ((s + 1) * n)) in *.
  rewrite I1, Rmult_1_l in P. destruct Hpos as (P1 & P2 & P3 & P4 & P5 & P6). destruct Hs as (S1 & S2 & S3 & S4 & S5).
  assert (Mz : um * Cmod z <= um * (102 / 100)) by (apply Rmult_le_compat_l; lra).
  assert (Et : cexp (PI / 2 * IZR n * (mid i + 1)) = Cmult w (cexp t0)).
  { unfold w. rewrite imag_power_exp, <- cexp_plus. f_equal. unfold t0. rewrite mult_IZR, plus_IZR. field. }
  assert (Wz : Cmod (Cmult w z) <= 1 + 3 / 2 * ec) by (rewrite Cmod_mult, I1; lra).
  split.
  - rewrite Et. eapply Rle_trans; [apply (Cmod_tri _ (Cmult w z))|].
    replace (Cminus (Cmult w z) (Cmult w (cexp t0))) with (Cmult w (Cminus z (cexp t0))) by ring. rewrite (Cmod_mult w), I1, Rmult_1_l.
    assert (B : Rabs (t - t0) <= (165 / 100 * INR (gnseg g) + 15) * (u * Rabs (IZR n) * rch i)); [|lra].
    eapply Rle_trans; [exact Ha|]. pose proof PI_bounds as HP. pose proof (Rabs_pos (IZR n)) as N0. pose proof (pos_INR (gnseg g)) as M0.
    assert (Rp : 0 <= R0) by (unfold R0; pose proof (Rabs_pos (mid i - IZR s)); lra).
    set (k := 102 / 100 * INR (gnseg g) + 93 / 10) in *.
    assert (T1 : Rabs (IZR n) * u * R0 <= Rabs (IZR n) * u * (101 / 100 * rch i)) by (apply Rmult_le_compat_l; [apply Rmult_le_pos; lra|auto]).
    assert (T0 : 0 <= Rabs (IZR n) * u * R0) by (apply Rmult_le_pos; [apply Rmult_le_pos; lra|auto]).
    replace (PI / 2 * (Rabs (IZR n) * R0 * u * k)) with (PI / 2 * k * (Rabs (IZR n) * u * R0)) by ring.
    assert (K : PI / 2 * k <= 1575 / 1000 * k) by (apply Rmult_le_compat_r; unfold k; lra).
    assert (T2 : PI / 2 * k * (Rabs (IZR n) * u * R0) <= 1575 / 1000 * k * (Rabs (IZR n) * u * (101 / 100 * rch i))).
    { apply Rmult_le_compat; auto. apply Rmult_le_pos; unfold k; lra. }
    assert (T3 : 0 <= u * Rabs (IZR n) * rch i) by lra.
    replace (1575 / 1000 * k * (Rabs (IZR n) * u * (101 / 100 * rch i))) with (1575 / 1000 * (101 / 100) * k * (u * Rabs (IZR n) * rch i)) in T2 by field.
    assert (1575 / 1000 * (101 / 100) * k * (u * Rabs (IZR n) * rch i) <= (165 / 100 * INR (gnseg g) + 15) * (u * Rabs (IZR n) * rch i)) by (apply Rmult_le_compat_r; [auto|unfold k; lra]).
    lra.
  - eapply Rle_trans; [apply (Cmod_step _ (Cmult w z))|]. nra.
Qed.

Lemma tnl_mod l z : Cmod (get_tnl l z) <= 2.
Proof.
  assert (H : Cmod (Cmult (RtoC 2) (Cmult (imag_power (Z.of_nat l)) (RtoC (sph_jn l (Rabs z))))) <= 2).
  { rewrite !Cmod_mult, imag_mod, !Cmod_RtoC, (Rabs_pos_eq 2) by lra. pose proof (sph_le1 l (Rabs z) (Rabs_pos z)). lra. }
  unfold get_tnl. destruct (Rltb z 0); [rewrite Cmod_conj|]; exact H.
Qed.

Lemma tnl_near l z' z e : (l < gorder g)%nat -> rel e z' z -> e < 1 ->
  Cmod (Cminus (get_tnl_rd F l z') (get_tnl l z)) <= 2 * ej + 2 * (e * Rabs z) + 21 / 10 * um + em /\ Cmod (get_tnl_rd F l z') <= 21 / 10.
Proof.
  intros Hl Hz He1. destruct Hpos as (P1 & P2 & P3 & P4 & P5 & P6). destruct Hs as (S1 & S2 & S3 & S4 & S5).
  assert (Sg : Rltb z' 0 = Rltb z 0).
  { unfold rel in Hz. unfold Rltb. apply Rabs_le_inv in Hz. destruct (Rle_lt_dec 0 z).
    - rewrite Rabs_pos_eq in Hz by auto. destruct (Rlt_dec z' 0), (Rlt_dec z 0); auto; nra.
    - rewrite Rabs_left in Hz by auto. destruct (Rlt_dec z' 0), (Rlt_dec z 0); auto; nra. }
  set (a := Cmult (RtoC 2) (imag_power (Z.of_nat l))).
  assert (Ma : Cmod a = 2) by (unfold a; rewrite Cmod_mult, imag_mod, Cmod_RtoC, Rabs_pos_eq; lra).
  set (b' := f_jn F l (Rabs z')). set (b := sph_jn l (Rabs z)).
  assert (Bj : Rabs (b' - sph_jn l (Rabs z')) <= ej) by (apply Hj; auto using Rabs_pos).
  assert (Bs : Rabs (sph_jn l (Rabs z') - b) <= Rabs (Rabs z' - Rabs z)) by (apply sph_step; apply Rabs_pos).
  pose proof (Rabs_triang_inv2 z' z) as Bz. unfold rel in Hz.
  assert (D : Rabs (b' - b) <= ej + e * Rabs z).
  { replace (b' - b) with ((b' - sph_jn l (Rabs z')) + (sph_jn l (Rabs z') - b)) by ring. eapply Rle_trans; [apply Rabs_triang|]. lra. }
  assert (Mb : Rabs b' <= 101 / 100).
  { replace b' with (sph_jn l (Rabs z') + (b' - sph_jn l (Rabs z'))) by ring. eapply Rle_trans; [apply Rabs_triang|].
    pose proof (sph_le1 l (Rabs z') (Rabs_pos z')). lra. }
  pose proof (Hx a (RtoC b')) as X. rewrite Ma, Cmod_RtoC in X.
  assert (U : um * (2 * Rabs b') <= um * (202 / 100)) by (apply Rmult_le_compat_l; lra).
  assert (A1 : Cmod (Cminus (f_mul F a (RtoC b')) (Cmult (RtoC 2) (Cmult (imag_power (Z.of_nat l)) (RtoC b)))) <= 2 * ej + 2 * (e * Rabs z) + 21 / 10 * um + em).
  { eapply Rle_trans; [apply (Cmod_tri _ (Cmult a (RtoC b')))|].
    replace (Cminus (Cmult a (RtoC b')) (Cmult (RtoC 2) (Cmult (imag_power (Z.of_nat l)) (RtoC b)))) with (Cmult a (RtoC (b' - b))) by (unfold a; rewrite RtoC_minus; ring).
    rewrite (Cmod_mult a), Ma, Cmod_RtoC. lra. }
  assert (A2 : Cmod (f_mul F a (RtoC b')) <= 21 / 10).
  { eapply Rle_trans; [apply (Cmod_step _ (Cmult a (RtoC b')))|]. rewrite (Cmod_mult a), Ma, Cmod_RtoC. nra. }
  unfold get_tnl_rd, get_tnl. fold a b b'. rewrite Sg. destruct (Rltb z 0); [rewrite Cmod_conj_minus, Cmod_conj|]; auto.
Qed.

(** The exact term of order p on segment i. *)
Definition t_pin_ex (n : Z) (p i : nat) : C := Cmult (get_tnl p (PI / 2 * IZR n * (L i / 2))) (cexp (PI / 2 * IZR n * (mid i + 1))).
Definition data_ex (c : col) (p i : nat) : R := cdat c p i * (sqrt (L i) / 2).

Definition pin_err (n : Z) (i : nat) : R :=
  2 * ej + 32 / 10 * ec + 67 / 10 * um + 41 / 10 * em + (347 / 100 * INR (gnseg g) + 55) * (u * Rabs (IZR n) * rch i).
Lemma t_pin_near n p i : (p < gorder g)%nat -> (i < gnseg g)%nat ->
  Cmod (Cminus (t_pin_rd rd F g n p i) (t_pin_ex n p i)) <= pin_err n i /\ Cmod (t_pin_rd rd F g n p i) <= 23 / 10.
Proof.
  intros Hp Hi. destruct (phase_near i n Hi) as [Q1 Q2]. unfold t_pin_rd, t_pin_ex. set (b' := phase_stable_rd rd F g n i) in *.
  pose proof (argument_round u eta rd Hr Hu He g Hg Hmin Hmax Hf (f_pi F) n i Hi HPI) as Ha. cbv beta in Ha.
  destruct (tnl_near p _ _ _ Hp Ha ltac:(lra)) as [T1 T2].
  set (z := PI / 2 * IZR n * (L i / 2)) in *. set (a' := get_tnl_rd F p _) in *. set (a := get_tnl p z) in *. set (b := cexp _) in *.
  assert (Mb : Cmod b = 1) by apply cexp_mod.
  destruct Hpos as (P1 & P2 & P3 & P4 & P5 & P6). destruct Hs as (S1 & S2 & S3 & S4 & S5).
  pose proof (L_pos u eta g Hg i Hi) as Lp. cbv beta in Lp. pose proof (reach_half i) as Rh. pose proof PI_bounds as HP.
  pose proof (Rabs_pos (IZR n)) as N0.
  assert (Z : Rabs z <= 158 / 100 * (Rabs (IZR n) * rch i)).
  { unfold z. rewrite !Rabs_mult, (Rabs_pos_eq (PI / 2)), (Rabs_pos_eq (L i / 2)) by lra.
    assert (Rabs (IZR n) * (L i / 2) <= Rabs (IZR n) * rch i) by (apply Rmult_le_compat_l; auto).
    assert (0 <= Rabs (IZR n) * (L i / 2)) by (apply Rmult_le_pos; lra). nra. }
  set (A := u * Rabs (IZR n) * rch i) in *.
  assert (ZA : 72 / 10 * u * Rabs z <= 114 / 10 * A).
  { assert (72 / 10 * u * Rabs z <= 72 / 10 * u * (158 / 100 * (Rabs (IZR n) * rch i))) by (apply Rmult_le_compat_l; lra). unfold A.
    assert (0 <= u * (Rabs (IZR n) * rch i)) by (apply Rmult_le_pos; [lra|]; apply Rmult_le_pos; lra). lra. }
  assert (M' : Cmod a' * Cmod b' <= 21 / 10 * (105 / 100)) by (apply Rmult_le_compat; auto using Cmod_ge_0).
  pose proof (Hx a' b') as X. assert (U : um * (Cmod a' * Cmod b') <= um * (21 / 10 * (105 / 100))) by (apply Rmult_le_compat_l; auto).
  split.
  - eapply Rle_trans; [apply (Cmod_tri _ (Cmult a' b'))|].
    replace (Cminus (Cmult a' b') (Cmult a b)) with (Cplus (Cmult a' (Cminus b' b)) (Cmult (Cminus a' a) b)) by ring.
    pose proof (Cmod_triangle (Cmult a' (Cminus b' b)) (Cmult (Cminus a' a) b)) as Tr. rewrite !Cmod_mult, Mb in Tr.
    assert (W : Cmod a' * Cmod (Cminus b' b) <= 21 / 10 * (3 / 2 * ec + 11 / 10 * um + em + (165 / 100 * INR (gnseg g) + 15) * A)) by (apply Rmult_le_compat; auto using Cmod_ge_0).
    assert (A0 : 0 <= A) by (unfold A; apply Rmult_le_pos; [apply Rmult_le_pos; lra|lra]).
    pose proof (pos_INR (gnseg g)) as M0. unfold pin_err. fold A. assert (0 <= INR (gnseg g) * A) by (apply Rmult_le_pos; auto).
    rewrite Rmult_1_r in Tr. lra.
  - eapply Rle_trans; [apply (Cmod_step _ (Cmult a' b'))|]. rewrite Cmod_mult. nra.
Qed.

Lemma data_near c p i : (i < gnseg g)%nat ->
  Rabs (data_sc_rd rd g c p i - data_ex c p i) <= 532 / 100 * u * Rabs (data_ex c p i) + eta.
Proof.
  intros Hi. unfold data_sc_rd, data_ex. pose proof (scale_rel u eta rd Hr Hu He g Hg Hmin Hmax Hf i Hi) as H. cbv beta in H.
  apply (rel_scal _ (cdat c p i)) in H. set (s' := cdat c p i * rd _) in *. set (s := cdat c p i * (sqrt (L i) / 2)) in *.
  pose proof (rel_bounds _ _ _ H) as [_ B]. unfold rel in H. pose proof (rnd_err u eta rd Hr s') as R1.
  replace (rd s' - s) with ((rd s' - s') + (s' - s)) by ring. eapply Rle_trans; [apply Rabs_triang|]. pose proof (Rabs_pos s) as S0.
  assert (u * Rabs s' <= u * ((1 + 43 / 10 * u) * Rabs s)) by (apply Rmult_le_compat_l; lra).
  assert (u * (u * Rabs s) <= / 10000 * (u * Rabs s)) by (apply Rmult_le_compat_r; [apply Rmult_le_pos; lra|lra]).
  assert (0 <= u * Rabs s) by (apply Rmult_le_pos; lra). lra.
Qed.

Lemma term_near n c p i : (p < gorder g)%nat -> (i < gnseg g)%nat ->
  let x := t_pin_rd rd F g n p i in let y := data_sc_rd rd g c p i in
  Cmod (Cminus (Cmult x (RtoC y)) (Cmult (t_pin_ex n p i) (RtoC (data_ex c p i)))) + gam * (Cmod x * Cmod (RtoC y)) <=
  sqrt (L i) * ((2 * INR (gnseg g) + 40) * Rabs (IZR n) * rch i * u + constant_error u ej ec um em gam) * Rabs (cdat c p i) + 4 * eta.
Proof.
  intros Hp Hi. cbv zeta. destruct (t_pin_near n p i Hp Hi) as [T1 T2]. pose proof (data_near c p i Hi) as D.
  set (x := t_pin_rd rd F g n p i) in *. set (y := data_sc_rd rd g c p i) in *. set (T := t_pin_ex n p i) in *.
  assert (ED : Rabs (data_ex c p i) = Rabs (cdat c p i) * (sqrt (L i) / 2)).
  { unfold data_ex. rewrite Rabs_mult, (Rabs_pos_eq (sqrt (L i) / 2)); auto. pose proof (sqrt_pos (L i)). lra. }
  set (dd := data_ex c p i) in *. set (q := sqrt (L i) * Rabs (cdat c p i)).
  assert (Q0 : 0 <= q) by (unfold q; apply Rmult_le_pos; [apply sqrt_pos|apply Rabs_pos]).
  assert (Eq : Rabs dd = q / 2) by (rewrite ED; unfold q; field).
  rewrite Eq in D. rewrite Cmod_RtoC.
  assert (Y : Rabs y <= 1001 / 1000 * (q / 2) + eta).
  { replace y with (dd + (y - dd)) by ring. eapply Rle_trans; [apply Rabs_triang|]. rewrite Eq. nra. }
  destruct Hpos as (P1 & P2 & P3 & P4 & P5 & P6). destruct Hs as (S1 & S2 & S3 & S4 & S5).
  assert (A : Cmod (Cminus (Cmult x (RtoC y)) (Cmult T (RtoC dd))) <= 23 / 10 * (532 / 100 * u * (q / 2) + eta) + pin_err n i * (q / 2)).
  { replace (Cminus (Cmult x (RtoC y)) (Cmult T (RtoC dd))) with (Cplus (Cmult x (RtoC (y - dd))) (Cmult (Cminus x T) (RtoC dd))) by (rewrite RtoC_minus; ring).
    eapply Rle_trans; [apply Cmod_triangle|]. rewrite !Cmod_mult, !Cmod_RtoC, Eq. apply Rplus_le_compat; apply Rmult_le_compat; auto using Cmod_ge_0, Rabs_pos; lra. }
  assert (G : gam * (Cmod x * Rabs y) <= gam * (23 / 10 * (1001 / 1000 * (q / 2) + eta))).
  { apply Rmult_le_compat_l; auto. apply Rmult_le_compat; auto using Cmod_ge_0, Rabs_pos. }
  assert (ge : gam * eta <= / 100 * eta) by (apply Rmult_le_compat_r; auto).
  replace (sqrt (L i) * ((2 * INR (gnseg g) + 40) * Rabs (IZR n) * rch i * u + constant_error u ej ec um em gam) * Rabs (cdat c p i))
    with (q * ((2 * INR (gnseg g) + 40) * (u * Rabs (IZR n) * rch i) + constant_error u ej ec um em gam)) by (unfold q; ring).
  unfold pin_err in A. unfold constant_error. set (W := u * Rabs (IZR n) * rch i) in *.
  pose proof (L_pos u eta g Hg i Hi) as Lp. cbv beta in Lp. pose proof (reach_half i) as Rh. pose proof (Rabs_pos (IZR n)) as N0.
  assert (W0 : 0 <= W) by (unfold W; apply Rmult_le_pos; [apply Rmult_le_pos; lra|lra]).
  pose proof (pos_INR (gnseg g)) as M0. assert (QW : 0 <= q * W) by (apply Rmult_le_pos; auto). assert (QMW : 0 <= INR (gnseg g) * (q * W)) by (apply Rmult_le_pos; auto).
  assert (0 <= q * ej) by (apply Rmult_le_pos; auto). assert (0 <= q * ec) by (apply Rmult_le_pos; auto). assert (0 <= q * um) by (apply Rmult_le_pos; auto).
  assert (0 <= q * em) by (apply Rmult_le_pos; auto). assert (0 <= q * gam) by (apply Rmult_le_pos; auto). assert (0 <= q * u) by (apply Rmult_le_pos; lra).
  lra.
Qed.

Lemma unl_ideal c n : unl_entry (exactg g) c n = csumn (gnseg g) (fun i => csumn (gorder g) (fun p => Cmult (t_pin_ex n p i) (RtoC (data_ex c p i)))).
Proof.
  unfold unl_entry. cbn [exactg gnseg gorder]. apply csumn_ext. intros i Hi. apply csumn_ext. intros p Hp.
  pose proof (exactg_ok _ _ _ Hg) as G. pose proof (L_pos u eta g Hg i Hi) as Lp. cbv beta in Lp.
  rewrite (phase_stable_exp (exactg g) G Hmin Hmax n i Hi). rewrite (g_dx (exactg g) G i Hi), gxm_eq.
  change (knot (exactg g) i) with (knot g i). change (knot (exactg g) (S i)) with (knot g (S i)).
  unfold t_pin_ex, data_ex. f_equal. do 2 f_equal. 
  replace (L i / 2 / 2) with (L i / (2 * 2)) by field. rewrite sqrt_div by lra. rewrite sqrt_square by lra. reflexivity.
Qed.

Lemma entry_near c j l n :
  Cmod (Cminus (unl_entry_rd rd F g c j l n) (unl_entry (exactg g) c n)) <= transform_error u eta (constant_error u ej ec um em gam) th g c n.
Proof.
  rewrite unl_ideal. unfold unl_entry_rd. set (xs := map _ (pairs g)). set (ys := map _ (pairs g)).
  destruct HF as (_ & _ & _ & _ & _ & _ & _ & _ & _ & _ & D). specialize (D j l xs ys).
  assert (Lx : length xs = (gorder g * gnseg g)%nat) by (unfold xs; rewrite map_length; apply pairs_length).
  assert (Ly : length ys = (gorder g * gnseg g)%nat) by (unfold ys; rewrite map_length; apply pairs_length).
  specialize (D Lx Ly). rewrite <- (pairs_length g) in D.
  set (K := length (pairs g)) in *.
  set (tx := fun pi : nat * nat => t_pin_rd rd F g n (fst pi) (snd pi)) in *. set (ty := fun pi : nat * nat => RtoC (data_sc_rd rd g c (fst pi) (snd pi))) in *.
  assert (Ex : forall k, (k < K)%nat -> nth k xs (RtoC 0) = tx (nth k (pairs g) (0, 0)%nat)).
  { intros k Hk. unfold xs. rewrite (nth_indep _ _ (tx (0, 0)%nat)) by (rewrite map_length; exact Hk). apply map_nth. }
  assert (Ey : forall k, (k < K)%nat -> nth k ys (RtoC 0) = ty (nth k (pairs g) (0, 0)%nat)).
  { intros k Hk. unfold ys. rewrite (nth_indep _ _ (ty (0, 0)%nat)) by (rewrite map_length; exact Hk). apply map_nth. }
  set (h := fun pi : nat * nat => Cmult (t_pin_ex n (fst pi) (snd pi)) (RtoC (data_ex c (fst pi) (snd pi)))).
  assert (S1 : csumn (gnseg g) (fun i => csumn (gorder g) (fun p => Cmult (t_pin_ex n p i) (RtoC (data_ex c p i)))) = csumn K (fun k => h (nth k (pairs g) (0, 0)%nat))).
  { symmetry. apply (csumn_pairs (gorder g) (gnseg g) h). }
  rewrite S1. eapply Rle_trans; [apply (Cmod_tri _ (csumn K (fun k => Cmult (nth k xs (RtoC 0)) (nth k ys (RtoC 0)))))|].
  rewrite <- csumn_minus. pose proof (csumn_Cmod K (fun k => Cminus (Cmult (nth k xs (RtoC 0)) (nth k ys (RtoC 0))) (h (nth k (pairs g) (0, 0)%nat)))) as B.
  set (e := fun pi : nat * nat => sqrt (L (snd pi)) * ((2 * INR (gnseg g) + 40) * Rabs (IZR n) * rch (snd pi) * u + constant_error u ej ec um em gam) * Rabs (cdat c (fst pi) (snd pi)) + 4 * eta).
  assert (S2 : gam * sumn K (fun k => Cmod (nth k xs (RtoC 0)) * Cmod (nth k ys (RtoC 0))) +
               sumn K (fun k => Cmod (Cminus (Cmult (nth k xs (RtoC 0)) (nth k ys (RtoC 0))) (h (nth k (pairs g) (0, 0)%nat)))) <= sumn K (fun k => e (nth k (pairs g) (0, 0)%nat))).
  { rewrite <- sumn_scal, <- sumn_plus. apply sumn_le. intros k Hk. rewrite (Ex k Hk), (Ey k Hk).
    destruct (pairs_in g k (0, 0)%nat Hk) as [Hp Hi]. set (pi := nth k (pairs g) (0, 0)%nat) in *.
    pose proof (term_near n c (fst pi) (snd pi) Hp Hi) as T. cbv zeta in T. fold (h pi) in T. unfold e, tx, ty. lra. }
  assert (S3 : sumn K (fun k => e (nth k (pairs g) (0, 0)%nat)) + th = transform_error u eta (constant_error u ej ec um em gam) th g c n).
  { unfold K, pairs. rewrite (sumn_pairs (gorder g) (gnseg g) e). unfold transform_error, e. cbn [fst snd].
    rewrite (sumn_ext (gnseg g) _ (fun i => sqrt (L i) * ((2 * INR (gnseg g) + 40) * Rabs (IZR n) * rch i * u + constant_error u ej ec um em gam) * sumn (gorder g) (fun p => Rabs (cdat c p i)) + INR (gorder g) * (4 * eta))).
    2:{ intros i _. rewrite sumn_plus, sumn_scal, sumn_const. ring. }
    rewrite sumn_plus, sumn_const, mult_INR. ring. }
  lra.
Qed.
End Terms.
