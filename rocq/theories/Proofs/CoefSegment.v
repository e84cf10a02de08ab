(** The coefficients of the singular functions in rounded arithmetic. *)
From Coq Require Import String ZArith Arith Bool Reals Lra Lia Psatz.
From Coquelicot Require Import Coquelicot.
From Coq Require Import List.
From Verif.Model Require Import Base Util Num Gauss Poly SVE Kernel KernelIEEE GaussIEEE Compute SVEIEEE.
From Verif.Spec Require Import SGauss SCompute SKernelIEEE SGaussIEEE SSVEIEEE.
From Verif.Proofs Require Import BaseFacts SumFacts LegFacts GaussFacts ComputeNodes KernelRound KernelRoundCall GaussRound GaussRoundRule RoundedSVE SvdExists LegRecur CoefRound.
Import ListNotations.
Open Scope R_scope.
Notation length := List.length.
Arguments legP : simpl never.

Section Segment.
Variables (u eta e : R) (rw ro : R -> R) (n : nat) (q r : rule) (sg om rho : R) (segs : list R) (G g : rule) (gam th : R) (dot : nat -> nat -> list R -> list R -> R) (vec : list R).
Hypothesis Hs : small_errors u eta e.
Hypothesis Hrw : rounding u eta rw.
Hypothesis Hro : rounding u eta ro.
Hypothesis Hq : ordinary_rule n q.
Hypothesis Hr : rule_near sg om rho r q.
Hypothesis Hsg : 0 <= sg <= / 1000.
Hypothesis Hom : 0 <= om <= / 1000.
Hypothesis Hrho : 0 <= rho <= / 1000.
Hypothesis Hsegs : ordinary_edges segs.
Hypothesis HG : piecewise q segs = Ok G.
Hypothesis Hg : piecewise_rd rw r segs = Ok g.
Hypothesis Hdot : forall k i, inner_near n gam th (dot k i).
Hypothesis Hce : coefficient_error n u sg om gam <= / 200.
Notation m := (length segs - 1)%nat.
Hypothesis Hvec : length vec = (m * n)%nat.

Lemma gam_pos : 0 <= gam /\ 0 <= th.
Proof. destruct (Hdot 0 0) as (A & B & _). auto. Qed.
Lemma small_e : 0 <= INR n * INR n * u /\ 0 <= INR n * INR n * sg /\ recurrence_error n u sg <= / 100 /\ om <= / 400 /\ gam <= / 200 /\ 0 < u <= / 2600.
Proof.
  pose proof (u_small u eta e Hs) as Pu. destruct gam_pos as [Pg _]. unfold coefficient_error in Hce. unfold recurrence_error.
  assert (P : 0 <= INR n * INR n) by (apply Rmult_le_pos; apply pos_INR).
  assert (P1 : 0 <= INR n * INR n * u) by (apply Rmult_le_pos; lra). assert (P2 : 0 <= INR n * INR n * sg) by (apply Rmult_le_pos; lra).
  repeat split; try lra.
Qed.
Lemma eta_below x : / 10 ^ 200 <= x -> eta <= u * x / 1000.
Proof.
  intros Hx. destruct Hs as (Hu & _ & He & Hb). assert (P : 0 < 10 ^ 200) by (apply pow_lt; lra). assert (P1 : 0 < 10 ^ 100) by (apply pow_lt; lra).
  assert (E : 10 ^ 300 = 10 ^ 200 * 10 ^ 100) by (rewrite <- pow_add; reflexivity).
  assert (T : 1000 <= 10 ^ 100) by (apply Rle_trans with (10 ^ 3); [lra|apply Rle_pow; [lra|lia]]).
  assert (U : 0 <= u). { assert (0 < / 10 ^ 90) by (apply Rinv_0_lt_compat, pow_lt; lra). lra. }
  assert (A : u * / 10 ^ 200 <= u * x) by (apply Rmult_le_compat_l; auto).
  assert (B : eta * 1000 <= u * / 10 ^ 200).
  { apply (Rmult_le_reg_r (10 ^ 200)); [exact P|]. rewrite Rmult_assoc, (Rmult_assoc u), Rinv_l, Rmult_1_r by lra.
    apply Rle_trans with (eta * 10 ^ 300); [|exact Hb]. apply Rmult_le_compat_l; [exact He|]. rewrite E.
    rewrite Rmult_comm. apply Rmult_le_compat_l; lra. }
  lra.
Qed.
Lemma below_all i j : (i < m)%nat -> (j < n)%nat ->
  let w := nth j (Gauss.rw q) 0 in let L := nth (S i) segs 0 - nth i segs 0 in
  / 10 ^ 200 <= w /\ / 10 ^ 200 <= L /\ / 10 ^ 200 <= sqrt (/ 2 * L) /\ / 10 ^ 200 <= sqrt (w * (L / 2)) /\ 0 < w /\ 0 < L <= 2.
Proof.
  intros Hi Hj w L. destruct Hq as (_ & _ & K). destruct (K j Hj) as (Kw & _). fold w in Kw.
  pose proof (e_gap segs Hsegs i Hi) as Kg. pose proof (e_in segs Hsegs i ltac:(lia)) as Ka. pose proof (e_in segs Hsegs (S i) ltac:(lia)) as Kb.
  unfold gap in Kg. assert (Kl : / 10 ^ 100 <= L) by (unfold L; lra). assert (K2 : L <= 2) by (unfold L; lra). clearbody w L.
  assert (P : forall i, 0 < / 10 ^ i) by (intros; apply Rinv_0_lt_compat, pow_lt; lra).
  assert (Mn : forall a b, (a <= b)%nat -> / 10 ^ b <= / 10 ^ a) by (intros; apply Rinv_le_contravar; [apply pow_lt; lra|apply Rle_pow; [lra|auto]]).
  pose proof (Mn 20%nat 200%nat ltac:(lia)) as M1. pose proof (Mn 100%nat 200%nat ltac:(lia)) as M2. pose proof (P 20%nat) as P1. pose proof (P 100%nat) as P2.
  assert (R : forall x, / 10 ^ 122 <= x -> / 10 ^ 200 <= sqrt x).
  { intros x Hx. destruct (Rle_lt_dec 1 x) as [H|H].
    - apply Rle_trans with 1; [rewrite <- Rinv_1; apply Rinv_le_contravar; [lra|apply pow_R1_Rle; lra]|]. rewrite <- sqrt_1. apply sqrt_le_1_alt. exact H.
    - pose proof (P 122%nat). apply Rle_trans with x; [pose proof (Mn 122%nat 200%nat ltac:(lia)); lra|].
      rewrite <- (sqrt_Rsqr x) at 1 by lra. apply sqrt_le_1_alt. unfold Rsqr. rewrite <- (Rmult_1_r x) at 3. apply Rmult_le_compat_l; lra. }
  assert (H2 : / 10 ^ 101 <= / 2 * L).
  { replace (10 ^ 101) with (10 * 10 ^ 100) by (rewrite <- (pow_1 10) at 1; rewrite <- pow_add; reflexivity). rewrite Rinv_mult. lra. }
  assert (H3 : / 10 ^ 121 <= w * (L / 2)).
  { replace (10 ^ 121) with (10 ^ 20 * 10 ^ 101) by (rewrite <- pow_add; reflexivity). rewrite Rinv_mult. pose proof (P 101%nat). apply Rmult_le_compat; lra. }
  pose proof (Mn 101%nat 122%nat ltac:(lia)). pose proof (Mn 121%nat 122%nat ltac:(lia)).
  split; [lra|]. split; [lra|]. split; [apply R; lra|]. split; [apply R; lra|]. split; lra.
Qed.

Lemma total_two : sumn n (fun j => nth j (Gauss.rw q) 0) = 2.
Proof.
  destruct Hq as (Hq' & _). pose proof (gauss_total n q Hq') as T. rewrite ComputePost.rsum_nth in T. destruct Hq' as (_ & _ & Lw & _). rewrite Lw in T. exact T.
Qed.

(** The part of the vector and its norm. *)
Lemma part_bound i : sumn n (fun j => sqrt (nth j (Gauss.rw q) 0) * Rabs (nth (i * n + j) vec 0)) <= sqrt 2 * part_norm n vec i.
Proof.
  pose proof (cauchy n (fun j => sqrt (nth j (Gauss.rw q) 0)) (fun j => Rabs (nth (i * n + j) vec 0))) as C. unfold ip in C.
  unfold part_norm. rewrite <- sqrt_mult_alt by lra. eapply Rle_trans; [apply Rle_abs|]. rewrite <- sqrt_Rsqr_abs. apply sqrt_le_1_alt.
  eapply Rle_trans; [exact C|]. right. f_equal.
  - rewrite <- total_two. apply sumn_ext. intros j Hj. apply sqrt_sqrt. destruct Hq as (_ & _ & K). destruct (K j Hj) as (Kw & _). assert (0 < / 10 ^ 20) by (apply Rinv_0_lt_compat, pow_lt; lra). lra.
  - apply sumn_ext. intros j _. unfold Rsqr. rewrite <- Rabs_mult. apply Rabs_pos_eq. apply Rle_0_sqr.
Qed.

Theorem coefficient_near k i : (k < n)%nat -> (i < m)%nat ->
  Rabs (collocate_rd rw ro dot n r segs (sqrtw_rd rw g) vec k i - collocate n q segs (sqrtw G) vec k i)
  <= (2 * INR k + 1) * (coefficient_error n u sg om gam * part_norm n vec i + 5 * (eta + th)).
Proof.
  intros Hk Hi. pose proof (u_small u eta e Hs) as Pu. destruct small_e as (E1 & E2 & E3 & E4 & E5 & E6). destruct gam_pos as [Pg Pt].
  destruct (piecewise_round u eta e rw Hs Hrw n q r sg om rho segs G Hq Hr Hsg Hom Hrho Hsegs HG) as (g' & Eg & Ng & _). rewrite Hg in Eg. injection Eg as <-.
  destruct (G_len n q segs G Hq Hsegs HG) as [Lx Lw]. pose proof Ng as (_ & _ & N1 & N2 & _ & _ & NW). rewrite Lx in NW. rewrite Lw in N2.
  pose proof Hr as (_ & _ & R1 & R2 & _ & _ & RN). destruct Hq as (Hq' & _). pose proof Hq' as (_ & Qx & Qw & (_ & Qi) & _). rewrite Qx in RN. pose proof Hq' as (_ & _ & _ & _ & _ & Qa & Qb & _).
  rewrite Qa, Qb in Qi. rewrite Forall_forall in Qi.
  assert (He : 0 <= eta <= u / 1000). { split; [apply Hs|]. pose proof (eta_below 1) as B. rewrite Rmult_1_r in B. apply B. rewrite <- Rinv_1. apply Rinv_le_contravar; [lra|apply pow_R1_Rle; lra]. }
  set (L := nth (S i) segs 0 - nth i segs 0). set (H := sqrt (/ 2 * L)).
  destruct (below_all i k Hi Hk) as (_ & BL & BH & _ & _ & PL). fold L in BL, BH, PL. fold H in BH.
  assert (HH : 0 < H <= 1). { split; [apply sqrt_lt_R0; lra|]. rewrite <- sqrt_1. apply sqrt_le_1_alt. lra. }
  set (E := recurrence_error n u sg) in *. set (D := 1001 / 1000 * E + om + 21 / 10 * u). set (T := 102 / 100 * (om + 5 * u + 102 / 100 * u) + 102 / 100 * u).
  assert (PE : 0 <= E) by (unfold E, recurrence_error; lra).
  set (w j := nth j (Gauss.rw q) 0). set (a j := nth (i * n + j) vec 0). set (P j := legP k (nth j (rx q) 0)).
  set (Ch j := collocation_rd rw r k j). set (uh j := nth (i * n + j) (map2 (fun a w => rw (a / w)) vec (sqrtw_rd rw g)) 0).
  set (X := dot k i (map (collocation_rd rw r k) (seq 0 n)) (map uh (seq 0 n))).
  set (qq := INR k + / 2). assert (Pq : / 2 <= qq) by (unfold qq; pose proof (pos_INR k); lra).
  assert (Wj : forall j, (j < n)%nat -> 0 < w j) by (intros j Hj; apply (below_all i j Hi Hj)).
  assert (SW : forall j, (j < n)%nat -> sqrt (w j * (L / 2)) = sqrt (w j) * H).
  { intros j Hj. unfold H. replace (w j * (L / 2)) with (w j * (/ 2 * L)) by field. apply sqrt_mult_alt. left. apply Wj. exact Hj. }
  assert (Pn : forall j, (j < n)%nat -> -1 <= nth j (rx q) 0 <= 1). { intros j Hj. pose proof (Qi (nth j (rx q) 0)) as Q. assert (In (nth j (rx q) 0) (rx q)) by (apply nth_In; lia). specialize (Q H0). lra. }
  assert (HP : forall j, (j < n)%nat -> Rabs (P j) <= 1) by (intros j Hj; apply legP_le1; auto).
  assert (HC : forall j, (j < n)%nat -> Rabs (Ch j - qq * P j * w j) <= qq * w j * D).
  { intros j Hj. destruct (RN j Hj) as (X1 & X2 & _). unfold Ch, collocation_rd, qq, P, w, D. apply (entry_near u eta rw (proj1 Hrw) ltac:(lra)); auto.
    - apply Wj. exact Hj.
    - apply eta_below. apply (below_all i j Hi Hj).
    - apply HP. exact Hj.
    - apply (vander_near u eta rw (proj1 Hrw) ltac:(lra) He _ (nth j (rx q) 0) sg (Pn j Hj) Hsg X1); auto. }
  assert (HU : forall j, (j < n)%nat -> Rabs (uh j - a j / (sqrt (w j) * H)) <= T * Rabs (a j / (sqrt (w j) * H)) + eta).
  { intros j Hj. unfold uh. assert (Hp : (i * n + j < m * n)%nat) by nia. destruct (NW (i * n + j)%nat Hp) as (_ & X2 & _).
    rewrite (map2_nth _ _ _ _ 0 0 0) by (unfold sqrtw_rd; rewrite ?map_length; lia). unfold sqrtw_rd. rewrite (nth_map_in _ _ _ 0 0) by lia. fold (a j).
    destruct (G_at n q segs G Hq Hsegs HG i j Hi Hj) as [_ GW]. fold (w j) in GW. fold L in GW. rewrite GW in X2. rewrite <- (SW j Hj).
    destruct (below_all i j Hi Hj) as (_ & _ & _ & BW & _ & _). fold (w j) in BW. fold L in BW.
    pose proof (Wj j Hj) as PW. assert (PW2 : 0 < w j * (L / 2)) by (apply Rmult_lt_0_compat; lra).
    pose proof (root_near u eta rw (proj1 Hrw) ltac:(lra) He (om + 5 * u) _ _ PW2 ltac:(lra) X2 (eta_below _ BW)) as Rt.
    unfold T. apply (quotient_near u eta rw (proj1 Hrw) ltac:(lra)); [apply sqrt_lt_R0; exact PW2|lra|exact Rt]. }
  assert (HX : Rabs (X - sumn n (fun j => Ch j * uh j)) <= gam * sumn n (fun j => Rabs (Ch j) * Rabs (uh j)) + th).
  { destruct (Hdot k i) as (_ & _ & DD). unfold X. specialize (DD (map (collocation_rd rw r k) (seq 0 n)) (map uh (seq 0 n))). rewrite !map_length, seq_length in DD. specialize (DD eq_refl (le_n n)).
    rewrite (sumn_ext n (fun j => Ch j * uh j) (fun j => nth j (map (collocation_rd rw r k) (seq 0 n)) 0 * nth j (map uh (seq 0 n)) 0)).
    - rewrite (sumn_ext n (fun j => Rabs (Ch j) * Rabs (uh j)) (fun j => Rabs (nth j (map (collocation_rd rw r k) (seq 0 n)) 0) * Rabs (nth j (map uh (seq 0 n)) 0))).
      + exact DD.
      + intros j Hj. rewrite !(nth_map_in _ _ _ 0%nat 0) by (rewrite seq_length; auto). rewrite seq_nth by auto. reflexivity.
    - intros j Hj. rewrite !(nth_map_in _ _ _ 0%nat 0) by (rewrite seq_length; auto). rewrite seq_nth by auto. reflexivity. }
  assert (HHh : Rabs (rw (sqrt (rw (/ 2 * rw L))) - H) <= 4 * u * H) by (apply (half_length_near u eta rw (proj1 Hrw) ltac:(lra) He); [lra|apply eta_below; auto|apply eta_below; auto]).
  pose proof (coef_near u eta rw (proj1 Hrw) ltac:(lra) He n qq D T gam th H X w a P Ch uh Pq ltac:(unfold D; lra) ltac:(unfold T; lra) ltac:(lra) Pt HH Wj total_two HP HC HU HX
    (rw (sqrt (rw (/ 2 * rw L)))) HHh ltac:(unfold D, T; lra) ro (proj1 Hro)) as Main.
  assert (EC : collocate n q segs (sqrtw G) vec k i = sumn n (fun j => qq * P j * w j * (a j / (sqrt (w j) * H))) * H).
  { unfold collocate. fold L. fold H. f_equal. apply sumn_ext. intros j Hj. unfold legendre_collocation. fold (P j) (w j) qq.
    rewrite (map2_nth _ _ _ _ 0 0 0) by (unfold sqrtw; rewrite ?map_length; nia). unfold sqrtw. rewrite (nth_map_in _ _ _ 0 0) by nia. destruct (G_at n q segs G Hq Hsegs HG i j Hi Hj) as [_ GW]. fold (w j) in GW. fold L in GW.
    rewrite GW, (SW j Hj). fold (a j). ring. }
  assert (ER : collocate_rd rw ro dot n r segs (sqrtw_rd rw g) vec k i = ro (rw (X * rw (sqrt (rw (/ 2 * rw L)))))) by reflexivity.
  rewrite EC, ER. eapply Rle_trans; [exact Main|]. pose proof (part_bound i) as PB. set (Sm := sumn n (fun j => sqrt (w j) * Rabs (a j))) in *.
  change (sumn n (fun j => sqrt (nth j (Gauss.rw q) 0) * Rabs (nth (i * n + j) vec 0))) with Sm in PB.
  set (pn := part_norm n vec i) in *. assert (Pp : 0 <= pn) by apply sqrt_pos.
  assert (S2 : sqrt 2 <= 1415 / 1000). { rewrite <- (sqrt_Rsqr (1415 / 1000)) by lra. apply sqrt_le_1_alt. unfold Rsqr. lra. }
  assert (PB2 : Sm <= 1415 / 1000 * pn) by (eapply Rle_trans; [exact PB|apply Rmult_le_compat_r; lra]).
  set (gg := 102 / 100 * D + T + 104 / 100 * gam + 8 * u). assert (Gp : 0 <= gg) by (unfold gg, D, T; lra).
  assert (M1 : gg * Sm <= gg * (1415 / 1000 * pn)) by (apply Rmult_le_compat_l; lra).
  assert (M2 : gg * (1415 / 1000) <= 2 * coefficient_error n u sg om gam). { unfold gg, D, T, E, recurrence_error, coefficient_error. lra. }
  assert (M3 : gg * (1415 / 1000) * pn <= 2 * coefficient_error n u sg om gam * pn) by (apply Rmult_le_compat_r; lra).
  assert (M4 : qq * (gg * Sm) <= qq * (2 * coefficient_error n u sg om gam * pn)) by (apply Rmult_le_compat_l; lra).
  assert (M5 : (3 * qq + 2) * (eta + th) <= 10 * qq * (eta + th)) by (apply Rmult_le_compat_r; lra).
  replace (2 * INR k + 1) with (2 * qq) by (unfold qq; field). lra.
Qed.
End Segment.
