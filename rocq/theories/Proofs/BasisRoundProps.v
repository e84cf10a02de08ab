(** Proofs of C98. *)
From Coq Require Import Reals ZArith Arith Bool Lra Lia Psatz String.
From Flocq Require Import Core.
From Coquelicot Require Import Coquelicot.
From Coq Require Import List Sorting.Sorted.
From Verif.Model Require Import Base Util Num IEEE Poly PolyIEEE FT FTIEEE SVE Basis BasisIEEE.
From Verif.Spec Require Import SPoly SFT SSVE SBasis SKernelIEEE SGaussIEEE SPolyIEEE SSVEIEEE SFTIEEE SBasisIEEE.
From Verif.Proofs Require Import BaseFacts UtilFacts SumFacts LegFacts PPolyFacts SVEFacts KernelRoundCall FTFacts FTModel FTCall FTProps BasisFacts BasisInit BasisPhys GaussRound PolyRound FTRound FTRoundSum FTRoundProps BasisRoundPiece BasisRoundGeom BasisRound BasisProps.
Import ListNotations.
Open Scope R_scope.
Notation length := List.length.

Section Rounded.
Variables (u eta : R) (rd : R -> R).
Hypothesis Hrd : rounding u eta rd.
Hypothesis Hu : 0 < u <= / 10000.
Hypothesis He : 0 <= eta.

Let Hr : forall x, Rabs (rd x - x) <= u * Rabs x + eta := proj1 Hrd.

(** * Chains of rounded operations *)
Lemma step Q x e : 0 < Q -> 1000 * eta <= u * Q -> 0 <= e <= / 10 -> Rabs (x - Q) <= e * Q -> Rabs (rd x - Q) <= (e + 12 / 10 * u) * Q.
Proof.
  intros PQ F E H. pose proof (Hr x) as A. assert (B : Rabs x <= (1 + e) * Q).
  { replace x with ((x - Q) + Q) by ring. eapply Rle_trans; [apply Rabs_triang|]. rewrite (Rabs_pos_eq Q) by lra. lra. }
  assert (e * Q <= / 10 * Q) by (apply Rmult_le_compat_r; lra). assert (u * Rabs x <= u * (11 / 10 * Q)) by (apply Rmult_le_compat_l; lra).
  replace (rd x - Q) with ((rd x - x) + (x - Q)) by ring. eapply Rle_trans; [apply Rabs_triang|]. lra.
Qed.
Lemma scale_r Q x e c : 0 < c -> Rabs (x - Q) <= e * Q -> Rabs (x * c - Q * c) <= e * (Q * c).
Proof. intros Hc H. replace (x * c - Q * c) with ((x - Q) * c) by ring. rewrite Rabs_mult, (Rabs_pos_eq c) by lra. apply (Rmult_le_compat_r c) in H; lra. Qed.
Lemma sqrt_step Q x e : 0 < Q -> 0 <= e <= / 10 -> Rabs (x - Q) <= e * Q -> Rabs (sqrt x - sqrt Q) <= e * sqrt Q.
Proof.
  intros PQ E H. assert (e * Q <= / 10 * Q) by (apply Rmult_le_compat_r; lra). apply Rabs_le_between in H. assert (Px : 0 < x) by lra.
  pose proof (sqrt_lt_R0 Q PQ) as SQ. pose proof (sqrt_lt_R0 x Px) as SX.
  apply (Rmult_le_reg_r (sqrt x + sqrt Q)); [lra|]. rewrite <- (Rabs_pos_eq (sqrt x + sqrt Q)) at 1 by lra. rewrite <- Rabs_mult.
  replace ((sqrt x - sqrt Q) * (sqrt x + sqrt Q)) with (sqrt x * sqrt x - sqrt Q * sqrt Q) by ring. rewrite !sqrt_sqrt by lra.
  apply Rle_trans with (e * Q); [apply Rabs_le; lra|]. rewrite <- (sqrt_sqrt Q) at 1 by lra.
  replace (e * sqrt Q * (sqrt x + sqrt Q)) with (e * (sqrt Q * sqrt Q) + e * (sqrt Q * sqrt x)) by ring.
  assert (0 <= e * (sqrt Q * sqrt x)) by (apply Rmult_le_pos; [lra|apply Rmult_le_pos; lra]). lra.
Qed.

Lemma factor_near ep pw beta wmax yp : power_near ep pw -> 0 <= ep <= / 100 -> 0 < beta -> 0 < wmax ->
  1000 * eta <= u * (beta / 2) -> 1000 * eta <= u * (beta / 2 * wmax) -> 1000 * eta <= u * sqrt (beta / 2 * wmax) ->
  1000 * eta <= u * (sqrt (beta / 2 * wmax) * powerRZ wmax (- yp)) ->
  Rabs (s_factor rd pw beta wmax yp - sqrt (beta / 2 * wmax) * powerRZ wmax (- yp)) <= (49 / 10 * u + ep) * (sqrt (beta / 2 * wmax) * powerRZ wmax (- yp)).
Proof.
  intros Hp Ep Hb Hw F1 F2 F3 F4. set (T := beta / 2) in *. assert (PT : 0 < T) by (unfold T; lra).
  assert (PTw : 0 < T * wmax) by (apply Rmult_lt_0_compat; lra). pose proof (sqrt_lt_R0 _ PTw) as PS. pose proof (powerRZ_lt wmax (- yp) Hw) as PW.
  assert (A1 : Rabs (rd T - T) <= (0 + 12 / 10 * u) * T) by (apply step; try lra; rewrite Rminus_eq_0, Rabs_R0; lra).
  apply (scale_r _ _ _ wmax Hw) in A1. apply (step _ _ _ PTw F2) in A1; [|lra]. apply sqrt_step in A1; [|lra|lra].
  apply (step _ _ _ PS F3) in A1; [|lra]. unfold s_factor. fold T. set (x := rd (sqrt _)) in *. set (S := sqrt (T * wmax)) in *. set (W := powerRZ wmax (- yp)) in *.
  specialize (Hp wmax (- yp)%Z Hw). fold W in Hp. set (w := pw wmax (- yp)%Z) in *.
  assert (A2 : Rabs (x * w - S * W) <= (37 / 10 * u + ep) * (S * W)).
  { replace (x * w - S * W) with ((x - S) * w + S * (w - W)) by ring. eapply Rle_trans; [apply Rabs_triang|]. rewrite !Rabs_mult, (Rabs_pos_eq S) by lra.
    assert (B : Rabs w <= 101 / 100 * W). { replace w with ((w - W) + W) by ring. eapply Rle_trans; [apply Rabs_triang|]. rewrite (Rabs_pos_eq W) by lra. assert (ep * W <= / 100 * W) by (apply Rmult_le_compat_r; lra). lra. }
    assert (Rabs (x - S) * Rabs w <= (0 + 12 / 10 * u + 12 / 10 * u + 12 / 10 * u) * S * (101 / 100 * W)) by (apply Rmult_le_compat; auto using Rabs_pos).
    assert (S * Rabs (w - W) <= S * (ep * W)) by (apply Rmult_le_compat_l; lra).
    assert (0 <= u * (S * W)) by (apply Rmult_le_pos; [lra|apply Rmult_le_pos; lra]). lra. }
  apply (step _ _ _ (Rmult_lt_0_compat _ _ PS PW) F4) in A2; [|lra]. lra.
Qed.

Section Built.
Variables (pw : R -> Z -> R) (compute : kern -> option R -> res sve_result) (b : basis).
Hypothesis Hb : built_rd u eta rd pw compute b.
Let r := bsve b.

Lemma built_rd_inv : exists q e ms lam f,
  0 < bbeta b /\ 0 < bwmax b /\ expansion_near u eta r /\
  (0 < length (bs b) <= length (ss r))%nat /\ length (bs b) = part_size (ss r) (cut_eps rd e (ss r)) ms /\
  bacc b = acc_rd rd (ss r) (length (bs b)) /\
  bu b = VPoly (u_moved rd (bbeta b) r) (firstn (length (bs b)) (vcols (su r))) /\ weakly (gknots (u_moved rd (bbeta b) r)) /\
  bv b = VPoly (v_moved rd (bwmax b) r) (firstn (length (bs b)) (vcols (sv r))) /\ weakly (gknots (v_moved rd (bwmax b) r)) /\
  bs b = map (fun x => rd (s_factor rd pw (bbeta b) (bwmax b) (kyp (bkernel b)) * x)) (firstn (length (bs b)) (ss r)) /\
  klam (bkernel b) = Some lam /\ even_odd (bstat b) = Ok q /\
  ft_init (full_rd rd r (bbeta b)) q (AsympAt (rd (40 * lam))) None = Ok f /\ ft_slice f (Z.of_nat (length (bs b))) = Ok (buhat b).
Proof.
  unfold r. destruct Hb as (st & beta & wmax & eps & ms & ker & sve & H & Hok & Hw).
  destruct (basis_rd_inv u eta rd pw compute _ _ _ _ _ _ _ _ H Hok) as (k & r0 & lam & q & e & n & f & f' & B & _ & _ & _ & Ex & _ & Hn & Hl & Kl & Q & Wu & Wv & F & F' & ->).
  exists q, e, ms, lam, f. cbn [the_basis_rd bbeta bwmax bsve bs bacc bu bv bkernel bstat buhat].
  rewrite map_length, firstn_length_le by lia. repeat (split; [first [assumption|reflexivity]|]). assumption.
Qed.

Lemma rd_sizes : (0 < length (bs b) <= length (ss r))%nat /\ length (vcols (bu b)) = length (bs b) /\ length (vcols (bv b)) = length (bs b) /\ length (fcols (buhat b)) = length (bs b).
Proof.
  destruct built_rd_inv as (q & e & ms & lam & f & _ & _ & Ex & Hl & _ & _ & Eu & _ & Ev & _ & _ & _ & _ & F & F'). destruct Ex as (_ & _ & Lu & Lv & _).
  split; [exact Hl|]. rewrite Eu, Ev. cbn [vcols]. rewrite !firstn_length_le by lia. split; [reflexivity|]. split; [reflexivity|].
  destruct (ft_slice_some _ _ _ _ (Z.of_nat (length (bs b))) F) as (f' & E' & _ & E & _). rewrite E' in F'. injection F' as <-. rewrite E, slice_nat. cbn [full_rd vcols].
  rewrite firstn_length_le; [reflexivity|]. unfold scaled_cols_rd. rewrite map_length. lia.
Qed.

Lemma rd_singular ep l : power_near ep pw -> 0 <= ep <= / 100 ->
  1000 * eta <= u * (bbeta b / 2) -> 1000 * eta <= u * (bbeta b / 2 * bwmax b) -> 1000 * eta <= u * sqrt (bbeta b / 2 * bwmax b) ->
  1000 * eta <= u * (sqrt (bbeta b / 2 * bwmax b) * powerRZ (bwmax b) (- kyp (bkernel b))) -> (l < length (bs b))%nat ->
  let s := sqrt (bbeta b / 2 * bwmax b) * powerRZ (bwmax b) (- kyp (bkernel b)) * nth l (ss r) 0 in
  Rabs (nth l (bs b) 0 - s) <= (6 * u + ep) * s + eta.
Proof.
  intros Hp Ep F1 F2 F3 F4 Hl. cbv zeta. destruct built_rd_inv as (q & e & ms & lam & f & Pb & Pw & Ex & Hn & _ & _ & _ & _ & _ & _ & Es & _).
  pose proof (factor_near ep pw (bbeta b) (bwmax b) (kyp (bkernel b)) Hp Ep Pb Pw F1 F2 F3 F4) as A.
  set (n := length (bs b)) in *. rewrite Es. set (C' := s_factor _ _ _ _ _) in *. set (C := sqrt _ * powerRZ _ _) in *.
  assert (PC : 0 < C). { unfold C. apply Rmult_lt_0_compat; [apply sqrt_lt_R0, Rmult_lt_0_compat; lra|apply powerRZ_lt; exact Pw]. }
  rewrite (nth_indep _ 0 (rd (C' * 0))) by (rewrite map_length, firstn_length_le; lia).
  rewrite (map_nth (fun x => rd (C' * x))), nth_firstn by exact Hl. set (s := nth l (ss r) 0).
  assert (Ps : 0 < s). { destruct Ex as (_ & _ & _ & _ & _ & P & _). rewrite Forall_forall in P. apply P, nth_In. lia. }
  apply (scale_r _ _ _ s Ps) in A. assert (PCs : 0 < C * s) by (apply Rmult_lt_0_compat; auto). pose proof (Hr (C' * s)) as B.
  assert (D : Rabs (C' * s) <= 102 / 100 * (C * s)).
  { replace (C' * s) with ((C' * s - C * s) + C * s) by ring. eapply Rle_trans; [apply Rabs_triang|]. rewrite (Rabs_pos_eq (C * s)) by lra.
    assert ((49 / 10 * u + ep) * (C * s) <= 2 / 100 * (C * s)) by (apply Rmult_le_compat_r; lra). lra. }
  assert (u * Rabs (C' * s) <= u * (102 / 100 * (C * s))) by (apply Rmult_le_compat_l; lra).
  replace (rd (C' * s) - C * s) with ((rd (C' * s) - C' * s) + (C' * s - C * s)) by ring. eapply Rle_trans; [apply Rabs_triang|].
  assert (0 <= u * (C * s)) by (apply Rmult_le_pos; lra). lra.
Qed.

Lemma rd_accuracy : let a := nth (Nat.min (length (bs b)) (length (ss r) - 1)) (ss r) 0 / nth 0 (ss r) 0 in Rabs (bacc b - a) <= u * a + eta.
Proof.
  cbv zeta. destruct built_rd_inv as (q & e & ms & lam & f & Pb & Pw & Ex & Hn & _ & Ea & _). rewrite Ea. unfold acc_rd.
  assert (E : acc_val (ss r) (length (bs b)) = nth (Nat.min (length (bs b)) (length (ss r) - 1)) (ss r) 0 / nth 0 (ss r) 0).
  { unfold acc_val. destruct (Nat.ltb_spec (length (bs b)) (length (ss r))) as [H|H]; do 2 f_equal; lia. }
  rewrite E. set (a := _ / _). assert (P : 0 <= a).
  { destruct Ex as (_ & _ & _ & _ & _ & P & _). rewrite Forall_forall in P. left. apply Rdiv_lt_0_compat; apply P, nth_In; lia. }
  pose proof (Hr a) as B. rewrite (Rabs_pos_eq a P) in B. exact B.
Qed.

Lemma half_near : Rabs (rd (bbeta b / 2) - bbeta b / 2) <= u * (bbeta b / 2) + eta.
Proof. destruct built_rd_inv as (q & e & ms & lam & f & Pb & _). pose proof (Hr (bbeta b / 2)) as A. rewrite (Rabs_pos_eq (bbeta b / 2)) in A by lra. exact A. Qed.
Lemma shift1 x : Rabs (rd (x + 1) - (x + 1)) <= u * Rabs (x + 1) + eta.
Proof. apply Hr. Qed.
Lemma wmax_near : Rabs (bwmax b - bwmax b) <= u * bwmax b + eta.
Proof. destruct built_rd_inv as (q & e & ms & lam & f & _ & Pw & _). rewrite Rminus_eq_0, Rabs_R0. assert (0 <= u * bwmax b) by (apply Rmult_le_pos; lra). lra. Qed.
Lemma shift0 x : Rabs (x - (x + 0)) <= u * Rabs (x + 0) + eta.
Proof. replace (x - (x + 0)) with 0 by ring. rewrite Rabs_R0. assert (0 <= u * Rabs (x + 0)) by (apply Rmult_le_pos; [lra|apply Rabs_pos]). lra. Qed.

Lemma sqrt_scale beta : 0 < beta -> / sqrt (beta / 2) = sqrt (2 / beta).
Proof. intros H. rewrite <- sqrt_inv. f_equal. field. lra. Qed.

Lemma forall2_nth {A B} (P : A -> B -> Prop) l l' : Forall2 P l l' -> length l' = length l /\ forall i x y, nth_error l i = Some x -> nth_error l' i = Some y -> P x y.
Proof.
  induction 1 as [|x y l l' H F [IH1 IH2]]; [split; [reflexivity|intros [|i]; discriminate]|]. split; [cbn; lia|].
  intros [|i] x' y'; cbn; [intros [= <-] [= <-]; exact H|apply IH2].
Qed.

Lemma rd_u_val old i t : fair_scale u eta (bbeta b / 2) (vgeom (su r)) -> in_segment (vgeom (bu b)) i t -> shifted_loss 1 (vgeom (su r)) i * u <= 1 ->
  exists x ys, Rabs (x - (2 * t / bbeta b - 1)) <= 32 / 10 * (u * outer 1 (vgeom (su r)) i) /\
    knot (vgeom (su r)) i <= x <= knot (vgeom (su r)) (S i) /\
    vcall_rd old rd (bu b) t = Ok ys /\ length ys = length (bs b) /\
    forall l c y, nth_error (vcols (su r)) l = Some c -> nth_error ys l = Some y ->
      Rabs (y - sqrt (2 / bbeta b) * seg_fun (vgeom (su r)) c i x) <= moved_error u eta (bbeta b / 2) 1 (vgeom (su r)) c i.
Proof.
  intros Hf Hi Hl. destruct built_rd_inv as (q & e & ms & lam & f & Pb & Pw & Ex & Hn & _ & _ & Eu & Wu & _). pose proof half_near as Hh.
  destruct Ex as (Su & _ & Lu & _). assert (HT : 0 < bbeta b / 2) by lra. rewrite Eu in *. cbn [vgeom] in Hi.
  assert (Hi' := Hi). destruct Hi' as (Hi' & _). cbn [u_moved moved_geom gnseg] in Hi'.
  pose proof (moved_point u eta rd Hrd Hu (bbeta b / 2) 1 (rd (bbeta b / 2)) (fun x => rd (x + 1)) HT Hh shift1 (su r) Su Hf i t Hi) as A.
  destruct (moved_call u eta rd Hrd Hu He (bbeta b / 2) 1 (rd (bbeta b / 2)) (fun x => rd (x + 1)) HT Hh shift1 (su r) Su Hf old (firstn (length (bs b)) (vcols (su r))) i t Wu Hi) as (ys & Y & F); [|exact Hl|].
  { destruct Su as (_ & _ & _ & _ & S5 & S6). lia. }
  apply forall2_nth in F. destruct F as [Ly F]. rewrite firstn_length_le in Ly by lia.
  assert (Et : t / (bbeta b / 2) - 1 = 2 * t / bbeta b - 1) by (field; lra). rewrite Et in *. rewrite sqrt_scale in F by exact Pb.
  eexists _, ys. split; [exact A|]. split.
  { destruct Su as ((_ & L & S & _) & _). unfold knot. pose proof (PPolyFacts.sorted_nth_lt _ i (Datatypes.S i) S ltac:(lia)) as Lt. unfold nearest.
    split; [apply Rmax_l|]. apply Rmax_lub; [left; exact Lt|apply Rmin_l]. }
  split; [exact Y|]. split; [exact Ly|]. intros l c y Hc Hy. apply (F l); auto. rewrite nth_error_firstn; auto. rewrite <- Ly. apply nth_error_Some. congruence.
Qed.

Lemma rd_v_val old i w : fair_scale u eta (bwmax b) (vgeom (sv r)) -> in_segment (vgeom (bv b)) i w -> shifted_loss 0 (vgeom (sv r)) i * u <= 1 ->
  exists y ys, Rabs (y - w / bwmax b) <= 32 / 10 * (u * outer 0 (vgeom (sv r)) i) /\
    knot (vgeom (sv r)) i <= y <= knot (vgeom (sv r)) (S i) /\
    vcall_rd old rd (bv b) w = Ok ys /\ length ys = length (bs b) /\
    forall l c v, nth_error (vcols (sv r)) l = Some c -> nth_error ys l = Some v ->
      Rabs (v - / sqrt (bwmax b) * seg_fun (vgeom (sv r)) c i y) <= moved_error u eta (bwmax b) 0 (vgeom (sv r)) c i.
Proof.
  intros Hf Hi Hl. destruct built_rd_inv as (q & e & ms & lam & f & Pb & Pw & Ex & Hn & _ & _ & _ & _ & Ev & Wv & _). pose proof wmax_near as Hh.
  destruct Ex as (_ & Sv & _ & Lv & _). rewrite Ev in *. cbn [vgeom] in Hi.
  assert (Hi' := Hi). destruct Hi' as (Hi' & _). cbn [v_moved moved_geom gnseg] in Hi'.
  pose proof (moved_point u eta rd Hrd Hu (bwmax b) 0 (bwmax b) (fun x => x) Pw Hh shift0 (sv r) Sv Hf i w Hi) as A.
  destruct (moved_call u eta rd Hrd Hu He (bwmax b) 0 (bwmax b) (fun x => x) Pw Hh shift0 (sv r) Sv Hf old (firstn (length (bs b)) (vcols (sv r))) i w Wv Hi) as (ys & Y & F); [|exact Hl|].
  { destruct Sv as (_ & _ & _ & _ & S5 & S6). lia. }
  apply forall2_nth in F. destruct F as [Ly F]. rewrite firstn_length_le in Ly by lia.
  rewrite Rminus_0_r in *. eexists _, ys. split; [exact A|]. split.
  { destruct Sv as ((_ & L & S & _) & _). unfold knot. pose proof (PPolyFacts.sorted_nth_lt _ i (Datatypes.S i) S ltac:(lia)) as Lt. unfold nearest.
    split; [apply Rmax_l|]. apply Rmax_lub; [left; exact Lt|apply Rmin_l]. }
  split; [exact Y|]. split; [exact Ly|]. intros l c y Hc Hy. apply (F l); auto. rewrite nth_error_firstn; auto. rewrite <- Ly. apply nth_error_Some. congruence.
Qed.

Lemma rd_covers :
  (forall t, gxmin (vgeom (bu b)) <= t <= gxmax (vgeom (bu b)) -> exists i, in_segment (vgeom (bu b)) i t) /\
  (forall w, gxmin (vgeom (bv b)) <= w <= gxmax (vgeom (bv b)) -> exists i, in_segment (vgeom (bv b)) i w).
Proof.
  destruct built_rd_inv as (q & e & ms & lam & f & Pb & Pw & Ex & _ & _ & _ & Eu & Wu & Ev & Wv & _). destruct Ex as (((N & L & _) & _) & ((N' & L' & _) & _) & _).
  rewrite Eu, Ev. cbn [vgeom]. split; intros x; apply weak_covers; auto; cbn [u_moved v_moved moved_geom gnseg gknots]; auto; rewrite map_length; auto.
Qed.
End Built.
End Rounded.
