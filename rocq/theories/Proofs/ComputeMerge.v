(** Merging the even and odd parts: geometry, parity, orthonormality. *)
From Coq Require Import String ZArith Arith Bool Reals Lra Lia Psatz.
From Coquelicot Require Import Coquelicot.
From Coq Require Import List Sorting.Sorted Sorting.Permutation.
From Verif.Model Require Import Base Num Gauss Poly SVE Compute.
From Verif.Spec Require Import SGauss SPoly SFT SSVE SBasis SKernel SCompute.
From Verif.Proofs Require Import BaseFacts SumFacts IntFacts LegFacts GaussFacts PPolyFacts PPolyInt BasisPhys ComputeNodes ComputePost.
Import ListNotations.
Open Scope R_scope.
Notation length := List.length.
Arguments legP : simpl never.

(** * One function on the reflected knots *)
Section Mirror.
Variables (g G : geom).
Hypothesis Hg : geom_ok g.
Hypothesis HG : geom_ok G.
Hypothesis H0 : knot g 0 = 0.
Hypothesis HGk : gknots G = mirrored (gknots g).
Hypothesis HGl : glen G = glen g.
Notation m := (gnseg g).

Lemma mirror_nseg : gnseg G = (2 * m)%nat.
Proof.
  destruct HG as (_ & Hl & _). destruct Hg as (_ & Hl' & _). rewrite HGk in Hl. unfold mirrored in Hl.
  rewrite app_length, map_length, rev_length in Hl. destruct (gknots g); cbn [List.length tl] in *; lia.
Qed.

Lemma mirror_knot_pos i : (i <= m)%nat -> knot G (m + i) = knot g i.
Proof.
  intros Hi. destruct Hg as (_ & Hl' & _). unfold knot. rewrite HGk. unfold mirrored.
  assert (E : length (map Ropp (rev (tl (gknots g)))) = m).
  { rewrite map_length, rev_length. destruct (gknots g); cbn [List.length tl] in *; lia. }
  rewrite app_nth2 by lia. rewrite E. f_equal. lia.
Qed.

Lemma mirror_knot_neg i : (i <= m)%nat -> knot G (m - i) = - knot g i.
Proof.
  intros Hi. destruct i.
  { rewrite Nat.sub_0_r, <- (Nat.add_0_r m), mirror_knot_pos, H0 by lia. ring. }
  destruct Hg as (_ & Hl' & _). unfold knot. rewrite HGk. unfold mirrored.
  assert (E : length (tl (gknots g)) = m).
  { destruct (gknots g); cbn [List.length tl] in *; lia. }
  rewrite app_nth1 by (rewrite map_length, rev_length; lia).
  rewrite (nth_map_in _ _ _ 0) by (rewrite rev_length; lia).
  rewrite rev_nth by lia. f_equal. rewrite E. replace (m - S (m - S i))%nat with i by lia.
  destruct (gknots g); [cbn in Hl'; lia|reflexivity].
Qed.

Definition mcol (sg sy : R) (c : col) : col := Col (mirror_col m sg c) sy.

Lemma inv_sqrt2 : 1 / sqrt 2 * (1 / sqrt 2) = / 2.
Proof. pose proof (sqrt_lt_R0 2 ltac:(lra)). pose proof (sqrt_sqrt 2 ltac:(lra)) as E. field_simplify; [|lra]. rewrite <- Rsqr_pow2, Rsqr_sqrt by lra. field. Qed.

Lemma seg_pos sg sy c i x : (i < m)%nat -> seg_fun G (mcol sg sy c) (m + i) x = 1 / sqrt 2 * seg_fun g c i x.
Proof.
  intros Hi. unfold seg_fun. rewrite <- Nat.add_succ_r, !mirror_knot_pos, HGl by lia.
  rewrite <- Rmult_assoc, (Rmult_comm (1 / sqrt 2)), Rmult_assoc. f_equal. rewrite <- sumn_scal. apply sumn_ext. intros k _.
  unfold mcol, mirror_col. cbn [cdat]. destruct (Nat.ltb_spec (m + i) m); [lia|].
  replace (m + i - m)%nat with i by lia. ring.
Qed.

Lemma pow_m1_sqr k : (-1) ^ k * (-1) ^ k = 1.
Proof. rewrite <- Rpow_mult_distr. replace (-1 * -1) with 1 by ring. apply pow1. Qed.

Lemma seg_neg sg sy c i x : (i < m)%nat -> seg_fun G (mcol sg sy c) (m - 1 - i) x = sg * (1 / sqrt 2) * seg_fun g c i (- x).
Proof.
  intros Hi. unfold seg_fun. replace (S (m - 1 - i)) with (m - i)%nat by lia.
  assert (Ek : knot G (m - 1 - i) = - knot g (S i)) by (rewrite <- mirror_knot_neg by lia; f_equal; lia).
  rewrite Ek, mirror_knot_neg, HGl by lia.
  pose proof (knot_lt g Hg i (S i) ltac:(lia)) as Hlt.
  replace (- knot g i - - knot g (S i)) with (knot g (S i) - knot g i) by ring.
  rewrite <- (Rmult_assoc (sg * _)), (Rmult_comm (sg * _)), (Rmult_assoc _ (sg * _)). f_equal. rewrite <- sumn_scal. apply sumn_ext. intros k _.
  unfold mcol, mirror_col. cbn [cdat]. destruct (Nat.ltb_spec (m - 1 - i) m); [|lia].
  replace (m - 1 - (m - 1 - i))%nat with i by lia.
  replace ((2 * x - - knot g (S i) - - knot g i) / (knot g (S i) - knot g i))
    with (- ((2 * - x - knot g i - knot g (S i)) / (knot g (S i) - knot g i))) by (field; lra).
  rewrite legP_opp. set (t := legP k _). pose proof (pow_m1_sqr k) as E.
  transitivity (cdat c k i * (1 / sqrt 2) * sg * t * ((-1) ^ k * (-1) ^ k)); [ring|]. rewrite E. ring.
Qed.

Lemma G_range : gxmin G = - gxmax g /\ gxmax G = gxmax g /\ gxmin g = 0.
Proof.
  rewrite !xmin_knot, !xmax_knot, mirror_nseg. pose proof (mirror_knot_neg m ltac:(lia)) as E1. rewrite Nat.sub_diag in E1.
  pose proof (mirror_knot_pos m ltac:(lia)) as E2. replace (2 * m)%nat with (m + m)%nat by lia. auto.
Qed.

(** Evaluation at any point in terms of the pieces on the positive side. *)
Lemma mirror_eval x : gxmin G <= x <= gxmax G -> exists j, (j < m)%nat /\
  knot g j <= Rabs x <= knot g (S j) /\
  (forall sg sy c, cval G (mcol sg sy c) x = (if Rltb x 0 then sg else 1) * (1 / sqrt 2) * seg_fun g c j (Rabs x)) /\
  ((forall c, seg_fun g c j (Rabs x) = cval g c (Rabs x)) \/ (x < 0 /\ Rabs x = knot g (S j) /\ (S j < m)%nat)).
Proof.
  intros Hx. destruct (find_segment G HG x Hx) as (i & Hi & H1 & H2).
  rewrite mirror_nseg in Hi. destruct G_range as (R1 & R2 & R3).
  destruct (Nat.lt_ge_cases i m) as [Him|Him].
  - (* negative side *)
    set (j := (m - 1 - i)%nat). assert (Ei : i = (m - 1 - j)%nat) by (unfold j; lia).
    assert (E1 : knot G i = - knot g (S j)) by (rewrite <- mirror_knot_neg by (unfold j; lia); f_equal; unfold j; lia).
    assert (E2 : knot G (S i) = - knot g j) by (rewrite <- mirror_knot_neg by (unfold j; lia); f_equal; unfold j; lia).
    assert (H3 : x < knot G (S i)).
    { destruct H2 as [H2|[H2 ->]]; auto. rewrite mirror_nseg in H2. pose proof (g_nseg g Hg). lia. }
    rewrite E1 in H1. rewrite E2 in H3. pose proof (knot_le g Hg 0 j ltac:(unfold j; lia)) as H4. rewrite H0 in H4.
    assert (Hneg : x < 0) by lra. rewrite (Rabs_left x Hneg).
    exists j. split; [unfold j; lia|]. split; [lra|]. split.
    + intros sg sy c. rewrite (cval_seg G HG _ i x) by (try (left; rewrite E2; lra); try (rewrite E1; lra); rewrite mirror_nseg; lia).
      rewrite Ei, seg_neg by (unfold j; lia). rewrite (proj2 (Rltb_true x 0)) by auto. reflexivity.
    + destruct (Req_dec (- x) (knot g (S j))) as [Ek|Ek].
      * destruct (Nat.lt_ge_cases (S j) m) as [Hj|Hj]; [right; auto|].
        left. intros c. symmetry. apply cval_seg; auto; [unfold j; lia|lra|].
        right. assert (S j = m) by (unfold j in *; lia). split; auto. rewrite xmax_knot, <- H. auto.
      * left. intros c. symmetry. apply cval_seg; auto; [unfold j; lia|lra|left; lra].
  - (* non-negative side *)
    set (j := (i - m)%nat). assert (Ei : i = (m + j)%nat) by (unfold j; lia).
    assert (E1 : knot G i = knot g j) by (rewrite Ei; apply mirror_knot_pos; unfold j; lia).
    assert (E2 : knot G (S i) = knot g (S j)) by (rewrite Ei, <- Nat.add_succ_r; apply mirror_knot_pos; unfold j; lia).
    pose proof (knot_le g Hg 0 j ltac:(unfold j; lia)) as H4. rewrite H0 in H4. rewrite E1 in H1.
    rewrite (Rabs_pos_eq x) by lra. exists j. split; [unfold j; lia|].
    assert (Hc : x < knot g (S j) \/ (S j = m /\ x = gxmax g)).
    { destruct H2 as [H2|[H2 H2']]; [left; lra|right]. rewrite mirror_nseg in H2. split; [unfold j; lia|congruence]. }
    split; [|split].
    + split; auto. destruct Hc as [?|[E ->]]; [lra|]. rewrite xmax_knot, <- E. lra.
    + intros sg sy c. rewrite (cval_seg G HG _ i x); [|rewrite mirror_nseg; lia|rewrite E1; lra|].
      2:{ destruct H2 as [H2|[H2 H2']]; [left; auto|right; auto]. }
      rewrite Ei, seg_pos by (unfold j; lia). rewrite (proj2 (Rltb_false x 0)) by lra. ring.
    + left. intros c. symmetry. apply cval_seg; auto. unfold j; lia.
Qed.

(** Parity. *)
Lemma mirror_parity sg sy c : sg * sg = 1 -> has_parity G (mcol sg sy c) sg.
Proof.
  intros Hsg. split.
  - intros i Hi. rewrite mirror_nseg in *. destruct (Nat.le_ge_cases i m) as [Him|Him].
    + replace (2 * m - i)%nat with (m + (m - i))%nat by lia. rewrite mirror_knot_pos by lia.
      replace i with (m - (m - i))%nat at 2 by lia. rewrite mirror_knot_neg by lia. ring.
    + replace (2 * m - i)%nat with (m - (i - m))%nat by lia. rewrite mirror_knot_neg by lia.
      replace i with (m + (i - m))%nat at 2 by lia. rewrite mirror_knot_pos by lia. reflexivity.
  - intros i x Hi Hx. rewrite mirror_nseg in Hi.
    rewrite (cval_seg G HG _ i x) by (try (left; lra); try lra; rewrite mirror_nseg; lia).
    destruct (Nat.lt_ge_cases i m) as [Him|Him].
    + assert (E1 : knot G i = - knot g (S (m - 1 - i))) by (rewrite <- mirror_knot_neg by lia; f_equal; lia).
      assert (E2 : knot G (S i) = - knot g (m - 1 - i)) by (rewrite <- mirror_knot_neg by lia; f_equal; lia).
      rewrite (cval_seg G HG _ (m + (m - 1 - i)) (- x)).
      * rewrite seg_pos by lia. replace i with (m - 1 - (m - 1 - i))%nat at 2 by lia. rewrite seg_neg by lia.
        transitivity (sg * sg * (1 / sqrt 2 * seg_fun g c (m - 1 - i) (- x))); [rewrite Hsg; ring|ring].
      * rewrite mirror_nseg; lia.
      * rewrite mirror_knot_pos by lia. lra.
      * left. rewrite <- Nat.add_succ_r, mirror_knot_pos by lia. lra.
    + assert (E1 : knot G i = knot g (i - m)) by (rewrite <- mirror_knot_pos by lia; f_equal; lia).
      assert (E2 : knot G (S i) = knot g (S (i - m))) by (rewrite <- mirror_knot_pos by lia; f_equal; lia).
      rewrite (cval_seg G HG _ (m - 1 - (i - m)) (- x)).
      * rewrite seg_neg by lia. replace i with (m + (i - m))%nat at 2 by lia. rewrite seg_pos by lia.
        rewrite Ropp_involutive. ring.
      * rewrite mirror_nseg; lia.
      * replace (m - 1 - (i - m))%nat with (m - S (i - m))%nat by lia. rewrite mirror_knot_neg by lia. lra.
      * left. replace (S (m - 1 - (i - m))) with (m - (i - m))%nat by lia. rewrite mirror_knot_neg by lia. lra.
Qed.

(** Inner products. *)
Lemma mirror_inner sg sg' sy sy' c c' v :
  is_RInt (fun x => cval g c x * cval g c' x) (gxmin g) (gxmax g) v ->
  is_RInt (fun x => cval G (mcol sg sy c) x * cval G (mcol sg' sy' c') x) (gxmin G) (gxmax G) ((1 + sg * sg') / 2 * v).
Proof.
  intros H. apply (orthonormal_iff g c c' v Hg) in H. apply (orthonormal_iff G _ _ _ HG).
  rewrite mirror_nseg, HGl. replace (2 * m)%nat with (m + m)%nat by lia. rewrite sumn_app.
  rewrite (sumn_rev m (fun i => sumn (glen g) _)).
  rewrite (sumn_ext m _ (fun i => sg * sg' * / 2 * sumn (glen g) (fun k => cdat c k i * cdat c' k i * (2 / (2 * INR k + 1))))).
  2:{ intros i Hi. rewrite <- sumn_scal. apply sumn_ext. intros k _. unfold mcol, mirror_col. cbn [cdat].
      destruct (Nat.ltb_spec (m - 1 - i) m); [|lia]. replace (m - 1 - (m - 1 - i))%nat with i by lia.
      rewrite <- inv_sqrt2. transitivity (cdat c k i * cdat c' k i * (2 / (2 * INR k + 1)) * sg * sg' * (1 / sqrt 2 * (1 / sqrt 2)) * ((-1) ^ k * (-1) ^ k)); [ring|].
      rewrite pow_m1_sqr. ring. }
  rewrite (sumn_ext m (fun i => sumn (glen g) (fun k => cdat (mcol sg sy c) k (m + i) * cdat (mcol sg' sy' c') k (m + i) * (2 / (2 * INR k + 1))))
             (fun i => / 2 * sumn (glen g) (fun k => cdat c k i * cdat c' k i * (2 / (2 * INR k + 1))))).
  2:{ intros i Hi. rewrite <- sumn_scal. apply sumn_ext. intros k _. unfold mcol, mirror_col. cbn [cdat].
      destruct (Nat.ltb_spec (m + i) m); [lia|]. replace (m + i - m)%nat with i by lia. rewrite <- inv_sqrt2. ring. }
  rewrite !sumn_scal, H. field.
Qed.
End Mirror.
