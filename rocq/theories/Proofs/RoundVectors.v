(** The vectors that functions with perturbed coefficients stand for. *)
From Coq Require Import String ZArith Arith Bool Reals Lra Lia Psatz.
From Coquelicot Require Import Coquelicot.
From Coq Require Import List Sorting.Sorted.
From Verif.Model Require Import Base Num Gauss Poly SVE Compute.
From Verif.Spec Require Import SGauss SPoly SFT SSVE SBasis SCompute SSingular SNear SComputed SKernelIEEE SSVEIEEE.
From Verif.Proofs Require Import BaseFacts SumFacts IntFacts LegFacts GaussFacts GaussExact PPolyFacts PPolyInt BasisPhys ComputeNodes ComputePost ComputeSampling SingularEq EckartYoung SvdExists BestCuts RoundedSVE Polar ComputedSVD Perturb CoefFun.
Import ListNotations.
Open Scope R_scope.
Notation length := List.length.
Arguments legP : simpl never.

Section Axis.
Variables (n : nat) (r : rule) (segs : list R) (q : rule).
Hypothesis Hr : gauss_ok n r.
Hypothesis Hs : edges_ok segs.
Hypothesis Hq : piecewise r segs = Ok q.
Variable g : geom.
Hypothesis Hg : geom_ok g.
Hypothesis Hgk : gknots g = segs.
Hypothesis Hgl : glen g = n.
Notation m := (length segs - 1)%nat.
Notation t j := (nth j (rx r) 0).

Definition lifted (ch : nat -> nat -> R) (p : nat) : R := sqrt (nth p (rw q) 0) * cval g (Col ch 0) (nth p (rx q) 0).

Lemma lifted_at ch i j : (i < m)%nat -> (j < n)%nat -> lifted ch (i * n + j) = sqrt (nth j (rw r) 0) * sumn n (fun k => ch k i * legP k (t j)).
Proof.
  intros Hi Hj. unfold lifted. pose proof (nseg_m n segs g Hg Hgk Hgl) as Hm.
  destruct (rule_node n r segs Hr j Hj) as [Ht Hw]. destruct (node_at n r segs q Hr Hs Hq i j Hi Hj) as [Ex Ew].
  pose proof (seg_lt segs Hs i Hi) as Hlt. set (L := nth (S i) segs 0 - nth i segs 0) in *.
  set (x := nth (i * n + j) (rx q) 0) in *. pose proof (knot_a segs g Hgk) as Ka.
  rewrite (cval_seg g Hg _ i).
  2:{ lia. } 2:{ rewrite Ka, Ex. pose proof (Rmult_lt_0_compat (nth (S i) segs 0 - nth i segs 0) (1 + t j) ltac:(lra) ltac:(lra)). unfold L. lra. }
  2:{ left. rewrite Ka, Ex. pose proof (Rmult_lt_0_compat (nth (S i) segs 0 - nth i segs 0) (1 - t j) ltac:(lra) ltac:(lra)). unfold L. lra. }
  unfold seg_fun. rewrite Hgl, !Ka.
  replace ((2 * x - nth i segs 0 - nth (S i) segs 0) / (nth (S i) segs 0 - nth i segs 0)) with (t j) by (rewrite Ex; unfold L; field; lra).
  cbn [cdat]. rewrite Ew. fold L. rewrite sqrt_mult_alt by lra.
  assert (Es : sqrt (L / 2) * sqrt (2 / L) = 1).
  { rewrite <- sqrt_mult_alt by (unfold L; lra). replace (L / 2 * (2 / L)) with 1 by (field; unfold L; lra). apply sqrt_1. }
  transitivity (sqrt (nth j (rw r) 0) * (sqrt (L / 2) * sqrt (2 / L)) * sumn n (fun k => ch k i * legP k (t j))); [ring|rewrite Es; ring].
Qed.

Lemma lifted_exact vec p : length vec = (m * n)%nat -> (p < m * n)%nat -> lifted (collocate n r segs (sqrtw q) vec) p = nth p vec 0.
Proof.
  intros Hv Hp. unfold lifted. rewrite (at_node n r segs q Hr Hs Hq g Hg Hgk Hgl vec 0 p Hv Hp).
  pose proof (sqrt_lt_R0 _ (weight_pos n r segs q Hr Hs Hq p Hp)). field. lra.
Qed.

Lemma discrete k k' : (k < n)%nat -> (k' < n)%nat -> sumn n (fun j => nth j (rw r) 0 * (legP k (t j) * legP k' (t j))) = if Nat.eqb k k' then 2 / (2 * INR k + 1) else 0.
Proof.
  intros Hk Hk'. pose proof Hr as (Hn & Hx & Hw & _).
  pose proof (colloc_right r n k k' ltac:(lia) ltac:(lia) (weaken n r segs Hr g Hgl)) as C. rewrite Hx in C. pose proof (pos_INR k) as Pk.
  unfold legendre_collocation in C.
  rewrite (sumn_ext n _ (fun j => / (INR k + / 2) * (legP k (t j) * nth j (rw r) 0 * (INR k + / 2) * legP k' (t j)))) by (intros; field; lra).
  rewrite sumn_scal, C. destruct (Nat.eqb k k'); field; lra.
Qed.

Lemma lifted_part ch i : (i < m)%nat -> sumn n (fun j => Rsqr (lifted ch (i * n + j))) = sumn n (fun k => Rsqr (ch k i) * (2 / (2 * INR k + 1))).
Proof.
  intros Hi.
  rewrite (sumn_ext n _ (fun j => sumn n (fun k => sumn n (fun k' => (ch k i * ch k' i) * (nth j (rw r) 0 * (legP k (t j) * legP k' (t j))))))).
  - rewrite sumn_swap. apply sumn_ext. intros k Hk. rewrite sumn_swap.
    rewrite (sumn_ext n _ (fun k' => (ch k i * ch k' i) * (if Nat.eqb k k' then 2 / (2 * INR k + 1) else 0))).
    + rewrite (sumn_single _ _ k) by (auto; intros k' Hk' Hne; rewrite (proj2 (Nat.eqb_neq k k')) by auto; ring). rewrite Nat.eqb_refl. unfold Rsqr. ring.
    + intros k' Hk'. rewrite sumn_scal, discrete by auto. reflexivity.
  - intros j Hj. rewrite lifted_at by auto. destruct (rule_node n r segs Hr j Hj) as [_ Hw]. rewrite Rsqr_mult, Rsqr_sqrt by lra.
    unfold Rsqr. rewrite <- sumn_scal_r, <- sumn_scal. apply sumn_ext. intros k Hk. rewrite <- !sumn_scal. apply sumn_ext. intros k' Hk'. ring.
Qed.
Lemma lifted_size ch : sumn (m * n) (fun p => Rsqr (lifted ch p)) = sumn m (fun i => sumn n (fun k => Rsqr (ch k i) * (2 / (2 * INR k + 1)))).
Proof. rewrite sumn_blocks. apply sumn_ext. intros i Hi. apply lifted_part. exact Hi. Qed.

(** Coefficients are not larger than the part of the vector on their segment. *)
Lemma coefficient_size vec k i : length vec = (m * n)%nat -> (k < n)%nat -> (i < m)%nat ->
  Rabs (collocate n r segs (sqrtw q) vec k i) <= (2 * INR k + 1) * part_norm n vec i.
Proof.
  intros Hv Hk Hi. set (c := collocate n r segs (sqrtw q) vec). pose proof (lifted_part c i Hi) as E.
  rewrite (sumn_ext n _ (fun j => Rsqr (nth (i * n + j) vec 0))) in E.
  2:{ intros j Hj. unfold c. rewrite lifted_exact; auto. nia. }
  assert (B : Rsqr (c k i) * (2 / (2 * INR k + 1)) <= sumn n (fun j => Rsqr (nth (i * n + j) vec 0))).
  { rewrite E. apply (sumn_pos_term n (fun k => Rsqr (c k i) * (2 / (2 * INR k + 1))) k Hk). intros k' _. pose proof (pos_INR k').
    apply Rmult_le_pos; [apply Rle_0_sqr|]. apply Rlt_le, Rdiv_lt_0_compat; lra. }
  unfold part_norm. set (N := sumn n (fun j => Rsqr (nth (i * n + j) vec 0))) in *. pose proof (pos_INR k) as Pk.
  assert (PN : 0 <= N) by (apply sumn_nonneg; intros; apply Rle_0_sqr). pose proof (sqrt_pos N) as SN.
  assert (B2 : Rsqr (c k i) <= (2 * INR k + 1) * N).
  { assert (Q : Rsqr (c k i) * 2 <= N * (2 * INR k + 1)).
    { replace (Rsqr (c k i) * 2) with (Rsqr (c k i) * (2 / (2 * INR k + 1)) * (2 * INR k + 1)) by (field; lra). apply Rmult_le_compat_r; lra. }
    pose proof (Rle_0_sqr (c k i)). lra. }
  apply Rsqr_incr_0_var; [|apply Rmult_le_pos; lra]. rewrite <- Rsqr_abs, Rsqr_mult, Rsqr_sqrt by auto.
  eapply Rle_trans; [exact B2|]. apply Rmult_le_compat_r; auto. unfold Rsqr. pose proof (Rmult_le_pos _ _ Pk Pk). lra.
Qed.

Lemma lifted_minus c1 c2 p : (p < m * n)%nat -> lifted (fun k i => c1 k i - c2 k i) p = lifted c1 p - lifted c2 p.
Proof.
  intros Hp. destruct (split_index n r segs Hr g Hgl p Hp) as (Hi & Hj & E). rewrite <- E. rewrite !lifted_at by auto.
  rewrite <- Rmult_minus_distr_l, <- sumn_minus. f_equal. apply sumn_ext. intros. ring.
Qed.

(** Coefficients close to those of a vector stand for a vector close to it. *)
Lemma lifted_near ch vec C tau : length vec = (m * n)%nat -> 0 <= C -> 0 <= tau ->
  (forall k i, (k < n)%nat -> (i < m)%nat -> Rabs (ch k i - collocate n r segs (sqrtw q) vec k i) <= (2 * INR k + 1) * (C * part_norm n vec i + tau)) ->
  sumn (m * n) (fun p => Rsqr (lifted ch p - nth p vec 0)) <=
  4 * (INR n * INR n) * (Rsqr C * sumn (m * n) (fun p => Rsqr (nth p vec 0)) + INR m * Rsqr tau).
Proof.
  intros Hv HC Ht Hch.
  rewrite (sumn_ext _ _ (fun p => Rsqr (lifted (fun k i => ch k i - collocate n r segs (sqrtw q) vec k i) p))).
  2:{ intros p Hp. rewrite lifted_minus, lifted_exact by auto. reflexivity. }
  rewrite lifted_size, (sumn_blocks m n (fun p => Rsqr (nth p vec 0))).
  rewrite <- sumn_scal. replace (INR m * Rsqr tau) with (sumn m (fun _ => Rsqr tau)) by (rewrite sumn_const; ring).
  rewrite <- sumn_plus, <- sumn_scal. apply sumn_le. intros i Hi.
  set (B := C * part_norm n vec i + tau). set (N := sumn n (fun j => Rsqr (nth (i * n + j) vec 0))).
  assert (PN : 0 <= N) by (apply sumn_nonneg; intros; apply Rle_0_sqr).
  assert (PP : part_norm n vec i = sqrt N) by reflexivity. pose proof (sqrt_pos N) as SN.
  assert (PB : 0 <= B) by (unfold B; rewrite PP; pose proof (Rmult_le_pos _ _ HC SN); lra).
  assert (HB : Rsqr B <= 2 * (Rsqr C * N + Rsqr tau)).
  { assert (E : N = sqrt N * sqrt N) by (symmetry; apply sqrt_sqrt; auto). unfold B. rewrite PP. rewrite E at 2. set (x := sqrt N).
    pose proof (Rle_0_sqr (C * x - tau)) as Q. unfold Rsqr in *. lra. }
  apply Rle_trans with (2 * Rsqr B * (INR n * INR n)).
  - rewrite <- odd_sum, <- sumn_scal. apply sumn_le. intros k Hk. pose proof (pos_INR k) as Pk.
    assert (Q : Rsqr (ch k i - collocate n r segs (sqrtw q) vec k i) <= Rsqr ((2 * INR k + 1) * B)).
    { apply Rsqr_le_abs_1. rewrite (Rabs_pos_eq (_ * B)) by (apply Rmult_le_pos; lra). apply Hch; auto. }
    assert (P2 : 0 <= 2 / (2 * INR k + 1)) by (apply Rlt_le, Rdiv_lt_0_compat; lra).
    apply Rle_trans with (Rsqr ((2 * INR k + 1) * B) * (2 / (2 * INR k + 1))); [apply Rmult_le_compat_r; auto|]. right. unfold Rsqr. field. lra.
  - assert (Q : 0 <= INR n * INR n) by (apply Rmult_le_pos; apply pos_INR). 
    replace (4 * (INR n * INR n) * (Rsqr C * N + Rsqr tau)) with (2 * (2 * (Rsqr C * N + Rsqr tau)) * (INR n * INR n)) by ring.
    apply Rmult_le_compat_r; lra.
Qed.
End Axis.
