(** Expansions made from rounded kernel matrices (C90). *)
From Coq Require Import String ZArith Bool Reals Lra Lia Arith.
From Coquelicot Require Import Coquelicot.
From Coq Require Import List Sorting.Sorted.
From Verif.Model Require Import Base Util Num Gauss Poly SVE Basis Kernel KernelIEEE GaussIEEE Compute Whole.
From Verif.Spec Require Import SGauss SBasis SCompute SKernel SSingular SWhole SNear SKernelIEEE SGaussIEEE SRounded.
From Verif.Proofs Require Import BaseFacts SumFacts IntFacts LegFacts KernelFacts KernelProps KernelSegs GaussFacts ComputeNodes ComputePost ComputeFull ComputeNonempty SvdExists NearBest
  KernelRound KernelRoundCall GaussRound GaussRoundRule MatrixRound MatrixRoundMore SegmentGaps.
Import ListNotations.
Open Scope R_scope.
Notation length := List.length.

(** * Sums of squares *)
Lemma cauchy2 m n (f g : nat -> nat -> R) :
  sumn m (fun i => sumn n (fun j => f i j * g i j)) <=
  sqrt (sumn m (fun i => sumn n (fun j => Rsqr (f i j)))) * sqrt (sumn m (fun i => sumn n (fun j => Rsqr (g i j)))).
Proof.
  assert (C : forall p (a b : nat -> R), sumn p (fun j => a j * b j) <= sqrt (sumn p (fun j => Rsqr (a j))) * sqrt (sumn p (fun j => Rsqr (b j)))).
  { intros p a b. pose proof (cauchy p a b) as H. unfold ip in H. rewrite <- sqrt_mult_alt by (apply sumn_nonneg; intros; apply Rle_0_sqr).
    eapply Rle_trans; [apply Rle_abs|]. rewrite <- sqrt_Rsqr_abs. apply sqrt_le_1_alt. exact H. }
  eapply Rle_trans; [apply sumn_le; intros i _; apply C|]. eapply Rle_trans; [apply C|]. right. f_equal; f_equal; apply sumn_ext; intros i _; apply Rsqr_sqrt; apply sumn_nonneg; intros; apply Rle_0_sqr.
Qed.

Lemma minkowski2 m n (f g : nat -> nat -> R) a b : 0 <= a -> 0 <= b ->
  sumn m (fun i => sumn n (fun j => Rsqr (f i j))) <= Rsqr a -> sumn m (fun i => sumn n (fun j => Rsqr (g i j))) <= Rsqr b ->
  sumn m (fun i => sumn n (fun j => Rsqr (f i j + g i j))) <= Rsqr (a + b).
Proof.
  intros Ha Hb Hf Hg. pose proof (cauchy2 m n f g) as C.
  assert (E : sumn m (fun i => sumn n (fun j => Rsqr (f i j + g i j))) =
    sumn m (fun i => sumn n (fun j => Rsqr (f i j))) + 2 * sumn m (fun i => sumn n (fun j => f i j * g i j)) + sumn m (fun i => sumn n (fun j => Rsqr (g i j)))).
  { rewrite <- sumn_scal, <- !sumn_plus. apply sumn_ext. intros i _. rewrite <- sumn_scal, <- !sumn_plus. apply sumn_ext. intros j _. unfold Rsqr. ring. }
  rewrite E. clear E. set (F := sumn m (fun i => sumn n (fun j => Rsqr (f i j)))) in *. set (G := sumn m (fun i => sumn n (fun j => Rsqr (g i j)))) in *.
  assert (S1 : sqrt F <= a) by (rewrite <- (sqrt_Rsqr a Ha); apply sqrt_le_1_alt; auto).
  assert (S2 : sqrt G <= b) by (rewrite <- (sqrt_Rsqr b Hb); apply sqrt_le_1_alt; auto).
  assert (P : sqrt F * sqrt G <= a * b) by (apply Rmult_le_compat; auto using sqrt_pos). unfold Rsqr in *. lra.
Qed.

Lemma near_svd_shift m n A M b d c : 0 <= c -> sumn m (fun i => sumn n (fun j => Rsqr (ment A i j - ment M i j))) <= Rsqr c ->
  near_svd m n M b d -> near_svd m n A b (d + c).
Proof.
  intros Hc H (Hd & Ho & Hr & He). split; [lra|]. split; auto. split; auto. rewrite Rplus_comm.
  eapply Rle_trans; [|apply (minkowski2 m n (fun i j => ment A i j - ment M i j) (fun i j => ment M i j - usv_entry b i j) c d); auto].
  right. apply sumn_ext. intros i _. apply sumn_ext. intros j _. f_equal. ring.
Qed.

Lemma weighted_square m n (A M : matrix) c (w v : list R) : 0 <= c -> length w = m -> length v = n ->
  (forall i, (i < m)%nat -> 0 <= nth i w 0) -> (forall j, (j < n)%nat -> 0 <= nth j v 0) ->
  (forall i j, (i < m)%nat -> (j < n)%nat -> Rabs (ment M i j - ment A i j) <= c * (sqrt (nth i w 0) * sqrt (nth j v 0))) ->
  sumn m (fun i => sumn n (fun j => Rsqr (ment A i j - ment M i j))) <= Rsqr c * (rsum w * rsum v).
Proof.
  intros Hc Lw Lv Pw Pv H. rewrite (ComputePost.rsum_nth w), (ComputePost.rsum_nth v), Lw, Lv, sumn_mul, <- sumn_scal. apply sumn_le. intros i Hi. rewrite <- sumn_scal. apply sumn_le. intros j Hj.
  replace (Rsqr c * (nth i w 0 * nth j v 0)) with (Rsqr (c * (sqrt (nth i w 0) * sqrt (nth j v 0)))).
  - apply Rsqr_le_abs_1. rewrite (Rabs_minus_sym (ment A i j)). eapply Rle_trans; [apply H; auto|apply Rle_abs].
  - rewrite !Rsqr_mult. rewrite !Rsqr_sqrt by auto. reflexivity.
Qed.

(** * Weights of the rules *)
Lemma gauss_total n q : gauss_ok n q -> rsum (rw q) = 2.
Proof.
  intros (Hn & L1 & L2 & _ & _ & _ & _ & He).
  assert (P : polynomial (2 * n - 1) (fun _ => 1)).
  { unfold polynomial. exists (fun i => if (i =? 0)%nat then 1 else 0). intros x. rewrite (sumn_single _ _ 0%nat); [cbn; ring|lia|]. intros i _ Hi. destruct (Nat.eqb_spec i 0); [contradiction|ring]. }
  specialize (He _ P). pose proof (is_RInt_const (-1) 1 1) as H. pose proof (is_RInt_unique _ _ _ _ H) as U. pose proof (is_RInt_unique _ _ _ _ He) as V.
  rewrite U in V. unfold quad in V. replace (map2 (fun x w => w * 1) (rx q) (rw q)) with (rw q) in V.
  - rewrite <- V. unfold scal. cbn. unfold mult. cbn. ring.
  - clear - L1 L2. assert (L : length (rx q) = length (rw q)) by lia. clear L1 L2. revert L. generalize (rx q). induction (rw q) as [|w l IH]; intros [|x k] L; cbn in *; try lia; auto. f_equal; [ring|]. apply IH. lia.
Qed.
Lemma rule_total n q segs G : gauss_ok n q -> piecewise q segs = Ok G -> rsum (rw G) = last segs 0 - hd 0 segs.
Proof.
  intros Hq H. pose proof Hq as (_ & _ & _ & _ & _ & A & B & _). rewrite (piecewise_sum q segs G 0) by (auto; lra). rewrite (gauss_total n q Hq), A, B. field.
Qed.

(** * Nodes *)
Lemma kap_resolved n q segs G kap : ordinary_rule n q -> ordinary_edges segs -> piecewise q segs = Ok G ->
  chained (fun a b => 0 <= a \/ b <= 0) segs -> 0 < kap ->
  (forall j, (j < n)%nat -> 2 <= kap * (1 + nth j (rx q) 0) /\ 2 <= kap * (1 - nth j (rx q) 0)) -> resolved n segs G kap.
Proof.
  intros Hq He HG Hc Hk Hn. assert (P : 0 < 2 / kap) by (apply Rdiv_lt_0_compat; lra).
  assert (E : kap = 2 / (2 / kap)) by (field; lra). rewrite E. apply (resolved_away n q segs G (2 / kap)); auto.
  intros j Hj. destruct (Hn j Hj) as (A & B).
  assert (D : forall t, 2 <= kap * t -> 2 / kap <= t).
  { intros t Ht. apply Rmult_le_reg_l with kap; auto. replace (kap * (2 / kap)) with 2 by (field; lra). exact Ht. }
  split; apply D; auto.
Qed.
Lemma node_away n q segs G p : ordinary_rule n q -> ordinary_edges segs -> piecewise q segs = Ok G ->
  chained (fun a b => 0 <= a \/ b <= 0) segs -> (p < length (rx G))%nat -> gap / 2 * / 10 ^ 20 <= Rabs (nth p (rx G) 0).
Proof.
  intros Hq He HG Hz Hp. rewrite (proj1 (G_len n q segs G Hq He HG)) in Hp. destruct (split_index n q segs Hq p Hp) as (i & j & Hi & Hj & ->).
  rewrite (proj1 (G_at n q segs G Hq He HG i j Hi Hj)). pose proof (e_gap segs He i Hi) as Hg. pose proof gap_facts as (G1 & _).
  destruct Hq as (_ & _ & K). destruct (K j Hj) as (_ & K1 & K2). pose proof (chained_at _ _ 0 Hz i ltac:(lia)) as Z. cbn in Z.
  assert (T0 : 0 < / 10 ^ 20) by (apply Rinv_0_lt_compat, pow_lt; lra).
  set (a := nth i segs 0) in *. set (b := nth (S i) segs 0) in *. set (x := nth j (rx q) 0) in *. set (t := / 10 ^ 20) in *. clearbody t. generalize dependent gap. intros g Hg G1.
  assert (M1 : g / 2 * t <= (b - a) / 2 * (1 + x)) by (apply Rmult_le_compat; lra).
  assert (M2 : g / 2 * t <= (b - a) / 2 * (1 - x)) by (apply Rmult_le_compat; lra).
  destruct Z as [Z|Z].
  - eapply Rle_trans; [|apply Rle_abs]. lra.
  - rewrite <- Rabs_Ropp. eapply Rle_trans; [|apply Rle_abs]. lra.
Qed.

Lemma value_formula f K x y v : tfun_ok f -> 0 < k_lambda K -> -1 <= x <= 1 -> -1 <= y <= 1 -> / 10 ^ 200 <= k_lambda K * Rabs y ->
  has_value f K x y v -> v = kernel_formula K x y.
Proof.
  intros Hf Hl Hx Hy Ht Hv. destruct K as [lam|lam]; cbn [k_lambda kernel_formula] in *.
  - apply (logistic_has_value f lam x y v Hf Hl Hx Hy). exact Hv.
  - apply has_value_iff in Hv; auto. rewrite Hv. destruct (Req_EM_T y 0) as [->|N]; [|apply bose_value; auto].
    exfalso. rewrite Rabs_R0, Rmult_0_r in Ht. generalize tiny_pos. lra.
Qed.

Lemma tiny_cutoff K t : usual_cutoff K -> gap / 2 * / 10 ^ 20 <= t -> / 10 ^ 200 <= k_lambda K * t.
Proof.
  intros (Hl & _) Ht. assert (P : forall i, 0 < / 10 ^ i) by (intros; apply Rinv_0_lt_compat, pow_lt; lra).
  apply Rle_trans with (/ 10 ^ 50 * (gap / 2 * / 10 ^ 20)).
  - unfold gap. replace (/ 10 ^ 50 * (/ 10 ^ 100 / 2 * / 10 ^ 20)) with (/ (10 ^ 50 * 10 ^ 100 * 10 ^ 20) * / 2) by (field; repeat split; apply pow_nonzero; lra).
    rewrite <- !pow_add. replace (50 + 100 + 20)%nat with 170%nat by reflexivity. replace (10 ^ 200) with (10 ^ 170 * 10 ^ 30) by (rewrite <- pow_add; reflexivity). rewrite Rinv_mult.
    apply Rmult_le_compat_l; [apply Rlt_le, P|]. apply Rinv_le_contravar; [lra|]. apply Rle_trans with (10 ^ 1); [lra|]. apply Rle_pow; [lra|lia].
  - apply Rmult_le_compat; auto; [apply Rlt_le, P|]. pose proof gap_facts as (G1 & _). apply Rmult_le_pos; [lra|apply Rlt_le, P].
Qed.

Lemma usual_ordinary K : usual_cutoff K -> ordinary_cutoff K /\ 0 < k_lambda K <= 10 ^ 16.
Proof.
  intros (A & B). assert (P : 0 < / 10 ^ 50) by (apply Rinv_0_lt_compat, pow_lt; lra). assert (Q : 10 ^ 16 <= 10 ^ 90) by (apply Rle_pow; [lra|lia]).
  split; [|lra]. destruct K as [lam|lam]; cbn [k_lambda ordinary_cutoff] in *; split; lra.
Qed.
Lemma size_max K y : 0 < k_lambda K -> -1 <= y <= 1 -> 0 < kernel_size K y <= kernel_max K.
Proof.
  intros Hl Hy. destruct K as [lam|lam]; cbn [kernel_size kernel_max k_lambda] in *; [lra|]. assert (0 < / lam) by (apply Rinv_0_lt_compat; auto). pose proof (Rabs_pos y).
  assert (Rabs y <= 1) by (apply Rabs_le; lra). lra.
Qed.

(** * Errors of the matrices *)
Section Errors.
Variables (u eta e : R) (rd : R -> R) (f : tfun) (n : nat) (q r : rule) (sg om rho kap : R) (K : kernel).
Hypothesis Ha : arithmetic u eta e rd f.
Hypothesis Hr : reference u n q r sg om rho kap.
Hypothesis HK : usual_cutoff K.

Lemma ranges : 0 < u /\ 0 <= e /\ 0 <= sg /\ 0 <= om /\ 0 <= rho /\ 0 <= kap * (sg + 7 * u).
Proof.
  destruct Ha as (Hs & _). destruct Hr as (_ & _ & Hm & K0 & _). pose proof (u_small u eta e Hs). destruct Hs as (_ & B & _). destruct Hm as (_ & M1 & M2 & M3).
  repeat split; try lra. apply Rmult_le_pos; lra.
Qed.
Lemma full_error_pos : 0 <= full_error u e sg om rho kap K.
Proof.
  pose proof ranges. destruct (usual_ordinary K HK) as (_ & Hl & _). pose proof (size_max K 0 Hl ltac:(lra)). unfold full_error. apply Rmult_le_pos; [lra|]. apply Rmult_le_pos; lra.
Qed.
Lemma half_error_pos : 0 <= half_error u e sg om rho kap K.
Proof.
  pose proof ranges. destruct (usual_ordinary K HK) as (_ & Hl & _). pose proof (size_max K 0 Hl ltac:(lra)). unfold half_error. apply Rmult_le_pos; lra.
Qed.

Section Rules.
Variables (sx sy : list R) (GX GY : rule).
Hypothesis Hx : ordinary_edges sx.
Hypothesis Hy : ordinary_edges sy.
Hypothesis Hz : chained (fun a b => 0 <= a \/ b <= 0) sy.
Hypothesis HX : piecewise q sx = Ok GX.
Hypothesis HY : piecewise q sy = Ok GY.
Variables (kf : R -> R -> R) (M : matrix) (D : R).
Hypothesis HD : 0 <= D.
Hypothesis HM : forall i j, (i < length (rx GX))%nat -> (j < length (rx GY))%nat ->
  Rabs (ment M i j - ment (weighted kf GX GY) i j) <= D * kernel_size K (nth j (rx GY) 0) * (sqrt (nth i (rw GX) 0) * sqrt (nth j (rw GY) 0)).

Lemma edges_inside l G p : ordinary_edges l -> piecewise q l = Ok G -> (p < length (rx G))%nat -> -1 <= nth p (rx G) 0 <= 1.
Proof.
  intros Hl HG Hp. destruct Hr as (Hq & _). pose proof (inside n q Hq l G p Hl HG Hp) as I. destruct (G_ends q l G Hl HG) as (E1 & E2).
  pose proof (e_in l Hl 0 ltac:(lia)). pose proof (e_in l Hl (length l - 1) ltac:(lia)). rewrite E1, E2 in I. lra.
Qed.
Lemma weights_pos l G p : ordinary_edges l -> piecewise q l = Ok G -> (p < length (rx G))%nat -> 0 <= nth p (rw G) 0.
Proof.
  intros Hl HG Hp. destruct Hr as (Hq & _). pose proof (weight_low n q Hq l G p Hl HG Hp). pose proof gap_facts as (G1 & _). assert (0 <= gap * gap) by (apply Rmult_le_pos; lra). lra.
Qed.
Lemma matrix_distance : sumn (length (rx GX)) (fun i => sumn (length (rx GY)) (fun j => Rsqr (ment (weighted kf GX GY) i j - ment M i j)))
  <= Rsqr (D * kernel_max K) * (rsum (rw GX) * rsum (rw GY)).
Proof.
  destruct Hr as (Hq & _). destruct (usual_ordinary K HK) as (_ & Hl & _). pose proof (size_max K 0 Hl ltac:(lra)).
  apply weighted_square.
  - apply Rmult_le_pos; lra.
  - apply (lengths n q Hq sx GX Hx HX).
  - apply (lengths n q Hq sy GY Hy HY).
  - intros i Hi. apply (weights_pos sx GX i); auto.
  - intros j Hj. apply (weights_pos sy GY j); auto.
  - intros i j Hi Hj. eapply Rle_trans; [apply HM; auto|]. apply Rmult_le_compat_r; [apply Rmult_le_pos; apply sqrt_pos|]. apply Rmult_le_compat_l; auto. apply size_max; auto.
    apply (edges_inside sy); auto.
Qed.
End Rules.

Section Kernel.
Variables (f0 : tfun) (k : R -> R -> R).
Hypothesis Hf0 : tfun_ok f0.
Hypothesis Hk : forall x y, -1 <= x <= 1 -> -1 <= y <= 1 -> has_value f0 K x y (k x y).

Lemma at_nodes segs_x segs_y GX GY i j : ordinary_edges segs_x -> ordinary_edges segs_y -> chained (fun a b => 0 <= a \/ b <= 0) segs_y ->
  piecewise q segs_x = Ok GX -> piecewise q segs_y = Ok GY -> (i < length (rx GX))%nat -> (j < length (rx GY))%nat ->
  let x := nth i (rx GX) 0 in let y := nth j (rx GY) 0 in k x y = kernel_formula K x y /\ k x (- y) = kernel_formula K x (- y).
Proof.
  intros Hx Hy Hz HX HY Hi Hj. cbv zeta. destruct Hr as (Hq & _). destruct (usual_ordinary K HK) as (_ & Hl & _).
  pose proof (edges_inside segs_x GX i Hx HX Hi) as Ix. pose proof (edges_inside segs_y GY j Hy HY Hj) as Iy.
  pose proof (tiny_cutoff K _ HK (node_away n q segs_y GY j Hq Hy HY Hz Hj)) as T.
  split; apply (value_formula f0); auto; try lra.
  - rewrite Rabs_Ropp. exact T.
  - apply Hk; lra.
Qed.

Lemma full_distance GX GY M : piecewise q (segments_x K) = Ok GX -> piecewise q (segments_y K) = Ok GY ->
  sampling_matrix_rd rd (kernel_matrix_rd rd f K) r (segments_x K) (segments_y K) = Ok M ->
  sumn (length (rx GX)) (fun i => sumn (length (rx GY)) (fun j => Rsqr (ment (weighted k GX GY) i j - ment M i j))) <= Rsqr (full_error u e sg om rho kap K).
Proof.
  intros HX HY HM. destruct (usual_ordinary K HK) as (Ho & Hl). destruct (hinted_edges K _ Hl (or_introl eq_refl)) as (Ex & _). destruct (hinted_edges K _ Hl (or_intror eq_refl)) as (Ey & _).
  destruct (segments_valid K) as (Vx & Vy). pose proof (valid_away _ Vy) as Az. destruct (full_edges _ Vx) as (_ & X0 & X1 & X2 & X3). destruct (full_edges _ Vy) as (_ & _ & _ & Y2 & Y3).
  pose proof Hr as (Hq & Hn & Hm & K0 & K1 & K2). destruct Ha as (Hs & Hrd & Hf).
  pose proof (kap_resolved n q _ _ kap Hq Ey HY Az K0 K2) as Res. pose proof ranges as Rg.
  pose proof (matrix_distance _ _ GX GY Ex Ey HX HY k M (rho + 3 * om + 4 * (kap * (sg + 7 * u)) + 30 * u + 3 * e) ltac:(lra)) as B.
  rewrite (rule_total n q _ GX (proj1 Hq) HX), (rule_total n q _ GY (proj1 Hq) HY), X2, X3, Y2, Y3 in B.
  eapply Rle_trans; [apply B|].
  - intros i j Hi Hj. pose proof (full_matrix u eta e rd f Hs Hrd Hf n q r sg om rho kap _ _ GX GY K Hq Hn Hm Ho Ex Ey HX HY Res K1 M X0 X1 HM i j Hi Hj) as F.
    rewrite ComputeNonempty.weighted_entry in * by (auto; rewrite (lengths n q Hq _ _ Ex HX) || rewrite (lengths n q Hq _ _ Ey HY); auto).
    destruct (at_nodes _ _ GX GY i j Ex Ey Az HX HY Hi Hj) as (-> & _). exact F.
  - right. unfold full_error. rewrite (Rsqr_mult 2). unfold Rsqr at 2. ring.
Qed.

Lemma half_distance sgn red gx gy M : (sgn = 1 \/ sgn = -1) -> get_symmetrized K sgn = Ok red ->
  piecewise q (half (segments_x K)) = Ok gx -> piecewise q (half (segments_y K)) = Ok gy ->
  sampling_matrix_rd rd (reduced_matrix_rd rd f red) r (half (segments_x K)) (half (segments_y K)) = Ok M ->
  sumn (length (rx gx)) (fun i => sumn (length (rx gy)) (fun j => Rsqr (ment (weighted (fun x y => k x y + sgn * k x (- y)) gx gy) i j - ment M i j))) <= Rsqr (half_error u e sg om rho kap K).
Proof.
  intros Hsgn Hred HX HY HM. destruct (usual_ordinary K HK) as (Ho & Hl). destruct (hinted_edges K _ Hl (or_introl eq_refl)) as (_ & Ex). destruct (hinted_edges K _ Hl (or_intror eq_refl)) as (_ & Ey).
  destruct (segments_valid K) as (Vx & Vy). pose proof (half_edges_of _ Vx) as Wx. pose proof (half_edges_of _ Vy) as Wy.
  destruct (half_ends _ Wx) as (X0 & X1 & X2 & X3). destruct (half_ends _ Wy) as (_ & _ & Y2 & Y3).
  assert (Az : chained (fun a b => 0 <= a \/ b <= 0) (half (segments_y K))).
  { apply sorted_chained; [apply Wy|]. destruct (half (segments_y K)) as [|y0 l]; [destruct Ey as (L & _); cbn in L; lia|]. cbn in Y2. subst. now left. }
  pose proof Hr as (Hq & Hn & Hm & K0 & K1 & K2). destruct Ha as (Hs & Hrd & Hf).
  pose proof (kap_resolved n q _ _ kap Hq Ey HY Az K0 K2) as Res. pose proof ranges as Rg.
  pose proof (matrix_distance _ _ gx gy Ex Ey HX HY (fun x y => k x y + sgn * k x (- y)) M (2 * rho + 3 * sg + 5 * om + 7 * (kap * (sg + 7 * u)) + 85 * u + 5 * e) ltac:(lra)) as B.
  rewrite (rule_total n q _ gx (proj1 Hq) HX), (rule_total n q _ gy (proj1 Hq) HY), X2, X3, Y2, Y3 in B.
  eapply Rle_trans; [apply B|].
  - intros i j Hi Hj. pose proof (reduced_round_matrix u eta e rd f Hs Hrd Hf n q r sg om rho kap _ _ gx gy K Hq Hn Hm Ho Ex Ey HX HY Res K1 sgn red M Hsgn Hred X0 X1 HM i j Hi Hj) as F.
    rewrite ComputeNonempty.weighted_entry in * by (auto; rewrite (lengths n q Hq _ _ Ex HX) || rewrite (lengths n q Hq _ _ Ey HY); auto).
    destruct (at_nodes _ _ gx gy i j Ex Ey Az HX HY Hi Hj) as (-> & ->). exact F.
  - right. unfold half_error. ring.
Qed.
End Kernel.
End Errors.

(** * Expansions *)
Lemma full_close u eta e rd f n q r sg om rho kap K GX GY M :
  arithmetic u eta e rd f -> reference u n q r sg om rho kap -> usual_cutoff K ->
  piecewise q (segments_x K) = Ok GX -> piecewise q (segments_y K) = Ok GY ->
  sampling_matrix_rd rd (kernel_matrix_rd rd f K) r (segments_x K) (segments_y K) = Ok M ->
  forall f0 k, tfun_ok f0 -> (forall x y, -1 <= x <= 1 -> -1 <= y <= 1 -> has_value f0 K x y (k x y)) ->
  sumn (length (rx GX)) (fun i => sumn (length (rx GY)) (fun j => Rsqr (ment (weighted k GX GY) i j - ment M i j))) <= Rsqr (full_error u e sg om rho kap K).
Proof. intros Ha Hr HK HX HY HM f0 k Hf Hk. exact (full_distance u eta e rd f n q r sg om rho kap K Ha Hr HK f0 k Hf Hk GX GY M HX HY HM). Qed.
Lemma half_close u eta e rd f n q r sg om rho kap K gx gy s red M :
  arithmetic u eta e rd f -> reference u n q r sg om rho kap -> usual_cutoff K ->
  piecewise q (half (segments_x K)) = Ok gx -> piecewise q (half (segments_y K)) = Ok gy ->
  s = 1 \/ s = -1 -> get_symmetrized K s = Ok red ->
  sampling_matrix_rd rd (reduced_matrix_rd rd f red) r (half (segments_x K)) (half (segments_y K)) = Ok M ->
  forall f0 k, tfun_ok f0 -> (forall x y, -1 <= x <= 1 -> -1 <= y <= 1 -> has_value f0 K x y (k x y)) ->
  sumn (length (rx gx)) (fun i => sumn (length (rx gy)) (fun j => Rsqr (ment (weighted (fun x y => k x y + s * k x (- y)) gx gy) i j - ment M i j))) <= Rsqr (half_error u e sg om rho kap K).
Proof. intros Ha Hr HK HX HY Hs Hred HM f0 k Hf Hk. exact (half_distance u eta e rd f n q r sg om rho kap K Ha Hr HK f0 k Hf Hk s red gx gy M Hs Hred HX HY HM). Qed.

Lemma good_full u eta e rd f n q r sg om rho kap K GX GY M b d :
  arithmetic u eta e rd f -> reference u n q r sg om rho kap -> usual_cutoff K ->
  piecewise q (segments_x K) = Ok GX -> piecewise q (segments_y K) = Ok GY ->
  sampling_matrix_rd rd (kernel_matrix_rd rd f K) r (segments_x K) (segments_y K) = Ok M ->
  forall f0 k, tfun_ok f0 -> (forall x y, -1 <= x <= 1 -> -1 <= y <= 1 -> has_value f0 K x y (k x y)) ->
  near_svd (length (rx GX)) (length (rx GY)) M b d ->
  near_svd (length (rx GX)) (length (rx GY)) (weighted k GX GY) b (d + full_error u e sg om rho kap K).
Proof. intros Ha Hr HK HX HY HM f0 k Hf Hk Hn. apply (near_svd_shift _ _ _ M); auto; [exact (full_error_pos u eta e rd f n q r sg om rho kap K Ha Hr HK)|]. exact (full_close u eta e rd f n q r sg om rho kap K GX GY M Ha Hr HK HX HY HM f0 k Hf Hk). Qed.

Lemma good_half u eta e rd f n q r sg om rho kap K gx gy s red M b d :
  arithmetic u eta e rd f -> reference u n q r sg om rho kap -> usual_cutoff K ->
  piecewise q (half (segments_x K)) = Ok gx -> piecewise q (half (segments_y K)) = Ok gy ->
  s = 1 \/ s = -1 -> get_symmetrized K s = Ok red ->
  sampling_matrix_rd rd (reduced_matrix_rd rd f red) r (half (segments_x K)) (half (segments_y K)) = Ok M ->
  forall f0 k, tfun_ok f0 -> (forall x y, -1 <= x <= 1 -> -1 <= y <= 1 -> has_value f0 K x y (k x y)) ->
  near_svd (length (rx gx)) (length (rx gy)) M b d ->
  near_svd (length (rx gx)) (length (rx gy)) (weighted (fun x y => k x y + s * k x (- y)) gx gy) b (d + half_error u e sg om rho kap K).
Proof. intros Ha Hr HK HX HY Hs Hred HM f0 k Hf Hk Hn. apply (near_svd_shift _ _ _ M); auto; [exact (half_error_pos u eta e rd f n q r sg om rho kap K Ha Hr HK)|]. exact (half_close u eta e rd f n q r sg om rho kap K gx gy s red M Ha Hr HK HX HY Hs Hred HM f0 k Hf Hk). Qed.

Lemma weighted_ext k k' GX GY : (forall x y, k x y = k' x y) -> weighted k GX GY = weighted k' GX GY.
Proof.
  intros H. replace k' with k; auto. apply FunctionalExtensionality.functional_extensionality. intros x. apply FunctionalExtensionality.functional_extensionality. auto.
Qed.

Theorem rounded_sample :
  forall have_xprec have_gejsv dd f legendre run argsort,
  good_rules legendre ->
  forall K eps cutoff n_sv ng work svds r,
  compute have_xprec have_gejsv dd f legendre run argsort K eps cutoff n_sv ng work (Some SampleStrat) svds = Ok (Some r) ->
  forall k, tfun_ok f -> usual_cutoff K -> (forall x y, -1 <= x <= 1 -> -1 <= y <= 1 -> has_value f K x y (k x y)) ->
  exists t n q GX GY alg h,
    legendre t n = Ok q /\ (forall m, ng = Some m -> n = m) /\
    piecewise q (segments_x K) = Ok GX /\ piecewise q (segments_y K) = Ok GY /\
    let o := run alg (weighted k GX GY) h in
    forall u eta e rd f' q' sg om rho kap M d,
    arithmetic u eta e rd f' -> reference u n q q' sg om rho kap ->
    sampling_matrix_rd rd (kernel_matrix_rd rd f' K) q' (segments_x K) (segments_y K) = Ok M ->
    near_svd (length (rx GX)) (length (rx GY)) M o d ->
    near_best GX GY k r (d + full_error u e sg om rho kap K) (sumsq (svals o)).
Proof.
  intros have_xprec have_gejsv dd f legendre run argsort G K eps cutoff n_sv ng work svds r H k Hf HK Hk.
  destruct (near_sample have_xprec have_gejsv dd f legendre run argsort G K eps cutoff n_sv ng work svds r H k Hk) as (t & n & q & GX & GY & alg & h & Hl & Hn & HX & HY & Hb).
  exists t, n, q, GX, GY, alg, h. do 4 (split; [assumption|]). cbv zeta in *. intros u eta e rd f' q' sg om rho kap M d Ha Hr HM Hd. apply Hb.
  apply (good_full u eta e rd f' n q q' sg om rho kap K GX GY M _ d Ha Hr HK HX HY HM f k Hf Hk Hd).
Qed.

Lemma both_halves u eta e rd f n q r sg om rho kap K gx gy Ke Ko Me Mo be bo de d_o :
  arithmetic u eta e rd f -> reference u n q r sg om rho kap -> usual_cutoff K ->
  piecewise q (half (segments_x K)) = Ok gx -> piecewise q (half (segments_y K)) = Ok gy ->
  get_symmetrized K 1 = Ok Ke -> get_symmetrized K (-1) = Ok Ko ->
  sampling_matrix_rd rd (reduced_matrix_rd rd f Ke) r (half (segments_x K)) (half (segments_y K)) = Ok Me ->
  sampling_matrix_rd rd (reduced_matrix_rd rd f Ko) r (half (segments_x K)) (half (segments_y K)) = Ok Mo ->
  forall f0 k, tfun_ok f0 -> (forall x y, -1 <= x <= 1 -> -1 <= y <= 1 -> has_value f0 K x y (k x y)) ->
  near_svd (length (rx gx)) (length (rx gy)) Me be de -> near_svd (length (rx gx)) (length (rx gy)) Mo bo d_o ->
  near_svd (length (rx gx)) (length (rx gy)) (weighted (fun x y => k x y + k x (- y)) gx gy) be (de + half_error u e sg om rho kap K) /\
  near_svd (length (rx gx)) (length (rx gy)) (weighted (fun x y => k x y - k x (- y)) gx gy) bo (d_o + half_error u e sg om rho kap K).
Proof.
  intros Ha Hr HK HX HY He Ho HMe HMo f0 k Hf Hk Ne No. split.
  - rewrite (weighted_ext _ (fun x y => k x y + 1 * k x (- y))) by (intros; ring). apply (good_half u eta e rd f n q r sg om rho kap K gx gy 1 Ke Me be de Ha Hr HK HX HY (or_introl eq_refl) He HMe f0 k Hf Hk Ne).
  - rewrite (weighted_ext _ (fun x y => k x y + -1 * k x (- y))) by (intros; ring). apply (good_half u eta e rd f n q r sg om rho kap K gx gy (-1) Ko Mo bo d_o Ha Hr HK HX HY (or_intror eq_refl) Ho HMo f0 k Hf Hk No).
Qed.

Theorem rounded_centro :
  forall have_xprec have_gejsv dd f legendre run argsort,
  good_rules legendre -> (forall s, sorts s (argsort s)) ->
  forall K eps cutoff n_sv ng work st svds r,
  compute have_xprec have_gejsv dd f legendre run argsort K eps cutoff n_sv ng work st svds = Ok (Some r) -> st <> Some SampleStrat ->
  forall k, tfun_ok f -> usual_cutoff K -> (forall x y, -1 <= x <= 1 -> -1 <= y <= 1 -> has_value f K x y (k x y)) ->
  exists t n q gx gy GX GY alge he algo ho,
    legendre t n = Ok q /\ (forall m, ng = Some m -> n = m) /\
    piecewise q (half (segments_x K)) = Ok gx /\ piecewise q (half (segments_y K)) = Ok gy /\
    piecewise q (segments_x K) = Ok GX /\ piecewise q (segments_y K) = Ok GY /\
    let even := run alge (weighted (fun x y => k x y + k x (- y)) gx gy) he in
    let odd := run algo (weighted (fun x y => k x y - k x (- y)) gx gy) ho in
    forall u eta e rd f' q' sg om rho kap Ke Ko Me Mo de d_o,
    arithmetic u eta e rd f' -> reference u n q q' sg om rho kap ->
    get_symmetrized K 1 = Ok Ke -> get_symmetrized K (-1) = Ok Ko ->
    sampling_matrix_rd rd (reduced_matrix_rd rd f' Ke) q' (half (segments_x K)) (half (segments_y K)) = Ok Me ->
    sampling_matrix_rd rd (reduced_matrix_rd rd f' Ko) q' (half (segments_x K)) (half (segments_y K)) = Ok Mo ->
    near_svd (length (rx gx)) (length (rx gy)) Me even de -> near_svd (length (rx gx)) (length (rx gy)) Mo odd d_o ->
    let c := half_error u e sg om rho kap K in
    near_best GX GY k r (sqrt (Rsqr (de + c) + Rsqr (d_o + c))) (sumsq (svals even) + sumsq (svals odd)).
Proof.
  intros have_xprec have_gejsv dd f legendre run argsort G Hs K eps cutoff n_sv ng work st svds r H Hst k Hf HK Hk. destruct (usual_ordinary K HK) as (_ & Hl & _).
  destruct (near_centro have_xprec have_gejsv dd f legendre run argsort G Hs K eps cutoff n_sv ng work st svds r H Hst k Hf Hl Hk)
    as (t & n & q & gx & gy & GX & GY & alge & he & algo & ho & Hq & Hn & H1 & H2 & H3 & H4 & Hb).
  exists t, n, q, gx, gy, GX, GY, alge, he, algo, ho. do 6 (split; [assumption|]). cbv zeta in *. intros u eta e rd f' q' sg om rho kap Ke Ko Me Mo de d_o Ha Hr HKe HKo HMe HMo Ne No.
  destruct (both_halves u eta e rd f' n q q' sg om rho kap K gx gy Ke Ko Me Mo _ _ de d_o Ha Hr HK H1 H2 HKe HKo HMe HMo f k Hf Hk Ne No) as (B1 & B2). apply Hb; assumption.
Qed.

Theorem rounded_basis_sample :
  forall have_xprec have_gejsv dd f legendre run argsort,
  good_rules legendre -> (forall s, sorts s (argsort s)) -> svd_shaped run ->
  forall statistics beta wmax eps' max_size kernel c,
  let K := used_kernel (beta * wmax) kernel in
  forall eps cutoff n_sv ng work st svds r b,
  compute have_xprec have_gejsv dd f legendre run argsort K eps cutoff n_sv ng work st svds = Ok (Some r) ->
  basis_init c statistics beta wmax eps' max_size (option_map kern_of kernel) (Some r) = Ok b -> 0 < wmax ->
  forall k, tfun_ok f -> usual_cutoff K -> (forall x y, -1 <= x <= 1 -> -1 <= y <= 1 -> has_value f K x y (k x y)) -> st = Some SampleStrat ->
  exists t n q GX GY alg h,
    legendre t n = Ok q /\ (forall m, ng = Some m -> n = m) /\
    piecewise q (segments_x K) = Ok GX /\ piecewise q (segments_y K) = Ok GY /\
    let o := run alg (weighted k GX GY) h in
    let F := physical_factor beta wmax (k_ypower K) in
    forall u eta e rd f' q' sg om rho kap M d,
    arithmetic u eta e rd f' -> reference u n q q' sg om rho kap ->
    sampling_matrix_rd rd (kernel_matrix_rd rd f' K) q' (segments_x K) (segments_y K) = Ok M ->
    near_svd (length (rx GX)) (length (rx GY)) M o d ->
    near_best_of_its_size (reseat GX 0 beta) (reseat GY (- wmax) wmax) (in_physical k (k_ypower K) beta wmax) b
      (F * (d + full_error u e sg om rho kap K)) (Rsqr F * sumsq (svals o)).
Proof.
  intros have_xprec have_gejsv dd f legendre run argsort G Hs Hsh statistics beta wmax eps' max_size kernel c K eps cutoff n_sv ng work st svds r b H Hb Hw k Hf HK Hk Hst.
  destruct (from_sample_near have_xprec have_gejsv dd f legendre run argsort G Hs Hsh statistics beta wmax eps' max_size kernel c eps cutoff n_sv ng work st svds r b H Hb Hw k Hk Hst)
    as (t & n & q & GX & GY & alg & h & Hl & Hn & HX & HY & Hf').
  exists t, n, q, GX, GY, alg, h. do 4 (split; [assumption|]). cbv zeta in *. intros u eta e rd f' q' sg om rho kap M d Ha Hr HM Hd. apply Hf'.
  apply (good_full u eta e rd f' n q q' sg om rho kap K GX GY M _ d Ha Hr HK HX HY HM f k Hf Hk Hd).
Qed.

Theorem rounded_basis_centro :
  forall have_xprec have_gejsv dd f legendre run argsort,
  good_rules legendre -> (forall s, sorts s (argsort s)) -> svd_shaped run ->
  forall statistics beta wmax eps' max_size kernel c,
  let K := used_kernel (beta * wmax) kernel in
  forall eps cutoff n_sv ng work st svds r b,
  compute have_xprec have_gejsv dd f legendre run argsort K eps cutoff n_sv ng work st svds = Ok (Some r) ->
  basis_init c statistics beta wmax eps' max_size (option_map kern_of kernel) (Some r) = Ok b -> 0 < wmax ->
  forall k, tfun_ok f -> usual_cutoff K -> (forall x y, -1 <= x <= 1 -> -1 <= y <= 1 -> has_value f K x y (k x y)) -> st <> Some SampleStrat ->
  exists t n q gx gy GX GY alge he algo ho,
    legendre t n = Ok q /\ (forall m, ng = Some m -> n = m) /\
    piecewise q (half (segments_x K)) = Ok gx /\ piecewise q (half (segments_y K)) = Ok gy /\
    piecewise q (segments_x K) = Ok GX /\ piecewise q (segments_y K) = Ok GY /\
    let even := run alge (weighted (fun x y => k x y + k x (- y)) gx gy) he in
    let odd := run algo (weighted (fun x y => k x y - k x (- y)) gx gy) ho in
    let F := physical_factor beta wmax (k_ypower K) in
    forall u eta e rd f' q' sg om rho kap Ke Ko Me Mo de d_o,
    arithmetic u eta e rd f' -> reference u n q q' sg om rho kap ->
    get_symmetrized K 1 = Ok Ke -> get_symmetrized K (-1) = Ok Ko ->
    sampling_matrix_rd rd (reduced_matrix_rd rd f' Ke) q' (half (segments_x K)) (half (segments_y K)) = Ok Me ->
    sampling_matrix_rd rd (reduced_matrix_rd rd f' Ko) q' (half (segments_x K)) (half (segments_y K)) = Ok Mo ->
    near_svd (length (rx gx)) (length (rx gy)) Me even de -> near_svd (length (rx gx)) (length (rx gy)) Mo odd d_o ->
    let ce := half_error u e sg om rho kap K in
    near_best_of_its_size (reseat GX 0 beta) (reseat GY (- wmax) wmax) (in_physical k (k_ypower K) beta wmax) b
      (F * sqrt (Rsqr (de + ce) + Rsqr (d_o + ce))) (Rsqr F * (sumsq (svals even) + sumsq (svals odd))).
Proof.
  intros have_xprec have_gejsv dd f legendre run argsort G Hs Hsh statistics beta wmax eps' max_size kernel c K eps cutoff n_sv ng work st svds r b H Hb Hw k Hf HK Hk Hst.
  destruct (from_centro_near have_xprec have_gejsv dd f legendre run argsort G Hs Hsh statistics beta wmax eps' max_size kernel c eps cutoff n_sv ng work st svds r b H Hb Hw k Hf Hk Hst)
    as (t & n & q & gx & gy & GX & GY & alge & he & algo & ho & Hq & Hn & H1 & H2 & H3 & H4 & Hf').
  exists t, n, q, gx, gy, GX, GY, alge, he, algo, ho. do 6 (split; [assumption|]). cbv zeta in *. intros u eta e rd f' q' sg om rho kap Ke Ko Me Mo de d_o Ha Hr HKe HKo HMe HMo Ne No.
  destruct (both_halves u eta e rd f' n q q' sg om rho kap K gx gy Ke Ko Me Mo _ _ de d_o Ha Hr HK H1 H2 HKe HKo HMe HMo f k Hf Hk Ne No) as (B1 & B2). apply Hf'; assumption.
Qed.
