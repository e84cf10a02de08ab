(** A basis for the kernel in physical variables. *)
From Coq Require Import String ZArith Arith Bool Reals Lra Lia Psatz.
From Coquelicot Require Import Coquelicot.
From Coq Require Import List Sorting.Sorted.
From Verif.Model Require Import Base Util Num Gauss Poly FT SVE Basis Kernel Compute Whole.
From Verif.Spec Require Import SGauss SPoly SFT SSVE SBasis SKernel SCompute SSingular SWhole SNear.
From Verif.Proofs Require Import BaseFacts SumFacts GaussFacts PPolyFacts BasisFacts BasisInit BasisProps BasisOps BasisPhys ComputeNodes ComputePost ComputeMerged ComputeError ComputeFull SingularEq.
Import ListNotations.
Open Scope R_scope.
Notation length := List.length.

Lemma reseat_nodes g a b : ra g = -1 -> rb g = 1 ->
  rx (reseat g a b) = map (fun x => (b - a) / 2 * x + (b + a) / 2) (rx g) /\ rw (reseat g a b) = map (fun w => (b - a) / 2 * w) (rw g).
Proof.
  intros Ha Hb. unfold reseat, rule_init. cbn [rx rw]. rewrite Ha, Hb. split; apply map_ext; intros x; field.
Qed.

Lemma reseat_sum_of g a b F : ra g = -1 -> rb g = 1 ->
  quad (rx (reseat g a b)) (rw (reseat g a b)) F = (b - a) / 2 * quad (rx g) (rw g) (fun x => F ((b - a) / 2 * x + (b + a) / 2)).
Proof.
  intros Ha Hb. destruct (reseat_nodes g a b Ha Hb) as [-> ->]. unfold quad. generalize (rw g). induction (rx g) as [|x l IH]; intros [|w ws]; cbn; try lra.
  specialize (IH ws). unfold rsum in *. cbn in *. rewrite IH. ring.
Qed.

Lemma quad2_quad gx gy F : quad2 gx gy F = quad (rx gx) (rw gx) (fun x => quad (rx gy) (rw gy) (F x)).
Proof.
  unfold quad2, quad. f_equal. apply map2_ext. intros x w. generalize (rw gy). induction (rx gy) as [|y l IH]; intros [|v vs]; cbn; try lra.
  unfold rsum in *. cbn. rewrite IH. ring.
Qed.

Lemma reseat_sum2 gx gy a b c d F : ra gx = -1 -> rb gx = 1 -> ra gy = -1 -> rb gy = 1 ->
  quad2 (reseat gx a b) (reseat gy c d) F =
  (b - a) / 2 * ((d - c) / 2) * quad2 gx gy (fun x y => F ((b - a) / 2 * x + (b + a) / 2) ((d - c) / 2 * y + (d + c) / 2)).
Proof.
  intros A B C D. rewrite !quad2_quad, reseat_sum_of by auto. rewrite Rmult_assoc. f_equal. rewrite <- quad_scale. apply quad_ext. intros x _.
  rewrite reseat_sum_of by auto. reflexivity.
Qed.

Section Phys.
Variable compute : kern -> option R -> res sve_result.
Variable b : basis.
Hypothesis Hb : built compute b.
Let r := bsve b.
Let beta := bbeta b.
Let wmax := bwmax b.
Variables (gx gy : rule) (k : R -> R -> R).
Hypothesis Ax : ra gx = -1.
Hypothesis Bx : rb gx = 1.
Hypothesis Ay : ra gy = -1.
Hypothesis By : rb gy = 1.
Hypothesis Nx : forall x, In x (rx gx) -> -1 <= x <= 1.
Hypothesis Ny : forall y, In y (rx gy) -> -1 <= y <= 1.
Let gt := reseat gx 0 beta.
Let gw := reseat gy (- wmax) wmax.
Let kp := in_physical k (kyp (bkernel b)) beta wmax.

Let Pb : 0 < beta.
Proof. exact (beta_pos compute b Hb). Qed.
Let Pw : 0 < wmax.
Proof. exact (wmax_pos compute b Hb). Qed.

(** The l-th functions and the functions they come from. *)
Lemma u_from l u : represents (bu b) l u -> (l < bsize b)%nat /\ exists f, represents (su r) l f /\
  forall x, -1 <= x <= 1 -> u (beta / 2 * x + beta / 2) = sqrt (2 / beta) * f x.
Proof.
  intros Hu. destruct (bu_range compute b Hb) as [R1 R2]. fold beta in R2. pose proof (size_le compute b Hb) as Sz.
  assert (Hl : (l < bsize b)%nat).
  { assert (G : geom_ok (vgeom (bu b))).
    { rewrite (bu_eq compute b Hb). cbn [vgeom]. apply scaled_ok; [fold beta; lra|]. apply (ok_r compute b Hb). }
    pose proof (in_cols _ _ _ 0 G ltac:(rewrite R1, R2; lra) Hu) as H. rewrite (bu_eq compute b Hb) in H. cbn [vcols] in H. rewrite firstn_length in H. lia. }
  split; auto. destruct (su_represents compute b Hb l ltac:(lia)) as [f Hf]. exists f. split; [exact Hf|]. intros x Hx.
  pose proof (u_phys compute b Hb l f Hl Hf) as H.
  rewrite (represents_unique _ _ _ _ (beta / 2 * x + beta / 2) Hu H) by (rewrite R1, R2; nra). cbv beta. do 2 f_equal. fold beta. field. lra.
Qed.

Lemma v_from l v : represents (bv b) l v -> (l < bsize b)%nat /\ exists f, represents (sv r) l f /\
  forall y, -1 <= y <= 1 -> v (wmax * y) = f y / sqrt wmax.
Proof.
  intros Hu. destruct (bv_range compute b Hb) as [R1 R2]. fold wmax in R1, R2. pose proof (size_le compute b Hb) as Sz.
  assert (Hl : (l < bsize b)%nat).
  { assert (G : geom_ok (vgeom (bv b))).
    { rewrite (bv_eq compute b Hb). cbn [vgeom]. apply scaled_ok; [fold wmax; lra|]. apply (ok_r compute b Hb). }
    pose proof (in_cols _ _ _ 0 G ltac:(rewrite R1, R2; lra) Hu) as H. rewrite (bv_eq compute b Hb) in H. cbn [vcols] in H. rewrite firstn_length in H.
    pose proof (ok_r compute b Hb) as (_ & _ & _ & _ & _ & _ & _ & Lv & _). lia. }
  split; auto. destruct (sv_represents compute b Hb l ltac:(lia)) as [f Hf]. exists f. split; [exact Hf|]. intros x Hx.
  pose proof (v_phys compute b Hb l f Hl Hf) as H.
  rewrite (represents_unique _ _ _ _ (wmax * x) Hu H) by (rewrite R1, R2; nra). cbv beta. fold wmax. do 2 f_equal. field. lra.
Qed.

Lemma s_from l : (l < bsize b)%nat -> nth l (bs b) 0 = sqrt (beta / 2 * wmax) * powerRZ wmax (- kyp (bkernel b)) * nth l (ss r) 0.
Proof.
  intros Hl. rewrite (bs_eq compute b Hb). pose proof (size_le compute b Hb). set (h := fun x => BasisInit.sfactor (bbeta b) (bwmax b) (kyp (bkernel b)) * x).
  rewrite (nth_indep _ 0 (h 0)) by (rewrite map_length, firstn_length; lia).
  rewrite map_nth. unfold h. rewrite nth_firstn by auto. reflexivity.
Qed.

Lemma kp_at x y : kp (beta / 2 * x + beta / 2) (wmax * y) = powerRZ wmax (- kyp (bkernel b)) * k x y.
Proof. unfold kp, in_physical. f_equal. f_equal; field; lra. Qed.

Lemma roots : sqrt (beta / 2 * wmax) = sqrt (beta / 2) * sqrt wmax /\ sqrt (2 / beta) = / sqrt (beta / 2) /\
  0 < sqrt (beta / 2) /\ 0 < sqrt wmax /\ sqrt (beta / 2) * sqrt (beta / 2) = beta / 2 /\ sqrt wmax * sqrt wmax = wmax.
Proof.
  assert (0 < beta / 2) by lra. repeat split.
  - apply sqrt_mult; lra.
  - replace (2 / beta) with (/ (beta / 2)) by (field; lra). apply sqrt_inv.
  - apply sqrt_lt_R0; auto.
  - apply sqrt_lt_R0; auto.
  - apply sqrt_sqrt; lra.
  - apply sqrt_sqrt; lra.
Qed.

Lemma phys_system : singular_system gx gy k r -> singular_system gt gw kp (expansion_of b).
Proof.
  intros Hs l u v Hu Hv. cbn [expansion_of su sv ss] in *.
  destruct (u_from l u Hu) as (Hl & f & Hf & Ef). destruct (v_from l v Hv) as (_ & g & Hg & Eg).
  destruct (Hs l f g Hf Hg) as [S1 S2]. destruct roots as (R1 & R2 & R3 & R4 & R5 & R6).
  set (P := powerRZ wmax (- kyp (bkernel b))) in *. rewrite (s_from l Hl). fold P.
  destruct (reseat_nodes gx 0 beta Ax Bx) as [Tx _]. destruct (reseat_nodes gy (- wmax) wmax Ay By) as [Ty _].
  split; intros z Hz; unfold gt, gw in *.
  - rewrite Tx in Hz. apply in_map_iff in Hz as (x & <- & Hx). rewrite reseat_sum_of by auto.
    replace ((beta - 0) / 2 * x + (beta + 0) / 2) with (beta / 2 * x + beta / 2) by field.
    rewrite (quad_ext _ _ _ (fun y => P / sqrt wmax * (k x y * g y))).
    2:{ intros y Hy. replace ((wmax - - wmax) / 2 * y + (wmax + - wmax) / 2) with (wmax * y) by field. rewrite kp_at, Eg by auto. fold P. field. lra. }
    rewrite quad_scale, (S1 x Hx), Ef by auto. rewrite R1, R2. rewrite <- R6 at 1 2. field. split; lra.
  - rewrite Ty in Hz. apply in_map_iff in Hz as (y & <- & Hy). rewrite reseat_sum_of by auto.
    replace ((wmax - - wmax) / 2 * y + (wmax + - wmax) / 2) with (wmax * y) by field.
    rewrite (quad_ext _ _ _ (fun x => P / sqrt (beta / 2) * (k x y * f x))).
    2:{ intros x Hx. replace ((beta - 0) / 2 * x + (beta + 0) / 2) with (beta / 2 * x + beta / 2) by field. rewrite kp_at, Ef by auto. fold P. rewrite R2. field. lra. }
    rewrite quad_scale, (S2 y Hy), Eg by auto. rewrite R1. replace ((beta - 0) / 2) with (sqrt (beta / 2) * sqrt (beta / 2)) by lra. field. split; lra.
Qed.

Lemma phys_quad_u : quad_orthonormal gx (su r) -> quad_orthonormal gt (bu b).
Proof.
  intros Hq l m u u' Hu Hu'. destruct (u_from l u Hu) as (Hl & f & Hf & Ef). destruct (u_from m u' Hu') as (_ & g & Hg & Eg).
  destruct roots as (R1 & R2 & R3 & R4 & R5 & R6). unfold gt. rewrite reseat_sum_of by auto.
  rewrite (quad_ext _ _ _ (fun x => / (beta / 2) * (f x * g x))).
  2:{ intros x Hx. replace ((beta - 0) / 2 * x + (beta + 0) / 2) with (beta / 2 * x + beta / 2) by field. rewrite Ef, Eg by auto. rewrite R2. replace (/ (beta / 2)) with (/ (sqrt (beta / 2) * sqrt (beta / 2))) by (rewrite R5; reflexivity). field. lra. }
  rewrite quad_scale, (Hq l m f g Hf Hg). field. lra.
Qed.
Lemma phys_quad_v : quad_orthonormal gy (sv r) -> quad_orthonormal gw (bv b).
Proof.
  intros Hq l m u u' Hu Hu'. destruct (v_from l u Hu) as (Hl & f & Hf & Ef). destruct (v_from m u' Hu') as (_ & g & Hg & Eg).
  destruct roots as (R1 & R2 & R3 & R4 & R5 & R6). unfold gw. rewrite reseat_sum_of by auto.
  rewrite (quad_ext _ _ _ (fun x => / wmax * (f x * g x))).
  2:{ intros x Hx. replace ((wmax - - wmax) / 2 * x + (wmax + - wmax) / 2) with (wmax * x) by field. rewrite Ef, Eg by auto. replace (/ wmax) with (/ (sqrt wmax * sqrt wmax)) by (rewrite R6; reflexivity). field. lra. }
  rewrite quad_scale, (Hq l m f g Hf Hg). field. lra.
Qed.
Lemma phys_ortho_u : orthonormal_functions (su r) -> orthonormal_functions (bu b).
Proof.
  intros Ho l m u u' Hu Hu'. destruct (u_from l u Hu) as (Hl & f & Hf & _). destruct (u_from m u' Hu') as (Hm & g & Hg & _).
  destruct (bu_range compute b Hb) as [-> ->]. apply (u_overlap compute b Hb l m f g u u' _ Hl Hm Hf Hg Hu Hu').
  pose proof (Ho l m f g Hf Hg) as H. pose proof (ok_r compute b Hb) as (_ & _ & U1 & U2 & _). fold r in U1, U2. rewrite U1, U2 in H. exact H.
Qed.
Lemma phys_ortho_v : orthonormal_functions (sv r) -> orthonormal_functions (bv b).
Proof.
  intros Ho l m u u' Hu Hu'. destruct (v_from l u Hu) as (Hl & f & Hf & _). destruct (v_from m u' Hu') as (Hm & g & Hg & _).
  destruct (bv_range compute b Hb) as [-> ->]. apply (v_overlap compute b Hb l m f g u u' _ Hl Hm Hf Hg Hu Hu').
  pose proof (Ho l m f g Hf Hg) as H. pose proof (ok_r compute b Hb) as (_ & _ & _ & _ & V1 & V2 & _). fold r in V1, V2. rewrite V1, V2 in H. exact H.
Qed.

Lemma P_pos : 0 < powerRZ wmax (- kyp (bkernel b)).
Proof. apply powerRZ_lt. exact Pw. Qed.

Lemma sum_value E0 : (forall x y, -1 <= x <= 1 -> -1 <= y <= 1 -> sve_sum (cut_at (bsize b) r) x y = Ok (E0 x y)) ->
  forall t w, 0 <= t <= beta -> - wmax <= w <= wmax ->
  sve_sum (expansion_of b) t w = Ok (in_physical E0 (kyp (bkernel b)) beta wmax t w).
Proof.
  intros HE t w Ht Hw. pose proof (size_le compute b Hb) as Sz.
  pose proof (ok_r compute b Hb) as ((Gu & Ou & Lu) & (Gv & Ov & Lv) & U1 & U2 & V1 & V2 & Nu & Nv & _). fold r in Sz, Gu, Ou, Lu, Gv, Ov, Lv, U1, U2, V1, V2, Nu, Nv.
  destruct (bu_range compute b Hb) as [R1 R2]. destruct (bv_range compute b Hb) as [Q1 Q2]. fold beta in R2. fold wmax in Q1, Q2.
  assert (Hx : -1 <= 2 * t / beta - 1 <= 1).
  { assert (0 <= 2 * t / beta <= 2); [|lra]. split; [apply Rle_div_r|apply Rle_div_l]; lra. }
  assert (Hy : -1 <= w / wmax <= 1) by (split; [apply Rle_div_r|apply Rle_div_l]; lra).
  assert (Fu : fresh (bu b)).
  { rewrite (bu_eq compute b Hb). fold beta r. split; [apply scaled_ok; auto; lra|]. cbn. split; [lia|reflexivity]. }
  assert (Fv : fresh (bv b)).
  { rewrite (bv_eq compute b Hb). fold wmax r. split; [apply scaled_ok; auto; lra|]. cbn. split; [lia|reflexivity]. }
  assert (Lb : length (bs b) = bsize b) by reflexivity.
  assert (L1 : length (vcols (bu b)) = bsize b) by (rewrite (bu_eq compute b Hb); cbn [vcols]; rewrite firstn_length; fold r; lia).
  assert (L2 : length (vcols (bv b)) = bsize b) by (rewrite (bv_eq compute b Hb); cbn [vcols]; rewrite firstn_length; fold r; lia).
  rewrite (sve_sum_ok (expansion_of b) t w); cbn [expansion_of su sv ss]; auto; try (rewrite ?R1, ?R2, ?Q1, ?Q2; lra); try congruence.
  specialize (HE _ _ Hx Hy). unfold in_physical.
  rewrite (sve_sum_ok (cut_at (bsize b) r)) in HE; cbn [cut_at su sv ss take vgeom vcols]; rewrite ?firstn_length; try lia; try (rewrite ?U1, ?U2, ?V1, ?V2; lra);
    try (split; [assumption|split; assumption]).
  injection HE as <-. f_equal. unfold expand. cbn [expansion_of cut_at su sv ss take vgeom vcols]. rewrite firstn_length, Nat.min_l by lia.
  change (length (bs b)) with (bsize b).
  assert (RU : forall l, (l < length (ss r))%nat -> represents (su r) l (fun x => cval (vgeom (su r)) (nth l (vcols (su r)) col0) x)).
  { intros l Hl x Hx'. apply value_cval; auto; try lia. apply nth_error_nth'. lia. }
  assert (RV : forall l, (l < length (ss r))%nat -> represents (sv r) l (fun x => cval (vgeom (sv r)) (nth l (vcols (sv r)) col0) x)).
  { intros l Hl x Hx'. apply value_cval; auto; try lia. apply nth_error_nth'. lia. }
  assert (RBU : forall l, (l < bsize b)%nat -> represents (bu b) l (fun x => cval (vgeom (bu b)) (nth l (vcols (bu b)) col0) x)).
  { intros l Hl x Hx'. destruct Fu as (F1 & F2 & F3). apply value_cval; auto; try lia. apply nth_error_nth'. lia. }
  assert (RBV : forall l, (l < bsize b)%nat -> represents (bv b) l (fun x => cval (vgeom (bv b)) (nth l (vcols (bv b)) col0) x)).
  { intros l Hl x Hx'. destruct Fv as (F1 & F2 & F3). apply value_cval; auto; try lia. apply nth_error_nth'. lia. }
  pose proof (expansion compute b Hb t w
    (fun l x => cval (vgeom (su r)) (nth l (vcols (su r)) col0) x) (fun l x => cval (vgeom (sv r)) (nth l (vcols (sv r)) col0) x)
    (fun l x => cval (vgeom (bu b)) (nth l (vcols (bu b)) col0) x) (fun l x => cval (vgeom (bv b)) (nth l (vcols (bv b)) col0) x) Ht Hw) as Ex.
  cbv beta in Ex. rewrite Ex.
  2:{ intros l Hl. split; [apply RU; lia|]. split; [apply RV; lia|]. split; [apply RBU|apply RBV]; auto. }
  fold beta wmax r. f_equal. apply sumn_ext. intros l Hl. unfold sval. rewrite !nth_firstn by auto. reflexivity.
Qed.

Lemma scaled_squares F G : (forall x y, -1 <= x <= 1 -> -1 <= y <= 1 -> F (beta / 2 * x + beta / 2) (wmax * y) = powerRZ wmax (- kyp (bkernel b)) * G x y) ->
  quad2 gt gw (fun t w => Rsqr (F t w)) =
  Rsqr (sqrt (beta / 2 * wmax) * powerRZ wmax (- kyp (bkernel b))) * quad2 gx gy (fun x y => Rsqr (G x y)).
Proof.
  intros H. unfold gt, gw. rewrite reseat_sum2 by auto. set (P := powerRZ wmax (- kyp (bkernel b))) in *.
  assert (Hs : Rsqr (sqrt (beta / 2 * wmax) * P) = beta / 2 * wmax * (P * P)).
  { unfold Rsqr. transitivity (sqrt (beta / 2 * wmax) * sqrt (beta / 2 * wmax) * (P * P)); [ring|]. rewrite sqrt_sqrt; [ring|]. apply Rmult_le_pos; lra. }
  rewrite Hs. replace ((beta - 0) / 2 * ((wmax - - wmax) / 2)) with (beta / 2 * wmax) by field. rewrite (Rmult_assoc (beta / 2 * wmax) (P * P)). f_equal.
  rewrite !quad2_quad. rewrite <- quad_scale. apply quad_ext. intros x Hx. rewrite <- quad_scale. apply quad_ext. intros y Hy.
  replace ((beta - 0) / 2 * x + (beta + 0) / 2) with (beta / 2 * x + beta / 2) by field. replace ((wmax - - wmax) / 2 * y + (wmax + - wmax) / 2) with (wmax * y) by field.
  rewrite H by auto. unfold Rsqr. ring.
Qed.

Lemma sumsq_s : sumsq (bs b) = Rsqr (sqrt (beta / 2 * wmax) * powerRZ wmax (- kyp (bkernel b))) * sumsq (firstn (bsize b) (ss r)).
Proof.
  rewrite (bs_eq compute b Hb). fold r beta wmax. unfold sumsq, BasisInit.sfactor. induction (firstn (bsize b) (ss r)) as [|a l IH]; cbn; [lra|].
  unfold rsum in *. cbn in *. rewrite IH. unfold Rsqr. ring.
Qed.

Lemma phys_error : cut_errors gx gy k r ->
  exists E, (forall t w, 0 <= t <= beta -> - wmax <= w <= wmax -> sve_sum (expansion_of b) t w = Ok (E t w)) /\
     quad2 gt gw (fun t w => Rsqr (kp t w - E t w)) = quad2 gt gw (fun t w => Rsqr (kp t w)) - sumsq (bs b).
Proof.
  intros H. destruct (H (bsize b)) as (E0 & HE & Hq). exists (in_physical E0 (kyp (bkernel b)) beta wmax). split; [exact (sum_value E0 HE)|].
  assert (A : forall (g : R -> R -> R) x y, in_physical g (kyp (bkernel b)) beta wmax (beta / 2 * x + beta / 2) (wmax * y) = powerRZ wmax (- kyp (bkernel b)) * g x y).
  { intros g x y. unfold in_physical. f_equal. f_equal; field; lra. }
  rewrite (scaled_squares (fun t w => kp t w - in_physical E0 (kyp (bkernel b)) beta wmax t w) (fun x y => k x y - E0 x y)).
  2:{ intros x y _ _. unfold kp. rewrite !A. ring. }
  rewrite (scaled_squares kp k) by (intros x y _ _; unfold kp; apply A).
  rewrite Hq, sumsq_s. ring.
Qed.

Lemma cut_sum x y : -1 <= x <= 1 -> -1 <= y <= 1 -> sve_sum (cut_at (bsize b) r) x y = Ok (expand (cut_at (bsize b) r) x y).
Proof.
  intros Hx Hy. pose proof (size_le compute b Hb) as Sz.
  pose proof (ok_r compute b Hb) as (Fu & Fv & U1 & U2 & V1 & V2 & Nu & Nv & _). fold r in Sz, Fu, Fv, U1, U2, V1, V2, Nu, Nv.
  apply sve_sum_ok; cbn [cut_at su sv ss take vgeom vcols]; rewrite ?firstn_length; try lia; try (rewrite ?U1, ?U2, ?V1, ?V2; lra); assumption.
Qed.

Lemma phys_best : best_cuts gx gy k r -> best_of_its_size gt gw kp b.
Proof.
  intros HB E HE p q. pose (E0 := expand (cut_at (bsize b) r)).
  assert (HE0 : forall x y, -1 <= x <= 1 -> -1 <= y <= 1 -> sve_sum (cut_at (bsize b) r) x y = Ok (E0 x y)) by exact cut_sum.
  assert (A : forall (g : R -> R -> R) x y, in_physical g (kyp (bkernel b)) beta wmax (beta / 2 * x + beta / 2) (wmax * y) = powerRZ wmax (- kyp (bkernel b)) * g x y).
  { intros g x y. unfold in_physical. f_equal. f_equal; field; lra. }
  pose proof P_pos as PP. set (P := powerRZ wmax (- kyp (bkernel b))) in *.
  rewrite (scaled_squares (fun t w => kp t w - E t w) (fun x y => k x y - E0 x y)).
  2:{ intros x y Hx Hy. assert (Rt : 0 <= beta / 2 * x + beta / 2 <= beta) by nra. assert (Rw : - wmax <= wmax * y <= wmax) by nra.
      pose proof (HE _ _ Rt Rw) as H1. rewrite (sum_value E0 HE0 _ _ Rt Rw) in H1. injection H1 as <-. unfold kp. rewrite !A. fold P. ring. }
  rewrite (scaled_squares (fun t w => kp t w - sumn (bsize b) (fun l => p l t * q l w))
             (fun x y => k x y - sumn (bsize b) (fun l => p l (beta / 2 * x + beta / 2) / P * q l (wmax * y)))).
  2:{ intros x y Hx Hy. unfold kp. rewrite A. fold P. rewrite Rmult_minus_distr_l. f_equal. rewrite <- sumn_scal. apply sumn_ext. intros l Hl. field. lra. }
  apply Rmult_le_compat_l; [apply Rle_0_sqr|].
  exact (HB (bsize b) E0 (size_le compute b Hb) HE0 (fun l x => p l (beta / 2 * x + beta / 2) / P) (fun l y => q l (wmax * y))).
Qed.

(** Distances in physical variables. *)
Lemma phys_near d all : near_best gx gy k r d all ->
  near_best_of_its_size gt gw kp b (physical_factor beta wmax (kyp (bkernel b)) * d) (Rsqr (physical_factor beta wmax (kyp (bkernel b))) * all).
Proof.
  intros HB E HE. pose (E0 := expand (cut_at (bsize b) r)).
  assert (HE0 : forall x y, -1 <= x <= 1 -> -1 <= y <= 1 -> sve_sum (cut_at (bsize b) r) x y = Ok (E0 x y)) by exact cut_sum.
  assert (A : forall (g : R -> R -> R) x y, in_physical g (kyp (bkernel b)) beta wmax (beta / 2 * x + beta / 2) (wmax * y) = powerRZ wmax (- kyp (bkernel b)) * g x y).
  { intros g x y. unfold in_physical. f_equal. f_equal; field; lra. }
  destruct (HB (bsize b) E0 (size_le compute b Hb) HE0) as [D1 D2].
  pose proof P_pos as PP. set (Y := kyp (bkernel b)) in *. set (P := powerRZ wmax (- Y)) in *.
  assert (PF : 0 < physical_factor beta wmax Y) by (apply Rmult_lt_0_compat; [apply sqrt_lt_R0, Rmult_lt_0_compat; lra|exact PP]).
  assert (Sq : forall a, sqrt (Rsqr (physical_factor beta wmax Y) * a) = physical_factor beta wmax Y * sqrt a).
  { intros a. rewrite sqrt_mult_alt by apply Rle_0_sqr. rewrite sqrt_Rsqr by lra. reflexivity. }
  assert (EE : far gt gw kp E = physical_factor beta wmax Y * far gx gy k E0).
  { unfold far. rewrite (scaled_squares (fun t w => kp t w - E t w) (fun x y => k x y - E0 x y)); [apply Sq|].
    intros x y Hx Hy. assert (Rt : 0 <= beta / 2 * x + beta / 2 <= beta) by nra. assert (Rw : - wmax <= wmax * y <= wmax) by nra.
    pose proof (HE _ _ Rt Rw) as H1. rewrite (sum_value E0 HE0 _ _ Rt Rw) in H1. injection H1 as <-. unfold kp. fold Y. rewrite !A. fold P. ring. }
  rewrite EE. split.
  - rewrite sumsq_s. fold Y. change (sqrt (beta / 2 * wmax) * powerRZ wmax (- Y)) with (physical_factor beta wmax Y).
    rewrite <- Rmult_minus_distr_l, Sq, <- Rmult_plus_distr_l. apply Rmult_le_compat_l; [lra|exact D1].
  - intros p q. specialize (D2 (fun l x => p l (beta / 2 * x + beta / 2) / P) (fun l y => q l (wmax * y))).
    assert (EF : far gt gw kp (fun t w => sumn (bsize b) (fun l => p l t * q l w)) =
      physical_factor beta wmax Y * far gx gy k (fun x y => sumn (bsize b) (fun l => p l (beta / 2 * x + beta / 2) / P * q l (wmax * y)))).
    { unfold far. rewrite (scaled_squares (fun t w => kp t w - sumn (bsize b) (fun l => p l t * q l w))
             (fun x y => k x y - sumn (bsize b) (fun l => p l (beta / 2 * x + beta / 2) / P * q l (wmax * y)))); [apply Sq|].
      intros x y Hx Hy. unfold kp. fold Y. rewrite A. fold P. rewrite Rmult_minus_distr_l. f_equal. rewrite <- sumn_scal. apply sumn_ext. intros l Hl. field. lra. }
    rewrite EF. replace (2 * (physical_factor beta wmax Y * d)) with (physical_factor beta wmax Y * (2 * d)) by ring.
    rewrite <- Rmult_plus_distr_l. apply Rmult_le_compat_l; [lra|exact D2].
Qed.

Lemma phys_all : orthonormal_functions (su r) -> orthonormal_functions (sv r) -> quad_orthonormal gx (su r) -> quad_orthonormal gy (sv r) ->
  singular_system gx gy k r -> cut_errors gx gy k r -> diagonalizes gt gw kp b.
Proof.
  intros H1 H2 H3 H4 H5 H6. split; [apply phys_ortho_u; auto|]. split; [apply phys_ortho_v; auto|]. split; [apply phys_quad_u; auto|].
  split; [apply phys_quad_v; auto|]. split; [apply phys_system; auto|]. apply phys_error; auto.
Qed.
End Phys.
