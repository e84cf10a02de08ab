(** Expansions made from decompositions that are not exact. *)
From Coq Require Import String ZArith Arith Bool Reals Lra Lia Psatz.
From Coquelicot Require Import Coquelicot.
From Coq Require Import List Sorting.Sorted Sorting.Permutation.
From Verif.Model Require Import Base Util Num Gauss Poly FT SVE Basis Kernel Compute Whole.
From Verif.Spec Require Import SGauss SPoly SFT SSVE SBasis SKernel SCompute SSingular SWhole SNear.
From Verif.Proofs Require Import BaseFacts SumFacts GaussFacts GaussExact PPolyFacts KernelSegs KernelProps BasisFacts BasisInit BasisProps BasisOps BasisPhys
  ComputeNodes ComputePost ComputeSampling ComputeMerge ComputeMerged ComputeError ComputeFull ComputeWhole ComputeNonempty SingularEq SingularCompute SvdExists SvdRun LegRoots EckartYoung BestCuts WholeFacts WholeBasis.
Import ListNotations.
Open Scope R_scope.
Notation length := List.length.

(** * The distance *)
Section Far.
Variables (gx gy : rule) (nx ny : nat).
Hypothesis X1 : length (rx gx) = nx.
Hypothesis X2 : length (rw gx) = nx.
Hypothesis Y1 : length (rx gy) = ny.
Hypothesis Y2 : length (rw gy) = ny.
Hypothesis Wx : forall p, (p < nx)%nat -> 0 <= nth p (rw gx) 0.
Hypothesis Wy : forall p, (p < ny)%nat -> 0 <= nth p (rw gy) 0.

Lemma q2 g : quad2 gx gy g = sumn nx (fun p => sumn ny (fun q => nth p (rw gx) 0 * nth q (rw gy) 0 * g (nth p (rx gx) 0) (nth q (rx gy) 0))).
Proof. exact (quad2_sumn gx gy g nx ny X1 X2 Y1 Y2). Qed.
Lemma q2_lin a f b g : quad2 gx gy (fun x y => a * f x y + b * g x y) = a * quad2 gx gy f + b * quad2 gx gy g.
Proof. rewrite !q2. rewrite <- !sumn_scal, <- sumn_plus. apply sumn_ext. intros p _. rewrite <- !sumn_scal, <- sumn_plus. apply sumn_ext. intros; ring. Qed.
Lemma q2_pos f : (forall p q, (p < nx)%nat -> (q < ny)%nat -> 0 <= f (nth p (rx gx) 0) (nth q (rx gy) 0)) -> 0 <= quad2 gx gy f.
Proof.
  intros H. rewrite q2. apply sumn_nonneg. intros p Hp. apply sumn_nonneg. intros q Hq. apply Rmult_le_pos; [apply Rmult_le_pos|]; auto.
Qed.
Lemma q2_ext f g : (forall p q, (p < nx)%nat -> (q < ny)%nat -> f (nth p (rx gx) 0) (nth q (rx gy) 0) = g (nth p (rx gx) 0) (nth q (rx gy) 0)) -> quad2 gx gy f = quad2 gx gy g.
Proof. intros H. rewrite !q2. apply sumn_ext. intros p Hp. apply sumn_ext. intros q Hq. rewrite H; auto. Qed.

Lemma q2_cauchy f g : Rsqr (quad2 gx gy (fun x y => f x y * g x y)) <= quad2 gx gy (fun x y => Rsqr (f x y)) * quad2 gx gy (fun x y => Rsqr (g x y)).
Proof.
  set (a := quad2 gx gy (fun x y => Rsqr (f x y))). set (b := quad2 gx gy (fun x y => f x y * g x y)). set (c := quad2 gx gy (fun x y => Rsqr (g x y))).
  assert (H : forall s t, 0 <= s * s * a + 2 * s * t * b + t * t * c).
  { intros s t. assert (0 <= quad2 gx gy (fun x y => Rsqr (s * f x y + t * g x y))) by (apply q2_pos; intros; apply Rle_0_sqr).
    replace (s * s * a + 2 * s * t * b + t * t * c) with (quad2 gx gy (fun x y => Rsqr (s * f x y + t * g x y))); auto.
    rewrite (q2_ext _ (fun x y => 1 * (s * s * Rsqr (f x y) + 2 * s * t * (f x y * g x y)) + t * t * Rsqr (g x y))) by (intros; unfold Rsqr; ring).
    rewrite q2_lin, q2_lin. fold a b c. ring. }
  unfold Rsqr. pose proof (H b (- a)) as H1. pose proof (H c (- b)) as H2. pose proof (H 1 0) as Ha. pose proof (H 0 1) as Hc'. pose proof (H 1 (- b)) as H3.
  destruct (Rle_lt_or_eq_dec 0 a) as [Pa|Ea]; [lra| |].
  - assert (0 <= a * (a * c - b * b)) by lra. assert (0 <= a * c - b * b); [|lra]. apply (Rmult_le_reg_l a); lra.
  - assert (Za : a = 0) by lra. rewrite Za in *. assert (b = 0); [|subst; nra]. destruct (Req_dec b 0); auto. exfalso.
    pose proof (H (- (c + 1)) b) as H4. pose proof (H ((c + 1)) b) as H5. pose proof (Rlt_0_sqr b H0). unfold Rsqr in *. nra.
Qed.

Lemma far_triangle f g h : far gx gy f h <= far gx gy f g + far gx gy g h.
Proof.
  unfold far. set (a := quad2 gx gy (fun x y => Rsqr (f x y - g x y))). set (c := quad2 gx gy (fun x y => Rsqr (g x y - h x y))).
  pose (b := quad2 gx gy (fun x y => (f x y - g x y) * (g x y - h x y))).
  assert (E : quad2 gx gy (fun x y => Rsqr (f x y - h x y)) = a + 2 * b + c).
  { rewrite (q2_ext _ (fun x y => 1 * (1 * Rsqr (f x y - g x y) + 2 * ((f x y - g x y) * (g x y - h x y))) + 1 * Rsqr (g x y - h x y))) by (intros; unfold Rsqr; ring).
    rewrite q2_lin, q2_lin. fold a b c. ring. }
  assert (Pa : 0 <= a) by (apply q2_pos; intros; apply Rle_0_sqr). assert (Pc : 0 <= c) by (apply q2_pos; intros; apply Rle_0_sqr).
  pose proof (q2_cauchy (fun x y => f x y - g x y) (fun x y => g x y - h x y)) as C. cbv beta in C. fold a b c in C.
  assert (Hb : b <= sqrt a * sqrt c).
  { rewrite <- sqrt_mult by auto. apply Rle_trans with (Rabs b); [apply Rle_abs|]. rewrite <- sqrt_Rsqr_abs. apply sqrt_le_1; auto; [apply Rle_0_sqr|]. apply Rmult_le_pos; auto. }
  rewrite E. rewrite <- (sqrt_Rsqr (sqrt a + sqrt c)) by (apply Rplus_le_le_0_compat; apply sqrt_pos).
  apply sqrt_le_1; [rewrite <- E; apply q2_pos; intros; apply Rle_0_sqr|apply Rle_0_sqr|].
  unfold Rsqr. pose proof (sqrt_sqrt a Pa). pose proof (sqrt_sqrt c Pc). nra.
Qed.
Lemma far_sym f g : far gx gy f g = far gx gy g f.
Proof. unfold far. f_equal. apply q2_ext. intros. unfold Rsqr. ring. Qed.
Lemma far_le f g d : 0 <= d -> quad2 gx gy (fun x y => Rsqr (f x y - g x y)) <= Rsqr d -> far gx gy f g <= d.
Proof.
  intros Hd H. unfold far. rewrite <- (sqrt_Rsqr d) by auto. apply sqrt_le_1; auto; [apply q2_pos; intros; apply Rle_0_sqr|apply Rle_0_sqr].
Qed.

(** From the decomposed function to the one asked for. *)
Lemma near_of k k' r d all : 0 <= d -> far gx gy k k' <= d -> cut_errors gx gy k' r -> best_cuts gx gy k' r ->
  (forall p q, (p < nx)%nat -> (q < ny)%nat -> -1 <= nth p (rx gx) 0 <= 1 /\ -1 <= nth q (rx gy) 0 <= 1) ->
  quad2 gx gy (fun x y => Rsqr (k' x y)) = all -> near_best gx gy k r d all.
Proof.
  intros Pd Hd Hc Hb Hn Ha N E HN HE.
  assert (F1 : far gx gy k E <= d + far gx gy k' E) by (eapply Rle_trans; [apply (far_triangle k k' E)|lra]). split.
  - eapply Rle_trans; [exact F1|]. apply Rplus_le_compat_l. destruct (Hc N) as (E' & HE' & Err). right. unfold far. f_equal. rewrite <- Ha, <- Err.
    apply q2_ext. intros p q Hp Hq. destruct (Hn p q Hp Hq) as [Bx By]. pose proof (HE _ _ Bx By) as V1. pose proof (HE' _ _ Bx By) as V2.
    rewrite V1 in V2. injection V2 as ->. reflexivity.
  - intros a b. specialize (Hb N E HN HE a b).
    assert (F2 : far gx gy k' E <= far gx gy k' (fun x y => sumn N (fun l => a l x * b l y))).
    { unfold far. apply sqrt_le_1; [apply q2_pos; intros; apply Rle_0_sqr|apply q2_pos; intros; apply Rle_0_sqr|exact Hb]. }
    pose proof (far_triangle k' k (fun x y => sumn N (fun l => a l x * b l y))) as F3. rewrite (far_sym k' k) in F3. lra.
Qed.
End Far.

(** * The function whose values are decomposed *)
Fixpoint idx (x : R) (l : list R) : nat :=
  match l with [] => 0%nat | y :: l => if Req_EM_T x y then 0%nat else S (idx x l) end.
Lemma idx_nth l : NoDup l -> forall p, (p < length l)%nat -> idx (nth p l 0) l = p.
Proof.
  induction 1 as [|y l Hy Hl IH]; intros p Hp; cbn in *; [lia|]. destruct p as [|p].
  - destruct (Req_EM_T y y); [reflexivity|contradiction].
  - destruct (Req_EM_T (nth p l 0) y) as [E|_]; [exfalso; apply Hy; rewrite <- E; apply nth_In; lia|]. rewrite IH by lia. reflexivity.
Qed.

Definition pert (gx gy : rule) (b : usv) (x y : R) : R :=
  usv_entry b (idx x (rx gx)) (idx y (rx gy)) / (sqrt (nth (idx x (rx gx)) (rw gx) 0) * sqrt (nth (idx y (rx gy)) (rw gy) 0)).

Section Pert.
Variables (gx gy : rule) (nx ny : nat).
Hypothesis X1 : length (rx gx) = nx.
Hypothesis X2 : length (rw gx) = nx.
Hypothesis Y1 : length (rx gy) = ny.
Hypothesis Y2 : length (rw gy) = ny.
Hypothesis Wx : forall p, (p < nx)%nat -> 0 < nth p (rw gx) 0.
Hypothesis Wy : forall p, (p < ny)%nat -> 0 < nth p (rw gy) 0.
Hypothesis Dx : NoDup (rx gx).
Hypothesis Dy : NoDup (rx gy).

Lemma pert_at b p q : (p < nx)%nat -> (q < ny)%nat ->
  usv_entry b p q = pert gx gy b (nth p (rx gx) 0) (nth q (rx gy) 0) * sqrt (nth p (rw gx) 0) * sqrt (nth q (rw gy) 0).
Proof.
  intros Hp Hq. unfold pert. rewrite !idx_nth by (auto; lia). pose proof (sqrt_lt_R0 _ (Wx p Hp)). pose proof (sqrt_lt_R0 _ (Wy q Hq)). field. lra.
Qed.

Lemma pert_exact b k : orthonormal_usv nx ny b ->
  (forall p q, (p < nx)%nat -> (q < ny)%nat -> k (nth p (rx gx) 0) (nth q (rx gy) 0) = pert gx gy b (nth p (rx gx) 0) (nth q (rx gy) 0)) ->
  exact_svd nx ny (weighted k gx gy) b.
Proof.
  intros Ho Hk. destruct b as [[us s] vs]. destruct Ho as (H1 & H2 & H3 & H4 & H5 & H6). repeat (split; [assumption|]).
  intros i j Hi Hj. rewrite ComputeNonempty.weighted_entry by lia. rewrite Hk by auto. rewrite <- pert_at by auto. reflexivity.
Qed.

Lemma pert_far b k k' : (forall p q, (p < nx)%nat -> (q < ny)%nat -> k' (nth p (rx gx) 0) (nth q (rx gy) 0) = pert gx gy b (nth p (rx gx) 0) (nth q (rx gy) 0)) ->
  quad2 gx gy (fun x y => Rsqr (k x y - k' x y)) = sumn nx (fun i => sumn ny (fun j => Rsqr (ment (weighted k gx gy) i j - usv_entry b i j))).
Proof.
  intros Hk. rewrite (quad2_sumn gx gy _ nx ny) by auto. apply sumn_ext. intros p Hp. apply sumn_ext. intros q Hq.
  rewrite ComputeNonempty.weighted_entry by lia. rewrite (pert_at b p q), Hk by auto.
  pose proof (sqrt_sqrt _ (Rlt_le _ _ (Wx p Hp))) as E1. pose proof (sqrt_sqrt _ (Rlt_le _ _ (Wy q Hq))) as E2.
  rewrite <- E1 at 1. rewrite <- E2 at 1. unfold Rsqr. ring.
Qed.
End Pert.

Lemma usv_norm m n b : orthonormal_usv m n b -> sumn m (fun i => sumn n (fun j => Rsqr (usv_entry b i j))) = sumsq (svals b).
Proof.
  destruct b as [[us s] vs]. intros (L1 & L2 & F1 & F2 & O1 & O2). unfold svals. cbn [fst snd usv_entry]. rewrite sumsq_sumn. rewrite Forall_forall in F1, F2.
  assert (U : forall a c, (a < length s)%nat -> (c < length s)%nat -> sumn m (fun i => nth i (nth a us []) 0 * nth i (nth c us []) 0) = if Nat.eqb a c then 1 else 0).
  { intros a c Ha Hc. rewrite <- (O1 a c) by lia. symmetry. apply dot_sumn; apply F1, nth_In; lia. }
  assert (V : forall a c, (a < length s)%nat -> (c < length s)%nat -> sumn n (fun i => nth i (nth a vs []) 0 * nth i (nth c vs []) 0) = if Nat.eqb a c then 1 else 0).
  { intros a c Ha Hc. rewrite <- (O2 a c) by lia. symmetry. apply dot_sumn; apply F2, nth_In; lia. }
  transitivity (sumn m (fun i => sumn n (fun j => sumn (length s) (fun a => sumn (length s) (fun c =>
    nth a s 0 * nth c s 0 * (nth i (nth a us []) 0 * nth i (nth c us []) 0) * (nth j (nth a vs []) 0 * nth j (nth c vs []) 0)))))).
  { apply sumn_ext. intros i _. apply sumn_ext. intros j _. unfold Rsqr. rewrite <- sumn_scal_r. apply sumn_ext. intros a _. rewrite <- sumn_scal. apply sumn_ext. intros; ring. }
  transitivity (sumn (length s) (fun a => sumn (length s) (fun c => nth a s 0 * nth c s 0 *
    (sumn m (fun i => nth i (nth a us []) 0 * nth i (nth c us []) 0) * sumn n (fun j => nth j (nth a vs []) 0 * nth j (nth c vs []) 0))))).
  { rewrite (sumn_ext m _ (fun i => sumn (length s) (fun a => sumn (length s) (fun c => nth a s 0 * nth c s 0 * (nth i (nth a us []) 0 * nth i (nth c us []) 0) * sumn n (fun j => nth j (nth a vs []) 0 * nth j (nth c vs []) 0))))).
    - rewrite sumn_swap. apply sumn_ext. intros a _. rewrite sumn_swap. apply sumn_ext. intros c _. rewrite sumn_scal_r, sumn_scal. ring.
    - intros i _. rewrite sumn_swap. apply sumn_ext. intros a _. rewrite sumn_swap. apply sumn_ext. intros c _. rewrite sumn_scal. reflexivity. }
  apply sumn_ext. intros a Ha. rewrite (sumn_single _ _ a Ha).
  - rewrite U, V, Nat.eqb_refl by auto. ring.
  - intros c Hc Hne. rewrite U, V by auto. destruct (Nat.eqb_spec a c); [congruence|ring].
Qed.

(** * The two halves *)
Definition kd (gx gy : rule) (be bo : usv) (x y : R) : R :=
  / 2 * (pert gx gy be (Rabs x) (Rabs y) + np_sign x * np_sign y * pert gx gy bo (Rabs x) (Rabs y)).

Lemma np_sign_opp x : np_sign (- x) = - np_sign x.
Proof. unfold np_sign. destruct (Rltb_spec 0 x), (Rltb_spec x 0), (Rltb_spec 0 (- x)), (Rltb_spec (- x) 0); try lra. Qed.
Lemma np_sign_pos x : 0 < x -> np_sign x = 1.
Proof. intros H. unfold np_sign. destruct (Rltb_spec 0 x); [reflexivity|lra]. Qed.

Lemma kd_sym gx gy be bo x y : kd gx gy be bo (- x) (- y) = kd gx gy be bo x y.
Proof. unfold kd. rewrite !Rabs_Ropp, !np_sign_opp. ring. Qed.
Lemma kd_even gx gy be bo x y : 0 < x -> 0 < y -> kd gx gy be bo x y + kd gx gy be bo x (- y) = pert gx gy be x y.
Proof. intros Hx Hy. unfold kd. rewrite !Rabs_Ropp, !np_sign_opp, !np_sign_pos, !Rabs_pos_eq by lra. field. Qed.
Lemma kd_odd gx gy be bo x y : 0 < x -> 0 < y -> kd gx gy be bo x y - kd gx gy be bo x (- y) = pert gx gy bo x y.
Proof. intros Hx Hy. unfold kd. rewrite !Rabs_Ropp, !np_sign_opp, !np_sign_pos, !Rabs_pos_eq by lra. field. Qed.

Lemma sum_both m f : sumn (m + m) f = sumn m (fun p => f (m - 1 - p)%nat + f (m + p)%nat).
Proof. rewrite sumn_app, (sumn_rev m), <- sumn_plus. reflexivity. Qed.

Section Halves.
Variables (n : nat) (q : rule) (hx hy : list R) (gx gy GX GY : rule).
Hypothesis Hq : gauss_ok n q.
Hypothesis Hhx : half_edges hx.
Hypothesis Hhy : half_edges hy.
Hypothesis Hgx : piecewise q hx = Ok gx.
Hypothesis Hgy : piecewise q hy = Ok gy.
Hypothesis HGX : piecewise q (mirrored hx) = Ok GX.
Hypothesis HGY : piecewise q (mirrored hy) = Ok GY.
Notation mx := ((length hx - 1) * n)%nat.
Notation my := ((length hy - 1) * n)%nat.

Lemma halves_norm h : (forall x y, -1 <= x <= 1 -> -1 <= y <= 1 -> h (- x) (- y) = h x y) ->
  quad2 GX GY (fun x y => Rsqr (h x y)) =
  quad2 gx gy (fun x y => Rsqr (h x y + h x (- y))) + quad2 gx gy (fun x y => Rsqr (h x y - h x (- y))).
Proof.
  intros Hh. destruct (full_lengths n q hx gx GX Hq Hhx Hgx HGX) as (A1 & A2 & A3 & A4). destruct (full_lengths n q hy gy GY Hq Hhy Hgy HGY) as (B1 & B2 & B3 & B4).
  pose proof (full_pos n q hx gx GX Hq Hhx Hgx HGX) as PX. pose proof (full_neg n q hx gx GX Hq Hhx Hgx HGX) as NX.
  pose proof (full_pos n q hy gy GY Hq Hhy Hgy HGY) as PY. pose proof (full_neg n q hy gy GY Hq Hhy Hgy HGY) as NY.
  rewrite (quad2_sumn GX GY _ _ _ A1 A2 B1 B2), !(quad2_sumn gx gy _ _ _ A3 A4 B3 B4).
  rewrite (sum_both mx), <- !sumn_plus. apply sumn_ext. intros p Hp.
  rewrite !(sum_both my), <- !sumn_plus. apply sumn_ext. intros p' Hp'.
  destruct (PX p Hp) as [-> ->]. destruct (NX p Hp) as [-> ->]. destruct (PY p' Hp') as [-> ->]. destruct (NY p' Hp') as [-> ->].
  assert (Bx : 0 < nth p (rx gx) 0 < 1) by (apply (inside_x n hx Hhx q gx Hq Hgx); apply nth_In; lia).
  assert (By : 0 < nth p' (rx gy) 0 < 1) by (apply (inside_x n hy Hhy q gy Hq Hgy); apply nth_In; lia).
  set (x := nth p (rx gx) 0) in *. set (y := nth p' (rx gy) 0) in *.
  rewrite (Hh x y) by lra. replace (h (- x) y) with (h x (- y)) by (rewrite <- (Hh x (- y)), Ropp_involutive by lra; reflexivity).
  unfold Rsqr. ring.
Qed.

Lemma half_nodes g h : half_edges h -> piecewise q h = Ok g -> length (rx g) = ((length h - 1) * n)%nat /\ length (rw g) = ((length h - 1) * n)%nat /\
  (forall p, (p < (length h - 1) * n)%nat -> 0 < nth p (rw g) 0) /\ NoDup (rx g) /\ forall p, (p < (length h - 1) * n)%nat -> 0 < nth p (rx g) 0 < 1.
Proof.
  intros Hh Hg. destruct (node_lengths n q h g Hq (proj1 Hh) Hg) as [L1 L2]. split; [exact L1|]. split; [exact L2|].
  split; [intros p Hp; exact (weight_pos n q h g Hq (proj1 Hh) Hg p Hp)|]. split.
  - pose proof Hq as (_ & _ & _ & Pl & _ & Ra & Rb & _). destruct (piecewise_placed q h g) as [S _]; auto; [apply Hh|lra|].
    clear - S. induction S as [|a l Hs IH Hf]; constructor; auto. intros Hin. rewrite Forall_forall in Hf. specialize (Hf a Hin). lra.
  - intros p Hp. apply (inside_x n h Hh q g Hq Hg). apply nth_In. lia.
Qed.

Variables (k : R -> R -> R) (be bo : usv) (de d_o : R) (r : sve_result).
Hypothesis Ck : forall x y, -1 <= x <= 1 -> -1 <= y <= 1 -> k (- x) (- y) = k x y.
Hypothesis Ne : near_svd (length (rx gx)) (length (rx gy)) (weighted (fun x y => k x y + k x (- y)) gx gy) be de.
Hypothesis No : near_svd (length (rx gx)) (length (rx gy)) (weighted (fun x y => k x y - k x (- y)) gx gy) bo d_o.

Lemma kd_exact :
  exact_svd (length (rx gx)) (length (rx gy)) (weighted (fun x y => kd gx gy be bo x y + kd gx gy be bo x (- y)) gx gy) be /\
  exact_svd (length (rx gx)) (length (rx gy)) (weighted (fun x y => kd gx gy be bo x y - kd gx gy be bo x (- y)) gx gy) bo.
Proof.
  destruct (half_nodes gx hx Hhx Hgx) as (A1 & A2 & A3 & A4 & A5). destruct (half_nodes gy hy Hhy Hgy) as (B1 & B2 & B3 & B4 & B5). rewrite A1, B1 in *.
  destruct Ne as (_ & Oe & _). destruct No as (_ & Oo & _). split.
  - apply pert_exact; auto. intros p p' Hp Hp'. apply kd_even; [apply A5|apply B5]; auto.
  - apply pert_exact; auto. intros p p' Hp Hp'. apply kd_odd; [apply A5|apply B5]; auto.
Qed.

Lemma kd_far : far GX GY k (kd gx gy be bo) <= sqrt (Rsqr de + Rsqr d_o).
Proof.
  destruct (half_nodes gx hx Hhx Hgx) as (A1 & A2 & A3 & A4 & A5). destruct (half_nodes gy hy Hhy Hgy) as (B1 & B2 & B3 & B4 & B5). rewrite A1, B1 in *.
  unfold far. apply sqrt_le_1_alt. rewrite (halves_norm (fun x y => k x y - kd gx gy be bo x y)) by (intros; rewrite kd_sym, Ck by auto; reflexivity).
  destruct Ne as (_ & _ & _ & Fe). destruct No as (_ & _ & _ & Fo).
  rewrite <- (pert_far gx gy _ _ A1 A2 B1 B2 A3 B3 A4 B4 be _ (fun x y => kd gx gy be bo x y + kd gx gy be bo x (- y))) in Fe by (intros; apply kd_even; [apply A5|apply B5]; auto).
  rewrite <- (pert_far gx gy _ _ A1 A2 B1 B2 A3 B3 A4 B4 bo _ (fun x y => kd gx gy be bo x y - kd gx gy be bo x (- y))) in Fo by (intros; apply kd_odd; [apply A5|apply B5]; auto).
  apply Rplus_le_compat; [eapply Rle_trans; [|exact Fe]|eapply Rle_trans; [|exact Fo]]; right; apply (q2_ext gx gy _ _ A1 A2 B1 B2); intros; f_equal; ring.
Qed.

Lemma kd_norm : quad2 GX GY (fun x y => Rsqr (kd gx gy be bo x y)) = sumsq (svals be) + sumsq (svals bo).
Proof.
  destruct (half_nodes gx hx Hhx Hgx) as (A1 & A2 & A3 & A4 & A5). destruct (half_nodes gy hy Hhy Hgy) as (B1 & B2 & B3 & B4 & B5). rewrite A1, B1 in *.
  rewrite halves_norm by (intros; apply kd_sym). destruct Ne as (_ & Oe & _). destruct No as (_ & Oo & _).
  rewrite <- (usv_norm _ _ be Oe), <- (usv_norm _ _ bo Oo). f_equal; rewrite (quad2_sumn gx gy _ _ _ A1 A2 B1 B2); apply sumn_ext; intros p Hp; apply sumn_ext; intros p' Hp'.
  - rewrite kd_even by (apply A5 || apply B5; auto). rewrite (pert_at gx gy _ _ A1 A2 B1 B2 A3 B3 A4 B4) by auto.
    pose proof (sqrt_sqrt _ (Rlt_le _ _ (A3 p Hp))) as E1. pose proof (sqrt_sqrt _ (Rlt_le _ _ (B3 p' Hp'))) as E2. rewrite <- E1 at 1. rewrite <- E2 at 1. unfold Rsqr. ring.
  - rewrite kd_odd by (apply A5 || apply B5; auto). rewrite (pert_at gx gy _ _ A1 A2 B1 B2 A3 B3 A4 B4) by auto.
    pose proof (sqrt_sqrt _ (Rlt_le _ _ (A3 p Hp))) as E1. pose proof (sqrt_sqrt _ (Rlt_le _ _ (B3 p' Hp'))) as E2. rewrite <- E1 at 1. rewrite <- E2 at 1. unfold Rsqr. ring.
Qed.
End Halves.

(** * The full rules *)
Lemma mirrored_half l : valid_segments l -> mirrored (half l) = l.
Proof. intros Hv. destruct (symm_valid _ Hv) as (h & _ & -> & E & _). exact E. Qed.

Lemma full_nodes n q segs g : gauss_ok n q -> valid_segments segs -> piecewise q segs = Ok g ->
  length (rx g) = ((length segs - 1) * n)%nat /\ length (rw g) = ((length segs - 1) * n)%nat /\
  (forall p, (p < (length segs - 1) * n)%nat -> 0 < nth p (rw g) 0) /\ NoDup (rx g) /\
  forall p, (p < (length segs - 1) * n)%nat -> -1 <= nth p (rx g) 0 <= 1.
Proof.
  intros Hq Hv Hg. destruct (full_edges _ Hv) as (He & _). destruct (node_lengths n q segs g Hq He Hg) as [L1 L2]. split; [exact L1|]. split; [exact L2|].
  split; [intros p Hp; exact (weight_pos n q segs g Hq He Hg p Hp)|]. split.
  - pose proof Hq as (_ & _ & _ & Pl & _ & Ra & Rb & _). destruct (piecewise_placed q segs g) as [S _]; auto; [apply He|lra|].
    clear - S. induction S as [|a l Hs IH Hf]; constructor; auto. intros Hin. rewrite Forall_forall in Hf. specialize (Hf a Hin). lra.
  - intros p Hp. apply (segs_rule n q segs g Hq Hv Hg). apply nth_In. lia.
Qed.

Section Compute.
Variables (have_xprec have_gejsv : bool) (dd : R) (f : tfun).
Variable legendre : dtype -> nat -> res rule.
Variable run : svd_alg -> matrix -> Z -> usv.
Variable argsort : list R -> list nat.
Notation compute := (compute have_xprec have_gejsv dd f legendre run argsort).
Hypothesis Hleg : good_rules legendre.
Hypothesis Hsort : forall s, sorts s (argsort s).

Section Centro.
Variables (K : kernel) (eps cutoff : option xr) (n_sv : option pynum) (ng : option nat) (work : option dtype) (st : option strat) (svds : option string) (r : sve_result).
Hypothesis Hc : compute K eps cutoff n_sv ng work st svds = Ok (Some r).
Hypothesis Hst : st <> Some SampleStrat.

Lemma near_centro_of k : tfun_ok f -> 0 < k_lambda K -> (forall x y, -1 <= x <= 1 -> -1 <= y <= 1 -> has_value f K x y (k x y)) ->
  exists t n q gx gy GX GY alge he algo ho,
    legendre t n = Ok q /\ (forall m, ng = Some m -> n = m) /\
    piecewise q (half (segments_x K)) = Ok gx /\ piecewise q (half (segments_y K)) = Ok gy /\
    piecewise q (segments_x K) = Ok GX /\ piecewise q (segments_y K) = Ok GY /\
    let Ae := weighted (fun x y => k x y + k x (- y)) gx gy in
    let Ao := weighted (fun x y => k x y - k x (- y)) gx gy in
    let even := run alge Ae he in
    let odd := run algo Ao ho in
    (forall safe t' strategy w, safe_eps have_xprec dd eps work svds = (safe, t', strategy, w) -> t' = t /\ n = match ng with None => hint_ngauss safe | Some m => m end /\
       (forall Ke even, get_symmetrized K 1 = Ok Ke -> sampling_init (legendre t') (reduced_kern f Ke safe) safe ng = Ok even -> sampling_matrix even = Ok Ae) /\
       (forall Ko odd, get_symmetrized K (-1) = Ok Ko -> sampling_init (legendre t') (reduced_kern f Ko safe) safe ng = Ok odd -> sampling_matrix odd = Ok Ao)) /\
    forall de d_o, near_svd (length (rx gx)) (length (rx gy)) Ae even de -> near_svd (length (rx gx)) (length (rx gy)) Ao odd d_o ->
    near_best GX GY k r (sqrt (Rsqr de + Rsqr d_o)) (sumsq (svals even) + sumsq (svals odd)).
Proof.
  intros Hf Hl Hk. destruct (best_centro_of _ _ _ _ _ _ _ Hleg Hsort _ _ _ _ _ _ _ _ _ Hc Hst) as (t & n & q & gx & gy & GX & GY & alge & he & algo & ho & Ae & Ao & H1 & H2 & H3 & H4 & H5 & H6 & H7 & H7' & H8).
  exists t, n, q, gx, gy, GX, GY, alge, he, algo, ho. repeat (split; [assumption|]). destruct (H7 k Hf Hl Hk) as (-> & -> & Cs). cbv zeta. split; [exact H7'|]. intros de d_o Ne No.
  destruct (Hleg _ _ _ H1) as [Gq _]. destruct (segments_valid K) as [Vx Vy].
  pose proof (half_edges_of _ Vx) as Ex. pose proof (half_edges_of _ Vy) as Ey.
  assert (Mx : mirrored (half (segments_x K)) = segments_x K) by (apply mirrored_half; auto).
  assert (My : mirrored (half (segments_y K)) = segments_y K) by (apply mirrored_half; auto).
  destruct (full_nodes _ _ _ _ Gq Vx H5) as (A1 & A2 & A3 & A4 & A5). destruct (full_nodes _ _ _ _ Gq Vy H6) as (B1 & B2 & B3 & B4 & B5).
  rewrite <- Mx in H5. rewrite <- My in H6.
  destruct (kd_exact n q _ _ gx gy Gq Ex Ey H3 H4 k _ _ _ _ Ne No) as [X1 X2].
  set (be := run alge _ he) in *. set (bo := run algo _ ho) in *.
  pose proof Ne as (_ & _ & (Ie & Pe) & _). pose proof No as (_ & _ & (Io & Po) & _).
  destruct (H8 (kd gx gy be bo) (fun x y _ _ => kd_sym gx gy be bo x y) X1 X2 Ie Io Pe Po) as [Ce Cb].
  eapply (near_of GX GY _ _ A1 A2 B1 B2 (fun p Hp => Rlt_le _ _ (A3 p Hp)) (fun p Hp => Rlt_le _ _ (B3 p Hp))); [apply sqrt_pos| |exact Ce|exact Cb|intros; split; auto|].
  - exact (kd_far n q _ _ gx gy GX GY Gq Ex Ey H3 H4 H5 H6 k be bo de d_o Cs Ne No).
  - exact (kd_norm n q _ _ gx gy GX GY Gq Ex Ey H3 H4 H5 H6 k be bo de d_o Ne No).
Qed.

Lemma near_centro k : tfun_ok f -> 0 < k_lambda K -> (forall x y, -1 <= x <= 1 -> -1 <= y <= 1 -> has_value f K x y (k x y)) ->
  exists t n q gx gy GX GY alge he algo ho,
    legendre t n = Ok q /\ (forall m, ng = Some m -> n = m) /\
    piecewise q (half (segments_x K)) = Ok gx /\ piecewise q (half (segments_y K)) = Ok gy /\
    piecewise q (segments_x K) = Ok GX /\ piecewise q (segments_y K) = Ok GY /\
    let Ae := weighted (fun x y => k x y + k x (- y)) gx gy in
    let Ao := weighted (fun x y => k x y - k x (- y)) gx gy in
    let even := run alge Ae he in
    let odd := run algo Ao ho in
    forall de d_o, near_svd (length (rx gx)) (length (rx gy)) Ae even de -> near_svd (length (rx gx)) (length (rx gy)) Ao odd d_o ->
    near_best GX GY k r (sqrt (Rsqr de + Rsqr d_o)) (sumsq (svals even) + sumsq (svals odd)).
Proof.
  intros Hf Hl Hk. destruct (near_centro_of k Hf Hl Hk) as (t & n & q & gx & gy & GX & GY & alge & he & algo & ho & H1 & H2 & H3 & H4 & H5 & H6 & _ & H7).
  exists t, n, q, gx, gy, GX, GY, alge, he, algo, ho. repeat (split; [assumption|]). exact H7.
Qed.
End Centro.

Section Sample.
Variables (K : kernel) (eps cutoff : option xr) (n_sv : option pynum) (ng : option nat) (work : option dtype) (svds : option string) (r : sve_result).
Hypothesis Hc : compute K eps cutoff n_sv ng work (Some SampleStrat) svds = Ok (Some r).

Lemma near_sample_of k : (forall x y, -1 <= x <= 1 -> -1 <= y <= 1 -> has_value f K x y (k x y)) ->
  exists t n q GX GY alg h,
    legendre t n = Ok q /\ (forall m, ng = Some m -> n = m) /\
    piecewise q (segments_x K) = Ok GX /\ piecewise q (segments_y K) = Ok GY /\
    let A := weighted k GX GY in
    let o := run alg A h in
    (forall safe t' strategy w, safe_eps have_xprec dd eps work svds = (safe, t', strategy, w) -> t' = t /\ n = match ng with None => hint_ngauss safe | Some m => m end /\
       forall S, sampling_init (legendre t') (full_kern f K safe) safe ng = Ok S -> sampling_matrix S = Ok A) /\
    forall d, near_svd (length (rx GX)) (length (rx GY)) A o d -> near_best GX GY k r d (sumsq (svals o)).
Proof.
  intros Hk. destruct (best_sample_of _ _ _ _ _ _ _ Hleg _ _ _ _ _ _ _ _ Hc) as (t & n & q & GX & GY & alg & h & A & H1 & H2 & H5 & H6 & H7 & H7' & H8).
  exists t, n, q, GX, GY, alg, h. repeat (split; [assumption|]). rewrite (H7 k Hk) in H7', H8. cbv zeta. split; [exact H7'|]. intros d Ne.
  destruct (Hleg _ _ _ H1) as [Gq _]. destruct (segments_valid K) as [Vx Vy].
  destruct (full_nodes _ _ _ _ Gq Vx H5) as (A1 & A2 & A3 & A4 & A5). destruct (full_nodes _ _ _ _ Gq Vy H6) as (B1 & B2 & B3 & B4 & B5).
  set (b := run alg _ h) in *. rewrite A1, B1 in *. pose proof Ne as (Pd & Ob & (Ib & Pb) & Eb).
  destruct (H8 (pert GX GY b) (pert_exact GX GY _ _ A1 A2 B1 B2 A3 B3 A4 B4 b _ Ob (fun _ _ _ _ => eq_refl)) Ib Pb) as [Ce Cb].
  eapply (near_of GX GY _ _ A1 A2 B1 B2 (fun p Hp => Rlt_le _ _ (A3 p Hp)) (fun p Hp => Rlt_le _ _ (B3 p Hp))); [exact Pd| |exact Ce|exact Cb|intros; split; auto|].
  - apply (far_le GX GY _ _ A1 A2 B1 B2 (fun p Hp => Rlt_le _ _ (A3 p Hp)) (fun p Hp => Rlt_le _ _ (B3 p Hp))); [exact Pd|].
    rewrite (pert_far GX GY _ _ A1 A2 B1 B2 A3 B3 A4 B4 b k (pert GX GY b) (fun _ _ _ _ => eq_refl)). exact Eb.
  - rewrite <- (usv_norm _ _ b Ob), (quad2_sumn GX GY _ _ _ A1 A2 B1 B2). apply sumn_ext. intros p Hp. apply sumn_ext. intros p' Hp'.
    rewrite (pert_at GX GY _ _ A1 A2 B1 B2 A3 B3 A4 B4) by auto.
    pose proof (sqrt_sqrt _ (Rlt_le _ _ (A3 p Hp))) as E1. pose proof (sqrt_sqrt _ (Rlt_le _ _ (B3 p' Hp'))) as E2. rewrite <- E1 at 1. rewrite <- E2 at 1. unfold Rsqr. ring.
Qed.

Lemma near_sample k : (forall x y, -1 <= x <= 1 -> -1 <= y <= 1 -> has_value f K x y (k x y)) ->
  exists t n q GX GY alg h,
    legendre t n = Ok q /\ (forall m, ng = Some m -> n = m) /\
    piecewise q (segments_x K) = Ok GX /\ piecewise q (segments_y K) = Ok GY /\
    let A := weighted k GX GY in
    let o := run alg A h in
    forall d, near_svd (length (rx GX)) (length (rx GY)) A o d -> near_best GX GY k r d (sumsq (svals o)).
Proof.
  intros Hk. destruct (near_sample_of k Hk) as (t & n & q & GX & GY & alg & h & H1 & H2 & H5 & H6 & _ & H7).
  exists t, n, q, GX, GY, alg, h. repeat (split; [assumption|]). exact H7.
Qed.
End Sample.
End Compute.

(** * The basis *)
Section FromExpansion.
Variables (have_xprec have_gejsv : bool) (dd : R) (f : tfun).
Variable legendre : dtype -> nat -> res rule.
Variable run : svd_alg -> matrix -> Z -> usv.
Variable argsort : list R -> list nat.
Notation compute := (compute have_xprec have_gejsv dd f legendre run argsort).
Hypothesis Hleg : good_rules legendre.
Hypothesis Hsort : forall s, sorts s (argsort s).
Hypothesis Hrun : svd_shaped run.
Variables (stat : string) (beta wmax : R) (eps' : option R) (ms : option pynum) (KO : option kernel).
Variable c : kern -> option R -> res sve_result.
Let K := used_kernel (beta * wmax) KO.
Variables (eps cutoff : option xr) (n_sv : option pynum) (ng : option nat) (work : option dtype) (st : option strat) (svds : option string) (r : sve_result) (b : basis).
Hypothesis Hc : compute K eps cutoff n_sv ng work st svds = Ok (Some r).
Hypothesis Hi : basis_init c stat beta wmax eps' ms (option_map kern_of KO) (Some r) = Ok b.
Hypothesis Hw : 0 < wmax.
Variable k : R -> R -> R.

Lemma from_centro_near : tfun_ok f -> (forall x y, -1 <= x <= 1 -> -1 <= y <= 1 -> has_value f K x y (k x y)) -> st <> Some SampleStrat ->
  exists t n q gx gy GX GY alge he algo ho,
    legendre t n = Ok q /\ (forall m, ng = Some m -> n = m) /\
    piecewise q (half (segments_x K)) = Ok gx /\ piecewise q (half (segments_y K)) = Ok gy /\
    piecewise q (segments_x K) = Ok GX /\ piecewise q (segments_y K) = Ok GY /\
    let Ae := weighted (fun x y => k x y + k x (- y)) gx gy in
    let Ao := weighted (fun x y => k x y - k x (- y)) gx gy in
    let even := run alge Ae he in
    let odd := run algo Ao ho in
    let F := physical_factor beta wmax (k_ypower K) in
    forall de d_o, near_svd (length (rx gx)) (length (rx gy)) Ae even de -> near_svd (length (rx gx)) (length (rx gy)) Ao odd d_o ->
    near_best_of_its_size (reseat GX 0 beta) (reseat GY (- wmax) wmax) (in_physical k (k_ypower K) beta wmax) b
      (F * sqrt (Rsqr de + Rsqr d_o)) (Rsqr F * (sumsq (svals even) + sumsq (svals odd))).
Proof.
  intros Hf Hk Hst.
  destruct (from_parts _ _ _ _ _ _ _ Hleg Hsort Hrun _ _ _ _ _ _ _ _ _ _ _ _ _ _ _ _ Hc Hi Hw) as (Hb & Er & E1 & E2 & E3 & E4 & Hl). destruct (valid_of K Hl) as [Vx Vy].
  destruct (near_centro _ _ _ _ _ _ _ Hleg Hsort _ _ _ _ _ _ _ _ _ Hc Hst k Hf Hl Hk) as
    (t & n & q & gx & gy & GX & GY & alge & he & algo & ho & H1 & H2 & H3 & H4 & H5 & H6 & H7).
  exists t, n, q, gx, gy, GX, GY, alge, he, algo, ho. repeat (split; [assumption|]). cbv zeta in *. intros de d_o T1 T2.
  specialize (H7 de d_o T1 T2). destruct (Hleg _ _ _ H1) as [Gq _].
  destruct (segs_rule _ _ _ _ Gq Vx H5) as (A1 & A2 & A3). destruct (segs_rule _ _ _ _ Gq Vy H6) as (B1 & B2 & B3).
  rewrite <- Er in H7. pose proof (phys_near c b Hb GX GY k A1 A2 B1 B2 A3 B3 _ _ H7) as Q. rewrite E2, E3, E4 in Q. exact Q.
Qed.

Lemma from_sample_near : (forall x y, -1 <= x <= 1 -> -1 <= y <= 1 -> has_value f K x y (k x y)) -> st = Some SampleStrat ->
  exists t n q GX GY alg h,
    legendre t n = Ok q /\ (forall m, ng = Some m -> n = m) /\
    piecewise q (segments_x K) = Ok GX /\ piecewise q (segments_y K) = Ok GY /\
    let A := weighted k GX GY in
    let o := run alg A h in
    let F := physical_factor beta wmax (k_ypower K) in
    forall d, near_svd (length (rx GX)) (length (rx GY)) A o d ->
    near_best_of_its_size (reseat GX 0 beta) (reseat GY (- wmax) wmax) (in_physical k (k_ypower K) beta wmax) b (F * d) (Rsqr F * sumsq (svals o)).
Proof.
  intros Hk Hst. destruct (from_parts _ _ _ _ _ _ _ Hleg Hsort Hrun _ _ _ _ _ _ _ _ _ _ _ _ _ _ _ _ Hc Hi Hw) as (Hb & Er & E1 & E2 & E3 & E4 & Hl).
  destruct (valid_of K Hl) as [Vx Vy]. pose proof Hc as Hc'. rewrite Hst in Hc'.
  destruct (near_sample _ _ _ _ _ _ _ Hleg _ _ _ _ _ _ _ _ Hc' k Hk) as (t & n & q & GX & GY & alg & h & H1 & H2 & H5 & H6 & H7).
  exists t, n, q, GX, GY, alg, h. repeat (split; [assumption|]). cbv zeta in *. intros d T1.
  specialize (H7 d T1). destruct (Hleg _ _ _ H1) as [Gq _].
  destruct (segs_rule _ _ _ _ Gq Vx H5) as (A1 & A2 & A3). destruct (segs_rule _ _ _ _ Gq Vy H6) as (B1 & B2 & B3).
  rewrite <- Er in H7. pose proof (phys_near c b Hb GX GY k A1 A2 B1 B2 A3 B3 _ _ H7) as Q. rewrite E2, E3, E4 in Q. exact Q.
Qed.
End FromExpansion.

(** * Exact and truncated decompositions *)
Lemma exact_near m n A b : exact_svd m n A b -> ordered b -> near_svd m n A b 0.
Proof.
  destruct b as [[us s] vs]. intros (H1 & H2 & H3 & H4 & H5 & H6 & H7) Ho. split; [lra|]. split; [repeat (split; [assumption|]); assumption|]. split; [exact Ho|].
  rewrite sumn_zero; [unfold Rsqr; lra|]. intros i Hi. apply sumn_zero. intros j Hj. rewrite (H7 i j Hi Hj). unfold usv_entry, Rsqr. ring.
Qed.

Lemma firstn_sub {T} N (l : list T) P : Forall P l -> Forall P (firstn N l).
Proof. revert l. induction N; intros [|a l] H; cbn; auto. inversion H; subst. constructor; auto. Qed.
Lemma skipn_sub {T} N (l : list T) P : Forall P l -> Forall P (skipn N l).
Proof. revert l. induction N; intros [|a l] H; cbn; auto. inversion H; subst. auto. Qed.
Lemma firstn_decreasing N l : nonincreasing l -> nonincreasing (firstn N l).
Proof. revert l. induction N; intros [|a l] H; cbn; try constructor; inversion H; subst; [apply IHN; auto|apply firstn_sub; auto]. Qed.
Lemma nth_tail {T} (l : list T) N i d : nth i (skipn N l) d = nth (N + i) l d.
Proof. revert l. induction N; intros [|a l]; cbn; auto. destruct i; reflexivity. Qed.

(** Leaving out the last values leaves out their squares. *)
Lemma cut_near m n A us s vs N : exact_svd m n A (us, s, vs) -> ordered (us, s, vs) -> (N <= length s)%nat ->
  near_svd m n A (firstn N us, firstn N s, firstn N vs) (sqrt (sumsq (skipn N s))).
Proof.
  intros (H1 & H2 & H3 & H4 & H5 & H6 & H7) [Ho Hp] HN.
  assert (T : orthonormal_usv m n (skipn N us, skipn N s, skipn N vs)).
  { unfold orthonormal_usv. rewrite !skipn_length. split; [lia|]. split; [lia|]. split; [apply skipn_sub; auto|]. split; [apply skipn_sub; auto|].
    split; intros a c Ha Hc; rewrite skipn_length in Ha, Hc; rewrite !nth_tail; [rewrite H5 by lia|rewrite H6 by lia];
      destruct (Nat.eqb_spec (N + a) (N + c)), (Nat.eqb_spec a c); try lia; reflexivity. }
  split; [apply sqrt_pos|]. split; [|split; [split; [apply firstn_decreasing; exact Ho|apply firstn_sub; exact Hp]|]].
  - unfold orthonormal_usv. rewrite !firstn_length. split; [lia|]. split; [lia|]. split; [apply firstn_sub; auto|]. split; [apply firstn_sub; auto|].
    split; intros a c Ha Hc; rewrite firstn_length in Ha, Hc; rewrite !nth_firstn by lia; [apply H5|apply H6]; lia.
  - pose proof (usv_norm _ _ _ T) as E. unfold svals in E. cbn [fst snd] in E.
    assert (P : 0 <= sumsq (skipn N s)). { rewrite sumsq_sumn. apply sumn_nonneg. intros i _. apply Rle_0_sqr. }
    rewrite Rsqr_sqrt by exact P. rewrite <- E. right. apply sumn_ext. intros i Hi. apply sumn_ext. intros j Hj. f_equal. rewrite (H7 i j Hi Hj).
    unfold usv_entry. rewrite firstn_length, skipn_length. replace (Nat.min N (length s)) with N by lia.
    replace (length s) with (N + (length s - N))%nat at 1 by lia. rewrite sumn_app.
    rewrite (sumn_ext N _ (fun l => nth i (nth l (firstn N us) []) 0 * nth l (firstn N s) 0 * nth j (nth l (firstn N vs) []) 0)) by (intros; rewrite !nth_firstn by lia; reflexivity).
    rewrite (sumn_ext (length s - N) _ (fun l => nth i (nth l (skipn N us) []) 0 * nth l (skipn N s) 0 * nth j (nth l (skipn N vs) []) 0)) by (intros; rewrite !nth_tail; reflexivity).
    ring.
Qed.

Lemma first_near m n A b N : exact_svd m n A b -> ordered b ->
  (length (svals (first_triples N b)) <= N)%nat /\ exists d, near_svd m n A (first_triples N b) d.
Proof.
  destruct b as [[us s] vs]. intros He Ho. split; [unfold svals; cbn; rewrite firstn_length; lia|]. destruct (le_lt_dec N (length s)) as [HN|HN].
  - exists (sqrt (sumsq (skipn N s))). apply cut_near; auto.
  - exists 0. unfold first_triples. pose proof He as (L1 & L2 & _). rewrite !firstn_all2 by lia. apply exact_near; auto.
Qed.

Lemma realizable_nearly N K k : (0 < N)%nat -> exists legendre run,
  good_rules legendre /\ svd_shaped run /\ (forall t n, (n = 10 \/ n = 16)%nat -> exists q, legendre t n = Ok q) /\
  decomposes_nearly N legendre run K k.
Proof.
  intros HN. destruct (realizable 10 16 K k ltac:(lia) ltac:(lia)) as (legendre & run & H1 & H2 & H3 & H4).
  exists legendre, (fun alg A h => first_triples N (run alg A h)). split; [exact H1|]. split.
  - intros alg A h m n HA Hm Hn Hh. specialize (H2 alg A h m n HA Hm Hn Hh). destruct (run alg A h) as [[us s] vs]. destruct H2 as (L1 & L2 & Ls & Hs & Hp).
    unfold usv_shaped, first_triples. rewrite !firstn_length. split; [lia|]. split; [lia|]. split; [destruct N, s; cbn; try lia; congruence|].
    split; [apply firstn_decreasing; auto|apply firstn_sub; auto].
  - split; [exact H3|]. intros t n q alg h Hq. destruct (H4 t n q alg h Hq) as [A B]. split.
    + intros gx gy Hx Hy. destruct (A gx gy Hx Hy) as ((E1 & O1) & (E2 & O2)). split; apply first_near; auto.
    + intros gx gy Hx Hy. destruct (B gx gy Hx Hy) as (E1 & O1). apply first_near; auto.
Qed.
