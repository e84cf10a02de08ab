(** Expansions made from decompositions with nearly orthonormal vectors. *)
From Coq Require Import String ZArith Arith Bool Reals Lra Lia Psatz.
From Coquelicot Require Import Coquelicot.
From Coq Require Import List Sorting.Sorted Sorting.Permutation.
From Verif.Model Require Import Base Util Num Gauss Poly SVE Kernel Compute.
From Verif.Spec Require Import SGauss SPoly SFT SSVE SBasis SKernel SCompute SSingular SWhole SNear SComputed.
From Verif.Proofs Require Import BaseFacts SumFacts IntFacts PolyFacts GaussFacts GaussExact LegRoots PPolyFacts PPolyInt SVEFacts BasisPhys KernelProps KernelSegs HintFacts ComputeNodes ComputePost ComputeSampling ComputeMerge ComputeMerged ComputeError ComputeFull SingularEq SingularCompute EckartYoung SvdExists BestCuts NearBest RoundedSVE Polar Selected.
Import ListNotations.
Open Scope R_scope.
Notation length := List.length.

(** * Entries *)
Definition ent (vs : list (list R)) (l i : nat) : R := nth i (nth l vs []) 0.

Lemma gram_ip vs k m a : length vs = k -> Forall (fun v => length v = m) vs -> nearly_orthonormal vs a ->
  sumn k (fun l => sumn k (fun j => Rsqr (ip m (ent vs l) (ent vs j) - delta l j))) <= Rsqr a.
Proof.
  intros L F [_ H]. eapply Rle_trans; [|exact H]. right. unfold gram_error. rewrite L. apply sumn_ext. intros l Hl. apply sumn_ext. intros j Hj. f_equal.
  unfold delta. f_equal. rewrite Forall_forall in F. rewrite (dot_sumn _ _ m) by (apply F, nth_In; lia). reflexivity.
Qed.
Lemma gram_entry vs k m a l j : length vs = k -> Forall (fun v => length v = m) vs -> nearly_orthonormal vs a -> (l < k)%nat -> (j < k)%nat ->
  Rabs (ip m (ent vs l) (ent vs j) - delta l j) <= a.
Proof.
  intros L F H Hl Hj. pose proof (gram_ip vs k m a L F H) as G. destruct H as [Ha _].
  apply Rsqr_incr_0_var; auto. rewrite <- Rsqr_abs. eapply Rle_trans; [|exact G].
  eapply Rle_trans; [|apply (sumn_pos_term k _ l Hl); intros; apply sumn_nonneg; intros; apply Rle_0_sqr]. cbv beta.
  apply (sumn_pos_term k (fun j => Rsqr (ip m (ent vs l) (ent vs j) - delta l j)) j Hj). intros. apply Rle_0_sqr.
Qed.

(** * One block at the nodes *)
Section Block.
Variables (legendre : nat -> res rule) (K : skern) (eps : R) (ng : option nat) (S : ssve) (us vs : list (list R)) (s : list R) (b' : usv) (kk : nat) (r : sve_result).
Hypothesis HS : sampling_init legendre K eps ng = Ok S.
Hypothesis Hr : gauss_ok (s_n S) (s_rule S).
Hypothesis Hx2 : (2 <= length (s_segs_x S))%nat.
Hypothesis Hy2 : (2 <= length (s_segs_y S))%nat.
Hypothesis Ht : thin_usv (length (rx (s_gx S))) (length (rx (s_gy S))) (us, s, vs).
Hypothesis Hk : prefix_of kk (us, s, vs) b'.
Hypothesis Hp : sampling_post S b' = Ok (Some r).

Lemma block_nodes : ss r = svals b' /\ ss r = firstn kk s /\ sve_on (s_n S) (s_segs_x S) (s_segs_y S) r /\
  forall l, (l < length (ss r))%nat -> (l < length s)%nat /\ nth l (ss r) 0 = nth l s 0 /\
    exists sg, sg * sg = 1 /\
      (forall p, (p < length (rx (s_gx S)))%nat -> col_at (su r) (s_gx S) l p = sg * (ent us l p / sqrt (weights (s_gx S) p))) /\
      (forall q, (q < length (rx (s_gy S)))%nat -> col_at (sv r) (s_gy S) l q = sg * (ent vs l q / sqrt (weights (s_gy S) q))).
Proof.
  destruct Ht as (L1 & L2 & _ & _ & F1 & F2). unfold prefix_of in Hk. cbn [fst snd] in Hk. subst b'.
  assert (M1 : length (firstn kk us) = length (firstn kk s)) by (rewrite !firstn_length; lia).
  assert (M2 : length (firstn kk vs) = length (firstn kk s)) by (rewrite !firstn_length; lia).
  destruct (sizes _ _ _ _ _ HS Hr Hx2 Hy2) as (N1 & N2 & N3 & N4). rewrite N1, N3 in *.
  destruct (post_struct _ _ _ _ _ HS Hr Hx2 Hy2 _ _ _ r M1 M2 Hp) as (Fu & Fv & Ku & Kv & Gu & Gv & E & _ & _ & sg & L & Fsg & Eu & Ev & _).
  destruct (post_lengths _ _ _ _ _ HS Hr Hx2 Hy2 _ _ _ r M1 M2 Hp) as (Q1 & Q2 & _).
  destruct (pieces_eq _ _ _ _ _ HS) as [Ex Ey].
  split; [exact E|]. split; [exact E|]. split; [repeat (split; [assumption|]); split; congruence|].
  intros l Hl. rewrite E in *. pose proof Hl as Hl'. rewrite firstn_length in Hl'. split; [lia|]. split; [apply nth_firstn; lia|].
  destruct (sign_sqr sg l Fsg ltac:(lia)) as [C1 C2]. exists (nth l sg 0). split; [rewrite C2 in C1; exact C1|].
  rewrite Forall_forall in F1, F2. split.
  - intros p Hpp. unfold col_at, node. rewrite Eu. rewrite (cval_map2_scale _ (fun c => 1 / c)) by lia. rewrite C2. unfold ucol.
    rewrite (at_node _ _ _ _ Hr (edges_x _ _ _ _ _ HS Hx2) Ex (vgeom (su r))); auto; try apply Fu.
    + unfold ent, weights. rewrite nth_firstn by lia. reflexivity.
    + rewrite nth_firstn by lia. apply F1, nth_In; lia.
  - intros p Hpp. unfold col_at, node. rewrite Ev. rewrite (cval_map2_scale _ (fun c => c)) by lia. unfold vcol.
    rewrite (at_node _ _ _ _ Hr (edges_y _ _ _ _ _ HS Hy2) Ey (vgeom (sv r))); auto; try apply Fv.
    + unfold ent, weights. rewrite nth_firstn by lia. reflexivity.
    + rewrite nth_firstn by lia. apply F2, nth_In; lia.
Qed.
End Block.

(** * From the values at the nodes to the expansion *)
(** The functions of r take the values of some of L vectors at the nodes. *)
Definition node_values (GX GY : rule) (r : sve_result) (L : nat) (t : nat -> R) (uc vc : nat -> nat -> R) (pick : nat -> nat) : Prop :=
  (forall l, (l < length (ss r))%nat -> (pick l < L)%nat /\ nth l (ss r) 0 = t (pick l)) /\
  (forall l l', (l < length (ss r))%nat -> (l' < length (ss r))%nat -> pick l = pick l' -> l = l') /\
  (forall N b, (0 < N <= length (ss r))%nat -> (b < L)%nat -> t b <= nth (N - 1) (ss r) 0 \/ exists l, (l < N)%nat /\ pick l = b) /\
  (forall l, (l < length (ss r))%nat -> exists sg, sg * sg = 1 /\
     (forall p, (p < length (rx GX))%nat -> sqrt (weights GX p) * col_at (su r) GX l p = sg * uc (pick l) p) /\
     (forall q, (q < length (rx GY))%nat -> sqrt (weights GY q) * col_at (sv r) GY l q = sg * vc (pick l) q)).

Section FromNodes.
Variables (n : nat) (q : rule) (segs_x segs_y : list R) (GX GY : rule) (k : R -> R -> R) (r : sve_result).
Hypothesis Hq : gauss_ok n q.
Hypothesis Vx : valid_segments segs_x.
Hypothesis Vy : valid_segments segs_y.
Hypothesis HX : piecewise q segs_x = Ok GX.
Hypothesis HY : piecewise q segs_y = Ok GY.
Hypothesis On : sve_on n segs_x segs_y r.
Hypothesis Ni : nonincreasing (ss r).
Variables (L : nat) (t : nat -> R) (uc vc : nat -> nat -> R) (pick : nat -> nat).
Hypothesis Hn : node_values GX GY r L t uc vc pick.
Notation nx := (length (rx GX)).
Notation ny := (length (rx GY)).

Lemma expand_nodes N E p p' : (N <= length (ss r))%nat -> (p < nx)%nat -> (p' < ny)%nat ->
  (forall x y, -1 <= x <= 1 -> -1 <= y <= 1 -> sve_sum (cut_at N r) x y = Ok (E x y)) ->
  sqrt (weights GX p) * sqrt (weights GY p') * E (node GX p) (node GY p') = cutc t uc vc pick N p p'.
Proof.
  intros HN Hp Hp' HE. pose proof On as (Fu & Fv & Ku & Kv & Gu & Gv & L1 & L2).
  destruct (on_range _ _ _ _ On) as (R1 & R2 & R3 & R4).
  destruct (full_edges _ Vx) as (_ & _ & _ & X2 & X3). destruct (full_edges _ Vy) as (_ & _ & _ & Y2 & Y3).
  rewrite X2 in R1. rewrite X3 in R2. rewrite Y2 in R3. rewrite Y3 in R4.
  destruct (full_nodes _ _ _ _ Hq Vx HX) as (A1 & _ & _ & _ & A5). destruct (full_nodes _ _ _ _ Hq Vy HY) as (B1 & _ & _ & _ & B5).
  pose proof (A5 p ltac:(lia)) as Bx. pose proof (B5 p' ltac:(lia)) as By. fold (node GX p) in Bx. fold (node GY p') in By.
  pose proof (HE _ _ Bx By) as V.
  rewrite sve_sum_ok in V.
  - injection V as V. rewrite <- V. unfold expand, cutc. cbn [cut_at su sv ss take vgeom vcols]. rewrite firstn_length, Nat.min_l by lia.
    rewrite <- sumn_scal. apply sumn_ext. intros l Hl. rewrite !nth_firstn by lia.
    destruct Hn as (H1 & _ & _ & H4). destruct (H1 l ltac:(lia)) as [_ Es]. destruct (H4 l ltac:(lia)) as (sg & Sg & Cu & Cv).
    specialize (Cu p Hp). specialize (Cv p' Hp'). unfold col_at in Cu, Cv. rewrite Es.
    set (a := cval (vgeom (su r)) _ _) in *. set (b := cval (vgeom (sv r)) _ _) in *.
    transitivity (t (pick l) * ((sqrt (weights GX p) * a) * (sqrt (weights GY p') * b))); [ring|]. rewrite Cu, Cv.
    transitivity (t (pick l) * (sg * sg * (uc (pick l) p * vc (pick l) p'))); [ring|]. rewrite Sg. ring.
  - apply Fu.
  - apply Fv.
  - cbn [cut_at su ss take vcols]. rewrite !firstn_length. lia.
  - cbn [cut_at sv ss take vcols]. rewrite !firstn_length. lia.
  - cbn [cut_at su take vgeom]. rewrite R1, R2. exact Bx.
  - cbn [cut_at sv take vgeom]. rewrite R3, R4. exact By.
Qed.

Variables (u' v' : nat -> nat -> R) (s0 a c d all : R).
Hypothesis Hu : ort nx L u'.
Hypothesis Hv : ort ny L v'.
Hypothesis Ha : 0 <= a.
Hypothesis Hc : 0 <= c.
Hypothesis Hd : 0 <= d.
Hypothesis H0 : 0 <= s0.
Hypothesis Da : sumn L (fun l => sumn nx (fun i => Rsqr (u' l i - uc l i))) <= Rsqr a.
Hypothesis Dc : sumn L (fun l => sumn ny (fun j => Rsqr (v' l j - vc l j))) <= Rsqr c.
Hypothesis Ht : forall l, (l < L)%nat -> 0 <= t l <= s0.
Hypothesis HB : norm2 nx ny (fun i j => sqrt (weights GX i) * sqrt (weights GY j) * k (node GX i) (node GY j) - sumn L (fun b => t b * (uc b i * vc b j))) <= Rsqr d.
Hypothesis Hall : sumn L (fun b => Rsqr (t b)) = all.

Lemma far_norm f g : far GX GY f g = sqrt (norm2 nx ny (fun i j =>
  sqrt (weights GX i) * sqrt (weights GY j) * f (node GX i) (node GY j) - sqrt (weights GX i) * sqrt (weights GY j) * g (node GX i) (node GY j))).
Proof.
  destruct (full_nodes _ _ _ _ Hq Vx HX) as (A1 & A2 & A3 & _). destruct (full_nodes _ _ _ _ Hq Vy HY) as (B1 & B2 & B3 & _).
  unfold far. f_equal. rewrite (quad2_sumn GX GY _ nx ny) by (auto; lia). apply sumn_ext. intros p Hp. apply sumn_ext. intros p' Hp'.
  rewrite A1 in Hp. rewrite B1 in Hp'. pose proof (sqrt_sqrt _ (Rlt_le _ _ (A3 p Hp))) as E1. pose proof (sqrt_sqrt _ (Rlt_le _ _ (B3 p' Hp'))) as E2.
  unfold weights, node. rewrite <- E1 at 1. rewrite <- E2 at 1. unfold Rsqr. ring.
Qed.

Lemma nodes_near : near_best GX GY k r (d + 2 * skew s0 a c) all.
Proof.
  intros N E HN HE. destruct Hn as (P1 & P2 & P3 & P4).
  destruct (selected_near nx ny L (length (ss r)) t uc vc u' v' pick (fun i j => sqrt (weights GX i) * sqrt (weights GY j) * k (node GX i) (node GY j)) s0 a c d
    Hu Hv Ha Hc Hd H0 Da Dc Ht) with (N := N) as [S1 S2]; auto.
  { intros l Hl. apply P1. exact Hl. }
  { intros l l' Hle Hl. destruct (P1 l' Hl) as [_ <-]. destruct (P1 l ltac:(lia)) as [_ <-]. apply nonincreasing_nth; auto. }
  { intros N' b HN' Hb. destruct (P1 (N' - 1)%nat ltac:(lia)) as [_ <-]. apply P3; auto. }
  unfold eps in S1, S2. fold (skew s0 a c) in S1, S2.
  assert (EF : far GX GY k E = sqrt (norm2 nx ny (fun i j => sqrt (weights GX i) * sqrt (weights GY j) * k (node GX i) (node GY j) - cutc t uc vc pick N i j))).
  { rewrite far_norm. f_equal. apply norm2_ext. intros i j Hi Hj. rewrite (expand_nodes N E i j HN Hi Hj HE). reflexivity. }
  split.
  - rewrite EF. eapply Rle_trans; [exact S1|]. apply Rplus_le_compat_l. right. f_equal. rewrite Hall. f_equal. rewrite sumsq_sumn, firstn_length, Nat.min_l by lia.
    apply sumn_ext. intros l Hl. rewrite nth_firstn by lia. destruct (P1 l ltac:(lia)) as [_ <-]. reflexivity.
  - intros al be. rewrite EF. eapply Rle_trans; [apply (S2 (fun l i => sqrt (weights GX i) * al l (node GX i)) (fun l j => sqrt (weights GY j) * be l (node GY j)))|].
    apply Rplus_le_compat_r. right. rewrite far_norm. f_equal. apply norm2_ext. intros i j _ _. f_equal. rewrite <- sumn_scal. apply sumn_ext. intros; ring.
Qed.
End FromNodes.

(** The functions are as orthonormal as the vectors. *)
Lemma nearly_at_nodes n q segs G p (L M : nat) (uc : nat -> nat -> R) pick a :
  gauss_ok n q -> edges_ok segs -> piecewise q segs = Ok G ->
  fresh p -> gknots (vgeom p) = segs -> glen (vgeom p) = n -> length (vcols p) = M ->
  (forall l, (l < M)%nat -> (pick l < L)%nat) -> (forall l l', (l < M)%nat -> (l' < M)%nat -> pick l = pick l' -> l = l') ->
  (forall l, (l < M)%nat -> exists sg, sg * sg = 1 /\ forall i, (i < length (rx G))%nat -> sqrt (weights G i) * col_at p G l i = sg * uc (pick l) i) ->
  (forall b b', (b < L)%nat -> (b' < L)%nat -> Rabs (ip (length (rx G)) (uc b) (uc b') - delta b b') <= a) ->
  nearly_orthonormal_functions p a.
Proof.
  intros Hq Hs HG Hf Hk Hn HM Hpl Hpi Hsg Hg l m f h Rf Rh. pose proof Hf as (Hg' & Hog & Hlg).
  pose proof (xmin_lt_xmax _ Hg') as Hlt.
  pose proof (in_cols _ _ _ (gxmin (vgeom p)) Hg' ltac:(lra) Rf) as Hl. pose proof (in_cols _ _ _ (gxmin (vgeom p)) Hg' ltac:(lra) Rh) as Hm. rewrite HM in Hl, Hm.
  apply represents_cval in Rf as (cf & Ec & Hc); auto; try lia. apply represents_cval in Rh as (cg & Ed & Hd); auto; try lia.
  assert (Pp : piecewise_polynomial (2 * n - 1) segs (fun x => cval (vgeom p) cf x * cval (vgeom p) cg x)).
  { rewrite <- Hk, <- Hn. apply product_piecewise; auto. lia. }
  pose proof Hq as (Hn0 & Lx & Lw & (Ss & Bx) & Pw & Ea & Eb & Ex).
  pose proof (piecewise_exact (2 * n - 1) q segs G _ 0 (proj1 Hs) ltac:(lra) ltac:(lia) Bx ltac:(rewrite Ea, Eb; exact Ex) HG Pp) as HJ.
  assert (Ends : hd 0 segs = gxmin (vgeom p) /\ last segs 0 = gxmax (vgeom p)).
  { pose proof (g_len _ Hg') as Gl. rewrite <- Hk. unfold gxmin, gxmax. split; [destruct (gknots (vgeom p)); reflexivity|].
    rewrite <- nth_last. f_equal. lia. }
  destruct Ends as [-> ->] in HJ.
  eexists. split.
  { eapply is_RInt_ext_in; [lra| |exact HJ]. intros x Hx. cbv beta. rewrite Hc, Hd by lra. reflexivity. }
  destruct (node_lengths _ _ _ _ Hq Hs HG) as [A1 A2]. rewrite nth_quad by lia.
  destruct (Hsg l Hl) as (sl & Sl & Cl). destruct (Hsg m Hm) as (sm & Sm & Cm).
  apply (nth_error_nth _ _ col0) in Ec, Ed.
  assert (E : sumn (length (rx G)) (fun i => nth i (rw G) 0 * (cval (vgeom p) cf (nth i (rx G) 0) * cval (vgeom p) cg (nth i (rx G) 0))) = sl * sm * ip (length (rx G)) (uc (pick l)) (uc (pick m))).
  { unfold ip. rewrite <- sumn_scal. apply sumn_ext. intros i Hi. specialize (Cl i Hi). specialize (Cm i Hi). unfold col_at, node in Cl, Cm. rewrite Ec in Cl. rewrite Ed in Cm.
    transitivity ((sl * uc (pick l) i) * (sm * uc (pick m) i)); [|ring]. rewrite <- Cl, <- Cm.
    pose proof (sqrt_sqrt _ (Rlt_le _ _ (weight_pos n q segs G Hq Hs HG i ltac:(lia)))) as Ew. unfold weights. rewrite <- Ew at 1. ring. }
  cbv beta. rewrite E. specialize (Hg (pick l) (pick m) (Hpl l Hl) (Hpl m Hm)).
  assert (Ab : Rabs (sl * sm) = 1).
  { assert (forall x, x * x = 1 -> Rabs x = 1) as One.
    { intros x Hx1. assert (x = 1 \/ x = -1) as [-> | ->] by (destruct (Req_dec x 1); [auto|right; assert ((x - 1) * (x + 1) = 0) by lra; nra]); [apply Rabs_R1|rewrite Rabs_left; lra]. }
    rewrite Rabs_mult, (One sl Sl), (One sm Sm). ring. }
  destruct (Nat.eqb_spec l m) as [->|Hne].
  - unfold delta in Hg. rewrite Nat.eqb_refl in Hg. assert (sl * sm = 1 \/ sl * sm = -1) as S by (unfold Rabs in Ab; destruct (Rcase_abs (sl * sm)); lra).
    destruct (Nat.lt_ge_cases 0 (length (rx G))) as [Hpos|Hz].
    + destruct S as [-> | Sneg]; [rewrite Rmult_1_l; exact Hg|].
      assert (sl = - sm). { assert ((sl + sm) * (sl + sm) = 0) by lra. apply Rmult_integral in H. lra. }
      assert (Z : forall i, (i < length (rx G))%nat -> uc (pick m) i = 0).
      { intros i Hi. pose proof (Cl i Hi) as Q1. pose proof (Cm i Hi) as Q2. rewrite Q1 in Q2. subst sl. assert (sm <> 0) by (intros ->; lra). nra. }
      unfold ip in *. rewrite sumn_zero in * by (intros i Hi; rewrite (Z i Hi); ring). rewrite Rmult_0_r. exact Hg.
    + assert (Z0 : length (rx G) = 0%nat) by lia. rewrite Z0 in *. unfold ip in *. cbn [sumn] in *. rewrite Rmult_0_r. exact Hg.
  - assert (Hne' : pick l <> pick m) by (intros E'; apply Hne; auto). unfold delta in Hg. destruct (Nat.eqb_spec (pick l) (pick m)); [contradiction|].
    rewrite Rminus_0_r in *. rewrite Rabs_mult, Ab, Rmult_1_l. exact Hg.
Qed.

(** * Both halves *)
Section MergedNodes.
Variables (argsort : list R -> list nat) (eps : R) (n : nat) (hx hy : list R) (even odd r : sve_result).
Hypothesis Hhx : half_edges hx.
Hypothesis Hhy : half_edges hy.
Hypothesis He : sve_on n hx hy even.
Hypothesis Ho : sve_on n hx hy odd.
Hypothesis Hsort : sorts (ss even ++ ss odd) (argsort (ss even ++ ss odd)).
Hypothesis Hm : merge argsort eps (mirrored hx) (mirrored hy) even odd = Ok r.
Variables (q gx gy GX GY : rule).
Hypothesis Hq : gauss_ok n q.
Hypothesis Hgx : piecewise q hx = Ok gx.
Hypothesis Hgy : piecewise q hy = Ok gy.
Hypothesis HGX : piecewise q (mirrored hx) = Ok GX.
Hypothesis HGY : piecewise q (mirrored hy) = Ok GY.
Notation mx := ((length hx - 1) * n)%nat.
Notation my := ((length hy - 1) * n)%nat.
Variables (Le Lo : nat) (te to : nat -> R) (ue ve uo vo : nat -> nat -> R).
Hypothesis Ke : forall l, (l < length (ss even))%nat -> (l < Le)%nat /\ nth l (ss even) 0 = te l /\ exists sg, sg * sg = 1 /\
   (forall p, (p < mx)%nat -> col_at (su even) gx l p = sg * (ue l p / sqrt (weights gx p))) /\
   (forall p, (p < my)%nat -> col_at (sv even) gy l p = sg * (ve l p / sqrt (weights gy p))).
Hypothesis Ko : forall l, (l < length (ss odd))%nat -> (l < Lo)%nat /\ nth l (ss odd) 0 = to l /\ exists sg, sg * sg = 1 /\
   (forall p, (p < mx)%nat -> col_at (su odd) gx l p = sg * (uo l p / sqrt (weights gx p))) /\
   (forall p, (p < my)%nat -> col_at (sv odd) gy l p = sg * (vo l p / sqrt (weights gy p))).
Hypothesis De : forall a x, (length (ss even) <= a < Le)%nat -> In x (ss r) -> te a <= x.
Hypothesis Do : forall a x, (length (ss odd) <= a < Lo)%nat -> In x (ss r) -> to a <= x.

Notation sort := (rev (argsort (ss even ++ ss odd))).
Notation ne := (length (ss even)).
Notation no := (length (ss odd)).
Definition place (i : nat) : nat := if (i <? length (ss even))%nat then i else (Le + (i - length (ss even)))%nat.
Definition merged_pick (l : nat) : nat := place (nth l sort 0%nat).

Lemma left_at l i p : (l < ne + no)%nat -> i = nth l sort 0%nat -> (p < mx)%nat ->
  col_at (su r) GX l (mx + p) = / sqrt 2 * cval (vgeom (su even)) (mu even odd i) (node gx p) /\
  col_at (su r) GX l (mx - 1 - p) = / sqrt 2 * (sgn even i * cval (vgeom (su even)) (mu even odd i) (node gx p)).
Proof.
  intros Hl Hi Hp.
  destruct (merged argsort eps n hx hy even odd Hhx Hhy He Ho Hsort r Hm) as (Fu & Fv & K1 & K2 & L1 & L2 & _ & Es & _ & _).
  destruct (zero_u n hx hy even Hhx He) as (Z4 & Z5 & Z6). pose proof He as (Fe' & _ & Kv' & _).
  destruct (full_pos n q hx gx GX Hq Hhx Hgx HGX p Hp) as [PY _]. destruct (full_neg n q hx gx GX Hq Hhx Hgx HGX p Hp) as [NY _].
  destruct (full_lengths n q hx gx GX Hq Hhx Hgx HGX) as (_ & _ & Ly & _).
  destruct (inside_x n hx Hhx q gx Hq Hgx (node gx p)) as [Ny By]; [apply nth_In; lia|].
  unfold col_at. unfold node at 1 3. rewrite PY, NY. fold (node gx p).
  rewrite (col_u argsort eps n hx hy even odd Hhx Hhy He Ho Hsort r Hm l Hl). cbv zeta. rewrite <- Hi.
  destruct (mirror_node (vgeom (su even)) (vgeom (su r)) (sgn even i) (sgn even i) (mu even odd i) (node gx p)) as [E1 E2]; auto; try apply Fe'; try apply Fu.
  { rewrite Kv'. exact Ny. }
  rewrite E1, E2. split; field; apply Rgt_not_eq, sqrt_lt_R0; lra.
Qed.

Lemma right_half l i p : (l < ne + no)%nat -> i = nth l sort 0%nat -> (p < my)%nat ->
  col_at (sv r) GY l (my + p) = / sqrt 2 * cval (vgeom (sv even)) (mv even odd i) (node gy p) /\
  col_at (sv r) GY l (my - 1 - p) = / sqrt 2 * (sgn even i * cval (vgeom (sv even)) (mv even odd i) (node gy p)).
Proof.
  intros Hl Hi Hp.
  destruct (merged argsort eps n hx hy even odd Hhx Hhy He Ho Hsort r Hm) as (Fu & Fv & K1 & K2 & L1 & L2 & _ & Es & _ & _).
  destruct (zero_v n hx hy even Hhy He) as (Z4 & Z5 & Z6). pose proof He as (_ & Fe' & _ & Kv' & _).
  destruct (full_pos n q hy gy GY Hq Hhy Hgy HGY p Hp) as [PY _]. destruct (full_neg n q hy gy GY Hq Hhy Hgy HGY p Hp) as [NY _].
  destruct (full_lengths n q hy gy GY Hq Hhy Hgy HGY) as (_ & _ & Ly & _).
  destruct (inside_x n hy Hhy q gy Hq Hgy (node gy p)) as [Ny By]; [apply nth_In; lia|].
  unfold col_at. unfold node at 1 3. rewrite PY, NY. fold (node gy p).
  rewrite (col_v argsort eps n hx hy even odd Hhx Hhy He Ho Hsort r Hm l Hl). cbv zeta. rewrite <- Hi.
  destruct (mirror_node (vgeom (sv even)) (vgeom (sv r)) (sgn even i) (sgn even i) (mv even odd i) (node gy p)) as [E1 E2]; auto; try apply Fe'; try apply Fv.
  { rewrite Kv'. exact Ny. }
  rewrite E1, E2. split; field; apply Rgt_not_eq, sqrt_lt_R0; lra.
Qed.

(** The values of the i-th of the even and odd functions. *)
Lemma half_values i : (i < ne + no)%nat -> (place i < Le + Lo)%nat /\ nth i (ss even ++ ss odd) 0 = both Le te to (place i) /\
  (place i <? Le)%nat = (i <? ne)%nat /\ exists sg, sg * sg = 1 /\
  (forall p, (p < mx)%nat -> cval (vgeom (su even)) (mu even odd i) (node gx p) = sg * (both Le ue uo (place i) p / sqrt (weights gx p))) /\
  (forall p, (p < my)%nat -> cval (vgeom (sv even)) (mv even odd i) (node gy p) = sg * (both Le ve vo (place i) p / sqrt (weights gy p))).
Proof.
  intros Hi. pose proof He as (_ & _ & _ & _ & _ & _ & Lue & Lve). destruct (same_geoms n hx hy even odd He Ho) as [Sgu Sgv].
  unfold place, both. destruct (Nat.ltb_spec i ne) as [H|H].
  - destruct (Ke i H) as (A1 & A2 & sg & A3 & A4 & A5). split; [lia|]. destruct (Nat.ltb_spec i Le); [|lia].
    split; [rewrite app_nth1 by auto; exact A2|]. split; [reflexivity|]. exists sg. split; [exact A3|]. split.
    + intros p Hp. rewrite <- A4 by auto. unfold col_at, mu. rewrite app_nth1 by lia. reflexivity.
    + intros p Hp. rewrite <- A5 by auto. unfold col_at, mv. rewrite app_nth1 by lia. reflexivity.
  - destruct (Ko (i - ne)%nat ltac:(lia)) as (A1 & A2 & sg & A3 & A4 & A5). split; [lia|]. destruct (Nat.ltb_spec (Le + (i - ne)) Le); [lia|].
    replace (Le + (i - ne) - Le)%nat with (i - ne)%nat by lia.
    split; [rewrite app_nth2 by lia; exact A2|]. split; [reflexivity|]. exists sg. split; [exact A3|]. split.
    + intros p Hp. rewrite <- A4 by auto. unfold col_at, mu. rewrite app_nth2 by lia. rewrite Lue, Sgu. reflexivity.
    + intros p Hp. rewrite <- A5 by auto. unfold col_at, mv. rewrite app_nth2 by lia. rewrite Lve, Sgv. reflexivity.
Qed.

Lemma half_factor m g G h e o i sg C : half_edges h -> piecewise q h = Ok g -> piecewise q (mirrored h) = Ok G -> m = ((length h - 1) * n)%nat ->
  (forall p, (p < m)%nat -> C (m + p)%nat = / sqrt 2 * (sg * (both Le e o (place i) p / sqrt (weights g p))) /\
                             C (m - 1 - p)%nat = / sqrt 2 * (sgn even i * (sg * (both Le e o (place i) p / sqrt (weights g p))))) ->
  (place i <? Le)%nat = (i <? ne)%nat ->
  forall P, (P < length (rx G))%nat -> sqrt (weights G P) * C P = sg * doubled Le m e o (place i) P.
Proof.
  intros Hh Hg HG Em HC Hlt P HP. destruct (full_lengths n q h g G Hq Hh Hg HG) as (LX & _). rewrite LX in HP. rewrite <- Em in HP.
  apply index_cases in HP as (p & Hp & HP). destruct (HC p Hp) as [C1 C2].
  assert (W : 0 < sqrt (weights g p)). { apply sqrt_lt_R0. apply (weight_pos n q h g Hq (proj1 Hh) Hg). lia. }
  destruct (full_pos n q h g G Hq Hh Hg HG p ltac:(lia)) as [_ PW]. destruct (full_neg n q h g G Hq Hh Hg HG p ltac:(lia)) as [_ NW].
  pose proof (sqrt_lt_R0 2 ltac:(lra)) as S2. rewrite <- Em in PW, NW.
  destruct HP as [-> | ->]; unfold weights at 1; [rewrite PW, C1, doubled_pos by auto|rewrite NW, C2, doubled_neg by auto; unfold sgn; rewrite Hlt]; fold (weights g p); field; lra.
Qed.

Lemma merged_nodes : node_values GX GY r (Le + Lo) (both Le te to) (doubled Le mx ue uo) (doubled Le my ve vo) merged_pick.
Proof.
  destruct (lens argsort eps n hx hy even odd Hhx Hhy He Ho Hsort r Hm) as (Ls & _).
  destruct (merged_sorted argsort eps n hx hy even odd Hhx Hhy He Ho Hsort r Hm) as [Ni _].
  destruct (merged argsort eps n hx hy even odd Hhx Hhy He Ho Hsort r Hm) as (_ & _ & _ & _ & _ & _ & _ & Es & _).
  pose proof (sort_len argsort even odd Hsort) as SL. pose proof (sort_perm argsort even odd Hsort) as SP.
  assert (Sl : forall l, (l < ne + no)%nat -> nth l (ss r) 0 = nth (nth l sort 0%nat) (ss even ++ ss odd) 0).
  { intros l Hl. rewrite Es, (nth_map_in _ _ _ 0%nat); [reflexivity|]. rewrite SL. exact Hl. }
  assert (Found : forall i, (i < ne + no)%nat -> exists l, (l < ne + no)%nat /\ i = nth l sort 0%nat).
  { intros i Hi. assert (Hin : In i sort) by (eapply Permutation_in; [symmetry; exact SP|]; apply in_seq; lia).
    apply (In_nth _ _ 0%nat) in Hin as (l & Hl & E). rewrite SL in Hl. eauto. }
  assert (Lt : forall l, (l < ne + no)%nat -> (nth l sort 0 < ne + no)%nat) by (intros; apply (sort_lt argsort even odd Hsort); auto).
  assert (Nd : NoDup sort) by (eapply Permutation_NoDup; [symmetry; exact SP|apply seq_NoDup]).
  unfold node_values. rewrite Ls. split; [|split; [|split]].
  - intros l Hl. destruct (half_values _ (Lt l Hl)) as (A1 & A2 & _). split; [exact A1|]. rewrite (Sl l Hl), A2. reflexivity.
  - intros l l' Hl Hl' E. pose proof (Lt l Hl) as B1. pose proof (Lt l' Hl') as B2.
    assert (E' : nth l sort 0%nat = nth l' sort 0%nat).
    { unfold merged_pick, place in E.
      assert (Ce : forall i, (i < ne)%nat -> (i < Le)%nat) by (intros i Hi'; apply (Ke i Hi')).
      destruct (Nat.ltb_spec (nth l sort 0%nat) ne) as [C1|C1], (Nat.ltb_spec (nth l' sort 0%nat) ne) as [C2|C2]; try lia.
      - specialize (Ce _ C1). lia.
      - specialize (Ce _ C2). lia. }
    apply (proj1 (NoDup_nth sort 0%nat) Nd l l'); auto; lia.
  - intros N b HN Hb. unfold both. destruct (Nat.ltb_spec b Le) as [Hbe|Hbo].
    + destruct (Nat.lt_ge_cases b ne) as [Hk|Hd]; [|left; apply De; [lia|apply nth_In; lia]].
      destruct (Found b ltac:(lia)) as (l & Hl & El). destruct (Nat.lt_ge_cases l N) as [HlN|HlN].
      * right. exists l. split; [exact HlN|]. unfold merged_pick, place. rewrite <- El. destruct (Nat.ltb_spec b ne); [reflexivity|lia].
      * left. destruct (Ke b Hk) as (_ & Et & _). rewrite <- Et. replace (nth b (ss even) 0) with (nth l (ss r) 0); [apply nonincreasing_nth; auto; lia|].
        rewrite Sl by auto. rewrite <- El, app_nth1 by auto. reflexivity.
    + destruct (Nat.lt_ge_cases (b - Le) no) as [Hk|Hd]; [|left; apply Do; [lia|apply nth_In; lia]].
      destruct (Found (ne + (b - Le))%nat ltac:(lia)) as (l & Hl & El). destruct (Nat.lt_ge_cases l N) as [HlN|HlN].
      * right. exists l. split; [exact HlN|]. unfold merged_pick, place. rewrite <- El. destruct (Nat.ltb_spec (ne + (b - Le)) ne); lia.
      * left. destruct (Ko (b - Le)%nat Hk) as (_ & Et & _). rewrite <- Et. replace (nth (b - Le) (ss odd) 0) with (nth l (ss r) 0); [apply nonincreasing_nth; auto; lia|].
        rewrite Sl by auto. rewrite <- El, app_nth2 by lia. f_equal. lia.
  - intros l Hl. destruct (half_values _ (Lt l Hl)) as (A1 & A2 & A3 & sg & A4 & A5 & A6). exists sg. split; [exact A4|]. split.
    + apply (half_factor mx gx GX hx ue uo (nth l sort 0%nat) sg (col_at (su r) GX l) Hhx Hgx HGX eq_refl); auto.
      intros p Hp. destruct (left_at l _ p Hl eq_refl Hp) as [R1 R2]. rewrite R1, R2, A5 by auto. split; reflexivity.
    + apply (half_factor my gy GY hy ve vo (nth l sort 0%nat) sg (col_at (sv r) GY l) Hhy Hgy HGY eq_refl); auto.
      intros p Hp. destruct (right_half l _ p Hl eq_refl Hp) as [R1 R2]. rewrite R1, R2, A6 by auto. split; reflexivity.
Qed.
End MergedNodes.

(** * Doubled vectors *)
Section DoubledVectors.
Variables (Le Lo m : nat).
Lemma doubled_dot (e o e' o' : nat -> nat -> R) i j :
  ip (m + m) (doubled Le m e o i) (doubled Le m e' o' j) = if Bool.eqb (i <? Le)%nat (j <? Le)%nat then ip m (both Le e o i) (both Le e' o' j) else 0.
Proof.
  unfold ip. rewrite sum_both.
  rewrite (sumn_ext m _ (fun p => (if Bool.eqb (i <? Le)%nat (j <? Le)%nat then 1 else 0) * (both Le e o i p * both Le e' o' j p))).
  - rewrite sumn_scal. destruct (Bool.eqb _ _); ring.
  - intros p Hp. rewrite !doubled_pos, !doubled_neg by auto.
    match goal with |- ?l = _ => transitivity (/ sqrt 2 * / sqrt 2 * (both Le e o i p * both Le e' o' j p) * (1 + (if (i <? Le)%nat then 1 else -1) * (if (j <? Le)%nat then 1 else -1))); [ring|] end.
    rewrite half_sqr. destruct (i <? Le)%nat, (j <? Le)%nat; cbn [Bool.eqb]; field.
Qed.

Lemma doubled_gram (e o : nat -> nat -> R) a c i j :
  (forall l l', (l < Le)%nat -> (l' < Le)%nat -> Rabs (ip m (e l) (e l') - delta l l') <= a) ->
  (forall l l', (l < Lo)%nat -> (l' < Lo)%nat -> Rabs (ip m (o l) (o l') - delta l l') <= c) -> 0 <= a ->
  (i < Le + Lo)%nat -> (j < Le + Lo)%nat -> Rabs (ip (m + m) (doubled Le m e o i) (doubled Le m e o j) - delta i j) <= Rmax a c.
Proof.
  intros He Ho Ha Hi Hj. rewrite doubled_dot. unfold both, delta.
  destruct (Nat.ltb_spec i Le) as [H1|H1], (Nat.ltb_spec j Le) as [H2|H2]; cbn [Bool.eqb].
  - eapply Rle_trans; [exact (He i j H1 H2)|apply Rmax_l].
  - destruct (Nat.eqb_spec i j); [lia|]. rewrite Rminus_0_r, Rabs_R0. eapply Rle_trans; [exact Ha|apply Rmax_l].
  - destruct (Nat.eqb_spec i j); [lia|]. rewrite Rminus_0_r, Rabs_R0. eapply Rle_trans; [exact Ha|apply Rmax_l].
  - eapply Rle_trans; [|apply Rmax_r]. pose proof (Ho (i - Le) (j - Le) ltac:(lia) ltac:(lia))%nat as H. unfold delta in H.
    destruct (Nat.eqb_spec (i - Le) (j - Le)), (Nat.eqb_spec i j); try lia; exact H.
Qed.

Lemma doubled_ort e o : ort m Le e -> ort m Lo o -> ort (m + m) (Le + Lo) (doubled Le m e o).
Proof.
  intros He Ho i j Hi Hj. rewrite doubled_dot. unfold both. destruct (Nat.ltb_spec i Le) as [H1|H1], (Nat.ltb_spec j Le) as [H2|H2]; cbn [Bool.eqb].
  - exact (He i j H1 H2).
  - destruct (Nat.eqb_spec i j); [lia|reflexivity].
  - destruct (Nat.eqb_spec i j); [lia|reflexivity].
  - rewrite (Ho (i - Le) (j - Le) ltac:(lia) ltac:(lia))%nat. destruct (Nat.eqb_spec (i - Le) (j - Le)), (Nat.eqb_spec i j); try lia; reflexivity.
Qed.

Lemma doubled_diff e o e' o' a c :
  sumn Le (fun l => sumn m (fun i => Rsqr (e' l i - e l i))) <= Rsqr a -> sumn Lo (fun l => sumn m (fun i => Rsqr (o' l i - o l i))) <= Rsqr c ->
  sumn (Le + Lo) (fun l => sumn (m + m) (fun i => Rsqr (doubled Le m e' o' l i - doubled Le m e o l i))) <= Rsqr (sqrt (Rsqr a + Rsqr c)).
Proof.
  intros H1 H2. rewrite Rsqr_sqrt by (pose proof (Rle_0_sqr a); pose proof (Rle_0_sqr c); lra).
  eapply Rle_trans; [|apply Rplus_le_compat; [exact H1|exact H2]]. right. rewrite <- (both_sum Le Lo). apply sumn_ext. intros l Hl.
  transitivity (ip (m + m) (doubled Le m (fun l i => e' l i - e l i) (fun l i => o' l i - o l i) l) (doubled Le m (fun l i => e' l i - e l i) (fun l i => o' l i - o l i) l)).
  - apply sumn_ext. intros i Hi. unfold Rsqr, doubled, both. destruct (i <? m)%nat, (l <? Le)%nat; ring.
  - rewrite doubled_dot, Bool.eqb_reflx. unfold both, ip. destruct (l <? Le)%nat; reflexivity.
Qed.
End DoubledVectors.

(** The sum of the products of doubled vectors. *)
Lemma doubled_sums Le Lo mx my (te to : nat -> R) ue uo ve vo p p' : (p < mx)%nat -> (p' < my)%nat ->
  let U := sumn Le (fun a => te a * (ue a p * ve a p')) in
  let V := sumn Lo (fun a => to a * (uo a p * vo a p')) in
  let D P Q := sumn (Le + Lo) (fun b => both Le te to b * (doubled Le mx ue uo b P * doubled Le my ve vo b Q)) in
  D (mx + p)%nat (my + p')%nat = / 2 * (U + V) /\ D (mx + p)%nat (my - 1 - p')%nat = / 2 * (U - V) /\
  D (mx - 1 - p)%nat (my + p')%nat = / 2 * (U - V) /\ D (mx - 1 - p)%nat (my - 1 - p')%nat = / 2 * (U + V).
Proof.
  intros Hp Hp' U V D.
  assert (Pl : sumn (Le + Lo) (both Le (fun a => te a * (ue a p * ve a p')) (fun a => to a * (uo a p * vo a p'))) = U + V) by apply both_sum.
  assert (Mi : sumn (Le + Lo) (both Le (fun a => te a * (ue a p * ve a p')) (fun a => - (to a * (uo a p * vo a p')))) = U - V).
  { rewrite both_sum, sumn_opp. reflexivity. }
  rewrite <- Pl, <- Mi, <- !sumn_scal. unfold D. repeat split; apply sumn_ext; intros b Hb; rewrite ?doubled_pos, ?doubled_neg by auto; rewrite <- half_sqr; unfold both; destruct (b <? Le)%nat; ring.
Qed.

Section DoubledError.
Variables (n : nat) (q : rule) (hx hy : list R) (gx gy GX GY : rule) (k : R -> R -> R).
Hypothesis Hq : gauss_ok n q.
Hypothesis Hhx : half_edges hx.
Hypothesis Hhy : half_edges hy.
Hypothesis Hgx : piecewise q hx = Ok gx.
Hypothesis Hgy : piecewise q hy = Ok gy.
Hypothesis HGX : piecewise q (mirrored hx) = Ok GX.
Hypothesis HGY : piecewise q (mirrored hy) = Ok GY.
Hypothesis Ck : forall x y, -1 <= x <= 1 -> -1 <= y <= 1 -> k (- x) (- y) = k x y.
Notation mx := ((length hx - 1) * n)%nat.
Notation my := ((length hy - 1) * n)%nat.
Variables (Le Lo : nat) (te to : nat -> R) (ue ve uo vo : nat -> nat -> R) (de d_o : R).
Hypothesis Ee : sumn mx (fun i => sumn my (fun j => Rsqr (ment (weighted (fun x y => k x y + k x (- y)) gx gy) i j - sumn Le (fun a => te a * (ue a i * ve a j))))) <= Rsqr de.
Hypothesis Eo : sumn mx (fun i => sumn my (fun j => Rsqr (ment (weighted (fun x y => k x y - k x (- y)) gx gy) i j - sumn Lo (fun a => to a * (uo a i * vo a j))))) <= Rsqr d_o.

Lemma doubled_error : norm2 (mx + mx) (my + my) (fun i j => sqrt (weights GX i) * sqrt (weights GY j) * k (node GX i) (node GY j) -
  sumn (Le + Lo) (fun b => both Le te to b * (doubled Le mx ue uo b i * doubled Le my ve vo b j))) <= Rsqr (sqrt (Rsqr de + Rsqr d_o)).
Proof.
  rewrite Rsqr_sqrt by (pose proof (Rle_0_sqr de); pose proof (Rle_0_sqr d_o); lra).
  eapply Rle_trans; [|apply Rplus_le_compat; [exact Ee|exact Eo]]. right.
  destruct (full_lengths n q hx gx GX Hq Hhx Hgx HGX) as (A1 & A2 & A3 & A4). destruct (full_lengths n q hy gy GY Hq Hhy Hgy HGY) as (B1 & B2 & B3 & B4).
  pose proof (full_pos n q hx gx GX Hq Hhx Hgx HGX) as PX. pose proof (full_neg n q hx gx GX Hq Hhx Hgx HGX) as NX.
  pose proof (full_pos n q hy gy GY Hq Hhy Hgy HGY) as PY. pose proof (full_neg n q hy gy GY Hq Hhy Hgy HGY) as NY.
  unfold norm2. rewrite (sum_both mx), <- !sumn_plus. apply sumn_ext. intros p Hp.
  rewrite !(sum_both my), <- !sumn_plus. apply sumn_ext. intros p' Hp'.
  destruct (doubled_sums Le Lo mx my te to ue uo ve vo p p' Hp Hp') as (D1 & D2 & D3 & D4). rewrite D1, D2, D3, D4.
  rewrite !ComputeNonempty.weighted_entry by lia. unfold weights, node.
  destruct (PX p Hp) as [-> ->]. destruct (NX p Hp) as [-> ->]. destruct (PY p' Hp') as [-> ->]. destruct (NY p' Hp') as [-> ->].
  assert (Bx : 0 < nth p (rx gx) 0 < 1) by (apply (inside_x n hx Hhx q gx Hq Hgx); apply nth_In; lia).
  assert (By : 0 < nth p' (rx gy) 0 < 1) by (apply (inside_x n hy Hhy q gy Hq Hgy); apply nth_In; lia).
  set (x := nth p (rx gx) 0) in *. set (y := nth p' (rx gy) 0) in *.
  rewrite (Ck x y) by lra. replace (k (- x) y) with (k x (- y)) by (rewrite <- (Ck x (- y)), Ropp_involutive by lra; reflexivity).
  set (U := sumn Le _). set (V := sumn Lo _). unfold Rsqr. field.
Qed.
End DoubledError.

(** * Shifting the matrix *)
Lemma computed_shift m n A M b a c d e : 0 <= e -> sumn m (fun i => sumn n (fun j => Rsqr (ment A i j - ment M i j))) <= Rsqr e ->
  computed_svd m n M b a c d -> computed_svd m n A b a c (d + e).
Proof.
  intros He HA (H1 & H2 & H3 & H4 & Hd & H5). repeat (split; [assumption|]). split; [lra|].
  pose proof (minkowski2 m n _ _ _ _ Hd He H5 HA) as Q. eapply Rle_trans; [|exact Q]. right. apply sumn_ext. intros. apply sumn_ext. intros. f_equal. ring.
Qed.

(** An exact decomposition of which there are no more vectors than entries. *)
Lemma near_computed m n A b d : near_svd m n A b d -> (length (svals b) <= m)%nat -> (length (svals b) <= n)%nat -> computed_svd m n A b 0 0 d.
Proof.
  destruct b as [[us s] vs]. intros (Hd & (L1 & L2 & F1 & F2 & O1 & O2) & Ho & HE) Hm Hn. unfold svals in Hm, Hn. cbn [fst snd] in Hm, Hn.
  assert (Z : forall vs : list (list R), orthonormal_vectors vs -> nearly_orthonormal vs 0).
  { intros ws Hw. split; [lra|]. unfold gram_error. rewrite sumn_zero; [unfold Rsqr; lra|]. intros l Hl. apply sumn_zero. intros j Hj. rewrite Hw by auto. rewrite Rminus_eq_0. apply Rsqr_0. }
  split; [unfold thin_usv; repeat (split; [assumption|]); assumption|]. split; [apply Z; exact O1|]. split; [apply Z; exact O2|]. auto.
Qed.

(** The nearby orthonormal vectors. *)
Lemma polar_usv m k vs a : length vs = k -> (k <= m)%nat -> Forall (fun v => length v = m) vs -> nearly_orthonormal vs a ->
  exists u', ort m k u' /\ sumn k (fun l => sumn m (fun i => Rsqr (u' l i - ent vs l i))) <= Rsqr a.
Proof. intros L Hk F H. apply polar; auto. apply gram_ip; auto. Qed.

Lemma usv_ent us s vs i j : usv_entry (us, s, vs) i j = sumn (length s) (fun l => nth l s 0 * (ent us l i * ent vs l j)).
Proof. unfold usv_entry. apply sumn_ext. intros l _. unfold ent. ring. Qed.

Lemma largest_bound b : ordered b -> 0 <= largest b /\ forall l, (l < length (svals b))%nat -> 0 <= nth l (svals b) 0 <= largest b.
Proof.
  intros [Hn Hp]. rewrite Forall_forall in Hp.
  assert (H : forall l, (l < length (svals b))%nat -> 0 <= nth l (svals b) 0 <= largest b).
  { intros l Hl. split; [apply Hp, nth_In; auto|]. apply nonincreasing_nth; auto. lia. }
  split; [|exact H]. unfold largest. destruct (Nat.lt_ge_cases 0 (length (svals b))) as [H0|H0]; [apply (H 0%nat H0)|]. rewrite nth_overflow by lia. lra.
Qed.

(** * compute *)
Section Compute.
Variables (have_xprec have_gejsv : bool) (dd : R) (f : tfun).
Variable legendre : dtype -> nat -> res rule.
Variable run : svd_alg -> matrix -> Z -> usv.
Variable argsort : list R -> list nat.
Notation compute := (compute have_xprec have_gejsv dd f legendre run argsort).
Hypothesis Hleg : good_rules legendre.

Section Sample.
Variables (K : kernel) (eps cutoff : option xr) (n_sv : option pynum) (ng : option nat) (work : option dtype) (svds : option string) (r : sve_result).
Hypothesis Hc : compute K eps cutoff n_sv ng work (Some SampleStrat) svds = Ok (Some r).

Lemma computed_sample k : (forall x y, -1 <= x <= 1 -> -1 <= y <= 1 -> has_value f K x y (k x y)) ->
  exists t n q GX GY alg h,
    legendre t n = Ok q /\ (forall m, ng = Some m -> n = m) /\
    piecewise q (segments_x K) = Ok GX /\ piecewise q (segments_y K) = Ok GY /\
    let A := weighted k GX GY in
    let o := run alg A h in
    forall a c d, computed_svd (length (rx GX)) (length (rx GY)) A o a c d ->
    near_best GX GY k r (d + 2 * skew (largest o) a c) (sumsq (svals o)) /\
    nearly_orthonormal_functions (su r) a /\ nearly_orthonormal_functions (sv r) c.
Proof.
  intros Hk.
  destruct (compute_sample_inv _ _ _ _ _ _ _ _ _ _ _ _ _ _ _ Hc) as (t & safe & S & A & alg & h & rtol & b' & HS & HA & Hrt & Ht & Hp & Qp & strategy & wn & Hsafe).
  destruct (full_segs _ _ Hleg _ _ _ _ _ HS) as (X & Y & Ex & Ey & L & G & D & Px & Py & M & Es & N).
  exists t, (s_n S), (s_rule S), (s_gx S), (s_gy S), alg, h. split; [exact L|]. split; [intros m ->; exact N|]. split; [exact Px|]. split; [exact Py|].
  cbv zeta. replace (weighted k (s_gx S) (s_gy S)) with A.
  2:{ rewrite (matrix_weighted S k) in HA by (rewrite M; exact (full_sampled f K k _ _ _ _ Hk G D Px Py)). congruence. }
  intros a c d H. destruct (truncate1 _ _ _ _ Ht) as (i & Pi).
  assert (Lx : (2 <= length (s_segs_x S))%nat) by (rewrite X; apply Ex).
  assert (Ly : (2 <= length (s_segs_y S))%nat) by (rewrite Y; apply Ey).
  assert (EA : A = weighted k (s_gx S) (s_gy S)).
  { rewrite (matrix_weighted S k) in HA by (rewrite M; exact (full_sampled f K k _ _ _ _ Hk G D Px Py)). congruence. }
  destruct (run alg A h) as [[us s] vs] eqn:Eb. destruct H as (Th & Nu & Nv & Or & Pd & Er). cbn [fst snd] in Nu, Nv.
  destruct (block_nodes _ _ _ _ S us vs s b' i r HS G Lx Ly Th Pi Hp) as (S1 & S2 & On & Hn). rewrite X, Y in On.
  destruct (segments_valid K) as [Vx Vy]. pose proof On as (Fu & Fv & Ku & Kv & Gu & Gv & L1 & L2).
  destruct Th as (T1 & T2 & T3 & T4 & T5 & T6).
  destruct (polar_usv _ (length s) us a T1 T3 T5 Nu) as (u' & Ou & Du). destruct (polar_usv _ (length s) vs c T2 T4 T6 Nv) as (v' & Ov & Dv).
  destruct (largest_bound _ Or) as [P0 Pl]. destruct Or as [Ni Np]. unfold svals in Pl, Ni. cbn [fst snd] in Pl, Ni.
  destruct (full_nodes _ _ _ _ G Vx Px) as (A1 & A2 & A3 & A4 & A5). destruct (full_nodes _ _ _ _ G Vy Py) as (B1 & B2 & B3 & B4 & B5).
  assert (Hns : nonincreasing (ss r)) by (rewrite S2; apply sorted_firstn; exact Ni).
  assert (Hnv : node_values (s_gx S) (s_gy S) r (length s) (fun l => nth l s 0) (ent us) (ent vs) (fun l => l)).
  { split; [intros l Hl; destruct (Hn l Hl) as (E1 & E2 & _); auto|]. split; [auto|]. split.
    - intros N' b HN' Hb. destruct (Nat.lt_ge_cases b N') as [Hlt|Hge]; [right; exists b; auto|]. left.
      destruct (Hn (N' - 1)%nat ltac:(lia)) as (_ & E2 & _). rewrite E2. apply nonincreasing_nth; auto; lia.
    - intros l Hl. destruct (Hn l Hl) as (_ & _ & sg & C1 & C2 & C3). exists sg. split; [exact C1|]. split.
      + intros p Hpp. rewrite C2 by auto. rewrite A1 in Hpp. pose proof (sqrt_lt_R0 _ (A3 p Hpp)). unfold weights. field. lra.
      + intros p Hpp. rewrite C3 by auto. rewrite B1 in Hpp. pose proof (sqrt_lt_R0 _ (B3 p Hpp)). unfold weights. field. lra. }
  split; [|split].
  - refine (nodes_near (s_n S) (s_rule S) _ _ (s_gx S) (s_gy S) k r G Vx Vy Px Py On Hns (length s) _ _ _ _ Hnv u' v' _ a c d _ Ou Ov (proj1 Nu) (proj1 Nv) Pd P0 Du Dv Pl _ _).
    + eapply Rle_trans; [|exact Er]. right. unfold norm2. apply sumn_ext. intros p Hpp. apply sumn_ext. intros p' Hpp'. f_equal.
      rewrite usv_ent, EA, ComputeNonempty.weighted_entry by lia. unfold weights, node. ring.
    + unfold svals. cbn [fst snd]. rewrite sumsq_sumn. reflexivity.
  - destruct Hnv as (N1 & N2 & _ & N4). apply (nearly_at_nodes (s_n S) (s_rule S) _ (s_gx S) _ (length s) (length (ss r)) (ent us) (fun l => l) a G Ex Px Fu Ku Gu L1); auto.
    + intros l Hl. apply N1. exact Hl.
    + intros l Hl. destruct (N4 l Hl) as (sg & C1 & C2 & _). eauto.
    + intros l l' Hl Hl'. apply (gram_entry us (length s) _ a); auto.
  - destruct Hnv as (N1 & N2 & _ & N4). apply (nearly_at_nodes (s_n S) (s_rule S) _ (s_gy S) _ (length s) (length (ss r)) (ent vs) (fun l => l) c G Ey Py Fv Kv Gv L2); auto.
    + intros l Hl. apply N1. exact Hl.
    + intros l Hl. destruct (N4 l Hl) as (sg & C1 & _ & C2). eauto.
    + intros l l' Hl Hl'. apply (gram_entry vs (length s) _ c); auto.
Qed.
End Sample.

Hypothesis Hsort : forall s, sorts s (argsort s).
Section Centro.
Variables (K : kernel) (eps cutoff : option xr) (n_sv : option pynum) (ng : option nat) (work : option dtype) (st : option strat) (svds : option string) (r : sve_result).
Hypothesis Hc : compute K eps cutoff n_sv ng work st svds = Ok (Some r).
Hypothesis Hst : st <> Some SampleStrat.

Lemma computed_centro k : tfun_ok f -> 0 < k_lambda K -> (forall x y, -1 <= x <= 1 -> -1 <= y <= 1 -> has_value f K x y (k x y)) ->
  exists t n q gx gy GX GY alge he algo ho,
    legendre t n = Ok q /\ (forall m, ng = Some m -> n = m) /\
    piecewise q (half (segments_x K)) = Ok gx /\ piecewise q (half (segments_y K)) = Ok gy /\
    piecewise q (segments_x K) = Ok GX /\ piecewise q (segments_y K) = Ok GY /\
    let Ae := weighted (fun x y => k x y + k x (- y)) gx gy in
    let Ao := weighted (fun x y => k x y - k x (- y)) gx gy in
    let even := run alge Ae he in
    let odd := run algo Ao ho in
    forall ae ce de ao co d_o,
    computed_svd (length (rx gx)) (length (rx gy)) Ae even ae ce de -> computed_svd (length (rx gx)) (length (rx gy)) Ao odd ao co d_o ->
    near_best GX GY k r (root2 de d_o + 2 * skew (Rmax (largest even) (largest odd)) (root2 ae ao) (root2 ce co))
      (sumsq (svals even) + sumsq (svals odd)) /\
    nearly_orthonormal_functions (su r) (Rmax ae ao) /\ nearly_orthonormal_functions (sv r) (Rmax ce co).
Proof.
  intros Hf Hl Hk.
  destruct (compute_centro_inv _ _ _ _ _ _ _ _ _ _ _ _ _ _ _ _ Hc Hst) as
    (t & safe & Ke & Ko & even & odd & Ae & Ao & alge & he & algo & ho & rtol & be' & bo' & re & ro & HKe & HKo & Se & So & Me & Mo & Hrt & Ht & Pe & Po & Hm & Qe & Qo & strategy & wn & Hsafe).
  destruct (reduced_segs _ _ Hleg _ _ _ _ _ _ _ HKe Se) as (X1 & Y1 & Hx & Hy & Mx & My & L1 & G1 & D1 & Gx1 & Gy1 & M1 & E1 & N1).
  destruct (reduced_segs _ _ Hleg _ _ _ _ _ _ _ HKo So) as (X2 & Y2 & _ & _ & _ & _ & L2 & G2 & D2 & Gx2 & Gy2 & M2 & E2 & N2).
  assert (Nn : s_n odd = s_n even) by congruence.
  assert (Rr : s_rule odd = s_rule even). { rewrite Nn in L2. rewrite L1 in L2. congruence. }
  assert (Gx : s_gx odd = s_gx even). { rewrite Rr, Gx1 in Gx2. congruence. }
  assert (Gy : s_gy odd = s_gy even). { rewrite Rr, Gy1 in Gy2. congruence. }
  destruct (piecewise_defined _ _ _ _ G1 (proj1 Hx) Gx1 Hx) as [GX HGX]. destruct (piecewise_defined _ _ _ _ G1 (proj1 Hy) Gy1 Hy) as [GY HGY].
  exists t, (s_n even), (s_rule even), (s_gx even), (s_gy even), GX, GY, alge, he, algo, ho.
  split; [exact L1|]. split; [intros m ->; exact N1|]. split; [exact Gx1|]. split; [exact Gy1|].
  split; [rewrite <- Mx; exact HGX|]. split; [rewrite <- My; exact HGY|].
  pose (ke := fun x y => k x y + k x (- y)). pose (ko := fun x y => k x y - k x (- y)).
  change (fun x y => k x y + k x (- y)) with ke. change (fun x y => k x y - k x (- y)) with ko.
  assert (We : weighted (fun x y => k x y + 1 * k x (- y)) (s_gx even) (s_gy even) = weighted ke (s_gx even) (s_gy even)).
  { unfold weighted. apply map2_ext. intros x w. apply map2_ext. intros y v. unfold ke. ring. }
  assert (Wo : weighted (fun x y => k x y + -1 * k x (- y)) (s_gx even) (s_gy even) = weighted ko (s_gx even) (s_gy even)).
  { unfold weighted. apply map2_ext. intros x w. apply map2_ext. intros y v. unfold ko. ring. }
  assert (Ee : Ae = weighted ke (s_gx even) (s_gy even)).
  { rewrite (matrix_weighted even (fun x y => k x y + 1 * k x (- y))) in Me.
    - rewrite We in Me. congruence.
    - rewrite M1. exact (reduced_sampled f K k 1 Ke _ _ _ _ _ _ Hf Hl Hk HKe G1 D1 Hx Hy Gx1 Gy1). }
  assert (Eo : Ao = weighted ko (s_gx even) (s_gy even)).
  { rewrite (matrix_weighted odd (fun x y => k x y + -1 * k x (- y))) in Mo.
    - rewrite Gx, Gy, Wo in Mo. congruence.
    - rewrite M2. exact (reduced_sampled f K k (-1) Ko _ _ _ _ _ _ Hf Hl Hk HKo G2 D2 Hx Hy Gx2 Gy2). }
  assert (Cs : forall x y, -1 <= x <= 1 -> -1 <= y <= 1 -> k (- x) (- y) = k x y).
  { intros x' y' Hx' Hy'. pose proof (Hk x' y' Hx' Hy') as Va. apply (centrosymmetric f K x' y' _ Hf Hl) in Va.
    pose proof (Hk (- x') (- y') ltac:(lra) ltac:(lra)) as Vb. unfold has_value in Va, Vb. rewrite Va in Vb. injection Vb as Vb. auto. }
  cbv zeta. rewrite <- Ee, <- Eo. intros ae ce de ao co d_o He Ho.
  destruct (truncate2 _ _ _ _ _ _ Ht) as (i & j & Pi & Pj).
  assert (Lx : (2 <= length (s_segs_x even))%nat) by (rewrite X1; apply Hx).
  assert (Ly : (2 <= length (s_segs_y even))%nat) by (rewrite Y1; apply Hy).
  assert (Lx' : (2 <= length (s_segs_x odd))%nat) by (rewrite X2; apply Hx).
  assert (Ly' : (2 <= length (s_segs_y odd))%nat) by (rewrite Y2; apply Hy).
  destruct (run alge Ae he) as [[use se] vse] eqn:Ebe. destruct (run algo Ao ho) as [[uso so] vso] eqn:Ebo.
  destruct He as (The & Nue & Nve & Ore & Pde & Ere). destruct Ho as (Tho & Nuo & Nvo & Oro & Pdo & Ero). cbn [fst snd] in Nue, Nve, Nuo, Nvo.
  assert (Tho' : thin_usv (length (rx (s_gx odd))) (length (rx (s_gy odd))) (uso, so, vso)) by (rewrite Gx, Gy; exact Tho).
  destruct (block_nodes _ _ _ _ even use vse se be' i re Se G1 Lx Ly The Pi Pe) as (S1 & S1' & On1 & Hn1).
  destruct (block_nodes _ _ _ _ odd uso vso so bo' j ro So G2 Lx' Ly' Tho' Pj Po) as (S2 & S2' & On2 & Hn2). rewrite Gx, Gy in Hn2.
  rewrite X1, Y1 in On1. rewrite X2, Y2, Nn in On2.
  rewrite <- Mx, <- My in Hm. pose proof (Hsort (ss re ++ ss ro)) as Hs.
  assert (On : sve_on (s_n even) (mirrored (half (segments_x K))) (mirrored (half (segments_y K))) r).
  { destruct (merged argsort safe (s_n even) _ _ re ro Hx Hy On1 On2 Hs r Hm) as (Fu & Fv & K1 & K2 & Gl1 & Gl2 & _).
    destruct (lens argsort safe (s_n even) _ _ re ro Hx Hy On1 On2 Hs r Hm) as (Ls & Lu & Lv).
    pose proof On1 as (_ & _ & A3 & A4 & A5 & A6 & _). repeat split; try congruence; try apply Fu; try apply Fv. }
  destruct (merged_sorted argsort safe (s_n even) _ _ re ro Hx Hy On1 On2 Hs r Hm) as [Ni Perm].
  destruct (cut_between _ _ _ _ Ht) as (cc & Hcut).
  destruct (Hcut 0%nat (use, se, vse) be' eq_refl eq_refl (proj1 Ore)) as [Ka Kb]. destruct (Hcut 1%nat (uso, so, vso) bo' eq_refl eq_refl (proj1 Oro)) as [Kc Kd].
  assert (Above : forall x, In x (ss r) -> cc < x).
  { intros x Hxi. eapply Permutation_in in Hxi; [|exact Perm]. apply in_app_iff in Hxi. rewrite S1, S2 in Hxi. rewrite Forall_forall in Ka, Kc. destruct Hxi; auto. }
  destruct (largest_bound _ Ore) as [Pe0 Pel]. destruct (largest_bound _ Oro) as [Po0 Pol].
  destruct The as (T1 & T2 & T3 & T4 & T5 & T6). destruct Tho as (T1' & T2' & T3' & T4' & T5' & T6').
  destruct (sizes _ _ _ _ _ Se G1 Lx Ly) as (Z1 & Z2 & Z3 & Z4). rewrite X1 in Z1. rewrite Y1 in Z3.
  unfold svals in Pel, Pol, Kb, Kd. cbn [fst snd] in Pel, Pol, Kb, Kd. unfold svals at 1 2. cbn [fst snd].
  rewrite Z1 in *. rewrite Z3 in *.
  destruct (polar_usv _ (length se) use ae T1 T3 T5 Nue) as (ue' & Oue & Due). destruct (polar_usv _ (length se) vse ce T2 T4 T6 Nve) as (ve' & Ove & Dve).
  destruct (polar_usv _ (length so) uso ao T1' T3' T5' Nuo) as (uo' & Ouo & Duo). destruct (polar_usv _ (length so) vso co T2' T4' T6' Nvo) as (vo' & Ovo & Dvo).
  pose proof (merged_nodes argsort safe (s_n even) _ _ re ro r Hx Hy On1 On2 Hs Hm (s_rule even) (s_gx even) (s_gy even) GX GY G1 Gx1 Gy1 HGX HGY
    (length se) (length so) (fun l => nth l se 0) (fun l => nth l so 0) (ent use) (ent vse) (ent uso) (ent vso) Hn1 Hn2) as Hnv.
  assert (Hnv' := Hnv ltac:(intros a x Ha Hxi; rewrite S1 in Ha; specialize (Kb a Ha); specialize (Above x Hxi); lra)
                      ltac:(intros a x Ha Hxi; rewrite S2 in Ha; specialize (Kd a Ha); specialize (Above x Hxi); lra)).
  clear Hnv. rename Hnv' into Hnv.
  destruct (segments_valid K) as [Vx Vy]. pose proof Vx as Vx'. pose proof Vy as Vy'. rewrite <- Mx in Vx'. rewrite <- My in Vy'.
  destruct (full_lengths _ _ _ _ _ G1 Hx Gx1 HGX) as (F1 & _). destruct (full_lengths _ _ _ _ _ G1 Hy Gy1 HGY) as (F2 & _).
  pose proof On as (Fu & Fv & Ku & Kv & Gu & Gv & LL1 & LL2).
  pose proof (mirror_edges _ Hx) as EX. pose proof (mirror_edges _ Hy) as EY.
  split; [|split].
  - refine (nodes_near (s_n even) (s_rule even) _ _ GX GY k r G1 Vx' Vy' HGX HGY On Ni _ _ _ _ _ Hnv
      (doubled (length se) _ ue' uo') (doubled (length se) _ ve' vo') _ _ _ _ _ _ _ _ _ _ _ _ _ _ _ _).
    + rewrite F1. apply doubled_ort; auto.
    + rewrite F2. apply doubled_ort; auto.
    + apply sqrt_pos.
    + apply sqrt_pos.
    + apply sqrt_pos.
    + eapply Rle_trans; [exact Pe0|apply Rmax_l].
    + rewrite F1. apply doubled_diff; auto.
    + rewrite F2. apply doubled_diff; auto.
    + intros l Hll. unfold both. destruct (Nat.ltb_spec l (length se)).
      * destruct (Pel l ltac:(auto)) as [Q1 Q2]. split; [exact Q1|]. eapply Rle_trans; [exact Q2|apply Rmax_l].
      * destruct (Pol (l - length se)%nat ltac:(lia)) as [Q1 Q2]. split; [exact Q1|]. eapply Rle_trans; [exact Q2|apply Rmax_r].
    + rewrite F1, F2. apply (doubled_error (s_n even) (s_rule even) _ _ (s_gx even) (s_gy even) GX GY k G1 Hx Hy Gx1 Gy1 HGX HGY Cs).
      * fold ke. rewrite <- Ee. eapply Rle_trans; [|exact Ere]. right. apply sumn_ext. intros p _. apply sumn_ext. intros p' _. rewrite usv_ent. reflexivity.
      * fold ko. rewrite <- Eo. eapply Rle_trans; [|exact Ero]. right. apply sumn_ext. intros p _. apply sumn_ext. intros p' _. rewrite usv_ent. reflexivity.
    + rewrite !sumsq_sumn, <- (both_sum (length se) (length so)). apply sumn_ext. intros b _. unfold both, Rsqr. destruct (b <? length se)%nat; reflexivity.
  - destruct Hnv as (Q1 & Q2 & _ & Q4). apply (nearly_at_nodes (s_n even) (s_rule even) _ GX _ (length se + length so) (length (ss r)) _ _ _ G1 EX HGX Fu Ku Gu LL1 (fun l Hll => proj1 (Q1 l Hll)) Q2
      (fun l Hll => match Q4 l Hll with @ex_intro _ _ sg (conj C1 (conj C2 _)) => ex_intro _ sg (conj C1 C2) end)).
    intros b b0 Hb Hb0. rewrite F1. apply (doubled_gram (length se) (length so)); auto; try apply Nue.
    + intros l l' Hll Hll'. apply (gram_entry use (length se)); auto.
    + intros l l' Hll Hll'. apply (gram_entry uso (length so)); auto.
  - destruct Hnv as (Q1 & Q2 & _ & Q4). apply (nearly_at_nodes (s_n even) (s_rule even) _ GY _ (length se + length so) (length (ss r)) _ _ _ G1 EY HGY Fv Kv Gv LL2 (fun l Hll => proj1 (Q1 l Hll)) Q2
      (fun l Hll => match Q4 l Hll with @ex_intro _ _ sg (conj C1 (conj _ C2)) => ex_intro _ sg (conj C1 C2) end)).
    intros b b0 Hb Hb0. rewrite F2. apply (doubled_gram (length se) (length so)); auto; try apply Nve.
    + intros l l' Hll Hll'. apply (gram_entry vse (length se)); auto.
    + intros l l' Hll Hll'. apply (gram_entry vso (length so)); auto.
Qed.
End Centro.
End Compute.
