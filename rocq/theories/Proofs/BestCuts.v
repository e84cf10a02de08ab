(** Optimality of the truncations of the result of sve.compute. *)
From Coq Require Import String ZArith Arith Bool Reals Lra Lia Psatz.
From Coquelicot Require Import Coquelicot.
From Coq Require Import List Sorting.Sorted Sorting.Permutation.
From Verif.Model Require Import Base Util Num Gauss Poly SVE Kernel Compute.
From Verif.Spec Require Import SGauss SPoly SFT SSVE SBasis SKernel SCompute SSingular.
From Verif.Proofs Require Import BaseFacts SumFacts IntFacts GaussFacts GaussExact PPolyFacts SVEFacts BasisPhys KernelProps KernelSegs HintFacts ComputeNodes ComputePost ComputeSampling ComputeMerge ComputeMerged ComputeError ComputeFull SingularEq SingularCompute EckartYoung.
Import ListNotations.
Open Scope R_scope.
Notation length := List.length.

(** * What truncation keeps is above what it drops *)
Lemma cut_between (blocks out : list usv) rtol lmax : truncate blocks rtol lmax = Ok out -> exists c,
  forall i b b', nth_error blocks i = Some b -> nth_error out i = Some b' -> nonincreasing (svals b) ->
    Forall (fun x => c < x) (svals b') /\
    forall j, (length (svals b') <= j < length (svals b))%nat -> nth j (svals b) 0 <= c.
Proof.
  intros H. destruct (truncate_ok _ _ _ _ H) as (r & c & _ & _ & _ & _ & ->). exists c. intros i b b' Hb Hb' Hs.
  assert (b' = cut_block c b). { pose proof (map_nth_error (cut_block c) i blocks Hb) as E. apply (fun e => f_equal (fun o => match o with Some z => z | None => b' end) e) in E. rewrite <- E. etransitivity; [|reflexivity]. unfold usv in *. rewrite Hb'. reflexivity. }
  subst b'. unfold cut_block, svals in *. cbn [fst snd]. fold (bvals b) in *.
  assert (L : length (firstn (count_above c (bvals b)) (bvals b)) = count_above c (bvals b)) by (apply firstn_length_le, count_le).
  split.
  - apply Forall_forall. intros x Hx. apply (In_nth _ _ 0) in Hx as (j & Hj & <-). rewrite L in Hj. rewrite nth_firstn by auto.
    pose proof (count_le c (bvals b)). assert (E : nth_error (bvals b) j = Some (nth j (bvals b) 0)) by (apply nth_error_nth'; lia).
    apply (sorted_count_index c _ _ _ Hs E). exact Hj.
  - intros j Hj. rewrite L in Hj. assert (E : nth_error (bvals b) j = Some (nth j (bvals b) 0)) by (apply nth_error_nth'; lia).
    apply Rnot_lt_le. intros Hlt. apply (sorted_count_index c _ _ _ Hs E) in Hlt. lia.
Qed.

Lemma nonincreasing_nth l i j : nonincreasing l -> (i <= j)%nat -> (j < length l)%nat -> nth j l 0 <= nth i l 0.
Proof.
  intros H. revert i j. induction H as [|a l Hs IH Hf]; intros i j Hij Hj; [cbn in Hj; lia|].
  destruct i, j; cbn [nth]; try lra; try lia.
  - rewrite Forall_forall in Hf. apply Hf. apply nth_In. cbn in Hj. lia.
  - apply IH; cbn in *; lia.
Qed.

(** * From the remainder to optimality *)
Definition weights (g : rule) (p : nat) : R := nth p (rw g) 0.
Definition node (g : rule) (p : nat) : R := nth p (rx g) 0.
Definition at_nodes (k : R -> R -> R) (gx gy : rule) (p q : nat) : R := k (node gx p) (node gy q).
Definition col_at (p : vpoly) (g : rule) (l i : nat) : R := cval (vgeom p) (nth l (vcols p) col0) (node g i).

Definition small_remainder (gx gy : rule) (k : R -> R -> R) (r : sve_result) : Prop :=
  forall N z, (0 < N <= length (ss r))%nat ->
    (forall l, (l < N)%nat -> inn (length (rx gy)) (weights gy) (col_at (sv r) gy l) z = 0) ->
    inn (length (rx gx)) (weights gx) (app (length (rx gy)) (weights gy) (at_nodes k gx gy) z) (app (length (rx gy)) (weights gy) (at_nodes k gx gy) z) <=
    Rsqr (nth (N - 1) (ss r) 0) * inn (length (rx gy)) (weights gy) z z.

Lemma best_of n gx gy k r hx hy q : gauss_ok n q -> edges_ok hx -> edges_ok hy -> piecewise q hx = Ok gx -> piecewise q hy = Ok gy ->
  sve_on n hx hy r -> nth 0 hx 0 = -1 -> nth (length hx - 1) hx 0 = 1 -> nth 0 hy 0 = -1 -> nth (length hy - 1) hy 0 = 1 ->
  quad_orthonormal gx (su r) -> quad_orthonormal gy (sv r) -> singular_system gx gy k r ->
  nonincreasing (ss r) -> Forall (fun x => 0 < x) (ss r) -> small_remainder gx gy k r -> best_cuts gx gy k r.
Proof.
  intros Hq Hx Hy Ex Ey On X0 X1 Y0 Y1 Ou Ov Hs Hn Hp Hr N E HN HE a b.
  destruct (cut_error_of n gx gy k r hx hy q Hq Hx Hy Ex Ey On X0 X1 Y0 Y1 Ou Ov Hs N) as (E' & HE' & Err).
  pose proof (node_not_edge _ _ _ _ Hq Hx Ex) as Nx. pose proof (node_not_edge _ _ _ _ Hq Hy Ey) as Ny.
  rewrite X0, X1 in Nx. rewrite Y0, Y1 in Ny.
  destruct (node_lengths _ _ _ _ Hq Hx Ex) as [A1 A2]. destruct (node_lengths _ _ _ _ Hq Hy Ey) as [A3 A4].
  assert (Same : quad2 gx gy (fun x y => Rsqr (k x y - E x y)) = quad2 gx gy (fun x y => Rsqr (k x y - E' x y))).
  { rewrite !(quad2_sumn _ _ _ _ _ A1 A2 A3 A4). apply sumn_ext. intros p Hpp. apply sumn_ext. intros p' Hpp'. f_equal.
    destruct (Nx (nth p (rx gx) 0) ltac:(apply nth_In; lia)) as [_ B1]. destruct (Ny (nth p' (rx gy) 0) ltac:(apply nth_In; lia)) as [_ B2].
    set (x := nth p (rx gx) 0) in *. set (y := nth p' (rx gy) 0) in *.
    pose proof (HE x y ltac:(lra) ltac:(lra)) as V1. pose proof (HE' x y ltac:(lra) ltac:(lra)) as V2. rewrite V1 in V2. injection V2 as ->. reflexivity. }
  rewrite Same, Err. clear Same Err E' HE' HE.
  rewrite !(quad2_sumn _ _ _ _ _ A1 A2 A3 A4). rewrite sumsq_sumn.
  rewrite (sumn_ext (length (firstn N (ss r))) _ (fun l => nth l (ss r) 0 * nth l (ss r) 0)).
  2:{ intros i Hi. rewrite nth_firstn; [reflexivity|]. rewrite firstn_length in Hi. lia. }
  rewrite firstn_length, Nat.min_l by auto.
  set (nx := ((length hx - 1) * n)%nat) in *. set (ny := ((length hy - 1) * n)%nat) in *.
  destruct (Nat.eq_dec N 0) as [->|Hne].
  { cbn [sumn]. rewrite Rminus_0_r. right. apply sumn_ext. intros p _. apply sumn_ext. intros p' _. rewrite Rminus_0_r. reflexivity. }
  pose proof On as (Fu & Fv & Ku & Kv & Gu & Gv & L1 & L2).
  assert (RU : forall l, (l < length (ss r))%nat -> represents (su r) l (fun x => cval (vgeom (su r)) (nth l (vcols (su r)) col0) x)).
  { intros l Hl x Hx'. destruct Fu as (F1 & F2 & F3). apply value_cval; auto; try lia. apply nth_error_nth'. lia. }
  assert (RV : forall l, (l < length (ss r))%nat -> represents (sv r) l (fun x => cval (vgeom (sv r)) (nth l (vcols (sv r)) col0) x)).
  { intros l Hl x Hx'. destruct Fv as (F1 & F2 & F3). apply value_cval; auto; try lia. apply nth_error_nth'. lia. }
  assert (Pos : forall l, (l < length (ss r))%nat -> 0 < nth l (ss r) 0) by (intros l Hl; rewrite Forall_forall in Hp; apply Hp, nth_In; auto).
  unfold small_remainder in Hr. rewrite A1, A3 in Hr.
  apply (optimal nx ny (weights gx) (weights gy) (at_nodes k gx gy)) with (U := col_at (su r) gx) (V := col_at (sv r) gy) (sigma := nth (N - 1) (ss r) 0)
    (s := fun l => nth l (ss r) 0) (a := fun l p => a l (node gx p)) (b := fun l p => b l (node gy p)).
  - intros p Hpp. exact (weight_pos n q hx gx Hq Hx Ex p Hpp).
  - intros p Hpp. exact (weight_pos n q hy gy Hq Hy Ey p Hpp).
  - intros l m Hl Hm. pose proof (Ou l m _ _ (RU l ltac:(lia)) (RU m ltac:(lia))) as H. rewrite nth_quad in H by lia. rewrite A1 in H. exact H.
  - intros l m Hl Hm. pose proof (Ov l m _ _ (RV l ltac:(lia)) (RV m ltac:(lia))) as H. rewrite nth_quad in H by lia. rewrite A3 in H. exact H.
  - intros l p Hl Hpp. destruct (Hs l _ _ (RU l ltac:(lia)) (RV l ltac:(lia))) as [H _]. specialize (H (nth p (rx gx) 0) ltac:(apply nth_In; lia)).
    rewrite nth_quad in H by lia. rewrite A3 in H. exact H.
  - intros l p Hl Hpp. destruct (Hs l _ _ (RU l ltac:(lia)) (RV l ltac:(lia))) as [_ H]. specialize (H (nth p (rx gy) 0) ltac:(apply nth_In; lia)).
    rewrite nth_quad in H by lia. rewrite A1 in H. exact H.
  - left. apply Pos. lia.
  - intros l Hl. apply nonincreasing_nth; auto; lia.
  - intros z Hz. apply Hr; [lia|exact Hz].
Qed.

(** * Complete families *)
Lemma inn_scale n w c f g : inn n w (fun q => c * f q) g = c * inn n w f g.
Proof. unfold inn. rewrite <- sumn_scal. apply sumn_ext. intros; ring. Qed.

(** A family of functions on the nodes that decomposes the kernel. *)
Definition family (nx ny : nat) (wx wy : nat -> R) (k : nat -> nat -> R) (L : nat) (t : nat -> R) (X Y : nat -> nat -> R) : Prop :=
  orth nx wx L X /\ orth ny wy L Y /\
  forall p q, (p < nx)%nat -> (q < ny)%nat -> k p q = sumn L (fun a => t a * (X a p * Y a q)).

Section Block.
Variables (legendre : nat -> res rule) (K : skern) (eps : R) (ng : option nat) (S : ssve) (k : R -> R -> R) (b b' : usv) (kk : nat) (r : sve_result).
Hypothesis HS : sampling_init legendre K eps ng = Ok S.
Hypothesis Hr : gauss_ok (s_n S) (s_rule S).
Hypothesis Hx2 : (2 <= length (s_segs_x S))%nat.
Hypothesis Hy2 : (2 <= length (s_segs_y S))%nat.
Hypothesis Hb : exact_svd (length (rx (s_gx S))) (length (rx (s_gy S))) (weighted k (s_gx S) (s_gy S)) b.
Hypothesis Hk : prefix_of kk b b'.
Hypothesis Hp : sampling_post S b' = Ok (Some r).

Lemma block_family : exists X Y,
  family (length (rx (s_gx S))) (length (rx (s_gy S))) (weights (s_gx S)) (weights (s_gy S)) (at_nodes k (s_gx S) (s_gy S))
    (length (svals b)) (fun a => nth a (svals b) 0) X Y /\
  forall l, (l < length (ss r))%nat -> (l < length (svals b))%nat /\ nth l (ss r) 0 = nth l (svals b) 0 /\
    exists c, forall q, (q < length (rx (s_gy S)))%nat -> Y l q = c * col_at (sv r) (s_gy S) l q.
Proof.
  pose proof (prefix_facts _ _ _ _ _ _ _ _ _ r HS Hr Hx2 Hy2 (triples_of_exact _ _ _ _ Hb) Hk Hp) as PF.
  assert (We : forall p q, (p < length (rx (s_gx S)))%nat -> (q < length (rx (s_gy S)))%nat ->
     ment (weighted k (s_gx S) (s_gy S)) p q =
     k (nth p (rx (s_gx S)) 0) (nth q (rx (s_gy S)) 0) * sqrt (nth p (rw (s_gx S)) 0) * sqrt (nth q (rw (s_gy S)) 0)).
  { intros p q. apply (weighted_entry _ _ _ _ S k HS Hr Hx2 Hy2). }
  destruct b as [[us0 s0] vs0]. destruct Hb as (L1 & L2 & F1 & F2 & O1 & O2 & HA).
  destruct (sizes _ _ _ _ _ HS Hr Hx2 Hy2) as (N1 & N2 & N3 & N4). rewrite N1, N3 in *.
  assert (Wx : forall p, (p < (length (s_segs_x S) - 1) * s_n S)%nat -> 0 < sqrt (weights (s_gx S) p) /\ weights (s_gx S) p = sqrt (weights (s_gx S) p) * sqrt (weights (s_gx S) p)).
  { intros p Hpp. pose proof (weights_pos_x _ _ _ _ _ HS Hr Hx2 p Hpp) as P. split; [apply sqrt_lt_R0; exact P|]. symmetry. apply sqrt_sqrt. left. exact P. }
  assert (Wy : forall p, (p < (length (s_segs_y S) - 1) * s_n S)%nat -> 0 < sqrt (weights (s_gy S) p) /\ weights (s_gy S) p = sqrt (weights (s_gy S) p) * sqrt (weights (s_gy S) p)).
  { intros p Hpp. pose proof (weights_pos_y _ _ _ _ _ HS Hr Hy2 p Hpp) as P. split; [apply sqrt_lt_R0; exact P|]. symmetry. apply sqrt_sqrt. left. exact P. }
  rewrite Forall_forall in F1, F2. unfold svals. cbn [fst snd].
  exists (fun a p => nth p (nth a us0 []) 0 / sqrt (weights (s_gx S) p)), (fun a q => nth q (nth a vs0 []) 0 / sqrt (weights (s_gy S) q)).
  split; [split; [|split]|].
  - intros i j Hi Hj. rewrite <- (O1 i j) by lia. rewrite (dot_sumn _ _ ((length (s_segs_x S) - 1) * s_n S)) by (apply F1, nth_In; lia).
    apply sumn_ext. intros p Hpp. destruct (Wx p Hpp) as [P E]. rewrite E at 1. field. lra.
  - intros i j Hi Hj. rewrite <- (O2 i j) by lia. rewrite (dot_sumn _ _ ((length (s_segs_y S) - 1) * s_n S)) by (apply F2, nth_In; lia).
    apply sumn_ext. intros p Hpp. destruct (Wy p Hpp) as [P E]. rewrite E at 1. field. lra.
  - intros p q Hpp Hqq. destruct (Wx p Hpp) as [P1 _]. destruct (Wy q Hqq) as [P2 _].
    transitivity (ment (weighted k (s_gx S) (s_gy S)) p q * (/ sqrt (weights (s_gx S) p) * / sqrt (weights (s_gy S) q))).
    + rewrite We by auto. unfold at_nodes, node. fold (weights (s_gx S) p). fold (weights (s_gy S) q). field. lra.
    + rewrite HA by auto. rewrite <- sumn_scal_r. apply sumn_ext. intros a Ha. field. lra.
  - destruct b' as [[us s] vs]. destruct PF as (M1 & M2 & G1 & G2 & O3 & O4 & _ & Hn).
    destruct (post_struct _ _ _ _ _ HS Hr Hx2 Hy2 us s vs r M1 M2 Hp) as (Fu & Fv & Ku & Kv & Gu & Gv & E & _ & _ & sg & L & Fsg & Eu & Ev & _).
    destruct (pieces_eq _ _ _ _ _ HS) as [Ex Ey]. rewrite Forall_forall in G1, G2. intros l Hl. rewrite E in *.
    destruct (Hn l Hl) as (Hlk & Hl0 & U1 & V1 & S1). cbn [fst snd svals] in Hl0, U1, V1, S1. unfold svals in Hl0, S1. cbn [fst snd] in Hl0, S1.
    split; [exact Hl0|]. split; [exact S1|].
    destruct (sign_sqr sg l Fsg ltac:(lia)) as [C1 C2]. exists (nth l sg 0). intros q Hqq. rewrite <- V1.
    assert (Vv : col_at (sv r) (s_gy S) l q = nth l sg 0 * (nth q (nth l vs []) 0 / sqrt (weights (s_gy S) q))).
    { unfold col_at, node. rewrite Ev. rewrite (cval_map2_scale _ (fun c => c)) by lia. unfold vcol.
      rewrite (at_node _ _ _ _ Hr (edges_y _ _ _ _ _ HS Hy2) Ey (vgeom (sv r))) by (auto; try apply Fv; apply G2, nth_In; lia).
      reflexivity. }
    rewrite Vv. rewrite C2 in C1. rewrite <- Rmult_assoc, C1. ring.
Qed.
End Block.

(** One block: the remainder is small. *)
Lemma family_remainder nx ny gx gy k r L t X Y : length (rx gx) = nx -> length (rx gy) = ny ->
  (forall p, (p < nx)%nat -> 0 < weights gx p) -> (forall q, (q < ny)%nat -> 0 < weights gy q) ->
  family nx ny (weights gx) (weights gy) (at_nodes k gx gy) L t X Y ->
  (forall a, (a < L)%nat -> 0 <= t a) ->
  (forall N a, (0 < N <= length (ss r))%nat -> (a < L)%nat ->
     t a <= nth (N - 1) (ss r) 0 \/
     exists l c, (l < N)%nat /\ forall q, (q < ny)%nat -> Y a q = c * col_at (sv r) gy l q) ->
  small_remainder gx gy k r.
Proof.
  intros E1 E2 Wx Wy (HX & HY & Hk) Ht Ha N z HN Hz. rewrite E1, E2 in *.
  apply (remainder nx ny (weights gx) (weights gy) (at_nodes k gx gy) Wy L t X Y); auto.
  intros a HaL. destruct (Ha N a HN HaL) as [Hle|(l & c & Hl & Hc)].
  - right. specialize (Ht a HaL). apply Rsqr_incr_1; lra.
  - left. rewrite (inn_ext ny _ _ z (fun q => c * col_at (sv r) gy l q) z Hc (fun _ _ => eq_refl)). rewrite inn_scale, Hz by auto. ring.
Qed.

(** * Families on both halves *)
Section Doubled.
Variables (n : nat) (q : rule) (hx hy : list R) (gx gy GX GY : rule) (k : R -> R -> R).
Hypothesis Hq : gauss_ok n q.
Hypothesis Hhx : half_edges hx.
Hypothesis Hhy : half_edges hy.
Hypothesis Hgx : piecewise q hx = Ok gx.
Hypothesis Hgy : piecewise q hy = Ok gy.
Hypothesis HGX : piecewise q (mirrored hx) = Ok GX.
Hypothesis HGY : piecewise q (mirrored hy) = Ok GY.
Hypothesis Ck : forall x y, -1 <= x <= 1 -> -1 <= y <= 1 -> k (- x) (- y) = k x y.
Notation mx := ((length hx - 1) * n)%nat.
Notation my := ((length hy - 1) * n)%nat.
Variables (Le Lo : nat) (te to : nat -> R) (Xe Ye Xo Yo : nat -> nat -> R).
Hypothesis Fe : family mx my (weights gx) (weights gy) (at_nodes (fun x y => k x y + k x (- y)) gx gy) Le te Xe Ye.
Hypothesis Fo : family mx my (weights gx) (weights gy) (at_nodes (fun x y => k x y - k x (- y)) gx gy) Lo to Xo Yo.

Definition both {A} (e o : nat -> A) (i : nat) : A := if (i <? Le)%nat then e i else o (i - Le)%nat.
Definition doubled (m : nat) (e o : nat -> nat -> R) (i p : nat) : R :=
  / sqrt 2 * (if (p <? m)%nat then (if (i <? Le)%nat then 1 else -1) * both e o i (m - 1 - p)%nat else both e o i (p - m)%nat).

Lemma doubled_pos m e o i p : (p < m)%nat -> doubled m e o i (m + p) = / sqrt 2 * both e o i p.
Proof. intros Hp. unfold doubled. destruct (Nat.ltb_spec (m + p) m); [lia|]. replace (m + p - m)%nat with p by lia. reflexivity. Qed.
Lemma doubled_neg m e o i p : (p < m)%nat -> doubled m e o i (m - 1 - p) = / sqrt 2 * ((if (i <? Le)%nat then 1 else -1) * both e o i p).
Proof. intros Hp. unfold doubled. destruct (Nat.ltb_spec (m - 1 - p) m); [|lia]. replace (m - 1 - (m - 1 - p))%nat with p by lia. reflexivity. Qed.
Lemma half_sqr : / sqrt 2 * / sqrt 2 = / 2.
Proof. rewrite <- Rinv_mult. rewrite sqrt_sqrt by lra. reflexivity. Qed.

Lemma doubled_orth m g G e o : (forall p, (p < m)%nat -> nth (m + p) (rw G) 0 = nth p (rw g) 0) ->
  (forall p, (p < m)%nat -> nth (m - 1 - p) (rw G) 0 = nth p (rw g) 0) ->
  orth m (weights g) Le e -> orth m (weights g) Lo o -> orth (m + m) (weights G) (Le + Lo) (doubled m e o).
Proof.
  intros W1 W2 He Ho i j Hi Hj. unfold inn. rewrite sumn_app, (sumn_rev m), <- sumn_plus.
  rewrite (sumn_ext m _ (fun p => (if Bool.eqb (i <? Le)%nat (j <? Le)%nat then 1 else 0) * (weights g p * (both e o i p * both e o j p)))).
  - rewrite sumn_scal. unfold both. destruct (Nat.ltb_spec i Le) as [H1|H1], (Nat.ltb_spec j Le) as [H2|H2]; cbn [Bool.eqb].
    + pose proof (He i j H1 H2) as H. unfold inn in H. rewrite H. ring.
    + destruct (Nat.eqb_spec i j); [lia|ring].
    + destruct (Nat.eqb_spec i j); [lia|ring].
    + pose proof (Ho (i - Le) (j - Le) ltac:(lia) ltac:(lia))%nat as H. unfold inn in H. rewrite H.
      destruct (Nat.eqb_spec (i - Le) (j - Le)), (Nat.eqb_spec i j); try lia; ring.
  - intros p Hp. rewrite !doubled_pos, !doubled_neg by auto. unfold weights. rewrite W1, W2 by auto. fold (weights g p).
    match goal with |- ?l = _ => transitivity (/ sqrt 2 * / sqrt 2 * (weights g p * (both e o i p * both e o j p)) * (1 + (if (i <? Le)%nat then 1 else -1) * (if (j <? Le)%nat then 1 else -1))); [ring|] end.
    rewrite half_sqr. destruct (i <? Le)%nat, (j <? Le)%nat; cbn [Bool.eqb]; field.
Qed.

Lemma both_sum (F G : nat -> R) : sumn (Le + Lo) (both F G) = sumn Le F + sumn Lo G.
Proof.
  rewrite sumn_app. f_equal; apply sumn_ext; intros i Hi; unfold both.
  - destruct (Nat.ltb_spec i Le); [reflexivity|lia].
  - destruct (Nat.ltb_spec (Le + i) Le); [lia|]. f_equal. lia.
Qed.

Lemma index_cases m P : (P < m + m)%nat -> exists p, (p < m)%nat /\ (P = (m + p)%nat \/ P = (m - 1 - p)%nat).
Proof. intros HP. destruct (Nat.lt_ge_cases P m); [exists (m - 1 - P)%nat|exists (P - m)%nat]; lia. Qed.

Lemma doubled_family : family (mx + mx) (my + my) (weights GX) (weights GY) (at_nodes k GX GY) (Le + Lo) (both te to) (doubled mx Xe Xo) (doubled my Ye Yo).
Proof.
  destruct Fe as (A1 & A2 & A3). destruct Fo as (B1 & B2 & B3).
  pose proof (full_pos n q hx gx GX Hq Hhx Hgx HGX) as PX. pose proof (full_neg n q hx gx GX Hq Hhx Hgx HGX) as NX.
  pose proof (full_pos n q hy gy GY Hq Hhy Hgy HGY) as PY. pose proof (full_neg n q hy gy GY Hq Hhy Hgy HGY) as NY.
  split; [|split].
  - apply (doubled_orth mx gx GX); auto; intros p Hp; [apply PX|apply NX]; auto.
  - apply (doubled_orth my gy GY); auto; intros p Hp; [apply PY|apply NY]; auto.
  - intros P Q HP HQ. apply index_cases in HP as (p & Hp & HP). apply index_cases in HQ as (p' & Hp' & HQ).
    pose proof (A3 p p' Hp Hp') as E1. pose proof (B3 p p' Hp Hp') as E2.
    destruct (full_lengths n q hx gx GX Hq Hhx Hgx HGX) as (_ & _ & Lx & _). destruct (full_lengths n q hy gy GY Hq Hhy Hgy HGY) as (_ & _ & Ly & _).
    assert (Bx : 0 < node gx p < 1) by (apply (inside_x n hx Hhx q gx Hq Hgx); apply nth_In; lia).
    assert (By : 0 < node gy p' < 1) by (apply (inside_x n hy Hhy q gy Hq Hgy); apply nth_In; lia).
    destruct (PX p Hp) as [PX1 _]. destruct (NX p Hp) as [NX1 _]. destruct (PY p' Hp') as [PY1 _]. destruct (NY p' Hp') as [NY1 _].
    unfold at_nodes in *. fold (node gx p) in PX1, NX1. fold (node gy p') in PY1, NY1.
    fold (node GX (mx + p)) in PX1. fold (node GX (mx - 1 - p)) in NX1. fold (node GY (my + p')) in PY1. fold (node GY (my - 1 - p')) in NY1.
    set (x := node gx p) in *. set (y := node gy p') in *.
    assert (Hplus : sumn (Le + Lo) (both (fun a => te a * (Xe a p * Ye a p')) (fun a => to a * (Xo a p * Yo a p'))) = 2 * k x y) by (rewrite both_sum, <- E1, <- E2; ring).
    assert (Hminus : sumn (Le + Lo) (both (fun a => te a * (Xe a p * Ye a p')) (fun a => - (to a * (Xo a p * Yo a p')))) = 2 * k x (- y)).
    { rewrite both_sum, <- E1. rewrite (sumn_ext Lo _ (fun a => -1 * (to a * (Xo a p * Yo a p')))) by (intros; ring). rewrite sumn_scal, <- E2. ring. }
    destruct HP as [-> | ->], HQ as [-> | ->].
    + rewrite PX1, PY1. transitivity (/ 2 * (2 * k x y)); [field|]. rewrite <- Hplus, <- sumn_scal. apply sumn_ext. intros i Hi.
      rewrite !doubled_pos by auto. rewrite <- half_sqr. unfold both. destruct (i <? Le)%nat; ring.
    + rewrite PX1, NY1. transitivity (/ 2 * (2 * k x (- y))); [field|]. rewrite <- Hminus, <- sumn_scal. apply sumn_ext. intros i Hi.
      rewrite doubled_pos, doubled_neg by auto. rewrite <- half_sqr. unfold both. destruct (i <? Le)%nat; ring.
    + rewrite NX1, PY1. replace (k (- x) y) with (k x (- y)) by (rewrite <- (Ck x (- y)), Ropp_involutive by lra; reflexivity).
      transitivity (/ 2 * (2 * k x (- y))); [field|]. rewrite <- Hminus, <- sumn_scal. apply sumn_ext. intros i Hi.
      rewrite doubled_pos, doubled_neg by auto. rewrite <- half_sqr. unfold both. destruct (i <? Le)%nat; ring.
    + rewrite NX1, NY1, Ck by lra. transitivity (/ 2 * (2 * k x y)); [field|]. rewrite <- Hplus, <- sumn_scal. apply sumn_ext. intros i Hi.
      rewrite !doubled_neg by auto. rewrite <- half_sqr. unfold both. destruct (i <? Le)%nat; ring.
Qed.
End Doubled.

(** * The merged expansion *)
Section MergedRemainder.
Variables (argsort : list R -> list nat) (eps : R) (n : nat) (hx hy : list R) (even odd r : sve_result).
Hypothesis Hhx : half_edges hx.
Hypothesis Hhy : half_edges hy.
Hypothesis He : sve_on n hx hy even.
Hypothesis Ho : sve_on n hx hy odd.
Hypothesis Hsort : sorts (ss even ++ ss odd) (argsort (ss even ++ ss odd)).
Hypothesis Hm : merge argsort eps (mirrored hx) (mirrored hy) even odd = Ok r.
Variables (q gx gy GX GY : rule) (k : R -> R -> R).
Hypothesis Hq : gauss_ok n q.
Hypothesis Hgx : piecewise q hx = Ok gx.
Hypothesis Hgy : piecewise q hy = Ok gy.
Hypothesis HGX : piecewise q (mirrored hx) = Ok GX.
Hypothesis HGY : piecewise q (mirrored hy) = Ok GY.
Hypothesis Ck : forall x y, -1 <= x <= 1 -> -1 <= y <= 1 -> k (- x) (- y) = k x y.
Notation mx := ((length hx - 1) * n)%nat.
Notation my := ((length hy - 1) * n)%nat.
Variables (Le Lo : nat) (te to : nat -> R) (Xe Ye Xo Yo : nat -> nat -> R).
Hypothesis Fe : family mx my (weights gx) (weights gy) (at_nodes (fun x y => k x y + k x (- y)) gx gy) Le te Xe Ye.
Hypothesis Fo : family mx my (weights gx) (weights gy) (at_nodes (fun x y => k x y - k x (- y)) gx gy) Lo to Xo Yo.
Hypothesis Pe : forall a, (a < Le)%nat -> 0 <= te a.
Hypothesis Po : forall a, (a < Lo)%nat -> 0 <= to a.
Hypothesis Ke : forall l, (l < length (ss even))%nat -> nth l (ss even) 0 = te l /\ exists c, forall p, (p < my)%nat -> Ye l p = c * col_at (sv even) gy l p.
Hypothesis Ko : forall l, (l < length (ss odd))%nat -> nth l (ss odd) 0 = to l /\ exists c, forall p, (p < my)%nat -> Yo l p = c * col_at (sv odd) gy l p.
Hypothesis Le_ge : (length (ss even) <= Le)%nat.
Hypothesis De : forall a x, (length (ss even) <= a < Le)%nat -> In x (ss r) -> te a <= x.
Hypothesis Do : forall a x, (length (ss odd) <= a < Lo)%nat -> In x (ss r) -> to a <= x.

Lemma right_at l i p : (l < length (ss even) + length (ss odd))%nat -> i = nth l (rev (argsort (ss even ++ ss odd))) 0%nat -> (p < my)%nat ->
  col_at (sv r) GY l (my + p) = / sqrt 2 * cval (vgeom (sv even)) (mv even odd i) (node gy p) /\
  col_at (sv r) GY l (my - 1 - p) = / sqrt 2 * (sgn even i * cval (vgeom (sv even)) (mv even odd i) (node gy p)).
Proof.
  intros Hl Hi Hp.
  destruct (merged argsort eps n hx hy even odd Hhx Hhy He Ho Hsort r Hm) as (Fu & Fv & K1 & K2 & L1 & L2 & _ & Es & _ & _).
  destruct (zero_v n hx hy even Hhy He) as (Z4 & Z5 & Z6). pose proof He as (_ & Fe' & _ & Kv' & _).
  destruct (full_pos n q hy gy GY Hq Hhy Hgy HGY p Hp) as [PY _]. destruct (full_neg n q hy gy GY Hq Hhy Hgy HGY p Hp) as [NY _].
  destruct (full_lengths n q hy gy GY Hq Hhy Hgy HGY) as (_ & _ & Ly & _).
  destruct (inside_x n hy Hhy q gy Hq Hgy (node gy p)) as [Ny By]; [apply nth_In; lia|].
  unfold col_at. unfold node at 1 3. rewrite PY, NY. fold (node gy p).
  rewrite (col_v argsort eps n hx hy even odd Hhx Hhy He Ho Hsort r Hm l Hl). cbv zeta. rewrite <- Hi.
  destruct (mirror_node (vgeom (sv even)) (vgeom (sv r)) (sgn even i) (sgn even i) (mv even odd i) (node gy p)) as [E1 E2]; auto; try apply Fe'; try apply Fv.
  { rewrite Kv'. exact Ny. }
  rewrite E1, E2. split; field; apply Rgt_not_eq, sqrt_lt_R0; lra.
Qed.

Lemma merged_remainder : small_remainder GX GY k r.
Proof.
  destruct (full_lengths n q hx gx GX Hq Hhx Hgx HGX) as (LX & _). destruct (full_lengths n q hy gy GY Hq Hhy Hgy HGY) as (LY & _).
  pose proof (mirrored_length hx Hhx) as MX. pose proof (mirrored_length hy Hhy) as MY.
  destruct (lens argsort eps n hx hy even odd Hhx Hhy He Ho Hsort r Hm) as (Ls & _).
  destruct (merged_sorted argsort eps n hx hy even odd Hhx Hhy He Ho Hsort r Hm) as [Ni _].
  destruct (merged argsort eps n hx hy even odd Hhx Hhy He Ho Hsort r Hm) as (_ & _ & _ & _ & _ & _ & _ & Es & _).
  pose proof He as (_ & _ & _ & _ & _ & _ & _ & Lve). pose proof Ho as (_ & _ & _ & _ & _ & _ & _ & Lvo).
  assert (Sl : forall l, (l < length (ss even) + length (ss odd))%nat -> nth l (ss r) 0 = nth (nth l (rev (argsort (ss even ++ ss odd))) 0%nat) (ss even ++ ss odd) 0).
  { intros l Hl. rewrite Es, (nth_map_in _ _ _ 0%nat); [reflexivity|]. rewrite (sort_len argsort even odd Hsort). exact Hl. }
  assert (Found : forall i, (i < length (ss even) + length (ss odd))%nat -> exists l, (l < length (ss even) + length (ss odd))%nat /\ i = nth l (rev (argsort (ss even ++ ss odd))) 0%nat).
  { intros i Hi. assert (Hin : In i (rev (argsort (ss even ++ ss odd)))).
    { eapply Permutation_in; [symmetry; apply (sort_perm argsort even odd Hsort)|]. apply in_seq. lia. }
    apply (In_nth _ _ 0%nat) in Hin as (l & Hl & E). rewrite (sort_len argsort even odd Hsort) in Hl. eauto. }
  apply (family_remainder (mx + mx) (my + my) GX GY k r (Le + Lo) (both Le te to) (doubled Le mx Xe Xo) (doubled Le my Ye Yo)); auto.
  - intros p Hp. apply (weight_pos n q (mirrored hx) GX Hq (mirror_edges hx Hhx) HGX). rewrite MX. replace (S (2 * (length hx - 1)) - 1)%nat with (2 * (length hx - 1))%nat by lia. lia.
  - intros p Hp. apply (weight_pos n q (mirrored hy) GY Hq (mirror_edges hy Hhy) HGY). rewrite MY. replace (S (2 * (length hy - 1)) - 1)%nat with (2 * (length hy - 1))%nat by lia. lia.
  - exact (doubled_family n q hx hy gx gy GX GY k Hq Hhx Hhy Hgx Hgy HGX HGY Ck Le Lo te to Xe Ye Xo Yo Fe Fo).
  - intros a Ha. unfold both. destruct (Nat.ltb_spec a Le); [apply Pe; auto|apply Po; lia].
  - intros N a HN Ha. unfold both at 1. destruct (Nat.ltb_spec a Le) as [Hae|Hao].
    + destruct (Nat.lt_ge_cases a (length (ss even))) as [Hk|Hd]; [|left; apply De; [lia|apply nth_In; lia]].
      destruct (Found a ltac:(lia)) as (l & Hl & El). destruct (Ke a Hk) as [Et [c Hc]].
      destruct (Nat.lt_ge_cases l N) as [HlN|HlN].
      * right. exists l, c. split; [exact HlN|]. intros Q HQ. apply index_cases in HQ as (p & Hp & HQ).
        destruct (right_at l a p Hl El Hp) as [R1 R2].
        assert (Em : cval (vgeom (sv even)) (mv even odd a) (node gy p) = col_at (sv even) gy a p) by (unfold mv; rewrite app_nth1 by lia; reflexivity).
        assert (Es' : sgn even a = 1) by (unfold sgn; destruct (Nat.ltb_spec a (length (ss even))); [reflexivity|lia]).
        assert (Eb : both Le Ye Yo a = Ye a) by (unfold both; destruct (Nat.ltb_spec a Le); [reflexivity|lia]).
        destruct HQ as [-> | ->].
        -- rewrite R1, doubled_pos, Eb, Hc, Em by auto. ring.
        -- rewrite R2, doubled_neg, Eb, Hc, Em, Es' by auto. destruct (Nat.ltb_spec a Le); [ring|lia].
      * left. rewrite <- Et. replace (nth a (ss even) 0) with (nth l (ss r) 0); [apply nonincreasing_nth; auto; lia|].
        rewrite Sl by auto. rewrite <- El, app_nth1 by auto. reflexivity.
    + destruct (Nat.lt_ge_cases (a - Le) (length (ss odd))) as [Hk|Hd]; [|left; apply Do; [lia|apply nth_In; lia]].
      destruct (Found (length (ss even) + (a - Le))%nat ltac:(lia)) as (l & Hl & El). destruct (Ko (a - Le) Hk)%nat as [Et [c Hc]].
      destruct (Nat.lt_ge_cases l N) as [HlN|HlN].
      * right. exists l, c. split; [exact HlN|]. intros Q HQ. apply index_cases in HQ as (p & Hp & HQ).
        destruct (right_at l _ p Hl El Hp) as [R1 R2].
        destruct (same_geoms n hx hy even odd He Ho) as [_ Sg].
        assert (Em : cval (vgeom (sv even)) (mv even odd (length (ss even) + (a - Le))) (node gy p) = col_at (sv odd) gy (a - Le) p).
        { unfold mv. rewrite app_nth2 by lia. rewrite Lve, <- Sg. unfold col_at. f_equal. f_equal. lia. }
        assert (Es' : sgn even (length (ss even) + (a - Le)) = -1) by (unfold sgn; destruct (Nat.ltb_spec (length (ss even) + (a - Le)) (length (ss even))); [lia|reflexivity]).
        assert (Eb : both Le Ye Yo a = Yo (a - Le)%nat) by (unfold both; destruct (Nat.ltb_spec a Le); [lia|reflexivity]).
        destruct HQ as [-> | ->].
        -- rewrite R1, doubled_pos, Eb, Hc, Em by auto. ring.
        -- rewrite R2, doubled_neg, Eb, Hc, Em, Es' by auto. destruct (Nat.ltb_spec a Le); [lia|ring].
      * left. rewrite <- Et. replace (nth (a - Le) (ss odd) 0) with (nth l (ss r) 0); [apply nonincreasing_nth; auto; lia|].
        rewrite Sl by auto. rewrite <- El, app_nth2 by lia. f_equal. lia.
Qed.
End MergedRemainder.

(** * compute *)
Section Compute.
Variables (have_xprec have_gejsv : bool) (dd : R) (f : tfun).
Variable legendre : dtype -> nat -> res rule.
Variable run : svd_alg -> matrix -> Z -> usv.
Variable argsort : list R -> list nat.
Notation compute := (compute have_xprec have_gejsv dd f legendre run argsort).
Hypothesis Hleg : good_rules legendre.
Hypothesis Hsort : forall s, sorts s (argsort s).

Section Centro.
Variables (K : kernel) (eps cutoff : option xr) (n_sv : option pynum) (ng : option nat) (work : option dtype) (st : option strat) (svds : option string) (r : sve_result).
Hypothesis Hc : compute K eps cutoff n_sv ng work st svds = Ok (Some r).
Hypothesis Hst : st <> Some SampleStrat.

(** The decompositions may be those of the values of another centrosymmetric function. *)
Lemma best_centro_of : exists t n q gx gy GX GY alge he algo ho Ae Ao,
    legendre t n = Ok q /\ (forall m, ng = Some m -> n = m) /\
    piecewise q (half (segments_x K)) = Ok gx /\ piecewise q (half (segments_y K)) = Ok gy /\
    piecewise q (segments_x K) = Ok GX /\ piecewise q (segments_y K) = Ok GY /\
    (forall k, tfun_ok f -> 0 < k_lambda K -> (forall x y, -1 <= x <= 1 -> -1 <= y <= 1 -> has_value f K x y (k x y)) ->
       Ae = weighted (fun x y => k x y + k x (- y)) gx gy /\ Ao = weighted (fun x y => k x y - k x (- y)) gx gy /\
       forall x y, -1 <= x <= 1 -> -1 <= y <= 1 -> k (- x) (- y) = k x y) /\
    (forall safe t' strategy w, safe_eps have_xprec dd eps work svds = (safe, t', strategy, w) -> t' = t /\ n = match ng with None => hint_ngauss safe | Some m => m end /\
       (forall Ke even, get_symmetrized K 1 = Ok Ke -> sampling_init (legendre t') (reduced_kern f Ke safe) safe ng = Ok even -> sampling_matrix even = Ok Ae) /\
       (forall Ko odd, get_symmetrized K (-1) = Ok Ko -> sampling_init (legendre t') (reduced_kern f Ko safe) safe ng = Ok odd -> sampling_matrix odd = Ok Ao)) /\
    forall k, (forall x y, -1 <= x <= 1 -> -1 <= y <= 1 -> k (- x) (- y) = k x y) ->
    exact_svd (length (rx gx)) (length (rx gy)) (weighted (fun x y => k x y + k x (- y)) gx gy) (run alge Ae he) ->
    exact_svd (length (rx gx)) (length (rx gy)) (weighted (fun x y => k x y - k x (- y)) gx gy) (run algo Ao ho) ->
    nonincreasing (svals (run alge Ae he)) -> nonincreasing (svals (run algo Ao ho)) ->
    Forall (fun x => 0 <= x) (svals (run alge Ae he)) -> Forall (fun x => 0 <= x) (svals (run algo Ao ho)) ->
    cut_errors GX GY k r /\ best_cuts GX GY k r.
Proof.
  destruct (compute_centro_inv _ _ _ _ _ _ _ _ _ _ _ _ _ _ _ _ Hc Hst) as
    (t & safe & Ke & Ko & even & odd & Ae & Ao & alge & he & algo & ho & rtol & be' & bo' & re & ro & HKe & HKo & Se & So & Me & Mo & Hrt & Ht & Pe & Po & Hm & Qe & Qo & strategy & wn & Hsafe).
  destruct (reduced_segs _ _ Hleg _ _ _ _ _ _ _ HKe Se) as (X1 & Y1 & Hx & Hy & Mx & My & L1 & G1 & D1 & Gx1 & Gy1 & M1 & E1 & N1).
  destruct (reduced_segs _ _ Hleg _ _ _ _ _ _ _ HKo So) as (X2 & Y2 & _ & _ & _ & _ & L2 & G2 & D2 & Gx2 & Gy2 & M2 & E2 & N2).
  assert (Nn : s_n odd = s_n even) by congruence.
  assert (Rr : s_rule odd = s_rule even). { rewrite Nn in L2. rewrite L1 in L2. congruence. }
  assert (Gx : s_gx odd = s_gx even). { rewrite Rr, Gx1 in Gx2. congruence. }
  assert (Gy : s_gy odd = s_gy even). { rewrite Rr, Gy1 in Gy2. congruence. }
  destruct (piecewise_defined _ _ _ _ G1 (proj1 Hx) Gx1 Hx) as [GX HGX]. destruct (piecewise_defined _ _ _ _ G1 (proj1 Hy) Gy1 Hy) as [GY HGY].
  exists t, (s_n even), (s_rule even), (s_gx even), (s_gy even), GX, GY, alge, he, algo, ho, Ae, Ao.
  split; [exact L1|]. split; [intros m ->; exact N1|]. split; [exact Gx1|]. split; [exact Gy1|].
  split; [rewrite <- Mx; exact HGX|]. split; [rewrite <- My; exact HGY|]. split.
  { intros k Hf Hl Hk.
    pose (ke := fun x y => k x y + k x (- y)). pose (ko := fun x y => k x y - k x (- y)).
    change (fun x y => k x y + k x (- y)) with ke. change (fun x y => k x y - k x (- y)) with ko.
    assert (We : weighted (fun x y => k x y + 1 * k x (- y)) (s_gx even) (s_gy even) = weighted ke (s_gx even) (s_gy even)).
    { unfold weighted. apply map2_ext. intros x w. apply map2_ext. intros y v. unfold ke. ring. }
    assert (Wo : weighted (fun x y => k x y + -1 * k x (- y)) (s_gx even) (s_gy even) = weighted ko (s_gx even) (s_gy even)).
    { unfold weighted. apply map2_ext. intros x w. apply map2_ext. intros y v. unfold ko. ring. }
    assert (Ee : Ae = weighted ke (s_gx even) (s_gy even)).
    { rewrite (matrix_weighted even (fun x y => k x y + 1 * k x (- y))) in Me.
      - rewrite We in Me. congruence.
      - rewrite M1. exact (reduced_sampled f K k 1 Ke _ _ _ _ _ _ Hf Hl Hk HKe G1 D1 Hx Hy Gx1 Gy1). }
    assert (Eo : Ao = weighted ko (s_gx even) (s_gy even)).
    { rewrite (matrix_weighted odd (fun x y => k x y + -1 * k x (- y))) in Mo.
      - rewrite Gx, Gy, Wo in Mo. congruence.
      - rewrite M2. exact (reduced_sampled f K k (-1) Ko _ _ _ _ _ _ Hf Hl Hk HKo G2 D2 Hx Hy Gx2 Gy2). }
    split; [exact Ee|]. split; [exact Eo|].
    intros x' y' Hx' Hy'. pose proof (Hk x' y' Hx' Hy') as Va. apply (centrosymmetric f K x' y' _ Hf Hl) in Va.
    pose proof (Hk (- x') (- y') ltac:(lra) ltac:(lra)) as Vb. unfold has_value in Va, Vb. rewrite Va in Vb. injection Vb as Vb. auto. }
  split.
  { intros safe' t' strategy' w' Hs'. rewrite Hs' in Hsafe. injection Hsafe as -> -> _ _. split; [reflexivity|]. split; [exact N1|]. split; intros K' S' HK' HS'; congruence. }
  intros k Cs.
  pose (ke := fun x y => k x y + k x (- y)). pose (ko := fun x y => k x y - k x (- y)).
  change (fun x y => k x y + k x (- y)) with ke. change (fun x y => k x y - k x (- y)) with ko.
  intros Xse Xso Ne No Ge Go.
  pose proof (triples_of_exact _ _ _ _ Xse) as Hse. pose proof (triples_of_exact _ _ _ _ Xso) as Hso.
  destruct (truncate2 _ _ _ _ _ _ Ht) as (i & j & Pi & Pj).
  assert (Lx : (2 <= length (s_segs_x even))%nat) by (rewrite X1; apply Hx).
  assert (Ly : (2 <= length (s_segs_y even))%nat) by (rewrite Y1; apply Hy).
  assert (Lx' : (2 <= length (s_segs_x odd))%nat) by (rewrite X2; apply Hx).
  assert (Ly' : (2 <= length (s_segs_y odd))%nat) by (rewrite Y2; apply Hy).
  assert (Hso3 : singular_triples (length (rx (s_gx odd))) (length (rx (s_gy odd))) (weighted ko (s_gx odd) (s_gy odd)) (run algo Ao ho)) by (rewrite Gx, Gy; exact Hso).
  destruct (block_on _ _ _ _ even ke _ be' i re Se G1 Lx Ly Hse Pi Pe) as (S1 & On1 & Ou1 & Ov1 & _ & P1).
  destruct (block_on _ _ _ _ odd ko _ bo' j ro So G2 Lx' Ly' Hso3 Pj Po) as (S2 & On2 & Ou2 & Ov2 & _ & P2).
  assert (Q1 : equations (s_gx even) (s_gy even) re ke) by (intros l Hll; exact (block_equations _ _ _ _ even ke _ be' i re Se G1 Lx Ly Hse Pi Pe l Hll)).
  assert (Q2 : equations (s_gx even) (s_gy even) ro ko).
  { rewrite <- Gx, <- Gy. intros l Hll; exact (block_equations _ _ _ _ odd ko _ bo' j ro So G2 Lx' Ly' Hso3 Pj Po l Hll). }
  rewrite X1, Y1 in On1. rewrite X2, Y2, Nn in On2.
  rewrite <- Mx, <- My in Hm. pose proof (Hsort (ss re ++ ss ro)) as Hs.
  pose proof (merged_orthonormal_u argsort safe (s_n even) _ _ re ro Hx Hy On1 On2 Hs r Hm Ou1 Ou2) as OU.
  pose proof (merged_orthonormal_v argsort safe (s_n even) _ _ re ro Hx Hy On1 On2 Hs r Hm Ov1 Ov2) as OV.
  assert (Sys : singular_system GX GY k r).
  { intros l u v. exact (merged_equations argsort safe (s_n even) _ _ re ro r Hx Hy On1 On2 Hs Hm _ _ _ _ _ k G1 Gx1 Gy1 HGX HGY Cs Q1 Q2 l u v). }
  assert (On : sve_on (s_n even) (mirrored (half (segments_x K))) (mirrored (half (segments_y K))) r).
  { destruct (merged argsort safe (s_n even) _ _ re ro Hx Hy On1 On2 Hs r Hm) as (Fu & Fv & K1 & K2 & Gl1 & Gl2 & _).
    destruct (lens argsort safe (s_n even) _ _ re ro Hx Hy On1 On2 Hs r Hm) as (Ls & Lu & Lv).
    pose proof On1 as (_ & _ & A3 & A4 & A5 & A6 & _). repeat split; try congruence; try apply Fu; try apply Fv. }
  pose proof On as (Fu & Fv & Ku & Kv & Gu & Gv & _).
  pose proof (mirror_edges _ Hx) as EX. pose proof (mirror_edges _ Hy) as EY.
  pose proof (ortho_at_nodes _ _ _ _ _ G1 EX HGX Fu Ku Gu OU) as QU. pose proof (ortho_at_nodes _ _ _ _ _ G1 EY HGY Fv Kv Gv OV) as QV.
  destruct (segments_valid K) as [Vx Vy]. destruct (full_edges _ Vx) as (_ & XX0 & XX1 & _). destruct (full_edges _ Vy) as (_ & YY0 & YY1 & _).
  set (bev := run alge Ae he) in *. set (bod := run algo Ao ho) in *.
  assert (Xso3 : exact_svd (length (rx (s_gx odd))) (length (rx (s_gy odd))) (weighted ko (s_gx odd) (s_gy odd)) bod) by (rewrite Gx, Gy; exact Xso).
  destruct (block_family _ _ _ _ even ke _ be' i re Se G1 Lx Ly Xse Pi Pe) as (Xe & Ye & Fe & Ce).
  destruct (block_family _ _ _ _ odd ko _ bo' j ro So G2 Lx' Ly' Xso3 Pj Po) as (Xo & Yo & Fo & Co). rewrite Gx, Gy in Fo. rewrite Gy in Co.
  destruct (sizes _ _ _ _ _ Se G1 Lx Ly) as (Z1 & Z2 & Z3 & Z4). rewrite X1 in Z1. rewrite Y1 in Z3. rewrite Z1, Z3 in *.
  destruct (merged_sorted argsort safe (s_n even) _ _ re ro Hx Hy On1 On2 Hs r Hm) as [Ni Perm].
  assert (Hns : Forall (fun b : usv => nonincreasing (svals b) /\ Forall (fun x => 0 <= x) (svals b)) [bev; bod]) by auto.
  pose proof (kept_positive _ _ _ _ 0 _ be' i Ht Hns eq_refl eq_refl Pi) as Ke'.
  pose proof (kept_positive _ _ _ _ 1 _ bo' j Ht Hns eq_refl eq_refl Pj) as Ko'.
  destruct (cut_between _ _ _ _ Ht) as (c & Hcut).
  destruct (Hcut 0%nat bev be' eq_refl eq_refl Ne) as [Ka Kb]. destruct (Hcut 1%nat bod bo' eq_refl eq_refl No) as [Kc Kd].
  assert (Above : forall x, In x (ss r) -> c < x).
  { intros x Hxi. eapply Permutation_in in Hxi; [|exact Perm]. apply in_app_iff in Hxi. rewrite S1, S2 in Hxi. rewrite Forall_forall in Ka, Kc. destruct Hxi; auto. }
  split; [apply (cut_error_of (s_n even) GX GY k r _ _ _ G1 EX EY HGX HGY On); rewrite ?Mx, ?My; auto|].
  apply (best_of (s_n even) GX GY k r _ _ _ G1 EX EY HGX HGY On); rewrite ?Mx, ?My; auto.
  - apply (Permutation_Forall (Permutation_sym Perm)). rewrite S1, S2. apply Forall_app. auto.
  - apply (merged_remainder argsort safe (s_n even) _ _ re ro r Hx Hy On1 On2 Hs Hm (s_rule even) (s_gx even) (s_gy even) GX GY k G1 Gx1 Gy1 HGX HGY Cs
      (length (svals bev)) (length (svals bod)) (fun a => nth a (svals bev) 0) (fun a => nth a (svals bod) 0) Xe Ye Xo Yo Fe Fo).
    + intros a Ha. rewrite Forall_forall in Ge. apply Ge, nth_In, Ha.
    + intros a Ha. rewrite Forall_forall in Go. apply Go, nth_In, Ha.
    + intros l Hll. destruct (Ce l Hll) as (_ & E & C). auto.
    + intros l Hll. destruct (Co l Hll) as (_ & E & C). auto.
    + destruct (Nat.le_gt_cases (length (ss re)) (length (svals bev))) as [|H]; auto. destruct (Ce (length (svals bev)) H). lia.
    + intros a x Ha Hxi. rewrite S1 in Ha. specialize (Kb a Ha). specialize (Above x Hxi). lra.
    + intros a x Ha Hxi. rewrite S2 in Ha. specialize (Kd a Ha). specialize (Above x Hxi). lra.
Qed.

Lemma best_centro k : tfun_ok f -> 0 < k_lambda K ->
  (forall x y, -1 <= x <= 1 -> -1 <= y <= 1 -> has_value f K x y (k x y)) ->
  exists t n q gx gy GX GY alge he algo ho,
    legendre t n = Ok q /\ (forall m, ng = Some m -> n = m) /\
    piecewise q (half (segments_x K)) = Ok gx /\ piecewise q (half (segments_y K)) = Ok gy /\
    piecewise q (segments_x K) = Ok GX /\ piecewise q (segments_y K) = Ok GY /\
    let Ae := weighted (fun x y => k x y + k x (- y)) gx gy in
    let Ao := weighted (fun x y => k x y - k x (- y)) gx gy in
    let even := run alge Ae he in
    let odd := run algo Ao ho in
    exact_svd (length (rx gx)) (length (rx gy)) Ae even -> exact_svd (length (rx gx)) (length (rx gy)) Ao odd ->
    nonincreasing (svals even) -> nonincreasing (svals odd) ->
    Forall (fun x => 0 <= x) (svals even) -> Forall (fun x => 0 <= x) (svals odd) ->
    best_cuts GX GY k r.
Proof.
  intros Hf Hl Hk. destruct best_centro_of as (t & n & q & gx & gy & GX & GY & alge & he & algo & ho & Ae & Ao & H1 & H2 & H3 & H4 & H5 & H6 & H7 & _ & H8).
  exists t, n, q, gx, gy, GX, GY, alge, he, algo, ho. repeat (split; [assumption|]). destruct (H7 k Hf Hl Hk) as (-> & -> & Cs).
  intros xe xo even odd E1 E2 E3 E4 E5 E6. apply (H8 k Cs E1 E2 E3 E4 E5 E6).
Qed.
End Centro.

Section Sample.
Variables (K : kernel) (eps cutoff : option xr) (n_sv : option pynum) (ng : option nat) (work : option dtype) (svds : option string) (r : sve_result).
Hypothesis Hc : compute K eps cutoff n_sv ng work (Some SampleStrat) svds = Ok (Some r).

Lemma best_sample_of : exists t n q GX GY alg h A,
    legendre t n = Ok q /\ (forall m, ng = Some m -> n = m) /\ piecewise q (segments_x K) = Ok GX /\ piecewise q (segments_y K) = Ok GY /\
    (forall k, (forall x y, -1 <= x <= 1 -> -1 <= y <= 1 -> has_value f K x y (k x y)) -> A = weighted k GX GY) /\
    (forall safe t' strategy w, safe_eps have_xprec dd eps work svds = (safe, t', strategy, w) -> t' = t /\ n = match ng with None => hint_ngauss safe | Some m => m end /\
       forall S, sampling_init (legendre t') (full_kern f K safe) safe ng = Ok S -> sampling_matrix S = Ok A) /\
    forall k, exact_svd (length (rx GX)) (length (rx GY)) (weighted k GX GY) (run alg A h) ->
    nonincreasing (svals (run alg A h)) -> Forall (fun x => 0 <= x) (svals (run alg A h)) -> cut_errors GX GY k r /\ best_cuts GX GY k r.
Proof.
  destruct (compute_sample_inv _ _ _ _ _ _ _ _ _ _ _ _ _ _ _ Hc) as (t & safe & S & A & alg & h & rtol & b' & HS & HA & Hrt & Ht & Hp & Qp & strategy & wn & Hsafe).
  destruct (full_segs _ _ Hleg _ _ _ _ _ HS) as (X & Y & Ex & Ey & L & G & D & Px & Py & M & Es & N).
  exists t, (s_n S), (s_rule S), (s_gx S), (s_gy S), alg, h, A. split; [exact L|]. split; [intros m ->; exact N|]. split; [exact Px|]. split; [exact Py|].
  split.
  { intros k Hk. rewrite (matrix_weighted S k) in HA by (rewrite M; exact (full_sampled f K k _ _ _ _ Hk G D Px Py)). congruence. }
  split.
  { intros safe' t' strategy' w' Hs'. rewrite Hs' in Hsafe. injection Hsafe as -> -> _ _. split; [reflexivity|]. split; [exact N|]. intros S' HS'; congruence. }
  intros k Xs Nb Gb. pose proof (triples_of_exact _ _ _ _ Xs) as Hs. destruct (truncate1 _ _ _ _ Ht) as (i & Pi).
  assert (Lx : (2 <= length (s_segs_x S))%nat) by (rewrite X; apply Ex).
  assert (Ly : (2 <= length (s_segs_y S))%nat) by (rewrite Y; apply Ey).
  destruct (block_on _ _ _ _ S k _ b' i r HS G Lx Ly Hs Pi Hp) as (Sr & On & Ou & Ov & _ & P).
  rewrite X, Y in On. pose proof On as (Fu & Fv & Ku & Kv & Gu & Gv & L1 & L2).
  destruct (segments_valid K) as [Vx Vy]. destruct (full_edges _ Vx) as (_ & X0 & X1 & X2 & X3). destruct (full_edges _ Vy) as (_ & Y0 & Y1 & Y2 & Y3).
  assert (Sys : singular_system (s_gx S) (s_gy S) k r).
  { intros l u v Ru Rv. destruct Fu as (F1 & F2 & F3). destruct Fv as (F4 & F5 & F6).
    destruct (on_range _ _ _ _ On) as (U1 & U2 & U3 & U4). rewrite X2 in U1. rewrite X3 in U2. rewrite Y2 in U3. rewrite Y3 in U4.
    pose proof (in_cols _ _ _ 1 F1 ltac:(lra) Ru) as Hl.
    apply represents_cval in Ru as (cu & Eu & Hu); auto; try lia. apply represents_cval in Rv as (cv & Ev & Hv); auto; try lia.
    apply (nth_error_nth _ _ col0) in Eu, Ev.
    destruct (block_equations _ _ _ _ S k _ b' i r HS G Lx Ly Hs Pi Hp l ltac:(lia)) as [B1 B2]. rewrite Eu, Ev in B1, B2.
    pose proof (node_not_edge _ _ _ _ G Ex Px) as Nx. pose proof (node_not_edge _ _ _ _ G Ey Py) as Ny.
    rewrite X0, X1 in Nx. rewrite Y0, Y1 in Ny. split.
    - intros x Hx. rewrite <- Hu by (rewrite U1, U2; destruct (Nx x Hx); lra). rewrite <- B1 by auto. apply quad_ext. intros y Hy. rewrite Hv by (rewrite U3, U4; destruct (Ny y Hy); lra). reflexivity.
    - intros y Hy. rewrite <- Hv by (rewrite U3, U4; destruct (Ny y Hy); lra). rewrite <- B2 by auto. apply quad_ext. intros x Hx. rewrite Hu by (rewrite U1, U2; destruct (Nx x Hx); lra). reflexivity. }
  pose proof (ortho_at_nodes _ _ _ _ _ G Ex Px Fu Ku Gu Ou) as QU. pose proof (ortho_at_nodes _ _ _ _ _ G Ey Py Fv Kv Gv Ov) as QV.
  set (bb := run alg A h) in *.
  destruct (block_family _ _ _ _ S k _ b' i r HS G Lx Ly Xs Pi Hp) as (XX & YY & Fa & Ca).
  destruct (sizes _ _ _ _ _ HS G Lx Ly) as (Z1 & Z2 & Z3 & Z4).
  assert (Hns : Forall (fun b : usv => nonincreasing (svals b) /\ Forall (fun x => 0 <= x) (svals b)) [bb]) by auto.
  pose proof (kept_positive _ _ _ _ 0 _ b' i Ht Hns eq_refl eq_refl Pi) as Kp.
  split; [apply (cut_error_of (s_n S) _ _ k r _ _ _ G Ex Ey Px Py On); auto|].
  apply (best_of (s_n S) _ _ k r _ _ _ G Ex Ey Px Py On); auto.
  - rewrite Sr. unfold prefix_of in Pi. rewrite Pi. unfold svals at 1. cbn [fst snd]. apply sorted_firstn. exact Nb.
  - rewrite Sr. exact Kp.
  - apply (family_remainder _ _ (s_gx S) (s_gy S) k r (length (svals bb)) (fun a => nth a (svals bb) 0) XX YY eq_refl eq_refl); [| |exact Fa| |].
    + intros p Hpp. rewrite Z1 in Hpp. exact (weights_pos_x _ _ _ _ _ HS G Lx p Hpp).
    + intros p Hpp. rewrite Z3 in Hpp. exact (weights_pos_y _ _ _ _ _ HS G Ly p Hpp).
    + intros a Ha. rewrite Forall_forall in Gb. apply Gb, nth_In, Ha.
    + intros N' a HN Ha. destruct (Nat.lt_ge_cases a N') as [Hlt|Hge].
      * right. destruct (Ca a ltac:(lia)) as (_ & _ & c & Hcc). exists a, c. auto.
      * left. destruct (Ca (N' - 1)%nat ltac:(lia)) as (_ & E & _). rewrite E. apply nonincreasing_nth; auto; lia.
Qed.

Lemma best_sample k :
  (forall x y, -1 <= x <= 1 -> -1 <= y <= 1 -> has_value f K x y (k x y)) ->
  exists t n q GX GY alg h,
    legendre t n = Ok q /\ (forall m, ng = Some m -> n = m) /\ piecewise q (segments_x K) = Ok GX /\ piecewise q (segments_y K) = Ok GY /\
    let A := weighted k GX GY in
    let b := run alg A h in
    exact_svd (length (rx GX)) (length (rx GY)) A b -> nonincreasing (svals b) -> Forall (fun x => 0 <= x) (svals b) ->
    best_cuts GX GY k r.
Proof.
  intros Hk. destruct best_sample_of as (t & n & q & GX & GY & alg & h & A & H1 & H2 & H3 & H4 & H5 & H6).
  exists t, n, q, GX, GY, alg, h. repeat (split; [assumption|]). pose proof (H5 k Hk) as ->.
  intros x b E1 E2 E3. apply (proj2 H6 k E1 E2 E3).
Qed.
End Sample.
End Compute.
