(** Singular value equations at the quadrature nodes. *)
From Coq Require Import String ZArith Arith Bool Reals Lra Lia Psatz.
From Coquelicot Require Import Coquelicot.
From Coq Require Import List Sorting.Sorted Sorting.Permutation.
From Verif.Model Require Import Base Util Num Gauss Poly SVE Kernel Compute.
From Verif.Spec Require Import SGauss SPoly SFT SSVE SBasis SKernel SCompute SSingular.
From Verif.Proofs Require Import BaseFacts SumFacts IntFacts PolyFacts GaussFacts GaussExact LegRoots PPolyFacts PPolyInt SVEFacts BasisPhys KernelProps KernelSegs HintFacts ComputeNodes ComputePost ComputeSampling ComputeMerge ComputeMerged ComputeError ComputeFull.
Import ListNotations.
Open Scope R_scope.
Notation length := List.length.

(** * A truncated sum of orthonormal products *)
Section Abstract.
Variables (nx ny : nat) (wx wy : nat -> R) (k : nat -> nat -> R) (U V : nat -> nat -> R) (s : nat -> R) (N : nat).
Hypothesis HU : forall l m, (l < N)%nat -> (m < N)%nat -> sumn nx (fun p => wx p * (U l p * U m p)) = if Nat.eqb l m then 1 else 0.
Hypothesis HV : forall l m, (l < N)%nat -> (m < N)%nat -> sumn ny (fun q => wy q * (V l q * V m q)) = if Nat.eqb l m then 1 else 0.
Hypothesis HK : forall l p, (l < N)%nat -> (p < nx)%nat -> sumn ny (fun q => wy q * (k p q * V l q)) = s l * U l p.

Definition ip (F G : nat -> nat -> R) : R := sumn nx (fun p => sumn ny (fun q => wx p * wy q * (F p q * G p q))).
Definition prod l p q := U l p * V l q.
Definition partial M p q := sumn M (fun l => s l * prod l p q).

Lemma ip_prod l m : (l < N)%nat -> (m < N)%nat -> ip (prod l) (prod m) = if Nat.eqb l m then 1 else 0.
Proof.
  intros Hl Hm. unfold ip, prod.
  transitivity (sumn nx (fun p => wx p * (U l p * U m p)) * sumn ny (fun q => wy q * (V l q * V m q))).
  - rewrite sumn_mul. apply sumn_ext. intros p _. apply sumn_ext. intros q _. ring.
  - rewrite HU, HV by auto. destruct (Nat.eqb l m); ring.
Qed.
Lemma ip_kernel l : (l < N)%nat -> ip k (prod l) = s l.
Proof.
  intros Hl. unfold ip, prod.
  transitivity (sumn nx (fun p => s l * (wx p * (U l p * U l p)))).
  - apply sumn_ext. intros p Hp. transitivity (wx p * U l p * sumn ny (fun q => wy q * (k p q * V l q))).
    + rewrite <- sumn_scal. apply sumn_ext. intros q _. ring.
    + rewrite HK by auto. ring.
  - rewrite sumn_scal, HU, Nat.eqb_refl by auto. ring.
Qed.
Lemma ip_partial M l : (M <= l)%nat -> (l < N)%nat -> ip (partial M) (prod l) = 0.
Proof.
  intros HM Hl. induction M as [|M IH].
  - unfold ip. apply sumn_zero. intros p _. apply sumn_zero. intros q _. unfold partial. cbn. ring.
  - transitivity (ip (partial M) (prod l) + s M * ip (prod M) (prod l)).
    + unfold ip. rewrite <- sumn_scal, <- sumn_plus. apply sumn_ext. intros p _. rewrite <- sumn_scal, <- sumn_plus. apply sumn_ext. intros q _.
      unfold partial. rewrite sumn_S. ring.
    + rewrite IH by lia. rewrite ip_prod by lia. destruct (Nat.eqb_spec M l); [lia|ring].
Qed.
Lemma residual M : (M <= N)%nat ->
  sumn nx (fun p => sumn ny (fun q => wx p * wy q * Rsqr (k p q - partial M p q))) =
  sumn nx (fun p => sumn ny (fun q => wx p * wy q * Rsqr (k p q))) - sumn M (fun l => s l * s l).
Proof.
  induction M as [|M IH]; intros HM.
  - cbn [sumn]. rewrite Rminus_0_r. apply sumn_ext. intros p _. apply sumn_ext. intros q _. unfold partial. cbn [sumn]. rewrite Rminus_0_r. reflexivity.
  - rewrite sumn_S.
    transitivity (sumn nx (fun p => sumn ny (fun q => wx p * wy q * Rsqr (k p q - partial M p q)))
       - 2 * s M * (ip k (prod M) - ip (partial M) (prod M)) + s M * s M * ip (prod M) (prod M)).
    + unfold ip. rewrite <- sumn_minus, <- !sumn_scal, <- sumn_minus, <- sumn_plus. apply sumn_ext. intros p _.
      rewrite <- sumn_minus, <- !sumn_scal, <- sumn_minus, <- sumn_plus. apply sumn_ext. intros q _.
      unfold partial. rewrite sumn_S. unfold Rsqr. ring.
    + rewrite IH, ip_kernel, ip_partial, ip_prod, Nat.eqb_refl by lia. ring.
Qed.
End Abstract.

Lemma triples_of_exact m n A b : exact_svd m n A b -> singular_triples m n A b.
Proof.
  destruct b as [[us s] vs]. intros (L1 & L2 & F1 & F2 & O1 & O2 & HA). unfold singular_triples.
  repeat (split; [assumption|]). intros l Hl. rewrite Forall_forall in F1, F2. split.
  - intros i Hi. transitivity (sumn (length s) (fun a => nth i (nth a us []) 0 * nth a s 0 * sumn n (fun j => nth j (nth a vs []) 0 * nth j (nth l vs []) 0))).
    + transitivity (sumn n (fun j => sumn (length s) (fun a => nth i (nth a us []) 0 * nth a s 0 * (nth j (nth a vs []) 0 * nth j (nth l vs []) 0)))).
      { apply sumn_ext. intros j Hj. rewrite HA by auto. rewrite <- sumn_scal_r. apply sumn_ext. intros; ring. }
      rewrite sumn_swap. apply sumn_ext. intros a Ha. rewrite sumn_scal. reflexivity.
    + rewrite (sumn_single _ _ l Hl).
      * rewrite <- (dot_sumn _ _ n) by (apply F2, nth_In; lia). rewrite O2, Nat.eqb_refl by lia. ring.
      * intros a Ha Hne. rewrite <- (dot_sumn _ _ n) by (apply F2, nth_In; lia). rewrite O2 by lia. destruct (Nat.eqb_spec a l); [lia|ring].
  - intros j Hj. transitivity (sumn (length s) (fun a => nth j (nth a vs []) 0 * nth a s 0 * sumn m (fun i => nth i (nth a us []) 0 * nth i (nth l us []) 0))).
    + transitivity (sumn m (fun i => sumn (length s) (fun a => nth j (nth a vs []) 0 * nth a s 0 * (nth i (nth a us []) 0 * nth i (nth l us []) 0)))).
      { apply sumn_ext. intros i Hi. rewrite HA by auto. rewrite <- sumn_scal_r. apply sumn_ext. intros; ring. }
      rewrite sumn_swap. apply sumn_ext. intros a Ha. rewrite sumn_scal. reflexivity.
    + rewrite (sumn_single _ _ l Hl).
      * rewrite <- (dot_sumn _ _ m) by (apply F1, nth_In; lia). rewrite O1, Nat.eqb_refl by lia. ring.
      * intros a Ha Hne. rewrite <- (dot_sumn _ _ m) by (apply F1, nth_In; lia). rewrite O1 by lia. destruct (Nat.eqb_spec a l); [lia|ring].
Qed.

(** * One block *)
Section Block.
Variables (legendre : nat -> res rule) (K : skern) (eps : R) (ng : option nat) (S : ssve) (k : R -> R -> R) (b b' : usv) (kk : nat) (r : sve_result).
Hypothesis HS : sampling_init legendre K eps ng = Ok S.
Hypothesis Hr : gauss_ok (s_n S) (s_rule S).
Hypothesis Hx2 : (2 <= length (s_segs_x S))%nat.
Hypothesis Hy2 : (2 <= length (s_segs_y S))%nat.
Hypothesis Hb : singular_triples (length (rx (s_gx S))) (length (rx (s_gy S))) (weighted k (s_gx S) (s_gy S)) b.
Hypothesis Hk : prefix_of kk b b'.
Hypothesis Hp : sampling_post S b' = Ok (Some r).

Lemma prefix_facts : let '(us, s, vs) := b' in
  length us = length s /\ length vs = length s /\
  Forall (fun u => length u = ((length (s_segs_x S) - 1) * s_n S)%nat) us /\ Forall (fun v => length v = ((length (s_segs_y S) - 1) * s_n S)%nat) vs /\
  orthonormal_vectors us /\ orthonormal_vectors vs /\
  svals b' = firstn kk (svals b) /\
  forall l, (l < length s)%nat -> (l < kk)%nat /\ (l < length (svals b))%nat /\
    nth l us [] = nth l (fst (fst b)) [] /\ nth l vs [] = nth l (snd b) [] /\ nth l s 0 = nth l (svals b) 0.
Proof.
  destruct b as [[us s] vs]. destruct Hb as (L1 & L2 & F1 & F2 & O1 & O2 & HA).
  destruct (sizes _ _ _ _ _ HS Hr Hx2 Hy2) as (N1 & N2 & N3 & N4). rewrite N1 in *. rewrite N3 in *.
  unfold prefix_of in Hk. cbn [fst snd] in Hk. subst b'. cbv beta iota zeta.
  split; [rewrite !firstn_length; lia|]. split; [rewrite !firstn_length; lia|].
  split; [apply Forall_firstn; auto|]. split; [apply Forall_firstn; auto|].
  split; [apply ortho_firstn; auto|]. split; [apply ortho_firstn; auto|]. split; [reflexivity|].
  intros l Hl. rewrite firstn_length in Hl. cbn [fst snd svals]. unfold svals. cbn [fst snd]. split; [lia|]. split; [lia|].
  rewrite !nth_firstn by lia. auto.
Qed.

Lemma block_on : ss r = svals b' /\ sve_on (s_n S) (s_segs_x S) (s_segs_y S) r /\
  orthonormal_functions (su r) /\ orthonormal_functions (sv r) /\
  gxmin (vgeom (su r)) <= 1 <= gxmax (vgeom (su r)) /\ (forall l f, represents (su r) l f -> 0 < f 1).
Proof.
  pose proof prefix_facts as PF. destruct b' as [[us s] vs]. destruct PF as (L1 & L2 & F1 & F2 & O1 & O2 & _).
  destruct (post_struct _ _ _ _ _ HS Hr Hx2 Hy2 _ _ _ r L1 L2 Hp) as (Fu & Fv & Ku & Kv & Gu & Gv & E & Ee & R1 & sg & L & Fsg & Eu & Ev & Hpos).
  destruct (post_lengths _ _ _ _ _ HS Hr Hx2 Hy2 _ _ _ r L1 L2 Hp) as (M1 & M2 & _).
  split; [exact E|]. split; [repeat (split; [assumption|]); split; congruence|].
  split; [eapply (orthonormal_u _ _ _ _ _ HS Hr Hx2 Hy2 us s vs r); eassumption|].
  split; [eapply (orthonormal_v _ _ _ _ _ HS Hr Hx2 Hy2 us s vs r); eassumption|]. split; [exact R1|].
  intros l f Hf. destruct Fu as (Hg & Hog & Hlg).
  pose proof (in_cols _ _ _ 1 Hg R1 Hf) as Hl.
  apply represents_cval in Hf as (c & Ec & Hc); auto; try lia.
  rewrite <- Hc by auto. apply (nth_error_nth _ _ col0) in Ec. rewrite <- Ec. apply Hpos. lia.
Qed.

Notation uval l x := (cval (vgeom (su r)) (nth l (vcols (su r)) col0) x).
Notation vval l y := (cval (vgeom (sv r)) (nth l (vcols (sv r)) col0) y).

Lemma block_equations l : (l < length (ss r))%nat ->
  (forall x, In x (rx (s_gx S)) -> quad (rx (s_gy S)) (rw (s_gy S)) (fun y => k x y * vval l y) = nth l (ss r) 0 * uval l x) /\
  (forall y, In y (rx (s_gy S)) -> quad (rx (s_gx S)) (rw (s_gx S)) (fun x => k x y * uval l x) = nth l (ss r) 0 * vval l y).
Proof.
  intros Hl. pose proof prefix_facts as PF.
  assert (We : forall p q, (p < length (rx (s_gx S)))%nat -> (q < length (rx (s_gy S)))%nat ->
     ment (weighted k (s_gx S) (s_gy S)) p q =
     k (nth p (rx (s_gx S)) 0) (nth q (rx (s_gy S)) 0) * sqrt (nth p (rw (s_gx S)) 0) * sqrt (nth q (rw (s_gy S)) 0)).
  { intros p q. destruct b' as [[? ?] ?]. apply (weighted_entry _ _ _ _ S k HS Hr Hx2 Hy2). }
  destruct b as [[us0 s0] vs0]. destruct Hb as (_ & _ & _ & _ & _ & _ & HA).
  destruct b' as [[us s] vs]. destruct PF as (L1 & L2 & F1 & F2 & O1 & O2 & _ & Hn).
  destruct (post_struct _ _ _ _ _ HS Hr Hx2 Hy2 us s vs r L1 L2 Hp) as (Fu & Fv & Ku & Kv & Gu & Gv & E & _ & _ & sg & L & Fsg & Eu & Ev & _).
  destruct (pieces_eq _ _ _ _ _ HS) as [Ex Ey]. rewrite Forall_forall in F1, F2. rewrite E in *.
  destruct (Hn l Hl) as (Hlk & Hl0 & U1 & V1 & S1). cbn [fst snd svals] in Hl0, U1, V1, S1. unfold svals in Hl0, S1. cbn [fst snd] in Hl0, S1.
  destruct (HA l Hl0) as [HA1 HA2]. rewrite <- U1, <- V1, <- S1 in HA1, HA2.
  destruct (sizes _ _ _ _ _ HS Hr Hx2 Hy2) as (N1 & N2 & N3 & N4).
  set (nx := ((length (s_segs_x S) - 1) * s_n S)%nat) in *. set (ny := ((length (s_segs_y S) - 1) * s_n S)%nat) in *.
  set (c := nth l sg 0).
  destruct (sign_sqr sg l Fsg ltac:(lia)) as [C1 C2]. fold c in C1, C2.
  assert (Uv : forall p, (p < nx)%nat -> uval l (nth p (rx (s_gx S)) 0) = c * (nth p (nth l us []) 0 / sqrt (nth p (rw (s_gx S)) 0))).
  { intros p Hpp. rewrite Eu. rewrite (cval_map2_scale _ (fun c => 1 / c)) by lia. unfold ucol.
    rewrite (at_node _ _ _ _ Hr (edges_x _ _ _ _ _ HS Hx2) Ex (vgeom (su r))) by (auto; try apply Fu; apply F1, nth_In; lia).
    fold c. rewrite C2. reflexivity. }
  assert (Vv : forall q, (q < ny)%nat -> vval l (nth q (rx (s_gy S)) 0) = c * (nth q (nth l vs []) 0 / sqrt (nth q (rw (s_gy S)) 0))).
  { intros q Hqq. rewrite Ev. rewrite (cval_map2_scale _ (fun c => c)) by lia. unfold vcol.
    rewrite (at_node _ _ _ _ Hr (edges_y _ _ _ _ _ HS Hy2) Ey (vgeom (sv r))) by (auto; try apply Fv; apply F2, nth_In; lia).
    reflexivity. }
  split.
  - intros x Hx. apply (In_nth _ _ 0) in Hx as (p & Hpp & <-).
    pose proof (sqrt_lt_R0 _ (weights_pos_x _ _ _ _ _ HS Hr Hx2 p ltac:(fold nx; lia))) as Qx.
    rewrite nth_quad by lia. rewrite N3.
    transitivity (c / sqrt (nth p (rw (s_gx S)) 0) * sumn ny (fun j => ment (weighted k (s_gx S) (s_gy S)) p j * nth j (nth l vs []) 0)).
    + rewrite <- sumn_scal. apply sumn_ext. intros q Hqq. rewrite Vv by auto. rewrite We by lia.
      pose proof (weights_pos_y _ _ _ _ _ HS Hr Hy2 q Hqq) as Py. pose proof (sqrt_lt_R0 _ Py) as Qy.
      rewrite <- (sqrt_sqrt (nth q (rw (s_gy S)) 0)) at 1 by lra. field. lra.
    + rewrite <- N3, HA1 by lia. rewrite Uv by lia. field. lra.
  - intros y Hy. apply (In_nth _ _ 0) in Hy as (q & Hqq & <-).
    pose proof (sqrt_lt_R0 _ (weights_pos_y _ _ _ _ _ HS Hr Hy2 q ltac:(fold ny; lia))) as Qy.
    rewrite nth_quad by lia. rewrite N1.
    transitivity (c / sqrt (nth q (rw (s_gy S)) 0) * sumn nx (fun j => ment (weighted k (s_gx S) (s_gy S)) j q * nth j (nth l us []) 0)).
    + rewrite <- sumn_scal. apply sumn_ext. intros p Hpp. rewrite Uv by auto. rewrite We by lia.
      pose proof (weights_pos_x _ _ _ _ _ HS Hr Hx2 p Hpp) as Px. pose proof (sqrt_lt_R0 _ Px) as Qx.
      rewrite <- (sqrt_sqrt (nth p (rw (s_gx S)) 0)) at 1 by lra. field. lra.
    + rewrite <- N1, HA2 by lia. rewrite Vv by lia. field. lra.
Qed.
End Block.

(** * Rules on both halves *)
Lemma sumn_blocks m n (F : nat -> R) : sumn (m * n) F = sumn m (fun i => sumn n (fun j => F (i * n + j)%nat)).
Proof.
  induction m as [|m IH]; [reflexivity|]. rewrite sumn_S, <- IH. cbn [Nat.mul]. rewrite Nat.add_comm, sumn_app. reflexivity.
Qed.

Section Fold.
Variables (n : nat) (q : rule) (h : list R) (g G : rule).
Hypothesis Hq : gauss_ok n q.
Hypothesis Hh : half_edges h.
Hypothesis Hg : piecewise q h = Ok g.
Hypothesis HG : piecewise q (mirrored h) = Ok G.
Notation m := (length h - 1)%nat.

Lemma mirror_nth_pos i : (i <= m)%nat -> nth (m + i) (mirrored h) 0 = nth i h 0.
Proof.
  intros Hi. unfold mirrored. destruct Hh as ((Hl & _) & _).
  rewrite app_nth2; rewrite map_length, rev_length; destruct h; cbn [length tl] in *; try lia. f_equal. lia.
Qed.
Lemma mirror_nth_neg i : (i <= m)%nat -> nth (m - i) (mirrored h) 0 = - nth i h 0.
Proof.
  intros Hi. destruct i.
  { rewrite Nat.sub_0_r, <- (Nat.add_0_r m), mirror_nth_pos by lia. destruct (half_ends _ Hh) as (-> & _). ring. }
  destruct Hh as ((Hl & _) & _). unfold mirrored.
  assert (E : length (tl h) = m) by (destruct h; cbn [length tl] in *; lia).
  rewrite app_nth1 by (rewrite map_length, rev_length; lia).
  rewrite (nth_map_in _ _ _ 0) by (rewrite rev_length; lia).
  rewrite rev_nth by lia. f_equal. rewrite E. replace (m - S (m - S i))%nat with i by lia.
  destruct h; [cbn in Hl; lia|reflexivity].
Qed.
Lemma mirror_edges : edges_ok (mirrored h).
Proof. split; [rewrite mirrored_length by auto; destruct Hh as ((Hl & _) & _); lia|apply mirrored_sorted; auto]. Qed.

Lemma node_symmetric j : (j < n)%nat -> nth (n - 1 - j) (rx q) 0 = - nth j (rx q) 0 /\ nth (n - 1 - j) (rw q) 0 = nth j (rw q) 0.
Proof.
  intros Hj. destruct (gauss_symmetric n q Hq) as [Ex Ew]. pose proof Hq as (_ & Lx & Lw & _). split.
  - rewrite Ex at 1. rewrite rev_nth by (rewrite map_length; lia). rewrite map_length, Lx.
    replace (n - S (n - 1 - j))%nat with j by lia. apply (nth_map_in Ropp). lia.
  - rewrite Ew at 1. rewrite rev_nth by lia. rewrite Lw. f_equal. lia.
Qed.

Lemma full_pos p : (p < m * n)%nat ->
  nth (m * n + p) (rx G) 0 = nth p (rx g) 0 /\ nth (m * n + p) (rw G) 0 = nth p (rw g) 0.
Proof.
  intros Hp. pose proof Hq as (Hn & _).
  assert (Hi : (p / n < m)%nat) by (apply Nat.div_lt_upper_bound; lia).
  assert (Hj : (p mod n < n)%nat) by (apply Nat.mod_upper_bound; lia).
  assert (E : (p / n * n + p mod n = p)%nat) by (rewrite (Nat.mul_comm _ n); symmetry; apply Nat.div_mod; lia).
  set (i := (p / n)%nat) in *. set (j := (p mod n)%nat) in *.
  pose proof (mirrored_length h Hh) as Lm.
  destruct (node_at n q h g Hq (proj1 Hh) Hg i j Hi Hj) as [A1 A2].
  destruct (node_at n q _ G Hq mirror_edges HG (m + i) j ltac:(lia) Hj) as [B1 B2].
  replace ((m + i) * n + j)%nat with (m * n + p)%nat in B1, B2 by lia. rewrite E in A1, A2.
  rewrite <- Nat.add_succ_r, !mirror_nth_pos in B1, B2 by lia. split; congruence.
Qed.

Lemma full_neg p : (p < m * n)%nat ->
  nth (m * n - 1 - p) (rx G) 0 = - nth p (rx g) 0 /\ nth (m * n - 1 - p) (rw G) 0 = nth p (rw g) 0.
Proof.
  intros Hp. pose proof Hq as (Hn & _).
  assert (Hi : (p / n < m)%nat) by (apply Nat.div_lt_upper_bound; lia).
  assert (Hj : (p mod n < n)%nat) by (apply Nat.mod_upper_bound; lia).
  assert (E : (p / n * n + p mod n = p)%nat) by (rewrite (Nat.mul_comm _ n); symmetry; apply Nat.div_mod; lia).
  set (i := (p / n)%nat) in *. set (j := (p mod n)%nat) in *.
  pose proof (mirrored_length h Hh) as Lm.
  destruct (node_at n q h g Hq (proj1 Hh) Hg i j Hi Hj) as [A1 A2].
  destruct (node_at n q _ G Hq mirror_edges HG (m - 1 - i) (n - 1 - j) ltac:(lia) ltac:(lia)) as [B1 B2].
  assert (I : ((m - 1 - i) * n + (n - 1 - j) = m * n - 1 - p)%nat).
  { rewrite <- E. assert (m = i + 1 + (m - 1 - i))%nat by lia. assert (m * n = i * n + n + (m - 1 - i) * n)%nat by nia. lia. }
  rewrite I in B1, B2. rewrite E in A1, A2.
  replace (S (m - 1 - i)) with (m - i)%nat in B1, B2 by lia. replace (m - 1 - i)%nat with (m - S i)%nat in B1, B2 by lia.
  rewrite !mirror_nth_neg in B1, B2 by lia. destruct (node_symmetric j Hj) as [S1 S2]. rewrite S1 in B1. rewrite S2 in B2.
  rewrite A1, A2, B1, B2. split; field.
Qed.

Lemma full_lengths : length (rx G) = (m * n + m * n)%nat /\ length (rw G) = (m * n + m * n)%nat /\
  length (rx g) = (m * n)%nat /\ length (rw g) = (m * n)%nat.
Proof.
  destruct (node_lengths n q h g Hq (proj1 Hh) Hg) as [A1 A2]. destruct (node_lengths n q _ G Hq mirror_edges HG) as [B1 B2].
  rewrite (mirrored_length h Hh) in B1, B2. rewrite A1, A2, B1, B2. repeat split; lia.
Qed.

Lemma full_quad f : quad (rx G) (rw G) f = quad (rx g) (rw g) (fun x => f x + f (- x)).
Proof.
  destruct full_lengths as (A1 & A2 & A3 & A4). rewrite !nth_quad by lia. rewrite A1, A3, sumn_app.
  rewrite (sumn_rev (m * n)), <- sumn_plus. apply sumn_ext. intros p Hp.
  destruct (full_pos p Hp) as [-> ->]. destruct (full_neg p Hp) as [-> ->]. ring.
Qed.

Lemma full_in x : In x (rx G) -> In x (rx g) \/ In (- x) (rx g).
Proof.
  destruct full_lengths as (A1 & A2 & A3 & A4). intros Hx. apply (In_nth _ _ 0) in Hx as (p & Hp & <-). rewrite A1 in Hp.
  destruct (Nat.lt_ge_cases p (m * n)) as [H|H].
  - right. destruct (full_neg (m * n - 1 - p) ltac:(lia)) as [E _]. replace (m * n - 1 - (m * n - 1 - p))%nat with p in E by lia.
    rewrite E, Ropp_involutive. apply nth_In. lia.
  - left. destruct (full_pos (p - m * n) ltac:(lia)) as [E _]. replace (m * n + (p - m * n))%nat with p in E by lia.
    rewrite E. apply nth_In. lia.
Qed.
End Fold.

(** * Discrete orthonormality *)
Lemma is_RInt_same (f : R -> R) a b u v : is_RInt f a b u -> is_RInt f a b v -> u = v.
Proof. intros H1 H2. rewrite <- (RInt_val f a b u H1). apply RInt_val, H2. Qed.
Lemma seg_poly g c i : polylt (glen g) (seg_fun g c i).
Proof.
  unfold seg_fun. apply polylt_scal.
  apply (polylt_sumn (glen g) (glen g) (fun k x => cdat c k i * legP k ((2 * x - knot g i - knot g (S i)) / (knot g (S i) - knot g i)))).
  intros k Hk. apply polylt_scal. apply (polylt_mono (S k)); [lia|].
  apply (polylt_ext _ (fun x => legP k (2 / (knot g (S i) - knot g i) * x + (- knot g i - knot g (S i)) / (knot g (S i) - knot g i)))).
  - intros x. f_equal. unfold Rdiv. ring.
  - apply (polylt_comp_lin (S k) (legP k)). apply legP_polylt.
Qed.
Lemma product_piecewise g c d : geom_ok g -> (0 < glen g)%nat ->
  piecewise_polynomial (2 * glen g - 1) (gknots g) (fun x => cval g c x * cval g d x).
Proof.
  intros Hg Hl.
  assert (H : forall i, (S i < length (gknots g))%nat ->
     exists p, polynomial (2 * glen g - 1) p /\ forall x, nth i (gknots g) 0 < x < nth (S i) (gknots g) 0 -> cval g c x * cval g d x = p x).
  { intros i Hi. exists (fun x => seg_fun g c i x * seg_fun g d i x). split.
    - unfold polynomial. apply (polylt_mono (glen g + (glen g - 1))); [lia|]. apply polylt_mul.
      + apply seg_poly.
      + replace (S (glen g - 1)) with (glen g) by lia. apply seg_poly.
    - intros x Hx. pose proof (g_len g Hg) as L. rewrite !(cval_seg g Hg _ i x) by (unfold knot; try lia; try lra; left; lra). reflexivity. }
  revert H. unfold piecewise_polynomial. generalize (gknots g) as l. induction l as [|a [|b l] IH]; intros H; [exact I|exact I|].
  split; [apply (H 0%nat); cbn; lia|]. apply IH. intros i Hi. apply (H (S i)). cbn in *. lia.
Qed.

Lemma ortho_at_nodes n q segs G p : gauss_ok n q -> edges_ok segs -> piecewise q segs = Ok G ->
  fresh p -> gknots (vgeom p) = segs -> glen (vgeom p) = n -> orthonormal_functions p -> quad_orthonormal G p.
Proof.
  intros Hq Hs HG Hf Hk Hn Ho l m f h Rf Rh. pose proof Hf as (Hg & Hog & Hlg).
  pose proof (xmin_lt_xmax _ Hg) as Hlt.
  pose proof (Ho l m f h Rf Rh) as HI.
  pose proof (in_cols _ _ _ (gxmin (vgeom p)) Hg ltac:(lra) Rf) as Hl. pose proof (in_cols _ _ _ (gxmin (vgeom p)) Hg ltac:(lra) Rh) as Hm.
  apply represents_cval in Rf as (c & Ec & Hc); auto; try lia. apply represents_cval in Rh as (d & Ed & Hd); auto; try lia.
  assert (Pp : piecewise_polynomial (2 * n - 1) segs (fun x => cval (vgeom p) c x * cval (vgeom p) d x)).
  { rewrite <- Hk, <- Hn. apply product_piecewise; auto. lia. }
  pose proof Hq as (Hn0 & Lx & Lw & (Ss & Bx) & Pw & Ea & Eb & Ex).
  pose proof (piecewise_exact (2 * n - 1) q segs G _ 0 (proj1 Hs) ltac:(lra) ltac:(lia) Bx ltac:(rewrite Ea, Eb; exact Ex) HG Pp) as HJ.
  assert (Ends : hd 0 segs = gxmin (vgeom p) /\ last segs 0 = gxmax (vgeom p)).
  { pose proof (g_len _ Hg) as Gl. rewrite <- Hk. unfold gxmin, gxmax. split; [destruct (gknots (vgeom p)); reflexivity|].
    rewrite <- nth_last. f_equal. lia. }
  destruct Ends as [-> ->] in HJ.
  assert (HI' : is_RInt (fun x => cval (vgeom p) c x * cval (vgeom p) d x) (gxmin (vgeom p)) (gxmax (vgeom p)) (if Nat.eqb l m then 1 else 0)).
  { eapply is_RInt_ext_in; [lra| |exact HI]. intros x Hx. cbv beta. rewrite Hc, Hd by lra. reflexivity. }
  assert (HE : quad (rx G) (rw G) (fun x => cval (vgeom p) c x * cval (vgeom p) d x) = if Nat.eqb l m then 1 else 0).
  { exact (is_RInt_same _ _ _ _ _ HJ HI'). }
  rewrite <- HE. apply quad_ext.
  intros x Hx. pose proof (node_not_edge n q segs G Hq Hs HG x Hx) as [_ Hr].
  assert (In1 : gxmin (vgeom p) < x < gxmax (vgeom p)).
  { unfold gxmin, gxmax. rewrite Hk. pose proof (g_len _ Hg) as Gl. rewrite Hk in Gl. replace (gnseg (vgeom p)) with (length segs - 1)%nat by lia. exact Hr. }
  rewrite Hc, Hd by lra. reflexivity.
Qed.

(** * Errors of all truncations *)
Lemma cut_error_of n gx gy k r hx hy q : gauss_ok n q -> edges_ok hx -> edges_ok hy -> piecewise q hx = Ok gx -> piecewise q hy = Ok gy ->
  sve_on n hx hy r -> nth 0 hx 0 = -1 -> nth (length hx - 1) hx 0 = 1 -> nth 0 hy 0 = -1 -> nth (length hy - 1) hy 0 = 1 ->
  quad_orthonormal gx (su r) -> quad_orthonormal gy (sv r) -> singular_system gx gy k r -> cut_errors gx gy k r.
Proof.
  intros Hq Hx Hy Ex Ey On X0 X1 Y0 Y1 Ou Ov Hs N.
  pose proof On as (Fu & Fv & Ku & Kv & Gu & Gv & L1 & L2).
  destruct (on_range _ _ _ _ On) as (R1 & R2 & R3 & R4).
  rewrite <- (nth_last hx), X1 in R2. rewrite <- (nth_last hy), Y1 in R4.
  assert (hd 0 hx = -1) as E3 by (destruct hx; exact X0). assert (hd 0 hy = -1) as E4 by (destruct hy; exact Y0). rewrite E3 in R1. rewrite E4 in R3.
  set (c := cut_at N r).
  assert (C1 : fresh (su c) /\ fresh (sv c)) by (split; [apply Fu|apply Fv]).
  assert (C2 : length (vcols (su c)) = length (ss c) /\ length (vcols (sv c)) = length (ss c)).
  { cbn. rewrite !firstn_length. lia. }
  exists (expand c). split.
  { intros x y Ax Ay. apply sve_sum_ok; try apply C1; try apply C2; cbn; rewrite ?R1, ?R2, ?R3, ?R4; lra. }
  destruct (node_lengths _ _ _ _ Hq Hx Ex) as [A1 A2]. destruct (node_lengths _ _ _ _ Hq Hy Ey) as [A3 A4].
  rewrite !(quad2_sumn _ _ _ _ _ A1 A2 A3 A4). rewrite sumsq_sumn.
  set (nx := ((length hx - 1) * n)%nat) in *. set (ny := ((length hy - 1) * n)%nat) in *.
  set (U := fun l p => cval (vgeom (su r)) (nth l (vcols (su r)) col0) (nth p (rx gx) 0)).
  set (V := fun l p => cval (vgeom (sv r)) (nth l (vcols (sv r)) col0) (nth p (rx gy) 0)).
  assert (RU : forall l, (l < length (ss r))%nat -> represents (su r) l (fun x => cval (vgeom (su r)) (nth l (vcols (su r)) col0) x)).
  { intros l Hl x Hx'. destruct Fu as (F1 & F2 & F3). apply value_cval; auto; try lia. apply nth_error_nth'. lia. }
  assert (RV : forall l, (l < length (ss r))%nat -> represents (sv r) l (fun x => cval (vgeom (sv r)) (nth l (vcols (sv r)) col0) x)).
  { intros l Hl x Hx'. destruct Fv as (F1 & F2 & F3). apply value_cval; auto; try lia. apply nth_error_nth'. lia. }
  assert (EN : length (firstn N (ss r)) = Nat.min N (length (ss r))) by apply firstn_length.
  pose proof (residual nx ny (fun p => nth p (rw gx) 0) (fun p => nth p (rw gy) 0) (fun p q => k (nth p (rx gx) 0) (nth q (rx gy) 0)) U V
    (fun l => nth l (ss r) 0) (length (ss r))) as HR.
  assert (G1 : forall l m, (l < length (ss r))%nat -> (m < length (ss r))%nat ->
     sumn nx (fun p => nth p (rw gx) 0 * (U l p * U m p)) = if Nat.eqb l m then 1 else 0).
  { intros l m Hl Hm. pose proof (Ou l m _ _ (RU l Hl) (RU m Hm)) as H. rewrite nth_quad in H by lia. rewrite A1 in H. exact H. }
  assert (G2 : forall l m, (l < length (ss r))%nat -> (m < length (ss r))%nat ->
     sumn ny (fun p => nth p (rw gy) 0 * (V l p * V m p)) = if Nat.eqb l m then 1 else 0).
  { intros l m Hl Hm. pose proof (Ov l m _ _ (RV l Hl) (RV m Hm)) as H. rewrite nth_quad in H by lia. rewrite A3 in H. exact H. }
  assert (G3 : forall l p, (l < length (ss r))%nat -> (p < nx)%nat ->
     sumn ny (fun q => nth q (rw gy) 0 * (k (nth p (rx gx) 0) (nth q (rx gy) 0) * V l q)) = nth l (ss r) 0 * U l p).
  { intros l p Hl Hp. destruct (Hs l _ _ (RU l Hl) (RV l Hl)) as [H _]. specialize (H (nth p (rx gx) 0) ltac:(apply nth_In; lia)).
    rewrite nth_quad in H by lia. rewrite A3 in H. exact H. }
  specialize (HR G1 G2 G3 (length (firstn N (ss r))) ltac:(rewrite EN; lia)). cbv beta in HR.
  rewrite (sumn_ext (length (firstn N (ss r))) _ (fun l => nth l (ss r) 0 * nth l (ss r) 0)).
  2:{ intros i Hi. rewrite nth_firstn by lia. reflexivity. }
  rewrite <- HR. apply sumn_ext. intros p Hp. apply sumn_ext. intros q' Hq'. f_equal. f_equal. f_equal.
  unfold expand, partial, prod, c. cbn [cut_at su sv ss take vgeom vcols]. apply sumn_ext. intros l Hl. rewrite !nth_firstn by lia. unfold U, V. ring.
Qed.

(** * The merged expansion *)
Lemma quad_scale xs ws a F : quad xs ws (fun x => a * F x) = a * quad xs ws F.
Proof. revert ws. induction xs as [|x xs IH]; intros [|w ws]; try (cbn; ring). rewrite !quad_cons, IH. ring. Qed.

Section MergedEquations.
Variables (argsort : list R -> list nat) (eps : R) (n : nat) (hx hy : list R) (even odd r : sve_result).
Hypothesis Hhx : half_edges hx.
Hypothesis Hhy : half_edges hy.
Hypothesis He : sve_on n hx hy even.
Hypothesis Ho : sve_on n hx hy odd.
Hypothesis Hsort : sorts (ss even ++ ss odd) (argsort (ss even ++ ss odd)).
Hypothesis Hm : merge argsort eps (mirrored hx) (mirrored hy) even odd = Ok r.
Variables (q gx gy GX GY : rule) (k : R -> R -> R).
Hypothesis Hq : gauss_ok n q.
Hypothesis Hgx : piecewise q hx = Ok gx.
Hypothesis Hgy : piecewise q hy = Ok gy.
Hypothesis HGX : piecewise q (mirrored hx) = Ok GX.
Hypothesis HGY : piecewise q (mirrored hy) = Ok GY.
Hypothesis Ck : forall x y, -1 <= x <= 1 -> -1 <= y <= 1 -> k (- x) (- y) = k x y.
Notation gu := (vgeom (su even)).
Notation gv := (vgeom (sv even)).
Definition equations (e : sve_result) (ks : R -> R -> R) : Prop := forall l, (l < length (ss e))%nat ->
  (forall x, In x (rx gx) -> quad (rx gy) (rw gy) (fun y => ks x y * cval (vgeom (sv e)) (nth l (vcols (sv e)) col0) y) =
     nth l (ss e) 0 * cval (vgeom (su e)) (nth l (vcols (su e)) col0) x) /\
  (forall y, In y (rx gy) -> quad (rx gx) (rw gx) (fun x => ks x y * cval (vgeom (su e)) (nth l (vcols (su e)) col0) x) =
     nth l (ss e) 0 * cval (vgeom (sv e)) (nth l (vcols (sv e)) col0) y).
Hypothesis Qe : equations even (fun x y => k x y + k x (- y)).
Hypothesis Qo : equations odd (fun x y => k x y - k x (- y)).

Lemma inside_x x : In x (rx gx) -> ~ In x hx /\ 0 < x < 1.
Proof.
  intros Hx. destruct (half_ends _ Hhx) as (X0 & X1 & _). pose proof (node_not_edge _ _ _ _ Hq (proj1 Hhx) Hgx x Hx) as H. rewrite X0, X1 in H. exact H.
Qed.
Lemma inside_y y : In y (rx gy) -> ~ In y hy /\ 0 < y < 1.
Proof.
  intros Hx. destruct (half_ends _ Hhy) as (X0 & X1 & _). pose proof (node_not_edge _ _ _ _ Hq (proj1 Hhy) Hgy y Hx) as H. rewrite X0, X1 in H. exact H.
Qed.

Lemma mirror_node g G sg sy c x : geom_ok g -> geom_ok G -> knot g 0 = 0 -> gxmax g = 1 -> gknots G = mirrored (gknots g) -> glen G = glen g ->
  0 < x < 1 -> ~ In x (gknots g) ->
  cval G (mcol g sg sy c) x = (1 / sqrt 2) * cval g c x /\ cval G (mcol g sg sy c) (- x) = sg * ((1 / sqrt 2) * cval g c x).
Proof.
  intros Hg HG H0 H1 Hk Hl Hx Nx. destruct (G_range g G Hg HG H0 Hk Hl) as (R1 & R2 & _). rewrite H1 in R1, R2.
  assert (W : forall y, (y = x \/ y = - x) -> cval G (mcol g sg sy c) y = (if Rltb y 0 then sg else 1) * (1 / sqrt 2) * cval g c x).
  { intros y Hy. assert (Ay : Rabs y = x) by (destruct Hy as [-> | ->]; [apply Rabs_pos_eq; lra|rewrite Rabs_Ropp; apply Rabs_pos_eq; lra]).
    destruct (mirror_eval g G Hg HG H0 Hk Hl y) as (j & Hj & Bj & E & D); [rewrite R1, R2; destruct Hy; lra|].
    rewrite E, Ay. f_equal. rewrite Ay in D, Bj. destruct D as [D|(_ & D & Dj)]; [apply D|].
    exfalso. apply Nx. rewrite D. unfold knot. apply nth_In. pose proof (g_len g Hg). lia. }
  rewrite !W by auto. rewrite (proj2 (Rltb_false x 0)), (proj2 (Rltb_true (- x) 0)) by lra. split; ring.
Qed.

Lemma merged_equations l u v : represents (su r) l u -> represents (sv r) l v ->
  (forall x, In x (rx GX) -> quad (rx GY) (rw GY) (fun y => k x y * v y) = nth l (ss r) 0 * u x) /\
  (forall y, In y (rx GY) -> quad (rx GX) (rw GX) (fun x => k x y * u x) = nth l (ss r) 0 * v y).
Proof.
  intros Ru Rv.
  destruct (merged argsort eps n hx hy even odd Hhx Hhy He Ho Hsort r Hm) as (Fu & Fv & K1 & K2 & L1 & L2 & _ & Es & _ & _).
  destruct (range_u argsort eps n hx hy even odd Hhx Hhy He Ho Hsort r Hm) as [U1 U2].
  destruct (range_v argsort eps n hx hy even odd Hhx Hhy He Ho Hsort r Hm) as [V1 V2].
  destruct (lens argsort eps n hx hy even odd Hhx Hhy He Ho Hsort r Hm) as (N1 & N2 & N3).
  destruct Fu as (Gu & Ou & Lu). destruct Fv as (Gv & Ov & Lv).
  pose proof (in_cols _ _ _ 1 Gu ltac:(lra) Ru) as Hl. rewrite N2 in Hl.
  apply represents_cval in Ru as (cu & Eu & Hu); auto; try lia. apply represents_cval in Rv as (cv & Ev & Hv); auto; try lia.
  apply (nth_error_nth _ _ col0) in Eu, Ev.
  rewrite (col_u argsort eps n hx hy even odd Hhx Hhy He Ho Hsort r Hm l Hl) in Eu.
  rewrite (col_v argsort eps n hx hy even odd Hhx Hhy He Ho Hsort r Hm l Hl) in Ev. cbv zeta in Eu, Ev.
  set (i := nth l (rev (argsort (ss even ++ ss odd))) 0%nat) in *.
  assert (Hi : (i < length (ss even) + length (ss odd))%nat) by (apply (sort_lt argsort even odd Hsort l Hl)).
  assert (Si : nth l (ss r) 0 = nth i (ss even ++ ss odd) 0).
  { rewrite Es. rewrite (nth_map_in _ _ _ 0%nat); [reflexivity|]. rewrite (sort_len argsort even odd Hsort). exact Hl. }
  destruct (zero_u n hx hy even Hhx He) as (Z1 & Z2 & Z3). destruct (zero_v n hx hy even Hhy He) as (Z4 & Z5 & Z6).
  pose proof He as (Fe & Fe' & Ke & Ke' & _ & _ & Le1 & Le2). pose proof Ho as (_ & _ & _ & _ & _ & _ & Lo1 & Lo2).
  set (sg := sgn even i) in *. set (c := mu even odd i) in *. set (d := mv even odd i) in *.
  assert (Sg : sg * sg = 1) by (apply sgn_sqr).
  (* the half equations of the function chosen *)
  assert (Hhalf : (forall x, In x (rx gx) -> quad (rx gy) (rw gy) (fun y => (k x y + sg * k x (- y)) * cval gv d y) = nth l (ss r) 0 * cval gu c x) /\
                  (forall y, In y (rx gy) -> quad (rx gx) (rw gx) (fun x => (k x y + sg * k x (- y)) * cval gu c x) = nth l (ss r) 0 * cval gv d y)).
  { rewrite Si. unfold sg, sgn, c, d, mu, mv. destruct (Nat.ltb_spec i (length (ss even))) as [Hlt|Hge].
    - rewrite !app_nth1 by lia. destruct (Qe i Hlt) as [A B]. split.
      + intros x Hx. rewrite <- A by auto. apply quad_ext. intros; ring.
      + intros y Hy. rewrite <- B by auto. apply quad_ext. intros; ring.
    - rewrite !app_nth2 by lia. rewrite Le1, Le2. destruct (same_geoms n hx hy even odd He Ho) as [Sg1 Sg2].
      destruct (Qo (i - length (ss even))%nat ltac:(lia)) as [A B]. rewrite Sg1, Sg2 in A, B. split.
      + intros x Hx. rewrite <- A by auto. apply quad_ext. intros; ring.
      + intros y Hy. rewrite <- B by auto. apply quad_ext. intros; ring. }
  destruct Hhalf as [HA HB].
  assert (Wu : forall x, In x (rx gx) -> u x = (1 / sqrt 2) * cval gu c x /\ u (- x) = sg * ((1 / sqrt 2) * cval gu c x)).
  { intros x Hx. destruct (inside_x x Hx) as [Nx Bx]. rewrite <- !Hu by lra. rewrite <- Eu. apply mirror_node; auto; try apply Fe. rewrite Ke. exact Nx. }
  assert (Wv : forall y, In y (rx gy) -> v y = (1 / sqrt 2) * cval gv d y /\ v (- y) = sg * ((1 / sqrt 2) * cval gv d y)).
  { intros y Hy. destruct (inside_y y Hy) as [Ny By]. rewrite <- !Hv by lra. rewrite <- Ev. apply mirror_node; auto; try apply Fe'. rewrite Ke'. exact Ny. }
  assert (Ck2 : forall x y, -1 <= x <= 1 -> -1 <= y <= 1 -> k (- x) y = k x (- y)).
  { intros x y Hx Hy. rewrite <- (Ck x (- y)) by lra. rewrite Ropp_involutive. reflexivity. }
  assert (FX : forall F, quad (rx GX) (rw GX) F = quad (rx gx) (rw gx) (fun x => F x + F (- x))) by (apply (full_quad n q hx gx GX); auto).
  assert (FY : forall F, quad (rx GY) (rw GY) F = quad (rx gy) (rw gy) (fun x => F x + F (- x))) by (apply (full_quad n q hy gy GY); auto).
  split.
  - intros x Hx. rewrite FY. apply (full_in n q hx gx GX Hq Hhx Hgx HGX) in Hx as [Hx|Hx].
    + destruct (Wu x Hx) as [-> _]. transitivity ((1 / sqrt 2) * (nth l (ss r) 0 * cval gu c x)); [|ring]. rewrite <- HA by auto. rewrite <- quad_scale.
      apply quad_ext. intros y Hy. destruct (Wv y Hy) as [-> ->]. ring.
    + destruct (inside_x _ Hx) as [_ Bx]. destruct (Wu _ Hx) as [_ E]. rewrite Ropp_involutive in E. rewrite E.
      transitivity (sg * (1 / sqrt 2) * (nth l (ss r) 0 * cval gu c (- x))); [|ring]. rewrite <- HA by auto. rewrite <- quad_scale.
      apply quad_ext. intros y Hy. destruct (inside_y _ Hy) as [_ By]. destruct (Wv y Hy) as [-> ->].
      rewrite (Ck2 x y), <- (Ck x y) by lra. transitivity (1 / sqrt 2 * cval gv d y * (k x y + sg * k x (- y))).
      { rewrite (Ck x y) by lra. ring. }
      rewrite (Ck x y) by lra. transitivity (1 / sqrt 2 * cval gv d y * (sg * k x (- y) + (sg * sg) * k x y)); [rewrite Sg; ring|ring].
  - intros y Hy. rewrite FX. apply (full_in n q hy gy GY Hq Hhy Hgy HGY) in Hy as [Hy|Hy].
    + destruct (inside_y _ Hy) as [_ By]. destruct (Wv y Hy) as [-> _]. transitivity ((1 / sqrt 2) * (nth l (ss r) 0 * cval gv d y)); [|ring]. rewrite <- HB by auto. rewrite <- quad_scale.
      apply quad_ext. intros x Hx. destruct (inside_x _ Hx) as [_ Bx]. destruct (Wu x Hx) as [-> ->]. rewrite (Ck2 x y) by lra. ring.
    + destruct (inside_y _ Hy) as [_ By]. destruct (Wv _ Hy) as [_ E]. rewrite Ropp_involutive in E. rewrite E.
      transitivity (sg * (1 / sqrt 2) * (nth l (ss r) 0 * cval gv d (- y))); [|ring]. rewrite <- HB by auto. rewrite <- quad_scale.
      apply quad_ext. intros x Hx. destruct (inside_x _ Hx) as [_ Bx]. destruct (Wu x Hx) as [-> ->].
      rewrite (Ck2 x y), Ropp_involutive by lra. transitivity (1 / sqrt 2 * cval gu c x * (sg * k x (- y) + (sg * sg) * k x y)); [rewrite Sg; ring|ring].
Qed.
End MergedEquations.
