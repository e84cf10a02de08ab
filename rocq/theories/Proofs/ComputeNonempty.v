(** The expansion of a positive kernel has at least one function. *)
From Coq Require Import String ZArith Arith Bool Reals Lra Lia Psatz.
From Coquelicot Require Import Coquelicot.
From Coq Require Import List Sorting.Sorted Sorting.Permutation.
From Verif.Model Require Import Base Util Num Gauss Poly SVE Kernel Compute.
From Verif.Spec Require Import SGauss SPoly SFT SSVE SBasis SKernel SCompute.
From Verif.Proofs Require Import BaseFacts SumFacts SVEFacts KernelSegs ComputeNodes ComputePost ComputeMerged ComputeError ComputeFull.
Import ListNotations.
Open Scope R_scope.
Notation length := List.length.

Lemma exact_zero m n A b : exact_svd m n A b -> Forall (fun x => x = 0) (svals b) ->
  forall i j, (i < m)%nat -> (j < n)%nat -> ment A i j = 0.
Proof.
  destruct b as [[us s] vs]. unfold exact_svd, svals. cbn [fst snd]. intros (_ & _ & _ & _ & _ & _ & H) F i j Hi Hj.
  rewrite (H i j Hi Hj). apply sumn_zero. intros l Hl. rewrite Forall_forall in F. rewrite (F (nth l s 0)) by (apply nth_In; auto). ring.
Qed.

Lemma exact_pos m n A b : exact_svd m n A b -> Forall (fun x => 0 <= x) (svals b) ->
  (exists i j, (i < m)%nat /\ (j < n)%nat /\ ment A i j <> 0) -> exists x, In x (svals b) /\ 0 < x.
Proof.
  intros Hb F (i & j & Hi & Hj & Hn).
  destruct (Exists_dec (fun x => 0 < x) (svals b)) as [E|E].
  - intros x. destruct (Rlt_dec 0 x); [left|right]; auto.
  - apply Exists_exists in E. exact E.
  - exfalso. apply Hn, (exact_zero m n A b); auto. apply Forall_forall. intros x Hx. rewrite Forall_forall in F. specialize (F x Hx).
    destruct (Rle_lt_or_eq_dec _ _ F) as [H|H]; auto. destruct E. apply Exists_exists. eauto.
Qed.

Lemma list_max (l : list R) : l <> [] -> exists M, In M l /\ forall x, In x l -> x <= M.
Proof.
  induction l as [|a [|b l] IH]; intros H; [congruence| |].
  - exists a. split; [left; auto|]. intros x [->|[]]; lra.
  - destruct IH as (M & H1 & H2); [discriminate|]. destruct (Rle_lt_dec a M).
    + exists M. split; [right; auto|]. intros x [->|Hx]; auto.
    + exists a. split; [left; auto|]. intros x [->|Hx]; [lra|]. specialize (H2 x Hx). lra.
Qed.

(** The largest value of all blocks is kept. *)
Lemma kept_some (blocks out : list usv) c : truncate blocks (Fin c) None = Ok out -> c < 1 ->
  Forall (fun b => nonincreasing (svals b)) blocks -> (exists x, In x (all_values blocks) /\ 0 < x) ->
  exists b', In b' out /\ svals b' <> [].
Proof.
  intros Ht Hc Hn (x & Hx & Px).
  destruct (list_max (all_values blocks)) as (M & HM & Hmax); [intros E; rewrite E in Hx; destruct Hx|].
  assert (PM : 0 < M) by (specialize (Hmax x Hx); lra).
  unfold all_values in HM. apply in_flat_map in HM as (b & Hb & HMb).
  apply In_nth_error in Hb as (i & Hi). apply In_nth_error in HMb as (j & Hj).
  destruct (truncate_prefix _ _ _ _ Ht) as [F2 _].
  assert (Ho : exists b', nth_error out i = Some b').
  { assert (L : length blocks = length out) by (clear - F2; induction F2; cbn; auto). destruct (nth_error out i) eqn:E; eauto. apply nth_error_None in E.
    destruct (Nat.lt_ge_cases i (length blocks)) as [Z|Z]; [lia|]. apply nth_error_None in Z. pose proof (eq_trans (eq_sym Z) Hi). discriminate. }
  destruct Ho as (b' & Hb'). exists b'. split; [eapply nth_error_In; eauto|].
  destruct (truncate_sorted _ _ _ _ Ht Hn _ _ _ _ _ Hi Hb' Hj) as [_ S].
  assert (nth_error (snd (fst b')) j = Some M).
  { apply S. split; [|exact I]. intros M' HM' Hall.
    assert (M' = M). { apply Rle_antisym; [apply Hmax; exact HM'|apply Hall; unfold all_values; apply in_flat_map; exists b; split; [eapply nth_error_In; eauto|eapply nth_error_In; eauto]]. }
    subst. nra. }
  unfold svals. intros E. rewrite E in H. destruct j; discriminate.
Qed.

Lemma weighted_entry k gx gy i j : length (rw gx) = length (rx gx) -> length (rw gy) = length (rx gy) ->
  (i < length (rx gx))%nat -> (j < length (rx gy))%nat ->
  ment (weighted k gx gy) i j = k (nth i (rx gx) 0) (nth j (rx gy) 0) * sqrt (nth i (rw gx) 0) * sqrt (nth j (rw gy) 0).
Proof.
  intros Lx Ly Hi Hj. unfold ment, weighted.
  rewrite (map2_nth _ _ _ i 0 0 []) by lia. rewrite (map2_nth _ _ _ j 0 0 0) by lia. reflexivity.
Qed.

Lemma positive_entry n q ex ey gx gy k : gauss_ok n q -> edges_ok ex -> edges_ok ey ->
  piecewise q ex = Ok gx -> piecewise q ey = Ok gy ->
  (forall x y, nth 0 ex 0 < x < nth (length ex - 1) ex 0 -> nth 0 ey 0 < y < nth (length ey - 1) ey 0 -> 0 < k x y) ->
  exists i j, (i < length (rx gx))%nat /\ (j < length (rx gy))%nat /\ ment (weighted k gx gy) i j <> 0.
Proof.
  intros G Ex Ey Hx Hy Hk.
  destruct (node_lengths _ _ _ _ G Ex Hx) as [X1 X2]. destruct (node_lengths _ _ _ _ G Ey Hy) as [Y1 Y2].
  assert (Pn : (1 <= n)%nat) by apply G. assert (Lx : (2 <= length ex)%nat) by apply Ex. assert (Ly : (2 <= length ey)%nat) by apply Ey.
  assert (Px : (0 < (length ex - 1) * n)%nat) by nia. assert (Py : (0 < (length ey - 1) * n)%nat) by nia.
  exists 0%nat, 0%nat. split; [lia|]. split; [lia|]. rewrite weighted_entry by lia.
  pose proof (weight_pos _ _ _ _ G Ex Hx 0 Px) as Wx. pose proof (weight_pos _ _ _ _ G Ey Hy 0 Py) as Wy.
  destruct (node_not_edge _ _ _ _ G Ex Hx (nth 0 (rx gx) 0)) as [_ Bx]; [apply nth_In; lia|].
  destruct (node_not_edge _ _ _ _ G Ey Hy (nth 0 (rx gy) 0)) as [_ By]; [apply nth_In; lia|].
  apply Rgt_not_eq. repeat apply Rmult_lt_0_compat; try (apply sqrt_lt_R0; lra). apply Hk; auto.
Qed.

Lemma cutoff_small hx dd eps work svds safe t strategy w : dd < / 2 -> (forall e, work = Some (OtherType e) -> e < / 2) ->
  safe_eps hx dd eps work svds = (safe, t, strategy, w) -> default_cutoff dd t < 1.
Proof.
  intros H1 H2 H.
  assert (Ht : t = match work with
           | None =>
               match eps with
               | None => max_dtype hx
               | Some e => if xltb e (Fin (/ 10 ^ 8)) then max_dtype hx else Float64
               end
           | Some t => t
           end).
  { unfold safe_eps in H. destruct svds; [injection H; auto|]. destruct eps as [e|]; [|injection H; auto]. destruct (xltb e (Fin (match _ with Float64 => _ | _ => _ end))); injection H; auto. }
  assert (F : / 2 ^ 52 < / 2) by (assert (2 < 2 ^ 52) by (simpl; lra); apply Rinv_lt_contravar; lra).
  unfold default_cutoff, finfo_eps. destruct work as [[| |e]|]; subst t; try lra.
  - specialize (H2 e eq_refl). lra.
  - unfold max_dtype. destruct eps as [e|]; [destruct (xltb _ _)|]; destruct hx; lra.
Qed.

Section Compute.
Variables (have_xprec have_gejsv : bool) (dd : R) (f : tfun).
Variable legendre : dtype -> nat -> res rule.
Variable run : svd_alg -> matrix -> Z -> usv.
Variable argsort : list R -> list nat.
Notation compute := (compute have_xprec have_gejsv dd f legendre run argsort).
Hypothesis Hleg : good_rules legendre.
Hypothesis Hsort : forall s, sorts s (argsort s).
Hypothesis Hrun : svd_shaped run.

Lemma nonempty_centro K eps cutoff ng work st svds r : compute K eps cutoff None ng work st svds = Ok (Some r) -> st <> Some SampleStrat ->
  (cutoff = None -> dd < / 2 /\ forall e, work = Some (OtherType e) -> e < / 2) -> (forall c, cutoff = Some (Fin c) -> c < 1) ->
  forall k, tfun_ok f -> 0 < k_lambda K ->
  (forall x y, -1 <= x <= 1 -> -1 <= y <= 1 -> has_value f K x y (k x y)) ->
  (forall x y, -1 < x < 1 -> -1 < y < 1 -> 0 < k x y) ->
  exists t n q gx gy alge he,
    legendre t n = Ok q /\ (forall m, ng = Some m -> n = m) /\
    piecewise q (half (segments_x K)) = Ok gx /\ piecewise q (half (segments_y K)) = Ok gy /\
    let Ae := weighted (fun x y => k x y + k x (- y)) gx gy in
    exact_svd (length (rx gx)) (length (rx gy)) Ae (run alge Ae he) -> ss r <> [].
Proof.
  intros Hc Hst Hd Hcut k Hf Hl Hk Pk.
  destruct (compute_centro_inv _ _ _ _ _ _ _ _ _ _ _ _ _ _ _ _ Hc Hst) as
    (t & safe & Ke & Ko & even & odd & Ae & Ao & alge & he & algo & ho & rtol & be' & bo' & re & ro & HKe & HKo & Se & So & Me & Mo & Hrt & Ht & Pe & Po & Hm & Qe & Qo & strategy & wn & Hsafe).
  destruct (reduced_segs _ _ Hleg _ _ _ _ _ _ _ HKe Se) as (X1 & Y1 & Hx & Hy & Mx & My & L1 & G1 & D1 & Gx1 & Gy1 & M1 & E1 & N1).
  destruct (reduced_segs _ _ Hleg _ _ _ _ _ _ _ HKo So) as (X2 & Y2 & _ & _ & _ & _ & L2 & G2 & D2 & Gx2 & Gy2 & M2 & E2 & N2).
  assert (Nn : s_n odd = s_n even) by congruence.
  exists t, (s_n even), (s_rule even), (s_gx even), (s_gy even), alge, he.
  split; [exact L1|]. split; [intros m ->; exact N1|]. split; [exact Gx1|]. split; [exact Gy1|]. cbv zeta.
  pose (ke := fun x y => k x y + k x (- y)). change (fun x y => k x y + k x (- y)) with ke.
  assert (We : weighted (fun x y => k x y + 1 * k x (- y)) (s_gx even) (s_gy even) = weighted ke (s_gx even) (s_gy even)).
  { unfold weighted. apply map2_ext. intros x w. apply map2_ext. intros y v. unfold ke. ring. }
  pose proof Me as Me'.
  assert (Ee : Ae = weighted ke (s_gx even) (s_gy even)).
  { rewrite (matrix_weighted even (fun x y => k x y + 1 * k x (- y))) in Me.
    - rewrite We in Me. congruence.
    - rewrite M1. exact (reduced_sampled f K k 1 Ke _ _ _ _ _ _ Hf Hl Hk HKe G1 D1 Hx Hy Gx1 Gy1). }
  intros Hse.
  destruct (truncate2 _ _ _ _ _ _ Ht) as (i & j & Pi & Pj).
  assert (Lx : (2 <= length (s_segs_x even))%nat) by (rewrite X1; apply Hx).
  assert (Ly : (2 <= length (s_segs_y even))%nat) by (rewrite Y1; apply Hy).
  assert (Lx' : (2 <= length (s_segs_x odd))%nat) by (rewrite X2; apply Hx).
  assert (Ly' : (2 <= length (s_segs_y odd))%nat) by (rewrite Y2; apply Hy).
  destruct (sampling_rect _ _ _ _ _ _ Se G1 Lx Ly ltac:(rewrite M1; exact (reduced_rect f Ke)) Me') as (m1 & n1 & T1 & T2 & T3).
  destruct (sampling_rect _ _ _ _ _ _ So G2 Lx' Ly' ltac:(rewrite M2; exact (reduced_rect f Ko)) Mo) as (m2 & n2 & T4 & T5 & T6).
  pose proof (svd_well run argsort Hrun alge Ae he _ _ T1 T2 T3 Qe) as R1. pose proof (svd_well run argsort Hrun algo Ao ho _ _ T4 T5 T6 Qo) as R2.
  destruct (well_post _ _ _ _ _ _ _ _ _ Se G1 Lx Ly R1 Pi Pe) as (S1 & On1 & P1 & _).
  destruct (well_post _ _ _ _ _ _ _ _ _ So G2 Lx' Ly' R2 Pj Po) as (S2 & On2 & P2 & _).
  rewrite X1, Y1 in On1. rewrite X2, Y2, Nn in On2.
  rewrite <- Mx, <- My in Hm. pose proof (Hsort (ss re ++ ss ro)) as Hs.
  destruct (lens argsort safe (s_n even) _ _ re ro Hx Hy On1 On2 Hs r Hm) as (Ls & _).
  assert (Hns : Forall (fun b : usv => nonincreasing (svals b)) [run alge Ae he; run algo Ao ho]).
  { repeat constructor; [destruct (run alge Ae he) as [[a b] c]|destruct (run algo Ao ho) as [[a b] c]]; tauto. }
  assert (N0 : Forall (fun x => 0 <= x) (svals (run alge Ae he))) by (destruct (run alge Ae he) as [[a b] c]; tauto).
  destruct (half_ends _ Hx) as (H1 & H2 & _). destruct (half_ends _ Hy) as (H3 & H4 & _).
  destruct (exact_pos (length (rx (s_gx even))) (length (rx (s_gy even))) (weighted ke (s_gx even) (s_gy even)) (run alge Ae he)) as (x & Hxi & Px).
  { rewrite Ee. exact Hse. } { exact N0. }
  { apply (positive_entry (s_n even) (s_rule even) (half (segments_x K)) (half (segments_y K))); auto; try apply Hx; try apply Hy.
    rewrite H1, H2, H3, H4. intros x y Hx0 Hy0. unfold ke. pose proof (Pk x y ltac:(lra) ltac:(lra)). pose proof (Pk x (- y) ltac:(lra) ltac:(lra)). lra. }
  destruct (truncate_ok _ _ _ _ Ht) as (c & cut & [-> Rc] & _).
  assert (C1 : c < 1). { destruct Hrt as [[E1' E2']|E1']; [|apply Hcut; auto]. injection E2' as ->. destruct (Hd E1') as [D1' D2']. exact (cutoff_small _ _ _ _ _ _ _ _ _ D1' D2' Hsafe). }
  destruct (kept_some _ _ _ Ht C1 Hns) as (b' & Hb' & Hne).
  { exists x. split; [|exact Px]. unfold all_values. cbn [flat_map]. apply in_or_app. left. exact Hxi. }
  intros E. rewrite E in Ls. cbn in Ls.
  destruct Hb' as [<-|[<-|[]]]; [rewrite <- S1 in Hne; destruct (ss re)|rewrite <- S2 in Hne; destruct (ss ro)]; try congruence; cbn in Ls; lia.
Qed.

Lemma nonempty_sample K eps cutoff ng work svds r : compute K eps cutoff None ng work (Some SampleStrat) svds = Ok (Some r) ->
  (cutoff = None -> dd < / 2 /\ forall e, work = Some (OtherType e) -> e < / 2) -> (forall c, cutoff = Some (Fin c) -> c < 1) ->
  forall k, (forall x y, -1 <= x <= 1 -> -1 <= y <= 1 -> has_value f K x y (k x y)) ->
  (forall x y, -1 < x < 1 -> -1 < y < 1 -> 0 < k x y) ->
  exists t n q gx gy alg h,
    legendre t n = Ok q /\ (forall m, ng = Some m -> n = m) /\
    piecewise q (segments_x K) = Ok gx /\ piecewise q (segments_y K) = Ok gy /\
    let A := weighted k gx gy in
    exact_svd (length (rx gx)) (length (rx gy)) A (run alg A h) -> ss r <> [].
Proof.
  intros Hc Hd Hcut k Hk Pk.
  destruct (compute_sample_inv _ _ _ _ _ _ _ _ _ _ _ _ _ _ _ Hc) as (t & safe & S & A & alg & h & rtol & b' & HS & HA & Hrt & Ht & Hp & Qp & strategy & wn & Hsafe).
  destruct (full_segs _ _ Hleg _ _ _ _ _ HS) as (X & Y & Ex & Ey & L & G & D & Px & Py & M & Es & N).
  exists t, (s_n S), (s_rule S), (s_gx S), (s_gy S), alg, h. split; [exact L|]. split; [intros m ->; exact N|]. split; [exact Px|]. split; [exact Py|]. cbv zeta.
  pose proof HA as HA'.
  rewrite (matrix_weighted S k) in HA by (rewrite M; exact (full_sampled f K k _ _ _ _ Hk G D Px Py)). injection HA as EA.
  intros Hse. rewrite EA in Hse. destruct (truncate1 _ _ _ _ Ht) as (i & Pi).
  assert (Lx : (2 <= length (s_segs_x S))%nat) by (rewrite X; apply Ex).
  assert (Ly : (2 <= length (s_segs_y S))%nat) by (rewrite Y; apply Ey).
  destruct (sampling_rect _ _ _ _ _ _ HS G Lx Ly ltac:(rewrite M; exact (kernel_rect f K)) HA') as (m1 & n1 & T1 & T2 & T3).
  pose proof (svd_well run argsort Hrun alg A h _ _ T1 T2 T3 Qp) as R1.
  destruct (well_post _ _ _ _ _ _ _ _ _ HS G Lx Ly R1 Pi Hp) as (S1 & _).
  assert (Hns : Forall (fun b : usv => nonincreasing (svals b)) [run alg A h]).
  { repeat constructor; destruct (run alg A h) as [[a b] c]; tauto. }
  assert (N0 : Forall (fun x => 0 <= x) (svals (run alg A h))) by (destruct (run alg A h) as [[a b] c]; tauto).
  destruct (segments_valid K) as [Vx Vy]. destruct (full_edges _ Vx) as (_ & X0 & X1 & _). destruct (full_edges _ Vy) as (_ & Y0 & Y1 & _).
  destruct (exact_pos _ _ A (run alg A h) Hse N0) as (x & Hxi & Pxx).
  { rewrite <- EA. apply (positive_entry (s_n S) (s_rule S) (segments_x K) (segments_y K)); auto.
    rewrite X0, X1, Y0, Y1. exact Pk. }
  destruct (truncate_ok _ _ _ _ Ht) as (c & cut & [-> Rc] & _).
  assert (C1 : c < 1). { destruct Hrt as [[E1' E2']|E1']; [|apply Hcut; auto]. injection E2' as ->. destruct (Hd E1') as [D1' D2']. exact (cutoff_small _ _ _ _ _ _ _ _ _ D1' D2' Hsafe). }
  destruct (kept_some _ _ _ Ht C1 Hns) as (b2 & Hb' & Hne).
  { exists x. split; [|exact Pxx]. unfold all_values. cbn [flat_map]. apply in_or_app. left. exact Hxi. }
  destruct Hb' as [<-|[]]. rewrite S1. exact Hne.
Qed.
End Compute.
