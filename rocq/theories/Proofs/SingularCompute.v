(** Singular value equations of the result of sve.compute. *)
From Coq Require Import String ZArith Arith Bool Reals Lra Lia Psatz.
From Coquelicot Require Import Coquelicot.
From Coq Require Import List Sorting.Sorted Sorting.Permutation.
From Verif.Model Require Import Base Util Num Gauss Poly SVE Kernel Compute.
From Verif.Spec Require Import SGauss SPoly SFT SSVE SBasis SKernel SCompute SSingular.
From Verif.Proofs Require Import BaseFacts SumFacts IntFacts GaussFacts GaussExact PPolyFacts SVEFacts BasisPhys KernelProps KernelSegs HintFacts ComputeNodes ComputePost ComputeSampling ComputeMerge ComputeMerged ComputeError ComputeFull SingularEq.
Import ListNotations.
Open Scope R_scope.
Notation length := List.length.

Lemma piecewise_defined q h n g : gauss_ok n q -> edges_ok h -> piecewise q h = Ok g -> half_edges h -> exists G, piecewise q (mirrored h) = Ok G.
Proof.
  intros Hq Hh Hg He. destruct (proj1 (piecewise_spec q (mirrored h))) as (G & HG & _); [|eauto].
  assert (S := mirrored_sorted h He). clear - S. induction (mirrored h) as [|a [|b l] IH]; cbn; auto.
  inversion S as [|? ? S' F]; subst. split; [inversion F; auto|]. apply IH, S'.
Qed.

Section Compute.
Variables (have_xprec have_gejsv : bool) (dd : R) (f : tfun).
Variable legendre : dtype -> nat -> res rule.
Variable run : svd_alg -> matrix -> Z -> usv.
Variable argsort : list R -> list nat.
Notation compute := (compute have_xprec have_gejsv dd f legendre run argsort).
Hypothesis Hleg : good_rules legendre.
Hypothesis Hsort : forall s, sorts s (argsort s).

Section Centro.
Variables (K : kernel) (eps cutoff : option xr) (n_sv : option pynum) (ng : option nat) (work : option dtype) (st : option strat) (svds : option string) (r : sve_result).
Hypothesis Hc : compute K eps cutoff n_sv ng work st svds = Ok (Some r).
Hypothesis Hst : st <> Some SampleStrat.

Lemma singular_centro k : tfun_ok f -> 0 < k_lambda K ->
  (forall x y, -1 <= x <= 1 -> -1 <= y <= 1 -> has_value f K x y (k x y)) ->
  exists t n q gx gy GX GY alge he algo ho,
    legendre t n = Ok q /\ (forall m, ng = Some m -> n = m) /\
    piecewise q (half (segments_x K)) = Ok gx /\ piecewise q (half (segments_y K)) = Ok gy /\
    piecewise q (segments_x K) = Ok GX /\ piecewise q (segments_y K) = Ok GY /\
    let Ae := weighted (fun x y => k x y + k x (- y)) gx gy in
    let Ao := weighted (fun x y => k x y - k x (- y)) gx gy in
    singular_triples (length (rx gx)) (length (rx gy)) Ae (run alge Ae he) ->
    singular_triples (length (rx gx)) (length (rx gy)) Ao (run algo Ao ho) ->
    singular_system GX GY k r /\ quad_orthonormal GX (su r) /\ quad_orthonormal GY (sv r) /\ cut_errors GX GY k r /\
    orthonormal_functions (su r) /\ orthonormal_functions (sv r).
Proof.
  intros Hf Hl Hk.
  destruct (compute_centro_inv _ _ _ _ _ _ _ _ _ _ _ _ _ _ _ _ Hc Hst) as
    (t & safe & Ke & Ko & even & odd & Ae & Ao & alge & he & algo & ho & rtol & be' & bo' & re & ro & HKe & HKo & Se & So & Me & Mo & Hrt & Ht & Pe & Po & Hm & Qe & Qo & strategy & wn & Hsafe).
  destruct (reduced_segs _ _ Hleg _ _ _ _ _ _ _ HKe Se) as (X1 & Y1 & Hx & Hy & Mx & My & L1 & G1 & D1 & Gx1 & Gy1 & M1 & E1 & N1).
  destruct (reduced_segs _ _ Hleg _ _ _ _ _ _ _ HKo So) as (X2 & Y2 & _ & _ & _ & _ & L2 & G2 & D2 & Gx2 & Gy2 & M2 & E2 & N2).
  assert (Nn : s_n odd = s_n even) by congruence.
  assert (Rr : s_rule odd = s_rule even). { rewrite Nn in L2. rewrite L1 in L2. congruence. }
  assert (Gx : s_gx odd = s_gx even). { rewrite Rr, Gx1 in Gx2. congruence. }
  assert (Gy : s_gy odd = s_gy even). { rewrite Rr, Gy1 in Gy2. congruence. }
  destruct (piecewise_defined _ _ _ _ G1 (proj1 Hx) Gx1 Hx) as [GX HGX]. destruct (piecewise_defined _ _ _ _ G1 (proj1 Hy) Gy1 Hy) as [GY HGY].
  exists t, (s_n even), (s_rule even), (s_gx even), (s_gy even), GX, GY, alge, he, algo, ho.
  split; [exact L1|]. split; [intros m ->; exact N1|]. split; [exact Gx1|]. split; [exact Gy1|].
  split; [rewrite <- Mx; exact HGX|]. split; [rewrite <- My; exact HGY|]. cbv zeta.
  pose (ke := fun x y => k x y + k x (- y)). pose (ko := fun x y => k x y - k x (- y)).
  change (fun x y => k x y + k x (- y)) with ke. change (fun x y => k x y - k x (- y)) with ko.
  assert (We : weighted (fun x y => k x y + 1 * k x (- y)) (s_gx even) (s_gy even) = weighted ke (s_gx even) (s_gy even)).
  { unfold weighted. apply map2_ext. intros x w. apply map2_ext. intros y v. unfold ke. ring. }
  assert (Wo : weighted (fun x y => k x y + -1 * k x (- y)) (s_gx even) (s_gy even) = weighted ko (s_gx even) (s_gy even)).
  { unfold weighted. apply map2_ext. intros x w. apply map2_ext. intros y v. unfold ko. ring. }
  assert (Ee : Ae = weighted ke (s_gx even) (s_gy even)).
  { rewrite (matrix_weighted even (fun x y => k x y + 1 * k x (- y))) in Me.
    - rewrite We in Me. congruence.
    - rewrite M1. exact (reduced_sampled f K k 1 Ke _ _ _ _ _ _ Hf Hl Hk HKe G1 D1 Hx Hy Gx1 Gy1). }
  assert (Eo : Ao = weighted ko (s_gx even) (s_gy even)).
  { rewrite (matrix_weighted odd (fun x y => k x y + -1 * k x (- y))) in Mo.
    - rewrite Gx, Gy, Wo in Mo. congruence.
    - rewrite M2. exact (reduced_sampled f K k (-1) Ko _ _ _ _ _ _ Hf Hl Hk HKo G2 D2 Hx Hy Gx2 Gy2). }
  subst Ae Ao. intros Hse Hso.
  destruct (truncate2 _ _ _ _ _ _ Ht) as (i & j & Pi & Pj).
  assert (Lx : (2 <= length (s_segs_x even))%nat) by (rewrite X1; apply Hx).
  assert (Ly : (2 <= length (s_segs_y even))%nat) by (rewrite Y1; apply Hy).
  assert (Lx' : (2 <= length (s_segs_x odd))%nat) by (rewrite X2; apply Hx).
  assert (Ly' : (2 <= length (s_segs_y odd))%nat) by (rewrite Y2; apply Hy).
  assert (Hso3 : singular_triples (length (rx (s_gx odd))) (length (rx (s_gy odd))) (weighted ko (s_gx odd) (s_gy odd)) (run algo (weighted ko (s_gx even) (s_gy even)) ho)) by (rewrite Gx, Gy; exact Hso).
  destruct (block_on _ _ _ _ even ke _ be' i re Se G1 Lx Ly Hse Pi Pe) as (S1 & On1 & Ou1 & Ov1 & _ & P1).
  destruct (block_on _ _ _ _ odd ko _ bo' j ro So G2 Lx' Ly' Hso3 Pj Po) as (S2 & On2 & Ou2 & Ov2 & _ & P2).
  assert (Q1 : equations (s_gx even) (s_gy even) re ke) by (intros l Hll; exact (block_equations _ _ _ _ even ke _ be' i re Se G1 Lx Ly Hse Pi Pe l Hll)).
  assert (Q2 : equations (s_gx even) (s_gy even) ro ko).
  { rewrite <- Gx, <- Gy. intros l Hll; exact (block_equations _ _ _ _ odd ko _ bo' j ro So G2 Lx' Ly' Hso3 Pj Po l Hll). }
  rewrite X1, Y1 in On1. rewrite X2, Y2, Nn in On2.
  rewrite <- Mx, <- My in Hm. pose proof (Hsort (ss re ++ ss ro)) as Hs.
  assert (Cs : forall x y, -1 <= x <= 1 -> -1 <= y <= 1 -> k (- x) (- y) = k x y).
  { intros x' y' Hx' Hy'. pose proof (Hk x' y' Hx' Hy') as Va. apply (centrosymmetric f K x' y' _ Hf Hl) in Va.
    pose proof (Hk (- x') (- y') ltac:(lra) ltac:(lra)) as Vb. unfold has_value in Va, Vb. rewrite Va in Vb. injection Vb as Vb. auto. }
  pose proof (merged_orthonormal_u argsort safe (s_n even) _ _ re ro Hx Hy On1 On2 Hs r Hm Ou1 Ou2) as OU.
  pose proof (merged_orthonormal_v argsort safe (s_n even) _ _ re ro Hx Hy On1 On2 Hs r Hm Ov1 Ov2) as OV.
  assert (Sys : singular_system GX GY k r).
  { intros l u v. exact (merged_equations argsort safe (s_n even) _ _ re ro r Hx Hy On1 On2 Hs Hm _ _ _ _ _ k G1 Gx1 Gy1 HGX HGY Cs Q1 Q2 l u v). }
  assert (On : sve_on (s_n even) (mirrored (half (segments_x K))) (mirrored (half (segments_y K))) r).
  { destruct (merged argsort safe (s_n even) _ _ re ro Hx Hy On1 On2 Hs r Hm) as (Fu & Fv & K1 & K2 & Gl1 & Gl2 & _).
    destruct (lens argsort safe (s_n even) _ _ re ro Hx Hy On1 On2 Hs r Hm) as (Ls & Lu & Lv).
    pose proof On1 as (_ & _ & A3 & A4 & A5 & A6 & _). repeat split; try congruence; try apply Fu; try apply Fv. }
  pose proof On as (Fu & Fv & Ku & Kv & Gu & Gv & _).
  pose proof (mirror_edges _ Hx) as EX. pose proof (mirror_edges _ Hy) as EY.
  pose proof (ortho_at_nodes _ _ _ _ _ G1 EX HGX Fu Ku Gu OU) as QU. pose proof (ortho_at_nodes _ _ _ _ _ G1 EY HGY Fv Kv Gv OV) as QV.
  split; [exact Sys|]. split; [exact QU|]. split; [exact QV|]. split; [|auto].
  destruct (segments_valid K) as [Vx Vy]. destruct (full_edges _ Vx) as (_ & XX0 & XX1 & _). destruct (full_edges _ Vy) as (_ & YY0 & YY1 & _).
  apply (cut_error_of (s_n even) GX GY k r _ _ _ G1 EX EY HGX HGY On); rewrite ?Mx, ?My; auto.
Qed.
End Centro.

Section Sample.
Variables (K : kernel) (eps cutoff : option xr) (n_sv : option pynum) (ng : option nat) (work : option dtype) (svds : option string) (r : sve_result).
Hypothesis Hc : compute K eps cutoff n_sv ng work (Some SampleStrat) svds = Ok (Some r).

Lemma singular_sample k :
  (forall x y, -1 <= x <= 1 -> -1 <= y <= 1 -> has_value f K x y (k x y)) ->
  exists t n q GX GY alg h,
    legendre t n = Ok q /\ (forall m, ng = Some m -> n = m) /\ piecewise q (segments_x K) = Ok GX /\ piecewise q (segments_y K) = Ok GY /\
    let A := weighted k GX GY in
    singular_triples (length (rx GX)) (length (rx GY)) A (run alg A h) ->
    singular_system GX GY k r /\ quad_orthonormal GX (su r) /\ quad_orthonormal GY (sv r) /\ cut_errors GX GY k r /\
    orthonormal_functions (su r) /\ orthonormal_functions (sv r).
Proof.
  intros Hk.
  destruct (compute_sample_inv _ _ _ _ _ _ _ _ _ _ _ _ _ _ _ Hc) as (t & safe & S & A & alg & h & rtol & b' & HS & HA & Hrt & Ht & Hp & Qp & strategy & wn & Hsafe).
  destruct (full_segs _ _ Hleg _ _ _ _ _ HS) as (X & Y & Ex & Ey & L & G & D & Px & Py & M & Es & N).
  exists t, (s_n S), (s_rule S), (s_gx S), (s_gy S), alg, h. split; [exact L|]. split; [intros m ->; exact N|]. split; [exact Px|]. split; [exact Py|]. cbv zeta.
  rewrite (matrix_weighted S k) in HA by (rewrite M; exact (full_sampled f K k _ _ _ _ Hk G D Px Py)). injection HA as <-.
  intros Hs. destruct (truncate1 _ _ _ _ Ht) as (i & Pi).
  assert (Lx : (2 <= length (s_segs_x S))%nat) by (rewrite X; apply Ex).
  assert (Ly : (2 <= length (s_segs_y S))%nat) by (rewrite Y; apply Ey).
  destruct (block_on _ _ _ _ S k _ b' i r HS G Lx Ly Hs Pi Hp) as (Sr & On & Ou & Ov & _ & P).
  rewrite X, Y in On. pose proof On as (Fu & Fv & Ku & Kv & Gu & Gv & L1 & L2).
  destruct (segments_valid K) as [Vx Vy]. destruct (full_edges _ Vx) as (_ & X0 & X1 & X2 & X3). destruct (full_edges _ Vy) as (_ & Y0 & Y1 & Y2 & Y3).
  assert (Sys : singular_system (s_gx S) (s_gy S) k r).
  { intros l u v Ru Rv. destruct Fu as (F1 & F2 & F3). destruct Fv as (F4 & F5 & F6).
    destruct (on_range _ _ _ _ On) as (U1 & U2 & U3 & U4). rewrite X2 in U1. rewrite X3 in U2. rewrite Y2 in U3. rewrite Y3 in U4.
    pose proof (in_cols _ _ _ 1 F1 ltac:(lra) Ru) as Hl.
    apply represents_cval in Ru as (cu & Eu & Hu); auto; try lia. apply represents_cval in Rv as (cv & Ev & Hv); auto; try lia.
    apply (nth_error_nth _ _ col0) in Eu, Ev.
    destruct (block_equations _ _ _ _ S k _ b' i r HS G Lx Ly Hs Pi Hp l ltac:(lia)) as [B1 B2]. rewrite Eu, Ev in B1, B2.
    pose proof (node_not_edge _ _ _ _ G Ex Px) as Nx. pose proof (node_not_edge _ _ _ _ G Ey Py) as Ny.
    rewrite X0, X1 in Nx. rewrite Y0, Y1 in Ny. split.
    - intros x Hx. rewrite <- Hu by (rewrite U1, U2; destruct (Nx x Hx); lra). rewrite <- B1 by auto. apply quad_ext. intros y Hy. rewrite Hv by (rewrite U3, U4; destruct (Ny y Hy); lra). reflexivity.
    - intros y Hy. rewrite <- Hv by (rewrite U3, U4; destruct (Ny y Hy); lra). rewrite <- B2 by auto. apply quad_ext. intros x Hx. rewrite Hu by (rewrite U1, U2; destruct (Nx x Hx); lra). reflexivity. }
  pose proof (ortho_at_nodes _ _ _ _ _ G Ex Px Fu Ku Gu Ou) as QU. pose proof (ortho_at_nodes _ _ _ _ _ G Ey Py Fv Kv Gv Ov) as QV.
  split; [exact Sys|]. split; [exact QU|]. split; [exact QV|]. split; [|auto].
  apply (cut_error_of (s_n S) _ _ k r _ _ _ G Ex Ey Px Py On); auto.
Qed.
End Sample.
End Compute.
