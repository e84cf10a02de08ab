(** Coefficients divided by the square root of 2, and the functions of both symmetries
    together, in rounded arithmetic. *)
From Coq Require Import String ZArith Arith Bool Reals Lra Lia Psatz FunctionalExtensionality.
From Coquelicot Require Import Coquelicot.
From Coq Require Import List Sorting.Sorted.
From Verif.Model Require Import Base Util Num Gauss Poly PolyIEEE SVE Kernel KernelIEEE GaussIEEE Compute SVEIEEE.
From Verif.Spec Require Import SGauss SPoly SFT SSVE SBasis SCompute SSingular SWhole SNear SComputed SKernelIEEE SGaussIEEE SSVEIEEE SRoundedCompute.
From Verif.Proofs Require Import BaseFacts SumFacts IntFacts LegFacts GaussFacts GaussExact PPolyFacts PPolyInt SVEFacts BasisPhys ComputeNodes ComputePost ComputeSampling ComputeError ComputeFull SingularEq EckartYoung SvdExists BestCuts GaussRound GaussRoundRule RoundedSVE Polar ComputedSVD NodesCore Perturb CoefRound CoefSegment CoefFun RoundVectors PerturbedBlock CarriedBlock.
Import ListNotations.
Open Scope R_scope.
Notation length := List.length.

Definition unhalf (rd : R -> R) (c : col) : col := Col (fun k i => rd (cdat c k i * rd (1 / rd (sqrt 2))) * sqrt 2) (csym c).
Definition unhalf_poly (rd : R -> R) (p : vpoly) : vpoly := VPoly (vgeom p) (map (unhalf rd) (vcols p)).
Definition unhalved (rd : R -> R) (r : sve_result) : sve_result := SVE (unhalf_poly rd (su r)) (ss r) (unhalf_poly rd (sv r)) (seps r).

Lemma root2_pos : 0 < sqrt 2 /\ sqrt 2 * sqrt 2 = 2.
Proof. split; [apply sqrt_lt_R0; lra|apply sqrt_sqrt; lra]. Qed.

(** * The factor *)
Lemma half_step u eta e ro x : small_errors u eta e -> u <= / 100000 -> rounding u eta ro ->
  Rabs (ro (x * ro (1 / ro (sqrt 2))) * sqrt 2 - x) <= 31 / 10 * u * Rabs x + 2 * eta.
Proof.
  intros Hs Hu Hr. destruct root2_pos as [P S2]. assert (P1 : 1 <= sqrt 2 <= 3 / 2) by (split; apply Rsqr_incr_0_var; unfold Rsqr; lra).
  pose proof (u_small u eta e Hs) as Pu. assert (He : 0 <= eta) by apply Hs.
  assert (Ee : eta <= u / 1000). { pose proof (eta_below u eta e 0 [] [] Hs eq_refl 1) as E. replace (u * 1 / 1000) with (u / 1000) in E by field. apply E. apply Rle_trans with (/ 1); [apply Rinv_le_contravar; [lra|apply pow_R1_Rle; lra]|lra]. }
  pose proof (proj1 Hr) as R1.
  assert (Q1 : Rabs (ro (sqrt 2) - sqrt 2) <= 101 / 100 * u * sqrt 2).
  { pose proof (R1 (sqrt 2)) as Q. rewrite (Rabs_pos_eq (sqrt 2)) in Q by lra. pose proof (Rmult_le_compat_l u 1 (sqrt 2) ltac:(lra) ltac:(lra)). lra. }
  pose proof (quotient_near u eta ro R1 Pu (101 / 100 * u) 1 (ro (sqrt 2)) (sqrt 2) P ltac:(lra) Q1) as Q2.
  set (h := ro (1 / ro (sqrt 2))) in *.
  assert (Q3 : Rabs (h * sqrt 2 - 1) <= 207 / 100 * u).
  { replace (h * sqrt 2 - 1) with ((h - 1 / sqrt 2) * sqrt 2) by (field; lra). rewrite Rabs_mult, (Rabs_pos_eq (sqrt 2)) by lra.
    rewrite (Rabs_pos_eq (1 / sqrt 2)) in Q2 by (apply Rlt_le, Rdiv_lt_0_compat; lra).
    apply Rle_trans with (((102 / 100 * (101 / 100 * u) + 102 / 100 * u) * (1 / sqrt 2) + eta) * sqrt 2); [apply Rmult_le_compat_r; lra|].
    replace (((102 / 100 * (101 / 100 * u) + 102 / 100 * u) * (1 / sqrt 2) + eta) * sqrt 2) with (102 / 100 * (101 / 100 * u) + 102 / 100 * u + eta * sqrt 2) by (field; lra).
    pose proof (Rmult_le_compat_l eta (sqrt 2) 2 He ltac:(lra)). lra. }
  pose proof (R1 (x * h)) as Q4. set (y := ro (x * h)) in *.
  replace (y * sqrt 2 - x) with ((y - x * h) * sqrt 2 + x * (h * sqrt 2 - 1)) by ring.
  eapply Rle_trans; [apply Rabs_triang|]. rewrite !Rabs_mult, (Rabs_pos_eq (sqrt 2)) by lra.
  assert (Ph : Rabs (h * sqrt 2) <= 101 / 100). { pose proof (Rabs_triang (h * sqrt 2 - 1) 1) as T. replace (h * sqrt 2 - 1 + 1) with (h * sqrt 2) in T by ring. rewrite Rabs_R1 in T. lra. }
  rewrite Rabs_mult, (Rabs_pos_eq (sqrt 2)) in Ph by lra. rewrite Rabs_mult in Q4. pose proof (Rabs_pos x) as Px.
  assert (T1 : Rabs (y - x * h) * sqrt 2 <= (u * (Rabs x * Rabs h) + eta) * sqrt 2) by (apply Rmult_le_compat_r; lra).
  assert (T2 : u * Rabs x * (Rabs h * sqrt 2) <= u * Rabs x * (101 / 100)) by (apply Rmult_le_compat_l; [apply Rmult_le_pos; lra|lra]).
  assert (T3 : Rabs x * Rabs (h * sqrt 2 - 1) <= Rabs x * (207 / 100 * u)) by (apply Rmult_le_compat_l; lra).
  pose proof (Rmult_le_compat_l eta (sqrt 2) (3 / 2) He ltac:(lra)) as T4. pose proof (Rmult_le_pos _ _ (Rlt_le _ _ (proj1 Pu)) Px). lra.
Qed.

Lemma unhalf_near u eta e ro th n q segs G us p sgs C : small_errors u eta e -> u <= / 100000 -> rounding u eta ro -> 0 <= th ->
  gauss_ok n q -> edges_ok segs -> piecewise q segs = Ok G -> fresh p -> gknots (vgeom p) = segs -> glen (vgeom p) = n ->
  Forall (fun v => length v = length (rx G)) us -> (length sgs <= length us)%nat -> (length sgs <= length (vcols p))%nat -> Forall (fun c => c = 1 \/ c = -1) sgs -> 0 <= C <= / 200 ->
  near_coefficients n q segs G us p sgs C (5 * (eta + th)) -> near_coefficients n q segs G us (unhalf_poly ro p) sgs (C + 4 * u) (8 * (eta + th)).
Proof.
  intros Hs Hu Hr Hth Hq Hsg HG Hp Hk Hl Hus Ls Lc Fs HC Hn l k i Hll Hkk Hi. specialize (Hn l k i Hll Hkk Hi).
  destruct (node_lengths n q segs G Hq Hsg HG) as [N1 _]. rewrite N1 in Hus. rewrite Forall_forall in Hus, Fs.
  assert (Lv : length (nth l us []) = ((length segs - 1) * n)%nat) by (apply Hus, nth_In; lia).
  pose proof (coefficient_size n q segs G Hq Hsg HG (vgeom p) (proj1 Hp) Hk Hl (nth l us []) k i Lv Hkk Hi) as Sz.
  cbn [unhalf_poly vcols]. rewrite (nth_map_in _ _ _ col0) by lia. unfold unhalf. cbn [cdat].
  pose proof (half_step u eta e ro (cdat (nth l (vcols p) col0) k i) Hs Hu Hr) as St. set (x := cdat (nth l (vcols p) col0) k i) in *.
  set (y := ro (x * ro (1 / ro (sqrt 2))) * sqrt 2) in *. set (c := collocate n q segs (sqrtw G) (nth l us []) k i) in *.
  assert (Sn : Rabs (nth l sgs 0) = 1). { destruct (Fs _ (nth_In sgs 0 Hll)) as [-> | ->]; [apply Rabs_R1|rewrite Rabs_left; lra]. }
  set (sg := nth l sgs 0) in *. pose proof (u_small u eta e Hs) as Pu. assert (He : 0 <= eta) by apply Hs.
  assert (X : Rabs x <= Rabs c + Rabs (sg * x - c)).
  { assert (Ex : Rabs x = Rabs (sg * x)) by (rewrite Rabs_mult, Sn; ring). rewrite Ex. pose proof (Rabs_triang c (sg * x - c)) as T. replace (c + (sg * x - c)) with (sg * x) in T by ring. exact T. }
  assert (Y : Rabs (sg * y - c) <= Rabs (y - x) + Rabs (sg * x - c)).
  { pose proof (Rabs_triang (sg * (y - x)) (sg * x - c)) as T. replace (sg * (y - x) + (sg * x - c)) with (sg * y - c) in T by ring. rewrite (Rabs_mult sg), Sn, Rmult_1_l in T. exact T. }
  set (pn := part_norm n (nth l us []) i) in *. assert (Pn : 0 <= pn) by apply sqrt_pos. pose proof (pos_INR k) as Pk. set (K := 2 * INR k + 1) in *. assert (PK : 1 <= K) by (unfold K; lra). clearbody K pn.
  clear - Hu Pu He Hth HC Hn Sz St X Y Pn PK. set (D := eta + th) in *. assert (PD : eta <= D) by (unfold D; lra). clearbody D.
  assert (KP : 0 <= K * pn) by (apply Rmult_le_pos; lra). assert (KD : eta <= K * D) by (apply Rle_trans with (1 * D); [lra|apply Rmult_le_compat_r; lra]).
  assert (CK : 0 <= C * (K * pn) <= / 200 * (K * pn)) by (split; [apply Rmult_le_pos; lra|apply Rmult_le_compat_r; lra]).
  set (B := Rabs (sg * x - c)) in *. assert (HB : B <= C * (K * pn) + 5 * (K * D)) by lra.
  assert (HX : Rabs x <= 201 / 200 * (K * pn) + 5 * (K * D)) by lra.
  assert (HU : u * Rabs x <= u * (201 / 200 * (K * pn)) + / 100000 * (5 * (K * D))).
  { apply Rle_trans with (u * (201 / 200 * (K * pn) + 5 * (K * D))); [apply Rmult_le_compat_l; lra|]. rewrite Rmult_plus_distr_l. apply Rplus_le_compat_l. apply Rmult_le_compat_r; lra. }
  assert (UP : 0 <= u * (K * pn)) by (apply Rmult_le_pos; lra). lra.
Qed.

(** * Both symmetries together *)
Lemma unhalf_mirror rd m sg c : mirror_col m sg (unhalf rd c) = mirror_col_rd rd m sg c.
Proof.
  destruct root2_pos as [P _]. apply functional_extensionality. intros k. apply functional_extensionality. intros i. unfold mirror_col, mirror_col_rd, unhalf. cbn [cdat].
  destruct (i <? m)%nat; field; lra.
Qed.
Lemma map2_unhalf rd m sgs cs : map2 (mirror_col m) sgs (map (unhalf rd) cs) = map2 (mirror_col_rd rd m) sgs cs.
Proof. revert cs. induction sgs as [|s sgs IH]; intros [|c cs]; cbn [map map2]; [reflexivity..|]. rewrite unhalf_mirror, IH. reflexivity. Qed.
Lemma take_unhalf rd cs idx : rd 0 = 0 -> take_idx (Col (fun _ _ => 0) 0) (map (unhalf rd) cs) idx = map (unhalf rd) (take_idx (Col (fun _ _ => 0) 0) cs idx).
Proof.
  intros Z. unfold take_idx. rewrite map_map. apply map_ext. intros i.
  assert (E : unhalf rd (Col (fun _ _ => 0) 0) = Col (fun _ _ => 0) 0).
  { unfold unhalf. cbn [cdat csym]. f_equal. apply functional_extensionality. intros k. apply functional_extensionality. intros j. rewrite Rmult_0_l, Z. ring. }
  rewrite <- E at 1. apply map_nth.
Qed.

Lemma merge_ideal rd argsort eps fx fy even odd r : rd 0 = 0 -> merge_rd rd argsort eps fx fy even odd = Ok r ->
  merge argsort eps fx fy (unhalved rd (ideal_sve even)) (unhalved rd (ideal_sve odd)) = Ok (ideal_sve r).
Proof.
  intros Z H. unfold merge_rd in H. unfold merge. cbn [unhalved ideal_sve su sv ss unhalf_poly ideal vgeom vcols ideal_geom gnseg glen].
  rewrite <- !map_app, !(take_unhalf rd) by auto. rewrite !map2_unhalf. cbv zeta in H.
  destruct (poly_init_rd _ (glen (vgeom (su even))) _ _ _ _) as [u|] eqn:E1; [|discriminate]. cbn [bind] in H.
  destruct (poly_init_rd _ (glen (vgeom (sv even))) _ _ _ _) as [v|] eqn:E2; [|discriminate]. cbn [bind] in H. injection H as <-.
  apply poly_init_rd_inv in E1 as (E1 & _). apply poly_init_rd_inv in E2 as (E2 & _). rewrite E1, E2. reflexivity.
Qed.

Lemma unhalved_on rd n hx hy r : sve_on n hx hy r -> sve_on n hx hy (unhalved rd r).
Proof. intros (Fu & Fv & K1 & K2 & G1 & G2 & L1 & L2). unfold sve_on, unhalved, unhalf_poly. cbn [su sv ss vgeom vcols]. rewrite !map_length. repeat (split; [assumption|]). auto. Qed.
