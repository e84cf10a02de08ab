(** A run of sve.compute with a decomposition whose vectors are not orthonormal: the
    left vector of a matrix with one row is 1.1 instead of 1. *)
From Coq Require Import String ZArith Arith Bool Reals Lra Lia Psatz.
From Flocq Require Import Core.
From Coquelicot Require Import Coquelicot.
From Coq Require Import List Sorting.Sorted Sorting.Permutation.
From Verif.Model Require Import Base Util Num Gauss Poly SVE Kernel Compute.
From Verif.Spec Require Import SGauss SPoly SFT SSVE SBasis SKernel SCompute SSingular SWhole SNear SComputed.
From Verif.Proofs Require Import BaseFacts SumFacts IntFacts LegFacts GaussFacts GaussExamples PPolyFacts SVEFacts BasisPhys KernelProps KernelSegs ComputeNodes ComputePost ComputeSampling ComputeMerge ComputeMerged ComputeError ComputeFull ComputeDefined ComputeExamples ComputeCase ComputedSVD.
Import ListNotations.
Open Scope R_scope.
Notation length := List.length.

Definition bent_svd (alg : svd_alg) (A : matrix) (h : Z) : usv := let '(us, s, vs) := row_svd alg A h in ([[11 / 10]], s, vs).
Lemma bent_svd_shaped : svd_shaped bent_svd.
Proof.
  intros alg A h m n H1 H2 H3 H4. pose proof (row_svd_shaped alg A h m n H1 H2 H3 H4) as H. unfold bent_svd. destruct A as [|row A]; cbn in *; exact H.
Qed.

Lemma bent_svd_computed alg row h : 0 < sumsq row -> computed_svd 1 (length row) [row] (bent_svd alg [row] h) (21 / 100) 0 (sqrt (sumsq row) / 10).
Proof.
  intros Hp. destruct (row_svd_exact alg row h Hp) as (_ & _ & _ & F2 & _ & O2 & _). pose proof (sqrt_lt_R0 _ Hp) as Hn. pose proof (sqrt_sqrt (sumsq row) ltac:(lra)) as Hs.
  assert (L : (1 <= length row)%nat). { destruct row; [unfold sumsq, rsum in Hp; cbn in Hp; lra|cbn; lia]. }
  unfold bent_svd, row_svd in *. set (n := sqrt (sumsq row)) in *. split; [|split; [|split; [|split; [|split]]]].
  - cbn. do 4 (split; [auto|]). split; [repeat constructor|exact F2].
  - split; [lra|]. unfold gram_error. cbn. unfold sumn, dot, rsum, Rsqr; cbn. lra.
  - split; [lra|]. unfold gram_error. rewrite sumn_zero; [unfold Rsqr; lra|]. intros l Hl. apply sumn_zero. intros j Hj. pose proof (O2 l j Hl Hj) as E. cbn [snd] in *. rewrite E, Rminus_eq_0. apply Rsqr_0.
  - split; cbn; [repeat constructor|]. constructor; [lra|constructor].
  - lra.
  - rewrite sumn_S. unfold sumn at 1. cbn [seq map fold_right]. rewrite Rplus_0_l.
    rewrite (sumn_ext _ _ (fun j => nth j row 0 * nth j row 0 * / 100)).
    + rewrite sumn_scal_r, <- sumsq_sumn. unfold Rsqr. rewrite <- Hs. right. field.
    + intros j Hj. unfold usv_entry, ment. unfold sumn. cbn [nth fold_right seq map length Rplus]. cbn [fold_right]. rewrite (nth_map_in _ _ _ 0) by auto. cbn. unfold Rsqr. field. lra.
Qed.

Lemma bent_case t n q gx gy alg h : leg1 t n = Ok q ->
  piecewise q (half (segments_x caseK)) = Ok gx -> piecewise q (half (segments_y caseK)) = Ok gy ->
  let Ae := weighted (fun x y => casek x y + casek x (- y)) gx gy in
  let Ao := weighted (fun x y => casek x y - casek x (- y)) gx gy in
  (exists de, computed_svd (length (rx gx)) (length (rx gy)) Ae (bent_svd alg Ae h) (21 / 100) 0 de) /\
  (exists d_o, computed_svd (length (rx gx)) (length (rx gy)) Ao (bent_svd alg Ao h) (21 / 100) 0 d_o).
Proof.
  intros Hq Ex Ey. unfold leg1 in Hq. destruct (n =? 1)%nat; [|discriminate]. injection Hq as <-. cbv zeta. split.
  - destruct (case_matrix _ _ _ (fun x y => casek x y + casek x (- y)) eq_refl Ex Ey) as (-> & row & -> & <- & Hr).
    + intros x y _ _. pose proof (casek_pos x y). pose proof (casek_pos x (- y)). lra.
    + eexists. apply bent_svd_computed; auto.
  - destruct (case_matrix _ _ _ (fun x y => casek x y - casek x (- y)) eq_refl Ex Ey) as (-> & row & -> & <- & Hr).
    + intros x y Hx Hy. pose proof (casek_odd x y Hx Hy). lra.
    + eexists. apply bent_svd_computed; auto.
Qed.

Definition bent_compute (have_xprec have_gejsv : bool) (dd : R) : res (option sve_result) :=
  compute have_xprec have_gejsv dd casef leg1 bent_svd sort_indices caseK None (Some (Fin 0)) None (Some 1%nat) (Some Float64) None (Some "default"%string).

Lemma bent_returns hx hg dd : exists r, bent_compute hx hg dd = Ok (Some r).
Proof.
  unfold bent_compute.
  destruct (compute_returns hx hg dd casef leg1 bent_svd sort_indices sort_indices_ok bent_svd_shaped caseK (Some 1%nat)) with
    (eps := @None xr) (cutoff := Some (Fin 0)) (n_sv := @None pynum) (work := Some Float64) (st := @None strat) (svds := Some "default"%string) as [o Ho].
  - intros t n [[= <-]|[H _]]; [|discriminate]. exists gauss1. split; [reflexivity|apply gauss1_ok].
  - right. right. left. reflexivity.
  - auto.
  - intros c [= <-]. exists 0. split; [reflexivity|lra].
  - discriminate.
  - destruct o as [r|]; [eauto|]. exfalso.
    destruct (compute_none_inv hx hg dd casef leg1 bent_svd sort_indices caseK (Some 1%nat) _ _ _ _ _ _ Ho) as
      (sg & Ks & t & safe & S & A & alg & h & kk & b' & Hsg & HK & HS & HA & Pk & Hp); [discriminate|].
    destruct (reduced_segs casef leg1 leg1_ok _ _ _ _ _ _ _ HK HS) as (X & Y & Hx & Hy & _ & _ & L & G & D & Gx & Gy & _ & _ & N).
    assert (Lx : (2 <= length (s_segs_x S))%nat) by (rewrite X; apply Hx).
    assert (Ly : (2 <= length (s_segs_y S))%nat) by (rewrite Y; apply Hy).
    assert (Hb : exists c ss vs, bent_svd alg A h = ([[11 / 10]], [c], [vs]) /\ ss = tt).
    { unfold bent_svd, row_svd. destruct A; repeat eexists. }
    destruct Hb as (c & _ & vs & Hb & _). rewrite Hb in Pk. unfold prefix_of in Pk. cbn [fst snd] in Pk. subst b'.
    destruct (sampling_post_some _ _ _ _ S (firstn kk [[11 / 10]]) (firstn kk [c]) (firstn kk [vs]) HS G Lx Ly) as [r Hr];
      [rewrite !firstn_length; reflexivity|rewrite !firstn_length; reflexivity| |rewrite Hr in Hp; discriminate].
    intros u Hu. rewrite X, case_half_x in Hu. cbn [s_n] in N. rewrite N in *.
    destruct (poly_init_ok _ _ _ _ _ _ Hu ltac:(cbn; lia)) as (G1 & G2 & G3 & G4); [repeat constructor; lra|].
    pose proof (poly_init_cols _ _ _ _ _ Hu) as Ec.
    assert (Ns : gnseg (vgeom u) = 1%nat) by (destruct G1 as (_ & Hl & _); rewrite G2 in Hl; cbn in Hl; lia).
    assert (R1 : gxmin (vgeom u) = 0 /\ gxmax (vgeom u) = 1) by (rewrite xmin_knot, xmax_knot, Ns; unfold knot; rewrite G2; split; reflexivity).
    split; [lra|]. intros c' Hc'. rewrite Ec, map_map in Hc'. apply in_map_iff in Hc' as (v & <- & Hv).
    assert (v = [11 / 10]). { destruct kk as [|kk]; [contradiction|]. cbn [firstn] in Hv. rewrite firstn_nil in Hv. destruct Hv as [Hv|[]]; auto. } subst v.
    rewrite (cval_seg _ G1 _ 0 1); [|rewrite Ns; lia|unfold knot; rewrite G2; cbn; lra|right; split; [auto|lra]].
    assert (Hhx : half_edges [0; 1]) by (rewrite <- case_half_x; exact Hx).
    rewrite case_half_x in Gx.
    pose proof (at_node _ _ _ _ G (proj1 Hhx) Gx (vgeom u) G1 G2 G3 [11 / 10] 0 0 eq_refl ltac:(cbn; lia)) as At.
    pose proof (weight_pos _ _ _ _ G (proj1 Hhx) Gx 0 ltac:(cbn; lia)) as Wx.
    assert (Hin : In (nth 0 (rx (s_gx S)) 0) (rx (s_gx S))).
    { destruct (node_lengths _ _ _ _ G (proj1 Hhx) Gx) as [Ln _]. cbn in Ln. apply nth_In. lia. }
    destruct (node_not_edge _ _ _ _ G (proj1 Hhx) Gx _ Hin) as [_ Bx]. cbn in Bx.
    rewrite (cval_seg _ G1 _ 0) in At; [|rewrite Ns; lia|unfold knot; rewrite G2; cbn; lra|left; unfold knot; rewrite G2; cbn; lra].
    assert (Hconst : forall c x y, seg_fun (vgeom u) c 0 x = seg_fun (vgeom u) c 0 y).
    { intros c0 x y. unfold seg_fun. rewrite G3. f_equal. }
    rewrite (Hconst _ 1 (nth 0 (rx (s_gx S)) 0)), At. pose proof (sqrt_lt_R0 _ Wx). cbn [nth]. apply Rgt_not_eq, Rdiv_lt_0_compat; lra.
Qed.

