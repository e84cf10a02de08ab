(** A concrete run of sve.compute: the logistic kernel with lambda = 1, the
    one-point rule and the decomposition of matrices with one row. *)
From Coq Require Import String ZArith Arith Bool Reals Lra Lia Psatz.
From Flocq Require Import Core.
From Coquelicot Require Import Coquelicot.
From Coq Require Import List Sorting.Sorted Sorting.Permutation.
From Verif.Model Require Import Base Util Num Gauss Poly SVE Kernel Compute.
From Verif.Spec Require Import SGauss SPoly SFT SSVE SBasis SKernel SCompute.
From Verif.Proofs Require Import BaseFacts SumFacts IntFacts LegFacts GaussFacts GaussExamples PPolyFacts SVEFacts BasisPhys KernelProps KernelSegs ComputeNodes ComputePost ComputeSampling ComputeMerge ComputeMerged ComputeError ComputeFull ComputeDefined ComputeExamples.
Import ListNotations.
Open Scope R_scope.
Notation length := List.length.

(** The one-point rule. *)
Definition gauss1 : rule := Rule [0] [2] [1] [1] (-1) 1.
Lemma gauss1_ok : gauss_ok 1 gauss1 /\ distances_ok gauss1.
Proof.
  split.
  - split; [lia|]. split; [reflexivity|]. split; [reflexivity|].
    split; [split; cbn; repeat constructor; lra|]. split; [repeat constructor; lra|]. split; [reflexivity|]. split; [reflexivity|].
    apply exact_monomials. intros k Hk. unfold quad, gauss1. simpl.
    do 2 (destruct k as [|k]; [simpl; lra|]). lia.
  - split; cbn; f_equal; lra.
Qed.
Definition leg1 (t : dtype) (n : nat) : res rule := if (n =? 1)%nat then Ok gauss1 else Raise ValueError.

(** Sorting of indices. *)
Definition sort_indices (s : list R) : list nat :=
  sort_by (fun i j => Rleb (nth i s 0) (nth j s 0)) (seq 0 (length s)).
Lemma sort_indices_ok s : sorts s (sort_indices s).
Proof.
  unfold sort_indices. split; [apply Permutation_sym, sort_by_perm|].
  apply (BaseFacts.StronglySorted_map (fun i j => Rleb (nth i s 0) (nth j s 0) = true)).
  - intros x y H. apply Rleb_true in H. exact H.
  - apply sort_by_sorted; [intros x y|intros x y z; rewrite !Rleb_true; lra].
    destruct (Rleb (nth x s 0) (nth y s 0)) eqn:E; [auto|]. right. apply Rleb_true. apply Rleb_false in E. lra.
Qed.

(** The decomposition of a matrix with one row. *)
Definition row_svd (alg : svd_alg) (A : matrix) (h : Z) : usv :=
  match A with
  | row :: _ => let n := sqrt (sumsq row) in ([[1]], [n], [map (fun x => x / n) row])
  | [] => ([[1]], [0], [[]])
  end.
Lemma row_svd_shape alg A h : let '(us, s, vs) := row_svd alg A h in
  length us = length s /\ length vs = length s /\ s <> [] /\ nonincreasing s /\ Forall (fun x => 0 <= x) s.
Proof.
  unfold row_svd. destruct A as [|row A]; cbn [length]; (split; [auto|]; split; [auto|]; split; [discriminate|]; split; [repeat constructor|]; constructor; [|constructor]); [lra|apply sqrt_pos].
Qed.

Lemma row_svd_shaped : svd_shaped row_svd.
Proof. intros alg A h m n _ _ _ _. apply row_svd_shape. Qed.

Lemma sumsq_nonneg l : 0 <= sumsq l.
Proof. rewrite sumsq_sumn. apply sumn_nonneg. intros. nra. Qed.
Lemma sumsq_pos l x : In x l -> x <> 0 -> 0 < sumsq l.
Proof.
  intros Hx Hn. apply (In_nth _ _ 0) in Hx as (i & Hi & <-). rewrite sumsq_sumn.
  eapply Rlt_le_trans; [|apply (sumn_pos_term _ _ i Hi)]; [cbv beta; nra|intros; nra].
Qed.

Lemma row_svd_exact alg row h : 0 < sumsq row -> exact_svd 1 (length row) [row] (row_svd alg [row] h).
Proof.
  intros Hp. pose proof (sqrt_lt_R0 _ Hp) as Hn. pose proof (sqrt_sqrt (sumsq row) ltac:(lra)) as Hs.
  unfold row_svd, exact_svd. set (n := sqrt (sumsq row)) in *. cbn [length].
  split; [auto|]. split; [auto|]. split; [repeat constructor|]. split; [repeat constructor; rewrite map_length; auto|].
  split; [|split].
  - intros l m Hl Hm. cbn in Hl, Hm. replace l with 0%nat by lia. replace m with 0%nat by lia. cbn. unfold dot. cbn. unfold rsum; cbn. lra.
  - intros l m Hl Hm. cbn in Hl, Hm. replace l with 0%nat by lia. replace m with 0%nat by lia. cbn [nth Nat.eqb].
    rewrite (dot_sumn _ _ (length row)) by (rewrite map_length; auto).
    rewrite (sumn_ext _ _ (fun i => nth i row 0 * nth i row 0 * (/ (n * n)))).
    + rewrite sumn_scal_r, <- sumsq_sumn, Hs. field. lra.
    + intros i Hi. rewrite !(nth_map_in _ _ _ 0) by auto. field. lra.
  - intros i j Hi Hj. replace i with 0%nat by lia. unfold ment. rewrite sumn_S. unfold sumn. cbn [nth fold_right seq map].
    rewrite (nth_map_in _ _ _ 0) by auto. cbn. field. lra.
Qed.

(** The segments. *)
Definition caseK : kernel := Logistic 1.
Lemma nzeros1 c m : (0 <= m)%Z -> nzeros c 1 m = Z.to_nat m.
Proof.
  intros Hm. unfold nzeros, log10. rewrite ln_1. replace (c * (0 / ln 10)) with 0 by (unfold Rdiv; ring).
  unfold np_round. rewrite (Znearest_imp _ 0 0); [rewrite Z.max_r by lia; reflexivity|]. rewrite Rminus_0_r, Rabs_R0. lra.
Qed.
Lemma case_half_x : half (segments_x caseK) = [0; 1].
Proof.
  unfold segments_x, diffs_x, caseK. rewrite nzeros1 by lia. change (Z.to_nat 1) with 1%nat. cbn [seq map].
  unfold segments_x_of, cumsum, cumsum_from. cbn [INR map last rev app].
  rewrite Rmult_0_r. assert (cosh 0 = 1) by (unfold cosh; rewrite Ropp_0, exp_0; lra). rewrite H.
  replace ((0 + 1 / 1) / (0 + 1 / 1)) with 1 by field. unfold half. cbn [filter].
  rewrite (proj2 (Rleb_false 0 (- (1)))) by lra. rewrite !(proj2 (Rleb_true _ _)) by lra. reflexivity.
Qed.
Lemma case_y : exists z, half_edges [0; z; 1] /\ half (segments_y caseK) = [0; z; 1].
Proof.
  destruct (segments_valid caseK) as [_ Vy]. apply half_edges_of in Vy. revert Vy.
  unfold segments_y, diffs_y, caseK. rewrite nzeros1 by lia. change (Z.to_nat 2) with 2%nat.
  cbn [Nat.ltb Nat.leb]. unfold leading_diffs. cbn [map firstn length seq skipn app].
  unfold segments_y_of, cumsum, cumsum_from. cbn [map last removelast rev app].
  set (z := (0 + 1523 / 100000) / (0 + 1523 / 100000 + 3314 / 100000) - 1).
  assert (Hz : -1 < z < 0).
  { unfold z. replace ((0 + 1523 / 100000) / (0 + 1523 / 100000 + 3314 / 100000)) with (1523 / 4837) by field. lra. }
  unfold half. cbn [filter]. rewrite (proj2 (Rleb_false 0 (-1))) by lra. rewrite (proj2 (Rleb_false 0 z)) by lra.
  rewrite !(proj2 (Rleb_true _ _)) by lra. intros H. exists (- z). split; [exact H|reflexivity].
Qed.

(** The kernel. *)
Definition casef : tfun := TFun exp (fun x => exp x - 1) sinh cosh.
Lemma casef_ok : tfun_ok casef.
Proof. unfold tfun_ok, casef. cbn. auto. Qed.
Definition casek (x y : R) : R := logistic_formula 1 x y.
Lemma casek_value x y : -1 <= x <= 1 -> -1 <= y <= 1 -> has_value casef caseK x y (casek x y).
Proof. intros Hx Hy. apply (logistic_has_value casef 1 x y _ casef_ok ltac:(lra) Hx Hy). reflexivity. Qed.
Lemma casek_pos x y : 0 < casek x y.
Proof. unfold casek, logistic_formula. apply Rdiv_lt_0_compat; [apply exp_pos|]. pose proof (exp_pos (- (1) * y)). lra. Qed.
Lemma casek_odd x y : 0 < x -> 0 < y -> casek x y - casek x (- y) < 0.
Proof.
  intros Hx Hy. unfold casek, logistic_formula.
  set (a := exp (- (1) * y * (x + 1) / 2)). 
  assert (E : exp (- (1) * - y * (x + 1) / 2) / (1 + exp (- (1) * - y)) = exp (- (1) * y * (1 - x) / 2) / (1 + exp (- (1) * y))).
  { replace (- (1) * - y * (x + 1) / 2) with (- (1) * y * (1 - x) / 2 + y) by field.
    replace (- (1) * - y) with y by ring. replace (exp (- (1) * y)) with (/ exp y) by (rewrite <- exp_Ropp; f_equal; ring).
    rewrite exp_plus. pose proof (exp_pos y). field. lra. }
  rewrite E. pose proof (exp_pos (- (1) * y)) as P.
  assert (a < exp (- (1) * y * (1 - x) / 2)) by (apply exp_increasing; nra).
  assert (0 < / (1 + exp (- (1) * y))) by (apply Rinv_0_lt_compat; lra). unfold Rdiv. nra.
Qed.

(** The matrices have one row, which is not zero. *)
Lemma case_matrix q gx gy k : q = gauss1 ->
  piecewise q (half (segments_x caseK)) = Ok gx -> piecewise q (half (segments_y caseK)) = Ok gy ->
  (forall x y, 0 < x -> 0 < y -> k x y <> 0) ->
  length (rx gx) = 1%nat /\ exists row, weighted k gx gy = [row] /\ length row = length (rx gy) /\ 0 < sumsq row.
Proof.
  intros -> Ex Ey Hk. destruct case_y as (z & Hz & Ez). rewrite Ez in Ey. rewrite case_half_x in Ex.
  assert (Hx : half_edges [0; 1]) by (repeat split; try (cbn; lia); repeat constructor; lra).
  destruct gauss1_ok as [G D].
  destruct (node_lengths _ _ _ _ G (proj1 Hx) Ex) as [N1 N2]. destruct (node_lengths _ _ _ _ G (proj1 Hz) Ey) as [N3 N4].
  cbn in N1, N2, N3, N4. split; [auto|].
  pose proof (node_not_edge _ _ _ _ G (proj1 Hx) Ex) as Nx. pose proof (node_not_edge _ _ _ _ G (proj1 Hz) Ey) as Ny. cbn [nth length Nat.sub] in Nx, Ny.
  pose proof (weight_pos _ _ _ _ G (proj1 Hx) Ex 0 ltac:(cbn; lia)) as Wx. pose proof (weight_pos _ _ _ _ G (proj1 Hz) Ey 0 ltac:(cbn; lia)) as Wy.
  unfold weighted. destruct (rx gx) as [|x [|]]; try discriminate. destruct (rw gx) as [|w [|]]; try discriminate. cbn [map2].
  eexists. split; [reflexivity|]. split; [rewrite map2_length; lia|].
  destruct (rx gy) as [|y ys]; [discriminate|]. destruct (rw gy) as [|v vs]; [discriminate|]. cbn [map2].
  eapply sumsq_pos; [left; reflexivity|]. cbn [nth] in Wx, Wy.
  pose proof (sqrt_lt_R0 _ Wx). pose proof (sqrt_lt_R0 _ Wy). destruct (Nx x (or_introl eq_refl)) as [_ Bx]. destruct (Ny y (or_introl eq_refl)) as [_ By].
  specialize (Hk x y ltac:(lra) ltac:(lra)). apply Rmult_integral_contrapositive_currified; [apply Rmult_integral_contrapositive_currified|]; lra.
Qed.

Lemma leg1_ok t n q : leg1 t n = Ok q -> gauss_ok n q /\ distances_ok q.
Proof. unfold leg1. destruct (Nat.eqb_spec n 1) as [->|]; [|discriminate]. intros [= <-]. apply gauss1_ok. Qed.

Lemma case_svd t n q gx gy alg h : leg1 t n = Ok q ->
  piecewise q (half (segments_x caseK)) = Ok gx -> piecewise q (half (segments_y caseK)) = Ok gy ->
  let Ae := weighted (fun x y => casek x y + casek x (- y)) gx gy in
  let Ao := weighted (fun x y => casek x y - casek x (- y)) gx gy in
  exact_svd (length (rx gx)) (length (rx gy)) Ae (row_svd alg Ae h) /\
  exact_svd (length (rx gx)) (length (rx gy)) Ao (row_svd alg Ao h).
Proof.
  intros Hq Ex Ey. unfold leg1 in Hq. destruct (n =? 1)%nat; [|discriminate]. injection Hq as <-. cbv zeta. split.
  - destruct (case_matrix _ _ _ (fun x y => casek x y + casek x (- y)) eq_refl Ex Ey) as (-> & row & -> & <- & Hr).
    + intros x y _ _. pose proof (casek_pos x y). pose proof (casek_pos x (- y)). lra.
    + apply row_svd_exact; auto.
  - destruct (case_matrix _ _ _ (fun x y => casek x y - casek x (- y)) eq_refl Ex Ey) as (-> & row & -> & <- & Hr).
    + intros x y Hx Hy. pose proof (casek_odd x y Hx Hy). lra.
    + apply row_svd_exact; auto.
Qed.

Definition case_compute (have_xprec have_gejsv : bool) (dd : R) : res (option sve_result) :=
  compute have_xprec have_gejsv dd casef leg1 row_svd sort_indices caseK None (Some (Fin 0)) None (Some 1%nat) (Some Float64) None (Some "default"%string).

Lemma case_returns hx hg dd : exists r, case_compute hx hg dd = Ok (Some r).
Proof.
  unfold case_compute.
  destruct (compute_returns hx hg dd casef leg1 row_svd sort_indices sort_indices_ok row_svd_shaped caseK (Some 1%nat)) with
    (eps := @None xr) (cutoff := Some (Fin 0)) (n_sv := @None pynum) (work := Some Float64) (st := @None strat) (svds := Some "default"%string) as [o Ho].
  - intros t n [[= <-]|[H _]]; [|discriminate]. exists gauss1. split; [reflexivity|apply gauss1_ok].
  - right. right. left. reflexivity.
  - auto.
  - intros c [= <-]. exists 0. split; [reflexivity|lra].
  - discriminate.
  - destruct o as [r|]; [eauto|]. exfalso.
    destruct (compute_none_inv hx hg dd casef leg1 row_svd sort_indices caseK (Some 1%nat) _ _ _ _ _ _ Ho) as
      (sg & Ks & t & safe & S & A & alg & h & kk & b' & Hsg & HK & HS & HA & Pk & Hp); [discriminate|].
    destruct (reduced_segs casef leg1 leg1_ok _ _ _ _ _ _ _ HK HS) as (X & Y & Hx & Hy & _ & _ & L & G & D & Gx & Gy & _ & _ & N).
    assert (Lx : (2 <= length (s_segs_x S))%nat) by (rewrite X; apply Hx).
    assert (Ly : (2 <= length (s_segs_y S))%nat) by (rewrite Y; apply Hy).
    assert (Hb : exists c ss vs, row_svd alg A h = ([[1]], [c], [vs]) /\ ss = tt).
    { unfold row_svd. destruct A; repeat eexists. }
    destruct Hb as (c & _ & vs & Hb & _). rewrite Hb in Pk. unfold prefix_of in Pk. cbn [fst snd] in Pk. subst b'.
    destruct (sampling_post_some _ _ _ _ S (firstn kk [[1]]) (firstn kk [c]) (firstn kk [vs]) HS G Lx Ly) as [r Hr];
      [rewrite !firstn_length; reflexivity|rewrite !firstn_length; reflexivity| |rewrite Hr in Hp; discriminate].
    intros u Hu. rewrite X, case_half_x in Hu. cbn [s_n] in N. rewrite N in *.
    destruct (poly_init_ok _ _ _ _ _ _ Hu ltac:(cbn; lia)) as (G1 & G2 & G3 & G4); [repeat constructor; lra|].
    pose proof (poly_init_cols _ _ _ _ _ Hu) as Ec.
    assert (Ns : gnseg (vgeom u) = 1%nat) by (destruct G1 as (_ & Hl & _); rewrite G2 in Hl; cbn in Hl; lia).
    assert (R1 : gxmin (vgeom u) = 0 /\ gxmax (vgeom u) = 1) by (rewrite xmin_knot, xmax_knot, Ns; unfold knot; rewrite G2; split; reflexivity).
    split; [lra|]. intros c' Hc'. rewrite Ec, map_map in Hc'. apply in_map_iff in Hc' as (v & <- & Hv).
    assert (v = [1]). { destruct kk as [|kk]; [contradiction|]. cbn [firstn] in Hv. rewrite firstn_nil in Hv. destruct Hv as [Hv|[]]; auto. } subst v.
    rewrite (cval_seg _ G1 _ 0 1); [|rewrite Ns; lia|unfold knot; rewrite G2; cbn; lra|right; split; [auto|lra]].
    assert (Hhx : half_edges [0; 1]) by (rewrite <- case_half_x; exact Hx).
    rewrite case_half_x in Gx.
    pose proof (at_node _ _ _ _ G (proj1 Hhx) Gx (vgeom u) G1 G2 G3 [1] 0 0 eq_refl ltac:(cbn; lia)) as At.
    pose proof (weight_pos _ _ _ _ G (proj1 Hhx) Gx 0 ltac:(cbn; lia)) as Wx.
    assert (Hin : In (nth 0 (rx (s_gx S)) 0) (rx (s_gx S))).
    { destruct (node_lengths _ _ _ _ G (proj1 Hhx) Gx) as [Ln _]. cbn in Ln. apply nth_In. lia. }
    destruct (node_not_edge _ _ _ _ G (proj1 Hhx) Gx _ Hin) as [_ Bx]. cbn in Bx.
    rewrite (cval_seg _ G1 _ 0) in At; [|rewrite Ns; lia|unfold knot; rewrite G2; cbn; lra|left; unfold knot; rewrite G2; cbn; lra].
    assert (Hconst : forall c x y, seg_fun (vgeom u) c 0 x = seg_fun (vgeom u) c 0 y).
    { intros c0 x y. unfold seg_fun. rewrite G3. f_equal. }
    rewrite (Hconst _ 1 (nth 0 (rx (s_gx S)) 0)), At. pose proof (sqrt_lt_R0 _ Wx). cbn [nth]. apply Rgt_not_eq, Rdiv_lt_0_compat; lra.
Qed.

(** * The strategy without symmetrisation *)
(** The decomposition of a matrix with two rows of the same norm. *)
Definition pair_svd (alg : svd_alg) (A : matrix) (h : Z) : usv :=
  match A with
  | [a; b] =>
      let e := map2 Rplus a b in let o := map2 Rminus a b in
      let ne := sqrt (sumsq e) in let no := sqrt (sumsq o) in
      if Rleb no ne
      then ([[/ sqrt 2; / sqrt 2]; [/ sqrt 2; - / sqrt 2]], [ne / sqrt 2; no / sqrt 2], [map (fun x => x / ne) e; map (fun x => x / no) o])
      else row_svd alg A h
  | _ => row_svd alg A h
  end.
Lemma pair_svd_shape alg A h : let '(us, s, vs) := pair_svd alg A h in
  length us = length s /\ length vs = length s /\ s <> [] /\ nonincreasing s /\ Forall (fun x => 0 <= x) s.
Proof.
  unfold pair_svd. destruct A as [|a [|b [|]]]; try apply row_svd_shape. cbv zeta.
  destruct (Rleb _ _) eqn:E; [|apply row_svd_shape]. apply Rleb_true in E.
  pose proof (sqrt_lt_R0 2 ltac:(lra)) as H2. apply Rinv_0_lt_compat in H2.
  cbn [length]. split; [auto|]. split; [auto|]. split; [discriminate|]. split.
  - constructor; [constructor; constructor|]. constructor; [|constructor]. unfold Rdiv. apply Rmult_le_compat_r; lra.
  - constructor; [|constructor; [|constructor]]; apply Rmult_le_pos; try lra; apply sqrt_pos.
Qed.
Lemma pair_svd_shaped : svd_shaped pair_svd.
Proof. intros alg A h m n _ _ _ _. apply pair_svd_shape. Qed.
Lemma pair_svd_exact alg h a0 a1 a2 a3 b0 b1 b2 b3 :
  a0 * a0 + a1 * a1 + a2 * a2 + a3 * a3 = b0 * b0 + b1 * b1 + b2 * b2 + b3 * b3 ->
  0 < a0 * b0 + a1 * b1 + a2 * b2 + a3 * b3 -> a0 <> b0 ->
  exact_svd 2 4 [[a0; a1; a2; a3]; [b0; b1; b2; b3]] (pair_svd alg [[a0; a1; a2; a3]; [b0; b1; b2; b3]] h) /\
  fst (fst (pair_svd alg [[a0; a1; a2; a3]; [b0; b1; b2; b3]] h)) = [[/ sqrt 2; / sqrt 2]; [/ sqrt 2; - / sqrt 2]].
Proof.
  intros Eq Pos Ne. unfold pair_svd. cbv zeta. cbn [map2].
  pose proof (sqrt_lt_R0 2 ltac:(lra)) as H2. pose proof (sqrt_sqrt 2 ltac:(lra)) as S2.
  assert (Se : sumsq [a0 + b0; a1 + b1; a2 + b2; a3 + b3] = (a0 + b0) * (a0 + b0) + (a1 + b1) * (a1 + b1) + (a2 + b2) * (a2 + b2) + (a3 + b3) * (a3 + b3)) by (unfold sumsq, rsum; cbn; ring).
  assert (So : sumsq [a0 - b0; a1 - b1; a2 - b2; a3 - b3] = (a0 - b0) * (a0 - b0) + (a1 - b1) * (a1 - b1) + (a2 - b2) * (a2 - b2) + (a3 - b3) * (a3 - b3)) by (unfold sumsq, rsum; cbn; ring).
  assert (Po : 0 < sumsq [a0 - b0; a1 - b1; a2 - b2; a3 - b3]) by (apply (sumsq_pos _ (a0 - b0)); [left; auto|lra]).
  assert (Le : sumsq [a0 - b0; a1 - b1; a2 - b2; a3 - b3] <= sumsq [a0 + b0; a1 + b1; a2 + b2; a3 + b3]) by (rewrite Se, So; nra).
  rewrite (proj2 (Rleb_true _ _)) by (apply sqrt_le_1_alt; exact Le).
  assert (Pe : 0 < sumsq [a0 + b0; a1 + b1; a2 + b2; a3 + b3]) by lra.
  split; [|reflexivity].
  pose proof (sqrt_lt_R0 _ Po) as Ho. pose proof (sqrt_lt_R0 _ Pe) as He.
  pose proof (sqrt_sqrt _ (Rlt_le _ _ Po)) as Qo. pose proof (sqrt_sqrt _ (Rlt_le _ _ Pe)) as Qe.
  set (no := sqrt (sumsq [a0 - b0; a1 - b1; a2 - b2; a3 - b3])) in *. set (ne := sqrt (sumsq [a0 + b0; a1 + b1; a2 + b2; a3 + b3])) in *.
  rewrite Se in Qe. rewrite So in Qo. clearbody ne no. set (q := sqrt 2) in *. clearbody q. clear Se So Po Pe Le.
  assert (Q2 : / q * / q = / 2) by (rewrite <- Rinv_mult, S2; auto).
  unfold exact_svd. split; [reflexivity|]. split; [reflexivity|]. split; [repeat constructor|]. split; [repeat constructor|].
  split; [|split].
  - intros [|[|l]] [|[|m]] Hl Hm; cbn in Hl, Hm; try lia; unfold dot, rsum; cbn; lra.
  - intros [|[|l]] [|[|m]] Hl Hm; cbn in Hl, Hm; try lia; unfold dot, rsum; cbn.
    + transitivity (((a0 + b0) * (a0 + b0) + (a1 + b1) * (a1 + b1) + (a2 + b2) * (a2 + b2) + (a3 + b3) * (a3 + b3)) / (ne * ne)); [field; lra|rewrite <- Qe; field; lra].
    + transitivity (((a0 * a0 + a1 * a1 + a2 * a2 + a3 * a3) - (b0 * b0 + b1 * b1 + b2 * b2 + b3 * b3)) / (ne * no)); [field; lra|rewrite Eq; field; lra].
    + transitivity (((a0 * a0 + a1 * a1 + a2 * a2 + a3 * a3) - (b0 * b0 + b1 * b1 + b2 * b2 + b3 * b3)) / (ne * no)); [field; lra|rewrite Eq; field; lra].
    + transitivity (((a0 - b0) * (a0 - b0) + (a1 - b1) * (a1 - b1) + (a2 - b2) * (a2 - b2) + (a3 - b3) * (a3 - b3)) / (no * no)); [field; lra|rewrite <- Qo; field; lra].
  - assert (G1 : forall x y, / q * (ne / q) * ((x + y) / ne) + / q * (no / q) * ((x - y) / no) = x).
    { intros x y. transitivity (/ q * / q * ((x + y) + (x - y))); [field; lra|rewrite Q2; lra]. }
    assert (G2 : forall x y, / q * (ne / q) * ((x + y) / ne) + - / q * (no / q) * ((x - y) / no) = y).
    { intros x y. transitivity (/ q * / q * ((x + y) - (x - y))); [field; lra|rewrite Q2; lra]. }
    intros [|[|i]] [|[|[|[|j]]]] Hi Hj; try lia; unfold ment; cbn [nth length]; unfold sumn; cbn; rewrite Rplus_0_l, ?G1, ?G2; reflexivity.
Qed.

Lemma case_full_x : segments_x caseK = [-1; 0; 1].
Proof.
  unfold segments_x, diffs_x, caseK. rewrite nzeros1 by lia. change (Z.to_nat 1) with 1%nat. cbn [seq map].
  unfold segments_x_of, cumsum, cumsum_from. cbn [INR map last rev app].
  rewrite Rmult_0_r. assert (cosh 0 = 1) by (unfold cosh; rewrite Ropp_0, exp_0; lra). rewrite H.
  replace ((0 + 1 / 1) / (0 + 1 / 1)) with 1 by field. reflexivity.
Qed.
Lemma case_full_y : exists z, -1 < z < 0 /\ segments_y caseK = [-1; z; 0; - z; 1].
Proof.
  unfold segments_y, diffs_y, caseK. rewrite nzeros1 by lia. change (Z.to_nat 2) with 2%nat.
  cbn [Nat.ltb Nat.leb]. unfold leading_diffs. cbn [map firstn length seq skipn app].
  unfold segments_y_of, cumsum, cumsum_from. cbn [map last removelast rev app].
  set (z := (0 + 1523 / 100000) / (0 + 1523 / 100000 + 3314 / 100000) - 1).
  exists z. split; [|reflexivity].
  unfold z. replace ((0 + 1523 / 100000) / (0 + 1523 / 100000 + 3314 / 100000)) with (1523 / 4837) by field. lra.
Qed.

Lemma casek_flip x y : casek (- x) (- y) = casek x y.
Proof.
  unfold casek, logistic_formula.
  replace (- (1) * - y * (- x + 1) / 2) with (- (1) * y * (x + 1) / 2 + y) by field.
  replace (- (1) * - y) with y by ring. replace (exp (- (1) * y)) with (/ exp y) by (rewrite <- exp_Ropp; f_equal; ring).
  rewrite exp_plus. pose proof (exp_pos y). field. lra.
Qed.

Lemma case_svd_full t n q gx gy alg h : leg1 t n = Ok q ->
  piecewise q (segments_x caseK) = Ok gx -> piecewise q (segments_y caseK) = Ok gy ->
  let A := weighted casek gx gy in
  exact_svd (length (rx gx)) (length (rx gy)) A (pair_svd alg A h) /\
  fst (fst (pair_svd alg A h)) = [[/ sqrt 2; / sqrt 2]; [/ sqrt 2; - / sqrt 2]].
Proof.
  intros Hq Ex Ey. unfold leg1 in Hq. destruct (n =? 1)%nat; [|discriminate]. injection Hq as <-. cbv zeta.
  destruct case_full_y as (z & Hz & Ez). rewrite Ez in Ey. rewrite case_full_x in Ex.
  destruct gauss1_ok as [G D].
  assert (Ox : edges_ok [-1; 0; 1]) by (split; [cbn; lia|repeat constructor; lra]).
  assert (Oy : edges_ok [-1; z; 0; - z; 1]) by (split; [cbn; lia|repeat constructor; lra]).
  destruct (pieces _ _ _ Ox Ex) as [X W]. destruct (pieces _ _ _ Oy Ey) as [Y V].
  unfold init in *. cbn [removelast tl map2 map concat app reseat rx rw gauss1 ra rb] in X, W, Y, V.
  assert (X' : rx gx = [- (1 / 2); 1 / 2]) by (rewrite X; cbn; repeat apply (f_equal2 cons); auto; field).
  assert (W' : rw gx = [1; 1]) by (rewrite W; cbn; repeat apply (f_equal2 cons); auto; field).
  assert (Y' : rx gy = [- ((1 - z) / 2); - (- z / 2); - z / 2; (1 - z) / 2]) by (rewrite Y; cbn; repeat apply (f_equal2 cons); auto; field).
  assert (V' : rw gy = [1 + z; - z; - z; 1 + z]) by (rewrite V; cbn; repeat apply (f_equal2 cons); auto; field).
  unfold weighted. rewrite X', W', Y', V'. cbn [map2 length]. rewrite sqrt_1.
  set (a := (1 - z) / 2). set (b := - z / 2). set (v := sqrt (1 + z)). set (w := sqrt (- z)).
  assert (Pv : 0 < v) by (apply sqrt_lt_R0; lra). assert (Pw : 0 < w) by (apply sqrt_lt_R0; lra).
  assert (Pp : forall x y, 0 < casek x y) by apply casek_pos.
  rewrite !casek_flip.
  assert (F1 : casek (1 / 2) (- a) = casek (- (1 / 2)) a) by (rewrite <- (casek_flip (- (1 / 2)) a); f_equal; lra).
  assert (F2 : casek (1 / 2) (- b) = casek (- (1 / 2)) b) by (rewrite <- (casek_flip (- (1 / 2)) b); f_equal; lra).
  rewrite F1, F2. apply pair_svd_exact.
  - ring.
  - assert (M : forall p q, 0 < p -> 0 < q -> 0 < p * 1 * v * (q * 1 * v)) by (intros; repeat apply Rmult_lt_0_compat; lra).
    assert (M' : forall p q, 0 < p -> 0 < q -> 0 < p * 1 * w * (q * 1 * w)) by (intros; repeat apply Rmult_lt_0_compat; lra).
    repeat apply Rplus_lt_0_compat; auto.
  - rewrite <- F1. pose proof (casek_odd (1 / 2) a ltac:(lra) ltac:(unfold a; lra)). intros E.
    assert (casek (1 / 2) a * v = casek (1 / 2) (- a) * v) by lra. apply Rmult_eq_reg_r in H0; lra.
Qed.

Definition case_sample (have_xprec have_gejsv : bool) (dd : R) : res (option sve_result) :=
  compute have_xprec have_gejsv dd casef leg1 pair_svd sort_indices caseK None (Some (Fin 0)) None (Some 1%nat) (Some Float64) (Some SampleStrat) (Some "default"%string).

Lemma case_sample_returns hx hg dd : exists r, case_sample hx hg dd = Ok (Some r).
Proof.
  unfold case_sample.
  destruct (compute_returns hx hg dd casef leg1 pair_svd sort_indices sort_indices_ok pair_svd_shaped caseK (Some 1%nat)) with
    (eps := @None xr) (cutoff := Some (Fin 0)) (n_sv := @None pynum) (work := Some Float64) (st := Some SampleStrat) (svds := Some "default"%string) as [o Ho].
  - intros t n [[= <-]|[H _]]; [|discriminate]. exists gauss1. split; [reflexivity|apply gauss1_ok].
  - right. right. left. reflexivity.
  - auto.
  - intros c [= <-]. exists 0. split; [reflexivity|lra].
  - discriminate.
  - destruct o as [r|]; [eauto|]. exfalso. unfold compute in Ho. destruct (safe_eps _ _ _ _ _) as [[[safe t] strategy] w].
    destruct (sampling_init (leg1 t) (full_kern casef caseK safe) safe (Some 1%nat)) as [S|] eqn:HS; [|discriminate]. cbn [bind] in Ho.
    destruct (sampling_matrix S) as [A|] eqn:HA; [|discriminate]. cbn [bind] in Ho.
    destruct (svd_compute _ _ _ _ A _ _) as [b|] eqn:Hb; [|discriminate]. cbn [bind] in Ho.
    apply svd_inv in Hb as (alg & h & -> & _).
    destruct (truncate _ _ _) as [cut|] eqn:Ht; [|discriminate]. cbn [bind] in Ho.
    destruct cut as [|b' [|]]; try discriminate.
    destruct (truncate1 _ _ _ _ Ht) as (kk & Pk).
    destruct (full_segs casef leg1 leg1_ok caseK (Some 1%nat) _ _ _ HS) as (X & Y & Hx & Hy & L & G & D & Gx & Gy & M & _ & N).
    rewrite (matrix_weighted S casek) in HA by (rewrite M; exact (full_sampled casef caseK casek _ _ _ _ casek_value G D Gx Gy)). injection HA as <-.
    destruct (case_svd_full _ _ _ _ _ alg h L Gx Gy) as [_ Hu0]. pose proof (pair_svd_shape alg (weighted casek (s_gx S) (s_gy S)) h) as Hsh.
    destruct (pair_svd alg (weighted casek (s_gx S) (s_gy S)) h) as [[us s] vs]. cbn [fst snd] in Hu0. destruct Hsh as (L1 & L2 & _).
    unfold prefix_of in Pk. cbn [fst snd] in Pk. subst b' us.
    assert (Lx : (2 <= length (s_segs_x S))%nat) by (rewrite X; apply Hx).
    assert (Ly : (2 <= length (s_segs_y S))%nat) by (rewrite Y; apply Hy).
    destruct (sampling_post_some _ _ _ _ S (firstn kk [[/ sqrt 2; / sqrt 2]; [/ sqrt 2; - / sqrt 2]]) (firstn kk s) (firstn kk vs) HS G Lx Ly) as [r Hr];
      [rewrite !firstn_length; lia|rewrite !firstn_length; lia| |rewrite Hr in Ho; discriminate].
    intros u Hu. rewrite X, case_full_x in Hu. rewrite N in *. rewrite case_full_x in *.
    destruct (poly_init_ok _ _ _ _ _ _ Hu ltac:(cbn; lia)) as (G1 & G2 & G3 & G4); [repeat constructor; lra|].
    pose proof (poly_init_cols _ _ _ _ _ Hu) as Ec.
    assert (Ns : gnseg (vgeom u) = 2%nat) by (destruct G1 as (_ & Hl & _); rewrite G2 in Hl; cbn in Hl; lia).
    assert (R1 : gxmin (vgeom u) = -1 /\ gxmax (vgeom u) = 1) by (rewrite xmin_knot, xmax_knot, Ns; unfold knot; rewrite G2; split; reflexivity).
    split; [lra|]. intros c' Hc'. rewrite Ec, map_map in Hc'. apply in_map_iff in Hc' as (v & <- & Hv).
    assert (Hv2 : length v = 2%nat /\ nth 1 v 0 <> 0).
    { pose proof (Rinv_0_lt_compat _ (sqrt_lt_R0 2 ltac:(lra))) as H2.
      assert (Hv' : forall (l : list (list R)), In v (firstn kk l) -> In v l) by (intros l Hl; rewrite <- (firstn_skipn kk l); apply in_or_app; auto).
      apply Hv' in Hv. destruct Hv as [<-|[<-|[]]]; cbn [length nth]; split; auto; lra. }
    rewrite (cval_seg _ G1 _ 1 1); [|rewrite Ns; lia|unfold knot; rewrite G2; cbn; lra|right; split; [auto|lra]].
    pose proof (interpolates _ _ _ _ G Hx Gx (vgeom u) G1 G2 G3 v 0 1 0 (proj1 Hv2) ltac:(cbn; lia) ltac:(lia)) as At.
    pose proof (weight_pos _ _ _ _ G Hx Gx 1 ltac:(cbn; lia)) as Wx.
    pose proof (node_at _ _ _ _ G Hx Gx 1 0 ltac:(cbn; lia) ltac:(lia)) as [Nd _].
    cbn [Nat.mul Nat.add nth] in At, Nd. 
    assert (Bx : 0 <= nth 1 (rx (s_gx S)) 0 < 1).
    { pose proof (rule_node 1 (s_rule S) [] G) as B. specialize (B 0%nat ltac:(lia)). destruct B as [B _]. rewrite Nd. lra. }
    rewrite (cval_seg _ G1 _ 1) in At; [|rewrite Ns; lia|unfold knot; rewrite G2; cbn; lra|left; unfold knot; rewrite G2; cbn; lra].
    assert (Hconst : forall c x y, seg_fun (vgeom u) c 1 x = seg_fun (vgeom u) c 1 y).
    { intros c0 x y. unfold seg_fun. rewrite G3. f_equal. }
    rewrite (Hconst _ 1 (nth 1 (rx (s_gx S)) 0)), At. pose proof (sqrt_lt_R0 _ Wx).
    unfold Rdiv. apply Rmult_integral_contrapositive_currified; [apply Hv2|apply Rinv_neq_0_compat; lra].
Qed.
