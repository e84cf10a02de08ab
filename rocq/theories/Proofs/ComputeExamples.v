(** Concrete cases for the computation of expansions. *)
From Coq Require Import String ZArith Arith Bool Reals Lra Lia Psatz.
From Coquelicot Require Import Coquelicot.
From Coq Require Import List Sorting.Sorted Sorting.Permutation.
From Verif.Model Require Import Base Num Gauss Poly SVE Compute.
From Verif.Spec Require Import SGauss SPoly SFT SSVE SBasis SKernel SCompute.
From Verif.Proofs Require Import BaseFacts SumFacts IntFacts LegFacts GaussFacts GaussExamples PPolyFacts PPolyInt BasisPhys ComputeNodes ComputePost ComputeMerge ComputeMerged.
Import ListNotations.
Open Scope R_scope.
Notation length := List.length.

(** * The kernel 1 + x y on [0, 1]: K(x,y) + K(x,-y) = 2 and K(x,y) - K(x,-y) = 2xy. *)
Definition exg : geom := Geom 2 2 1 [0; 1] [1].
Definition exe : col := Col (fun k _ => match k with O => 1 / sqrt 2 | _ => 0 end) 0.
Definition exo : col := Col (fun _ _ => sqrt 3 / (2 * sqrt 2)) 0.
Definition ex_even : sve_result := SVE (VPoly exg [exe]) [2] (VPoly exg [exe]) None.
Definition ex_odd : sve_result := SVE (VPoly exg [exo]) [2 / 3] (VPoly exg [exo]) None.
Definition exk (x y : R) : R := 1 + x * y.

Lemma exg_ok : geom_ok exg.
Proof.
  repeat split; try (cbn; lia). { repeat constructor; lra. }
  intros i Hi. cbn in Hi. assert (i = 0%nat) by lia. subst. cbn. lra.
Qed.
Lemma exg_fresh l : fresh (VPoly exg l).
Proof. split; [apply exg_ok|]. cbn. lia. Qed.
Lemma exg_val c x : 0 <= x <= 1 -> cval exg c x = sqrt 2 * (cdat c 0 0 + cdat c 1 0 * (2 * x - 1)).
Proof.
  intros Hx. rewrite (cval_seg exg exg_ok c 0 x).
  - unfold seg_fun, knot. cbn [exg gknots nth glen].
    replace (2 / (1 - 0)) with 2 by field. f_equal. rewrite !sumn_S. unfold legP. cbn. unfold sumn. cbn. field.
  - cbn. lia.
  - cbn. lra.
  - destruct (Rlt_or_le x 1); [left; cbn; lra|right; split; [reflexivity|]]. unfold gxmax. cbn. lra.
Qed.
Lemma exe_val x : 0 <= x <= 1 -> cval exg exe x = 1.
Proof. intros Hx. rewrite exg_val by auto. cbn. pose proof (sqrt_lt_R0 2 ltac:(lra)). field. lra. Qed.
Lemma exo_val x : 0 <= x <= 1 -> cval exg exo x = sqrt 3 * x.
Proof. intros Hx. rewrite exg_val by auto. cbn. pose proof (sqrt_lt_R0 2 ltac:(lra)). field. lra. Qed.

Lemma ex_half : half_edges [0; 1].
Proof. repeat split; try (cbn; lia). repeat constructor; lra. Qed.
Lemma ex_even_on : sve_on 2 [0; 1] [0; 1] ex_even.
Proof. split; [apply exg_fresh|]. split; [apply exg_fresh|]. repeat split. Qed.
Lemma ex_odd_on : sve_on 2 [0; 1] [0; 1] ex_odd.
Proof. split; [apply exg_fresh|]. split; [apply exg_fresh|]. repeat split. Qed.
Lemma ex_range : gxmin exg = 0 /\ gxmax exg = 1.
Proof. split; reflexivity. Qed.

Lemma ex_even_exact x y : 0 <= x <= 1 -> 0 <= y <= 1 -> within_at 0 ex_even (fun x y => exk x y + exk x (- y)) x y.
Proof.
  intros Hx Hy. exists 2. split.
  - rewrite sve_sum_ok by (try apply exg_fresh; try reflexivity; unfold ex_even, gxmin, gxmax; cbn; lra).
    unfold expand, sumn, ex_even. cbn [ss su sv vgeom vcols List.length nth]. cbn. rewrite !exe_val by auto. f_equal. ring.
  - unfold exk. replace (2 - (1 + x * y + (1 + x * - y))) with 0 by ring. rewrite Rabs_R0. lra.
Qed.
Lemma ex_odd_exact x y : 0 <= x <= 1 -> 0 <= y <= 1 -> within_at 0 ex_odd (fun x y => exk x y - exk x (- y)) x y.
Proof.
  intros Hx Hy. exists (2 * x * y). split.
  - rewrite sve_sum_ok by (try apply exg_fresh; try reflexivity; unfold ex_odd, gxmin, gxmax; cbn; lra).
    unfold expand, sumn, ex_odd. cbn [ss su sv vgeom vcols List.length nth]. cbn. rewrite !exo_val by auto. f_equal.
    pose proof (sqrt_sqrt 3 ltac:(lra)) as E. transitivity (2 / 3 * (sqrt 3 * sqrt 3) * x * y); [ring|]. rewrite E. field.
  - unfold exk. replace (2 * x * y - (1 + x * y - (1 + x * - y))) with 0 by ring. rewrite Rabs_R0. lra.
Qed.
Lemma ex_sorts : sorts (ss ex_even ++ ss ex_odd) [1%nat; 0%nat].
Proof.
  split.
  - cbn. apply perm_swap.
  - cbn. repeat constructor; lra.
Qed.
Lemma ex_ortho_one (c : col) v : (forall x, 0 <= x <= 1 -> cval exg c x = v x) ->
  is_RInt (fun x => v x * v x) 0 1 1 -> orthonormal_functions (VPoly exg [c]).
Proof.
  intros Hv HI. apply cols_inner; [apply exg_fresh|cbn; unfold gxmin, gxmax; cbn; lra|].
  cbn [vcols List.length vgeom]. intros l m Hl Hm. assert (l = 0%nat) by lia. assert (m = 0%nat) by lia. subst. cbn [nth Nat.eqb].
  destruct ex_range as [-> ->]. eapply is_RInt_ext_in; [lra| |exact HI]. intros x Hx. cbv beta. rewrite Hv by lra. reflexivity.
Qed.
Lemma ex_even_ortho : orthonormal_functions (su ex_even) /\ orthonormal_functions (sv ex_even).
Proof.
  assert (H : orthonormal_functions (VPoly exg [exe])); [|split; exact H].
  apply (ex_ortho_one exe (fun _ => 1)). { intros; apply exe_val; auto. }
  eapply is_RInt_eq; [apply (is_RInt_const (V := R_NormedModule) 0 1 (1 * 1))|]. unfold scal; cbn; unfold mult; cbn. ring.
Qed.
Lemma ex_odd_ortho : orthonormal_functions (su ex_odd) /\ orthonormal_functions (sv ex_odd).
Proof.
  assert (H : orthonormal_functions (VPoly exg [exo])); [|split; exact H].
  apply (ex_ortho_one exo (fun x => sqrt 3 * x)). { intros; apply exo_val; auto. }
  eapply is_RInt_eq; [eapply is_RInt_fext; [|apply (is_RInt_scal (V := R_NormedModule) (fun x => x ^ 2) 0 1 3), (is_RInt_pow 2 0 1)]|].
  - intros x. unfold scal; cbn; unfold mult; cbn. pose proof (sqrt_sqrt 3 ltac:(lra)) as E. nra.
  - unfold scal; cbn; unfold mult; cbn. field.
Qed.

(** * At reflected knots the left limit is used *)
Definition exs : geom := Geom 1 1 2 [0; 1 / 2; 1] [1 / 2; 1 / 2].
Definition exv : geom := Geom 1 1 1 [0; 1] [1].
Definition exsc : col := Col (fun _ i => match i with O => 0 | _ => 1 end) 0.
Definition exvc : col := Col (fun _ _ => 1 / sqrt 2) 0.
Definition ex_step : sve_result := SVE (VPoly exs [exsc]) [1] (VPoly exv [exvc]) None.
Definition ex_none : sve_result := SVE (VPoly exs []) [] (VPoly exv []) None.
(** 1 where |x| >= 1/2 and 0 elsewhere *)
Definition stepk (x y : R) : R := if Rltb (Rabs x) (1 / 2) then 0 else 1.

Lemma exs_ok : geom_ok exs.
Proof.
  repeat split; try (cbn; lia). { repeat constructor; lra. }
  intros i Hi. cbn in Hi. destruct i as [|[|i]]; [cbn; lra|cbn; lra|lia].
Qed.
Lemma exv_ok : geom_ok exv.
Proof.
  repeat split; try (cbn; lia). { repeat constructor; lra. }
  intros i Hi. cbn in Hi. assert (i = 0%nat) by lia. subst. cbn. lra.
Qed.
Lemma half_step : half_edges [0; 1 / 2; 1].
Proof. repeat split; try (cbn; lia). repeat constructor; lra. Qed.
Lemma step_on : sve_on 1 [0; 1 / 2; 1] [0; 1] ex_step /\ sve_on 1 [0; 1 / 2; 1] [0; 1] ex_none.
Proof. split; (split; [split; [apply exs_ok|cbn; lia]|]); (split; [split; [apply exv_ok|cbn; lia]|]); repeat split. Qed.
Lemma exs_val x : 0 <= x <= 1 -> cval exs exsc x = if Rltb x (1 / 2) then 0 else 2.
Proof.
  intros Hx. destruct (Rltb x (1 / 2)) eqn:E; [apply Rltb_true in E|apply Rltb_false in E].
  - rewrite (cval_seg exs exs_ok exsc 0 x); [|cbn; lia|cbn; lra|left; cbn; lra].
    unfold seg_fun, sumn. cbn. ring.
  - rewrite (cval_seg exs exs_ok exsc 1 x); [|cbn; lia|cbn; lra|].
    + unfold seg_fun, sumn, knot, legP. cbn. replace (2 / (1 - 1 / 2)) with (2 * 2) by field. rewrite sqrt_square by lra. ring.
    + destruct (Rlt_or_le x 1); [left; cbn; lra|right; split; [reflexivity|unfold gxmax; cbn; lra]].
Qed.
Lemma exv_val x : 0 <= x <= 1 -> cval exv exvc x = 1.
Proof.
  intros Hx. rewrite (cval_seg exv exv_ok exvc 0 x); [|cbn; lia|cbn; lra|].
  - unfold seg_fun, sumn, knot, legP. cbn. replace (2 / (1 - 0)) with 2 by field. pose proof (sqrt_lt_R0 2 ltac:(lra)). field. lra.
  - destruct (Rlt_or_le x 1); [left; cbn; lra|right; split; [reflexivity|unfold gxmax; cbn; lra]].
Qed.
Lemma step_exact x y : 0 <= x <= 1 -> 0 <= y <= 1 ->
  within_at 0 ex_step (fun x y => stepk x y + stepk x (- y)) x y /\ within_at 0 ex_none (fun x y => stepk x y - stepk x (- y)) x y.
Proof.
  intros Hx Hy. split.
  - exists (if Rltb x (1 / 2) then 0 else 2). split.
    + rewrite sve_sum_ok; try reflexivity; try apply step_on; try (unfold ex_step, gxmin, gxmax; cbn; lra).
      unfold expand, sumn, ex_step. cbn [ss su sv vgeom vcols List.length nth]. cbn. rewrite exs_val, exv_val by auto. f_equal. ring.
    + unfold stepk. rewrite (Rabs_pos_eq x) by lra. destruct (Rltb x (1 / 2)); [replace (0 - (0 + 0)) with 0 by ring|replace (2 - (1 + 1)) with 0 by ring]; rewrite Rabs_R0; lra.
  - exists 0. split.
    + rewrite sve_sum_ok; try reflexivity; try apply step_on; unfold ex_none, gxmin, gxmax; cbn; lra.
    + unfold stepk. match goal with |- Rabs ?t <= 0 => replace t with 0 by ring end. rewrite Rabs_R0. lra.
Qed.
Lemma step_fails : exists r, merge (fun _ => [0%nat]) 0 (mirrored [0; 1 / 2; 1]) (mirrored [0; 1]) ex_step ex_none = Ok r /\
  (forall x y, stepk (- x) (- y) = stepk x y) /\
  (forall x y, 0 <= x <= 1 -> 0 <= y <= 1 ->
     within_at 0 ex_step (fun x y => stepk x y + stepk x (- y)) x y /\ within_at 0 ex_none (fun x y => stepk x y - stepk x (- y)) x y) /\
  sve_sum r (- (1 / 2)) 0 = Ok 0 /\ stepk (- (1 / 2)) 0 = 1.
Proof.
  assert (Hs : sorts (ss ex_step ++ ss ex_none) ((fun _ => [0%nat]) (ss ex_step ++ ss ex_none))).
  { split; [apply Permutation_refl|repeat constructor]. }
  destruct step_on as [S1 S2].
  destruct (merge_ok (fun _ => [0%nat]) 0 1 _ _ _ _ half_step ex_half S1 S2 Hs) as (r & G & H & Hm & _).
  exists r. split; [exact Hm|]. split; [intros; unfold stepk; rewrite Rabs_Ropp; reflexivity|]. split; [apply step_exact|].
  split.
  2:{ unfold stepk. rewrite Rabs_Ropp, Rabs_pos_eq by lra. rewrite (proj2 (Rltb_false _ _)); lra. }
  pose proof (merged _ _ _ _ _ _ _ half_step ex_half S1 S2 Hs r Hm) as (Fu & Fv & K1 & K2 & L1 & L2 & _ & E1 & E2 & E3).
  pose proof (lens _ _ _ _ _ _ _ half_step ex_half S1 S2 Hs r Hm) as (N1 & N2 & N3).
  pose proof (range_u _ _ _ _ _ _ _ half_step ex_half S1 S2 Hs r Hm) as [R1 R2].
  pose proof (range_v _ _ _ _ _ _ _ half_step ex_half S1 S2 Hs r Hm) as [R3 R4].
  rewrite sve_sum_ok; auto; try congruence; try lra. f_equal. unfold expand. rewrite N1. cbn [ex_step ex_none ss List.length Nat.add].
  rewrite sumn_S. rewrite (sumn_zero 0) by (intros; lia).
  rewrite E2. cbn [ss ex_step ex_none List.rev app map nth]. 
  assert (Z : cval (vgeom (su r)) (mcol (vgeom (su ex_step)) (sgn ex_step 0) (sgn ex_step 0) (mu ex_step ex_none 0)) (- (1 / 2)) = 0).
  { assert (HG : geom_ok (vgeom (su r))) by apply Fu.
    assert (Kn : gknots (vgeom (su r)) = [- (1); - (1 / 2); 0; 1 / 2; 1]) by (rewrite K1; reflexivity).
    assert (Ns : gnseg (vgeom (su r)) = 4%nat) by (destruct HG as (_ & Hl & _); rewrite Kn in Hl; cbn in Hl; lia).
    rewrite (cval_seg _ HG _ 1); [|rewrite Ns; lia|unfold knot; rewrite Kn; cbn; lra|left; unfold knot; rewrite Kn; cbn; lra].
    unfold seg_fun. rewrite L1. cbn [vgeom ex_step su exs glen]. rewrite sumn_S, (sumn_zero 0) by (intros; lia).
    unfold mu, mcol, mirror_col. cbn. ring. }
  rewrite Z. ring.
Qed.

(** * Sampling with the two-point rule *)
Definition ex_leg (n : nat) : res rule := Ok gauss2.
Definition ex_skern : skern := SKern 2 2 (Ok [-1; 1]) (Ok [-1; 1]) (fun gx gy => Ok (sampled exk gx gy)).

Lemma gauss2_ok : gauss_ok 2 gauss2.
Proof.
  split; [lia|]. split; [reflexivity|]. split; [reflexivity|]. split; [apply gauss2_placed|].
  split; [cbn; repeat constructor; lra|]. split; [reflexivity|]. split; [reflexivity|]. apply gauss2_exact.
Qed.
Definition isq : R := 1 / sqrt 2.
Definition ex_usv : usv := ([[isq; isq]; [isq; - isq]], [2; 2 / 3], [[isq; isq]; [isq; - isq]]).

Lemma isq_sq : isq * isq = / 2.
Proof. apply inv_sqrt2. Qed.

Lemma ex_sampling : exists S M, sampling_init ex_leg ex_skern 0 None = Ok S /\ gauss_ok (s_n S) (s_rule S) /\
  (2 <= length (s_segs_x S))%nat /\ (2 <= length (s_segs_y S))%nat /\
  s_mat S (s_gx S) (s_gy S) = Ok (sampled exk (s_gx S) (s_gy S)) /\ sampling_matrix S = Ok M /\
  exact_svd (length (rx (s_gx S))) (length (rx (s_gy S))) M ex_usv.
Proof.
  destruct (proj1 (piecewise_spec gauss2 [-1; 1])) as (q & Hq & Hj); [cbn; lra|].
  pose proof (join_ok_inv _ _ Hj ltac:(discriminate)) as (_ & r0 & tl & E & Eq).
  assert (Ex : rx q = [- g2; g2] /\ rw q = [1; 1]).
  { clear E. subst q. unfold joined, GaussFacts.pieces. cbn. split; repeat f_equal; field. }
  destruct Ex as [Ex Ew]. clear Eq E Hj.
  set (S := SSVE 0 2 2 gauss2 [-1; 1] [-1; 1] q q (fun gx gy => Ok (sampled exk gx gy))).
  assert (HS : sampling_init ex_leg ex_skern 0 None = Ok S).
  { unfold sampling_init. cbn [sk_ngauss ex_skern ex_leg bind sk_segs_x sk_segs_y]. rewrite Hq. cbn [bind]. reflexivity. }
  exists S, [[4 / 3; 2 / 3]; [2 / 3; 4 / 3]]. split; [exact HS|]. split; [apply gauss2_ok|]. split; [cbn; lia|]. split; [cbn; lia|].
  split; [reflexivity|]. pose proof g2_sq as G2. split.
  - unfold sampling_matrix. cbn [s_mat S s_gx s_gy bind]. unfold sampled, sqrtw. rewrite Ex, Ew. cbn. rewrite sqrt_1. unfold exk.
    match goal with |- Ok [[?a; ?b]; [?c; ?d]] = _ => replace a with (4 / 3) by nra; replace b with (2 / 3) by nra;
      replace c with (2 / 3) by nra; replace d with (4 / 3) by nra end. reflexivity.
  - cbn [s_gx s_gy S]. rewrite Ex. pose proof isq_sq as I2. unfold ex_usv. split; [reflexivity|]. split; [reflexivity|].
    split; [repeat constructor|]. split; [repeat constructor|].
    assert (O : orthonormal_vectors [[isq; isq]; [isq; - isq]]).
    { intros l m Hl Hm. cbn in Hl, Hm. destruct l as [|[|l]]; [| |lia]; (destruct m as [|[|m]]; [| |lia]); unfold dot; cbn; nra. }
    split; [exact O|]. split; [exact O|]. intros i j Hi Hj. cbn in Hi, Hj. unfold sumn.
    destruct i as [|[|i]]; [| |lia]; (destruct j as [|[|j]]; [| |lia]); cbn; nra.
Qed.

Lemma sampling_post_some legendre K eps ng S us s vs : sampling_init legendre K eps ng = Ok S -> gauss_ok (s_n S) (s_rule S) ->
  (2 <= length (s_segs_x S))%nat -> (2 <= length (s_segs_y S))%nat ->
  length us = length s -> length vs = length s ->
  let dat := map (collocate (s_n S) (s_rule S) (s_segs_x S) (sqrtw (s_gx S))) us in
  (forall u, poly_init (s_n S) (length (s_segs_x S) - 1) dat (s_segs_x S) None None = Ok u ->
    gxmin (vgeom u) <= 1 <= gxmax (vgeom u) /\ forall c, In c (vcols u) -> cval (vgeom u) c 1 <> 0) ->
  exists r, sampling_post S (us, s, vs) = Ok (Some r).
Proof.
  intros HS Hr Hx Hy Lu Lv dat H1. unfold sampling_post. fold dat.
  destruct (edges_x _ _ _ _ _ HS Hx) as [_ Sx]. destruct (edges_y _ _ _ _ _ HS Hy) as [_ Sy].
  destruct (poly_init_some (s_n S) (length (s_segs_x S) - 1) dat (s_segs_x S) None) as (u & Eu & Nu).
  { lia. } { intros i Hi. left. apply PPolyFacts.sorted_nth_lt; auto. lia. } { exact I. }
  destruct (poly_init_some (s_n S) (length (s_segs_y S) - 1) (map (collocate (s_n S) (s_rule S) (s_segs_y S) (sqrtw (s_gy S))) vs) (s_segs_y S) None) as (v & Ev & Nv).
  { lia. } { intros i Hi. left. apply PPolyFacts.sorted_nth_lt; auto. lia. } { exact I. }
  rewrite Eu. cbn [bind]. rewrite Ev. cbn [bind]. destruct (H1 u Eu) as [R1 Hn].
  destruct (poly_init_ok _ _ _ _ _ _ Eu ltac:(lia) Sx) as (G1 & G2 & G3 & G4). destruct Hr as (Hn0 & _).
  unfold canonicalize. rewrite vcall_cval by (auto; lia). cbn [bind].
  assert (HA : exists cu, all_some (map2 (fun p g => if Reqb g 0 then None else Some (scale_col (1 / g) p)) (vcols u) (map np_sign (map (fun c => cval (vgeom u) c 1) (vcols u)))) = Some cu).
  { revert Hn. generalize (vcols u). intros l. induction l as [|c l IH]; intros Hc; [exists []; reflexivity|].
    destruct IH as [cu E]; [intros c' Hc'; apply Hc; now right|]. cbn [map map2 all_some].
    assert (Hc1 : cval (vgeom u) c 1 <> 0) by (apply Hc; now left).
    destruct (np_sign_cases (cval (vgeom u) c 1)) as [[Hp Es]|[[Hp Es]|[Hp Es]]]; [| |lra]; rewrite Es.
    - rewrite (proj2 (Reqb_false 1 0)) by lra. rewrite E. eexists; reflexivity.
    - rewrite (proj2 (Reqb_false (-1) 0)) by lra. rewrite E. eexists; reflexivity. }
  destruct HA as [cu ->]. eexists; reflexivity.
Qed.

Lemma ex_all : exists S M r, sampling_init ex_leg ex_skern 0 None = Ok S /\ gauss_ok (s_n S) (s_rule S) /\
  (2 <= length (s_segs_x S))%nat /\ (2 <= length (s_segs_y S))%nat /\
  s_mat S (s_gx S) (s_gy S) = Ok (sampled exk (s_gx S) (s_gy S)) /\ sampling_matrix S = Ok M /\
  exact_svd (length (rx (s_gx S))) (length (rx (s_gy S))) M ex_usv /\
  sampling_post S ex_usv = Ok (Some r).
Proof.
  destruct ex_sampling as (S & M & H1 & H2 & H3 & H4 & H5 & H6 & H7). exists S, M.
  destruct (sampling_init_inv _ _ _ _ _ H1) as (E1 & E2 & E3 & E4 & E5 & E6 & E7 & E8 & E9).
  injection E1 as E1. injection E2 as E2. cbn in E9.
  pose proof (proj1 (piecewise_spec gauss2 [-1; 1]) ltac:(cbn; lra)) as (q & Hq & Hj).
  rewrite <- E1, <- E2 in E4. rewrite E4 in Hq. injection Hq as <-.
  pose proof (join_ok_inv _ _ Hj ltac:(discriminate)) as (_ & r0 & tl & E & Eq).
  assert (Ew : rw (s_gx S) = [1; 1]).
  { clear E. rewrite Eq. unfold joined, GaussFacts.pieces. cbn. repeat f_equal; field. }
  destruct (sampling_post_some _ _ _ _ S (fst (fst ex_usv)) (snd (fst ex_usv)) (snd ex_usv) H1 H2 H3 H4) as [r Hr]; try reflexivity.
  2:{ exists r. repeat (split; [assumption|]). exact Hr. }
  intros u Hu. rewrite <- E2 in Hu.
  destruct (poly_init_ok _ _ _ _ _ _ Hu ltac:(cbn; lia)) as (G1 & G2 & G3 & G4); [repeat constructor; lra|].
  pose proof (poly_init_cols _ _ _ _ _ Hu) as Ec. rewrite E9, <- E1 in Ec.
  assert (Ns : gnseg (vgeom u) = 1%nat) by (destruct G1 as (_ & Hl & _); rewrite G2 in Hl; cbn in Hl; lia).
  assert (R1 : gxmin (vgeom u) = -1 /\ gxmax (vgeom u) = 1) by (rewrite xmin_knot, xmax_knot, Ns; unfold knot; rewrite G2; split; reflexivity).
  split; [lra|]. intros c Hc. rewrite Ec in Hc.
  rewrite (cval_seg _ G1 c 0 1); [|rewrite Ns; lia|unfold knot; rewrite G2; cbn; lra|right; split; [auto|lra]].
  assert (Ev : seg_fun (vgeom u) c 0 1 = cdat c 0 0 + cdat c 1 0).
  { unfold seg_fun, knot. rewrite G2, G3, E9. cbn [nth]. replace (2 / (1 - -1)) with 1 by field. rewrite sqrt_1, !sumn_S. unfold sumn, legP. cbn. field. }
  rewrite Ev. clear Ev. cbn [fst snd ex_usv map In] in Hc. 
  assert (Hi : 0 < isq) by (unfold isq; apply Rdiv_lt_0_compat; [lra|apply sqrt_lt_R0; lra]). pose proof g2_pos as Hg.
  unfold sqrtw in Hc. rewrite Ew in Hc. cbn [map] in Hc. rewrite sqrt_1 in Hc.
  assert (Es : sqrt (/ 2 * (1 - -1)) = 1) by (replace (/ 2 * (1 - -1)) with 1 by field; apply sqrt_1).
  destruct Hc as [<-|[<-|[]]]; cbn [cdat]; unfold collocate; cbn [nth map2]; rewrite Es, !sumn_S; unfold sumn, legendre_collocation, legP; cbn; nra.
Qed.
