(** A concrete overlap integral in double precision: the constant 1 on [-1, 1]
    against 1. *)
From Coq Require Import Reals Lra Lia Arith ZArith Bool.
From Coq Require Import List Sorting.Sorted Sorting.Permutation.
From Flocq Require Import Core.
From Verif.Model Require Import Base Util Num IEEE Gauss Kronrod Poly PolyIEEE GaussIEEE Overlap OverlapIEEE.
From Verif.Spec Require Import SGauss SPoly SBasis SKernelIEEE SOverlap SOverlapIEEE.
From Verif.Proofs Require Import BaseFacts GaussFacts PPolyFacts AugmentProps BasisPhys KronrodFacts IEEEFacts KernelRoundCall OverlapTiles OverlapFacts OverlapCase PolyRound OverlapRound OverlapRoundLoop.
Import ListNotations.
Open Scope R_scope.
Notation length := List.length.

Lemma d1 : is_double 1. Proof. apply (double_IZR_small 1). reflexivity. Qed.
Lemma dm1 : is_double (-1). Proof. apply (double_IZR_small (-1)). reflexivity. Qed.
Lemma d2 : is_double 2. Proof. apply (double_IZR_small 2). reflexivity. Qed.
Lemma r1 : rnd64 1 = 1. Proof. apply rnd64_id, d1. Qed.
Lemma r0 : rnd64 0 = 0. Proof. apply rnd64_id, double_0. Qed.
Lemma r2 : rnd64 2 = 2. Proof. apply rnd64_id, d2. Qed.

(** Adding from left to right. *)
Definition seqsum (l : list R) : R := match l with [] => 0 | x :: l => fold_left (fun a y => rnd64 (a + y)) l x end.
Lemma seqsum_added l : added64 l (seqsum l).
Proof.
  destruct l as [|x l]; [constructor|]. cbn [seqsum]. assert (H : forall l a pre, pre <> [] -> added64 pre a -> added64 (pre ++ l) (fold_left (fun a y => rnd64 (a + y)) l a)).
  { clear. induction l as [|y l IH]; intros a pre Hp H; [rewrite app_nil_r; exact H|]. cbn [fold_left].
    replace (pre ++ y :: l) with ((pre ++ [y]) ++ l) by (rewrite <- app_assoc; reflexivity). apply IH; [destruct pre; discriminate|].
    apply added_two; auto; [discriminate|constructor]. }
  apply (H l x [x]); [discriminate|constructor].
Qed.
Lemma pow_small n : INR n * v64 <= / 2 -> (1 + v64) ^ n <= 1 + 2 * (INR n * v64).
Proof.
  pose proof v64_bounds as Hv. induction n as [|n IH]; intros H; [cbn; lra|]. rewrite S_INR in *. pose proof (pos_INR n).
  assert (IH' : (1 + v64) ^ n <= 1 + 2 * (INR n * v64)) by (apply IH; nra). cbn [pow]. 
  assert ((1 + v64) * (1 + v64) ^ n <= (1 + v64) * (1 + 2 * (INR n * v64))) by (apply Rmult_le_compat_l; lra).
  assert (INR n * v64 <= / 2) by nra. nra.
Qed.
Definition sg2000 : R := (1 + / 2 ^ 53) ^ 2000 - 1.
Lemma pow_2000 : 1 <= (1 + v64) ^ 2000 /\ (1 + v64) ^ 2000 <= 1 + / 1000.
Proof.
  pose proof v64_bounds as Hv. split; [apply pow_R1_Rle; lra|].
  assert (E : INR 2000 = 2000) by (rewrite INR_IZR_INZ; reflexivity).
  assert (v64 <= / 10000000). { unfold v64. apply Rinv_le_contravar; [lra|]. simpl. lra. }
  eapply Rle_trans; [apply pow_small; rewrite E; lra|]. rewrite E. lra.
Qed.
Lemma sg2000_bounds : 0 <= sg2000 <= / 1000.
Proof. unfold sg2000. fold v64. destruct pow_2000 as [A B]. revert A B. generalize ((1 + v64) ^ 2000). intros P A B. lra. Qed.
Lemma seqsum_near : sums_near 2000 sg2000 seqsum.
Proof.
  apply sums_added; [|apply seqsum_added]. fold v64. destruct pow_2000 as [A B]. revert A B. generalize ((1 + v64) ^ 2000). intros P A B. lra.
Qed.

Lemma one_half : half64 (-1) 1 = 1.
Proof. unfold half64. replace (1 - -1) with 2 by ring. rewrite r2. replace (2 / 2) with 1 by lra. apply r1. Qed.
Lemma one_centre : centre64 (-1) 1 = 0.
Proof. unfold centre64. replace (1 + -1) with 0 by ring. rewrite r0. replace (0 / 2) with 0 by lra. apply r0. Qed.
Lemma one_point z : point64 (-1) 1 z = rnd64 z.
Proof. unfold point64. rewrite one_half, one_centre, Rmult_1_l, Rplus_0_r. rewrite (rnd64_id (rnd64 z)) by apply rnd64_double. apply rnd64_id, rnd64_double. Qed.
Lemma one_weight w : weight64 (-1) 1 w = rnd64 w.
Proof. unfold weight64. rewrite one_half, Rmult_1_l. apply rnd64_id, rnd64_double. Qed.
Lemma one_terms zs ws : length zs = length ws -> terms64 (-1) 1 zs ws (fun _ => 1) (fun _ => 1) = map rnd64 ws.
Proof.
  unfold terms64. revert ws. induction zs as [|z zs IH]; intros [|w ws] H; try discriminate; [reflexivity|]. cbn [map2 map]. f_equal; [|apply IH; auto].
  rewrite one_weight, Rmult_1_r, r1, Rmult_1_l. apply rnd64_id, rnd64_double.
Qed.
Lemma round_weights ws : Forall (fun w => / 1000 <= w) ws -> 99 / 100 * rsum ws <= rsum (map rnd64 ws) <= 101 / 100 * rsum ws /\ map Rabs (map rnd64 ws) = map rnd64 ws.
Proof.
  intros F. induction F as [|w ws Hw F [IH IH']]; [cbn; split; [lra|reflexivity]|]. cbn [map]. rewrite !rsum_cons. destruct rounding_double as (R1 & R2 & _).
  specialize (R1 w). rewrite (Rabs_pos_eq w) in R1 by lra. fold v64 in R1. apply OverlapRoundLoop.Rabs_le_inv in R1. pose proof v64_bounds as Hv.
  assert (0 <= eta64 <= / 1000000).
  { unfold eta64. split; [apply bpow_ge_0|]. apply Rle_trans with (bpow radix2 (-20)); [apply bpow_le; lia|]. simpl. lra. }
  assert (v64 * w <= / 1000 * w) by (apply Rmult_le_compat_r; lra). split; [lra|]. rewrite IH', Rabs_pos_eq; [reflexivity|]. apply R2. lra.
Qed.

Lemma one_value_rd old x : -1 <= x <= 1 -> value_rd old rnd64 one_set 0 x = Ok 1.
Proof.
  intros Hx. unfold value_rd, split_rd. cbn [vgeom one_set]. unfold in_range. change (gxmin one_geom) with (-1). change (gxmax one_geom) with 1.
  rewrite (proj2 (Rleb_true _ _) (proj1 Hx)), (proj2 (Rleb_true _ _) (proj2 Hx)). cbn [andb negb gnseg one_geom bind].
  change (pyindex (vcols one_set) 0) with (Some (Col (fun _ _ => 1) 0)). cbn [glen one_geom]. f_equal. cbn [fst snd].
  unfold piece_rd. cbn [glen one_geom legval_rd cdat]. rewrite Rmult_0_l, r0, Rplus_0_r, r1, Rmult_1_l.
  assert (Hs : segment one_geom x = 0%nat) by (unfold segment; cbn [gnseg one_geom]; lia). fold one_geom. rewrite Hs.
  unfold gnorm_rd, ginv_rd. cbn [gdx one_geom nth]. replace (2 / 2) with 1 by lra. rewrite r1, sqrt_1, r1. apply r1.
Qed.
Lemma one_computed old : computed_by old one_set 0 (fun _ => 1).
Proof.
  intros x v H. change (Z.of_nat 0) with 0%Z in H. destruct (Rle_dec (-1) x) as [A|A]; [destruct (Rle_dec x 1) as [B|B]|].
  - rewrite one_value_rd in H by lra. congruence.
  - unfold value_rd, split_rd, in_range in H. cbn [vgeom one_set] in H. change (gxmin one_geom) with (-1) in H. change (gxmax one_geom) with 1 in H.
    rewrite (proj2 (Rleb_false x 1)), andb_false_r in H by lra. discriminate.
  - unfold value_rd, split_rd, in_range in H. cbn [vgeom one_set] in H. change (gxmin one_geom) with (-1) in H. change (gxmax one_geom) with 1 in H.
    rewrite (proj2 (Rleb_false (-1) x)) in H by lra. discriminate.
Qed.

Lemma one_overlap old ml : (1 <= ml)%nat -> exists val err, compute_overlap_rd rnd64 old seqsum one_set one_fun (Fin 1) ml 2000 None = Ok (val, err, 1%nat, false).
Proof.
  intros Hml. destruct ml as [|ml]; [lia|]. unfold compute_overlap_rd. cbn [vgeom one_set gknots one_geom].
  change (combine (init [-1; 1]) (tl [-1; 1])) with [(-1, 1)]. cbn [levels_rd]. change (Nat.ltb 2000 (length [(-1, 1)])) with false. cbv iota.
  pose proof kronrod_shape as (Lx & Lw & Lv & _ & _ & Fz & _).
  assert (Hn : forall z, In z (nodes_rd rnd64 (-1, 1)) -> -1 <= z <= 1).
  { rewrite seat64_x. intros x Hx. apply in_map_iff in Hx as (z & <- & Hz). rewrite one_point. rewrite Forall_forall in Fz. specialize (Fz z Hz).
    split; [apply rnd64_ge; [apply dm1|lra]|apply rnd64_le'; [apply d1|lra]]. }
  assert (Ln : length (nodes_rd rnd64 (-1, 1)) = 31%nat) by (rewrite seat64_x, map_length; exact Lx).
  assert (Hs : exists fx, sample_rd rnd64 one_fun None [(-1, 1)] = Ok (1%nat, fx)).
  { unfold sample_rd. cbn [map]. set (ns := nodes_rd rnd64 (-1, 1)) in *.
    assert (Hc : forall l, collect (map one_fun l) = Ok (map (fun _ => [1]) l)).
    { induction l as [|a l IH]; [reflexivity|]. cbn [map collect]. rewrite IH. reflexivity. }
    rewrite Hc. cbn [collect bind concat]. rewrite app_nil_r. destruct ns as [|a ns]; [discriminate|]. cbn [map].
    rewrite (proj2 (forallb_forall _ _)); [eexists; reflexivity|]. intros v [<-|Hv]; [reflexivity|]. apply in_map_iff in Hv as (? & <- & _). reflexivity. }
  destruct Hs as [fx Hs]. rewrite Hs. cbn [bind fst snd].
  assert (Hp : exists px, poly_values_rd old rnd64 one_set [(-1, 1)] = Ok px).
  { unfold poly_values_rd. cbn [map concat]. rewrite app_nil_r. assert (Hf : forallb (in_range (vgeom one_set)) (nodes_rd rnd64 (-1, 1)) = true).
    { apply forallb_forall. intros x Hx. specialize (Hn x Hx). unfold in_range. apply andb_true_iff. split; apply Rleb_true; cbn; lra. }
    rewrite Hf. cbn [negb collect]. destruct (proj1 (arr_succeeds (/ 2 ^ 53) 0 rnd64 old one_set (nodes_rd rnd64 (-1, 1))
      (geom_ok_near _ _ _ (Rlt_le _ _ (proj1 v64_bounds)) (Rle_refl 0) one_geom_ok) ltac:(cbn; lia))) as [M HM].
    { apply Forall_forall. intros x Hx. specialize (Hn x Hx). cbn. lra. }
    rewrite HM. cbn. eauto. }
  destruct Hp as [px Hp]. rewrite Hp. cbn [bind]. rewrite cmax_some by lia. cbn [bind].
  apply sample_rd_ok in Hs as (F1 & _). apply poly_values_rd_ok in Hp.
  destruct (level_panels_rd old 2000 _ seqsum one_set one_fun _ fx px seqsum_near ltac:(lia) F1 Hp) as [Hspan Hps]. cbv zeta in Hspan, Hps.
  set (ps := map2 _ _ _) in *. clearbody ps.
  destruct ps as [|q [|]]; try discriminate. cbn [map] in Hspan. injection Hspan as Hq. inversion Hps as [|? ? [HD HQ] _]; subst. clear Hps.
  assert (Hok : converged_rd rnd64 seqsum (length (vcols one_set)) 1 (Fin 1) totals0 [q] q = true).
  { destruct (HQ 0%nat 0%nat (fun _ => 1) (fun _ => 1) ltac:(cbn; lia) (one_computed old) one_component) as [E31 E15].
    rewrite Hq in E31, E15. cbn [fst snd] in E31, E15. unfold sum31, sum15, abs31, abs15 in E31, E15.
    rewrite one_terms in E31 by congruence. rewrite one_terms in E15 by reflexivity.
    assert (F31 : Forall (fun w => / 1000 <= w) kronrod_w) by (unfold kronrod_w; repeat constructor; lra).
    assert (F15 : Forall (fun w => / 1000 <= w) kronrod_v) by (unfold kronrod_v; repeat constructor; lra).
    destruct (round_weights _ F31) as [B31 A31]. destruct (round_weights _ F15) as [B15 A15]. rewrite A31 in E31. rewrite A15 in E15.
    assert (S31 : 199 / 100 <= rsum kronrod_w <= 201 / 100) by (unfold kronrod_w, rsum; cbn [fold_right]; lra).
    assert (S15 : 199 / 100 <= rsum kronrod_v <= 201 / 100) by (unfold kronrod_v, rsum; cbn [fold_right]; lra).
    pose proof sg2000_bounds as Hsg. set (sg := sg2000) in *.
    set (X := rsum (map rnd64 kronrod_w)) in *. set (Y := rsum (map rnd64 kronrod_v)) in *.
    assert (sg * X <= / 1000 * X) by (apply Rmult_le_compat_r; lra). assert (sg * Y <= / 1000 * Y) by (apply Rmult_le_compat_r; lra).
    apply OverlapRoundLoop.Rabs_le_inv in E31, E15. destruct (HD 0%nat 0%nat) as [Dx Dy].
    unfold converged_rd. cbn [length vcols one_set seq forallb]. rewrite andb_true_r. unfold magnitude_rd. cbn [map seqsum fold_left tmagn totals0].
    unfold cmaxd, cmax. cbn [seq map rmax_list]. unfold pmagn, pdiff_rd. set (x := pint21 q 0 0) in *. set (y := pint10 q 0 0) in *.
    rewrite Rplus_0_l, (rnd64_id (Rabs y)) by (apply double_abs, Dy). rewrite (Rabs_pos_eq y) by lra.
    pose proof (sub64 x y Dx Dy) as Es. pose proof v64_bounds as Hv. assert (Hxy : Rabs (x - y) <= 2 / 10) by (apply Rabs_le; lra).
    assert (Hd : 0 <= Rabs (rnd64 (x - y)) <= 1).
    { split; [apply Rabs_pos|]. pose proof (Rabs_triang (rnd64 (x - y) - (x - y)) (x - y)) as Ht. replace (rnd64 (x - y) - (x - y) + (x - y)) with (rnd64 (x - y)) in Ht by ring.
      pose proof (Rabs_pos (x - y)). assert (v64 * Rabs (x - y) <= / 1000 * Rabs (x - y)) by (apply Rmult_le_compat_r; lra). lra. }
    unfold xdiv_rd. destruct (Reqb y 0) eqn:Ey; [apply Reqb_true in Ey; lra|]. cbn. apply Rleb_true. apply rnd64_le'; [apply d1|].
    apply Rmult_le_reg_r with y; [lra|]. unfold Rdiv. rewrite Rmult_assoc, Rinv_l by lra. lra. }
  cbn [forallb]. rewrite Hok. cbn [andb bind]. eauto.
Qed.

Lemma one_case :
  sums_near 2000 sg2000 seqsum /\ sg2000 <= / 1000 /\ StronglySorted Rle (gknots (vgeom one_set)) /\
  Forall is_double (gknots (vgeom one_set)) /\ breaks (gknots (vgeom one_set)) None [-1; 1] /\
  (forall old, computed_by old one_set 0 (fun _ => 1)) /\ component one_fun 0 (fun _ => 1) /\
  (forall old, exists val err, overlap_rd rnd64 old seqsum one_set one_fun (Fin 1) None = Ok (val, err, 1%nat, false)).
Proof.
  split; [apply seqsum_near|]. split; [apply sg2000_bounds|]. split; [cbn; repeat constructor; lra|]. split; [cbn; repeat constructor; [apply dm1|apply d1]|].
  split; [reflexivity|]. split; [apply one_computed|]. split; [apply one_component|]. intros old. apply one_overlap. lia.
Qed.
