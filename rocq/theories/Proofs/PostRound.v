(** Post-processing and truncation in rounded arithmetic. *)
From Coq Require Import String ZArith Arith Bool Reals Lra Lia Psatz.
From Coquelicot Require Import Coquelicot.
From Coq Require Import List Sorting.Sorted.
From Verif.Model Require Import Base Util Num Gauss Poly PolyIEEE SVE Kernel KernelIEEE GaussIEEE Compute SVEIEEE.
From Verif.Spec Require Import SGauss SPoly SFT SSVE SBasis SCompute SSingular SWhole SNear SComputed SKernelIEEE SSVEIEEE SRoundedCompute.
From Verif.Proofs Require Import BaseFacts SumFacts IntFacts LegFacts GaussFacts GaussExact PPolyFacts PPolyInt SVEFacts BasisPhys ComputeNodes ComputePost ComputeSampling ComputeError ComputeFull SingularEq EckartYoung SvdExists BestCuts RoundedSVE Polar ComputedSVD NodesCore Perturb CoefFun RoundVectors PerturbedBlock.
Import ListNotations.
Open Scope R_scope.
Notation length := List.length.

(** * Post-processing *)
Lemma vcall_rd_len old rd p x ys : vcall_rd old rd p x = Ok ys -> length ys = length (vcols p).
Proof.
  unfold vcall_rd. destruct (split_rd _ _ _) as [ix|]; [|discriminate]. cbn [bind]. destruct (glen _); [discriminate|]. intros [= <-]. apply map_length.
Qed.

Lemma post_rd_struct old rw ro dot S us s vs r : (0 < s_n S)%nat -> edges_ok (s_segs_x S) -> edges_ok (s_segs_y S) ->
  length us = length s -> length vs = length s -> sampling_post_rd old rw ro dot S (us, s, vs) = Ok (Some r) ->
  sve_on (s_n S) (s_segs_x S) (s_segs_y S) (ideal_sve r) /\ ss r = map ro s /\ seps r = Some (s_eps S) /\
  exists sgs, length sgs = length s /\ Forall (fun c => c = 1 \/ c = -1) sgs /\
    forall l, (l < length s)%nat ->
      nth l (vcols (su r)) col0 = scale_col (1 / nth l sgs 0) (Col (collocate_rd rw ro (dot true l) (s_n S) (s_rule S) (s_segs_x S) (sqrtw_rd rw (s_gx S)) (nth l us [])) 0) /\
      nth l (vcols (sv r)) col0 = scale_col (nth l sgs 0) (Col (collocate_rd rw ro (dot false l) (s_n S) (s_rule S) (s_segs_y S) (sqrtw_rd rw (s_gy S)) (nth l vs [])) 0).
Proof.
  intros Hn Hx Hy Lu Lv H. unfold sampling_post_rd in H.
  destruct (poly_init_rd ro (s_n S) (length (s_segs_x S) - 1) _ _ _) as [u|] eqn:Eu; [|discriminate]. cbn [bind] in H.
  destruct (poly_init_rd ro (s_n S) (length (s_segs_y S) - 1) _ _ _) as [v|] eqn:Ev; [|discriminate]. cbn [bind] in H.
  unfold canonicalize_rd in H. destruct (vcall_rd old ro u 1) as [ys|] eqn:Ec; [|discriminate]. cbn [bind] in H.
  destruct (all_some _) as [cu|] eqn:Ea; [|discriminate]. injection H as <-. cbn [su sv ss seps].
  pose proof (made_cols _ _ _ _ _ _ _ _ _ _ Eu) as [LU CU]. pose proof (made_cols _ _ _ _ _ _ _ _ _ _ Ev) as [LV CV].
  pose proof (vcall_rd_len _ _ _ _ _ Ec) as Ly. apply all_some_spec in Ea.
  apply poly_init_rd_inv in Eu as (Pu & _ & Ku & Gu & Ou & Nu & _). apply poly_init_rd_inv in Ev as (Pv & _ & Kv & Gv & Ov & Nv & _).
  destruct (poly_init_ok _ _ _ _ _ _ Pu ltac:(destruct Hx; lia) (proj2 Hx)) as (Fu & _). destruct (poly_init_ok _ _ _ _ _ _ Pv ltac:(destruct Hy; lia) (proj2 Hy)) as (Fv & _).
  assert (Lcu : length cu = length s). { apply (f_equal (@List.length _)) in Ea. rewrite map2_length, !map_length in Ea. lia. }
  assert (Lcv : length (map2 (fun p g => scale_col g p) (vcols v) (map np_sign ys)) = length s) by (rewrite map2_length, map_length; lia).
  split; [|split; [reflexivity|split; [reflexivity|]]].
  { unfold sve_on, ideal_sve, ideal. cbn [su sv ss vgeom vcols]. split; [split; [exact Fu|cbn; lia]|]. split; [split; [exact Fv|cbn; lia]|].
    cbn [ideal_geom gknots glen]. rewrite map_length. auto 10. }
  exists (map np_sign ys). split; [rewrite map_length; lia|].
  assert (Hall : forall l, (l < length s)%nat -> let c := np_sign (nth l ys 0) in (c = 1 \/ c = -1) /\ nth l cu col0 = scale_col (1 / c) (nth l (vcols u) col0)).
  { intros l Hl. cbv zeta. assert (E : nth l (map2 (fun p g => if Reqb g 0 then None else Some (scale_col (1 / g) p)) (vcols u) (map np_sign ys)) None = nth l (map Some cu) None) by (rewrite Ea; reflexivity).
    rewrite (map2_nth _ _ _ _ col0 0 None) in E by (rewrite ?map_length; lia). rewrite (nth_map_in np_sign _ _ 0) in E by lia. rewrite (nth_map_in Some _ _ col0) in E by lia.
    destruct (np_sign_cases (nth l ys 0)) as [[_ Es]|[[_ Es]|[_ Es]]]; rewrite Es in *.
    - rewrite (proj2 (Reqb_false 1 0)) in E by lra. injection E as E. auto.
    - rewrite (proj2 (Reqb_false (-1) 0)) in E by lra. injection E as E. auto.
    - rewrite (proj2 (Reqb_true 0 0) eq_refl) in E. discriminate. }
  split.
  - apply Forall_forall. intros c Hc. apply (In_nth _ _ 0) in Hc as (l & Hl & <-). rewrite map_length in Hl. rewrite (nth_map_in np_sign _ _ 0) by lia. apply Hall. lia.
  - intros l Hl. cbn [vcols]. rewrite (nth_map_in np_sign _ _ 0) by lia. split.
    + rewrite (proj2 (Hall l Hl)). rewrite CU by lia. reflexivity.
    + rewrite (map2_nth _ _ _ _ col0 0 col0) by (rewrite ?map_length; lia). rewrite CV by lia. rewrite (nth_map_in np_sign _ _ 0) by lia. reflexivity.
Qed.

(** * Truncation *)
Lemma truncate_rd_ok {A B} rd (blocks : list (block A B)) rtol lmax out : truncate_rd rd blocks rtol lmax = Ok out -> exists c, out = map (cut_block c) blocks.
Proof.
  unfold truncate_rd. destruct (check_lmax lmax); [|discriminate]. destruct (check_rtol rtol) as [r|]; [|discriminate]. cbn [bind].
  destruct blocks as [|b bs]; [discriminate|]. destruct (concat _); [discriminate|]. destruct (cutoff_of_rd _ _ _ _) as [c|]; [|discriminate].
  cbn [bind]. intros [= <-]. exists c. reflexivity.
Qed.

Lemma cut_prefix {A B} c (b : block A B) : prefix_of (count_above c (bvals b)) b (cut_block c b).
Proof. reflexivity. Qed.

Lemma cut_sides c (b : usv) : nonincreasing (svals b) -> Forall (fun x => c < x) (svals (cut_block c b)) /\
  forall j, (length (svals (cut_block c b)) <= j < length (svals b))%nat -> nth j (svals b) 0 <= c.
Proof.
  intros Hs. unfold cut_block, svals in *. cbn [fst snd]. fold (bvals b) in *.
  assert (L : length (firstn (count_above c (bvals b)) (bvals b)) = count_above c (bvals b)) by (apply firstn_length_le, count_le).
  split.
  - apply Forall_forall. intros x Hx. apply (In_nth _ _ 0) in Hx as (j & Hj & <-). rewrite L in Hj. rewrite nth_firstn by auto.
    pose proof (count_le c (bvals b)). assert (E : nth_error (bvals b) j = Some (nth j (bvals b) 0)) by (apply nth_error_nth'; lia).
    apply (sorted_count_index c _ _ _ Hs E). exact Hj.
  - intros j Hj. rewrite L in Hj. assert (E : nth_error (bvals b) j = Some (nth j (bvals b) 0)) by (apply nth_error_nth'; lia).
    apply Rnot_lt_le. intros Hlt. apply (sorted_count_index c _ _ _ Hs E) in Hlt. lia.
Qed.
