(** Concrete overlap integrals. *)
From Coquelicot Require Import Coquelicot.
From Coq Require Import Reals Lra Lia Arith ZArith Bool.
From Coq Require Import List Sorting.Sorted Sorting.Permutation.
From Verif.Model Require Import Base Util Num Gauss Kronrod Poly Overlap.
From Verif.Spec Require Import SGauss SPoly SFT SBasis SOverlap.
From Verif.Proofs Require Import BaseFacts SumFacts IntFacts PolyFacts LegFacts GaussFacts GaussExact GaussExamples KronrodFacts PPolyFacts BasisPhys ComputeMerged OverlapTiles OverlapFacts OverlapMore OverlapAccuracy OverlapProps.
Import ListNotations.
Open Scope R_scope.
Notation length := List.length.

(** The constants 1 and 0 on [-1, 1]. *)
Definition one_geom : geom := Geom 1 1 1 [-1; 1] [2].
Definition one_set : vpoly := VPoly one_geom [Col (fun _ _ => 1) 0].
Definition one_zero_set : vpoly := VPoly one_geom [Col (fun _ _ => 1) 0; Col (fun _ _ => 0) 0].
Definition one_fun (x : R) : res (list R) := Ok [1].

Lemma one_geom_ok : geom_ok one_geom.
Proof.
  unfold geom_ok, one_geom; cbn. repeat split; auto.
  - repeat constructor; lra.
  - intros i Hi. assert (i = 0)%nat as -> by lia. cbn. lra.
Qed.
Lemma one_fresh cols : fresh (VPoly one_geom cols).
Proof. split; [apply one_geom_ok|]. cbn. split; [lia|reflexivity]. Qed.
Lemma one_value cols (v : R) l : nth_error cols l = Some (Col (fun _ _ => v) 0) -> represents (VPoly one_geom cols) l (fun _ => v).
Proof.
  intros H x Hx. cbn [vgeom] in Hx. unfold value, split. cbn [vgeom]. unfold in_range. rewrite (proj2 (Rleb_true _ _) (proj1 Hx)), (proj2 (Rleb_true _ _) (proj2 Hx)).
  cbn [andb negb gnseg one_geom bind]. rewrite BasisPhys.pyindex_nat. cbn [vcols]. rewrite H. cbn [glen one_geom]. f_equal.
  assert (Hs : segment one_geom x = 0%nat) by (unfold segment; cbn [gnseg one_geom]; lia).
  cbn [fst]. change (segment {| gorder := 1; glen := 1; gnseg := 1; gknots := [-1; 1]; gdx := [2] |} x) with (segment one_geom x). rewrite Hs. unfold gnorm, ginv. cbn [gdx one_geom nth cdat]. replace (2 / 2) with 1 by lra. rewrite sqrt_1.
  unfold legval. cbn [sumn]. change (legP 0 (snd (0%nat, (x - gxm one_geom 0) * 1))) with 1. lra.
Qed.
Lemma one_component : component one_fun 0 (fun _ => 1).
Proof. intros x v [= <-]. reflexivity. Qed.

Lemma one_panels : Rabs (panel15 (-1) 1 (fun _ => 1 * 1) - 2) <= / 10 ^ 13 /\ Rabs (panel31 (-1) 1 (fun _ => 1 * 1) - 2) <= / 10 ^ 13.
Proof.
  assert (HI : RInt (fun t => sumn 1 (fun k => (fun _ : nat => 1) k * t ^ k)) (-1) 1 = 2).
  { apply (is_RInt_unique (V := R_CompleteNormedModule)). eapply (is_RInt_ext (V := R_NormedModule) (fun _ => 1)); [intros x _; cbn; ring|].
    replace 2 with (scal (1 - -1) 1) by (unfold scal; simpl; unfold mult; simpl; ring). apply (is_RInt_const (V := R_CompleteNormedModule)). }
  pose proof (kronrod_15_error _ _ 1 (fun _ => 1) (near_refl _) (near_refl _) ltac:(lia)) as H15.
  pose proof (kronrod_31_error _ _ 1 (fun _ => 1) (near_refl _) (near_refl _) ltac:(lia)) as H31.
  cbv beta in H15, H31, HI. rewrite HI in H15, H31. replace (sumn 1 (fun k : nat => Rabs 1)) with 1 in H15, H31 by (cbn; rewrite Rabs_R1; lra). rewrite Rmult_1_r in H15, H31.
  unfold panel15, panel31. replace ((1 - -1) / 2) with 1 by lra. rewrite !Rmult_1_l.
  rewrite (quad_ext (vsel kronrod_x) _ _ (fun t => sumn 1 (fun k => (fun _ : nat => 1) k * t ^ k))) by (intros; cbn; lra).
  rewrite (quad_ext kronrod_x _ _ (fun t => sumn 1 (fun k => (fun _ : nat => 1) k * t ^ k))) by (intros; cbn; lra). auto.
Qed.

Lemma one_converges_gen m mp : (1 <= mp)%nat -> exists val err, compute_overlap one_set one_fun (Fin (/ 10 ^ 6)) 2 (S m) mp None = Ok (val, err, 1%nat, false).
Proof.
  intros Hmp. rewrite (compute_start _ _ _ _ _ _ _ [-1; 1]) by reflexivity. rewrite pairs_cons.
  change (pairs [1]) with (@nil (R * R)). cbn [levels].
  change (length [(-1, 1)]) with 1%nat. rewrite (proj2 (Nat.ltb_ge _ _)) by lia.
  destruct (sample_defined one_fun 1 None [(-1, 1)]) as [fx Hfx]; [discriminate|auto|intros st _ x _; exists [1]; auto|].
  destruct (poly_values_defined one_set [-1; 1] one_geom_ok) with (iv := [(-1, 1)]) as [px Hpx].
  { cbn. lia. }
  { intros st [<-|[]]. split; [split; cbn; [lra|]|split; cbn; lra]. intros k [<-|[<-|[]]]; lra. }
  rewrite Hfx. cbn [bind]. rewrite Hpx. cbn [bind fst snd].
  apply sample_ok in Hfx as (F1 & _). apply poly_values_ok in Hpx. destruct (level_panels one_set one_fun _ fx px F1 Hpx) as [Hspan Hps].
  cbv zeta in Hspan, Hps. set (ps := map2 (fun st d => make_panel st (fst d) (snd d)) [(-1, 1)] (combine fx px)) in *.
  destruct ps as [|q [|]]; try discriminate. injection Hspan as Hq. inversion Hps as [|? ? Hok _]; subst.
  destruct (Hok 0%nat 0%nat _ _ (one_value (vcols one_set) 1 0 eq_refl) one_component) as [E1 E2]. rewrite Hq in E1, E2. cbn [fst snd] in E1, E2.
  destruct one_panels as [B15 B31]. rewrite <- E2 in B15. rewrite <- E1 in B31. clear E1 E2.
  rewrite cmax_some by lia. cbn [bind forallb].
  assert (Hc : converged (length (vcols one_set)) 1 (Fin (/ 10 ^ 6)) totals0 [q] q = true).
  { unfold converged. cbn [vcols one_set length seq forallb]. rewrite andb_true_r. unfold magnitude, cmaxd, cmax. cbn [seq map rmax_list tmagn totals0]. unfold psum, pmagn, pdiff. cbn [map rsum fold_right].
    assert (/ 10 ^ 13 <= / 10) by (apply Rinv_le_contravar; simpl; lra).
    apply Rabs_le_between in B15. pose proof B15 as B15'. apply Rabs_le_between in B31.
    unfold xdiv. destruct (Reqb _ 0) eqn:E.
    - exfalso. apply Reqb_true in E. rewrite Rabs_pos_eq in E by lra. lra.
    - cbn. apply Rleb_true. rewrite Rplus_0_l, Rplus_0_r. rewrite (Rabs_pos_eq (pint10 q 0 0)) by lra. 
      assert (Rabs (pint21 q 0 0 - pint10 q 0 0) <= 2 * / 10 ^ 13) by (apply Rabs_le; lra).
      apply Rle_trans with (2 * / 10 ^ 13 / 1).
      + unfold Rdiv. apply Rmult_le_compat; auto using Rabs_pos; [left; apply Rinv_0_lt_compat; lra|apply Rinv_le_contravar; lra].
      + replace (/ (10 * (10 * (10 * (10 * (10 * (10 * 1))))))) with (10 ^ 7 * / 10 ^ 13) by (simpl; field). assert (0 < / 10 ^ 13) by (apply Rinv_0_lt_compat, pow_lt; lra). simpl (10 ^ 7). lra. }
  rewrite Hc. cbn [andb bind]. eauto.
Qed.

Lemma one_converges : exists val err, overlap one_set one_fun (Fin (/ 10 ^ 6)) None = Ok (val, err, 1%nat, false).
Proof.
  rewrite overlap_eq. generalize (one_converges_gen 39 2000 (proj1 (Nat.leb_le 1 2000) eq_refl)).
  generalize (compute_overlap one_set one_fun (Fin (/ 10 ^ 6)) 2 40 2000 None). intros r H. exact H.
Qed.

(** A zero polynomial in the set spoils the others. *)
Lemma one_zero_result : exists val err, overlap one_zero_set one_fun (Fin (/ 10 ^ 6)) None = Ok (val, err, 1%nat, true) /\ val 0%nat 0%nat = 0.
Proof.
  destruct (defined_result one_zero_set one_fun (Fin (/ 10 ^ 6)) None [-1; 1] 1 (one_fresh _) eq_refl) as (val & err & w & H).
  - discriminate.
  - lia.
  - intros x _ _. exists [1]. split; reflexivity.
  - apply (proj1 (Nat.leb_le 2 2001)). reflexivity.
  - assert (Hz : forall x v c, one_fun x = Ok v -> (fun _ : R => 0) x * nth c v 0 = 0) by (intros; lra).
    destruct (vanishing_result one_zero_set one_fun (Fin (/ 10 ^ 6)) None 1 (fun _ => 0) val err 1 w one_geom_ok ltac:(cbn; lia) (one_value (vcols one_zero_set) 0 1 eq_refl) Hz H) as (E & Hv & _).
    exists val, err. rewrite <- E. exact (conj H (Hv 0%nat 0%nat)).
Qed.
Lemma one_integral : is_RInt (fun _ => 1 * 1) (-1) 1 2.
Proof.
  apply (is_RInt_ext (V := R_NormedModule) (fun _ => 1)); [intros x _; lra|].
  replace 2 with (scal (1 - -1) 1) by (unfold scal; simpl; unfold mult; simpl; ring). apply (is_RInt_const (V := R_CompleteNormedModule)).
Qed.
