(** Concrete cases for default sampling points in rounded arithmetic. *)
From Coq Require Import Reals Lra.
From Coquelicot Require Import Coquelicot.
From Coq Require Import List ZArith Bool Lia Sorted Arith.
From Flocq Require Import Core.
From Verif.Model Require Import Base Num Roots Poly PolyIEEE IEEE SVE Basis BasisIEEE DefaultsIEEE.
From Verif.Spec Require Import SRoots SPoly SPolyIEEE SKernelIEEE SBasisIEEE SDefaultsIEEE.
From Verif.Proofs Require Import BaseFacts SumFacts PPolyFacts IEEEFacts PolyRound KernelRoundCall BasisRoundDouble OpsRoundMore PPolyExamples SVEPolicy
  DefaultsRound DefaultsRoots DefaultsTau DefaultsMore.
Import ListNotations.
Open Scope R_scope.

Lemma unit_doubles : Forall is_double (gknots unit_geom).
Proof. pose proof double_one as D. repeat constructor; [apply double_opp|]; exact D. Qed.

Lemma unit_accurate : accurate u64 eta64 unit_geom.
Proof.
  intros [|i] Hi; [|cbn in Hi; lia]. destruct (unit_fair 1 ltac:(lra)) as (_ & H). specialize (H O ltac:(cbn; lia)). rewrite !Rmult_1_l in H.
  split; [exact H|]. unfold loss, knot. cbn [unit_geom gknots glen nth]. replace (INR 3) with 3 by (cbn; lra).
  assert (P53 : 2 ^ 53 = 9007199254740992) by (cbn; lra). rewrite P53.
  assert (M : Rmax (Rabs (-1)) (Rabs 1) = 1). { replace (Rabs (-1)) with 1 by (rewrite Rabs_left; lra). rewrite Rabs_R1. apply Rmax_left. lra. }
  rewrite M. lra.
Qed.

Lemma ex_defaults compute : exists b, built_rd u64 eta64 rnd64 powerRZ compute b /\ bsize b = 2%nat /\
  Forall is_double (gknots (vgeom (su (bsve b)))) /\ Forall is_double (gknots (vgeom (sv (bsve b)))) /\ accurate u64 eta64 (vgeom (su (bsve b))) /\
  exists p, source_rd rnd64 (su (bsve b)) 1 p /\ csym (scol p) = -1 /\ searchable u64 eta64 p /\
  forall old nz, exists pts w, ends_with (fun fuel => default_tau_rd old rnd64 nz fuel b (Some 1%Z)) (Ok (pts, w)) /\ In (5 / 2) pts.
Proof.
  destruct (ex_wide compute) as (b & _ & Hb & Er & Eb & Ew & Sz & Kl). exists b. split; [exact Hb|]. split; [exact Sz|]. rewrite Er. cbn [ex_sve su sv ex_poly vgeom].
  pose proof unit_doubles as D. split; [exact D|]. split; [exact D|]. split; [exact unit_accurate|].
  assert (Sp : source_rd rnd64 (su (bsve b)) 1 (SPoly unit_geom line_col)) by (rewrite Er; reflexivity).
  exists (SPoly unit_geom line_col). rewrite Er in Sp. split; [exact Sp|]. split; [reflexivity|].
  pose proof (proj1 (parts _ _ b Hb O)) as Su. rewrite Er in Su. cbn [ex_sve su] in Su.
  assert (Sf := stored_facts O ex_poly Su D). split; [exact Sf|]. intros old nz.
  destruct (points_ok old nz ex_poly 1 _ Sf Sp) as (x0 & (N & E) & _ & _ & _ & Z & _).
  exists (map (fun x => rnd64 (rnd64 (bbeta b / 2) * rnd64 (x + 1))) x0), (negb (Z.of_nat (length x0) =? 1)%Z). split.
  - exists N. intros fuel Hf. unfold default_tau_rd. cbn [npoints_or_size]. rewrite Er. cbn [ex_sve su]. change 1%Z with (Z.of_nat 1). rewrite (E fuel Hf). reflexivity.
  - apply in_map_iff. exists 0. split; [|apply Z; reflexivity]. rewrite Eb, Rplus_0_l. rewrite (rnd64_id 1) by apply double_one.
    assert (D5 : is_double (5 / 2)) by (replace (5 / 2) with (IZR 5 * bpow radix2 (-1)) by (cbn; lra); apply double_of; lia).
    rewrite (rnd64_id (5 / 2)) by exact D5. rewrite Rmult_1_r. apply rnd64_id, D5.
Qed.

Lemma ex_deriv : geom_near u64 eta64 unit_geom /\ fair_length u64 eta64 unit_geom 0 /\ (2 <= glen unit_geom)%nat /\ INR (glen unit_geom) * u64 <= / 200.
Proof.
  split; [|split; [apply (unit_accurate O); cbn; lia|split; [cbn; lia|]]].
  - destruct (ex_near (/ 10)) as (S & _). apply S.
  - assert (P53 : 2 ^ 53 = 9007199254740992) by (cbn; lra). rewrite P53. cbn. lra.
Qed.
