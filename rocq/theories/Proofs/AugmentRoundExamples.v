(** Cases that meet the hypotheses of C106. *)
From Coq Require Import Reals ZArith Arith Bool Lra Lia String.
From Flocq Require Import Core.
From Coquelicot Require Import Coquelicot.
From Coq Require Import List.
From Verif.Model Require Import Base Util Num Poly PolyIEEE FT FTIEEE SVE Basis BasisIEEE Augment AugmentIEEE IEEE.
From Verif.Spec Require Import SKernelIEEE SBasisIEEE SAugment SAugmentIEEE SDefaults.
From Verif.Proofs Require Import SVEPolicy IEEEFacts KernelRoundCall BasisRoundDouble BasisRoundProps DLRRoundProps DLRRoundFreq DLRRoundExamples AugmentFacts AugmentRoundProps.
Import ListNotations.
Open Scope R_scope.
Notation length := List.length.

Lemma ten_fair : fair_beta (/ 2 ^ 53) eta64 10 /\ Forall (fun k => Z.even k = true /\ fair_freq (/ 2 ^ 53) eta64 10 k) [-4; 0; 6]%Z.
Proof.
  assert (H : / 10 ^ 100 <= 10 <= 10 ^ 100).
  { assert (1 <= 10 ^ 99) by (apply pow_R1_Rle; lra). replace (10 ^ 100) with (10 * 10 ^ 99) by (rewrite tech_pow_Rmult; reflexivity). split; [|lra].
    apply Rle_trans with (/ 10); [apply Rinv_le_contravar; lra|lra]. }
  split; [apply (fair_doubles 10 0 H)|]. repeat (constructor; [split; [reflexivity|apply (fair_doubles 10 _ H); vm_compute; discriminate]|]). constructor.
Qed.

Lemma aug_example : rounding (/ 2 ^ 53) eta64 rnd64 /\ 0 < / 2 ^ 53 <= / 10000 /\ 0 <= eta64 /\ Rabs (rnd64 PI - PI) <= / 2 ^ 53 * PI /\
  fair_beta (/ 2 ^ 53) eta64 10 /\ (exists f, is_function (TauLinear 10) f) /\ Forall (fun t => 0 <= t <= aug_beta (TauLinear 10)) [0; / 3; 10] /\
  Forall (fun k => Z.even k = true /\ fair_freq (/ 2 ^ 53) eta64 10 k) [-4; 0; 6]%Z.
Proof.
  assert (P53 : 2 ^ 53 = 9007199254740992) by (cbn; lra). destruct ten_fair as [T1 T2].
  split; [apply rounding_double|]. split; [rewrite P53; lra|]. split; [apply (small_double 0 ltac:(lra))|]. split; [apply pi_double|]. split; [exact T1|].
  split; [exists (lin_fun 10); apply is_function_iff; [exact I|intros; reflexivity]|]. split; [cbn [aug_beta]; repeat (constructor; [lra|]); constructor|exact T2].
Qed.

Lemma u_example : exists b M, built_rd (/ 2 ^ 53) eta64 rnd64 powerRZ no_compute b /\ augbasis_init b [ACls CMatsubaraConst] = Ok (AugBasis b [MatsubaraConst 2]) /\
  augu_call_rd false rnd64 (AugBasis b [MatsubaraConst 2]) [0; 1; 2] = Ok M /\ length M = 3%nat /\ Forall (allowed b) [-3; 1]%Z.
Proof.
  destruct (basis_example no_compute) as (b & Hb & Ls & Lv & Eb & Ew & Es & _).
  destruct (double_ends powerRZ no_compute b Hb) as (G1 & G2 & _).
  { rewrite Eb. apply (double_small 2). lia. } { rewrite Ew. apply (double_small 1). lia. } { rewrite Eb. change 2 with (bpow radix2 1). apply bpow_le. lia. }
  destruct (proj1 (u_succeeds (/ 2 ^ 53) eta64 rnd64 powerRZ no_compute false b [MatsubaraConst 2] [0; 1; 2] Hb)) as [M HM].
  { rewrite G1, G2, Eb. split; [repeat (constructor; [lra|]); constructor|]. intros f [<-|[]]. cbn [aug_beta]. repeat (constructor; [lra|]). constructor. }
  exists b, M. split; [exact Hb|]. split.
  { unfold augbasis_init, aug_factory. cbn [map collect aug_create]. unfold aug_init. rewrite Eb. rewrite (proj2 (BaseFacts.Rleb_false 2 0)) by lra. reflexivity. }
  split; [exact HM|]. destruct (u_rows _ _ _ _ _ _ HM) as (L & _). destruct (rd_sizes _ _ _ _ _ b Hb) as (_ & Lu & _). rewrite L, Lu, Ls. split; [reflexivity|].
  unfold allowed, stat_freq. rewrite Es. repeat (constructor; [reflexivity|]). constructor.
Qed.
