(** Bases in doubles for the theorems about default sampling frequencies. *)
From Coq Require Import Reals ZArith Arith Bool Lra Lia String.
From Coquelicot Require Import Coquelicot.
From Coq Require Import List Sorting.Sorted.
From Verif.Model Require Import Base Util IEEE Num Matsubara Poly FT FTIEEE SVE SVEIEEE Basis BasisIEEE MatsubaraIEEE.
From Verif.Spec Require Import SRoots SMatsubara SPoly SPolyIEEE SFT SSVE SBasis SDefaults SKernelIEEE SSVEIEEE SFTIEEE SBasisIEEE SMatsubaraIEEE.
From Verif.Proofs Require Import BaseFacts FTRoundProps KernelRoundCall BasisRound BasisRoundProps BasisRoundMore BasisRoundDouble OpsRoundMore SVEPolicy PPolyExamples TransformRoundCase.
Import ListNotations.
Open Scope R_scope.
Notation length := List.length.

Lemma ex_mats compute : exists b lam, built_rd (/ 2 ^ 53) eta64 rnd64 powerRZ compute b /\
  accurate_search (/ 2 ^ 53) eta64 rnd64 b double_library (2 / 2 ^ 53) (2 / 2 ^ 53) (6 / 2 ^ 53) (12 * eta64) (18 / 2 ^ 53) (36 * eta64) /\
  klam (bkernel b) = Some lam /\ stat_freq b = Odd /\ length (ss (bsve b)) = 2%nat /\
  marked (bsve b) 0 true square_col /\ marked (bsve b) 1 false line_col /\
  l_requested (stat_freq b) 0 = 0%nat /\ l_requested (stat_freq b) 1 = 2%nat /\ search_grid [0; 1; 2; 5; 9]%Z.
Proof.
  destruct (ex_wide compute) as (b & H & Hb & Er & Eb & Ew & Sz & Kl). destruct small_numbers as (P53 & S0 & S40).
  assert (P40 : 10 ^ 40 = 10000000000000000000000000000000000000000) by (cbn; lra). rewrite P40 in S40.
  assert (Sf : stat_freq b = Odd).
  { destruct (basis_rd_inv (/ 2 ^ 53) eta64 rnd64 powerRZ compute _ _ _ _ _ _ _ _ H) as (k & r & lam & q & e & n & f & f' & _ & _ & _ & _ & _ & _ & _ & _ & _ & _ & _ & _ & _ & _ & E'); [rewrite Er; apply ex_near|].
    rewrite E'. reflexivity. }
  exists b, (35 / 4 + / 2 ^ 49). split; [exact Hb|]. split.
  { unfold accurate_search. rewrite Er, Eb. split; [apply rounding_double|]. split; [rewrite P53; lra|]. split; [exact S0|]. split; [|split; [|split]].
    - change (vgeom (su (ex_sve (/ 10)))) with unit_geom. cbv zeta. change (gorder unit_geom) with 3%nat. change (3 * gnseg unit_geom)%nat with 3%nat.
      replace (6 / 2 ^ 53) with (6 * / 2 ^ 53) by (unfold Rdiv; ring). replace (2 / 2 ^ 53) with (2 * / 2 ^ 53) by (unfold Rdiv; ring).
      replace (18 / 2 ^ 53) with (6 * INR 3 * / 2 ^ 53) by (unfold Rdiv; cbn [INR]; ring). replace (36 * eta64) with (12 * INR 3 * eta64) by (cbn [INR]; ring).
      apply library_rounded with (rd := rnd64); try (rewrite P53; lra); [apply rounding_double|exact S0|cbn [INR]; rewrite P53; lra|apply double_functions|apply double_rounded].
    - unfold small_library. rewrite P53. revert S0 S40. generalize eta64. intros. repeat split; lra.
    - assert (1 <= sqrt 5) by (rewrite <- sqrt_1 at 1; apply sqrt_le_1_alt; lra). apply Rle_trans with (/ 2 ^ 53 * 1); [rewrite P53; revert S0 S40; generalize eta64; intros; lra|].
      apply Rmult_le_compat_l; [rewrite P53; lra|assumption].
    - change (gnseg (vgeom (su (ex_sve (/ 10))))) with 1%nat. rewrite P53. cbn [INR]. lra. }
  split; [exact Kl|]. split; [exact Sf|]. rewrite Er, Sf. split; [reflexivity|]. split; [split; reflexivity|]. split; [split; reflexivity|]. split; [reflexivity|]. split; [reflexivity|].
  split; [repeat constructor|split; [cbn; lia|repeat constructor; lia]].
Qed.

Lemma ex_unmarked compute : exists b, built_rd (/ 2 ^ 53) eta64 rnd64 powerRZ compute b /\
  unmarked (bsve b) (if (l_requested (stat_freq b) 1 <? length (ss (bsve b)))%nat then l_requested (stat_freq b) 1 else (length (ss (bsve b)) - 1)%nat).
Proof.
  destruct (flat_basis compute compute) as (b & _ & _ & Hb & _ & Er & _ & Est & _). exists b. split; [exact Hb|]. rewrite Er. unfold stat_freq. rewrite Est. cbn.
  exists flat_col. split; reflexivity.
Qed.
