(** A basis for lambda = 1 and the one-point rule. *)
From Coq Require Import String ZArith Arith Bool Reals Lra Lia.
From Coquelicot Require Import Coquelicot.
From Coq Require Import List Sorting.Sorted.
From Verif.Model Require Import Base Util Num Gauss Poly FT SVE Basis Kernel Compute Whole.
From Verif.Spec Require Import SGauss SPoly SFT SSVE SBasis SKernel SCompute SSingular SWhole.
From Verif.Proofs Require Import BaseFacts BasisOps ComputeCase ComputeWhole SingularEq SingularCase LegRoots WholeBasis.
Import ListNotations.
Open Scope R_scope.
Notation length := List.length.

Definition case_basis (c : kern -> option R -> res sve_result) (r : sve_result) : res basis :=
  basis_init c "F" 2 (/ 2) None None (option_map kern_of (Some caseK)) (Some r).

Lemma case_whole hx hg dd c : exists r b, case_compute hx hg dd = Ok (Some r) /\ case_basis c r = Ok b /\
  exists gx gy, piecewise gauss1 (segments_x caseK) = Ok gx /\ piecewise gauss1 (segments_y caseK) = Ok gy /\
    diagonalizes (reseat gx 0 2) (reseat gy (- / 2) (/ 2)) (in_physical casek 0 2 (/ 2)) b /\
    best_of_its_size (reseat gx 0 2) (reseat gy (- / 2) (/ 2)) (in_physical casek 0 2 (/ 2)) b /\
    common_parity b.
Proof.
  destruct (case_returns hx hg dd) as [r Hc]. pose proof (case_nonempty hx hg dd r Hc) as Hne.
  pose proof (basis_input _ _ _ _ _ _ _ _ _ _ _ _ _ _ _ _ leg1_ok sort_indices_ok row_svd_shaped Hc Hne) as Hok.
  destruct (wellformed _ _ _ _ _ _ _ _ _ _ _ _ _ _ _ _ leg1_ok sort_indices_ok row_svd_shaped Hc) as (_ & _ & _ & _ & (e & t & strategy & wn & Hs & Es) & _).
  assert (He : e <= 1). { cbn in Hs. injection Hs as <- _ _ _. lra. }
  destruct (init_accepts c "F" 2 (/ 2) None None (option_map kern_of (Some caseK)) r e ltac:(lra) ltac:(lra) ltac:(auto)) as (b & Eb & _); auto.
  { right. exists (kern_of caseK), 1. split; [reflexivity|]. split; [reflexivity|]. replace (1 - 2 * / 2) with 0 by field. rewrite Rabs_R0.
    apply Rmult_le_pos; [lra|apply Rabs_pos]. }
  exists r, b. split; [exact Hc|]. split; [exact Eb|].
  assert (Hw : 0 < / 2) by lra.
  destruct (from_centro hx hg dd casef leg1 row_svd sort_indices leg1_ok sort_indices_ok row_svd_shaped "F" 2 (/ 2) None None (Some caseK) c _ _ _ _ _ _ _ r b Hc Eb Hw
    casek casef_ok casek_value ltac:(discriminate)) as
    (t1 & n & q & gx & gy & GX & GY & alge & he & algo & ho & Hq & _ & Hx & Hy & HX & HY & H).
  destruct (proj1 (case_decompositions t1 n q alge he Hq) gx gy Hx Hy) as [De _]. destruct (proj1 (case_decompositions t1 n q algo ho Hq) gx gy Hx Hy) as [_ Do].
  specialize (H (triples_of_exact _ _ _ _ De) (triples_of_exact _ _ _ _ Do)).
  destruct (from_centro_best hx hg dd casef leg1 row_svd sort_indices leg1_ok sort_indices_ok row_svd_shaped "F" 2 (/ 2) None None (Some caseK) c _ _ _ _ _ _ _ r b Hc Eb Hw
    casek casef_ok casek_value ltac:(discriminate)) as
    (t' & n' & q' & gx' & gy' & GX' & GY' & alge' & he' & algo' & ho' & Hq' & _ & Hx' & Hy' & HX' & HY' & H').
  destruct (proj1 (case_decompositions t' n' q' alge' he' Hq') gx' gy' Hx' Hy') as [De' _]. destruct (proj1 (case_decompositions t' n' q' algo' ho' Hq') gx' gy' Hx' Hy') as [_ Do'].
  specialize (H' De' Do' (proj1 (svals_row _ _ _)) (proj1 (svals_row _ _ _)) (proj2 (svals_row _ _ _)) (proj2 (svals_row _ _ _))).
  assert (E : forall t n q, leg1 t n = Ok q -> q = gauss1) by (intros ? [|[|]] ?; cbn; congruence).
  rewrite (E _ _ _ Hq) in *. rewrite (E _ _ _ Hq') in *. cbn [used_kernel] in *. rewrite HX in HX'. rewrite HY in HY'. injection HX' as <-. injection HY' as <-.
  exists GX, GY. repeat (split; [assumption|]).
  exact (from_parity hx hg dd casef leg1 row_svd sort_indices leg1_ok sort_indices_ok row_svd_shaped "F" 2 (/ 2) None None (Some caseK) c _ _ _ _ _ _ _ r b Hc Eb Hw ltac:(discriminate)).
Qed.
