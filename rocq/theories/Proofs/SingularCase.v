(** The singular equations and the best approximation in a concrete case. *)
From Coq Require Import String ZArith Arith Bool Reals Lra Lia Psatz.
From Coquelicot Require Import Coquelicot.
From Coq Require Import List Sorting.Sorted Sorting.Permutation.
From Verif.Model Require Import Base Util Num Gauss Poly SVE Kernel Compute.
From Verif.Spec Require Import SGauss SPoly SFT SSVE SBasis SKernel SCompute SSingular.
From Verif.Proofs Require Import KernelSegs LegRoots ComputeNodes ComputeError ComputeFull ComputeDefined ComputeCase ComputeWhole SingularEq SingularCompute BestCuts ComputeNonempty.
Import ListNotations.
Open Scope R_scope.
Notation length := List.length.

Lemma svals_row alg A h : nonincreasing (svals (row_svd alg A h)) /\ Forall (fun x => 0 <= x) (svals (row_svd alg A h)).
Proof. pose proof (row_svd_shape alg A h) as H. destruct (row_svd alg A h) as [[us s] vs]. unfold svals. cbn [fst snd]. tauto. Qed.
Lemma svals_pair alg A h : nonincreasing (svals (pair_svd alg A h)) /\ Forall (fun x => 0 <= x) (svals (pair_svd alg A h)).
Proof. pose proof (pair_svd_shape alg A h) as H. destruct (pair_svd alg A h) as [[us s] vs]. unfold svals. cbn [fst snd]. tauto. Qed.

Lemma case_cut : forall c, Some (Fin 0) = Some (Fin c) -> c < 1.
Proof. intros c [= <-]. lra. Qed.

Lemma case_nonempty hx hg dd r : case_compute hx hg dd = Ok (Some r) -> ss r <> [].
Proof.
  intros Hc.
  destruct (nonempty_centro hx hg dd casef leg1 row_svd sort_indices leg1_ok sort_indices_ok row_svd_shaped _ _ _ _ _ _ _ _ Hc ltac:(discriminate) ltac:(discriminate) case_cut
    casek casef_ok ltac:(cbn; lra) casek_value ltac:(intros; apply casek_pos)) as (t & n & q & gx & gy & alg & h & Hq & _ & Hx & Hy & H).
  apply H. apply (proj1 (case_decompositions t n q alg h Hq) gx gy Hx Hy).
Qed.
Lemma case_sample_nonempty hx hg dd r : case_sample hx hg dd = Ok (Some r) -> ss r <> [].
Proof.
  intros Hc.
  destruct (nonempty_sample hx hg dd casef leg1 pair_svd sort_indices leg1_ok pair_svd_shaped _ _ _ _ _ _ _ Hc ltac:(discriminate) case_cut
    casek casek_value ltac:(intros; apply casek_pos)) as (t & n & q & gx & gy & alg & h & Hq & _ & Hx & Hy & H).
  apply H. apply (proj2 (case_decompositions t n q alg h Hq) gx gy Hx Hy).
Qed.

Lemma case_singular hx hg dd : exists r, case_compute hx hg dd = Ok (Some r) /\ ss r <> [] /\
  exists gx gy, piecewise gauss1 (segments_x caseK) = Ok gx /\ piecewise gauss1 (segments_y caseK) = Ok gy /\
    singular_system gx gy casek r /\ best_cuts gx gy casek r.
Proof.
  destruct (case_returns hx hg dd) as [r Hc]. exists r. split; [exact Hc|]. split; [exact (case_nonempty hx hg dd r Hc)|].
  destruct (singular_centro hx hg dd casef leg1 row_svd sort_indices leg1_ok sort_indices_ok _ _ _ _ _ _ _ _ r Hc ltac:(discriminate) casek casef_ok ltac:(cbn; lra) casek_value) as
    (t & n & q & gx & gy & GX & GY & alge & he & algo & ho & Hq & _ & Hx & Hy & HX & HY & H).
  destruct (proj1 (case_decompositions t n q alge he Hq) gx gy Hx Hy) as [De _]. destruct (proj1 (case_decompositions t n q algo ho Hq) gx gy Hx Hy) as [_ Do].
  destruct (H (triples_of_exact _ _ _ _ De) (triples_of_exact _ _ _ _ Do)) as (Sys & _).
  destruct (best_centro hx hg dd casef leg1 row_svd sort_indices leg1_ok sort_indices_ok _ _ _ _ _ _ _ _ r Hc ltac:(discriminate) casek casef_ok ltac:(cbn; lra) casek_value) as
    (t' & n' & q' & gx' & gy' & GX' & GY' & alge' & he' & algo' & ho' & Hq' & _ & Hx' & Hy' & HX' & HY' & H').
  destruct (proj1 (case_decompositions t' n' q' alge' he' Hq') gx' gy' Hx' Hy') as [De' _]. destruct (proj1 (case_decompositions t' n' q' algo' ho' Hq') gx' gy' Hx' Hy') as [_ Do'].
  specialize (H' De' Do' (proj1 (svals_row _ _ _)) (proj1 (svals_row _ _ _)) (proj2 (svals_row _ _ _)) (proj2 (svals_row _ _ _))).
  assert (E : forall t n q, leg1 t n = Ok q -> q = gauss1) by (intros ? [|[|]] ?; cbn; congruence).
  rewrite (E _ _ _ Hq) in *. rewrite (E _ _ _ Hq') in *.
  exists GX, GY. split; [exact HX|]. split; [exact HY|]. split; [exact Sys|]. rewrite HX in HX'. rewrite HY in HY'. injection HX' as <-. injection HY' as <-. exact H'.
Qed.

Lemma case_singular_sample hx hg dd : exists r, case_sample hx hg dd = Ok (Some r) /\ ss r <> [] /\
  exists gx gy, piecewise gauss1 (segments_x caseK) = Ok gx /\ piecewise gauss1 (segments_y caseK) = Ok gy /\
    singular_system gx gy casek r /\ best_cuts gx gy casek r.
Proof.
  destruct (case_sample_returns hx hg dd) as [r Hc]. exists r. split; [exact Hc|]. split; [exact (case_sample_nonempty hx hg dd r Hc)|].
  destruct (singular_sample hx hg dd casef leg1 pair_svd sort_indices leg1_ok _ _ _ _ _ _ _ r Hc casek casek_value) as
    (t & n & q & GX & GY & alg & h & Hq & _ & HX & HY & H).
  destruct (H (triples_of_exact _ _ _ _ (proj2 (case_decompositions t n q alg h Hq) GX GY HX HY))) as (Sys & _).
  destruct (best_sample hx hg dd casef leg1 pair_svd sort_indices leg1_ok _ _ _ _ _ _ _ r Hc casek casek_value) as
    (t' & n' & q' & GX' & GY' & alg' & h' & Hq' & _ & HX' & HY' & H').
  specialize (H' (proj2 (case_decompositions t' n' q' alg' h' Hq') GX' GY' HX' HY') (proj1 (svals_pair _ _ _)) (proj2 (svals_pair _ _ _))).
  assert (E : forall t n q, leg1 t n = Ok q -> q = gauss1) by (intros ? [|[|]] ?; cbn; congruence).
  rewrite (E _ _ _ Hq) in *. rewrite (E _ _ _ Hq') in *.
  exists GX, GY. split; [exact HX|]. split; [exact HY|]. split; [exact Sys|]. rewrite HX in HX'. rewrite HY in HY'. injection HX' as <-. injection HY' as <-. exact H'.
Qed.
