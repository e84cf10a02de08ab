(** The adaptive overlap integral in double precision. *)
From Coq Require Import Reals Lra Lia Arith ZArith Bool.
From Coq Require Import List Sorting.Sorted Sorting.Permutation.
From Verif.Model Require Import Base Util Num IEEE Gauss Kronrod Poly PolyIEEE Overlap OverlapIEEE.
From Verif.Spec Require Import SGauss SBasis SOverlap SOverlapIEEE.
From Verif.Proofs Require Import KernelRoundCall OverlapCase OverlapRound OverlapRoundProps OverlapRoundCase.
Import ListNotations.
Open Scope R_scope.
Notation length := List.length.

(** C107. There are converged intervals [done] and pending ones [pending] with
    double ends that together tile the domain along the knots and break points,
    without gaps or overlaps, although every inner point is rounded; there is a
    warning exactly if intervals are pending.  The value is the sum, over the
    converged intervals, of the doubles that the 15-point rule produces there, and
    the error that of the local differences, up to a few units of rounding of the
    sum of the absolute values.  Since the number of levels ml is arbitrary, this
    describes the state after every level. *)
Theorem C107_partition old N sg sm p f rtol ml mp points e val err nc warned :
  sums_near N sg sm -> (31 <= N)%nat -> (mp <= N)%nat ->
  StronglySorted Rle (gknots (vgeom p)) -> Forall is_double (gknots (vgeom p)) -> double_points points -> breaks (gknots (vgeom p)) points e ->
  compute_overlap_rd rnd64 old sm p f rtol ml mp points = Ok (val, err, nc, warned) ->
  exists done pending, tiles (done ++ pending) e /\ Forall double_ends (done ++ pending) /\ (warned = true <-> pending <> []) /\
    forall l c u h, (l < length (vcols p))%nat -> computed_by old p l u -> component f c h ->
      Rabs (val l c - over done (sum15 u h)) <= (growth sg ml - 1) * over done (abs15 u h) /\
      Rabs (err l c - over done (fun s t => Rabs (sum31 u h s t - sum15 u h s t))) <=
        (growth sg ml - 1) * over done (fun s t => abs31 u h s t + abs15 u h s t).
Proof. exact (partition_rd old N sg sm p f rtol ml mp points e val err nc warned). Qed.
Print Assumptions C107_partition.

(** The tolerance: each converged interval belongs to a tiling of the whole
    domain such that the local difference is at most rtol, up to rounding, times
    the sum over that tiling of any bound B of the sums of absolute values for all
    components, plus what the rounding of its own sums may amount to. *)
Theorem C107_tolerance old N sg sm p f r ml mp points e val err nc :
  sums_near N sg sm -> (31 <= N)%nat -> (mp <= N)%nat ->
  StronglySorted Rle (gknots (vgeom p)) -> Forall is_double (gknots (vgeom p)) -> double_points points -> breaks (gknots (vgeom p)) points e ->
  compute_overlap_rd rnd64 old sm p f (Fin r) ml mp points = Ok (val, err, nc, false) ->
  exists done, tiles done e /\
    (forall l c u h, (l < length (vcols p))%nat -> computed_by old p l u -> component f c h ->
       Rabs (val l c - over done (sum15 u h)) <= (growth sg ml - 1) * over done (abs15 u h)) /\
    forall s t, In (s, t) done -> exists T, tiles T e /\ In (s, t) T /\
      forall l u B c h, (l < length (vcols p))%nat -> computed_by old p l u ->
        (forall s' t' c' h', In (s', t') T -> (c' < nc)%nat -> component f c' h' -> abs15 u h' s' t' <= B s' t') ->
        (c < nc)%nat -> component f c h ->
        Rabs (sum31 u h s t - sum15 u h s t) <=
          (r + eta64) * growth sg ml / (1 - / 2 ^ 53) ^ 2 * over T B + sg * (abs31 u h s t + abs15 u h s t).
Proof. exact (tolerance_rd old N sg sm p f r ml mp points e val err nc). Qed.
Print Assumptions C107_tolerance.

(** Sums that add the doubles pair by pair, in whatever order and grouping,
    qualify. *)
Theorem C107_sums N sm : (1 + / 2 ^ 53) ^ N <= 2 -> (forall l, added64 l (sm l)) -> sums_near N ((1 + / 2 ^ 53) ^ N - 1) sm.
Proof. exact (sums_added N sm). Qed.
Print Assumptions C107_sums.

(** Halving an interval between doubles never leaves it. *)
Theorem C107_halving s t : is_double s -> is_double t -> s <= t ->
  exists m, is_double m /\ s <= m <= t /\ cells_rd rnd64 (s, t) = [(s, m); (m, t)].
Proof. exact (halving s t). Qed.
Print Assumptions C107_halving.

(** Exact arithmetic gives the results C31 is about. *)
Theorem C107_exact_arithmetic old p f rtol ml mp points :
  compute_overlap_rd (fun x => x) old rsum p f rtol ml mp points = compute_overlap p f rtol 2 ml mp points.
Proof. exact (overlap_id old p f rtol ml mp points). Qed.
Print Assumptions C107_exact_arithmetic.

(** The hypotheses can be met: the constant 1 on [-1, 1] against f = 1, with sums
    computed from left to right, up to 40 levels and 2000 intervals. *)
Example C107_hypotheses_met :
  sums_near 2000 sg2000 seqsum /\ sg2000 <= / 1000 /\ StronglySorted Rle (gknots (vgeom one_set)) /\
  Forall is_double (gknots (vgeom one_set)) /\ breaks (gknots (vgeom one_set)) None [-1; 1] /\
  (forall old, computed_by old one_set 0 (fun _ => 1)) /\ component one_fun 0 (fun _ => 1) /\
  (forall old, exists val err, overlap_rd rnd64 old seqsum one_set one_fun (Fin 1) None = Ok (val, err, 1%nat, false)).
Proof. exact one_case. Qed.
