(** Properties of the adaptive overlap integral. *)
From Coquelicot Require Import Coquelicot.
From Coq Require Import Reals Lra Lia Arith ZArith Bool.
From Coq Require Import List Sorting.Sorted Sorting.Permutation.
From Verif.Model Require Import Base Util Num Gauss Kronrod Poly Overlap.
From Verif.Spec Require Import SGauss SPoly SFT SBasis SOverlap.
From Verif.Proofs Require Import OverlapTiles OverlapFacts OverlapMore OverlapAccuracy OverlapProps OverlapCase.
Import ListNotations.
Open Scope R_scope.
Notation length := List.length.

(** C31. [compute_overlap p f rtol radix ml mp points] integrates the set p
    against f; its result consists of the values and errors by polynomial and
    component, the number of components, and whether a warning was issued.
    There are converged intervals [done] and pending ones [pending] that together
    tile the domain along the knots and break points; the value is the sum of the
    15-point rule, and the error the sum of the local differences, over the
    converged ones; there is a warning exactly if intervals are pending.  Since
    the number of levels ml is arbitrary, this describes the state after every
    level. *)
Theorem C31_partition p f rtol radix ml mp points e val err nc warned :
  (0 < radix)%nat -> StronglySorted Rle (gknots (vgeom p)) -> breaks (gknots (vgeom p)) points e ->
  compute_overlap p f rtol radix ml mp points = Ok (val, err, nc, warned) ->
  exists done pending, tiles (done ++ pending) e /\ (warned = true <-> pending <> []) /\
    forall l c u h, represents p l u -> component f c h ->
      val l c = over done (fun s t => panel15 s t (fun x => u x * h x)) /\
      err l c = over done (fun s t => Rabs (panel31 s t (fun x => u x * h x) - panel15 s t (fun x => u x * h x))).
Proof. exact (partition_result p f rtol radix ml mp points e val err nc warned). Qed.
Print Assumptions C31_partition.

(** The tolerance: each converged interval belongs to a tiling of the whole
    domain such that the local difference is at most rtol times the sum, over
    that tiling, of any bound B of the 15-point rule for all components. *)
Theorem C31_tolerance p f r radix ml mp points e val err nc :
  (0 < radix)%nat -> StronglySorted Rle (gknots (vgeom p)) -> breaks (gknots (vgeom p)) points e ->
  compute_overlap p f (Fin r) radix ml mp points = Ok (val, err, nc, false) ->
  exists done, tiles done e /\
    (forall l c u h, represents p l u -> component f c h ->
       val l c = over done (fun s t => panel15 s t (fun x => u x * h x))) /\
    forall s t, In (s, t) done -> exists T, tiles T e /\ In (s, t) T /\
      forall l u B c h, (l < length (vcols p))%nat -> represents p l u ->
        (forall s' t' c' h', (c' < nc)%nat -> component f c' h' -> Rabs (panel15 s' t' (fun x => u x * h' x)) <= B s' t') ->
        (c < nc)%nat -> component f c h ->
        Rabs (panel31 s t (fun x => u x * h x) - panel15 s t (fun x => u x * h x)) <= r * over T B /\ 0 < over T B.
Proof. exact (tolerance_result p f r radix ml mp points e val err nc). Qed.
Print Assumptions C31_tolerance.

(** If all products of the set and f are polynomials of degree at most 29 between
    the break points, then a result without warning is the integral, up to the
    precision of the tabulated nodes and weights. *)
Theorem C31_accuracy p f rtol radix ml mp points e val err nc n M C l c u h :
  fresh p -> (0 < radix)%nat -> breaks (gknots (vgeom p)) points e ->
  compute_overlap p f rtol radix ml mp points = Ok (val, err, nc, false) ->
  (forall pts x, points = Some pts -> In x pts -> gxmin (vgeom p) <= x <= gxmax (vgeom p)) ->
  represents p l u -> component f c h -> (n <= 30)%nat ->
  Rabs (gxmin (vgeom p)) <= M -> Rabs (gxmax (vgeom p)) <= M ->
  piecewise_bounded n M C e (fun x => u x * h x) ->
  exists I, is_RInt (fun x => u x * h x) (gxmin (vgeom p)) (gxmax (vgeom p)) I /\
    Rabs (val l c - I) <= / 10 ^ 13 * C * ((gxmax (vgeom p) - gxmin (vgeom p)) / 2).
Proof. exact (overlap_accuracy p f rtol radix ml mp points e val err nc n M C l c u h). Qed.
Print Assumptions C31_accuracy.

(** [overlap] returns for every f that is defined strictly between the ends,
    except possibly at the knots and break points, and gives the same positive
    number of components everywhere, if there are at most 2000 initial
    intervals. *)
Theorem C31_defined p f rtol points e nc :
  fresh p -> breaks (gknots (vgeom p)) points e ->
  (forall pts x, points = Some pts -> In x pts -> gxmin (vgeom p) <= x <= gxmax (vgeom p)) ->
  (0 < nc)%nat ->
  (forall x, gxmin (vgeom p) < x < gxmax (vgeom p) -> ~ In x e -> exists v, f x = Ok v /\ length v = nc) ->
  (length e <= 2001)%nat ->
  exists val err warned, overlap p f rtol points = Ok (val, err, nc, warned).
Proof. exact (defined_result p f rtol points e nc). Qed.
Print Assumptions C31_defined.

(** Break points outside the domain raise ValueError. *)
Theorem C31_points_outside p f rtol pts e x nc :
  fresh p -> breaks (gknots (vgeom p)) (Some pts) e -> In x pts -> x < gxmin (vgeom p) \/ gxmax (vgeom p) < x ->
  (forall x, exists v, f x = Ok v /\ length v = nc) -> (length e <= 2001)%nat ->
  overlap p f rtol (Some pts) = Raise ValueError.
Proof. exact (outside_result p f rtol pts e x nc). Qed.
Print Assumptions C31_points_outside.

(** More than 2000 initial intervals raise TypeError, after the warning. *)
Theorem C31_too_many_intervals p f rtol points e :
  breaks (gknots (vgeom p)) points e -> (2001 < length e)%nat -> overlap p f rtol points = Raise TypeError.
Proof. exact (too_many_result p f rtol points e). Qed.
Print Assumptions C31_too_many_intervals.

(** Every other exception is raised by f. *)
Theorem C31_exceptions p f rtol points exc : fresh p -> overlap p f rtol points = Raise exc ->
  exc = ValueError \/ exc = TypeError \/ exists x, f x = Raise exc.
Proof. exact (exceptions_result p f rtol points exc). Qed.
Print Assumptions C31_exceptions.

(** If the product of f with a single polynomial of the set vanishes, the
    computation never converges, and the result for every polynomial is zero. *)
Theorem C31_vanishing_product p f rtol points l0 u val err nc warned :
  geom_ok (vgeom p) -> (l0 < length (vcols p))%nat -> represents p l0 u ->
  (forall x v c, f x = Ok v -> u x * nth c v 0 = 0) ->
  overlap p f rtol points = Ok (val, err, nc, warned) ->
  warned = true /\ (forall l c, val l c = 0) /\ (forall l c, err l c = 0).
Proof. exact (vanishing_result p f rtol points l0 u val err nc warned). Qed.
Print Assumptions C31_vanishing_product.

(** So the value need not be near the integral: for the set of the constants 1
    and 0 and f = 1 the result is 0 instead of 2 for the first. *)
Theorem C31_integral_refuted :
  exists p f u h val err, fresh p /\ represents p 0 u /\ component f 0 h /\
    is_RInt (fun x => u x * h x) (gxmin (vgeom p)) (gxmax (vgeom p)) 2 /\
    overlap p f (Fin (/ 10 ^ 6)) None = Ok (val, err, 1%nat, true) /\ val 0%nat 0%nat = 0.
Proof.
  destruct one_zero_result as (val & err & H & H0).
  exists one_zero_set, one_fun, (fun _ => 1), (fun _ => 1), val, err. split; [apply one_fresh|].
  split; [exact (one_value (vcols one_zero_set) 1 0 eq_refl)|]. split; [exact one_component|]. split; [exact one_integral|].
  split; [exact H|exact H0].
Qed.
Print Assumptions C31_integral_refuted.

(** The hypotheses can be met: the constant 1 on [-1, 1] against f = 1. *)
Example C31_hypotheses_met :
  fresh one_set /\ StronglySorted Rle (gknots (vgeom one_set)) /\ breaks (gknots (vgeom one_set)) None [-1; 1] /\
  (exists val err, compute_overlap one_set one_fun (Fin (/ 10 ^ 6)) 2 2 3 None = Ok (val, err, 1%nat, false)) /\
  represents one_set 0 (fun _ => 1) /\ component one_fun 0 (fun _ => 1) /\
  piecewise_bounded 1 1 1 [-1; 1] (fun x => (fun _ => 1) x * (fun _ => 1) x) /\
  breaks (gknots (vgeom one_set)) (Some [2]) [-1; 1; 2] /\
  represents one_zero_set 1 (fun _ => 0).
Proof.
  split; [apply one_fresh|]. split; [cbn; repeat constructor; lra|]. split; [reflexivity|]. split; [exact (one_converges_gen 1 3 (le_S _ _ (le_S _ _ (le_n 1))))|].
  split; [apply one_value; reflexivity|]. split; [exact one_component|]. split.
  { split; [|exact I]. exists (fun _ => 1). split; [intros; cbn; lra|]. cbn. rewrite Rabs_R1. lra. }
  split; [|apply one_value; reflexivity].
  cbn. split; [repeat constructor; lra|]. intros x. tauto.
Qed.
