(** C06 - C10: sign changes, roots and extrema on a grid. *)
From Coq Require Import List ZArith Bool Reals Lra Lia Sorted.
From Flocq Require Import Core.
From Verif.Model Require Import Base Roots IEEE.
From Verif.Spec Require Import SRoots.
From Verif.Proofs Require Import RootsFacts RootsDiscr RootsCont RootsIEEE RootsExtr RootsExamples.
Import ListNotations.

(** C06: on every strictly increasing integer grid the search ends; the result
    is strictly increasing, contains every grid zero, exactly one sign flip per
    sign-changing grid interval, and nothing else. *)
Theorem C06_discrete_sign_changes :
  forall (V : Type) (signbit iszero : V -> bool) (f : Z -> V) (grid : list Z),
  StronglySorted Z.lt grid ->
  exists rs,
    ends_with (fun fuel => find_all_discr signbit iszero fuel f grid) rs /\
    StronglySorted Z.lt rs /\
    (forall x, In x grid -> iszero (f x) = true -> In x rs) /\
    (forall a b, adjacent grid a b -> sign_interval signbit iszero f a b ->
       exists r, (In r rs /\ (a <= r < b)%Z /\ flips signbit f r) /\
                 (forall r', In r' rs -> (a <= r' < b)%Z -> r' = r)) /\
    (forall r, In r rs ->
       (In r grid /\ iszero (f r) = true) \/
       (exists a b, adjacent grid a b /\ sign_interval signbit iszero f a b /\
                    (a <= r < b)%Z /\ flips signbit f r)).
Proof. exact @find_all_discr_ok. Qed.
Print Assumptions C06_discrete_sign_changes.

Example C06_concrete :
  StronglySorted Z.lt [0; 10; 20]%Z /\
  sign_interval (fun v => (v <? 0)%Z) (fun v => (v =? 0)%Z) (fun x => (7 - x)%Z) 0%Z 10%Z /\
  find_all_discr (fun v => (v <? 0)%Z) (fun v => (v =? 0)%Z) 20 (fun x => (7 - x)%Z) [0; 10; 20]%Z = Some [7]%Z.
Proof.
  split; [repeat constructor|]. split; [|reflexivity].
  repeat split; discriminate.
Qed.

(** C07: in exact arithmetic the search ends, reports every grid zero, exactly
    one point per sign-changing interval, nothing else, in increasing order, and
    for a continuous function each reported point is within eps * max|grid| of a
    true root. *)
Theorem C07_continuous_roots :
  forall (f : R -> R) (grid : list R),
  StronglySorted Rlt grid ->
  exists rs,
    ends_with (fun fuel => find_all_cont (fun x => x) rsignbit (fun v => Reqb v 0) fuel f grid) rs /\
    StronglySorted Rlt rs /\
    (forall x, In x grid -> f x = 0 -> In x rs)%R /\
    (forall a b, adjacent grid a b -> f a * f b < 0 ->
       exists r, In r rs /\ a < r < b /\ (forall r', In r' rs -> a < r' < b -> r' = r))%R /\
    (forall r, In r rs ->
       (In r grid /\ f r = 0) \/
       (exists a b, adjacent grid a b /\ f a * f b < 0 /\ a < r < b /\
          ((forall x, a <= x <= b -> continuity_pt f x) ->
           exists z, a <= z <= b /\ f z = 0 /\ Rabs (z - r) < eps64 * maxabs grid)))%R.
Proof. exact find_all_cont_real. Qed.
Print Assumptions C07_continuous_roots.

Example C07_hypotheses_met :
  StronglySorted Rlt [-1; 1; 2]%R /\ adjacent [-1; 1; 2]%R (-1)%R 1%R /\
  ((fun x => x - / 3) (-1) * (fun x => x - / 3) 1 < 0)%R.
Proof.
  split; [repeat constructor; lra|]. split; [exists [], [2%R]; reflexivity|lra].
Qed.

(** C08: with IEEE double arithmetic the search ends for every function unless
    the whole grid lies within 2^-970 of zero ... *)
Theorem C08_ieee_bisection_terminates :
  forall (V : Type) (signbit iszero : V -> bool) (f : R -> V) (grid : list R),
  StronglySorted Rlt grid -> Forall is_double grid -> (bpow radix2 (-970) <= maxabs grid)%R ->
  exists rs, ends_with (fun fuel => find_all_cont rnd64 signbit iszero fuel f grid) rs /\
    (forall x, In x grid -> iszero (f x) = true -> In x rs) /\
    (forall a b, adjacent grid a b -> sign_interval signbit iszero f a b ->
       exists r, In r rs /\ (a <= r <= b)%R).
Proof. exact @find_all_cont64_terminates. Qed.
Print Assumptions C08_ieee_bisection_terminates.

(** ... and never ends if there is a sign change on a grid so small that the
    tolerance underflows. *)
Theorem C08_ieee_bisection_always_terminates_refuted :
  forall (V : Type) (signbit iszero : V -> bool) (f : R -> V) (grid : list R) a b,
  StronglySorted Rlt grid -> Forall is_double grid -> (maxabs grid < bpow radix2 (-1023))%R ->
  adjacent grid a b -> sign_interval signbit iszero f a b ->
  forall fuel, find_all_cont rnd64 signbit iszero fuel f grid = None.
Proof. exact @find_all_cont64_diverges. Qed.
Print Assumptions C08_ieee_bisection_always_terminates_refuted.

Example C08_terminating_grid :
  StronglySorted Rlt [-1; 1]%R /\ Forall is_double [-1; 1]%R /\ (bpow radix2 (-970) <= maxabs [-1; 1])%R.
Proof. exact terminating_grid. Qed.
Example C08_underflowing_grid :
  let t := bpow radix2 (-1030) in
  StronglySorted Rlt [-t; t]%R /\ Forall is_double [-t; t]%R /\ (maxabs [-t; t] < bpow radix2 (-1023))%R /\
  adjacent [-t; t]%R (-t)%R t /\ sign_interval rsignbit (fun v => Reqb v 0) (fun x => x) (-t)%R t.
Proof. exact underflowing_grid. Qed.

(** C09: on every strictly increasing integer grid with at least two points, the
    extremum search ends and reports: the first/last grid point exactly if the
    magnitude decreases inwards or the sign changes; for each secant turn a
    point strictly inside that is a discrete local maximum of |f|; nothing
    else.  C10: without two consecutive turns the result is strictly
    increasing. *)
Theorem C09_C10_discrete_extrema :
  forall (f : Z -> R) (grid : list Z) x0 x1 xl xl' l1 l2,
  StronglySorted Z.lt grid ->
  grid = x0 :: x1 :: l1 -> grid = l2 ++ [xl'; xl] ->
  exists rs,
    ends_with (fun fuel => discrete_extrema fuel f grid) (Ok rs) /\
    (In x0 rs <-> outer_max f x0 x1) /\
    (In xl rs <-> outer_max f xl xl') /\
    (forall a c b, adjacent3 grid a c b -> turns f a c b -> exists r, In r rs /\ inner_max f a b r) /\
    (forall r, In r rs -> r = x0 \/ r = xl \/
       (exists a c b, adjacent3 grid a c b /\ turns f a c b /\ inner_max f a b r)) /\
    ((forall a c d b, adjacent3 grid a c d -> adjacent3 grid c d b ->
        turns f a c d -> turns f c d b -> False) -> StronglySorted Z.lt rs).
Proof. exact discrete_extrema_ok. Qed.
Print Assumptions C09_C10_discrete_extrema.

(** If |f| rises to a single peak p and then falls on the interior, the local
    maximum reported for that bracket is p. *)
Theorem C09_unimodal_peak_found :
  forall (f : Z -> R) a b r p,
  (a < p < b)%Z ->
  (forall x, (a < x < p)%Z -> (Rabs (f x) <= Rabs (f (x + 1)%Z))%R) ->
  (forall x, (p <= x)%Z -> (x + 1 < b)%Z -> (Rabs (f (x + 1)%Z) < Rabs (f x))%R) ->
  inner_max f a b r -> r = p.
Proof. exact inner_max_unimodal. Qed.
Print Assumptions C09_unimodal_peak_found.

(** The order of the reported extrema is not guaranteed in general. *)
Theorem C10_extrema_ordered_refuted :
  exists f, ends_with (fun fuel => discrete_extrema fuel f [0; 3; 10; 14]%Z) (Ok [8; 6; 14]%Z).
Proof. exact extrema_unordered_ex. Qed.
Print Assumptions C10_extrema_ordered_refuted.

Example C09_hypotheses_met :
  let f := fun x => (5 - Rabs (IZR x - 4))%R in
  StronglySorted Z.lt [0; 3; 9]%Z /\ adjacent3 [0; 3; 9]%Z 0%Z 3%Z 9%Z /\ turns f 0%Z 3%Z 9%Z /\
  inner_max f 0%Z 9%Z 4%Z.
Proof. exact extremum_case. Qed.
