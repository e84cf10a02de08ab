(** C102: default sampling points in rounded arithmetic. *)
From Coq Require Import Reals ZArith Arith Bool String.
From Flocq Require Import Core.
From Coquelicot Require Import Coquelicot.
From Coq Require Import List Sorting.Sorted.
From Verif.Model Require Import Base Util Num IEEE Roots Poly PolyIEEE SVE Basis BasisIEEE NDArray Sampling TransformIEEE DefaultsIEEE.
From Verif.Spec Require Import SRoots SPoly SKernelIEEE SPolyIEEE SBasisIEEE SDefaultsIEEE.
From Verif.Proofs Require Import KernelRoundCall DefaultsRoots DefaultsTau DefaultsDeriv DefaultsMore DefaultsCase PPolyExamples.
Import ListNotations.
Open Scope R_scope.

(** Between -1 and 1 no call raises: the search sees the values a user would get. *)
Theorem C102_values : forall old p, searchable (/ 2 ^ 53) eta64 p -> forall rd x, -1 <= x <= 1 -> scall_rd old rd p x = Ok (value_at old rd p x).
Proof. exact value_call. Qed.
Print Assumptions C102_values.

(** The search for roots ends, in doubles, for every polynomial on [-1, 1] and whatever
    the sign bits of computed zeros.  The roots are doubles between -1 and 1 in
    increasing order, exactly symmetric about 0 if a parity is declared; every change of
    sign between knots is reported, and each root is within one machine epsilon of a
    place where the function vanishes up to the error of evaluation (or changes sign
    across a knot), or is the mirror image of such a root, or the centre of an odd
    function. *)
Theorem C102_roots : forall old nz p, searchable (/ 2 ^ 53) eta64 p ->
  exists rs, ends_with (fun fuel => roots_rd old rnd64 nz fuel p 2) rs /\
  StronglySorted Rle rs /\ Forall (fun x => is_double x /\ -1 <= x <= 1) rs /\
  (csym (scol p) = 1 \/ csym (scol p) = -1 -> map Ropp (rev rs) = rs) /\ (csym (scol p) = -1 -> In 0 rs) /\
  reports_sign_changes old rnd64 p rs /\
  (accurate (/ 2 ^ 53) eta64 (sgeom p) -> forall r, In r rs ->
     zero_near (/ 2 ^ 53) eta64 eps64 p r \/ ((csym (scol p) = 1 \/ csym (scol p) = -1) /\ zero_near (/ 2 ^ 53) eta64 eps64 p (- r)) \/ (csym (scol p) = -1 /\ r = 0)).
Proof. exact roots_ok. Qed.
Print Assumptions C102_roots.

(** The same of the default points on [-1, 1], found from an expansion; the warning is
    given exactly if their number is not the requested one. *)
Theorem C102_points : forall old nz u n p,
  geom_near (/ 2 ^ 53) eta64 (vgeom u) /\ gxmin (vgeom u) = -1 /\ gxmax (vgeom u) = 1 /\ Forall is_double (gknots (vgeom u)) /\ (0 < glen (vgeom u))%nat ->
  source_rd rnd64 u n p ->
  exists x0, ends_with (fun fuel => default_points_rd old rnd64 nz fuel u (Z.of_nat n)) (Ok (x0, negb (Z.of_nat (List.length x0) =? Z.of_nat n)%Z)) /\
  StronglySorted Rle x0 /\ Forall (fun x => is_double x /\ -1 <= x <= 1) x0 /\
  (csym (scol p) = 1 \/ csym (scol p) = -1 -> map Ropp (rev x0) = x0) /\
  (csym (scol p) = -1 -> In 0 x0) /\ reports_sign_changes old rnd64 p x0 /\
  (accurate (/ 2 ^ 53) eta64 (vgeom u) -> forall x, In x (interior (n <? List.length (vcols u))%nat x0) ->
     zero_near (/ 2 ^ 53) eta64 eps64 p x \/ ((csym (scol p) = 1 \/ csym (scol p) = -1) /\ zero_near (/ 2 ^ 53) eta64 eps64 p (- x)) \/ (csym (scol p) = -1 /\ x = 0)).
Proof. exact points_ok. Qed.
Print Assumptions C102_points.
Theorem C102_source_exists : forall rd u n, vcols u <> [] -> exists p, source_rd rd u n p.
Proof. exact source_exists. Qed.
Print Assumptions C102_source_exists.

(** The derivative, whose roots are used where the expansion is too short, is next to
    the true one. *)
Theorem C102_derivative : forall u eta rd, rounding u eta rd -> 0 < u <= / 10000 -> 0 <= eta -> forall g c i,
  geom_near u eta g -> (i < gnseg g)%nat -> fair_length u eta g i -> (2 <= glen g)%nat -> INR (glen g) * u <= / 200 ->
  forall x, knot g i <= x <= knot g (S i) -> exists d, is_derive (seg_fun g c i) x d /\
    Rabs (seg_fun (gderiv 1 g) (cderiv_rd rd g c) i x - d) <= deriv_error u eta g c i.
Proof. exact deriv_near. Qed.
Print Assumptions C102_derivative.

(** The default tau points of any basis: the points above, moved to [0, beta] and
    rounded; in increasing order and never outside the interval on which u can be
    called. *)
Theorem C102_tau : forall pw compute b, built_rd (/ 2 ^ 53) eta64 rnd64 pw compute b ->
  forall old nz npoints n p, npoints_or_size b npoints = Z.of_nat n ->
  Forall is_double (gknots (vgeom (su (bsve b)))) -> source_rd rnd64 (su (bsve b)) n p ->
  exists x0 pts, ends_with (fun fuel => default_points_rd old rnd64 nz fuel (su (bsve b)) (Z.of_nat n)) (Ok (x0, negb (Z.of_nat (List.length x0) =? Z.of_nat n)%Z)) /\
  pts = map (fun x => rnd64 (rnd64 (bbeta b / 2) * rnd64 (x + 1))) x0 /\
  ends_with (fun fuel => default_tau_rd old rnd64 nz fuel b npoints) (Ok (pts, negb (Z.of_nat (List.length pts) =? Z.of_nat n)%Z)) /\
  StronglySorted Rle pts /\ Forall (fun t => gxmin (vgeom (bu b)) <= t <= gxmax (vgeom (bu b))) pts.
Proof. intros pw compute b Hb old nz npoints n p Hn. exact (tau_points pw compute b Hb old nz npoints n Hn p). Qed.
Print Assumptions C102_tau.

(** So sampling at the default points is never refused. *)
Theorem C102_tau_sampling : forall pw compute b, built_rd (/ 2 ^ 53) eta64 rnd64 pw compute b ->
  forall old nz npoints n F model svd, npoints_or_size b npoints = Z.of_nat n -> Forall is_double (gknots (vgeom (su (bsve b)))) ->
  exists pts w s, ends_with (fun fuel => default_tau_rd old rnd64 nz fuel b npoints) (Ok (pts, w)) /\
    tau_sampling svd (sb_of_basis_rd old rnd64 F model b) pts = Ok s.
Proof. intros pw compute b Hb old nz npoints n F model svd Hn. exact (tau_sampling_defaults pw compute b Hb old nz npoints n Hn F model svd). Qed.
Print Assumptions C102_tau_sampling.

(** The default omega points, likewise; these are exactly symmetric if a parity is
    declared. *)
Theorem C102_omega : forall pw compute b, built_rd (/ 2 ^ 53) eta64 rnd64 pw compute b ->
  forall old nz npoints n p, npoints_or_size b npoints = Z.of_nat n ->
  Forall is_double (gknots (vgeom (sv (bsve b)))) -> source_rd rnd64 (sv (bsve b)) n p ->
  exists y0 pts, ends_with (fun fuel => default_points_rd old rnd64 nz fuel (sv (bsve b)) (Z.of_nat n)) (Ok (y0, negb (Z.of_nat (List.length y0) =? Z.of_nat n)%Z)) /\
  pts = map (fun y => rnd64 (bwmax b * y)) y0 /\
  ends_with (fun fuel => default_omega_rd old rnd64 nz fuel b npoints) (Ok (pts, negb (Z.of_nat (List.length pts) =? Z.of_nat n)%Z)) /\
  StronglySorted Rle pts /\ Forall (fun t => gxmin (vgeom (bv b)) <= t <= gxmax (vgeom (bv b))) pts /\
  (csym (scol p) = 1 \/ csym (scol p) = -1 -> map Ropp (rev pts) = pts).
Proof. intros pw compute b Hb old nz npoints n p Hn. exact (omega_points pw compute b Hb old nz npoints n Hn p). Qed.
Print Assumptions C102_omega.

(** Without rounding and negative zeros these are the functions of the exact model. *)
Theorem C102_exact_arithmetic : forall old fuel b npoints,
  default_tau_rd old (fun t => t) (fun _ => false) fuel b npoints = default_tau (fun t => t) fuel b npoints /\
  default_omega_rd old (fun t => t) (fun _ => false) fuel b npoints = default_omega (fun t => t) fuel b npoints.
Proof. exact defaults_exact. Qed.
Print Assumptions C102_exact_arithmetic.

(** In doubles, at beta = 5: a basis whose default points come from an odd function, so
    that 5 / 2 is one of them. *)
Example C102_case : forall compute, exists b, built_rd (/ 2 ^ 53) eta64 rnd64 powerRZ compute b /\ bsize b = 2%nat /\
  Forall is_double (gknots (vgeom (su (bsve b)))) /\ Forall is_double (gknots (vgeom (sv (bsve b)))) /\ accurate (/ 2 ^ 53) eta64 (vgeom (su (bsve b))) /\
  exists p, source_rd rnd64 (su (bsve b)) 1 p /\ csym (scol p) = -1 /\ searchable (/ 2 ^ 53) eta64 p /\
  forall old nz, exists pts w, ends_with (fun fuel => default_tau_rd old rnd64 nz fuel b (Some 1%Z)) (Ok (pts, w)) /\ In (5 / 2) pts.
Proof. exact ex_defaults. Qed.

(** A geometry that meets the conditions on the derivative. *)
Example C102_case_derivative : geom_near (/ 2 ^ 53) eta64 unit_geom /\ fair_length (/ 2 ^ 53) eta64 unit_geom 0 /\ (2 <= glen unit_geom)%nat /\
  INR (glen unit_geom) * (/ 2 ^ 53) <= / 200.
Proof. exact ex_deriv. Qed.
