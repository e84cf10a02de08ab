(** C98: finite-temperature bases in rounded arithmetic. *)
From Coq Require Import Reals ZArith Arith Bool String.
From Flocq Require Import Core.
From Coquelicot Require Import Coquelicot.
From Coq Require Import List Sorting.Sorted.
From Verif.Model Require Import Base Util Num IEEE Poly PolyIEEE FT FTIEEE SVE Basis BasisIEEE.
From Verif.Spec Require Import SPoly SFT SSVE SBasis SKernelIEEE SGaussIEEE SPolyIEEE SSVEIEEE SFTIEEE SBasisIEEE.
From Verif.Proofs Require Import KernelRoundCall BasisRoundProps BasisRoundMore BasisRoundDouble SVEPolicy.
Import ListNotations.
Open Scope R_scope.

(** The singular values of the basis are those of the expansion times
    sqrt(beta / 2 * wmax) * wmax^(-ypower), up to six roundings and the error of the
    power function. *)
Theorem C98_singular_values : forall u eta rd, rounding u eta rd -> 0 < u <= / 10000 -> 0 <= eta ->
  forall pw compute b, built_rd u eta rd pw compute b ->
  forall ep l, power_near ep pw -> 0 <= ep <= / 100 ->
  1000 * eta <= u * (bbeta b / 2) -> 1000 * eta <= u * (bbeta b / 2 * bwmax b) -> 1000 * eta <= u * sqrt (bbeta b / 2 * bwmax b) ->
  1000 * eta <= u * (sqrt (bbeta b / 2 * bwmax b) * powerRZ (bwmax b) (- kyp (bkernel b))) -> (l < List.length (bs b))%nat ->
  let s := sqrt (bbeta b / 2 * bwmax b) * powerRZ (bwmax b) (- kyp (bkernel b)) * nth l (ss (bsve b)) 0 in
  Rabs (nth l (bs b) 0 - s) <= (6 * u + ep) * s + eta.
Proof. exact rd_singular. Qed.
Print Assumptions C98_singular_values.

(** All functions and singular values kept are counted alike. *)
Theorem C98_sizes : forall u eta rd pw compute b, built_rd u eta rd pw compute b ->
  (0 < List.length (bs b) <= List.length (ss (bsve b)))%nat /\
  List.length (vcols (bu b)) = List.length (bs b) /\ List.length (vcols (bv b)) = List.length (bs b) /\
  List.length (fcols (buhat b)) = List.length (bs b).
Proof. exact rd_sizes. Qed.
Print Assumptions C98_sizes.

(** The accuracy is the first dropped singular value over the first one, or the last
    one over the first if all are kept, up to one rounding. *)
Theorem C98_accuracy : forall u eta rd, rounding u eta rd ->
  forall pw compute b, built_rd u eta rd pw compute b ->
  let s := ss (bsve b) in
  let a := nth (Nat.min (List.length (bs b)) (List.length s - 1)) s 0 / nth 0 s 0 in
  Rabs (bacc b - a) <= u * a + eta.
Proof. exact rd_accuracy. Qed.
Print Assumptions C98_accuracy.

(** Exactly the singular values above the tolerance are kept, where one rounding
    decides about the ones at the tolerance, and at most max_size of them. *)
Theorem C98_truncation : forall u eta rd pw compute st beta wmax e ms ker sve b, rounding u eta rd ->
  basis_init_rd rd pw compute st beta wmax (Some e) ms ker sve = Ok b -> expansion_near u eta (bsve b) -> 0 <= e ->
  (ms = None \/ exists z, ms = Some (PyInt z) /\ (0 <= z)%Z) ->
  let s := ss (bsve b) in let n := List.length (bs b) in
  (forall z, ms = Some (PyInt z) -> (Z.of_nat n <= z)%Z) /\
  (forall l, (l < n)%nat -> (1 - u) * (e * nth 0 s 0) - eta <= nth l s 0) /\
  (forall l, (n <= l < List.length s)%nat -> nth l s 0 <= (1 + u) * (e * nth 0 s 0) + eta \/ ms = Some (PyInt (Z.of_nat n))).
Proof. exact rd_truncation. Qed.
Print Assumptions C98_truncation.

(** Values of u: those of the expansion at a point x next to 2 t / beta - 1, times
    sqrt(2 / beta). *)
Theorem C98_u : forall u eta rd, rounding u eta rd -> 0 < u <= / 10000 -> 0 <= eta ->
  forall pw compute b, built_rd u eta rd pw compute b ->
  forall old i t, let g := vgeom (su (bsve b)) in
  fair_scale u eta (bbeta b / 2) g -> in_segment (vgeom (bu b)) i t -> shifted_loss 1 g i * u <= 1 ->
  exists x ys, Rabs (x - (2 * t / bbeta b - 1)) <= 32 / 10 * (u * outer 1 g i) /\
    knot g i <= x <= knot g (S i) /\
    vcall_rd old rd (bu b) t = Ok ys /\ List.length ys = List.length (bs b) /\
    forall l c y, nth_error (vcols (su (bsve b))) l = Some c -> nth_error ys l = Some y ->
      Rabs (y - sqrt (2 / bbeta b) * seg_fun g c i x) <= moved_error u eta (bbeta b / 2) 1 g c i.
Proof. exact rd_u_val. Qed.
Print Assumptions C98_u.

(** Values of v: those of the expansion at a point y next to w / wmax, over
    sqrt(wmax). *)
Theorem C98_v : forall u eta rd, rounding u eta rd -> 0 < u <= / 10000 -> 0 <= eta ->
  forall pw compute b, built_rd u eta rd pw compute b ->
  forall old i w, let g := vgeom (sv (bsve b)) in
  fair_scale u eta (bwmax b) g -> in_segment (vgeom (bv b)) i w -> shifted_loss 0 g i * u <= 1 ->
  exists y ys, Rabs (y - w / bwmax b) <= 32 / 10 * (u * outer 0 g i) /\
    knot g i <= y <= knot g (S i) /\
    vcall_rd old rd (bv b) w = Ok ys /\ List.length ys = List.length (bs b) /\
    forall l c v, nth_error (vcols (sv (bsve b))) l = Some c -> nth_error ys l = Some v ->
      Rabs (v - / sqrt (bwmax b) * seg_fun g c i y) <= moved_error u eta (bwmax b) 0 g c i.
Proof. exact rd_v_val. Qed.
Print Assumptions C98_v.

(** Every point between the ends is in a segment, although rounded knots may
    coincide. *)
Theorem C98_covers : forall u eta rd pw compute b, built_rd u eta rd pw compute b ->
  (forall t, gxmin (vgeom (bu b)) <= t <= gxmax (vgeom (bu b)) -> exists i, in_segment (vgeom (bu b)) i t) /\
  (forall w, gxmin (vgeom (bv b)) <= w <= gxmax (vgeom (bv b)) -> exists i, in_segment (vgeom (bv b)) i w).
Proof. exact rd_covers. Qed.
Print Assumptions C98_covers.

(** In doubles the ends of the intervals are exact: 0 and beta, -wmax and wmax. *)
Theorem C98_double_end_points : forall pw compute b, built_rd (/ 2 ^ 53) eta64 rnd64 pw compute b ->
  is_double (bbeta b) -> is_double (bwmax b) -> bpow radix2 (-1000) <= bbeta b ->
  gxmin (vgeom (bu b)) = 0 /\ gxmax (vgeom (bu b)) = bbeta b /\ gxmin (vgeom (bv b)) = - bwmax b /\ gxmax (vgeom (bv b)) = bwmax b.
Proof. exact double_ends. Qed.
Print Assumptions C98_double_end_points.

(** Values of uhat below the threshold: the Fourier integral over [0, beta] of the
    function u approximates. *)
Theorem C98_uhat : forall u eta rd pw compute b ej ec um em gam th F model ns M l c j n lam,
  rounding u eta rd -> 0 < u <= / 10000 -> 0 <= eta -> built_rd u eta rd pw compute b -> let g := vgeom (su (bsve b)) in
  1000 * eta <= u * sqrt (bbeta b) -> INR (gnseg g) * u <= / 200 ->
  library_near (gorder g) (gorder g * gnseg g) u ej ec um em gam th F -> small_library ej ec um em gam ->
  klam (bkernel b) = Some lam -> ft_call_rd rd F model (buhat b) ns = Ok M ->
  (l < List.length (bs b))%nat -> nth_error (vcols (su (bsve b))) l = Some c -> nth_error ns j = Some n -> Rabs (IZR n) < rd (40 * lam) ->
  exists v w, entry M l j = Some v /\
    is_fourier (fun t => PI * IZR n * t / bbeta b) (fun t => sqrt (2 / bbeta b) * cval (ideal_geom g) c (2 * t / bbeta b - 1)) 0 (bbeta b) w /\
    Cmod (Cminus v w) <= uhat_error u eta (constant_error u ej ec um em gam) th (bbeta b) g c n.
Proof. exact rd_uhat. Qed.
Print Assumptions C98_uhat.

(** The constructor succeeds unless segments are so short that their lengths cannot be
    computed from the scaled knots. *)
Theorem C98_succeeds : forall u eta rd pw compute st beta wmax e ker r,
  rounding u eta rd -> 0 < u <= / 10000 -> 0 <= eta <= / 10 ^ 12 -> expansion_near u eta r -> st = "F"%string \/ st = "B"%string ->
  0 < beta -> 0 < wmax -> fair_scale u eta (beta / 2) (vgeom (su r)) -> fair_scale u eta wmax (vgeom (sv r)) ->
  tolerated u (beta / 2) 1 (vgeom (su r)) -> tolerated u wmax 0 (vgeom (sv r)) ->
  0 <= e -> (1 + u) * (e * nth 0 (ss r) 0) + eta <= nth 0 (ss r) 0 ->
  (ker = None \/ exists k, ker = Some k /\ klam k = Some (rd (beta * wmax))) ->
  exists b, basis_init_rd rd pw compute st beta wmax (Some e) None ker (Some r) = Ok b /\ bsve b = r /\ bbeta b = beta /\ bwmax b = wmax /\ bstat b = st /\
    klam (bkernel b) = Some (rd (beta * wmax)).
Proof. exact rd_succeeds. Qed.
Print Assumptions C98_succeeds.

(** Without that condition it can fail: at beta = 3 * 2^29 the constructor refuses, in
    doubles, an expansion with a knot at 1 - 2^-52 that it accepts in exact
    arithmetic. *)
Theorem C98_every_expansion_refuted : exists beta r, expansion_near (/ 2 ^ 53) eta64 r /\
  (forall pw compute st wmax, st = "F"%string \/ st = "B"%string -> 0 <= wmax ->
     basis_init_rd rnd64 pw compute st beta wmax (Some (/ 2)) None None (Some r) = Raise ValueError) /\
  (forall compute st wmax, st = "F"%string \/ st = "B"%string -> 0 < wmax ->
     exists b, basis_init compute st beta wmax (Some (/ 2)) None None (Some r) = Ok b).
Proof.
  exists cold, thin_sve. split; [exact thin_near|]. split; [intros; apply cold_refused; auto|exact cold_accepted].
Qed.
Print Assumptions C98_every_expansion_refuted.

(** Doubles: the sets of polynomials the library stores, with lengths of segments made
    by one rounded subtraction, and moderate scales meet the conditions above. *)
Theorem C98_double_stored : forall n knots cols, (0 < n)%nat -> (2 <= List.length knots)%nat -> StronglySorted Rlt knots ->
  nth 0 knots 0 = -1 -> nth (List.length knots - 1) knots 0 = 1 ->
  (forall i, (S i < List.length knots)%nat -> / 10 ^ 290 <= nth (S i) knots 0 - nth i knots 0) ->
  stored (/ 2 ^ 53) eta64 (VPoly (Geom n n (List.length knots - 1) knots (map rnd64 (diffs knots))) cols).
Proof. exact stored_double. Qed.
Print Assumptions C98_double_stored.
Theorem C98_double_scales : forall T g, / 10 ^ 290 <= T <= 10 ^ 290 ->
  (forall i, (i < gnseg g)%nat -> / 10 ^ 290 <= T * (knot g (S i) - knot g i) <= 10 ^ 290) -> fair_scale (/ 2 ^ 53) eta64 T g.
Proof. exact fair_scale_double. Qed.
Print Assumptions C98_double_scales.

(** Without rounding this is the constructor C27 and C45-C48 are about. *)
Theorem C98_exact_arithmetic : forall compute st beta wmax eps ms ker sve,
  basis_init_rd (fun x => x) powerRZ compute st beta wmax eps ms ker sve = basis_init compute st beta wmax eps ms ker sve.
Proof. exact init_exact. Qed.
Print Assumptions C98_exact_arithmetic.

(** A basis of two functions in doubles, with beta = 2 and wmax = 3: the first function
    is x^2, and its computed values are right to ten digits. *)
Example C98_nonvacuous : forall compute,
  exists b, basis_init_rd rnd64 powerRZ compute "F" 2 3 (Some (/ 10)) None None (Some (ex_sve (/ 10))) = Ok b /\
  built_rd (/ 2 ^ 53) eta64 rnd64 powerRZ compute b /\ List.length (bs b) = 2%nat /\ gxmin (vgeom (bu b)) = 0 /\ gxmax (vgeom (bu b)) = 2 /\
  fair_scale (/ 2 ^ 53) eta64 (bbeta b / 2) (vgeom (su (bsve b))) /\ fair_scale (/ 2 ^ 53) eta64 (bwmax b) (vgeom (sv (bsve b))) /\
  forall t old, 0 <= t <= 2 -> exists ys y0 x, vcall_rd old rnd64 (bu b) t = Ok ys /\ nth_error ys 0 = Some y0 /\ Rabs (x - (t - 1)) <= / 10 ^ 15 /\ Rabs (y0 - x ^ 2) <= / 10 ^ 10.
Proof. exact ex_double. Qed.
