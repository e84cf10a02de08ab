(** C101: slicing and rescaling bases in rounded arithmetic. *)
From Coq Require Import Reals ZArith Arith Bool String.
From Flocq Require Import Core.
From Coquelicot Require Import Coquelicot.
From Coq Require Import List Sorting.Sorted.
From Verif.Model Require Import Base Util Num IEEE Poly PolyIEEE FT FTIEEE SVE Basis BasisIEEE OpsIEEE.
From Verif.Spec Require Import SPoly SFT SSVE SBasis SKernelIEEE SPolyIEEE SFTIEEE SBasisIEEE SOpsIEEE.
From Verif.Proofs Require Import KernelRoundCall OpsRound OpsRoundMore BasisRoundDouble.
Import ListNotations.
Open Scope R_scope.

(** A slice [:stop] is a basis of the same problem whose functions and singular values
    are, number by number, the first ones of the original, and vice versa where the
    original had been cut shorter. *)
Theorem C101_slice : forall u eta rd pw compute, rounding u eta rd ->
  forall b e i stop, built_rd u eta rd pw compute b -> seps (bsve b) = Some e -> rd (e * nth 0 (ss (bsve b)) 0) <= nth 0 (ss (bsve b)) 0 -> prefix_slice i stop ->
  (stop = None \/ exists z, stop = Some (PyInt z) /\ (0 < z)%Z) ->
  let N := kept rd e (ss (bsve b)) in
  let n := match stop with Some (PyInt z) => Nat.min (Z.to_nat z) N | _ => N end in
  exists b', basis_getitem_rd rd pw compute b i = Ok b' /\ built_rd u eta rd pw compute b' /\ bsize b' = n /\ same_setting b b' /\
    ((n <= bsize b)%nat -> first_of_rd n b b') /\ ((bsize b <= n)%nat -> first_of_rd (bsize b) b' b).
Proof. exact slice_rd. Qed.
Print Assumptions C101_slice.

(** Rescaling keeps the statistics, the kernel and the expansion, gives the new beta and
    the rounded quotient as wmax, and the first functions that reach the tolerance of
    the expansion. *)
Theorem C101_rescale : forall u eta rd pw compute, rounding u eta rd ->
  forall b e nb lam, built_rd u eta rd pw compute b -> seps (bsve b) = Some e -> rd (e * nth 0 (ss (bsve b)) 0) <= nth 0 (ss (bsve b)) 0 ->
  klam (bkernel b) = Some lam -> 0 < nb -> 0 < rd (lam / nb) -> lam_close_rd rd lam (rd (nb * rd (lam / nb))) = true ->
  0 < u <= / 10000 -> 0 <= eta <= / 10 ^ 12 -> fair_scale u eta (nb / 2) (vgeom (su (bsve b))) -> fair_scale u eta (rd (lam / nb)) (vgeom (sv (bsve b))) ->
  tolerated u (nb / 2) 1 (vgeom (su (bsve b))) -> tolerated u (rd (lam / nb)) 0 (vgeom (sv (bsve b))) ->
  exists b', rescale_rd rd pw compute b nb = Ok b' /\ built_rd u eta rd pw compute b' /\ bbeta b' = nb /\ bwmax b' = rd (lam / nb) /\
    bstat b' = bstat b /\ bkernel b' = bkernel b /\ bsve b' = bsve b /\ bsize b' = Nat.min (bsize b) (kept rd e (ss (bsve b))).
Proof. exact rescale_rd_ok. Qed.
Print Assumptions C101_rescale.

(** In doubles the check of Lambda always passes. *)
Theorem C101_rescale_double : forall pw compute b e nb lam, built_rd (/ 2 ^ 53) eta64 rnd64 pw compute b ->
  seps (bsve b) = Some e -> e <= 1 -> is_double (nth 0 (ss (bsve b)) 0) ->
  klam (bkernel b) = Some lam -> 0 < nb -> bpow radix2 (-1022) <= lam / nb -> bpow radix2 (-900) <= lam ->
  fair_scale (/ 2 ^ 53) eta64 (nb / 2) (vgeom (su (bsve b))) -> fair_scale (/ 2 ^ 53) eta64 (rnd64 (lam / nb)) (vgeom (sv (bsve b))) ->
  tolerated (/ 2 ^ 53) (nb / 2) 1 (vgeom (su (bsve b))) -> tolerated (/ 2 ^ 53) (rnd64 (lam / nb)) 0 (vgeom (sv (bsve b))) ->
  exists b', rescale_rd rnd64 pw compute b nb = Ok b' /\ built_rd (/ 2 ^ 53) eta64 rnd64 pw compute b' /\ bbeta b' = nb /\ bwmax b' = rnd64 (lam / nb) /\
    bstat b' = bstat b /\ bkernel b' = bkernel b /\ bsve b' = bsve b /\ bsize b' = Nat.min (bsize b) (kept rnd64 e (ss (bsve b))).
Proof. exact rescale_double. Qed.
Print Assumptions C101_rescale_double.

(** Temperatures that are zero or negative are refused. *)
Theorem C101_rescale_errors : forall u eta rd pw compute, rounding u eta rd -> forall b nb, built_rd u eta rd pw compute b ->
  (nb = 0 -> rescale_rd rd pw compute b nb = Raise ZeroDivisionError) /\ (nb < 0 -> rescale_rd rd pw compute b nb = Raise ValueError).
Proof. exact rescale_rd_errors. Qed.
Print Assumptions C101_rescale_errors.

(** Rescaling to an arbitrary temperature can fail: this basis has a knot that cannot be
    told from the end of the interval at beta = 3 * 2^29. *)
Theorem C101_every_temperature_refuted : forall pw compute, exists b nb, built_rd (/ 2 ^ 53) eta64 rnd64 pw compute b /\ bbeta b = 2 /\ bwmax b = 1 /\ 0 < nb /\
  forall b', rescale_rd rnd64 pw compute b nb <> Ok b'.
Proof.
  intros pw compute. destruct (rescale_cold pw compute) as (b & H1 & H2 & H3 & H4). exists b, cold. repeat (split; [assumption|]). split; [|exact H4].
  apply Rmult_lt_0_compat; [apply (IZR_lt 0 3); reflexivity|apply pow_lt, Rlt_0_2].
Qed.
Print Assumptions C101_every_temperature_refuted.

(** Rescaling a basis to the temperature it has need not give it back: wmax moves to the
    next double. *)
Theorem C101_rescale_to_own_beta_refuted : forall compute, exists b b', built_rd (/ 2 ^ 53) eta64 rnd64 powerRZ compute b /\ is_double (bbeta b) /\ is_double (bwmax b) /\
  rescale_rd rnd64 powerRZ compute b (bbeta b) = Ok b' /\ bwmax b' = bwmax b + / 2 ^ 52.
Proof. exact rescale_own. Qed.
Print Assumptions C101_rescale_to_own_beta_refuted.

(** A basis is determined by its setting and its size: nothing drifts. *)
Theorem C101_determined : forall u eta rd pw compute, rounding u eta rd -> forall b b', built_rd u eta rd pw compute b -> built_rd u eta rd pw compute b' ->
  same_setting b b' -> bsize b' = bsize b -> b' = b.
Proof. exact determined. Qed.
Print Assumptions C101_determined.

(** After any history of slices and rescalings, beta and wmax are those of the last
    rescaling, and statistics, kernel and expansion the original ones. *)
Theorem C101_history : forall u eta rd pw compute, rounding u eta rd -> forall b os b' lam, built_rd u eta rd pw compute b -> klam (bkernel b) = Some lam -> rd lam <> 0 ->
  apply_ops rd pw compute b os = Ok b' ->
  built_rd u eta rd pw compute b' /\ bstat b' = bstat b /\ bkernel b' = bkernel b /\ bsve b' = bsve b /\ (bbeta b', bwmax b') = last_scale rd lam (bbeta b) (bwmax b) os.
Proof. exact history. Qed.
Print Assumptions C101_history.

(** Two histories that end at the same scale and size end at the same basis. *)
Theorem C101_routes : forall u eta rd pw compute, rounding u eta rd -> forall b os1 os2 b1 b2 lam, built_rd u eta rd pw compute b -> klam (bkernel b) = Some lam -> rd lam <> 0 ->
  apply_ops rd pw compute b os1 = Ok b1 -> apply_ops rd pw compute b os2 = Ok b2 ->
  last_scale rd lam (bbeta b) (bwmax b) os1 = last_scale rd lam (bbeta b) (bwmax b) os2 -> bsize b1 = bsize b2 -> b1 = b2.
Proof. exact routes. Qed.
Print Assumptions C101_routes.

(** The significance starts at 1, does not increase and stays between 0 and 1. *)
Theorem C101_significance : forall u eta rd pw compute, rounding u eta rd -> (forall x y, x <= y -> rd x <= rd y) -> forall b, built_rd u eta rd pw compute b ->
  0 < nth 0 (bs b) 0 -> rd 1 = 1 ->
  List.length (significance_rd rd b) = bsize b /\ nth 0 (significance_rd rd b) 0 = 1 /\ nonincreasing (significance_rd rd b) /\ Forall (fun x => 0 <= x <= 1) (significance_rd rd b).
Proof. exact significance_range. Qed.
Print Assumptions C101_significance.

(** Its values are the ratios of the singular values of the expansion, up to four
    roundings. *)
Theorem C101_significance_error : forall u eta rd pw compute, rounding u eta rd -> (forall x y, x <= y -> rd x <= rd y) -> forall b l, built_rd u eta rd pw compute b ->
  0 < u <= / 10000 -> 0 <= eta -> (l < bsize b)%nat -> 0 < nth l (bs b) 0 -> 1000 * eta <= u * nth l (bs b) 0 ->
  let q := nth l (ss (bsve b)) 0 / nth 0 (ss (bsve b)) 0 in
  Rabs (nth l (significance_rd rd b) 0 - q) <= 4 * u * q + eta.
Proof. exact significance_error. Qed.
Print Assumptions C101_significance_error.

(** The product of beta and wmax is next to Lambda of the kernel, whatever happened to
    the basis. *)
Theorem C101_lambda : forall u eta rd pw compute b lam, rounding u eta rd -> 0 < u <= / 10000 -> 0 <= eta -> built_rd u eta rd pw compute b -> klam (bkernel b) = Some lam ->
  Rabs (lam - lambda_rd rd b) <= (1 + 5 * u) * (4 / 10 ^ 16) * Rabs (lambda_rd rd b) + 4 * eta * (1 + Rabs (lambda_rd rd b)).
Proof. exact lambda_near. Qed.
Print Assumptions C101_lambda.

(** The two bases of a pair, and of a basis set, have everything but the statistics and
    uhat in common, and exist whenever the fermionic one exists. *)
Theorem C101_pair : forall rd pw compute beta wmax eps sve f b, finite_temp_bases_rd rd pw compute beta wmax eps sve = Ok (f, b) ->
  bstat f = "F"%string /\ bstat b = "B"%string /\ bbeta f = beta /\ bwmax f = wmax /\ shares f b /\
  match sve with Some r => bsve f = r | None => compute (logistic (rd (beta * wmax))) eps = Ok (bsve f) end.
Proof. exact pair_rd. Qed.
Print Assumptions C101_pair.
Theorem C101_pair_succeeds : forall rd pw compute beta wmax eps r,
  (exists f, basis_init_rd rd pw compute "F" beta wmax eps None None (Some r) = Ok f) <-> (exists fb, finite_temp_bases_rd rd pw compute beta wmax eps (Some r) = Ok fb).
Proof. exact pair_succeeds. Qed.
Print Assumptions C101_pair_succeeds.
Theorem C101_basis_set : forall rd pw compute beta wmax eps sve, basis_set_rd rd pw compute beta wmax eps sve = finite_temp_bases_rd rd pw compute beta wmax eps sve.
Proof. exact set_is_pair. Qed.
Print Assumptions C101_basis_set.

(** Without rounding these are the functions of the exact model. *)
Theorem C101_exact_arithmetic : forall compute b i nb beta wmax eps sve,
  basis_getitem_rd (fun x => x) powerRZ compute b i = basis_getitem compute b i /\ rescale_rd (fun x => x) powerRZ compute b nb = rescale compute b nb /\
  finite_temp_bases_rd (fun x => x) powerRZ compute beta wmax eps sve = finite_temp_bases compute beta wmax eps sve /\
  significance_rd (fun x => x) b = significance b /\ lambda_rd (fun x => x) b = bbeta b * bwmax b.
Proof. exact ops_exact. Qed.
Print Assumptions C101_exact_arithmetic.

(** In doubles, at beta = 5: the slice [:1] of a basis of two functions, and rescaling
    to 5 once and twice. *)
Example C101_case : forall compute, exists b b1 b2, built_rd (/ 2 ^ 53) eta64 rnd64 powerRZ compute b /\ bsize b = 2%nat /\
  basis_getitem_rd rnd64 powerRZ compute b (IdxSlice None (Some (PyInt 1)) None) = Ok b1 /\ bsize b1 = 1%nat /\ first_of_rd 1 b b1 /\
  apply_ops rnd64 powerRZ compute b [Rescaled 5; Rescaled 5] = Ok b2 /\ apply_ops rnd64 powerRZ compute b [Rescaled 5] = Ok b2 /\ bsize b2 = 2%nat.
Proof. exact ex_ops. Qed.

(** In doubles: a basis that meets the conditions on the significance. *)
Example C101_case_significance : forall compute, exists b, built_rd (/ 2 ^ 53) eta64 rnd64 powerRZ compute b /\ bsize b = 2%nat /\ 0 < nth 0 (bs b) 0 /\ 1000 * eta64 <= / 2 ^ 53 * nth 0 (bs b) 0 /\ rnd64 1 = 1 /\
  (forall x y, x <= y -> rnd64 x <= rnd64 y).
Proof. exact ex_signif. Qed.
