(** C27 (basis level), C45-C48, C50-C52: finite-temperature bases.  [compute] is
    an arbitrary computation of the singular value expansion. *)
From Coq Require Import Reals ZArith Arith Bool Lra Lia String.
From Coquelicot Require Import Coquelicot.
From Coq Require Import List Sorting.Sorted.
From Verif.Model Require Import Base Util Num Poly FT SVE Basis.
From Verif.Spec Require Import SRoots SPoly SFT SSVE SBasis.
From Verif.Proofs Require Import PPolyExamples BasisInit BasisProps BasisOps BasisPhys BasisPoints SVEPolicy.
Import ListNotations.
Open Scope R_scope.
Notation length := List.length.

(** C27: uhat[l](n) is the Fourier integral of u[l] over [0, beta] for all
    frequencies below the threshold 40 Lambda. *)
Theorem C27_basis_uhat :
  forall compute b, built compute b ->
  forall lam l f ns M j n, klam (bkernel b) = Some lam -> ft_call (buhat b) ns = Ok M ->
  (l < bsize b)%nat -> nth_error ns j = Some n -> Rabs (IZR n) < 40 * lam -> represents (bu b) l f ->
  exists v, entry M l j = Some v /\ is_fourier (fun t => PI * IZR n * t / bbeta b) f 0 (bbeta b) v.
Proof. exact uhat_phys. Qed.
Print Assumptions C27_basis_uhat.

(** C45: the functions in physical variables. *)
Theorem C45_u :
  forall compute b, built compute b -> forall l f, (l < bsize b)%nat -> represents (su (bsve b)) l f ->
  represents (bu b) l (fun t => sqrt (2 / bbeta b) * f (2 * t / bbeta b - 1)).
Proof. exact u_phys. Qed.
Print Assumptions C45_u.

Theorem C45_v :
  forall compute b, built compute b -> forall l f, (l < bsize b)%nat -> represents (sv (bsve b)) l f ->
  represents (bv b) l (fun w => f (w / bwmax b) / sqrt (bwmax b)).
Proof. exact v_phys. Qed.
Print Assumptions C45_v.

Theorem C45_intervals :
  forall compute b, built compute b ->
  (gxmin (vgeom (bu b)) = 0 /\ gxmax (vgeom (bu b)) = bbeta b) /\
  (gxmin (vgeom (bv b)) = - bwmax b /\ gxmax (vgeom (bv b)) = bwmax b).
Proof. intros compute b H. split; [apply (bu_range compute b H)|apply (bv_range compute b H)]. Qed.
Print Assumptions C45_intervals.

(** C45: inner products (in particular orthonormality) carry over. *)
Theorem C45_u_inner_products :
  forall compute b, built compute b -> forall l m f g F G I, (l < bsize b)%nat -> (m < bsize b)%nat ->
  represents (su (bsve b)) l f -> represents (su (bsve b)) m g -> represents (bu b) l F -> represents (bu b) m G ->
  is_RInt (fun x => f x * g x) (-1) 1 I -> is_RInt (fun t => F t * G t) 0 (bbeta b) I.
Proof. exact u_overlap. Qed.
Print Assumptions C45_u_inner_products.

Theorem C45_v_inner_products :
  forall compute b, built compute b -> forall l m f g F G I, (l < bsize b)%nat -> (m < bsize b)%nat ->
  represents (sv (bsve b)) l f -> represents (sv (bsve b)) m g -> represents (bv b) l F -> represents (bv b) m G ->
  is_RInt (fun y => f y * g y) (-1) 1 I -> is_RInt (fun w => F w * G w) (- bwmax b) (bwmax b) I.
Proof. exact v_overlap. Qed.
Print Assumptions C45_v_inner_products.

(** C45: the expansion. *)
Theorem C45_expansion :
  forall compute b, built compute b -> forall t w (f g F G : nat -> R -> R),
  0 <= t <= bbeta b -> - bwmax b <= w <= bwmax b ->
  (forall l, (l < bsize b)%nat -> represents (su (bsve b)) l (f l) /\ represents (sv (bsve b)) l (g l) /\
                                  represents (bu b) l (F l) /\ represents (bv b) l (G l)) ->
  sumn (bsize b) (fun l => nth l (bs b) 0 * F l t * G l w) =
  powerRZ (bwmax b) (- kyp (bkernel b)) *
  sumn (bsize b) (fun l => sval (bsve b) l * f l (2 * t / bbeta b - 1) * g l (w / bwmax b)).
Proof. exact expansion. Qed.
Print Assumptions C45_expansion.

(** Every function of the SVE has a representation, so that the theorems apply. *)
Example C45_hypotheses_met :
  exists b, built no_compute b /\ bsize b = 2%nat /\
    (forall l, (l < 2)%nat -> (exists f, represents (su (bsve b)) l f) /\ (exists f, represents (sv (bsve b)) l f)).
Proof.
  destruct (ex_basis (1 / 10) (1 / 10) ltac:(lra)) as (b & _ & Hb & Hr & Hs).
  rewrite (proj1 (ex_nabove _)) in Hs by lra. exists b. split; auto. split; auto. intros l Hl.
  split; [apply (su_represents no_compute b Hb)|apply (sv_represents no_compute b Hb)]; rewrite Hr; simpl; lia.
Qed.

(** C46 *)
Theorem C46_accuracy_and_significance :
  forall compute b, built compute b ->
  let r := bsve b in let n := bsize b in let N := length (ss r) in
  (0 < n <= N)%nat /\
  ((n < N)%nat -> bacc b = sval r n / sval r 0 /\ forall j, (n <= j < N)%nat -> sval r j / sval r 0 <= bacc b) /\
  (n = N -> bacc b = sval r (N - 1) / sval r 0) /\ 0 < bacc b <= 1 /\
  significance b = map (fun s => s / sval r 0) (firstn n (ss r)) /\
  nth_error (significance b) 0 = Some 1 /\ nonincreasing (significance b).
Proof. exact basis_accuracy. Qed.
Print Assumptions C46_accuracy_and_significance.

Example C46_hypotheses_met :
  exists b, built no_compute b /\ bsize b = 1%nat /\ length (ss (bsve b)) = 2%nat /\ bacc b = 1 / 2.
Proof.
  destruct (ex_basis (9 / 10) (1 / 10) ltac:(lra)) as (b & _ & Hb & Hr & Hs).
  rewrite (proj2 (ex_nabove _)) in Hs by lra. exists b. split; auto. split; auto.
  destruct (basis_accuracy no_compute b Hb) as (_ & H & _). rewrite Hr, Hs in *. split; [reflexivity|].
  destruct (H ltac:(simpl; lia)) as [-> _]. unfold sval. simpl. field.
Qed.

(** C47: size and content of basis[:stop]; N is the number of singular values
    above the accuracy of the stored expansion. *)
Theorem C47_slice :
  forall compute b e i stop, built compute b -> seps (bsve b) = Some e -> e <= 1 -> prefix_slice i stop ->
  (stop = None \/ exists z, stop = Some (PyInt z) /\ (0 < z)%Z) ->
  let N := nabove e (ss (bsve b)) in
  let n := match stop with Some (PyInt z) => Nat.min (Z.to_nat z) N | _ => N end in
  exists b', basis_getitem compute b i = Ok b' /\ built compute b' /\ bsize b' = n /\ same_setting b b' /\
    ((n <= bsize b)%nat -> first_of n b b') /\ ((bsize b <= n)%nat -> first_of (bsize b) b' b).
Proof. exact slice_size. Qed.
Print Assumptions C47_slice.

(** C47: zero and negative bounds. *)
Theorem C47_nonpositive_bound :
  forall compute b e i z, built compute b -> seps (bsve b) = Some e -> (z <= 0)%Z ->
  prefix_slice i (Some (PyInt z)) ->
  let n := (Z.of_nat (length (ss (bsve b))) + z)%Z in
  ((z < 0)%Z -> (0 < n)%Z -> exists b', basis_getitem compute b i = Ok b' /\ bsize b' = Z.to_nat n /\ same_setting b b') /\
  (z = 0%Z \/ (n <= 0)%Z -> basis_getitem compute b i = Raise IndexError).
Proof. exact slice_nonpositive. Qed.
Print Assumptions C47_nonpositive_bound.

(** C47: integers and slices that are not prefixes. *)
Theorem C47_rejected :
  forall compute b i,
  ((exists z, i = IdxInt z) \/
   (exists start stop step, i = IdxSlice start stop step /\
      ((exists a, start = Some a /\ a <> 0%Z) \/ (exists a, step = Some a /\ a <> 1%Z)))) ->
  basis_getitem compute b i = Raise ValueError.
Proof. exact slice_rejected. Qed.
Print Assumptions C47_rejected.

(** C47: in a sequence of slicings only the last counts. *)
Theorem C47_sequences :
  forall compute is b i b', built compute b -> getitems compute b (is ++ [i]) = Ok b' ->
  basis_getitem compute b i = Ok b'.
Proof. exact slices_last. Qed.
Print Assumptions C47_sequences.

(** C47: basis[:] can be larger than the basis. *)
Theorem C47_slice_never_enlarges_refuted :
  exists b b', built no_compute b /\ bsize b = 1%nat /\
  basis_getitem no_compute b (IdxSlice None None None) = Ok b' /\ bsize b' = 2%nat.
Proof. exact slice_enlarges. Qed.
Print Assumptions C47_slice_never_enlarges_refuted.

Example C47_hypotheses_met :
  exists b, built no_compute b /\ seps (bsve b) = Some (1 / 10) /\ nabove (1 / 10) (ss (bsve b)) = 2%nat /\
    prefix_slice (IdxSlice (Some 0%Z) (Some (PyInt 1)) None) (Some (PyInt 1)).
Proof.
  destruct (ex_basis (1 / 10) (1 / 10) ltac:(lra)) as (b & _ & Hb & Hr & Hs). exists b. rewrite Hr.
  split; auto. split; auto. split; [apply ex_nabove; lra|]. exists (Some 0%Z), None. auto.
Qed.

(** C48 *)
Theorem C48_rescale :
  forall compute b e nb, built compute b -> seps (bsve b) = Some e -> e <= 1 -> 0 < nb ->
  exists b' lam, rescale compute b nb = Ok b' /\ built compute b' /\ klam (bkernel b) = Some lam /\
    bbeta b' = nb /\ bbeta b' * bwmax b' = lam /\ bstat b' = bstat b /\ bkernel b' = bkernel b /\ bsve b' = bsve b /\
    bsize b' = Nat.min (bsize b) (nabove e (ss (bsve b))).
Proof. exact rescale_ok. Qed.
Print Assumptions C48_rescale.

Theorem C48_sequences :
  forall compute ts b e, built compute b -> seps (bsve b) = Some e -> e <= 1 -> Forall (fun t => 0 < t) ts ->
  ts <> [] -> exists b' lam, rescales compute b ts = Ok b' /\ built compute b' /\ klam (bkernel b) = Some lam /\
    bbeta b' = last ts 0 /\ bbeta b' * bwmax b' = lam /\ bstat b' = bstat b /\ bkernel b' = bkernel b /\
    bsve b' = bsve b /\ bsize b' = Nat.min (bsize b) (nabove e (ss (bsve b))).
Proof. exact rescales_size. Qed.
Print Assumptions C48_sequences.

Theorem C48_errors :
  forall compute b nb, built compute b ->
  (nb = 0 -> rescale compute b nb = Raise ZeroDivisionError) /\ (nb < 0 -> rescale compute b nb = Raise ValueError).
Proof. exact rescale_errors. Qed.
Print Assumptions C48_errors.

Theorem C48_size_always_kept_refuted :
  exists b b', built no_compute b /\ bsize b = 2%nat /\
  rescale no_compute b 5 = Ok b' /\ bsize b' = 1%nat.
Proof. exact rescale_shrinks. Qed.
Print Assumptions C48_size_always_kept_refuted.

Example C48_hypotheses_met :
  exists b, built no_compute b /\ seps (bsve b) = Some (1 / 10) /\ bsize b = 2%nat /\ nabove (1 / 10) (ss (bsve b)) = 2%nat.
Proof.
  destruct (ex_basis (1 / 10) (1 / 10) ltac:(lra)) as (b & _ & Hb & Hr & Hs). exists b. rewrite Hr, Hs.
  split; auto. split; auto. split; apply ex_nabove; lra.
Qed.

(** C50: default sampling points (exact arithmetic). *)
Theorem C50_tau_points :
  forall compute b n p, built compute b -> points_source (su (bsve b)) n p -> regular p ->
  ((length (vcols (su (bsve b))) <= n)%nat -> nonzero_ends p) ->
  exists pts w, ends_with (fun fuel => default_tau (fun x => x) fuel b (Some (Z.of_nat n))) (Ok (pts, w)) /\
    StronglySorted Rlt pts /\ Forall (fun t => 0 <= t <= bbeta b) pts /\
    (nonzero_ends p -> Forall (fun t => 0 < t < bbeta b) pts) /\ (w = true <-> length pts <> n).
Proof. exact tau_points. Qed.
Print Assumptions C50_tau_points.

Theorem C50_omega_points :
  forall compute b n p, built compute b -> points_source (sv (bsve b)) n p -> regular p ->
  ((length (vcols (sv (bsve b))) <= n)%nat -> nonzero_ends p) ->
  exists pts w, ends_with (fun fuel => default_omega (fun x => x) fuel b (Some (Z.of_nat n))) (Ok (pts, w)) /\
    StronglySorted Rlt pts /\ Forall (fun w => - bwmax b <= w <= bwmax b) pts /\
    (nonzero_ends p -> Forall (fun w => - bwmax b < w < bwmax b) pts) /\ (w = true <-> length pts <> n).
Proof. exact omega_points. Qed.
Print Assumptions C50_omega_points.

Theorem C50_default_number :
  forall rnd fuel b,
  default_tau rnd fuel b None = default_tau rnd fuel b (Some (Z.of_nat (bsize b))) /\
  default_omega rnd fuel b None = default_omega rnd fuel b (Some (Z.of_nat (bsize b))).
Proof. exact default_number. Qed.
Print Assumptions C50_default_number.

(** Without [regular] the points need not be distinct. *)
Theorem C50_points_distinct_refuted :
  exists b pts w, built no_compute b /\
  ends_with (fun fuel => default_tau (fun x => x) fuel b (Some 1%Z)) (Ok (pts, w)) /\ ~ NoDup pts.
Proof. exact points_repeated. Qed.
Print Assumptions C50_points_distinct_refuted.

Example C50_hypotheses_met :
  exists b, built no_compute b /\ points_source (su (bsve b)) 1 (SPoly unit_geom line_col) /\
    regular (SPoly unit_geom line_col).
Proof.
  destruct (ex_basis (1 / 10) (1 / 10) ltac:(lra)) as (b & _ & Hb & Hr & Hs). exists b. rewrite Hr.
  split; auto. split; [reflexivity|]. split; [simpl; auto|]. simpl. lra.
Qed.

(** C51: rejected arguments. *)
Theorem C51_rejects :
  forall compute st beta wmax eps ms ker sve,
  beta <= 0 \/ wmax < 0 \/ ~ In st [""; "B"; "F"; "BF"]%string \/
  (exists k l, ker = Some k /\ klam k = Some l /\ 4 / 10 ^ 16 * Rabs (beta * wmax) < Rabs (l - beta * wmax)) ->
  basis_init compute st beta wmax eps ms ker sve = Raise ValueError.
Proof. exact init_rejects. Qed.
Print Assumptions C51_rejects.

(** C51: accepted arguments; any well-formed expansion is accepted, whatever
    Lambda it was computed for. *)
Theorem C51_accepts :
  forall compute st beta wmax eps ms ker r e, 0 < beta -> 0 < wmax -> st = "F"%string \/ st = "B"%string ->
  (ker = None \/ exists k l, ker = Some k /\ klam k = Some l /\ Rabs (l - beta * wmax) <= 4 / 10 ^ 16 * Rabs (beta * wmax)) ->
  sve_ok r -> eff_eps eps (seps r) = Some e -> e <= 1 ->
  ms = None \/ (exists z, ms = Some (PyInt z) /\ (0 < z)%Z) ->
  exists b, basis_init compute st beta wmax eps ms ker (Some r) = Ok b /\ built compute b /\
    bstat b = st /\ bbeta b = beta /\ bwmax b = wmax /\ bsve b = r /\
    bkernel b = match ker with None => logistic (beta * wmax) | Some k => k end /\
    bsize b = match ms with Some (PyInt z) => Nat.min (Z.to_nat z) (nabove e (ss r)) | _ => nabove e (ss r) end.
Proof. exact init_accepts. Qed.
Print Assumptions C51_accepts.

(** C51: '' and 'BF' pass the test for substrings. *)
Theorem C51_substring_keyerror :
  forall compute st beta wmax eps ms ker r e, 0 < beta -> 0 < wmax -> st = ""%string \/ st = "BF"%string ->
  (ker = None \/ exists k l, ker = Some k /\ klam k = Some l /\ Rabs (l - beta * wmax) <= 4 / 10 ^ 16 * Rabs (beta * wmax)) ->
  sve_ok r -> eff_eps eps (seps r) = Some e -> e <= 1 ->
  ms = None \/ (exists z, ms = Some (PyInt z) /\ (0 < z)%Z) ->
  basis_init compute st beta wmax eps ms ker (Some r) = Raise KeyError.
Proof. exact init_keyerror. Qed.
Print Assumptions C51_substring_keyerror.

(** C51: kernels without Lambda pass _get_kernel and fail later. *)
Theorem C51_kernel_without_lambda :
  forall compute st beta wmax eps ms k r e, 0 < beta -> 0 < wmax -> In st [""; "B"; "F"; "BF"]%string ->
  klam k = None -> sve_ok r -> eff_eps eps (seps r) = Some e -> e <= 1 ->
  ms = None \/ (exists z, ms = Some (PyInt z) /\ (0 < z)%Z) ->
  basis_init compute st beta wmax eps ms (Some k) (Some r) = Raise AttributeError.
Proof. exact init_no_lambda. Qed.
Print Assumptions C51_kernel_without_lambda.

Example C51_hypotheses_met : sve_ok (ex_sve (1 / 10)) /\ eff_eps None (seps (ex_sve (1 / 10))) = Some (1 / 10).
Proof. split; [apply ex_sve_ok|reflexivity]. Qed.

(** C52 *)
Theorem C52_pair_shares :
  forall compute beta wmax eps sve f b, 0 < wmax -> finite_temp_bases compute beta wmax eps sve = Ok (f, b) ->
  sve_ok (bsve f) ->
  (bstat f = "F"%string /\ bstat b = "B"%string /\ bbeta f = bbeta b /\ bwmax f = bwmax b /\
   bsve f = bsve b /\ bu f = bu b /\ bs f = bs b /\ bv f = bv b /\ bacc f = bacc b /\
   ffreq (buhat f) = FOdd /\ ffreq (buhat b) = FEven /\
   (forall rnd fuel npoints, default_tau rnd fuel f npoints = default_tau rnd fuel b npoints /\
                             default_omega rnd fuel f npoints = default_omega rnd fuel b npoints)) /\
  bbeta f = beta /\ bwmax f = wmax /\
  match sve with Some r => bsve f = r | None => compute (logistic (beta * wmax)) eps = Ok (bsve f) end.
Proof. exact pair_shares. Qed.
Print Assumptions C52_pair_shares.

Theorem C52_pair_exists :
  forall compute beta wmax eps sve r e, 0 < beta -> 0 < wmax ->
  match sve with Some r => Ok r | None => compute (logistic (beta * wmax)) eps end = Ok r -> sve_ok r ->
  eff_eps eps (seps r) = Some e -> e <= 1 ->
  exists f b, finite_temp_bases compute beta wmax eps sve = Ok (f, b) /\ bsve f = r.
Proof. exact pair_exists. Qed.
Print Assumptions C52_pair_exists.

Theorem C52_basis_set :
  forall compute beta wmax eps sve,
  basis_set compute beta wmax eps sve = finite_temp_bases compute beta wmax eps sve.
Proof. exact basis_set_pair. Qed.
Print Assumptions C52_basis_set.

Example C52_hypotheses_met :
  exists f b, finite_temp_bases no_compute 2 3 None (Some (ex_sve (1 / 10))) = Ok (f, b) /\ sve_ok (bsve f).
Proof.
  destruct (pair_exists no_compute 2 3 None (Some (ex_sve (1 / 10))) (ex_sve (1 / 10)) (1 / 10)) as (f & b & H & Hr);
    try lra; try reflexivity; [apply ex_sve_ok|]. exists f, b. split; auto. rewrite Hr. apply ex_sve_ok.
Qed.
