(** Model of default Matsubara frequencies (basis.py:178-183), of TauSampling and
    MatsubaraSampling objects made without sampling points (sampling.py:122-134,
    169-190) and of FiniteTempBasisSet (basis_set.py).  [None] is a search that
    does not end; the booleans say whether a UserWarning about the number of
    points is issued. *)
From Coq Require Import String ZArith Arith Bool Reals.
From Coquelicot Require Import Coquelicot.
From Coq Require Import List.
From Verif.Model Require Import Base Util Num Roots Matsubara Poly FT SVE Basis Kernel Augment NDArray Sampling DLR.
Import ListNotations.
Open Scope R_scope.

(** What follows a computation that may fail to end or raise. *)
Definition after {A B} (r : option (res A)) (k : A -> option (res B)) : option (res B) :=
  match r with None => None | Some (Raise e) => Some (Raise e) | Some (Ok a) => k a end.

(** uhat.freq, as _default_matsubara_sampling_points and poly.py:217 see it; with
    'any' zeta is None and 2 * n + None a TypeError. *)
Definition search_freq (q : ftfreq) : res freq :=
  match q with FAny => Raise TypeError | FEven => Ok Even | FOdd => Ok Odd end.

(** poly.py:271-299, the function n -> part(uhat_l(2 n + zeta)) that sign_changes
    and extrema of a single function search.  A call never fails for frequencies
    of the right parity but for the shape of the data, which is tested here. *)
Definition searched (f : ft) : res (Z -> R) :=
  match fcols f with
  | [c] =>
      do q <- search_freq (ffreq f);
      do part <- func_part (csym c) (ft_zeta (ffreq f));
      do _ <- ft_call f [zeta q];
      Ok (fun n => let v := match ft_call f [2 * n + zeta q]%Z with Ok [[v]] => v | _ => RtoC 0 end in
                   match part with RealPart => Re v | ImagPart => Im v end)
  | _ => Raise ValueError
  end.
Definition searched_item (f : ft) (l : Z) : res (Z -> R) := do p <- ft_item f l; searched p.

(** basis.py:260-295 applied to _uhat_full: only the function it selects is
    looked at. *)
Definition uhat_default (fuel : nat) (grid : list Z) (f : ft) (L : nat) (positive_only : bool)
  : option (res (list Z * bool)) :=
  after (Some (search_freq (ffreq f))) (fun q =>
  let n := List.length (fcols f) in
  let lr := l_requested q L in
  after (Some (searched_item f (if (lr <? n)%nat then Z.of_nat lr else (-1)%Z))) (fun _ =>
  let total l := match searched_item f (Z.of_nat l) with Ok g => g | Raise _ => fun _ => 0 end in
  default_matsubara fuel grid q (map total (seq 0 n)) L false positive_only)).

(** basis.py:178-183, default_matsubara_sampling_points; npoints is not negative. *)
Definition basis_matsubara (fuel : nat) (grid : list Z) (b : basis) (npoints : option nat) (positive_only : bool)
  : option (res (list Z * bool)) :=
  uhat_default fuel grid (buhat_full b) (match npoints with None => bsize b | Some n => n end) positive_only.
(** augment.py:118-123, the same of AugmentedBasis, and dlr.py:124-125. *)
Definition aug_matsubara (fuel : nat) (grid : list Z) (a : augbasis) (npoints : option nat) (positive_only : bool)
  : option (res (list Z * bool)) :=
  basis_matsubara fuel grid (abasis a) (Some (match npoints with None => augsize a | Some n => n end)) positive_only.
Definition dlr_matsubara (fuel : nat) (grid : list Z) (d : dlr) (npoints : option nat) (positive_only : bool)
  : option (res (list Z * bool)) :=
  basis_matsubara fuel grid (dl_basis d) npoints positive_only.
(** dlr.py:121-122 *)
Definition dlr_default_tau (rnd : R -> R) (fuel : nat) (d : dlr) : option (res (list R * bool)) :=
  default_tau rnd fuel (dl_basis d) None.

(** sampling.py:122-134, TauSampling(basis): [points] is what
    basis.default_tau_sampling_points() gives. *)
Definition tau_of_points (svd : mat -> svd_result) (b : sbasis) (points : option (res (list R * bool)))
  : option (res (tsampling * bool)) :=
  after points (fun '(p, w) => Some (do s <- tau_sampling svd b p; Ok (s, w))).
Definition tau_default (rnd : R -> R) (fuel : nat) (svd : mat -> svd_result) (b : basis) :=
  tau_of_points svd (sb_of_basis b) (default_tau rnd fuel b None).
Definition tau_default_aug (rnd : R -> R) (fuel : nat) (svd : mat -> svd_result) (a : augbasis) :=
  tau_of_points svd (sb_of_aug true a) (aug_default_tau rnd fuel a None).
Definition tau_default_dlr (rnd : R -> R) (fuel : nat) (svd : mat -> svd_result) (f : tfun) (d : dlr) :=
  tau_of_points svd (sb_of_dlr f d) (dlr_default_tau rnd fuel d).

(** sampling.py:169-190, MatsubaraSampling(basis, positive_only=...): the default
    points are neither checked nor sorted. *)
Definition mats_of_points (svd : mat -> svd_result) (b : sbasis) (positive_only : bool)
           (points : option (res (list Z * bool))) : option (res (msampling * bool)) :=
  after points (fun '(p, w) => Some (do s <- matsubara_sampling svd b p positive_only; Ok (s, w))).
Definition mats_default (fuel : nat) (grid : list Z) (svd : mat -> svd_result) (b : basis) (positive_only : bool) :=
  mats_of_points svd (sb_of_basis b) positive_only (basis_matsubara fuel grid b None positive_only).
Definition mats_default_aug (fuel : nat) (grid : list Z) (svd : mat -> svd_result) (a : augbasis) (positive_only : bool) :=
  mats_of_points svd (sb_of_aug true a) positive_only (aug_matsubara fuel grid a None positive_only).
Definition mats_default_dlr (fuel : nat) (grid : list Z) (svd : mat -> svd_result) (f : tfun) (d : dlr)
           (positive_only : bool) :=
  mats_of_points svd (sb_of_dlr f d) positive_only (dlr_matsubara fuel grid d None positive_only).

(** basis_set.py:7-49, FiniteTempBasisSet. *)
Record bset := BSet {
  set_basis_f : basis; set_basis_b : basis;
  set_tau_f : tsampling; set_tau_b : tsampling;
  set_wn_f : msampling; set_wn_b : msampling }.
Definition basis_set_init (compute : kern -> option R -> res sve_result) (svd : mat -> svd_result)
           (rnd : R -> R) (fuel : nat) (grid : list Z) (beta wmax : R) (eps : option R) (sve : option sve_result)
  : option (res bset) :=
  after (Some (basis_set compute beta wmax eps sve)) (fun '(f, b) =>
  after (tau_default rnd fuel svd f) (fun tf =>
  after (tau_default rnd fuel svd b) (fun tb =>
  after (mats_default fuel grid svd f false) (fun wf =>
  after (mats_default fuel grid svd b false) (fun wb =>
  Some (Ok (BSet f b (fst tf) (fst tb) (fst wf) (fst wb)))))))).

(** basis_set.py:51-89, the attributes. *)
Definition set_lambda (s : bset) : R := bbeta (set_basis_f s) * bwmax (set_basis_f s).
Definition set_beta (s : bset) : R := bbeta (set_basis_f s).
Definition set_wmax (s : bset) : R := bwmax (set_basis_f s).
Definition set_accuracy (s : bset) : R := bacc (set_basis_f s).
Definition set_sve (s : bset) : sve_result := bsve (set_basis_f s).
Definition set_tau (s : bset) : list R := ts_points (set_tau_f s).
Definition set_wn_points_f (s : bset) : list Z := ms_points (set_wn_f s).
Definition set_wn_points_b (s : bset) : list Z := ms_points (set_wn_b s).
